(** A run of the Loihi protocol has no races if nobody requests a pause or a stop and the program waits for the answers. *)
From Coq Require Import List Arith Bool Lia Permutation.
From Verif Require Import Kahn_Model Kahn_Spec Kahn_Proofs.
Import ListNotations.

Section Chan.
Context {V L : Type}.
Lemma chan_of_after (N : net V L) s p l' o c : doable N s o ->
  chan_of (after s p l' o) c =
  match o with
  | OPop c' => if c' =? c then tl (chan_of s c) else chan_of s c
  | OPush c' v => if c' =? c then chan_of s c ++ [v] else chan_of s c
  | ONone => chan_of s c
  end.
Proof.
  intros D. destruct o as [|c'|c' v]; [reflexivity| |]; unfold chan_of at 1; cbn [after chan apply_op fst]; rewrite nth_upd; destruct (Nat.eqb_spec c' c) as [->|]; try reflexivity; cbn in D.
  - destruct D as (w & q & H). destruct (chan_nth _ _ _ H) as [_ ->]. reflexivity.
  - destruct D as (q & H & _). destruct (chan_nth _ _ _ H) as [_ ->]. reflexivity.
Qed.
Lemma chan_len (s : st V L) p l' o : length (chan (after s p l' o)) = length (chan s).
Proof. destruct o; cbn [after chan apply_op fst]; rewrite ?upd_length; reflexivity. Qed.
Lemma step1_sound (N : net V L) s p s' : step1 N s p = Some s' -> step N s p s'.
Proof.
  unfold step1. destruct (nth_error (loc s) p) as [l|] eqn:El; [|discriminate]. destruct (fire1 N s p l) as [[l' o]|] eqn:F; [|discriminate]. intros E. injection E as <-.
  econstructor; [exact El|]. unfold fire1 in F. destruct (code N p l) as [c k|c k|c v l''|c k|cs k|l''|] eqn:E.
  - destruct (nth_error (chan s) c) as [[|v q]|] eqn:Q; try discriminate F. injection F as <- <-. eapply f_recv; eauto.
  - destruct (nth_error (chan s) c) as [[|v q]|] eqn:Q; try discriminate F. injection F as <- <-. eapply f_peek; eauto.
  - destruct (nth_error (chan s) c) as [q|] eqn:Q; try discriminate F. destruct (length q <? cap N c) eqn:H; [|discriminate F]. injection F as <- <-. apply Nat.ltb_lt in H. eapply f_send; eauto.
  - destruct (nth_error (chan s) c) as [[|v q]|] eqn:Q; injection F as <- <-; [eapply f_probe_f|eapply f_probe_t|eapply f_probe_f]; eauto.
  - destruct (find _ cs) as [c|] eqn:Q; [|discriminate F]. injection F as <- <-. apply find_some in Q. destruct Q as [Q1 Q2]. destruct (nth_error (chan s) c) as [[|v q]|] eqn:Q; try discriminate Q2. eapply f_select; eauto.
  - injection F as <- <-. apply f_tau. auto.
  - discriminate F.
Qed.
Lemma step1_complete (N : net V L) s p : step1 N s p = None -> forall s', ~ step N s p s'.
Proof.
  intros H s' [l l' o El F]. unfold step1 in H. rewrite El in H. destruct (fire1 N s p l) as [[]|] eqn:Q; [discriminate H|]. unfold fire1 in Q.
  destruct F as [c k v q E Hc|c k v q E Hc|c v l'' q E Hc Hl|c k v q E Hc|c k E|cs c k v q E Hin Hc|l'' E]; rewrite E in Q; try (rewrite Hc in Q); try discriminate Q.
  - apply Nat.ltb_lt in Hl. rewrite Hl in Q. discriminate Q.
  - destruct (nth_error (chan s) c) as [[|]|]; discriminate Q.
  - destruct (find _ cs) as [c'|] eqn:Fd; [discriminate Q|]. apply (find_none _ _ Fd) in Hin. rewrite Hc in Hin. discriminate Hin.
Qed.
Lemma runs_sound (N : net V L) ps s t : runs N s ps = Some t -> exec N s ps t.
Proof.
  revert s. induction ps as [|p ps IH]; intros s H; cbn in H; [injection H as <-; constructor|].
  destruct (step1 N s p) as [s1|] eqn:E; [|discriminate H]. econstructor; [apply step1_sound; eauto|auto].
Qed.
Lemma prio_sound (N : net V L) prio fuel s : reachable N s (prio_run N prio s fuel).
Proof.
  revert s. induction fuel as [|f IH]; intros s; cbn [prio_run]; [exists []; constructor|].
  destruct (find _ prio) as [p|]; [|exists []; constructor]. destruct (step1 N s p) as [s1|] eqn:E; [|exists []; constructor].
  destruct (IH s1) as (ps & H). exists (p :: ps). econstructor; [apply step1_sound; eauto|auto].
Qed.
Definition stuckb (N : net V L) (s : st V L) : bool := forallb (fun p => match step1 N s p with None => true | Some _ => false end) (seq 0 (length (loc s))).
Lemma stuckb_sound (N : net V L) s : stuckb N s = true -> stuck N s.
Proof.
  intros H p s' St. unfold stuckb in H. rewrite forallb_forall in H. assert (p < length (loc s)) as Hp by (destruct St as [l l' o El F]; apply nth_error_Some; congruence).
  specialize (H p ltac:(apply in_seq; lia)). destruct (step1 N s p) eqn:E; [discriminate H|]. eapply step1_complete; eauto.
Qed.
End Chan.

Section Loihi.
Context {D U R : Type}.
Variables (W : loihi D U R) (size : nat) (usrc udst : nat -> nat).
Notation NP := (np _ _ _ W).
Notation NC := (nc _ _ _ W).
Notation net := (loihi_net D U R W size).
Notation tsvc := (to_svc D U R W).
Notation trt := (to_rt D U R W).
Notation tproc := (to_proc D U R W).
Notation fproc := (from_proc D U R W).

Hypothesis HU : user_wired W usrc udst.
Hypothesis HR : no_requests W.

Definition lsrc (c : nat) : nat :=
  if c <? NC then usrc c else if c =? tsvc then S NP else if c =? trt then NP else if Nat.even (c - NC) then NP else Nat.div2 (c - NC).
Definition ldst (c : nat) : nat :=
  if c <? NC then udst c else if c =? tsvc then NP else if c =? trt then S NP else if Nat.even (c - NC) then Nat.div2 (c - NC) else NP.
Ltac nats := repeat match goal with
  | |- context[?a <? ?b] => destruct (Nat.ltb_spec a b); try lia
  | |- context[?a =? ?b] => destruct (Nat.eqb_spec a b); try lia
  end.
Lemma even_2 i : Nat.even (2 * i) = true. Proof using. apply Nat.even_spec. exists i. lia. Qed.
Lemma odd_2 i : Nat.even (2 * i + 1) = false. Proof using. rewrite Nat.even_add, even_2. reflexivity. Qed.
Lemma div2_even i : Nat.div2 (2 * i) = i. Proof using. apply Nat.div2_double. Qed.
Lemma div2_odd i : Nat.div2 (2 * i + 1) = i. Proof using. replace (2 * i + 1) with (S (2 * i)) by lia. apply Nat.div2_succ_double. Qed.
Lemma src_tproc i : i < NP -> lsrc (tproc i) = NP.
Proof using. intros H. unfold lsrc, to_proc, to_svc, to_rt. nats. replace (NC + 2 * i - NC) with (2 * i) by lia. rewrite even_2. reflexivity. Qed.
Lemma dst_tproc i : i < NP -> ldst (tproc i) = i.
Proof using. intros H. unfold ldst, to_proc, to_svc, to_rt. nats. replace (NC + 2 * i - NC) with (2 * i) by lia. rewrite even_2. apply div2_even. Qed.
Lemma src_fproc i : i < NP -> lsrc (fproc i) = i.
Proof using. intros H. unfold lsrc, from_proc, to_svc, to_rt. nats. replace (NC + 2 * i + 1 - NC) with (2 * i + 1) by lia. rewrite odd_2. apply div2_odd. Qed.
Lemma dst_fproc i : i < NP -> ldst (fproc i) = NP.
Proof using. intros H. unfold ldst, from_proc, to_svc, to_rt. nats. replace (NC + 2 * i + 1 - NC) with (2 * i + 1) by lia. rewrite odd_2. reflexivity. Qed.
Lemma src_tsvc : lsrc tsvc = S NP. Proof using. unfold lsrc, to_svc, to_rt. nats; reflexivity. Qed.
Lemma dst_tsvc : ldst tsvc = NP. Proof using. unfold ldst, to_svc, to_rt. nats; reflexivity. Qed.
Lemma src_trt : lsrc trt = NP. Proof using. unfold lsrc, to_svc, to_rt. nats; reflexivity. Qed.
Lemma dst_trt : ldst trt = S NP. Proof using. unfold ldst, to_svc, to_rt. nats; reflexivity. Qed.
Lemma src_user c : c < NC -> lsrc c = usrc c. Proof using. intros H. unfold lsrc. nats; reflexivity. Qed.
Lemma dst_user c : c < NC -> ldst c = udst c. Proof using. intros H. unfold ldst. nats; reflexivity. Qed.

Lemma loihi_wired : wired net lsrc ldst.
Proof using HU.
  intros p l. cbn [code loihi_net]. unfold loihi_code. destruct l as [x|v pc|x].
  - destruct (Nat.ltb_spec p NP) as [Hp|]; [|exact I]. destruct x as [u|u|ph u|r b u|u]; cbn [proc_code]; try exact I.
    + intros c [<-|[]]. apply dst_tproc. auto.
    + apply dst_tproc. auto.
    + specialize (HU p ph u Hp). destruct (ucode _ _ _ W p ph u); try exact I; destruct HU as [H1 H2]; rewrite ?dst_user, ?src_user by auto; auto.
    + apply src_fproc. auto.
  - destruct (Nat.eqb_spec p NP) as [->|]; [|exact I].
    destruct pc; cbn [svc_code]; try exact I; try (destruct (Nat.ltb_spec i NP); rewrite ?src_tproc, ?dst_fproc by auto; try reflexivity; try (destruct ok); exact I);
      try apply src_trt; try apply dst_tsvc.
    + intros c [<-|[]]. apply dst_tsvc.
    + destruct (next_phase v) as [c v']. exact I.
  - destruct (Nat.eqb_spec p (S NP)) as [->|]; [|exact I]. destruct x as [r|k|]; cbn [rt_code]; try exact I.
    + destruct (client _ _ _ W r) as [[c k]|]; [apply src_tsvc|exact I].
    + apply dst_trt.
Qed.

(** the invariant *)
Definition ok_resp (r : presp) : Prop := r <> REQ_PAUSE /\ r <> REQ_STOP.
Definition ok_msg (m : msg D) : Prop := match m with MPResp _ r => ok_resp r | _ => True end.
Definition quiet (v : svc) : Prop := f_pause v = false /\ f_stop v = false /\ pausing v = false /\ stopping v = false.
Definition ok_loc (l : lloc U R) : Prop :=
  match l with
  | LProc _ _ (PReply _ r _ _) => ok_resp r
  | LSvc _ _ v pc => quiet v /\ match pc with STellReq _ _ | SPeek _ => False | _ => True end
  | _ => True
  end.
(** the service does not look at its input *)
Definition calm (pc : spc) : Prop := match pc with SSelect | SErrStop _ | SEnd => True | _ => False end.
Definition handshake (pc : spc) (x : rloc R) (qs qr : list (msg D)) : Prop :=
  match x with
  | RWait _ _ => (exists c, qs = [c] /\ qr = [] /\ (calm pc \/ pc = SRecv)) \/ (qs = [] /\ qr = [] /\ pc <> SRecv) \/ (exists a, qs = [] /\ qr = [a] /\ calm pc)
  | _ => qs = [] /\ qr = [] /\ calm pc
  end.
Record inv (s : st (msg D) (lloc U R)) : Prop := {
  i_svc : exists v pc x, nth_error (loc s) NP = Some (LSvc _ _ v pc) /\ nth_error (loc s) (S NP) = Some (LRt _ _ x) /\ handshake pc x (chan_of s tsvc) (chan_of s trt);
  i_ok : forall p l, nth_error (loc s) p = Some l -> ok_loc l;
  i_msg : forall c, Forall ok_msg (chan_of s c)
}.

Lemma note_quiet r v : ok_resp r -> quiet v -> quiet (note r v).
Proof using. intros [H1 H2] (A & B & C & E). unfold quiet, note. cbn. rewrite A, B, C, E. destruct r; try congruence; auto. Qed.
Lemma answer_ok p ph u : ok_resp (fst (answer D U R W p ph u)).
Proof using HR.
  unfold answer. rewrite HR. cbn [fst]. destruct ph; repeat match goal with |- context[if ?b then _ else _] => destruct b end; split; discriminate.
Qed.
Lemma reply_ok p ph u : ok_loc (reply_of D U R W p ph u).
Proof using HR. unfold reply_of. pose proof (answer_ok p ph u). destruct (answer D U R W p ph u) as [r u']. exact H. Qed.
Lemma head_ok s c v q : inv s -> nth_error (chan s) c = Some (v :: q) -> ok_msg v.
Proof using. intros [_ _ M] H. specialize (M c). destruct (chan_nth _ _ _ H) as [E _]. rewrite E in M. inversion M; auto. Qed.

(** each step keeps messages and local states in order *)
Lemma fires_ok s p l l' o : inv s -> nth_error (loc s) p = Some l -> fires net s p l l' o ->
  ok_loc l' /\ match o with OPush _ m => ok_msg m | _ => True end.
Proof using HR.
  intros HI El F. pose proof (i_ok _ HI _ _ El) as OK.
  assert (forall c v q, nth_error (chan s) c = Some (v :: q) -> ok_msg v) as HH by (intros; eapply head_ok; eauto).
  destruct l as [x|v pc|x].
  - destruct F as [c k m q E Hc|c k m q E Hc|c m l'' q E Hc Hl|c k m q E Hc|c k E|cs c k m q E Hin Hc|l'' E]; cbn [code loihi_net loihi_code] in E;
      destruct (p <? NP); try discriminate E; destruct x as [u|u|ph u|r b u|u]; cbn [proc_code] in E; try discriminate E;
      try (destruct (ucode _ _ _ W p ph u) eqn:Eu; try discriminate E); inversion E; subst; clear E; split; try exact I; cbn [ok_loc].
    + destruct m as [d|[ph| |]|r|c|r]; cbn [ok_loc]; try (split; discriminate).
      destruct ph; try exact I; destruct (called _ _ _ W p _ _); try exact I; apply reply_ok.
    + destruct m; cbn [ok_loc]; try exact I; split; discriminate.
    + destruct m; cbn [ok_loc]; try exact I; split; discriminate.
    + destruct b; exact I.
    + exact OK.
    + apply reply_ok.
    + split; discriminate.
  - destruct OK as [Q P].
    assert (forall ph m q, p = NP -> pc = SProbe ph -> nth_error (chan s) tsvc = Some (m :: q) -> False) as NoProbe.
    { intros ph m q -> -> Hc. destruct (i_svc _ HI) as (v' & pc' & x & E1 & _ & E2). assert (pc' = SProbe ph) as -> by congruence.
      destruct (chan_nth _ _ _ Hc) as [Ec _]. rewrite Ec in E2. destruct x; cbn in E2; [|destruct E2 as [(c & _ & _ & [[]|H])|[(H & _)|(a & H & _)]]; congruence|]; destruct E2 as (H & _); congruence. }
    destruct F as [c k m q E Hc|c k m q E Hc|c m l'' q E Hc Hl|c k m q E Hc|c k E|cs c k m q E Hin Hc|l'' E]; cbn [code loihi_net loihi_code] in E;
      destruct (Nat.eqb_spec p NP) as [Hp|]; try discriminate E; destruct pc; cbn [svc_code] in E; try discriminate E; try (destruct P);
      repeat match type of E with
             | context[if ?b then _ else _] => destruct b; try discriminate E
             | context[let '(_, _) := next_phase v in _] => destruct (next_phase v) as [cc v'] eqn:NX; try discriminate E
             end; inversion E; subst; clear E; split; try exact I; cbn [ok_loc].
    all: try (split; [exact Q|exact I]).
    all: try (match type of NX with _ => idtac end; destruct Q as (A & B & C & E); unfold next_phase in NX; rewrite A, B in NX;
      repeat match type of NX with context[if ?b then _ else _] => destruct b end; inversion NX; subst; clear NX; cbn [ok_loc]; repeat split; auto; fail).
    + destruct m as [d|cc|r|[n| |]|r]; cbn [ok_loc]; split; try exact I; try exact Q; destruct Q as (A & B & C & E); unfold quiet, new_run; cbn; auto.
    + specialize (HH _ _ _ Hc). destruct m as [d|cc|r|cc|r]; cbn [ok_loc]; split; try exact I; try exact Q; apply note_quiet; auto.
    + specialize (HH _ _ _ Hc). destruct m as [d|cc|r|cc|r]; cbn [ok_loc]; split; try exact I; try exact Q; apply note_quiet; auto.
    + specialize (HH _ _ _ Hc). destruct m as [d|cc|r|cc|r]; cbn [ok_loc]; split; try exact I; try exact Q; apply note_quiet; auto.
    + exfalso. eapply NoProbe; eauto.
    + unfold end_of_phase. destruct Q as (A & B & C & E). rewrite C, E. destruct (is_host ph); cbn [orb ok_loc]; repeat split; auto.
  - destruct F as [c k m q E Hc|c k m q E Hc|c m l'' q E Hc Hl|c k m q E Hc|c k E|cs c k m q E Hin Hc|l'' E]; cbn [code loihi_net loihi_code] in E;
      destruct (p =? S NP); try discriminate E; destruct x as [r|kk|]; cbn [rt_code] in E; try discriminate E;
      try (destruct (client _ _ _ W r) as [[cc kk]|]; try discriminate E); inversion E; subst; clear E; split; try exact I; cbn [ok_loc].
    destruct m; exact I.
Qed.

Definition touches (o : op (msg D)) (c : nat) : Prop := match o with ONone => False | OPop c' => c' = c | OPush c' _ => c' = c end.
Lemma untouched s p l' o c : doable net s o -> ~ touches o c -> chan_of (after s p l' o) c = chan_of s c.
Proof using.
  intros Do Ht. rewrite (chan_of_after net) by auto. destruct o as [|c'|c' m]; [reflexivity| |]; destruct (Nat.eqb_spec c' c); try reflexivity; exfalso; apply Ht; auto.
Qed.
Lemma np_ne : tsvc <> trt. Proof using. unfold to_svc, to_rt. lia. Qed.

(** the steps of the service *)
Lemma tproc_other i : i < NP -> tproc i <> tsvc /\ tproc i <> trt.
Proof using. unfold to_proc, to_svc, to_rt. lia. Qed.
Lemma fproc_other i : i < NP -> fproc i <> tsvc /\ fproc i <> trt.
Proof using. unfold from_proc, to_svc, to_rt. lia. Qed.
Lemma svc_step s v pc l' o : ok_loc (LSvc _ _ v pc) -> fires net s NP (LSvc _ _ v pc) l' o -> exists v' pc', l' = LSvc _ _ v' pc' /\
  ((pc = SSelect /\ pc' = SRecv /\ o = ONone /\ chan_of s tsvc <> []) \/
   (pc = SRecv /\ pc' <> SRecv /\ o = OPop tsvc) \/
   (~ calm pc /\ pc <> SRecv /\ calm pc' /\ exists m, o = OPush trt m) \/
   (pc <> SRecv /\ pc' <> SRecv /\ (calm pc -> calm pc') /\ ~ touches o tsvc /\ ~ touches o trt)).
Proof using.
  intros [Q P] F.
  destruct F as [c k m q E Hc|c k m q E Hc|c m l'' q E Hc Hl|c k m q E Hc|c k E|cs c k m q E Hin Hc|l'' E]; cbn [code loihi_net loihi_code] in E;
    rewrite Nat.eqb_refl in E; destruct pc; cbn [svc_code] in E; try discriminate E; try (destruct P);
    repeat match type of E with
           | context[if ?i <? NP then _ else _] => destruct (Nat.ltb_spec i NP) as [Hi|Hi]; try discriminate E
           | context[if ?b then ATau _ else _] => destruct b; try discriminate E
           | context[let '(_, _) := next_phase v in _] => destruct (next_phase v) as [cc v'] eqn:NX; try discriminate E
           end; inversion E; subst; clear E.
  (* receiving a command *)
  - destruct m as [d|cc|r|[n| |]|r]; do 2 eexists; (split; [reflexivity|]); right; left; repeat apply conj; try reflexivity; discriminate.
  - destruct (fproc_other i Hi). destruct m; do 2 eexists; (split; [reflexivity|]); right; right; right; repeat apply conj; cbn; auto; discriminate.
  - destruct (fproc_other i Hi). destruct m; do 2 eexists; (split; [reflexivity|]); right; right; right; repeat apply conj; cbn; auto; discriminate.
  - destruct (fproc_other i Hi). destruct m; do 2 eexists; (split; [reflexivity|]); right; right; right; repeat apply conj; cbn; auto; discriminate.
  - destruct (tproc_other i Hi). do 2 eexists; (split; [reflexivity|]); right; right; right; repeat apply conj; cbn; auto; discriminate.
  - do 2 eexists; (split; [reflexivity|]); right; right; left; repeat apply conj; cbn; eauto; discriminate.
  - destruct (tproc_other i Hi). do 2 eexists; (split; [reflexivity|]); right; right; right; repeat apply conj; cbn; auto; discriminate.
  - do 2 eexists; (split; [reflexivity|]); right; right; left; repeat apply conj; cbn; eauto; discriminate.
  - destruct (tproc_other i Hi). do 2 eexists; (split; [reflexivity|]); right; right; right; repeat apply conj; cbn; auto; discriminate.
  - do 2 eexists; (split; [reflexivity|]); right; right; left; repeat apply conj; cbn; eauto; discriminate.
  - destruct (tproc_other i Hi). do 2 eexists; (split; [reflexivity|]); right; right; right; repeat apply conj; cbn; auto; discriminate.
  - do 2 eexists; (split; [reflexivity|]); right; right; left; repeat apply conj; cbn; eauto; discriminate.
  - do 2 eexists; (split; [reflexivity|]); right; right; right; repeat apply conj; cbn; auto; discriminate.
  - unfold end_of_phase. destruct (is_host ph); [destruct (pausing v || stopping v)|]; do 2 eexists; (split; [reflexivity|]); right; right; right; repeat apply conj; cbn; auto; discriminate.
  - destruct Hin as [<-|[]]. do 2 eexists. split; [reflexivity|]. left. repeat apply conj; try reflexivity. destruct (chan_nth _ _ _ Hc) as [-> _]. discriminate.
  - do 2 eexists; (split; [reflexivity|]); right; right; right; repeat apply conj; cbn; auto; discriminate.
  - do 2 eexists; (split; [reflexivity|]); right; right; right; repeat apply conj; cbn; auto; discriminate.
  - do 2 eexists; (split; [reflexivity|]); right; right; right; repeat apply conj; cbn; auto; discriminate.
  - do 2 eexists; (split; [reflexivity|]); right; right; right; repeat apply conj; cbn; auto; discriminate.
  - do 2 eexists; (split; [reflexivity|]); right; right; right; repeat apply conj; cbn; auto; discriminate.
  - do 2 eexists; (split; [reflexivity|]); right; right; right; repeat apply conj; cbn; auto; discriminate.
  - destruct cc as [[]| |]; [..|destruct (pausing v')|destruct (stopping v')]; do 2 eexists; (split; [reflexivity|]); right; right; right; repeat apply conj; cbn; auto; try discriminate; contradiction.
  - destruct (is_host ph); do 2 eexists; (split; [reflexivity|]); right; right; right; repeat apply conj; cbn; auto; discriminate.
  - destruct (f_err v); do 2 eexists; (split; [reflexivity|]); right; right; right; repeat apply conj; cbn; auto; discriminate.
  - do 2 eexists; (split; [reflexivity|]); right; right; right; repeat apply conj; cbn; auto; discriminate.
Qed.

Lemma inv_step s p s' : inv s -> step net s p s' -> inv s'.
Proof using HU HR.
  intros HI St. destruct St as [l l' o El F]. pose proof (fires_ok s p l l' o HI El F) as (OL & OM). pose proof (fires_doable _ _ _ _ _ _ F) as Do.
  pose proof (fires_legit _ _ _ _ _ _ _ _ loihi_wired F) as G. pose proof np_ne as Hne.
  destruct (i_svc _ HI) as (v & pc & x & E1 & E2 & Hh).
  constructor.
  2:{ intros q lq Eq. cbn [after loc] in Eq. rewrite nth_error_upd in Eq. destruct (Nat.eqb_spec p q) as [->|]; [|eapply i_ok; eauto].
      destruct (q <? length (loc s)); [injection Eq as <-; auto|discriminate Eq]. }
  2:{ intros c. rewrite (chan_of_after net) by auto. pose proof (i_msg _ HI c) as M. destruct o as [|c'|c' m]; [auto| |]; destruct (c' =? c); auto.
      - destruct M; cbn; auto.
      - apply Forall_app. split; auto. }
  assert (forall q lq, nth_error (loc s) q = Some lq -> nth_error (loc (after s p l' o)) q = Some (if p =? q then l' else lq)) as Hl.
  { intros q lq Eq. cbn [after loc]. rewrite nth_error_upd. destruct (Nat.eqb_spec p q) as [->|]; [|auto]. assert (q <? length (loc s) = true) as ->; [|reflexivity]. apply Nat.ltb_lt, nth_error_Some. congruence. }
  destruct (lt_eq_lt_dec p NP) as [[Hp| ->]|Hp].
  - (* a process *)
    exists v, pc, x. split; [rewrite (Hl _ _ E1); destruct (Nat.eqb_spec p NP); [lia|reflexivity]|].
    split; [rewrite (Hl _ _ E2); destruct (Nat.eqb_spec p (S NP)); [lia|reflexivity]|].
    rewrite !untouched; auto; intros T; destruct o as [|c|c m]; cbn in T, G; try exact T; subst c; rewrite ?src_tsvc, ?dst_tsvc, ?src_trt, ?dst_trt in G; lia.
  - (* the service *)
    assert (l = LSvc _ _ v pc) as -> by congruence.
    assert (exists v' pc', l' = LSvc _ _ v' pc' /\ handshake pc' x (chan_of (after s NP l' o) tsvc) (chan_of (after s NP l' o) trt)) as (v' & pc' & -> & Hh').
    { destruct (svc_step s v pc l' o (i_ok _ HI _ _ El) F) as (v' & pc' & -> & Hcase). exists v', pc'. split; [reflexivity|].
      destruct Hcase as [(-> & -> & -> & Hn)|[(-> & Hn & ->)|[(Hc & Hn & Hc' & m & ->)|(Hn & Hn' & Hc & T1 & T2)]]].
      - change (chan_of (after s NP (LSvc U R v' SRecv) ONone)) with (chan_of s). destruct x; cbn [handshake] in *; try (destruct Hh as (H & _); contradiction).
        destruct Hh as [(c & H1 & H2 & _)|[(H & _)|(a & H & _)]]; try contradiction. left. exists c. auto.
      - rewrite (chan_of_after net), (untouched s _ _ _ trt), Nat.eqb_refl by (cbn; auto). destruct x; cbn [handshake calm] in *; try (destruct Hh as (_ & _ & []); fail).
        destruct Hh as [(c & -> & -> & _)|[(_ & _ & H)|(a & _ & _ & [])]]; [|contradiction]. right. left. auto.
      - rewrite (chan_of_after net s NP _ _ trt), (untouched s _ _ _ tsvc), Nat.eqb_refl by (cbn; auto). destruct x; cbn [handshake] in *; try (destruct Hh as (_ & _ & H); contradiction).
        destruct Hh as [(c & _ & _ & [H|H])|[(-> & -> & _)|(a & _ & _ & H)]]; try contradiction. right. right. exists m. auto.
      - rewrite !untouched by auto. destruct x; cbn [handshake] in *; try (destruct Hh as (H1 & H2 & H3); auto; fail).
        destruct Hh as [(c & H1 & H2 & [H|H])|[(H1 & H2 & _)|(a & H1 & H2 & H)]]; [left; exists c; auto|contradiction|right; left; auto|right; right; exists a; auto]. }
    exists v', pc', x. split; [rewrite (Hl _ _ E1), Nat.eqb_refl; reflexivity|]. split; [rewrite (Hl _ _ E2); destruct (Nat.eqb_spec NP (S NP)); [lia|reflexivity]|exact Hh'].
  - (* the runtime *)
    assert (p = S NP) as ->.
    { destruct (Nat.eq_dec p (S NP)) as [|Hn]; [auto|exfalso].
      assert (code net p l = AHalt) as E by (cbn [code loihi_net]; unfold loihi_code; destruct l; [destruct (Nat.ltb_spec p NP); [lia|]|destruct (Nat.eqb_spec p NP); [lia|]|destruct (Nat.eqb_spec p (S NP)); [lia|]]; reflexivity).
      destruct F; congruence. }
    assert (l = LRt _ _ x) as -> by congruence.
    assert (exists x', l' = LRt _ _ x' /\ handshake pc x' (chan_of (after s (S NP) l' o) tsvc) (chan_of (after s (S NP) l' o) trt)) as (x' & -> & Hh').
    { destruct F as [c k m q E Hc|c k m q E Hc|c m l'' q E Hc Hl'|c k m q E Hc|c k E|cs c k m q E Hin Hc|l'' E]; cbn [code loihi_net loihi_code] in E;
        rewrite Nat.eqb_refl in E; destruct x as [r|kk|]; cbn [rt_code] in E; try discriminate E; try (destruct (client _ _ _ W r) as [[cc kk]|]; try discriminate E); inversion E; subst; clear E.
      - assert (chan_of s trt = m :: q) as Eq by apply (chan_nth _ _ _ Hc).
        exists (match m with MRResp _ a => RSend _ (kk a) | _ => REnd _ end). split; [destruct m; reflexivity|].
        rewrite (chan_of_after net s _ _ _ trt), (untouched s _ _ _ tsvc), Nat.eqb_refl by (cbn; auto). cbn [handshake] in Hh. rewrite Eq in *.
        destruct Hh as [(c & _ & H & _)|[(_ & H & _)|(a & H1 & H & H3)]]; try discriminate H. injection H as -> ->. destruct a; cbn [handshake tl]; auto.
      - exists (RWait _ kk). split; [reflexivity|]. rewrite (chan_of_after net s _ _ _ tsvc), (untouched s _ _ _ trt), Nat.eqb_refl by (cbn; auto). cbn [handshake] in *. destruct Hh as (-> & -> & H). left. eexists. split; [reflexivity|]. auto.
      - exists (REnd _). split; [reflexivity|]. exact Hh. }
    exists v, pc, x'. split; [rewrite (Hl _ _ E1); destruct (Nat.eqb_spec (S NP) NP); [lia|reflexivity]|]. split; [rewrite (Hl _ _ E2), Nat.eqb_refl; reflexivity|exact Hh'].
Qed.
Lemma inv_start u r : inv (loihi_start D U R W u r).
Proof using.
  assert (forall c, chan_of (loihi_start D U R W u r) c = []) as E.
  { intros c. unfold chan_of. cbn [loihi_start chan]. generalize (NC + 2 * NP + 2). intros n. revert c. induction n as [|n IH]; intros [|c]; cbn; auto. }
  constructor.
  - exists svc0, SSelect, (RSend _ r). rewrite !E. cbn [loihi_start loc handshake calm]. split; [|split; [|auto]].
    + rewrite nth_error_app2 by (rewrite map_length, seq_length; lia). rewrite map_length, seq_length, Nat.sub_diag. reflexivity.
    + rewrite nth_error_app2 by (rewrite map_length, seq_length; lia). rewrite map_length, seq_length. replace (S NP - NP) with 1 by lia. reflexivity.
  - intros p l H. cbn [loihi_start loc] in H. apply nth_error_In in H. apply in_app_or in H. destruct H as [H|[<-|[<-|[]]]].
    + apply in_map_iff in H. destruct H as (q & <- & _). exact I.
    + cbn. repeat split.
    + exact I.
  - intros c. rewrite E. constructor.
Qed.
Lemma inv_reach u r s : reachable net (loihi_start D U R W u r) s -> inv s.
Proof using HU HR.
  intros (ps & H). remember (loihi_start D U R W u r) as s0. assert (inv s0) as I0 by (subst; apply inv_start). clear Heqs0.
  induction H; [auto|]. apply IHexec. eapply inv_step; eauto.
Qed.
Lemma loihi_free u r : race_free net (loihi_start D U R W u r).
Proof using HU HR.
  intros s p l Hs El. pose proof (inv_reach _ _ _ Hs) as HI. cbn [code loihi_net]. unfold loihi_code. destruct l as [x|v pc|x].
  - destruct (p <? NP); [|exact I]. destruct x as [u0|u0|ph u0|a b u0|u0]; cbn [proc_code]; try exact I.
    + intros c c' [<-|[]] [<-|[]]. auto.
    + destruct (ucode _ _ _ W p ph u0); exact I.
  - destruct (Nat.eqb_spec p NP) as [->|]; [|exact I]. destruct pc; cbn [svc_code]; try exact I; try (destruct (i <? NP); try destruct ok; exact I).
    + intros c c' [<-|[]] [<-|[]]. auto.
    + destruct (next_phase v) as [c v']. exact I.
    + destruct (i_svc _ HI) as (v' & pc' & x & E1 & E2 & Hh). assert (pc' = SProbe ph) as -> by congruence.
      destruct x as [r0|kk|]; cbn [handshake calm] in Hh; try (destruct Hh as (_ & _ & []); fail).
      destruct Hh as [(c & _ & _ & [[]|H])|[(H1 & _)|(a & _ & _ & [])]]; [discriminate H|].
      intros [H|(q & lq & w & l'' & Eq & Ec)]; [contradiction|].
      pose proof (loihi_wired q lq) as Wq. cbn [code loihi_net] in Ec, Wq. rewrite Ec, src_tsvc in Wq. subst q. assert (lq = LRt _ _ (RWait _ kk)) as -> by congruence.
      cbn [loihi_code] in Ec. rewrite Nat.eqb_refl in Ec. discriminate Ec.
  - destruct (p =? S NP); [|exact I]. destruct x as [r0|kk|]; cbn [rt_code]; try exact I. destruct (client _ _ _ W r0) as [[]|]; exact I.
Qed.
End Loihi.
