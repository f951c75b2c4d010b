(** C07, C08, C09, C11, C12: theorems about the execution protocol. *)
From Coq Require Import List Arith Lia Bool.
From Verif Require Import Runtime_Spec Runtime_Proofs Runtime_Live Runtime_Inv2.
Import ListNotations.

(** *** Auxiliary facts *)
Lemma since_none l : Forall (fun e => ~ is_start e) l -> since_start l = None.
Proof.
  induction 1 as [|e l He Hl IH]; simpl; auto. rewrite IH. destruct e; auto. exfalso; apply He; exact I.
Qed.
Lemma since_of a n l : Forall (fun e => ~ is_start e) l -> since_start (a ++ EvStart n :: l) = Some (n, l).
Proof.
  intro H. induction a as [|e a IH]; simpl.
  - rewrite since_none; auto.
  - rewrite IH. auto.
Qed.

Lemma quiet_none N s i : InvB N s -> i < N -> expc (sv s) (err (fl s)) i = None ->
  Forall (eq CHost) (s2p s i) /\ (forall c, mp s i = MBusy c -> c = CHost).
Proof. intros B Hi E. pose proof (b_p _ _ B i Hi) as P. rewrite E in P. inversion P; auto. Qed.

Lemma count_busy_host m : (forall c, m = MBusy c -> c = CHost) -> count CSpk (busyl m) = 0.
Proof. destruct m; auto. intro H. rewrite (H c); auto. Qed.

(** *** C07: RunSteps(n) *)

(** When the service reports DONE, every process has started and finished exactly n spiking
    phases since the run of n steps was started. *)
Theorem run_exact : forall N a n l s,
  exec N (a ++ EvStart n :: l ++ [EvResp DONE]) s ->
  Forall (fun e => ~ is_start e) l ->
  forall i, i < N -> count CSpk (begun i l) = n /\ count CSpk (ended i l) = n.
Proof.
  intros N a n l s H Hl i Hi.
  assert (E : a ++ EvStart n :: l ++ [EvResp DONE] = (a ++ EvStart n :: l) ++ [EvResp DONE])
    by (rewrite <- app_assoc; auto).
  pose proof H as H'. rewrite E in H'.
  apply exec_split in H' as (s0 & s1 & X0 & St & X1).
  pose proof (invR_exec _ _ _ X0) as R. unfold InvR in R. rewrite since_of in R by auto.
  destruct R as (R1 & R2 & R3 & R4 & R5 & R6 & R7).
  assert (V : sv s0 = VEnd /\ last (fl s0) = true).
  { inversion St; subst; try match goal with Z : mstep _ _ _ _ |- _ => inversion Z | Z : estep _ _ _ |- _ => inversion Z end.
    match goal with Z : vstep _ _ _ _ |- _ => inversion Z; subst end;
      try (destruct (pausing (fl s0)); discriminate); try (destruct (stopping (fl s0)); discriminate).
    split; auto. destruct (last (fl s0)); auto. rewrite !orb_true_r in *. discriminate. }
  destruct V as [V L]. pose proof (invB_exec _ _ _ X0) as B. pose proof (invA_exec _ _ _ X0) as A.
  specialize (R1 i Hi). rewrite V in R1. simpl in R1. rewrite app_nil_r, count_app in R1.
  destruct (quiet_none _ _ i B Hi) as [Q1 Q2]; [rewrite V; auto|].
  rewrite (count_host _ Q1), Nat.add_0_r, (R3 L), R2 in R1.
  split; auto.
  (* finished *)
  apply exec_split in H as (t0 & t1 & Y0 & St' & Y1).
  pose proof (invB_exec _ _ _ Y0) as B'. pose proof (invA_exec _ _ _ Y0) as A'.
  assert (V' : sv t0 = VIdle).
  { inversion St'; subst; try match goal with Z : mstep _ _ _ _ |- _ => inversion Z | Z : estep _ _ _ |- _ => inversion Z end.
    match goal with Z : vstep _ _ _ _ |- _ => inversion Z; subst end;
      try (destruct (pausing (fl t0)); discriminate); try (destruct (stopping (fl t0)); discriminate); auto. }
  destruct (quiet_none _ _ i B' Hi) as [_ Q3]; [rewrite V'; auto|].
  pose proof (a_busy _ _ _ A i Hi) as Bu. pose proof (a_busy _ _ _ A' i Hi) as Bu'.
  apply (f_equal (count CSpk)) in Bu. apply (f_equal (count CSpk)) in Bu'.
  rewrite begun_app, ended_app in Bu. rewrite !count_app in *. simpl in Bu.
  rewrite (count_busy_host _ Q2) in Bu. rewrite (count_busy_host _ Q3) in Bu'. lia.
Qed.

(** The time-step counters of the processes advance accordingly, whatever happens. *)
Theorem time_step_counts : forall N tr s i,
  exec N tr s -> i < N -> ts s i = count CSpk (begun i tr).
Proof. intros. eapply a_ts; eauto. eapply invA_exec; eauto. Qed.

(** At most one completion message per run. *)
Theorem run_one_done : forall N a n l s,
  exec N (a ++ EvStart n :: l) s -> Forall (fun e => ~ is_start e) l ->
  times DONE (said l) <= 1.
Proof.
  intros N a n l s H Hl. pose proof (invR_exec _ _ _ H) as R. unfold InvR in R.
  rewrite since_of in R by auto. tauto.
Qed.

Section NoReq.
  Variable N : nat.

  Definition InvH (tr : list event) (s : sys) : Prop :=
    (forall e, In e tr -> ~ self_req e) ->
    (fpause (fl s) = true -> pausing (fl s) = true) /\ (fstop (fl s) = true -> stopping (fl s) = true) /\
    (forall i r, i < N -> In r (p2s s i) -> r <> RReqPause /\ r <> RReqStop) /\
    (sv s = VEnd -> ends tr CHost \/ pausing (fl s) = true \/ stopping (fl s) = true).

  Lemma invH_exec tr s : exec N tr s -> InvH tr s.
  Proof.
    induction 1 as [|tr s e s' H IH St]; intro Ns.
    { simpl. repeat split; try discriminate; contradiction. }
    pose proof (invF_exec _ _ _ H) as F.
    assert (Ns' : forall e, In e tr -> ~ self_req e).
    { intros x Hx. apply Ns. destruct e; simpl; auto. apply in_snoc. auto. }
    destruct (IH Ns') as (I1 & I2 & I3 & I4).
    destruct St as [? ? ? Hv|? ? ? Hm|? ? ? He].
    - destruct Hv; simpl ext; simpl; try (repeat split; auto; try discriminate; try apply (I3 i r); auto; fail).
      + assert (R : r <> RReqPause /\ r <> RReqStop) by (apply (I3 k); auto; rewrite H2; simpl; auto).
        split; [|split; [|split; [|discriminate]]].
        * destruct r; rewrite ?orb_false_r; auto; destruct R; congruence.
        * destruct r; rewrite ?orb_false_r; auto; destruct R; congruence.
        * intros i r0 Hi. fupds; [|apply I3; auto]. intro. apply (I3 k); auto. rewrite H2; simpl; auto.
      + split; auto. split; auto. split; auto. intro E. unfold InvF in F. rewrite H0 in F.
        destruct c; try discriminate. left. apply F.
      + split; [|split; [|split; auto]].
        * destruct d; simpl; auto.
        * destruct d; simpl; auto.
        * intro E. unfold InvF in F. rewrite H0 in F. destruct c; try discriminate. left. apply F.
    - assert (X : fl s' = fl s /\ sv s' = sv s) by (destruct Hm; auto). destruct X as [-> ->].
      split; auto. split; auto. split.
      + destruct Hm; simpl; intros j r Hj; fupds; try (apply I3; auto; fail).
        intro Hin. destruct (handler c o) as [r0|] eqn:Eh; [|apply (I3 i); auto]. apply in_snoc in Hin as [Hin|Hin]; [apply (I3 i); auto|]. subst r0.
        pose proof (Ns (EvEnd i c (Some r))) as Z. simpl in Z.
        assert (Z' : ~ match r with RReqPause | RReqStop => True | _ => False end).
        { apply Z. apply in_snoc. auto. }
        destruct r; split; try discriminate; simpl in Z'; tauto.
      + intro E. destruct (I4 E) as [D|]; auto. left. destruct Hm; simpl; apply ends_snoc; simpl; auto.
    - assert (X : fl s' = fl s /\ sv s' = sv s /\ p2s s' = p2s s) by (destruct He; auto). destruct X as (-> & -> & ->).
      split; auto. split; auto. split; auto.
      intro E. destruct (I4 E) as [D|]; auto. left. destruct He; simpl; apply ends_snoc; simpl; auto.
  Qed.
End NoReq.

(** If no process asked to pause or stop, then at the moment a run is reported complete the
    last command given to every process is the host phase: it has been executed or is next
    in its queue. *)
Theorem run_ends_in_host : forall N tr s s',
  exec N tr s -> step N s (Some (EvResp DONE)) s' ->
  (forall e, In e tr -> ~ self_req e) ->
  forall i, i < N -> exists m, begun i tr ++ s2p s' i = m ++ [CHost].
Proof.
  intros N tr s s' X0 St Ns i Hi. pose proof (invA_exec _ _ _ X0) as A.
  assert (E : ends tr CHost /\ s2p s' = s2p s /\ sv s = VEnd).
  { destruct (invH_exec _ _ _ X0 Ns) as (_ & _ & _ & I4).
    inversion St; subst; try match goal with Z : mstep _ _ _ _ |- _ => inversion Z | Z : estep _ _ _ |- _ => inversion Z end.
    match goal with Z : vstep _ _ _ _ |- _ => inversion Z; subst end;
      try (destruct (pausing (fl s)); discriminate); try (destruct (stopping (fl s)); discriminate).
    split; [|auto].
    destruct I4 as [|[E|E]]; auto; rewrite E in *; rewrite ?orb_true_r in *; discriminate. }
  destruct E as ([m E] & -> & V). exists m. rewrite <- E.
  pose proof (a_del _ _ _ A i Hi) as D. rewrite V in D. simpl in D. rewrite app_nil_r in D. auto.
Qed.

(** *** C08: lock step *)

Lemma count_acked_le l : count CSpk l = count CSpk (acked l).
Proof. induction l as [|[] l IH]; simpl; auto; unfold count in *; simpl; auto. Qed.
Lemma acked_host l : Forall (eq CHost) l -> acked l = [].
Proof. induction 1; auto. subst. simpl. auto. Qed.

Lemma busy_host m : (forall c, m = MBusy c -> c = CHost) -> acked (busyl m) = [].
Proof. destruct m; auto. intro H. rewrite (H c); auto. Qed.
Lemma pstat_out q m p e : pstat q m p e ->
  length (acked (busyl m)) + length (acked q) <= match e with Some _ => 1 | None => 0 end.
Proof.
  destruct 1; subst.
  - rewrite busy_host, acked_host by auto. auto.
  - rewrite busy_host, acked_app, acked_host by auto. simpl. destruct (responding c); simpl; lia.
  - simpl. destruct (responding c); simpl; lia.
  - destruct r; simpl; lia.
Qed.

Lemma outstanding N tr s i : exec N tr s -> i < N ->
  exists r, acked (bcasts tr) = acked (ended i tr) ++ r /\ length r <= 1.
Proof.
  intros H Hi. pose proof (invA_exec _ _ _ H) as A. pose proof (invB_exec _ _ _ H) as B.
  exists (acked (busyl (mp s i)) ++ acked (s2p s i) ++ acked (undel (sv s) i)).
  split.
  - rewrite (a_del _ _ _ A i Hi), (a_busy _ _ _ A i Hi), !acked_app, <- !app_assoc. auto.
  - rewrite !app_length. pose proof (b_p _ _ B i Hi) as P.
    apply pstat_out in P.
    destruct (expc (sv s) (err (fl s)) i) eqn:E.
    + assert (U : undel (sv s) i = []).
      { destruct (sv s); simpl in *; auto.
        - destruct (i <? k); auto. rewrite andb_false_r in E. discriminate.
        - destruct (i <? k); auto. discriminate. }
      rewrite U. simpl. lia.
    + assert (length (acked (undel (sv s) i)) <= 1); [|lia].
      unfold undel. destruct (sv s); simpl; try lia; destruct (_ <? _); simpl; try lia.
      destruct (responding c); simpl; lia.
Qed.

Lemma begun_ended_prefix N tr s i : exec N tr s -> i < N -> exists r, begun i tr = ended i tr ++ r.
Proof. intros H Hi. exists (busyl (mp s i)). eapply a_busy; eauto. eapply invA_exec; eauto. Qed.
Lemma bcast_begun_prefix N tr s i : exec N tr s -> i < N -> exists r, bcasts tr = begun i tr ++ r.
Proof. intros H Hi. eexists. eapply a_del; eauto. eapply invA_exec; eauto. Qed.

(** The time-step counters of any two processes never differ by more than one. *)
Theorem lockstep_time : forall N tr s i j,
  exec N tr s -> i < N -> j < N -> ts s i <= S (ts s j).
Proof.
  intros N tr s i j H Hi Hj.
  rewrite (time_step_counts _ _ _ _ H Hi), (time_step_counts _ _ _ _ H Hj).
  destruct (bcast_begun_prefix _ _ _ _ H Hi) as [r1 E1].
  destruct (outstanding _ _ _ _ H Hj) as (r2 & E2 & L2).
  destruct (begun_ended_prefix _ _ _ _ H Hj) as [r3 E3].
  assert (count CSpk (begun i tr) <= count CSpk (bcasts tr)) by (rewrite E1, count_app; lia).
  assert (count CSpk (ended j tr) <= count CSpk (begun j tr)) by (rewrite E3, count_app; lia).
  assert (count CSpk (bcasts tr) <= count CSpk (ended j tr) + 1).
  { rewrite (count_acked_le (bcasts tr)), E2, count_app, <- count_acked_le.
    assert (count CSpk r2 <= length r2); [|lia].
    clear. unfold count. induction r2 as [|x r IH]; simpl; auto. destruct x; simpl; lia. }
  lia.
Qed.

(** When a process starts a phase (or pause, stop), every process has finished every phase
    that this process had started before; phases are the same, in the same order. *)
Theorem lockstep_phase : forall N tr s i c j,
  exec N (tr ++ [EvBegin i c]) s -> responding c = true -> i < N -> j < N ->
  exists r, acked (ended j tr) = acked (begun i tr) ++ r.
Proof.
  intros N tr s i c j H Hc Hi Hj.
  apply exec_split in H as (s0 & s1 & X0 & St & X1).
  assert (Q : exists q, s2p s0 i = c :: q /\ mp s0 i = MIdle).
  { inversion St; subst; try match goal with Z : estep _ _ _ |- _ => inversion Z | Z : vstep _ _ _ _ |- _ => inversion Z; subst end;
      try (destruct (pausing (fl s0)); discriminate); try (destruct (stopping (fl s0)); discriminate).
    match goal with Z : mstep _ _ _ _ |- _ => inversion Z; subst end. eauto. }
  destruct Q as (q & Q & M).
  pose proof (invA_exec _ _ _ X0) as A.
  pose proof (a_del _ _ _ A i Hi) as D. rewrite Q in D.
  apply (f_equal acked) in D. rewrite !acked_app in D. unfold acked at 3 in D. simpl in D. rewrite Hc in D. simpl in D.
  destruct (outstanding _ _ _ _ X0 Hj) as (r & E & L). rewrite D in E.
  set (x := acked (begun i tr)) in *. set (y := acked (ended j tr)) in *.
  assert (Lx : length x <= length y).
  { apply (f_equal (@length _)) in E. rewrite !app_length in E. simpl in E. lia. }
  exists (skipn (length x) y). rewrite <- (firstn_skipn (length x) y) at 1. f_equal.
  apply (f_equal (firstn (length x))) in E. rewrite !firstn_app in E.
  rewrite firstn_all, Nat.sub_diag in E. simpl in E. rewrite app_nil_r in E.
  replace (length x - length y) with 0 in E by lia. simpl in E. rewrite app_nil_r in E. auto.
Qed.

(** All processes execute the same sequence of commands. *)
Theorem same_commands : forall N tr s i j, exec N tr s -> i < N -> j < N ->
  (exists r, begun j tr = begun i tr ++ r) \/ (exists r, begun i tr = begun j tr ++ r).
Proof.
  intros N tr s i j H Hi Hj.
  destruct (bcast_begun_prefix _ _ _ _ H Hi) as [r1 E1].
  destruct (bcast_begun_prefix _ _ _ _ H Hj) as [r2 E2].
  rewrite E1 in E2. revert E2. generalize (begun i tr) (begun j tr). clear.
  induction l as [|x l IH]; intros [|y m] E; simpl in *; eauto.
  injection E as -> E. destruct (IH _ E) as [[r ->]|[r ->]]; eauto.
Qed.

(** *** C09: order of the phases *)
Definition follows (prev c : cmd) : Prop :=
  match c with
  | CPre => prev = CSpk
  | CLrn => prev = CSpk \/ prev = CPre
  | CPost => prev = CSpk \/ prev = CPre \/ prev = CLrn
  | _ => True
  end.

(** Each learning-related phase follows an earlier phase of the same time step in the
    documented order, and was asked for by some process since it was last served. *)
Theorem phase_order : forall N tr c s,
  exec N (tr ++ [EvBcast c]) s ->
  match c with
  | CPre => ends tr CSpk /\ asked RReqPre CPre tr = true
  | CLrn => (ends tr CSpk \/ ends tr CPre) /\ asked RReqLrn CLrn tr = true
  | CPost => (ends tr CSpk \/ ends tr CPre \/ ends tr CLrn) /\ asked RReqPost CPost tr = true
  | _ => True
  end.
Proof.
  intros N tr c s H. apply exec_split in H as (s0 & s1 & X0 & St & _).
  pose proof (invF_exec _ _ _ X0) as F. pose proof (invQ_exec _ _ _ X0) as Q. unfold InvF in F.
  inversion St as [? ? ? V|? ? ? V|? ? ? V]; subst; inversion V; subst; auto;
    try (destruct (pausing (fl s0)); discriminate); try (destruct (stopping (fl s0)); discriminate);
    match goal with Z : sv s0 = _ |- _ => rewrite Z in F end;
    (destruct F as [(F1 & F2 & F3)|(c0 & P & E & K)]; [congruence|]).
  - split; [|apply (Q KPre); simpl; auto]. destruct c0; simpl in *; unfold nof in *; try contradiction; auto; intuition congruence.
  - split; [|apply (Q KLrn); simpl; auto]. destruct c0; simpl in *; unfold nof in *; try contradiction; auto; intuition congruence.
  - split; [|apply (Q KPost); simpl; auto]. destruct c0; simpl in *; unfold nof in *; try contradiction; auto; intuition congruence.
Qed.

(** Every request is served before the next time step or the end of the run, unless the
    run was aborted by an error. *)
Theorem requests_served : forall N tr c s,
  exec N (tr ++ [EvBcast c]) s -> (c = CSpk \/ c = CHost) ->
  asked RReqPre CPre tr = false /\ asked RReqLrn CLrn tr = false /\ asked RReqPost CPost tr = false.
Proof.
  intros N tr c s H Hc. apply exec_split in H as (s0 & s1 & X0 & St & _).
  pose proof (invQ_exec _ _ _ X0) as Q. pose proof (invB_exec _ _ _ X0) as B.
  assert (S : sv s0 = VNext /\ nof (fl s0)).
  { inversion St as [? ? ? V|? ? ? V|? ? ? V]; subst; inversion V; subst;
      try (destruct (pausing (fl s0)); discriminate); try (destruct (stopping (fl s0)); discriminate);
      try (destruct Hc; discriminate); unfold nof; auto. }
  destruct S as (V & N1 & N2 & N3).
  assert (G : forall k, kflag k (fl s0) = false -> asked (kreq k) (kcmd k) tr = false).
  { intros k Hk. destruct (asked (kreq k) (kcmd k) tr) eqn:E; auto. apply Q in E as [E|(i & Hi & Hin)]; [congruence|].
    rewrite (quiet_p2s _ _ i B Hi) in Hin; [contradiction|]. rewrite V. auto. }
  split; [apply (G KPre); auto|split; [apply (G KLrn); auto|apply (G KPost); auto]].
Qed.

(** Consequence for the sequence of commands itself: what follows a spiking phase, up to the
    next command that is not a learning-related phase, is a subsequence of
    pre-management, learning, post-management. *)
Definition is_lrn (c : cmd) : bool := match c with CPre | CLrn | CPost => true | _ => false end.
Fixpoint take_lrn (l : list cmd) : list cmd :=
  match l with c :: r => if is_lrn c then c :: take_lrn r else [] | [] => [] end.

Lemma chain N tr s : exec N tr s -> forall a x y b, bcasts tr = a ++ x :: y :: b -> follows x y.
Proof.
  induction 1 as [|tr s e s' H IH St]; intros a x y b E.
  { destruct a; discriminate. }
  destruct e as [e|]; simpl in E; [|eauto].
  destruct (match e with EvBcast c => Some c | _ => None end) as [c|] eqn:Ee.
  - destruct e; try discriminate. injection Ee as ->.
    rewrite bcasts_app in E. simpl in E.
    destruct b as [|z b _] using rev_ind.
    + change (a ++ [x; y]) with (a ++ [x] ++ [y]) in E. rewrite app_assoc in E.
      apply app_inj_tail in E as [E ->].
      assert (X : exec N (tr ++ [EvBcast y]) s') by (apply (ex_step N tr s (Some (EvBcast y)) s'); auto).
      apply phase_order in X.
      assert (U : forall c, ends tr c -> c = x).
      { intros c [l L]. rewrite L in E. apply app_inj_tail in E as [_ ->]. auto. }
      destruct y; simpl; auto.
      * destruct X as [X _]. symmetry. auto.
      * destruct X as [[X|X] _]; apply U in X; auto.
      * destruct X as [[X|[X|X]] _]; apply U in X; auto.
    + change (x :: y :: b ++ [z]) with ((x :: y :: b) ++ [z]) in E. rewrite app_assoc in E.
      apply app_inj_tail in E as [E _]. eauto.
  - rewrite bcasts_app in E. replace (bcasts [e]) with (@nil cmd) in E by (destruct e; auto; discriminate).
    rewrite app_nil_r in E. eauto.
Qed.

Theorem phases_of_a_step : forall N tr s a b,
  exec N tr s -> bcasts tr = a ++ CSpk :: b ->
  exists keep : cmd -> bool, take_lrn b = filter keep [CPre; CLrn; CPost].
Proof.
  intros N tr s a b H E.
  assert (C : forall p x y q, CSpk :: b = p ++ x :: y :: q -> follows x y).
  { intros p x y q Eq. eapply (chain N tr s H (a ++ p) x y q). rewrite E, Eq, app_assoc. auto. }
  clear E H.
  assert (K : forall r (c : cmd) l, l = filter (fun x => match x with CPre => false | _ => r x end) [CPre;CLrn;CPost] ->
             CPre :: l = filter (fun x => match x with CPre => true | _ => r x end) [CPre;CLrn;CPost]) by (intros; subst; auto).
  destruct b as [|c1 b]; [exists (fun _ => false); auto|].
  pose proof (C [] CSpk c1 b eq_refl) as F1.
  destruct b as [|c2 b].
  { exists (cmd_eqb c1). destruct c1; auto. }
  pose proof (C [CSpk] c1 c2 b eq_refl) as F2.
  destruct b as [|c3 b].
  { exists (fun x => cmd_eqb c1 x || cmd_eqb c2 x && is_lrn c1). destruct c1, c2; simpl in *; auto; intuition discriminate. }
  pose proof (C [CSpk; c1] c2 c3 b eq_refl) as F3.
  assert (T : take_lrn (c1 :: c2 :: c3 :: b) = take_lrn [c1; c2; c3]).
  { destruct b as [|c4 b]; auto. pose proof (C [CSpk; c1; c2] c3 c4 b eq_refl) as F4.
    destruct c1; auto; destruct c2; simpl in *; auto; try (exfalso; intuition discriminate);
      destruct c3; simpl in *; auto; try (exfalso; intuition discriminate);
      destruct c4; simpl in *; auto; exfalso; intuition discriminate. }
  rewrite T.
  exists (fun x => cmd_eqb c1 x || cmd_eqb c2 x && is_lrn c1 || cmd_eqb c3 x && is_lrn c1 && is_lrn c2).
  destruct c1; simpl in *; auto; destruct c2; simpl in *; auto; try (exfalso; intuition discriminate);
    destruct c3; simpl in *; auto; exfalso; intuition discriminate.
Qed.

(** A process with a pending learning request has it before its next spiking phase; a process
    that asked for the pre-management phase is asked back and also gets a learning phase:
    every process answers the pre-management phase with a learning request. *)
Theorem pre_mgmt_requests_learning : forall o,
  raises o = false -> q_pause o = false -> q_stop o = false -> handler CPre o = Some RReqLrn.
Proof. intros o H1 H2 H3. simpl. rewrite H1, H2, H3. auto. Qed.
