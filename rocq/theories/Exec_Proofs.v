(** Invariant of network executions. *)
From Coq Require Import List Arith ZArith Bool Lia.
From Verif Require Import Base Kahn PyPorts_Model Exec_Model Exec_Spec.
Import ListNotations.

Lemma eqp_spec a b : eqp a b = true <-> a = b.
Proof.
  destruct a as [a1 a2], b as [b1 b2]. unfold eqp. cbn. rewrite andb_true_iff, !Nat.eqb_eq.
  split; [intros [-> ->]; auto|intros [= -> ->]; auto].
Qed.

Lemma argmin (P : nat -> bool) (f : nat -> nat) N : (exists i, i < N /\ P i = true) ->
  exists i, i < N /\ P i = true /\ forall j, j < N -> P j = true -> f i <= f j.
Proof.
  induction N; intros (i & Hi & Pi); [lia|].
  destruct (existsb P (seq 0 N)) eqn:E.
  - apply existsb_exists in E. destruct E as (a & Ha & Pa). apply in_seq in Ha.
    destruct IHN as (b & Hb & Pb & M). { exists a. split; [lia|auto]. }
    destruct (P N) eqn:PN.
    + destruct (le_lt_dec (f b) (f N)).
      * exists b. split; [lia|]. split; auto. intros j Hj Pj. destruct (Nat.eq_dec j N); subst; auto. apply M; auto; lia.
      * exists N. split; [lia|]. split; auto. intros j Hj Pj. destruct (Nat.eq_dec j N); subst; auto.
        specialize (M j ltac:(lia) Pj). lia.
    + exists b. split; [lia|]. split; auto. intros j Hj Pj. destruct (Nat.eq_dec j N); subst; [congruence|]. apply M; auto; lia.
  - assert (forall a, a < N -> P a = false) as Z.
    { intros a Ha. destruct (P a) eqn:Pa; auto. assert (existsb P (seq 0 N) = true); [|congruence].
      apply existsb_exists. exists a. split; auto. apply in_seq; lia. }
    exists i. split; auto. split; auto. intros j Hj Pj.
    destruct (Nat.eq_dec i N), (Nat.eq_dec j N); subst; auto.
    + rewrite Z in Pj by lia. discriminate.
    + rewrite Z in Pi by lia. discriminate.
    + rewrite Z in Pi by lia. discriminate.
Qed.

Section Proofs.
Context {St : Type}.
Variable models : list (pmodel St).
Variable wires : list wire.
Variable dom : nat -> nat.
Variable cap nsteps : nat.
Hypothesis WF : wf models wires.

Notation out_chans := (out_chans wires).
Notation in_chans := (in_chans wires).
Notation msgs := (msgs wires).

Lemma chans_where_in f c : In c (chans_where wires f) <-> exists w, nth_error wires c = Some w /\ f w = true.
Proof.
  unfold chans_where. rewrite filter_In, in_seq. split.
  - intros [_ H]. destruct (nth_error wires c); [eauto|discriminate].
  - intros (w & H & F). rewrite H. split; auto. split; [lia|]. cbn. apply nth_error_Some. congruence.
Qed.
Lemma chans_where_nodup f : NoDup (chans_where wires f).
Proof. apply NoDup_filter, seq_NoDup. Qed.
Lemma out_chans_in i p c : In c (out_chans i p) <-> exists w, nth_error wires c = Some w /\ w_src w = (i, p).
Proof. unfold Exec_Model.out_chans. rewrite chans_where_in. setoid_rewrite eqp_spec. reflexivity. Qed.
Lemma in_chans_in i p c : In c (in_chans i p) <-> exists w, nth_error wires c = Some w /\ w_dst w = (i, p).
Proof. unfold Exec_Model.in_chans. rewrite chans_where_in. setoid_rewrite eqp_spec. reflexivity. Qed.

(** all channels of a list of OutPorts / InPorts *)
Definition all_out (i : nat) (ps : list nat) := flat_map (out_chans i) ps.
Definition all_in (i : nat) (qs : list (nat * nat)) := flat_map (fun q => in_chans i (fst q)) qs.
Lemma all_out_in i ps c : In c (all_out i ps) <-> exists w, nth_error wires c = Some w /\ fst (w_src w) = i /\ In (snd (w_src w)) ps.
Proof.
  unfold all_out. rewrite in_flat_map. split.
  - intros (p & Hp & Hc). apply out_chans_in in Hc. destruct Hc as (w & ? & E). exists w. rewrite E. auto.
  - intros (w & Hw & E & Hp). exists (snd (w_src w)). split; auto. apply out_chans_in. exists w. split; auto.
    rewrite <- E. destruct (w_src w); reflexivity.
Qed.
Lemma all_in_in i qs c : In c (all_in i qs) <-> exists w, nth_error wires c = Some w /\ fst (w_dst w) = i /\ In (snd (w_dst w)) (map fst qs).
Proof.
  unfold all_in. rewrite in_flat_map. split.
  - intros (p & Hp & Hc). apply in_chans_in in Hc. destruct Hc as (w & ? & E). exists w. rewrite E. split; auto. split; auto.
    cbn. apply in_map. auto.
  - intros (w & Hw & E & Hp). apply in_map_iff in Hp. destruct Hp as (q & E2 & Hq). exists q. split; auto.
    apply in_chans_in. exists w. split; auto. rewrite E2, <- E. apply surjective_pairing.
Qed.
Lemma NoDup_app_intro A (l m : list A) : NoDup l -> NoDup m -> (forall x, In x l -> ~ In x m) -> NoDup (l ++ m).
Proof.
  induction l; cbn; intros Hl Hm D; auto. inversion Hl; subst. constructor.
  - rewrite in_app_iff. intros [?|?]; [contradiction|]. eapply D; eauto.
  - apply IHl; auto.
Qed.
Lemma all_out_nodup i ps : NoDup ps -> NoDup (all_out i ps).
Proof.
  induction ps; intros H; [constructor|]. change (NoDup (out_chans i a ++ all_out i ps)). inversion H; subst.
  apply NoDup_app_intro; [apply chans_where_nodup|auto|].
  intros c Hc Hc'. apply out_chans_in in Hc. apply all_out_in in Hc'. destruct Hc as (w & Hw & E), Hc' as (w' & Hw' & _ & E').
  rewrite Hw in Hw'. injection Hw' as <-. rewrite E in E'. cbn in E'. contradiction.
Qed.
Lemma all_in_nodup i qs : NoDup (map fst qs) -> NoDup (all_in i qs).
Proof.
  induction qs; intros H; [constructor|]. change (NoDup (in_chans i (fst a) ++ all_in i qs)). inversion H; subst.
  apply NoDup_app_intro; [apply chans_where_nodup|auto|].
  intros c Hc Hc'. apply in_chans_in in Hc. apply all_in_in in Hc'. destruct Hc as (w & Hw & E), Hc' as (w' & Hw' & _ & E').
  rewrite Hw in Hw'. injection Hw' as <-. rewrite E in E'. cbn in E'. contradiction.
Qed.
Lemma in_ports_fst (m : pmodel St) : map fst (in_ports m) = seq 0 (length (ins m)).
Proof.
  unfold in_ports. generalize (seq_length (length (ins m)) 0). generalize (seq 0 (length (ins m))).
  induction (ins m) as [|a r IH]; intros [|x l] H; cbn in *; try discriminate; auto. f_equal. apply IH. lia.
Qed.

(** channels still to be sent on / received from in the current step *)
Definition to_send (i : nat) (m : pmodel St) (p : pst St) : list nat :=
  match p with
  | PEarly r _ => map fst r ++ all_out i (late m)
  | PRecv _ _ _ _ _ => all_out i (late m)
  | PLate r _ => map fst r
  | PFin _ => []
  end.
Definition to_recv (i : nat) (m : pmodel St) (p : pst St) : list nat :=
  match p with
  | PEarly _ _ => all_in i (in_ports m)
  | PRecv _ _ cur todo _ => cur ++ all_in i todo
  | PLate _ _ | PFin _ => []
  end.
Definition cnt (k : nat) (l : list nat) (c : nat) : nat := if in_dec Nat.eq_dec c l then k - 1 else k.

(** messages sent on / received from channel [c] so far *)
Definition sent (xs : list (comp St)) (c : nat) : nat :=
  match nth_error wires c with
  | Some w => match nth_error models (fst (w_src w)), nth_error xs (fst (w_src w)) with
              | Some m, Some x => cnt (started x) (to_send (fst (w_src w)) m (pc x)) c
              | _, _ => 0 end
  | None => 0 end.
Definition recvd (xs : list (comp St)) (c : nat) : nat :=
  match nth_error wires c with
  | Some w => match nth_error models (fst (w_dst w)), nth_error xs (fst (w_dst w)) with
              | Some m, Some x => cnt (started x) (to_recv (fst (w_dst w)) m (pc x)) c
              | _, _ => 0 end
  | None => 0 end.

(** *** The synchronous run that the execution follows *)
Variable sg : nat -> list St.
Variable o : nat -> nat -> nat -> vec.
Hypothesis SY : forall t, t < nsteps -> sync_step models wires (sg t) (o t) (sg (S t)).

Definition val (t c : nat) : vec :=
  match nth_error wires c with Some w => o t (fst (w_src w)) (snd (w_src w)) | None => [] end.
Definition pmsgs (t i : nat) (ps : list nat) : list (nat * vec) :=
  flat_map (fun p => map (fun c => (c, o t i p)) (out_chans i p)) ps.

Lemma msgs_pmsgs t i ps vs : map (o t i) ps = vs -> msgs i ps vs = pmsgs t i ps.
Proof.
  intros <-. unfold Exec_Model.msgs, pmsgs. induction ps; cbn; auto. f_equal. apply IHps.
Qed.
Lemma pmsgs_fst t i ps : map fst (pmsgs t i ps) = all_out i ps.
Proof.
  unfold pmsgs, all_out. induction ps; cbn; auto. rewrite map_app, IHps, map_map. cbn. rewrite map_id. auto.
Qed.
Lemma pmsgs_val t i ps c v : In (c, v) (pmsgs t i ps) -> v = val t c.
Proof.
  unfold pmsgs. rewrite in_flat_map. intros (p & Hp & H). apply in_map_iff in H. destruct H as (c' & [= -> <-] & H).
  apply out_chans_in in H. destruct H as (w & Hw & E). unfold val. rewrite Hw, E. auto.
Qed.

Definition cinv (i : nat) (m : pmodel St) (x : comp St) : Prop :=
  match pc x with
  | PFin s => nth_error (sg (started x)) i = Some s /\ started x <= nsteps
  | PEarly r s => exists t, started x = S t /\ t < nsteps /\ nth_error (sg t) i = Some s /\
                   exists pre, pmsgs t i (early m) = pre ++ r
  | PRecv dn acc cur todo s => exists t, started x = S t /\ t < nsteps /\ nth_error (sg t) i = Some s /\
      exists pd q size pre, in_ports m = pd ++ (q, size) :: todo /\
        dn = map (fun qs => in_value wires (o t) i (fst qs) (snd qs)) pd /\
        in_chans i q = pre ++ cur /\
        acc = fold_left (fun a c => vadd a (transform wires c (val t c))) pre (repeat 0%Z size)
  | PLate r s => exists t, started x = S t /\ t < nsteps /\ nth_error (sg (S t)) i = Some s /\
                   exists pre, pmsgs t i (late m) = pre ++ r
  end.

Record inv (x : state) : Prop := {
  i_len : length (comps x) = length models;
  i_lenc : length (chans x) = length wires;
  i_comp : forall i m y, nth_error models i = Some m -> nth_error (comps x) i = Some y -> cinv i m y;
  i_chan : forall c, c < length wires ->
    recvd (comps x) c <= sent (comps x) c /\
    nth_error (chans x) c = Some (map (fun t => val t c) (seq (recvd (comps x) c) (sent (comps x) c - recvd (comps x) c))) }.

(** *** The in-port loop computes the sum of the specification *)
Lemma fold_chans_where (g : nat -> vec -> vec) (h : wire -> vec -> vec) f :
  (forall c w a, nth_error wires c = Some w -> g c a = h w a) ->
  forall a, fold_left (fun a c => g c a) (chans_where wires f) a =
            fold_left (fun a w => h w a) (filter f wires) a.
Proof.
  unfold chans_where. intros G.
  assert (forall (ws : list wire) k a, (forall j w, nth_error ws j = Some w -> nth_error wires (k + j) = Some w) ->
    fold_left (fun a c => g c a)
      (filter (fun c => match nth_error wires c with Some w => f w | None => false end) (seq k (length ws))) a =
    fold_left (fun a w => h w a) (filter f ws) a) as H.
  { induction ws as [|w ws IH]; intros k a Hk; cbn; auto.
    pose proof (Hk 0 w eq_refl) as H0. rewrite Nat.add_0_r in H0. rewrite H0.
    assert (forall j w', nth_error ws j = Some w' -> nth_error wires (S k + j) = Some w') as Hk'.
    { intros j w' Hj. replace (S k + j) with (k + S j) by lia. apply Hk. auto. }
    destruct (f w); cbn; [rewrite (G _ w) by auto|]; apply IH; auto. }
  intros a. apply (H wires 0 a). auto.
Qed.
Lemma in_chans_sum t i q size :
  fold_left (fun a c => vadd a (transform wires c (val t c))) (in_chans i q) (repeat 0%Z size) = in_value wires (o t) i q size.
Proof.
  unfold Exec_Model.in_chans, in_value.
  apply (fold_chans_where (fun c a => vadd a (transform wires c (val t c)))
    (fun w a => vadd a (compose (w_tf w) (o t (fst (w_src w)) (snd (w_src w)))))).
  intros c w a Hw. unfold transform, val. rewrite Hw. auto.
Qed.

(** *** Suffix facts *)
Lemma cinv_send i m x : nth_error models i = Some m -> cinv i m x ->
  exists pre, all_out i (early m ++ late m) = pre ++ to_send i m (pc x).
Proof.
  unfold cinv, to_send. intros Hm. unfold all_out. rewrite flat_map_app. fold (all_out i (early m)) (all_out i (late m)).
  destruct (pc x) as [r s|dn acc cur todo s|r s|s].
  - intros (t & _ & _ & _ & pre & E). exists (map fst pre). rewrite <- (pmsgs_fst t i (early m)), E, map_app, app_assoc. auto.
  - intros _. eauto.
  - intros (t & _ & _ & _ & pre & E). exists (all_out i (early m) ++ map fst pre).
    rewrite <- app_assoc, <- map_app, <- E, pmsgs_fst. auto.
  - intros _. exists (all_out i (early m) ++ all_out i (late m)). rewrite app_nil_r. auto.
Qed.
Lemma cinv_recv i m x : cinv i m x -> exists pre, all_in i (in_ports m) = pre ++ to_recv i m (pc x).
Proof.
  unfold cinv, to_recv. destruct (pc x) as [r s|dn acc cur todo s|r s|s].
  - intros _. exists []. auto.
  - intros (t & _ & _ & _ & pd & q & size & pre & E & _ & F & _). exists (all_in i pd ++ pre).
    rewrite E. unfold all_in. rewrite flat_map_app. cbn. rewrite F, <- !app_assoc. auto.
  - intros _. exists (all_in i (in_ports m)). rewrite app_nil_r. auto.
  - intros _. exists (all_in i (in_ports m)). rewrite app_nil_r. auto.
Qed.
Lemma NoDup_suffix A (l m : list A) : NoDup (l ++ m) -> NoDup m.
Proof. induction l; cbn; auto. intros H. inversion H; auto. Qed.

Lemma send_nodup i m x : nth_error models i = Some m -> cinv i m x -> NoDup (to_send i m (pc x)).
Proof.
  intros Hm C. destruct (cinv_send _ _ _ Hm C) as [pre E]. apply (NoDup_suffix _ pre). rewrite <- E.
  apply all_out_nodup, (wf_ports _ _ WF). eapply nth_error_In; eauto.
Qed.
Lemma send_src i m x c : nth_error models i = Some m -> cinv i m x -> In c (to_send i m (pc x)) ->
  exists w, nth_error wires c = Some w /\ fst (w_src w) = i.
Proof.
  intros Hm C H. destruct (cinv_send _ _ _ Hm C) as [pre E].
  assert (In c (all_out i (early m ++ late m))) as H'. { rewrite E. apply in_or_app. auto. }
  apply all_out_in in H'. destruct H' as (w & ? & ? & _). eauto.
Qed.
Lemma recv_nodup i m x : cinv i m x -> NoDup (to_recv i m (pc x)).
Proof.
  intros C. destruct (cinv_recv _ _ _ C) as [pre E]. apply (NoDup_suffix _ pre). rewrite <- E.
  apply all_in_nodup. rewrite in_ports_fst. apply seq_NoDup.
Qed.
Lemma recv_dst i m x c : cinv i m x -> In c (to_recv i m (pc x)) ->
  exists w, nth_error wires c = Some w /\ fst (w_dst w) = i.
Proof.
  intros C H. destruct (cinv_recv _ _ _ C) as [pre E].
  assert (In c (all_in i (in_ports m))) as H'. { rewrite E. apply in_or_app. auto. }
  apply all_in_in in H'. destruct H' as (w & ? & ? & _). eauto.
Qed.

(** every out channel of a process is an early or a late one *)
Lemma out_in c w m : nth_error wires c = Some w -> nth_error models (fst (w_src w)) = Some m ->
  In c (all_out (fst (w_src w)) (early m ++ late m)).
Proof.
  intros Hw Hm. apply all_out_in. exists w. split; auto. split; auto.
  destruct (wf_src _ _ WF w) as (m' & Hm' & H). { eapply nth_error_In; eauto. }
  rewrite Hm in Hm'. injection Hm' as <-. auto.
Qed.
Lemma in_in c w m : nth_error wires c = Some w -> nth_error models (fst (w_dst w)) = Some m ->
  In c (all_in (fst (w_dst w)) (in_ports m)).
Proof.
  intros Hw Hm. apply all_in_in. exists w. split; auto. split; auto. rewrite in_ports_fst. apply in_seq.
  destruct (wf_dst _ _ WF w) as (m' & Hm' & H). { eapply nth_error_In; eauto. }
  rewrite Hm in Hm'. injection Hm' as <-. lia.
Qed.

(** *** Counters under an update of one component *)
Lemma sent_upd xs i m y : i < length xs -> nth_error models i = Some m -> forall c,
  sent (upd xs i y) c = match nth_error wires c with
    | Some w => if Nat.eqb (fst (w_src w)) i then cnt (started y) (to_send i m (pc y)) c else sent xs c
    | None => 0 end.
Proof.
  intros L Hm c. unfold sent. destruct (nth_error wires c) as [w|]; auto. rewrite nth_upd by auto.
  rewrite (Nat.eqb_sym i). destruct (Nat.eqb_spec (fst (w_src w)) i) as [->|]; auto. rewrite Hm. auto.
Qed.
Lemma recvd_upd xs i m y : i < length xs -> nth_error models i = Some m -> forall c,
  recvd (upd xs i y) c = match nth_error wires c with
    | Some w => if Nat.eqb (fst (w_dst w)) i then cnt (started y) (to_recv i m (pc y)) c else recvd xs c
    | None => 0 end.
Proof.
  intros L Hm c. unfold recvd. destruct (nth_error wires c) as [w|]; auto. rewrite nth_upd by auto.
  rewrite (Nat.eqb_sym i). destruct (Nat.eqb_spec (fst (w_dst w)) i) as [->|]; auto. rewrite Hm. auto.
Qed.
Lemma sent_at xs i m x c w : nth_error wires c = Some w -> fst (w_src w) = i -> nth_error models i = Some m ->
  nth_error xs i = Some x -> sent xs c = cnt (started x) (to_send i m (pc x)) c.
Proof. intros Hw <- Hm Hx. unfold sent. rewrite Hw, Hm, Hx. auto. Qed.
Lemma recvd_at xs i m x c w : nth_error wires c = Some w -> fst (w_dst w) = i -> nth_error models i = Some m ->
  nth_error xs i = Some x -> recvd xs c = cnt (started x) (to_recv i m (pc x)) c.
Proof. intros Hw <- Hm Hx. unfold recvd. rewrite Hw, Hm, Hx. auto. Qed.
Lemma cnt_in k l c : In c l -> cnt k l c = k - 1.
Proof. intros. unfold cnt. destruct (in_dec Nat.eq_dec c l); [auto|contradiction]. Qed.
Lemma cnt_out k l c : ~ In c l -> cnt k l c = k.
Proof. intros. unfold cnt. destruct (in_dec Nat.eq_dec c l); [contradiction|auto]. Qed.

(** counters do not change if the two lists do not change *)
Lemma counters_same xs i m k p p' : nth_error models i = Some m -> nth_error xs i = Some (mkComp k p) ->
  to_send i m p' = to_send i m p -> to_recv i m p' = to_recv i m p ->
  forall c, sent (upd xs i (mkComp k p')) c = sent xs c /\ recvd (upd xs i (mkComp k p')) c = recvd xs c.
Proof.
  intros Hm Hx ES ER c. pose proof (nth_lt _ _ _ _ Hx) as L. rewrite (sent_upd _ _ m), (recvd_upd _ _ m) by auto.
  cbn [started pc]. rewrite ES, ER. destruct (nth_error wires c) as [w|] eqn:Hw.
  - split.
    + destruct (Nat.eqb_spec (fst (w_src w)) i); auto. symmetry. exact (sent_at _ _ _ _ _ _ Hw ltac:(eassumption) Hm Hx).
    + destruct (Nat.eqb_spec (fst (w_dst w)) i); auto. symmetry. exact (recvd_at _ _ _ _ _ _ Hw ltac:(eassumption) Hm Hx).
  - unfold sent, recvd. rewrite Hw. auto.
Qed.
Lemma counters_send xs i m k p p' c0 : nth_error models i = Some m -> nth_error xs i = Some (mkComp (S k) p) ->
  (exists w, nth_error wires c0 = Some w /\ fst (w_src w) = i) ->
  to_send i m p = c0 :: to_send i m p' -> NoDup (to_send i m p) -> to_recv i m p' = to_recv i m p ->
  forall c, sent (upd xs i (mkComp (S k) p')) c = sent xs c + (if Nat.eqb c c0 then 1 else 0) /\
            recvd (upd xs i (mkComp (S k) p')) c = recvd xs c.
Proof.
  intros Hm Hx Hc0 ES ND ER c. pose proof (nth_lt _ _ _ _ Hx) as L. rewrite (sent_upd _ _ m), (recvd_upd _ _ m) by auto.
  cbn [started pc]. rewrite ER. destruct Hc0 as (w0 & Hw0 & E0).
  destruct (nth_error wires c) as [w|] eqn:Hw.
  - split.
    + destruct (Nat.eqb_spec (fst (w_src w)) i) as [E|E].
      * rewrite (sent_at _ _ _ _ _ _ Hw E Hm Hx). cbn [started pc]. rewrite ES in *. inversion ND; subst.
        destruct (Nat.eqb_spec c c0) as [->|Hc].
        -- rewrite cnt_out by auto. rewrite cnt_in by (left; auto). lia.
        -- unfold cnt. destruct (in_dec Nat.eq_dec c (to_send _ m p')) as [I|I].
           ++ destruct (in_dec Nat.eq_dec c (c0 :: _)) as [J|J]; [lia|]. exfalso. apply J. right. auto.
           ++ destruct (in_dec Nat.eq_dec c (c0 :: _)) as [[J|J]|J]; try lia; try congruence; contradiction.
      * destruct (Nat.eqb_spec c c0) as [->|]; [congruence|lia].
    + destruct (Nat.eqb_spec (fst (w_dst w)) i); auto. symmetry. exact (recvd_at _ _ _ _ _ _ Hw ltac:(eassumption) Hm Hx).
  - split; [|unfold recvd; rewrite Hw; auto]. unfold sent. rewrite Hw. destruct (Nat.eqb_spec c c0); [congruence|lia].
Qed.
Lemma counters_recv xs i m k p p' c0 : nth_error models i = Some m -> nth_error xs i = Some (mkComp (S k) p) ->
  (exists w, nth_error wires c0 = Some w /\ fst (w_dst w) = i) ->
  to_recv i m p = c0 :: to_recv i m p' -> NoDup (to_recv i m p) -> to_send i m p' = to_send i m p ->
  forall c, recvd (upd xs i (mkComp (S k) p')) c = recvd xs c + (if Nat.eqb c c0 then 1 else 0) /\
            sent (upd xs i (mkComp (S k) p')) c = sent xs c.
Proof.
  intros Hm Hx Hc0 ES ND ER c. pose proof (nth_lt _ _ _ _ Hx) as L. rewrite (sent_upd _ _ m), (recvd_upd _ _ m) by auto.
  cbn [started pc]. rewrite ER. destruct Hc0 as (w0 & Hw0 & E0).
  destruct (nth_error wires c) as [w|] eqn:Hw.
  - split.
    + destruct (Nat.eqb_spec (fst (w_dst w)) i) as [E|E].
      * rewrite (recvd_at _ _ _ _ _ _ Hw E Hm Hx). cbn [started pc]. rewrite ES in *. inversion ND; subst.
        destruct (Nat.eqb_spec c c0) as [->|Hc].
        -- rewrite cnt_out by auto. rewrite cnt_in by (left; auto). lia.
        -- unfold cnt. destruct (in_dec Nat.eq_dec c (to_recv _ m p')) as [I|I].
           ++ destruct (in_dec Nat.eq_dec c (c0 :: _)) as [J|J]; [lia|]. exfalso. apply J. right. auto.
           ++ destruct (in_dec Nat.eq_dec c (c0 :: _)) as [[J|J]|J]; try lia; try congruence; contradiction.
      * destruct (Nat.eqb_spec c c0) as [->|]; [congruence|lia].
    + destruct (Nat.eqb_spec (fst (w_src w)) i); auto. symmetry. exact (sent_at _ _ _ _ _ _ Hw ltac:(eassumption) Hm Hx).
  - split; [|unfold sent; rewrite Hw; auto]. unfold recvd. rewrite Hw. destruct (Nat.eqb_spec c c0); [congruence|lia].
Qed.
Lemma counters_start xs i m k s p' : nth_error models i = Some m -> nth_error xs i = Some (mkComp k (PFin s)) ->
  to_send i m p' = all_out i (early m ++ late m) -> to_recv i m p' = all_in i (in_ports m) ->
  forall c, sent (upd xs i (mkComp (S k) p')) c = sent xs c /\ recvd (upd xs i (mkComp (S k) p')) c = recvd xs c.
Proof.
  intros Hm Hx ES ER c. pose proof (nth_lt _ _ _ _ Hx) as L. rewrite (sent_upd _ _ m), (recvd_upd _ _ m) by auto.
  cbn [started pc]. rewrite ES, ER. destruct (nth_error wires c) as [w|] eqn:Hw.
  - split.
    + destruct (Nat.eqb_spec (fst (w_src w)) i) as [E|]; auto. rewrite (sent_at _ _ _ _ _ _ Hw E Hm Hx). cbn.
      rewrite cnt_in; [unfold cnt; cbn; lia|]. subst i. apply out_in; auto.
    + destruct (Nat.eqb_spec (fst (w_dst w)) i) as [E|]; auto. rewrite (recvd_at _ _ _ _ _ _ Hw E Hm Hx). cbn.
      rewrite cnt_in; [unfold cnt; cbn; lia|]. subst i. apply in_in; auto.
  - unfold sent, recvd. rewrite Hw. auto.
Qed.

(** *** Preservation *)
Lemma seq_snoc a n : seq a (n + 1) = seq a n ++ [a + n].
Proof. rewrite seq_app. auto. Qed.

Lemma chan_send x i y m c v k p p' q : inv x -> nth_error models i = Some m -> nth_error (comps x) i = Some (mkComp (S k) p) ->
  to_send i m p = c :: to_send i m p' -> to_recv i m p' = to_recv i m p -> v = val k c ->
  cinv i m (mkComp (S k) p') -> nth_error (chans x) c = Some q ->
  y = mkNet (upd (comps x) i (mkComp (S k) p')) (upd (chans x) c (q ++ [v])) -> inv y.
Proof.
  intros I Hm Hx ES ER -> CI Hq ->. pose proof (i_comp _ I _ _ _ Hm Hx) as C0.
  pose proof (nth_lt _ _ _ _ Hx) as L. pose proof (nth_lt _ _ _ _ Hq) as Lq.
  assert (exists w, nth_error wires c = Some w /\ fst (w_src w) = i) as Hw.
  { eapply send_src; eauto. cbn. rewrite ES. left. auto. }
  pose proof (send_nodup _ _ _ Hm C0) as ND. cbn in ND.
  pose proof (counters_send _ _ _ _ _ _ _ Hm Hx Hw ES ND ER) as K.
  split; cbn.
  - rewrite upd_length. apply (i_len _ I).
  - rewrite upd_length. apply (i_lenc _ I).
  - intros j mj yj Hmj Hyj. rewrite nth_upd in Hyj by auto. destruct (Nat.eqb_spec i j) as [->|].
    + injection Hyj as <-. rewrite Hm in Hmj. injection Hmj as <-. auto.
    + eapply (i_comp _ I); eauto.
  - intros c' Hc'. destruct (K c') as [K1 K2]. rewrite K1, K2. destruct (i_chan _ I c' Hc') as [LE Q].
    split; [lia|]. rewrite nth_upd by auto. rewrite (Nat.eqb_sym c c'). destruct (Nat.eqb_spec c' c) as [->|].
    + rewrite Hq in Q. injection Q as ->.
      replace (sent (comps x) c + 1 - recvd (comps x) c) with (sent (comps x) c - recvd (comps x) c + 1) by lia.
      rewrite seq_snoc, map_app. cbn. do 3 f_equal.
      destruct Hw as (w & Hw & E). rewrite (sent_at _ _ _ _ _ _ Hw E Hm Hx) in *. cbn [started pc] in *.
      rewrite ES in *. rewrite cnt_in in * by (left; auto). f_equal. lia.
    + rewrite Nat.add_0_r. auto.
Qed.

Lemma body_ok t i m s : t < nsteps -> nth_error models i = Some m -> nth_error (sg t) i = Some s ->
  let r := body m s (in_values wires (o t) i m) in
  nth_error (sg (S t)) i = Some (fst r) /\ msgs i (late m) (snd r) = pmsgs t i (late m).
Proof.
  intros Ht Hm Hs. destruct (SY t Ht) as [_ _ SL SS]. split; [eapply SS; eauto|]. apply msgs_pmsgs. eapply SL; eauto.
Qed.

Lemma enter_ok i m t pd todo s : nth_error models i = Some m -> t < nsteps -> nth_error (sg t) i = Some s ->
  in_ports m = pd ++ todo ->
  let p := enter wires i m (map (fun qs => in_value wires (o t) i (fst qs) (snd qs)) pd) todo s in
  cinv i m (mkComp (S t) p) /\ to_send i m p = all_out i (late m) /\ to_recv i m p = all_in i todo.
Proof.
  intros Hm Ht Hs E. destruct todo as [|[q size] r]; cbn [enter].
  - rewrite app_nil_r in E. destruct (body_ok t i m s Ht Hm Hs) as [B1 B2].
    assert (in_values wires (o t) i m = map (fun qs => in_value wires (o t) i (fst qs) (snd qs)) pd) as EV.
    { unfold in_values. unfold in_ports in E. rewrite E. auto. }
    rewrite EV in B1, B2. destruct (body m s _) as [s' vs] eqn:EB. cbn [fst snd] in *. rewrite B2. split; [|split].
    + exists t. cbn. split; auto. split; auto. split; auto. exists []. auto.
    + cbn. apply pmsgs_fst.
    + auto.
  - split; [|auto]. exists t. cbn. split; auto. split; auto. split; auto. exists pd, q, size, []. auto.
Qed.

Theorem inv_step x i y : inv x -> estep models wires dom cap nsteps x i y -> inv y.
Proof.
  intros I St0. destruct St0 as [m k p c v p' q Hm Hx Hp Hq Hl|m k p c f v q Hm Hx Hp Hq|m k p p' Hm Hx Hp|m k s Hm Hx Hk Hb].
  - (* send *)
    pose proof (i_comp _ I _ _ _ Hm Hx) as C. destruct p as [[|[c1 v1] r] s|dn acc [|c1 cur] todo s|[|[c1 v1] r] s|s]; try discriminate.
    + cbn in Hp. injection Hp as -> -> <-. destruct C as (t & Ek & Ht & Hs & pre & E). cbn in Ek. subst k.
      apply (chan_send x i _ m c v t _ (PEarly r s) q I Hm Hx); auto.
      * eapply pmsgs_val. rewrite E. apply in_or_app. right. left. auto.
      * exists t. cbn. split; auto. split; auto. split; auto. exists (pre ++ [(c, v)]). rewrite <- app_assoc. auto.
    + cbn in Hp. injection Hp as -> -> <-. destruct C as (t & Ek & Ht & Hs & pre & E). cbn in Ek. subst k.
      apply (chan_send x i _ m c v t _ (PLate r s) q I Hm Hx); auto.
      * eapply pmsgs_val. rewrite E. apply in_or_app. right. left. auto.
      * exists t. cbn. split; auto. split; auto. split; auto. exists (pre ++ [(c, v)]). rewrite <- app_assoc. auto.
  - (* receive *)
    pose proof (i_comp _ I _ _ _ Hm Hx) as C. destruct p as [[|[c1 v1] r] s|dn acc [|c1 cur] todo s|[|[c1 v1] r] s|s]; try discriminate.
    cbn in Hp. injection Hp as -> <-. pose proof C as C0. destruct C as (t & Ek & Ht & Hs & pd & q0 & size & pre & E1 & E2 & E3 & E4).
    cbn in Ek. subst k. pose proof (nth_lt _ _ _ _ Hx) as L. pose proof (nth_lt _ _ _ _ Hq) as Lq.
    assert (exists w, nth_error wires c = Some w /\ fst (w_dst w) = i) as Hw.
    { eapply recv_dst; eauto. cbn. left. auto. }
    pose proof (recv_nodup _ _ _ C0) as ND. cbn in ND.
    assert (c < length wires) as Lc. { rewrite <- (i_lenc _ I). auto. }
    destruct (i_chan _ I c Lc) as [LE Q]. rewrite Hq in Q. injection Q as Q.
    destruct (sent (comps x) c - recvd (comps x) c) as [|d] eqn:Ed; [discriminate|]. cbn in Q. injection Q as Q1 Q2.
    assert (recvd (comps x) c = t) as Er.
    { destruct Hw as (w & Hw & E). rewrite (recvd_at _ _ _ _ _ _ Hw E Hm Hx). cbn [started pc to_recv].
      rewrite cnt_in by (left; auto). lia. }
    pose proof (counters_recv (comps x) i m t _ (PRecv dn (vadd acc (transform wires c v)) cur todo s) c Hm Hx Hw eq_refl ND eq_refl) as K.
    split; cbn.
    + rewrite upd_length. apply (i_len _ I).
    + rewrite upd_length. apply (i_lenc _ I).
    + intros j mj yj Hmj Hyj. rewrite nth_upd in Hyj by auto. destruct (Nat.eqb_spec i j) as [->|].
      * injection Hyj as <-. rewrite Hm in Hmj. injection Hmj as <-. exists t. cbn. split; auto. split; auto. split; auto.
        exists pd, q0, size, (pre ++ [c]). split; auto. split; auto. split; [rewrite <- app_assoc; auto|].
        rewrite fold_left_app. cbn. rewrite <- E4, Q1, Er. auto.
      * eapply (i_comp _ I); eauto.
    + intros c' Hc'. destruct (K c') as [K1 K2]. rewrite K1, K2. destruct (i_chan _ I c' Hc') as [LE' Q'].
      rewrite nth_upd by auto. rewrite (Nat.eqb_sym c c'). destruct (Nat.eqb_spec c' c) as [->|].
      * split; [lia|]. rewrite Q2. do 3 f_equal; lia.
      * rewrite Nat.add_0_r. auto.
  - (* tau *)
    pose proof (i_comp _ I _ _ _ Hm Hx) as C. pose proof (nth_lt _ _ _ _ Hx) as L.
    assert (cinv i m (mkComp k p') /\ to_send i m p' = to_send i m p /\ to_recv i m p' = to_recv i m p) as (C' & ES & ER).
    { destruct p as [[|[c1 v1] r] s|dn acc [|c1 cur] todo s|[|[c1 v1] r] s|s]; try discriminate; cbn in Hp; injection Hp as <-.
      - destruct C as (t & Ek & Ht & Hs & _). cbn in Ek. subst k. apply (enter_ok i m t [] (in_ports m)); auto.
      - destruct C as (t & Ek & Ht & Hs & pd & q0 & size & pre & E1 & E2 & E3 & E4). cbn in Ek. subst k dn.
        rewrite app_nil_r in E3. subst pre. rewrite in_chans_sum in E4. subst acc.
        replace (map (fun qs => in_value wires (o t) i (fst qs) (snd qs)) pd ++ [in_value wires (o t) i q0 size])
          with (map (fun qs => in_value wires (o t) i (fst qs) (snd qs)) (pd ++ [(q0, size)])) by (rewrite map_app; auto).
        apply (enter_ok i m t (pd ++ [(q0, size)]) todo); auto. rewrite <- app_assoc. auto.
      - destruct C as (t & Ek & Ht & Hs & _). cbn in Ek. subst k. cbn. auto. }
    pose proof (counters_same _ _ _ _ _ _ Hm Hx ES ER) as K.
    split; cbn.
    + rewrite upd_length. apply (i_len _ I).
    + apply (i_lenc _ I).
    + intros j mj yj Hmj Hyj. rewrite nth_upd in Hyj by auto. destruct (Nat.eqb_spec i j) as [->|].
      * injection Hyj as <-. rewrite Hm in Hmj. injection Hmj as <-. auto.
      * eapply (i_comp _ I); eauto.
    + intros c' Hc'. destruct (K c') as [K1 K2]. rewrite K1, K2. apply (i_chan _ I c' Hc').
  - (* start *)
    pose proof (i_comp _ I _ _ _ Hm Hx) as C. pose proof (nth_lt _ _ _ _ Hx) as L. destruct C as [Hs _]. cbn in Hs.
    assert (msgs i (early m) (early_vals m s) = pmsgs k i (early m)) as EM.
    { apply msgs_pmsgs. destruct (SY k Hk) as [_ SE _ _]. eapply SE; eauto. }
    pose proof (counters_start (comps x) i m k s (begin_step wires i m s) Hm Hx) as K.
    unfold begin_step in *. rewrite EM in *. cbn [to_send to_recv] in K. rewrite pmsgs_fst in K.
    specialize (K (eq_sym (flat_map_app _ _ _)) eq_refl).
    split; cbn.
    + rewrite upd_length. apply (i_len _ I).
    + apply (i_lenc _ I).
    + intros j mj yj Hmj Hyj. rewrite nth_upd in Hyj by auto. destruct (Nat.eqb_spec i j) as [->|].
      * injection Hyj as <-. rewrite Hm in Hmj. injection Hmj as <-. exists k. cbn. split; auto. split; auto. split; auto.
        exists []. auto.
      * eapply (i_comp _ I); eauto.
    + intros c' Hc'. destruct (K c') as [K1 K2]. rewrite K1, K2. apply (i_chan _ I c' Hc').
Qed.

Lemma nth_error_lt A (l : list A) i : i < length l -> exists x, nth_error l i = Some x.
Proof. intros H. destruct (nth_error l i) eqn:E; [eauto|]. apply nth_error_None in E. lia. Qed.

Theorem inv_idle : length (sg 0) = length models -> inv (idle wires 0 (sg 0)).
Proof.
  intros L. unfold idle. split; cbn.
  - rewrite map_length. auto.
  - apply map_length.
  - intros i m y Hm Hy. rewrite nth_error_map in Hy. destruct (nth_error (sg 0) i) eqn:E; [|discriminate].
    injection Hy as <-. cbn. split; [auto|lia].
  - intros c Hc. destruct (nth_error_lt _ _ _ Hc) as [w Hw].
    assert (forall xs c', (forall j y, nth_error xs j = Some y -> started y = 0) -> sent xs c' = 0 /\ recvd xs c' = 0) as Z.
    { intros xs c' H. unfold sent, recvd. destruct (nth_error wires c') as [w'|]; auto. split.
      - destruct (nth_error models (fst (w_src w'))), (nth_error xs (fst (w_src w'))) eqn:E; auto.
        unfold cnt. rewrite (H _ _ E). destruct (in_dec _ _ _); auto.
      - destruct (nth_error models (fst (w_dst w'))), (nth_error xs (fst (w_dst w'))) eqn:E; auto.
        unfold cnt. rewrite (H _ _ E). destruct (in_dec _ _ _); auto. }
    destruct (Z (map (fun s => mkComp 0 (PFin s)) (sg 0)) c) as [-> ->].
    { intros j y Hj. rewrite nth_error_map in Hj. destruct (nth_error (sg 0) j); [|discriminate]. injection Hj as <-. auto. }
    split; auto. cbn. rewrite nth_error_map, Hw. auto.
Qed.

(** *** Progress *)
Hypothesis CAP : 0 < cap.
Variable rank : nat -> nat.
Hypothesis RANK : forall w, In w wires -> late_wire models w -> rank (fst (w_src w)) < rank (fst (w_dst w)).

Definition fin_of (xs : list (comp St)) (i : nat) : nat := match nth_error xs i with Some x => finished x | None => 0 end.

Lemma sent_ge xs i m x c w : nth_error wires c = Some w -> fst (w_src w) = i -> nth_error models i = Some m ->
  nth_error xs i = Some x -> finished x <= sent xs c.
Proof.
  intros Hw E Hm Hx. rewrite (sent_at _ _ _ _ _ _ Hw E Hm Hx). unfold finished, cnt.
  destruct (pc x); cbn [to_send]; try (destruct (in_dec _ _ _); lia).
  cbn. lia.
Qed.
Lemma recvd_ge xs i m x c w : nth_error wires c = Some w -> fst (w_dst w) = i -> nth_error models i = Some m ->
  nth_error xs i = Some x -> finished x <= recvd xs c.
Proof.
  intros Hw E Hm Hx. rewrite (recvd_at _ _ _ _ _ _ Hw E Hm Hx). unfold finished, cnt.
  destruct (pc x); cbn [to_recv]; try (destruct (in_dec _ _ _); lia).
  cbn. lia.
Qed.

(** a process with the least number of completed steps can always send *)
Lemma can_send x i m k p c v p' : inv x -> nth_error models i = Some m -> nth_error (comps x) i = Some (mkComp (S k) p) ->
  pact wires i m p = Snd c v p' -> In c (to_send i m p) ->
  (forall j y, nth_error (comps x) j = Some y -> k <= finished y) ->
  exists y, enext models wires dom cap nsteps x y.
Proof.
  intros I Hm Hx Hp Hc Hmin. pose proof (i_comp _ I _ _ _ Hm Hx) as C.
  destruct (send_src _ _ _ _ Hm C Hc) as (w & Hw & E).
  assert (c < length wires) as Lc by (apply nth_error_Some; congruence).
  destruct (i_chan _ I c Lc) as [LE Q].
  pose proof (sent_at _ _ _ _ _ _ Hw E Hm Hx) as ES. cbn [started pc] in ES. rewrite cnt_in in ES by auto.
  destruct (wf_dst _ _ WF w) as (md & Hmd & _). { eapply nth_error_In; eauto. }
  destruct (nth_error_lt _ (comps x) (fst (w_dst w))) as [yd Hyd].
  { rewrite (i_len _ I). apply nth_error_Some. congruence. }
  pose proof (recvd_ge _ _ _ _ _ _ Hw eq_refl Hmd Hyd) as RG. pose proof (Hmin _ _ Hyd) as HM.
  replace (sent (comps x) c - recvd (comps x) c) with 0 in Q by lia. cbn in Q.
  eexists. exists i. eapply ESnd; eauto.
Qed.

Theorem progress x : inv x -> (exists i y, nth_error (comps x) i = Some y /\ finished y < nsteps) ->
  exists y, enext models wires dom cap nsteps x y.
Proof.
  intros I (i0 & y0 & Hi0 & Hf0).
  pose proof (i_len _ I) as LEN.
  (* the least number of completed steps *)
  destruct (argmin (fun _ => true) (fin_of (comps x)) (length models)) as (a & Ha & _ & Hmin).
  { exists i0. split; auto. rewrite <- LEN. apply nth_error_Some. congruence. }
  destruct (nth_error_lt _ (comps x) a) as [ya Hya]. { rewrite LEN. auto. }
  set (t := finished ya).
  assert (forall j y, nth_error (comps x) j = Some y -> t <= finished y) as Hm0.
  { intros j y Hj. specialize (Hmin j). unfold fin_of in Hmin. rewrite Hj, Hya in Hmin. apply Hmin; auto.
    rewrite <- LEN. apply nth_error_Some. congruence. }
  assert (t < nsteps) as Ht. { pose proof (Hm0 _ _ Hi0). lia. }
  (* choose among those: first one that has not started or is sending early, else least rank *)
  set (least := fun j => match nth_error (comps x) j with Some y => Nat.eqb (finished y) t | None => false end).
  set (first := fun j => least j && match nth_error (comps x) j with
                                    | Some (mkComp _ (PFin _)) | Some (mkComp _ (PEarly _ _)) => true | _ => false end).
  destruct (existsb first (seq 0 (length models))) eqn:EX.
  - apply existsb_exists in EX. destruct EX as (j & Hj & Fj). apply in_seq in Hj.
    unfold first, least in Fj. destruct (nth_error_lt _ models j ltac:(lia)) as [m Hm].
    destruct (nth_error (comps x) j) as [[k p]|] eqn:Hy; [|discriminate].
    apply andb_prop in Fj. destruct Fj as [F1 F2]. apply Nat.eqb_eq in F1.
    pose proof (i_comp _ I _ _ _ Hm Hy) as C. unfold finished in F1. cbn in F1.
    destruct p as [[|[c v] r] s|dn acc cur todo s|r s|s]; try discriminate.
    + eexists. exists j. eapply ETau; eauto. reflexivity.
    + destruct C as (t' & Ek & _). cbn in Ek. subst k. cbn in F1. rewrite Nat.sub_0_r in F1. subst t'.
      eapply (can_send x j m t _ c v); eauto; [reflexivity|]. cbn. left. auto.
    + subst k. eexists. exists j. eapply EStart; eauto.
  - assert (forall j y, nth_error (comps x) j = Some y -> finished y = t ->
              match pc y with PFin _ | PEarly _ _ => False | _ => True end) as NF.
    { intros j y Hy Fy. destruct (existsb first (seq 0 (length models))) eqn:EX'; [discriminate|].
      assert (first j = false) as Fj.
      { destruct (first j) eqn:Fj; auto. assert (existsb first (seq 0 (length models)) = true); [|congruence].
        apply existsb_exists. exists j. split; auto. apply in_seq. split; [lia|]. cbn. rewrite <- LEN. apply nth_error_Some. congruence. }
      unfold first, least in Fj. rewrite Hy in Fj. apply Nat.eqb_eq in Fy. rewrite Fy in Fj. cbn in Fj.
      destruct y as [k p]. destruct p; cbn; auto; discriminate. }
    destruct (argmin least rank (length models)) as (i & Hi & Li & Hr).
    { exists a. split; auto. unfold least. rewrite Hya. apply Nat.eqb_refl. }
    unfold least in Li. destruct (nth_error (comps x) i) as [[k p]|] eqn:Hx; [|discriminate]. apply Nat.eqb_eq in Li.
    destruct (nth_error_lt _ models i Hi) as [m Hm].
    pose proof (NF _ _ Hx Li) as NFi. pose proof (i_comp _ I _ _ _ Hm Hx) as C. cbn in NFi.
    destruct p as [r s|dn acc [|c cur] todo s|[|[c v] r] s|s]; try contradiction.
    + eexists. exists i. eapply ETau; eauto. reflexivity.
    + destruct C as (t' & Ek & C'). cbn in Ek. subst k. unfold finished in Li. cbn in Li. rewrite Nat.sub_0_r in Li. subst t'.
      pose proof (i_comp _ I _ _ _ Hm Hx) as C.
      destruct (recv_dst _ _ _ c C) as (w & Hw & E). { cbn. left. auto. }
      assert (c < length wires) as Lc by (apply nth_error_Some; congruence).
      destruct (i_chan _ I c Lc) as [LE Q].
      pose proof (recvd_at _ _ _ _ _ _ Hw E Hm Hx) as ER. cbn [started pc to_recv] in ER.
      rewrite cnt_in in ER by (left; auto). replace (S t - 1) with t in ER by lia.
      assert (t < sent (comps x) c) as SG.
      { destruct (wf_src _ _ WF w) as (ms & Hms & Hport). { eapply nth_error_In; eauto. }
        destruct (nth_error_lt _ (comps x) (fst (w_src w))) as [ys Hys].
        { rewrite LEN. apply nth_error_Some. congruence. }
        pose proof (sent_ge _ _ _ _ _ _ Hw eq_refl Hms Hys) as SG. pose proof (Hm0 _ _ Hys) as G.
        destruct (Nat.eq_dec (finished ys) t) as [Eq|]; [|lia].
        pose proof (NF _ _ Hys Eq) as NFs.
        assert (~ late_wire models w) as NL.
        { intros NL. apply RANK in NL; [|eapply nth_error_In; eauto]. rewrite E in NL.
          specialize (Hr (fst (w_src w))). unfold least in Hr. rewrite Hys in Hr. apply Nat.eqb_eq in Eq. rewrite Eq in Hr.
          specialize (Hr ltac:(apply nth_error_Some; congruence) eq_refl). lia. }
        assert (~ In (snd (w_src w)) (late ms)) as NL'. { intros H. apply NL. exists ms. auto. }
        pose proof (i_comp _ I _ _ _ Hms Hys) as Cs.
        rewrite (sent_at _ _ _ _ _ _ Hw eq_refl Hms Hys).
        assert (~ In c (to_send (fst (w_src w)) ms (pc ys))) as NI.
        { assert (forall c', In c' (all_out (fst (w_src w)) (late ms)) -> c' <> c) as NA.
          { intros c' H ->. apply all_out_in in H. destruct H as (w' & Hw' & _ & H). rewrite Hw in Hw'. injection Hw' as <-. auto. }
          destruct ys as [ks ps]. cbn in *. destruct ps as [rs ss|? ? ? ? ?|rs ss|ss]; try contradiction; cbn.
          - intros H. eapply NA; eauto.
          - destruct Cs as (t' & _ & _ & _ & pre & Ep). intros H. eapply NA; [|reflexivity].
            rewrite <- (pmsgs_fst t'), Ep, map_app. apply in_or_app. auto. }
        rewrite cnt_out by auto. unfold finished in Eq. destruct ys as [ks ps]. cbn in *.
        destruct ps as [rs ss|? ? ? ? ?|rs ss|ss]; try contradiction.
        - destruct Cs as (t' & Ek & _). cbn in Ek. lia.
        - destruct Cs as (t' & Ek & _). cbn in Ek. lia. }
      destruct (sent (comps x) c - recvd (comps x) c) as [|d] eqn:Ed; [lia|]. cbn in Q.
      eexists. exists i. eapply ERcv; eauto. reflexivity.
    + eexists. exists i. eapply ETau; eauto. reflexivity.
    + destruct C as (t' & Ek & _). cbn in Ek. subst k. unfold finished in Li. cbn in Li. rewrite Nat.sub_0_r in Li. subst t'.
      eapply (can_send x i m t _ c v); eauto; [reflexivity|]. cbn. left. auto.
Qed.

End Proofs.
