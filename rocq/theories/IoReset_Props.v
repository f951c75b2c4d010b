(** C96: Reset sets the Var exactly at its steps, Read and Monitor see the value the network left, and a Reset and a Read that
    are due in the same step race. *)
From Coq Require Import List Arith ZArith QArith Qabs Bool Lia.
From Verif Require Import Build_Model PyPorts_Model PyPorts_Props IoReset_Model IoReset_Spec IoReset_Proofs.
Import ListNotations.
Open Scope nat_scope.

Section One.
Variables (cs : list client) (hs : list held) (n : nat) (t : Z) (x : value) (s : rstate value).
Hypothesis C : create_all cs = Some hs.
Hypothesis I : in_phase n hs t x s.
Hypothesis O : phase_over (length hs) s.

Lemma write_due j v : In (Write v) (requests n hs t j) ->
  exists r i o, nth_error cs j = Some (Resetter r i o) /\ due (Resetter r i o) t /\ reset_to n r v.
Proof using C.
  unfold requests. pose proof (create_all_nth cs hs j C) as E. destruct (nth_error hs j) as [h|]; [|intros []].
  destruct (nth_error cs j) as [c|]; [|destruct E]. destruct (post_guard h t) eqn:G; [|intros []].
  pose proof (proj1 (create_due c h t E) G) as D. destruct c as [r i o|i o]; simpl in E.
  - destruct (i =? 0)%Z; [discriminate|]. injection E as <-. cbn [run_post_mgmt]. intros [H|[H|[]]]; [|discriminate].
    injection H as <-. exists r, i, o. split; [reflexivity|]. split; [exact D|]. apply writes_whole.
  - destruct (i =? 0)%Z; [discriminate|]. injection E as <-. cbn [run_post_mgmt]. intros [H|[]]. discriminate.
Qed.
Lemma due_write j : resets_at cs t j -> exists v, In (Write v) (requests n hs t j).
Proof using C.
  intros (c & E & R & D). unfold requests. pose proof (create_all_nth cs hs j C) as H. rewrite E in H.
  destruct (nth_error hs j) as [h|]; [|destruct H]. rewrite (proj2 (create_due c h t H) D).
  destruct c as [r i o|i o]; [|destruct R]. simpl in H. destruct (i =? 0)%Z; [discriminate|]. injection H as <-.
  eexists. left. reflexivity.
Qed.
Lemma value_writes l : (forall v, ~ In (LOwn v) l) -> (forall j v, In (LWrite j v) l -> In (Write v) (requests n hs t j)) ->
  value_after value same x l = x \/
  exists j r i o, nth_error cs j = Some (Resetter r i o) /\ due (Resetter r i o) t /\ reset_to n r (value_after value same x l).
Proof using C.
  intros N W. destruct (value_in x l N) as [[E _]|[j J]]; [auto|]. right. apply W in J.
  destruct (write_due _ _ J) as (r & i & o & A). exists j, r, i, o. exact A.
Qed.
Lemma log_writes j v : In (LWrite j v) (log s) -> In (Write v) (requests n hs t j).
Proof using I O.
  intros H. apply log_write_served in H. destruct (phase_served n hs t x s I O) as (A & _). rewrite A in H. exact H.
Qed.

Lemma phase_after : ((forall j, ~ resets_at cs t j) -> var s = x) /\
  ((exists j, resets_at cs t j) ->
   exists j r i o, nth_error cs j = Some (Resetter r i o) /\ due (Resetter r i o) t /\ reset_to n r (var s)).
Proof using C I O.
  destruct I as [R N]. pose proof (r_var _ _ _ _ _ _ s (invR _ _ _ _ _ _ s R)) as V. split.
  - intros H. rewrite V. destruct (value_in x (log s) N) as [[E _]|[j J]]; [exact E|]. exfalso. apply log_writes in J.
    destruct (write_due _ _ J) as (r & i & o & A & B & _). apply (H j). exists (Resetter r i o). simpl. auto.
  - intros [j J]. destruct (value_in x (log s) N) as [[E Z]|[k K]].
    + exfalso. destruct (due_write j J) as [v Hv]. destruct (phase_served n hs t x s I O) as (A & _). rewrite <- A in Hv.
      apply served_log_write in Hv. exact (Z _ _ Hv).
    + rewrite <- V in K. apply log_writes in K. destruct (write_due _ _ K) as (r & i & o & A). exists k, r, i, o. exact A.
Qed.
Lemma phase_reads j i o : nth_error cs j = Some (Reader i o) ->
  (due (Reader i o) t -> exists w, got s j = [w] /\
     (w = x \/ exists k r a b, nth_error cs k = Some (Resetter r a b) /\ due (Resetter r a b) t /\ reset_to n r w)) /\
  (~ due (Reader i o) t -> got s j = []).
Proof using C I O.
  intros E. destruct (phase_served n hs t x s I O) as (A & B & _).
  pose proof (create_all_nth cs hs j C) as H. rewrite E in H. destruct (nth_error hs j) as [h|] eqn:Eh; [|destruct H].
  assert (requests n hs t j = if post_guard h t then [Read] else []) as Q.
  { unfold requests. rewrite Eh. simpl in H. destruct (i =? 0)%Z; [discriminate|]. injection H as <-. reflexivity. }
  pose proof (answers_nreads j (log s)) as L. rewrite A, Q in L. rewrite B. split.
  - intros D. rewrite (proj2 (create_due _ h t H) D) in L. destruct (answers value j (log s)) as [|w [|? ?]] eqn:F; try discriminate L.
    exists w. split; [reflexivity|]. destruct (answers_in (log s) j w) as (a & b & F2); [rewrite F; simpl; auto|].
    destruct I as [R N]. rewrite (r_log _ _ _ _ _ _ s (invR _ _ _ _ _ _ s R) a j w b F2).
    apply value_writes.
    + intros v V. apply (N v). rewrite F2. apply in_or_app. auto.
    + intros k v V. apply log_writes. rewrite F2. apply in_or_app. auto.
  - intros D. assert (post_guard h t = false) as G.
    { destruct (post_guard h t) eqn:G; [|reflexivity]. exfalso. apply D. apply (proj1 (create_due _ h t H) G). }
    rewrite G in L. destruct (answers value j (log s)); [reflexivity|discriminate].
Qed.
End One.

Lemma run_ticks n hs spk v0 k v ts : run n hs spk v0 k v ts -> length ts = k /\ v = last (map after ts) v0 /\
  forall i tk, nth_error ts i = Some tk -> spk (Z.of_nat (S i)) (last (map after (firstn i ts)) v0) (before tk) /\
    exists s, in_phase n hs (Z.of_nat (S i)) (before tk) s /\ phase_over (length hs) s /\ after tk = var s /\ obs tk = got s.
Proof.
  induction 1 as [|k v ts x s R (IH1 & IH2 & IH3) Hs Hp Ho].
  - split; [reflexivity|]. split; [reflexivity|]. intros [|i] tk; discriminate.
  - split; [rewrite app_length; simpl; lia|]. split; [rewrite map_app; cbn [map after]; rewrite last_last; reflexivity|]. intros i tk H.
    destruct (Nat.lt_ge_cases i (length ts)) as [L|L].
    + rewrite nth_error_app1 in H by exact L. rewrite firstn_app. replace (i - length ts) with 0 by lia. rewrite app_nil_r.
      apply IH3. exact H.
    + rewrite nth_error_app2 in H by exact L. destruct (i - length ts) as [|j] eqn:E; [|destruct j; discriminate].
      injection H as <-. assert (i = length ts) as -> by lia. rewrite IH1. rewrite firstn_app, <- IH1, Nat.sub_diag, firstn_all, app_nil_r.
      simpl before. simpl after. simpl obs. split; [rewrite <- IH2, IH1; exact Hs|]. exists s. rewrite IH1. auto.
Qed.

(** ** Theorems *)
(** The value of the Var: in every time step the owner's own code runs on the value left by the step before, and then
    the Var keeps that value unless a Reset is due; if Resets are due, all its elements have the (whole) value of one of
    them at the end of the step, whatever the order in which the processes run and the requests are served. *)
Theorem reset_sets_exactly_when_due cs hs spk n v0 k v ts i tk :
  create_all cs = Some hs -> run n hs spk v0 k v ts -> nth_error ts i = Some tk ->
  let t := Z.of_nat (S i) in
  spk t (last (map after (firstn i ts)) v0) (before tk) /\
  ((forall j, ~ resets_at cs t j) -> after tk = before tk) /\
  ((exists j, resets_at cs t j) ->
   exists j r a b, nth_error cs j = Some (Resetter r a b) /\ due (Resetter r a b) t /\ reset_to n r (after tk)).
Proof.
  intros C R H t. destruct (run_ticks _ _ _ _ _ _ _ R) as (_ & _ & T). destruct (T _ _ H) as (T1 & s & T2 & T3 & T4 & T5).
  split; [exact T1|]. rewrite T4. apply (phase_after cs hs n t (before tk) s C T2 T3).
Qed.
(** A single Reset: after step t the Var has its value if t-1 is offset plus a multiple of interval, and what its owner left
    in it otherwise *)
Theorem single_reset_trajectory r a b readers hs spk n v0 k v ts i tk :
  (forall c, In c readers -> ~ is_reset c) ->
  create_all (Resetter r a b :: readers) = Some hs -> run n hs spk v0 k v ts -> nth_error ts i = Some tk ->
  ((exists m, Z.of_nat i = b + m * a)%Z -> reset_to n r (after tk)) /\
  (~ (exists m, Z.of_nat i = b + m * a)%Z -> after tk = before tk).
Proof.
  intros N C R H. destruct (reset_sets_exactly_when_due _ _ _ _ _ _ _ _ _ _ C R H) as (_ & A & B).
  assert (forall j, resets_at (Resetter r a b :: readers) (Z.of_nat (S i)) j -> j = 0) as U.
  { intros j (c & E & X & _). destruct j as [|j]; [reflexivity|]. simpl in E. apply nth_error_In in E. elim (N c E X). }
  split.
  - intros [m M]. destruct B as (j & r' & a' & b' & E & D & T).
    + exists 0. exists (Resetter r a b). split; [reflexivity|]. split; [exact I|]. exists m. lia.
    + assert (j = 0) as -> by (apply U; exists (Resetter r' a' b'); split; [exact E|]; split; [exact I|exact D]).
      simpl in E. injection E as <- <- <-. exact T.
  - intros X. apply A. intros j J. pose proof (U j J). subst j. destruct J as (c & E & _ & D). simpl in E. injection E as <-.
    destruct D as [m D]. apply X. exists m. lia.
Qed.
(** A Read takes exactly one sample in each step it is due and none in others; the sample is the value the owner left in this
    step, unless a Reset is due in the same step: then it is that or the value of a Reset *)
Theorem read_samples_exactly_when_due cs hs spk n v0 k v ts i tk j a b :
  create_all cs = Some hs -> run n hs spk v0 k v ts -> nth_error ts i = Some tk -> nth_error cs j = Some (Reader a b) ->
  let t := Z.of_nat (S i) in
  (~ due (Reader a b) t -> obs tk j = []) /\
  (due (Reader a b) t -> (forall m, ~ resets_at cs t m) -> obs tk j = [before tk]) /\
  (due (Reader a b) t -> exists w, obs tk j = [w] /\ (w = before tk \/ exists m r c d, nth_error cs m = Some (Resetter r c d) /\
     due (Resetter r c d) t /\ reset_to n r w)).
Proof.
  intros C R H E t. destruct (run_ticks _ _ _ _ _ _ _ R) as (_ & _ & T). destruct (T _ _ H) as (_ & s & T2 & T3 & T4 & T5).
  rewrite T5. destruct (phase_reads cs hs n t (before tk) s C T2 T3 j a b E) as [A B].
  split; [exact B|]. split; [|exact A]. intros D N. destruct (A D) as (w & W1 & [W2|(m & r & c & d & M1 & M2 & _)]); [congruence|].
  exfalso. apply (N m). exists (Resetter r c d). split; [exact M1|]. split; [exact I|exact M2].
Qed.
(** When every process has left its run_post_mgmt, every write has taken effect and no message is left in any channel: the
    next time step starts clean.  (Reset waits for its write.) *)
Theorem reset_phase_leaves_nothing n hs t x s : in_phase n hs t x s -> phase_over (length hs) s ->
  (forall j, served value j (log s) = requests n hs t j) /\ ow s = OIdle /\ (forall j, c2v s j = [] /\ v2c s j = []).
Proof. intros I O. destruct (phase_served n hs t x s I O) as (A & _ & B). auto. Qed.
(** ... and the phase does not block: as long as it is not over, somebody can go on *)
Theorem reset_phase_goes_on n hs t x s : in_phase n hs t x s ->
  (forall s', rstep value (length hs) same same s s' -> ~ in_phase n hs t x s') -> phase_over (length hs) s.
Proof.
  intros [R N] H.
  assert (forall s', rstep value (length hs) same same s s' -> log s' = log s ->  False) as K.
  { intros s' St E. apply (H s' St). split; [eapply RRS; eauto|]. rewrite E. exact N. }
  assert (forall s', rstep value (length hs) same same s s' -> length (log s') = S (length (log s)) /\ exists v, log s' = log s ++ [LOwn v]) as Z.
  { intros s' St. pose proof (K s' St) as K'. pose proof (H s' St) as H'. pose proof (RRS _ _ _ _ _ _ _ _ R St) as R'.
    destruct St; cbn [log] in *; try (elim (K' eq_refl)).
    - exfalso. apply H'. split; [exact R'|]. cbn [log]. intros v V. apply in_app_iff in V. destruct V as [V|[V|[]]]; [exact (N v V)|discriminate].
    - exfalso. apply H'. split; [exact R'|]. cbn [log]. intros w V. apply in_app_iff in V. destruct V as [V|[V|[]]]; [exact (N w V)|discriminate].
    - rewrite app_length. simpl. split; [lia|]. exists v. reflexivity. }
  intros j J. destruct (refport_no_deadlock _ _ _ _ _ _ s R Z j J) as (P & Q & _ & G). split; [exact P|].
  pose proof (r_wait _ _ _ _ _ _ s (invR _ _ _ _ _ _ s R) j) as W. rewrite Q, G in W.
  destruct (cl s j) as [|v|] eqn:E; [reflexivity| |lia]. exfalso.
  apply (K _ (RData value (length hs) same same s j v J E)). reflexivity.
Qed.
(** Only interval 0 is refused (ZeroDivisionError), when the process is created *)
Theorem reset_interval_zero_refused c : create c = None <-> exists o, c = Reader 0 o \/ exists r, c = Resetter r 0 o.
Proof.
  destruct c as [r i o|i o]; simpl; destruct (Z.eqb_spec i 0); split; try discriminate; try reflexivity.
  - intros _. subst. exists o. right. exists r. reflexivity.
  - intros (o' & [H|(r' & H)]); [discriminate|]. injection H. congruence.
  - intros _. subst. exists o. left. reflexivity.
  - intros (o' & [H|(r' & H)]); [injection H; congruence|discriminate].
Qed.
