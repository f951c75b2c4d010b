(** C81: a network of processes computes its equations, whatever the schedule, and never deadlocks unless
    processes wait for each other in a circle.  See Exec_Spec for the equations. *)
From Coq Require Import List Arith ZArith Bool Lia.
From Verif Require Import Base Kahn PyPorts_Model Exec_Model Exec_Spec Exec_Proofs.
Import ListNotations.

Section Theory.
Context {St : Type}.
Variable models : list (pmodel St).
Variable wires : list wire.
Hypothesis WF : wf models wires.

(** *** Processes that wait for each other, computed *)
Definition memb (x : nat) (l : list nat) : bool := existsb (Nat.eqb x) l.
Lemma memb_in x l : memb x l = true <-> In x l.
Proof.
  unfold memb. rewrite existsb_exists. split.
  - intros (y & H & E). apply Nat.eqb_eq in E. subst. auto.
  - intros H. exists x. split; auto. apply Nat.eqb_refl.
Qed.
Definition lateb (w : wire) : bool :=
  match nth_error models (fst (w_src w)) with Some m => memb (snd (w_src w)) (late m) | None => false end.
Lemma lateb_spec w : lateb w = true <-> late_wire models w.
Proof.
  unfold lateb, late_wire. destruct (nth_error models (fst (w_src w))) as [m|].
  - rewrite memb_in. split; [eauto|]. intros (m' & [= <-] & H). auto.
  - split; [discriminate|]. intros (m' & H & _). discriminate.
Qed.
Definition waits (l : list nat) (i : nat) : bool :=
  existsb (fun w => Nat.eqb (fst (w_dst w)) i && (lateb w && memb (fst (w_src w)) l)) wires.
Lemma waits_spec l i : waits l i = true <->
  exists w, In w wires /\ fst (w_dst w) = i /\ late_wire models w /\ In (fst (w_src w)) l.
Proof.
  unfold waits. rewrite existsb_exists. split.
  - intros (w & Hw & H). apply andb_prop in H. destruct H as [H1 H]. apply andb_prop in H. destruct H as [H2 H3].
    apply Nat.eqb_eq in H1. apply lateb_spec in H2. apply memb_in in H3. eauto.
  - intros (w & Hw & H1 & H2 & H3). exists w. split; auto. apply lateb_spec in H2. apply memb_in in H3.
    rewrite H2, H3. apply Nat.eqb_eq in H1. rewrite H1. auto.
Qed.
Definition prune (l : list nat) : list nat := filter (waits l) l.
Fixpoint pruned (k : nat) : list nat :=
  match k with O => seq 0 (length models) | S k' => prune (pruned k') end.
Lemma filter_full A (f : A -> bool) l : length (filter f l) = length l -> filter f l = l.
Proof.
  induction l; cbn; auto. destruct (f a) eqn:E; cbn; intros H; [f_equal; auto|].
  assert (length (filter f l) <= length l). { clear. induction l; cbn; auto. destruct (f a); cbn; lia. } lia.
Qed.
Lemma filter_shorter A (f : A -> bool) l : length (filter f l) <= length l.
Proof. induction l; cbn; auto. destruct (f a); cbn; lia. Qed.
Lemma prune_stable : exists k, prune (pruned k) = pruned k.
Proof.
  assert (forall n k, length (pruned k) <= n -> exists k', prune (pruned k') = pruned k') as H.
  { induction n; intros k Hk.
    - exists k. destruct (pruned k); auto. cbn in Hk. lia.
    - destruct (Nat.eq_dec (length (prune (pruned k))) (length (pruned k))) as [E|E].
      + exists k. apply filter_full. auto.
      + apply (IHn (S k)). cbn. pose proof (filter_shorter _ (waits (pruned k)) (pruned k)). unfold prune in *. lia. }
  apply (H (length (pruned 0)) 0). auto.
Qed.
Lemma pruned_mono k k' i : k <= k' -> In i (pruned k') -> In i (pruned k).
Proof.
  induction 1; auto. cbn. unfold prune. rewrite filter_In. intros [? _]. auto.
Qed.
Lemma pruned_late w k : In w wires -> late_wire models w -> In (fst (w_src w)) (pruned k) ->
  In (fst (w_dst w)) (pruned k) /\ In (fst (w_dst w)) (pruned (S k)).
Proof.
  intros Hw Hl. induction k; intros H.
  - assert (In (fst (w_dst w)) (pruned 0)) as D.
    { cbn. apply in_seq. destruct (wf_dst _ _ WF w Hw) as (m & Hm & _). split; [lia|]. cbn. apply nth_error_Some. congruence. }
    split; auto. cbn [pruned]. unfold prune. apply filter_In. split; auto. apply waits_spec. exists w. auto.
  - assert (In (fst (w_dst w)) (pruned (S k))) as D.
    { apply IHk. eapply pruned_mono; [|exact H]. lia. }
    split; auto. change (pruned (S (S k))) with (prune (pruned (S k))). unfold prune. apply filter_In. split; auto.
    apply waits_spec. exists w. auto.
Qed.

Fixpoint rk (fuel k i : nat) : nat :=
  match fuel with O => k | S f => if memb i (pruned k) then rk f (S k) i else k end.
Lemma rk_spec fuel : forall k i, (forall j, j < k -> In i (pruned j)) -> pruned (fuel + k) = [] ->
  ~ In i (pruned (rk fuel k i)) /\ forall j, j < rk fuel k i -> In i (pruned j).
Proof.
  induction fuel; intros k i H0 E; cbn in *.
  - rewrite E. auto.
  - destruct (memb i (pruned k)) eqn:M.
    + apply memb_in in M. apply IHfuel.
      * intros j Hj. destruct (Nat.eq_dec j k); subst; auto. apply H0. lia.
      * rewrite Nat.add_succ_r. auto.
    + split; auto. rewrite <- memb_in. congruence.
Qed.

Lemma no_feedback_rank : ~ (exists C, feedback models wires C) ->
  exists rank, forall w, In w wires -> late_wire models w -> rank (fst (w_src w)) < rank (fst (w_dst w)).
Proof.
  intros NF. destruct prune_stable as [K HK].
  assert (pruned K = []) as E.
  { destruct (pruned K) as [|a r] eqn:E; auto. exfalso. apply NF. exists (fun i => In i (pruned K)). rewrite <- E in HK. split.
    - exists a. rewrite E. left. auto.
    - intros i Hi. rewrite <- HK in Hi. unfold prune in Hi. apply filter_In in Hi. destruct Hi as [_ Hi].
      apply waits_spec in Hi. destruct Hi as (w & ? & ? & ? & ?). eauto. }
  exists (rk K 0). intros w Hw Hl.
  assert (forall i, ~ In i (pruned (rk K 0 i)) /\ forall j, j < rk K 0 i -> In i (pruned j)) as R.
  { intros i. apply rk_spec; [intros; lia|]. rewrite Nat.add_0_r. auto. }
  destruct (R (fst (w_src w))) as [R1 R2], (R (fst (w_dst w))) as [R3 R4].
  destruct (le_lt_dec (rk K 0 (fst (w_dst w))) (rk K 0 (fst (w_src w)))) as [LE|]; auto. exfalso.
  destruct (rk K 0 (fst (w_src w))) as [|r] eqn:ER.
  - apply R1. cbn. apply in_seq. destruct (wf_src _ _ WF w Hw) as (m & Hm & _). split; [lia|]. cbn. apply nth_error_Some. congruence.
  - apply R3. apply (pruned_mono _ (S r)); auto. apply pruned_late; auto.
Qed.

(** *** The equations have a solution *)
Fixpoint look (p : nat) (ps : list nat) (vs : list vec) : vec :=
  match ps, vs with
  | q :: ps', v :: vs' => if Nat.eqb q p then v else look p ps' vs'
  | _, _ => []
  end.
Lemma look_map : forall ps vs, NoDup ps -> length vs = length ps -> map (fun p => look p ps vs) ps = vs.
Proof.
  induction ps; intros [|v vs] ND L; cbn in *; try discriminate; auto. inversion ND; subst.
  rewrite Nat.eqb_refl. f_equal. transitivity (map (fun p => look p ps vs) ps); [|apply IHps; auto; lia]. apply map_ext_in. intros p Hp.
  destruct (Nat.eqb_spec a p); subst; [contradiction|auto].
Qed.
Definition eqs (ss : list St) (o : nat -> nat -> vec) (i p : nat) : vec :=
  match nth_error models i, nth_error ss i with
  | Some m, Some s => if memb p (early m) then look p (early m) (early_vals m s)
                      else look p (late m) (snd (body m s (in_values wires o i m)))
  | _, _ => []
  end.
Fixpoint approx (ss : list St) (k : nat) : nat -> nat -> vec :=
  match k with O => fun _ _ => [] | S k' => eqs ss (approx ss k') end.

Lemma fold_left_ext_in A B (f g : A -> B -> A) l : (forall a b, In b l -> f a b = g a b) ->
  forall a, fold_left f l a = fold_left g l a.
Proof.
  induction l; intros H a0; cbn; auto. rewrite (H a0 a) by (left; auto). apply IHl. intros. apply H. right. auto.
Qed.
Lemma in_values_ext o1 o2 i (m : pmodel St) :
  (forall w, In w wires -> fst (w_dst w) = i -> o1 (fst (w_src w)) (snd (w_src w)) = o2 (fst (w_src w)) (snd (w_src w))) ->
  in_values wires o1 i m = in_values wires o2 i m.
Proof.
  intros H. unfold in_values. apply map_ext. intros [q size]. cbn. unfold in_value. apply fold_left_ext_in.
  intros a w Hw. apply filter_In in Hw. destruct Hw as [Hw E]. apply eqp_spec in E. rewrite H; auto. rewrite E. auto.
Qed.
Lemma approx_stable rank ss : length ss = length models ->
  (forall w, In w wires -> late_wire models w -> rank (fst (w_src w)) < rank (fst (w_dst w))) ->
  forall k i p, rank i + 2 <= k -> approx ss (S k) i p = approx ss k i p.
Proof.
  intros LS RK. induction k as [k IH] using lt_wf_ind. intros i p Hk. destruct k as [|k]; [lia|].
  change (eqs ss (approx ss (S k)) i p = eqs ss (approx ss k) i p). unfold eqs.
  destruct (nth_error models i) as [m|] eqn:Hm; auto. destruct (nth_error ss i) as [s|]; auto.
  destruct (memb p (early m)); auto. do 2 f_equal. f_equal. apply in_values_ext. intros w Hw E.
  destruct (wf_src _ _ WF w Hw) as (ms & Hms & Hp). apply in_app_or in Hp.
  destruct (memb (snd (w_src w)) (early ms)) eqn:ME.
  - destruct k as [|k]; [lia|]. cbn [approx]. unfold eqs. rewrite Hms, ME. auto.
  - destruct Hp as [Hp|Hp]; [apply memb_in in Hp; congruence|].
    assert (late_wire models w) as LW. { exists ms. auto. }
    apply IH; [lia|]. specialize (RK w Hw LW). rewrite E in RK. lia.
Qed.

Lemma nth_error_combine A B (l : list A) (m : list B) i a b :
  nth_error l i = Some a -> nth_error m i = Some b -> nth_error (combine l m) i = Some (a, b).
Proof. revert m i. induction l; intros [|y m] [|i]; cbn; try discriminate; [intros [= ->] [= ->]; auto|apply IHl]. Qed.
Lemma nth_error_seq a n i : i < n -> nth_error (seq a n) i = Some (a + i).
Proof. revert a i. induction n; intros a [|i] H; cbn; try lia; [f_equal; lia|]. rewrite IHn by lia. f_equal. lia. Qed.

Lemma NoDup_prefix A (l m : list A) : NoDup (l ++ m) -> NoDup l.
Proof.
  induction l; cbn; intros H; [constructor|]. inversion H; subst. constructor; auto. intros I. apply H2, in_or_app. auto.
Qed.
Lemma sync_step_exists rank ss : length ss = length models ->
  (forall w, In w wires -> late_wire models w -> rank (fst (w_src w)) < rank (fst (w_dst w))) ->
  exists o ss', sync_step models wires ss o ss'.
Proof.
  intros LS RK.
  set (K := 2 + list_max (map rank (seq 0 (length models)))).
  assert (forall i p, eqs ss (approx ss K) i p = approx ss K i p) as FX.
  { intros i p. destruct (le_lt_dec (length models) i) as [Hi|Hi].
    - unfold K. cbn. unfold eqs. rewrite (proj2 (nth_error_None models i) Hi). auto.
    - apply (approx_stable rank ss LS RK K i p). unfold K.
      assert (rank i <= list_max (map rank (seq 0 (length models)))); [|lia].
      pose proof (proj1 (list_max_le (map rank (seq 0 (length models))) _) (le_n _)) as F. rewrite Forall_forall in F.
      apply F, in_map, in_seq. lia. }
  set (o := approx ss K) in *.
  exists o, (map (fun x => fst (body (fst (snd x)) (snd (snd x)) (in_values wires o (fst x) (fst (snd x)))))
            (combine (seq 0 (length models)) (combine models ss))).
  split.
  - split; auto. rewrite map_length, !combine_length, seq_length. lia.
  - intros i m s Hm Hs. rewrite <- (look_map (early m) (early_vals m s)) at 1.
    + apply map_ext_in. intros p Hp. rewrite <- FX. unfold eqs. rewrite Hm, Hs. apply memb_in in Hp. rewrite Hp. auto.
    + apply (NoDup_prefix _ (early m) (late m)), (wf_ports _ _ WF). eapply nth_error_In; eauto.
    + apply (wf_early _ _ WF). eapply nth_error_In; eauto.
  - intros i m s Hm Hs. rewrite <- (look_map (late m) (snd (body m s (in_values wires o i m)))) at 1.
    + apply map_ext_in. intros p Hp. rewrite <- FX. unfold eqs. rewrite Hm, Hs.
      destruct (memb p (early m)) eqn:ME; auto. apply memb_in in ME. exfalso.
      pose proof (wf_ports _ _ WF m (nth_error_In _ _ Hm)) as ND. clear - ME Hp ND.
      induction (early m); cbn in *; [contradiction|]. inversion ND; subst. destruct ME as [->|ME]; auto.
      apply H1, in_or_app. auto.
    + apply (NoDup_suffix _ (early m)), (wf_ports _ _ WF). eapply nth_error_In; eauto.
    + apply (wf_late _ _ WF). eapply nth_error_In; eauto.
  - intros i m s Hm Hs. rewrite nth_error_map.
    erewrite nth_error_combine; [|apply nth_error_seq; apply nth_error_Some; congruence|apply nth_error_combine; eauto].
    reflexivity.
Qed.

Lemma sync_run_exists rank : (forall w, In w wires -> late_wire models w -> rank (fst (w_src w)) < rank (fst (w_dst w))) ->
  forall n ss, length ss = length models -> exists ss', sync_run models wires n ss ss'.
Proof.
  intros RK. induction n; intros ss L.
  - exists ss. constructor.
  - destruct (sync_step_exists rank ss L RK) as (o & s1 & S1). destruct (IHn s1 (proj2 (ss_len _ _ _ _ _ S1))) as [s2 S2].
    exists s2. econstructor; eauto.
Qed.
Lemma sync_run_streams n : forall ss ss', sync_run models wires n ss ss' -> exists sg o, sg 0 = ss /\ sg n = ss' /\
  forall t, t < n -> sync_step models wires (sg t) (o t) (sg (S t)).
Proof.
  induction n; intros ss ss' R; inversion R; subst.
  - exists (fun _ => ss'), (fun _ _ _ => []). split; auto. split; auto. intros; lia.
  - destruct (IHn _ _ H1) as (sg & oo & E0 & En & H).
    exists (fun t => match t with O => ss | S t' => sg t' end), (fun t => match t with O => o | S t' => oo t' end).
    split; auto. split; auto. intros [|t] Ht.
    + rewrite E0. auto.
    + apply H. lia.
Qed.

(** *** Every execution ends *)
Section Run.
Variable dom : nat -> nat.
Variable cap nsteps : nat.
Notation enext := (enext models wires dom cap nsteps).
Notation eruns := (eruns models wires dom cap nsteps).

Definition wait_cost (i : nat) (qs : list (nat * nat)) : nat :=
  list_sum (map (fun q => S (length (in_chans wires i (fst q)))) qs).
Definition rem (i : nat) (m : pmodel St) (p : pst St) : nat :=
  match p with
  | PFin _ => 0
  | PLate r _ => length r + 1
  | PRecv _ _ cur todo _ => length cur + 1 + wait_cost i todo + length (all_out wires i (late m)) + 1
  | PEarly r _ => length r + 1 + wait_cost i (in_ports m) + length (all_out wires i (late m)) + 1
  end.
Definition whole (i : nat) (m : pmodel St) : nat :=
  length (all_out wires i (early m)) + 1 + wait_cost i (in_ports m) + length (all_out wires i (late m)) + 2.
Definition cost (xs : list (comp St)) (i : nat) : nat :=
  match nth_error models i, nth_error xs i with
  | Some m, Some y => (nsteps - started y) * whole i m + rem i m (pc y)
  | _, _ => 0 end.
Definition measure (x : state) : nat := list_sum (map (cost (comps x)) (seq 0 (length models))).

Lemma list_sum_less f g (l : list nat) i : In i l -> f i < g i -> (forall j, j <> i -> f j = g j) ->
  list_sum (map f l) < list_sum (map g l).
Proof.
  intros Hi L E. assert (forall l', list_sum (map f l') <= list_sum (map g l')) as LE.
  { induction l'; cbn; auto. destruct (Nat.eq_dec a i); [subst|rewrite (E a) by auto]; unfold list_sum in *; lia. }
  induction l; [contradiction|]. cbn. specialize (LE l). destruct (Nat.eq_dec a i) as [->|Ha].
  - unfold list_sum in *. lia.
  - rewrite (E a) by auto. destruct Hi as [->|Hi]; [congruence|]. specialize (IHl Hi). unfold list_sum in *. lia.
Qed.
Lemma msgs_length i ps vs : length (msgs wires i ps vs) <= length (all_out wires i ps).
Proof.
  unfold msgs, all_out. revert vs. induction ps; intros [|v vs]; cbn; try lia.
  rewrite !app_length, map_length. specialize (IHps vs). cbn in *. lia.
Qed.
Lemma rem_enter i m dn todo s :
  rem i m (enter wires i m dn todo s) <= wait_cost i todo + length (all_out wires i (late m)) + 1.
Proof.
  destruct todo as [|[q size] r]; cbn [enter].
  - destruct (body m s dn) as [s' vs]. cbn. pose proof (msgs_length i (late m) vs). lia.
  - cbn. unfold wait_cost, list_sum. lia.
Qed.
Lemma measure_less x i y : estep models wires dom cap nsteps x i y -> measure y < measure x.
Proof.
  intros E. unfold measure.
  assert (exists m y0 y1, nth_error models i = Some m /\ nth_error (comps x) i = Some y0 /\ comps y = upd (comps x) i y1 /\
    (nsteps - started y1) * whole i m + rem i m (pc y1) < (nsteps - started y0) * whole i m + rem i m (pc y0)) as
    (m & y0 & y1 & Hm & H0 & H1 & L).
  { destruct E as [m k p c v p' q Hm Hx Hp Hq Hl|m k p c f v q Hm Hx Hp Hq|m k p p' Hm Hx Hp|m k s Hm Hx Hk Hb];
      exists m; eexists; eexists; (split; [exact Hm|]); (split; [exact Hx|]); (split; [reflexivity|]); cbn [started pc].
    - destruct p as [[|[c1 v1] r] s|dn acc [|c1 cur] todo s|[|[c1 v1] r] s|s]; try discriminate; cbn in Hp;
        injection Hp as <- <- <-; cbn; lia.
    - destruct p as [[|[c1 v1] r] s|dn acc [|c1 cur] todo s|[|[c1 v1] r] s|s]; try discriminate; cbn in Hp;
        injection Hp as <- <-; cbn [rem length]; lia.
    - destruct p as [[|[c1 v1] r] s|dn acc [|c1 cur] todo s|[|[c1 v1] r] s|s]; try discriminate; cbn in Hp; injection Hp as <-.
      + pose proof (rem_enter i m [] (in_ports m) s). cbn [rem length]. lia.
      + pose proof (rem_enter i m (dn ++ [acc]) todo s). cbn [rem length]. lia.
      + cbn [rem length]. lia.
    - unfold begin_step. cbn [rem]. pose proof (msgs_length i (early m) (early_vals m s)).
      replace (nsteps - k) with (S (nsteps - S k)) by lia.
      rewrite Nat.mul_succ_l. set (W := (nsteps - S k) * whole i m). unfold whole. lia. }
  pose proof (nth_lt _ _ _ _ H0) as Li.
  apply (list_sum_less _ _ _ i).
  - apply in_seq. split; [lia|]. cbn. apply nth_error_Some. congruence.
  - unfold cost. rewrite H1, Hm, nth_upd_eq, H0 by auto. auto.
  - intros j Hj. unfold cost. rewrite H1, nth_upd_neq by auto. auto.
Qed.

(** *** Main theorems *)
Lemma nth_error_ext A (l m : list A) : (forall i, nth_error l i = nth_error m i) -> l = m.
Proof.
  revert m. induction l; intros [|b m] H; auto.
  - specialize (H 0). discriminate.
  - specialize (H 0). discriminate.
  - pose proof (H 0) as H0. cbn in H0. injection H0 as <-. f_equal. apply IHl. intros i. apply (H (S i)).
Qed.

Lemma inv_final (sg : nat -> list St) o x : inv models wires nsteps sg o x -> length (sg nsteps) = length models ->
  (forall i y, nth_error (comps x) i = Some y -> nsteps <= finished y) -> x = idle wires nsteps (sg nsteps).
Proof.
  intros I LS H. destruct x as [xs cs]. pose proof (i_len _ _ _ _ _ _ I) as L. pose proof (i_lenc _ _ _ _ _ _ I) as LC. cbn in L, LC.
  assert (forall i m y, nth_error models i = Some m -> nth_error xs i = Some y ->
    exists s, y = mkComp nsteps (PFin s) /\ nth_error (sg nsteps) i = Some s) as F.
  { intros i m y Hm Hy. pose proof (i_comp _ _ _ _ _ _ I _ _ _ Hm Hy) as C. specialize (H _ _ Hy). destruct y as [k p].
    unfold cinv, finished in *. cbn in *. destruct p as [r s|dn acc cur todo s|r s|s].
    - destruct C as (t & -> & ? & _). lia.
    - destruct C as (t & -> & ? & _). lia.
    - destruct C as (t & -> & ? & _). lia.
    - destruct C as [C ?]. assert (k = nsteps) as -> by lia. eauto. }
  unfold idle. f_equal.
  - apply nth_error_ext. intros i. rewrite nth_error_map. destruct (nth_error xs i) as [y|] eqn:Hy.
    + destruct (nth_error_lt _ models i) as [m Hm]. { rewrite <- L. apply nth_error_Some. congruence. }
      destruct (F _ _ _ Hm Hy) as (s & -> & Hs). rewrite Hs. auto.
    + apply nth_error_None in Hy. rewrite (proj2 (nth_error_None (sg nsteps) i)) by lia. auto.
  - apply nth_error_ext. intros c. rewrite nth_error_map. destruct (nth_error wires c) as [w|] eqn:Hw.
    + assert (c < length wires) as Lc by (apply nth_error_Some; congruence).
      destruct (i_chan _ _ _ _ _ _ I c Lc) as [_ Q]. cbn in Q. rewrite Q. cbn.
      destruct (wf_src _ _ WF w (nth_error_In _ _ Hw)) as (ms & Hms & _).
      destruct (wf_dst _ _ WF w (nth_error_In _ _ Hw)) as (md & Hmd & _).
      destruct (nth_error_lt _ xs (fst (w_src w))) as [ys Hys]. { rewrite L. apply nth_error_Some. congruence. }
      destruct (nth_error_lt _ xs (fst (w_dst w))) as [yd Hyd]. { rewrite L. apply nth_error_Some. congruence. }
      destruct (F _ _ _ Hms Hys) as (s1 & -> & _). destruct (F _ _ _ Hmd Hyd) as (s2 & -> & _).
      rewrite (sent_at models wires _ _ _ _ _ _ Hw eq_refl Hms Hys), (recvd_at models wires _ _ _ _ _ _ Hw eq_refl Hmd Hyd).
      cbn. rewrite Nat.sub_diag. auto.
    + apply nth_error_None in Hw. cbn. apply nth_error_None. lia.
Qed.

Lemma network_runs_ranked rank : 0 < cap ->
  (forall w, In w wires -> late_wire models w -> rank (fst (w_src w)) < rank (fst (w_dst w))) ->
  forall ss ss', length ss = length models -> sync_run models wires nsteps ss ss' ->
  inevitable enext (fun y => y = idle wires nsteps ss') (idle wires 0 ss).
Proof.
  intros Hc RK ss ss' L R. destruct (sync_run_streams _ _ _ R) as (sg & o & E0 & En & SY).
  assert (length (sg nsteps) = length models) as LN.
  { destruct nsteps as [|n]; [rewrite E0; auto|]. apply (ss_len _ _ _ _ _ (SY n ltac:(lia))). }
  assert (forall k x, measure x < k -> inv models wires nsteps sg o x ->
    inevitable enext (fun y => y = idle wires nsteps ss') x) as G.
  { induction k; intros x Hk I; [lia|].
    destruct (existsb (fun y => finished y <? nsteps) (comps x)) eqn:EX.
    - apply inev_later.
      + apply existsb_exists in EX. destruct EX as (y & Hy & F). apply Nat.ltb_lt in F. apply In_nth_error in Hy.
        destruct Hy as [i Hi]. eapply (progress models wires dom cap nsteps WF sg o Hc rank RK x I). eauto.
      + intros x' [i Hi]. apply IHk; [pose proof (measure_less _ _ _ Hi); lia|].
        eapply (inv_step models wires dom cap nsteps WF sg o SY); eauto.
    - apply inev_now. rewrite <- En. eapply inv_final; eauto. intros i y Hy.
      destruct (le_lt_dec nsteps (finished y)); auto.
      assert (existsb (fun y => finished y <? nsteps) (comps x) = true); [|congruence].
      apply existsb_exists. exists y. split; [eapply nth_error_In; eauto|]. apply Nat.ltb_lt. auto. }
  apply (G (S (measure (idle wires 0 ss)))); [lia|]. rewrite <- E0. apply inv_idle. rewrite E0. auto.
Qed.

(** *** Processes that wait for each other *)
Section Deadlock.
Variable C : nat -> Prop.
Hypothesis FB : feedback models wires C.

Definition winv (i : nat) (m : pmodel St) (y : comp St) : Prop :=
  match pc y with
  | PEarly r _ => incl (map fst r) (all_out wires i (early m))
  | PLate r _ => incl (map fst r) (all_out wires i (late m))
  | _ => True
  end.
Definition awaits (l : list nat) : Prop :=
  exists c w, nth_error wires c = Some w /\ late_wire models w /\ C (fst (w_src w)) /\ In c l.
Definition dcomp (i : nat) (y : comp St) : Prop :=
  match pc y with
  | PFin _ => started y = 0
  | PEarly _ _ => started y = 1
  | PRecv _ _ cur todo _ => started y = 1 /\ awaits (cur ++ all_in wires i todo)
  | PLate _ _ => False
  end.
Record dinv (x : state) : Prop := {
  d_w : forall i m y, nth_error models i = Some m -> nth_error (comps x) i = Some y -> winv i m y;
  d_len : length (comps x) = length models;
  d_c : forall i y, C i -> nth_error (comps x) i = Some y -> dcomp i y;
  d_q : forall c w, nth_error wires c = Some w -> late_wire models w -> C (fst (w_src w)) -> nth_error (chans x) c = Some [] }.

Lemma msgs_incl i ps vs : incl (map fst (msgs wires i ps vs)) (all_out wires i ps).
Proof.
  unfold msgs, all_out. revert vs. induction ps; intros [|v vs]; cbn.
  - intros x [].
  - intros x [].
  - intros x [].
  - rewrite map_app, map_map. cbn. rewrite map_id. intros x Hx. apply in_app_or in Hx. apply in_or_app.
    destruct Hx as [Hx|Hx]; auto. right. apply (IHps vs). auto.
Qed.
Lemma awaits_all i m : C i -> nth_error models i = Some m -> awaits (all_in wires i (in_ports m)).
Proof.
  intros Ci Hm. destruct FB as [_ F]. destruct (F i Ci) as (w & Hw & E & Cs & Lw).
  destruct (In_nth_error _ _ Hw) as [c Hc]. exists c, w. split; auto. split; auto. split; auto.
  subst i. apply (in_in models wires WF c w m Hc Hm).
Qed.
Lemma winv_enter i m dn todo s k : winv i m (mkComp k (enter wires i m dn todo s)).
Proof.
  destruct todo as [|[q size] r]; cbn; [|auto]. unfold winv. destruct (body m s dn) as [s' vs]. cbn. apply msgs_incl.
Qed.
Lemma dcomp_enter i m dn todo s : awaits (all_in wires i todo) -> dcomp i (mkComp 1 (enter wires i m dn todo s)).
Proof.
  intros A. destruct todo as [|[q size] r]; cbn.
  - destruct A as (c & w & _ & _ & _ & []).
  - split; auto.
Qed.

(** a channel from a member of C on which it sends late is never written to *)
Lemma not_written i m k p c v p' w : nth_error models i = Some m -> winv i m (mkComp k p) ->
  (C i -> dcomp i (mkComp k p)) -> pact wires i m p = Snd c v p' ->
  nth_error wires c = Some w -> late_wire models w -> C (fst (w_src w)) -> False.
Proof.
  intros Hm W D Hp Hw Lw Cs.
  assert (forall ps, In c (all_out wires i ps) -> fst (w_src w) = i /\ In (snd (w_src w)) ps) as A.
  { intros ps H. apply all_out_in in H. destruct H as (w' & Hw' & E & H). rewrite Hw in Hw'. injection Hw' as <-. auto. }
  destruct p as [[|[c1 v1] r] s|dn acc [|c1 cur] todo s|[|[c1 v1] r] s|s]; try discriminate; cbn in Hp; injection Hp as -> -> <-.
  - destruct (A (early m)) as [E H]. { apply W. cbn. auto. }
    destruct Lw as (m' & Hm' & HL). rewrite E, Hm in Hm'. injection Hm' as <-.
    pose proof (wf_ports _ _ WF m (nth_error_In _ _ Hm)) as ND. revert H HL ND. clear. generalize (snd (w_src w)). intros p.
    induction (early m) as [|a l IH]; cbn; [tauto|]. intros [->|H] HL ND; inversion ND; subst; auto.
    apply H1, in_or_app. auto.
  - destruct (A (late m)) as [E H]. { apply W. cbn. auto. }
    rewrite E in Cs. apply D in Cs. cbn in Cs. auto.
Qed.

Lemma dinv_step x i y : dinv x -> estep models wires dom cap nsteps x i y -> dinv y.
Proof.
  intros I E.
  destruct E as [m k p c v p' q Hm Hx Hp Hq Hl|m k p c f v q Hm Hx Hp Hq|m k p p' Hm Hx Hp|m k s Hm Hx Hk Hb];
  pose proof (d_w _ I _ _ _ Hm Hx) as W; pose proof (fun Ci => d_c _ I i _ Ci Hx) as D; pose proof (nth_lt _ _ _ _ Hx) as L.
  - assert (forall w, nth_error wires c = Some w -> late_wire models w -> C (fst (w_src w)) -> False) as NW
      by (intros w; eapply not_written; eauto).
    assert (winv i m (mkComp k p') /\ (C i -> dcomp i (mkComp k p'))) as [W' D'].
    { destruct p as [[|[c1 v1] r] s|dn acc [|c1 cur] todo s|[|[c1 v1] r] s|s]; try discriminate; cbn in Hp; injection Hp as -> -> <-.
      - split; [|exact D]. unfold winv in *. cbn in *. intros a Ha. apply W. right. auto.
      - split; [|intros Ci; exact (D Ci)]. unfold winv in *. cbn in *. intros a Ha. apply W. right. auto. }
    split; cbn.
    + intros j mj yj Hmj Hyj. rewrite nth_upd in Hyj by auto. destruct (Nat.eqb_spec i j) as [->|].
      * injection Hyj as <-. rewrite Hm in Hmj. injection Hmj as <-. auto.
      * eapply (d_w _ I); eauto.
    + rewrite upd_length. apply (d_len _ I).
    + intros j yj Cj Hyj. rewrite nth_upd in Hyj by auto. destruct (Nat.eqb_spec i j) as [->|].
      * injection Hyj as <-. auto.
      * eapply (d_c _ I); eauto.
    + intros c' w Hw Lw Cw. rewrite nth_upd_neq. { eapply (d_q _ I); eauto. } intros ->. eapply NW; eauto.
  - assert (forall w, nth_error wires c = Some w -> late_wire models w -> C (fst (w_src w)) -> False) as NW.
    { intros w Hw Lw Cw. pose proof (d_q _ I _ _ Hw Lw Cw). congruence. }
    assert (winv i m (mkComp k (f v)) /\ (C i -> dcomp i (mkComp k (f v)))) as [W' D'].
    { destruct p as [[|[c1 v1] r] s|dn acc [|c1 cur] todo s|[|[c1 v1] r] s|s]; try discriminate; cbn in Hp; injection Hp as -> <-.
      split; [cbn; auto|]. intros Ci. destruct (D Ci) as [D1 (c' & w & Hw & Lw & Cw & Hin)]. split; auto.
      exists c', w. split; auto. split; auto. split; auto. cbn in Hin. destruct Hin as [<-|Hin]; auto. exfalso. eapply NW; eauto. }
    split; cbn.
    + intros j mj yj Hmj Hyj. rewrite nth_upd in Hyj by auto. destruct (Nat.eqb_spec i j) as [->|].
      * injection Hyj as <-. rewrite Hm in Hmj. injection Hmj as <-. auto.
      * eapply (d_w _ I); eauto.
    + rewrite upd_length. apply (d_len _ I).
    + intros j yj Cj Hyj. rewrite nth_upd in Hyj by auto. destruct (Nat.eqb_spec i j) as [->|].
      * injection Hyj as <-. auto.
      * eapply (d_c _ I); eauto.
    + intros c' w Hw Lw Cw. rewrite nth_upd_neq. { eapply (d_q _ I); eauto. } intros ->. eapply NW; eauto.
  - assert (winv i m (mkComp k p') /\ (C i -> dcomp i (mkComp k p'))) as [W' D'].
    { destruct p as [[|[c1 v1] r] s|dn acc [|c1 cur] todo s|[|[c1 v1] r] s|s]; try discriminate; cbn in Hp; injection Hp as <-.
      - split; [apply winv_enter|]. intros Ci. specialize (D Ci). cbn in D. subst k. apply dcomp_enter. eapply awaits_all; eauto.
      - split; [apply winv_enter|]. intros Ci. destruct (D Ci) as [D1 D2]. cbn in D1. subst k. apply dcomp_enter. exact D2.
      - split; [cbn; auto|]. intros Ci. destruct (D Ci). }
    split; cbn.
    + intros j mj yj Hmj Hyj. rewrite nth_upd in Hyj by auto. destruct (Nat.eqb_spec i j) as [->|].
      * injection Hyj as <-. rewrite Hm in Hmj. injection Hmj as <-. auto.
      * eapply (d_w _ I); eauto.
    + rewrite upd_length. apply (d_len _ I).
    + intros j yj Cj Hyj. rewrite nth_upd in Hyj by auto. destruct (Nat.eqb_spec i j) as [->|].
      * injection Hyj as <-. auto.
      * eapply (d_c _ I); eauto.
    + apply (d_q _ I).
  - split; cbn.
    + intros j mj yj Hmj Hyj. rewrite nth_upd in Hyj by auto. destruct (Nat.eqb_spec i j) as [->|].
      * injection Hyj as <-. rewrite Hm in Hmj. injection Hmj as <-. apply msgs_incl.
      * eapply (d_w _ I); eauto.
    + rewrite upd_length. apply (d_len _ I).
    + intros j yj Cj Hyj. rewrite nth_upd in Hyj by auto. destruct (Nat.eqb_spec i j) as [->|].
      * injection Hyj as <-. specialize (D Cj). cbn in *. f_equal. auto.
      * eapply (d_c _ I); eauto.
    + apply (d_q _ I).
Qed.

Lemma dinv_idle ss : length ss = length models -> dinv (idle wires 0 ss).
Proof.
  intros L. unfold idle. split; cbn.
  - intros i m y Hm Hy. rewrite nth_error_map in Hy. destruct (nth_error ss i); [|discriminate]. injection Hy as <-. cbn. auto.
  - rewrite map_length. auto.
  - intros i y _ Hy. rewrite nth_error_map in Hy. destruct (nth_error ss i); [|discriminate]. injection Hy as <-. cbn. auto.
  - intros c w Hw _ _. rewrite nth_error_map, Hw. auto.
Qed.

Lemma feedback_waits ss : length ss = length models -> forall x, eruns (idle wires 0 ss) x ->
  forall i y, C i -> nth_error (comps x) i = Some y -> finished y = 0.
Proof.
  intros L x R. assert (dinv x) as I.
  { assert (forall a b, eruns a b -> dinv a -> dinv b) as G.
    { induction 1; auto. intros I. apply IHeruns. destruct H as [j Hj]. eapply dinv_step; eauto. }
    eapply G; eauto. apply dinv_idle. auto. }
  intros i y Ci Hy. pose proof (d_c _ I _ _ Ci Hy) as D. unfold dcomp, finished in *. destruct y as [k p]. cbn in *.
  destruct p; try (rewrite D); auto; try contradiction. destruct D as [-> _]. auto.
Qed.
End Deadlock.

Lemma inevitable_reach P x : inevitable enext P x -> exists y, eruns x y /\ P y.
Proof.
  induction 1 as [x H|x [y Hy] _ IH].
  - exists x. split; [constructor|auto].
  - destruct (IH y Hy) as (z & R & Pz). exists z. split; auto. econstructor; eauto.
Qed.
Lemma idle_stuck s : forall z, ~ enext (idle wires nsteps s) z.
Proof.
  intros z [i E]. inversion E; subst; cbn in *; rewrite nth_error_map in H0; destruct (nth_error s i); try discriminate;
    injection H0 as <- <-; try discriminate; lia.
Qed.
Lemma inevitable_keeps (P : state -> Prop) x : inevitable enext P x -> (forall y, P y -> forall z, ~ enext y z) ->
  forall y, eruns x y -> inevitable enext P y.
Proof.
  intros I S y R. revert I. induction R as [x|x y z H R IH]; intros I; auto.
  apply IH. inversion I; subst; auto. exfalso. eapply S; eauto.
Qed.
End Run.
End Theory.

(** ** C81 *)

(** A network without circular waiting runs for the requested number of steps and arrives at the state that the
    equations prescribe: whatever the schedule, the size of the channels and the sync domains. *)
Theorem network_computes_equations : forall (St : Type) (models : list (pmodel St)) wires dom cap n ss,
  wf models wires -> 0 < cap -> ~ (exists C, feedback models wires C) -> length ss = length models ->
  exists ss', sync_run models wires n ss ss' /\
    inevitable (enext models wires dom cap n) (fun y => y = idle wires n ss') (idle wires 0 ss).
Proof.
  intros St models wires dom cap n ss WF Hc NF L. destruct (no_feedback_rank models wires WF NF) as [rank RK].
  destruct (sync_run_exists models wires WF rank RK n ss L) as [ss' R]. exists ss'. split; auto.
  eapply network_runs_ranked; eauto.
Qed.

(** ... and the equations leave no choice. *)
Theorem equations_deterministic : forall (St : Type) (models : list (pmodel St)) wires n ss a b,
  wf models wires -> ~ (exists C, feedback models wires C) -> length ss = length models ->
  sync_run models wires n ss a -> sync_run models wires n ss b -> a = b.
Proof.
  intros St models wires n ss a b WF NF L A B. destruct (no_feedback_rank models wires WF NF) as [rank RK].
  assert (forall ss', sync_run models wires n ss ss' ->
    inevitable (enext models wires (fun _ => 0) 1 n) (fun y => y = idle wires n ss') (idle wires 0 ss)) as R
    by (intros; eapply network_runs_ranked; eauto).
  destruct (inevitable_reach _ _ _ _ _ _ _ (R _ A)) as (y & Ry & ->).
  assert (inevitable (enext models wires (fun _ => 0) 1 n) (fun y => y = idle wires n b) (idle wires n a)) as I.
  { eapply inevitable_keeps; [exact (R _ B)| |exact Ry]. intros y ->. apply idle_stuck. }
  inversion I as [? E|? [z Hz] _]; subst.
  - unfold idle in E. injection E as E. revert E. clear. revert b. induction a as [|x r IH]; intros [|z s] E; try discriminate; auto.
    cbn in E. injection E as -> E. f_equal. auto.
  - exfalso. eapply idle_stuck; eauto.
Qed.

(** Processes that wait for each other never complete a single step. *)
Theorem feedback_deadlocks : forall (St : Type) (models : list (pmodel St)) wires dom cap n ss C,
  wf models wires -> length ss = length models -> feedback models wires C ->
  forall x, eruns models wires dom cap n (idle wires 0 ss) x ->
  forall i y, C i -> nth_error (comps x) i = Some y -> finished y = 0.
Proof. intros. eapply feedback_waits; eauto. Qed.

(** A run completes if and only if no processes wait for each other. *)
Theorem run_completes_iff : forall (St : Type) (models : list (pmodel St)) wires dom cap n ss,
  wf models wires -> 0 < cap -> 0 < n -> length ss = length models ->
  ((exists ss', inevitable (enext models wires dom cap n) (fun y => y = idle wires n ss') (idle wires 0 ss)) <->
   ~ (exists C, feedback models wires C)).
Proof.
  intros St models wires dom cap n ss WF Hc Hn L. split.
  - intros [ss' I] [C FB]. destruct (inevitable_reach _ _ _ _ _ _ _ I) as (y & Ry & ->).
    destruct FB as [[i Ci] F]. assert (feedback models wires C) as FB by (split; eauto).
    pose proof (feedback_deadlocks _ _ _ _ _ _ _ _ WF L FB _ Ry i) as D.
    destruct (F i Ci) as (w & Hw & E & _). destruct (wf_dst _ _ WF w Hw) as (m & Hm & _). rewrite E in Hm.
    assert (length (comps (idle wires n ss')) = length models) as LL.
    { assert (forall x z, eruns models wires dom cap n x z -> length (comps x) = length models -> length (comps z) = length models) as G.
      { induction 1; auto. intros Lx. apply IHeruns. destruct H as [j Hj]. inversion Hj; subst; cbn; rewrite upd_length; auto. }
      eapply G; eauto. unfold idle. cbn. rewrite map_length. auto. }
    destruct (nth_error_lt _ (comps (idle wires n ss')) i) as [yi Hy]. { rewrite LL. apply nth_error_Some. congruence. }
    specialize (D _ Ci Hy). unfold idle in Hy. cbn in Hy. rewrite nth_error_map in Hy.
    destruct (nth_error ss' i); [|discriminate]. injection Hy as <-. unfold finished in D. cbn in D. lia.
  - intros NF. destruct (network_computes_equations _ models wires dom cap n ss WF Hc NF L) as (ss' & _ & I). eauto.
Qed.
