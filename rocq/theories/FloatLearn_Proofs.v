(** Lemmas about floating-point learning connections. *)
From Coq Require Import ZArith QArith Qpower Qabs Qminmax List Bool Ascii String Lia Lqa.
From Verif Require Import Bits_Model Learning_Model Learning_Props Rule_Model Rule_Spec Rule_Proofs Rule_Props Rule_Props2 RuleApply_Props
  FloatLearn_Model FloatLearn_Spec.
Import ListNotations.
Open Scope Z_scope.

(** ** Rules that are refused *)
Definition event_factor (f : rfactor) : bool := negb (known_factor f).
Lemma afactors_event h a : wf_atom a ->
  existsb event_factor (afactors h a) =
  match a with AEvent (Periodic _) => false | AEvent _ => h | ABracket i => inside_event i | _ => false end.
Proof.
  intros Hw. destruct a as [e|v|l|i|i]; cbn [afactors].
  - destruct e, h; reflexivity.
  - destruct v; reflexivity.
  - reflexivity.
  - destruct i as [s1 v|s1 l|s1 b s2 l|s1 l s2 b]; cbn [inside_event]; try reflexivity.
    + destruct v; reflexivity.
    + destruct b as [v| |]; try reflexivity. destruct v; reflexivity.
    + destruct b as [v| |]; try reflexivity. destruct v; reflexivity.
  - destruct i as [s1 v|s1 l|s1 b s2 l|s1 l s2 b]; cbn [wf_atom wf_sgn] in Hw; try reflexivity.
    + destruct v; reflexivity.
    + destruct Hw as (_ & (v & -> & _) & _). destruct v; reflexivity.
    + destruct Hw as (_ & (v & -> & _) & _). destruct v; reflexivity.
Qed.
Lemma extra_cons h a l : extra_event h (a :: l) =
  (match a with AEvent (Periodic _) => false | AEvent _ => h | ABracket i => inside_event i | _ => false end)
  || extra_event (h || is_event a) l.
Proof. destruct a as [e|v|x|i|i]; [destruct e| | | |]; cbn [extra_event is_event]; rewrite ?orb_true_r, ?orb_false_r; reflexivity. Qed.
Lemma closed1_has g a : has (closed1 g a) = has g || is_event a.
Proof.
  unfold has, closed1. cbn [g_dep]. destruct (g_dep g); [reflexivity|].
  destruct a as [e|v|x|i|i]; try reflexivity.
Qed.
Lemma closed_event l : Forall wf_atom l -> forall g,
  existsb event_factor (g_factors (closed g l)) = existsb event_factor (g_factors g) || extra_event (has g) l.
Proof.
  induction 1 as [|a l Ha Hl IH]; intros g.
  - unfold closed. cbn. now rewrite orb_false_r.
  - change (closed g (a :: l)) with (closed (closed1 g a) l). rewrite IH, closed1_has, extra_cons. cbn [closed1 g_factors].
    rewrite existsb_app, (afactors_event (has g) a Ha). now rewrite <- orb_assoc.
Qed.
Lemma norm_extra l : forall h, extra_event h (norm l) = extra_event h l.
Proof.
  induction l as [|a r IH]; intros h; [reflexivity|]. destruct (norm_cases a r) as [(n & s & e & r' & -> & E & ->)|[-> N]].
  - rewrite !extra_cons. cbn [is_event orb]. rewrite orb_false_r. rewrite <- IH, E, extra_cons. cbn [is_event orb]. now rewrite orb_false_r.
  - rewrite !extra_cons, IH. reflexivity.
Qed.
Lemma known_neg l : forallb known_factor l = negb (existsb event_factor l).
Proof. induction l as [|f l IH]; [reflexivity|]. cbn [forallb existsb]. rewrite IH, negb_orb. unfold event_factor at 2. now rewrite negb_involutive. Qed.
Lemma product_event_factors series t p k : wf_term t -> gen_product series (term_syms t) = Some (p, k) ->
  forallb known_factor (rp_factors p) = negb (extra_event false (t_atoms t)).
Proof.
  intros Hw E. unfold gen_product in E. rewrite (gen_term series t Hw) in E.
  destruct (okp series (periods (t_atoms t))); [|discriminate]. cbn [obind] in E.
  set (g := closed (start series (t_sign t)) (norm (t_atoms t))) in *.
  destruct (normalize (norm_fuel (g_mant g)) (g_mant g) (g_exp g)) as [[m e]|]; [|discriminate]. cbn [obind] in E.
  destruct (g_dep g) as [d|] eqn:Egd; [|discriminate].
  destruct ((m <? -8) || (8 <=? m)); [discriminate|]. destruct ((e <? -7) || (9 <=? e)); [discriminate|].
  match goal with H : (if ?b then None else Some _) = Some _ |- _ => destruct b; [discriminate|] end.
  injection E as <- <-. cbn [rp_factors]. rewrite known_neg. unfold g.
  rewrite closed_event by (apply norm_wf, Hw). rewrite norm_extra. reflexivity.
Qed.
Lemma products_event_factors : forall r series ps k, Forall wf_term r -> gen_products series (map term_syms r) = Some (ps, k) ->
  applier_builds ps = negb (reads_event r).
Proof.
  induction r as [|t r IH]; intros series ps k Hw E; cbn [map gen_products] in E.
  - injection E as <- <-. reflexivity.
  - inversion Hw; subst. destruct (gen_product series (term_syms t)) as [[p k1]|] eqn:E1; [|discriminate].
    cbn [obind fst snd] in E. destruct (gen_products k1 (map term_syms r)) as [[ps' k2]|] eqn:E2; [|discriminate].
    cbn [omap fst snd] in E. injection E as <- <-. unfold applier_builds, reads_event in *. cbn [forallb existsb].
    rewrite (IH k1 ps' k2) by assumption. rewrite (product_event_factors series t p k1) by assumption. now rewrite negb_orb.
Qed.

(** ** Traces *)
Lemma trace_at_ext d imp p q v t : (forall k, (1 <= k <= t)%nat -> p k = q k) -> trace_at d imp p v t = trace_at d imp q v t.
Proof.
  induction t as [|t IH]; intros H; [reflexivity|]. cbn [trace_at]. rewrite (H (S t)) by lia. rewrite IH; [reflexivity|]. intros. apply H. lia.
Qed.
Lemma trace_at_compat d imp p v w t : (v == w)%Q -> (trace_at d imp p v t == trace_at d imp p w t)%Q.
Proof. intros H. induction t as [|t IH]; [exact H|]. cbn [trace_at]. rewrite IH. reflexivity. Qed.
Lemma fhistory_trace c d ts v t : f_decay c = Some d ->
  exists q, fhistory c ts (Some v) t = Some q /\ (q == trace_at d (f_impulse c) (fun k => ts =? Z.of_nat k) v t)%Q.
Proof.
  intros H. induction t as [|t (q & E & Q)]; [exists v; split; reflexivity|]. cbn [fhistory trace_at]. rewrite E. unfold frow. rewrite H.
  cbn [nmul]. destruct (ts =? Z.of_nat (S t)); cbn [nadd]; eexists; (split; [reflexivity|]); rewrite Q; ring.
Qed.
Lemma last_spike_le p t : (last_spike p t <= t)%nat.
Proof. induction t as [|t IH]; cbn [last_spike]; [lia|]. destruct (p (S t)); lia. Qed.
Lemma spiked_count p t : spiked p t = negb (spike_count p t =? 0)%nat.
Proof.
  unfold spiked. induction t as [|t IH]; [reflexivity|]. rewrite seq_S, existsb_app, IH. cbn [existsb spike_count].
  replace (1 + t)%nat with (S t) by lia. destruct (p (S t)); [rewrite orb_true_r; reflexivity|]. now rewrite !orb_false_r.
Qed.
Lemma last_count p t : (last_spike p t = 0)%nat <-> (spike_count p t = 0)%nat.
Proof.
  induction t as [|t IH]; [cbn; tauto|]. cbn [last_spike spike_count]. destruct (p (S t)); [split; lia|]. exact IH.
Qed.
Lemma last_spike_only p t : (spike_count p t <= 1)%nat -> forall k, (1 <= k <= t)%nat -> p k = (last_spike p t =? k)%nat.
Proof.
  induction t as [|t IH]; intros H k Hk; [lia|]. cbn [spike_count last_spike] in *. destruct (p (S t)) eqn:E.
  - destruct (Nat.eqb_spec (S t) k) as [<-|N]; [exact E|].
    assert (spike_count p t = 0)%nat as Z0 by lia. rewrite (IH ltac:(lia) k ltac:(lia)).
    apply last_count in Z0. rewrite Z0. destruct k; [lia|reflexivity].
  - destruct (Nat.eq_dec k (S t)) as [->|N].
    + rewrite E. symmetry. apply Nat.eqb_neq. pose proof (last_spike_le p t). lia.
    + apply IH; lia.
Qed.

(** ** An epoch *)
Section Epoch.
Variables (c : fcfg) (i : nat -> fstim) (s0 : fconn) (e : nat).
Hypothesis (He : (0 < e)%nat) (Hc : fc_epoch c = Z.of_nat e).
Fixpoint spikes_from (s : fconn) (n j : nat) : fconn :=
  match j with
  | O => s
  | S k => fspike_phase c (Z.of_nat (n * e + j)) (i (n * e + j)%nat) (spikes_from s n k)
  end.
Lemma within_step n j : (j < e)%nat -> within_epoch (fc_epoch c) (Z.of_nat (n * e + S j)) = Z.of_nat (S j).
Proof.
  intros H. unfold within_epoch. rewrite Hc. rewrite Nat2Z.inj_add, Nat2Z.inj_mul.
  rewrite Z.add_comm, Z.mod_add by lia. destruct (Nat.eq_dec (S j) e) as [->|N].
  - rewrite Z.mod_same by lia. reflexivity.
  - rewrite Z.mod_small by lia. destruct (Z.eqb_spec (Z.of_nat (S j)) 0); [lia|reflexivity].
Qed.
Lemma epoch_steps n j : (j < e)%nat -> frun c i s0 (n * e + j) = spikes_from (frun c i s0 (n * e)) n j.
Proof.
  induction j as [|j IH]; intros H; [now rewrite Nat.add_0_r|]. rewrite <- plus_n_Sm. cbn [frun]. unfold fstep, lrn_guard.
  replace (S (n * e + j)) with (n * e + S j)%nat by lia.
  assert ((Z.of_nat (n * e + S j) mod fc_epoch c =? 0) = false) as ->.
  { apply Z.eqb_neq. rewrite Hc, Nat2Z.inj_add, Nat2Z.inj_mul, Z.add_comm, Z.mod_add by lia. rewrite Z.mod_small; lia. }
  rewrite IH by lia. reflexivity.
Qed.
Lemma epoch_end n : frun c i s0 (S n * e) =
  flearn_phase c (Z.of_nat (S n * e)) (spikes_from (frun c i s0 (n * e)) n e).
Proof.
  assert (exists k, e = S k) as [k Ek] by (exists (pred e); lia).
  assert (S n * e = S (n * e + k))%nat as A by lia. rewrite A. cbn [frun]. rewrite <- A. unfold fstep, lrn_guard.
  assert ((Z.of_nat (S n * e) mod fc_epoch c =? 0) = true) as ->.
  { apply Z.eqb_eq. rewrite Hc, Nat2Z.inj_mul. apply Z.mod_mul. lia. }
  f_equal. rewrite epoch_steps by lia. replace (spikes_from (frun c i s0 (n * e)) n e) with (spikes_from (frun c i s0 (n * e)) n (S k)) by (f_equal; lia). cbn [spikes_from]. replace (n * e + S k)%nat with (S n * e)%nat by lia.
  reflexivity.
Qed.
Variables (s : fconn) (n : nat).
Hypothesis (Hx : forall m, f_tx s m = 0) (Hy : forall m, f_ty s m = 0).
Definition pre_spk (m j : nat) : bool := nonzero (f_in (i (n * e + j)%nat) m).
Definition post_spk (m j : nat) : bool := f_bap (i (n * e + j)%nat) m.
Lemma spikes_tx m j : (j <= e)%nat -> f_tx (spikes_from s n j) m = Z.of_nat (last_spike (pre_spk m) j).
Proof.
  induction j as [|j IH]; intros H; [apply Hx|]. cbn [spikes_from fspike_phase f_tx last_spike]. unfold pre_spk at 1.
  destruct (nonzero _); [apply within_step; lia|]. apply IH. lia.
Qed.
Lemma spikes_ty m j : (j <= e)%nat -> f_ty (spikes_from s n j) m = Z.of_nat (last_spike (post_spk m) j).
Proof.
  induction j as [|j IH]; intros H; [apply Hy|]. cbn [spikes_from fspike_phase f_ty last_spike]. unfold post_spk at 1.
  destruct (f_bap _ _); [apply within_step; lia|]. apply IH. lia.
Qed.
Lemma spikes_syn j : f_syn (spikes_from s n j) = f_syn s.
Proof. induction j as [|j IH]; [reflexivity|]. exact IH. Qed.
(** the value at the end of the spiking phases: one impulse for every spike but the last *)
Definition early (p : nat -> bool) (imp v : Q) (j : nat) : Q := (v + inject_Z (Z.of_nat (spike_count p j - 1)) * imp)%Q.
Lemma early_step p imp v q w j (b : bool) : b = p (S j) -> (q == early p imp v j)%Q ->
  w = (if (0 <? Z.of_nat (last_spike p j)) && b then (q + imp)%Q else q) -> (w == early p imp v (S j))%Q.
Proof.
  intros -> Hq ->. unfold early in *. cbn [spike_count]. destruct (p (S j)) eqn:E.
  - rewrite andb_true_r. destruct (Z.ltb_spec 0 (Z.of_nat (last_spike p j))) as [L|L].
    + assert (spike_count p j <> 0)%nat as N by (intros Z0; apply last_count in Z0; lia). rewrite Hq.
      replace (Z.of_nat (1 + spike_count p j - 1)) with (Z.of_nat (spike_count p j - 1) + 1) by lia. rewrite inject_Z_plus. ring.
    + assert (spike_count p j = 0)%nat as N by (apply last_count; lia). rewrite Hq, N. reflexivity.
  - rewrite andb_false_r. cbn [Nat.add]. exact Hq.
Qed.
Definition neuron_spk (tr : trace) (m : nat) : nat -> bool := if presynaptic tr then pre_spk m else post_spk m.
Lemma spikes_tr m tr v j : fc_graded c = UseRegularImpulse -> (j <= e)%nat -> f_tr s tr m = Some v ->
  exists q, f_tr (spikes_from s n j) tr m = Some q /\ (q == early (neuron_spk tr m) (f_impulse (fc_trace c tr)) v j)%Q.
Proof.
  intros Hg Hj Hv. revert Hj. induction j as [|j IH]; intros Hj.
  - exists v. split; [exact Hv|]. unfold early. cbn. ring.
  - destruct (IH ltac:(lia)) as (q & E & Q). set (imp := f_impulse (fc_trace c tr)) in *.
    set (b := neuron_spk tr m (S j)). set (w := if (0 <? Z.of_nat (last_spike (neuron_spk tr m) j)) && b then (q + imp)%Q else q).
    exists w. split; [|eapply early_step; [reflexivity|exact Q|reflexivity]].
    cbn [spikes_from fspike_phase f_tr]. fold imp. unfold w, b, neuron_spk.
    destruct tr; cbn [presynaptic]; rewrite ?Hg; cbn [fpre_x1]; unfold fpre_x2, fpost_y; rewrite E, ?spikes_tx, ?spikes_ty by lia;
      unfold pre_spk, post_spk;
      match goal with |- (if ?b then _ else _) = Some (if ?b' then _ else _) => change b' with b; destruct b; reflexivity end.
Qed.
Lemma spike_time_of_trace m tr : spike_time (spikes_from s n e) tr m = Z.of_nat (last_spike (neuron_spk tr m) e).
Proof. unfold spike_time, neuron_spk. destruct tr; cbn [presynaptic]; rewrite ?spikes_tx, ?spikes_ty by lia; reflexivity. Qed.
(** the history of a trace in an epoch *)
Lemma epoch_history m tr d v t : fc_graded c = UseRegularImpulse -> f_tr s tr m = Some v -> f_decay (fc_trace c tr) = Some d ->
  exists q, fhist c (spikes_from s n e) tr m t = Some q /\
    (q == trace_at d (f_impulse (fc_trace c tr)) (fun k => (last_spike (neuron_spk tr m) e =? k)%nat)
            (early (neuron_spk tr m) (f_impulse (fc_trace c tr)) v e) t)%Q.
Proof.
  intros Hg Hv Hd. destruct (spikes_tr m tr v e Hg ltac:(lia) Hv) as (q0 & E & Q). unfold fhist. rewrite E.
  destruct (fhistory_trace (fc_trace c tr) d (spike_time (spikes_from s n e) tr m) q0 t Hd) as (q & E' & Q').
  exists q. split; [exact E'|]. rewrite Q', (trace_at_compat _ _ _ _ _ t Q).
  rewrite (trace_at_ext d _ (fun k => spike_time (spikes_from s n e) tr m =? Z.of_nat k) (fun k => (last_spike (neuron_spk tr m) e =? k)%nat));
    [reflexivity|]. intros k _. rewrite spike_time_of_trace.
  destruct (Nat.eqb_spec (last_spike (neuron_spk tr m) e) k) as [->|N]; [apply Z.eqb_refl|]. apply Z.eqb_neq. lia.
Qed.
Lemma epoch_history_once m tr d v t : fc_graded c = UseRegularImpulse -> f_tr s tr m = Some v -> f_decay (fc_trace c tr) = Some d ->
  (spike_count (neuron_spk tr m) e <= 1)%nat -> (t <= e)%nat ->
  exists q, fhist c (spikes_from s n e) tr m t = Some q /\
    (q == trace_at d (f_impulse (fc_trace c tr)) (neuron_spk tr m) v t)%Q.
Proof.
  intros Hg Hv Hd H1 Ht. destruct (epoch_history m tr d v t Hg Hv Hd) as (q & E & Q). exists q. split; [exact E|]. rewrite Q.
  rewrite (trace_at_ext d _ _ (neuron_spk tr m)).
  - apply trace_at_compat. unfold early. replace (spike_count (neuron_spk tr m) e - 1)%nat with 0%nat by lia. cbn. ring.
  - intros k Hk. symmetry. apply last_spike_only; [exact H1|lia].
Qed.
End Epoch.

(** ** Values of rules *)
Lemma qsign_sgn x y : (x == y)%Q -> (qsign x == sgn y)%Q.
Proof.
  intros H. unfold qsign, sgn. rewrite H. destruct (Qcompare_spec y 0) as [E|E|E].
  - apply Qeq_bool_iff in E. rewrite E. reflexivity.
  - destruct (Qeq_bool y 0) eqn:B; [apply Qeq_bool_iff in B; lra|]. destruct (Qle_bool 0 y) eqn:B'; [apply Qle_bool_iff in B'; lra|]. reflexivity.
  - destruct (Qeq_bool y 0) eqn:B; [apply Qeq_bool_iff in B; lra|]. destruct (Qle_bool 0 y) eqn:B'; [reflexivity|].
    assert (Qle_bool 0 y = true); [apply Qle_bool_iff; lra|congruence].
Qed.
Section Values.
Variables (a : fargs) (rho : env).
Hypothesis (Hdep : forall p, fa_dep a (rp_dep p) = occurs rho (product_event p)).
Hypothesis (Hsyn : forall y, exists q, fa_syn a y = Some q /\ forall e, (q == state_value rho e (VSyn y))%Q).
Lemma ffactor_value p f : known_factor f = true ->
  (forall tr, rf_var f = VTrace tr -> exists q, fa_trace a tr (rp_dep p) = Some q /\ (q == state_value rho (product_event p) (VTrace tr))%Q) ->
  (rf_var f = VC -> rf_const f <> None /\ rf_sgn f = false) ->
  exists q, ffactor a (rp_dep p) f = Some q /\ (q == factor_value rho (product_event p) f)%Q.
Proof.
  intros Hk Ht Hv. unfold ffactor, factor_value. unfold known_factor in Hk. destruct (rf_var f) as [| |tr|y|] eqn:Ef; try discriminate.
  - destruct (Ht tr eq_refl) as (q & E & Q). rewrite E. destruct (rf_const f) as [x|]; cbn [nadd]; destruct (rf_sgn f); cbn [nmap];
      eexists; (split; [reflexivity|]); try (apply qsign_sgn); rewrite Q; ring.
  - destruct (Hsyn y) as (q & E & Q). specialize (Q (product_event p)). rewrite E.
    destruct (rf_const f) as [x|]; cbn [nadd]; destruct (rf_sgn f); cbn [nmap];
      eexists; (split; [reflexivity|]); try (apply qsign_sgn); rewrite Q; ring.
  - destruct (Hv eq_refl) as [H1 ->]. destruct (rf_const f) as [x|]; [|congruence]. exists x. split; [reflexivity|]. cbn [state_value]. ring.
Qed.
Definition evaluable (p : rproduct) : Prop := forall f, In f (rp_factors p) ->
  known_factor f = true /\ rf_var f <> VC /\
  forall tr, rf_var f = VTrace tr -> exists q, fa_trace a tr (rp_dep p) = Some q /\ (q == state_value rho (product_event p) (VTrace tr))%Q.
Lemma fproduct_value p : evaluable p -> exists q, fproduct a p = Some q /\ (q == compiled_value rho p)%Q.
Proof.
  intros H. unfold fproduct, compiled_value. rewrite Hdep. set (z := (inject_Z (rp_mant p) * Qpower 2 (rp_exp p - 7) * occurs rho (product_event p))%Q).
  assert (forall l v, (forall f, In f l -> In f (rp_factors p)) -> exists q,
    fold_left (fun v f => nmul v (ffactor a (rp_dep p) f)) l (Some v) = Some q /\
    (q == v * qprod (map (factor_value rho (product_event p)) l))%Q) as G.
  { induction l as [|f l IH]; intros v Hl.
    - exists v. split; [reflexivity|]. cbn. ring.
    - destruct (H f (Hl f (or_introl eq_refl))) as (H1 & H2 & H3).
      destruct (ffactor_value p f H1 H3) as (x & Ex & Qx); [congruence|].
      cbn [fold_left]. rewrite Ex. cbn [nmul]. destruct (IH (v * x)%Q) as (q & Eq & Qq); [intros; apply Hl; right; assumption|].
      exists q. split; [exact Eq|]. rewrite Qq. cbn [map qprod fold_right]. unfold qprod. rewrite Qx. ring. }
  destruct (G (rp_factors p) z (fun f Hf => Hf)) as (q & E & Q). exists q. split; [exact E|]. rewrite Q. unfold z. ring.
Qed.
Lemma fseries_value ps : (forall p, In p ps -> evaluable p) -> exists q, fseries a ps = Some q /\ (q == series_value rho ps)%Q.
Proof.
  intros H. unfold fseries, series_value.
  assert (forall v, exists q, fold_left (fun v p => nadd v (fproduct a p)) ps (Some v) = Some q /\
    (q == v + qsum (map (compiled_value rho) ps))%Q) as G.
  { induction ps as [|p l IH]; intros v.
    - exists v. split; [reflexivity|]. cbn. ring.
    - destruct (fproduct_value p (H p (or_introl eq_refl))) as (x & Ex & Qx). cbn [fold_left]. rewrite Ex. cbn [nadd].
      destruct (IH (fun q Hq => H q (or_intror Hq)) (v + x)%Q) as (q & Eq & Qq). exists q. split; [exact Eq|].
      rewrite Qq. cbn [map qsum fold_right]. unfold qsum. rewrite Qx. ring. }
  destruct (G 0%Q) as (q & E & Q). exists q. split; [exact E|]. rewrite Q. ring.
Qed.
End Values.
(** NaN spreads *)
Lemma fold_nan_mul (A : Type) (g : A -> num) l v : (exists x, In x l /\ g x = None) \/ v = None -> fold_left (fun v x => nmul v (g x)) l v = None.
Proof.
  revert v. induction l as [|x l IH]; intros v H; cbn [fold_left].
  - destruct H as [(x & [] & _)| ->]. reflexivity.
  - apply IH. destruct H as [(y & [->|Hy] & E)| ->]; [|left; eauto|right; reflexivity].
    right. rewrite E. destruct v; reflexivity.
Qed.
Lemma fold_nan_add (A : Type) (g : A -> num) l v : (exists x, In x l /\ g x = None) \/ v = None -> fold_left (fun v x => nadd v (g x)) l v = None.
Proof.
  revert v. induction l as [|x l IH]; intros v H; cbn [fold_left].
  - destruct H as [(x & [] & _)| ->]. reflexivity.
  - apply IH. destruct H as [(y & [->|Hy] & E)| ->]; [|left; eauto|right; reflexivity].
    right. rewrite E. destruct v; reflexivity.
Qed.
(** compiled rules have no constant factors *)
Lemma afactors_noconst h a f : In f (afactors h a) -> rf_var f <> VC.
Proof.
  assert (forall v, var_state v <> VC) as A by (destruct v; discriminate).
  assert (forall b, base_state b <> VC) as B by (destruct b; cbn; try discriminate; apply A).
  destruct a as [e|v|l|i|i]; cbn [afactors].
  - destruct e, h; intros []; subst; try contradiction; discriminate.
  - intros [<-|[]]. apply A.
  - intros [].
  - destruct i; intros []; subst; try contradiction; cbn; auto.
  - destruct i; intros []; subst; try contradiction; cbn; auto.
Qed.
Lemma closed_noconst l : forall g f, In f (g_factors (closed g l)) -> In f (g_factors g) \/ rf_var f <> VC.
Proof.
  induction l as [|a l IH]; intros g f H; [left; exact H|]. change (closed g (a :: l)) with (closed (closed1 g a) l) in H.
  destruct (IH _ _ H) as [H'|H']; [|right; exact H']. cbn [closed1 g_factors] in H'. apply in_app_or in H'.
  destruct H' as [H'|H']; [left; exact H'|right; exact (afactors_noconst _ _ _ H')].
Qed.
Lemma products_noconst : forall r series ps k, Forall wf_term r -> gen_products series (map term_syms r) = Some (ps, k) ->
  forall p f, In p ps -> In f (rp_factors p) -> rf_var f <> VC.
Proof.
  induction r as [|t r IH]; intros series ps k Hw E p f Hp Hf; cbn [map gen_products] in E.
  - injection E as <- <-. destruct Hp.
  - inversion Hw; subst. destruct (gen_product series (term_syms t)) as [[p1 k1]|] eqn:E1; [|discriminate].
    cbn [obind fst snd] in E. destruct (gen_products k1 (map term_syms r)) as [[ps' k2]|] eqn:E2; [|discriminate].
    cbn [omap fst snd] in E. injection E as <- <-. destruct Hp as [->|Hp]; [|eapply IH; eauto].
    clear IH E2. unfold gen_product in E1. rewrite (gen_term series t) in E1 by assumption.
    destruct (okp series (periods (t_atoms t))); [|discriminate]. cbn [obind] in E1.
    set (g := closed (start series (t_sign t)) (norm (t_atoms t))) in *.
    destruct (normalize (norm_fuel (g_mant g)) (g_mant g) (g_exp g)) as [[m e]|]; [|discriminate]. cbn [obind] in E1.
    destruct (g_dep g) as [d|]; [|discriminate].
    destruct ((m <? -8) || (8 <=? m)); [discriminate|]. destruct ((e <? -7) || (9 <=? e)); [discriminate|].
    match goal with H : (if ?b then None else Some _) = Some _ |- _ => destruct b; [discriminate|] end.
    injection E1 as <- <-. cbn [rp_factors] in Hf. destruct (closed_noconst _ _ _ Hf) as [[]|H]. exact H.
Qed.
