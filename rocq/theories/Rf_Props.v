(** C66, C67: resonate-and-fire neurons. *)
From Coq Require Import ZArith List Bool Lia.
From Verif Require Import NpInt Rf_Model.
Import ListNotations.
Open Scope Z_scope.

(** ** Specification *)
(** Decays of at most 2^12 in magnitude with at least one decay bit, 16-bit inputs. *)
Definition params_ok (P : params) : Prop :=
  0 <= decay_bits P <= 12 /\ Z.abs (s_dec P) <= 4096 /\ Z.abs (c_dec P) <= 4096 /\ 0 <= state_exp P <= 7.
Definition input_ok (i : Z * Z) : Prop := -32768 <= fst i < 32768 /\ -32768 <= snd i < 32768.
(** both components fit 24 bits *)
Definition state_ok (z : Z * Z) : Prop := Z.abs (fst z) < 2 ^ 23 /\ Z.abs (snd z) < 2 ^ 23.
(** Euclidean multiplication of the state by the complex number (c + i s) / 2^d, plus the input; here times 2^d *)
Definition exact_re (P : params) (z i : Z * Z) : Z :=
  c_dec P * fst z - s_dec P * snd z + 2 ^ decay_bits P * (2 ^ state_exp P * fst i).
Definition exact_im (P : params) (z i : Z * Z) : Z :=
  s_dec P * fst z + c_dec P * snd z + 2 ^ decay_bits P * (2 ^ state_exp P * snd i).

Lemma scale_volt_err P x : 0 <= decay_bits P ->
  Z.abs (2 ^ decay_bits P * scale_volt P x - x) < 2 ^ decay_bits P /\ Z.abs (scale_volt P x) <= Z.abs x.
Proof.
  intros H. unfold scale_volt. rewrite sgn_shift_quot by auto.
  assert (0 < 2 ^ decay_bits P) as Hp by (apply Z.pow_pos_nonneg; lia).
  split; [|apply quot_abs_lt; auto].
  pose proof (Z.quot_rem' x (2 ^ decay_bits P)) as E.
  pose proof (Z.rem_bound_abs x (2 ^ decay_bits P) ltac:(lia)). rewrite (Z.abs_eq (2 ^ _)) in H0 by lia. lia.
Qed.
Lemma shifted_exact P a : params_ok P -> -32768 <= a < 32768 -> shifted P a = 2 ^ state_exp P * a.
Proof.
  intros (_ & _ & _ & S) A. unfold shifted.
  assert (1 <= 2 ^ state_exp P <= 128).
  { split; [pose proof (Z.pow_pos_nonneg 2 (state_exp P)); lia|]. change 128 with (2 ^ 7). apply Z.pow_le_mono_r; lia. }
  rewrite w32_id by nia. lia.
Qed.

(** ** C66.  The state stays within 24 bits; before saturation each component differs from the exact complex
    rotation by less than two units; a spike is sent exactly when the imaginary part crosses zero upwards while the
    real part is at least vth. *)
Theorem rf_state_24_bits P z is_ : state_ok z -> state_ok (final _ _ _ (rf_step P) z is_).
Proof.
  revert z. induction is_ as [|i r IH]; intros z H; [exact H|].
  apply IH. unfold rf_step, dynamics, state_ok, lim. cbn [fst snd]. change (2 ^ 23) with 8388608.
  unfold clip. split; lia.
Qed.
(** saturation: the value nearest to x in the 24-bit range *)
Definition saturated (x y : Z) : Prop :=
  Z.abs y < 2 ^ 23 /\ (Z.abs x < 2 ^ 23 -> y = x) /\ (2 ^ 23 <= x -> y = 2 ^ 23 - 1) /\ (x <= - 2 ^ 23 -> y = - (2 ^ 23 - 1)).
Lemma clip_saturated x : saturated x (clip (- lim) lim x).
Proof. unfold saturated, clip, lim. change (2 ^ 23) with 8388608. lia. Qed.
Theorem rf_rotates P z i : params_ok P -> input_ok i ->
  exists re im,
    Z.abs (2 ^ decay_bits P * re - exact_re P z i) < 2 * 2 ^ decay_bits P /\
    Z.abs (2 ^ decay_bits P * im - exact_im P z i) < 2 * 2 ^ decay_bits P /\
    saturated re (fst (fst (rf_step P z i))) /\ saturated im (snd (fst (rf_step P z i))).
Proof.
  intros HP (A & B). pose proof HP as (D & _).
  unfold rf_step, dynamics. cbn [fst snd].
  eexists; eexists. split; [|split; [|split; apply clip_saturated]].
  - rewrite (shifted_exact P (fst i)) by auto. unfold exact_re.
    pose proof (scale_volt_err P (c_dec P * fst z) ltac:(lia)) as [E1 _].
    pose proof (scale_volt_err P (s_dec P * snd z) ltac:(lia)) as [E2 _].
    remember (2 ^ decay_bits P) as N. remember (2 ^ state_exp P) as M.
    remember (scale_volt P (c_dec P * fst z)) as x. remember (scale_volt P (s_dec P * snd z)) as y.
    replace (N * (x - y + M * fst i) - (c_dec P * fst z - s_dec P * snd z + N * (M * fst i)))
      with ((N * x - c_dec P * fst z) - (N * y - s_dec P * snd z)) by ring. lia.
  - rewrite (shifted_exact P (snd i)) by auto. unfold exact_im.
    pose proof (scale_volt_err P (s_dec P * fst z) ltac:(lia)) as [E1 _].
    pose proof (scale_volt_err P (c_dec P * snd z) ltac:(lia)) as [E2 _].
    remember (2 ^ decay_bits P) as N. remember (2 ^ state_exp P) as M.
    remember (scale_volt P (s_dec P * fst z)) as x. remember (scale_volt P (c_dec P * snd z)) as y.
    replace (N * (x + y + M * snd i) - (s_dec P * fst z + c_dec P * snd z + N * (M * snd i)))
      with ((N * x - s_dec P * fst z) + (N * y - c_dec P * snd z)) by ring. lia.
Qed.
Theorem rf_spike_iff P z i :
  snd (rf_step P z i) = true <->
  snd z < 0 /\ 0 <= snd (fst (rf_step P z i)) /\ vth P <= fst (fst (rf_step P z i)).
Proof.
  unfold rf_step. cbn [fst snd]. rewrite !andb_true_iff, !Z.leb_le, Z.ltb_lt. tauto.
Qed.

(** Runs of consecutive steps: entry k of [run] is step k. *)
Lemma run_nth St I O step z is_ k o : nth_error (run St I O step z is_) k = Some o ->
  exists i, nth_error is_ k = Some i /\ o = step (final St I O step z (firstn k is_)) i.
Proof.
  revert z k. induction is_ as [|i r IH]; intros z k; cbn [run].
  - destruct k; discriminate.
  - destruct k as [|k]; cbn [nth_error firstn].
    + intro E. injection E as <-. exists i. split; reflexivity.
    + intro E. destruct (IH _ _ E) as (j & A & B). exists j. split; [exact A|]. exact B.
Qed.
Lemma run_succ St I O step z is_ k o o' :
  nth_error (run St I O step z is_) k = Some o -> nth_error (run St I O step z is_) (S k) = Some o' ->
  exists i, nth_error is_ (S k) = Some i /\ o' = step (fst o) i.
Proof.
  revert z k. induction is_ as [|i r IH]; intros z k; cbn [run].
  - destruct k; discriminate.
  - destruct k as [|k]; cbn [nth_error].
    + intro E. injection E as <-. destruct r as [|j r]; cbn [run]; [discriminate|]. cbn [nth_error].
      intro E. injection E as <-. exists j. split; reflexivity.
    + intros E F. destruct (IH _ _ E F) as (j & A & B). exists j. split; auto.
Qed.
(** hence an RF neuron never spikes in two consecutive steps, whatever its inputs *)
Theorem rf_no_consecutive_spikes P z is_ k z1 z2 b :
  nth_error (run _ _ _ (rf_step P) z is_) k = Some (z1, true) ->
  nth_error (run _ _ _ (rf_step P) z is_) (S k) = Some (z2, b) -> b = false.
Proof.
  intros E F. destruct (run_succ _ _ _ _ _ _ _ _ _ E F) as (i & _ & G).
  destruct (run_nth _ _ _ _ _ _ _ _ E) as (j & _ & H).
  assert (0 <= snd z1) as N.
  { symmetry in H. assert (snd (rf_step P (final _ _ _ (rf_step P) z (firstn k is_)) j) = true) as T by (rewrite H; reflexivity).
    apply rf_spike_iff in T. rewrite H in T. cbn [fst] in T. tauto. }
  destruct b; [|reflexivity]. exfalso.
  assert (snd (rf_step P z1 i) = true) as T by (cbn [fst] in G; rewrite <- G; reflexivity).
  apply rf_spike_iff in T. lia.
Qed.
(** the floating-point model satisfies both for every arithmetic, if no number is both >= 0 and < 0 *)
Section Float.
Variable F : Type.
Variable zero : F.
Variables add sub mul : F -> F -> F.
Variables ge lt : F -> F -> bool.
Hypothesis ge_not_lt : forall x y, ge x y = true -> lt x y = true -> False.
Let step := frf_step F zero add sub mul ge lt.
Theorem rf_float_no_consecutive_spikes P z is_ k z1 z2 b :
  nth_error (run _ _ _ (step P) z is_) k = Some (z1, true) ->
  nth_error (run _ _ _ (step P) z is_) (S k) = Some (z2, b) -> b = false.
Proof.
  intros E G. destruct (run_succ _ _ _ _ _ _ _ _ _ E G) as (i & _ & A).
  destruct (run_nth _ _ _ _ _ _ _ _ E) as (j & _ & B).
  unfold step, frf_step in A, B. injection B as B1 B2. injection A as A1 A2.
  destruct b; [|reflexivity]. exfalso. symmetry in A2, B2.
  apply andb_true_iff in A2 as [_ A2]. apply andb_true_iff in B2 as [B2 _]. apply andb_true_iff in B2 as [_ B2].
  rewrite B1 in A2. cbn [snd] in A2. eapply ge_not_lt; eauto.
Qed.
End Float.
Example rf_demo :
  let P := {| s_dec := 2234; c_dec := 3075; state_exp := 6; decay_bits := 12; vth := 300 |} in
  params_ok P /\
  map snd (run _ _ _ (rf_step P) (0, 0) ((10, 0) :: repeat (0, 0) 12)) =
  [false; false; false; false; false; false; false; false; false; false; false; false; false] /\
  map snd (run _ _ _ (rf_step P) (0, 0) ((100, 0) :: repeat (0, 0) 12)) =
  [false; false; false; false; false; false; false; false; false; false; true; false; false].
Proof. cbv zeta. split; [unfold params_ok; cbn; lia|]. split; reflexivity. Qed.

(** ** C67.  RF_IZ: spikes exactly when the imaginary part reaches vth, is then reset below it, and without input
    does not spike again in the next step. *)
Theorem iz_spike_iff P z i re im : fst (rf_step P z i) = (re, im) ->
  iz_step P z i = if vth P <=? im then ((0, vth P - 1), true) else ((re, im), false).
Proof.
  unfold rf_step, iz_step. cbn [fst]. destruct (dynamics P z (fst i) (snd i)) as [x y]. cbn [fst snd]. intro E.
  injection E as <- <-. destruct (vth P <=? y); f_equal; f_equal; lia.
Qed.
Theorem iz_below_threshold P z is_ : (is_ <> [] \/ snd z < vth P) -> snd (final _ _ _ (iz_step P) z is_) < vth P.
Proof.
  revert z. induction is_ as [|i r IH]; intros z H; [destruct H; [congruence|assumption]|].
  cbn [final fold_left]. apply IH. right.
  destruct (fst (rf_step P z i)) as [re im] eqn:E. rewrite (iz_spike_iff P z i re im E).
  destruct (Z.leb_spec (vth P) im); cbn [fst snd]; lia.
Qed.
Theorem iz_state_24_bits P z is_ : 1 <= vth P <= 2 ^ 23 -> state_ok z -> state_ok (final _ _ _ (iz_step P) z is_).
Proof.
  intro V. revert z. induction is_ as [|i r IH]; intros z H; [exact H|].
  cbn [final fold_left]. apply IH. pose proof (rf_state_24_bits P z [i] H) as R. cbn [final fold_left] in R.
  destruct (fst (rf_step P z i)) as [re im] eqn:E. rewrite (iz_spike_iff P z i re im E).
  destruct (vth P <=? im); cbn [fst]; [|exact R]. unfold state_ok. cbn [fst snd]. change (2 ^ 23) with 8388608 in *. lia.
Qed.
Theorem iz_no_spike_after_spike P z is_ k z1 z2 b :
  params_ok P -> 0 <= c_dec P <= 2 ^ decay_bits P -> 1 <= vth P ->
  nth_error (run _ _ _ (iz_step P) z is_) k = Some (z1, true) ->
  nth_error is_ (S k) = Some (0, 0) ->
  nth_error (run _ _ _ (iz_step P) z is_) (S k) = Some (z2, b) -> b = false.
Proof.
  intros HP C V E I F. destruct (run_succ _ _ _ _ _ _ _ _ _ E F) as (i & J & G). rewrite I in J. injection J as <-.
  destruct (run_nth _ _ _ _ _ _ _ _ E) as (j & _ & H). cbn [fst] in G.
  assert (z1 = (0, vth P - 1)) as ->.
  { destruct (fst (rf_step P (final _ _ _ (iz_step P) z (firstn k is_)) j)) as [re im] eqn:Q.
    rewrite (iz_spike_iff P _ _ re im Q) in H. destruct (vth P <=? im); congruence. }
  destruct (fst (rf_step P (0, vth P - 1) (0, 0))) as [re im] eqn:Q. rewrite (iz_spike_iff P _ _ re im Q) in G.
  destruct (Z.leb_spec (vth P) im) as [L|L]; [exfalso|congruence].
  unfold rf_step, dynamics in Q. cbn [fst snd] in Q. apply (f_equal snd) in Q. cbn [snd] in Q.
  rewrite (shifted_exact P 0) in Q by (auto; lia).
  assert (scale_volt P (s_dec P * 0) = 0) as Z0. { rewrite Z.mul_0_r. unfold scale_volt, sgn_shift. reflexivity. }
  rewrite Z0, Z.mul_0_r in Q. unfold scale_volt in Q. rewrite sgn_shift_quot in Q by (destruct HP; lia).
  assert (0 < 2 ^ decay_bits P) as HN by (apply Z.pow_pos_nonneg; destruct HP; lia).
  assert (Z.quot (c_dec P * (vth P - 1)) (2 ^ decay_bits P) <= vth P - 1) as B.
  { rewrite Z.quot_div_nonneg by nia. apply Z.div_le_upper_bound; nia. }
  unfold clip, lim in Q. remember (Z.quot (c_dec P * (vth P - 1)) (2 ^ decay_bits P)) as q. clear Heqq. lia.
Qed.
Example iz_demo :
  let P := {| s_dec := 2234; c_dec := 3075; state_exp := 0; decay_bits := 12; vth := 100 |} in
  map snd (run _ _ _ (iz_step P) (0, 0) ([(150, 0); (0, 50); (0, 0); (0, 200); (0, 0)])) = [false; true; false; true; false].
Proof. reflexivity. Qed.

(** ** RFZero.  Within +-2^15 the state is rotated as documented, rounding down; beyond, the int32 products overflow. *)
Definition zparams_ok (P : zparams) : Prop := Z.abs (lst P) <= 32768 /\ Z.abs (lct P) <= 32768.
Theorem rfzero_rotates_partial P u v i : zparams_ok P ->
  Z.abs u < 2 ^ 16 -> Z.abs v < 2 ^ 16 -> Z.abs (fst i) < 2 ^ 30 -> Z.abs (snd i) < 2 ^ 30 ->
  exists nu nv, zero_step P (u, v) i = ((nu, nv), if (uth P <? nu) && (0 <=? nv) && (v <? 0) then nu else 0) /\
    Z.abs (32768 * (nu - fst i) - (lct P * u - lst P * v)) < 32768 /\
    -65536 < 32768 * (nv - snd i) - (lct P * v + lst P * u) <= 0.
Proof.
  intros (A & B) U V I J. change (2 ^ 16) with 65536 in *. change (2 ^ 30) with 1073741824 in *.
  assert (forall x y, Z.abs x < 65536 -> Z.abs y <= 32768 -> z32 x y = (x * y) / 32768 /\ Z.abs ((x * y) / 32768) <= 65536) as Q.
  { intros x y X Y. unfold z32. assert (Z.abs (x * y) <= 65535 * 32768) by (rewrite Z.abs_mul; nia).
    rewrite w32_id by lia. split; [reflexivity|].
    pose proof (Z.div_mod (x * y) 32768 ltac:(lia)). pose proof (Z.mod_pos_bound (x * y) 32768 ltac:(lia)). nia. }
  destruct (Q u (lct P) U B) as [E1 B1]. destruct (Q v (lst P) V A) as [E2 B2].
  destruct (Q v (lct P) V B) as [E3 B3]. destruct (Q u (lst P) U A) as [E4 B4].
  unfold zero_step. cbn [fst snd]. rewrite E1, E2, E3, E4.
  pose proof (Z.div_mod (u * lct P) 32768 ltac:(lia)) as D1. pose proof (Z.mod_pos_bound (u * lct P) 32768 ltac:(lia)) as M1.
  pose proof (Z.div_mod (v * lst P) 32768 ltac:(lia)) as D2. pose proof (Z.mod_pos_bound (v * lst P) 32768 ltac:(lia)) as M2.
  pose proof (Z.div_mod (v * lct P) 32768 ltac:(lia)) as D3. pose proof (Z.mod_pos_bound (v * lct P) 32768 ltac:(lia)) as M3.
  pose proof (Z.div_mod (u * lst P) 32768 ltac:(lia)) as D4. pose proof (Z.mod_pos_bound (u * lst P) 32768 ltac:(lia)) as M4.
  set (a := u * lct P / 32768) in *. set (b := v * lst P / 32768) in *.
  set (c := v * lct P / 32768) in *. set (d := u * lst P / 32768) in *.
  rewrite (w32_id (a - b)), (w32_id (c + d)) by lia. rewrite (w32_id (a - b + fst i)), (w32_id (c + d + snd i)) by lia.
  exists (a - b + fst i), (c + d + snd i). split; [|split; lia].
  f_equal. set (n := a - b + fst i).
  destruct (uth P <? n), (0 <=? c + d + snd i), (v <? 0); cbn [andb]; rewrite ?Z.mul_1_r, ?Z.mul_0_r, ?Z.mul_0_l;
    try (apply w32_id; lia); reflexivity.
Qed.
(** a state well within its 24 bits flips its sign *)
Theorem rfzero_overflow_refuted : exists P z,
  zparams_ok P /\ state_ok z /\
  lct P * fst z - lst P * snd z > 32768 * 65536 /\
  fst (fst (zero_step P z (0, 0))) < 0.
Proof.
  exists {| lst := 2058; lct := 32670; uth := 10 |}, (70000, 0).
  unfold zparams_ok, state_ok. cbn. repeat split; lia || reflexivity.
Qed.
Theorem rfzero_overflow_reachable_refuted :
  let P := {| lst := 2058; lct := 32670; uth := 10 |} in
  exists is_, Forall (fun i => 0 <= fst i < 2 ^ 15 /\ snd i = 0) is_ /\
    fst (final _ _ _ (zero_step P) (0, 0) is_) > 65536 /\
    fst (final _ _ _ (zero_step P) (0, 0) (is_ ++ [(0, 0)])) < 0.
Proof.
  exists [(32000, 0); (32000, 0); (10000, 0)]. cbv zeta. split; [repeat constructor; cbn; lia|].
  split; reflexivity.
Qed.
Example rfzero_demo :
  let P := {| lst := 19260; lct := 26509; uth := 10 |} in
  map snd (run _ _ _ (zero_step P) (0, 0) ((1000, 0) :: repeat (0, 0) 10)) = [0; 0; 0; 0; 0; 0; 0; 0; 0; 0; 998].
Proof. reflexivity. Qed.

Print Assumptions rf_state_24_bits.
Print Assumptions rf_rotates.
Print Assumptions rf_spike_iff.
Print Assumptions rf_no_consecutive_spikes.
Print Assumptions rf_float_no_consecutive_spikes.
Print Assumptions iz_spike_iff.
Print Assumptions iz_below_threshold.
Print Assumptions iz_state_24_bits.
Print Assumptions iz_no_spike_after_spike.
Print Assumptions rfzero_rotates_partial.
Print Assumptions rfzero_overflow_refuted.
Print Assumptions rfzero_overflow_reachable_refuted.
