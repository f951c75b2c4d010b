(** C69: adaptive-threshold neurons. *)
From Coq Require Import ZArith List Bool Lia.
From Verif Require Import NpInt Atrlif_Model.
Import ListNotations.
Open Scope Z_scope.

(** ** Specification *)
Definition params_ok (P : params) : Prop :=
  (0 <= d_i P <= 4096 /\ 0 <= d_v P <= 4096 /\ 0 <= d_th P <= 4096 /\ 0 <= d_r P <= 4096) /\
  (0 <= th0 P <= 4095 * 64 /\ 0 <= th_step P <= 4095 * 64) /\
  (-4096 <= bias_mant P <= 4095 /\ -31 <= bias_exp P <= 7 /\ 0 < adt P).
(** the bias scaled by its exponent, rounded to minus infinity *)
Definition bias (P : params) : Z := bias_mant P * 2 ^ Z.max 0 (bias_exp P) / 2 ^ Z.max 0 (- bias_exp P).
Definition input_ok (P : params) (a : Z) : Prop :=
  - 2 ^ (adt P - 1) <= 64 * a < 2 ^ (adt P - 1) /\ - 262144 <= 2 * a < 262144.
(** (1 - d/4096) * x, rounded towards zero *)
Definition leak (x d : Z) : Z := Z.quot (x * (4096 - d)) 4096.
(** the ranges: current and voltage 24 bits, threshold and refractoriness never overflow 32 bits *)
Definition state_ok (P : params) (s : st) : Prop :=
  - 2 ^ 23 < cur s <= 2 ^ 23 /\ - 2 ^ 23 < vol s < 2 ^ 23 /\ 0 <= refr s < 2 ^ 24 /\
  (scaled s = true -> th0 P <= theta s < 2 ^ 23 + th_step P).
(** the documented step: current, voltage, decayed threshold and refractoriness, spike, adaptation *)
Definition step_spec (P : params) (t : Z) (s : st) (a : Z) (s' : st) (spike : bool) : Prop :=
  let th := leak (t - th0 P) (d_th P) + th0 P in
  let r := leak (refr s) (d_r P) in
  (2 ^ 24 | cur s' - (leak (cur s) (d_i P + 1) + 64 * a)) /\
  vol s' = clip (- (2 ^ 23 - 1)) (2 ^ 23 - 1) (leak (vol s) (d_v P) + cur s' + bias P) /\
  (spike = true <-> vol s' - r >= th) /\
  theta s' = (if spike then th + th_step P else th) /\
  refr s' = (if spike then r + 2 * th else r).

Lemma shr12_leak x k : shr12 (x * (4096 - k)) = leak x k.
Proof. unfold shr12, leak. rewrite sgn_shift_quot by lia. reflexivity. Qed.
Lemma leak_abs x d : 0 <= d <= 4096 -> Z.abs (leak x d) <= Z.abs x.
Proof.
  intros. unfold leak. rewrite <- Z.quot_abs by lia. rewrite Z.abs_mul, (Z.abs_eq (4096 - d)), (Z.abs_eq 4096) by lia.
  rewrite Z.quot_div_nonneg by nia. apply Z.div_le_upper_bound; nia.
Qed.
Lemma leak_abs' x d : 0 <= d <= 4097 -> x <> 0 -> 1 <= d -> Z.abs (leak x d) < Z.abs x \/ leak x d = 0.
Proof.
  intros H N D. unfold leak. rewrite <- Z.quot_abs by lia. rewrite Z.abs_mul, (Z.abs_eq 4096) by lia.
  left. rewrite Z.quot_div_nonneg by nia. apply Z.div_lt_upper_bound; [lia|].
  assert (Z.abs (4096 - d) <= 4095) by lia. nia.
Qed.
Lemma leak_nonneg x d : 0 <= d <= 4096 -> 0 <= x -> 0 <= leak x d <= x.
Proof.
  intros. unfold leak. rewrite Z.quot_div_nonneg by nia. split; [apply Z.div_pos; nia|apply Z.div_le_upper_bound; nia].
Qed.
Lemma leak_lt x d : 1 <= d <= 4096 -> 0 < x -> leak x d < x.
Proof. intros. unfold leak. rewrite Z.quot_div_nonneg by nia. apply Z.div_lt_upper_bound; nia. Qed.

Lemma bias_exact P : params_ok P -> effective_bias P = bias P /\ Z.abs (effective_bias P) <= 524288.
Proof.
  intros [_ [_ [B [E _]]]]. unfold effective_bias, bias. destruct (Z.leb_spec 0 (bias_exp P)).
  - rewrite (Z.max_r 0 (bias_exp P)), (Z.max_l 0 (- bias_exp P)) by lia. change (2 ^ 0) with 1. rewrite Z.div_1_r.
    assert (1 <= 2 ^ bias_exp P <= 128) as Hp.
    { split; [pose proof (Z.pow_pos_nonneg 2 (bias_exp P)); lia|]. change 128 with (2 ^ 7). apply Z.pow_le_mono_r; lia. }
    assert (w32 (bias_mant P * 2 ^ bias_exp P) = bias_mant P * 2 ^ bias_exp P) as -> by (apply w32_id; nia).
    split; auto. nia.
  - rewrite (Z.max_l 0 (bias_exp P)), (Z.max_r 0 (- bias_exp P)) by lia. change (2 ^ 0) with 1. rewrite Z.mul_1_r.
    rewrite Z.shiftr_div_pow2 by lia. split; auto.
    pose proof (Z.pow_pos_nonneg 2 (- bias_exp P) ltac:(lia) ltac:(lia)) as Hp. revert Hp. generalize (2 ^ (- bias_exp P)) as k. intros k Hp.
    assert (-4096 <= bias_mant P / k) by (apply Z.div_le_lower_bound; nia).
    assert (bias_mant P / k < 4096) by (apply Z.div_lt_upper_bound; nia). lia.
Qed.
Lemma cur_exact P x a : params_ok P -> input_ok P a -> - 2 ^ 23 < x <= 2 ^ 23 -> (di_float P = true \/ Z.abs x <= 524288) ->
  - 2 ^ 23 < new_cur P x a <= 2 ^ 23 /\ (2 ^ 24 | new_cur P x a - (leak x (d_i P + 1) + 64 * a)).
Proof.
  intros (D & _ & (_ & _ & W)) (A1 & A2) Hx HF. change (2 ^ 23) with 8388608 in *. change (2 ^ 24) with 16777216.
  unfold new_cur, max_iv.
  assert ((if di_float P then x * (4096 - (d_i P + 1)) else w32 (x * (4096 - (d_i P + 1)))) = x * (4096 - (d_i P + 1))) as ->.
  { destruct HF as [->|HF]; [reflexivity|]. destruct (di_float P); [reflexivity|]. apply w32_id.
    assert (Z.abs (4096 - (d_i P + 1)) <= 4095) by lia. nia. }
  rewrite shr12_leak. rewrite wrap_id by lia.
  assert (Z.abs (leak x (d_i P + 1)) < 8388608) as B.
  { destruct (Z.eq_dec x 0) as [->|N]; [unfold leak; simpl; lia|].
    destruct (leak_abs' x (d_i P + 1) ltac:(lia) N ltac:(lia)) as [L| ->]; lia. }
  set (l := leak x (d_i P + 1)) in *. rewrite (w32_id (l + a * 64)) by lia. replace (l + 64 * a) with (l + a * 64) by lia.
  remember (l + a * 64) as d eqn:Ed.
  destruct (Z.ltb_spec 8388608 d).
  - rewrite w32_id by lia. destruct (Z.leb_spec (d - 2 * 8388608) (- (8388608))); [lia|].
    split; [lia|]. exists (-1). lia.
  - destruct (Z.leb_spec d (- (8388608))).
    + rewrite w32_id by lia. split; [lia|]. exists 1. lia.
    + split; [lia|]. exists 0. lia.
Qed.

(** ** One step is the documented one; the threshold of the first step is the baseline. *)
Theorem atrlif_step_partial P s a : params_ok P -> input_ok P a -> state_ok P s ->
  (di_float P = true \/ Z.abs (cur s) <= 524288) ->
  state_ok P (fst (step P s a)) /\
  step_spec P (if scaled s then theta s else th0 P) s a (fst (step P s a)) (snd (step P s a)).
Proof.
  intros HP HA (C & V & R & T) HF. pose proof HP as ((D1 & D2 & D3 & D4) & (B0 & BS) & _).
  destruct (cur_exact P (cur s) a HP HA C HF) as [C' E'].
  destruct (bias_exact P HP) as [EB BB].
  unfold step, step_spec, state_ok. cbn [fst snd cur vol theta refr scaled].
  set (t := if scaled s then theta s else th0 P).
  assert (th0 P <= t < 8388608 + 262081) as Ht.
  { unfold t. change (2 ^ 23) with 8388608 in *. destruct (scaled s); [specialize (T eq_refl)|]; lia. }
  assert (t < 8388608 + th_step P) as Ht'.
  { unfold t. change (2 ^ 23) with 8388608 in *. destruct (scaled s); [specialize (T eq_refl)|]; lia. }
  set (x := new_cur P (cur s) a) in *.
  assert (new_vol P (vol s) x = clip (- (2 ^ 23 - 1)) (2 ^ 23 - 1) (leak (vol s) (d_v P) + x + bias P)) as EV.
  { unfold new_vol, max_iv. rewrite shr12_leak, <- EB. change (2 ^ 23) with 8388608 in *.
    pose proof (leak_abs (vol s) (d_v P) ltac:(lia)). rewrite w32_id by lia. reflexivity. }
  assert (Z.abs (new_vol P (vol s) x) < 8388608) as HV.
  { rewrite EV. change (2 ^ 23) with 8388608. unfold clip. lia. }
  assert (new_theta P t = leak (t - th0 P) (d_th P) + th0 P) as ET.
  { unfold new_theta. rewrite (w32_id (t - th0 P)) by lia. rewrite shr12_leak.
    pose proof (leak_nonneg (t - th0 P) (d_th P) ltac:(lia) ltac:(lia)).
    rewrite (w32_id (leak _ _)) by lia. apply w32_id. lia. }
  pose proof (leak_nonneg (t - th0 P) (d_th P) ltac:(lia) ltac:(lia)) as LT.
  assert (new_refr P (refr s) = leak (refr s) (d_r P)) as ER.
  { unfold new_refr. rewrite shr12_leak. change (2 ^ 24) with 16777216 in *.
    pose proof (leak_nonneg (refr s) (d_r P) ltac:(lia) ltac:(lia)). apply w32_id. lia. }
  pose proof (leak_nonneg (refr s) (d_r P) ltac:(lia) ltac:(lia)) as LR.
  rewrite ET, ER. rewrite EV in *.
  set (y := clip (- (2 ^ 23 - 1)) (2 ^ 23 - 1) (leak (vol s) (d_v P) + x + bias P)) in *.
  set (th := leak (t - th0 P) (d_th P) + th0 P) in *. set (r := leak (refr s) (d_r P)) in *.
  change (2 ^ 23) with 8388608 in *. change (2 ^ 24) with 16777216 in *.
  rewrite (w32_id (y - r)) by lia.
  destruct (Z.leb_spec th (y - r)) as [L|L].
  - rewrite (w32_id (th + th_step P)), (w32_id (2 * th)) by lia. rewrite (w32_id (r + 2 * th)) by lia.
    split; [split; [exact C'|split; [lia|split; [lia|intros _; lia]]]|].
    split; [exact E'|]. split; [reflexivity|]. split; [split; [lia|reflexivity]|]. split; reflexivity.
  - split; [split; [exact C'|split; [lia|split; [lia|intros _; lia]]]|].
    split; [exact E'|]. split; [reflexivity|]. split; [split; [discriminate|lia]|]. split; reflexivity.
Qed.
(** every history: with decays given as floats nothing overflows, ever *)
Theorem atrlif_in_range P s as_ : params_ok P -> di_float P = true -> Forall (input_ok P) as_ -> state_ok P s ->
  state_ok P (after P s as_).
Proof.
  intros HP HF. revert s. induction as_ as [|a r IH]; intros s F H; [exact H|]. inversion F; subst.
  apply IH; [assumption|]. apply atrlif_step_partial; auto.
Qed.
Lemma in_range_initial P i v th : - 2 ^ 23 < i <= 2 ^ 23 -> - 2 ^ 23 < v < 2 ^ 23 -> state_ok P (initial i v th 0).
Proof. intros. unfold state_ok, initial. cbn [cur vol refr scaled theta]. change (2 ^ 24) with 16777216. change (2 ^ 23) with 8388608 in *.
  split; [lia|]. split; [lia|]. split; [lia|discriminate]. Qed.

(** ** Adaptation wears off: after long enough silence threshold and refractoriness are back at their baseline. *)
Definition thr (P : params) (s : st) : Z := if scaled s then theta s else th0 P.
Lemma leak_dec x d : 1 <= d <= 4096 -> 0 <= x -> 0 <= leak x d <= Z.max 0 (x - 1).
Proof.
  intros D X. pose proof (leak_nonneg x d ltac:(lia) X). destruct (Z.eq_dec x 0) as [->|N]; [lia|].
  pose proof (leak_lt x d D ltac:(lia)). lia.
Qed.
Lemma silent_steps P as_ : params_ok P -> di_float P = true -> 1 <= d_th P -> 1 <= d_r P -> forall s, state_ok P s ->
  Forall (input_ok P) as_ -> Forall (eq false) (spikes P s as_) ->
  0 <= thr P (after P s as_) - th0 P <= Z.max 0 (thr P s - th0 P - Z.of_nat (length as_)) /\
  0 <= refr (after P s as_) <= Z.max 0 (refr s - Z.of_nat (length as_)).
Proof.
  intros HP HF D1 D2. pose proof HP as ((_ & _ & D3 & D4) & _).
  induction as_ as [|a r IH]; intros s Hs FI FS.
  - cbn [after fold_left length]. destruct Hs as (_ & _ & R & T). unfold thr.
    destruct (scaled s); [specialize (T eq_refl)|]; lia.
  - inversion FI; subst. assert (snd (step P s a) = false) as E2 by (symmetry; exact (Forall_inv FS)).
    pose proof (Forall_inv_tail FS) as FS'.
    destruct (atrlif_step_partial P s a HP H1 Hs (or_introl HF)) as [Hs' (_ & _ & _ & ET & ER)].
    rewrite E2 in ET, ER. specialize (IH _ Hs' H2 FS').
    change (after P s (a :: r)) with (after P (fst (step P s a)) r).
    assert (thr P (fst (step P s a)) = theta (fst (step P s a))) as E1 by reflexivity. rewrite E1, ET, ER in IH.
    fold (thr P s) in IH.
    assert (0 <= thr P s - th0 P) as N1.
    { destruct Hs as (_ & _ & _ & T). unfold thr. destruct (scaled s); [specialize (T eq_refl)|]; lia. }
    assert (0 <= refr s) as N2 by (destruct Hs as (_ & _ & R & _); lia).
    pose proof (leak_dec (thr P s - th0 P) (d_th P) ltac:(lia) N1). pose proof (leak_dec (refr s) (d_r P) ltac:(lia) N2).
    cbn [length]. lia.
Qed.
Theorem atrlif_recovers P s : params_ok P -> di_float P = true -> 1 <= d_th P -> 1 <= d_r P -> state_ok P s ->
  exists n, forall as_, (n <= length as_)%nat -> Forall (input_ok P) as_ -> Forall (eq false) (spikes P s as_) ->
    theta (after P s as_) = th0 P /\ refr (after P s as_) = 0.
Proof.
  intros HP HF D1 D2 HS. exists (S (Z.to_nat (thr P s - th0 P) + Z.to_nat (refr s))). intros as_ L FI FS.
  pose proof (silent_steps P as_ HP HF D1 D2 s HS FI FS) as [A B].
  assert (thr P (after P s as_) = theta (after P s as_)) as E.
  { destruct as_ as [|a r] using rev_ind; [cbn in L; lia|]. unfold after. rewrite fold_left_app. reflexivity. }
  rewrite E in A. lia.
Qed.

(** ** What is not as documented *)
(** the initial threshold given by the user is never looked at *)
Theorem atrlif_initial_theta_refuted P i v r th th' a :
  step P (initial i v th r) a = step P (initial i v th' r) a.
Proof. reflexivity. Qed.
(** delta_i = 1 (full decay) leaves a part of the old current, with the opposite sign *)
Theorem atrlif_full_decay_refuted : exists P s, params_ok P /\ di_float P = true /\ d_i P = 4096 /\ state_ok P s /\
  cur s > 0 /\ cur (fst (step P s 0)) < 0.
Proof.
  exists {| d_i := 4096; d_v := 0; d_th := 0; d_r := 0; di_float := true; th0 := 320; th_step := 240; bias_mant := 0; bias_exp := 0; adt := 32 |}.
  exists (initial 1048576 0 0 0). unfold params_ok, state_ok. change (2 ^ 23) with 8388608. change (2 ^ 24) with 16777216. cbn [initial d_i d_v d_th d_r di_float th0 th_step bias_mant bias_exp adt cur vol theta refr scaled]. repeat split; try lia; try reflexivity; discriminate.
Qed.
(** with delta_i = 0 given as a Python int, the product overflows int32 before it is promoted, although the current
    is well within 24 bits: without any input a positive current becomes negative *)
Theorem atrlif_int_decay_overflow_refuted : exists P s, params_ok P /\ di_float P = false /\ d_i P = 0 /\ state_ok P s /\
  cur s = 2 ^ 20 /\ cur (fst (step P s 0)) < 0.
Proof.
  exists {| d_i := 0; d_v := 0; d_th := 0; d_r := 0; di_float := false; th0 := 320; th_step := 240; bias_mant := 0; bias_exp := 0; adt := 32 |}.
  exists (initial 1048576 0 0 0). unfold params_ok, state_ok. change (2 ^ 23) with 8388608. change (2 ^ 24) with 16777216. cbn [initial d_i d_v d_th d_r di_float th0 th_step bias_mant bias_exp adt cur vol theta refr scaled]. repeat split; try lia; try reflexivity; discriminate.
Qed.
(** the refractoriness needs more than the 24 bits it is declared with *)
Theorem atrlif_refractoriness_24_bits_refuted : exists P as_, params_ok P /\ di_float P = true /\ Forall (input_ok P) as_ /\
  refr (after P (initial 0 0 0 0) as_) > 2 ^ 23.
Proof.
  exists {| d_i := 4095; d_v := 0; d_th := 0; d_r := 4096; di_float := true; th0 := 262080; th_step := 262080; bias_mant := 0; bias_exp := 0; adt := 32 |}.
  exists (repeat 100000 25). split; [unfold params_ok; cbn [d_i d_v d_th d_r di_float th0 th_step bias_mant bias_exp adt]; lia|]. split; [reflexivity|].
  split; [|vm_compute; reflexivity]. apply Forall_forall. intros a H. apply repeat_spec in H. subst. unfold input_ok. cbn [adt]. change (2 ^ (32 - 1)) with 2147483648. lia.
Qed.

Example atrlif_demo :
  let P := {| d_i := 1638; d_v := 1638; d_th := 819; d_r := 819; di_float := true; th0 := 320; th_step := 240; bias_mant := 0; bias_exp := 0; adt := 32 |} in
  params_ok P /\ Forall (input_ok P) [5; 5; 5; 5; 5; 5; 5; 5; 5] /\ state_ok P (initial 0 0 5 0) /\
  spikes P (initial 0 0 5 0) [5; 5; 5; 5; 5; 5; 5; 5; 5] = [true; false; true; false; true; false; false; true; false].
Proof.
  cbv zeta. split; [unfold params_ok; cbn [d_i d_v d_th d_r di_float th0 th_step bias_mant bias_exp adt]; lia|]. split; [repeat constructor; unfold input_ok; cbn [adt]; change (2 ^ (32 - 1)) with 2147483648; lia|].
  split; [apply in_range_initial; change (2 ^ 23) with 8388608; lia|]. reflexivity.
Qed.

Print Assumptions atrlif_step_partial.
Print Assumptions atrlif_in_range.
Print Assumptions atrlif_recovers.
Print Assumptions atrlif_initial_theta_refuted.
Print Assumptions atrlif_full_decay_refuted.
Print Assumptions atrlif_int_decay_overflow_refuted.
Print Assumptions atrlif_refractoriness_24_bits_refuted.
