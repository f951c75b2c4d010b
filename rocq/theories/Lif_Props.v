(** C32, C33, C34, C56, C57: LIF neurons. *)
From Coq Require Import ZArith List Bool Lia Znumtheory.
From Verif Require Import NpInt Lif_Model.
Import ListNotations.
Open Scope Z_scope.

(** ** Specification *)
(** Parameters with the documented precisions (du, dv 12 bit unsigned, bias 13 bit, 3 bit exponent; a
    negative exponent scales the bias down, rounding to minus infinity). *)
Definition params_ok (P : params) : Prop :=
  0 <= du P <= 4095 /\ 0 <= dv P <= 4095 /\ -4096 <= bias_mant P <= 4095 /\ -31 <= bias_exp P <= 7 /\ 0 < adt P.
Definition bias (P : params) : Z := bias_mant P * 2 ^ Z.max 0 (bias_exp P) / 2 ^ Z.max 0 (- bias_exp P).
(** An input whose aligned value fits the integer type it arrives in and 2^24 (any 16-bit activation
    arriving in 32-bit integers does). *)
Definition input_ok (P : params) (a : Z) : Prop :=
  - 2 ^ (adt P - 1) <= 64 * a < 2 ^ (adt P - 1) /\ - 262144 <= a <= 262144.
Definition u_ok (x : Z) : Prop := - 8388608 < x <= 8388608.
Definition v_ok (y : Z) : Prop := - 8388607 <= y <= 8388607.
Definition event_ok (P : params) (e : event) : Prop := match e with Step a => input_ok P a | SetVth _ => True end.

(** division by 4096 rounding to zero *)
Definition leak (x k : Z) : Z := Z.quot (x * k) 4096.

Lemma leak_bound x k : 0 <= k <= 4096 -> Z.abs (leak x k) <= Z.abs x.
Proof.
  intros. unfold leak. rewrite <- Z.quot_abs by lia. rewrite Z.abs_mul, (Z.abs_eq k), (Z.abs_eq 4096) by lia.
  rewrite Z.quot_div_nonneg by nia. apply Z.div_le_upper_bound; nia.
Qed.
Lemma leak_strict x k : 0 <= k <= 4095 -> x <> 0 -> Z.abs (leak x k) < Z.abs x.
Proof.
  intros. unfold leak. rewrite <- Z.quot_abs by lia. rewrite Z.abs_mul, (Z.abs_eq k), (Z.abs_eq 4096) by lia.
  rewrite Z.quot_div_nonneg by nia. apply Z.div_lt_upper_bound; nia.
Qed.
Lemma decayed_leak x c : 0 <= c <= 4096 -> -8388608 <= x <= 8388608 -> decayed x c = leak x (4096 - c).
Proof.
  intros Hc Hx. unfold decayed. rewrite sgn_shift_quot by lia. change (2 ^ 12) with 4096. fold (leak x (4096 - c)).
  apply w32_id. pose proof (leak_bound x (4096 - c) ltac:(lia)). lia.
Qed.

Lemma bias_exact P : params_ok P -> effective_bias P = bias P /\ Z.abs (effective_bias P) <= 524288.
Proof.
  intros [_ [_ [B [E _]]]]. unfold effective_bias, bias. destruct (Z.leb_spec 0 (bias_exp P)).
  - rewrite (Z.max_r 0 (bias_exp P)), (Z.max_l 0 (- bias_exp P)) by lia. change (2 ^ 0) with 1. rewrite Z.div_1_r.
    assert (1 <= 2 ^ bias_exp P <= 128) as Hp.
    { split; [pose proof (Z.pow_pos_nonneg 2 (bias_exp P)); lia|]. change 128 with (2 ^ 7). apply Z.pow_le_mono_r; lia. }
    assert (w32 (bias_mant P * 2 ^ bias_exp P) = bias_mant P * 2 ^ bias_exp P) as -> by (apply w32_id; nia).
    split; auto. nia.
  - rewrite (Z.max_l 0 (bias_exp P)), (Z.max_r 0 (- bias_exp P)) by lia. change (2 ^ 0) with 1. rewrite Z.mul_1_r.
    rewrite Z.shiftr_div_pow2 by lia. split; auto.
    pose proof (Z.pow_pos_nonneg 2 (- bias_exp P) ltac:(lia) ltac:(lia)) as Hp. revert Hp. generalize (2 ^ (- bias_exp P)) as k. intros k Hp.
    assert (-4096 <= bias_mant P / k) by (apply Z.div_le_lower_bound; nia).
    assert (bias_mant P / k < 4096) by (apply Z.div_lt_upper_bound; nia). lia.
Qed.

(** ** One step is the documented arithmetic, with no overflow in any intermediate 32-bit value. *)
Theorem lif_current_exact : forall P x a, params_ok P -> input_ok P a -> u_ok x ->
  u_ok (current P x a) /\
  (2 ^ 24 | current P x a - (leak x (4095 - du P) + 64 * a)).
Proof.
  intros P x a [D [_ [_ [_ W]]]] [A1 A2] Hx. unfold u_ok in *. unfold current, max_uv.
  rewrite decayed_leak by lia. replace (4096 - (du P + 1)) with (4095 - du P) by lia.
  unfold aligned. rewrite wrap_id by lia.
  pose proof (leak_bound x (4095 - du P) ltac:(lia)) as B.
  assert (Z.abs (leak x (4095 - du P)) < 8388608) as B'.
  { destruct (Z.eq_dec x 0) as [->|N]; [simpl in *; lia|]. pose proof (leak_strict x (4095 - du P) ltac:(lia) N). lia. }
  set (l := leak x (4095 - du P)) in *. rewrite (w32_id (l + a * 64)) by lia. replace (l + 64 * a) with (l + a * 64) by lia.
  remember (l + a * 64) as d eqn:Ed.
  change (2 ^ 24) with 16777216.
  destruct (Z.ltb_spec 8388608 d).
  - rewrite w32_id by lia. destruct (Z.leb_spec (d - 2 * 8388608) (- (8388608))); [lia|].
    split; [lia|]. exists (-1). lia.
  - destruct (Z.leb_spec d (- (8388608))).
    + rewrite w32_id by lia. split; [lia|]. exists 1. lia.
    + split; [lia|]. exists 0. lia.
Qed.

Theorem lif_voltage_exact : forall P y x, params_ok P -> u_ok x -> v_ok y ->
  voltage P y x = clip (-8388607) 8388607 (leak y (4096 - dv P) + x + bias P).
Proof.
  intros P y x HP Hx Hy. unfold voltage, max_uv. destruct (bias_exact P HP) as [E B]. rewrite <- E.
  destruct HP as [_ [D _]]. unfold u_ok, v_ok in *. rewrite decayed_leak by lia.
  pose proof (leak_bound y (4096 - dv P) ltac:(lia)).
  rewrite w32_id by lia. reflexivity.
Qed.

Lemma voltage_range P y x : v_ok (voltage P y x).
Proof. unfold voltage, max_uv, v_ok. pose proof (clip_range (- (8388608) + 1) (8388608 - 1) (w32 (decayed y (dv P) + x + effective_bias P)) ltac:(lia)). lia. Qed.

Lemma step_range P s e : params_ok P -> event_ok P e -> u_ok (u s) /\ v_ok (v s) -> u_ok (u (handle P s e)) /\ v_ok (v (handle P s e)).
Proof.
  intros HP He [Hu Hv]. destruct e as [a|x]; [|auto]. simpl. unfold run_spk. simpl. split.
  - apply (lif_current_exact P (u s) a HP He Hu).
  - destruct (_ <? _); [unfold v_ok; lia|apply voltage_range].
Qed.

(** ** C32: for every history the state stays within 24 bits. *)
Theorem lif_state_in_range : forall P s es, params_ok P -> Forall (event_ok P) es ->
  u_ok (u s) -> v_ok (v s) -> u_ok (u (history P s es)) /\ v_ok (v (history P s es)).
Proof.
  intros P s es HP He Hu Hv. revert s Hu Hv. unfold history. induction He as [|e es He Hes IH]; intros s Hu Hv; simpl; auto.
  destruct (step_range P s e HP He (conj Hu Hv)). auto.
Qed.

(** The wrap-around keeps the value 2^23, which is not a signed 24-bit number: the limit is reached with
    ordinary 16-bit inputs. *)
Definition demo_params := {| du := 0; dv := 0; bias_mant := 0; bias_exp := 0; adt := 32 |}.
Definition quiet := {| u := 0; v := 0; vth := 10; eff := None |}.
Theorem lif_u_not_signed_24_refuted : exists es, Forall (fun e => match e with Step a => -32768 <= a < 32768 | _ => False end) es /\
  u (history demo_params quiet es) = 2 ^ 23.
Proof.
  exists [Step 28672; Step 28679; Step 28686; Step 28693; Step 16412]. split; [|vm_compute; reflexivity].
  repeat constructor; lia.
Qed.

(** ** C33: spikes and the reset. *)
Definition steps (as_ : list Z) : list event := map Step as_.

Lemma threshold_fixed P : forall as_ s, (eff s = None \/ eff s = Some (vth s * 64)) ->
  threshold (history P s (steps as_)) = vth s * 64.
Proof.
  induction as_ as [|a r IH]; intros s H; [simpl; unfold threshold; destruct H as [-> | ->]; auto|].
  change (threshold (history P (fst (run_spk P s a)) (steps r)) = vth s * 64). rewrite (IH (fst (run_spk P s a))); [reflexivity|]. right. simpl. unfold threshold. destruct H as [-> | ->]; auto.
Qed.

(** After any sequence of inputs, the next step sends a spike iff the potential after integration exceeds
    vth * 2^6, and then the potential is 0, otherwise it is that potential. *)
Theorem lif_spike_iff_partial : forall P s as_ a, params_ok P -> Forall (input_ok P) as_ -> input_ok P a ->
  u_ok (u s) -> v_ok (v s) -> eff s = None ->
  let s1 := history P s (steps as_) in
  let '(s2, spike) := run_spk P s1 a in
  let y := clip (-8388607) 8388607 (leak (v s1) (4096 - dv P) + u s2 + bias P) in
  (spike = true <-> y > vth s * 2 ^ 6) /\ (spike = true -> v s2 = 0) /\ (spike = false -> v s2 = y).
Proof.
  intros P s as_ a HP Has Ha Hu Hv He s1.
  assert (u_ok (u s1) /\ v_ok (v s1)) as [Hu1 Hv1].
  { apply lif_state_in_range; auto. clear - Has. induction Has; simpl; constructor; auto. }
  assert (threshold s1 = vth s * 64) as Ht by (apply threshold_fixed; auto).
  unfold run_spk. rewrite Ht. cbn [u v]. change (2 ^ 6) with 64.
  rewrite <- lif_voltage_exact by (auto; apply lif_current_exact; auto).
  destruct (Z.ltb_spec (vth s * 64) (voltage P (v s1) (current P (u s1) a))); (split; [split|split]); intros; try discriminate; auto; lia.
Qed.

(** vth is read once: a Var.set on vth after the first step has no effect on any later spike. *)
Theorem lif_vth_set_ignored_refuted : forall P s a x as_,
  map (fun n => snd (run_spk P (history P (fst (run_spk P s a)) (steps (firstn n as_))) a)) (seq 0 (length as_)) =
  map (fun n => snd (run_spk P (history P (handle P (fst (run_spk P s a)) (SetVth x)) (steps (firstn n as_))) a)) (seq 0 (length as_)).
Proof.
  intros P s a x as_. apply map_ext. intro n.
  assert (forall l s1 s2, u s1 = u s2 -> v s1 = v s2 -> eff s1 = eff s2 -> eff s1 <> None ->
    let h1 := history P s1 (steps l) in let h2 := history P s2 (steps l) in
    u h1 = u h2 /\ v h1 = v h2 /\ eff h1 = eff h2 /\ eff h1 <> None) as G.
  { induction l as [|b l IH]; intros s1 s2 E1 E2 E3 E4; [simpl; auto|]. simpl. apply IH; simpl.
    - rewrite E1; auto.
    - unfold threshold. rewrite E1, E2, E3. destruct (eff s2); [auto|congruence].
    - unfold threshold. rewrite E3. destruct (eff s2); [auto|congruence].
    - discriminate. }
  destruct (G (firstn n as_) (fst (run_spk P s a)) (handle P (fst (run_spk P s a)) (SetVth x)) eq_refl eq_refl eq_refl ltac:(discriminate)) as [E1 [E2 [E3 E4]]].
  assert (forall s1 s2, u s1 = u s2 -> v s1 = v s2 -> eff s1 = eff s2 -> eff s1 <> None -> snd (run_spk P s1 a) = snd (run_spk P s2 a)) as R.
  { intros s1 s2 F1 F2 F3 F4. unfold run_spk, threshold. cbn [snd]. rewrite F1, F2, F3. destruct (eff s2); congruence. }
  apply R; auto.
Qed.
(** ... although the new threshold would be exceeded *)
Theorem lif_vth_set_demo_refuted : exists P s a x, params_ok P /\ input_ok P a /\
  let s1 := handle P (fst (run_spk P s a)) (SetVth x) in
  snd (run_spk P s1 a) = false /\ vth s1 * 64 < v (fst (run_spk P s1 a)).
Proof.
  exists demo_params, {| u := 0; v := 0; vth := 1000; eff := None |}, 100, 1.
  split; [unfold params_ok; simpl; lia|]. split; [unfold input_ok; simpl; lia|]. split; vm_compute; reflexivity.
Qed.

(** Without input and bias: the magnitude of the current shrinks strictly until it is 0. *)
Lemma current_zero_input P x : params_ok P -> u_ok x -> current P x 0 = leak x (4095 - du P).
Proof.
  intros HP Hx. assert (input_ok P 0) as H0.
  { destruct HP as [_ [_ [_ [_ W]]]]. split; [|lia]. assert (0 < 2 ^ (adt P - 1)) by (apply Z.pow_pos_nonneg; lia). lia. }
  destruct (lif_current_exact P x 0 HP H0 Hx) as [R [k K]]. unfold u_ok in *. change (2 ^ 24) with 16777216 in K.
  destruct HP as [D _].
  assert (Z.abs (leak x (4095 - du P)) < 8388608).
  { destruct (Z.eq_dec x 0) as [->|N]; [unfold leak; rewrite Z.mul_0_l, Z.quot_0_l; lia|].
    pose proof (leak_strict x (4095 - du P) ltac:(lia) N). lia. }
  lia.
Qed.

Theorem lif_decays_to_zero : forall P s, params_ok P -> bias_mant P = 0 -> 0 < dv P -> u_ok (u s) -> v_ok (v s) ->
  (forall n, u (history P s (steps (repeat 0 n))) <> 0 ->
     Z.abs (u (history P s (steps (repeat 0 (S n))))) < Z.abs (u (history P s (steps (repeat 0 n))))) /\
  (forall n, (Z.to_nat (2 ^ 24) <= n)%nat -> u (history P s (steps (repeat 0 n))) = 0 /\ v (history P s (steps (repeat 0 n))) = 0).
Proof.
  intros P s HP HB Hd Hu Hv.
  assert (input_ok P 0) as H0.
  { destruct HP as [_ [_ [_ [_ W]]]]. split; [|lia]. assert (0 < 2 ^ (adt P - 1)) by (apply Z.pow_pos_nonneg; lia). lia. }
  set (st n := history P s (steps (repeat 0 n))).
  assert (forall n, st (S n) = handle P (st n) (Step 0)) as HS.
  { intro n. unfold st, history, steps. change (repeat 0 (S n)) with (0 :: repeat 0 n). rewrite repeat_cons, map_app, fold_left_app. reflexivity. }
  assert (forall n, u_ok (u (st n)) /\ v_ok (v (st n))) as HR.
  { intro n. apply lif_state_in_range; auto. clear - H0. unfold steps. induction n; simpl; constructor; auto. }
  assert (forall n, u (st (S n)) = leak (u (st n)) (4095 - du P)) as HU.
  { intro n. rewrite HS. simpl. apply current_zero_input; auto. apply HR. }
  assert (forall n, Z.abs (v (st (S n))) <= Z.abs (leak (v (st n)) (4096 - dv P) + u (st (S n)))) as HV.
  { intro n. rewrite HS. cbn [handle run_spk fst u v]. assert (Hc := proj1 (lif_current_exact P (u (st n)) 0 HP H0 (proj1 (HR n)))).
    rewrite lif_voltage_exact by (auto; apply HR). unfold bias. rewrite HB, Z.mul_0_l, Z.div_0_l, Z.add_0_r by (apply Z.pow_nonzero; lia).
    match goal with |- Z.abs (if _ then 0 else ?c) <= Z.abs ?e => assert (Z.abs c <= Z.abs e) by (unfold clip; lia) end.
    destruct (_ <? _); lia. }
  pose proof HP as [D1 [D2 _]].
  assert (forall n, u (st n) <> 0 -> Z.abs (u (st (S n))) < Z.abs (u (st n))) as HUS.
  { intros n Hn. rewrite HU. apply leak_strict; [lia|auto]. }
  split; [exact HUS|].
  assert (forall n, Z.abs (u (st n)) <= Z.max 0 (8388608 - Z.of_nat n)) as B1.
  { induction n as [|n IH]; [destruct (HR O) as [[? ?] _]; lia|].
    destruct (Z.eq_dec (u (st n)) 0) as [E|E]; [rewrite HU, E; unfold leak; rewrite Z.mul_0_l, Z.quot_0_l; lia|].
    specialize (HUS n E). lia. }
  set (N := Z.to_nat 8388608).
  assert (forall m, u (st (N + m)%nat) = 0) as U0.
  { intro m. specialize (B1 (N + m)%nat). rewrite Nat2Z.inj_add in B1. unfold N in *. rewrite Z2Nat.id in B1 by lia. lia. }
  assert (forall m, Z.abs (v (st (N + m)%nat)) <= Z.max 0 (8388607 - Z.of_nat m)) as B2.
  { induction m as [|m IH]; [destruct (HR (N + 0)%nat) as [_ [? ?]]; lia|].
    rewrite Nat.add_succ_r. specialize (HV (N + m)%nat). rewrite <- Nat.add_succ_r in HV. rewrite U0 in HV.
    rewrite Nat.add_succ_r in HV. rewrite Z.add_0_r in HV.
    destruct (Z.eq_dec (v (st (N + m)%nat)) 0) as [E|E].
    - rewrite E in HV. unfold leak in HV. rewrite Z.mul_0_l, Z.quot_0_l in HV by lia. lia.
    - pose proof (leak_strict (v (st (N + m)%nat)) (4096 - dv P) ltac:(lia) E). lia. }
  intros n Hn. change (2 ^ 24) with 16777216 in Hn.
  assert (n = N + (n - N))%nat as -> by (unfold N; lia). split; [apply U0|].
  specialize (B2 (n - N)%nat). fold (st (N + (n - N))%nat).
  assert (8388607 <= Z.of_nat (n - N)) by (unfold N; lia). lia.
Qed.

(** with dv = 0 the potential does not leak *)
Example lif_no_leak : forall P y, params_ok P -> dv P = 0 -> bias_mant P = 0 -> v_ok y -> voltage P y 0 = y.
Proof.
  intros P y HP E B Hy. rewrite lif_voltage_exact; auto; [|unfold u_ok; lia]. unfold bias. rewrite E, B. rewrite Z.mul_0_l, Z.div_0_l by (apply Z.pow_nonzero; lia). unfold leak. change (4096 - 0) with 4096.
  rewrite Z.quot_mul by lia. rewrite clip_id; unfold v_ok in Hy; lia.
Qed.

(** an instance: spikes with period 4 *)
Example lif_demo : map (fun n => snd (run_spk demo_params (history demo_params {| u := 0; v := 0; vth := 10; eff := None |} (steps (firstn n [3;0;0;0;0;0;0;0]))) 0)) (seq 1 7)
  = [false; false; true; false; false; false; true].
Proof. vm_compute. reflexivity. Qed.

(** ** C57: LIFReset *)
(** At a step [t] with t = reset_offset (mod reset_interval) current and potential restart from zero:
    two neurons with the same threshold and whatever state agree on everything from then on. *)
Theorem lif_reset_forgets : forall P interval offset t s1 s2 as_, 0 < interval -> (interval | t - offset) ->
  threshold s1 = threshold s2 ->
  outputs_reset P interval offset t s1 as_ = outputs_reset P interval offset t s2 as_.
Proof.
  intros P i o t s1 s2 [|a r] Hi [k Hk] Ht; [reflexivity|]. simpl.
  assert (t mod i =? o mod i = true) as E.
  { apply Z.eqb_eq. replace t with (o + k * i) by lia. apply Z.mod_add. lia. }
  unfold run_spk_reset. rewrite E. unfold run_spk. cbn [u v vth eff]. unfold threshold in *. cbn [vth eff].
  rewrite Ht.
  assert (forall r t q1 q2, u q1 = u q2 -> v q1 = v q2 -> threshold q1 = threshold q2 -> outputs_reset P i o t q1 r = outputs_reset P i o t q2 r) as G.
  { clear. induction r as [|b r IH]; intros t q1 q2 E1 E2 E3; [reflexivity|]. simpl. unfold run_spk_reset.
    destruct (t mod i =? o mod i); unfold run_spk, threshold in *; cbn [u v vth eff] in *.
    - rewrite E3. f_equal. apply IH; cbn; auto.
    - rewrite E1, E2, E3. f_equal. apply IH; cbn; auto. }
  f_equal. apply G; reflexivity.
Qed.
(** at all other steps it is the plain LIF *)
Theorem lif_reset_otherwise : forall P interval offset t s a, 0 < interval -> ~ (interval | t - offset) ->
  run_spk_reset P interval offset t s a = run_spk P s a.
Proof.
  intros P i o t s a Hi H. unfold run_spk_reset. destruct (Z.eqb_spec (t mod i) (o mod i)) as [E|]; auto.
  exfalso. apply H. apply Zmod_divide; [lia|]. rewrite Zminus_mod, E, Z.sub_diag. apply Z.mod_0_l. lia.
Qed.
(** instance: interval 2 *)
Example lif_reset_demo :
  outputs_reset demo_params 2 1 1 {| u := 0; v := 600; vth := 10; eff := None |} [1; 9; 0; 9] = [false; true; false; false].
Proof. vm_compute. reflexivity. Qed.

(** ** C56: ternary LIF *)
Theorem tern_lif_spike_iff_partial : forall P lo hi s a, lo <= hi ->
  let '(s', o) := tern_step P lo hi s a in
  let y := voltage P (snd s) (fst s') in
  (o = 1 <-> y > hi * 2 ^ 6) /\ (o = -1 <-> y < lo * 2 ^ 6) /\ (o = 0 <-> lo * 2 ^ 6 <= y <= hi * 2 ^ 6) /\
  (o <> 0 -> snd s' = 0) /\ (o = 0 -> snd s' = y).
Proof.
  intros P lo hi [x y] a H. unfold tern_step, tern_spike. cbn [fst snd]. change (2 ^ 6) with 64.
  set (z := voltage P y (current P x a)).
  destruct (Z.ltb_spec z (lo * 64)), (Z.ltb_spec (hi * 64) z); cbn; repeat split; intros; try lia; try discriminate; auto; congruence.
Qed.
Theorem tern_lif_state_in_range : forall P lo hi s as_, params_ok P -> Forall (input_ok P) as_ -> u_ok (fst s) -> v_ok (snd s) ->
  let s' := fold_left (fun s a => fst (tern_step P lo hi s a)) as_ s in u_ok (fst s') /\ v_ok (snd s').
Proof.
  intros P lo hi s as_ HP Has. revert s. induction Has as [|a r Ha Hr IH]; intros s Hu Hv; simpl; auto. apply IH.
  - cbn. apply lif_current_exact; auto.
  - cbn. destruct (negb _); [unfold v_ok; lia|apply voltage_range].
Qed.
(** Thresholds given as arrays (or set later) are not checked; with vth_lo > vth_hi a potential beyond
    both thresholds neither spikes nor resets. *)
Theorem tern_lif_swapped_thresholds_refuted : exists P lo hi s a,
  let '(s', o) := tern_step P lo hi s a in o = 0 /\ hi * 64 < snd s' /\ snd s' < lo * 64.
Proof. exists demo_params, 10, (-10), (0, 0), 1. vm_compute. auto. Qed.

(** ** C34: refractory period *)
Section Refractory.
Variable F : Type.
Variable zero one : F.
Variable add mul sub : F -> F -> F.
Variable gt : F -> F -> bool.
Notation run := (refr_run F zero one add mul sub gt).
Notation step := (refr_step F zero one add mul sub gt).

Lemma refr_silent P : gt zero (fvth F P) = false -> forall as_ t s k o, t <= rend F s -> fv F s = zero ->
  nth_error (run P t s as_) k = Some o -> t + Z.of_nat k <= rend F s ->
  snd o = false /\ fv F (fst o) = zero.
Proof.
  intros H0. induction as_ as [|a r IH]; intros t s k o Ht Hz Hk Hr; [destruct k; discriminate|].
  cbn [refr_run] in Hk. assert (rend F s <? t = false) as E by (apply Z.ltb_ge; lia).
  assert (step P t s a = ({| fu := add (mul (fu F s) (sub one (fdu F P))) a; fv := zero; rend := rend F s |}, false)) as ES.
  { unfold refr_step. rewrite E, Hz, H0. reflexivity. }
  rewrite ES in Hk. destruct k as [|k].
  - simpl in Hk. injection Hk as <-. auto.
  - simpl in Hk. eapply IH; [| |exact Hk|]; simpl; try reflexivity; lia.
Qed.

(** If step t+k of a run spikes, then for the next [period] steps there is no spike and the potential
    stays at its reset value, whatever the inputs; [t] is the first time step of the run. *)
Theorem lif_refractory_partial : forall P t s as_ k j o o', gt zero (fvth F P) = false ->
  nth_error (run P t s as_) k = Some o -> snd o = true ->
  nth_error (run P t s as_) j = Some o' -> (k < j)%nat -> Z.of_nat j <= Z.of_nat k + period F P ->
  snd o' = false /\ fv F (fst o') = zero.
Proof.
  intros P t s as_ k j o o' H0. revert t s k j. induction as_ as [|a r IH]; intros t s k j Hk Hs Hj Hkj Hp; [destruct k; discriminate|].
  cbn [refr_run] in Hk, Hj. destruct j as [|j]; [lia|]. cbn [nth_error] in Hj. destruct k as [|k].
  - cbn [nth_error] in Hk. injection Hk as <-.
    assert (fv F (fst (step P t s a)) = zero /\ rend F (fst (step P t s a)) = t + period F P) as [E1 E2].
    { unfold refr_step in Hs |- *. cbn [snd fst fv rend] in *. rewrite Hs. auto. }
    eapply refr_silent; [exact H0| |exact E1|exact Hj|]; rewrite E2; lia.
  - cbn [nth_error] in Hk. eapply IH; eauto; lia.
Qed.
(** outside the refractory period the neuron integrates *)
Theorem lif_not_refractory_integrates : forall P t s a, rend F s < t ->
  let '(s', spike) := step P t s a in
  let y := add (mul (fv F s) (sub one (fdv F P))) (add (fu F s') (fbias F P)) in
  spike = gt y (fvth F P) /\ fv F s' = (if spike then zero else y) /\ rend F s' = (if spike then t + period F P else rend F s).
Proof.
  intros P t s a H. unfold refr_step. cbn [fu fv rend]. apply Z.ltb_lt in H. rewrite H. auto.
Qed.
End Refractory.

(** With a negative threshold the reset potential itself exceeds it: a spike at every step. *)
Theorem lif_refractory_negative_threshold_refuted : exists P as_,
  map snd (refr_run Z 0 1 Z.add Z.mul Z.sub Z.gtb P 1 {| fu := 0; fv := 0; rend := 0 |} as_) = [true; true; true] /\ period Z P = 5.
Proof.
  exists {| fdu := 0; fdv := 0; fbias := 0; fvth := -1; period := 5 |}, [0; 0; 0]. split; reflexivity.
Qed.
(** instance: period 2, constant drive *)
Example lif_refractory_demo :
  map snd (refr_run Z 0 1 Z.add Z.mul Z.sub Z.gtb {| fdu := 1; fdv := 0; fbias := 0; fvth := 5; period := 2 |} 1 {| fu := 0; fv := 0; rend := 0 |} [9; 9; 9; 9; 9; 9; 9])
  = [true; false; false; true; false; false; true].
Proof. reflexivity. Qed.

Print Assumptions lif_decays_to_zero.
Print Assumptions lif_refractory_partial.
