(** Properties of fixed-point learning connections: C47, C48, C49, C61, C62. *)
From Coq Require Import ZArith QArith Qround List Bool Lia.
From Verif Require Import NpInt Bits_Model Bits_Props Learning_Model.
Import ListNotations.
Open Scope Z_scope.

(** ** C47: ranges of synaptic variables *)
(** the range a synaptic variable of the given kind may take on the hardware *)
Definition hw_range (m : sign_mode) (s : syn) (v : Z) : Prop :=
  match s with
  | SWeights => match m with Mixed => -256 <= v <= 255 | Excitatory => 0 <= v <= 255 | Inhibitory => -255 <= v <= 0 end
  | STag2 => 0 <= v <= 255
  | STag1 => -256 <= v <= 255
  end.

Lemma learn_range m r a ps s v : s <> STag1 -> hw_range m s (learn m r a ps s v).
Proof.
  intros Hs. unfold learn. set (z := Z.shiftr _ _). destruct s; cbn [saturate hw_range]; [|unfold clip; lia|congruence].
  unfold clip_weight, clip. destruct m; cbn [is_mixed negate]; lia.
Qed.
Lemma learn_tag1 m r a ps v : -257 <= learn m r a ps STag1 v <= 255.
Proof. unfold learn. set (z := Z.shiftr _ _). cbn [saturate]. unfold clip. lia. Qed.

(** after any learning step, whatever the rule, spikes, traces, random numbers and initial values *)
Theorem learning_step_range : forall c t i s v post pre,
  v <> STag1 -> cfg_rule c v <> None -> t mod t_epoch c = 0 ->
  hw_range (cfg_sign c) v (syn_val (conn_step c t i s) v post pre).
Proof.
  intros c t i s v post pre Hv Hr Ht. unfold conn_step, lrn_guard. rewrite Ht. cbn [Z.eqb].
  cbn [syn_val learn_phase]. unfold learned. destruct (cfg_rule c v); [|congruence]. apply learn_range, Hv.
Qed.
(** weights and delays that start in their range are in their range, and have the right sign, forever *)
Theorem learning_range_partial : forall c i s0 v,
  v <> STag1 ->
  (forall post pre, hw_range (cfg_sign c) v (syn_val s0 v post pre)) ->
  forall n post pre, hw_range (cfg_sign c) v (syn_val (run c i s0 n) v post pre).
Proof.
  intros c i s0 v Hv H0 n. induction n as [|n IH]; intros post pre; [apply H0|].
  cbn [run]. unfold conn_step. destruct (lrn_guard (t_epoch c) (Z.of_nat (S n))); cbn [syn_val learn_phase spike_phase]; [|apply IH].
  unfold learned. destruct (cfg_rule c v); [apply learn_range, Hv|]. apply IH.
Qed.
(** tags are only kept above -257: one below the least nine-bit number *)
Theorem learning_tag_range_partial : forall c i s0,
  (forall post pre, -257 <= syn_val s0 STag1 post pre <= 255) ->
  forall n post pre, -257 <= syn_val (run c i s0 n) STag1 post pre <= 255.
Proof.
  intros c i s0 H0 n. induction n as [|n IH]; intros post pre; [apply H0|].
  cbn [run]. unfold conn_step. destruct (lrn_guard (t_epoch c) (Z.of_nat (S n))); cbn [syn_val learn_phase spike_phase]; [|apply IH].
  unfold learned. destruct (cfg_rule c STag1); [apply learn_tag1|]. apply IH.
Qed.

Definition no_trace : trace_cfg := {| imp_int := 0; imp_frac := 0; decay_fn := None |}.
(** dt = -2 * u0, decayed every epoch *)
Definition dec_rule : list product := [{| p_dep := DU; p_mant := -2; p_exp := 7; p_factors := [] |}].
Definition tag_cfg : conn_cfg :=
  {| t_epoch := 1; cfg_sign := Mixed; cfg_graded := UseRegularImpulse; cfg_trace := fun _ => no_trace;
     cfg_rule := fun s => match s with STag1 => Some dec_rule | _ => None end; cfg_decimate := Some 0 |}.
Definition quiet (r : Q) : stimulus :=
  {| s_in := fun _ => 0; s_bap := fun _ => false; r_post := 0; r_xd := 0%Q; r_yd := 0%Q; r_xi := 0; r_yi := 0; r_syn := r |}.
Definition rest (v : syn -> Z) : conn :=
  {| tx := fun _ => 0; x1 := fun _ => 0; x2 := fun _ => 0; ty := fun _ => 0; y1 := fun _ => 0; y2 := fun _ => 0; y3 := fun _ => 0;
     syn_val := fun s _ _ => v s |}.
Theorem learning_tag_range_refuted :
  exists c i s0 n, (forall s post pre, hw_range (cfg_sign c) s (syn_val s0 s post pre)) /\
    (forall k, (0 <= r_syn (i k) < 1)%Q) /\
    ~ hw_range (cfg_sign c) STag1 (syn_val (run c i s0 n) STag1 0 0).
Proof.
  exists tag_cfg, (fun _ => quiet (255 # 256)%Q), (rest (fun s => match s with STag1 => -255 | _ => 0 end)), 1%nat.
  split; [|split].
  - intros s post pre. destruct s; cbn; lia.
  - intros k. split; [unfold Qle|unfold Qlt]; cbn; lia.
  - cbv. intros [H _]. apply H. reflexivity.
Qed.
(** a case in which weights move and saturate: dw = 3 * x0, one spike per epoch *)
Example learning_range_demo :
  let c := {| t_epoch := 2; cfg_sign := Excitatory; cfg_graded := UseRegularImpulse; cfg_trace := fun _ => no_trace;
              cfg_rule := fun s => match s with SWeights => Some [{| p_dep := DX0; p_mant := 3; p_exp := 7; p_factors := [] |}] | _ => None end;
              cfg_decimate := None |} in
  let i := fun k => {| s_in := fun _ => 1; s_bap := fun _ => false; r_post := 0; r_xd := 0%Q; r_yd := 0%Q; r_xi := 0; r_yi := 0; r_syn := (1 # 2)%Q |} in
  map (fun n => syn_val (run c i (rest (fun _ => 250)) n) SWeights 0 0) [0; 1; 2; 3; 4; 5]%nat = [250; 250; 253; 253; 255; 255].
Proof. reflexivity. Qed.

(** ** C48: learning epochs *)
(** the last time step before the current epoch *)
Definition epoch_start (e t : Z) : Z := (t - 1) / e * e.

Lemma within_epoch_spec e t : 0 < e -> within_epoch e t = t - epoch_start e t /\ 1 <= within_epoch e t <= e.
Proof.
  intros He. unfold within_epoch, epoch_start.
  pose proof (Z.div_mod t e ltac:(lia)) as D. pose proof (Z.mod_pos_bound t e ltac:(lia)) as B.
  destruct (Z.eqb_spec (t mod e) 0) as [E|E].
  - assert ((t - 1) / e = t / e - 1) as ->. { symmetry. apply (Z.div_unique _ _ _ (e - 1)); lia. } nia.
  - assert ((t - 1) / e = t / e) as ->. { symmetry. apply (Z.div_unique _ _ _ (t mod e - 1)); lia. } nia.
Qed.
Theorem within_epoch_step : forall e t, 0 < e ->
  within_epoch e t = t - epoch_start e t /\ 1 <= within_epoch e t <= e /\ epoch_start e t mod e = 0.
Proof. intros e t He. destruct (within_epoch_spec e t He). repeat split; try lia. unfold epoch_start. apply Z.mod_mul. lia. Qed.

(** within an epoch no synaptic variable changes; they change at multiples of t_epoch only *)
Theorem learning_only_at_epoch_ends : forall c i s0 n, 0 < t_epoch c ->
  syn_val (run c i s0 n) = syn_val (run c i s0 (Z.to_nat (Z.of_nat n / t_epoch c * t_epoch c))).
Proof.
  intros c i s0 n He. set (e := t_epoch c) in *.
  induction n as [|n IH]; [rewrite Z.div_0_l by lia; reflexivity|].
  destruct (Z.eq_dec (Z.of_nat (S n) mod e) 0) as [E|E].
  - pose proof (Z.div_mod (Z.of_nat (S n)) e ltac:(lia)) as D.
    replace (Z.of_nat (S n) / e * e) with (Z.of_nat (S n)) by lia. rewrite Nat2Z.id. reflexivity.
  - assert (Z.of_nat (S n) / e = Z.of_nat n / e) as ->.
    { pose proof (Z.div_mod (Z.of_nat (S n)) e ltac:(lia)) as D. pose proof (Z.mod_pos_bound (Z.of_nat (S n)) e ltac:(lia)).
      apply (Z.div_unique _ _ _ (Z.of_nat (S n) mod e - 1)); lia. }
    cbn [run]. unfold conn_step, lrn_guard. fold e. destruct (Z.eqb_spec (Z.of_nat (S n) mod e) 0); [contradiction|].
    cbn [syn_val spike_phase]. exact IH.
Qed.
(** at every multiple of t_epoch every active rule is applied, once, to the values from before the step
    and to the spikes recorded up to and including this step *)
Theorem learning_at_epoch_end : forall c i s0 n v ps post pre,
  Z.of_nat (S n) mod t_epoch c = 0 -> cfg_rule c v = Some ps ->
  let s := run c i s0 n in
  let s' := spike_phase c (Z.of_nat (S n)) (i (S n)) s in
  syn_val (run c i s0 (S n)) v post pre =
  learn (cfg_sign c) (r_syn (i (S n))) (applier_args c (Z.of_nat (S n)) (i (S n)) s' post pre (fun w => syn_val s w post pre))
    ps v (syn_val s v post pre).
Proof.
  intros c i s0 n v ps post pre Ht Hr. cbn [run]. unfold conn_step, lrn_guard. rewrite Ht. cbn [Z.eqb syn_val learn_phase].
  unfold learned. rewrite Hr. reflexivity.
Qed.
(** the decimated dependency uk is on exactly in every 2^k-th epoch *)
Theorem decimation_exact : forall c k t, 0 < t_epoch c -> 0 <= k -> cfg_decimate c = Some k -> t mod t_epoch c = 0 ->
  (u_value c t = 1 <-> t mod (2 ^ k * t_epoch c) = 0) /\ (u_value c t = 0 <-> t mod (2 ^ k * t_epoch c) <> 0).
Proof.
  intros c k t He Hk Hc Ht. unfold u_value. rewrite Hc.
  assert (0 < 2 ^ k) as Hp by (apply Z.pow_pos_nonneg; lia).
  assert (((t / t_epoch c) mod 2 ^ k = 0) <-> t mod (2 ^ k * t_epoch c) = 0) as E.
  { rewrite (Z.mul_comm (2 ^ k)), Z.rem_mul_r by lia. rewrite Ht.
    split; intros H; [rewrite H; lia|]. nia. }
  destruct (Z.eqb_spec ((t / t_epoch c) mod 2 ^ k) 0) as [Z|Z]; split; split; intros; try tauto; try congruence; try lia.
Qed.

(** the recorded spike time of a neuron at the end of the spiking phase of step [t]: 0 if it did not spike
    in the current epoch so far, and otherwise the number, counted from the start of the epoch, of the
    step of its last spike *)
Definition spike_time_of (e : Z) (spk : Z -> Prop) (t rec : Z) : Prop :=
  (rec = 0 /\ forall k, epoch_start e t < k <= t -> ~ spk k) \/
  (exists k, epoch_start e t < k <= t /\ spk k /\ (forall j, k < j <= t -> ~ spk j) /\
     rec = k - epoch_start e t /\ 1 <= rec <= e).

Lemma epoch_start_next e t : 0 < e ->
  (t mod e = 0 -> epoch_start e (t + 1) = t) /\ (t mod e <> 0 -> epoch_start e (t + 1) = epoch_start e t) /\ epoch_start e t < t <= epoch_start e t + e.
Proof.
  intros He. destruct (within_epoch_spec e t He) as [H1 H2].
  unfold epoch_start in *. replace (t + 1 - 1) with t by lia.
  pose proof (Z.div_mod t e ltac:(lia)) as D. pose proof (Z.mod_pos_bound t e ltac:(lia)) as B.
  split; [intros; nia|]. split; [|lia].
  intros E. assert ((t - 1) / e = t / e) as ->. { symmetry. apply (Z.div_unique _ _ _ (t mod e - 1)); lia. } auto.
Qed.

Lemma spike_time_step e (spk : Z -> Prop) t old new (b : bool) : 0 < e ->
  (b = true <-> spk (t + 1)) ->
  new = (if b then within_epoch e (t + 1) else old) ->
  (t mod e = 0 -> old = 0) -> (t mod e <> 0 -> spike_time_of e spk t old) ->
  spike_time_of e spk (t + 1) new.
Proof.
  intros He Hb -> H0 H1. destruct (epoch_start_next e t He) as (E1 & E2 & E3).
  destruct (epoch_start_next e (t + 1) He) as (_ & _ & E4). destruct (within_epoch_spec e (t + 1) He) as [W1 W2].
  destruct b.
  - right. exists (t + 1). split; [lia|]. split; [apply Hb; auto|]. split; [intros; lia|]. lia.
  - assert (~ spk (t + 1)) as Hn. { intros Hs. apply Hb in Hs. discriminate. }
    destruct (Z.eq_dec (t mod e) 0) as [E|E].
    + left. split; [auto|]. rewrite (E1 E). intros k Hk. assert (k = t + 1) as -> by lia. auto.
    + destruct (H1 E) as [[-> H]|(k & Hk & Hs & Hl & -> & Hr)].
      * left. split; [auto|]. rewrite (E2 E). intros k Hk. destruct (Z.eq_dec k (t + 1)) as [-> |]; [auto|]. apply H. lia.
      * right. exists k. rewrite (E2 E). split; [lia|]. split; [auto|]. split; [|lia].
        intros j Hj. destruct (Z.eq_dec j (t + 1)) as [-> |]; [auto|]. apply Hl. lia.
Qed.

Definition pre_spikes (i : nat -> stimulus) (n : nat) (k : Z) : Prop := 1 <= k /\ s_in (i (Z.to_nat k)) n <> 0.
Definition post_spikes (i : nat -> stimulus) (n : nat) (k : Z) : Prop := 1 <= k /\ s_bap (i (Z.to_nat k)) n = true.

Lemma run_reset c i s0 n : (forall m, tx s0 m = 0 /\ ty s0 m = 0) -> Z.of_nat n mod t_epoch c = 0 ->
  forall m, tx (run c i s0 n) m = 0 /\ ty (run c i s0 n) m = 0.
Proof.
  intros H0 H m. destruct n as [|n]; [apply H0|]. cbn [run]. unfold conn_step, lrn_guard. rewrite H. cbn. auto.
Qed.
Lemma run_no_learn c i s0 n : Z.of_nat (S n) mod t_epoch c <> 0 ->
  run c i s0 (S n) = spike_phase c (Z.of_nat (S n)) (i (S n)) (run c i s0 n).
Proof. intros H. cbn [run]. unfold conn_step, lrn_guard. destruct (Z.eqb_spec (Z.of_nat (S n) mod t_epoch c) 0); congruence. Qed.

Lemma pre_time g c1 c2 ts a t0 u v : g <> AddWithoutSaturation ->
  fst (fst (pre_spike g c1 c2 ts a t0 u v)) = if negb (a =? 0) then ts else t0.
Proof. intros. destruct g; try congruence; reflexivity. Qed.

(** the spike times that the learning rule sees *)
Theorem epoch_spike_times : forall c i s0 n m, 0 < t_epoch c -> (forall k, tx s0 k = 0 /\ ty s0 k = 0) ->
  let t := Z.of_nat (S n) in
  let s := spike_phase c t (i (S n)) (run c i s0 n) in
  (cfg_graded c <> AddWithoutSaturation -> spike_time_of (t_epoch c) (pre_spikes i m) t (tx s m)) /\
  spike_time_of (t_epoch c) (post_spikes i m) t (ty s m).
Proof.
  intros c i s0 n m He H0. cbn zeta. induction n as [|n IH].
  - change (Z.of_nat 1) with (0 + 1). destruct (H0 m) as [Hx Hy]. split.
    + intros Hg. eapply spike_time_step with (b := negb (s_in (i 1%nat) m =? 0)); [lia| | | |].
      * unfold pre_spikes. change (Z.to_nat (0 + 1)) with 1%nat. destruct (Z.eqb_spec (s_in (i 1%nat) m) 0); cbn; split; intros; auto; try discriminate; try lia.
      * cbn [spike_phase tx]. rewrite pre_time by auto. cbn [run]. reflexivity.
      * intros _. exact Hx.
      * rewrite Z.mod_0_l by lia. congruence.
    + eapply spike_time_step with (b := s_bap (i 1%nat) m); [lia| | | |].
      * unfold post_spikes. change (Z.to_nat (0 + 1)) with 1%nat. split; intros; [split; [lia|auto]|tauto].
      * cbn [spike_phase ty post_spike fst]. cbn [run]. reflexivity.
      * intros _. exact Hy.
      * rewrite Z.mod_0_l by lia. congruence.
  - replace (Z.of_nat (S (S n))) with (Z.of_nat (S n) + 1) by lia. split.
    + intros Hg. eapply spike_time_step with (b := negb (s_in (i (S (S n))) m =? 0)); [lia| | | |].
      * unfold pre_spikes. replace (Z.to_nat (Z.of_nat (S n) + 1)) with (S (S n)) by lia.
        destruct (Z.eqb_spec (s_in (i (S (S n))) m) 0); cbn [negb]; split; intros; auto; try discriminate; try lia.
      * cbn [spike_phase tx]. rewrite pre_time by auto. reflexivity.
      * intros E. apply (run_reset c i s0 (S n) H0 E).
      * intros E. rewrite run_no_learn by auto. apply IH. auto.
    + eapply spike_time_step with (b := s_bap (i (S (S n))) m); [lia| | | |].
      * unfold post_spikes. replace (Z.to_nat (Z.of_nat (S n) + 1)) with (S (S n)) by lia. split; intros; [split; [lia|auto]|tauto].
      * cbn [spike_phase ty post_spike fst]. reflexivity.
      * intros E. apply (run_reset c i s0 (S n) H0 E).
      * intros E. rewrite run_no_learn by auto. apply IH.
Qed.

(** ** C49: traces *)
(** a trace configuration as accepted by LoihiLearningRule: impulse >= 0 and tau >= 0, so that the decay
    (a product with a factor in [0,1], rounded) maps v >= 0 into [0, v] *)
Definition cfg_ok (c : trace_cfg) : Prop :=
  0 <= imp_int c /\ 0 <= imp_frac c /\
  match decay_fn c with Some f => forall v, 0 <= v -> (0 <= f v /\ f v <= inject_Z v)%Q | None => True end.
Definition seven_bits (v : Z) : Prop := 0 <= v <= 127.

Lemma qfrac_pos q : qlt 0 (qfrac q) = true -> (inject_Z (Qfloor q) < q)%Q.
Proof.
  unfold qlt, qfrac. intros H. apply negb_true_iff in H.
  destruct (Qlt_le_dec (inject_Z (Qfloor q)) q) as [L|L]; [auto|].
  assert (Qle_bool (q - inject_Z (Qfloor q)) 0 = true); [|congruence].
  apply Qle_bool_iff. apply Qle_minus_iff. setoid_replace (0 + - (q - inject_Z (Qfloor q)))%Q with (inject_Z (Qfloor q) + - q)%Q by ring.
  apply Qle_minus_iff in L. exact L.
Qed.
Lemma decay_bounds f r v : (0 <= r)%Q -> 0 <= v -> (0 <= f v)%Q -> (f v <= inject_Z v)%Q -> 0 <= decay_trace f r v <= v.
Proof.
  intros Hr Hv H0 H1. unfold decay_trace, round_up.
  assert (0 <= Qfloor (f v)) as F0 by (apply (Qfloor_resp_le 0 (f v)); exact H0).
  assert (Qfloor (f v) <= v) as F1 by (pose proof (Qfloor_resp_le _ _ H1) as F; rewrite Qfloor_Z in F; exact F).
  destruct (qlt r (qfrac (f v))) eqn:E; [|lia].
  assert (inject_Z (Qfloor (f v)) < f v)%Q as L.
  { apply qfrac_pos. unfold qlt in *. apply negb_true_iff in E. apply negb_true_iff.
    destruct (Qle_bool (qfrac (f v)) 0) eqn:E2; [|auto]. apply Qle_bool_iff in E2.
    assert (Qle_bool (qfrac (f v)) r = true); [|congruence]. apply Qle_bool_iff. eapply Qle_trans; eauto. }
  assert (Qfloor (f v) < v); [|lia].
  assert (inject_Z (Qfloor (f v)) < inject_Z v)%Q as L2 by (eapply Qlt_le_trans; eauto).
  rewrite <- Zlt_Qlt in L2. auto.
Qed.
(** decay never makes a trace grow or become negative *)
Theorem trace_decay_monotone : forall c f r v, cfg_ok c -> decay_fn c = Some f -> (0 <= r)%Q -> 0 <= v ->
  0 <= decay_trace f r v <= v.
Proof. intros c f r v (_ & _ & H) E Hr Hv. rewrite E in H. apply decay_bounds; auto; apply H; auto. Qed.

Lemma add_impulse_range c r v : seven_bits (add_impulse c r v).
Proof. unfold add_impulse, seven_bits, clip. lia. Qed.
(** and impulses never make it shrink, unless it was out of range *)
Theorem trace_impulse_monotone : forall c r v, cfg_ok c -> seven_bits v ->
  v <= add_impulse c r v <= 127 /\ (v + imp_int c + 1 <= 127 -> v + imp_int c <= add_impulse c r v <= v + imp_int c + 1).
Proof. intros c r v (H1 & H2 & _) Hv. unfold add_impulse, round_up, clip, seven_bits in *. destruct (r <? imp_frac c); lia. Qed.

Lemma history_range c rd ri st v0 t : cfg_ok c -> (0 <= rd)%Q -> seven_bits v0 -> seven_bits (history c rd ri st v0 t).
Proof.
  intros Hc Hr Hv. induction t as [|t IH]; [exact Hv|]. cbn [history]. unfold history_step.
  destruct (st =? Z.of_nat (S t)); [apply add_impulse_range|].
  destruct (decay_fn c) as [f|] eqn:E; [|unfold seven_bits; lia].
  pose proof (trace_decay_monotone c f rd (history c rd ri st v0 t) Hc E Hr) as H. unfold seven_bits in *. lia.
Qed.

Definition traces_ok (s : conn) : Prop :=
  forall n, seven_bits (x1 s n) /\ seven_bits (x2 s n) /\ seven_bits (y1 s n) /\ seven_bits (y2 s n) /\ seven_bits (y3 s n).
(** payloads for which the graded-spike modes are safe *)
Definition payload_ok (g : graded_cfg) (a : Z) : Prop :=
  match g with UseRegularImpulse | AddWithSaturation => 0 <= a | _ => 0 <= a <= 254 end.

Lemma half_even_bounds a : 0 <= a -> 2 * half_even a - 1 <= a <= 2 * half_even a + 1 /\ 0 <= half_even a.
Proof.
  intros Ha. unfold half_even. pose proof (Z.div_mod a 2 ltac:(lia)) as D. pose proof (Z.mod_pos_bound a 2 ltac:(lia)).
  assert (Z.even a = (a mod 2 =? 0)) as E by (rewrite Zmod_even; destruct (Z.even a); reflexivity).
  rewrite E. destruct (Z.eqb_spec (a mod 2) 0); [lia|]. destruct (Z.even (a / 2)); lia.
Qed.
Lemma scaled_small a : 0 <= a <= 254 -> 0 <= scaled a <= 127.
Proof. intros H. pose proof (half_even_bounds a ltac:(lia)). unfold scaled. rewrite Z.mod_small; lia. Qed.

Lemma pre_range g c1 c2 ts a t0 u v : payload_ok g a -> seven_bits u -> seven_bits v ->
  seven_bits (snd (fst (pre_spike g c1 c2 ts a t0 u v))) /\ seven_bits (snd (pre_spike g c1 c2 ts a t0 u v)).
Proof.
  intros Hp Hu Hv. unfold pre_spike. cbn [fst snd]. split.
  - destruct g; cbn [payload_ok] in Hp.
    + destruct ((0 <? t0) && negb (a =? 0)); [apply add_impulse_range|auto].
    + destruct (negb (a =? 0)); [apply scaled_small, Hp|auto].
    + unfold seven_bits, clip. lia.
    + pose proof (scaled_small a Hp). unfold seven_bits in *. rewrite Z.mod_small by lia. destruct (Z.ltb_spec 127 (u + scaled a)); lia.
  - match goal with |- seven_bits (if ?b then _ else _) => destruct b end; [apply add_impulse_range|auto].
Qed.

Theorem traces_seven_bits_partial : forall c i s0,
  (forall tr, cfg_ok (cfg_trace c tr)) ->
  (forall k, (0 <= r_xd (i k))%Q /\ (0 <= r_yd (i k))%Q) ->
  (forall k n, payload_ok (cfg_graded c) (s_in (i k) n)) ->
  traces_ok s0 -> forall n, traces_ok (run c i s0 n).
Proof.
  intros c i s0 Hc Hr Hp H0 n. induction n as [|n IH]; [exact H0|].
  assert (traces_ok (spike_phase c (Z.of_nat (S n)) (i (S n)) (run c i s0 n))) as H.
  { intros m. destruct (IH m) as (A & B & C & D & E). cbn [spike_phase x1 x2 y1 y2 y3].
    split; [apply pre_range; auto|]. split; [apply pre_range; auto|].
    unfold post_spike. cbn [fst snd]. destruct ((0 <? ty (run c i s0 n) m) && s_bap (i (S n)) m); cbn [fst snd]; auto.
    split; [|split]; apply add_impulse_range. }
  cbn [run]. unfold conn_step. destruct (lrn_guard _ _); [|exact H].
  intros m. destruct (H m) as (A & B & C & D & E). destruct (Hr (S n)). cbn [learn_phase x1 x2 y1 y2 y3].
  unfold x_hist, y_hist. repeat split; apply history_range; auto.
Qed.

(** the other two graded-spike modes leave 127 behind with the largest eight-bit payload *)
Definition graded_cfg_of (g : graded_cfg) : conn_cfg :=
  {| t_epoch := 2; cfg_sign := Mixed; cfg_graded := g; cfg_trace := fun _ => no_trace; cfg_rule := fun _ => None; cfg_decimate := None |}.
Definition spike_of (a : Z) : stimulus :=
  {| s_in := fun _ => a; s_bap := fun _ => false; r_post := 0; r_xd := 0%Q; r_yd := 0%Q; r_xi := 0; r_yi := 0; r_syn := 0%Q |}.
Definition with_x1 (v : Z) : conn :=
  {| tx := fun _ => 0; x1 := fun _ => v; x2 := fun _ => 0; ty := fun _ => 0; y1 := fun _ => 0; y2 := fun _ => 0; y3 := fun _ => 0;
     syn_val := fun _ _ _ => 0 |}.
Theorem traces_seven_bits_refuted : forall g, g = Overwrite \/ g = AddWithoutSaturation ->
  exists s0, traces_ok s0 /\ x1 (run (graded_cfg_of g) (fun _ => spike_of 255) s0 1) 0%nat = 128.
Proof.
  intros g Hg. exists (with_x1 127). split; [intros n; cbn; unfold seven_bits; lia|].
  destruct Hg as [-> | ->]; reflexivity.
Qed.
(** half of a payload: the nearest whole number, of two equally near ones the even one *)
Definition half_of (a h : Z) : Prop := Z.abs (2 * h - a) <= 1 /\ (Z.abs (2 * h - a) = 1 -> Z.even h = true).
Lemma half_even_half a : 0 <= a -> half_of a (half_even a).
Proof.
  intros Ha. unfold half_of, half_even. pose proof (Z.div_mod a 2 ltac:(lia)) as D. pose proof (Z.mod_pos_bound a 2 ltac:(lia)).
  assert (Z.even a = (a mod 2 =? 0)) as E by (rewrite Zmod_even; destruct (Z.even a); reflexivity).
  rewrite E. destruct (Z.eqb_spec (a mod 2) 0); [lia|]. destruct (Z.even (a / 2)) eqn:F; split; try lia; intros _; [exact F|].
  rewrite Z.even_add, F. reflexivity.
Qed.
(** "adds payload/2 and saturates at 127" is right for eight-bit payloads ... *)
Theorem graded_add_saturates_partial : forall c1 c2 ts a t0 u v, 0 <= a <= 255 -> seven_bits u ->
  exists h, half_of a h /\ snd (fst (pre_spike AddWithSaturation c1 c2 ts a t0 u v)) = Z.min 127 (u + h).
Proof.
  intros c1 c2 ts a t0 u v Ha Hu. exists (half_even a). split; [apply half_even_half; lia|].
  cbn [pre_spike fst snd]. pose proof (half_even_bounds a ltac:(lia)). unfold seven_bits in Hu.
  unfold scaled. rewrite (Z.mod_small (half_even a)) by lia. rewrite Z.mod_small by lia. unfold clip. lia.
Qed.
(** ... and "overwrites the trace with payload/2" too; a payload 0 is no spike *)
Theorem graded_overwrites_half : forall c1 c2 ts a t0 u v, 0 <= a <= 255 ->
  let x := snd (fst (pre_spike Overwrite c1 c2 ts a t0 u v)) in
  (a = 0 -> x = u) /\ (a <> 0 -> exists h, half_of a h /\ x = h).
Proof.
  intros c1 c2 ts a t0 u v Ha x. unfold x. cbn [pre_spike fst snd]. split.
  - intros ->. reflexivity.
  - intros N. destruct (Z.eqb_spec a 0); [contradiction|]. cbn [negb]. exists (half_even a). split; [apply half_even_half; lia|].
    pose proof (half_even_bounds a ltac:(lia)). unfold scaled. apply Z.mod_small. lia.
Qed.
(** ... and wrong for larger ones: the sum wraps around before it is saturated *)
Theorem graded_add_saturates_refuted : exists s0 a, 0 <= a /\ traces_ok s0 /\
  x1 (run (graded_cfg_of AddWithSaturation) (fun _ => spike_of a) s0 1) 0%nat < x1 s0 0%nat.
Proof. exists (with_x1 127), 258. split; [lia|]. split; [intros n; cbn; unfold seven_bits; lia|]. reflexivity. Qed.
(** a halving trace with impulse 10.5: regular spikes *)
Definition halving : trace_cfg := {| imp_int := 10; imp_frac := 128; decay_fn := Some (fun v => v # 2) |}.
Example halving_ok : cfg_ok halving.
Proof. split; [cbn; lia|]. split; [cbn; lia|]. cbn. intros v Hv. split; unfold Qle; cbn; lia. Qed.
Example traces_demo :
  map (history halving (1 # 4) 100 2 9) [0; 1; 2; 3; 4]%nat = [9; 5; 14; 7; 4].
Proof. reflexivity. Qed.

(** ** C61: what a learning rule adds *)
(** what a factor means: its state variable (a trace at the time of the event of the product) plus its
    constant, or the sign of that *)
Definition var_value (a : args) (d : dep) (v : state_var) : Z :=
  match v with
  | VX0 => dep_value a DX0
  | VY0 => dep_value a DY0
  | VTrace tr => a_trace a tr d
  | VSyn s => a_syn a s
  | VC => 0
  end.
Definition factor_meaning (a : args) (d : dep) (f : factor) : Z :=
  let x := var_value a d (f_var f) + match f_const f with Some c => c | None => 0 end in
  if f_sgn f then Z.sgn x else x.
(** sgn() is only allowed for synaptic variables (Factor._validate_sgn) *)
Definition factor_ok (f : factor) : Prop := f_sgn f = true -> exists s, f_var f = VSyn s.
(** the product as written, each factor saturated to its width, without any overflow *)
Definition exact_product (a : args) (p : product) : Z :=
  dep_value a (p_dep p) * fold_right (fun f n => clip_factor (f_var f) (factor_meaning a (p_dep p) f) * n) 1 (p_factors p) * p_mant p.
Lemma factor_meaning_ok a d f : factor_ok f -> compute_factor a d f = factor_meaning a d f.
Proof.
  intros H. unfold compute_factor, factor_meaning, var_value. destruct (f_sgn f) eqn:E.
  - destruct (H E) as [s Hs]. rewrite Hs. reflexivity.
  - destruct (f_var f); reflexivity.
Qed.
Definition widths (p : product) : Z := fold_right (fun f n => factor_width (f_var f) + n) 0 (p_factors p).

Lemma width_pos v : 1 <= factor_width v <= 9.
Proof. destruct v; cbn; lia. Qed.
Lemma clip_factor_bound v x : Z.abs (clip_factor v x) <= 2 ^ factor_width v.
Proof. unfold clip_factor, clip. assert (0 < 2 ^ factor_width v) by (apply Z.pow_pos_nonneg; [|pose proof (width_pos v)]; lia). lia. Qed.

Lemma widths_nonneg l : 0 <= fold_right (fun f n => factor_width (f_var f) + n) 0 l.
Proof. induction l as [|f l IH]; cbn [fold_right]; [lia|]. pose proof (width_pos (f_var f)). lia. Qed.

Lemma mac_fold a d l : forall m k, 0 <= k -> Z.abs m <= 2 ^ k ->
  k + fold_right (fun f n => factor_width (f_var f) + n) 0 l <= 30 ->
  fold_left (fun m f => w32 (m * w32 (clip_factor (f_var f) (compute_factor a d f)))) l m =
  m * fold_right (fun f n => clip_factor (f_var f) (compute_factor a d f) * n) 1 l /\
  Z.abs (m * fold_right (fun f n => clip_factor (f_var f) (compute_factor a d f) * n) 1 l) <= 2 ^ (k + fold_right (fun f n => factor_width (f_var f) + n) 0 l).
Proof.
  induction l as [|f l IH]; intros m k Hk Hm Hw; cbn [fold_left fold_right] in *.
  - rewrite Z.mul_1_r, Z.add_0_r. auto.
  - pose proof (width_pos (f_var f)) as Wf. pose proof (widths_nonneg l) as Wl.
    pose proof (clip_factor_bound (f_var f) (compute_factor a d f)) as B. set (v := clip_factor _ _) in *.
    assert (2 ^ factor_width (f_var f) <= 2 ^ 30) as P1 by (apply Z.pow_le_mono_r; lia).
    assert (2 ^ (k + factor_width (f_var f)) <= 2 ^ 30) as P2 by (apply Z.pow_le_mono_r; lia).
    assert (Z.abs (m * v) <= 2 ^ (k + factor_width (f_var f))) as B2.
    { rewrite Z.abs_mul, Z.pow_add_r by lia. apply Z.mul_le_mono_nonneg; lia. }
    change (2 ^ 30) with 1073741824 in *.
    rewrite (w32_id v) by lia. rewrite (w32_id (m * v)) by lia.
    destruct (IH (m * v) (k + factor_width (f_var f)) ltac:(lia) B2 ltac:(lia)) as [E1 E2].
    rewrite E1. rewrite Z.mul_assoc. split; [reflexivity|]. rewrite Z.add_assoc. exact E2.
Qed.

Definition product_ok (p : product) : Prop :=
  -8 <= p_mant p < 8 /\ 0 <= p_exp p <= 15 /\ Forall factor_ok (p_factors p).
Definition args_ok (a : args) : Prop := forall d, 0 <= dep_value a d <= 1.

Lemma factors_meaning a d l : Forall factor_ok l ->
  fold_right (fun f n => clip_factor (f_var f) (compute_factor a d f) * n) 1 l =
  fold_right (fun f n => clip_factor (f_var f) (factor_meaning a d f) * n) 1 l.
Proof. induction 1 as [|f l H _ IH]; [reflexivity|]. cbn [fold_right]. rewrite IH, factor_meaning_ok by auto. reflexivity. Qed.

Lemma shiftr_bound x k b : 0 <= k -> 0 <= b -> Z.abs x <= 2 ^ (b + k) -> Z.abs (Z.shiftr x k) <= 2 ^ b.
Proof.
  intros Hk Hb H. rewrite Z.shiftr_div_pow2 by lia. rewrite Z.pow_add_r in H by lia.
  assert (0 < 2 ^ k) by (apply Z.pow_pos_nonneg; lia). assert (0 < 2 ^ b) by (apply Z.pow_pos_nonneg; lia).
  assert (- 2 ^ b <= x / 2 ^ k) by (apply Z.div_le_lower_bound; nia).
  assert (x / 2 ^ k <= 2 ^ b) by (apply Z.div_le_upper_bound; nia). lia.
Qed.

(** the contribution of a product to the accumulator (weights times 2^7), if its factors have at most 27
    bits together: the exact product, shifted down to 15 bits rounding to minus infinity, times 2^exponent, saturated *)
Theorem product_exact_partial : forall a p, args_ok a -> product_ok p -> widths p <= 27 ->
  product_value a p = clip_acc (exact_product a p / 2 ^ Z.max 0 (widths p + 4 - 15) * 2 ^ p_exp p).
Proof.
  intros a p Ha (Hm & He & Hf) Hw. unfold product_value, mac, width_sum. fold (widths p).
  pose proof (Ha (p_dep p)) as Hd. pose proof (widths_nonneg (p_factors p)) as Wn. fold (widths p) in Wn.
  rewrite (w32_id (1 * dep_value a (p_dep p))) by lia.
  destruct (mac_fold a (p_dep p) (p_factors p) (1 * dep_value a (p_dep p)) 0 ltac:(lia) ltac:(change (2 ^ 0) with 1; rewrite Z.mul_1_l; lia) ltac:(fold (widths p); lia)) as [E1 E2].
  fold (widths p) in E2. rewrite Z.add_0_l in E2. rewrite E1. rewrite Z.mul_1_l in *. unfold exact_product.
  rewrite <- (factors_meaning a (p_dep p) (p_factors p) Hf).
  set (m := dep_value a (p_dep p) * _) in *.
  assert (2 ^ widths p <= 2 ^ 27) as P1 by (apply Z.pow_le_mono_r; lia). change (2 ^ 27) with 134217728 in P1.
  rewrite (w32_id (m * p_mant p)) by nia.
  assert (Z.abs (m * p_mant p) <= 2 ^ (widths p + 3)) as B.
  { rewrite Z.abs_mul, Z.pow_add_r by lia. change (2 ^ 3) with 8. apply Z.mul_le_mono_nonneg; lia. }
  assert (Z.abs (Z.shiftr (m * p_mant p) (Z.max 0 (widths p + 4 - 15))) <= 2 ^ 14) as B2.
  { apply shiftr_bound; [lia|lia|]. eapply Z.le_trans; [exact B|]. apply Z.pow_le_mono_r; lia. }
  rewrite <- Z.shiftr_div_pow2 by lia. set (q := Z.shiftr _ _) in *. f_equal.
  unfold np_shl. destruct (Z.leb_spec 0 (p_exp p)); [|lia]. destruct (Z.ltb_spec (p_exp p) 32); [|lia]. cbn [andb].
  rewrite Z.shiftl_mul_pow2 by lia. apply w32_id.
  assert (2 ^ p_exp p <= 2 ^ 15) by (apply Z.pow_le_mono_r; lia). assert (0 < 2 ^ p_exp p) by (apply Z.pow_pos_nonneg; lia).
  change (2 ^ 14) with 16384 in B2. change (2 ^ 15) with 32768 in *. nia.
Qed.
(** more factors overflow the int32 accumulator: dw = 7 * x0 * x1 * y1 * y2 * w with positive values depresses the weight *)
Definition potentiation : product :=
  {| p_dep := DX0; p_mant := 7; p_exp := 7;
     p_factors := [ {| f_var := VTrace TX1; f_const := None; f_sgn := false |}; {| f_var := VTrace TY1; f_const := None; f_sgn := false |};
                    {| f_var := VTrace TY2; f_const := None; f_sgn := false |}; {| f_var := VSyn SWeights; f_const := None; f_sgn := false |} ] |}.
Definition high_args : args := {| a_x0 := 1; a_y0 := 1; a_u := 0; a_syn := fun _ => 250; a_trace := fun _ _ => 120 |}.
Theorem product_exact_refuted : exists a p, args_ok a /\ product_ok p /\
  0 < exact_product a p / 2 ^ Z.max 0 (widths p + 4 - 15) * 2 ^ p_exp p /\
  product_value a p < 0.
Proof.
  exists high_args, potentiation. split; [intros d; destruct d; cbn; lia|]. split; [split; [cbn; lia|split; [cbn; lia|repeat constructor; intros H; discriminate H]]|].
  split; reflexivity.
Qed.
Example product_demo :
  product_value high_args {| p_dep := DX0; p_mant := -3; p_exp := 8; p_factors := [ {| f_var := VTrace TX1; f_const := Some 2; f_sgn := false |};
    {| f_var := VSyn SWeights; f_const := None; f_sgn := true |} ] |} = -3072.
Proof. reflexivity. Qed.

(** a rule adds all its products, as long as the accumulator does not saturate *)
Definition update (a : args) (p : product) : Z := clip_acc (exact_product a p / 2 ^ Z.max 0 (widths p + 4 - 15) * 2 ^ p_exp p).
Definition total (a : args) (ps : list product) (acc0 : Z) : Z := acc0 + fold_right (fun p n => update a p + n) 0 ps.
Lemma total_cons a p ps acc : total a (p :: ps) acc = total a ps (acc + update a p).
Proof. unfold total. cbn [fold_right]. lia. Qed.
Theorem rule_adds_products_partial : forall a ps acc0, args_ok a ->
  (forall p, In p ps -> product_ok p /\ widths p <= 27) ->
  (forall k, -32769 <= total a (firstn k ps) acc0 <= 32767) ->
  apply_rule a ps acc0 = total a ps acc0.
Proof.
  intros a ps acc0 Ha. unfold apply_rule. revert acc0. induction ps as [|p ps IH]; intros acc0 Hp Hk; cbn [fold_left].
  - unfold total. cbn. lia.
  - destruct (Hp p (or_introl eq_refl)) as [P1 P2]. rewrite (product_exact_partial a p Ha P1 P2). fold (update a p).
    pose proof (Hk 1%nat) as H1. cbn [firstn] in H1. rewrite total_cons in H1. unfold total in H1 at 1 2. cbn [fold_right] in H1.
    unfold clip_acc at 2. rewrite clip_id by (change (- 2 ^ 15 - 1) with (-32769); change (2 ^ 15 - 1) with 32767; lia).
    rewrite total_cons. apply IH; [intros q Hq; apply Hp; right; auto|].
    intros k. specialize (Hk (S k)). cbn [firstn] in Hk. rewrite total_cons in Hk. exact Hk.
Qed.
(** ... and saturates otherwise *)
Theorem rule_accumulator_bounds : forall a ps acc0, -32769 <= acc0 <= 32767 -> -32769 <= apply_rule a ps acc0 <= 32767.
Proof.
  intros a ps acc0 H. unfold apply_rule. revert acc0 H. induction ps as [|p ps IH]; intros acc0 H; cbn [fold_left]; [auto|].
  apply IH. unfold clip_acc, clip. change (- 2 ^ 15 - 1) with (-32769). change (2 ^ 15 - 1) with 32767. lia.
Qed.
(** the new value of a synaptic variable: the old one plus the products (in units of 1/128), rounded and saturated *)
Theorem learned_value_partial : forall m r a ps s v, args_ok a ->
  (forall p, In p ps -> product_ok p /\ widths p <= 27) ->
  (forall k, -32769 <= total a (firstn k ps) (v * 128) <= 32767) ->
  let x := total a ps (v * 128) in
  let w := if negb (Qle_bool ((x mod 128) # 128) r) then x / 128 + 1 else x / 128 in
  (hw_range m s (x / 128) -> hw_range m s (x / 128 + 1) -> learn m r a ps s v = w).
Proof.
  intros m r a ps s v Ha Hp Hk x w H1 H2. unfold learn. rewrite Z.shiftl_mul_pow2 by lia. change (2 ^ 7) with 128.
  rewrite (rule_adds_products_partial a ps (v * 128) Ha Hp Hk). fold x.
  pose proof (Z.div_mod x 128 ltac:(lia)) as D. pose proof (Z.mod_pos_bound x 128 ltac:(lia)) as B.
  assert (saturate_acc m s x = x) as ->.
  { destruct s; cbn [saturate_acc hw_range] in *; [destruct m| |]; cbn [hw_range] in *; lia. }
  assert (round_syn r x = w * 128) as ->.
  { unfold round_syn, round_up, qlt, w. destruct (negb _); lia. }
  rewrite Z.shiftr_div_pow2 by lia. change (2 ^ 7) with 128. rewrite Z.div_mul by lia.
  assert (hw_range m s w) as H3 by (unfold w; destruct (negb _); auto).
  destruct s; cbn [saturate hw_range] in *.
  - unfold clip_weight, clip. change (2 ^ 8) with 256. destruct m; cbn [is_mixed negate]; lia.
  - unfold clip. change (2 ^ 8) with 256. lia.
  - unfold clip. change (2 ^ 8) with 256. lia.
Qed.
Example learned_value_demo :
  let a := {| a_x0 := 1; a_y0 := 1; a_u := 0; a_syn := fun _ => 10; a_trace := fun _ _ => 40 |} in
  let tr x := {| f_var := VTrace x; f_const := None; f_sgn := false |} in
  let ps := [ {| p_dep := DX0; p_mant := -1; p_exp := 7; p_factors := [tr TY1] |}; {| p_dep := DY0; p_mant := 3; p_exp := 6; p_factors := [tr TX1] |} ] in
  total a ps (10 * 128) = 10 * 128 - 40 * 128 + 120 * 64 /\ learn Mixed (1 # 2) a ps SWeights 10 = 30.
Proof. split; reflexivity. Qed.

(** ** C62: no learning without the events the rule depends on *)
Lemma fold_noop a ps v : (forall p, In p ps -> product_value a p = 0) -> -32769 <= v <= 32767 -> apply_rule a ps v = v.
Proof.
  intros H Hv. unfold apply_rule. revert v Hv. induction ps as [|p ps IH]; intros v Hv; [reflexivity|]. cbn [fold_left].
  rewrite (H p) by (left; auto). rewrite Z.add_0_r. unfold clip_acc at 2. rewrite clip_id by (cbn; lia).
  apply IH; [|auto]. intros q Hq. apply H. right. auto.
Qed.
Lemma learn_noop m r a ps s v : (0 <= r)%Q -> (forall p, In p ps -> product_value a p = 0) -> hw_range m s v -> learn m r a ps s v = v.
Proof.
  intros Hr H Hv. unfold learn. rewrite Z.shiftl_mul_pow2 by lia. change (2 ^ 7) with 128.
  assert (-256 <= v <= 255) as B by (destruct s; [destruct m| |]; cbn [hw_range] in Hv; lia).
  rewrite fold_noop by (auto; lia).
  assert (saturate_acc m s (v * 128) = v * 128) as ->.
  { destruct s; cbn [saturate_acc hw_range] in *; [destruct m| |]; cbn [saturate_acc hw_range] in *; lia. }
  assert (round_syn r (v * 128) = v * 128) as ->.
  { unfold round_syn. rewrite Z.mod_mul by lia. rewrite Z.div_mul by lia.
    assert (qlt r (0 # 128) = false) as ->; [|unfold round_up; lia]. unfold qlt. apply negb_false_iff, Qle_bool_iff. unfold Qle in *. cbn in *. lia. }
  rewrite Z.shiftr_div_pow2 by lia. change (2 ^ 7) with 128. rewrite Z.div_mul by lia.
  destruct s; cbn [saturate hw_range] in *.
  - unfold clip_weight, clip. change (2 ^ 8) with 256. destruct m; cbn [is_mixed negate]; lia.
  - unfold clip. lia.
  - unfold clip. lia.
Qed.
Lemma gated_zero a p : dep_value a (p_dep p) = 0 -> product_value a p = 0.
Proof.
  intros H. unfold product_value, mac. rewrite H.
  assert (forall l, fold_left (fun m f => w32 (m * w32 (clip_factor (f_var f) (compute_factor a (p_dep p) f)))) l (w32 (1 * 0)) = 0) as ->.
  { induction l as [|f l IH]; [reflexivity|]. cbn [fold_left]. exact IH. }
  change (w32 (0 * p_mant p)) with 0. rewrite Z.shiftr_0_l. unfold np_shl. rewrite Z.shiftl_0_l.
  destruct ((0 <=? p_exp p) && (p_exp p <? 32)); reflexivity.
Qed.

(** the event a product waits for did not happen in the epoch that ends with step [n+1] *)
Definition silent (c : conn_cfg) (i : nat -> stimulus) (n : nat) (post pre : nat) (d : dep) : Prop :=
  let t := Z.of_nat (S n) in
  match d with
  | DX0 => forall k, epoch_start (t_epoch c) t < k <= t -> ~ pre_spikes i pre k
  | DY0 => forall k, epoch_start (t_epoch c) t < k <= t -> ~ post_spikes i post k
  | DU => match cfg_decimate c with None => True | Some k => t mod (2 ^ k * t_epoch c) <> 0 end
  end.

Theorem no_event_no_change : forall c i s0 n v post pre,
  0 < t_epoch c -> (forall k, cfg_decimate c = Some k -> 0 <= k) -> cfg_graded c <> AddWithoutSaturation ->
  (forall k, tx s0 k = 0 /\ ty s0 k = 0) -> (forall k, (0 <= r_syn (i k))%Q) ->
  hw_range (cfg_sign c) v (syn_val (run c i s0 n) v post pre) ->
  (forall ps p, cfg_rule c v = Some ps -> In p ps -> silent c i n post pre (p_dep p)) ->
  syn_val (run c i s0 (S n)) v post pre = syn_val (run c i s0 n) v post pre.
Proof.
  intros c i s0 n v post pre He Hk Hg H0 Hr Hv Hs.
  destruct (Z.eq_dec (Z.of_nat (S n) mod t_epoch c) 0) as [E|E].
  2:{ rewrite run_no_learn by auto. reflexivity. }
  destruct (cfg_rule c v) as [ps|] eqn:R.
  2:{ cbn [run]. unfold conn_step, lrn_guard. rewrite E. cbn [Z.eqb learn_phase syn_val]. unfold learned. rewrite R. reflexivity. }
  rewrite (learning_at_epoch_end c i s0 n v ps post pre E R). apply learn_noop; [auto| |auto].
  intros p Hp. apply gated_zero. specialize (Hs ps p eq_refl Hp).
  destruct (epoch_spike_times c i s0 n pre He H0) as [Tx _]. specialize (Tx Hg).
  destruct (epoch_spike_times c i s0 n post He H0) as [_ Ty].
  destruct (p_dep p); cbn [dep_value applier_args a_x0 a_y0 a_u silent] in *.
  - destruct Tx as [[-> _]|(k & K1 & K2 & _)]; [reflexivity|]. exfalso. eapply Hs; eauto.
  - destruct Ty as [[-> _]|(k & K1 & K2 & _)]; [reflexivity|]. exfalso. eapply Hs; eauto.
  - destruct (cfg_decimate c) as [k|] eqn:D; [|unfold u_value; rewrite D; reflexivity].
    apply (decimation_exact c k); auto.
Qed.
(** the dependency of a product is 1 exactly if its event happened in the epoch, and 0 otherwise *)
Theorem dependency_iff_event : forall c i s0 n post pre cur,
  0 < t_epoch c -> (forall k, cfg_decimate c = Some k -> 0 <= k) -> cfg_graded c <> AddWithoutSaturation ->
  (forall k, tx s0 k = 0 /\ ty s0 k = 0) -> Z.of_nat (S n) mod t_epoch c = 0 ->
  let t := Z.of_nat (S n) in
  let a := applier_args c t (i (S n)) (spike_phase c t (i (S n)) (run c i s0 n)) post pre cur in
  (dep_value a DX0 = 1 <-> exists k, t - t_epoch c < k <= t /\ pre_spikes i pre k) /\
  (dep_value a DY0 = 1 <-> exists k, t - t_epoch c < k <= t /\ post_spikes i post k) /\
  (dep_value a DU = 1 <-> exists k, cfg_decimate c = Some k /\ t mod (2 ^ k * t_epoch c) = 0) /\
  args_ok a.
Proof.
  intros c i s0 n post pre cur He Hk Hg H0 E t a.
  assert (epoch_start (t_epoch c) t = t - t_epoch c) as Es.
  { destruct (within_epoch_spec (t_epoch c) t He) as [W _]. unfold within_epoch in W. unfold t in *. rewrite E in W. cbn [Z.eqb] in W. lia. }
  destruct (epoch_spike_times c i s0 n pre He H0) as [Tx _]. specialize (Tx Hg).
  destruct (epoch_spike_times c i s0 n post He H0) as [_ Ty]. fold t in Tx, Ty. unfold spike_time_of in Tx, Ty. rewrite Es in Tx, Ty.
  assert (forall b : bool, (if b then 1 else 0) = 1 <-> b = true) as I by (intros []; split; congruence).
  unfold a. cbn [dep_value applier_args a_x0 a_y0 a_u]. split; [|split; [|split]].
  - rewrite I, Z.ltb_lt. destruct Tx as [[-> N]|(k & K1 & K2 & _ & -> & K4)].
    + split; [lia|]. intros (k & K1 & K2). exfalso. eapply N; eauto.
    + split; [|lia]. intros _. exists k. auto.
  - rewrite I, Z.ltb_lt. destruct Ty as [[-> N]|(k & K1 & K2 & _ & -> & K4)].
    + split; [lia|]. intros (k & K1 & K2). exfalso. eapply N; eauto.
    + split; [|lia]. intros _. exists k. auto.
  - destruct (cfg_decimate c) as [k|] eqn:D.
    + destruct (decimation_exact c k t He (Hk _ eq_refl) D E) as [D1 _]. rewrite D1. split; [eauto|]. intros (k' & Ek & H). injection Ek as <-. exact H.
    + unfold u_value. rewrite D. split; [lia|]. intros (k & H & _). discriminate.
  - intros d. destruct d; cbn [dep_value applier_args a_x0 a_y0 a_u]; [match goal with |- context [0 <? ?x] => destruct (0 <? x) end; lia|match goal with |- context [0 <? ?x] => destruct (0 <? x) end; lia|].
    unfold u_value. destruct (cfg_decimate c); [match goal with |- context [?x =? 0] => destruct (x =? 0) end|]; lia.
Qed.
Example no_event_demo : silent (graded_cfg_of Overwrite) (fun k => if Nat.eqb k 1 then spike_of 3 else spike_of 0) 3 0 0 DX0
  /\ ~ silent (graded_cfg_of Overwrite) (fun k => if Nat.eqb k 1 then spike_of 3 else spike_of 0) 1 0 0 DX0.
Proof.
  split.
  - cbn [silent]. intros k Hk [H1 H2]. change (2 < k <= 4) in Hk. assert (k = 3 \/ k = 4) as [-> | ->] by lia; apply H2; reflexivity.
  - cbn [silent]. intros H. apply (H 1); [change (0 < 1 <= 2); lia|]. split; [lia|]. discriminate.
Qed.

(** ** C63: stochastic rounding of impulses *)
(** the number of random numbers in [0,128) (random.py TraceRandom) for which an impulse is rounded up *)
Definition round_ups (frac : Z) : Z := Z.of_nat (length (filter (fun r => Z.of_nat r <? frac) (seq 0 128))).
(** the expected impulse is the configured one iff round_ups / 128 = frac / 256 *)
Lemma round_ups_spec frac : 0 <= frac -> round_ups frac = Z.min frac 128.
Proof.
  intros H. unfold round_ups.
  assert (forall n k, Z.of_nat (length (filter (fun r => Z.of_nat r <? frac) (seq k n))) = Z.max 0 (Z.min (Z.of_nat n) (frac - Z.of_nat k))) as G.
  { induction n as [|n IH]; intros k; cbn [seq filter]; [cbn; lia|].
    specialize (IH (S k)). destruct (Z.ltb_spec (Z.of_nat k) frac); cbn [length]; lia. }
  rewrite G. lia.
Qed.
Theorem impulse_rounding_exact_partial : forall frac, 0 <= frac <= 256 -> (round_ups frac * 256 = frac * 128 <-> frac = 0 \/ frac = 256).
Proof. intros frac H. rewrite round_ups_spec by lia. lia. Qed.
(** an impulse of n + 1/2 is always rounded up, one of n + 1/4 half of the time *)
Theorem impulse_rounding_unbiased_refuted : round_ups 128 = 128 /\ round_ups 64 = 64.
Proof. split; reflexivity. Qed.
(** rounding of synaptic variables, with a random number uniform in [0,1): rounds up iff r < fraction *)
Theorem synaptic_rounding_spec : forall r v,
  (round_syn r v = v / 128 * 128 + 128 /\ (r < (v mod 128) # 128)%Q) \/ (round_syn r v = v / 128 * 128 /\ ((v mod 128) # 128 <= r)%Q).
Proof.
  intros r v. unfold round_syn, round_up, qlt. destruct (Qle_bool ((v mod 128) # 128) r) eqn:E; cbn [negb].
  - right. split; [lia|]. apply Qle_bool_iff. auto.
  - left. split; [lia|]. apply Qnot_le_lt. intros H. apply Qle_bool_iff in H. congruence.
Qed.

(** ** C64: traces follow their dynamics, and rules see them at the time of their event *)
(** the trace as it should be: it decays at every step and gets an impulse at every spike *)
Fixpoint ideal (c : trace_cfg) (rd : Q) (ri : Z) (spk : nat -> bool) (v0 : Z) (t : nat) : Z :=
  match t with
  | O => v0
  | S k =>
      let v := ideal c rd ri spk v0 k in
      let d := match decay_fn c with
               | Some f => if Qle_bool (f v - inject_Z (Qfloor (f v))) rd then Qfloor (f v) else Qfloor (f v) + 1
               | None => 0
               end in
      if spk t then Z.max 0 (Z.min 127 (d + imp_int c + (if ri <? imp_frac c then 1 else 0))) else d
  end.
Lemma history_ideal c rd ri st v0 t : history c rd ri st v0 t = ideal c rd ri (fun k => st =? Z.of_nat k) v0 t.
Proof.
  induction t as [|t IH]; [reflexivity|]. cbn [history ideal]. rewrite <- IH. unfold history_step.
  assert (match decay_fn c with Some f => decay_trace f rd (history c rd ri st v0 t) | None => 0 end =
          match decay_fn c with Some f => if Qle_bool (f (history c rd ri st v0 t) - inject_Z (Qfloor (f (history c rd ri st v0 t)))) rd
            then Qfloor (f (history c rd ri st v0 t)) else Qfloor (f (history c rd ri st v0 t)) + 1 | None => 0 end) as E.
  { destruct (decay_fn c); [|reflexivity]. unfold decay_trace, round_up, qlt, qfrac. destruct (Qle_bool _ _); cbn [negb]; lia. }
  rewrite E. destruct (st =? Z.of_nat (S t)); [|reflexivity]. unfold add_impulse, round_up, clip. destruct (ri <? imp_frac c); lia.
Qed.
Lemma ideal_ext c rd ri p q v0 t : (forall k, (1 <= k <= t)%nat -> p k = q k) -> ideal c rd ri p v0 t = ideal c rd ri q v0 t.
Proof.
  induction t as [|t IH]; intros H; [reflexivity|]. cbn [ideal]. rewrite (H (S t)) by lia. rewrite IH; [reflexivity|]. intros. apply H. lia.
Qed.

(** the initial value of a trace in the state in which the learning phase starts *)
Definition trace_of (s : conn) (tr : trace) (n : nat) : Z :=
  match tr with TX1 => x1 s n | TX2 => x2 s n | TY1 => y1 s n | TY2 => y2 s n | TY3 => y3 s n end.
(** the neuron a trace of the synapse belongs to, its recorded spike and its random numbers *)
Definition side {A} (tr : trace) (px py : A) : A := match tr with TX1 | TX2 => px | _ => py end.

(** a rule sees each trace of its synapse as it was at the time of the spike (x0: pre, y0: post) or at the
    end of the epoch (u), and afterwards the traces have their values at the end of the epoch *)
Theorem rule_sees_traces_at_events : forall c t i s post pre tr d cur,
  a_trace (applier_args c t i s post pre cur) tr d =
  ideal (cfg_trace c tr) (side tr (r_xd i) (r_yd i)) (side tr (r_xi i) (r_yi i))
    (fun k => side tr (tx s pre) (ty s post) =? Z.of_nat k) (trace_of s tr (side tr pre post))
    (Z.to_nat (match d with DX0 => tx s pre | DY0 => ty s post | DU => t_epoch c end)).
Proof.
  intros. cbn [applier_args a_trace]. unfold evaluated, x_hist, y_hist. destruct tr, d; cbn [is_x side trace_of]; apply history_ideal.
Qed.
Theorem traces_after_epoch : forall c t i s tr n, t mod t_epoch c = 0 ->
  let s' := spike_phase c t i s in
  trace_of (conn_step c t i s) tr n =
  ideal (cfg_trace c tr) (side tr (r_xd i) (r_yd i)) (side tr (r_xi i) (r_yi i))
    (fun k => side tr (tx s' n) (ty s' n) =? Z.of_nat k) (trace_of s' tr n) (Z.to_nat (t_epoch c)).
Proof.
  intros c t i s tr n H. cbn zeta. unfold conn_step, lrn_guard. rewrite H. cbn [Z.eqb].
  destruct tr; cbn [trace_of learn_phase x1 x2 y1 y2 y3 side]; unfold x_hist, y_hist; apply history_ideal.
Qed.

Definition traces_of_pre (s : conn) n := (x1 s n, x2 s n).
Definition traces_of_post (s : conn) n := (y1 s n, y2 s n, y3 s n).
(** a neuron with at most one spike in an epoch: its traces run from their values at the start of the
    epoch with an impulse exactly at the spike.  [n] is the number of epochs before. *)
Lemma one_spike_x c i s0 m n : cfg_graded c = UseRegularImpulse -> 0 < t_epoch c ->
  (forall k, tx s0 k = 0 /\ ty s0 k = 0) ->
  let e := Z.to_nat (t_epoch c) in
  (forall j k, (1 <= j <= e)%nat -> (1 <= k <= e)%nat -> s_in (i (n * e + j)%nat) m <> 0 -> s_in (i (n * e + k)%nat) m <> 0 -> j = k) ->
  forall q, (q < e)%nat -> traces_of_pre (run c i s0 (n * e + q)) m = traces_of_pre (run c i s0 (n * e)) m /\
    traces_of_pre (spike_phase c (Z.of_nat (n * e + S q)) (i (n * e + S q)%nat) (run c i s0 (n * e + q))) m = traces_of_pre (run c i s0 (n * e)) m.
Proof.
  intros Hg He H0 e Hone. assert (Z.of_nat e = t_epoch c) as Ee by lia.
  assert (forall q, (q < e)%nat -> traces_of_pre (run c i s0 (n * e + q)) m = traces_of_pre (run c i s0 (n * e)) m ->
    traces_of_pre (spike_phase c (Z.of_nat (n * e + S q)) (i (n * e + S q)%nat) (run c i s0 (n * e + q))) m = traces_of_pre (run c i s0 (n * e)) m) as Hsp.
  { intros q Hq <-. unfold traces_of_pre. cbn [spike_phase x1 x2]. rewrite Hg. cbn [pre_spike fst snd].
    destruct ((0 <? tx (run c i s0 (n * e + q)) m) && negb (s_in (i (n * e + S q)%nat) m =? 0)) eqn:E; [|reflexivity].
    exfalso. apply andb_true_iff in E. destruct E as [E1 E2]. apply Z.ltb_lt in E1. apply negb_true_iff, Z.eqb_neq in E2.
    destruct q as [|q].
    { rewrite Nat.add_0_r in E1. destruct (run_reset c i s0 (n * e) H0) with (m := m) as [Hx _]; [|lia].
      rewrite Nat2Z.inj_mul, Ee. apply Z.mod_mul. lia. }
    replace (n * e + S q)%nat with (S (n * e + q)) in E1 by lia.
    assert (Z.of_nat (S (n * e + q)) mod t_epoch c <> 0) as Nz.
    { replace (Z.of_nat (S (n * e + q))) with (Z.of_nat (S q) + Z.of_nat n * t_epoch c) by (rewrite <- Ee; lia).
      rewrite Z.mod_add by lia. rewrite Z.mod_small by lia. lia. }
    rewrite run_no_learn in E1 by auto.
    destruct (epoch_spike_times c i s0 (n * e + q) m He H0) as [Tx _]. specialize (Tx ltac:(congruence)).
    destruct Tx as [[T _]|(k & K1 & [K2 K3] & _)]; [lia|].
    assert (epoch_start (t_epoch c) (Z.of_nat (S (n * e + q))) = Z.of_nat n * t_epoch c) as Es.
    { unfold epoch_start. f_equal. replace (Z.of_nat (S (n * e + q)) - 1) with (Z.of_nat q + Z.of_nat n * t_epoch c) by (rewrite <- Ee; lia).
      rewrite Z.div_add by lia. rewrite Z.div_small by lia. lia. }
    rewrite Es, <- Ee in K1.
    assert (Z.to_nat k - n * e = S (S q))%nat as C.
    { apply Hone; [lia|lia| |exact E2]. replace (n * e + (Z.to_nat k - n * e))%nat with (Z.to_nat k) by lia. exact K3. }
    lia. }
  induction q as [|q IH]; intros Hq.
  - rewrite Nat.add_0_r. split; [reflexivity|]. specialize (Hsp 0%nat Hq). rewrite Nat.add_0_r in Hsp. apply Hsp. reflexivity.
  - destruct (IH ltac:(lia)) as [_ I2].
    assert (traces_of_pre (run c i s0 (n * e + S q)) m = traces_of_pre (run c i s0 (n * e)) m) as A.
    { rewrite <- I2. replace (n * e + S q)%nat with (S (n * e + q)) by lia. f_equal. apply run_no_learn.
      replace (Z.of_nat (S (n * e + q))) with (Z.of_nat (S q) + Z.of_nat n * t_epoch c) by (rewrite <- Ee; lia).
      rewrite Z.mod_add by lia. rewrite Z.mod_small by lia. lia. }
    split; [exact A|]. apply Hsp; auto.
Qed.

Theorem trace_dynamics_single_spike_partial : forall c i s0 m n tr,
  cfg_graded c = UseRegularImpulse -> 0 < t_epoch c -> (forall k, tx s0 k = 0 /\ ty s0 k = 0) -> (tr = TX1 \/ tr = TX2) ->
  let e := Z.to_nat (t_epoch c) in
  (forall j k, (1 <= j <= e)%nat -> (1 <= k <= e)%nat -> s_in (i (n * e + j)%nat) m <> 0 -> s_in (i (n * e + k)%nat) m <> 0 -> j = k) ->
  trace_of (run c i s0 (n * e + e)) tr m =
  ideal (cfg_trace c tr) (r_xd (i (n * e + e)%nat)) (r_xi (i (n * e + e)%nat))
    (fun k => negb (s_in (i (n * e + k)%nat) m =? 0)) (trace_of (run c i s0 (n * e)) tr m) e.
Proof.
  intros c i s0 m n tr Hg He H0 Htr e Hone. assert (Z.of_nat e = t_epoch c) as Ee by lia.
  assert (exists q, e = S q) as [q Eq] by (exists (e - 1)%nat; lia).
  destruct (one_spike_x c i s0 m n Hg He H0 Hone q ltac:(lia)) as [_ T].
  fold e in T. rewrite <- Eq in T.
  assert (Z.of_nat (n * e + e) mod t_epoch c = 0) as Hz.
  { replace (Z.of_nat (n * e + e)) with (Z.of_nat (n + 1) * t_epoch c) by (rewrite <- Ee; lia). apply Z.mod_mul. lia. }
  assert (run c i s0 (n * e + e) = conn_step c (Z.of_nat (n * e + e)) (i (n * e + e)%nat) (run c i s0 (n * e + q))) as ->.
  { replace (n * e + e)%nat with (S (n * e + q)) by lia. reflexivity. }
  rewrite traces_after_epoch by auto. fold e.
  set (s' := spike_phase _ _ _ _) in *.
  assert (trace_of s' tr m = trace_of (run c i s0 (n * e)) tr m) as ->.
  { unfold traces_of_pre in T. injection T as T1 T2. destruct Htr as [-> | ->]; cbn [trace_of]; auto. }
  assert (side tr (r_xd (i (n * e + e)%nat)) (r_yd (i (n * e + e)%nat)) = r_xd (i (n * e + e)%nat)) as -> by (destruct Htr as [-> | ->]; reflexivity).
  assert (side tr (r_xi (i (n * e + e)%nat)) (r_yi (i (n * e + e)%nat)) = r_xi (i (n * e + e)%nat)) as -> by (destruct Htr as [-> | ->]; reflexivity).
  assert (side tr (tx s' m) (ty s' m) = tx s' m) as -> by (destruct Htr as [-> | ->]; reflexivity).
  apply ideal_ext. intros k Hk.
  destruct (epoch_spike_times c i s0 (n * e + q) m He H0) as [Tx _]. specialize (Tx ltac:(congruence)).
  replace (S (n * e + q)) with (n * e + e)%nat in Tx by lia. fold s' in Tx.
  assert (epoch_start (t_epoch c) (Z.of_nat (n * e + e)) = Z.of_nat n * t_epoch c) as Es.
  { unfold epoch_start. f_equal. replace (Z.of_nat (n * e + e) - 1) with (Z.of_nat q + Z.of_nat n * t_epoch c) by (rewrite <- Ee; lia).
    rewrite Z.div_add by lia. rewrite Z.div_small by lia. lia. }
  unfold spike_time_of in Tx. rewrite Es in Tx.
  destruct Tx as [[-> No]|(j & K1 & [K2 K3] & _ & -> & _)].
  - assert (s_in (i (n * e + k)%nat) m = 0) as ->.
    { destruct (Z.eq_dec (s_in (i (n * e + k)%nat) m) 0); [auto|]. exfalso. apply (No (Z.of_nat (n * e + k))); [rewrite <- Ee; lia|].
      split; [lia|]. rewrite Nat2Z.id. auto. }
    rewrite Z.eqb_refl. cbn [negb]. apply Z.eqb_neq. lia.
  - rewrite <- Ee in *. destruct (Z.eqb_spec (j - Z.of_nat n * Z.of_nat e) (Z.of_nat k)) as [E|E].
    + assert (Z.to_nat j = n * e + k)%nat as J by lia. rewrite J in K3. symmetry. apply negb_true_iff, Z.eqb_neq. exact K3.
    + symmetry. apply negb_false_iff, Z.eqb_eq. destruct (Z.eq_dec (s_in (i (n * e + k)%nat) m) 0) as [|N]; [auto|]. exfalso.
      assert (Z.to_nat j - n * e = k)%nat; [|lia]. apply Hone; [lia|lia| |exact N].
      replace (n * e + (Z.to_nat j - n * e))%nat with (Z.to_nat j) by lia. exact K3.
Qed.
(** the same for post-synaptic neurons *)
Lemma one_spike_y c i s0 m n : 0 < t_epoch c ->
  (forall k, tx s0 k = 0 /\ ty s0 k = 0) ->
  let e := Z.to_nat (t_epoch c) in
  (forall j k, (1 <= j <= e)%nat -> (1 <= k <= e)%nat -> s_bap (i (n * e + j)%nat) m = true -> s_bap (i (n * e + k)%nat) m = true -> j = k) ->
  forall q, (q < e)%nat -> traces_of_post (run c i s0 (n * e + q)) m = traces_of_post (run c i s0 (n * e)) m /\
    traces_of_post (spike_phase c (Z.of_nat (n * e + S q)) (i (n * e + S q)%nat) (run c i s0 (n * e + q))) m = traces_of_post (run c i s0 (n * e)) m.
Proof.
  intros He H0 e Hone. assert (Z.of_nat e = t_epoch c) as Ee by lia.
  assert (forall q, (q < e)%nat -> traces_of_post (run c i s0 (n * e + q)) m = traces_of_post (run c i s0 (n * e)) m ->
    traces_of_post (spike_phase c (Z.of_nat (n * e + S q)) (i (n * e + S q)%nat) (run c i s0 (n * e + q))) m = traces_of_post (run c i s0 (n * e)) m) as Hsp.
  { intros q Hq <-. unfold traces_of_post. cbn [spike_phase y1 y2 y3]. unfold post_spike. cbn [fst snd].
    destruct ((0 <? ty (run c i s0 (n * e + q)) m) && s_bap (i (n * e + S q)%nat) m) eqn:E; [|reflexivity].
    exfalso. apply andb_true_iff in E. destruct E as [E1 E2]. apply Z.ltb_lt in E1. 
    destruct q as [|q].
    { rewrite Nat.add_0_r in E1. destruct (run_reset c i s0 (n * e) H0) with (m := m) as [_ Hx]; [|lia].
      rewrite Nat2Z.inj_mul, Ee. apply Z.mod_mul. lia. }
    replace (n * e + S q)%nat with (S (n * e + q)) in E1 by lia.
    assert (Z.of_nat (S (n * e + q)) mod t_epoch c <> 0) as Nz.
    { replace (Z.of_nat (S (n * e + q))) with (Z.of_nat (S q) + Z.of_nat n * t_epoch c) by (rewrite <- Ee; lia).
      rewrite Z.mod_add by lia. rewrite Z.mod_small by lia. lia. }
    rewrite run_no_learn in E1 by auto.
    destruct (epoch_spike_times c i s0 (n * e + q) m He H0) as [_ Tx].
    destruct Tx as [[T _]|(k & K1 & [K2 K3] & _)]; [lia|].
    assert (epoch_start (t_epoch c) (Z.of_nat (S (n * e + q))) = Z.of_nat n * t_epoch c) as Es.
    { unfold epoch_start. f_equal. replace (Z.of_nat (S (n * e + q)) - 1) with (Z.of_nat q + Z.of_nat n * t_epoch c) by (rewrite <- Ee; lia).
      rewrite Z.div_add by lia. rewrite Z.div_small by lia. lia. }
    rewrite Es, <- Ee in K1.
    assert (Z.to_nat k - n * e = S (S q))%nat as C.
    { apply Hone; [lia|lia| |exact E2]. replace (n * e + (Z.to_nat k - n * e))%nat with (Z.to_nat k) by lia. exact K3. }
    lia. }
  induction q as [|q IH]; intros Hq.
  - rewrite Nat.add_0_r. split; [reflexivity|]. specialize (Hsp 0%nat Hq). rewrite Nat.add_0_r in Hsp. apply Hsp. reflexivity.
  - destruct (IH ltac:(lia)) as [_ I2].
    assert (traces_of_post (run c i s0 (n * e + S q)) m = traces_of_post (run c i s0 (n * e)) m) as A.
    { rewrite <- I2. replace (n * e + S q)%nat with (S (n * e + q)) by lia. f_equal. apply run_no_learn.
      replace (Z.of_nat (S (n * e + q))) with (Z.of_nat (S q) + Z.of_nat n * t_epoch c) by (rewrite <- Ee; lia).
      rewrite Z.mod_add by lia. rewrite Z.mod_small by lia. lia. }
    split; [exact A|]. apply Hsp; auto.
Qed.

Theorem trace_dynamics_single_post_spike_partial : forall c i s0 m n tr,
  0 < t_epoch c -> (forall k, tx s0 k = 0 /\ ty s0 k = 0) -> (tr = TY1 \/ tr = TY2 \/ tr = TY3) ->
  let e := Z.to_nat (t_epoch c) in
  (forall j k, (1 <= j <= e)%nat -> (1 <= k <= e)%nat -> s_bap (i (n * e + j)%nat) m = true -> s_bap (i (n * e + k)%nat) m = true -> j = k) ->
  trace_of (run c i s0 (n * e + e)) tr m =
  ideal (cfg_trace c tr) (r_yd (i (n * e + e)%nat)) (r_yi (i (n * e + e)%nat))
    (fun k => s_bap (i (n * e + k)%nat) m) (trace_of (run c i s0 (n * e)) tr m) e.
Proof.
  intros c i s0 m n tr He H0 Htr e Hone. assert (Z.of_nat e = t_epoch c) as Ee by lia.
  assert (exists q, e = S q) as [q Eq] by (exists (e - 1)%nat; lia).
  destruct (one_spike_y c i s0 m n He H0 Hone q ltac:(lia)) as [_ T].
  fold e in T. rewrite <- Eq in T.
  assert (Z.of_nat (n * e + e) mod t_epoch c = 0) as Hz.
  { replace (Z.of_nat (n * e + e)) with (Z.of_nat (n + 1) * t_epoch c) by (rewrite <- Ee; lia). apply Z.mod_mul. lia. }
  assert (run c i s0 (n * e + e) = conn_step c (Z.of_nat (n * e + e)) (i (n * e + e)%nat) (run c i s0 (n * e + q))) as ->.
  { replace (n * e + e)%nat with (S (n * e + q)) by lia. reflexivity. }
  rewrite traces_after_epoch by auto. fold e.
  set (s' := spike_phase _ _ _ _) in *.
  assert (trace_of s' tr m = trace_of (run c i s0 (n * e)) tr m) as ->.
  { unfold traces_of_post in T. injection T as T1 T2 T3. destruct Htr as [-> | [-> | ->]]; cbn [trace_of]; auto. }
  assert (side tr (r_xd (i (n * e + e)%nat)) (r_yd (i (n * e + e)%nat)) = r_yd (i (n * e + e)%nat)) as -> by (destruct Htr as [-> | [-> | ->]]; reflexivity).
  assert (side tr (r_xi (i (n * e + e)%nat)) (r_yi (i (n * e + e)%nat)) = r_yi (i (n * e + e)%nat)) as -> by (destruct Htr as [-> | [-> | ->]]; reflexivity).
  assert (side tr (tx s' m) (ty s' m) = ty s' m) as -> by (destruct Htr as [-> | [-> | ->]]; reflexivity).
  apply ideal_ext. intros k Hk.
  destruct (epoch_spike_times c i s0 (n * e + q) m He H0) as [_ Tx].
  replace (S (n * e + q)) with (n * e + e)%nat in Tx by lia. fold s' in Tx.
  assert (epoch_start (t_epoch c) (Z.of_nat (n * e + e)) = Z.of_nat n * t_epoch c) as Es.
  { unfold epoch_start. f_equal. replace (Z.of_nat (n * e + e) - 1) with (Z.of_nat q + Z.of_nat n * t_epoch c) by (rewrite <- Ee; lia).
    rewrite Z.div_add by lia. rewrite Z.div_small by lia. lia. }
  unfold spike_time_of in Tx. rewrite Es in Tx.
  destruct Tx as [[-> No]|(j & K1 & [K2 K3] & _ & -> & _)].
  - assert (s_bap (i (n * e + k)%nat) m = false) as ->.
    { destruct (s_bap (i (n * e + k)%nat) m) eqn:N; [|auto]. exfalso. apply (No (Z.of_nat (n * e + k))); [rewrite <- Ee; lia|].
      split; [lia|]. rewrite Nat2Z.id. auto. }
    apply Z.eqb_neq. lia.
  - rewrite <- Ee in *. destruct (Z.eqb_spec (j - Z.of_nat n * Z.of_nat e) (Z.of_nat k)) as [E|E].
    + assert (Z.to_nat j = n * e + k)%nat as J by lia. rewrite J in K3. symmetry. exact K3.
    + symmetry. destruct (s_bap (i (n * e + k)%nat) m) eqn:N; [|auto]. exfalso.
      assert (Z.to_nat j - n * e = k)%nat; [|lia]. apply Hone; [lia|lia| |exact N].
      replace (n * e + (Z.to_nat j - n * e))%nat with (Z.to_nat j) by lia. exact K3.
Qed.
(** with two spikes in one epoch the impulse of the first one is added before the whole epoch is decayed *)
Theorem trace_dynamics_two_spikes_refuted : exists c i s0, cfg_graded c = UseRegularImpulse /\ 0 < t_epoch c /\
  let e := Z.to_nat (t_epoch c) in
  trace_of (run c i s0 e) TX1 0%nat <>
  ideal (cfg_trace c TX1) (r_xd (i e)) (r_xi (i e)) (fun k => negb (s_in (i k) 0%nat =? 0)) (trace_of s0 TX1 0%nat) e.
Proof.
  exists {| t_epoch := 4; cfg_sign := Mixed; cfg_graded := UseRegularImpulse;
            cfg_trace := fun _ => {| imp_int := 64; imp_frac := 0; decay_fn := Some (fun v => v # 2) |}; cfg_rule := fun _ => None; cfg_decimate := None |},
    (fun k => if Nat.leb 3 k then spike_of 1 else spike_of 0), (rest (fun _ => 0)).
  split; [reflexivity|]. split; [reflexivity|]. cbv. congruence.
Qed.
