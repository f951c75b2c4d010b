(** C40: connection processes deliver weighted sums with the documented delay.
    C60: the weights a fixed-point connection uses are clipped and truncated. *)
From Coq Require Import ZArith List Bool Arith Lia.
From Verif Require Import NpInt Bits_Model Bits_Props Conn_Model Conn_Spec Conn_Proofs.
Import ListNotations.
Open Scope Z_scope.

Definition inputs_ok (m : nat) (ins : list (list Z)) : Prop := forall s, In s ins -> length s = m.

Lemma firstn_S_nth A (l : list A) d t : (t < length l)%nat -> firstn (t + 1) l = firstn t l ++ [nth t l d].
Proof.
  revert t. induction l; intros t H; simpl in H; [lia|]. destruct t; auto.
  simpl. rewrite (IHl t) by lia. auto.
Qed.

(** ** Dense / Sparse, floating point *)
Theorem dense_first_output bits w buf ins : ins <> [] ->
  nth 0 (outputs (dense_step bits w) buf ins) [] = buf.
Proof. destruct ins; [congruence|]. auto. Qed.
(** step t + 1 sends the weighted sum of the input of step t *)
Theorem dense_sends_weighted_sum bits w n m buf ins t :
  shape w n m -> inputs_ok m ins -> (t + 1 < length ins)%nat ->
  nth (t + 1) (outputs (dense_step bits w) buf ins) [] = map (weighted_sum (0 <? bits) w m ins t) (seq 0 n).
Proof.
  intros Hw Hi Ht. rewrite outputs_nth by auto. cbn [fst dense_step].
  rewrite (firstn_S_nth _ _ []) by lia. rewrite after_snoc. cbn [snd dense_step].
  rewrite (accumulate_spec bits w n m); auto. apply Hi. apply nth_In. lia.
Qed.

(** ** Dense / Sparse, fixed point *)
Lemma firstn_In A (l : list A) t x : In x (firstn t l) -> In x l.
Proof. intros. rewrite <- (firstn_skipn t l). apply in_or_app. auto. Qed.
Lemma map_shape (f : Z -> Z) w n m : shape w n m -> shape (map (map f) w) n m.
Proof.
  intros [H1 H2]. split; [rewrite map_length; auto|]. intros row Hr. apply in_map_iff in Hr.
  destruct Hr as (r & <- & Hr). rewrite map_length. auto.
Qed.
Lemma prepare_shape p w n m : shape w n m -> shape (prepare_weights p w) n m.
Proof. apply map_shape. Qed.
Lemma after_prepared p w buf ins s :
  after (bitacc_step p) {| weights := w; weights_set := false; a_buff := buf |} (ins ++ [s]) =
  {| weights := prepare_weights p w; weights_set := true;
     a_buff := map (fun x => np_shift (weight_exp p) (in_acc p x)) (accumulate (message_bits p) (prepare_weights p w) s) |}.
Proof.
  revert s. induction ins as [|a ins IH] using rev_ind; intros s; [reflexivity|].
  rewrite after_snoc, IH. reflexivity.
Qed.
Lemma bitacc_sends p w n m buf ins t :
  shape w n m -> inputs_ok m ins -> (t + 1 < length ins)%nat ->
  nth (t + 1) (outputs (bitacc_step p) {| weights := w; weights_set := false; a_buff := buf |} ins) []
  = map (fun i => w32 (np_shift (weight_exp p)
                        (in_acc p (weighted_sum (0 <? message_bits p) (prepare_weights p w) m ins t i)))) (seq 0 n).
Proof.
  intros Hw Hi Ht. rewrite outputs_nth by auto.
  rewrite (firstn_S_nth _ _ []) by lia. rewrite after_prepared.
  cbn [fst bitacc_step a_buff].
  rewrite (accumulate_spec _ _ n m) by (try apply prepare_shape; auto; apply Hi, nth_In; lia).
  rewrite !map_map. auto.
Qed.
(** binary messages, and graded ones whose weighted sum fits the integer type of the messages *)
Theorem bitacc_sends_shifted_sum_partial p w n m buf ins t :
  shape w n m -> inputs_ok m ins -> (t + 1 < length ins)%nat -> 0 < acc_bits p ->
  (0 < message_bits p -> forall i, (i < n)%nat ->
     - 2 ^ (acc_bits p - 1) <= weighted_sum true (prepare_weights p w) m ins t i < 2 ^ (acc_bits p - 1)) ->
  nth (t + 1) (outputs (bitacc_step p) {| weights := w; weights_set := false; a_buff := buf |} ins) []
  = map (fun i => w32 (np_shift (weight_exp p)
                        (weighted_sum (0 <? message_bits p) (prepare_weights p w) m ins t i))) (seq 0 n).
Proof.
  intros Hw Hi Ht Ha Hf. rewrite (bitacc_sends p w n m) by auto. apply map_ext_in. intros i Hin. apply in_seq in Hin.
  unfold in_acc. destruct (Z.ltb_spec 0 (message_bits p)) as [H|H]; [|reflexivity].
  rewrite wrap_id; [reflexivity|exact Ha|]. apply Hf; auto; lia.
Qed.
(** with a non-negative exponent the accumulator does not matter: the 32-bit result is right modulo 2^32 *)
Lemma w32_scaled_wrap k x y : 32 <= k -> w32 (wrap k x * y) = w32 (x * y).
Proof.
  intros H. assert (forall a b, (a - b) mod 2 ^ 32 = 0 -> w32 a = w32 b) as E.
  { intros a b E. unfold w32, wrap. f_equal. rewrite <- (Z.add_0_r (a + 2 ^ (32 - 1))).
    apply Z.mod_divide in E; [|lia]. destruct E as [q E].
    replace (a + 2 ^ (32 - 1) + 0) with (b + 2 ^ (32 - 1) + q * 2 ^ 32) by lia. apply Z.mod_add. lia. }
  apply E. unfold wrap. pose proof (Z.pow_pos_nonneg 2 k ltac:(lia) ltac:(lia)) as P.
  pose proof (Z.div_mod (x + 2 ^ (k - 1)) (2 ^ k) ltac:(lia)) as D.
  set (q := (x + 2 ^ (k - 1)) / 2 ^ k) in *. set (r := (x + 2 ^ (k - 1)) mod 2 ^ k) in *.
  replace ((r - 2 ^ (k - 1)) * y - x * y) with (- q * y * 2 ^ (k - 32) * 2 ^ 32); [apply Z.mod_mul; lia|].
  replace (- q * y * 2 ^ (k - 32) * 2 ^ 32) with (- q * y * (2 ^ (k - 32) * 2 ^ 32)) by ring.
  rewrite <- Z.pow_add_r by lia. replace (k - 32 + 32) with k by lia. nia.
Qed.
Theorem bitacc_sends_scaled_sum p w n m buf ins t :
  shape w n m -> inputs_ok m ins -> (t + 1 < length ins)%nat -> 32 <= acc_bits p -> 0 <= weight_exp p ->
  nth (t + 1) (outputs (bitacc_step p) {| weights := w; weights_set := false; a_buff := buf |} ins) []
  = map (fun i => w32 (weighted_sum (0 <? message_bits p) (prepare_weights p w) m ins t i * 2 ^ weight_exp p)) (seq 0 n).
Proof.
  intros Hw Hi Ht Ha He. rewrite (bitacc_sends p w n m) by auto. apply map_ext_in. intros i Hin.
  assert (forall x, np_shift (weight_exp p) x = x * 2 ^ weight_exp p) as S.
  { intro x. unfold np_shift. destruct (Z.ltb_spec 0 (weight_exp p)); [apply Z.shiftl_mul_pow2; lia|].
    replace (weight_exp p) with 0 by lia. simpl. rewrite Z.shiftr_0_r. lia. }
  rewrite S. unfold in_acc. destruct (0 <? message_bits p); [apply w32_scaled_wrap; exact Ha|reflexivity].
Qed.
(** with a negative exponent it does: three 24-bit messages that arrive in int32 overflow the accumulator,
    although the scaled result is a small number *)
Theorem bitacc_int32_accumulator_refuted : exists p w ins,
  shape w 1 3 /\ inputs_ok 3 ins /\ (forall t j, Z.abs (input ins t j) < 2 ^ 23) /\ acc_bits p = 32 /\ weight_exp p < 0 /\
  weighted_sum true (prepare_weights p w) 3 ins 0 0 / 2 ^ (- weight_exp p) = 25165821 /\
  nth 1 (outputs (bitacc_step p) {| weights := w; weights_set := false; a_buff := [0] |} ins) [] <> [25165821].
Proof.
  exists {| num_weight_bits := 8; weight_exp := -7; sign := Some Excitatory; message_bits := 24; acc_bits := 32 |}.
  exists [[128; 128; 128]], [[8388607; 8388607; 8388607]; [0; 0; 0]].
  split; [split; [reflexivity|intros row [<-|[]]; reflexivity]|].
  split; [intros s [<-|[<-|[]]]; reflexivity|].
  split; [intros [|[|[|t]]] [|[|[|[|j]]]]; unfold input; cbn [nth]; change (2 ^ 23) with 8388608; lia|].
  split; [reflexivity|]. split; [reflexivity|]. split; [vm_compute; reflexivity|vm_compute; discriminate].
Qed.
(** without wrap-around the exponent is an exact scaling *)
Theorem np_shift_scale e x : 0 <= e -> np_shift e x = x * 2 ^ e.
Proof.
  intros. unfold np_shift. destruct (Z.ltb_spec 0 e).
  - apply Z.shiftl_mul_pow2. lia.
  - replace e with 0 by lia. rewrite Z.shiftr_0_r. simpl. lia.
Qed.
Theorem np_shift_floor e x : e < 0 -> np_shift e x = x / 2 ^ (- e).
Proof. intros. unfold np_shift. destruct (Z.ltb_spec 0 e); [lia|]. apply Z.shiftr_div_pow2. lia. Qed.

(** ** Delayed connections *)
Lemma delay_rows_shape w d n m k : shape w n m -> shape d n m -> shape (delay_rows w d k) n m.
Proof.
  intros [H1 H2] [H3 H4]. split; [unfold delay_rows; rewrite map2_length; lia|].
  intros row Hr. unfold delay_rows in Hr. unfold map2 at 1 in Hr. apply in_map_iff in Hr. destruct Hr as ([a b] & <- & Hr).
  pose proof (in_combine_l _ _ _ _ Hr). apply in_combine_r in Hr.
  cbn [fst snd]. rewrite map2_length, H2, H4 by auto. lia.
Qed.
Lemma delay_rows_weight w d n m k i j : shape w n m -> shape d n m -> (i < n)%nat -> (j < m)%nat ->
  weight (delay_rows w d k) i j = if Nat.eqb (delay d i j) k then weight w i j else 0.
Proof.
  intros Hw Hd Hi Hj. unfold weight, delay, delay_rows.
  rewrite (map2_nth _ _ _ _ _ _ _ [] []) by (destruct Hw, Hd; lia).
  rewrite (map2_nth _ _ _ _ _ _ _ 0 0%nat); auto.
  - rewrite (nth_row_length _ _ n m); auto.
  - rewrite (nth_row_length _ _ n m); auto.
Qed.
(** the mass that reaches output [i] with delay [q], for the spike vector [s] *)
Definition group (w : list (list Z)) (d : list (list nat)) (m : nat) (s : nat -> Z) (i q : nat) : Z :=
  sum_upto m (fun j => if Nat.eqb (delay d i j) q then weight w i j * s j else 0).
Lemma calc_act_length mat n maxd s : length (calc_act mat n maxd s) = (n * (maxd + 1))%nat.
Proof. unfold calc_act. apply flat_const_length. intros. rewrite map_length, seq_length. auto. Qed.
Lemma calc_act_gen mat n maxd m s (f : nat -> nat -> Z) :
  shape mat ((maxd + 1) * n) m -> length s = m ->
  (forall i k, (i < n)%nat -> (k <= maxd)%nat ->
     sum_upto m (fun j => weight mat (k * n + i) j * nth j s 0) = f i k) ->
  forall i k, (i < n)%nat -> (k <= maxd)%nat -> nth (i * (maxd + 1) + k) (calc_act mat n maxd s) 0 = f i k.
Proof.
  intros Hm Hs Hf i k Hi Hk. unfold calc_act.
  rewrite nth_flat_const by (auto; try lia; intros; rewrite map_length, seq_length; auto).
  rewrite nth_map_seq by lia. rewrite (mat_dot_nth _ _ ((maxd + 1) * n) m); auto. nia.
Qed.
Lemma delay_wgts_shape w d n m maxd : shape w n m -> shape d n m ->
  shape (delay_wgts w d maxd) ((maxd + 1) * n) m.
Proof.
  intros Hw Hd. unfold delay_wgts. split.
  - apply flat_const_length. intros. apply (delay_rows_shape w d n m i); auto.
  - intros row Hr. apply in_flat_map in Hr. destruct Hr as (k & _ & Hr).
    destruct (delay_rows_shape w d n m k Hw Hd) as [_ H]. auto.
Qed.
Lemma delay_wgts_weight w d n m maxd i k j : shape w n m -> shape d n m ->
  (i < n)%nat -> (j < m)%nat -> (k <= maxd)%nat ->
  weight (delay_wgts w d maxd) (k * n + i) j = if Nat.eqb (delay d i j) k then weight w i j else 0.
Proof.
  intros Hw Hd Hi Hj Hk. unfold weight at 1, delay_wgts. rewrite nth_flat_const.
  - apply (delay_rows_weight w d n m k i j); auto.
  - intros. apply (delay_rows_shape w d n m i0); auto.
  - lia.
  - auto.
Qed.
Lemma calc_act_group w d n m maxd s i k : shape w n m -> shape d n m -> length s = m ->
  (i < n)%nat -> (k <= maxd)%nat ->
  nth (i * (maxd + 1) + k) (calc_act (delay_wgts w d maxd) n maxd s) 0
  = group w d m (fun j => nth j s 0) i k.
Proof.
  intros Hw Hd Hs Hi Hk. apply calc_act_gen with m; auto.
  - apply delay_wgts_shape; auto.
  - intros i' k' Hi' Hk'. apply sum_upto_ext. intros j Hj. rewrite (delay_wgts_weight w d n m) by auto.
    destruct (Nat.eqb (delay d i' j) k'); auto.
Qed.

Lemma after_delay wr post bits mat n maxd buf ins :
  after (delay_step wr post bits mat n maxd) buf ins =
  reg_after wr (maxd + 1) buf (map (fun s => map post (calc_act mat n maxd (spikes bits s))) ins).
Proof.
  revert buf. induction ins; intros buf; auto. unfold after, reg_after in *. simpl. rewrite IHins. auto.
Qed.
(** The complete behaviour, for any accumulator width [wr] and any exponent [post]: the delays are
    grouped, every group of step t-1-q is delivered q steps later than an undelayed one. *)
Theorem delay_step_outputs wr post bits w d n m maxd ins t :
  (forall x y, wr (wr x + y) = wr (x + y)) -> wr 0 = 0 ->
  shape w n m -> shape d n m -> inputs_ok m ins -> (t < length ins)%nat ->
  nth t (outputs (delay_step wr post bits (delay_wgts w d maxd) n maxd) (init_buf n maxd) ins) []
  = map (fun i => wr (sum_upto (maxd + 1) (fun q => if (q <? t)%nat
           then post (group w d m (fun j => message (0 <? bits) (input ins (t - 1 - q) j)) i q) else 0)))
        (seq 0 n).
Proof.
  intros Hwr H0 Hw Hd Hi Ht. rewrite outputs_nth by auto. cbn [fst delay_step]. rewrite after_delay.
  unfold col0, init_buf. apply map_ext_in. intros i Hin. apply in_seq in Hin.
  set (acts := map _ (firstn t ins)).
  assert (length acts = t) as La by (unfold acts; rewrite map_length, firstn_length_le; lia).
  destruct (reg_after_spec wr (maxd + 1) n acts Hwr H0 ltac:(lia)) as [_ H].
  { intros a Ha. unfold acts in Ha. apply in_map_iff in Ha. destruct Ha as (s & <- & _).
    rewrite map_length, calc_act_length. auto. }
  specialize (H i 0%nat ltac:(lia) ltac:(lia)). rewrite Nat.add_0_r in H. rewrite H. f_equal.
  apply sum_upto_ext. intros q Hq. rewrite La, Nat.sub_0_r. cbn [Nat.leb andb].
  destruct (Nat.ltb_spec q t) as [Hqt|]; auto.
  assert (nth (t - 1 - q) acts [] = map post (calc_act (delay_wgts w d maxd) n maxd (spikes bits (nth (t - 1 - q) ins [])))) as ->.
  { unfold acts. rewrite (nth_map_in _ _ _ _ _ []) by (rewrite firstn_length_le; lia). do 2 f_equal.
    rewrite <- (firstn_skipn t ins) at 2. rewrite app_nth1; auto. rewrite firstn_length_le; lia. }
  assert (In (nth (t - 1 - q) ins []) ins) as Hin2 by (apply nth_In; lia).
  rewrite (nth_map_in _ _ _ _ _ 0) by (rewrite calc_act_length; nia).
  rewrite (calc_act_group w d n m); auto; try lia.
  - f_equal. unfold group. apply sum_upto_ext. intros j Hj. rewrite spikes_nth. auto.
  - rewrite spikes_length. auto.
Qed.

Lemma group_exchange w d m maxd (msg : nat -> nat -> Z) t i :
  sum_upto (maxd + 1) (fun q => if (q <? t)%nat then group w d m (msg (t - 1 - q)%nat) i q else 0)
  = sum_upto m (fun j => if ((delay d i j <? t) && (delay d i j <=? maxd))%nat
                         then weight w i j * msg (t - 1 - delay d i j)%nat j else 0).
Proof.
  rewrite (sum_upto_ext _ _ (fun q => sum_upto m (fun j => if (q <? t)%nat then if Nat.eqb (delay d i j) q then weight w i j * msg (t - 1 - q)%nat j else 0 else 0))).
  2:{ intros q _. destruct (Nat.ltb q t); auto. symmetry. apply sum_upto_0. auto. }
  rewrite sum_upto_swap. apply sum_upto_ext. intros j Hj.
  destruct (Nat.leb_spec (delay d i j) maxd) as [Hd|Hd].
  - rewrite (sum_upto_point _ _ (fun _ => 0) (delay d i j)
        (if ((delay d i j <? t) && true)%nat then weight w i j * msg (t - 1 - delay d i j)%nat j else 0)); auto.
    + rewrite sum_upto_0; auto.
    + lia.
    + intros q _ Hq. destruct (Nat.eqb_spec (delay d i j) q); [congruence|]. destruct (q <? t)%nat; auto.
    + rewrite Nat.eqb_refl, andb_true_r. auto.
  - rewrite andb_false_r. apply sum_upto_0. intros q Hq.
    destruct (Nat.eqb_spec (delay d i j) q); [lia|]. destruct (q <? t)%nat; auto.
Qed.

Definition delays_within (maxd : nat) (d : list (list nat)) : Prop :=
  forall row x, In row d -> In x row -> (x <= maxd)%nat.
Lemma delays_within_delay maxd d n m i j : delays_within maxd d -> shape d n m -> (i < n)%nat -> (j < m)%nat ->
  (delay d i j <= maxd)%nat.
Proof.
  intros H Hs Hi Hj. apply (H (nth i d [])).
  - apply nth_In. destruct Hs; lia.
  - apply nth_In. rewrite (nth_row_length _ _ n m); auto.
Qed.
Lemma nat_max_In l x : In x l -> (x <= nat_max l)%nat.
Proof. induction l; simpl; [tauto|]. intros [->|H]; [lia|]. specialize (IHl H). lia. Qed.
Lemma buffer_delay_default d : delays_within (buffer_delay 0 d) d.
Proof. intros row x Hr Hx. unfold buffer_delay. simpl. apply nat_max_In. apply in_concat. eauto. Qed.

(** float DelayDense / DelaySparse: synapse ij delivers exactly its delay later, nothing is lost *)
Theorem delay_dense_delivers_partial bits w d n m maxd ins t :
  shape w n m -> shape d n m -> inputs_ok m ins -> delays_within maxd d -> (t < length ins)%nat ->
  nth t (outputs (delay_step (fun x => x) (fun x => x) bits (delay_wgts w d maxd) n maxd) (init_buf n maxd) ins) []
  = map (delayed_sum (0 <? bits) w d m ins t) (seq 0 n).
Proof.
  intros Hw Hd Hi Hm Ht. rewrite (delay_step_outputs (fun x => x) (fun x => x) bits w d n m) by auto.
  apply map_ext_in. intros i Hin. apply in_seq in Hin. cbn beta.
  rewrite (group_exchange w d m maxd (fun u j => message (0 <? bits) (input ins u j)) t i).
  apply sum_upto_ext. intros j Hj.
  pose proof (delays_within_delay _ _ _ _ i j Hm Hd ltac:(lia) Hj).
  destruct (Nat.leb_spec (delay d i j) maxd); [|lia]. rewrite andb_true_r. auto.
Qed.
(** in particular with the default max_delay *)
Theorem delay_dense_default bits w d n m ins t :
  shape w n m -> shape d n m -> inputs_ok m ins -> (t < length ins)%nat ->
  nth t (outputs (delay_step (fun x => x) (fun x => x) bits (delay_wgts w d (buffer_delay 0 d)) n (buffer_delay 0 d))
                 (init_buf n (buffer_delay 0 d)) ins) []
  = map (delayed_sum (0 <? bits) w d m ins t) (seq 0 n).
Proof. intros. apply delay_dense_delivers_partial; auto. apply buffer_delay_default. Qed.

(** fixed point with a non-negative exponent: the same, scaled, modulo the int32 accumulator *)
Lemma w32_absorb x y : w32 (w32 x + y) = w32 (x + y).
Proof.
  unfold w32, wrap. f_equal.
  replace ((x + 2 ^ (32 - 1)) mod 2 ^ 32 - 2 ^ (32 - 1) + y + 2 ^ (32 - 1)) with ((x + 2 ^ (32 - 1)) mod 2 ^ 32 + y) by lia.
  rewrite Z.add_mod_idemp_l by lia. f_equal. lia.
Qed.
Theorem delay_bitacc_delivers_partial bits e w d n m maxd ins t :
  0 <= e -> shape w n m -> shape d n m -> inputs_ok m ins -> delays_within maxd d -> (t < length ins)%nat ->
  nth t (outputs (delay_step w32 (np_shift e) bits (delay_wgts w d maxd) n maxd) (init_buf n maxd) ins) []
  = map (fun i => w32 (delayed_sum (0 <? bits) w d m ins t i * 2 ^ e)) (seq 0 n).
Proof.
  intros He Hw Hd Hi Hm Ht. rewrite (delay_step_outputs w32 (np_shift e) bits w d n m); auto.
  2:{ apply w32_absorb. }
  apply map_ext_in. intros i Hin. apply in_seq in Hin. f_equal.
  rewrite (sum_upto_ext _ _ (fun q => 2 ^ e * (if (q <? t)%nat then group w d m (fun j => message (0 <? bits) (input ins (t - 1 - q) j)) i q else 0))).
  2:{ intros. destruct (j <? t)%nat; [rewrite np_shift_scale by auto|]; lia. }
  rewrite sum_upto_mul.
  rewrite (group_exchange w d m maxd (fun u j => message (0 <? bits) (input ins u j)) t i).
  rewrite Z.mul_comm. f_equal. apply sum_upto_ext. intros j Hj.
  pose proof (delays_within_delay _ _ _ _ i j Hm Hd ltac:(lia) Hj).
  destruct (Nat.leb_spec (delay d i j) maxd); [|lia]. rewrite andb_true_r. auto.
Qed.
(** fixed point with a negative exponent: every delay group is rounded on its own *)
Theorem delay_bitacc_negative_exp bits e w d n m maxd ins t :
  e < 0 -> shape w n m -> shape d n m -> inputs_ok m ins -> (t < length ins)%nat ->
  nth t (outputs (delay_step w32 (np_shift e) bits (delay_wgts w d maxd) n maxd) (init_buf n maxd) ins) []
  = map (fun i => w32 (sum_upto (maxd + 1) (fun q => if (q <? t)%nat then
       sum_upto m (fun j => if Nat.eqb (delay d i j) q
                            then weight w i j * message (0 <? bits) (input ins (t - 1 - q) j) else 0) / 2 ^ (- e)
       else 0))) (seq 0 n).
Proof.
  intros He Hw Hd Hi Ht. rewrite (delay_step_outputs w32 (np_shift e) bits w d n m); auto.
  2:{ apply w32_absorb. }
  apply map_ext_in. intros i Hin. f_equal. apply sum_upto_ext. intros q Hq.
  destruct (q <? t)%nat; auto. rewrite np_shift_floor by auto. auto.
Qed.

(** The constructor takes any max_delay the user gives: synapses with a larger delay never deliver. *)
Theorem delay_dense_small_max_delay_refuted :
  ~ (forall user_max bits w d n m ins t,
       shape w n m -> shape d n m -> inputs_ok m ins -> (t < length ins)%nat ->
       nth t (outputs (delay_step (fun x => x) (fun x => x) bits (delay_wgts w d (buffer_delay user_max d)) n (buffer_delay user_max d))
                      (init_buf n (buffer_delay user_max d)) ins) []
       = map (delayed_sum (0 <? bits) w d m ins t) (seq 0 n)).
Proof.
  intros H. specialize (H 1%nat 0 [[5]] [[2%nat]] 1%nat 1%nat [[1];[0];[0];[0]] 3%nat).
  assert (shape [[5]] 1 1) as A by (split; auto; intros row [<-|[]]; auto).
  assert (shape [[2%nat]] 1 1) as B by (split; auto; intros row [<-|[]]; auto).
  specialize (H A B). vm_compute in H.
  assert ([0] = [5]); [|congruence]. apply H; [|lia].
  intros s Hs. repeat (destruct Hs as [<-|Hs]; auto). destruct Hs.
Qed.

(** DelaySparse builds the same matrix as DelayDense *)
Theorem delay_sparse_eq_dense w d n m maxd : shape w n m -> shape d n m -> delays_within maxd d ->
  delay_wgts_sparse w d maxd = delay_wgts w d maxd.
Proof.
  intros Hw Hd Hm. unfold delay_wgts_sparse, delay_wgts.
  assert (forall f g : Z -> nat -> Z, (forall x row y, In row d -> In y row -> f x y = g x y) ->
            map2 (map2 f) w d = map2 (map2 g) w d) as Hext.
  { intros f g Hfg. unfold map2. apply map_ext_in. intros [a b] Hab. simpl. apply map_ext_in.
    intros [x y] Hxy. simpl. apply Hfg with b. apply in_combine_r in Hab; auto. apply in_combine_r in Hxy; auto. }
  destruct (Nat.eqb_spec maxd 0) as [->|Hz].
  - cbn [seq Nat.add flat_map]. rewrite app_nil_r. unfold delay_rows.
    rewrite (Hext _ (fun x _ => x)).
    2:{ intros. specialize (Hm _ _ H H0). destruct (Nat.eqb_spec y 0); auto. lia. }
    destruct Hw as [Lw Rw], Hd as [Ld Rd]. clear Hext Hm.
    assert (length d = length w) as HL by lia. clear n Lw Ld.
    revert d Rd HL. induction w as [|r w IH]; intros [|e d] Rd HL; simpl in HL; try lia; auto.
    unfold map2 in *. simpl. rewrite <- IH; simpl in *; auto. f_equal.
    assert (length r = length e) as He by (rewrite Rw, Rd; auto).
    clear - He. revert e He. induction r; intros [|y e] He; simpl in *; try lia; auto.
    f_equal. apply IHr. lia.
  - rewrite Nat.add_1_r. cbn [seq flat_map]. f_equal. unfold delay_rows_zero, delay_rows. apply Hext.
    intros x row y _ _. destruct (Nat.eqb_spec y 0); auto.
Qed.

(** ** ConvInTime *)
Lemma after_conv_time bits w n buf ins :
  after (conv_time_step bits w n) buf ins =
  reg_after (fun x => x) (length w) buf (map (fun s => conv_time_act w n (spikes bits s)) ins).
Proof.
  revert buf. induction ins; intros buf; auto. unfold after, reg_after in *. simpl. rewrite IHins. auto.
Qed.
Theorem conv_in_time_delivers bits w n m ins t :
  w <> [] -> (forall k, In k w -> shape k n m) -> inputs_ok m ins -> (t < length ins)%nat ->
  nth t (outputs (conv_time_step bits w n) (repeat 0 (n * length w)) ins) []
  = map (time_convolution (0 <? bits) w m ins t) (seq 0 n).
Proof.
  intros Hne Hw Hi Ht. rewrite outputs_nth by auto. cbn [fst conv_time_step]. rewrite after_conv_time.
  unfold col0. apply map_ext_in. intros i Hin. apply in_seq in Hin.
  set (acts := map _ (firstn t ins)).
  assert (length acts = t) as La by (unfold acts; rewrite map_length, firstn_length_le; lia).
  assert (0 < length w)%nat as Hk by (destruct w; simpl; [congruence|lia]).
  assert (forall s, length (conv_time_act w n s) = (n * length w)%nat) as Hlen.
  { intros. unfold conv_time_act. apply flat_const_length. intros. rewrite map_length, seq_length. auto. }
  destruct (reg_after_spec (fun x => x) (length w) n acts ltac:(auto) ltac:(auto) Hk) as [_ H].
  { intros a Ha. unfold acts in Ha. apply in_map_iff in Ha. destruct Ha as (s & <- & _). auto. }
  specialize (H i 0%nat ltac:(lia) ltac:(lia)). rewrite Nat.add_0_r in H. rewrite H.
  apply sum_upto_ext. intros q Hq. rewrite La, Nat.sub_0_r. cbn [Nat.leb andb].
  destruct (Nat.ltb_spec q t) as [Hqt|]; auto.
  assert (nth (t - 1 - q) acts [] = conv_time_act w n (spikes bits (nth (t - 1 - q) ins []))) as ->.
  { unfold acts. rewrite (nth_map_in _ _ _ _ _ []) by (rewrite firstn_length_le; lia). do 2 f_equal.
    rewrite <- (firstn_skipn t ins) at 2. rewrite app_nth1; auto. rewrite firstn_length_le; lia. }
  unfold conv_time_act. rewrite nth_flat_const by (auto; try lia; intros; rewrite map_length, seq_length; auto).
  rewrite nth_map_seq by lia.
  assert (In (nth (t - 1 - q) ins []) ins) as Hin2 by (apply nth_In; lia).
  rewrite (mat_dot_nth _ _ n m); auto; try lia.
  - unfold weighted_sum. replace (length w - q - 1)%nat with (length w - 1 - q)%nat by lia.
    apply sum_upto_ext. intros j Hj. rewrite spikes_nth. auto.
  - apply Hw. apply nth_In. lia.
  - rewrite spikes_length. auto.
Qed.

(** ** Non-trivial instances *)
Definition ex_w := [[1; 2]; [3; 4]].
Definition ex_d := [[0; 2]; [1; 0]]%nat.
Definition ex_in := [[1; 1]; [0; 5]; [0; 0]; [0; 0]; [0; 0]].
Example ex_shapes : shape ex_w 2 2 /\ shape ex_d 2 2 /\ inputs_ok 2 ex_in /\ delays_within 2 ex_d.
Proof.
  unfold shape, inputs_ok, delays_within, ex_w, ex_d, ex_in. simpl.
  repeat split; auto; intros; repeat match goal with H : _ \/ _ |- _ => destruct H end; subst; simpl in *; auto; try tauto;
  repeat match goal with H : _ \/ _ |- _ => destruct H end; subst; try tauto; lia.
Qed.
Example ex_delay_outputs :
  outputs (delay_step (fun x => x) (fun x => x) 5 (delay_wgts ex_w ex_d 2) 2 2) (init_buf 2 2) ex_in
  = [[0; 0]; [1; 4]; [0; 23]; [2; 0]; [10; 0]].
Proof. reflexivity. Qed.
Example ex_dense_outputs :
  outputs (dense_step 0 ex_w) [0; 0] ex_in = [[0; 0]; [3; 7]; [2; 4]; [0; 0]; [0; 0]].
Proof. reflexivity. Qed.
Example ex_conv_time :
  outputs (conv_time_step 5 [[[1; 1]]; [[10; 20]]; [[100; 200]]] 1) (repeat 0 3) ex_in
  = [[0]; [300]; [1030]; [102]; [5]].
Proof. reflexivity. Qed.

(** ** C60: the weights used by a fixed-point connection *)
Inductive event := Step (s : list Z) | SetWeights (w : list (list Z)).
Definition exec1 (p : params) (st : bitacc) (e : event) : bitacc :=
  match e with Step s => snd (bitacc_step p st s) | SetWeights w => bitacc_set w st end.
Definition exec (p : params) (st : bitacc) (evs : list event) : bitacc := fold_left (exec1 p) evs st.
Definition fresh (w : list (list Z)) (buf : list Z) : bitacc := {| weights := w; weights_set := false; a_buff := buf |}.
Definition is_step (e : event) : Prop := match e with Step _ => True | _ => False end.

Definition all_weights (P : Z -> Prop) (w : list (list Z)) : Prop := forall row x, In row w -> In x row -> P x.
(** what the process promises about the weights of a step: they fit the 8 bits of their sign mode and are
    multiples of the precision step *)
Definition good_weight (m : sign_mode) (num_bits : Z) (x : Z) : Prop :=
  in_mode m 8 x /\ (2 ^ (8 - num_bits + is_mixed m) | x).

Lemma prepare_good p w : 0 <= 8 - num_weight_bits p <= 7 ->
  all_weights (good_weight (match sign p with Some m => m | None => determine_sign_mode (concat w) end) (num_weight_bits p))
              (prepare_weights p w).
Proof.
  intros Hb row x Hr Hx. unfold prepare_weights in Hr. apply in_map_iff in Hr. destruct Hr as (r & <- & _).
  apply in_map_iff in Hx. destruct Hx as (y & <- & _).
  set (m := match sign p with Some m => m | None => _ end).
  assert (0 <= is_mixed m <= 1) by (destruct m; simpl; lia).
  split.
  - apply truncate_keeps_range; try lia. apply clip_weights_range. lia.
  - apply (truncate_weights_precision m (num_weight_bits p) 8). lia.
Qed.
Lemma exec_steps p st evs : weights_set st = true -> Forall is_step evs -> weights (exec p st evs) = weights st /\ weights_set (exec p st evs) = true.
Proof.
  revert st. induction evs as [|e evs IH]; intros st Hs He; [auto|]. inversion_clear He.
  destruct e as [s|w]; [|destruct H]. change (exec p st (Step s :: evs)) with (exec p (snd (bitacc_step p st s)) evs).
  destruct (IH (snd (bitacc_step p st s))) as [A B]; auto.
  rewrite A, B. simpl. rewrite Hs. auto.
Qed.
(** Weights given at construction or set before the first step of a run are prepared, and stay so as long
    as the user does not set them again. *)
Theorem bitacc_weights_prepared_partial p w sets s evs buf :
  0 <= 8 - num_weight_bits p <= 7 -> Forall is_step evs ->
  let w0 := last sets w in
  let st := exec p (fresh w buf) (map SetWeights sets ++ Step s :: evs) in
  weights st = prepare_weights p w0 /\
  all_weights (good_weight (match sign p with Some m => m | None => determine_sign_mode (concat w0) end) (num_weight_bits p))
              (weights st).
Proof.
  intros Hb He w0 st.
  assert (weights st = prepare_weights p w0) as E.
  { unfold st, exec. rewrite fold_left_app. cbn [fold_left exec1].
    assert (forall sets w, fold_left (exec1 p) (map SetWeights sets) (fresh w buf) = fresh (last sets w) buf) as F.
    { clear. induction sets as [|a sets IH]; intros w; auto. cbn [map fold_left exec1].
      change (bitacc_set a (fresh w buf)) with (fresh a buf). rewrite IH. f_equal.
      clear IH. revert a w. induction sets as [|b sets IH]; intros a w; auto.
      change (last (a :: b :: sets) w) with (last (b :: sets) w). rewrite <- (IH b w), <- (IH b a). auto. }
    rewrite F. fold w0.
    destruct (exec_steps p (snd (bitacc_step p (fresh w0 buf) s)) evs) as [A _]; auto. }
  split; auto. rewrite E. apply prepare_good. auto.
Qed.
(** Weights set after the first step are used as they are. *)
Theorem bitacc_weights_set_later_refuted :
  ~ (forall p w evs s buf, 0 <= 8 - num_weight_bits p <= 7 ->
       exists m, all_weights (good_weight m (num_weight_bits p)) (weights (exec p (fresh w buf) (evs ++ [Step s])))).
Proof.
  intros H.
  destruct (H {| num_weight_bits := 8; weight_exp := 0; sign := Some Excitatory; message_bits := 0; acc_bits := 32 |}
              [[10]] [Step [1]; SetWeights [[1000]]] [1] [0] ltac:(simpl; lia)) as [m Hm].
  specialize (Hm [1000] 1000 (or_introl eq_refl) (or_introl eq_refl)). destruct Hm as [Hm _].
  assert (2 ^ 8 = 256) as E by reflexivity. destruct m; unfold in_mode in Hm; rewrite E in Hm; lia.
Qed.
Example weights_demo : weights (exec {| num_weight_bits := 6; weight_exp := 0; sign := None; message_bits := 0; acc_bits := 32 |}
   (fresh [[300; -7]; [9; 0]] [0; 0]) [Step [1; 0]; Step [0; 1]]) = [[248; -8]; [8; 0]].
Proof. reflexivity. Qed.

Print Assumptions dense_sends_weighted_sum.
Print Assumptions bitacc_sends_shifted_sum_partial.
Print Assumptions bitacc_int32_accumulator_refuted.
Print Assumptions delay_dense_delivers_partial.
Print Assumptions delay_bitacc_delivers_partial.
Print Assumptions delay_bitacc_negative_exp.
Print Assumptions delay_dense_small_max_delay_refuted.
Print Assumptions delay_sparse_eq_dense.
Print Assumptions conv_in_time_delivers.
Print Assumptions bitacc_weights_prepared_partial.
Print Assumptions bitacc_weights_set_later_refuted.
