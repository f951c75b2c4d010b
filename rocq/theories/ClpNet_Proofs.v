(** Lemmas about the parts of the CLP network: arrays, connections of ones, voltages, the value that is learned. *)
From Coq Require Import ZArith QArith List Bool Arith Lia.
From Verif Require Import NpInt Bits_Model Bits_Props Learning_Model Learning_Props Factor3_Model Factor3_Props ClpNet_Spec ClpNet_Model.
From Verif Require Lif_Model Conn_Model Clp_Model.
Import ListNotations.
Open Scope Z_scope.

(** ** Arrays *)
Lemma nth_vals {A} n (f : nat -> A) k d : (k < n)%nat -> nth k (vals n f) d = f k.
Proof.
  intros H. unfold vals. rewrite (nth_indep _ d (f 0%nat)) by (rewrite map_length, seq_length; auto).
  rewrite (map_nth f (seq 0 n) 0%nat k). rewrite seq_nth by auto. reflexivity.
Qed.
Lemma vec_in n f k : (k < n)%nat -> vec n f k = f k. Proof. apply nth_vals. Qed.
Lemma vecb_in n f k : (k < n)%nat -> vecb n f k = f k. Proof. apply nth_vals. Qed.
Lemma mat_in n m f i j : (i < n)%nat -> (j < m)%nat -> mat n m f i j = f i j.
Proof. intros. unfold mat. rewrite (nth_vals n _ i []) by auto. apply nth_vals; auto. Qed.
Lemma vals_ext {A} n (f g : nat -> A) : (forall k, (k < n)%nat -> f k = g k) -> vals n f = vals n g.
Proof. intros H. apply map_ext_in. intros k Hk. apply in_seq in Hk. apply H. lia. Qed.
Lemma vals_S {A} n (f : nat -> A) : vals (S n) f = vals n f ++ [f n].
Proof. unfold vals. rewrite seq_S, map_app. reflexivity. Qed.
Lemma zsum_app l m : Conn_Model.zsum (l ++ m) = Conn_Model.zsum l + Conn_Model.zsum m.
Proof. unfold Conn_Model.zsum. induction l as [|x l IH]; cbn [app fold_right]; [lia|]. rewrite IH. lia. Qed.
Lemma dot_overlap nf w p : dot nf w p = overlap nf w p.
Proof.
  unfold dot. induction nf as [|n IH]; [reflexivity|]. rewrite vals_S, zsum_app, IH. cbn [overlap Conn_Model.zsum fold_right]. lia.
Qed.
Lemma overlap_ext nf w w' p p' : (forall k, (k < nf)%nat -> w k = w' k /\ p k = p' k) -> overlap nf w p = overlap nf w' p'.
Proof.
  induction nf as [|n IH]; intros H; [reflexivity|]. cbn [overlap]. destruct (H n ltac:(lia)) as [-> ->].
  rewrite IH; [reflexivity|]. intros k Hk. apply H. lia.
Qed.
Lemma overlap_zero nf w p : (forall k, (k < nf)%nat -> w k * p k = 0) -> overlap nf w p = 0.
Proof. induction nf as [|n IH]; intros H; [reflexivity|]. cbn [overlap]. rewrite IH, H by (intros; auto with arith; apply H; lia). lia. Qed.
Lemma overlap_mono nf w w' p : (forall k, (k < nf)%nat -> w k * p k <= w' k * p k) -> overlap nf w p <= overlap nf w' p.
Proof. induction nf as [|n IH]; intros H; [cbn [overlap]; lia|]. cbn [overlap]. pose proof (H n ltac:(lia)). pose proof (IH ltac:(intros; apply H; lia)). lia. Qed.

(** ** Connections of ones *)
Lemma np_min_nonneg l : Forall (fun x => 0 <= x) l -> 0 <= np_min l.
Proof.
  destruct l as [|x l]; [cbn; lia|]. intros H. inversion H as [|? ? Hx Hl]; subst. cbn [np_min].
  clear H. revert x Hx. induction l as [|y l IH]; intros x Hx; cbn [lmin]; [auto|]. inversion Hl; subst. apply IH; [auto|lia].
Qed.
Lemma prepare_one p : Conn_Model.num_weight_bits p = 8 -> forall m, m = Excitatory -> truncate m (Conn_Model.num_weight_bits p) 8 (clip_weight m 8 false 1) = 1.
Proof. intros -> m ->. reflexivity. Qed.
Lemma prepare_ones p w : Conn_Model.num_weight_bits p = 8 -> Conn_Model.sign p = None -> Forall (Forall (fun x => x = 1)) w ->
  Conn_Model.prepare_weights p w = w.
Proof.
  intros Hb Hs Hw. unfold Conn_Model.prepare_weights. rewrite Hs.
  assert (determine_sign_mode (concat w) = Excitatory) as ->.
  { unfold determine_sign_mode. replace (0 <=? np_min (concat w)) with true; [reflexivity|]. symmetry. apply Z.leb_le, np_min_nonneg.
    apply Forall_concat. eapply Forall_impl; [|exact Hw]. intros l Hl. eapply Forall_impl; [|exact Hl]. cbn. intros; lia. }
  rewrite <- (map_id w) at 2. apply map_ext_in. intros l Hl. rewrite <- (map_id l) at 2. apply map_ext_in. intros x Hx.
  rewrite Forall_forall in Hw. specialize (Hw l Hl). rewrite Forall_forall in Hw. rewrite (Hw x Hx). apply prepare_one; auto.
Qed.
Lemma ones_row_ok n : Forall (Forall (fun x => x = 1)) (ones_row n).
Proof. constructor; [|constructor]. apply Forall_forall. intros x Hx. apply repeat_spec in Hx. auto. Qed.
Lemma ones_col_ok n : Forall (Forall (fun x => x = 1)) (ones_col n).
Proof. apply Forall_forall. intros l Hl. apply repeat_spec in Hl. subst. repeat constructor. Qed.
Definition first_buf (d : Conn_Model.bitacc) : Z := hd 0 (Conn_Model.a_buff d).
Lemma sends_first p d : hd 0 (dense_sends p d) = w32 (first_buf d).
Proof. unfold dense_sends, first_buf. cbn [Conn_Model.bitacc_step fst]. destruct (Conn_Model.a_buff d); reflexivity. Qed.
Lemma receives_weights p d s w : Conn_Model.weights d = w -> Conn_Model.num_weight_bits p = 8 -> Conn_Model.sign p = None -> Forall (Forall (fun x => x = 1)) w ->
  Conn_Model.weights (dense_receives p d s) = w.
Proof.
  intros Hd Hb Hs Hw. unfold dense_receives. cbn [Conn_Model.bitacc_step snd Conn_Model.weights]. rewrite Hd.
  destruct (Conn_Model.weights_set d); [reflexivity|]. apply prepare_ones; auto.
Qed.
(** how many items are not zero *)
Fixpoint count (l : list Z) : Z := match l with [] => 0 | x :: r => (if x =? 0 then 0 else 1) + count r end.
Lemma count_bounds l : 0 <= count l <= Z.of_nat (length l).
Proof. induction l as [|x l IH]; cbn [count length]; [lia|]. destruct (x =? 0); lia. Qed.
Lemma count_zero l : count l = 0 <-> Forall (fun x => x = 0) l.
Proof.
  induction l as [|x l IH]; cbn [count]; [split; [constructor|auto]|]. pose proof (count_bounds l). destruct (x =? 0) eqn:E.
  - apply Z.eqb_eq in E. split; [intros H0; constructor; [auto|apply IH; lia]|]. intros H0. inversion H0; subst. apply IH in H4. lia.
  - apply Z.eqb_neq in E. split; [lia|]. intros H0. inversion H0; subst. lia.
Qed.
Lemma aval_receives n d l : Conn_Model.weights d = ones_row n -> length l = n -> first_buf (dense_receives aval_dense d l) = count l.
Proof.
  intros Hd Hl. unfold first_buf, dense_receives. cbn [Conn_Model.bitacc_step snd Conn_Model.a_buff]. rewrite Hd.
  assert ((if Conn_Model.weights_set d then ones_row n else Conn_Model.prepare_weights aval_dense (ones_row n)) = ones_row n) as ->.
  { destruct (Conn_Model.weights_set d); [reflexivity|]. apply prepare_ones; [reflexivity|reflexivity|apply ones_row_ok]. }
  unfold Conn_Model.accumulate, Conn_Model.np_shift, Conn_Model.in_acc. cbn [Conn_Model.message_bits Conn_Model.weight_exp aval_dense]. unfold ones_row, Conn_Model.mat_cols. cbn [map hd].
  change (0 <? 0) with false. cbn iota. cbn [map hd]. rewrite Z.opp_0, Z.shiftr_0_r. clear Hd. revert n Hl.
  induction l as [|x l IH]; intros n Hl.
  - destruct n; [|discriminate Hl]. reflexivity.
  - destruct n as [|n]; [discriminate Hl|]. injection Hl as Hl. cbn [repeat combine filter snd count]. destruct (x =? 0) eqn:E; cbn [negb].
    + rewrite IH by auto. lia.
    + cbn [map fst Conn_Model.zsum fold_right]. f_equal. apply IH. auto.
Qed.
Lemma third_receives n d x : (0 < n)%nat -> Conn_Model.weights d = ones_col n -> first_buf (dense_receives third_dense d [x]) = wrap 32 x.
Proof.
  intros Hn Hd. unfold first_buf, dense_receives. cbn [Conn_Model.bitacc_step snd Conn_Model.a_buff]. rewrite Hd.
  assert ((if Conn_Model.weights_set d then ones_col n else Conn_Model.prepare_weights third_dense (ones_col n)) = ones_col n) as ->.
  { destruct (Conn_Model.weights_set d); [reflexivity|]. apply prepare_ones; [reflexivity|reflexivity|apply ones_col_ok]. }
  unfold Conn_Model.accumulate, Conn_Model.np_shift, Conn_Model.in_acc. cbn [Conn_Model.message_bits Conn_Model.weight_exp Conn_Model.acc_bits third_dense].
  destruct n as [|n]; [lia|]. unfold ones_col. cbn [repeat]. change (0 <? 8) with true. change (0 <? 0) with false. cbn iota.
  unfold Conn_Model.mat_dot. cbn [map hd]. rewrite Z.opp_0, Z.shiftr_0_r. f_equal. cbn [Conn_Model.map2 combine map fst snd Conn_Model.zsum fold_right]. lia.
Qed.

(** ** The membrane of a prototype *)
(** the current depends on the activation of the step only *)
Definition drive (a : Z) : Z := Lif_Model.current clp_lif 0 a.
Lemma current_drive u a : Lif_Model.current clp_lif u a = drive a.
Proof.
  unfold drive, Lif_Model.current, Lif_Model.decayed. cbn [clp_lif Lif_Model.du]. replace (u * (4096 - (4095 + 1))) with 0 by lia. reflexivity.
Qed.
Lemma drive_0 : drive 0 = 0. Proof. reflexivity. Qed.
Lemma drive_exact a : Z.abs a < 131072 -> drive a = 64 * a.
Proof.
  intros H. unfold drive, Lif_Model.current, Lif_Model.decayed, Lif_Model.aligned. cbn [clp_lif Lif_Model.du Lif_Model.adt].
  change (w32 (sgn_shift (0 * (4096 - (4095 + 1))) 12)) with 0. change (wrap 32 (a * 64)) with (w32 (a * 64)).
  rewrite (w32_id (a * 64)) by lia. rewrite Z.add_0_l, (w32_id (a * 64)) by lia. unfold Lif_Model.max_uv.
  replace (8388608 <? a * 64) with false by (symmetry; apply Z.ltb_ge; lia).
  replace (a * 64 <=? - (8388608)) with false by (symmetry; apply Z.leb_gt; lia). lia.
Qed.
Definition membrane (y x : Z) : Z := Lif_Model.voltage clp_lif y x.
Lemma membrane_range y x : -8388607 <= membrane y x <= 8388607.
Proof. unfold membrane, Lif_Model.voltage. apply clip_range. unfold Lif_Model.max_uv. lia. Qed.
Lemma membrane_rest x : -8388607 <= x <= 8388607 -> membrane 0 x = x.
Proof.
  intros H. unfold membrane, Lif_Model.voltage. change (Lif_Model.decayed 0 (Lif_Model.dv clp_lif)) with 0. change (Lif_Model.effective_bias clp_lif) with 0.
  rewrite w32_id by lia. unfold Lif_Model.max_uv. rewrite clip_id; lia.
Qed.
Lemma membrane_decay y : -8388607 <= y <= 8388607 -> membrane y 0 = Z.quot y 4096.
Proof.
  intros H. unfold membrane, Lif_Model.voltage, Lif_Model.decayed. change (Lif_Model.effective_bias clp_lif) with 0. cbn [clp_lif Lif_Model.dv].
  replace (y * (4096 - 4095)) with y by lia. rewrite sgn_shift_quot by lia. change (2 ^ 12) with 4096.
  assert (-2047 <= Z.quot y 4096 <= 2047) as B.
  { assert (Z.abs (Z.quot y 4096) <= 2047); [|lia]. rewrite <- Z.quot_abs by lia. change (Z.abs 4096) with 4096. rewrite Z.quot_div_nonneg by lia.
    assert (Z.abs y / 4096 < 2048) by (apply Z.div_lt_upper_bound; lia). lia. }
  rewrite (w32_id (Z.quot y 4096)) by lia. rewrite !Z.add_0_r. rewrite w32_id by lia. unfold Lif_Model.max_uv. rewrite clip_id; lia.
Qed.
(** how far the membrane is from rest *)
Definition level (l : nat) (v : Z) : Prop := match l with O => v = 0 | S O => Z.abs v <= 2047 | _ => Z.abs v <= 8388607 end.
Lemma level_le l l' v : (l <= l')%nat -> level l v -> level l' v.
Proof. destruct l as [|[|l]], l' as [|[|l']]; cbn [level]; lia. Qed.
Lemma level_decay l v th : 0 <= th -> level l v -> v <= th -> level (pred l) (membrane v 0) /\ membrane v 0 <= th.
Proof.
  intros Ht Hl Hv. assert (-8388607 <= v <= 8388607) as B by (destruct l as [|[|l]]; cbn [level] in Hl; lia).
  rewrite membrane_decay by auto. 
  assert (Z.abs (Z.quot v 4096) = Z.abs v / 4096) as E.
  { rewrite <- Z.quot_abs by lia. change (Z.abs 4096) with 4096. apply Z.quot_div_nonneg; lia. }
  split.
  - destruct l as [|[|l]]; cbn [level pred] in *.
    + subst v. reflexivity.
    + assert (Z.abs v / 4096 = 0) by (apply Z.div_small; lia). lia.
    + assert (Z.abs v / 4096 < 2048) by (apply Z.div_lt_upper_bound; lia).
      destruct l; cbn [level]; lia.
  - assert (Z.abs v / 4096 <= Z.abs v) by (apply Z.div_le_upper_bound; lia).
    destruct (Z.le_gt_cases 0 v) as [P|N]; [pose proof (Z.quot_pos v 4096 P ltac:(lia)); lia|].
    assert (Z.quot v 4096 <= 0); [|lia]. assert (0 <= Z.quot (- v) 4096) by (apply Z.quot_pos; lia). rewrite Z.quot_opp_l in H0 by lia. lia.
Qed.

(** ** The learned value *)
Lemma product_of a y x : a_y0 a = 1 -> a_trace a TY1 DY0 = y -> a_trace a TX1 DY0 = x -> 0 <= x <= 127 -> 0 <= y <= 127 ->
  product_value a clp_product = 16 * (y * x / 8).
Proof.
  intros H0 Hy Hx Bx By. unfold product_value, mac. cbn [clp_product p_dep p_mant p_exp p_factors fold_left f_var].
  cbn [dep_value]. rewrite H0. unfold compute_factor. cbn [f_var f_const]. rewrite Hy, Hx, !Z.add_0_r. unfold clip_factor. cbn [factor_width].
  change (2 ^ 7) with 128. rewrite !clip_id by lia. rewrite (w32_id y), (w32_id x) by lia. change (w32 (1 * 1)) with 1. rewrite Z.mul_1_l, (w32_id y) by lia.
  assert (0 <= y * x <= 16129) as B by nia. rewrite (w32_id (y * x)) by lia. rewrite Z.mul_1_r, (w32_id (y * x)) by lia.
  change (Z.max 0 (width_sum clp_product - 15)) with 3. rewrite Z.shiftr_div_pow2 by lia. change (2 ^ 3) with 8.
  assert (0 <= y * x / 8 <= 2016) as B2 by (split; [apply Z.div_pos; lia|assert (y * x / 8 < 2017) by (apply Z.div_lt_upper_bound; lia); lia]).
  unfold np_shl. change ((0 <=? 4) && (4 <? 32)) with true. cbn iota. rewrite Z.shiftl_mul_pow2 by lia. change (2 ^ 4) with 16.
  rewrite w32_id by lia. unfold clip_acc. rewrite clip_id by lia. lia.
Qed.
Lemma learned_weight m r a y x : m <> Inhibitory -> (0 <= r)%Q -> a_y0 a = 1 -> a_trace a TY1 DY0 = y -> a_trace a TX1 DY0 = x -> 0 <= x <= 127 -> 126 <= y <= 127 ->
  let w := learn m r a [clp_product] SWeights 0 in 2 * x - 5 <= w <= 2 * x /\ 0 <= w.
Proof.
  intros Hm Hr H0 Hy Hx Bx By w. unfold w, learn. change (Z.shiftl 0 7) with 0. unfold apply_rule. cbn [fold_left].
  rewrite (product_of a y x) by (auto; lia). rewrite Z.add_0_l.
  set (V := 16 * (y * x / 8)). assert (2 * (y * x) - 14 <= V <= 2 * (y * x)) as BV.
  { unfold V. pose proof (Z.div_mod (y * x) 8 ltac:(lia)). pose proof (Z.mod_pos_bound (y * x) 8 ltac:(lia)). lia. }
  assert (0 <= V) by (unfold V; assert (0 <= y * x / 8) by (apply Z.div_pos; nia); lia).
  assert (V <= 254 * x /\ 252 * x - 14 <= V) as [BV1 BV2] by nia.
  unfold clip_acc. change (- 2 ^ 15 - 1) with (-32769). change (2 ^ 15 - 1) with 32767. rewrite clip_id by lia.
  assert (saturate_acc m SWeights V = V) as -> by (cbn [saturate_acc]; destruct m; [lia|lia|congruence]).
  unfold round_syn. set (b := qlt r _). set (q := V / 128).
  pose proof (Z.div_mod V 128 ltac:(lia)) as DM. pose proof (Z.mod_pos_bound V 128 ltac:(lia)) as MB. fold q in DM.
  assert (b = true -> 0 < V mod 128) as Hb.
  { unfold b. intros E. destruct (Z.eq_dec (V mod 128) 0) as [Z0|]; [|lia]. rewrite Z0 in E. exfalso.
    assert (qlt r (0 # 128) = false); [|congruence]. unfold qlt. apply negb_false_iff, Qle_bool_iff. unfold Qle in *. cbn in *. lia. }
  rewrite Z.shiftr_div_pow2 by lia. change (2 ^ 7) with 128. rewrite Z.div_mul by lia.
  assert (0 <= q) by (apply Z.div_pos; lia).
  assert (2 * x - 5 <= round_up b q <= 2 * x /\ 0 <= round_up b q) as (B1 & B2).
  { unfold round_up. destruct b; [specialize (Hb eq_refl)|clear Hb]; lia. }
  cbn [saturate]. unfold clip_weight. change (2 ^ 8) with 256. destruct m; cbn [is_mixed negate]; [| |congruence]; rewrite clip_id by lia; lia.
Qed.
