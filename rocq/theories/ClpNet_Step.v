(** One time step of the CLP network. *)
From Coq Require Import ZArith QArith List Bool Arith Lia.
From Verif Require Import NpInt Bits_Model Bits_Props Learning_Model Learning_Props Factor3_Model Factor3_Props ClpNet_Spec ClpNet_Model ClpNet_Proofs.
From Verif Require Lif_Model Conn_Model Clp_Model.
Import ListNotations.
Open Scope Z_scope.

(** parameters for which the results hold *)
Record sane (C : clp_cfg) : Prop := {
  some_protos : (0 < n_protos C)%nat;
  few_protos : Z.of_nat (n_protos C) < 2147483645;
  few_features : Z.of_nat (n_features C) < 2147483648;
  wait_pos : 0 <= t_wait C;
  vth_range : 0 <= vth C <= 131071;
  not_inhibitory : sign_mode_of C <> Inhibitory;
  slow_trace : slow (decay C)
}.
Definition rnd_ok (r : rnd) : Prop := (0 <= q_xd r)%Q /\ (0 <= q_yd r)%Q /\ 0 <= q_xi r /\ 0 <= q_yi r /\ (0 <= q_syn r)%Q.
Definition W (s : clp) (m k : nat) : Z := syn_val (c_conn s) SWeights m k.
Definition waiting_id (s : clp) : Z := first_buf (d_third s).
Record struct (C : clp_cfg) (s : clp) : Prop := {
  st_in : Conn_Model.weights (d_in s) = ones_row (n_features C);
  st_out : Conn_Model.weights (d_out s) = ones_row (n_protos C);
  st_third : Conn_Model.weights (d_third s) = ones_col (n_protos C);
  st_tx : forall k, (k < n_features C)%nat -> tx (c_conn s) k = 0;
  st_ty : forall m, (m < n_protos C)%nat -> ty (c_conn s) m = 0;
  st_range : forall m k, (m < n_protos C)%nat -> (k < n_features C)%nat -> hw_range (sign_mode_of C) SWeights (W s m k);
  st_x1 : forall k, (k < n_features C)%nat -> 0 <= x1 (c_conn s) k <= 127;
  st_in_b : 0 <= first_buf (d_in s) < 2147483648;
  st_out_b : 0 <= first_buf (d_out s) < 2147483648
}.
(** the value of a trace at the end of a step, from the value [v] after its spikes *)
Definition kept (C : clp_cfg) (r : rnd) (v : Z) : Z := decay_trace (decay C) (q_xd r) v.
Record effect (C : clp_cfg) (p : nat -> Z) (r : rnd) (s s' : clp) (o : clp_out) : Prop := {
  ef_struct : struct C s';
  ef_a : forall m, (m < n_protos C)%nat -> a_proto s' m = w32 (overlap (n_features C) (W s m) p);
  ef_in : first_buf (d_in s') = count (vals (n_features C) p);
  ef_out : first_buf (d_out s') = count (vals (n_protos C) (fun m => if o_spk o m then 1 else 0));
  ef_third : waiting_id s' = w32 (o_id o);
  ef_nov : (c_nov s', o_nov o) = Clp_Model.nd_step (t_wait C) (c_nov s) (first_buf (d_in s)) (first_buf (d_out s));
  ef_next : (c_next s', o_id o) = Clp_Model.alloc_step (c_next s) (o_nov o);
  ef_x1 : forall k, (k < n_features C)%nat -> x1 (c_conn s') k = kept C r (if negb (p k =? 0) then half_even (p k) else x1 (c_conn s) k);
  ef_spk : forall m, (m < n_protos C)%nat ->
    let y := membrane (pv (c_proto s) m) (drive (w32 (a_proto s m))) in
    o_spk o m = (if waiting_id s =? 0 then vth C * 64 <? y else Z.of_nat m =? waiting_id s - 1) /\
    o_bap o m = (if waiting_id s =? 0 then false else Z.of_nat m =? waiting_id s - 1) /\
    pv (c_proto s') m = (if o_spk o m then 0 else y);
  ef_w : forall m k, (m < n_protos C)%nat -> (k < n_features C)%nat -> o_bap o m = false -> W s' m k = W s m k;
  ef_learn : forall m k, (m < n_protos C)%nat -> (k < n_features C)%nat -> o_bap o m = true -> W s m k = 0 ->
    2 * x1 (c_conn s') k - 5 <= W s' m k <= 2 * x1 (c_conn s') k /\ 0 <= W s' m k
}.

Lemma kept_bounds C r v : sane C -> rnd_ok r -> 0 <= v <= 127 -> (v = 0 -> kept C r v = 0) /\ v - 1 <= kept C r v <= v.
Proof. intros HC (Hr & _) Hv. apply slow_decay; [apply slow_trace; auto|auto|lia]. Qed.
Lemma kept_range C r v : sane C -> rnd_ok r -> 0 <= v <= 127 -> 0 <= kept C r v <= 127.
Proof. intros HC Hr Hv. destruct (kept_bounds C r v HC Hr Hv) as [H0 H1]. destruct (Z.eq_dec v 0); [rewrite H0; lia|lia]. Qed.
Lemma half_range a : 0 <= a <= 254 -> 0 <= half_even a <= 127 /\ scaled a = half_even a.
Proof.
  intros H. destruct (half_even_bounds a ltac:(lia)) as [B1 B2].
  assert (half_even a <= 127) by (unfold half_even in *; destruct (Z.even a) eqn:E; [|destruct (Z.even (a / 2)) eqn:E2]; pose proof (Z.div_mod a 2 ltac:(lia)); pose proof (Z.mod_pos_bound a 2 ltac:(lia));
    [lia|lia|]; rewrite Zmod_even, E in H0; lia).
  split; [lia|]. unfold scaled. apply Z.mod_small. lia.
Qed.

(** the learning connection *)
Section Learn.
Variables (C : clp_cfg) (p : nat -> Z) (r : rnd) (bap : nat -> bool) (y : nat -> Z) (t : Z) (s : conn).
Hypothesis HC : sane C.
Hypothesis Hr : rnd_ok r.
Let nf := n_features C.
Let np := n_protos C.
Hypothesis Hp : forall k, (k < nf)%nat -> 0 <= p k <= 254.
Hypothesis Htx : forall k, (k < nf)%nat -> tx s k = 0.
Hypothesis Hty : forall m, (m < np)%nat -> ty s m = 0.
Hypothesis Hx : forall k, (k < nf)%nat -> 0 <= x1 s k <= 127.
Hypothesis Hw : forall m k, (m < np)%nat -> (k < nf)%nat -> hw_range (sign_mode_of C) SWeights (syn_val s SWeights m k).
Let L := clp_learning (sign_mode_of C) (decay C).
Let i := {| h_stim := {| s_in := p; s_bap := bap; r_post := q_post r; r_xd := q_xd r; r_yd := q_yd r; r_xi := q_xi r; r_yi := q_yi r; r_syn := q_syn r |};
            h_y := fun tr => match tr with TY1 => y | _ => fun _ => 0 end |}.
Let s1 := spike_phase3 L t i s.
Lemma epoch_one : conn_step3 L t i s = learn_phase3 L t i s1.
Proof using. unfold conn_step3, lrn_guard. cbn [t_epoch L clp_learning]. rewrite Z.mod_1_r. reflexivity. Qed.
Lemma within_one : within_epoch 1 t = 1.
Proof using. unfold within_epoch. rewrite Z.mod_1_r. reflexivity. Qed.
Lemma s1_x1 k : (k < nf)%nat -> x1 s1 k = if negb (p k =? 0) then half_even (p k) else x1 s k.
Proof using Hp.
  intros Hk. unfold s1, spike_phase3, spike_phase. cbn [x1]. unfold pre_spike. cbn [fst snd]. cbn [L clp_learning cfg_graded i h_stim s_in].
  rewrite (proj2 (half_range (p k) (Hp k Hk))). reflexivity.
Qed.
Lemma s1_tx k : (k < nf)%nat -> tx s1 k = if negb (p k =? 0) then 1 else 0.
Proof using Htx.
  intros Hk. unfold s1, spike_phase3, spike_phase. cbn [tx]. unfold pre_spike. cbn [fst snd]. cbn [L clp_learning cfg_graded i h_stim s_in t_epoch].
  rewrite within_one, (Htx k Hk). reflexivity.
Qed.
Lemma s1_ty m : (m < np)%nat -> ty s1 m = if bap m then 1 else 0.
Proof using Hty.
  intros Hm. unfold s1, spike_phase3, spike_phase. cbn [ty]. unfold post_spike. cbn [fst snd]. cbn [L clp_learning i h_stim s_bap t_epoch].
  rewrite within_one, (Hty m Hm). reflexivity.
Qed.
Lemma s1_y1 m : y1 s1 m = y m. Proof using. reflexivity. Qed.
Lemma s1_w m k : syn_val s1 SWeights m k = syn_val s SWeights m k. Proof using. reflexivity. Qed.
Lemma hist_one (st v : Z) (ri : Z) (rd : Q) : 0 <= ri -> 0 <= decay_trace (decay C) rd v <= 127 ->
  history {| imp_int := 0; imp_frac := 0; decay_fn := Some (decay C) |} rd ri st v 1 = decay_trace (decay C) rd v.
Proof using.
  intros Hi Hv. cbn [history]. unfold history_step. cbn [decay_fn]. destruct (_ =? _); [|reflexivity].
  unfold add_impulse, round_up. cbn [imp_int imp_frac]. replace (ri <? 0) with false by (symmetry; apply Z.ltb_ge; lia). rewrite clip_id; lia.
Qed.
Lemma x_one k : (k < nf)%nat -> x_hist L (h_stim i) s1 TX1 1 k = kept C r (x1 s1 k).
Proof using HC Hr Hp Hx.
  intros Hk. unfold x_hist. cbn [L clp_learning cfg_trace three_factor_cfg]. cbn [i h_stim r_xd r_xi]. apply hist_one; [apply Hr|].
  apply (kept_range C r (x1 s1 k) HC Hr). rewrite s1_x1 by auto. destruct (negb _); [apply half_range, Hp; auto|apply Hx; auto].
Qed.
Lemma after_x1 k : (k < nf)%nat -> x1 (conn_step3 L t i s) k = kept C r (if negb (p k =? 0) then half_even (p k) else x1 s k).
Proof using HC Hr Hp Hx. intros Hk. rewrite epoch_one. change (x_hist L (h_stim i) s1 TX1 1 k = kept C r (if negb (p k =? 0) then half_even (p k) else x1 s k)). rewrite x_one, s1_x1 by auto. reflexivity. Qed.
Lemma after_times k : tx (conn_step3 L t i s) k = 0 /\ ty (conn_step3 L t i s) k = 0.
Proof using. rewrite epoch_one. split; reflexivity. Qed.
Lemma after_range m k : (m < np)%nat -> (k < nf)%nat -> hw_range (sign_mode_of C) SWeights (syn_val (conn_step3 L t i s) SWeights m k).
Proof using.
  intros Hm Hk. rewrite epoch_one. cbn [learn_phase3 syn_val learn_phase]. unfold learned. cbn [L clp_learning cfg_rule cfg_sign]. apply learn_range. discriminate.
Qed.
Lemma after_same m k : (m < np)%nat -> (k < nf)%nat -> bap m = false -> syn_val (conn_step3 L t i s) SWeights m k = syn_val s SWeights m k.
Proof using Hr Hty Hw.
  intros Hm Hk Hb. rewrite epoch_one. cbn [learn_phase3 syn_val learn_phase]. unfold learned. cbn [L clp_learning cfg_rule cfg_sign].
  rewrite s1_w. apply learn_noop; [apply Hr| |apply Hw; auto].
  intros q [<-|[]]. apply gated_zero. cbn [clp_product p_dep dep_value applier_args a_y0]. fold L. rewrite s1_ty, Hb by auto. reflexivity.
Qed.
Lemma after_learn m k : (m < np)%nat -> (k < nf)%nat -> bap m = true -> y m = 127 -> syn_val s SWeights m k = 0 ->
  let w := syn_val (conn_step3 L t i s) SWeights m k in let x := x1 (conn_step3 L t i s) k in 2 * x - 5 <= w <= 2 * x /\ 0 <= w.
Proof using HC Hr Hty Hp Hx.
  intros Hm Hk Hb Hy H0 w x. unfold w, x. rewrite after_x1 by auto. rewrite <- s1_x1 by auto. rewrite epoch_one. cbn [learn_phase3 syn_val learn_phase]. unfold learned.
  cbn [L clp_learning cfg_rule cfg_sign]. rewrite s1_w, H0.
  assert (0 <= x1 s1 k <= 127) as Bx by (rewrite s1_x1 by auto; destruct (negb _); [apply half_range, Hp; auto|apply Hx; auto]).
  eapply learned_weight with (y := decay_trace (decay C) (q_yd r) 127).
  - apply not_inhibitory; auto.
  - apply Hr.
  - cbn [applier_args a_y0]. rewrite s1_ty, Hb by auto. reflexivity.
  - cbn [applier_args a_trace]. unfold evaluated. cbn [is_x]. rewrite s1_ty, Hb by auto. unfold y_hist. rewrite s1_y1, Hy. change (Z.to_nat 1) with 1%nat.
    destruct Hr as (_ & R2 & _ & R4 & _). destruct (slow_decay (decay C) (q_yd r) 127 (slow_trace C HC) R2 ltac:(lia)) as [_ ?]. apply hist_one; [exact R4|lia].
  - cbn [applier_args a_trace]. unfold evaluated. cbn [is_x]. rewrite s1_ty, Hb by auto. change (Z.to_nat 1) with 1%nat. apply x_one; auto.
  - apply kept_range; auto.
  - destruct Hr as (_ & R2 & _). destruct (slow_decay (decay C) (q_yd r) 127 (slow_trace C HC) R2 ltac:(lia)) as [_ ?]. lia.
Qed.
End Learn.

Lemma count_vals_bounds n f : 0 <= count (vals n f) <= Z.of_nat n.
Proof. pose proof (count_bounds (vals n f)) as H. unfold vals in *. rewrite map_length, seq_length in H. exact H. Qed.
Lemma bap_existsb n i : (0 <= i < Z.of_nat n) -> existsb (fun m => Z.of_nat m =? i) (seq 0 n) = true.
Proof. intros H. apply existsb_exists. exists (Z.to_nat i). split; [apply in_seq; lia|]. apply Z.eqb_eq. lia. Qed.
Lemma none_existsb n : existsb (fun _ : nat => false) (seq 0 n) = false.
Proof. generalize 0%nat. induction n as [|n IH]; intros j; cbn [seq existsb]; [reflexivity|]. rewrite IH. reflexivity. Qed.

Lemma store_x1 nf np c k : (k < nf)%nat -> x1 (store nf np c) k = x1 c k.
Proof. intros H. cbn [store x1]. apply vec_in, H. Qed.
Lemma step_raises C t p r s : Z.of_nat (n_protos C) < waiting_id s < 2147483648 -> net_step C t p r s = None.
Proof.
  intros H. unfold net_step. rewrite !sends_first. unfold waiting_id in H. rewrite (w32_id (first_buf (d_third s))) by lia. unfold proto_step, bap_of.
  replace (first_buf (d_third s) =? 0) with false by (symmetry; apply Z.eqb_neq; lia).
  replace (first_buf (d_third s) - 1 <? Z.of_nat (n_protos C)) with false by (symmetry; apply Z.ltb_ge; lia).
  replace (first_buf (d_third s) - 1 <? 0) with false by (symmetry; apply Z.ltb_ge; lia). rewrite andb_false_r. reflexivity.
Qed.
Lemma step_effect C t p r s : sane C -> rnd_ok r -> (forall k, (k < n_features C)%nat -> 0 <= p k <= 254) -> struct C s -> 0 <= waiting_id s <= Z.of_nat (n_protos C) ->
  exists s' o, net_step C t p r s = Some (s', o) /\ effect C p r s s' o.
Proof.
  intros HC Hr Hp [I1 I2 I3 I4 I5 I6 I7 I8 I9] Hid. pose proof (few_protos C HC) as FP. pose proof (few_features C HC) as FF. pose proof (some_protos C HC) as SP.
  unfold net_step. rewrite !sends_first. fold (waiting_id s).
  rewrite (w32_id (waiting_id s)) by lia. rewrite (w32_id (first_buf (d_in s))), (w32_id (first_buf (d_out s))) by lia.
  set (np := n_protos C) in *. set (nf := n_features C) in *.
  assert (exists bap, bap_of np (waiting_id s) = Some bap /\ (forall m, bap m = if waiting_id s =? 0 then false else Z.of_nat m =? waiting_id s - 1) /\
          existsb bap (seq 0 np) = negb (waiting_id s =? 0)) as (bap & Eb & Hb & Ht).
  { unfold bap_of. destruct (waiting_id s =? 0) eqn:E0.
    - eexists. split; [reflexivity|]. split; [reflexivity|apply none_existsb].
    - apply Z.eqb_neq in E0. replace (0 <=? waiting_id s - 1) with true by (symmetry; apply Z.leb_le; lia).
      replace (waiting_id s - 1 <? Z.of_nat np) with true by (symmetry; apply Z.ltb_lt; lia). cbn [andb].
      eexists. split; [reflexivity|]. split; [reflexivity|]. apply bap_existsb. lia. }
  unfold proto_step. rewrite Eb, Ht.
  destruct (Clp_Model.nd_step (t_wait C) (c_nov s) (first_buf (d_in s)) (first_buf (d_out s))) as [nov novel] eqn:En.
  destruct (Clp_Model.alloc_step (c_next s) novel) as [next alloc] eqn:Ea.
  eexists. eexists. split; [reflexivity|].
  set (y1' := if negb (waiting_id s =? 0) then vec np (fun m : nat => if bap m then 127 else 0) else py1 (c_proto s)).
  set (bb := vecb np bap).
  assert (forall m, (m < np)%nat -> bb m = bap m) as Hbb by (intros; apply vecb_in; auto).
  assert (forall m, (m < np)%nat -> bb m = true -> y1' m = 127) as Hy.
  { intros m Hm. rewrite Hbb by auto. intros Hbm. unfold y1'. destruct (waiting_id s =? 0) eqn:E0; [rewrite Hb in Hbm; discriminate Hbm|]. cbn [negb]. rewrite vec_in, Hbm by auto. reflexivity. }
  constructor; cbn [c_conn a_proto d_in d_out d_third c_proto c_nov c_next o_spk o_bap o_nov o_id pv py1].
  - constructor; cbn [d_in d_out d_third c_conn]; fold np nf.
    + apply receives_weights; [auto|reflexivity|reflexivity|apply ones_row_ok].
    + apply receives_weights; [auto|reflexivity|reflexivity|apply ones_row_ok].
    + apply receives_weights; [auto|reflexivity|reflexivity|apply ones_col_ok].
    + intros k Hk. cbn [store tx]. rewrite vec_in by auto. apply after_times.
    + intros m Hm. cbn [store ty]. rewrite vec_in by auto. apply after_times.
    + intros m k Hm Hk. unfold W. cbn [c_conn store syn_val]. rewrite mat_in by auto. apply after_range; auto.
    + intros k Hk. cbn [store x1]. rewrite vec_in by auto. rewrite after_x1 by auto. apply kept_range; auto.
      destruct (negb (p k =? 0)); [apply half_range, Hp; auto|apply I7; auto].
    + rewrite (aval_receives nf) by (auto; unfold vals; rewrite map_length, seq_length; reflexivity). pose proof (count_vals_bounds nf p). lia.
    + rewrite (aval_receives np) by (auto; unfold vals; rewrite map_length, seq_length; reflexivity). match goal with |- _ <= count (vals ?n ?f) < _ => pose proof (count_vals_bounds n f) end. lia.
  - intros m Hm. rewrite vec_in by auto. rewrite dot_overlap. reflexivity.
  - apply (aval_receives nf); [auto|unfold vals; rewrite map_length, seq_length; reflexivity].
  - apply (aval_receives np); [auto|unfold vals; rewrite map_length, seq_length; reflexivity].
  - apply (third_receives np); auto.
  - symmetry. exact En.
  - symmetry. exact Ea.
  - intros k Hk. cbn [store x1]. rewrite vec_in by auto. apply after_x1; auto.
  - intros m Hm. rewrite !vecb_in by auto. rewrite !vec_in by auto. change (0 <? 0) with false. cbn iota. rewrite ?current_drive. fold (membrane (pv (c_proto s) m) (drive (w32 (a_proto s m)))).
    rewrite (Hbb m) by auto. rewrite Hb. destruct (waiting_id s =? 0) eqn:E0; cbn [negb]; auto.
  - intros m k Hm Hk Hbm. unfold W. cbn [c_conn store syn_val]. rewrite mat_in by auto. apply after_same; auto.
  - intros m k Hm Hk Hbm H0. unfold W. cbn [c_conn store syn_val]. rewrite mat_in by auto. rewrite store_x1 by auto. apply after_learn; auto.
Qed.
