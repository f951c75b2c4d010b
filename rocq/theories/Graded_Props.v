(** C70-C75: graded vectors and the networks built from them. *)
From Coq Require Import ZArith List Bool Lia Arith.
From Verif Require Import NpInt Bits_Model Bits_Props Conn_Model Conn_Spec Conn_Proofs Graded_Model.
Import ListNotations.
Open Scope Z_scope.

(** ** Specification *)
(** every entry of every input vector satisfies [P]; all vectors have [n] entries *)
Definition vec_ok (P : Z -> Prop) (n : nat) (v : list Z) : Prop := length v = n /\ Forall P v.
Definition int32 (x : Z) : Prop := - 2 ^ 31 < x < 2 ^ 31.
Definition int24 (x : Z) : Prop := - 2 ^ 23 <= x < 2 ^ 23.
(** the value, if its magnitude exceeds the threshold *)
Definition thresholded (vth x : Z) : Z := if vth <? Z.abs x then x else 0.

Lemma sent_nth {St I O} (step : St -> I -> O * St) d di ins : forall st t, (t < length ins)%nat ->
  nth t (sent step st ins) d = fst (step (fold_left (fun s x => snd (step s x)) (firstn t ins) st) (nth t ins di)).
Proof.
  induction ins as [|a r IH]; intros st t H; [simpl in H; lia|]. destruct t; [reflexivity|].
  cbn [sent nth firstn fold_left]. apply IH. simpl in H. lia.
Qed.
Lemma firstn_snoc {A} (l : list A) t d : (t < length l)%nat -> firstn (S t) l = firstn t l ++ [nth t l d].
Proof. revert t. induction l; intros [|t] H; simpl in *; try lia; auto. rewrite <- IHl by lia. reflexivity. Qed.

(** ** C70 *)
Lemma map2_repeat0 n a : length a = n -> map2 Z.add (repeat 0 n) a = a.
Proof. intros <-. induction a as [|x a IH]; [reflexivity|]. unfold map2 in *. simpl. f_equal. exact IH. Qed.
Lemma above_exact vth x : int32 x -> above 32 vth (w32 x) = thresholded vth x.
Proof.
  unfold int32. change (2 ^ 31) with 2147483648. intro H. unfold above, thresholded. rewrite (w32_id x) by lia.
  change (wrap 32) with w32. rewrite w32_id by lia. reflexivity.
Qed.
Lemma zero_state (step : list Z -> list Z -> list Z * list Z) n :
  (forall v a, snd (step v a) = map (fun _ => 0) v) ->
  forall ins, fold_left (fun s x => snd (step s x)) ins (repeat 0 n) = repeat 0 n.
Proof.
  intros H. induction ins as [|a r IH]; [reflexivity|]. cbn [fold_left]. rewrite H.
  replace (map (fun _ => 0) (repeat 0 n)) with (repeat 0 n); [exact IH|].
  clear. induction n; [reflexivity|]. simpl. f_equal. exact IHn.
Qed.
Theorem graded_vec_forwards vth n ins t : (t < length ins)%nat -> Forall (vec_ok int32 n) ins ->
  nth t (sent (graded_step vth) (repeat 0 n) ins) [] = map (thresholded vth) (nth t ins []).
Proof.
  intros Ht Hi. rewrite (sent_nth _ _ []) by exact Ht.
  rewrite (zero_state (graded_step vth) n (fun v a => eq_refl)). cbn [graded_step fst].
  assert (vec_ok int32 n (nth t ins [])) as [L F] by (rewrite Forall_forall in Hi; apply Hi, nth_In, Ht).
  rewrite map2_repeat0 by exact L. apply map_ext_in. intros x Hx. apply above_exact.
  rewrite Forall_forall in F. auto.
Qed.
Theorem graded_relu_forwards vth n ins t : (t < length ins)%nat -> Forall (vec_ok int32 n) ins ->
  nth t (sent (relu_step vth) (repeat 0 n) ins) [] = map (fun x => if vth <? x then x else 0) (nth t ins []).
Proof.
  intros Ht Hi. rewrite (sent_nth _ _ []) by exact Ht.
  rewrite (zero_state (relu_step vth) n (fun v a => eq_refl)). cbn [relu_step fst].
  assert (vec_ok int32 n (nth t ins [])) as [L F] by (rewrite Forall_forall in Hi; apply Hi, nth_In, Ht).
  rewrite map2_repeat0 by exact L. apply map_ext_in. intros x Hx. rewrite Forall_forall in F. specialize (F x Hx).
  unfold int32 in F. change (2 ^ 31) with 2147483648 in F. rewrite w32_id by lia. reflexivity.
Qed.
(** a value the user set on v only affects the first step *)
Theorem graded_vec_no_memory vth v v' a ins : length v = length v' ->
  tl (sent (graded_step vth) v (a :: ins)) = tl (sent (graded_step vth) v' (a :: ins)).
Proof.
  intros L. cbn [sent tl]. f_equal. cbn [graded_step snd].
  revert v' L. induction v as [|x v IH]; intros [|y v'] L; simpl in *; try lia; auto. f_equal. apply IH. lia.
Qed.
Example graded_demo : sent (graded_step 3) [0; 0] [[2; 5]; [-4; 3]; [7; -3]] = [[0; 5]; [-4; 0]; [7; 0]].
Proof. reflexivity. Qed.

(** ** C72: [y << x] for two vectors *)
Lemma prepare_id p w : num_weight_bits p = 8 -> sign p = None -> (forall x, In x (concat w) -> 0 <= x <= 255) -> prepare_weights p w = w.
Proof.
  intros Hb Hs Hx. unfold prepare_weights. rewrite Hs, Hb.
  assert (determine_sign_mode (concat w) = Excitatory) as ->.
  { unfold determine_sign_mode. destruct (concat w) as [|a l] eqn:E; [reflexivity|].
    assert (0 <= np_min (a :: l)) as H; [|destruct (Z.leb_spec 0 (np_min (a :: l))); [reflexivity|lia]].
    unfold np_min. destruct (lmin_spec l a) as [_ H]. apply Hx in H. lia. }
  rewrite <- (map_id w) at 2. apply map_ext_in. intros row Hr. rewrite <- (map_id row) at 2. apply map_ext_in. intros x Hxr.
  assert (0 <= x <= 255) as B by (apply Hx; apply in_concat; exists row; auto).
  unfold truncate, clip_weight, negate, is_mixed. change (8 - 8 + 0) with 0. rewrite Z.shiftr_0_r, Z.shiftl_0_r.
  change (- 2 ^ 8 * 0) with 0. change (2 ^ 8 - 1 - 0 * 0) with 255. apply clip_id. lia.
Qed.
Lemma eye_shape n x : shape (eye n x) n n.
Proof.
  unfold eye. split; [rewrite map_length, seq_length; reflexivity|]. intros row H. apply in_map_iff in H.
  destruct H as (i & <- & _). rewrite map_length, seq_length. reflexivity.
Qed.
Lemma eye_weight n x i j : (i < n)%nat -> (j < n)%nat -> weight (eye n x) i j = if Nat.eqb i j then x else 0.
Proof. intros. unfold weight, eye. rewrite nth_map_seq by auto. rewrite nth_map_seq by auto. reflexivity. Qed.
Lemma eye_entries n x y : 0 <= x <= 255 -> In y (concat (eye n x)) -> 0 <= y <= 255.
Proof.
  intros H I. apply in_concat in I. destruct I as (row & R & I). apply in_map_iff in R. destruct R as (i & <- & _).
  apply in_map_iff in I. destruct I as (j & <- & _). destruct (Nat.eqb i j); lia.
Qed.
Definition ident (n : nat) (c : bitacc) : Prop := weights c = eye n 128.
Lemma ident_step n c s : ident n c -> vec_ok (fun x => - 2 ^ 24 <= x < 2 ^ 24) n s ->
  fst (bitacc_step graded_conn c s) = conn_out c /\
  ident n (snd (bitacc_step graded_conn c s)) /\ conn_out (snd (bitacc_step graded_conn c s)) = s.
Proof.
  intros W [L F]. split; [reflexivity|]. unfold ident, conn_out in *.
  assert ((if weights_set c then weights c else prepare_weights graded_conn (weights c)) = eye n 128) as E.
  { rewrite W. destruct (weights_set c); auto. apply prepare_id; auto. intros x. apply eye_entries. lia. }
  unfold bitacc_step. cbn [snd weights a_buff]. rewrite E. split; [reflexivity|].
  rewrite map_map. rewrite (accumulate_spec _ _ n n) by (try apply eye_shape; exact L).
  rewrite map_map. change (Conn_Model.weight_exp graded_conn) with (-7). change (message_bits graded_conn) with 24.
  symmetry. apply list_ext; [exact L|]. intros i Hi.
  assert (- 2 ^ 24 <= nth i s 0 < 2 ^ 24) as R by (rewrite Forall_forall in F; apply F, nth_In; lia).
  change (2 ^ 24) with 16777216 in R.
  assert (sum_upto n (fun j => weight (eye n 128) i j * message (0 <? 24) (nth j s 0)) = 128 * nth i s 0) as S.
  { rewrite (sum_upto_point n _ (fun _ => 0) i (128 * nth i s 0)); [rewrite sum_upto_0 by auto; lia|exact Hi| | |reflexivity].
    - intros j Hj N. rewrite eye_weight by auto. destruct (Nat.eqb_spec i j); [congruence|lia].
    - rewrite eye_weight, Nat.eqb_refl by auto. reflexivity. }
  rewrite S. unfold in_acc. change (0 <? message_bits graded_conn) with true. cbv iota.
  change (wrap (acc_bits graded_conn)) with w32. rewrite (w32_id (128 * nth i s 0)) by lia.
  unfold np_shift. change (0 <? -7) with false. cbv iota. change (- -7) with 7. rewrite Z.shiftr_div_pow2 by lia.
  change (2 ^ 7) with 128. rewrite Z.mul_comm, Z.div_mul by lia. symmetry. apply w32_id. lia.
Qed.
Lemma ident_init n : ident n (identity_conn n).
Proof. reflexivity. Qed.
Theorem identity_connection_delivers n ins t : (t + 1 < length ins)%nat ->
  Forall (vec_ok (fun x => - 2 ^ 24 <= x < 2 ^ 24) n) ins ->
  nth (t + 1) (outputs (bitacc_step graded_conn) (identity_conn n) ins) [] = nth t ins [].
Proof.
  intros Ht Hi. rewrite outputs_nth by exact Ht. rewrite Nat.add_1_r, (firstn_snoc _ _ []), after_snoc by lia.
  set (c := after _ _ (firstn t ins)).
  assert (ident n c) as H.
  { unfold c. assert (Forall (vec_ok (fun x => - 2 ^ 24 <= x < 2 ^ 24) n) (firstn t ins)) as G.
    { apply Forall_forall. intros x Hx. rewrite Forall_forall in Hi. apply Hi. rewrite <- (firstn_skipn t ins). apply in_or_app. auto. }
    revert G. generalize (firstn t ins). intros l. generalize (ident_init n). generalize (identity_conn n).
    induction l as [|a l IH]; intros b Hb G; [exact Hb|]. inversion_clear G. cbn [after fold_left].
    apply IH; auto. apply ident_step; auto. }
  assert (vec_ok (fun x => - 2 ^ 24 <= x < 2 ^ 24) n (nth t ins [])) as V by (rewrite Forall_forall in Hi; apply Hi, nth_In; lia).
  destruct (ident_step n c (nth t ins []) H V) as (_ & _ & E). exact E.
Qed.
(** outside this range int32 overflows before the scaling: 2^24 arrives as -2^24 *)
Theorem identity_connection_25_bits_refuted : exists x, Z.abs x <= 2 ^ 24 /\
  nth 1 (outputs (bitacc_step graded_conn) (identity_conn 1) [[x]; [0]]) [] <> [x].
Proof. exists (2 ^ 24). split; [lia|]. vm_compute. discriminate. Qed.

(** ** C71: products *)
Theorem prod_neuron_exact_partial wd vth exp a b : 0 < wd -> 0 <= exp ->
  - 2 ^ (wd - 1) < a * b < 2 ^ (wd - 1) -> int32 (a * b / 2 ^ exp) ->
  product wd vth exp a b = thresholded vth (a * b / 2 ^ exp).
Proof.
  unfold int32. change (2 ^ 31) with 2147483648. intros W E P R. unfold product, above, thresholded.
  rewrite (wrap_id wd (a * b)) by (auto; lia). rewrite Z.shiftr_div_pow2 by auto. set (q := a * b / 2 ^ exp) in *.
  assert (wrap wd (Z.abs q) = Z.abs q) as ->.
  { apply wrap_id; auto. assert (0 < 2 ^ exp) by (apply Z.pow_pos_nonneg; lia).
    assert (Z.abs q <= Z.abs (a * b)); [|lia]. unfold q. revert H. generalize (2 ^ exp) as k, (a * b) as x. intros k x Hk.
    destruct (Z.le_gt_cases 0 x).
    - rewrite (Z.abs_eq (x / k)) by (apply Z.div_pos; lia). apply Z.div_le_upper_bound; nia.
    - assert (x / k < 0) by (apply Z.div_lt_upper_bound; lia). assert (x <= x / k) by (apply Z.div_le_lower_bound; nia). lia. }
  apply w32_id. destruct (vth <? Z.abs q); lia.
Qed.
(** two 24-bit inputs with 12 fractional bits (16.0 each): the int32 product overflows *)
Theorem prod_neuron_overflow_refuted : exists a b, int24 a /\ int24 b /\ int24 (a * b / 2 ^ 12) /\
  thresholded 1 (a * b / 2 ^ 12) = 2 ^ 20 /\ product 32 1 12 a b = 0.
Proof. exists (2 ^ 16), (2 ^ 16). unfold int24. change (2 ^ 16 * 2 ^ 16 / 2 ^ 12) with 1048576. change (2 ^ 23) with 8388608. change (2 ^ 16) with 65536.
  split; [lia|]. split; [lia|]. split; [lia|]. split; reflexivity. Qed.

(** the network built for a * b: two steps later the thresholded product *)
Definition factors_ok (exp : Z) (n : nat) (p : list Z * list Z) : Prop :=
  vec_ok int24 n (fst p) /\ vec_ok int24 n (snd p) /\
  Forall (fun q => int32 (fst q * snd q) /\ int24 (fst q * snd q / 2 ^ exp)) (combine (fst p) (snd p)).
Lemma vec_weaken (P Q : Z -> Prop) n v : (forall x, P x -> Q x) -> vec_ok P n v -> vec_ok Q n v.
Proof. intros H [L F]. split; auto. eapply Forall_impl; eauto. Qed.
Lemma int24_id x : int24 x -> - 2 ^ 24 <= x < 2 ^ 24.
Proof. unfold int24. change (2 ^ 23) with 8388608. change (2 ^ 24) with 16777216. lia. Qed.
Lemma prod_layer exp n p : 0 <= exp -> factors_ok exp n p ->
  prod_step 32 1 exp (fst p) (snd p) = map2 (fun x y => thresholded 1 (x * y / 2 ^ exp)) (fst p) (snd p) /\
  vec_ok int24 n (prod_step 32 1 exp (fst p) (snd p)).
Proof.
  intros He ((La & Fa) & (Lb & Fb) & F).
  assert (prod_step 32 1 exp (fst p) (snd p) = map2 (fun x y => thresholded 1 (x * y / 2 ^ exp)) (fst p) (snd p)) as E.
  { unfold prod_step, map2. apply map_ext_in. intros q Hq. rewrite Forall_forall in F. destruct (F q Hq) as [A B].
    apply prod_neuron_exact_partial; auto; [lia|]. unfold int24 in B. unfold int32. change (2 ^ 23) with 8388608 in B. change (2 ^ 31) with 2147483648. lia. }
  split; [exact E|]. split; [unfold prod_step; rewrite map2_length; lia|]. rewrite E. unfold map2.
  apply Forall_forall. intros x Hx. apply in_map_iff in Hx. destruct Hx as (q & <- & Hq).
  rewrite Forall_forall in F. destruct (F q Hq) as [_ B]. unfold thresholded. destruct (1 <? _); auto. unfold int24. change (2 ^ 23) with 8388608. lia.
Qed.
Definition mul_inv (n : nat) (s : mul_state) : Prop :=
  let '(a, b, c) := s in ident n a /\ ident n b /\ ident n c /\ vec_ok int24 n (conn_out a) /\ vec_ok int24 n (conn_out b).
Definition mul_ready (exp : Z) (n : nat) (s : mul_state) : Prop := let '(a, b, c) := s in factors_ok exp n (conn_out a, conn_out b).
Lemma mul_step_ok exp n s x : 0 <= exp -> mul_inv n s -> mul_ready exp n s -> factors_ok exp n x ->
  let s' := snd (mul_step exp s x) in
  mul_inv n s' /\ mul_ready exp n s' /\ (let '(a, b, c) := s' in conn_out a = fst x /\ conn_out b = snd x) /\
  (let '(a, b, _) := s in let '(_, _, c) := s' in conn_out c = prod_step 32 1 exp (conn_out a) (conn_out b)).
Proof.
  intros He. destruct s as [[a b] c]. intros (Ia & Ib & Ic & Va & Vb) R X.
  destruct (prod_layer exp n _ He R) as [_ VP]. cbn [fst snd] in VP.
  destruct X as (Xa & Xb & XF).
  destruct (ident_step n a (fst x) Ia (vec_weaken _ _ _ _ int24_id Xa)) as (A1 & A2 & A3).
  destruct (ident_step n b (snd x) Ib (vec_weaken _ _ _ _ int24_id Xb)) as (B1 & B2 & B3).
  destruct (ident_step n c _ Ic (vec_weaken _ _ _ _ int24_id VP)) as (C1 & C2 & C3).
  unfold mul_step. rewrite (surjective_pairing (bitacc_step graded_conn a (fst x))), A1.
  rewrite (surjective_pairing (bitacc_step graded_conn b (snd x))), B1.
  rewrite (surjective_pairing (bitacc_step graded_conn c _)). cbn [fst snd].
  unfold mul_inv, mul_ready. rewrite A3, B3. split; [split; [auto|split; [auto|split; [auto|split; auto]]]|].
  split; [split; [auto|split; auto]|]. split; [auto|exact C3].
Qed.
Lemma mul_init_ok exp n : 0 <= exp -> mul_inv n (mul_init n) /\ mul_ready exp n (mul_init n).
Proof.
  intro He. assert (conn_out (identity_conn n) = repeat 0 n) as E.
  { unfold conn_out, identity_conn. cbn [a_buff]. induction n; [reflexivity|]. simpl. f_equal. exact IHn. }
  assert (vec_ok int24 n (repeat 0 n)) as V.
  { split; [apply repeat_length|]. apply Forall_forall. intros x H. apply repeat_spec in H. subst. unfold int24. lia. }
  unfold mul_inv, mul_ready, mul_init. rewrite E. split; [repeat split; try apply V; reflexivity|].
  split; [exact V|]. split; [exact V|]. apply Forall_forall. intros [x y] H. apply in_combine_l in H as H1. apply in_combine_r in H.
  apply repeat_spec in H, H1. subst. cbn [fst snd]. rewrite Z.mul_0_l, Z.div_0_l by (apply Z.pow_nonzero; lia). unfold int24, int32. lia.
Qed.
Theorem graded_product_partial exp n ins t : 0 <= exp -> (t + 2 < length ins)%nat -> Forall (factors_ok exp n) ins ->
  nth (t + 2) (sent (mul_step exp) (mul_init n) ins) [] =
  map2 (fun x y => thresholded 1 (x * y / 2 ^ exp)) (fst (nth t ins ([], []))) (snd (nth t ins ([], []))).
Proof.
  intros He Ht Hi. rewrite (sent_nth _ _ ([], [])) by exact Ht.
  replace (t + 2)%nat with (S (S t)) by lia. rewrite (firstn_snoc _ (S t) ([], [])), (firstn_snoc _ t ([], [])) by lia.
  rewrite !fold_left_app. cbn [fold_left].
  assert (forall k, (k < length ins)%nat -> factors_ok exp n (nth k ins ([], []))) as Hk by (intros; rewrite Forall_forall in Hi; apply Hi, nth_In; auto).
  set (s0 := fold_left _ (firstn t ins) _).
  assert (mul_inv n s0 /\ mul_ready exp n s0) as [I0 R0].
  { unfold s0. assert (Forall (factors_ok exp n) (firstn t ins)) as G.
    { apply Forall_forall. intros x Hx. rewrite Forall_forall in Hi. apply Hi. rewrite <- (firstn_skipn t ins). apply in_or_app. auto. }
    revert G. generalize (firstn t ins). intros l. destruct (mul_init_ok exp n He) as [A B]. revert A B. generalize (mul_init n).
    induction l as [|a l IH]; intros s A B G; [auto|]. inversion_clear G. cbn [fold_left].
    destruct (mul_step_ok exp n s a He A B H) as (A' & B' & _). apply IH; auto. }
  destruct (mul_step_ok exp n s0 _ He I0 R0 (Hk t ltac:(lia))) as (I1 & R1 & E1 & _).
  set (s1 := snd (mul_step exp s0 (nth t ins ([], [])))) in *.
  destruct (mul_step_ok exp n s1 _ He I1 R1 (Hk (S t) ltac:(lia))) as (I2 & R2 & _ & E2).
  set (s2 := snd (mul_step exp s1 (nth (S t) ins ([], [])))) in *.
  destruct s1 as [[a1 b1] c1]. destruct s2 as [[a2 b2] c2]. destruct E1 as [Ea Eb].
  unfold mul_step. destruct (bitacc_step graded_conn a2 _) as [xa ca'] eqn:Xa. destruct (bitacc_step graded_conn b2 _) as [xb cb'] eqn:Xb.
  rewrite (surjective_pairing (bitacc_step graded_conn c2 _)). cbn [fst].
  change (fst (bitacc_step graded_conn c2 (prod_step 32 1 exp xa xb))) with (conn_out c2). rewrite E2, Ea, Eb.
  apply (prod_layer exp n _ He (Hk t ltac:(lia))).
Qed.
(** the threshold of the hidden product layer is 1: products of magnitude 1 are lost *)
Theorem graded_product_of_ones_refuted : exists ins, Forall (factors_ok 0 1) ins /\
  nth 0 ins ([], []) = ([1], [1]) /\ nth 2 (sent (mul_step 0) (mul_init 1) ins) [] = [0].
Proof.
  exists [([1], [1]); ([0], [0]); ([0], [0])]. split; [|split; [reflexivity|vm_compute; reflexivity]].
  repeat constructor; unfold int24, int32; cbn; lia.
Qed.
Example product_demo : sent (mul_step 2) (mul_init 2) [([6; -9], [10; 4]); ([0; 1], [0; 9]); ([0; 0], [0; 0]); ([0; 0], [0; 0])]
  = [[0; 0]; [0; 0]; [15; -9]; [0; 2]].
Proof. vm_compute. reflexivity. Qed.
