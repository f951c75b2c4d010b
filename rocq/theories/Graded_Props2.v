(** C73-C75: normalisation, inverse square root, input and output vectors. *)
From Coq Require Import ZArith List Bool Lia Arith.
From Verif Require Import NpInt Bits_Model Conn_Model Conn_Spec Conn_Proofs Graded_Model Graded_Props.
Import ListNotations.
Open Scope Z_scope.

(** ** C73.  Specification: the sum of squares, and the vector scaled by a factor *)
Definition norm2 (x : list Z) : Z := fold_right (fun q r => q * q + r) 0 x.
Definition scaled (c : Z) (x : list Z) : list Z := map (fun q => thresholded 1 (q * c)) x.
(** inputs whose squares sum up within 31 bits, and that times the factor given for any of them fit 31 bits *)
Definition norm_ok (f : Z -> Z) (n : nat) (x y : list Z) : Prop :=
  length y = n /\ int32 (f (norm2 x)) /\ Forall (fun q => int32 (q * f (norm2 x))) y.

Lemma norm2_nonneg x : 0 <= norm2 x.
Proof. induction x; simpl; nia. Qed.
Lemma norm2_entry x q : In q x -> q * q <= norm2 x.
Proof. induction x as [|a x IH]; simpl; [tauto|]. intros [->|H]; [pose proof (norm2_nonneg x); lia|]. specialize (IH H). nia. Qed.
Lemma squares x : norm2 x < 2 ^ 31 -> zsum (map (fun q => w32 (q * q)) x) = norm2 x.
Proof.
  change (2 ^ 31) with 2147483648. intro H. assert (forall q, In q x -> w32 (q * q) = q * q) as E.
  { intros q Hq. apply norm2_entry in Hq. apply w32_id. nia. }
  clear H. induction x as [|a x IH]; [reflexivity|]. cbn [map norm2 fold_right]. unfold zsum in *. cbn [fold_right].
  rewrite E by (left; auto). rewrite IH; [reflexivity|]. intros; apply E; right; auto.
Qed.
Lemma ones_dot n s : length s = n -> zsum (map2 Z.mul (repeat 1 n) s) = zsum s.
Proof. intros <-. induction s as [|a s IH]; [reflexivity|]. unfold map2, zsum in *. cbn [length repeat combine map fold_right fst snd]. rewrite IH. lia. Qed.
Lemma const_one p w : num_weight_bits p = 8 -> sign p = None -> (forall x, In x (concat w) -> x = 1) -> prepare_weights p w = w.
Proof. intros A B C. apply prepare_id; auto. intros x H. rewrite (C x H). lia. Qed.

Definition net_inv (n : nat) (s : net) : Prop :=
  weights (to_inv s) = [repeat 1 n] /\ weights (from_inv s) = repeat [1] n /\
  length (held s) = n /\ exists c, a_buff (to_inv s) = [c] /\ int32 c /\ length (a_buff (from_inv s)) = n.
Lemma sum_shift x : np_shift 0 (in_acc sum_conn x) = w32 x.
Proof. unfold np_shift, in_acc. change (0 <? message_bits sum_conn) with true. cbv iota. change (0 <? 0) with false. cbv iota. change (- 0) with 0. rewrite Z.shiftr_0_r. reflexivity. Qed.
Lemma net_step_ok f n s x : net_inv n s -> length x = n -> norm2 x < 2 ^ 31 ->
  (forall c, a_buff (to_inv s) = [c] -> int32 (f c)) ->
  net_inv n (snd (net_step f s x)) /\ held (snd (net_step f s x)) = x /\
  a_buff (to_inv (snd (net_step f s x))) = [norm2 x] /\
  (forall c, a_buff (to_inv s) = [c] -> a_buff (from_inv (snd (net_step f s x))) = repeat (f c) n).
Proof.
  intros (W1 & W2 & LH & c & Bc & Rc & LB) L N RF. specialize (RF c Bc).
  assert ((if weights_set (to_inv s) then weights (to_inv s) else prepare_weights sum_conn (weights (to_inv s))) = [repeat 1 n]) as E1.
  { rewrite W1. destruct (weights_set (to_inv s)); auto. apply const_one; auto. intros y H. cbn in H. rewrite app_nil_r in H. apply repeat_spec in H. auto. }
  assert ((if weights_set (from_inv s) then weights (from_inv s) else prepare_weights sum_conn (weights (from_inv s))) = repeat [1] n) as E2.
  { rewrite W2. destruct (weights_set (from_inv s)); auto. apply const_one; auto. intros y H. apply in_concat in H.
    destruct H as (row & R & H). apply repeat_spec in R. subst row. destruct H as [<-|[]]. reflexivity. }
  unfold net_step, norm_step, bitacc_step. rewrite E1, E2, Bc. cbn [snd held to_inv from_inv weights a_buff map].
  change (accumulate (message_bits sum_conn)) with mat_dot.
  change (Conn_Model.weight_exp sum_conn) with 0.
  unfold int32 in Rc, RF. change (2 ^ 31) with 2147483648 in *.
  rewrite (w32_id c) by lia. pose proof (norm2_nonneg x).
  assert (map (fun x => np_shift 0 (in_acc sum_conn x)) (mat_dot [repeat 1 n] (map (fun q => w32 (q * q)) x)) = [norm2 x]) as E0.
  { unfold mat_dot. cbn [map]. rewrite ones_dot by (rewrite map_length; exact L). rewrite squares by exact N. rewrite sum_shift.
    rewrite (w32_id (norm2 x)) by lia. reflexivity. }
  rewrite E0.
  assert (map (fun x => np_shift 0 (in_acc sum_conn x)) (mat_dot (repeat [1] n) [f c]) = repeat (f c) n) as E3.
  { unfold mat_dot. clear - RF. induction n as [|n IH]; [reflexivity|]. cbn [repeat map]. f_equal; [|exact IH].
    rewrite sum_shift. unfold map2. cbn [combine map zsum fold_right fst snd]. replace (1 * f c + 0) with (f c) by lia. apply w32_id. lia. }
  rewrite E3. split; [|split; [reflexivity|split; [reflexivity|]]].
  - split; [exact eq_refl|split; [exact eq_refl|split; [exact L|]]]. exists (norm2 x). split; [reflexivity|].
    split; [unfold int32; change (2 ^ 31) with 2147483648; lia|apply repeat_length].
  - intros d Hd. injection Hd as ->. reflexivity.
Qed.
Lemma net_init_ok n : net_inv n (net_init n).
Proof.
  split; [reflexivity|split; [reflexivity|split; [apply repeat_length|]]]. exists 0. split; [reflexivity|].
  split; [unfold int32; lia|apply repeat_length].
Qed.
(** What NormalizeNet computes: the output of step t + 2 is the input of step t + 1 times the inverse norm of the
    input of step t. [f] is the function of the InvSqrt process. *)
Lemma scale_vec f n x y : norm_ok f n x y ->
  map (above 32 1) (map2 (fun p q => w32 (p * q)) y (map w32 (repeat (f (norm2 x)) n))) = scaled (f (norm2 x)) y.
Proof.
  intros (L & F & G). unfold scaled. unfold int32 in *. change (2 ^ 31) with 2147483648 in *. revert n L.
  induction y as [|a y IH]; intros n L; [destruct n; reflexivity|]. destruct n; [simpl in L; lia|]. simpl in L.
  inversion_clear G. specialize (IH H0 n ltac:(lia)). unfold map2 in *. cbn [repeat map combine fst snd].
  rewrite IH. f_equal. rewrite (w32_id (f (norm2 x))) by lia. apply above_exact.
  unfold int32. change (2 ^ 31) with 2147483648. exact H.
Qed.
Theorem normalize_net_computes f n ins t : (t + 2 < length ins)%nat ->
  (forall x, In x ins -> length x = n /\ norm2 x < 2 ^ 31 /\ int32 (f (norm2 x))) -> int32 (f 0) ->
  norm_ok f n (nth t ins []) (nth (t + 1) ins []) ->
  nth (t + 2) (sent (net_step f) (net_init n) ins) [] = scaled (f (norm2 (nth t ins []))) (nth (t + 1) ins []).
Proof.
  intros Ht Hi F0 Hn. rewrite (sent_nth _ _ []) by exact Ht.
  replace (t + 2)%nat with (S (S t)) by lia. replace (t + 1)%nat with (S t) in * by lia.
  rewrite (firstn_snoc _ (S t) []), (firstn_snoc _ t []) by lia. rewrite !fold_left_app. cbn [fold_left].
  assert (forall k, (k < length ins)%nat -> In (nth k ins []) ins) as Hk by (intros; apply nth_In; auto).
  set (s0 := fold_left _ (firstn t ins) _).
  assert (net_inv n s0 /\ forall c, a_buff (to_inv s0) = [c] -> int32 (f c)) as [I0 R0].
  { unfold s0. assert (forall x, In x (firstn t ins) -> length x = n /\ norm2 x < 2 ^ 31 /\ int32 (f (norm2 x))) as G.
    { intros x Hx. apply Hi. rewrite <- (firstn_skipn t ins). apply in_or_app. auto. }
    revert G. generalize (firstn t ins). intros l. pose proof (net_init_ok n) as A.
    assert (forall c, a_buff (to_inv (net_init n)) = [c] -> int32 (f c)) as B by (intros c E; cbn in E; injection E as <-; exact F0).
    revert A B. generalize (net_init n). induction l as [|a l IH]; intros s A B G; [auto|]. cbn [fold_left].
    destruct (G a (or_introl eq_refl)) as (La & Na & Fa).
    destruct (net_step_ok f n s a A La Na B) as (A' & _ & B' & _).
    apply IH; [exact A'| |intros; apply G; right; auto]. intros c E. rewrite B' in E. injection E as <-. exact Fa. }
  destruct (Hi _ (Hk t ltac:(lia))) as (L1 & N1 & F1).
  destruct (net_step_ok f n s0 _ I0 L1 N1 R0) as (I1 & _ & B1 & _).
  set (s1 := snd (net_step f s0 (nth t ins []))) in *.
  destruct (Hi _ (Hk (S t) ltac:(lia))) as (L2 & N2 & F2).
  assert (forall c, a_buff (to_inv s1) = [c] -> int32 (f c)) as R1 by (intros c E; rewrite B1 in E; injection E as <-; exact F1).
  destruct (net_step_ok f n s1 _ I1 L2 N2 R1) as (I2 & H2 & _ & C2).
  set (s2 := snd (net_step f s1 (nth (S t) ins []))) in *. specialize (C2 _ B1).
  unfold net_step, conn_out. rewrite H2, C2. unfold norm_step.
  destruct (bitacc_step sum_conn (to_inv s2) _) as [c d1]. destruct (bitacc_step sum_conn (from_inv s2) _) as [c' d2].
  cbn [fst]. apply scale_vec. exact Hn.
Qed.
(** so a vector is normalised by its own norm if it is presented for two steps *)
Theorem normalize_net_steady_partial f n ins t : (t + 2 < length ins)%nat ->
  (forall x, In x ins -> length x = n /\ norm2 x < 2 ^ 31 /\ int32 (f (norm2 x))) -> int32 (f 0) ->
  norm_ok f n (nth t ins []) (nth (t + 1) ins []) -> nth (t + 1) ins [] = nth t ins [] ->
  nth (t + 2) (sent (net_step f) (net_init n) ins) [] = scaled (f (norm2 (nth t ins []))) (nth t ins []).
Proof. intros A B C D E. rewrite normalize_net_computes by auto. rewrite E. reflexivity. Qed.
(** ... and not otherwise: a vector presented at one step alone is not sent two steps later (nor at any later step),
    whatever [f] is with f 0 = 0 (as for InvSqrt) *)
Theorem normalize_net_single_step_refuted f : f 0 = 0 -> int32 (f 250000) ->
  let ins := [300; 400] :: repeat [0; 0] 7 in
  forall k, (2 <= k < 8)%nat -> nth k (sent (net_step f) (net_init 2) ins) [] = [0; 0].
Proof.
  intros F0 R ins k Hk. replace k with ((k - 2) + 2)%nat by lia.
  assert (forall j, (j < 7)%nat -> nth j (repeat [0; 0] 7) [] = [0; 0]) as Z7.
  { intros j Hj. apply (repeat_spec 7). apply nth_In. rewrite repeat_length. exact Hj. }
  assert (nth (k - 2 + 1) ins [] = [0; 0]) as N1.
  { replace (k - 2 + 1)%nat with (S (k - 2)) by lia. unfold ins. cbn [nth]. apply Z7. lia. }
  assert (norm2 [300; 400] = 250000) as Na by reflexivity. assert (norm2 [0; 0] = 0) as Nz by reflexivity.
  assert (forall x, In x ins -> length x = 2%nat /\ norm2 x < 2 ^ 31 /\ int32 (f (norm2 x))) as H.
  { intros x [<-|Hx]; [rewrite Na; split; [reflexivity|split; [reflexivity|exact R]]|]. apply repeat_spec in Hx. subst x.
    rewrite Nz, F0. split; [reflexivity|split; [reflexivity|unfold int32; lia]]. }
  assert (int32 (f 0)) as I0 by (rewrite F0; unfold int32; lia).
  rewrite (normalize_net_computes f 2); auto.
  - rewrite N1. unfold scaled. cbn [map]. rewrite !Z.mul_0_l. reflexivity.
  - unfold ins. cbn [length]. rewrite repeat_length. lia.
  - rewrite N1. split; [reflexivity|]. split; [apply H, nth_In; unfold ins; cbn [length]; rewrite repeat_length; lia|].
    constructor; [|constructor; [|constructor]]; rewrite Z.mul_0_l; unfold int32; lia.
Qed.
(** a sum of squares of 24-bit values overflows *)
Theorem norm_squares_overflow_refuted : exists x, int24 x /\ snd (fst (norm_step 1 [0] [x] [0])) = [0].
Proof. exists 65536. split; [unfold int24; lia|]. vm_compute. reflexivity. Qed.

(** ** C75: input and output vectors *)
Theorem output_vec_exact x : int24 x -> get_data x = x.
Proof.
  unfold int24, get_data. change (2 ^ 23) with 8388608. intro H. rewrite (w32_id x) by lia. rewrite Z.shiftl_mul_pow2, Z.shiftr_div_pow2 by lia.
  change (2 ^ 8) with 256. rewrite w32_id by lia. apply Z.div_mul. lia.
Qed.
(** any 32-bit value is reduced to the 24-bit value with the same low bits *)
Theorem output_vec_24_bits x : int24 (get_data x) /\ (2 ^ 24 | get_data x - x).
Proof.
  unfold get_data. rewrite Z.shiftl_mul_pow2, Z.shiftr_div_pow2 by lia. change (2 ^ 8) with 256.
  assert (forall z, exists k, w32 z = z + k * 2 ^ 32) as W.
  { intro z. unfold w32, wrap. pose proof (Z.div_mod (z + 2 ^ (32 - 1)) (2 ^ 32) ltac:(lia)).
    exists (- ((z + 2 ^ (32 - 1)) / 2 ^ 32)). lia. }
  pose proof (wrap_range 32 (w32 x * 256) ltac:(lia)) as R. fold w32 in R. change (2 ^ (32 - 1)) with 2147483648 in R.
  destruct (W x) as [k E]. destruct (W (w32 x * 256)) as [j F]. rewrite F in R |- *. rewrite E in R |- *.
  change (2 ^ 32) with 4294967296 in *. change (2 ^ 24) with 16777216.
  replace ((x + k * 4294967296) * 256 + j * 4294967296) with ((x + k * 4294967296 + j * 16777216) * 256) by ring.
  rewrite Z.div_mul by lia. unfold int24. change (2 ^ 23) with 8388608. split; [lia|].
  exists (k * 256 + j). lia.
Qed.
(** The columns of an InputVec, sent through [y << x] to an OutputVec: the scaled columns arrive one step later *)
Theorem input_to_output_partial exp n cols t : (t + 1 < length cols)%nat ->
  Forall (vec_ok (fun x => int24 (x * 2 ^ exp)) n) cols ->
  map get_data (nth (t + 1) (outputs (bitacc_step graded_conn) (identity_conn n) (map (fun c => snd (input_vec exp c)) cols)) []) =
  map (fun x => x * 2 ^ exp) (nth t cols []).
Proof.
  intros Ht F. rewrite identity_connection_delivers.
  - rewrite (nth_indep _ [] (snd (input_vec exp []))) by (rewrite map_length; lia).
    rewrite (map_nth (fun c => snd (input_vec exp c))). cbn [input_vec snd]. rewrite map_map. apply map_ext_in. intros x Hx.
    apply output_vec_exact. rewrite Forall_forall in F. destruct (F (nth t cols []) ltac:(apply nth_In; lia)) as [_ G].
    rewrite Forall_forall in G. apply G, Hx.
  - rewrite map_length. exact Ht.
  - apply Forall_forall. intros v Hv. apply in_map_iff in Hv. destruct Hv as (c & <- & Hc). rewrite Forall_forall in F.
    destruct (F c Hc) as [L G]. cbn [input_vec snd]. split; [rewrite map_length; exact L|]. apply Forall_forall. intros y Hy.
    apply in_map_iff in Hy. destruct Hy as (x & <- & Hx). rewrite Forall_forall in G. specialize (G x Hx).
    unfold int24 in G. lia.
Qed.
Example input_output_demo : Forall (vec_ok (fun x => int24 (x * 2 ^ 6)) 2) [[5; -131072]; [0; 131071]] /\
  map get_data (nth 1 (outputs (bitacc_step graded_conn) (identity_conn 2) (map (fun c => snd (input_vec 6 c)) [[5; -131072]; [0; 131071]])) []) = [320; -8388608].
Proof. split; [|reflexivity]. repeat constructor; unfold int24; lia. Qed.
(** The array of the caller is scaled too: a second network built from it sends values scaled twice *)
Theorem input_vec_caller_changed_refuted : exists exp vec,
  let '(after, _) := input_vec exp vec in after <> vec /\ snd (input_vec exp after) <> map (fun x => x * 2 ^ exp) vec.
Proof. exists 2, [1]. split; discriminate. Qed.
