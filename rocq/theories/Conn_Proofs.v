(** Lemmas on sums, flat arrays and the shift register behind delayed connections. *)
From Coq Require Import ZArith List Bool Arith Lia.
From Verif Require Import NpInt Bits_Model Conn_Model Conn_Spec.
Import ListNotations.
Open Scope Z_scope.

Lemma sum_upto_ext m f g : (forall j, (j < m)%nat -> f j = g j) -> sum_upto m f = sum_upto m g.
Proof. induction m; intros H; simpl; auto. rewrite IHm, H; auto. Qed.
Lemma sum_upto_0 m f : (forall j, (j < m)%nat -> f j = 0) -> sum_upto m f = 0.
Proof. induction m; intros H; simpl; auto. rewrite IHm, H; auto. Qed.
Lemma sum_upto_add m f g : sum_upto m (fun j => f j + g j) = sum_upto m f + sum_upto m g.
Proof. induction m; simpl; auto. rewrite IHm. lia. Qed.
Lemma sum_upto_mul m c f : sum_upto m (fun j => c * f j) = c * sum_upto m f.
Proof. induction m; simpl; [lia|]. rewrite IHm. lia. Qed.
Lemma sum_upto_swap m n f :
  sum_upto m (fun i => sum_upto n (fun j => f i j)) = sum_upto n (fun j => sum_upto m (fun i => f i j)).
Proof.
  induction m; simpl.
  - symmetry. apply sum_upto_0. auto.
  - rewrite IHm. rewrite <- sum_upto_add. auto.
Qed.
Lemma sum_upto_point m f g k x : (k < m)%nat ->
  (forall d, (d < m)%nat -> d <> k -> f d = g d) -> f k = x -> g k = 0 ->
  sum_upto m f = sum_upto m g + x.
Proof.
  induction m; intros Hk H Hf Hg; [lia|]. simpl.
  destruct (Nat.eq_dec k m) as [->|Hn].
  - rewrite (sum_upto_ext m f g) by (intros; apply H; lia). lia.
  - rewrite IHm by (auto; try lia; intros; apply H; lia). rewrite (H m) by lia. lia.
Qed.
Lemma sum_upto_front m f : sum_upto (S m) f = f 0%nat + sum_upto m (fun j => f (S j)).
Proof. induction m; [simpl; lia|]. cbn [sum_upto] in *. rewrite IHm. lia. Qed.
Lemma zsum_map_seq m f : zsum (map f (seq 0 m)) = sum_upto m f.
Proof.
  assert (forall a b, zsum (a ++ b) = zsum a + zsum b) as H.
  { induction a; intros; simpl; auto. rewrite IHa. lia. }
  induction m; auto. rewrite seq_S, map_app, H, IHm. simpl. lia.
Qed.

Lemma map2_length A B C (f : A -> B -> C) l m : length (map2 f l m) = Nat.min (length l) (length m).
Proof. unfold map2. rewrite map_length, combine_length. auto. Qed.
Lemma map2_nth A B C (f : A -> B -> C) l m i da db dc :
  (i < length l)%nat -> (i < length m)%nat -> nth i (map2 f l m) dc = f (nth i l da) (nth i m db).
Proof.
  revert m i. induction l; intros [|b m] i H1 H2; simpl in *; try lia.
  destruct i; auto. apply IHl; lia.
Qed.
Lemma zsum_map2_mul row s : length row = length s ->
  zsum (map2 Z.mul row s) = sum_upto (length row) (fun j => nth j row 0 * nth j s 0).
Proof.
  revert s. induction row; intros [|x s] H; simpl in H; try lia; auto.
  simpl length. rewrite sum_upto_front. unfold map2 in *. simpl. rewrite IHrow by lia. auto.
Qed.
Lemma zsum_filter row s : length row = length s ->
  zsum (map fst (filter (fun p => negb (snd p =? 0)) (combine row s)))
  = sum_upto (length row) (fun j => nth j row 0 * message false (nth j s 0)).
Proof.
  revert s. induction row; intros [|x s] H; simpl in H; try lia; auto.
  cbn [length]. rewrite sum_upto_front. cbn [nth]. rewrite <- IHrow by lia.
  cbn [combine filter snd]. unfold message. destruct (x =? 0); cbn [negb map fst zsum fold_right]; unfold zsum; lia.
Qed.

Lemma nth_map_in A B (f : A -> B) l i da db : (i < length l)%nat -> nth i (map f l) db = f (nth i l da).
Proof. revert i. induction l; intros [|i] H; simpl in *; try lia; auto. apply IHl. lia. Qed.
Lemma nth_map_seq B (f : nat -> B) n i db : (i < n)%nat -> nth i (map f (seq 0 n)) db = f i.
Proof. intros. rewrite (nth_map_in _ _ f _ i 0%nat) by (rewrite seq_length; auto). rewrite seq_nth; auto. Qed.
Lemma nth_row_length A (w : list (list A)) n m i : shape w n m -> (i < n)%nat -> length (nth i w []) = m.
Proof. intros [Hl Hr] Hi. apply Hr. apply nth_In. lia. Qed.
Lemma list_ext (l : list Z) n f :
  length l = n -> (forall i, (i < n)%nat -> nth i l 0 = f i) -> l = map f (seq 0 n).
Proof.
  intros Hl H. apply (nth_ext _ _ 0 0).
  - rewrite map_length, seq_length. auto.
  - intros i Hi. rewrite H, nth_map_seq by lia. auto.
Qed.

(** ** accumulation *)
Lemma mat_dot_nth w s n m i : shape w n m -> length s = m -> (i < n)%nat ->
  nth i (mat_dot w s) 0 = sum_upto m (fun j => weight w i j * nth j s 0).
Proof.
  intros Hs Hl Hi. unfold mat_dot. rewrite (nth_map_in _ _ _ _ _ []) by (destruct Hs; lia).
  pose proof (nth_row_length _ _ _ _ _ Hs Hi). rewrite zsum_map2_mul by lia. rewrite H. reflexivity.
Qed.
Lemma accumulate_spec bits w n m s : shape w n m -> length s = m ->
  accumulate bits w s =
  map (fun i => sum_upto m (fun j => weight w i j * message (0 <? bits) (nth j s 0))) (seq 0 n).
Proof.
  intros Hs Hl. apply list_ext.
  - unfold accumulate, mat_dot, mat_cols. destruct (0 <? bits); rewrite map_length; destruct Hs; auto.
  - intros i Hi. unfold accumulate. destruct (0 <? bits).
    + apply mat_dot_nth with n; auto.
    + unfold mat_cols. rewrite (nth_map_in _ _ _ _ _ []) by (destruct Hs; lia).
      pose proof (nth_row_length _ _ _ _ _ Hs Hi). rewrite zsum_filter by lia. rewrite H. reflexivity.
Qed.
Lemma spikes_length bits s : length (spikes bits s) = length s.
Proof. unfold spikes, as_bool. destruct (0 <? bits); auto. apply map_length. Qed.
Lemma spikes_nth bits s j : nth j (spikes bits s) 0 = message (0 <? bits) (nth j s 0).
Proof.
  unfold spikes, message, as_bool. destruct (0 <? bits); auto.
  rewrite <- (map_nth (fun x => if x =? 0 then 0 else 1) s 0 j). auto.
Qed.

(** ** outputs of a run *)
Definition after {St} (step : St -> list Z -> list Z * St) (st : St) (ins : list (list Z)) : St :=
  fold_left (fun st s => snd (step st s)) ins st.
Lemma outputs_nth {St} (step : St -> list Z -> list Z * St) st ins t : (t < length ins)%nat ->
  nth t (outputs step st ins) [] = fst (step (after step st (firstn t ins)) (nth t ins [])).
Proof.
  revert st t. induction ins; intros st t Ht; simpl in Ht; [lia|].
  cbn [outputs]. destruct (step st a) as [o st'] eqn:E. destruct t.
  - simpl. rewrite E. auto.
  - cbn [nth firstn]. rewrite IHins by lia. unfold after. simpl. rewrite E. auto.
Qed.
Lemma after_snoc {St} (step : St -> list Z -> list Z * St) st ins s :
  after step st (ins ++ [s]) = snd (step (after step st ins) s).
Proof. unfold after. rewrite fold_left_app. auto. Qed.

(** ** flat arrays *)
Lemma nth_flat_const A n c (f : nat -> list A) i k (d : A) :
  (forall i, (i < n)%nat -> length (f i) = c) -> (i < n)%nat -> (k < c)%nat ->
  nth (i * c + k) (flat_map f (seq 0 n)) d = nth k (f i) d.
Proof.
  assert (forall n s, (forall i, (s <= i < s + n)%nat -> length (f i) = c) ->
    forall i, (i < n)%nat -> (k < c)%nat -> nth (i * c + k) (flat_map f (seq s n)) d = nth k (f (s + i)%nat) d) as G.
  { clear. induction n; intros s H i Hi Hk; [lia|]. cbn [seq flat_map]. destruct i.
    - rewrite app_nth1 by (rewrite H; lia). rewrite Nat.add_0_r. auto.
    - rewrite app_nth2 by (rewrite H; simpl; lia). rewrite H by lia.
      replace (S i * c + k - c)%nat with (i * c + k)%nat by lia.
      rewrite IHn by (auto; try lia; intros; apply H; lia). f_equal. f_equal. lia. }
  intros. rewrite G; auto; intros; apply H; lia.
Qed.
Lemma flat_const_length A n c (f : nat -> list A) s :
  (forall i, (s <= i < s + n)%nat -> length (f i) = c) -> length (flat_map f (seq s n)) = (n * c)%nat.
Proof.
  revert s. induction n; intros s H; auto. cbn [seq flat_map]. rewrite app_length, H by lia.
  rewrite IHn; [lia|]. intros; apply H; lia.
Qed.

Lemma zero_col0_length c l : length (zero_col0 c l) = length l.
Proof. unfold zero_col0. rewrite map_length, combine_length, seq_length. lia. Qed.
Lemma zero_col0_nth c l p : (p < length l)%nat ->
  nth p (zero_col0 c l) 0 = if Nat.eqb (p mod c) 0 then 0 else nth p l 0.
Proof.
  intros Hp. unfold zero_col0. rewrite (nth_map_in _ _ _ _ _ (0%nat, 0)) by (rewrite combine_length, seq_length; lia).
  rewrite combine_nth by (rewrite seq_length; auto). simpl. rewrite seq_nth by auto. auto.
Qed.
Lemma roll_left_length l : length (roll_left l) = length l.
Proof. destruct l; auto. simpl. rewrite app_length. simpl. lia. Qed.
Lemma roll_left_nth l p : (p < length l)%nat ->
  nth p (roll_left l) 0 = if (p + 1 <? length l)%nat then nth (p + 1) l 0 else nth 0 l 0.
Proof.
  destruct l as [|x r]; simpl; [lia|]. intros Hp.
  destruct (Nat.ltb_spec (p + 1) (S (length r))).
  - rewrite app_nth1 by lia. replace (p + 1)%nat with (S p) by lia. auto.
  - rewrite app_nth2 by lia. replace (p - length r)%nat with 0%nat by lia. auto.
Qed.
Lemma update_act_length wr c buf act : length act = length buf -> length (update_act wr c buf act) = length buf.
Proof. intros. unfold update_act, add_in. rewrite map2_length, roll_left_length, zero_col0_length. lia. Qed.
Lemma update_cell wr c n buf act i k :
  (0 < c)%nat -> length buf = (n * c)%nat -> length act = (n * c)%nat -> (i < n)%nat -> (k < c)%nat ->
  nth (i * c + k) (update_act wr c buf act) 0
  = wr ((if (k + 1 <? c)%nat then nth (i * c + (k + 1)) buf 0 else 0) + nth (i * c + k) act 0).
Proof.
  intros Hc Hb Ha Hi Hk. assert (i * c + k < n * c)%nat as Hp by nia.
  unfold update_act, add_in.
  rewrite (map2_nth _ _ _ _ _ _ _ 0 0) by (rewrite ?roll_left_length, ?zero_col0_length; lia).
  f_equal. f_equal. rewrite roll_left_nth by (rewrite zero_col0_length; lia). rewrite zero_col0_length.
  destruct (Nat.ltb_spec (k + 1) c).
  - destruct (Nat.ltb_spec (i * c + k + 1) (length buf)) as [H1|H1]; [|nia].
    rewrite zero_col0_nth by auto.
    replace ((i * c + k + 1) mod c)%nat with (k + 1)%nat.
    + destruct (Nat.eqb_spec (k + 1) 0); [lia|]. f_equal. lia.
    + symmetry. replace (i * c + k + 1)%nat with (k + 1 + i * c)%nat by lia.
      rewrite Nat.mod_add by lia. apply Nat.mod_small. auto.
  - replace (i * c + k + 1)%nat with ((i + 1) * c)%nat by nia.
    destruct (Nat.ltb_spec ((i + 1) * c) (length buf)).
    + rewrite zero_col0_nth by auto. rewrite Nat.mod_mul by lia. auto.
    + rewrite zero_col0_nth by lia. rewrite Nat.mod_0_l by lia. auto.
Qed.

(** ** the shift register: after the activations [act 0 .. act (t-1)], the cell (i, k) holds what is due
    at step t + k *)
Definition reg_after (wr : Z -> Z) (c : nat) (buf : list Z) (acts : list (list Z)) : list Z :=
  fold_left (fun b a => update_act wr c b a) acts buf.
Lemma reg_after_spec wr c n acts :
  (forall x y, wr (wr x + y) = wr (x + y)) -> wr 0 = 0 -> (0 < c)%nat ->
  (forall a, In a acts -> length a = (n * c)%nat) ->
  length (reg_after wr c (repeat 0 (n * c)) acts) = (n * c)%nat /\
  forall i k, (i < n)%nat -> (k < c)%nat ->
  nth (i * c + k) (reg_after wr c (repeat 0 (n * c)) acts) 0
  = wr (sum_upto c (fun d => if ((k <=? d) && (d - k <? length acts))%nat
                             then nth (i * c + d) (nth (length acts - 1 - (d - k)) acts []) 0 else 0)).
Proof.
  intros Hwr H0 Hc. induction acts as [|a acts IH] using rev_ind; intros Hl.
  - split; [apply repeat_length|]. intros i k Hi Hk. simpl reg_after. rewrite nth_repeat.
    rewrite sum_upto_0; auto. intros. destruct (k <=? j)%nat; auto.
  - destruct IH as [IHl IH]; [intros; apply Hl; apply in_or_app; auto|].
    unfold reg_after in *. rewrite fold_left_app. cbn [fold_left].
    set (b := fold_left _ acts _) in *.
    assert (length a = (n * c)%nat) as Ha by (apply Hl; apply in_or_app; simpl; auto).
    split; [rewrite update_act_length; lia|].
    intros i k Hi Hk. rewrite (update_cell _ _ n) by auto.
    rewrite app_length. cbn [length]. rewrite (Nat.add_comm (length acts) 1). cbn [Nat.add].
    destruct (Nat.ltb_spec (k + 1) c) as [Hk1|Hk1].
    + rewrite IH by auto. rewrite Hwr. f_equal. symmetry.
      apply sum_upto_point with k; auto.
      * intros d Hd Hdk. destruct (Nat.leb_spec k d); destruct (Nat.leb_spec (k + 1) d); try lia; auto.
        cbn [andb]. destruct (Nat.ltb_spec (d - k) (S (length acts))); destruct (Nat.ltb_spec (d - (k + 1)) (length acts)); try lia; auto.
        f_equal. rewrite app_nth1 by lia. f_equal. lia.
      * rewrite Nat.leb_refl, Nat.sub_diag. cbn [andb Nat.ltb Nat.leb].
        rewrite app_nth2 by lia. replace (S (length acts) - 1 - 0 - length acts)%nat with 0%nat by lia. auto.
      * destruct (Nat.leb_spec (k + 1) k); [lia|]. auto.
    + f_equal. symmetry. rewrite (sum_upto_point c _ (fun _ => 0) k (nth (i * c + k) a 0)); auto.
      * rewrite sum_upto_0; auto.
      * intros d Hd Hdk. destruct (Nat.leb_spec k d); [lia|]. auto.
      * rewrite Nat.leb_refl, Nat.sub_diag. cbn [andb Nat.ltb Nat.leb].
        rewrite app_nth2 by lia. replace (S (length acts) - 1 - 0 - length acts)%nat with 0%nat by lia. auto.
Qed.
