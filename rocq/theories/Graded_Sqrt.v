(** C74: the fixed-point inverse square root. *)
From Coq Require Import ZArith List Bool Lia.
From Verif Require Import NpInt Graded_Model.
Open Scope Z_scope.

(** ** Specification.  With [fp] fractional bits the input s stands for s / 2^fp and the exact result is
    I = 2^fp / sqrt(s / 2^fp), so I^2 * s = 2^(3 fp).  [close_to fp s y]: y differs from I by at most 1% of I and 3 units,
    i.e. 0.99 * I <= y + 3 and y - 3 <= 1.01 * I, written without roots. *)
Definition close_to (fp s y : Z) : Prop :=
  0 <= y /\ 99 ^ 2 * 2 ^ (3 * fp) <= (100 * (y + 3)) ^ 2 * s /\ (3 < y -> (100 * (y - 3)) ^ 2 * s <= 101 ^ 2 * 2 ^ (3 * fp)).
Notation close := (close_to 12).

(** ** Interval version of the iteration; [None] if the correction factor could be negative *)
Fixpoint ieval (n : nat) (bl bh Yl Yh yl yh : Z) : option (Z * Z) :=
  match n with
  | O => Some (yl, yh)
  | S m =>
      let bl' := Z.shiftr (Z.shiftr (bl * Yl) 13 * Yl) 13 in
      let bh' := Z.shiftr (Z.shiftr (bh * Yh) 13 * Yh) 13 in
      if 12288 <? bh' then None
      else ieval m bl' bh' (12288 - bh') (12288 - bl') (Z.shiftr (yl * (12288 - bh')) 13) (Z.shiftr (yh * (12288 - bl')) 13)
  end.
Lemma shiftr_mono x y k : 0 <= k -> x <= y -> Z.shiftr x k <= Z.shiftr y k.
Proof. intros. rewrite !Z.shiftr_div_pow2 by lia. apply Z.div_le_mono; [apply Z.pow_pos_nonneg; lia|lia]. Qed.
Lemma shiftr_nonneg x k : 0 <= x -> 0 <= Z.shiftr x k.
Proof. intros. apply Z.shiftr_nonneg. lia. Qed.
Lemma ieval_sound : forall n bl bh Yl Yh yl yh b Y y a c, ieval n bl bh Yl Yh yl yh = Some (a, c) ->
  0 <= bl <= b -> b <= bh -> 0 <= Yl <= Y -> Y <= Yh -> 0 <= yl <= y -> y <= yh ->
  0 <= a <= iterate n 12 b Y y /\ iterate n 12 b Y y <= c.
Proof.
  induction n as [|n IH]; intros bl bh Yl Yh yl yh b Y y a c E Hb Hb' HY HY' Hy Hy'; cbn [ieval iterate] in *.
  - injection E as <- <-. lia.
  - change (12 + 1) with 13. change (Z.shiftl 3 12) with 12288.
    set (bl' := Z.shiftr (Z.shiftr (bl * Yl) 13 * Yl) 13) in *. set (bh' := Z.shiftr (Z.shiftr (bh * Yh) 13 * Yh) 13) in *.
    set (b' := Z.shiftr (Z.shiftr (b * Y) 13 * Y) 13) in *.
    assert (0 <= bl' <= b' /\ b' <= bh') as [B1 B2].
    { assert (0 <= Z.shiftr (bl * Yl) 13 <= Z.shiftr (b * Y) 13) as P1 by (split; [apply shiftr_nonneg; nia|apply shiftr_mono; nia]).
      assert (Z.shiftr (b * Y) 13 <= Z.shiftr (bh * Yh) 13) as P2 by (apply shiftr_mono; nia).
      unfold bl', bh', b'. split; [split; [apply shiftr_nonneg; nia|apply shiftr_mono; nia]|apply shiftr_mono; nia]. }
    destruct (Z.ltb_spec 12288 bh'); [discriminate|].
    eapply IH; [exact E|lia|lia|lia|lia| |apply shiftr_mono; nia].
    split; [apply shiftr_nonneg; nia|apply shiftr_mono; nia].
Qed.
Definition check (Y lo hi : Z) : bool :=
  match ieval 5 lo hi Y Y (Y / 2) (Y / 2) with
  | Some (a, c) => ((99 * 2 ^ 18) ^ 2 <=? (100 * (a + 3)) ^ 2 * lo) && ((100 * Z.max 0 (c - 3)) ^ 2 * hi <=? (101 * 2 ^ 18) ^ 2)
  | None => false
  end.
Fixpoint verify (fuel : nat) (Y lo hi : Z) : bool :=
  if check Y lo hi then true else
  match fuel with
  | O => false
  | S k => let m := (lo + hi) / 2 in if lo <? hi then verify k Y lo m && verify k Y (m + 1) hi else false
  end.
Lemma check_sound Y lo hi s : check Y lo hi = true -> 0 <= Y -> 0 < lo <= s -> s <= hi -> close s (iterate 5 12 s Y (Y / 2)).
Proof.
  unfold check, close_to. change (99 ^ 2 * 2 ^ (3 * 12)) with ((99 * 2 ^ 18) ^ 2). change (101 ^ 2 * 2 ^ (3 * 12)) with ((101 * 2 ^ 18) ^ 2).
  intros E HY L H. destruct (ieval 5 lo hi Y Y (Y / 2) (Y / 2)) as [[a c]|] eqn:V; [|discriminate].
  apply andb_prop in E. destruct E as [E1 E2]. apply Z.leb_le in E1, E2.
  assert (0 <= Y / 2) by (apply Z.div_pos; lia).
  destruct (ieval_sound _ _ _ _ _ _ _ s Y (Y / 2) _ _ V ltac:(lia) ltac:(lia) ltac:(lia) ltac:(lia) ltac:(lia) ltac:(lia)) as [A C].
  set (y := iterate 5 12 s Y (Y / 2)) in *. clearbody y. split; [lia|]. split.
  - assert ((100 * (a + 3)) ^ 2 <= (100 * (y + 3)) ^ 2) as P by (apply Z.pow_le_mono_l; lia).
    assert (0 <= (100 * (a + 3)) ^ 2) as Q by (apply Z.pow_nonneg; lia).
    eapply Z.le_trans; [exact E1|]. apply Z.mul_le_mono_nonneg; lia.
  - intros G. assert ((100 * (y - 3)) ^ 2 <= (100 * Z.max 0 (c - 3)) ^ 2) as P by (apply Z.pow_le_mono_l; lia).
    assert (0 <= (100 * (y - 3)) ^ 2) as Q by (apply Z.pow_nonneg; lia).
    eapply Z.le_trans; [|exact E2]. apply Z.mul_le_mono_nonneg; lia.
Qed.
Lemma verify_sound Y s : 0 <= Y -> forall fuel lo hi, verify fuel Y lo hi = true -> 0 < lo <= s -> s <= hi ->
  close s (iterate 5 12 s Y (Y / 2)).
Proof.
  intros HY. induction fuel as [|k IH]; intros lo hi E L H; cbn [verify] in E; destruct (check Y lo hi) eqn:C;
    try (eapply check_sound; eauto; fail); try discriminate.
  destruct (Z.ltb_spec lo hi) as [E0|E0]; [|discriminate]. apply andb_prop in E. destruct E as [E1 E2].
  pose proof (Z.div_mod (lo + hi) 2 ltac:(lia)). pose proof (Z.mod_pos_bound (lo + hi) 2 ltac:(lia)).
  destruct (Z.le_gt_cases s ((lo + hi) / 2)); [eapply IH; [exact E1|lia|lia]|eapply IH; [exact E2|lia|lia]].
Qed.
Fixpoint all_below (P : Z -> bool) (k : nat) : bool :=
  match k with O => true | S j => if P (Z.of_nat j) then all_below P j else false end.
Lemma all_below_sound P : forall k, all_below P k = true -> forall e, 0 <= e < Z.of_nat k -> P e = true.
Proof.
  induction k as [|k IH]; intros H e He; [lia|]. cbn [all_below] in H. destruct (P (Z.of_nat k)) eqn:A; [|discriminate].
  destruct (Z.eq_dec e (Z.of_nat k)) as [->|N]; [exact A|]. apply IH; [exact H|lia].
Qed.
Definition octave (e : Z) : bool := verify 24 (table_entry 12 (23 - e)) (2 ^ e) (2 ^ (e + 1) - 1).
Lemma octaves_ok : all_below octave 24 = true.
Proof. vm_cast_no_check (eq_refl true). Qed.
Lemma octave_ok e : 0 <= e < 24 -> octave e = true.
Proof. intro H. exact (all_below_sound octave 24 octaves_ok e H). Qed.
Lemma octave_close e s : octave e = true -> 0 <= e -> 2 ^ e <= s <= 2 ^ (e + 1) - 1 ->
  close s (iterate 5 12 s (table_entry 12 (23 - e)) (table_entry 12 (23 - e) / 2)).
Proof.
  unfold octave. generalize 24%nat as fuel. intros fuel H He Hs.
  assert (0 <= table_entry 12 (23 - e)) as HY
    by (unfold table_entry; pose proof (Z.sqrt_nonneg (2 ^ (3 * 12 - (23 - (23 - e))) * 10 ^ 18 / n_adj2)); lia).
  revert H HY. generalize (table_entry 12 (23 - e)) as Y. intros Y H HY.
  apply (verify_sound Y s HY fuel _ _ H); [split; [apply Z.pow_pos_nonneg; lia|]|]; apply Hs.
Qed.

(** ** For every 24-bit positive input the result is within 1% and 3 units of the exact inverse square root. *)
Theorem inv_sqrt_close_partial fp_base s : 0 < s < 2 ^ 24 -> close s (inv_step fp_base s).
Proof.
  intro H. unfold inv_step. destruct (Z.eqb_spec s 0); [lia|]. unfold inv_sqrt, clz.
  pose proof (Z.log2_spec s ltac:(lia)) as [L1 L2]. pose proof (Z.log2_nonneg s) as L0.
  assert (Z.log2 s < 24) as L3 by (apply Z.log2_lt_pow2; lia).
  replace (24 - (Z.log2 s + 1)) with (23 - Z.log2 s) by lia.
  apply octave_close; [apply octave_ok; lia|lia|]. rewrite <- Z.add_1_r in L2. lia.
Qed.
Theorem inv_sqrt_zero fp_base : inv_step fp_base 0 = 0.
Proof. reflexivity. Qed.
(** The fixed-point base given by the user plays no role: with 6 fractional bits 1.0 (= 64) has the inverse square
    root 1.0 (= 64), but the result is that for 12 fractional bits, 32802. *)
Theorem inv_sqrt_fp_base_refuted : exists fp s, 0 < s < 2 ^ 24 /\ ~ close_to fp s (inv_step fp s).
Proof.
  exists 6, 64. split; [lia|]. change (inv_step 6 64) with 32802. unfold close_to. intros (_ & _ & H).
  specialize (H ltac:(lia)). revert H. change (3 * 6) with 18. change (2 ^ 18) with 262144. lia.
Qed.
Example inv_sqrt_demo : inv_step 12 4096 = 4095 /\ inv_step 12 16384 = 2047 /\ inv_step 6 64 = 32802.
Proof. vm_compute. auto. Qed.
