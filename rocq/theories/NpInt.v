(** numpy's fixed-width signed integers: two's complement wrap-around and basic facts. *)
From Coq Require Import ZArith Lia Bool.
Open Scope Z_scope.

(** the value of [x] stored in a signed integer of [w] bits *)
Definition wrap (w : Z) (x : Z) : Z := (x + 2 ^ (w - 1)) mod 2 ^ w - 2 ^ (w - 1).
Definition w32 : Z -> Z := wrap 32.

Lemma wrap_id w x : 0 < w -> - 2 ^ (w - 1) <= x < 2 ^ (w - 1) -> wrap w x = x.
Proof.
  intros Hw H. unfold wrap. assert (2 ^ w = 2 * 2 ^ (w - 1)) as E.
  { replace w with (Z.succ (w - 1)) at 1 by lia. rewrite Z.pow_succ_r by lia. lia. }
  rewrite Z.mod_small; lia.
Qed.
Lemma wrap_range w x : 0 < w -> - 2 ^ (w - 1) <= wrap w x < 2 ^ (w - 1).
Proof.
  intros Hw. unfold wrap. assert (2 ^ w = 2 * 2 ^ (w - 1)) as E.
  { replace w with (Z.succ (w - 1)) at 1 by lia. rewrite Z.pow_succ_r by lia. lia. }
  assert (0 < 2 ^ (w - 1)) by (apply Z.pow_pos_nonneg; lia).
  pose proof (Z.mod_pos_bound (x + 2 ^ (w - 1)) (2 ^ w) ltac:(lia)). lia.
Qed.
Lemma wrap_mod w x : 0 < w -> (wrap w x) mod 2 ^ w = x mod 2 ^ w.
Proof.
  intros Hw. unfold wrap. rewrite Zminus_mod, Z.mod_mod, <- Zminus_mod by (apply Z.pow_nonzero; lia).
  f_equal. lia.
Qed.
Lemma w32_id x : - 2147483648 <= x < 2147483648 -> w32 x = x.
Proof. intros. apply wrap_id; [lia|]. change (2 ^ (32 - 1)) with 2147483648. lia. Qed.

(** np.clip *)
Definition clip (lo hi x : Z) : Z := Z.min (Z.max x lo) hi.
Lemma clip_range lo hi x : lo <= hi -> lo <= clip lo hi x <= hi.
Proof. unfold clip. lia. Qed.
Lemma clip_id lo hi x : lo <= x <= hi -> clip lo hi x = x.
Proof. unfold clip. lia. Qed.

(** np.sign(x) * np.right_shift(np.abs(x), k): division by 2^k that rounds towards zero *)
Definition sgn_shift (x k : Z) : Z := Z.sgn x * Z.shiftr (Z.abs x) k.
Lemma sgn_shift_quot x k : 0 <= k -> sgn_shift x k = Z.quot x (2 ^ k).
Proof.
  intros Hk. unfold sgn_shift. rewrite Z.shiftr_div_pow2 by auto.
  assert (0 < 2 ^ k) as Hp by (apply Z.pow_pos_nonneg; lia).
  rewrite Z.quot_div by lia. rewrite (Z.sgn_pos (2 ^ k)) by lia. rewrite Z.mul_1_r, (Z.abs_eq (2 ^ k)) by lia. auto.
Qed.
Lemma quot_abs_lt x k : 0 < k -> Z.abs (Z.quot x k) <= Z.abs x.
Proof.
  intros. rewrite <- Z.quot_abs by lia. rewrite (Z.abs_eq k) by lia.
  rewrite Z.quot_div_nonneg by lia. apply Z.div_le_upper_bound; nia.
Qed.
