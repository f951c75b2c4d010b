(** Model of bit-level helpers: BitCheck (/repo/src/lava/proc/bit_check/models.py), signed_clamp
    (/repo/src/lava/proc/conv/utils.py 67-84) and weightutils.py, elementwise where numpy is. *)
From Coq Require Import ZArith List Bool.
From Verif Require Import NpInt.
Import ListNotations.
Open Scope Z_scope.

(** ** BitCheck: check_bit_overflow 82-91; [value]s of any integer type are cast to int32 *)
Definition fits (bits v : Z) : bool :=
  let x := w32 v in
  let s := 32 - bits in
  (Z.shiftr (w32 (Z.shiftl x s)) s) =? x.
Definition check_bit_overflow (bits : Z) (vs : list Z) : bool := negb (forallb (fits bits) vs).
(** run_post_mgmt 47-80 runs after every step (post_guard 44): _overflowed is set, never cleared *)
Definition bit_check (bits : Z) (o : Z) (vs : list Z) : Z := if check_bit_overflow bits vs then 1 else o.

(** ** conv/utils.py signed_clamp *)
Definition signed_clamp (x bits : Z) : Z :=
  let base := Z.shiftl 1 bits in (x + base / 2) mod base - base / 2.

(** ** weightutils.py *)
Inductive sign_mode := Mixed | Excitatory | Inhibitory.
Definition is_mixed (m : sign_mode) : Z := match m with Mixed => 1 | _ => 0 end.
Definition negate (m : sign_mode) (w : Z) : Z := match m with Inhibitory => - w | _ => w end.

Fixpoint lmax (x : Z) (l : list Z) : Z := match l with [] => x | y :: r => lmax (Z.max x y) r end.
Fixpoint lmin (x : Z) (l : list Z) : Z := match l with [] => x | y :: r => lmin (Z.min x y) r end.
Definition np_max (l : list Z) : Z := match l with [] => 0 | x :: r => lmax x r end.
Definition np_min (l : list Z) : Z := match l with [] => 0 | x :: r => lmin x r end.

(** determine_sign_mode 22-44 (of a non-empty matrix) *)
Definition determine_sign_mode (ws : list Z) : sign_mode :=
  if 0 <=? np_min ws then Excitatory else if np_max ws <=? 0 then Inhibitory else Mixed.

(** truncate_weights 206-250 *)
Definition truncate (m : sign_mode) (num_bits max_bits w : Z) : Z :=
  let t := max_bits - num_bits + is_mixed m in
  negate m (Z.shiftl (Z.shiftr (negate m w) t) t).
(** clip_weights 253-297 *)
Definition clip_weight (m : sign_mode) (num_bits : Z) (learning : bool) (w : Z) : Z :=
  let lo := (- 2 ^ num_bits) * is_mixed m in
  let hi := 2 ^ num_bits - 1 - (if learning then 1 else 0) * is_mixed m in
  negate m (clip lo hi (negate m w)).

(** _validate_weights 95-119 *)
Definition validate (m : sign_mode) (ws : list Z) : bool :=
  let mixed := is_mixed m in
  let exc := match m with Excitatory => 1 | _ => 0 end in
  let inh := match m with Inhibitory => 1 | _ => 0 end in
  let lo := (- 256) * (mixed + inh) + inh in
  let hi := 255 * (mixed + exc) in
  negb ((hi <? np_max ws) || (np_min ws <? lo)).
(** floor(log2(p / q)) for p, q > 0.  The code computes it in floating point; for the quotients that
    occur (127/k, 128/k, 255/k with k at most 256) the result is exact. *)
Definition flog2 (p q : Z) : Z := if q <=? p then Z.log2 (p / q) else - Z.log2_up ((q + p - 1) / p).
(** _determine_weight_exp 122-165 (floor and log2 are monotone, so the minimum may be taken last) *)
Definition weight_exp (m : sign_mode) (ws : list Z) : Z :=
  let hi := np_max ws in
  let lo := np_min ws in
  if (hi =? 0) && (lo =? 0) then 0
  else match m with
       | Mixed =>
           let s := if 0 <? hi then (if lo <? 0 then Z.min (flog2 127 hi) (flog2 128 (- lo)) else flog2 127 hi) else flog2 128 (- lo) in
           - (s + 1)
       | Inhibitory => - flog2 255 (- lo)
       | Excitatory => - flog2 255 hi
       end.
(** _determine_num_weight_bits 168-203: the rounding error of w / 2^n is zero iff 2^n divides w *)
Fixpoint precision (n : nat) (ws : list Z) : Z :=
  match n with
  | O => 0
  | S k => if forallb (fun w => w mod 2 ^ Z.of_nat n =? 0) ws then Z.of_nat n else precision k ws
  end.
Definition num_weight_bits (m : sign_mode) (ws : list Z) : Z := 8 + weight_exp m ws - (precision 8 ws - is_mixed m).
(** numpy's int32 << b for an int b: 0 when b is negative or at least 32 (npy_lshift) *)
Definition np_shl (w b : Z) : Z := if (0 <=? b) && (b <? 32) then w32 (Z.shiftl w b) else 0.
(** optimize_weight_bits 54-92 with loihi2=False: weights, num_weight_bits, weight_exp; [None] = ValueError *)
Definition optimize (m : sign_mode) (ws : list Z) : option (list Z * Z * Z) :=
  if validate m ws
  then Some (map (fun w => np_shl w (- weight_exp m ws)) ws, num_weight_bits m ws, weight_exp m ws)
  else None.
