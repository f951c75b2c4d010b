(** Model of the predefined learning rules:
    /repo/src/lava/magma/core/learning/utils.py float_to_literal 52-80,
    /repo/src/lava/proc/learning_rules/stdp_learning_rule.py STDPLoihi 41-50,
    /repo/src/lava/proc/learning_rules/r_stdp_learning_rule.py RewardModulatedSTDP 53-77.
    A Python float is a rational number (NaN and infinities, for which int() raises, are left out).
    Simplification: the quotient |x| / mantissa and its logarithm are exact, where Python rounds both to doubles; this
    matters only for quotients within an ulp or so of a power of two times the square root of 2. *)
From Coq Require Import ZArith QArith Qabs Qround List Bool Ascii String.
From Verif Require Import Rule_Model.
Import ListNotations.
Open Scope Z_scope.

(** ** str(int) *)
Definition digit_char (d : Z) : ascii := ascii_of_nat (48 + Z.to_nat d).
Fixpoint decimal (fuel : nat) (z : Z) : chars :=
  match fuel with
  | O => []
  | S k => if z <? 10 then [digit_char z] else decimal k (z / 10) ++ [digit_char (z mod 10)]
  end.
Definition show_int (z : Z) : chars :=
  (if z <? 0 then ["-"%char] else []) ++ decimal (S (Z.to_nat (Z.log2 (Z.abs z)))) (Z.abs z).

(** ** utils.py float_to_literal 52-80 *)
(** the largest k with 2^k <= q, for q > 0 *)
Definition floor_log2 (q : Q) : Z :=
  let k := Z.log2 (Qnum q) - Z.log2 (Zpos (Qden q)) in
  if Qle_bool (Qpower 2 k) q then k else k - 1.
(** int(np.round(np.log2(r))): the logarithm of a rational number is never half-way between integers, so this is the e
    with 2^(2e-1) <= r^2 < 2^(2e+1) *)
Definition round_log2 (r : Q) : Z := (floor_log2 (r * r) + 1) / 2.
Definition qsign (x : Q) : Z := Z.sgn (Qnum x).
Definition mantissa (x : Q) : Z := Z.max (Qfloor (Qabs x)) 1.                       (* 71-72 *)
Definition remainder (x : Q) : Q := (Qabs x / inject_Z (mantissa x))%Q.            (* 73 *)
Definition float_to_literal (x : Q) : chars :=
  if Qeq_bool x 0 then ["0"%char]                                                  (* 66-67 *)
  else
    let m := "("%char :: show_int (qsign x * mantissa x) ++ [")"%char] in
    if Qeq_bool (remainder x) 1 then m                                             (* 75-76 *)
    else m ++ list_ascii_of_string " * 2 ^ " ++ show_int (round_log2 (remainder x)).   (* 78-79 *)

(** ** stdp_learning_rule.py 41-50: the rule for the weight *)
Definition stdp_dw (learning_rate a_plus a_minus : Q) : string :=
  string_of_list_ascii
    (float_to_literal learning_rate ++ list_ascii_of_string " * " ++ float_to_literal a_minus ++ list_ascii_of_string " * x0 * y1 +"
     ++ float_to_literal learning_rate ++ list_ascii_of_string " * " ++ float_to_literal a_plus ++ list_ascii_of_string " * y0 * x1").

(** ** r_stdp_learning_rule.py 71-77: the rules for the eligibility trace and the weight *)
Definition rstdp_dt (learning_rate a_plus a_minus tau : Q) : string :=
  string_of_list_ascii
    (float_to_literal learning_rate ++ list_ascii_of_string " * " ++ float_to_literal a_minus ++ list_ascii_of_string " * x0 * y1 + "
     ++ float_to_literal learning_rate ++ list_ascii_of_string " * " ++ float_to_literal a_plus ++ list_ascii_of_string " * y0 * x1 - "
     ++ list_ascii_of_string "u0 * t * " ++ float_to_literal tau).
Definition rstdp_dw : string := " u0 * t * y2 ".
