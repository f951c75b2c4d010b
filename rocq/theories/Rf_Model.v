(** Model of the resonate-and-fire neurons: RF (/repo/src/lava/proc/rf/models.py), RF_IZ
    (/repo/src/lava/proc/rf_iz/models.py) and RFZero (/repo/src/lava/proc/resfire/models.py).
    numpy's operations are elementwise, so one neuron is modelled; the state is (real, imag). *)
From Coq Require Import ZArith List Bool.
From Verif Require Import NpInt.
Import ListNotations.
Open Scope Z_scope.

(** ** RF and RF_IZ, fixed point *)
(** Vars of rf/process.py 77-83 (sin_decay and cos_decay are the integers computed at 70-72); [c_dec] and
    [s_dec] times the state stays far below 2^63, so int64 products are exact *)
Record params := { s_dec : Z; c_dec : Z; state_exp : Z; decay_bits : Z; vth : Z }.
Definition lim : Z := 8388607.                       (* rf/models.py 107-111: 2 ** (24 - 1) - 1 *)
(** scale_volt 113-115 *)
Definition scale_volt (P : params) (x : Z) : Z := sgn_shift x (decay_bits P).
(** 128-131: np.left_shift; int16 promoted to int32 by the int32 exponent *)
Definition shifted (P : params) (a : Z) : Z := w32 (a * 2 ^ state_exp P).
(** resonator_dynamics 52-59 and np.clip 138-141; the result is stored into int32 arrays *)
Definition dynamics (P : params) (z : Z * Z) (a b : Z) : Z * Z :=
  let re := scale_volt P (c_dec P * fst z) - scale_volt P (s_dec P * snd z) + shifted P a in
  let im := scale_volt P (s_dec P * fst z) + scale_volt P (c_dec P * snd z) + shifted P b in
  (clip (- lim) lim re, clip (- lim) lim im).

(** PyRFModelFixed.run_spk 127-145 *)
Definition rf_step (P : params) (z : Z * Z) (i : Z * Z) : (Z * Z) * bool :=
  let z' := dynamics P z (fst i) (snd i) in
  (z', (vth P <=? fst z') && (0 <=? snd z') && (snd z <? 0)).
(** PyRF_IZModelFixed.run_spk, rf_iz/models.py 39-58 *)
Definition iz_step (P : params) (z : Z * Z) (i : Z * Z) : (Z * Z) * bool :=
  let z' := dynamics P z (fst i) (snd i) in
  let spike := vth P <=? snd z' in
  let s := if spike then 1 else 0 in
  ((fst z' * (1 - s), s * (vth P - 1) + (1 - s) * snd z'), spike).

Section Run.
Variables St I O : Type.
Variable step : St -> I -> St * O.
(** the states after and the outputs of the steps on a list of inputs *)
Fixpoint run (z : St) (is_ : list I) : list (St * O) :=
  match is_ with
  | [] => []
  | i :: r => let o := step z i in o :: run (fst o) r
  end.
Definition final (z : St) (is_ : list I) : St := fold_left (fun z i => fst (step z i)) is_ z.
End Run.

(** ** RFZero: resfire/models.py 34-49.  All arrays are int32: the products wrap; // rounds down *)
Record zparams := { lst : Z; lct : Z; uth : Z }.
Definition z32 (x y : Z) : Z := w32 (x * y) / 32768.
Definition zero_step (P : zparams) (z : Z * Z) (i : Z * Z) : (Z * Z) * Z :=
  let u := fst z in let v := snd z in
  let nu := w32 (w32 (z32 u (lct P) - z32 v (lst P)) + fst i) in
  let nv := w32 (w32 (z32 v (lct P) + z32 u (lst P)) + snd i) in
  ((nu, nv), w32 (nu * (if uth P <? nu then 1 else 0) * (if 0 <=? nv then 1 else 0) * (if v <? 0 then 1 else 0))).

(** ** Floating point RF (rf/models.py 50-59, 76-88) over an abstract arithmetic, so IEEE is covered *)
Section Float.
Variable F : Type.
Variable zero : F.
Variables add sub mul : F -> F -> F.
Variables ge lt : F -> F -> bool.
Record fparams := { fs : F; fc : F; fth : F }.
Definition frf_step (P : fparams) (z : F * F) (i : F * F) : (F * F) * bool :=
  let re := add (sub (mul (fc P) (fst z)) (mul (fs P) (snd z))) (fst i) in
  let im := add (add (mul (fs P) (fst z)) (mul (fc P) (snd z))) (snd i) in
  ((re, im), ge re (fth P) && ge im zero && lt (snd z) zero).
End Float.
