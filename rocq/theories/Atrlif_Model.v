(** Model of PyATRLIFModelFixed (/repo/src/lava/proc/atrlif/models.py 92-267), one neuron (all numpy
    operations are elementwise, the parameters are common scalars).
    Decay parameters: delta_x = [d_x] / 4096, the precision the model works with.  A Var of Python type
    int keeps its value (py_builder.py 403-404), so delta_i may be a Python float or a Python int:
    [di_float] tells which; the product with the int32 current is computed in float64 or in int32. *)
From Coq Require Import ZArith List Bool.
From Verif Require Import NpInt.
Import ListNotations.
Open Scope Z_scope.

(** [th0] and [th_step]: theta_0 and theta_step after scale_threshold 222-232 (times 64);
    [adt]: width of the integers the activation arrives in *)
Record params := { d_i : Z; d_v : Z; d_th : Z; d_r : Z; di_float : bool; th0 : Z; th_step : Z;
                   bias_mant : Z; bias_exp : Z; adt : Z }.
Record st := { cur : Z; vol : Z; theta : Z; refr : Z; scaled : bool }.

Definition max_iv : Z := 8388608.
(** scale_bias 208-220 *)
Definition effective_bias (P : params) : Z :=
  if 0 <=? bias_exp P then w32 (bias_mant P * 2 ^ bias_exp P) else Z.shiftr (bias_mant P) (- bias_exp P).
(** sign * (abs >> 12) *)
Definition shr12 (x : Z) : Z := sgn_shift x 12.
(** current, 142-171 *)
Definition new_cur (P : params) (x a : Z) : Z :=
  let k := 4096 - (d_i P + 1) in
  let p := if di_float P then x * k else w32 (x * k) in
  let u := w32 (shr12 p + wrap (adt P) (a * 64)) in
  let w := if max_iv <? u then w32 (u - 2 * max_iv) else u in
  if w <=? - max_iv then w32 (u + 2 * max_iv) else w.
(** voltage, 173-184 *)
Definition new_vol (P : params) (y x : Z) : Z :=
  clip (- max_iv + 1) (max_iv - 1) (w32 (shr12 (y * (4096 - d_v P)) + x + effective_bias P)).
(** threshold, 186-195 *)
Definition new_theta (P : params) (t : Z) : Z := w32 (w32 (shr12 (w32 (t - th0 P) * (4096 - d_th P))) + th0 P).
(** refractoriness, 197-206 *)
Definition new_refr (P : params) (r : Z) : Z := w32 (shr12 (r * (4096 - d_r P))).
(** run_spk 247-267 with scale_threshold (once) and post_spike 234-245 *)
Definition step (P : params) (s : st) (a : Z) : st * bool :=
  let t := if scaled s then theta s else th0 P in
  let x := new_cur P (cur s) a in
  let y := new_vol P (vol s) x in
  let th := new_theta P t in
  let r := new_refr P (refr s) in
  let spike := th <=? w32 (y - r) in
  ({| cur := x; vol := y; theta := if spike then w32 (th + th_step P) else th;
      refr := if spike then w32 (r + w32 (2 * th)) else r; scaled := true |}, spike).
Definition after (P : params) (s : st) (as_ : list Z) : st := fold_left (fun s a => fst (step P s a)) as_ s.
(** the spikes of the steps *)
Fixpoint spikes (P : params) (s : st) (as_ : list Z) : list bool :=
  match as_ with [] => [] | a :: r => snd (step P s a) :: spikes P (fst (step P s a)) r end.
(** atrlif/process.py 118-131: the state given by the user *)
Definition initial (i v th r : Z) : st := {| cur := i; vol := v; theta := th; refr := r; scaled := false |}.
