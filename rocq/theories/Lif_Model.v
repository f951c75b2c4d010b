(** Model of the LIF neuron models of /repo/src/lava/proc/lif/models.py.  numpy's operations on the
    population are elementwise and du, dv, vth are common scalars, so one neuron is modelled. *)
From Coq Require Import ZArith List Bool.
From Verif Require Import NpInt.
Import ListNotations.
Open Scope Z_scope.

(** ** Fixed point: AbstractPyLifModelFixed (72-220) and PyLifModelBitAcc (244-283) *)

(** Variables that the dynamics reads only.  [adt] is the width of the integer type of the received
    activation (int32 for the Dense, Sparse and Conv models, 16 if the sender's port is int16). *)
Record params := { du : Z; dv : Z; bias_mant : Z; bias_exp : Z; adt : Z }.
(** u, v, the variable vth and the cached effective_vth ([None] until isthrscaled) *)
Record lif := { u : Z; v : Z; vth : Z; eff : option Z }.

(** scale_bias (110-122); the exponent is below 32 in magnitude *)
Definition effective_bias (P : params) : Z :=
  if 0 <=? bias_exp P then w32 (bias_mant P * 2 ^ bias_exp P) else Z.shiftr (bias_mant P) (- bias_exp P).

Definition max_uv : Z := 8388608.   (* 2 ** (24 - 1), line 97 *)
(** 153-158 and 184-188: int64 product, sign * (abs >> 12), back to int32 *)
Definition decayed (x c : Z) : Z := w32 (sgn_shift (x * (4096 - c)) 12).
(** 161: np.left_shift(activation_in, 6) in the type of the activation *)
Definition aligned (P : params) (a : Z) : Z := wrap (adt P) (a * 64).
(** 163-178: subthr_dynamics, current; ds_offset = 1 *)
Definition current (P : params) (x a : Z) : Z :=
  let d := w32 (decayed x (du P + 1) + aligned P a) in
  let w := if max_uv <? d then w32 (d - 2 * max_uv) else d in
  if w <=? - max_uv then w32 (d + 2 * max_uv) else w.
(** 181-191: voltage; dm_offset = 0; [x] is the new current *)
Definition voltage (P : params) (y x : Z) : Z :=
  clip (- max_uv + 1) (max_uv - 1) (w32 (decayed y (dv P) + x + effective_bias P)).
(** scale_threshold (268-275), done once *)
Definition threshold (s : lif) : Z := match eff s with Some t => t | None => vth s * 64 end.
(** run_spk (198-220) with spiking_activation v > effective_vth (277-279) and reset_voltage (193-197).
    Result: the new state and the spike that is sent. *)
Definition run_spk (P : params) (s : lif) (a : Z) : lif * bool :=
  let x := current P (u s) a in
  let y := voltage P (v s) x in
  let t := threshold s in
  let spike := t <? y in
  ({| u := x; v := if spike then 0 else y; vth := vth s; eff := Some t |}, spike).

(** Var.set on vth while the runtime is paused *)
Inductive event := Step (a : Z) | SetVth (x : Z).
Definition handle (P : params) (s : lif) (e : event) : lif :=
  match e with
  | Step a => fst (run_spk P s a)
  | SetVth x => {| u := u s; v := v s; vth := x; eff := eff s |}
  end.
Definition history (P : params) (s : lif) (es : list event) : lif := fold_left (handle P) es s.

(** PyLifResetModelBitAcc.run_spk (417-445): [t] is the time step *)
Definition run_spk_reset (P : params) (interval offset t : Z) (s : lif) (a : Z) : lif * bool :=
  let s' := if t mod interval =? offset mod interval
            then {| u := 0; v := 0; vth := vth s; eff := eff s |} else s in
  run_spk P s' a.
(** the outputs of steps t, t+1, ... *)
Fixpoint outputs_reset (P : params) (interval offset t : Z) (s : lif) (as_ : list Z) : list bool :=
  match as_ with
  | [] => []
  | a :: r => let '(s', b) := run_spk_reset P interval offset t s a in b :: outputs_reset P interval offset (t + 1) s' r
  end.
Fixpoint state_reset (P : params) (interval offset t : Z) (s : lif) (as_ : list Z) : lif :=
  match as_ with
  | [] => s
  | a :: r => state_reset P interval offset (t + 1) (fst (run_spk_reset P interval offset t s a)) r
  end.

(** PyTernLifModelFixed (308-352): thresholds scaled as above; booleans times -1 plus booleans *)
Definition tern_spike (lo hi y : Z) : Z := (-1) * (if y <? lo * 64 then 1 else 0) + (if hi * 64 <? y then 1 else 0).
Definition tern_step (P : params) (lo hi : Z) (s : Z * Z) (a : Z) : (Z * Z) * Z :=
  let x := current P (fst s) a in
  let y := voltage P (snd s) x in
  let o := tern_spike lo hi y in
  ((x, if negb (o =? 0) then 0 else y), o).

(** ** Floating point.  The arithmetic is left abstract: [F] with the operations the code uses, so that
    the model covers IEEE arithmetic. *)
Section Float.
Variable F : Type.
Variable zero one : F.
Variable add mul sub : F -> F -> F.
Variable gt : F -> F -> bool.
Record fparams := { fdu : F; fdv : F; fbias : F; fvth : F; period : Z }.
(** u, v and refractory_period_end *)
Record refl := { fu : F; fv : F; rend : Z }.

(** PyLifRefractoryModelFloat (448-498) at time step [t] *)
Definition refr_step (P : fparams) (t : Z) (s : refl) (a : F) : refl * bool :=
  let x := add (mul (fu s) (sub one (fdu P))) a in
  let y := if rend s <? t then add (mul (fv s) (sub one (fdv P))) (add x (fbias P)) else fv s in
  let spike := gt y (fvth P) in
  ({| fu := x; fv := if spike then zero else y; rend := if spike then t + period P else rend s |}, spike).
(** states and spikes of steps t, t+1, ...: the k-th entry is (state after the step, spike of the step) *)
Fixpoint refr_run (P : fparams) (t : Z) (s : refl) (as_ : list F) : list (refl * bool) :=
  match as_ with
  | [] => []
  | a :: r => let o := refr_step P t s a in o :: refr_run P (t + 1) (fst o) r
  end.
End Float.
