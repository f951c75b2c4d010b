(** Model of the sigma-delta neurons (/repo/src/lava/proc/sdn/models.py, process.py) and of the delta
    encoder (/repo/src/lava/proc/io/encoder.py 42-151), for one element of the population (all numpy
    operations are elementwise, vth and the exponents are common scalars).  The fixed-point models are
    modelled with unbounded integers: the documented 24-bit quantities leave room in int32. *)
From Coq Require Import ZArith List Bool.
From Verif Require Import NpInt.
Import ListNotations.
Open Scope Z_scope.

(** act, residue, error of a Delta process; all initially 0 (process.py 102-104) *)
Record delta_st := { act : Z; residue : Z; error : Z }.
Definition delta0 : delta_st := {| act := 0; residue := 0; error := 0 |}.

(** delta_dynamics (models.py 67-97) followed by self.act = act_data (118, 218, 253) *)
Definition delta_dynamics (cum : bool) (vth : Z) (s : delta_st) (x : Z) : delta_st * Z :=
  let d := x - act s + residue s in
  if cum then
    let e := error s + d in
    let out := if vth <=? Z.abs e then d else 0 in
    ({| act := x; residue := d - out; error := e * (1 - if 0 <? Z.abs out then 1 else 0) |}, out)
  else
    let out := if vth <=? Z.abs d then d else 0 in
    ({| act := x; residue := d - out; error := error s |}, out).

(** PyDeltaModelFixed.run_spk (240-252); Delta.__init__ scales vth (process.py 98) *)
Definition delta_step (cum : bool) (vth spike_exp state_exp : Z) (s : delta_st) (a : Z) : delta_st * Z :=
  let '(s', o) := delta_dynamics cum (vth * 2 ^ (spike_exp + state_exp)) s (Z.shiftl a (spike_exp + state_exp)) in
  (s', Z.shiftr o state_exp).
(** AbstractSigmaModel.run_spk (51-54): sigma += input; sigma is sent *)
Definition sigma_step (g o : Z) : Z := o + g.
(** Delta.s_out connected to Sigma.a_in, step by step: state of the Delta, sigma *)
Definition chain_step (cum : bool) (vth se st : Z) (q : delta_st * Z) (a : Z) : delta_st * Z :=
  let '(s', o) := delta_step cum vth se st (fst q) a in (s', sigma_step (snd q) o).
Definition chain (cum : bool) (vth se st : Z) (as_ : list Z) : delta_st * Z :=
  fold_left (chain_step cum vth se st) as_ (delta0, 0).

(** ** SigmaDelta *)
Inductive act_mode := Unit | Relu.
(** activation_dynamics (120-151); SigmaDelta.__init__ scales the bias (process.py 207) *)
Definition activation (m : act_mode) (bias se st g : Z) : Z :=
  let x := g + bias * 2 ^ (se + st) in match m with Unit => x | Relu => Z.max x 0 end.
(** PySigmaDeltaModelFixed.run_spk (307-312): state = (sigma, delta state) *)
Definition sd_step (m : act_mode) (bias : Z) (cum : bool) (vth se st : Z) (q : Z * delta_st) (a : Z) : (Z * delta_st) * Z :=
  let g := sigma_step (fst q) a in
  let '(s', o) := delta_dynamics cum (vth * 2 ^ (se + st)) (snd q) (activation m bias se st g) in
  ((g, s'), Z.shiftr o st).
(** PySigmaDeltaModelFixedCorrected.run_spk (334-344): state = (sigma, act) *)
Definition sdc_step (m : act_mode) (bias vth se st : Z) (q : Z * Z) (a : Z) : (Z * Z) * Z :=
  let g := sigma_step (fst q) a in
  let x := activation m bias se st g in
  let d := x - snd q in
  let o := Z.shiftr (if vth * 2 ^ (se + st) <=? Z.abs d then d else 0) st in
  ((g, snd q + Z.shiftl o st), o).
(** the sum of all outputs = what a receiver's sigma holds *)
Fixpoint run_sum {S} (f : S -> Z -> S * Z) (s : S) (acc : Z) (as_ : list Z) : S * Z :=
  match as_ with
  | [] => (s, acc)
  | a :: r => let '(s', o) := f s a in run_sum f s' (acc + o) r
  end.

(** ** DeltaEncoder (encoder.py) *)
(** __init__ 86-94: vth, a_min, a_max; [bits = None] gives -1, -1 *)
Definition a_min (bits : option Z) (se : Z) : Z := match bits with Some n => Z.shiftl (- 2 ^ (n - 1)) se | None => -1 end.
Definition a_max (bits : option Z) (se : Z) : Z := match bits with Some n => Z.shiftl (2 ^ (n - 1) - 1) se | None => -1 end.
(** encode_delta 116-123: state (act, residue) *)
Definition encode_delta (vth : Z) (bits : option Z) (se : Z) (s : Z * Z) (x : Z) : (Z * Z) * Z :=
  let d := x - fst s + snd s in
  let o := if vth <=? Z.abs d then d else 0 in
  let o := if 0 <? a_max bits se then clip (a_min bits se) (a_max bits se) o else o in
  ((x, d - o), o).
(** PyDeltaEncoderModelDense.run_spk 143-147: sends the buffer of the previous step; state
    (act, residue, s_out_buf) *)
Definition enc_step (vth : Z) (bits : option Z) (se : Z) (q : (Z * Z) * Z) (a : Z) : ((Z * Z) * Z) * Z :=
  (encode_delta (vth * 2 ^ se) bits se (fst q) (Z.shiftl a se), snd q).
Definition enc0 : (Z * Z) * Z := ((0, 0), 0).
(** the values sent at the first steps *)
Fixpoint enc_outputs (vth : Z) (bits : option Z) (se : Z) (q : (Z * Z) * Z) (as_ : list Z) : list Z :=
  match as_ with
  | [] => []
  | a :: r => let '(q', o) := enc_step vth bits se q a in o :: enc_outputs vth bits se q' r
  end.
