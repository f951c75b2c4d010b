(** Model of the S4D neurons (/repo/src/lava/proc/s4d/models.py, process.py) over exact complex and rational numbers (no
    floating-point rounding): S4d, SigmaS4dDelta and SigmaS4dDeltaLayer. *)
From Coq Require Import List Arith Bool ZArith QArith Qabs.
Import ListNotations.
Open Scope Q_scope.

Record cplx := { cre : Q; cim : Q }.
Definition cadd (x y : cplx) : cplx := {| cre := cre x + cre y; cim := cim x + cim y |}.
Definition cmul (x y : cplx) : cplx := {| cre := cre x * cre y - cim x * cim y; cim := cre x * cim y + cim x * cre y |}.
Definition creal (q : Q) : cplx := {| cre := q; cim := 0 |}.

(** ** S4d *)
(** S4dModel.run_spk (models.py 56-80), one neuron (all operations are elementwise): new state and output *)
Definition s4d_step (a b c : cplx) (s : cplx) (x : Q) : cplx * Q :=
  let s' := cadd (cmul s a) (cmul (creal x) b) in (s', cre (cmul (cmul c s') (creal 2))).
Fixpoint s4d_outputs (a b c : cplx) (s : cplx) (xs : list Q) : list Q :=
  match xs with
  | [] => []
  | x :: r => let '(s', y) := s4d_step a b c s x in y :: s4d_outputs a b c s' r
  end.

(** ** SigmaS4dDelta *)
(** parameters of a neuron: the Vars a, b and c are declared as float (models.py 184-187), so their imaginary parts are dropped
    when the process model is built (Build_Model.cast, py_builder.py 403-404) *)
Record params := { pa : cplx; pb : cplx; pc : cplx }.
Record sst := { sg : Q; s4 : Q; act : Q; residue : Q; error : Q }.
Definition sst0 : sst := {| sg := 0; s4 := 0; act := 0; residue := 0; error := 0 |}.
(** dynamics (sdn/models.py 150-156) with sigma_dynamics (39-52), activation_dynamics (s4d/models.py 125-160; without the bias)
    and delta_dynamics (sdn/models.py 72-100); [th]: the Var vth *)
Definition ss_step (cum : bool) (th : Q) (p : params) (q : sst) (x : Q) : sst * Q :=
  let g := x + sg q in
  let s' := s4 q * cre (pa p) + g * cre (pb p) in
  let y := cre (pc p) * s' * 2 in
  let d := y - act q + residue q in
  if cum then
    let e := error q + d in
    let out := if Qle_bool th (Qabs e) then d else 0 in
    ({| sg := g; s4 := s'; act := y; residue := d - out; error := e * (1 - (if Qle_bool (Qabs out) 0 then 0 else 1)) |}, out)
  else
    let out := if Qle_bool th (Qabs d) then d else 0 in
    ({| sg := g; s4 := s'; act := y; residue := d - out; error := error q |}, out).
(** SigmaDelta.__init__ (sdn/process.py 179) scales the threshold; spike_exp is 0 *)
Definition threshold (vth : Q) (state_exp : Z) : Q := vth * inject_Z (2 ^ state_exp).
Fixpoint ss_run (cum : bool) (th : Q) (p : params) (q : sst) (xs : list Q) : sst * list Q :=
  match xs with
  | [] => (q, [])
  | x :: r => let '(q', y) := ss_step cum th p q x in let '(q'', ys) := ss_run cum th p q' r in (q'', y :: ys)
  end.

(** ** SigmaS4dDeltaLayer *)
Fixpoint qsum (f : nat -> Q) (n : nat) : Q := match n with O => 0 | S k => qsum f k + f k end.
(** np.eye(n), np.ones(d), np.kron(A, B) for a matrix A and a vector B of length d (process.py 207) *)
Definition eye (i j : nat) : Q := if (i =? j)%nat then 1 else 0.
Definition kron (A : nat -> nat -> Q) (B : nat -> Q) (d : nat) (i j : nat) : Q := A i (j / d)%nat * B (j mod d)%nat.
Definition conn_weights (d : nat) : nat -> nat -> Q := kron eye (fun _ => 1) d.
(** AbstractPySparseModelFloat (sparse/models.py 37-48): the input of the connection; binary messages if num_message_bits is 0 *)
Definition message (graded : bool) (x : Q) : Q := if graded then x else (if Qeq_bool x 0 then 0 else 1).
Definition dot (W : nat -> nat -> Q) (cols : nat) (graded : bool) (x : nat -> Q) (i : nat) : Q := qsum (fun j => W i j * message graded (x j)) cols.
(** state of the layer: buffers of the two connections, neurons.  SubDenseLayerModel (models.py 197-234): Sparse (conn_weights.T),
    SigmaS4dDelta, Sparse (conn_weights); each Sparse sends its buffer before it receives *)
Record layer := { buf1 : nat -> Q; neurons : nat -> sst; buf2 : nat -> Q }.
Definition layer0 : layer := {| buf1 := fun _ => 0; neurons := fun _ => sst0; buf2 := fun _ => 0 |}.
Definition layer_step (n d : nat) (graded : bool) (th : Q) (P : nat -> params) (l : layer) (x : nat -> Q) : layer * (nat -> Q) :=
  let run k := ss_step false th (P k) (neurons l k) (buf1 l k) in
  ({| buf1 := dot (fun i j => conn_weights d j i) n graded x;
      neurons := fun k => fst (run k);
      buf2 := dot (conn_weights d) (n * d) graded (fun k => snd (run k)) |}, buf2 l).
Fixpoint layer_outputs (n d : nat) (graded : bool) (th : Q) (P : nat -> params) (l : layer) (xs : list (nat -> Q)) : list (nat -> Q) :=
  match xs with
  | [] => []
  | x :: r => let '(l', y) := layer_step n d graded th P l x in y :: layer_outputs n d graded th P l' r
  end.
