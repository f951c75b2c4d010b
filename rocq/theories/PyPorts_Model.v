(** Model of the ports of Python process models, magma/core/model/py/ports.py.
    A message is a numpy array: the list of its elements in C order. *)
From Coq Require Import List Arith ZArith Bool.
From Verif Require Import Base.
Import ListNotations.

Definition vec := list Z.

(** ** PyInPortVectorDense.recv / peek (ports.py 338-369)

    ft.reduce(lambda acc, port: acc + transform(port.recv(), port), csp_ports, zeros)

    One receiver and k sources; sources send whenever they like ([ISend]); the receiver takes one
    message from each csp port in turn, waiting while there is none.  Ghost fields: [hist i] all
    messages sent by source i, [results] what recv() returned so far. *)

(** VirtualPortTransformer._get_transform (ports.py 170-207): apply the list of functions in order *)
Definition compose (fs : list (vec -> vec)) (d : vec) : vec := fold_left (fun x f => f x) fs d.

Definition vadd (a b : vec) : vec := map (fun p => (fst p + snd p)%Z) (combine a b).

Record instate := {
  queue : nat -> list vec;          (* channel contents per csp port *)
  hist : nat -> list vec;
  pc : option (nat * vec);          (* inside recv(): next port, accumulator *)
  results : list vec }.

Inductive instep (k size : nat) (fs : nat -> list (vec -> vec)) : instate -> instate -> Prop :=
| ISend s i d : i < k ->
    instep k size fs s {| queue := fupd (queue s) i (queue s i ++ [d]);
                          hist := fupd (hist s) i (hist s i ++ [d]);
                          pc := pc s; results := results s |}
| IBegin s : pc s = None ->           (* recv() is called: np.zeros(shape) *)
    instep k size fs s {| queue := queue s; hist := hist s; pc := Some (0, repeat 0%Z size); results := results s |}
| ITake s i acc d q : pc s = Some (i, acc) -> i < k -> queue s i = d :: q ->
    instep k size fs s {| queue := fupd (queue s) i q; hist := hist s;
                          pc := Some (S i, vadd acc (compose (fs i) d)); results := results s |}
| IEnd s acc : pc s = Some (k, acc) ->
    instep k size fs s {| queue := queue s; hist := hist s; pc := None; results := results s ++ [acc] |}.

Definition ininit : instate :=
  {| queue := fun _ => []; hist := fun _ => []; pc := None; results := [] |}.

Inductive inreach (k size : nat) (fs : nat -> list (vec -> vec)) : instate -> Prop :=
| IR0 : inreach k size fs ininit
| IRS s s' : inreach k size fs s -> instep k size fs s s' -> inreach k size fs s'.

(** Sequential view of one call, when every channel already holds its messages:
    recv() (338-354) and peek() (355-369, which the code also implements with port.recv()). *)
Fixpoint take_all (fs : list (list (vec -> vec))) (qs : list (list vec)) (acc : vec) : option (vec * list (list vec)) :=
  match fs, qs with
  | f :: fs, (d :: q) :: qs =>
      match take_all fs qs (vadd acc (compose f d)) with
      | Some (r, qs') => Some (r, q :: qs')
      | None => None
      end
  | _ :: _, _ => None                    (* would block *)
  | [], _ => Some (acc, qs)
  end.
Definition in_recv (size : nat) (fs : list (list (vec -> vec))) (qs : list (list vec)) :=
  take_all fs qs (repeat 0%Z size).
Definition in_peek (size : nat) (fs : list (list (vec -> vec))) (qs : list (list vec)) :=
  take_all fs qs (repeat 0%Z size).

(** PyInPort.probe (ports.py 312-326) *)
Definition in_probe (qs : list (list vec)) : bool :=
  fold_left (fun acc q => acc && match q with [] => false | _ => true end) qs true.

(** ** PyOutPortVectorSparse.send (ports.py 503-522) and PyInPortVectorSparse.recv (372-383)
    [sizes]: number of elements of the buffers of the destinations (csp_port.shape), all static. *)
Definition resize (n : nat) (l : vec) : vec := firstn n l ++ repeat 0%Z (n - length l).

Fixpoint sparse_loop (sizes : list nat) (len data idx : vec) : list (vec * vec * vec) :=
  match sizes with
  | [] => []
  | n :: r =>
      let len' := resize n len in
      let data' := resize n data in
      let idx' := resize n idx in
      (len', data', idx') :: sparse_loop r len' data' idx'
  end.
Definition sparse_send (sizes : list nat) (data idx : vec) : list (vec * vec * vec) :=
  sparse_loop sizes [Z.of_nat (length data)] data idx.

(** Python slice x[:n] for n >= 0 *)
Definition upto (n : Z) (l : vec) : vec := firstn (Z.to_nat n) l.
Definition sparse_recv (m : vec * vec * vec) : option (vec * vec) :=
  match m with
  | (n :: _, data, idx) => Some (upto n data, upto n idx)
  | _ => None                            (* IndexError *)
  end.

(** ** RefPorts and VarPorts (ports.py 706-746 and 1004-1029)

    K processes each holding one RefPort to the same variable (the compiler creates one VarPort per
    RefPort), and the process owning the variable.  The owner serves requests in any order
    (whichever channel is selected), and may change the variable itself between services
    ([OOwn]).  Channels are FIFO (C01). *)
Section Ref.
Variable V : Type.

Inductive op := Read | Write (v : V).             (* wait() is a read() whose result is dropped *)
Inductive msg := MGet | MSet | MData (v : V).
Inductive cpc := CIdle | CData (v : V) | CRead.    (* CData: header sent, data not yet *)
Inductive opc := OIdle | OGet (j : nat) | OSet (j : nat).
Inductive logent := LRead (j : nat) (v : V) | LWrite (j : nat) (v : V) | LOwn (v : V).

Record rstate := {
  prog : nat -> list op;           (* what client j still has to do *)
  issued : nat -> list op;         (* ghost: what it has issued so far *)
  cl : nat -> cpc;
  c2v : nat -> list msg;
  v2c : nat -> list V;
  got : nat -> list V;             (* ghost: results of read() so far, after the transformation *)
  ow : opc;
  var : V;
  log : list logent }.             (* ghost: what the owner did, in order *)

Variable K : nat.
Variables fwd bwd : nat -> V -> V.   (* transformations of VarPort j / RefPort j *)

Definition set_cl (s : rstate) j c2 := fupd (cl s) j c2.

Inductive rstep : rstate -> rstate -> Prop :=
| RRead s j r : j < K -> cl s j = CIdle -> prog s j = Read :: r ->        (* 717-721: send GET header *)
    rstep s {| prog := fupd (prog s) j r; issued := fupd (issued s) j (issued s j ++ [Read]);
               cl := fupd (cl s) j CRead; c2v := fupd (c2v s) j (c2v s j ++ [MGet]); v2c := v2c s;
               got := got s; ow := ow s; var := var s; log := log s |}
| RReadEnd s j v q : j < K -> cl s j = CRead -> v2c s j = v :: q ->       (* 722-723 *)
    rstep s {| prog := prog s; issued := issued s; cl := fupd (cl s) j CIdle; c2v := c2v s;
               v2c := fupd (v2c s) j q; got := fupd (got s) j (got s j ++ [bwd j v]);
               ow := ow s; var := var s; log := log s |}
| RWrite s j v r : j < K -> cl s j = CIdle -> prog s j = Write v :: r ->  (* 741-744: send SET header *)
    rstep s {| prog := fupd (prog s) j r; issued := fupd (issued s) j (issued s j ++ [Write v]);
               cl := fupd (cl s) j (CData v); c2v := fupd (c2v s) j (c2v s j ++ [MSet]); v2c := v2c s;
               got := got s; ow := ow s; var := var s; log := log s |}
| RData s j v : j < K -> cl s j = CData v ->                              (* 745 *)
    rstep s {| prog := prog s; issued := issued s; cl := fupd (cl s) j CIdle;
               c2v := fupd (c2v s) j (c2v s j ++ [MData v]); v2c := v2c s;
               got := got s; ow := ow s; var := var s; log := log s |}
| OCmdGet s j q : j < K -> ow s = OIdle -> c2v s j = MGet :: q ->          (* 1014-1017 *)
    rstep s {| prog := prog s; issued := issued s; cl := cl s; c2v := fupd (c2v s) j q; v2c := v2c s;
               got := got s; ow := OGet j; var := var s; log := log s |}
| OCmdSet s j q : j < K -> ow s = OIdle -> c2v s j = MSet :: q ->
    rstep s {| prog := prog s; issued := issued s; cl := cl s; c2v := fupd (c2v s) j q; v2c := v2c s;
               got := got s; ow := OSet j; var := var s; log := log s |}
| OSend s j : j < K -> ow s = OGet j ->                                    (* 1025-1027 *)
    rstep s {| prog := prog s; issued := issued s; cl := cl s; c2v := c2v s;
               v2c := fupd (v2c s) j (v2c s j ++ [var s]);
               got := got s; ow := OIdle; var := var s; log := log s ++ [LRead j (var s)] |}
| OStore s j v q : j < K -> ow s = OSet j -> c2v s j = MData v :: q ->     (* 1020-1024 *)
    rstep s {| prog := prog s; issued := issued s; cl := cl s; c2v := fupd (c2v s) j q; v2c := v2c s;
               got := got s; ow := OIdle; var := fwd j v; log := log s ++ [LWrite j v] |}
| OOwn s v : ow s = OIdle ->                                              (* the owner's own code *)
    rstep s {| prog := prog s; issued := issued s; cl := cl s; c2v := c2v s; v2c := v2c s;
               got := got s; ow := OIdle; var := v; log := log s ++ [LOwn v] |}.

Definition rinit (ps : nat -> list op) (v0 : V) : rstate :=
  {| prog := ps; issued := fun _ => []; cl := fun _ => CIdle; c2v := fun _ => []; v2c := fun _ => [];
     got := fun _ => []; ow := OIdle; var := v0; log := [] |}.

Inductive rreach (ps : nat -> list op) (v0 : V) : rstate -> Prop :=
| RR0 : rreach ps v0 (rinit ps v0)
| RRS s s' : rreach ps v0 s -> rstep s s' -> rreach ps v0 s'.
End Ref.
Arguments Read {V}. Arguments Write {V}. Arguments MGet {V}. Arguments MSet {V}. Arguments MData {V}.
Arguments CIdle {V}. Arguments CData {V}. Arguments CRead {V}.
Arguments LRead {V}. Arguments LWrite {V}. Arguments LOwn {V}.
Arguments prog {V}. Arguments issued {V}. Arguments cl {V}. Arguments c2v {V}. Arguments v2c {V}.
Arguments got {V}. Arguments ow {V}. Arguments var {V}. Arguments log {V}.
