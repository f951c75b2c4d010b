(** Model of a whole network of Python process models exchanging messages in the spiking phase:
    the loops of PyInPortVectorDense.recv (magma/core/model/py/ports.py 333-351) and
    PyOutPortVectorDense.send (486-497) inside run_spk, the channels between them (C01-C04: bounded FIFO),
    and the start of each spiking phase by the runtime service of the process
    (runtime_service.py: the phases of a domain start together, C08; different domains are independent).

    run_spk of every process model of the library has this form:
      - some OutPorts are sent on before anything is received (Dense, Sparse, Conv, ConvInTime, the learning
        connections, DeltaEncoder: dense/models.py 41, sparse/models.py 41, conv/models.py 38,
        conv_in_time/models.py 58, io/encoder.py 146);
      - the InPorts are received from in a fixed order;
      - the remaining OutPorts are sent on (LIF, SDN, RF, graded: lif/models.py 64-69, sdn/models.py 55-57).
    Simplifications: messages are lists of integers; processes that exchange messages in other phases,
    reference ports, probe() and sparse ports are not part of this model. *)
From Coq Require Import List Arith ZArith Bool.
From Verif Require Import Base Kahn PyPorts_Model.
Import ListNotations.

(** A connection found by the compiler: (process, OutPort), (process, InPort), transformation functions
    of the virtual ports on the way.  One channel per connection (C28). *)
Record wire := mkWire { w_src : nat * nat; w_dst : nat * nat; w_tf : list (vec -> vec) }.

(** A process model: what run_spk does to the variables (type [St]) of the process.
    InPorts are numbered in the order in which they are received from; [ins] are their sizes. *)
Record pmodel (St : Type) := mkModel {
  early : list nat;                          (* OutPorts sent on before receiving *)
  early_vals : St -> list vec;
  ins : list nat;
  late : list nat;                           (* OutPorts sent on after receiving *)
  body : St -> list vec -> St * list vec }.
Arguments mkModel {St}. Arguments early {St}. Arguments early_vals {St}. Arguments ins {St}.
Arguments late {St}. Arguments body {St}.

(** Where a process is within run_spk. *)
Inductive pst (St : Type) :=
| PEarly (todo : list (nat * vec)) (s : St)         (* (csp port, data) still to be sent *)
| PRecv (dn : list vec) (acc : vec) (cur : list nat) (todo : list (nat * nat)) (s : St)
                                                    (* inside recv() of one InPort; InPorts to come *)
| PLate (todo : list (nat * vec)) (s : St)
| PFin (s : St).                                    (* run_spk has returned *)
Arguments PEarly {St}. Arguments PRecv {St}. Arguments PLate {St}. Arguments PFin {St}.

(** [started]: number of spiking phases begun so far (time_step, model.py 385) *)
Record comp (St : Type) := mkComp { started : nat; pc : pst St }.
Arguments mkComp {St}. Arguments started {St}. Arguments pc {St}.

Section Exec.
Context {St : Type}.
Variable models : list (pmodel St).
Variable wires : list wire.
Variable dom : nat -> nat.        (* the sync domain of process i *)
Variable cap : nat.               (* channel size *)
Variable nsteps : nat.            (* RunSteps(nsteps) *)

Definition eqp (a b : nat * nat) : bool := Nat.eqb (fst a) (fst b) && Nat.eqb (snd a) (snd b).
(** csp_ports of an OutPort / InPort: the channels of its connections *)
Definition chans_where (f : wire -> bool) : list nat :=
  filter (fun c => match nth_error wires c with Some w => f w | None => false end) (seq 0 (length wires)).
Definition out_chans (i p : nat) : list nat := chans_where (fun w => eqp (w_src w) (i, p)).
Definition in_chans (i q : nat) : list nat := chans_where (fun w => eqp (w_dst w) (i, q)).
Definition transform (c : nat) (d : vec) : vec :=
  match nth_error wires c with Some w => compose (w_tf w) d | None => d end.

(** send() on the ports [ps] with the values [vs]: one message per csp port, ports.py 496-497 *)
Definition msgs (i : nat) (ps : list nat) (vs : list vec) : list (nat * vec) :=
  flat_map (fun pv => map (fun c => (c, snd pv)) (out_chans i (fst pv))) (combine ps vs).

(** next InPort, or the rest of run_spk when all inputs are there *)
Definition enter (i : nat) (m : pmodel St) (dn : list vec) (todo : list (nat * nat)) (s : St) : pst St :=
  match todo with
  | (q, size) :: r => PRecv dn (repeat 0%Z size) (in_chans i q) r s
  | [] => let (s', vs) := body m s dn in PLate (msgs i (late m) vs) s'
  end.
Definition in_ports (m : pmodel St) : list (nat * nat) := combine (seq 0 (length (ins m))) (ins m).

(** the next action of process [i] within run_spk *)
Definition pact (i : nat) (m : pmodel St) (p : pst St) : action vec (pst St) :=
  match p with
  | PEarly ((c, v) :: r) s => Snd c v (PEarly r s)
  | PEarly [] s => Tau (enter i m [] (in_ports m) s)
  | PRecv dn acc (c :: cur) todo s => Rcv c (fun d => PRecv dn (vadd acc (transform c d)) cur todo s)
  | PRecv dn acc [] todo s => Tau (enter i m (dn ++ [acc]) todo s)
  | PLate ((c, v) :: r) s => Snd c v (PLate r s)
  | PLate [] s => Tau (PFin s)
  | PFin _ => Halt
  end.
Definition begin_step (i : nat) (m : pmodel St) (s : St) : pst St := PEarly (msgs i (early m) (early_vals m s)) s.

(** number of completed spiking phases *)
Definition finished (x : comp St) : nat := match pc x with PFin _ => started x | _ => started x - 1 end.

Definition state := net vec (comp St).

(** One step of process [i]. *)
Inductive estep (x : state) (i : nat) : state -> Prop :=
| ESnd m k p c v p' q :
    nth_error models i = Some m -> nth_error (comps x) i = Some (mkComp k p) -> pact i m p = Snd c v p' ->
    nth_error (chans x) c = Some q -> length q < cap ->
    estep x i (mkNet (upd (comps x) i (mkComp k p')) (upd (chans x) c (q ++ [v])))
| ERcv m k p c f v q :
    nth_error models i = Some m -> nth_error (comps x) i = Some (mkComp k p) -> pact i m p = Rcv c f ->
    nth_error (chans x) c = Some (v :: q) ->
    estep x i (mkNet (upd (comps x) i (mkComp k (f v))) (upd (chans x) c q))
| ETau m k p p' :
    nth_error models i = Some m -> nth_error (comps x) i = Some (mkComp k p) -> pact i m p = Tau p' ->
    estep x i (mkNet (upd (comps x) i (mkComp k p')) (chans x))
| EStart m k s :      (* the runtime service starts the next spiking phase of its processes *)
    nth_error models i = Some m -> nth_error (comps x) i = Some (mkComp k (PFin s)) -> k < nsteps ->
    (forall j y, nth_error (comps x) j = Some y -> dom j = dom i -> k <= finished y) ->
    estep x i (mkNet (upd (comps x) i (mkComp (S k) (begin_step i m s))) (chans x)).

Definition enext (x y : state) : Prop := exists i, estep x i y.
Inductive eruns : state -> state -> Prop :=
| ER0 x : eruns x x
| ER1 x y z : enext x y -> eruns y z -> eruns x z.

(** all processes have completed [k] spiking phases, their variables are [ss], nothing is in transit *)
Definition idle (k : nat) (ss : list St) : state :=
  mkNet (map (fun s => mkComp k (PFin s)) ss) (map (fun _ => []) wires).
End Exec.

(** Networks as the compiler produces them: every connection joins existing ports, and a process model sends
    once on each of its OutPorts. *)
Record wf {St} (models : list (pmodel St)) (wires : list wire) : Prop := {
  wf_src : forall w, In w wires -> exists m, nth_error models (fst (w_src w)) = Some m /\
                                             In (snd (w_src w)) (early m ++ late m);
  wf_dst : forall w, In w wires -> exists m, nth_error models (fst (w_dst w)) = Some m /\
                                             snd (w_dst w) < length (ins m);
  wf_ports : forall m, In m models -> NoDup (early m ++ late m);
  wf_early : forall m s, In m models -> length (early_vals m s) = length (early m);
  wf_late : forall m s xs, In m models -> length (snd (body m s xs)) = length (late m) }.
