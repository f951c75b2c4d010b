(** Model of processes that access a Var of another process through a RefPort in the post-management phase:
    Reset (proc/io/reset.py 20-77) and Read (proc/io/sink.py 74-150), any number of them on the same Var.  The transport
    (headers, data, the owner serving the requests in any order) is PyPorts_Model.v. *)
From Coq Require Import List Arith ZArith QArith Bool.
From Verif Require Import Build_Model PyPorts_Model.
Import ListNotations.

Definition value := list Q.

(** the arguments of Reset(reset_value=, interval=, offset=) and Read(interval=, offset=); the buffer of Read is modelled in
    Io_Model.v *)
Inductive client := Resetter (reset_value : Q) (interval offset : Z) | Reader (interval offset : Z).

(** What the process models hold after construction.  [offset % interval] (reset.py 45, sink.py 96) raises
    ZeroDivisionError for interval 0; reset_value is an integer array in the model (LavaPyType(np.ndarray, int), reset.py
    56): the assignment into it drops the fractional part.  interval and offset are integers, as documented. *)
Inductive held := HReset (reset_value interval offset : Z) | HRead (interval offset : Z).
Definition create (c : client) : option held :=
  match c with
  | Resetter r i o => if (i =? 0)%Z then None else Some (HReset (trunc r) i (o mod i)%Z)
  | Reader i o => if (i =? 0)%Z then None else Some (HRead i (o mod i)%Z)
  end.

(** post_guard (reset.py 60-61, sink.py 123-124); time_step is 1 in the first step *)
Definition post_guard (h : held) (time_step : Z) : bool :=
  match h with HReset _ i o | HRead i o => ((time_step - 1) mod i =? o)%Z end.

(** run_post_mgmt (reset.py 63-66, sink.py 126-130): the requests sent through the RefPort, for a Var of [n] elements:
    zeros(shape) + reset_value; wait() is a read whose result is dropped (ports.py 746-752) *)
Definition run_post_mgmt (n : nat) (h : held) : list (op value) :=
  match h with
  | HReset r _ _ => [Write (map (fun z => z + inject_Z r)%Q (repeat 0%Q n)); Read]
  | HRead _ _ => [Read]
  end.

(** _post_mgmt (model.py 421-431): guarded.  The guard also decides whether the process asks for the phase (model.py
    380-403, 433-448); that the phase then takes place is C09. *)
Definition requests (n : nat) (hs : list held) (t : Z) (j : nat) : list (op value) :=
  match nth_error hs j with
  | Some h => if post_guard h t then run_post_mgmt n h else []
  | None => []
  end.

(** The phase: any execution of the requests; the owner of the Var has no code of its own in this phase (its post_guard
    is False) but serves requests (model.py 493-511).  It is over when every process has returned from its run_post_mgmt
    and reported STATUS_DONE.  The processes do not reshape the Var. *)
Definition same (j : nat) (v : value) := v.
Definition in_phase (n : nat) (hs : list held) (t : Z) (x : value) (s : rstate value) : Prop :=
  rreach value (length hs) same same (requests n hs t) x s /\ (forall v, ~ In (LOwn v) (log s)).
Definition phase_over (k : nat) (s : rstate value) : Prop := forall j, (j < k)%nat -> prog s j = [] /\ cl s j = CIdle.

(** What happens in one time step: the value the Var has before the phase, its value after the phase, and what each
    client read *)
Record tick := Tick { before : value; after : value; obs : nat -> list value }.

(** A run: [spk t v w]: in time step t the owner may change the Var from v to w (its own code in the spiking and learning
    phases, whatever it depends on).  The messages in the channels are carried over by nothing: a phase that is over has
    left none (proved in IoReset_Props.v). *)
Inductive run (n : nat) (hs : list held) (spk : Z -> value -> value -> Prop) (v0 : value) : nat -> value -> list tick -> Prop :=
| run_0 : run n hs spk v0 0 v0 []
| run_S k v ts x s : run n hs spk v0 k v ts ->
    spk (Z.of_nat (S k)) v x -> in_phase n hs (Z.of_nat (S k)) x s -> phase_over (length hs) s ->
    run n hs spk v0 (S k) (var s) (ts ++ [Tick x (var s) (got s)]).

(** all processes created *)
Fixpoint create_all (cs : list client) : option (list held) :=
  match cs with
  | [] => Some []
  | c :: r => match create c, create_all r with Some h, Some l => Some (h :: l) | _, _ => None end
  end.
