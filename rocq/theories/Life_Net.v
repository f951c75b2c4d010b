(** Model of the API of processes: run(), wait(), stop() and Var.get() may be called on any process of a network.
    /repo/src/lava/magma/core/process/process.py run 323-372, create_runtime 374-400, wait 422-426, pause 428-431, stop 433-437;
    variable.py get 169-190; compiler/executable.py assign_runtime_to_all_processes.
    Simplifications: run() is given a run_cfg; [net p q] tells whether q belongs to the network that compiling p compiles: the processes
    connected with p (C25). *)
From Coq Require Import ZArith List Bool Arith.
From Verif Require Import Life_Model.
Import ListNotations.

Record world := {
  rt : nat -> option nat;             (* _runtime of every process *)
  made : nat;                         (* runtimes created so far *)
  log : nat -> list call              (* the calls every runtime has received *)
}.
Definition start_world : world := {| rt := fun _ => None; made := 0; log := fun _ => [] |}.
Definition runtime_call (r : nat) (c : call) (w : world) : world :=
  {| rt := rt w; made := made w; log := fun r' => if Nat.eqb r' r then log w r' ++ [c] else log w r' |}.
(** create_runtime 396-400: the new runtime is assigned to all processes that were compiled *)
Definition create_runtime (net : nat -> nat -> bool) (p : nat) (w : world) : world :=
  {| rt := fun q => if net p q then Some (made w) else rt w q; made := S (made w); log := log w |}.
Definition api (net : nat -> nat -> bool) (p : nat) (c : call) (w : world) : world :=
  match rt w p with
  | Some r => runtime_call r c w
  | None => match c with
            | Run _ _ => runtime_call (made w) c (create_runtime net p w)    (* 363-372 *)
            | _ => w                                                         (* wait, stop: nothing; get: the initial value *)
            end
  end.
(** a history: every call with the connections at its time *)
Fixpoint history (h : list ((nat -> nat -> bool) * nat * call)) (w : world) : world :=
  match h with
  | [] => w
  | (net, p, c) :: h' => history h' (api net p c w)
  end.
