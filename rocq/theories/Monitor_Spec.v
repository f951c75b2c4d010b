(** The history of a network according to its equations: the port values and the variables after each step. *)
From Coq Require Import List ZArith.
From Verif Require Import PyPorts_Model Exec_Model Exec_Spec.
Import ListNotations.

Definition moment (St : Type) : Type := ((nat -> nat -> vec) * list St)%type.
Inductive sync_history {St} (models : list (pmodel St)) (wires : list wire) :
  list St -> list (moment St) -> list St -> Prop :=
| SH0 ss : sync_history models wires ss [] ss
| SH1 ss o ss1 tr ss2 : sync_step models wires ss o ss1 -> sync_history models wires ss1 tr ss2 ->
    sync_history models wires ss ((o, ss1) :: tr) ss2.

(** What a monitor with [num_steps] rows should contain when the values [xs] were observed, one per step:
    one row per step, zeros for the steps that have not been run *)
Definition rows (xs : list vec) (size num_steps : nat) : list vec :=
  xs ++ repeat (repeat 0%Z size) (num_steps - length xs).
(** the value of OutPort (i, p) in every step, the value of a Var of process i after every step *)
Definition port_values {St} (tr : list (moment St)) (i p : nat) : list vec := map (fun x => fst x i p) tr.
Definition var_values {St} (tr : list (moment St)) (i : nat) (var : St -> vec) : list vec :=
  map (fun x => match nth_error (snd x) i with Some s => var s | None => [] end) tr.
