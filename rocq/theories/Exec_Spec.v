(** What a network computes in one time step, without channels and schedules: a system of equations between
    the values of the ports. *)
From Coq Require Import List Arith ZArith.
From Verif Require Import PyPorts_Model Exec_Model.
Import ListNotations.

Section Spec.
Context {St : Type}.
Variable models : list (pmodel St).
Variable wires : list wire.

(** value of an InPort: the sum of the transformed values of the connected OutPorts *)
Definition in_value (o : nat -> nat -> vec) (i q size : nat) : vec :=
  fold_left (fun acc w => vadd acc (compose (w_tf w) (o (fst (w_src w)) (snd (w_src w)))))
            (filter (fun w => eqp (w_dst w) (i, q)) wires) (repeat 0%Z size).
Definition in_values (o : nat -> nat -> vec) (i : nat) (m : pmodel St) : list vec :=
  map (fun qs => in_value o i (fst qs) (snd qs)) (combine (seq 0 (length (ins m))) (ins m)).

(** [o i p] is the value of OutPort [p] of process [i]; from the variables [ss] before the step the network
    arrives at the variables [ss'] *)
Record sync_step (ss : list St) (o : nat -> nat -> vec) (ss' : list St) : Prop := {
  ss_len : length ss = length models /\ length ss' = length models;
  ss_early : forall i m s, nth_error models i = Some m -> nth_error ss i = Some s ->
    map (o i) (early m) = early_vals m s;
  ss_late : forall i m s, nth_error models i = Some m -> nth_error ss i = Some s ->
    map (o i) (late m) = snd (body m s (in_values o i m));
  ss_state : forall i m s, nth_error models i = Some m -> nth_error ss i = Some s ->
    nth_error ss' i = Some (fst (body m s (in_values o i m))) }.

(** [n] time steps *)
Inductive sync_run : nat -> list St -> list St -> Prop :=
| SR0 ss : sync_run 0 ss ss
| SR1 n ss o ss1 ss2 : sync_step ss o ss1 -> sync_run n ss1 ss2 -> sync_run (S n) ss ss2.

(** A set of processes that wait for each other: each has a connection from an OutPort of another (or the
    same) member of the set on which that one only sends after it has received. *)
Definition late_wire (w : wire) : Prop :=
  exists m, nth_error models (fst (w_src w)) = Some m /\ In (snd (w_src w)) (late m).
Definition feedback (C : nat -> Prop) : Prop :=
  (exists i, C i) /\
  forall i, C i -> exists w, In w wires /\ fst (w_dst w) = i /\ C (fst (w_src w)) /\ late_wire w.
End Spec.
