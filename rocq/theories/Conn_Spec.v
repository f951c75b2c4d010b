(** Specification of the connection processes, independent of how they are computed. *)
From Coq Require Import ZArith List Bool.
Import ListNotations.
Open Scope Z_scope.

(** sum of [f j] for j < m *)
Fixpoint sum_upto (m : nat) (f : nat -> Z) : Z :=
  match m with O => 0 | S m' => sum_upto m' f + f m' end.

Definition shape {A} (w : list (list A)) (n m : nat) : Prop :=
  length w = n /\ forall row, In row w -> length row = m.
(** weight from input [j] to output [i] *)
Definition weight (w : list (list Z)) (i j : nat) : Z := nth j (nth i w []) 0.
(** delay of that synapse *)
Definition delay (d : list (list nat)) (i j : nat) : nat := nth j (nth i d []) 0%nat.
(** what input line [j] carried at step [t] (the first step is 0) *)
Definition input (ins : list (list Z)) (t j : nat) : Z := nth j (nth t ins []) 0.
(** the message the synapse sees: the value itself for graded spikes, 0/1 for binary ones *)
Definition message (graded : bool) (x : Z) : Z := if graded then x else if x =? 0 then 0 else 1.

(** ordinary weighted sum of the inputs of step [t] *)
Definition weighted_sum (graded : bool) (w : list (list Z)) (m : nat) (ins : list (list Z)) (t i : nat) : Z :=
  sum_upto m (fun j => weight w i j * message graded (input ins t j)).

(** what a delayed connection owes output [i] at step [t]: synapse ij delivers the message of step
    t - 1 - d_ij *)
Definition delayed_sum (graded : bool) (w : list (list Z)) (d : list (list nat)) (m : nat)
           (ins : list (list Z)) (t i : nat) : Z :=
  sum_upto m (fun j => if (delay d i j <? t)%nat
                       then weight w i j * message graded (input ins (t - 1 - delay d i j) j) else 0).

(** convolution in time with kernel w_0 .. w_{K-1}: w_{K-1} meets the newest input *)
Definition time_convolution (graded : bool) (w : list (list (list Z))) (m : nat) (ins : list (list Z))
           (t i : nat) : Z :=
  sum_upto (length w) (fun q => if (q <? t)%nat
     then weighted_sum graded (nth (length w - 1 - q) w []) m ins (t - 1 - q) i else 0).
