(** C96 in terms of what the user passes to Reset and Read *)
From Coq Require Import List Arith ZArith QArith Qabs.
From Verif Require Import IoReset_Model.
Import ListNotations.

(** the process is due in time step t (the first is 1): t - 1 = offset + a multiple of interval *)
Definition due (c : client) (t : Z) : Prop :=
  match c with Resetter _ i o | Reader i o => exists k : Z, (t - 1 = o + k * i)%Z end.
(** the integer a Reset really writes: its value without the fraction *)
Definition whole (q : Q) (z : Z) : Prop := (inject_Z (Z.abs z) <= Qabs q < inject_Z (Z.abs z + 1) /\ 0 <= inject_Z z * q)%Q.
(** every element of [v] is the value the Reset writes *)
Definition reset_to (n : nat) (r : Q) (v : value) : Prop :=
  length v = n /\ exists z, whole r z /\ forall q, In q v -> q == inject_Z z.
Definition is_reset (c : client) : Prop := match c with Resetter _ _ _ => True | Reader _ _ => False end.
(** client number j of [cs] is a Reset that is due in step t *)
Definition resets_at (cs : list client) (t : Z) (j : nat) : Prop := exists c, nth_error cs j = Some c /\ is_reset c /\ due c t.
