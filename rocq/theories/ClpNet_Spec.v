(** What a network of continually learning prototypes is meant to do, in terms of its input stream, its outputs and the stored
    weights.  A stream [inp t k] is the value of feature [k] at step [t]. *)
From Coq Require Import ZArith List Bool.
Import ListNotations.
Open Scope Z_scope.

(** a pattern is presented at step [t]: some feature is not zero *)
Definition presented (nf : nat) (inp : nat -> nat -> Z) (t : nat) : Prop := exists k, (k < nf)%nat /\ inp t k <> 0.
(** between two presentations there are at least [gap] steps *)
Definition spaced (gap : nat) (nf : nat) (inp : nat -> nat -> Z) : Prop :=
  forall t t', presented nf inp t -> presented nf inp t' -> (t < t')%nat -> (t + gap <= t')%nat.
(** features are given by 8-bit values (at most 254, the largest whose half is a 7-bit number) *)
Definition eight_bit (nf : nat) (inp : nat -> nat -> Z) : Prop := forall t k, (k < nf)%nat -> 0 <= inp t k <= 254.
(** w . p *)
Fixpoint overlap (nf : nat) (w p : nat -> Z) : Z := match nf with O => 0 | S k => overlap k w p + w k * p k end.
(** the last value of feature [k] that was not zero up to step [t], with its step *)
Fixpoint latest (inp : nat -> nat -> Z) (k t : nat) : option (nat * Z) :=
  if negb (inp t k =? 0) then Some (t, inp t k)
  else match t with O => None | S t' => latest inp k t' end.
(** [w] is what is stored for a feature whose last non-zero value was seen [age] steps ago: the value, up to the resolution of
    the trace and one unit per step of decay *)
Definition stored_for (last : option (nat * Z)) (now : nat) (w : Z) : Prop :=
  match last with
  | None => w = 0
  | Some (t, a) => 0 <= w <= a + 1 /\ a - 2 * Z.of_nat (now - t) - 8 <= w
  end.
(** exactly neuron [m] *)
Definition only (m : nat) (spk : nat -> bool) (n : nat) : Prop := forall j, (j < n)%nat -> spk j = Nat.eqb j m.
Definition nobody (spk : nat -> bool) (n : nat) : Prop := forall j, (j < n)%nat -> spk j = false.
