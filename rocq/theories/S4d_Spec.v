(** Linear time-invariant systems with one diagonal element, and what it means to follow one. *)
From Coq Require Import List Arith Bool ZArith QArith Qabs.
From Verif Require Import S4d_Model.
Import ListNotations.
Open Scope Q_scope.

(** sum and product of complex numbers: i^2 = -1 *)
Definition plus (x y : cplx) : cplx := {| cre := cre x + cre y; cim := cim x + cim y |}.
Definition times (x y : cplx) : cplx := {| cre := cre x * cre y - cim x * cim y; cim := cre x * cim y + cim x * cre y |}.
Fixpoint cpow (a : cplx) (n : nat) : cplx := match n with O => creal 1 | S k => times a (cpow a k) end.
(** the state after the inputs [xs]: a^k s0 + sum over i of a^(k-1-i) b x_i *)
Fixpoint csum (f : nat -> cplx) (n : nat) : cplx := match n with O => creal 0 | S k => plus (csum f k) (f k) end.
Definition lti_state (a b s0 : cplx) (xs : list Q) : cplx :=
  let k := length xs in plus (times (cpow a k) s0) (csum (fun i => times (cpow a (k - 1 - i)) (times b (creal (nth i xs 0)))) k).
(** 2 Re (c s) *)
Definition lti (a b c s0 : cplx) (xs : list Q) : Q := 2 * cre (times c (lti_state a b s0 xs)).
Fixpoint qpow (a : Q) (n : nat) : Q := match n with O => 1 | S k => a * qpow a k end.
(** the same for real parameters and initial state 0 *)
Definition rlti (a b c : Q) (xs : list Q) : Q :=
  2 * c * qsum (fun i => qpow a (length xs - 1 - i) * b * nth i xs 0) (length xs).

(** sums of a stream of changes *)
Fixpoint sums_from (g : Q) (xs : list Q) : list Q := match xs with [] => [] | x :: r => (g + x) :: sums_from (g + x) r end.
Definition sums : list Q -> list Q := sums_from 0.
Definition total (xs : list Q) : Q := fold_right Qplus 0 xs.
(** two streams that differ by at most [e] at each time *)
Definition within (e : Q) (xs ys : list Q) : Prop := length xs = length ys /\ forall i, (i < length xs)%nat -> Qabs (nth i xs 0 - nth i ys 0) <= e.
(** addition, scaling *)
Fixpoint mix (p q : Q) (xs ys : list Q) : list Q := match xs, ys with x :: xr, y :: yr => (p * x + q * y) :: mix p q xr yr | _, _ => [] end.
(** what channel [j] of a stream of vectors carries *)
Definition channel (j : nat) (xs : list (nat -> Q)) : list Q := map (fun x => x j) xs.
(** the equations of the documentation: act_k = C s_k with s_0 = s0, s_(k+1) = A s_k + B x_k *)
Definition documented (a b c s0 : cplx) (xs : list Q) (k : nat) : cplx := times c (lti_state a b s0 (firstn k xs)).
