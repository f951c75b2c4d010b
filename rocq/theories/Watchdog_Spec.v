(** What the watchdog promises, in terms of what a user sees: the traces of calls, messages and stop(). *)
From Coq Require Import List Arith.
From Verif Require Import Watchdog_Model.
Import ListNotations.

(** [o] does not occur in the trace *)
Definition never (o : obs) (l : trace) : Prop := forall t, ~ In (t, o) l.
(** the call of [i] begun at [b] has not returned in [l] *)
Definition in_progress (l : trace) (i b : nat) : Prop :=
  exists later earlier, l = later ++ (b, Begin i) :: earlier /\ never (End i) later.
(** no call is in progress *)
Definition at_rest (l : trace) : Prop := forall i b, ~ in_progress l i b.
(** more than [gap] ticks lie between the end of a call of [i] and the begin of the next *)
Definition separated (gap : nat) (i : nat) (l : trace) : Prop :=
  forall l1 b l2 e, l = l1 ++ (b, Begin i) :: l2 -> In (e, End i) l2 -> e + gap < b.
Definition is_started (x : nat * obs) : bool := match snd x with Started _ => true | _ => false end.
Definition is_meta (e : entry) : bool := match e with Meta _ _ => true | NoneE _ => false end.
