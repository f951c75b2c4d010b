(** Model of PyLoihiModelToPyAsyncModel (magma/core/model/py/model.py 687-777) and of the Loihi
    process model it is made from (model.py 336-450), for one process.

    The user's model is abstract: a state, the three phase functions and the three guards (guards
    are pure functions of the state, as in all models of the library).  [time_step] is visible to
    user code, so it is passed to each function.

    Simplification: a time step of the Loihi model is taken as the sequence of phases that the
    runtime service (Runtime_Model.v, C09) gives to a single process. *)
From Coq Require Import Arith List.
Import ListNotations.

Record umodel := {
  ust : Type;                                  (* attributes of the model *)
  run_spk : nat -> ust -> ust;
  run_pre : nat -> ust -> ust;
  run_lrn : nat -> ust -> ust;
  run_post : nat -> ust -> ust;
  pre_guard : nat -> ust -> bool;
  lrn_guard : nat -> ust -> bool;
  post_guard : nat -> ust -> bool }.

(** A converted model: its own time_step attribute and the state. *)
Record amodel (U : umodel) := { ts : nat; us : ust U }.
Arguments ts {U}. Arguments us {U}.

(** __init__ (model.py 745-759): self.time_step = 1 *)
Definition async_init (U : umodel) (u : ust U) : amodel U := {| ts := 1; us := u |}.

(** body of the while loop (model.py 763-773) *)
Definition async_body (U : umodel) (s : amodel U) : amodel U :=
  let t := ts s in
  let u0 := us s in
  let u1 := if pre_guard U t u0 then run_pre U t u0 else u0 in
  let u2 := run_spk U t u1 in
  let u3 := if post_guard U t u2 then run_post U t u2 else u2 in
  {| ts := t + 1; us := u3 |}.

(** run_async (model.py 761-773), [while self.time_step != self.num_steps + 1]:
    [async_run n s k s']: with num_steps = n the loop ends after k iterations in s'. *)
Inductive async_run (U : umodel) (n : nat) : amodel U -> nat -> amodel U -> Prop :=
| AR_end s : ts s = n + 1 -> async_run U n s 0 s
| AR_more s k s' : ts s <> n + 1 -> async_run U n (async_body U s) k s' -> async_run U n s (S k) s'.

(** The Loihi model: _spike (369-395), and then the phases requested, each with its guard
    re-evaluated (_pre_mgmt 397-407, _lrn 419-433, _post_mgmt 409-417). *)
Definition loihi_step (U : umodel) (s : amodel U) : amodel U :=
  let t := ts s + 1 in
  let u1 := run_spk U t (us s) in
  let lrn u := let u' := if lrn_guard U t u then run_lrn U t u else u in
               if post_guard U t u' then (if post_guard U t u' then run_post U t u' else u') else u' in
  let u2 :=
    if andb (lrn_guard U t u1) (pre_guard U t u1)
    then lrn (if pre_guard U t u1 then run_pre U t u1 else u1)
    else if lrn_guard U t u1 then lrn u1
    else if post_guard U t u1 then (if post_guard U t u1 then run_post U t u1 else u1)
    else u1 in
  {| ts := t; us := u2 |}.
Definition loihi_init (U : umodel) (u : ust U) : amodel U := {| ts := 0; us := u |}.
