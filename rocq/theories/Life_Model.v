(** Model of driving a network through the user's API: run(), wait(), stop() and Var.get() of one runtime with any number of
    runtime services (sync domains), in any history of calls.
    /repo/src/lava/magma/runtime/runtime.py _get_resp_for_run 368-406, start 408-419, _run 421-444, wait 446-449, stop 481-503,
    get_var 565-620; runtime_services/runtime_service.py LoihiPyRuntimeService.run 291-388, _handle_stop 268-289;
    mgmt_token_enums.py.
    Simplifications: the exchange between a service and its processes is C07-C12, here a time step of a service is one step;
    FIFO channels without bound (C01; a few tokens at a time); PAUSE is C10, SET_DATA is C13; processes do not raise and do not
    request pause or stop themselves. *)
From Coq Require Import ZArith List Bool.
Import ListNotations.
Open Scope Z_scope.

(** ** Tokens: numbers, mgmt_token_enums.py *)
Definition tSTOP : Z := -1.            (* MGMT_COMMAND.STOP 46 *)
Definition tPAUSE : Z := -2.           (* MGMT_COMMAND.PAUSE 48 *)
Definition tGET : Z := -3.             (* MGMT_COMMAND.GET_DATA 50 *)
Definition tSET : Z := -4.             (* MGMT_COMMAND.SET_DATA 52 *)
Definition tDONE : Z := 0.             (* MGMT_RESPONSE.DONE 60 *)
Definition tTERMINATED : Z := -1.      (* MGMT_RESPONSE.TERMINATED 62 *)
Definition tPAUSED : Z := -3.          (* MGMT_RESPONSE.PAUSED 66 *)

(** ** A runtime service *)
Inductive spc :=
| SIdle                       (* waiting for a command, 305 *)
| SRun (n cur : Z)            (* the loop 321-372: command, curr_time_step *)
| SGet (m : nat)              (* _handle_get_set: m further words to receive *)
| SSet                        (* _handle_get_set of SET_DATA, not followed further *)
| SDead.                      (* returned *)
Record svc := { pc : spc; inq : list Z; outq : list Z; steps : Z }.
(** the commands 307-327; any number that is no command is a number of time steps *)
Definition on_cmd (c : Z) (s : svc) (q : list Z) : svc :=
  if c =? tSTOP then {| pc := SDead; inq := q; outq := outq s ++ [tTERMINATED]; steps := steps s |}
  else if c =? tPAUSE then {| pc := SIdle; inq := q; outq := outq s ++ [tPAUSED]; steps := steps s |}
  else if c =? tGET then {| pc := SGet 2; inq := q; outq := outq s; steps := steps s |}
  else if c =? tSET then {| pc := SSet; inq := q; outq := outq s; steps := steps s |}
  else {| pc := SRun c 0; inq := q; outq := outq s; steps := steps s |}.
Inductive sstep : svc -> svc -> Prop :=
| s_cmd s c q : pc s = SIdle -> inq s = c :: q -> sstep s (on_cmd c s q)
(* the next time step 329-357 *)
| s_step s n cur : pc s = SRun n cur -> cur <> n ->
    sstep s {| pc := SRun n (cur + 1); inq := inq s; outq := outq s; steps := steps s + 1 |}
(* the last time step is over 324-326, 371-380 *)
| s_done s n : pc s = SRun n n ->
    sstep s {| pc := SIdle; inq := inq s; outq := outq s ++ [tDONE]; steps := steps s |}
(* a STOP (or PAUSE) waiting in the channel is noticed 360-368: the loop is left without DONE 373-376 *)
| s_leave s n cur c q : pc s = SRun n cur -> inq s = c :: q -> c = tSTOP \/ c = tPAUSE ->
    sstep s {| pc := SIdle; inq := inq s; outq := outq s; steps := steps s |}
(* GET_DATA: process id, variable id, then the number of items and the items; the variable read is the time step *)
| s_word s m c q : pc s = SGet (S (S m)) -> inq s = c :: q ->
    sstep s {| pc := SGet (S m); inq := q; outq := outq s; steps := steps s |}
| s_reply s c q : pc s = SGet 1 -> inq s = c :: q ->
    sstep s {| pc := SIdle; inq := q; outq := outq s ++ [1; steps s]; steps := steps s |}.

(** ** The client *)
Inductive call :=
| Run (n : Z) (blocking : bool)     (* run(RunSteps(n, blocking)) *)
| Wait | Stop
| Get (j : nat).                    (* get() of a variable in the domain of service j *)
Inductive result := Ok | Nothing (* None *) | Val (v : Z).
Inductive cpc := Ready | InWait (received : nat) | InStop (j : nat) | InGet (j : nat) (num : option Z) | Raised.
Record client := { cl : cpc; prog : list call; started : bool; running : bool; results : list result }.
Definition send_all (c : Z) (ss : list svc) : list svc :=
  map (fun s => {| pc := pc s; inq := inq s ++ [c]; outq := outq s; steps := steps s |}) ss.
Definition send (l : list Z) (s : svc) : svc := {| pc := pc s; inq := inq s ++ l; outq := outq s; steps := steps s |}.
Definition took (q : list Z) (s : svc) : svc := {| pc := pc s; inq := inq s; outq := q; steps := steps s |}.
Inductive cstep : client * list svc -> client * list svc -> Prop :=
(* start 408-419 and _run 421-444 *)
| c_run c ss n b p : cl c = Ready -> prog c = Run n b :: p ->
    cstep (c, ss) ({| cl := if b then InWait 0 else Ready; prog := p; started := true; running := true;
                      results := if b then results c else results c ++ [Ok] |}, send_all n ss)
(* _get_resp_for_run 368-406 *)
| c_wait c ss p : cl c = Ready -> prog c = Wait :: p ->
    cstep (c, ss) ({| cl := if running c then InWait 0 else Ready; prog := p; started := started c; running := running c;
                      results := if running c then results c else results c ++ [Ok] |}, ss)
| c_response c r l1 s l2 q : cl c = InWait r -> outq s = tDONE :: q ->
    cstep (c, l1 ++ s :: l2)
      (if (S r =? length (l1 ++ s :: l2))%nat
       then {| cl := Ready; prog := prog c; started := started c; running := false; results := results c ++ [Ok] |}
       else {| cl := InWait (S r); prog := prog c; started := started c; running := running c; results := results c |},
       l1 ++ took q s :: l2)
| c_unexpected c r l1 s l2 d q : cl c = InWait r -> outq s = d :: q -> d <> tDONE ->
    cstep (c, l1 ++ s :: l2)
      ({| cl := Raised; prog := prog c; started := started c; running := running c; results := results c |}, l1 ++ took q s :: l2)
(* stop 481-503 *)
| c_stop c ss p : cl c = Ready -> prog c = Stop :: p ->
    cstep (c, ss)
      (if started c
       then ({| cl := InStop 0; prog := p; started := true; running := running c; results := results c |}, send_all tSTOP ss)
       else ({| cl := Ready; prog := p; started := false; running := running c; results := results c ++ [Ok] |}, ss))
| c_terminated c l1 s l2 q : cl c = InStop (length l1) -> outq s = tTERMINATED :: q ->
    cstep (c, l1 ++ s :: l2)
      ({| cl := InStop (S (length l1)); prog := prog c; started := started c; running := running c; results := results c |}, l1 ++ took q s :: l2)
| c_terminated_second c l1 s l2 d q : cl c = InStop (length l1) -> outq s = d :: tTERMINATED :: q -> d <> tTERMINATED ->   (* 489-490 *)
    cstep (c, l1 ++ s :: l2)
      ({| cl := InStop (S (length l1)); prog := prog c; started := started c; running := running c; results := results c |}, l1 ++ took q s :: l2)
| c_not_terminated c l1 s l2 d q : cl c = InStop (length l1) -> outq s = d :: q -> d <> tTERMINATED ->   (* probe() may miss the next message *)
    cstep (c, l1 ++ s :: l2)
      ({| cl := Raised; prog := prog c; started := started c; running := running c; results := results c |}, l1 ++ took q s :: l2)
| c_stopped c ss : cl c = InStop (length ss) ->
    cstep (c, ss) ({| cl := Ready; prog := prog c; started := false; running := false; results := results c ++ [Ok] |}, ss)
(* get_var 565-620 *)
| c_get_running c ss j p : cl c = Ready -> prog c = Get j :: p -> running c = true ->
    cstep (c, ss) ({| cl := Ready; prog := p; started := started c; running := true; results := results c ++ [Nothing] |}, ss)
| c_get_not_started c ss j p : cl c = Ready -> prog c = Get j :: p -> running c = false -> started c = false ->
    cstep (c, ss) ({| cl := Raised; prog := p; started := false; running := false; results := results c |}, ss)
| c_get c l1 s l2 p : cl c = Ready -> prog c = Get (length l1) :: p -> running c = false -> started c = true ->
    cstep (c, l1 ++ s :: l2)
      ({| cl := InGet (length l1) None; prog := p; started := true; running := false; results := results c |}, l1 ++ send [tGET; 0; 0] s :: l2)
| c_num c l1 s l2 d q : cl c = InGet (length l1) None -> outq s = d :: q ->
    cstep (c, l1 ++ s :: l2)
      ({| cl := InGet (length l1) (Some d); prog := prog c; started := started c; running := running c; results := results c |}, l1 ++ took q s :: l2)
(* the buffer is created with zeros 605 and filled with num_items items *)
| c_no_item c ss j m : cl c = InGet j (Some m) -> m <= 0 ->
    cstep (c, ss) ({| cl := Ready; prog := prog c; started := started c; running := running c; results := results c ++ [Val 0] |}, ss)
| c_item c l1 s l2 d q : cl c = InGet (length l1) (Some 1) -> outq s = d :: q ->
    cstep (c, l1 ++ s :: l2)
      ({| cl := Ready; prog := prog c; started := started c; running := running c; results := results c ++ [Val d] |}, l1 ++ took q s :: l2)
(* more items than the variable has elements: IndexError 607 *)
| c_many c ss j m : cl c = InGet j (Some m) -> 1 < m ->
    cstep (c, ss) ({| cl := Raised; prog := prog c; started := started c; running := running c; results := results c |}, ss).

(** ** The system *)
Inductive step : client * list svc -> client * list svc -> Prop :=
| by_client a b : cstep a b -> step a b
| by_service c l1 s s' l2 : sstep s s' -> step (c, l1 ++ s :: l2) (c, l1 ++ s' :: l2).
Inductive steps_to : client * list svc -> client * list svc -> Prop :=
| st_refl a : steps_to a a
| st_more a b c : steps_to a b -> step b c -> steps_to a c.
(** a runtime that was just created and initialised, with [k] services *)
Definition fresh_svc : svc := {| pc := SIdle; inq := []; outq := []; steps := 0 |}.
Definition fresh (k : nat) (p : list call) : client * list svc :=
  ({| cl := Ready; prog := p; started := false; running := false; results := [] |}, repeat fresh_svc k).
