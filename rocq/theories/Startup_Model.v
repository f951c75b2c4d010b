(** Model of starting a network, and of how an exception in one of its system processes reaches the user: run(), then stop().
    /repo/src/lava/magma/runtime/runtime.py target_fn 88-110, initialize 158-177, _build_processes 298-317, _build_runtime_services
    319-328, _get_resp_for_run 368-406, start 408-419, stop 481-503; message_infrastructure/multiprocessing.py SystemProcess 57-89,
    MultiProcessing.stop 127-132; core/process/process.py run 320-365, create_runtime 367-393, stop 425-429;
    runtime_services/runtime_service.py LoihiPyRuntimeService.run 291-388, _get_pm_resp; core/model/py/model.py run 203-235.
    Simplifications: one blocking run(), then stop().  What a process model does in that run is a parameter ([course]): the
    exchange of phases in a domain is C07-C12.  Runtime services are built without an exception.  Two sizes of pickled
    exceptions only: those that fit in the pipe of the operating system and those that do not.  Channels between the
    runtime and the services do not block (one token at a time). *)
From Coq Require Import List Bool Arith.
Import ListNotations.

(** An exception, as far as it matters here: can pickle.dumps write it, can pickle.loads read it again, does the result
    (with its traceback) fit in a pipe, and is bool(e) true (runtime.py 171) *)
Record exc := mkExc { e_id : nat; pickles : bool; unpickles : bool; fits : bool; truthy : bool }.

(** what builder.build() of a process model does (runtime.py 99) *)
Inductive built :=
| BOk
| BRaise (e : exc)
| BDies        (* SystemExit, KeyboardInterrupt, os._exit, a signal: not caught in 103 *)
| BNever.      (* does not return *)

(** what the process model does in the run *)
Inductive course :=
| CFine               (* answers every phase *)
| CRaise (e : exc)    (* raises in some phase: sends ERROR, joins its ports, leaves with the exception, model.py 225-231 *)
| CDies               (* leaves without an answer (SystemExit, a signal) *)
| CBlocked.           (* waits for ever inside a phase, e.g. for data of a process that has raised *)

Record pm := mkPm { p_dom : nat; p_built : built; p_course : course }.
Record program := mkProgram { pms : list pm; ndom : nat }.
Definition npm (P : program) : nat := length (pms P).
(** the list of actors: the process models in the order of the executable, then the runtime services *)
Definition nact (P : program) : nat := npm P + ndom P.

(** An actor is a system process.  [Gone m]: it has exited, [m] is the exception that lies in the pipe to the parent
    (multiprocessing.py 66-72).  [Stuck]: it waits for ever for room in that pipe. *)
Inductive actor := Building | Up | Stuck | Gone (m : option exc).

(** target_fn 103-106 followed by SystemProcess.run 70-72: nothing is sent if the exception cannot be pickled *)
Definition leave_with (e : exc) : actor :=
  if pickles e then if fits e then Gone (Some e) else Stuck else Gone None.

(** what q.get() gives for an actor: None, or an exception; here None: no item yet.  An exception that cannot be
    pickled never leaves the feeder thread of the queue. *)
Definition item_of (e : exc) : option (option exc) := if pickles e then Some (Some e) else None.

Inductive resp := RDone | RError.
(** a runtime service: in the run; its response waits to be read; it has been read; it has answered STOP *)
Inductive dstate := DStart | DOut (r : resp) | DRead (r : resp) | DStopped.

(** what run() gives the user: it returns, raises RuntimeError("n Exception(s) occurred"), raises the exception of a
    constructor, or raises whatever pickle.loads raises *)
Inductive result := Returned | Failed (n : nat) | StartError (e : exc) | StartBroken | JoinBroken.
(** the client *)
Inductive client :=
| KCheck (i : nat)                (* initialize 169-173 *)
| KWait                           (* _get_resp_for_run 377-406 *)
| KJoin (i n : nat)               (* 394-400 *)
| KRan (r : result)               (* run() is over *)
| KStopWait (r : result) (j : nat)  (* stop() 486-491: waits for service j *)
| KStopJoin (r : result) (i : nat)  (* _messaging_infrastructure.stop: joins actor i *)
| KEnd (r : result)               (* stop() has returned *)
| KStopRaised (r : result).       (* stop() has raised *)

Record state := mkState {
  act : nat -> actor;
  item : nat -> option (option exc);
  dom : nat -> dstate;
  started : bool;               (* Runtime._is_started *)
  cl : client }.
Definition init : state := mkState (fun _ => Building) (fun _ => None) (fun _ => DStart) false (KCheck 0).

Definition upd {A} (f : nat -> A) (i : nat) (a : A) : nat -> A := fun j => if Nat.eqb j i then a else f j.
Definition set_act s i a := mkState (upd (act s) i a) (item s) (dom s) (started s) (cl s).
Definition set_built s i a x := mkState (upd (act s) i a) (upd (item s) i x) (dom s) (started s) (cl s).
Definition set_dom s d x := mkState (act s) (item s) (upd (dom s) d x) (started s) (cl s).
Definition set_cl s k := mkState (act s) (item s) (dom s) (started s) k.
Definition set_dom_cl s d x k := mkState (act s) (item s) (upd (dom s) d x) (started s) k.

Definition in_dom (d : nat) (p : pm) : bool := Nat.eqb (p_dom p) d.
(** gives no answer; so does a process model that has not been built *)
Definition silent (p : pm) : bool :=
  match p_built p with BOk => match p_course p with CDies | CBlocked => true | _ => false end | _ => true end.
Definition raises (p : pm) : bool := match p_course p with CRaise _ => true | _ => false end.
(** what the service of domain d sends to the runtime: _get_pm_resp waits for every process model of the domain *)
Definition response (P : program) (d : nat) : option resp :=
  let l := filter (in_dom d) (pms P) in
  if existsb silent l then None else if existsb raises l then Some RError else Some RDone.

(** the domain of an actor *)
Definition actor_dom (P : program) (i : nat) : nat :=
  match nth_error (pms P) i with Some p => p_dom p | None => i - npm P end.
(** the service of the domain has told its process models to stop and leaves: after ERROR 352-357 and after STOP *)
Definition leaving (x : dstate) : bool :=
  match x with DOut RError | DRead RError | DStopped => true | _ => false end.

Definition started_result (r : result) : bool :=
  match r with StartError _ | StartBroken => false | _ => true end.

Inductive step (P : program) : state -> state -> Prop :=
(* the actors are built, target_fn 96-106 *)
| s_built s i p : nth_error (pms P) i = Some p -> act s i = Building -> p_built p = BOk ->
    step P s (set_built s i Up (Some None))
| s_bexc s i p e : nth_error (pms P) i = Some p -> act s i = Building -> p_built p = BRaise e ->
    step P s (set_built s i (leave_with e) (item_of e))
| s_bdies s i p : nth_error (pms P) i = Some p -> act s i = Building -> p_built p = BDies ->
    step P s (set_act s i (Gone None))
| s_sbuilt s d : d < ndom P -> act s (npm P + d) = Building ->
    step P s (set_built s (npm P + d) Up (Some None))
(* they run *)
| s_raise s i p e : nth_error (pms P) i = Some p -> started s = true -> act s i = Up -> p_course p = CRaise e ->
    step P s (set_act s i (leave_with e))
| s_dies s i p : nth_error (pms P) i = Some p -> started s = true -> act s i = Up -> p_course p = CDies ->
    step P s (set_act s i (Gone None))
| s_resp s d r : d < ndom P -> started s = true -> dom s d = DStart -> response P d = Some r ->
    step P s (set_dom s d (DOut r))
| s_exit_pm s i p : nth_error (pms P) i = Some p -> act s i = Up -> p_course p = CFine -> leaving (dom s (p_dom p)) = true ->
    step P s (set_act s i (Gone None))
| s_exit_svc s d : d < ndom P -> act s (npm P + d) = Up -> leaving (dom s d) = true ->
    step P s (set_act s (npm P + d) (Gone None))
(* STOP reaches a service that waits for commands *)
| s_stop s d r j : d < ndom P -> cl s = KStopWait r j -> dom s d = DRead RDone -> step P s (set_dom s d DStopped)
(* initialize *)
| k_none s i : cl s = KCheck i -> i < nact P -> item s i = Some None -> step P s (set_cl s (KCheck (S i)))
| k_unreadable s i e : cl s = KCheck i -> i < nact P -> item s i = Some (Some e) -> unpickles e = false ->
    step P s (set_cl s (KRan StartBroken))
| k_raise s i e : cl s = KCheck i -> i < nact P -> item s i = Some (Some e) -> unpickles e = true -> truthy e = true ->
    step P s (set_cl s (KRan (StartError e)))
| k_falsy s i e : cl s = KCheck i -> i < nact P -> item s i = Some (Some e) -> unpickles e = true -> truthy e = false ->
    step P s (set_cl s (KCheck (S i)))
| k_start s : cl s = KCheck (nact P) -> step P s (mkState (act s) (item s) (dom s) true KWait)
(* _get_resp_for_run *)
| k_done s d : d < ndom P -> cl s = KWait -> dom s d = DOut RDone -> step P s (set_dom s d (DRead RDone))
| k_return s : cl s = KWait -> (forall d, d < ndom P -> dom s d = DRead RDone) -> step P s (set_cl s (KRan Returned))
| k_error s d : d < ndom P -> cl s = KWait -> dom s d = DOut RError -> step P s (set_dom_cl s d (DRead RError) (KJoin 0 0))
| k_join_none s i n : cl s = KJoin i n -> i < nact P -> act s i = Gone None -> step P s (set_cl s (KJoin (S i) n))
| k_join_exc s i n e : cl s = KJoin i n -> i < nact P -> act s i = Gone (Some e) -> unpickles e = true ->
    step P s (set_cl s (KJoin (S i) (S n)))
| k_join_bad s i n e : cl s = KJoin i n -> i < nact P -> act s i = Gone (Some e) -> unpickles e = false ->
    step P s (set_cl s (KRan JoinBroken))
| k_failed s n : cl s = KJoin (nact P) n -> step P s (set_cl s (KRan (Failed n)))
(* the user calls stop() *)
| k_stop s r : cl s = KRan r -> started_result r = true -> step P s (set_cl s (KStopWait r 0))
| k_stop_unstarted s r : cl s = KRan r -> started_result r = false -> step P s (set_cl s (KStopJoin r 0))
| k_terminated s r j : cl s = KStopWait r j -> j < ndom P -> dom s j = DStopped -> step P s (set_cl s (KStopWait r (S j)))
| k_all_terminated s r : cl s = KStopWait r (ndom P) -> step P s (set_cl s (KStopJoin r 0))
| k_stop_join s r i m : cl s = KStopJoin r i -> i < nact P -> act s i = Gone m ->
    (forall e, m = Some e -> unpickles e = true) -> step P s (set_cl s (KStopJoin r (S i)))
| k_stop_bad s r i e : cl s = KStopJoin r i -> i < nact P -> act s i = Gone (Some e) -> unpickles e = false ->
    step P s (set_cl s (KStopRaised r))
| k_end s r : cl s = KStopJoin r (nact P) -> step P s (set_cl s (KEnd r)).

Inductive reach (P : program) : state -> Prop :=
| r_init : reach P init
| r_step s s' : reach P s -> step P s s' -> reach P s'.
