(** What a user of asynchronous processes may rely on: histories of calls, the num_steps each
    process must have been run with, and what each call must return.  Independent of the runtime,
    the service and the process models. *)
From Coq Require Import ZArith List Bool.
From Verif Require Import AsyncSvc_Model.
Import ListNotations.
Open Scope Z_scope.

(** A piece of a history. *)
Inductive seg :=
| SegRun (n : Z)          (* run(RunSteps(n, blocking=True)) *)
| SegRunWait (n : Z)      (* run(RunSteps(n, blocking=False)); wait() *)
| SegCont (n : Z)         (* run(RunSteps(n, blocking=False) or RunContinuous()); pause() *)
| SegGet (m : nat)        (* var.get() of process m *)
| SegIdleWait             (* wait() with nothing running *)
| SegIdlePause.           (* pause() with nothing running *)

(** How a history ends. *)
Inductive ending :=
| EndNone
| EndStop                 (* stop() with nothing running *)
| EndContStop (n : Z)     (* non-blocking run; stop() *)
| EndAskStop (n : Z)      (* a blocking run during which some process asks to stop *)
| EndAskPause (n : Z)     (* a blocking run during which some process asks to pause *)
| EndAskPauseStop (n : Z).   (* ... and then stop() *)

Definition seg_ops (g : seg) : list op :=
  match g with
  | SegRun n => [ORun n true] | SegRunWait n => [ORun n false; OWait]
  | SegCont n => [ORun n false; OPause] | SegGet m => [OGet m]
  | SegIdleWait => [OWait] | SegIdlePause => [OPause]
  end.
Definition end_ops (e : ending) : list op :=
  match e with
  | EndNone => [] | EndStop => [OStop] | EndContStop n => [ORun n false; OStop]
  | EndAskStop n => [ORun n true] | EndAskPause n => [ORun n true]
  | EndAskPauseStop n => [ORun n true; OStop]
  end.
Definition history (gs : list seg) (e : ending) : list op := flat_map seg_ops gs ++ end_ops e.

(** The num_steps every process has been run with. *)
Definition seg_runs (g : seg) : list Z :=
  match g with SegRun n | SegRunWait n | SegCont n => [n] | _ => [] end.
Definition end_runs (e : ending) : list Z :=
  match e with
  | EndContStop n | EndAskStop n | EndAskPause n | EndAskPauseStop n => [n] | _ => [] end.
Definition runs_of (gs : list seg) : list Z := flat_map seg_runs gs.

Definition terminated (e : ending) : bool :=
  match e with EndNone | EndAskPause _ => false | _ => true end.

Section Spec.
Variable N : nat.
Variable beh : nat -> nat -> Z -> behave.
Variable value : nat -> list Z -> Z.

(** What the calls return. [before]: the runs made earlier. *)
Definition seg_results (before : list Z) (g : seg) : list result :=
  match g with
  | SegRunWait _ | SegCont _ => [Returned; Returned]
  | SegGet m => [Value [value m before]]
  | _ => [Returned]
  end.
Fixpoint results_from (before : list Z) (gs : list seg) : list result :=
  match gs with
  | [] => []
  | g :: r => seg_results before g ++ results_from (before ++ seg_runs g) r
  end.
Definition results_of (gs : list seg) : list result := results_from [] gs.
Definition end_results (e : ending) : list result :=
  match e with
  | EndNone => [] | EndStop | EndAskStop _ | EndAskPause _ => [Returned]
  | EndContStop _ | EndAskPauseStop _ => [Returned; Returned]
  end.

(** When the library is expected to serve the history: run commands carry a number that is not a
    management code; a run that is not interrupted is left by every process by itself, and without
    requests; a run ended by pause() [stop()] is left by every process when it sees the pause
    [stop] command and not before; get() needs an earlier run and an existing process. *)
Definition all_do (before : list Z) (n : Z) (w : wait) : Prop :=
  0 <= n /\ forall i, (i < N)%nat -> beh i (length before) n = {| until := w; asks := AskNothing |}.
Definition some_ask (before : list Z) (n : Z) (a : ask) : Prop :=
  0 <= n /\
  (forall i, (i < N)%nat -> until (beh i (length before) n) = Free /\
     (asks (beh i (length before) n) = AskNothing \/ asks (beh i (length before) n) = a)) /\
  (exists i, (i < N)%nat /\ asks (beh i (length before) n) = a).
Definition seg_ok (before : list Z) (g : seg) : Prop :=
  match g with
  | SegRun n | SegRunWait n => all_do before n Free
  | SegCont n => all_do before n UntilPause
  | SegGet m => before <> [] /\ (m < N)%nat
  | SegIdleWait | SegIdlePause => True
  end.
Definition end_ok (before : list Z) (e : ending) : Prop :=
  match e with
  | EndNone => True
  | EndStop => before <> []
  | EndContStop n => all_do before n UntilStop
  | EndAskStop n => some_ask before n AskStop
  | EndAskPause n | EndAskPauseStop n => some_ask before n AskPause
  end.
Fixpoint segs_ok (before : list Z) (gs : list seg) : Prop :=
  match gs with [] => True | g :: r => seg_ok before g /\ segs_ok (before ++ seg_runs g) r end.
Definition served (gs : list seg) (e : ending) : Prop :=
  (0 < N)%nat /\ segs_ok [] gs /\ end_ok (runs_of gs) e.

(** The user's program has ended, each call having returned what it should. *)
Definition completed (gs : list seg) (e : ending) (s : sys) : Prop :=
  script s = [] /\ rpos s = RReady /\ results s = results_of gs ++ end_results e /\
  (terminated e = true -> spos (sv s) = SDead).
(** Nothing is left in any channel and every process has made exactly the runs of the history. *)
Definition settled (gs : list seg) (e : ending) (s : sys) : Prop :=
  r2s s = [] /\ s2r s = [] /\
  forall i, (i < N)%nat ->
    procs s i = {| inq := []; outq := []; log := runs_of gs ++ end_runs e;
                   ppos := if terminated e then PDead else PIdle |}.
End Spec.
