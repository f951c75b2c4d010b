(** Model of the watchdog that monitors the ports of a network (compiler/channels/watchdog.py), in discrete time of
    any granularity.  One execution is a list of actions; [fire] performs one of them.

    Simplifications: the proxies of the multiprocessing manager are atomic operations; a thread whose Event.wait()
    is notified, or finds the flag set, ends at once; the two monitor processes and the threads in them are
    scheduled by the actions of the execution.  Every watchdog is entered by one thread at a time (a port belongs to
    one process model). *)
From Coq Require Import List Arith Bool Lia.
Import ListNotations.

(** what a user can observe of watchdog [i]: the guarded call begins (event cleared), its body starts, it returns or
    raises; "Blocked on ..." is printed; stop() of the manager is called and returns *)
Inductive obs := Begin (i : nat) | Started (i : nat) | End (i : nat) | Print (i : nat) | StopCall | StopRet.
Definition trace := list (nat * obs).      (* newest first, with the time *)

Inductive phase := Idle | Cleared | Running.
(** entries of the queues: EventMetadata (15-23) or None, with the time they were put *)
Inductive entry := Meta (i since : nat) | NoneE (since : nat).
(** a monitor thread (event_monitor, 43-53): about to call wait(); in wait() since; timed out, about to print; ended *)
Inductive tst := TStart (since : nat) | TWait (from : nat) | TPrint (since : nat) | TEnd.
(** the monitor process (monitor, 30-41): reading the queue; joining its threads; gone *)
Inductive mst := MRun | MJoin | MExit.
(** WatchdogManager.stop (157-167): not called; None put into lq; into sq; lm joined; sm joined and returned *)
Inductive sst := S0 | S1 | S2 | S3 | S4.

Record st := { now : nat; flag : nat -> bool; ph : nat -> phase; q : bool -> list entry; mon : bool -> mst;
               pool : list (nat * tst); stp : sst; tr : trace }.

(** WatchdogManager.start (143-155): two queues and monitors ([true] = long, [false] = short); events start cleared *)
Definition init : st := {| now := 0; flag := fun _ => false; ph := fun _ => Idle; q := fun _ => []; mon := fun _ => MRun;
                           pool := []; stp := S0; tr := [] |}.

Inductive act := ABegin (i : nat) | APut (i : nat) | AEnd (i : nat) | AGet (b : bool) | AThread (k : nat)
               | AExit (b : bool) | AStop | ATick.

Definition upd {A} (f : nat -> A) (i : nat) (x : A) : nat -> A := fun j => if j =? i then x else f j.
Definition updb {A} (f : bool -> A) (b : bool) (x : A) : bool -> A := fun c => if Bool.eqb c b then x else f c.
Fixpoint set_nth {A} (l : list A) (k : nat) (x : A) : list A :=
  match l, k with
  | [], _ => []
  | _ :: r, 0 => x :: r
  | y :: r, S k => y :: set_nth r k x
  end.

Definition log (s : st) (o : obs) : trace := (now s, o) :: tr s.
(** Event.set() wakes all threads in wait() *)
Definition wake (i : nat) (t : nat * tst) : nat * tst :=
  match snd t with TWait _ => if fst t =? i then (fst t, TEnd) else t | _ => t end.
Definition ended (t : nat * tst) : bool := match snd t with TEnd => true | _ => false end.
Definition stopped (s : st) : bool := match stp s with S4 => true | _ => false end.

Section Watchdog.
(** timeouts of the two monitors; the queue each watchdog was created with (create_watchdog 132-141) *)
Variable T : bool -> nat.
Variable cls : nat -> bool.

(** Watchdog.__enter__ (76-81): clear the event, then put the metadata; __exit__ (83-85): set the event.
    After stop() the manager is gone and the proxies raise. *)
Definition fire_begin (i : nat) (s : st) : option st :=
  if stopped s then None else
  match ph s i with
  | Idle => Some {| now := now s; flag := upd (flag s) i false; ph := upd (ph s) i Cleared; q := q s; mon := mon s;
                    pool := pool s; stp := stp s; tr := log s (Begin i) |}
  | _ => None
  end.
Definition fire_put (i : nat) (s : st) : option st :=
  if stopped s then None else
  match ph s i with
  | Cleared => Some {| now := now s; flag := flag s; ph := upd (ph s) i Running;
                       q := updb (q s) (cls i) (q s (cls i) ++ [Meta i (now s)]); mon := mon s;
                       pool := pool s; stp := stp s; tr := log s (Started i) |}
  | _ => None
  end.
Definition fire_end (i : nat) (s : st) : option st :=
  if stopped s then None else
  match ph s i with
  | Running => Some {| now := now s; flag := upd (flag s) i true; ph := upd (ph s) i Idle; q := q s; mon := mon s;
                       pool := map (wake i) (pool s); stp := stp s; tr := log s (End i) |}
  | _ => None
  end.
(** EventCompletionMonitor.monitor (30-41) *)
Definition fire_get (b : bool) (s : st) : option st :=
  match mon s b, q s b with
  | MRun, Meta i _ :: r => Some {| now := now s; flag := flag s; ph := ph s; q := updb (q s) b r; mon := mon s;
                                   pool := pool s ++ [(i, TStart (now s))]; stp := stp s; tr := tr s |}
  | MRun, NoneE _ :: r => Some {| now := now s; flag := flag s; ph := ph s; q := updb (q s) b r; mon := updb (mon s) b MJoin;
                                  pool := pool s; stp := stp s; tr := tr s |}
  | _, _ => None
  end.
(** EventCompletionMonitor.event_monitor (43-53) *)
Definition thread_next (s : st) (i : nat) (t : tst) : option (tst * trace) :=
  match t with
  | TStart _ => if flag s i then Some (TEnd, tr s) else Some (TWait (now s), tr s)
  | TWait f => if f + T (cls i) <=? now s then Some (TPrint (now s), tr s) else None
  | TPrint _ => Some (TStart (now s), log s (Print i))
  | TEnd => None
  end.
Definition fire_thread (k : nat) (s : st) : option st :=
  match nth_error (pool s) k with
  | Some (i, t) =>
      match thread_next s i t with
      | Some (t', tr') => Some {| now := now s; flag := flag s; ph := ph s; q := q s; mon := mon s;
                                  pool := set_nth (pool s) k (i, t'); stp := stp s; tr := tr' |}
      | None => None
      end
  | None => None
  end.
(** the threads of a monitor are joined (39-40), then its process ends *)
Definition joined (s : st) (b : bool) : bool := forallb (fun t => negb (Bool.eqb (cls (fst t)) b) || ended t) (pool s).
Definition fire_exit (b : bool) (s : st) : option st :=
  match mon s b with
  | MJoin => if joined s b
             then Some {| now := now s; flag := flag s; ph := ph s; q := q s; mon := updb (mon s) b MExit; pool := pool s;
                          stp := stp s; tr := tr s |}
             else None
  | _ => None
  end.
(** WatchdogManager.stop (157-167) *)
Definition fire_stop (s : st) : option st :=
  match stp s with
  | S0 => Some {| now := now s; flag := flag s; ph := ph s; q := updb (q s) true (q s true ++ [NoneE (now s)]); mon := mon s;
                  pool := pool s; stp := S1; tr := log s StopCall |}
  | S1 => Some {| now := now s; flag := flag s; ph := ph s; q := updb (q s) false (q s false ++ [NoneE (now s)]); mon := mon s;
                  pool := pool s; stp := S2; tr := tr s |}
  | S2 => match mon s true with
          | MExit => Some {| now := now s; flag := flag s; ph := ph s; q := q s; mon := mon s; pool := pool s; stp := S3; tr := tr s |}
          | _ => None
          end
  | S3 => match mon s false with
          | MExit => Some {| now := now s; flag := flag s; ph := ph s; q := q s; mon := mon s; pool := pool s; stp := S4;
                             tr := log s StopRet |}
          | _ => None
          end
  | S4 => None
  end.

(** Latency.  [None]: time may pass in any state.  [Some d]: a monitor process takes an entry out of its queue, a thread
    calls wait(), returns from it or prints within [d] ticks; the end of a monitor process and the steps of stop() take
    no time. *)
Definition entry_due (e : entry) : nat := match e with Meta _ t | NoneE t => t end.
Definition thread_due (t : nat * tst) : option nat :=
  match snd t with TStart t => Some t | TWait f => Some (f + T (cls (fst t))) | TPrint t => Some t | TEnd => None end.
Definition reading (m : mst) : bool := match m with MRun => true | _ => false end.
Definition prompt (d : nat) (s : st) : bool :=
  forallb (fun b => negb (reading (mon s b)) || forallb (fun e => now s <? entry_due e + d) (q s b)) [true; false] &&
  forallb (fun t => match thread_due t with Some x => now s <? x + d | None => true end) (pool s) &&
  match fire_exit true s, fire_exit false s with None, None => true | _, _ => false end &&
  match stp s with S0 => true | _ => match fire_stop s with None => true | Some _ => false end end.
Definition fire_tick (lat : option nat) (s : st) : option st :=
  if match lat with None => true | Some d => prompt d s end
  then Some {| now := S (now s); flag := flag s; ph := ph s; q := q s; mon := mon s; pool := pool s; stp := stp s; tr := tr s |}
  else None.

Definition fire (lat : option nat) (a : act) (s : st) : option st :=
  match a with
  | ABegin i => fire_begin i s
  | APut i => fire_put i s
  | AEnd i => fire_end i s
  | AGet b => fire_get b s
  | AThread k => fire_thread k s
  | AExit b => fire_exit b s
  | AStop => fire_stop s
  | ATick => fire_tick lat s
  end.
Fixpoint exec (lat : option nat) (al : list act) (s : st) : option st :=
  match al with
  | [] => Some s
  | a :: r => match fire lat a s with Some s' => exec lat r s' | None => None end
  end.
Definition reachable (lat : option nat) (s : st) : Prop := exists al, exec lat al init = Some s.
End Watchdog.
