(** Model of asynchronous execution: the runtime (magma/runtime/runtime.py 366-510 and 570-620), the
    AsyncPyRuntimeService (magma/runtime/runtime_services/runtime_service.py 391-525) and any number
    of PyAsyncProcessModels (magma/core/model/py/model.py 84-117, 119-147, 207-239, 513-620), exchanging
    management messages over FIFO channels (C01, C02 prove the channels are FIFO).

    Simplifications:
    - one runtime service: all asynchronous processes of a network are in one sync domain;
    - a send is one step, and several sends or local actions without a receive between them are
      one step; a send never blocks (the channels have 64 slots, compiler.py 102);
    - user code (run_async) is abstracted to when it returns and what it requested (see [behave]);
    - the only kind of variable read is an integer one, with one id per process. *)
From Coq Require Import ZArith List Bool Arith.
Import ListNotations.
Open Scope Z_scope.

(** MGMT_COMMAND and MGMT_RESPONSE (mgmt_token_enums.py 44-84); PMResponse has the same numbers
    (runtime_service.py 401-413, model.py 555-570). *)
Definition RUN := 0. Definition STOP := -1. Definition PAUSE := -2. Definition GETD := -3.
Definition SETD := -4.
Definition DONE := 0. Definition TERMINATED := -1. Definition ERROR := -2. Definition PAUSED := -3.
Definition REQ_PAUSE := -4. Definition REQ_STOP := -5.

(** The user's run_async: [Free]: returns at some time by itself; [UntilStop]: loops until
    check_for_stop_cmd() (model.py 572-581) is true; [UntilPause]: until check_for_pause_cmd()
    (583-592) is true.  [asks]: which of self._req_stop, self._req_pause it has set. *)
Inductive wait := Free | UntilStop | UntilPause.
Inductive ask := AskNothing | AskStop | AskPause.
Record behave := { until : wait; asks : ask }.

(** check_for_stop_cmd / check_for_pause_cmd: probe, then peek at the head of the channel. *)
Definition may_return (w : wait) (q : list Z) : bool :=
  match w with
  | Free => true
  | UntilStop => match q with c :: _ => c =? STOP | [] => false end
  | UntilPause => match q with c :: _ => c =? PAUSE | [] => false end
  end.

(** _run_async, model.py 601-615: the response sent *)
Definition response (a : ask) : Z :=
  match a with AskStop => REQ_STOP | AskPause => REQ_PAUSE | AskNothing => DONE end.

(** ** The processes *)
Inductive ppc := PIdle | PNum | PRun (n : Z) | PGet | PDead.
Record proc := { inq : list Z; outq : list Z; ppos : ppc; log : list Z }.

(** AbstractPyProcessModel.run (model.py 207-239) with the handlers of PyAsyncProcessModel
    (model.py 59-65, 553, 96-117, 119-136, 601-615).  [log] is the list of the num_steps with which
    run_async was executed; [value log] the value the variable has then. *)
Definition pstep (beh : nat -> Z -> behave) (value : list Z -> Z) (p : proc) : option proc :=
  match ppos p, inq p with
  | PRun n, q =>
      let b := beh (length (log p)) n in
      if may_return (until b) q
      then Some {| inq := q; outq := outq p ++ [response (asks b)]; ppos := PIdle; log := log p ++ [n] |}
      else None
  | PNum, n :: q => Some {| inq := q; outq := outq p; ppos := PRun n; log := log p |}
  | PGet, _ :: q => Some {| inq := q; outq := outq p ++ [1; value (log p)]; ppos := PIdle; log := log p |}
  | PIdle, c :: q =>
      if c =? RUN then Some {| inq := q; outq := outq p; ppos := PNum; log := log p |}
      else if c =? STOP then Some {| inq := q; outq := outq p ++ [TERMINATED]; ppos := PDead; log := log p |}
      else if c =? PAUSE then Some {| inq := q; outq := outq p ++ [PAUSED]; ppos := PIdle; log := log p |}
      else if c =? GETD then Some {| inq := q; outq := outq p; ppos := PGet; log := log p |}
      else Some {| inq := q; outq := outq p ++ [ERROR]; ppos := PDead; log := log p |}
  | _, _ => None
  end.

(** ** The runtime service *)
Inductive kind := KResp | KPause | KStop.
Inductive spc :=
| SSelect                                  (* at selector.select, runtime_service.py 470 *)
| SRecv (k : kind) (j : nat) (acc : list Z)   (* _get_pm_resp 419-430, about to receive from port j *)
| SRecv2 (k : kind) (j : nat) (acc : list Z)  (* line 428: the second receive on port j *)
| SGetId | SGetVar (m : nat) | SRelayN (m : nat) | SRelay (m : nat) (k : nat)   (* 127-135, 92-102 *)
| SDead                                    (* returned *)
| SFailed.                                 (* raised *)
Record svc := { spos : spc; running : bool; freq_stop : bool; freq_pause : bool; ferr : bool }.

(** ** The runtime and the user's calls *)
Inductive op := ORun (n : Z) (blocking : bool) | OWait | OPause | OStop | OGet (m : nat).
Inductive rpc :=
| RReady                 (* between two calls *)
| RRun                   (* _get_resp_for_run, at select/recv (375-405) *)
| RPause | RPause2 (d : Z)   (* pause(), 454-478; RPause2: at the probe, line 473 *)
| RStop | RStop2 (d : Z)     (* stop(), 480-501; RStop2: at the probe, line 490 *)
| RGetN | RGet (k : nat) (buf : list Z)   (* get_var 597-608 *)
| RRaised.
Inductive result := Returned | Value (v : list Z) | NoValue | Raised.

Record sys := {
  script : list op; rpos : rpc; is_started : bool; is_running : bool; results : list result;
  r2s : list Z; s2r : list Z; sv : svc; procs : nat -> proc }.

Section System.
Variable N : nat.                                   (* number of processes *)
Variable beh : nat -> nat -> Z -> behave.           (* process, number of earlier runs, num_steps *)
Variable value : nat -> list Z -> Z.

Definition upd (ps : nat -> proc) (i : nat) (p : proc) : nat -> proc :=
  fun j => if Nat.eqb j i then p else ps j.
Definition push (p : proc) (c : list Z) : proc :=
  {| inq := inq p ++ c; outq := outq p; ppos := ppos p; log := log p |}.
Definition pop (p : proc) : proc :=
  {| inq := inq p; outq := tl (outq p); ppos := ppos p; log := log p |}.
(** _send_pm_cmd, runtime_service.py 415-417 *)
Definition send_all (ps : nat -> proc) (c : list Z) : nat -> proc := fun i => push (ps i) c.

Definition set_sv (s : sys) (r : list Z) (t : list Z) (v : svc) (ps : nat -> proc) : sys :=
  {| script := script s; rpos := rpos s; is_started := is_started s; is_running := is_running s;
     results := results s; r2s := r; s2r := t; sv := v; procs := ps |}.
Definition at_ (v : svc) (x : spc) : svc :=
  {| spos := x; running := running v; freq_stop := freq_stop v; freq_pause := freq_pause v; ferr := ferr v |}.
Definition at_run (v : svc) (x : spc) (b : bool) : svc :=
  {| spos := x; running := b; freq_stop := freq_stop v; freq_pause := freq_pause v; ferr := ferr v |}.

Fixpoint any_ready (ps : nat -> proc) (n : nat) : bool :=
  match n with
  | O => false
  | S m => any_ready ps m || match outq (ps m) with [] => false | _ => true end
  end.
Definition has (x : Z) (l : list Z) : bool := existsb (Z.eqb x) l.
Definition all_are (x : Z) (l : list Z) : bool := forallb (Z.eqb x) l.

(** What is done once all responses are there: run() 491-518, _handle_pause 433-443 and 480-481,
    _handle_stop 445-457 and 475-478. *)
Definition finish (k : kind) (acc : list Z) (s : sys) : sys :=
  let v := sv s in
  match k with
  | KResp =>
      let rp := freq_pause v || has REQ_PAUSE acc in
      let rs := freq_stop v || has REQ_STOP acc in
      let er := ferr v || has ERROR acc in
      set_sv s (r2s s)
        (s2r s ++ (if all_are DONE acc then [DONE] else []) ++ (if rs then [REQ_STOP] else [])
               ++ (if rp then [REQ_PAUSE] else []) ++ (if er then [ERROR] else []))
        {| spos := SSelect; running := false; freq_stop := rs; freq_pause := rp; ferr := er |} (procs s)
  | KPause =>
      if all_are PAUSED acc
      then set_sv s (r2s s) (s2r s ++ [PAUSED]) (at_run v SSelect false) (procs s)
      else set_sv s (r2s s) (s2r s ++ [ERROR]) (at_ v SFailed) (procs s)
  | KStop =>
      if all_are TERMINATED acc
      then set_sv s (r2s s) (s2r s ++ [TERMINATED]) (at_run v SDead false) (procs s)
      else set_sv s (r2s s) (s2r s ++ [ERROR]) (at_ v SFailed) (procs s)
  end.

(** The loop of lines 100-102 with k items to go. *)
Definition relay (m k : nat) : spc := match k with O => SSelect | _ => SRelay m k end.

(** One step of the service.  [pick_resp]: which of the ready channels select takes, a process's
    or the runtime's (the scan over the channels is not atomic, so both may happen when both are
    ready).  The process channels are only in the list after a run command (464-490, 519):
    [channel_actions] contains them exactly when [running]. *)
Definition sstep (pick_resp : bool) (s : sys) : option sys :=
  let v := sv s in
  match spos v with
  | SSelect =>
      if pick_resp then
        if running v && any_ready (procs s) N
        then Some (set_sv s (r2s s) (s2r s) (at_ v (SRecv KResp 0 [])) (procs s))
        else None
      else match r2s s with
           | [] => None
           | c :: q =>
               if c =? STOP then
                 Some (set_sv s q (s2r s) (at_ v (SRecv KStop 0 [])) (send_all (procs s) [STOP]))
               else if c =? PAUSE then
                 Some (set_sv s q (s2r s) (at_ v (SRecv KPause 0 [])) (send_all (procs s) [PAUSE]))
               else if (c =? GETD) || (c =? SETD) then
                 if running v then Some (set_sv s q (s2r s) (at_ v SFailed) (procs s))
                 else Some (set_sv s q (s2r s) (at_ v SGetId) (procs s))
               else Some (set_sv s q (s2r s) (at_run v SSelect true) (send_all (procs s) [RUN; c]))
           end
  | SRecv k j acc =>
      if (j <? N)%nat then
        match outq (procs s j) with
        | [] => None
        | m :: _ =>
            let ps := upd (procs s) j (pop (procs s j)) in
            let again := match k with KResp => false | _ => m =? DONE end in
            Some (set_sv s (r2s s) (s2r s)
                    (at_ v (if again then SRecv2 k j acc else SRecv k (S j) (acc ++ [m]))) ps)
        end
      else Some (finish k acc s)
  | SRecv2 k j acc =>
      match outq (procs s j) with
      | [] => None
      | m :: _ => Some (set_sv s (r2s s) (s2r s) (at_ v (SRecv k (S j) (acc ++ [m])))
                          (upd (procs s) j (pop (procs s j))))
      end
  | SGetId => match r2s s with
              | [] => None
              | m :: q => Some (set_sv s q (s2r s) (at_ v (SGetVar (Z.to_nat m))) (procs s))
              end
  | SGetVar m => match r2s s with
                 | [] => None
                 | x :: q => Some (set_sv s q (s2r s) (at_ v (SRelayN m))
                                     (upd (procs s) m (push (procs s m) [GETD; x])))
                 end
  | SRelayN m => match outq (procs s m) with
                 | [] => None
                 | k :: _ => Some (set_sv s (r2s s) (s2r s ++ [k]) (at_ v (relay m (Z.to_nat k)))
                                     (upd (procs s) m (pop (procs s m))))
                 end
  | SRelay m k => match outq (procs s m) with
                  | [] => None
                  | x :: _ => Some (set_sv s (r2s s) (s2r s ++ [x]) (at_ v (relay m (pred k)))
                                      (upd (procs s) m (pop (procs s m))))
                  end
  | SDead | SFailed => None
  end.

Definition set_rt (s : sys) (sc : list op) (x : rpc) (st run : bool) (res : list result)
    (r t : list Z) : sys :=
  {| script := sc; rpos := x; is_started := st; is_running := run; results := res; r2s := r; s2r := t;
     sv := sv s; procs := procs s |}.
Definition raise (s : sys) (t : list Z) : sys :=
  set_rt s (script s) RRaised (is_started s) (is_running s) (results s ++ [Raised]) (r2s s) t.

(** The loop of get_var, 606-607, with k items to go.  [Value buf]: the items received; the array
    returned to the user starts with them and is zero elsewhere (605). *)
Definition got (s : sys) (k : nat) (buf : list Z) (t : list Z) : sys :=
  match k with
  | O => set_rt s (script s) RReady (is_started s) (is_running s) (results s ++ [Value buf]) (r2s s) t
  | _ => set_rt s (script s) (RGet k buf) (is_started s) (is_running s) (results s) (r2s s) t
  end.

(** One step of the user's program and of the runtime it calls. *)
Definition rstep (s : sys) : option sys :=
  let st := is_started s in let run := is_running s in let res := results s in
  match rpos s with
  | RReady =>
      match script s with
      | [] => None
      (* start / _run, runtime.py 407-447 *)
      | ORun n blocking :: sc =>
          Some (set_rt s sc (if blocking then RRun else RReady) true true
                  (if blocking then res else res ++ [Returned]) (r2s s ++ [n]) (s2r s))
      (* wait, 449-452 *)
      | OWait :: sc =>
          if run then Some (set_rt s sc RRun st run res (r2s s) (s2r s))
          else Some (set_rt s sc RReady st run (res ++ [Returned]) (r2s s) (s2r s))
      | OPause :: sc =>
          if run then Some (set_rt s sc RPause st run res (r2s s ++ [PAUSE]) (s2r s))
          else Some (set_rt s sc RReady st run (res ++ [Returned]) (r2s s) (s2r s))
      | OStop :: sc =>
          if st then Some (set_rt s sc RStop st run res (r2s s ++ [STOP]) (s2r s))
          else Some (set_rt s sc RReady st run (res ++ [Returned]) (r2s s) (s2r s))
      | OGet m :: sc =>
          if run then Some (set_rt s sc RReady st run (res ++ [NoValue]) (r2s s) (s2r s))
          else if st then Some (set_rt s sc RGetN st run res (r2s s ++ [GETD; Z.of_nat m; 0]) (s2r s))
          else Some (raise s (s2r s))
      end
  | RRun =>
      match s2r s with
      | [] => None
      | d :: t =>
          if d =? REQ_PAUSE then Some (set_rt s (script s) RPause st run res (r2s s ++ [PAUSE]) t)
          else if d =? REQ_STOP then Some (set_rt s (script s) RStop st run res (r2s s ++ [STOP]) t)
          else if d =? DONE then
            Some (set_rt s (script s) RReady st false (res ++ [Returned]) (r2s s) t)
          else Some (raise s t)
      end
  | RPause =>
      match s2r s with
      | [] => None
      | d :: t =>
          if d =? PAUSED then Some (set_rt s (script s) RReady st false (res ++ [Returned]) (r2s s) t)
          else if d =? ERROR then Some (raise s t)
          else Some (set_rt s (script s) (RPause2 d) st run res (r2s s) t)
      end
  | RPause2 d =>
      let '(d', t) := match s2r s with [] => (d, []) | x :: t => (x, t) end in
      if d' =? PAUSED then Some (set_rt s (script s) RReady st false (res ++ [Returned]) (r2s s) t)
      else Some (raise s t)
  | RStop =>
      match s2r s with
      | [] => None
      | d :: t =>
          if d =? TERMINATED
          then Some (set_rt s (script s) RReady false false (res ++ [Returned]) (r2s s) t)
          else Some (set_rt s (script s) (RStop2 d) st run res (r2s s) t)
      end
  | RStop2 d =>
      let '(d', t) := match s2r s with [] => (d, []) | x :: t => (x, t) end in
      if d' =? TERMINATED
      then Some (set_rt s (script s) RReady false false (res ++ [Returned]) (r2s s) t)
      else Some (raise s t)
  | RGetN =>
      match s2r s with
      | [] => None
      | k :: t => Some (got s (Z.to_nat k) [] t)
      end
  | RGet k buf =>
      match s2r s with
      | [] => None
      | x :: t => Some (got s (pred k) (buf ++ [x]) t)
      end
  | RRaised => None
  end.

(** The interleaving of the runtime, the service and the processes. *)
Inductive step (s : sys) : sys -> Prop :=
| St_rt s' : rstep s = Some s' -> step s s'
| St_sv pick s' : sstep pick s = Some s' -> step s s'
| St_proc i p' : (i < N)%nat -> pstep (beh i) (value i) (procs s i) = Some p' ->
    step s (set_sv s (r2s s) (s2r s) (sv s) (upd (procs s) i p')).

(** Everything is built; nothing has been started. *)
Definition init (sc : list op) : sys :=
  {| script := sc; rpos := RReady; is_started := false; is_running := false; results := [];
     r2s := []; s2r := [];
     sv := {| spos := SSelect; running := false; freq_stop := false; freq_pause := false; ferr := false |};
     procs := fun _ => {| inq := []; outq := []; ppos := PIdle; log := [] |} |}.

Inductive reach (sc : list op) : nat -> sys -> Prop :=
| Re_init : reach sc 0 (init sc)
| Re_step n s s' : reach sc n s -> step s s' -> reach sc (S n) s'.
End System.
