(** Model of communicating processes whose code is arbitrary: any number of processes, each a deterministic program that
    receives, peeks, sends, probes and selects on channels (PyPyChannel: /repo/src/lava/magma/compiler/channels/pypychannel.py;
    that a channel is a FIFO of bounded capacity is C01-C04), and of a run of the Loihi protocol with arbitrary user code in
    the process models: LoihiPyRuntimeService (/repo/src/lava/magma/runtime/runtime_services/runtime_service.py 149-388),
    PyLoihiProcessModel (/repo/src/lava/magma/core/model/py/model.py 207-239, 381-493) and a runtime that waits for the answer
    to each command.
    Simplifications: channels are never joined; a process that raises sends its error response and ends; processes have no
    VarPorts (otherwise they also select on the channels of these) and get/set are not modelled (C13). *)
From Coq Require Import List Arith Bool.
Import ListNotations.

(** replacing an item of a list; nothing happens beyond its end *)
Fixpoint upd {A} (l : list A) (i : nat) (x : A) : list A :=
  match l, i with
  | [], _ => []
  | _ :: r, O => x :: r
  | a :: r, S j => a :: upd r j x
  end.

(** ** Processes and channels *)
Section Net.
Variables V L : Type.
(** what a process in a local state does next; the rest of its program is the local state it continues in *)
Inductive action :=
| ARecv (c : nat) (k : V -> L)               (* CspRecvPort.recv 293-302: waits for a message and removes it *)
| APeek (c : nat) (k : V -> L)               (* CspRecvPort.peek 284-291: waits for a message and leaves it *)
| ASend (c : nat) (v : V) (l : L)            (* CspSendPort.send 130-144: waits for space *)
| AProbe (c : nat) (k : bool -> L)           (* CspRecvPort.probe 277-282: never waits *)
| ASelect (cs : list nat) (k : nat -> L)     (* CspSelector.select 334-352: waits until a message is in one of the channels *)
| ATau (l : L)                               (* computation *)
| AHalt.
Record net := { code : nat -> L -> action; cap : nat -> nat }.
(** local states of the processes, contents of the channels (oldest message first), and all that was ever sent on them *)
Record st := { loc : list L; chan : list (list V); sent : list (list V) }.

Inductive op := ONone | OPop (c : nat) | OPush (c : nat) (v : V).
(** one action of a process in local state [l]: the next local state and what happens to the channels.  A message that has just
    been sent may not be seen by probe yet (the receiving thread relays it), and select may find any channel that is not empty *)
Inductive fires (N : net) (s : st) (p : nat) (l : L) : L -> op -> Prop :=
| f_recv c k v q : code N p l = ARecv c k -> nth_error (chan s) c = Some (v :: q) -> fires N s p l (k v) (OPop c)
| f_peek c k v q : code N p l = APeek c k -> nth_error (chan s) c = Some (v :: q) -> fires N s p l (k v) ONone
| f_send c v l' q : code N p l = ASend c v l' -> nth_error (chan s) c = Some q -> length q < cap N c -> fires N s p l l' (OPush c v)
| f_probe_t c k v q : code N p l = AProbe c k -> nth_error (chan s) c = Some (v :: q) -> fires N s p l (k true) ONone
| f_probe_f c k : code N p l = AProbe c k -> fires N s p l (k false) ONone
| f_select cs c k v q : code N p l = ASelect cs k -> In c cs -> nth_error (chan s) c = Some (v :: q) -> fires N s p l (k c) ONone
| f_tau l' : code N p l = ATau l' -> fires N s p l l' ONone.
Definition chan_of (s : st) (c : nat) : list V := nth c (chan s) [].
Definition sent_of (s : st) (c : nat) : list V := nth c (sent s) [].
Definition apply_op (o : op) (s : st) : list (list V) * list (list V) :=
  match o with
  | ONone => (chan s, sent s)
  | OPop c => (upd (chan s) c (tl (chan_of s c)), sent s)
  | OPush c v => (upd (chan s) c (chan_of s c ++ [v]), upd (sent s) c (sent_of s c ++ [v]))
  end.
Definition after (s : st) (p : nat) (l' : L) (o : op) : st :=
  {| loc := upd (loc s) p l'; chan := fst (apply_op o s); sent := snd (apply_op o s) |}.
Inductive step (N : net) (s : st) (p : nat) : st -> Prop :=
| step_intro l l' o : nth_error (loc s) p = Some l -> fires N s p l l' o -> step N s p (after s p l' o).
(** an execution under the schedule [ps] *)
Inductive exec (N : net) : st -> list nat -> st -> Prop :=
| exec_nil s : exec N s [] s
| exec_cons s p s1 ps t : step N s p s1 -> exec N s1 ps t -> exec N s (p :: ps) t.
End Net.
Arguments ARecv {V L}. Arguments APeek {V L}. Arguments ASend {V L}. Arguments AProbe {V L}. Arguments ASelect {V L}. Arguments ATau {V L}. Arguments AHalt {V L}.
Arguments code {V L}. Arguments cap {V L}. Arguments loc {V L}. Arguments chan {V L}. Arguments sent {V L}.
Arguments ONone {V}. Arguments OPop {V}. Arguments OPush {V}.
Arguments fires {V L}. Arguments chan_of {V L}. Arguments sent_of {V L}. Arguments apply_op {V L}. Arguments after {V L}. Arguments step {V L}. Arguments exec {V L}.

(** a scheduler: the step of process [p], if it can proceed; probe tells whether the channel is empty, select takes the first
    channel that is not *)
Section Sched.
Context {V L : Type}.
Definition fire1 (N : net V L) (s : st V L) (p : nat) (l : L) : option (L * op V) :=
  match code N p l with
  | ARecv c k => match nth_error (chan s) c with Some (v :: _) => Some (k v, OPop c) | _ => None end
  | APeek c k => match nth_error (chan s) c with Some (v :: _) => Some (k v, ONone) | _ => None end
  | ASend c v l' => match nth_error (chan s) c with Some q => if length q <? cap N c then Some (l', OPush c v) else None | _ => None end
  | AProbe c k => match nth_error (chan s) c with Some (_ :: _) => Some (k true, ONone) | _ => Some (k false, ONone) end
  | ASelect cs k => match find (fun c => match nth_error (chan s) c with Some (_ :: _) => true | _ => false end) cs with Some c => Some (k c, ONone) | None => None end
  | ATau l' => Some (l', ONone)
  | AHalt => None
  end.
Definition step1 (N : net V L) (s : st V L) (p : nat) : option (st V L) :=
  match nth_error (loc s) p with
  | Some l => match fire1 N s p l with Some (l', o) => Some (after s p l' o) | None => None end
  | None => None
  end.
Fixpoint runs (N : net V L) (s : st V L) (ps : list nat) : option (st V L) :=
  match ps with
  | [] => Some s
  | p :: r => match step1 N s p with Some s1 => runs N s1 r | None => None end
  end.
(** runs the processes with priorities: always the first of [prio] that can proceed, at most [fuel] steps *)
Fixpoint prio_run (N : net V L) (prio : list nat) (s : st V L) (fuel : nat) : st V L :=
  match fuel with
  | O => s
  | S f => match find (fun p => match step1 N s p with Some _ => true | None => false end) prio with
           | Some p => match step1 N s p with Some s1 => prio_run N prio s1 f | None => s end
           | None => s
           end
  end.
End Sched.

(** ** A run of the Loihi protocol with arbitrary user code *)
Inductive phase := SPK | PRE_MGMT | LRN | POST_MGMT | HOST.
Inductive pcmd := CPhase (ph : phase) | CPause | CStop.
Inductive presp := DONE | TERMINATED | ERROR | PAUSED | REQ_PRE_LRN | REQ_LRN | REQ_POST_LRN | REQ_PAUSE | REQ_STOP.
Inductive rcmd := RRun (n : nat) | RPause | RStop.
Inductive rresp := RDone | RTerminated | RPaused | RError | RReqStop | RReqPause.
Definition is_presp (a b : presp) : bool :=
  match a, b with
  | DONE, DONE | TERMINATED, TERMINATED | ERROR, ERROR | PAUSED, PAUSED | REQ_PRE_LRN, REQ_PRE_LRN
  | REQ_LRN, REQ_LRN | REQ_POST_LRN, REQ_POST_LRN | REQ_PAUSE, REQ_PAUSE | REQ_STOP, REQ_STOP => true
  | _, _ => false
  end.

Section Loihi.
(** data sent between processes, memory of a process model (all its attributes, including time_step, _req_pause and _req_stop),
    state of the program that uses the runtime *)
Variables D U R : Type.
(** what user code does next *)
Inductive uaction :=
| URecv (c : nat) (k : D -> U) | UPeek (c : nat) (k : D -> U) | USend (c : nat) (d : D) (u : U) | UTau (u : U)
| UReturn | URaise.
Inductive req := NoReq | PauseReq | StopReq.
Record loihi := {
  np : nat;                                  (* processes 0 ... np - 1 *)
  nc : nat;                                  (* channels between them 0 ... nc - 1 *)
  ucode : nat -> phase -> U -> uaction;      (* run_spk, run_pre_mgmt, run_lrn, run_post_mgmt *)
  begin_phase : nat -> phase -> U -> U;      (* self.phase = ..., time_step += 1 in the spiking phase; the start of the function *)
  pre_guard : nat -> U -> bool; lrn_guard : nat -> U -> bool; post_guard : nat -> U -> bool;
  requested : nat -> U -> req; clear_req : nat -> U -> U;        (* _req_pause / _req_stop *)
  client : R -> option (rcmd * (rresp -> R)) (* the next command and what follows after its answer *)
}.
Inductive msg := MData (d : D) | MPCmd (c : pcmd) | MPResp (r : presp) | MRCmd (c : rcmd) | MRResp (r : rresp).

(** the service: flags and counters of LoihiPyRuntimeService *)
Record svc := { f_pre : bool; f_lrn : bool; f_post : bool; f_pause : bool; f_stop : bool; f_err : bool;
                pausing : bool; stopping : bool; target : nat; cur : nat }.
Inductive spc :=
| SSelect                                    (* 305 *)
| SRecv                                      (* 307 *)
| SSendStop (i : nat) | SGetStop (i : nat) (ok : bool) | SToldStop              (* _handle_stop 278-289 *)
| SSendPause (i : nat) | SGetPause (i : nat) (ok : bool) | SToldPause           (* _handle_pause 266-276 *)
| SNext                                      (* 331-335 *)
| SSend (ph : phase) (i : nat)               (* _send_pm_cmd 353 *)
| SGet (ph : phase) (i : nat)                (* _get_pm_resp 358 *)
| SErr                                       (* 359-363 *)
| SErrStop (i : nat)                         (* 364-366 *)
| SProbe (ph : phase) | SPeek (ph : phase)   (* 367-375 *)
| STellReq (r : rresp) (last : bool)         (* 337-339, 343-345; [last]: is_last_ts *)
| STell (r : rresp)                          (* 384-386 *)
| SEnd.
Inductive ploc := PSelect (u : U) | PRecv (u : U) | PRun (ph : phase) (u : U) | PReply (r : presp) (last : bool) (u : U) | PEnd (u : U).
Inductive rloc := RSend (r : R) | RWait (k : rresp -> R) | REnd.
Inductive lloc := LProc (x : ploc) | LSvc (v : svc) (pc : spc) | LRt (x : rloc).

Variable W : loihi.
(** channels nc + 2 i (to process i) and nc + 2 i + 1 (from process i); the last two connect runtime and service *)
Definition to_proc (i : nat) : nat := nc W + 2 * i.
Definition from_proc (i : nat) : nat := nc W + 2 * i + 1.
Definition to_svc : nat := nc W + 2 * np W.
Definition to_rt : nat := nc W + 2 * np W + 1.
(** processes of the model: 0 ... np - 1, then the service and the runtime *)

(** *** PyLoihiProcessModel *)
(** _spike 381-407, _pre_mgmt 409-419, _lrn 433-448, _post_mgmt 421-431, _handle_pause_or_stop_req 471-493: the answer at the end of a phase *)
Definition answer (p : nat) (ph : phase) (u : U) : presp * U :=
  match requested W p u with
  | PauseReq => (REQ_PAUSE, clear_req W p u)
  | StopReq => (REQ_STOP, clear_req W p u)
  | NoReq =>
      (match ph with
       | SPK => if lrn_guard W p u && pre_guard W p u then REQ_PRE_LRN else if lrn_guard W p u then REQ_LRN
                else if post_guard W p u then REQ_POST_LRN else DONE
       | PRE_MGMT => REQ_LRN
       | LRN => if post_guard W p u then REQ_POST_LRN else DONE
       | _ => DONE
       end, u)
  end.
(** is the function of the phase called? *)
Definition called (p : nat) (ph : phase) (u : U) : bool :=
  match ph with SPK => true | PRE_MGMT => pre_guard W p u | LRN => lrn_guard W p u | POST_MGMT => post_guard W p u | HOST => false end.
Definition reply_of (p : nat) (ph : phase) (u : U) : lloc := let '(r, u') := answer p ph u in LProc (PReply r false u').
(** run 207-239; _host 450-454, _stop 456-463, _pause 465-469 *)
Definition proc_code (p : nat) (x : ploc) : action msg lloc :=
  match x with
  | PSelect u => ASelect [to_proc p] (fun _ => LProc (PRecv u))
  | PRecv u => ARecv (to_proc p) (fun m =>
      match m with
      | MPCmd (CPhase HOST) => LProc (PSelect (begin_phase W p HOST u))
      | MPCmd (CPhase ph) => let u' := begin_phase W p ph u in if called p ph u' then LProc (PRun ph u') else reply_of p ph u'
      | MPCmd CPause => LProc (PReply PAUSED false u)
      | MPCmd CStop => LProc (PReply TERMINATED true u)
      | _ => LProc (PReply ERROR true u)
      end)
  | PRun ph u =>
      match ucode W p ph u with
      | URecv c k => ARecv c (fun m => match m with MData d => LProc (PRun ph (k d)) | _ => LProc (PReply ERROR true u) end)
      | UPeek c k => APeek c (fun m => match m with MData d => LProc (PRun ph (k d)) | _ => LProc (PReply ERROR true u) end)
      | USend c d u' => ASend c (MData d) (LProc (PRun ph u'))
      | UTau u' => ATau (LProc (PRun ph u'))
      | UReturn => ATau (reply_of p ph u)
      | URaise => ATau (LProc (PReply ERROR true u))
      end
  | PReply r last u => ASend (from_proc p) (MPResp r) (LProc (if last then PEnd u else PSelect u))
  | PEnd _ => AHalt
  end.

(** *** LoihiPyRuntimeService *)
(** _next_phase 191-214: a phase, the pause or stop command, or the end of the time steps *)
Definition next_phase (v : svc) : pcmd * svc :=
  let set a b c d e := {| f_pre := a; f_lrn := b; f_post := c; f_pause := d; f_stop := e; f_err := f_err v;
                          pausing := pausing v; stopping := stopping v; target := target v; cur := cur v |} in
  if f_pre v then (CPhase PRE_MGMT, set false (f_lrn v) (f_post v) (f_pause v) (f_stop v))
  else if f_lrn v then (CPhase LRN, set false false (f_post v) (f_pause v) (f_stop v))
  else if f_post v then (CPhase POST_MGMT, set false false false (f_pause v) (f_stop v))
  else if f_pause v then (CPause, set false false false false (f_stop v))
  else if f_stop v then (CStop, set false false false false false)
  else (CPhase (if cur v =? target v then HOST else SPK), v).
(** _get_pm_resp 221-255: the effect of one response *)
Definition note (r : presp) (v : svc) : svc :=
  {| f_pre := f_pre v || is_presp r REQ_PRE_LRN; f_lrn := f_lrn v || is_presp r REQ_LRN; f_post := f_post v || is_presp r REQ_POST_LRN;
     f_pause := f_pause v || is_presp r REQ_PAUSE; f_stop := f_stop v || is_presp r REQ_STOP; f_err := f_err v || is_presp r ERROR;
     pausing := pausing v; stopping := stopping v; target := target v; cur := cur v |}.
Definition count_step (v : svc) : svc :=
  {| f_pre := f_pre v; f_lrn := f_lrn v; f_post := f_post v; f_pause := f_pause v; f_stop := f_stop v; f_err := f_err v;
     pausing := pausing v; stopping := stopping v; target := target v; cur := S (cur v) |}.
(** 322-328: a new run *)
Definition new_run (n : nat) (v : svc) : svc :=
  {| f_pre := f_pre v; f_lrn := f_lrn v; f_post := f_post v; f_pause := f_pause v; f_stop := f_stop v; f_err := f_err v;
     pausing := pausing v; stopping := stopping v; target := n; cur := 0 |}.
(** 368-375 *)
Definition see_stop (v : svc) : svc :=
  {| f_pre := f_pre v; f_lrn := f_lrn v; f_post := f_post v; f_pause := f_pause v; f_stop := true; f_err := f_err v;
     pausing := pausing v; stopping := true; target := target v; cur := cur v |}.
Definition see_pause (v : svc) : svc :=
  {| f_pre := f_pre v; f_lrn := f_lrn v; f_post := f_post v; f_pause := true; f_stop := f_stop v; f_err := f_err v;
     pausing := true; stopping := stopping v; target := target v; cur := cur v |}.
Definition is_host (ph : phase) : bool := match ph with HOST => true | _ => false end.
(** 377-386: after the probe; at the end of the last time step the runtime is told, unless it wants to pause or stop *)
Definition end_of_phase (ph : phase) (v : svc) : lloc :=
  if is_host ph then (if pausing v || stopping v then LSvc v SSelect else LSvc v (STell RDone)) else LSvc v SNext.
(** run 291-388 *)
Definition svc_code (v : svc) (pc : spc) : action msg lloc :=
  match pc with
  | SSelect => ASelect [to_svc] (fun _ => LSvc v SRecv)
  | SRecv => ARecv to_svc (fun m =>
      match m with
      | MRCmd RStop => LSvc v (SSendStop 0)
      | MRCmd RPause => LSvc v (SSendPause 0)
      | MRCmd (RRun n) => LSvc (new_run n v) SNext
      | _ => LSvc v SEnd
      end)
  | SSendStop i => if i <? np W then ASend (to_proc i) (MPCmd CStop) (LSvc v (SSendStop (S i))) else ATau (LSvc v (SGetStop 0 true))
  | SGetStop i ok => if i <? np W
                     then ARecv (from_proc i) (fun m => match m with MPResp r => LSvc (note r v) (SGetStop (S i) (ok && is_presp r TERMINATED)) | _ => LSvc v SEnd end)
                     else if ok then ATau (LSvc v SToldStop) else ATau (LSvc v SEnd)        (* ValueError 286 *)
  | SToldStop => ASend to_rt (MRResp RTerminated) (LSvc v SEnd)
  | SSendPause i => if i <? np W then ASend (to_proc i) (MPCmd CPause) (LSvc v (SSendPause (S i))) else ATau (LSvc v (SGetPause 0 true))
  | SGetPause i ok => if i <? np W
                      then ARecv (from_proc i) (fun m => match m with MPResp r => LSvc (note r v) (SGetPause (S i) (ok && is_presp r PAUSED)) | _ => LSvc v SEnd end)
                      else if ok then ATau (LSvc v SToldPause) else ATau (LSvc v SEnd)      (* ValueError 274 *)
  | SToldPause => ASend to_rt (MRResp RPaused) (LSvc v SSelect)
  | SNext => let '(c, v') := next_phase v in
             ATau (match c with
                   | CStop => if stopping v' then LSvc v' SSelect else LSvc v' (STellReq RReqStop (cur v =? target v))
                   | CPause => if pausing v' then LSvc v' SSelect else LSvc v' (STellReq RReqPause (cur v =? target v))
                   | CPhase SPK => LSvc (count_step v') (SSend SPK 0)
                   | CPhase ph => LSvc v' (SSend ph 0)
                   end)
  | SSend ph i => if i <? np W then ASend (to_proc i) (MPCmd (CPhase ph)) (LSvc v (SSend ph (S i)))
                  else ATau (LSvc v (if is_host ph then SProbe ph else SGet ph 0))
  | SGet ph i => if i <? np W
                 then ARecv (from_proc i) (fun m => match m with MPResp r => LSvc (note r v) (SGet ph (S i)) | _ => LSvc v SEnd end)
                 else ATau (LSvc v (if f_err v then SErr else SProbe ph))
  | SErr => ASend to_rt (MRResp RError) (LSvc v (SErrStop 0))
  | SErrStop i => if i <? np W then ASend (to_proc i) (MPCmd CStop) (LSvc v (SErrStop (S i))) else ATau (LSvc v SEnd)
  | SProbe ph => AProbe to_svc (fun b => if b then LSvc v (SPeek ph) else end_of_phase ph v)
  | SPeek ph => APeek to_svc (fun m => match m with
                                       | MRCmd RStop => end_of_phase ph (see_stop v)
                                       | MRCmd RPause => end_of_phase ph (see_pause v)
                                       | _ => end_of_phase ph v
                                       end)
  | STellReq r last => ASend to_rt (MRResp r) (LSvc v (if negb (pausing v || stopping v) && last then STell RDone else SSelect))   (* 380-386 *)
  | STell r => ASend to_rt (MRResp r) (LSvc v SSelect)
  | SEnd => AHalt
  end.

(** *** The program that uses the runtime: it waits for the answer to each command (blocking runs, pause(), stop()) *)
Definition rt_code (x : rloc) : action msg lloc :=
  match x with
  | RSend r => match client W r with
               | Some (c, k) => ASend to_svc (MRCmd c) (LRt (RWait k))
               | None => ATau (LRt REnd)
               end
  | RWait k => ARecv to_rt (fun m => match m with MRResp a => LRt (RSend (k a)) | _ => LRt REnd end)
  | REnd => AHalt
  end.

Definition loihi_code (p : nat) (l : lloc) : action msg lloc :=
  match l with
  | LProc x => if p <? np W then proc_code p x else AHalt
  | LSvc v pc => if p =? np W then svc_code v pc else AHalt
  | LRt x => if p =? S (np W) then rt_code x else AHalt
  end.
Definition loihi_net (size : nat) : net msg lloc := {| code := loihi_code; cap := fun _ => size |}.
Definition svc0 : svc := {| f_pre := false; f_lrn := false; f_post := false; f_pause := false; f_stop := false; f_err := false; pausing := false; stopping := false; target := 0; cur := 0 |}.
(** the first thing that a process does is to receive a command ([_action] is "cmd") *)
Definition loihi_start (u : nat -> U) (r : R) : st msg lloc :=
  {| loc := map (fun p => LProc (PRecv (u p))) (seq 0 (np W)) ++ [LSvc svc0 SSelect; LRt (RSend r)];
     chan := repeat [] (nc W + 2 * np W + 2); sent := repeat [] (nc W + 2 * np W + 2) |}.
End Loihi.
