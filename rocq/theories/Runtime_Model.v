(** Model of the execution protocol: Runtime (client side), LoihiPyRuntimeService and N
    PyLoihiProcessModels exchanging tokens over FIFO channels.

    Sources: src/lava/magma/runtime/runtime_services/runtime_service.py:149-388,
             src/lava/magma/core/model/py/model.py:207-244, 259-495,
             src/lava/magma/runtime/runtime.py:368-515.

    Simplifications:
      - channels are unbounded FIFO lists (justified by chan_fifo; on every channel at most
        three tokens are ever outstanding, so a send never blocks at the default capacity);
        probe() may miss a token that is in transit but never invents one (C04);
      - GET_DATA/SET_DATA are modelled separately in GetSet_Model;
      - user code of a process (run_spk, run_pre_mgmt, guards, ...) is an arbitrary oracle
        that either returns or raises; it is assumed to return (a process that blocks for
        ever in run_spk is a property of the user's network);
      - one sync domain, i.e. one runtime service. *)
From Coq Require Import List Arith Bool.
From Verif Require Import Base.
Import ListNotations.

(** Tokens from the service to a process: Phase.* and MGMT_COMMAND.*
    (model.py:302-311, mgmt_token_enums.py:38-55). *)
Inductive cmd := CSpk | CPre | CLrn | CPost | CHost | CPause | CStop.

(** Tokens from a process to the service: PMResponse (runtime_service.py:171-189). *)
Inductive resp :=
| RDone | RTerm | RErr | RPaused | RReqPre | RReqLrn | RReqPost | RReqPause | RReqStop.

(** Tokens from the runtime to the service: a number of time steps, PAUSE or STOP. *)
Inductive rcmd := Steps (n : nat) | Pause | Stop.

(** Tokens from the service to the runtime: MGMT_RESPONSE (mgmt_token_enums.py:58-75). *)
Inductive rresp := DONE | TERMINATED | ERROR | PAUSED | REQ_PAUSE | REQ_STOP.

(** What the user code of a process decides while handling one command. *)
Record oracle := mkO {
  g_lrn : bool; g_pre : bool; g_post : bool;   (* results of the guards *)
  q_pause : bool; q_stop : bool;               (* _req_pause, _req_stop *)
  raises : bool }.                             (* an exception escapes *)

(** _handle_pause_or_stop_req (model.py:471-479): pause has priority. *)
Definition pause_or_stop (o : oracle) : resp := if q_pause o then RReqPause else RReqStop.

(** Response of the command handlers; [None]: no response is sent.
    _spike 381-407, _pre_mgmt 409-419, _post_mgmt 421-431, _lrn 433-448, _host 450-454,
    _stop 456-463, _pause 465-469; exception path: run 230-234 (model.py). *)
Definition handler (c : cmd) (o : oracle) : option resp :=
  match c with
  | CSpk =>
      Some (if raises o then RErr
            else if q_pause o || q_stop o then pause_or_stop o
            else if g_lrn o && g_pre o then RReqPre
            else if g_lrn o then RReqLrn
            else if g_post o then RReqPost
            else RDone)
  | CPre =>
      Some (if raises o then RErr
            else if q_pause o || q_stop o then pause_or_stop o
            else RReqLrn)
  | CLrn =>
      Some (if raises o then RErr
            else if q_pause o || q_stop o then pause_or_stop o
            else if g_post o then RReqPost
            else RDone)
  | CPost =>
      Some (if raises o then RErr
            else if q_pause o || q_stop o then pause_or_stop o
            else RDone)
  | CHost => None
  | CPause => Some RPaused
  | CStop => Some RTerm
  end.

(** The run loop of a process model (model.py:207-239). *)
Inductive mpc :=
| MIdle             (* in select()/recv() *)
| MBusy (c : cmd)   (* executing the handler of c *)
| MDead.            (* returned after STOP, or re-raised an exception *)

(** Program counter of LoihiPyRuntimeService.run (runtime_service.py:291-388). *)
Inductive svpc :=
| VIdle                       (* select + recv of a command from the runtime (l.303-307) *)
| VNext                       (* top of the inner loop (l.329-335) *)
| VSend (c : cmd) (k : nat)   (* _send_pm_cmd: about to send c to process k (l.216-219) *)
| VRecv (c : cmd) (k : nat)   (* _get_pm_resp: about to receive from process k (l.221-256) *)
| VChk (c : cmd)              (* about to test self._error (l.359) *)
| VErrB                       (* ERROR was sent to the runtime (l.361), before l.365 *)
| VErr (k : nat)              (* error path: about to send STOP to process k (l.365) *)
| VProbe (c : cmd)            (* about to probe/peek the runtime channel (l.368-375) *)
| VEnd                        (* after the inner loop (l.380-386) *)
| VDead                       (* run returned *)
| VCrash.                     (* ValueError: wrong response (l.274, 286) *)

Record flags := mkF {
  fpre : bool; flrn : bool; fpost : bool;     (* req_pre_lrn_mgmt, req_lrn, req_post_lrn_mgmt *)
  fpause : bool; fstop : bool;                (* req_pause, req_stop *)
  err : bool;                                 (* _error *)
  pausing : bool; stopping : bool;
  last : bool;                                (* is_last_ts *)
  bad : bool }.                               (* a response differed from the expected one *)

Record sys := mkS {
  r2s : list rcmd;              (* runtime_to_service *)
  s2r : list rresp;             (* service_to_runtime *)
  s2p : nat -> list cmd;        (* service_to_process[i] *)
  p2s : nat -> list resp;       (* process_to_service[i] *)
  mp : nat -> mpc;              (* run loop of process i *)
  ts : nat -> nat;              (* time_step of process i *)
  sv : svpc;
  nn : nat;                     (* command: requested number of time steps *)
  cur : nat;                    (* curr_time_step *)
  fl : flags }.

Inductive event :=
| EvPush (c : rcmd)                      (* the runtime sends a command *)
| EvPop (r : rresp)                      (* the runtime receives a response *)
| EvStart (n : nat)                      (* the service starts a run of n time steps *)
| EvBcast (c : cmd)                      (* the service decides to send c to every process *)
| EvBegin (i : nat) (c : cmd)            (* process i starts executing c *)
| EvEnd (i : nat) (c : cmd) (r : option resp)  (* process i finishes c *)
| EvResp (r : rresp).                    (* the service sends r to the runtime *)

Section Runtime.
  Variable N : nat.     (* number of processes of the sync domain *)

  Definition f0 : flags := mkF false false false false false false false false false false.

  Definition sys0 : sys :=
    mkS [] [] (fun _ => []) (fun _ => []) (fun _ => MIdle) (fun _ => 0) VIdle 0 0 f0.

  (** Effect of one received message on the flags; _get_pm_resp (runtime_service.py:229-255).
      [c] is the command being answered: _handle_pause (269-274) and _handle_stop (281-286)
      check the responses afterwards. *)
  Definition note (c : cmd) (r : resp) (f : flags) : flags :=
    mkF (fpre f || match r with RReqPre => true | _ => false end)
        (flrn f || match r with RReqLrn => true | _ => false end)
        (fpost f || match r with RReqPost => true | _ => false end)
        (fpause f || match r with RReqPause => true | _ => false end)
        (fstop f || match r with RReqStop => true | _ => false end)
        (err f || match r with RErr => true | _ => false end)
        (pausing f) (stopping f) (last f)
        (bad f || match c, r with
                  | CPause, RPaused | CStop, RTerm => false
                  | CPause, _ | CStop, _ => true
                  | _, _ => false end).

  Definition set_last (b : bool) (f : flags) : flags :=
    mkF (fpre f) (flrn f) (fpost f) (fpause f) (fstop f) (err f) (pausing f) (stopping f) b (bad f).
  Definition clr_bad (f : flags) : flags :=
    mkF (fpre f) (flrn f) (fpost f) (fpause f) (fstop f) (err f) (pausing f) (stopping f) (last f) false.
  Definition clr_pre (f : flags) : flags :=
    mkF false (flrn f) (fpost f) (fpause f) (fstop f) (err f) (pausing f) (stopping f) (last f) (bad f).
  Definition clr_lrn (f : flags) : flags :=
    mkF (fpre f) false (fpost f) (fpause f) (fstop f) (err f) (pausing f) (stopping f) (last f) (bad f).
  Definition clr_post (f : flags) : flags :=
    mkF (fpre f) (flrn f) false (fpause f) (fstop f) (err f) (pausing f) (stopping f) (last f) (bad f).
  Definition clr_pause (f : flags) : flags :=
    mkF (fpre f) (flrn f) (fpost f) false (fstop f) (err f) (pausing f) (stopping f) (last f) (bad f).
  Definition clr_stop (f : flags) : flags :=
    mkF (fpre f) (flrn f) (fpost f) (fpause f) false (err f) (pausing f) (stopping f) (last f) (bad f).

  (** Lines 368-375: the command peeked from the runtime channel. *)
  Definition peeked (c : rcmd) (f : flags) : flags :=
    match c with
    | Stop => mkF (fpre f) (flrn f) (fpost f) (fpause f) true (err f) (pausing f) true (last f) (bad f)
    | Pause => mkF (fpre f) (flrn f) (fpost f) true (fstop f) (err f) true (stopping f) (last f) (bad f)
    | Steps _ => f
    end.

  (** Is a response awaited after c? (l.354-358: not after HOST) *)
  Definition responding (c : cmd) : bool := match c with CHost => false | _ => true end.

  Definition set_sv (s : sys) (v : svpc) : sys :=
    mkS (r2s s) (s2r s) (s2p s) (p2s s) (mp s) (ts s) v (nn s) (cur s) (fl s).
  Definition set_svf (s : sys) (v : svpc) (f : flags) : sys :=
    mkS (r2s s) (s2r s) (s2p s) (p2s s) (mp s) (ts s) v (nn s) (cur s) f.
  Definition say (s : sys) (r : list rresp) (v : svpc) (f : flags) : sys :=
    mkS (r2s s) (s2r s ++ r) (s2p s) (p2s s) (mp s) (ts s) v (nn s) (cur s) f.

  (** LoihiPyRuntimeService.run, runtime_service.py:291-388. *)
  Inductive vstep : sys -> option event -> sys -> Prop :=
  (* l.307-309: STOP *)
  | V_stop s q : sv s = VIdle -> r2s s = Stop :: q ->
      vstep s (Some (EvBcast CStop))
              (mkS q (s2r s) (s2p s) (p2s s) (mp s) (ts s) (VSend CStop 0) (nn s) (cur s)
                        (clr_bad (fl s)))
  (* l.310-312: PAUSE *)
  | V_pause s q : sv s = VIdle -> r2s s = Pause :: q ->
      vstep s (Some (EvBcast CPause))
              (mkS q (s2r s) (s2p s) (p2s s) (mp s) (ts s) (VSend CPause 0) (nn s) (cur s)
                        (clr_bad (fl s)))
  (* l.321-328: a number of time steps *)
  | V_start s q n : sv s = VIdle -> r2s s = Steps n :: q ->
      vstep s (Some (EvStart n))
              (mkS q (s2r s) (s2p s) (p2s s) (mp s) (ts s) VNext n 0 (set_last false (fl s)))
  (* l.331-335 and _next_phase (191-214) *)
  | V_pre s : sv s = VNext -> fpre (fl s) = true ->
      vstep s (Some (EvBcast CPre)) (set_svf s (VSend CPre 0) (clr_pre (set_last (cur s =? nn s) (fl s))))
  | V_lrn s : sv s = VNext -> fpre (fl s) = false -> flrn (fl s) = true ->
      vstep s (Some (EvBcast CLrn)) (set_svf s (VSend CLrn 0) (clr_lrn (set_last (cur s =? nn s) (fl s))))
  | V_post s : sv s = VNext -> fpre (fl s) = false -> flrn (fl s) = false ->
      fpost (fl s) = true ->
      vstep s (Some (EvBcast CPost)) (set_svf s (VSend CPost 0) (clr_post (set_last (cur s =? nn s) (fl s))))
  (* l.342-348 *)
  | V_req_pause s : sv s = VNext -> fpre (fl s) = false -> flrn (fl s) = false ->
      fpost (fl s) = false -> fpause (fl s) = true ->
      vstep s (if pausing (fl s) then None else Some (EvResp REQ_PAUSE))
              (say s (if pausing (fl s) then [] else [REQ_PAUSE]) VEnd
                   (clr_pause (set_last (cur s =? nn s) (fl s))))
  (* l.336-341 *)
  | V_req_stop s : sv s = VNext -> fpre (fl s) = false -> flrn (fl s) = false ->
      fpost (fl s) = false -> fpause (fl s) = false -> fstop (fl s) = true ->
      vstep s (if stopping (fl s) then None else Some (EvResp REQ_STOP))
              (say s (if stopping (fl s) then [] else [REQ_STOP]) VEnd
                   (clr_stop (set_last (cur s =? nn s) (fl s))))
  | V_host s : sv s = VNext -> fpre (fl s) = false -> flrn (fl s) = false ->
      fpost (fl s) = false -> fpause (fl s) = false -> fstop (fl s) = false ->
      cur s = nn s ->
      vstep s (Some (EvBcast CHost)) (set_svf s (VSend CHost 0) (set_last true (fl s)))
  (* l.349-351 *)
  | V_spk s : sv s = VNext -> fpre (fl s) = false -> flrn (fl s) = false ->
      fpost (fl s) = false -> fpause (fl s) = false -> fstop (fl s) = false ->
      cur s <> nn s ->
      vstep s (Some (EvBcast CSpk))
              (mkS (r2s s) (s2r s) (s2p s) (p2s s) (mp s) (ts s) (VSend CSpk 0) (nn s)
                        (S (cur s)) (set_last false (fl s)))
  (* _send_pm_cmd (216-219) *)
  | V_send s c k : sv s = VSend c k -> k < N ->
      vstep s None (mkS (r2s s) (s2r s) (fupd (s2p s) k (s2p s k ++ [c])) (p2s s) (mp s) (ts s)
                        (VSend c (S k)) (nn s) (cur s) (fl s))
  | V_sent s c : sv s = VSend c N -> responding c = true ->
      vstep s None (set_sv s (VRecv c 0))
  | V_sent_host s : sv s = VSend CHost N ->
      vstep s None (set_sv s (VProbe CHost))
  (* _get_pm_resp (221-256) *)
  | V_recv s c k r q : sv s = VRecv c k -> k < N -> p2s s k = r :: q ->
      vstep s None (mkS (r2s s) (s2r s) (s2p s) (fupd (p2s s) k q) (mp s) (ts s)
                        (VRecv c (S k)) (nn s) (cur s) (note c r (fl s)))
  (* _handle_pause: l.269-276 *)
  | V_paused s : sv s = VRecv CPause N -> bad (fl s) = false ->
      vstep s (Some (EvResp PAUSED)) (say s [PAUSED] VIdle (fl s))
  (* _handle_stop: l.281-289 *)
  | V_stopped s : sv s = VRecv CStop N -> bad (fl s) = false ->
      vstep s (Some (EvResp TERMINATED)) (say s [TERMINATED] VDead (fl s))
  | V_wrong s c : sv s = VRecv c N -> (c = CPause \/ c = CStop) -> bad (fl s) = true ->
      vstep s None (set_sv s VCrash)
  | V_got s c : sv s = VRecv c N -> c <> CPause -> c <> CStop ->
      vstep s None (set_sv s (VChk c))
  (* l.359-366 *)
  | V_err s c : sv s = VChk c -> err (fl s) = true ->
      vstep s (Some (EvResp ERROR)) (say s [ERROR] VErrB (fl s))
  | V_err_b s : sv s = VErrB -> vstep s (Some (EvBcast CStop)) (set_sv s (VErr 0))
  | V_err_stop s k : sv s = VErr k -> k < N ->
      vstep s None (mkS (r2s s) (s2r s) (fupd (s2p s) k (s2p s k ++ [CStop])) (p2s s) (mp s) (ts s)
                        (VErr (S k)) (nn s) (cur s) (fl s))
  | V_err_end s : sv s = VErr N -> vstep s None (set_sv s VDead)
  | V_ok s c : sv s = VChk c -> err (fl s) = false -> vstep s None (set_sv s (VProbe c))
  (* l.368-379: a pending command may or may not be visible yet to probe() *)
  | V_probe_no s c : sv s = VProbe c ->
      vstep s None (set_sv s (match c with CHost => VEnd | _ => VNext end))
  | V_probe_yes s c d q : sv s = VProbe c -> r2s s = d :: q ->
      vstep s None (set_svf s (match c with CHost => VEnd | _ => VNext end) (peeked d (fl s)))
  (* l.380-386; "enum_equal(phase, STOP/PAUSE)" is never true there because phase was
     set to HOST before the break (l.340, 347) *)
  | V_end_quiet s : sv s = VEnd -> (pausing (fl s) || stopping (fl s) || negb (last (fl s))) = true ->
      vstep s None (set_sv s VIdle)
  | V_end_done s : sv s = VEnd -> (pausing (fl s) || stopping (fl s) || negb (last (fl s))) = false ->
      vstep s (Some (EvResp DONE)) (say s [DONE] VIdle (fl s)).

  Definition set_m (s : sys) (i : nat) (q : list cmd) (p : list resp) (m : mpc) (t : nat) : sys :=
    mkS (r2s s) (s2r s) (fupd (s2p s) i q) (fupd (p2s s) i p) (fupd (mp s) i m) (fupd (ts s) i t)
        (sv s) (nn s) (cur s) (fl s).

  (** AbstractPyProcessModel.run (model.py:207-239): take a command, run its handler,
      answer; the process ends after STOP or an exception.  time_step is incremented at the
      start of _spike (model.py:385). *)
  Inductive mstep : sys -> option event -> sys -> Prop :=
  | M_begin s i c q : i < N -> mp s i = MIdle -> s2p s i = c :: q ->
      mstep s (Some (EvBegin i c))
            (set_m s i q (p2s s i) (MBusy c) (match c with CSpk => S (ts s i) | _ => ts s i end))
  | M_end s i c o : i < N -> mp s i = MBusy c ->
      mstep s (Some (EvEnd i c (handler c o)))
            (set_m s i (s2p s i)
                   (match handler c o with Some r => p2s s i ++ [r] | None => p2s s i end)
                   (match handler c o with Some RErr | Some RTerm => MDead | _ => MIdle end)
                   (ts s i)).

  Definition psh (s : sys) (c : rcmd) : sys :=
    mkS (r2s s ++ [c]) (s2r s) (s2p s) (p2s s) (mp s) (ts s) (sv s) (nn s) (cur s) (fl s).
  Definition pop (s : sys) (q : list rresp) : sys :=
    mkS (r2s s) q (s2p s) (p2s s) (mp s) (ts s) (sv s) (nn s) (cur s) (fl s).

  (** An arbitrary environment in place of the Runtime. *)
  Inductive estep : sys -> option event -> sys -> Prop :=
  | E_push s c : estep s (Some (EvPush c)) (psh s c)
  | E_pop s r q : s2r s = r :: q -> estep s (Some (EvPop r)) (pop s q).

  Inductive step : sys -> option event -> sys -> Prop :=
  | st_v s e s' : vstep s e s' -> step s e s'
  | st_m s e s' : mstep s e s' -> step s e s'
  | st_e s e s' : estep s e s' -> step s e s'.

  Definition ext (tr : list event) (e : option event) : list event :=
    match e with Some e => tr ++ [e] | None => tr end.

  Inductive exec : list event -> sys -> Prop :=
  | ex_init : exec [] sys0
  | ex_step tr s e s' : exec tr s -> step s e s' -> exec (ext tr e) s'.

  (** *** The Runtime as the environment (runtime.py:368-515) *)
  Inductive cpc :=
  | KIdle                (* between API calls *)
  | KRun                 (* in _get_resp_for_run (368-408): blocking run() or wait() *)
  | KPause               (* in pause() (454-483), PAUSE sent, before recv *)
  | KPauseProbe (d : rresp)  (* received d <> PAUSED, before "if recv_port.probe()" *)
  | KPauseRecv               (* probe was True, before the second recv *)
  | KStop                (* in stop() (485-507), STOP sent, before recv *)
  | KStopProbe (d : rresp)
  | KStopRecv
  | KFail                (* RuntimeError was raised to the user *)
  | KDone.               (* stop() returned *)

  Record world := mkW { sy : sys; kl : cpc; running : bool; started : bool }.

  Definition world0 : world := mkW sys0 KIdle false false.

  Inductive kstep : world -> option event -> world -> Prop :=
  (* run(RunSteps(n, blocking)) : _run (424-447) *)
  | K_run s r t n (blocking : bool) :
      kstep (mkW s KIdle r t) (Some (EvPush (Steps n)))
            (mkW (psh s (Steps n)) (if blocking then KRun else KIdle) true true)
  (* wait() (449-452) *)
  | K_wait s t : kstep (mkW s KIdle true t) None (mkW s KRun true t)
  (* _get_resp_for_run (368-408) for one runtime service *)
  | K_done s t q : s2r s = DONE :: q ->
      kstep (mkW s KRun true t) (Some (EvPop DONE)) (mkW (pop s q) KIdle false t)
  | K_req_pause s t q : s2r s = REQ_PAUSE :: q ->
      kstep (mkW s KRun true t) (Some (EvPop REQ_PAUSE)) (mkW (psh (pop s q) Pause) KPause true t)
  | K_req_stop s t q : s2r s = REQ_STOP :: q ->
      kstep (mkW s KRun true t) (Some (EvPop REQ_STOP)) (mkW (psh (pop s q) Stop) KStop true t)
  | K_run_bad s t d q : s2r s = d :: q -> (d = ERROR \/ d = TERMINATED \/ d = PAUSED) ->
      kstep (mkW s KRun true t) (Some (EvPop d)) (mkW (pop s q) KFail true t)
  (* pause() (454-483) *)
  | K_pause s t : kstep (mkW s KIdle true t) (Some (EvPush Pause)) (mkW (psh s Pause) KPause true t)
  | K_paused s t q : s2r s = PAUSED :: q ->
      kstep (mkW s KPause true t) (Some (EvPop PAUSED)) (mkW (pop s q) KIdle false t)
  (* ERROR: collects exceptions, then calls self.stop() before raising (l.472) *)
  | K_pause_err s t q : s2r s = ERROR :: q ->
      kstep (mkW s KPause true t) (Some (EvPop ERROR)) (mkW (psh (pop s q) Stop) KStop true t)
  | K_pause_other s t d q : s2r s = d :: q -> d <> PAUSED -> d <> ERROR ->
      kstep (mkW s KPause true t) (Some (EvPop d)) (mkW (pop s q) (KPauseProbe d) true t)
  | K_pause_no s d t : (* probe() False; also possible while a token is in transit *)
      kstep (mkW s (KPauseProbe d) true t) None (mkW s KFail true t)
  | K_pause_yes s d t : s2r s <> [] ->
      kstep (mkW s (KPauseProbe d) true t) None (mkW s KPauseRecv true t)
  | K_pause_2 s t d q : s2r s = d :: q ->
      kstep (mkW s KPauseRecv true t) (Some (EvPop d))
            (mkW (pop s q) (match d with PAUSED => KIdle | _ => KFail end)
                 (match d with PAUSED => false | _ => true end) t)
  (* stop() (485-507) *)
  | K_stop s r : kstep (mkW s KIdle r true) (Some (EvPush Stop)) (mkW (psh s Stop) KStop r true)
  | K_stopped s r t q : s2r s = TERMINATED :: q ->
      kstep (mkW s KStop r t) (Some (EvPop TERMINATED)) (mkW (pop s q) KDone false false)
  | K_stop_other s r t d q : s2r s = d :: q -> d <> TERMINATED ->
      kstep (mkW s KStop r t) (Some (EvPop d)) (mkW (pop s q) (KStopProbe d) r t)
  | K_stop_no s d r t :
      kstep (mkW s (KStopProbe d) r t) None (mkW s KFail r t)
  | K_stop_yes s d r t : s2r s <> [] ->
      kstep (mkW s (KStopProbe d) r t) None (mkW s KStopRecv r t)
  | K_stop_2 s r t d q : s2r s = d :: q ->
      kstep (mkW s KStopRecv r t) (Some (EvPop d))
            (mkW (pop s q) (match d with TERMINATED => KDone | _ => KFail end) r t).

  Inductive wstep : world -> option event -> world -> Prop :=
  | w_k w e w' : kstep w e w' -> wstep w e w'
  | w_v s s' k r t e : vstep s e s' -> wstep (mkW s k r t) e (mkW s' k r t)
  | w_m s s' k r t e : mstep s e s' -> wstep (mkW s k r t) e (mkW s' k r t).

  Inductive wexec : list event -> world -> Prop :=
  | wx_init : wexec [] world0
  | wx_step tr w e w' : wexec tr w -> wstep w e w' -> wexec (ext tr e) w'.
End Runtime.
