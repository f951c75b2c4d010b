(** Model of the shared-memory channel PyPyChannel
    (src/lava/magma/compiler/channels/pypychannel.py).

    The channel is a labelled transition system with four threads:
      - the user of the CspSendPort        (send, probe, join),
      - the user of the CspRecvPort        (recv, peek, probe, join),
      - the daemon of the CspSendPort      (_ack_callback),
      - the daemon of the CspRecvPort      (_req_callback).
    Each transition is one operation that is atomic in the code: one semaphore
    acquire/release, one queue put/get, one slot write/read, one index update.
    A schedule is any sequence of transitions.

    Simplifications (all stated here):
      - a message is an opaque value of type [V] (the numpy array, or the values
        of a csr_matrix, pypychannel.py:138-142: the copy [:] = [:] is one
        transition, so a torn read could only be observed if a write and a read
        of the same slot overlap, which [chan_no_slot_conflict] excludes);
      - the shape check of send (lines 135-136) raises before anything is
        touched: a rejected send is a transition that changes nothing;
      - each port is used by one user thread at a time (as in the code base);
        calls of send/recv/peek on a port that was joined are not modelled (they
        fail with AttributeError because join sets _ack/_req to None);
      - watchdogs are not modelled (they only log). *)

From Coq Require Import List Arith Lia Bool.
Import ListNotations.

Section Channel.
  Variable V : Type.
  (** [V -> bool]: does the array have the shape of the port? (line 135) *)
  Variable shape_ok : V -> bool.
  (** Capacity: [size] argument of PyPyChannel (lines 355-397). *)
  Variable size : nat.

  (** Program counter of the user of the send port; lines 120-144 (probe, send). *)
  Inductive spc :=
  | SIdle                 (* no call in progress *)
  | SWait (d : V)         (* in send(d), before self._semaphore.acquire()   (l.141) *)
  | SAcq (d : V)          (* slot acquired, before the slot is written      (l.142) *)
  | SWrote                (* slot written, before _idx is advanced          (l.143) *)
  | SInc                  (* index advanced, before self._req.release()     (l.144) *)
  | SProbeHeld.           (* in probe(): acquire(blocking=False) succeeded  (l.125) *)

  (** Program counter of the user of the receive port; lines 277-302 (probe, peek, recv). *)
  Inductive rpc :=
  | RIdle
  | RWait                 (* in recv(), before self._queue.get()            (l.298) *)
  | RGot                  (* token taken, before the copy                   (l.299) *)
  | RCopied (v : V)       (* copied, before _idx is advanced                (l.300) *)
  | RInced (v : V)        (* index advanced, before self._ack.release()     (l.301) *)
  | PWait                 (* in peek(), before self._queue.get(peek=True)   (l.289) *)
  | PGot.                 (* head seen, before the copy                     (l.290) *)

  (** Program counter of _req_callback (lines 267-275). *)
  Inductive qpc :=
  | QWait                 (* before req.acquire() *)
  | QTok                  (* acquired, before the test of self._done *)
  | QRun                  (* before not_empty = self.probe() *)
  | QProbed (not_empty : bool)  (* before self._queue.put_nowait(0) *)
  | QDead.                (* thread function returned *)

  (** Program counter of _ack_callback (lines 110-118). *)
  Inductive apc :=
  | AWait                 (* before ack.acquire() *)
  | ATok                  (* acquired, before the test of self._done *)
  | ARun                  (* before not_full = self.probe() *)
  | AHeld                 (* in probe(): acquire succeeded, before its release *)
  | AProbed (not_full : bool)   (* before self._semaphore.release() *)
  | ADead.

  (** Exceptions that would kill a thread. *)
  Inductive crash := QueueFull | SemaphoreOverRelease.

  Record state := mk {
    sem    : nat;           (* CspSendPort._semaphore, BoundedSemaphore(size)   (l.101) *)
    req    : nat;           (* multiprocessing Semaphore(0)                     (l.386) *)
    ack    : nat;           (* multiprocessing Semaphore(0)                     (l.387) *)
    queue  : nat;           (* number of items of CspRecvPort._queue            (l.258) *)
    sidx   : nat;           (* CspSendPort._idx *)
    ridx   : nat;           (* CspRecvPort._idx *)
    slots  : nat -> option V; (* the shared memory, [None] = never written      (l.385) *)
    spcs   : spc;
    rpcs   : rpc;
    qpcs   : qpc;
    apcs   : apc;
    sdone  : bool;          (* CspSendPort._done *)
    rdone  : bool;          (* CspRecvPort._done *)
    crashed : option crash }.

  (** PyPyChannel.__init__ and the two start() methods (lines 42-108, 196-265, 359-394). *)
  Definition init : state :=
    mk size 0 0 0 0 0 (fun _ => None) SIdle RIdle QWait AWait false false None.

  (** Observable API events. *)
  Inductive event :=
  | EvSendCall (d : V)        (* send(d) is called with a well-shaped array *)
  | EvSendRet                 (* that send returns *)
  | EvSendReject (d : V)      (* send(d) raises AssertionError (l.136) *)
  | EvSendProbe (b : bool)    (* CspSendPort.probe() returns b *)
  | EvRecvCall                (* recv() is called *)
  | EvRecvRet (v : option V)  (* recv() returns v ([None] = uninitialised memory) *)
  | EvPeekRet (v : option V)  (* peek() returns v *)
  | EvRecvProbe (b : bool)    (* CspRecvPort.probe() returns b *)
  | EvSendJoin
  | EvRecvJoin.

  Definition upd (f : nat -> option V) (i : nat) (v : option V) : nat -> option V :=
    fun j => if Nat.eqb j i then v else f j.

  (** Transitions of the user of the send port (lines 120-154). *)
  Inductive sstep : state -> option event -> state -> Prop :=
  | S_call d c e f g h i sl r q a rd cr :
      shape_ok d = true ->
      sstep (mk c e f g h i sl SIdle r q a false rd cr) (Some (EvSendCall d))
            (mk c e f g h i sl (SWait d) r q a false rd cr)
  | S_reject d s :
      shape_ok d = false -> spcs s = SIdle -> sdone s = false ->
      sstep s (Some (EvSendReject d)) s
  | S_acquire d c e f g h i sl r q a sd rd cr :
      sstep (mk (S c) e f g h i sl (SWait d) r q a sd rd cr) None
            (mk c e f g h i sl (SAcq d) r q a sd rd cr)
  | S_write d c e f g h i sl r q a sd rd cr :
      sstep (mk c e f g h i sl (SAcq d) r q a sd rd cr) None
            (mk c e f g h i (upd sl h (Some d)) SWrote r q a sd rd cr)
  | S_inc c e f g h i sl r q a sd rd cr :
      sstep (mk c e f g h i sl SWrote r q a sd rd cr) None
            (mk c e f g ((h + 1) mod size) i sl SInc r q a sd rd cr)
  | S_release c e f g h i sl r q a sd rd cr :
      sstep (mk c e f g h i sl SInc r q a sd rd cr) (Some EvSendRet)
            (mk c (S e) f g h i sl SIdle r q a sd rd cr)
  | S_probe_fail e f g h i sl r q a rd cr :
      sstep (mk 0 e f g h i sl SIdle r q a false rd cr) (Some (EvSendProbe false))
            (mk 0 e f g h i sl SIdle r q a false rd cr)
  | S_probe_acq c e f g h i sl r q a rd cr :
      sstep (mk (S c) e f g h i sl SIdle r q a false rd cr) None
            (mk c e f g h i sl SProbeHeld r q a false rd cr)
  | S_probe_rel c e f g h i sl r q a sd rd cr :
      sstep (mk c e f g h i sl SProbeHeld r q a sd rd cr) (Some (EvSendProbe true))
            (if c <? size then mk (S c) e f g h i sl SIdle r q a sd rd cr
             else mk c e f g h i sl SIdle r q a sd rd (Some SemaphoreOverRelease))
  | S_join c e f g h i sl r q a rd cr :
      sstep (mk c e f g h i sl SIdle r q a false rd cr) (Some EvSendJoin)
            (mk c e (S f) g h i sl SIdle r q a true rd cr)
  | S_join_again c e f g h i sl r q a rd cr :
      sstep (mk c e f g h i sl SIdle r q a true rd cr) (Some EvSendJoin)
            (mk c e f g h i sl SIdle r q a true rd cr).

  (** Transitions of the user of the receive port (lines 277-313). *)
  Inductive rstep : state -> option event -> state -> Prop :=
  | R_call c e f g h i sl s q a sd cr :
      rstep (mk c e f g h i sl s RIdle q a sd false cr) (Some EvRecvCall)
            (mk c e f g h i sl s RWait q a sd false cr)
  | R_get c e f g h i sl s q a sd rd cr :
      rstep (mk c e f (S g) h i sl s RWait q a sd rd cr) None
            (mk c e f g h i sl s RGot q a sd rd cr)
  | R_copy c e f g h i sl s q a sd rd cr v :
      sl i = Some v ->
      rstep (mk c e f g h i sl s RGot q a sd rd cr) None
            (mk c e f g h i sl s (RCopied v) q a sd rd cr)
  | R_copy_garbage c e f g h i sl s q a sd rd cr :
      (* reading memory that was never written: reported as recv returning None *)
      sl i = None ->
      rstep (mk c e f g h i sl s RGot q a sd rd cr) (Some (EvRecvRet None))
            (mk c e (S f) g h ((i + 1) mod size) sl s RIdle q a sd rd cr)
  | R_inc c e f g h i sl s q a sd rd cr v :
      rstep (mk c e f g h i sl s (RCopied v) q a sd rd cr) None
            (mk c e f g h ((i + 1) mod size) sl s (RInced v) q a sd rd cr)
  | R_ack c e f g h i sl s q a sd rd cr v :
      rstep (mk c e f g h i sl s (RInced v) q a sd rd cr) (Some (EvRecvRet (Some v)))
            (mk c e (S f) g h i sl s RIdle q a sd rd cr)
  | P_call c e f g h i sl s q a sd cr :
      rstep (mk c e f g h i sl s RIdle q a sd false cr) None
            (mk c e f g h i sl s PWait q a sd false cr)
  | P_get c e f g h i sl s q a sd rd cr :
      rstep (mk c e f (S g) h i sl s PWait q a sd rd cr) None
            (mk c e f (S g) h i sl s PGot q a sd rd cr)
  | P_copy c e f g h i sl s q a sd rd cr :
      rstep (mk c e f g h i sl s PGot q a sd rd cr) (Some (EvPeekRet (sl i)))
            (mk c e f g h i sl s RIdle q a sd rd cr)
  | R_probe c e f g h i sl s q a sd cr :
      rstep (mk c e f g h i sl s RIdle q a sd false cr) (Some (EvRecvProbe (0 <? g)))
            (mk c e f g h i sl s RIdle q a sd false cr)
  | R_join c e f g h i sl s q a sd cr :
      rstep (mk c e f g h i sl s RIdle q a sd false cr) (Some EvRecvJoin)
            (mk c (S e) f g h i sl s RIdle q a sd true cr)
  | R_join_again c e f g h i sl s q a sd cr :
      rstep (mk c e f g h i sl s RIdle q a sd true cr) (Some EvRecvJoin)
            (mk c e f g h i sl s RIdle q a sd true cr).

  (** Transitions of _req_callback (lines 267-275); observers: see Selector_Model. *)
  Inductive qstep : state -> state -> Prop :=
  | Q_acquire c e f g h i sl s r a sd rd cr :
      qstep (mk c (S e) f g h i sl s r QWait a sd rd cr)
            (mk c e f g h i sl s r QTok a sd rd cr)
  | Q_check c e f g h i sl s r a sd rd cr :
      qstep (mk c e f g h i sl s r QTok a sd rd cr)
            (mk c e f g h i sl s r (if rd then QDead else QRun) a sd rd cr)
  | Q_probe c e f g h i sl s r a sd rd cr :
      qstep (mk c e f g h i sl s r QRun a sd rd cr)
            (mk c e f g h i sl s r (QProbed (0 <? g)) a sd rd cr)
  | Q_put c e f g h i sl s r a sd rd cr b :
      (* put_nowait raises Full when qsize >= maxsize *)
      qstep (mk c e f g h i sl s r (QProbed b) a sd rd cr)
            (if g <? size then mk c e f (S g) h i sl s r QWait a sd rd cr
             else mk c e f g h i sl s r QDead a sd rd (Some QueueFull)).

  (** Transitions of _ack_callback (lines 110-118) with the inlined probe (120-128). *)
  Inductive astep : state -> state -> Prop :=
  | A_acquire c e f g h i sl s r q sd rd cr :
      astep (mk c e (S f) g h i sl s r q AWait sd rd cr)
            (mk c e f g h i sl s r q ATok sd rd cr)
  | A_check c e f g h i sl s r q sd rd cr :
      astep (mk c e f g h i sl s r q ATok sd rd cr)
            (mk c e f g h i sl s r q (if sd then ADead else ARun) sd rd cr)
  | A_probe_fail e f g h i sl s r q sd rd cr :
      astep (mk 0 e f g h i sl s r q ARun sd rd cr)
            (mk 0 e f g h i sl s r q (AProbed false) sd rd cr)
  | A_probe_acq c e f g h i sl s r q sd rd cr :
      astep (mk (S c) e f g h i sl s r q ARun sd rd cr)
            (mk c e f g h i sl s r q AHeld sd rd cr)
  | A_probe_rel c e f g h i sl s r q sd rd cr :
      astep (mk c e f g h i sl s r q AHeld sd rd cr)
            (if c <? size then mk (S c) e f g h i sl s r q (AProbed true) sd rd cr
             else mk c e f g h i sl s r q ADead sd rd (Some SemaphoreOverRelease))
  | A_release c e f g h i sl s r q sd rd cr b :
      (* BoundedSemaphore.release raises ValueError above its initial value *)
      astep (mk c e f g h i sl s r q (AProbed b) sd rd cr)
            (if c <? size then mk (S c) e f g h i sl s r q AWait sd rd cr
             else mk c e f g h i sl s r q ADead sd rd (Some SemaphoreOverRelease)).

  (** Steps of the daemons only. *)
  Definition istep (s s' : state) : Prop := qstep s s' \/ astep s s'.

  (** One step of the channel: any thread may move. *)
  Inductive step : state -> option event -> state -> Prop :=
  | step_s s e s' : sstep s e s' -> step s e s'
  | step_r s e s' : rstep s e s' -> step s e s'
  | step_q s s' : qstep s s' -> step s None s'
  | step_a s s' : astep s s' -> step s None s'.

  (** Executions from the initial state, with the trace of API events (oldest first). *)
  Inductive exec : list event -> state -> Prop :=
  | exec_init : exec [] init
  | exec_silent tr s s' : exec tr s -> step s None s' -> exec tr s'
  | exec_event tr s e s' : exec tr s -> step s (Some e) s' -> exec (tr ++ [e]) s'.

End Channel.
