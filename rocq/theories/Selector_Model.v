(** Model of CspSelector.select over n receive ports
    (src/lava/magma/compiler/channels/pypychannel.py:267-275, 277-282, 316-352).

    Threads: the caller of select() (who is also the only reader of the listed
    channels, as in runtime_service.py), and one _req_callback thread per channel.
    The condition variable's lock is held by the selector exactly while its program
    counter is [SetObs], [Scan] or [Clear]; Condition.wait releases it.

    Simplifications: only receive ports are listed (all uses in /repo list receive
    ports); the ring buffer and the acknowledgement are abstracted to the bound
    "at most [size] messages outstanding" proved in Channel_Props (chan_safe);
    spurious wake-ups do not occur (threading.Condition has none). *)
From Coq Require Import List Arith Bool.
From Verif Require Import Base.
Import ListNotations.

Section Selector.
  Variable n : nat.      (* number of (channel, action) pairs passed to select *)
  Variable size : nat.   (* capacity of each channel *)

  (** _req_callback, lines 267-275. *)
  Inductive tpc :=
  | TIdle                  (* in req.acquire() *)
  | TRun                   (* token acquired, before not_empty = self.probe() *)
  | TProbed (ne : bool)    (* before self._queue.put_nowait(0) *)
  | TPut (ne : bool)       (* before "if self.observer and not not_empty" *)
  | TTested                (* condition was true, before self.observer is read again *)
  | TCall                  (* inside _changed(), before "with self._cv: notify_all()" *)
  | TCrashed.              (* TypeError: 'NoneType' object is not callable *)

  (** Caller of select(), lines 334-352. *)
  Inductive lpc :=
  | Out                    (* not in select() *)
  | SetObs (k : nat)       (* about to execute channel_k.observer = self._changed *)
  | Scan (k : nat)         (* about to probe channel k (k = n: about to wait) *)
  | Waiting                (* in self._cv.wait(), lock released *)
  | Woken                  (* notified, re-acquiring the lock *)
  | Clear (r k : nat).     (* channel r found ready; about to clear the observer of k *)

  Record sst := mks {
    tok : nat -> nat;      (* value of the req semaphore of each channel *)
    qn  : nat -> nat;      (* queue length of each channel *)
    th  : nat -> tpc;
    obs : nat -> bool;     (* observer set? *)
    sel : lpc }.

  Inductive sevent :=
  | EvCall                 (* select() called *)
  | EvProbe (i : nat) (b : bool)   (* channel i probed by select() *)
  | EvSleep                (* select() starts waiting *)
  | EvSelected (r : nat)   (* select() runs the action of channel r *)
  | EvRecv (i : nat)       (* recv() on channel i by the caller of select *)
  | EvSent (i : nat).      (* a message arrives at channel i from the remote sender *)

  Definition busy (p : tpc) : nat := match p with TRun | TProbed _ => 1 | _ => 0 end.

  Definition sel0 : sst := mks (fun _ => 0) (fun _ => 0) (fun _ => TIdle) (fun _ => false) Out.

  (** Thread of channel i, lines 267-275 and _changed 325-327. *)
  Inductive tstep (i : nat) : sst -> sst -> Prop :=
  | T_acquire t q h o s c : h i = TIdle -> t i = S c ->
      tstep i (mks t q h o s) (mks (fupd t i c) q (fupd h i TRun) o s)
  | T_probe t q h o s : h i = TRun ->
      tstep i (mks t q h o s) (mks t q (fupd h i (TProbed (0 <? q i))) o s)
  | T_put t q h o s ne : h i = TProbed ne ->
      tstep i (mks t q h o s) (mks t (fupd q i (S (q i))) (fupd h i (TPut ne)) o s)
  | T_test t q h o s ne : h i = TPut ne ->
      tstep i (mks t q h o s)
              (mks t q (fupd h i (if o i && negb ne then TTested else TIdle)) o s)
  | T_call t q h o s : h i = TTested ->
      tstep i (mks t q h o s) (mks t q (fupd h i (if o i then TCall else TCrashed)) o s)
  | T_notify t q h o s : h i = TCall -> (s = Out \/ s = Waiting \/ s = Woken) ->
      tstep i (mks t q h o s)
              (mks t q (fupd h i TIdle) o (match s with Waiting => Woken | _ => s end)).

  (** Caller of select(), lines 329-352. *)
  Inductive lstep : sst -> option sevent -> sst -> Prop :=
  | L_call t q h o :
      lstep (mks t q h o Out) (Some EvCall) (mks t q h o (SetObs 0))
  | L_set t q h o k : k < n ->
      lstep (mks t q h o (SetObs k)) None (mks t q h (fupd o k true) (SetObs (S k)))
  | L_set_end t q h o :
      lstep (mks t q h o (SetObs n)) None (mks t q h o (Scan 0))
  | L_probe_no t q h o k : k < n -> q k = 0 ->
      lstep (mks t q h o (Scan k)) (Some (EvProbe k false)) (mks t q h o (Scan (S k)))
  | L_probe_yes t q h o k : k < n -> 0 < q k ->
      lstep (mks t q h o (Scan k)) (Some (EvProbe k true)) (mks t q h o (Clear k 0))
  | L_wait t q h o :
      lstep (mks t q h o (Scan n)) (Some EvSleep) (mks t q h o Waiting)
  | L_wake t q h o :
      lstep (mks t q h o Woken) None (mks t q h o (Scan 0))
  | L_clear t q h o r k : k < n ->
      lstep (mks t q h o (Clear r k)) None (mks t q h (fupd o k false) (Clear r (S k)))
  | L_ret t q h o r :
      lstep (mks t q h o (Clear r n)) (Some (EvSelected r)) (mks t q h o Out)
  | L_recv t q h o i c : i < n -> q i = S c ->
      lstep (mks t q h o Out) (Some (EvRecv i)) (mks t (fupd q i c) h o Out).

  (** The remote sender releases req; bounded by the capacity (chan_safe). *)
  Inductive estep : sst -> option sevent -> sst -> Prop :=
  | E_send t q h o s i : i < n -> t i + busy (h i) + q i < size ->
      estep (mks t q h o s) (Some (EvSent i)) (mks (fupd t i (S (t i))) q h o s).

  Inductive selstep : sst -> option sevent -> sst -> Prop :=
  | ss_t i s s' : i < n -> tstep i s s' -> selstep s None s'
  | ss_l s e s' : lstep s e s' -> selstep s e s'
  | ss_e s e s' : estep s e s' -> selstep s e s'.

  Inductive selexec : list sevent -> sst -> Prop :=
  | se_init : selexec [] sel0
  | se_silent tr s s' : selexec tr s -> selstep s None s' -> selexec tr s'
  | se_event tr s e s' : selexec tr s -> selstep s (Some e) s' -> selexec (tr ++ [e]) s'.
End Selector.
