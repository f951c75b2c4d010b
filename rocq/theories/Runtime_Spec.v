(** Specification vocabulary for C07-C12: functions of the trace of events only. *)
From Coq Require Import List Arith Bool.
From Verif Require Export Base Runtime_Model.
Import ListNotations.

(** Commands process i has started / finished executing, in order. *)
Fixpoint begun (i : nat) (tr : list event) : list cmd :=
  match tr with
  | [] => []
  | EvBegin j c :: r => if j =? i then c :: begun i r else begun i r
  | _ :: r => begun i r
  end.
Fixpoint ended (i : nat) (tr : list event) : list cmd :=
  match tr with
  | [] => []
  | EvEnd j c _ :: r => if j =? i then c :: ended i r else ended i r
  | _ :: r => ended i r
  end.

(** Commands the service decided to send to all processes. *)
Fixpoint bcasts (tr : list event) : list cmd :=
  match tr with
  | [] => []
  | EvBcast c :: r => c :: bcasts r
  | _ :: r => bcasts r
  end.

(** Messages sent by the service to the runtime. *)
Fixpoint said (tr : list event) : list rresp :=
  match tr with
  | [] => []
  | EvResp x :: r => x :: said r
  | _ :: r => said r
  end.

Definition cmd_eqb (a b : cmd) : bool :=
  match a, b with
  | CSpk, CSpk | CPre, CPre | CLrn, CLrn | CPost, CPost | CHost, CHost
  | CPause, CPause | CStop, CStop => true
  | _, _ => false
  end.

Definition count (c : cmd) (l : list cmd) : nat := length (filter (cmd_eqb c) l).

(** Commands that are executed and acknowledged (all but the host phase, which is only a
    state change). *)
Definition acked (l : list cmd) : list cmd := filter responding l.

Definition is_start (e : event) : Prop := match e with EvStart _ => True | _ => False end.
Definition is_phase (c : cmd) : Prop :=
  match c with CSpk | CPre | CLrn | CPost => True | _ => False end.

(** Did a process ask (by itself) for a pause or stop? *)
Definition self_req (e : event) : Prop :=
  match e with EvEnd _ _ (Some RReqPause) | EvEnd _ _ (Some RReqStop) => True | _ => False end.
Definition raised (e : event) : Prop :=
  match e with EvEnd _ _ (Some RErr) => True | _ => False end.

(** Unanswered request: some process asked with [r] and the service has not yet started the
    phase [c] in answer. *)
Definition asked (r : resp) (c : cmd) (tr : list event) : bool :=
  fold_left (fun b e =>
    match e with
    | EvEnd _ _ (Some r') =>
        b || match r, r' with
             | RReqPre, RReqPre | RReqLrn, RReqLrn | RReqPost, RReqPost => true
             | _, _ => false end
    | EvBcast c' => if cmd_eqb c c' then false else b
    | _ => b
    end) tr false.

(** The current run: its requested number of steps and the events since its start. *)
Fixpoint since_start (tr : list event) : option (nat * list event) :=
  match tr with
  | [] => None
  | e :: r =>
      match since_start r with
      | Some x => Some x
      | None => match e with EvStart n => Some (n, r) | _ => None end
      end
  end.

Definition rresp_eqb (a b : rresp) : bool :=
  match a, b with
  | DONE, DONE | TERMINATED, TERMINATED | ERROR, ERROR | PAUSED, PAUSED
  | REQ_PAUSE, REQ_PAUSE | REQ_STOP, REQ_STOP => true
  | _, _ => false
  end.
Definition times (r : rresp) (l : list rresp) : nat := length (filter (rresp_eqb r) l).

(** Requested run lengths, in the order pushed by the runtime / started by the service. *)
Fixpoint pushed (tr : list event) : list nat :=
  match tr with
  | [] => []
  | EvPush (Steps n) :: r => n :: pushed r
  | _ :: r => pushed r
  end.
Fixpoint starts (tr : list event) : list nat :=
  match tr with
  | [] => []
  | EvStart n :: r => n :: starts r
  | _ :: r => starts r
  end.

(** All requested runs have been started and the last one is over. *)
Definition idle (tr : list event) : Prop :=
  pushed tr = starts tr /\
  match since_start tr with
  | None => True
  | Some (_, l) => In DONE (said l) \/ In REQ_PAUSE (said l)
  end.

(** Histories in which the runtime sends PAUSE only between runs (for instance after the
    network itself requested a pause), never STOP, and no process raises or asks to stop. *)
Definition disciplined (tr : list event) : Prop :=
  (forall a b, tr = a ++ EvPush Pause :: b -> idle a) /\
  ~ In (EvPush Stop) tr /\
  (forall e, In e tr -> ~ raised e) /\
  (forall i c, ~ In (EvEnd i c (Some RReqStop)) tr).

(** Histories without pause, stop or error. *)
Definition benign (tr : list event) : Prop :=
  ~ In (EvPush Pause) tr /\ ~ In (EvPush Stop) tr /\
  (forall e, In e tr -> ~ raised e /\ ~ self_req e).

(** One step of the service or of a process (the runtime does nothing), as a step of the
    pair (history, state).  [calm_next]: user code neither raises nor requests. *)
Definition sysnext (N : nat) (x y : list event * sys) : Prop :=
  exists e, (vstep N (snd x) e (snd y) \/ mstep N (snd x) e (snd y)) /\ fst y = ext (fst x) e.
Definition calm_next (N : nat) (x y : list event * sys) : Prop :=
  exists e, (vstep N (snd x) e (snd y) \/ mstep N (snd x) e (snd y)) /\ fst y = ext (fst x) e /\
            forall ev, e = Some ev -> ~ self_req ev /\ ~ raised ev.
Definition noraise_next (N : nat) (x y : list event * sys) : Prop :=
  exists e, (vstep N (snd x) e (snd y) \/ mstep N (snd x) e (snd y)) /\ fst y = ext (fst x) e /\
            forall ev, e = Some ev -> ~ raised ev.
