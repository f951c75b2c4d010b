(** Specification vocabulary for the channel properties C01-C04 and C06.
    Everything here is a function of the trace of API events only, except
    [inevitable], which is the usual "on every maximal run of the service
    threads" modality. *)

From Coq Require Import List Arith.
From Verif Require Export Base.
From Verif Require Import Channel_Model.
Import ListNotations.

Section ChannelSpec.
  Context {V : Type}.

  (** Values passed to send(), in call order (rejected calls excluded). *)
  Fixpoint calls (tr : list (event V)) : list V :=
    match tr with
    | [] => []
    | EvSendCall _ d :: r => d :: calls r
    | _ :: r => calls r
    end.

  (** Number of send() calls that have returned. *)
  Fixpoint nret (tr : list (event V)) : nat :=
    match tr with
    | [] => 0
    | EvSendRet _ :: r => S (nret r)
    | _ :: r => nret r
    end.

  (** Values passed to the send() calls that have returned. *)
  Definition sent (tr : list (event V)) : list V := firstn (nret tr) (calls tr).

  (** Results of the recv() calls that have returned. *)
  Fixpoint rcvd (tr : list (event V)) : list (option V) :=
    match tr with
    | [] => []
    | EvRecvRet _ v :: r => v :: rcvd r
    | _ :: r => rcvd r
    end.

  Definition is_recv_call (e : event V) : Prop :=
    match e with EvRecvCall _ => True | _ => False end.
  Definition is_recv_ret (e : event V) : Prop :=
    match e with EvRecvRet _ _ => True | _ => False end.
End ChannelSpec.

(** A recv() (resp. send()) call has been issued and has not returned. *)
Definition in_recv {V} (s : state V) : Prop :=
  match rpcs V s with RWait _ | RGot _ | RCopied _ _ | RInced _ _ => True | _ => False end.
Definition in_send {V} (s : state V) : Prop :=
  match spcs V s with SWait _ _ | SAcq _ _ | SWrote _ | SInc _ => True | _ => False end.
