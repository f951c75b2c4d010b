(** Model of Injector.send / Extractor.receive and their process models
    (/repo/src/lava/proc/io/utils.py 14-190, injector.py 73-124, extractor.py 75-124) on top of the
    channel of Channel_Model: one thread offers data to the sending end under a SendFull policy, one
    thread receives under a ReceiveEmpty and a ReceiveNotEmpty policy.  For the Injector the sender is
    the user and the receiver the process model, for the Extractor and VarWire the other way round.
    Simplifications: the Injector receives through the PyInPort, whose recv() adds the (single)
    channel's value to zeros; we take 0 + v = v.  The ports are not joined meanwhile. *)
From Coq Require Import List Arith.
From Verif Require Import Channel_Model.
Import ListNotations.

Inductive send_full := SBlocking | SDrop.            (* utils.py SendFull 14-23 *)
Inductive receive_empty := EBlocking | EZeros.       (* utils.py ReceiveEmpty 65-73 *)
Inductive receive_not_empty := Fifo | Accumulate.    (* utils.py ReceiveNotEmpty 122-131 *)

Section Policy.
Variable V : Type.
Variable shape_ok : V -> bool.
Variable size : nat.
Variable zero : V.
Variable add : V -> V -> V.
Variable ps : send_full.
Variable pe : receive_empty.
Variable pn : receive_not_empty.

(** where the offering thread is: send_full_blocking 26-38, send_full_non_blocking_drop 41-57 *)
Inductive upc :=
| UIdle
| UProbe (d : V)     (* in src_port.probe() *)
| USend (d : V)      (* before src_port.send(d) *)
| USending (d : V).  (* inside it *)
(** where the receiving thread is: extractor.py receive 75-104, injector.py run_spk 107-121 *)
Inductive ppc :=
| PIdle
| PCalled                             (* before qsize() *)
| PNext (k : nat) (acc : option V)    (* before the next of k recv() calls *)
| PIn (k : nat) (acc : option V).     (* inside it *)

Record cst := mkc { ch : state V; up : upc; rp : ppc }.
Definition cinit : cst := mkc (init V size) UIdle PIdle.

Inductive cevent :=
| Offered (d : V)    (* send(d) is called *)
| Accepted (d : V)   (* it returns, having sent *)
| Dropped (d : V)    (* it returns with the warning *)
| Rejected (d : V)   (* it raises AssertionError (wrong shape) *)
| Called (n : nat)   (* receive() is called while [n] messages are in the receiving port's buffer *)
| Received (v : V)   (* it returns v *)
| Garbage.           (* recv() returned uninitialised memory *)

(** the offering thread *)
Inductive ustep : cst -> option cevent -> cst -> Prop :=
| u_offer d s r : ustep (mkc s UIdle r) (Some (Offered d)) (mkc s (match ps with SBlocking => USend d | SDrop => UProbe d end) r)
| u_probe_go d s s' r : sstep V shape_ok size s None s' -> ustep (mkc s (UProbe d) r) None (mkc s' (UProbe d) r)
| u_probe_yes d s s' r : sstep V shape_ok size s (Some (EvSendProbe V true)) s' -> ustep (mkc s (UProbe d) r) None (mkc s' (USend d) r)
| u_probe_no d s s' r : sstep V shape_ok size s (Some (EvSendProbe V false)) s' -> ustep (mkc s (UProbe d) r) (Some (Dropped d)) (mkc s' UIdle r)
| u_call d s s' r : sstep V shape_ok size s (Some (EvSendCall V d)) s' -> ustep (mkc s (USend d) r) None (mkc s' (USending d) r)
| u_reject d s s' r : sstep V shape_ok size s (Some (EvSendReject V d)) s' -> ustep (mkc s (USend d) r) (Some (Rejected d)) (mkc s' UIdle r)
| u_go d s s' r : sstep V shape_ok size s None s' -> ustep (mkc s (USending d) r) None (mkc s' (USending d) r)
| u_ret d s s' r : sstep V shape_ok size s (Some (EvSendRet V)) s' -> ustep (mkc s (USending d) r) (Some (Accepted d)) (mkc s' UIdle r).

(** receive_empty_* 76-116, receive_not_empty_* 134-186: what follows the qsize() test *)
Definition after_qsize (n : nat) : option cevent * ppc :=
  match n with
  | O => match pe with EZeros => (Some (Received zero), PIdle) | EBlocking => (None, PNext 1 None) end
  | S _ => match pn with Fifo => (None, PNext 1 None) | Accumulate => (None, PNext n (Some zero)) end
  end.
Definition plus (acc : option V) (v : V) : V := match acc with None => v | Some a => add a v end.

(** the receiving thread *)
Inductive vstep : cst -> option cevent -> cst -> Prop :=
| v_call s u : vstep (mkc s u PIdle) (Some (Called (queue V s))) (mkc s u PCalled)
| v_qsize s u : vstep (mkc s u PCalled) (fst (after_qsize (queue V s))) (mkc s u (snd (after_qsize (queue V s))))
| v_recv s s' u k acc : rstep V size s (Some (EvRecvCall V)) s' -> vstep (mkc s u (PNext k acc)) None (mkc s' u (PIn k acc))
| v_go s s' u k acc : rstep V size s None s' -> vstep (mkc s u (PIn k acc)) None (mkc s' u (PIn k acc))
| v_last s s' u acc v : rstep V size s (Some (EvRecvRet V (Some v))) s' ->
    vstep (mkc s u (PIn 1 acc)) (Some (Received (plus acc v))) (mkc s' u PIdle)
| v_more s s' u k acc v : rstep V size s (Some (EvRecvRet V (Some v))) s' ->
    vstep (mkc s u (PIn (S (S k)) acc)) None (mkc s' u (PNext (S k) (Some (plus acc v))))
| v_garbage s s' u k acc : rstep V size s (Some (EvRecvRet V None)) s' ->
    vstep (mkc s u (PIn k acc)) (Some Garbage) (mkc s' u PIdle).

(** the channel's own threads *)
Inductive dstep : cst -> cst -> Prop :=
| d_go s s' u r : istep V size s s' -> dstep (mkc s u r) (mkc s' u r).

Inductive cstep : cst -> option cevent -> cst -> Prop :=
| c_u c e c' : ustep c e c' -> cstep c e c'
| c_v c e c' : vstep c e c' -> cstep c e c'
| c_d c c' : dstep c c' -> cstep c None c'.

Inductive cexec : list cevent -> cst -> Prop :=
| cexec_init : cexec [] cinit
| cexec_silent tr c c' : cexec tr c -> cstep c None c' -> cexec tr c'
| cexec_event tr c e c' : cexec tr c -> cstep c (Some e) c' -> cexec (tr ++ [e]) c'.
End Policy.
