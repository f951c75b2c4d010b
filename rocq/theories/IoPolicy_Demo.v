(** C46, concrete executions. *)
From Coq Require Import List Arith Lia Bool.
From Verif Require Import Channel_Model Channel_Spec IoPolicy_Model IoPolicy_Props.
Import ListNotations.
(** ** Concrete executions *)
Definition pol_ok (d : nat) : bool := d <? 100.

Ltac pev H t := eapply cexec_event in H; [|t]; simpl in H.
Ltac psi H t := eapply cexec_silent in H; [|t]; simpl in H.
Ltac pu c t := apply c_u; apply c; apply t; try reflexivity.
Ltac pv c t := apply c_v; apply c; apply t; try reflexivity.
Ltac pq t := apply c_d; apply d_go; left; apply t.
Ltac pa t := apply c_d; apply d_go; right; apply t.
Ltac offer H v := pev H ltac:(apply c_u; apply (u_offer nat pol_ok _ _ v)).
Ltac probe_yes H := psi H ltac:(pu u_probe_go S_probe_acq); psi H ltac:(pu u_probe_yes S_probe_rel).
Ltac do_send H := psi H ltac:(pu u_call S_call); psi H ltac:(pu u_go S_acquire); psi H ltac:(pu u_go S_write);
  psi H ltac:(pu u_go S_inc); pev H ltac:(pu u_ret S_release).
Ltac serve H := psi H ltac:(pq Q_acquire); psi H ltac:(pq Q_check); psi H ltac:(pq Q_probe); psi H ltac:(pq Q_put).
Ltac one_recv H := psi H ltac:(pv v_recv R_call); psi H ltac:(pv v_go R_get); psi H ltac:(pv v_go R_copy); psi H ltac:(pv v_go R_inc).

(** DROP, capacity 1: the second item is dropped *)
Example policy_drop_demo : exists tr c, cexec nat pol_ok 1 0 Nat.add SDrop EZeros Accumulate tr c /\
  outcomes tr = [OAcc 7; ODrop 8].
Proof.
  pose proof (cexec_init nat pol_ok 1 0 Nat.add SDrop EZeros Accumulate) as H. unfold cinit, init in H.
  offer H 7. probe_yes H. do_send H. offer H 8. pev H ltac:(pu u_probe_no S_probe_fail).
  do 2 eexists. split; [exact H|]. reflexivity.
Qed.
(** ACCUMULATE and ZEROS: 7 + 8, then zeros *)
Example policy_accumulate_demo : exists tr c, cexec nat pol_ok 2 0 Nat.add SBlocking EZeros Accumulate tr c /\
  accepted tr = [7; 8] /\ receives 0 tr = [(2, 15); (0, 0)].
Proof.
  pose proof (cexec_init nat pol_ok 2 0 Nat.add SBlocking EZeros Accumulate) as H. unfold cinit, init in H.
  offer H 7. do_send H. offer H 8. do_send H. serve H. serve H.
  pev H ltac:(apply c_v, v_call). psi H ltac:(apply c_v, v_qsize).
  one_recv H. psi H ltac:(pv v_more R_ack). one_recv H. pev H ltac:(pv v_last R_ack).
  pev H ltac:(apply c_v, v_call).
  eapply (cexec_event _ _ _ _ _ _ _ _ _ _ (Received nat 0)) in H; [|apply c_v; exact (v_qsize nat 2 0 Nat.add EZeros Accumulate _ (UIdle nat))]. simpl in H.
  do 2 eexists. split; [exact H|]. split; reflexivity.
Qed.
(** FIFO and BLOCKING: a receive() that waits, with an accepted message on its way (hypotheses of
    [policy_blocking_returns]) *)
Example policy_waiting_demo : exists tr c, cexec nat pol_ok 2 0 Nat.add SBlocking EBlocking Fifo tr c /\
  accepted tr = [7] /\ received tr = [] /\ rp nat c = PIn nat 1 None.
Proof.
  pose proof (cexec_init nat pol_ok 2 0 Nat.add SBlocking EBlocking Fifo) as H. unfold cinit, init in H.
  pev H ltac:(apply c_v, v_call). psi H ltac:(apply c_v, v_qsize). psi H ltac:(pv v_recv R_call).
  offer H 7. do_send H.
  do 2 eexists. split; [exact H|]. repeat split; reflexivity.
Qed.

(** DROP can drop although the buffer is empty: capacity 2, the only message sent so far has been received,
    and yet the next one is dropped, because the port's service thread holds the free slot while probing. *)
Theorem policy_drop_spurious_refuted : exists tr c,
  cexec nat pol_ok 2 0 Nat.add SDrop EBlocking Fifo (tr ++ [Dropped nat 8]) c /\
  accepted tr = [7] /\ received tr = [7].
Proof.
  pose proof (cexec_init nat pol_ok 2 0 Nat.add SDrop EBlocking Fifo) as H. unfold cinit, init in H.
  offer H 7. probe_yes H. do_send H. serve H.
  pev H ltac:(apply c_v, v_call). psi H ltac:(apply c_v, v_qsize). one_recv H. pev H ltac:(pv v_last R_ack).
  offer H 8. psi H ltac:(pa A_acquire). psi H ltac:(pa A_check). psi H ltac:(pa A_probe_acq).
  pev H ltac:(pu u_probe_no S_probe_fail).
  exists [Offered nat 7; Accepted nat 7; Called nat 1; Received nat 7; Offered nat 8]. eexists. split; [exact H|]. split; reflexivity.
Qed.
Print Assumptions policy_lossless.
Print Assumptions policy_drop_never_blocks.
