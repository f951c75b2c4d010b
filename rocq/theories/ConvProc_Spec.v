(** Specification vocabulary for C105. *)
From Coq Require Import ZArith List Bool.
From Verif Require Import Conn_Spec Conv_Model Conv_Props ConvProc_Model.
Import ListNotations.
Open Scope Z_scope.

(** the weights have a channel for each input channel of a group *)
Definition Channels (c : conv_cfg) : Prop := (wc c * groups (sc c) = nc (sc c))%nat.
(** kernel and dilation of at least 1 *)
Definition Proper (c : conv_cfg) : Prop := (0 < kx (sc c) /\ 0 < ky (sc c) /\ 0 < dx (sc c) /\ 0 < dy (sc c) /\ 0 < nk (sc c))%nat.

(** what step [t] received: the values, or 0 and 1 without message bits *)
Definition carried (c : conv_cfg) (ins : list image3) (t : nat) : image3 :=
  fun x y ch => message (0 <? num_message_bits c) (nth t ins (fun _ _ _ => 0) x y ch).
(** the convolution of what was received in step [t] *)
Definition Conv_of (c : conv_cfg) (ins : list image3) (t x y ch : nat) : Z :=
  convolution (sc c) (wgt c) (carried c ins t) x y ch.

(** [z] as a signed number of 24 bits *)
Definition Signed24 (z r : Z) : Prop := (2 ^ 24 | r - z) /\ - 2 ^ 23 <= r < 2 ^ 23.

(** the value sent in step [t] *)
Definition sent (c : conv_cfg) (ins : list image3) (t x y ch : nat) : Z :=
  nth t (fst (run_proc c ins)) (fun _ _ _ => 0) x y ch.
