(** C105: concrete processes, and the parts of the claim that are false. *)
From Coq Require Import ZArith List Bool Lia Znumtheory.
From Verif Require Import Conn_Spec Conv_Model Conv_Props Bits_Model ConvProc_Model ConvProc_Spec ConvProc_Props.
Import ListNotations.
Open Scope Z_scope.

Definition shape0 (n k c f s p g : nat) : shape_conv :=
  {| nx := n; ny := n; nc := c; kx := k; ky := k; nk := f; sx := s; sy := s; px := p; py := p; dx := 1; dy := 1; groups := g |}.
Definition const_image (v : Z) : image3 := fun _ _ _ => v.
Definition wgts (k i j c : nat) : Z := Z.of_nat (1 + i + 2 * j + 10 * k).

(** a 4x4 image of 2 channels, 2x2 kernels, 4 filters in 2 groups, stride 1, padding 1 *)
Definition small : conv_cfg := mkConv (shape0 4 2 2 4 1 1 2) 1 wgts true 8 0 8.
Definition frame (t : nat) : image3 := fun x y ch => Z.of_nat (x + 4 * y + 16 * ch + 100 * t).
Example small_meets : out_shape small = Some (5, 5, 4)%nat /\ Proper small /\ Channels small /\ (groups (sc small) <= 127)%nat.
Proof. vm_compute. repeat split; lia. Qed.
Example small_sends :
  map (fun t => sent small [frame 0; frame 1; frame 2] t 1 2 3) [0; 1; 2]%nat = [0; 2916; 15916] /\
  snd (run_proc small [frame 0; frame 1; frame 2]) = false.
Proof. vm_compute. split; reflexivity. Qed.
Example small_is_nontrivial : Conv_of small [frame 0; frame 1; frame 2] 1 1 2 3 = 15916.
Proof. vm_compute. reflexivity. Qed.
(** without message bits the values are spikes *)
Example small_spikes : sent (mkConv (sc small) 1 wgts false 0 0 8) [frame 1; frame 0] 1 1 2 3 = 130.
Proof. vm_compute. reflexivity. Qed.

(** ** 128 groups *)
Definition depthwise : conv_cfg := mkConv (shape0 1 1 128 128 1 0 128) 1 (fun _ _ _ _ => 1) false 8 0 8.
Example depthwise_meets : out_shape depthwise = Some (1, 1, 128)%nat /\ Proper depthwise /\ Channels depthwise.
Proof. vm_compute. repeat split; lia. Qed.
Theorem convolves_refuted : ~ forall c s ins t x y ch, out_shape c = Some s -> Proper c -> Channels c -> fixed c = false ->
  (S t < List.length ins)%nat -> (ch < nk (sc c))%nat -> sent c ins (S t) x y ch = Conv_of c ins t x y ch.
Proof.
  intros H. destruct depthwise_meets as (A & B & C).
  specialize (H depthwise _ [const_image 1; const_image 1] 0%nat 0%nat 0%nat 0%nat A B C eq_refl ltac:(cbn; lia) ltac:(cbn; lia)).
  rewrite (proj2 (groups_128_silent depthwise _ [const_image 1; const_image 1] A B eq_refl)) in H. vm_compute in H. discriminate H.
Qed.
(** 130 groups: -126 does not divide 130, and the first step raises *)
Theorem always_runs_refuted : ~ forall c s ins, out_shape c = Some s -> Proper c -> Channels c -> snd (run_proc c ins) = false.
Proof.
  intros H. set (c := mkConv (shape0 1 1 130 130 1 0 130) 1 (fun _ _ _ _ => 1) false 8 0 8).
  assert (out_shape c = Some (1, 1, 130)%nat) as A by (vm_compute; reflexivity).
  assert (Proper c) as P by (vm_compute; repeat split; lia).
  assert (Channels c) as C by (vm_compute; reflexivity).
  specialize (H c _ [const_image 1] A P C).
  destruct (many_groups c _ [const_image 1] A P ltac:(cbn; lia) ltac:(discriminate)) as [_ Y].
  cbn [sc c shape0 groups nc nk] in Y. change (256 - Z.of_nat 130) with 126 in Y. change (Z.of_nat 130) with 130 in Y.
  rewrite H in Y. destruct Y as [Y _]; [|discriminate Y]. intros [X|[X _]]; [lia|]. apply Z.mod_divide in X; [|lia]. vm_compute in X. discriminate X.
Qed.

(** ** the weights' channels are not checked *)
Example channels_unchecked : let c := mkConv (shape0 1 1 2 1 1 0 1) 1 (fun _ _ _ _ => 1) false 8 0 8 in
  out_shape c = Some (1, 1, 1)%nat /\ Proper c /\ snd (run_proc c [const_image 1]) = true.
Proof. vm_compute. repeat split; lia. Qed.

(** ** fixed point *)
Definition gain (v : Z) : conv_cfg := mkConv (shape0 1 1 1 1 1 0 1) 1 (fun _ _ _ _ => v) true 24 0 8.
(** 2^23 becomes -2^23: the value is not clamped but wraps *)
Theorem clamped_refuted : ~ forall c s ins t x y ch, out_shape c = Some s -> Proper c -> Channels c -> (groups (sc c) <= 127)%nat ->
  fixed c = true -> (S t < List.length ins)%nat -> (ch < nk (sc c))%nat -> 0 <= Conv_of c ins t x y ch -> 0 <= sent c ins (S t) x y ch.
Proof.
  intros H. specialize (H (gain 1) (1, 1, 1)%nat [const_image (2 ^ 23); const_image 0] 0%nat 0%nat 0%nat 0%nat eq_refl
    ltac:(vm_compute; repeat split; lia) eq_refl ltac:(cbn; lia) eq_refl ltac:(cbn; lia) ltac:(cbn; lia) ltac:(vm_compute; discriminate)).
  vm_compute in H. apply H. reflexivity.
Qed.
(** a convolution that does not fit 32 bits is not even correct modulo 2^24 *)
Theorem modulo_refuted : ~ forall c s ins t x y ch, out_shape c = Some s -> Proper c -> Channels c -> (groups (sc c) <= 127)%nat ->
  fixed c = true -> (S t < List.length ins)%nat -> (ch < nk (sc c))%nat -> Signed24 (Conv_of c ins t x y ch) (sent c ins (S t) x y ch).
Proof.
  intros H. destruct (H (gain 128) (1, 1, 1)%nat [const_image (2 ^ 24 + 1); const_image 0] 0%nat 0%nat 0%nat 0%nat eq_refl
    ltac:(vm_compute; repeat split; lia) eq_refl ltac:(cbn; lia) eq_refl ltac:(cbn; lia) ltac:(cbn; lia)) as [D _].
  apply Z.mod_divide in D; [|lia]. vm_compute in D. discriminate D.
Qed.
(** the weight exponent of the documentation does not scale the weights *)
Theorem exponent_refuted : ~ forall c s ins t x y ch, out_shape c = Some s -> Proper c -> Channels c -> (groups (sc c) <= 127)%nat ->
  fixed c = false -> (S t < List.length ins)%nat -> (ch < nk (sc c))%nat -> 0 <= exp_of_weights c ->
  sent c ins (S t) x y ch = 2 ^ exp_of_weights c * Conv_of c ins t x y ch.
Proof.
  intros H. specialize (H (mkConv (shape0 1 1 1 1 1 0 1) 1 (fun _ _ _ _ => 1) false 24 3 8) (1, 1, 1)%nat [const_image 1; const_image 0]
    0%nat 0%nat 0%nat 0%nat eq_refl
    ltac:(vm_compute; repeat split; lia) eq_refl ltac:(cbn; lia) eq_refl ltac:(cbn; lia) ltac:(cbn; lia) ltac:(vm_compute; discriminate)).
  vm_compute in H. discriminate H.
Qed.
