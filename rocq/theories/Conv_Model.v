(** Model of /repo/src/lava/proc/conv/utils.py: output_shape, conv_scipy, conv_to_sparse.
    Arrays are functions of their indices together with their dimensions; numbers are exact integers
    (conv_scipy computes in float64, exact for the integer data of the fixed-point models). *)
From Coq Require Import ZArith List Bool Arith.
From Verif Require Import Conn_Model Conn_Spec.
Import ListNotations.
Open Scope Z_scope.

(** output_shape 89-151, one dimension: floor((n + 2p - d(k-1) - 1) / s + 1), an exception when < 1.
    The division is a float division; it is exact enough for the floor as long as the numerator is below
    2^53. *)
Definition out_dim (n k s p d : Z) : option Z :=
  let v := (n + 2 * p - d * (k - 1) - 1) / s + 1 in
  if v <? 1 then None else Some v.

(** ** conv_scipy 204-297 *)
(** np.pad(..., 'constant'): coordinates shifted by the padding, zero outside *)
Definition padded (nx ny px py : nat) (inp : nat -> nat -> nat -> Z) (x y c : nat) : Z :=
  if ((px <=? x) && (x <? px + nx) && (py <=? y) && (y <? py + ny))%nat then inp (x - px)%nat (y - py)%nat c else 0.
(** dilated_weight[:, ::d0, ::d1, :] = weight 246-252 *)
Definition dilated (dx dy : nat) (w : nat -> nat -> Z) (a b : nat) : Z :=
  if ((a mod dx =? 0) && (b mod dy =? 0))%nat then w (a / dx)%nat (b / dy)%nat else 0.
(** scipy.signal.convolve2d(in, ker, mode='valid')[x, y] for a kernel of size (ka, kb) *)
Definition convolve2d (ka kb : nat) (im ker : nat -> nat -> Z) (x y : nat) : Z :=
  sum_upto ka (fun a => sum_upto kb (fun b => im (x + (ka - 1 - a))%nat (y + (kb - 1 - b))%nat * ker a b)).
Record shape_conv := { nx : nat; ny : nat; nc : nat; (* input *)
                       kx : nat; ky : nat; nk : nat; (* kernel size, output channels *)
                       sx : nat; sy : nat; px : nat; py : nat; dx : nat; dy : nat; groups : nat }.
(** 273-297: the accumulation loop; output[x, y, ch] is the sum of the terms added to it *)
Definition conv_scipy (p : shape_conv) (w : nat -> nat -> nat -> nat -> Z) (inp : nat -> nat -> nat -> Z)
           (x y ch : nat) : Z :=
  let k_grp := (nk p / groups p)%nat in
  let c_grp := (nc p / groups p)%nat in
  sum_upto (groups p) (fun g => sum_upto k_grp (fun k => sum_upto c_grp (fun c =>
    if Nat.eqb ch (k + g * k_grp) then
      convolve2d (dx p * (kx p - 1) + 1) (dy p * (ky p - 1) + 1)
        (fun a b => padded (nx p) (ny p) (px p) (py p) inp a b (c + g * c_grp))
        (dilated (dx p) (dy p) (fun a b => w (k + g * k_grp)%nat a b c))
        (x * sx p) (y * sy p)
    else 0))).

(** ** conv_to_sparse 300-491 *)
Record karray := { kd0 : nat; kd1 : nat; kd2 : nat; kd3 : nat; kval : nat -> nat -> nat -> nat -> Z }.
Inductive order := NWHC | NCHW | CHWN | HWCN.
Definition shape3 : Type := (nat * nat * nat)%type.
(** the local variables set by the four branches 357-432 *)
Record geom := { xin : nat; yin : nat; cin : nat; xout : nat; yout : nat; cout : nat;
                 stx : nat; sty : nat; padx : nat; pady : nat; dilx : nat; dily : nat; cx : nat; cy : nat;
                 src_id : nat -> nat -> nat -> nat; dst_id : nat -> nat -> nat -> nat; kern : karray }.
Definition branch (o : order) (ish osh : shape3) (k : karray) (st pad dil : nat * nat) : geom :=
  let '(i0, i1, i2) := ish in let '(o0, o1, o2) := osh in
  match o with
  | NWHC => {| xin := i0; yin := i1; cin := i2; xout := o0; yout := o1; cout := o2;
               stx := fst st; sty := snd st; padx := fst pad; pady := snd pad; dilx := fst dil; dily := snd dil;
               cx := kd1 k; cy := kd2 k;
               src_id := fun x y c => (x * i1 * i2 + y * i2 + c)%nat;
               dst_id := fun x y c => (x * o1 * o2 + y * o2 + c)%nat;
               kern := k |}
  | NCHW => {| cin := i0; yin := i1; xin := i2; cout := o0; yout := o1; xout := o2;
               sty := fst st; stx := snd st; pady := fst pad; padx := snd pad; dily := fst dil; dilx := snd dil;
               cy := kd2 k; cx := kd3 k;
               src_id := fun x y c => (c * i1 * i2 + y * i2 + x)%nat;
               dst_id := fun x y c => (c * o1 * o2 + y * o2 + x)%nat;
               (* kernel[:, ::-1, ::-1, :].transpose([0, 3, 1, 2]) *)
               kern := {| kd0 := kd0 k; kd1 := kd3 k; kd2 := kd1 k; kd3 := kd2 k;
                          kval := fun n i j l => kval k n (kd1 k - 1 - j)%nat (kd2 k - 1 - l)%nat i |} |}
  | CHWN => {| cin := i0; yin := i1; xin := i2; cout := o0; yout := o1; xout := o2;
               sty := fst st; stx := snd st; pady := fst pad; padx := snd pad; dily := fst dil; dilx := snd dil;
               cy := kd1 k; cx := kd2 k;
               src_id := fun x y c => (c * i1 * i2 + y * i2 + x)%nat;
               dst_id := fun x y c => (c * o1 * o2 + y * o2 + x)%nat;
               kern := k |}
  | HWCN => {| yin := i0; xin := i1; cin := i2; yout := o0; xout := o1; cout := o2;
               sty := fst st; stx := snd st; pady := fst pad; padx := snd pad; dily := fst dil; dilx := snd dil;
               cy := kd0 k; cx := kd1 k;
               src_id := fun x y c => (y * i1 * i2 + x * i2 + c)%nat;
               dst_id := fun x y c => (y * o1 * o2 + x * o0 + c)%nat;
               (* kernel[::-1, ::-1, :, :].transpose([3, 1, 0, 2]) *)
               kern := {| kd0 := kd3 k; kd1 := kd1 k; kd2 := kd0 k; kd3 := kd2 k;
                          kval := fun n i j l => kval k (kd0 k - 1 - j)%nat (kd1 k - 1 - i)%nat l n |} |}
  end.
(** np.meshgrid(np.arange(n), np.arange(m)) flattened: the second coordinate is the outer loop *)
Definition mesh (n m : nat) : list (nat * nat) := flat_map (fun y => map (fun x => (x, y)) (seq 0 n)) (seq 0 m).
Definition channels (n group grp : nat) : list nat := map (fun k => (k + grp * (n / group))%nat) (seq 0 (n / group)).
(** the taps of one output location that hit the input, 465-473; coordinates may be negative *)
Definition tap_x (g : geom) (x a : nat) : Z := Z.of_nat (x * stx g) + Z.of_nat (a * dilx g) - Z.of_nat (padx g).
Definition tap_y (g : geom) (y b : nat) : Z := Z.of_nat (y * sty g) + Z.of_nat (b * dily g) - Z.of_nat (pady g).
Definition valid (g : geom) (x y a b : nat) : bool :=
  (0 <=? tap_x g x a) && (tap_x g x a <? Z.of_nat (xin g)) && (0 <=? tap_y g y b) && (tap_y g y b <? Z.of_nat (yin g)).
(** all appended pieces, in the order of the loops 448-486 *)
Definition loop {A} (g : geom) (group : nat) (piece : nat -> nat -> nat -> nat -> nat -> list A) : list A :=
  flat_map (fun grp => flat_map (fun loc => flat_map (fun tap =>
      if valid g (fst loc) (snd loc) (fst tap) (snd tap)
      then piece grp (fst loc) (snd loc) (fst tap) (snd tap) else [])
    (mesh (cx g) (cy g))) (mesh (xout g) (yout g))) (seq 0 group).
Definition srcs (g : geom) (group : nat) : list nat :=
  loop g group (fun grp x y a b => flat_map (fun _ => map (fun c =>
      src_id g (Z.to_nat (tap_x g x a)) (Z.to_nat (tap_y g y b)) c) (channels (cin g) group grp))
    (channels (cout g) group grp)).
Definition dsts (g : geom) (group : nat) : list nat :=
  loop g group (fun grp x y a b => flat_map (fun d => map (fun _ => dst_id g x y d) (channels (cin g) group grp))
    (channels (cout g) group grp)).
Definition wgts (g : geom) (group : nat) : list Z :=
  loop g group (fun grp x y a b => flat_map (fun d => map (fun l =>
      kval (kern g) d (cx g - a - 1)%nat (cy g - b - 1)%nat l) (seq 0 (kd3 (kern g))))
    (channels (cout g) group grp)).
(** 450-456: AssertionError when the channels are not divisible (for at least one group) *)
Definition conv_to_sparse (o : order) (ish osh : shape3) (k : karray) (st pad dil : nat * nat) (group : nat)
  : option (list nat * list nat * list Z) :=
  let g := branch o ish osh k st pad dil in
  if ((cin g mod group =? 0) && (cout g mod group =? 0))%nat
  then Some (dsts g group, srcs g group, wgts g group) else None.

(** scipy.sparse.csc_matrix((wgt, (dst, src))).dot(v): duplicates are added up *)
Definition sparse_dot (m : list nat * list nat * list Z) (v : list Z) (i : nat) : Z :=
  let '(ds, ss, ws) := m in
  zsum (map (fun t => if Nat.eqb (fst (fst t)) i then snd t * nth (snd (fst t)) v 0 else 0)
            (combine (combine ds ss) ws)).
