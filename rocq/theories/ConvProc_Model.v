(** Model of the Conv process.
    /repo/src/lava/proc/conv/process.py Conv.__init__ 73-116 and its checks 118-145; proc/conv/models.py AbstractPyConvModel
    18-56, PyConvModelFloat, PyConvModelFixed 59-79; proc/conv/utils.py make_tuple, output_shape 87-151, conv 154-201 (without
    torch, which line 18 switches off), conv_scipy 204-297 (Conv_Model, C41), signed_clamp 67-84 (Bits_Model, C38);
    magma/compiler/builders/py_builder.py 398-403: an initial value is assigned to an array of the declared type.
    Simplifications: kernel sizes of at least 1, kernel sizes, strides, paddings and dilations of at most 127, so that int8 holds
    them; [groups] is any number.  Numbers are exact; a float64 that does not fit int32 becomes -2^31 in astype, as on x86.
    The input shape has three entries and groups is a scalar (119, 127). *)
From Coq Require Import ZArith List Bool.
From Verif Require Import Conn_Spec Conv_Model Bits_Model.
Import ListNotations.
Open Scope Z_scope.

Definition image3 := nat -> nat -> nat -> Z.
Record conv_cfg := mkConv {
  sc : shape_conv;                              (* input shape, kernel, stride, padding, dilation, groups *)
  wc : nat;                                     (* weight.shape[3] *)
  wgt : nat -> nat -> nat -> nat -> Z;
  fixed : bool;                                 (* PyConvModelFixed or PyConvModelFloat *)
  num_message_bits : Z;
  exp_of_weights : Z;                           (* weight_exp: a Var that no model uses *)
  num_weight_bits : Z }.                        (* likewise *)

(** Conv.__init__: [None] if it raises; otherwise the shape of a_out *)
Definition out_shape (c : conv_cfg) : option (nat * nat * nat) :=
  let p := sc c in
  if Nat.eqb (groups p) 0 then None                               (* ZeroDivisionError *)
  else if negb (Nat.eqb (nc p mod groups p) 0) then None
  else if negb (Nat.eqb (nk p mod groups p) 0) then None
  else if Nat.eqb (sx p) 0 || Nat.eqb (sy p) 0 then None          (* ZeroDivisionError *)
  else match out_dim (Z.of_nat (nx p)) (Z.of_nat (kx p)) (Z.of_nat (sx p)) (Z.of_nat (px p)) (Z.of_nat (dx p)),
             out_dim (Z.of_nat (ny p)) (Z.of_nat (ky p)) (Z.of_nat (sy p)) (Z.of_nat (py p)) (Z.of_nat (dy p)) with
       | Some x, Some y => Some (Z.to_nat x, Z.to_nat y, nk p)
       | _, _ => None
       end.

(** the Var groups is an array of np.int8 *)
Definition to_int8 (z : Z) : Z := (z + 128) mod 256 - 128.
Definition groups8 (c : conv_cfg) : Z := to_int8 (Z.of_nat (groups (sc c))).
(** x % y == 0 for numpy integers; x % 0 is 0 (with a warning) *)
Definition divides (y x : Z) : bool := if y =? 0 then true else x mod y =? 0.

Definition with_groups (p : shape_conv) (g : nat) : shape_conv :=
  {| nx := nx p; ny := ny p; nc := nc p; kx := kx p; ky := ky p; nk := nk p; sx := sx p; sy := sy p;
     px := px p; py := py p; dx := dx p; dy := dy p; groups := g |}.

(** utils.conv in a step: [None]: an exception *)
Definition conv_step (c : conv_cfg) (inp : image3) : option image3 :=
  let p := sc c in
  let g := groups8 c in
  if Nat.eqb (dx p) 0 || Nat.eqb (dy p) 0 then None               (* slice step 0 *)
  else if negb (divides g (Z.of_nat (nc p))) then None
  else if negb (divides g (Z.of_nat (nk p))) then None
  else if g <=? 0 then Some (fun _ _ _ => 0)                      (* range(g) is empty *)
  else if Nat.ltb (wc c) (nc p / Z.to_nat g) && Nat.ltb 0 (nk p / Z.to_nat g) then None   (* IndexError *)
  else Some (fun x y ch => conv_scipy (with_groups p (Z.to_nat g)) (wgt c) inp x y ch).

(** output.astype(weight.dtype) and clamp_precision *)
Definition to_int32 (z : Z) : Z := if (- 2 ^ 31 <=? z) && (z <? 2 ^ 31) then z else - 2 ^ 31.
Definition precision (c : conv_cfg) (z : Z) : Z := if fixed c then signed_clamp (to_int32 z) 24 else z.

(** s_in.recv(), as bool without message bits *)
Definition received (c : conv_cfg) (inp : image3) : image3 :=
  fun x y ch => if 0 <? num_message_bits c then inp x y ch else if inp x y ch =? 0 then 0 else 1.

(** run_spk 38-53 for one step after the other: what is sent, and whether the process ends with an exception *)
Fixpoint run_conv (c : conv_cfg) (buf : image3) (ins : list image3) : list image3 * bool :=
  match ins with
  | [] => ([], false)
  | i :: ins' =>
    match conv_step c (received c i) with
    | None => ([buf], true)
    | Some o => let (l, e) := run_conv c (fun x y ch => precision c (o x y ch)) ins' in (buf :: l, e)
    end
  end.
Definition run_proc (c : conv_cfg) (ins : list image3) : list image3 * bool := run_conv c (fun _ _ _ => 0) ins.
