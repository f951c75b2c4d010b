(** Model of the connection processes: Dense, Sparse, DelayDense, DelaySparse
    (/repo/src/lava/proc/dense/models.py, /repo/src/lava/proc/sparse/models.py) and ConvInTime
    (/repo/src/lava/proc/conv_in_time/models.py).
    A 2-d array of shape (rows, cols) is either the list of its rows or, where the code depends on the
    memory order (np.roll without axis, np.reshape), the flat list of its items in C order.
    A csr matrix is the dense matrix it represents.  Numbers are exact integers; [wr] is the width of
    the accumulator (identity for the float models, int32 wrap for the fixed-point ones). *)
From Coq Require Import ZArith List Bool Arith.
From Verif Require Import NpInt Bits_Model.
Import ListNotations.
Open Scope Z_scope.

Definition zsum (l : list Z) : Z := fold_right Z.add 0 l.
Definition map2 {A B C} (f : A -> B -> C) (l : list A) (m : list B) : list C :=
  map (fun p => f (fst p) (snd p)) (combine l m).

(** s_in.astype(bool) *)
Definition as_bool (s : list Z) : list Z := map (fun x => if x =? 0 then 0 else 1) s.
(** weights.dot(s_in), dense/models.py 43-44, sparse/models.py 43-44 *)
Definition mat_dot (w : list (list Z)) (s : list Z) : list Z := map (fun row => zsum (map2 Z.mul row s)) w.
(** weights[:, s_in.astype(bool)].sum(axis=1), dense/models.py 46-47, sparse/models.py 46-48 *)
Definition mat_cols (w : list (list Z)) (s : list Z) : list Z :=
  map (fun row => zsum (map fst (filter (fun p => negb (snd p =? 0)) (combine row s)))) w.
Definition accumulate (num_message_bits : Z) (w : list (list Z)) (s : list Z) : list Z :=
  if 0 <? num_message_bits then mat_dot w s else mat_cols w s.

(** ** Dense and Sparse, floating point: run_spk dense/models.py 37-47, sparse/models.py 36-48.
    The state is a_buff; the result is (sent value, new a_buff). *)
Definition dense_step (bits : Z) (w : list (list Z)) (buf s : list Z) : list Z * list Z :=
  (buf, accumulate bits w s).

(** ** Dense and Sparse, bit accurate: run_spk dense/models.py 78-105, sparse/models.py 75-105.
    [np_shift]: the exponent is applied to the accumulated sum.  The value sent goes through an int32
    channel.  Binary messages are summed in int64 (numpy sums int32 arrays in int64), which is exact; for
    graded messages weights.dot(s_in) is computed in the common type of the int32 weights and the messages,
    which has [acc_bits] bits: 32 for messages that arrive in at most 32 bits, 64 for int64 ones. *)
Definition np_shift (e a : Z) : Z := if 0 <? e then Z.shiftl a e else Z.shiftr a (- e).
Record bitacc := { weights : list (list Z); weights_set : bool; a_buff : list Z }.
Record params := { num_weight_bits : Z; weight_exp : Z; sign : option sign_mode; message_bits : Z; acc_bits : Z }.
Definition in_acc (p : params) (x : Z) : Z := if 0 <? message_bits p then wrap (acc_bits p) x else x.
(** 81-91: clip to 8 bits and truncate, on the first step only *)
Definition prepare_weights (p : params) (w : list (list Z)) : list (list Z) :=
  let m := match sign p with Some m => m | None => determine_sign_mode (concat w) end in
  map (map (fun x => truncate m (num_weight_bits p) 8 (clip_weight m 8 false x))) w.
Definition bitacc_step (p : params) (st : bitacc) (s : list Z) : list Z * bitacc :=
  let w := if weights_set st then weights st else prepare_weights p (weights st) in
  (map w32 (a_buff st),
   {| weights := w; weights_set := true;
      a_buff := map (fun x => np_shift (weight_exp p) (in_acc p x)) (accumulate (message_bits p) w s) |}).
(** Var.set on weights between two runs *)
Definition bitacc_set (w : list (list Z)) (st : bitacc) : bitacc :=
  {| weights := w; weights_set := weights_set st; a_buff := a_buff st |}.

(** ** Delayed connections *)
(** get_delay_wgts_mat dense/models.py 222-242: np.vstack of np.where(delays == k, weights, 0) *)
Definition delay_rows (w : list (list Z)) (d : list (list nat)) (k : nat) : list (list Z) :=
  map2 (map2 (fun x dk => if Nat.eqb dk k then x else 0)) w d.
Definition delay_wgts (w : list (list Z)) (d : list (list nat)) (maxd : nat) : list (list Z) :=
  flat_map (delay_rows w d) (seq 0 (maxd + 1)).
(** get_delay_wgts_mat sparse/models.py 229-261 *)
Definition delay_rows_zero (w : list (list Z)) (d : list (list nat)) : list (list Z) :=
  map2 (map2 (fun x dk => if negb (Nat.eqb dk 0) then 0 else x)) w d.
Definition delay_wgts_sparse (w : list (list Z)) (d : list (list nat)) (maxd : nat) : list (list Z) :=
  if Nat.eqb maxd 0 then w
  else delay_rows_zero w d ++ flat_map (delay_rows w d) (seq 1 maxd).

(** calc_act dense/models.py 203-219, sparse/models.py 210-227: the row sums, reshaped to
    (maxd + 1, n) and transposed to (n, maxd + 1); the result in C order.  The row sums are exact here: DelayDense
    multiplies elementwise and sums int32 products in int64; for graded int32 messages of more than 23 bits the products
    themselves, and for DelaySparse the sums, wrap to 32 bits in the code (see [in_acc] for Dense and Sparse). *)
Definition calc_act (mat : list (list Z)) (n maxd : nat) (s : list Z) : list Z :=
  let sums := mat_dot mat s in
  flat_map (fun i => map (fun k => nth (k * n + i) sums 0) (seq 0 (maxd + 1))) (seq 0 n).

(** a_buff[:, 0] = 0 for a buffer of [c] columns *)
Definition zero_col0 (c : nat) (l : list Z) : list Z :=
  map (fun p => if Nat.eqb (fst p mod c) 0 then 0 else snd p) (combine (seq 0 (length l)) l).
(** np.roll(a_buff, -1): without axis, numpy rolls the flattened array *)
Definition roll_left (l : list Z) : list Z := match l with [] => [] | x :: r => r ++ [x] end.
(** a_buff += act *)
Definition add_in (wr : Z -> Z) (l m : list Z) : list Z := map2 (fun a b => wr (a + b)) l m.
(** a_buff[:, 0] *)
Definition col0 (c n : nat) (l : list Z) : list Z := map (fun i => nth (i * c) l 0) (seq 0 n).

(** update_act dense/models.py 244-255 with [act] the new activations *)
Definition update_act (wr : Z -> Z) (c : nat) (buf act : list Z) : list Z :=
  add_in wr (roll_left (zero_col0 c buf)) act.

Definition spikes (bits : Z) (s : list Z) : list Z := if 0 <? bits then s else as_bool s.

(** DelayDense: float run_spk 279-288 ([post] = identity) and bit accurate run_spk 312-350 with
    weights already prepared ([post] = shift by weight_exp, [wr] = int32) *)
Definition delay_step (wr post : Z -> Z) (bits : Z) (mat : list (list Z)) (n maxd : nat) (buf s : list Z)
  : list Z * list Z :=
  (col0 (maxd + 1) n buf,
   update_act wr (maxd + 1) buf (map post (calc_act mat n maxd (spikes bits s)))).

(** DelayDense.__init__ dense/process.py 248-250: the buffer has max_delay + 1 columns, and max_delay is
    the largest delay unless the user gave a non-zero value *)
Definition nat_max (l : list nat) : nat := fold_right Nat.max 0%nat l.
Definition buffer_delay (user_max : nat) (d : list (list nat)) : nat :=
  if Nat.eqb user_max 0 then nat_max (concat d) else user_max.
Definition init_buf (n maxd : nat) : list Z := repeat 0 (n * (maxd + 1)).

(** ConvInTime: calc_act conv_in_time/models.py 27-40; [w] is the list of the K weight matrices *)
Definition conv_time_act (w : list (list (list Z))) (n : nat) (s : list Z) : list Z :=
  flat_map (fun i => map (fun k => nth i (mat_dot (nth (length w - k - 1) w []) s) 0) (seq 0 (length w)))
           (seq 0 n).
Definition conv_time_step (bits : Z) (w : list (list (list Z))) (n : nat) (buf s : list Z)
  : list Z * list Z :=
  (col0 (length w) n buf,
   update_act (fun x => x) (length w) buf (conv_time_act w n (spikes bits s))).

(** Run a step function over a list of inputs, collecting what is sent. *)
Fixpoint outputs {St} (step : St -> list Z -> list Z * St) (st : St) (ins : list (list Z)) : list (list Z) :=
  match ins with
  | [] => []
  | s :: r => let (o, st') := step st s in o :: outputs step st' r
  end.
