(** Model of the graded-spike processes (/repo/src/lava/proc/graded/models.py, proc/prodneuron/models.py) and of
    the vector networks built from them (/repo/src/lava/networks/gradedvecnetwork.py).
    All arithmetic between neurons and connections is in int32 (the type of the ports), so [wd] = 32, unless a
    source process that sends int64 is connected directly ([wd] = 64). Vectors are lists. *)
From Coq Require Import ZArith List Bool.
From Verif Require Import NpInt Bits_Model Conn_Model.
Import ListNotations.
Open Scope Z_scope.

(** ** GradedVec: graded/models.py 28-40; [v] is the Var v; result (sent, new v) *)
Definition above (wd vth v : Z) : Z := if vth <? wrap wd (Z.abs v) then v else 0.
Definition graded_step (vth : Z) (v a : list Z) : list Z * list Z :=
  (map (fun x => above 32 vth (w32 x)) (map2 Z.add v a), map (fun _ => 0) v).
(** GradedReluVec: 65-77 *)
Definition relu_step (vth : Z) (v a : list Z) : list Z * list Z :=
  (map (fun x => if vth <? w32 x then w32 x else 0) (map2 Z.add v a), map (fun _ => 0) v).

(** ** ProdNeuron: prodneuron/models.py 29-38 *)
Definition product (wd vth exp a b : Z) : Z := w32 (above wd vth (Z.shiftr (wrap wd (a * b)) exp)).
Definition prod_step (wd vth exp : Z) (a b : list Z) : list Z := map2 (product wd vth exp) a b.

(** ** NormVecDelay: graded/models.py 110-130; [v] is self.v before the step; result (s_out, s2_out, new v) *)
Definition norm_step (vth : Z) (v x y : list Z) : list Z * list Z * list Z :=
  (map (above 32 vth) (map2 (fun p q => w32 (p * q)) v y), map (fun q => w32 (q * q)) x, x).

(** ** InvSqrt, fixed point *)
(** make_fpinv_table 155-179: entry 23 - m is 2 * int(B / (2 ** ((m - fp) / 2) * 1.238982962)) with B = 2 ** fp;
    int(z) is the integer square root of z ** 2. Floating point is taken to be exact here. *)
Definition n_adj2 : Z := 1238982962 ^ 2.               (* n_adj ** 2 * 10 ** 18 *)
Definition table_entry (fp k : Z) : Z := 2 * Z.sqrt (2 ^ (3 * fp - (23 - k)) * 10 ^ 18 / n_adj2).
(** clz 182-197 *)
Definition clz (s : Z) : Z := 24 - (Z.log2 s + 1).
(** inv_sqrt 200-234 *)
Fixpoint iterate (n : nat) (fp b Y y : Z) : Z :=
  match n with
  | O => y
  | S m => let b' := Z.shiftr (Z.shiftr (b * Y) (fp + 1) * Y) (fp + 1) in
           let Y' := Z.shiftl 3 fp - b' in
           iterate m fp b' Y' (Z.shiftr (y * Y') (fp + 1))
  end.
Definition inv_sqrt (n : nat) (fp s : Z) : Z :=
  let Y := table_entry fp (clz s) in iterate n fp s Y (Y / 2).
(** InvSqrtModelFP.run_spk 249-264; [fp_base] is the Var of the process *)
Definition inv_step (fp_base a : Z) : Z := if a =? 0 then 0 else inv_sqrt 5 12 a.

(** ** Networks *)
(** what a Dense or Sparse sends at a step, before it receives (Conn_Model.bitacc_step) *)
Definition conn_out (c : bitacc) : list Z := map w32 (a_buff c).
(** GradedSparse with the weights np.eye(n) times 2 ** 7 (gradedvecnetwork.py 267-287, network.py 99-105) *)
Definition eye (n : nat) (x : Z) : list (list Z) :=
  map (fun i => map (fun j => if Nat.eqb i j then x else 0) (seq 0 n)) (seq 0 n).
Definition graded_conn : params :=
  {| num_weight_bits := 8; Conn_Model.weight_exp := -7; sign := None; message_bits := 24; acc_bits := 32 |}.
Definition identity_conn (n : nat) : bitacc := {| weights := eye n 128; weights_set := false; a_buff := repeat 0 n |}.

(** GradedVec * GradedVec (gradedvecnetwork.py 150-166): two identities, ProductVec with vth = 1, one identity.
    State: the three connections; the inputs are the two graded vectors. *)
Definition mul_state := (bitacc * bitacc * bitacc)%type.
Definition mul_step (exp : Z) (s : mul_state) (x : list Z * list Z) : list Z * mul_state :=
  let '(ca, cb, co) := s in
  let '(a, ca') := bitacc_step graded_conn ca (fst x) in
  let '(b, cb') := bitacc_step graded_conn cb (snd x) in
  let '(o, co') := bitacc_step graded_conn co (prod_step 32 1 exp a b) in
  (o, (ca', cb', co')).
Definition mul_init (n : nat) : mul_state := (identity_conn n, identity_conn n, identity_conn n).

(** NormalizeNet (gradedvecnetwork.py 290-338); [f] is the function of its InvSqrt process *)
Definition sum_conn : params :=
  {| num_weight_bits := 8; Conn_Model.weight_exp := 0; sign := None; message_bits := 24; acc_bits := 32 |}.
Record net := { held : list Z; to_inv : bitacc; from_inv : bitacc }.
Definition net_init (n : nat) : net :=
  {| held := repeat 0 n;
     to_inv := {| weights := [repeat 1 n]; weights_set := false; a_buff := [0] |};
     from_inv := {| weights := repeat [1] n; weights_set := false; a_buff := repeat 0 n |} |}.
Definition net_step (f : Z -> Z) (s : net) (x : list Z) : list Z * net :=
  let y := conn_out (from_inv s) in
  let '(o, sq, h) := norm_step 1 (held s) x y in
  let '(c, d1) := bitacc_step sum_conn (to_inv s) sq in
  let '(_, d2) := bitacc_step sum_conn (from_inv s) (map f c) in
  (o, {| held := h; to_inv := d1; from_inv := d2 |}).

(** OutputVec.get_data (111-112): (data.astype(int32) << 8) >> 8 *)
Definition get_data (x : Z) : Z := Z.shiftr (w32 (Z.shiftl (w32 x) 8)) 8.
(** InputVec.__init__ (38-52): vec *= 2 ** exp works in place; result: the caller's array afterwards and the data of
    the network's source, which is that array *)
Definition input_vec (exp : Z) (vec : list Z) : list Z * list Z := let v := map (fun x => x * 2 ^ exp) vec in (v, v).

(** Run a step function over a list of inputs of any type, collecting what is sent *)
Fixpoint sent {St I O} (step : St -> I -> O * St) (st : St) (ins : list I) : list O :=
  match ins with [] => [] | s :: r => fst (step st s) :: sent step (snd (step st s)) r end.
