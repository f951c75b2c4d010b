(** Model of the continually-learning-prototypes (CLP) network: PrototypeLIF
    (/repo/src/lava/proc/clp/prototype_lif/models.py, process.py) and the network in which it is meant to be used, wired as
    in /repo/tests/lava/proc/clp/integration/test_clp_one_shot.py 266-383 (TestOneShotLearning): the input drives a
    LearningDense onto the prototypes and, through a Dense of ones, the novelty detector; the output of the prototypes goes,
    through a Dense of ones, to the novelty detector, which triggers the allocator, whose id goes, through a Dense of ones,
    to the third-factor input of the prototypes.  The parts are those of Lif_Model, Clp_Model, Conn_Model, Learning_Model
    and Factor3_Model.
    Every Dense sends what it accumulated in the step before, so that within a time step the order of computation is the one
    written here.  Arrays are functions of the index, stored as lists of the right length ([vec]).  The state [None] means
    that a process model raised an exception. *)
From Coq Require Import ZArith QArith List Bool.
From Verif Require Import NpInt Bits_Model Learning_Model Factor3_Model.
From Verif Require Lif_Model Conn_Model Clp_Model.
Import ListNotations.
Open Scope Z_scope.

(** an array of [n] numbers *)
Definition vals {A} (n : nat) (f : nat -> A) : list A := map f (seq 0 n).
Definition vec (n : nat) (f : nat -> Z) : nat -> Z := let l := vals n f in fun k => nth k l 0.
Definition vecb (n : nat) (f : nat -> bool) : nat -> bool := let l := vals n f in fun k => nth k l false.
Definition mat (n m : nat) (f : nat -> nat -> Z) : nat -> nat -> Z := let l := vals n (fun i => vals m (f i)) in fun i j => nth j (nth i l []) 0.

(** ** PrototypeLIF: __init__ 48-53; u, v and y1 of the population *)
Record proto := { pu : nat -> Z; pv : nat -> Z; py1 : nat -> Z }.
(** run_spk 94-96: s_out_bap_buff[a_3rd_factor_in[0] - 1] = True on an array of [n] booleans, with numpy's negative
    indices; [None] is IndexError *)
Definition bap_of (n : nat) (id : Z) : option (nat -> bool) :=
  if id =? 0 then Some (fun _ => false)
  else let i := id - 1 in
       if (0 <=? i) && (i <? Z.of_nat n) then Some (fun m => Z.of_nat m =? i)
       else if (i <? 0) && (- Z.of_nat n <=? i) then Some (fun m => Z.of_nat m =? Z.of_nat n + i)
       else None.
(** run_spk 67-115; [a]: a_in, [id]: the first item of a_third_factor_in, [reset]: reset_in.  subthr_dynamics (81) is that of
    AbstractPyLifModelFixed (Lif_Model); effective_vth is vth << 6 (55-61), vth being constant during the run.
    Result: the new state, s_out and s_out_bap (s_out_y1 is [py1] of the new state). *)
Definition proto_step (P : Lif_Model.params) (n : nat) (vth : Z) (s : proto) (a : nat -> Z) (id : Z) (reset : nat -> Z)
  : option (proto * (nat -> bool) * (nat -> bool)) :=
  let x := vec n (fun m => Lif_Model.current P (pu s m) (a m)) in
  let y := vec n (fun m => Lif_Model.voltage P (pv s m) (x m)) in
  (* 84-86 *)
  let y' := fun m => if 0 <? reset m then 0 else y m in
  let x' := fun m => if 0 <? reset m then 0 else x m in
  match bap_of n id with
  | None => None
  | Some bap =>
      let third := existsb bap (seq 0 n) in
      (* 98, 104-106 *)
      let spk := fun m => if third then bap m else vth * 64 <? y' m in
      Some ({| pu := vec n x';
               pv := vec n (fun m => if spk m then 0 else y' m);
               py1 := if third then vec n (fun m => if bap m then 127 else 0) else py1 s |}, vecb n spk, vecb n bap)
  end.

(** ** The network *)
(** PrototypeLIF(du=4095, dv=4095, bias_mant=0, bias_exp=0): 323-330 of the test *)
Definition clp_lif : Lif_Model.params := {| Lif_Model.du := 4095; Lif_Model.dv := 4095; Lif_Model.bias_mant := 0; Lif_Model.bias_exp := 0; Lif_Model.adt := 32 |}.
(** Loihi3FLearningRule(dw="2^-3*y1*x1*y0", x1_tau=65535, t_epoch=1) and GradedSpikeCfg.OVERWRITE: 285, 306-312, 338-342 of
    the test; the text compiles to this product ([clp_rule_text] in ClpNet_Props.v); [f] is v -> np.exp(-1 / 65535) * v *)
Definition clp_product : product :=
  {| p_dep := DY0; p_mant := 1; p_exp := 4;
     p_factors := [ {| f_var := VTrace TY1; f_const := None; f_sgn := false |}; {| f_var := VTrace TX1; f_const := None; f_sgn := false |} ] |}.
Definition clp_learning (m : sign_mode) (f : Z -> Q) : conn_cfg :=
  {| t_epoch := 1; cfg_sign := m; cfg_graded := Overwrite;
     cfg_trace := three_factor_cfg f (fun tr => {| imp_int := 0; imp_frac := 0; decay_fn := match tr with TX1 => Some f | _ => None end |});
     cfg_rule := fun v => match v with SWeights => Some [clp_product] | _ => None end;
     cfg_decimate := None |}.
(** Dense(weights=ones) and Dense(weights=ones, num_message_bits=8): 344-347 of the test *)
Definition aval_dense : Conn_Model.params :=
  {| Conn_Model.num_weight_bits := 8; Conn_Model.weight_exp := 0; Conn_Model.sign := None; Conn_Model.message_bits := 0; Conn_Model.acc_bits := 32 |}.
Definition third_dense : Conn_Model.params :=
  {| Conn_Model.num_weight_bits := 8; Conn_Model.weight_exp := 0; Conn_Model.sign := None; Conn_Model.message_bits := 8; Conn_Model.acc_bits := 32 |}.
(** a Dense sends before it receives, so what it sends does not depend on what it receives *)
Definition dense_sends (p : Conn_Model.params) (d : Conn_Model.bitacc) : list Z := fst (Conn_Model.bitacc_step p d []).
Definition dense_receives (p : Conn_Model.params) (d : Conn_Model.bitacc) (s : list Z) : Conn_Model.bitacc := snd (Conn_Model.bitacc_step p d s).

Record clp_cfg := { n_features : nat; n_protos : nat; t_wait : Z; vth : Z; sign_mode_of : sign_mode; decay : Z -> Q }.
Record clp := {
  c_conn : conn;                    (* LearningDense: traces, spike times, synaptic variables *)
  a_proto : nat -> Z;               (* its a_buff *)
  d_in : Conn_Model.bitacc;         (* input -> novelty detector *)
  d_out : Conn_Model.bitacc;        (* prototypes -> novelty detector *)
  d_third : Conn_Model.bitacc;      (* allocator -> prototypes *)
  c_proto : proto;
  c_nov : Clp_Model.nd;
  c_next : Z                        (* next_alloc_id *)
}.
(** the random numbers of a time step *)
Record rnd := { q_post : Z; q_xd : Q; q_yd : Q; q_xi : Z; q_yi : Z; q_syn : Q }.
Record clp_out := { o_spk : nat -> bool; o_bap : nat -> bool; o_nov : Z; o_id : Z }.

Definition store (nf np : nat) (s : conn) : conn :=
  {| tx := vec nf (tx s); x1 := vec nf (x1 s); x2 := vec nf (x2 s); ty := vec np (ty s);
     y1 := vec np (y1 s); y2 := vec np (y2 s); y3 := vec np (y3 s);
     syn_val := let w := mat np nf (syn_val s SWeights) in let d := mat np nf (syn_val s STag2) in let t := mat np nf (syn_val s STag1) in
                fun v => match v with SWeights => w | STag2 => d | STag1 => t end |}.
Definition dot (nf : nat) (w p : nat -> Z) : Z := Conn_Model.zsum (vals nf (fun k => w k * p k)).
(** one time step: number [t], input [p] *)
Definition net_step (C : clp_cfg) (t : Z) (p : nat -> Z) (r : rnd) (s : clp) : option (clp * clp_out) :=
  let nf := n_features C in let np := n_protos C in
  let in_aval := hd 0 (dense_sends aval_dense (d_in s)) in
  let out_aval := hd 0 (dense_sends aval_dense (d_out s)) in
  let id := hd 0 (dense_sends third_dense (d_third s)) in
  match proto_step clp_lif np (vth C) (c_proto s) (fun m => w32 (a_proto s m)) id (fun _ => 0) with
  | None => None
  | Some (pr, spk, bap) =>
      let '(nov, novel) := Clp_Model.nd_step (t_wait C) (c_nov s) in_aval out_aval in
      let '(next, alloc) := Clp_Model.alloc_step (c_next s) novel in
      let i := {| h_stim := {| s_in := p; s_bap := bap; r_post := q_post r; r_xd := q_xd r; r_yd := q_yd r; r_xi := q_xi r; r_yi := q_yi r; r_syn := q_syn r |};
                  h_y := fun tr => match tr with TY1 => py1 pr | _ => fun _ => 0 end |} in
      Some ({| c_conn := store nf np (conn_step3 (clp_learning (sign_mode_of C) (decay C)) t i (c_conn s));
               a_proto := vec np (fun m => w32 (dot nf (syn_val (c_conn s) SWeights m) p));   (* dense/models.py 178-189, weight_exp = 0 *)
               d_in := dense_receives aval_dense (d_in s) (vals nf p);
               d_out := dense_receives aval_dense (d_out s) (vals np (fun m => if spk m then 1 else 0));
               d_third := dense_receives third_dense (d_third s) [alloc];
               c_proto := pr; c_nov := nov; c_next := next |},
            {| o_spk := spk; o_bap := bap; o_nov := novel; o_id := alloc |})
  end.
(** at the start: [w] are the weights after the truncation of dense/models.py 166-172, [next] is next_alloc_id of the
    Allocator (1 unless the user says otherwise) *)
Definition ones_row (n : nat) : list (list Z) := [repeat 1 n].
Definition ones_col (n : nat) : list (list Z) := repeat [1] n.
Definition fresh (w : list (list Z)) (n : nat) : Conn_Model.bitacc := {| Conn_Model.weights := w; Conn_Model.weights_set := false; Conn_Model.a_buff := repeat 0 n |}.
Definition clp_init (C : clp_cfg) (w : nat -> nat -> Z) (next : Z) : clp :=
  {| c_conn := {| tx := fun _ => 0; x1 := fun _ => 0; x2 := fun _ => 0; ty := fun _ => 0; y1 := fun _ => 0; y2 := fun _ => 0; y3 := fun _ => 0;
                  syn_val := fun v => match v with SWeights => w | _ => fun _ _ => 0 end |};
     a_proto := fun _ => 0;
     d_in := fresh (ones_row (n_features C)) 1; d_out := fresh (ones_row (n_protos C)) 1; d_third := fresh (ones_col (n_protos C)) (n_protos C);
     c_proto := {| pu := fun _ => 0; pv := fun _ => 0; py1 := fun _ => 0 |};
     c_nov := Clp_Model.nd_init; c_next := next |}.
(** the state before step [n] = 0, 1, ... (time step n + 1) for the input stream [inp]; [None]: an exception was raised *)
Fixpoint net_run (C : clp_cfg) (inp : nat -> nat -> Z) (r : nat -> rnd) (s0 : clp) (n : nat) : option clp :=
  match n with
  | O => Some s0
  | S k => match net_run C inp r s0 k with
           | None => None
           | Some s => option_map fst (net_step C (Z.of_nat n) (inp k) (r k) s)
           end
  end.
(** what is sent in step [n] *)
Definition net_out (C : clp_cfg) (inp : nat -> nat -> Z) (r : nat -> rnd) (s0 : clp) (n : nat) : option clp_out :=
  match net_run C inp r s0 n with
  | None => None
  | Some s => option_map snd (net_step C (Z.of_nat (S n)) (inp n) (r n) s)
  end.
