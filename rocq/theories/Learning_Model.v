(** Model of fixed-point learning connections (LearningDense / LearningSparse, two-factor rules):
    /repo/src/lava/magma/core/model/py/connection.py PyLearningConnection and
    LearningConnectionModelBitApproximate, and
    /repo/src/lava/magma/core/learning/learning_rule_applier.py LearningRuleApplierBitApprox.
    Vectors are functions from neuron indices, matrices functions of (post, pre).  Random numbers are
    arbitrary oracles; numpy int64 intermediates are exact, the int32 multiplication accumulator wraps. *)
From Coq Require Import ZArith QArith Qround List Bool Lia.
From Verif Require Import NpInt Bits_Model.
Import ListNotations.
Open Scope Z_scope.

(** ** Traces *)
(** learning/utils.py stochastic_round 8-29 *)
Definition round_up (b : bool) (v : Z) : Z := v + (if b then 1 else 0).
(** [r < p] for rationals *)
Definition qlt (r p : Q) : bool := negb (Qle_bool p r).
Definition qfrac (q : Q) : Q := (q - inject_Z (Qfloor q))%Q.

(** one trace of one side: impulse split by _decompose_impulses 650-672, and the decay
    v -> exp(-1/tau) * v computed in floating point, abstracted to any function; [None] is tau = 0 *)
Record trace_cfg := { imp_int : Z; imp_frac : Z; decay_fn : option (Z -> Q) }.

(** _decay_trace 874-902 *)
Definition decay_trace (f : Z -> Q) (r : Q) (v : Z) : Z :=
  round_up (qlt r (qfrac (f v))) (Qfloor (f v)).
(** _add_impulse 905-934; [r] is an integer random number *)
Definition add_impulse (c : trace_cfg) (r : Z) (v : Z) : Z :=
  clip 0 127 (round_up (r <? imp_frac c) (v + imp_int c)).
(** one iteration of the loop of _compute_trace_histories 843-869, for one trace of one neuron:
    rows of x_traces_history are initialized with 0, and only traces with tau <> 0 are decayed *)
Definition history_step (c : trace_cfg) (rd : Q) (ri : Z) (spike_t t v : Z) : Z :=
  let d := match decay_fn c with Some f => decay_trace f rd v | None => 0 end in
  if spike_t =? t then add_impulse c ri d else d.
(** _compute_trace_histories 799-871: the value at within-epoch time step [t] *)
Fixpoint history (c : trace_cfg) (rd : Q) (ri : Z) (spike_t v0 : Z) (t : nat) : Z :=
  match t with
  | O => v0
  | S k => history_step c rd ri spike_t (Z.of_nat t) (history c rd ri spike_t v0 k)
  end.

(** ** Spike processing *)
(** _within_epoch_time_step 367-382 *)
Definition within_epoch (t_epoch t : Z) : Z := if t mod t_epoch =? 0 then t_epoch else t mod t_epoch.
(** lrn_guard 428-429 *)
Definition lrn_guard (t_epoch t : Z) : bool := t mod t_epoch =? 0.

Inductive graded_cfg := UseRegularImpulse | Overwrite | AddWithSaturation | AddWithoutSaturation.
(** np.round(a / 2).astype(np.uint8) for an integer payload a >= 0: half to even, modulo 256 *)
Definition half_even (a : Z) : Z := if Z.even a then a / 2 else if Z.even (a / 2) then a / 2 else a / 2 + 1.
Definition scaled (a : Z) : Z := half_even a mod 256.

(** _process_pre_spikes 694-761 for one pre-synaptic neuron: spike payload [a] (0: no spike) in
    within-epoch step [ts]; state (tx, x1, x2).  Note the random number 0 in both impulse additions. *)
Definition pre_spike (g : graded_cfg) (c1 c2 : trace_cfg) (ts a tx x1 x2 : Z) : Z * Z * Z :=
  let spiked := negb (a =? 0) in
  let multi := (0 <? tx) && spiked in
  let sums := (x1 + scaled a) mod 256 in
  let over := 127 <? sums in
  let x1' := match g with
             | UseRegularImpulse => if multi then add_impulse c1 0 x1 else x1
             | Overwrite => if spiked then scaled a else x1
             | AddWithSaturation => clip 0 127 sums
             | AddWithoutSaturation => if over then sums - 127 else sums
             end in
  let upd_t := match g with AddWithoutSaturation => spiked && over | _ => spiked end in
  let upd_x2 := match g with AddWithoutSaturation => multi && over | _ => multi end in
  (if upd_t then ts else tx, x1', if upd_x2 then add_impulse c2 0 x2 else x2).

(** _process_post_spikes 763-788 for one post-synaptic neuron; state (ty, y1, y2, y3) *)
Definition post_spike (c1 c2 c3 : trace_cfg) (r ts : Z) (s : bool) (ty y1 y2 y3 : Z) : Z * (Z * Z * Z) :=
  let multi := (0 <? ty) && s in
  (if s then ts else ty,
   if multi then (add_impulse c1 r y1, add_impulse c2 r y2, add_impulse c3 r y3) else (y1, y2, y3)).

(** ** Learning rules: product_series.py Factor, Product, ProductSeries *)
Inductive dep := DX0 | DY0 | DU.
Inductive trace := TX1 | TX2 | TY1 | TY2 | TY3.
Inductive syn := SWeights | STag2 | STag1.
Inductive state_var := VX0 | VY0 | VTrace (tr : trace) | VSyn (s : syn) | VC.
Record factor := { f_var : state_var; f_const : option Z; f_sgn : bool }.
Record product := { p_dep : dep; p_mant : Z; p_exp : Z; p_factors : list factor }.

(** constants.py FACTOR_TO_WIDTH_DICT 60-72 *)
Definition factor_width (v : state_var) : Z :=
  match v with VX0 | VY0 => 1 | VTrace _ => 7 | VSyn _ => 9 | VC => 8 end.

(** the arguments of apply for one synapse: _extract_applier_args 975-1026 and
    _extract_applier_evaluated_traces 474-525 *)
Record args := { a_x0 : Z; a_y0 : Z; a_u : Z; a_syn : syn -> Z; a_trace : trace -> dep -> Z }.
Definition dep_value (a : args) (d : dep) : Z := match d with DX0 => a_x0 a | DY0 => a_y0 a | DU => a_u a end.
(** _compute_factor 190-241 *)
Definition compute_factor (a : args) (d : dep) (f : factor) : Z :=
  let c := match f_const f with Some c => c | None => 0 end in
  match f_var f with
  | VX0 => a_x0 a + c
  | VY0 => a_y0 a + c
  | VTrace tr => a_trace a tr d + c
  | VSyn s => if f_sgn f then Z.sgn (a_syn a s + c) else a_syn a s + c
  | VC => c
  end.
Definition clip_factor (v : state_var) (x : Z) : Z := clip (- 2 ^ factor_width v) (2 ^ factor_width v - 1) x.
(** 274-307: the multiplication accumulator (int32) *)
Definition mac (a : args) (p : product) : Z :=
  let m := fold_left (fun m f => w32 (m * w32 (clip_factor (f_var f) (compute_factor a (p_dep p) f))))
             (p_factors p) (w32 (1 * dep_value a (p_dep p))) in
  w32 (m * p_mant p).
Definition width_sum (p : product) : Z := fold_right (fun f n => factor_width (f_var f) + n) 0 (p_factors p) + 4.
(** the accumulator limits as written in the code, 318-326 *)
Definition clip_acc (x : Z) : Z := clip (- 2 ^ 15 - 1) (2 ^ 15 - 1) x.
(** 309-320 *)
Definition product_value (a : args) (p : product) : Z :=
  clip_acc (np_shl (Z.shiftr (mac a p) (Z.max 0 (width_sum p - 15))) (p_exp p)).
(** apply 243-328 *)
Definition apply_rule (a : args) (ps : list product) (acc0 : Z) : Z :=
  fold_left (fun acc p => clip_acc (acc + product_value a p)) ps acc0.

(** ** Synaptic variables *)
(** _saturate_synaptic_variable_accumulator 1028-1070 *)
Definition saturate_acc (m : sign_mode) (s : syn) (v : Z) : Z :=
  match s with
  | SWeights => match m with Mixed => v | Excitatory => Z.max 0 v | Inhibitory => Z.min 0 v end
  | STag2 => Z.max 0 v
  | STag1 => v
  end.
(** _stochastic_round_synaptic_variable 1073-1111: v / 2^7, floor, round up if random < fraction, * 2^7 *)
Definition round_syn (r : Q) (v : Z) : Z := round_up (qlt r ((v mod 128) # 128)) (v / 128) * 128.
(** _saturate_synaptic_variable 1113-1174 *)
Definition saturate (m : sign_mode) (s : syn) (v : Z) : Z :=
  match s with
  | SWeights => clip_weight m 8 false v
  | STag2 => clip 0 (2 ^ 8 - 1) v
  | STag1 => clip (- 2 ^ 8 - 1) (2 ^ 8 - 1) v
  end.
(** _apply_learning_rules 936-973 for one synaptic variable of one synapse *)
Definition learn (m : sign_mode) (r : Q) (a : args) (ps : list product) (s : syn) (v : Z) : Z :=
  saturate m s (Z.shiftr (round_syn r (saturate_acc m s (apply_rule a ps (Z.shiftl v 7)))) 7).

(** ** The connection *)
Record conn_cfg := {
  t_epoch : Z;
  cfg_sign : sign_mode;
  cfg_graded : graded_cfg;
  cfg_trace : trace -> trace_cfg;
  cfg_rule : syn -> option (list product);      (* dw, dd, dt: active rules only *)
  cfg_decimate : option Z                        (* k of uk *)
}.
Record conn := {
  tx : nat -> Z; x1 : nat -> Z; x2 : nat -> Z;
  ty : nat -> Z; y1 : nat -> Z; y2 : nat -> Z; y3 : nat -> Z;
  syn_val : syn -> nat -> nat -> Z               (* post, pre *)
}.
(** what a time step receives and draws *)
Record stimulus := {
  s_in : nat -> Z;            (* payloads of pre-synaptic spikes, 0 = none *)
  s_bap : nat -> bool;        (* back-propagating spikes *)
  r_post : Z;                 (* impulse random number while post spikes are processed *)
  r_xd : Q; r_yd : Q; r_xi : Z; r_yi : Z;   (* random numbers for the trace histories *)
  r_syn : Q                   (* random number for rounding synaptic variables *)
}.

(** recv_traces 384-414 (two-factor rule) *)
Definition spike_phase (c : conn_cfg) (t : Z) (i : stimulus) (s : conn) : conn :=
  let ts := within_epoch (t_epoch c) t in
  let pre n := pre_spike (cfg_graded c) (cfg_trace c TX1) (cfg_trace c TX2) ts (s_in i n) (tx s n) (x1 s n) (x2 s n) in
  let post n := post_spike (cfg_trace c TY1) (cfg_trace c TY2) (cfg_trace c TY3) (r_post i) ts (s_bap i n)
                  (ty s n) (y1 s n) (y2 s n) (y3 s n) in
  {| tx := fun n => fst (fst (pre n)); x1 := fun n => snd (fst (pre n)); x2 := fun n => snd (pre n);
     ty := fun n => fst (post n); y1 := fun n => fst (fst (snd (post n)));
     y2 := fun n => snd (fst (snd (post n))); y3 := fun n => snd (snd (post n));
     syn_val := syn_val s |}.

(** the histories of all traces, at within-epoch step [t] *)
Definition x_hist (c : conn_cfg) (i : stimulus) (s : conn) (tr : trace) (t n : nat) : Z :=
  history (cfg_trace c tr) (r_xd i) (r_xi i) (tx s n) (match tr with TX2 => x2 s n | _ => x1 s n end) t.
Definition y_hist (c : conn_cfg) (i : stimulus) (s : conn) (tr : trace) (t n : nat) : Z :=
  history (cfg_trace c tr) (r_yd i) (r_yi i) (ty s n)
    (match tr with TY2 => y2 s n | TY3 => y3 s n | _ => y1 s n end) t.
Definition is_x (tr : trace) : bool := match tr with TX1 | TX2 => true | _ => false end.
(** 474-525: the time of evaluation is tx for x0, ty for y0 and the end of the epoch for u *)
Definition evaluated (c : conn_cfg) (i : stimulus) (s : conn) (post pre : nat) (tr : trace) (d : dep) : Z :=
  let t := match d with DX0 => Z.to_nat (tx s pre) | DY0 => Z.to_nat (ty s post) | DU => Z.to_nat (t_epoch c) end in
  if is_x tr then x_hist c i s tr t pre else y_hist c i s tr t post.
(** _update_dependencies 443-445 and the decimation 1008-1019 *)
Definition u_value (c : conn_cfg) (t : Z) : Z :=
  match cfg_decimate c with
  | None => 0
  | Some k => if (t / t_epoch c) mod 2 ^ k =? 0 then 1 else 0
  end.
Definition applier_args (c : conn_cfg) (t : Z) (i : stimulus) (s : conn) (post pre : nat) (cur : syn -> Z) : args :=
  {| a_x0 := if 0 <? tx s pre then 1 else 0;
     a_y0 := if 0 <? ty s post then 1 else 0;
     a_u := u_value c t;
     a_syn := cur;
     a_trace := evaluated c i s post pre |}.
(** the learning rule of one synaptic variable is applied if it is active; all rules see the values
    from before the learning step (applier_args is extracted once, 942-944) *)
Definition learned (c : conn_cfg) (t : Z) (i : stimulus) (s : conn) (v : syn) (post pre : nat) : Z :=
  let old := fun w => syn_val s w post pre in
  match cfg_rule c v with
  | None => old v
  | Some ps => learn (cfg_sign c) (r_syn i) (applier_args c t i s post pre old) ps v (old v)
  end.
(** run_lrn 431-437 *)
Definition learn_phase (c : conn_cfg) (t : Z) (i : stimulus) (s : conn) : conn :=
  let e := Z.to_nat (t_epoch c) in
  {| tx := fun _ => 0; x1 := x_hist c i s TX1 e; x2 := x_hist c i s TX2 e;
     ty := fun _ => 0; y1 := y_hist c i s TY1 e; y2 := y_hist c i s TY2 e; y3 := y_hist c i s TY3 e;
     syn_val := learned c t i s |}.
(** one time step: run_spk, then run_lrn if lrn_guard *)
Definition conn_step (c : conn_cfg) (t : Z) (i : stimulus) (s : conn) : conn :=
  let s' := spike_phase c t i s in
  if lrn_guard (t_epoch c) t then learn_phase c t i s' else s'.
(** the state after [n] time steps; the first time step has number 1 *)
Fixpoint run (c : conn_cfg) (i : nat -> stimulus) (s0 : conn) (n : nat) : conn :=
  match n with
  | O => s0
  | S k => conn_step c (Z.of_nat n) (i n) (run c i s0 k)
  end.
