(** Model of floating-point learning connections (LearningDense, two-factor rules):
    /repo/src/lava/magma/core/model/py/connection.py PyLearningConnection 293-301, 367-533 and
    LearningConnectionModelFloat 1175-1566, /repo/src/lava/magma/core/learning/learning_rule_applier.py
    LearningRuleApplierFloat 36-172, /repo/src/lava/magma/core/learning/learning_rule.py 131-180.
    A floating-point number is a rational or NaN; sums and products are exact (rounding errors, infinities and the sign of
    zero are not modelled).  The decay factor np.exp(-1/tau) of a trace is an arbitrary rational.
    Vectors are functions from neuron indices, matrices functions of (post, pre). *)
From Coq Require Import ZArith QArith Qpower Qminmax List Bool String.
From Verif Require Import Bits_Model Learning_Model Rule_Model.
Import ListNotations.
Open Scope Z_scope.

(** ** Numbers: [None] is NaN *)
Definition num := option Q.
Definition nadd (a b : num) : num := match a, b with Some x, Some y => Some (x + y)%Q | _, _ => None end.
Definition nmul (a b : num) : num := match a, b with Some x, Some y => Some (x * y)%Q | _, _ => None end.
Definition nmap (f : Q -> Q) (a : num) : num := match a with Some x => Some (f x) | None => None end.
(** np.sign *)
Definition qsign (x : Q) : Q := match (x ?= 0)%Q with Lt => -1 | Eq => 0 | Gt => 1 end.

(** ** Configuration *)
(** impulse and np.exp(-1 / tau) of a trace, [None] if tau = 0 (the default, learning_rule.py 86-94) *)
Record ftrace := { f_decay : option Q; f_impulse : Q }.
Record fcfg := {
  fc_epoch : Z;
  fc_sign : sign_mode;
  fc_graded : graded_cfg;
  fc_trace : trace -> ftrace;
  fc_rule : syn -> option (list rproduct);
  fc_decimate : option Z
}.
(** _extract_factor_str 103-136 raises "Unknown Factor" for x0 and y0: they are neither constants nor traces nor synaptic
    variables.  It is called when the ProcessModel is built (PyLearningConnection.__init__ 149, 293-301) *)
Definition known_factor (f : rfactor) : bool := match rf_var f with VX0 | VY0 => false | _ => true end.
Definition applier_builds (ps : list rproduct) : bool := forallb (fun p => forallb known_factor (rp_factors p)) ps.
(** one learning rule: ProductSeries of the string, then its applier; [None] is an exception *)
Definition build_rule (s : option string) : option (option (list rproduct)) :=
  match s with
  | None => Some None
  | Some s => match compile s with
              | Some (ps, _) => if applier_builds ps then Some (Some ps) else None
              | None => None
              end
  end.
(** LoihiLearningRule.__init__ 80-180 with the strings of dw, dd, dt, then the ProcessModel; [None] is an exception.
    In the code the target of dd is "d", mapped to tag_2, and the target of dt is "t", mapped to tag_1. *)
Definition build (e : Z) (m : sign_mode) (g : graded_cfg) (tr : trace -> ftrace) (text : syn -> option string) : option fcfg :=
  let strings := flat_map (fun y => match text y with Some s => [s] | None => [] end) [SWeights; STag2; STag1] in
  if Nat.eqb (List.length strings) 0 then None else
  match validate_uk strings, build_rule (text SWeights), build_rule (text STag2), build_rule (text STag1) with
  | Some k, Some w, Some d, Some t =>
      Some {| fc_epoch := e; fc_sign := m; fc_graded := g; fc_trace := tr;
              fc_rule := fun y => match y with SWeights => w | STag2 => d | STag1 => t end; fc_decimate := k |}
  | _, _, _, _ => None
  end.

(** ** State *)
Record fconn := { f_tx : nat -> Z; f_ty : nat -> Z; f_tr : trace -> nat -> num; f_syn : syn -> nat -> nat -> num }.
(** what a time step receives: payloads of pre-synaptic spikes (0 = none), back-propagating spikes *)
Record fstim := { f_in : nat -> Q; f_bap : nat -> bool }.

(** ** Spiking phase *)
(** s_in.astype(bool) *)
Definition nonzero (q : Q) : bool := negb (Qeq_bool q 0).
(** _process_pre_spikes 1302-1345, one neuron: the traces x1 and x2 *)
Definition fpre_x1 (g : graded_cfg) (imp : Q) (tx : Z) (a : Q) (v : num) : num :=
  let spiked := nonzero a in
  match g with
  | UseRegularImpulse => if (0 <? tx) && spiked then nadd v (Some imp) else v
  | Overwrite => if spiked then Some (a / 2)%Q else v
  | AddWithSaturation | AddWithoutSaturation => nadd v (Some (a / 2)%Q)
  end.
Definition fpre_x2 (imp : Q) (tx : Z) (a : Q) (v : num) : num :=
  if (0 <? tx) && nonzero a then nadd v (Some imp) else v.
(** _process_post_spikes 1347-1368, one neuron, each of the traces y1, y2, y3 *)
Definition fpost_y (imp : Q) (ty : Z) (s : bool) (v : num) : num :=
  if (0 <? ty) && s then nadd v (Some imp) else v.
(** recv_traces 384-414 (two-factor rule) *)
Definition fspike_phase (c : fcfg) (t : Z) (i : fstim) (s : fconn) : fconn :=
  let ts := within_epoch (fc_epoch c) t in
  {| f_tx := fun n => if nonzero (f_in i n) then ts else f_tx s n;
     f_ty := fun n => if f_bap i n then ts else f_ty s n;
     f_tr := fun tr n =>
       let imp := f_impulse (fc_trace c tr) in
       match tr with
       | TX1 => fpre_x1 (fc_graded c) imp (f_tx s n) (f_in i n) (f_tr s TX1 n)
       | TX2 => fpre_x2 imp (f_tx s n) (f_in i n) (f_tr s TX2 n)
       | _ => fpost_y imp (f_ty s n) (f_bap i n) (f_tr s tr n)
       end;
     f_syn := f_syn s |}.

(** ** Learning phase *)
(** _compute_trace_histories 1370-1424 for one trace of one neuron whose recorded spike time is [ts]: the rows are created
    with np.full(nan); row t gets the decayed row t-1 only if tau != 0; the impulse is added at the spike time *)
Definition frow (c : ftrace) (ts t : Z) (v : num) : num :=
  let d := match f_decay c with Some d => nmul (Some d) v | None => None end in
  if ts =? t then nadd d (Some (f_impulse c)) else d.
Fixpoint fhistory (c : ftrace) (ts : Z) (v0 : num) (t : nat) : num :=
  match t with
  | O => v0
  | S k => frow c ts (Z.of_nat t) (fhistory c ts v0 k)
  end.
Definition spike_time (s : fconn) (tr : trace) (n : nat) : Z :=
  match tr with TX1 | TX2 => f_tx s n | _ => f_ty s n end.
Definition fhist (c : fcfg) (s : fconn) (tr : trace) (n t : nat) : num :=
  fhistory (fc_trace c tr) (spike_time s tr n) (f_tr s tr n) t.
(** _extract_applier_evaluated_traces 474-525 *)
Definition fevaluated (c : fcfg) (s : fconn) (post pre : nat) (tr : trace) (d : dep) : num :=
  fhist c s tr (match tr with TX1 | TX2 => pre | _ => post end)
    (Z.to_nat (match d with DX0 => f_tx s pre | DY0 => f_ty s post | DU => fc_epoch c end)).
(** _extract_applier_args 1473-1522: u *)
Definition fu (c : fcfg) (t : Z) : Q :=
  match fc_decimate c with
  | None => 0
  | Some k => if (t / fc_epoch c) mod 2 ^ k =? 0 then 1 else 0
  end.
(** the arguments of apply for one synapse *)
Record fargs := { fa_dep : dep -> Q; fa_syn : syn -> num; fa_trace : trace -> dep -> num }.
Definition fapplier_args (c : fcfg) (t : Z) (s : fconn) (post pre : nat) : fargs :=
  {| fa_dep := fun d => match d with
       | DX0 => if 0 <? f_tx s pre then 1%Q else 0%Q          (* _update_dependencies 443-445 *)
       | DY0 => if 0 <? f_ty s post then 1%Q else 0%Q
       | DU => fu c t end;
     fa_syn := fun y => f_syn s y post pre;
     fa_trace := fevaluated c s post pre |}.
(** _extract_factor_str 103-136, evaluated *)
Definition ffactor (a : fargs) (d : dep) (f : rfactor) : num :=
  match rf_var f with
  | VC => rf_const f
  | VX0 | VY0 => None                               (* refused when built *)
  | v =>
      let x := match v with VTrace tr => fa_trace a tr d | VSyn y => fa_syn a y | _ => None end in
      let x := match rf_const f with Some q => nadd x (Some q) | None => x end in
      if rf_sgn f then nmap qsign x else x
  end.
(** _build_applier_str 62-101: (mantissa) * 2. ** ((exponent) - 7) * dependency * factor * ... *)
Definition fproduct (a : fargs) (p : rproduct) : num :=
  fold_left (fun v f => nmul v (ffactor a (rp_dep p) f)) (rp_factors p)
    (Some (inject_Z (rp_mant p) * Qpower 2 (rp_exp p - 7) * fa_dep a (rp_dep p))%Q).
(** ... + ... *)
Definition fseries (a : fargs) (ps : list rproduct) : num := fold_left (fun v p => nadd v (fproduct a p)) ps (Some 0%Q).
(** _saturate_synaptic_variable 1524-1563; np.maximum and np.minimum of NaN are NaN *)
Definition fsaturate (m : sign_mode) (y : syn) (v : num) : num :=
  match y with
  | SWeights => match m with Mixed => v | Excitatory => nmap (Qmax 0) v | Inhibitory => nmap (Qmin 0) v end
  | STag1 => v
  | STag2 => nmap (Qmax 0) v
  end.
(** _apply_learning_rules 1450-1471 for dense synaptic variables: all rules see the values from before *)
Definition flearned (c : fcfg) (t : Z) (s : fconn) (y : syn) (post pre : nat) : num :=
  match fc_rule c y with
  | None => f_syn s y post pre
  | Some ps => fsaturate (fc_sign c) y (nadd (f_syn s y post pre) (fseries (fapplier_args c t s post pre) ps))
  end.
(** run_lrn 431-437 *)
Definition flearn_phase (c : fcfg) (t : Z) (s : fconn) : fconn :=
  {| f_tx := fun _ => 0; f_ty := fun _ => 0;
     f_tr := fun tr n => fhist c s tr n (Z.to_nat (fc_epoch c));
     f_syn := flearned c t s |}.
(** one time step: run_spk, then run_lrn if lrn_guard *)
Definition fstep (c : fcfg) (t : Z) (i : fstim) (s : fconn) : fconn :=
  let s' := fspike_phase c t i s in
  if lrn_guard (fc_epoch c) t then flearn_phase c t s' else s'.
(** the state after [n] time steps; the first time step has number 1 *)
Fixpoint frun (c : fcfg) (i : nat -> fstim) (s0 : fconn) (n : nat) : fconn :=
  match n with
  | O => s0
  | S k => fstep c (Z.of_nat n) (i n) (frun c i s0 k)
  end.
