(** Model of changing the parameters of a learning connection between two runs (C95):
    /repo/src/lava/magma/core/model/py/connection.py PyLearningConnection.__init__ 133-150, on_var_update 152-175,
    _build_learning_rule_appliers 293-301, _store_impulses_and_taus 618-647 and 1271-1294;
    /repo/src/lava/magma/core/model/py/model.py _set_var 142-201;
    /repo/src/lava/magma/core/learning/learning_rule.py __init__ 80-126, setters 181-383, validators 466-579;
    /repo/src/lava/magma/core/process/connection.py 60-112; /repo/src/lava/magma/compiler/builders/py_builder.py 397-425.
    [option]: [None] is an exception; an exception in on_var_update ends the process (model.py run 226-231).
    The tables of active traces (on_var_update 173-174) are not modelled: nothing reads them. *)
From Coq Require Import ZArith QArith Qround List Bool String.
From Verif Require Import Bits_Model Learning_Model Rule_Model FloatLearn_Model RuleApply_Props.
Import ListNotations.
Open Scope Z_scope.

(** one value per trace, one per synaptic variable (dw, dd, dt) *)
Record traces (A : Type) := { at_x1 : A; at_x2 : A; at_y1 : A; at_y2 : A; at_y3 : A }.
Arguments at_x1 {A}. Arguments at_x2 {A}. Arguments at_y1 {A}. Arguments at_y2 {A}. Arguments at_y3 {A}.
Record targets (A : Type) := { at_w : A; at_d : A; at_t : A }.
Arguments at_w {A}. Arguments at_d {A}. Arguments at_t {A}.
Definition get_trace {A} (f : traces A) (tr : trace) : A :=
  match tr with TX1 => at_x1 f | TX2 => at_x2 f | TY1 => at_y1 f | TY2 => at_y2 f | TY3 => at_y3 f end.
Definition put_trace {A} (tr : trace) (v : A) (f : traces A) : traces A :=
  {| at_x1 := match tr with TX1 => v | _ => at_x1 f end; at_x2 := match tr with TX2 => v | _ => at_x2 f end;
     at_y1 := match tr with TY1 => v | _ => at_y1 f end; at_y2 := match tr with TY2 => v | _ => at_y2 f end;
     at_y3 := match tr with TY3 => v | _ => at_y3 f end |}.
Definition get_target {A} (f : targets A) (y : syn) : A :=
  match y with SWeights => at_w f | STag2 => at_d f | STag1 => at_t f end.
Definition put_target {A} (y : syn) (v : A) (f : targets A) : targets A :=
  {| at_w := match y with SWeights => v | _ => at_w f end; at_d := match y with STag2 => v | _ => at_d f end;
     at_t := match y with STag1 => v | _ => at_t f end |}.

(** ** learning_rule.py *)
Record rule_obj := {
  o_text : targets (option string);            (* _dw_str, _dd_str, _dt_str *)
  o_imp : traces Q; o_tau : traces Q;
  o_epoch : Z;
  o_dec : option Z;                            (* _decimate_exponent *)
  o_series : targets (option (list rproduct))  (* _dw, _dd, _dt *)
}.
Definition with_text (x : targets (option string)) (o : rule_obj) : rule_obj :=
  {| o_text := x; o_imp := o_imp o; o_tau := o_tau o; o_epoch := o_epoch o; o_dec := o_dec o; o_series := o_series o |}.
Definition with_imp (x : traces Q) (o : rule_obj) : rule_obj :=
  {| o_text := o_text o; o_imp := x; o_tau := o_tau o; o_epoch := o_epoch o; o_dec := o_dec o; o_series := o_series o |}.
Definition with_tau (x : traces Q) (o : rule_obj) : rule_obj :=
  {| o_text := o_text o; o_imp := o_imp o; o_tau := x; o_epoch := o_epoch o; o_dec := o_dec o; o_series := o_series o |}.
Definition with_dec (x : option Z) (o : rule_obj) : rule_obj :=
  {| o_text := o_text o; o_imp := o_imp o; o_tau := o_tau o; o_epoch := o_epoch o; o_dec := x; o_series := o_series o |}.
Definition with_series (x : targets (option (list rproduct))) (o : rule_obj) : rule_obj :=
  {| o_text := o_text o; o_imp := o_imp o; o_tau := o_tau o; o_epoch := o_epoch o; o_dec := o_dec o; o_series := x |}.
(** _active_str_learning_rules 138-143 *)
Definition active_texts (x : targets (option string)) : list string :=
  flat_map (fun s => match s with Some s => [s] | None => [] end) [at_w x; at_d x; at_t x].
(** _validate_learning_rule_strings 128-156 with _validate_at_least_one_learning_rule 466-483 and _validate_uk 485-523 *)
Definition validate_strings (o : rule_obj) : option rule_obj :=
  if Nat.eqb (List.length (active_texts (o_text o))) 0 then None
  else omap (fun k => with_dec k o) (validate_uk (active_texts (o_text o))).
(** _create_product_series 158-184 *)
Definition series_of (s : option string) : option (option (list rproduct)) :=
  match s with None => Some None | Some s => omap (fun r => Some (fst r)) (compile s) end.
Definition create_series (o : rule_obj) : option rule_obj :=
  obind (series_of (at_w (o_text o))) (fun w =>
  obind (series_of (at_d (o_text o))) (fun d =>
  obind (series_of (at_t (o_text o))) (fun t => Some (with_series {| at_w := w; at_d := d; at_t := t |} o)))).
(** _validate_impulse 525-543, _validate_tau 545-561: the same check *)
Definition not_negative (q : Q) : option Q := if Qle_bool 0 q then Some q else None.
(** the setters of dw_str, dd_str, dt_str 190-218, of the impulses and taus 241-383 *)
Definition set_text (y : syn) (s : option string) (o : rule_obj) : option rule_obj :=
  obind (validate_strings (with_text (put_target y s (o_text o)) o)) create_series.
Definition set_imp (tr : trace) (v : Q) (o : rule_obj) : option rule_obj :=
  omap (fun v => with_imp (put_trace tr v (o_imp o)) o) (not_negative v).
Definition set_tau (tr : trace) (v : Q) (o : rule_obj) : option rule_obj :=
  omap (fun v => with_tau (put_trace tr v (o_tau o)) o) (not_negative v).
(** what the user gives: LoihiLearningRule.__init__ 80-97 *)
Record params := { p_text : targets (option string); p_imp : traces Q; p_tau : traces Q }.
Definition all_traces : list trace := [TX1; TX2; TY1; TY2; TY3].
(** __init__ 99-126 *)
Definition new_rule (epoch : Z) (p : params) : option rule_obj :=
  obind (validate_strings {| o_text := p_text p; o_imp := p_imp p; o_tau := p_tau p; o_epoch := epoch; o_dec := None;
                             o_series := {| at_w := None; at_d := None; at_t := None |} |}) (fun o =>
  if forallb (fun tr => Qle_bool 0 (get_trace (p_imp p) tr) && Qle_bool 0 (get_trace (p_tau p) tr)) all_traces
  then if epoch <=? 0 then None else create_series o
  else None).

(** ** The ProcessModel *)
(** what the methods of the ProcessModel read in a time step: the stored impulses and taus, the appliers, and t_epoch and
    decimate_exponent of the rule *)
Record settings := {
  st_epoch : Z; st_dec : option Z; st_imp : traces Q; st_tau : traces Q; st_rules : targets (option (list rproduct)) }.

Section Connection.
(** the data type of the Vars of the impulses and taus (connection.py 602-616: int, 1256-1269: float): a value written
    into such an array is cast *)
Variable cast : Q -> Q.
(** the constructor of the LearningRuleApplier of a product series succeeds (connection.py 670-674, 1296-1300) *)
Variable applier_ok : list rproduct -> bool.
(** state of the connection (weights, traces, spike times, random number generators), what a time step receives, and the
    effect of a time step *)
Variables (ST STIM : Type) (step : settings -> Z -> STIM -> ST -> ST).

Record pm := {
  m_vars : params;                                (* the attributes dw, dd, dt, x1_impulse, ... of the ProcessModel *)
  m_rule : rule_obj;                              (* _learning_rule *)
  m_imp : traces Q; m_tau : traces Q;             (* _x_impulses, _y_impulses, _x_taus, _y_taus *)
  m_appl : targets (option (list rproduct));      (* _learning_rule_appliers *)
  m_time : Z; m_state : ST }.

Definition cast_all (f : traces Q) : traces Q :=
  {| at_x1 := cast (at_x1 f); at_x2 := cast (at_x2 f); at_y1 := cast (at_y1 f); at_y2 := cast (at_y2 f); at_y3 := cast (at_y3 f) |}.
(** _build_learning_rule_appliers 293-301 *)
Definition applier (r : option (list rproduct)) : option (option (list rproduct)) :=
  match r with None => Some None | Some ps => if applier_ok ps then Some (Some ps) else None end.
Definition appliers (f : targets (option (list rproduct))) : option (targets (option (list rproduct))) :=
  obind (applier (at_w f)) (fun w => obind (applier (at_d f)) (fun d => obind (applier (at_t f)) (fun t =>
    Some {| at_w := w; at_d := d; at_t := t |}))).
(** __init__ 133-150; then the builder (py_builder.py 397-425) creates the Vars from the values of the rule
    (process/connection.py 94-110): strings as they are, numbers cast into arrays *)
Definition new_model (o : rule_obj) (s : ST) : option pm :=
  omap (fun a => {| m_vars := {| p_text := o_text o; p_imp := cast_all (o_imp o); p_tau := cast_all (o_tau o) |};
                    m_rule := o; m_imp := o_imp o; m_tau := o_tau o; m_appl := a; m_time := 0; m_state := s |})
       (appliers (o_series o)).
(** on_var_update 152-175 *)
Definition update_rule (v : params) (o : rule_obj) : option rule_obj :=
  obind (set_tau TX1 (at_x1 (p_tau v)) o) (fun o => obind (set_imp TX1 (at_x1 (p_imp v)) o) (fun o =>
  obind (set_tau TX2 (at_x2 (p_tau v)) o) (fun o => obind (set_imp TX2 (at_x2 (p_imp v)) o) (fun o =>
  obind (set_tau TY1 (at_y1 (p_tau v)) o) (fun o => obind (set_imp TY1 (at_y1 (p_imp v)) o) (fun o =>
  obind (set_tau TY2 (at_y2 (p_tau v)) o) (fun o => obind (set_imp TY2 (at_y2 (p_imp v)) o) (fun o =>
  obind (set_tau TY3 (at_y3 (p_tau v)) o) (fun o => obind (set_imp TY3 (at_y3 (p_imp v)) o) (fun o =>
  obind (set_text SWeights (at_w (p_text v)) o) (fun o =>
  obind (set_text STag2 (at_d (p_text v)) o) (fun o => set_text STag1 (at_t (p_text v)) o)))))))))))).
Definition on_var_update (m : pm) : option pm :=
  obind (update_rule (m_vars m) (m_rule m)) (fun o =>
  omap (fun a => {| m_vars := m_vars m; m_rule := o; m_imp := o_imp o; m_tau := o_tau o; m_appl := a;
                    m_time := m_time m; m_state := m_state m |}) (appliers (o_series o))).
(** what a time step reads *)
Definition reads (m : pm) : settings :=
  {| st_epoch := o_epoch (m_rule m); st_dec := o_dec (m_rule m); st_imp := m_imp m; st_tau := m_tau m; st_rules := m_appl m |}.

(** ** The life of the connection *)
Inductive happening :=
| Step (i : STIM)                       (* a time step *)
| SetRule (y : syn) (s : string)        (* conn.dw.set("..."), conn.dd.set("..."), conn.dt.set("...") *)
| SetImpulse (tr : trace) (v : Q)       (* conn.x1_impulse.set(np.array([v])), ... *)
| SetTau (tr : trace) (v : Q)           (* conn.x1_tau.set(np.array([v])), ... *)
| SetState (f : ST -> ST).              (* conn.weights.set(..), conn.x1.set(..), conn.tag_1.set(..), ... *)
Definition with_vars (v : params) (m : pm) : pm :=
  {| m_vars := v; m_rule := m_rule m; m_imp := m_imp m; m_tau := m_tau m; m_appl := m_appl m; m_time := m_time m; m_state := m_state m |}.
Definition with_state (t : Z) (s : ST) (m : pm) : pm :=
  {| m_vars := m_vars m; m_rule := m_rule m; m_imp := m_imp m; m_tau := m_tau m; m_appl := m_appl m; m_time := t; m_state := s |}.
(** _set_var 142-201: a Var whose attribute is a str takes any string, one whose attribute is None raises "Unsupported
    type"; the numbers go into the existing array; then on_var_update, whatever was set *)
Definition exec (m : pm) (h : happening) : option pm :=
  match h with
  | Step i => Some (with_state (m_time m + 1) (step (reads m) (m_time m + 1) i (m_state m)) m)
  | SetRule y s => match get_target (p_text (m_vars m)) y with
                   | None => None
                   | Some _ => on_var_update (with_vars {| p_text := put_target y (Some s) (p_text (m_vars m));
                                                           p_imp := p_imp (m_vars m); p_tau := p_tau (m_vars m) |} m)
                   end
  | SetImpulse tr v => on_var_update (with_vars {| p_text := p_text (m_vars m); p_imp := put_trace tr (cast v) (p_imp (m_vars m));
                                                   p_tau := p_tau (m_vars m) |} m)
  | SetTau tr v => on_var_update (with_vars {| p_text := p_text (m_vars m); p_imp := p_imp (m_vars m);
                                               p_tau := put_trace tr (cast v) (p_tau (m_vars m)) |} m)
  | SetState f => on_var_update (with_state (m_time m) (f (m_state m)) m)
  end.
Fixpoint exec_all (m : pm) (l : list happening) : option pm :=
  match l with [] => Some m | h :: r => obind (exec m h) (fun m => exec_all m r) end.
(** a connection is created with a learning rule, then lives *)
Definition start (epoch : Z) (p : params) (s : ST) : option pm := obind (new_rule epoch p) (fun o => new_model o s).
End Connection.
Arguments Step {ST STIM}. Arguments SetRule {ST STIM}. Arguments SetImpulse {ST STIM}. Arguments SetTau {ST STIM}. Arguments SetState {ST STIM}.
Arguments m_vars {ST}. Arguments m_rule {ST}. Arguments m_imp {ST}. Arguments m_tau {ST}. Arguments m_appl {ST}.
Arguments m_time {ST}. Arguments m_state {ST}. Arguments reads {ST}.

(** ** Floating-point connection (FloatLearn_Model) *)
Definition float_cast (q : Q) : Q := q.
(** [decay tau] stands for np.exp(-1 / tau), connection.py 1427-1449; rows with tau = 0 are skipped *)
Definition float_traces (decay : Q -> Q) (imp tau : traces Q) (tr : trace) : ftrace :=
  {| f_decay := if Qeq_bool (get_trace tau tr) 0 then None else Some (decay (get_trace tau tr)); f_impulse := get_trace imp tr |}.
Definition float_cfg (decay : Q -> Q) (sm : sign_mode) (g : graded_cfg) (c : settings) : fcfg :=
  {| fc_epoch := st_epoch c; fc_sign := sm; fc_graded := g; fc_trace := float_traces decay (st_imp c) (st_tau c);
     fc_rule := fun y => get_target (st_rules c) y; fc_decimate := st_dec c |}.
Definition float_step (decay : Q -> Q) (sm : sign_mode) (g : graded_cfg) (c : settings) (t : Z) (i : fstim) (s : fconn) : fconn :=
  fstep (float_cfg decay sm g c) t i s.

(** ** Fixed-point connection (Learning_Model) *)
(** float to int conversion of numpy: towards zero *)
Definition fixed_cast (q : Q) : Q := inject_Z (Z.quot (Qnum q) (Zpos (Qden q))).
(** np.round: to the nearest, halves to even *)
Definition np_round (q : Q) : Z :=
  let f := Qfloor q in
  match (q - inject_Z f ?= 1 # 2)%Q with Lt => f | Gt => f + 1 | Eq => if Z.even f then f else f + 1 end.
(** _decompose_impulses 649-668; [decay tau] stands for np.exp(-1 / tau) * _ , connection.py 861-893 *)
Definition fixed_trace (decay : Q -> Z -> Q) (imp tau : Q) : trace_cfg :=
  {| imp_int := Qfloor imp; imp_frac := np_round ((imp - inject_Z (Qfloor imp)) * 128);
     decay_fn := if Qeq_bool tau 0 then None else Some (decay tau) |}.
(** rules with fractional constants are outside Learning_Model (see C80): such a rule is left out here *)
Definition fixed_cfg (decay : Q -> Z -> Q) (sm : sign_mode) (g : graded_cfg) (c : settings) : conn_cfg :=
  {| t_epoch := st_epoch c; cfg_sign := sm; cfg_graded := g;
     cfg_trace := fun tr => fixed_trace decay (get_trace (st_imp c) tr) (get_trace (st_tau c) tr);
     cfg_rule := fun y => obind (get_target (st_rules c) y) to_products; cfg_decimate := st_dec c |}.
Definition fixed_step (decay : Q -> Z -> Q) (sm : sign_mode) (g : graded_cfg) (c : settings) (t : Z) (i : stimulus) (s : conn) : conn :=
  conn_step (fixed_cfg decay sm g c) t i s.
(** no applier of the fixed-point connection refuses a rule when it is built (learning_rule_applier.py 19-33) *)
Definition fixed_applier_ok (ps : list rproduct) : bool := true.
