[
 {
  "file": "Retune_Model",
  "def": "update_rule",
  "old": "set_imp TX1 (at_x1 (p_imp v)) o",
  "new": "set_imp TX1 (at_x2 (p_imp v)) o",
  "edit": "x1 impulse taken from x2",
  "breaks": [
   "C95"
  ]
 },
 {
  "file": "Retune_Model",
  "def": "update_rule",
  "old": "set_tau TX2 (at_x2 (p_tau v)) o",
  "new": "set_tau TX2 (at_x2 (p_imp v)) o",
  "edit": "x2 tau taken from its impulse",
  "breaks": [
   "C95"
  ]
 },
 {
  "file": "Retune_Model",
  "def": "update_rule",
  "old": "set_tau TY1 (at_y1 (p_tau v)) o",
  "new": "Some o",
  "edit": "y1 tau never updated",
  "breaks": [
   "C95"
  ]
 },
 {
  "file": "Retune_Model",
  "def": "update_rule",
  "old": "obind (set_imp TY3 (at_y3 (p_imp v)) o)",
  "new": "obind (set_imp TY2 (at_y3 (p_imp v)) o)",
  "edit": "y3 impulse written to y2",
  "breaks": [
   "C95"
  ]
 },
 {
  "file": "Retune_Model",
  "def": "update_rule",
  "old": "obind (set_text STag2 (at_d (p_text v)) o) (fun o => set_text STag1 (at_t (p_text v)) o)",
  "new": "set_text STag2 (at_d (p_text v)) o",
  "edit": "dt not updated",
  "breaks": [
   "C95"
  ]
 },
 {
  "file": "Retune_Model",
  "def": "update_rule",
  "old": "obind (set_text SWeights (at_w (p_text v)) o)",
  "new": "obind (set_text SWeights (at_d (p_text v)) o)",
  "edit": "dw set to dd",
  "breaks": [
   "C95"
  ]
 },
 {
  "file": "Retune_Model",
  "def": "on_var_update",
  "old": "m_rule := o; m_imp := o_imp o; m_tau := o_tau o; m_appl := a;\n                    m_time := m_time m",
  "new": "m_rule := o; m_imp := m_imp m; m_tau := m_tau m; m_appl := a;\n                    m_time := m_time m",
  "edit": "_store_impulses_and_taus not called after a set",
  "breaks": [
   "C95"
  ]
 },
 {
  "file": "Retune_Model",
  "def": "on_var_update",
  "old": "m_tau := o_tau o; m_appl := a;\n                    m_time := m_time m; m_state",
  "new": "m_tau := o_tau o; m_appl := m_appl m;\n                    m_time := m_time m; m_state",
  "edit": "appliers not rebuilt after a set",
  "breaks": [
   "C95"
  ]
 },
 {
  "file": "Retune_Model",
  "def": "on_var_update",
  "old": "m_appl := a;\n                    m_time := m_time m;",
  "new": "m_appl := a;\n                    m_time := 0;",
  "edit": "time step restarted by a set",
  "breaks": [
   "C95"
  ]
 },
 {
  "file": "Retune_Model",
  "def": "on_var_update",
  "old": "obind (update_rule (m_vars m) (m_rule m)) (fun o =>\n  omap",
  "new": "obind (Some (m_rule m)) (fun o =>\n  omap",
  "edit": "rule object not updated",
  "breaks": [
   "C95"
  ]
 },
 {
  "file": "Retune_Model",
  "def": "set_text",
  "old": "obind (validate_strings (with_text (put_target y s (o_text o)) o)) create_series",
  "new": "create_series (with_text (put_target y s (o_text o)) o)",
  "edit": "setter does not validate the periods",
  "breaks": [
   "C95"
  ]
 },
 {
  "file": "Retune_Model",
  "def": "set_text",
  "old": "obind (validate_strings (with_text (put_target y s (o_text o)) o)) create_series",
  "new": "validate_strings (with_text (put_target y s (o_text o)) o)",
  "edit": "setter does not rebuild the product series",
  "breaks": [
   "C95"
  ]
 },
 {
  "file": "Retune_Model",
  "def": "set_text",
  "old": "obind (validate_strings (with_text (put_target y s (o_text o)) o)) create_series",
  "new": "obind (validate_strings o) create_series",
  "edit": "setter drops the new text",
  "breaks": [
   "C95"
  ]
 },
 {
  "file": "Retune_Model",
  "def": "set_imp",
  "old": "with_imp (put_trace tr v (o_imp o)) o) (not_negative v)",
  "new": "with_imp (put_trace tr v (o_imp o)) o) (Some v)",
  "edit": "negative impulse accepted by the setter",
  "breaks": [
   "C95"
  ]
 },
 {
  "file": "Retune_Model",
  "def": "set_tau",
  "old": "(put_trace tr v (o_tau o)) o) (not_negative v)",
  "new": "(put_trace tr v (o_tau o)) o) (if Qle_bool v 0 then None else Some v)",
  "edit": "zero tau refused by the setter",
  "breaks": [
   "C95"
  ]
 },
 {
  "file": "Retune_Model",
  "def": "validate_strings",
  "old": "omap (fun k => with_dec k o)",
  "new": "omap (fun _ => o)",
  "edit": "decimate exponent not updated",
  "breaks": [
   "C95"
  ]
 },
 {
  "file": "Retune_Model",
  "def": "validate_strings",
  "old": "if Nat.eqb (List.length (active_texts (o_text o))) 0 then None\n  else ",
  "new": "",
  "edit": "rule without any text accepted",
  "breaks": [
   "C95"
  ]
 },
 {
  "file": "Retune_Model",
  "def": "create_series",
  "old": "obind (series_of (at_d (o_text o))) (fun d =>",
  "new": "obind (series_of (at_w (o_text o))) (fun d =>",
  "edit": "dd built from dw",
  "breaks": [
   "C95"
  ]
 },
 {
  "file": "Retune_Model",
  "def": "new_rule",
  "old": "if epoch <=? 0 then None else create_series o",
  "new": "if epoch <? 0 then None else create_series o",
  "edit": "epoch 0 accepted",
  "breaks": [
   "C95"
  ]
 },
 {
  "file": "Retune_Model",
  "def": "new_rule",
  "old": "Qle_bool 0 (get_trace (p_imp p) tr) && Qle_bool 0 (get_trace (p_tau p) tr)",
  "new": "Qle_bool 0 (get_trace (p_imp p) tr)",
  "edit": "negative tau accepted by the constructor",
  "breaks": [
   "C95"
  ]
 },
 {
  "file": "Retune_Model",
  "def": "new_model",
  "old": "p_imp := cast_all (o_imp o); p_tau := cast_all (o_tau o)",
  "new": "p_imp := cast_all (o_imp o); p_tau := cast_all (o_imp o)",
  "edit": "tau Vars initialised with the impulses",
  "breaks": [
   "C95"
  ]
 },
 {
  "file": "Retune_Model",
  "def": "exec",
  "old": "| None => None\n                   | Some _ => on_var_update",
  "new": "| None => Some m\n                   | Some _ => on_var_update",
  "edit": "setting an absent rule ignored silently",
  "breaks": [
   "C95"
  ]
 },
 {
  "file": "Retune_Model",
  "def": "exec",
  "old": "put_trace tr (cast v) (p_imp (m_vars m))",
  "new": "put_trace TX1 (cast v) (p_imp (m_vars m))",
  "edit": "set of any impulse goes to x1",
  "breaks": [
   "C95"
  ]
 },
 {
  "file": "Retune_Model",
  "def": "exec",
  "old": "| SetState f => on_var_update (with_state (m_time m) (f (m_state m)) m)",
  "new": "| SetState f => on_var_update m",
  "edit": "value not stored",
  "breaks": [
   "C95"
  ]
 },
 {
  "file": "Retune_Model",
  "def": "exec",
  "old": "p_tau := put_trace tr (cast v) (p_tau (m_vars m)) |} m)",
  "new": "p_tau := put_trace tr (cast v) (p_tau (m_vars m)) |} m) ",
  "edit": "no change - equivalent program, expected to survive",
  "breaks": []
 },
 {
  "file": "Retune_Model",
  "def": "exec",
  "old": "step (reads m) (m_time m + 1) i (m_state m)",
  "new": "step (reads m) (m_time m) i (m_state m)",
  "edit": "time steps counted from 0",
  "breaks": [
   "C95"
  ]
 },
 {
  "file": "Retune_Model",
  "def": "appliers",
  "old": "obind (applier (at_t f))",
  "new": "obind (applier (at_d f))",
  "edit": "dt applied with the rule of dd",
  "breaks": [
   "C95"
  ]
 },
 {
  "file": "Retune_Model",
  "def": "applier",
  "old": "if applier_ok ps then Some (Some ps) else None",
  "new": "if applier_ok ps || true then Some (Some ps) else None",
  "edit": "unusable rule accepted",
  "breaks": [
   "C95"
  ]
 },
 {
  "file": "Retune_Model",
  "def": "reads",
  "old": "st_dec := o_dec (m_rule m)",
  "new": "st_dec := None",
  "edit": "period ignored",
  "breaks": [
   "C95"
  ]
 },
 {
  "file": "Retune_Model",
  "def": "reads",
  "old": "st_imp := m_imp m; st_tau := m_tau m",
  "new": "st_imp := m_tau m; st_tau := m_imp m",
  "edit": "impulses and taus swapped",
  "breaks": [
   "C95"
  ]
 },
 {
  "file": "Retune_Model",
  "def": "float_traces",
  "old": "f_impulse := get_trace imp tr",
  "new": "f_impulse := get_trace imp TX1",
  "edit": "all traces use the x1 impulse",
  "breaks": [
   "C95"
  ],
  "tightened": [
   "float_settings_are_built"
  ]
 },
 {
  "file": "Retune_Model",
  "def": "float_cfg",
  "old": "fc_decimate := st_dec c",
  "new": "fc_decimate := None",
  "edit": "period not passed on",
  "breaks": [
   "C95"
  ]
 },
 {
  "file": "Retune_Model",
  "def": "float_cfg",
  "old": "fc_epoch := st_epoch c",
  "new": "fc_epoch := 1",
  "edit": "epoch length ignored",
  "breaks": [
   "C95"
  ]
 },
 {
  "file": "Retune_Model",
  "def": "float_traces",
  "old": "if Qeq_bool (get_trace tau tr) 0 then None",
  "new": "if Qeq_bool (get_trace imp tr) 0 then None",
  "edit": "decay decided by the impulse",
  "breaks": [
   "C95"
  ],
  "tightened": [
   "float_settings_are_built"
  ]
 },
 {
  "file": "Retune_Model",
  "def": "fixed_cast",
  "old": "Z.quot (Qnum q) (Zpos (Qden q))",
  "new": "Z.quot (Qnum q) (Zpos (Qden q)) + 1",
  "edit": "cast rounds up",
  "breaks": [
   "C95"
  ]
 },
 {
  "file": "Retune_Model",
  "def": "fixed_trace",
  "old": "np_round ((imp - inject_Z (Qfloor imp)) * 128)",
  "new": "0",
  "edit": "fraction of the impulse dropped",
  "breaks": [
   "C95"
  ]
 },
 {
  "file": "Retune_Model",
  "def": "fixed_cfg",
  "old": "t_epoch := st_epoch c",
  "new": "t_epoch := st_epoch c + 1",
  "edit": "epoch length off by one",
  "breaks": [
   "C95"
  ]
 },
 {
  "file": "Retune_Model",
  "def": "put_target",
  "old": "STag2 => v",
  "new": "STag1 => v",
  "edit": "put to the wrong target",
  "breaks": [
   "C95"
  ]
 },
 {
  "file": "Retune_Model",
  "def": "put_trace",
  "old": "TY2 => v",
  "new": "TY3 => v",
  "edit": "put to the wrong trace",
  "breaks": [
   "C95"
  ]
 },
 {
  "file": "Retune_Model",
  "def": "validate_strings",
  "old": "validate_uk (active_texts (o_text o))",
  "new": "validate_uk (match at_w (o_text o) with Some s => [s] | None => [] end)",
  "edit": "only dw checked for its period",
  "breaks": [
   "C95"
  ]
 },
 {
  "file": "Retune_Model",
  "def": "active_texts",
  "old": "[at_w x; at_d x; at_t x]",
  "new": "[at_w x; at_d x]",
  "edit": "dt not counted as a rule",
  "breaks": [
   "C95"
  ]
 }
]