[
{
"file": "Learning_Model",
"def": "within_epoch",
"old": "if t mod t_epoch =? 0 then t_epoch else t mod t_epoch",
"new": "t mod t_epoch",
"edit": "dropped the case 0 -> t_epoch of the within-epoch step",
"breaks": [
"C48"
]
},
{
"file": "Learning_Model",
"def": "lrn_guard",
"old": "Definition lrn_guard (t_epoch t : Z) : bool := t mod t_epoch =? 0.",
"new": "Definition lrn_guard (t_epoch t : Z) : bool := t mod t_epoch =? 1.",
"edit": "learning at the first instead of the last step of an epoch",
"breaks": [
"C48",
"C62"
]
},
{
"file": "Learning_Model",
"def": "learn_phase",
"old": "{| tx := fun _ => 0; x1 := x_hist c i s TX1 e;",
"new": "{| tx := tx s; x1 := x_hist c i s TX1 e;",
"edit": "pre-spike times not cleared after learning",
"breaks": [
"C48",
"C62"
]
},
{
"file": "Learning_Model",
"def": "learn_phase",
"old": "ty := fun _ => 0; y1 := y_hist c i s TY1 e;",
"new": "ty := ty s; y1 := y_hist c i s TY1 e;",
"edit": "post-spike times not cleared after learning",
"breaks": [
"C48",
"C62"
]
},
{
"file": "Learning_Model",
"def": "add_impulse",
"old": "clip 0 127 (round_up (r <? imp_frac c) (v + imp_int c))",
"new": "clip 0 128 (round_up (r <? imp_frac c) (v + imp_int c))",
"edit": "trace clipped to 128",
"breaks": [
"C49"
]
},
{
"file": "Learning_Model",
"def": "add_impulse",
"old": "clip 0 127 (round_up (r <? imp_frac c) (v + imp_int c))",
"new": "round_up (r <? imp_frac c) (v + imp_int c)",
"edit": "no clipping of traces",
"breaks": [
"C49"
]
},
{
"file": "Learning_Model",
"def": "add_impulse",
"old": "clip 0 127 (round_up (r <? imp_frac c) (v + imp_int c))",
"new": "clip 0 127 (round_up (r <? imp_frac c) v)",
"edit": "integer part of impulse dropped",
"breaks": [
"C49"
]
},
{
"file": "Learning_Model",
"def": "decay_trace",
"old": "round_up (qlt r (qfrac (f v))) (Qfloor (f v))",
"new": "round_up (qlt (qfrac (f v)) r) (Qfloor (f v))",
"edit": "comparison of the random number reversed in decay",
"breaks": [
"C49"
]
},
{
"file": "Learning_Model",
"def": "saturate_acc",
"old": "Excitatory => Z.max 0 v | Inhibitory => Z.min 0 v",
"new": "Excitatory => v | Inhibitory => v",
"edit": "no sign saturation of the accumulator (the final clip still saturates) - equivalent program, expected to survive",
"breaks": []
},
{
"file": "Learning_Model",
"def": "saturate",
"old": "| SWeights => clip_weight m 8 false v",
"new": "| SWeights => v",
"edit": "weights not clipped after learning",
"breaks": [
"C47"
]
},
{
"file": "Learning_Model",
"def": "saturate",
"old": "| SWeights => clip_weight m 8 false v",
"new": "| SWeights => clip_weight Mixed 8 false v",
"edit": "weights clipped as mixed",
"breaks": [
"C47"
]
},
{
"file": "Learning_Model",
"def": "saturate",
"old": "| STag2 => clip 0 (2 ^ 8 - 1) v",
"new": "| STag2 => clip 0 (2 ^ 8) v",
"edit": "tag_2 upper bound off by one",
"breaks": [
"C47"
]
},
{
"file": "Learning_Model",
"def": "saturate",
"old": "| STag1 => clip (- 2 ^ 8 - 1) (2 ^ 8 - 1) v",
"new": "| STag1 => clip (- 2 ^ 8) (2 ^ 8) v",
"edit": "tag_1 bounds shifted",
"breaks": [
"C47"
]
},
{
"file": "Learning_Model",
"def": "round_syn",
"old": "round_up (qlt r ((v mod 128) # 128)) (v / 128) * 128",
"new": "round_up (qlt ((v mod 128) # 128) r) (v / 128) * 128",
"edit": "comparison of the random number reversed",
"breaks": [
"C62",
"C63"
]
},
{
"file": "Learning_Model",
"def": "learn",
"old": "(apply_rule a ps (Z.shiftl v 7))",
"new": "(apply_rule a ps (Z.shiftl v 8))",
"edit": "wrong accumulator shift",
"breaks": [
"C62"
]
},
{
"file": "Learning_Model",
"def": "mac",
"old": "(w32 (1 * dep_value a (p_dep p)))",
"new": "1",
"edit": "dependency not multiplied in",
"breaks": [
"C61",
"C62"
]
},
{
"file": "Learning_Model",
"def": "mac",
"old": "w32 (m * p_mant p)",
"new": "m",
"edit": "mantissa dropped",
"breaks": [
"C61"
]
},
{
"file": "Learning_Model",
"def": "compute_factor",
"old": "| VTrace tr => a_trace a tr d + c",
"new": "| VTrace tr => a_trace a tr d",
"edit": "constant of trace factor dropped",
"breaks": [
"C61"
],
"tightened": [
"product_exact_partial: factor values now specified independently (factor_meaning)"
]
},
{
"file": "Learning_Model",
"def": "width_sum",
"old": "(p_factors p) + 4.",
"new": "(p_factors p).",
"edit": "mantissa width not counted",
"breaks": [
"C61"
]
},
{
"file": "Learning_Model",
"def": "product_value",
"old": "clip_acc (np_shl (Z.shiftr (mac a p) (Z.max 0 (width_sum p - 15))) (p_exp p))",
"new": "clip_acc (Z.shiftr (np_shl (mac a p) (p_exp p)) (Z.max 0 (width_sum p - 15)))",
"edit": "shifts swapped",
"breaks": [
"C61"
]
},
{
"file": "Learning_Model",
"def": "apply_rule",
"old": "fold_left (fun acc p => clip_acc (acc + product_value a p)) ps acc0",
"new": "match ps with [] => acc0 | p :: _ => clip_acc (acc0 + product_value a p) end",
"edit": "only the first product is applied",
"breaks": [
"C61"
],
"tightened": [
"rule_adds_products_partial (new)",
"rule_accumulator_bounds (new)"
]
},
{
"file": "Learning_Model",
"def": "apply_rule",
"old": "fold_left (fun acc p => clip_acc (acc + product_value a p)) ps acc0",
"new": "fold_left (fun acc p => acc + product_value a p) ps acc0",
"edit": "accumulator not saturated",
"breaks": [
"C61"
],
"tightened": [
"rule_adds_products_partial (new)",
"rule_accumulator_bounds (new)"
]
},
{
"file": "Learning_Model",
"def": "u_value",
"old": "if (t / t_epoch c) mod 2 ^ k =? 0 then 1 else 0",
"new": "if t mod 2 ^ k =? 0 then 1 else 0",
"edit": "decimation counts time steps instead of epochs",
"breaks": [
"C48",
"C62"
]
},
{
"file": "Learning_Model",
"def": "evaluated",
"old": "| DY0 => Z.to_nat (ty s post) | DU => Z.to_nat (t_epoch c) end",
"new": "| DY0 => Z.to_nat (tx s pre) | DU => Z.to_nat (t_epoch c) end",
"edit": "y0-gated products see traces at the pre spike time",
"breaks": [
"C64"
],
"tightened": [
"rule_sees_traces_at_events (new)"
]
},
{
"file": "Learning_Model",
"def": "history_step",
"old": "if spike_t =? t then add_impulse c ri d else d",
"new": "d",
"edit": "impulse of the recorded spike dropped in the history",
"breaks": [
"C64"
]
},
{
"file": "Learning_Model",
"def": "pre_spike",
"old": "UseRegularImpulse => if multi then add_impulse c1 0 x1 else x1",
"new": "UseRegularImpulse => if spiked then add_impulse c1 0 x1 else x1",
"edit": "first spike of the epoch counted twice",
"breaks": [
"C64"
],
"tightened": [
"trace_dynamics_single_spike_partial (new)"
]
},
{
"file": "Learning_Model",
"def": "pre_spike",
"old": "(if upd_t then ts else tx, x1'",
"new": "(if upd_t then (if 0 <? tx then tx else ts) else tx, x1'",
"edit": "first instead of last spike time recorded",
"breaks": [
"C48"
]
},
{
"file": "Learning_Model",
"def": "post_spike",
"old": "(if s then ts else ty,",
"new": "(if multi then ts else ty,",
"edit": "first post spike of an epoch not recorded",
"breaks": [
"C48"
]
},
{
"file": "Learning_Model",
"def": "learned",
"old": "learn (cfg_sign c) (r_syn i) (applier_args c t i s post pre old) ps v (old v)",
"new": "learn (cfg_sign c) (r_syn i) (applier_args c t i s pre post old) ps v (old v)",
"edit": "pre and post index swapped",
"breaks": [
"C48",
"C62"
]
},
{
"file": "Learning_Model",
"def": "post_spike",
"old": "let multi := (0 <? ty) && s in",
"new": "let multi := s in",
"edit": "first post spike counted twice",
"breaks": [
"C64"
]
},
{
"file": "Learning_Model",
"def": "history_step",
"old": "Some f => decay_trace f rd v | None => 0 end",
"new": "Some f => decay_trace f rd v | None => v end",
"edit": "tau = 0 keeps the trace",
"breaks": [
"C64"
]
},
{
"file": "Learning_Model",
"def": "x_hist",
"old": "history (cfg_trace c tr) (r_xd i) (r_xi i) (tx s n) (match tr with TX2 => x2 s n | _ => x1 s n end) t",
"new": "history (cfg_trace c tr) (r_xd i) (r_xi i) (tx s n) (x1 s n) t",
"edit": "x2 restarted from x1",
"breaks": [
"C64"
]
},
{
"file": "Learning_Model",
"def": "learn_phase",
"old": "y2 := y_hist c i s TY2 e; y3 := y_hist c i s TY3 e;",
"new": "y2 := y_hist c i s TY3 e; y3 := y_hist c i s TY2 e;",
"edit": "y2 and y3 swapped",
"breaks": [
"C64"
]
},
{
"file": "Learning_Model",
"def": "clip_factor",
"old": "clip (- 2 ^ factor_width v) (2 ^ factor_width v - 1) x",
"new": "x",
"edit": "factors not saturated to their width",
"breaks": [
"C61"
]
},
{
"file": "Learning_Model",
"def": "compute_factor",
"old": "if f_sgn f then Z.sgn (a_syn a s + c) else a_syn a s + c",
"new": "if f_sgn f then Z.sgn (a_syn a s) + c else a_syn a s + c",
"edit": "constant added after sgn()",
"breaks": [
"C61"
]
},
{
"file": "Learning_Model",
"def": "applier_args",
"old": "a_x0 := if 0 <? tx s pre then 1 else 0;",
"new": "a_x0 := if 1 <? tx s pre then 1 else 0;",
"edit": "spikes in the first step of an epoch ignored",
"breaks": [
"C62"
],
"tightened": [
"dependency_iff_event (new)"
]
},
{
"file": "Learning_Model",
"def": "pre_spike",
"old": "| AddWithSaturation => clip 0 127 sums",
"new": "| AddWithSaturation => sums",
"edit": "no saturation of graded spikes",
"breaks": [
"C49"
]
}
]