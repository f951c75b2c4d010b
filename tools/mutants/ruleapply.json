[
{
"file": "Rule_Model",
"def": "gen_product",
"old": "rp_exp := e + 7;",
"new": "rp_exp := e + 6;",
"edit": "exponent offset W_... 6 instead of 7",
"breaks": [
"C78"
]
},
{
"file": "Learning_Model",
"def": "width_sum",
"old": "(p_factors p) + 4.",
"new": "(p_factors p) + 5.",
"edit": "mantissa counted with 5 bits",
"breaks": [
"C78"
]
},
{
"file": "Learning_Model",
"def": "learn",
"old": "(apply_rule a ps (Z.shiftl v 7))",
"new": "(apply_rule a ps (Z.shiftl v 6))",
"edit": "accumulator initialised with the value shifted by 6",
"breaks": [
"C78"
]
},
{
"file": "Learning_Model",
"def": "saturate_acc",
"old": "Excitatory => Z.max 0 v | Inhibitory => Z.min 0 v end",
"new": "Excitatory => Z.min 0 v | Inhibitory => Z.max 0 v end",
"edit": "sign modes swapped in the accumulator",
"breaks": [
"C78"
]
},
{
"file": "Learning_Model",
"def": "round_syn",
"old": "round_up (qlt r ((v mod 128)",
"new": "round_up (qlt (1 - r) ((v mod 128)",
"edit": "rounding inverted",
"breaks": [
"C78"
]
},
{
"file": "Learning_Model",
"def": "compute_factor",
"old": "| VTrace tr => a_trace a tr d + c",
"new": "| VTrace tr => a_trace a tr DX0 + c",
"edit": "traces always evaluated at the pre-synaptic spike",
"breaks": [
"C78"
]
},
{
"file": "Learning_Model",
"def": "compute_factor",
"old": "Z.sgn (a_syn a s + c) else",
"new": "Z.sgn (a_syn a s) + c else",
"edit": "constant added after sgn",
"breaks": [
"C78"
]
},
{
"file": "Learning_Model",
"def": "mac",
"old": "w32 (m * p_mant p).",
"new": "w32 m.",
"edit": "mantissa not applied",
"breaks": [
"C78"
]
},
{
"file": "Learning_Model",
"def": "learned",
"old": "(applier_args c t i s post pre old) ps v (old v)",
"new": "(applier_args c t i s pre post old) ps v (old v)",
"edit": "pre and post swapped",
"breaks": [
"C78"
]
},
{
"file": "Learning_Model",
"def": "u_value",
"old": "mod 2 ^ k =? 0 then 1 else 0",
"new": "mod k =? 0 then 1 else 0",
"edit": "period k instead of 2^k",
"breaks": [
"C78"
]
}
]