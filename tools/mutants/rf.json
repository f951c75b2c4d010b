[
{
"file": "Rf_Model",
"def": "scale_volt",
"old": "sgn_shift x (decay_bits P)",
"new": "Z.shiftr x (decay_bits P - 1)",
"edit": "decay bits off by one",
"breaks": [
"C66"
]
},
{
"file": "Rf_Model",
"def": "dynamics",
"old": "scale_volt P (c_dec P * fst z) - scale_volt P (s_dec P * snd z)",
"new": "scale_volt P (c_dec P * fst z) + scale_volt P (s_dec P * snd z)",
"edit": "sign of the rotation",
"breaks": [
"C66"
]
},
{
"file": "Rf_Model",
"def": "dynamics",
"old": "scale_volt P (s_dec P * fst z) + scale_volt P (c_dec P * snd z)",
"new": "scale_volt P (s_dec P * snd z) + scale_volt P (c_dec P * fst z)",
"edit": "real and imaginary swapped",
"breaks": [
"C66"
]
},
{
"file": "Rf_Model",
"def": "dynamics",
"old": "shifted P b in",
"new": "shifted P a in",
"edit": "imaginary part gets the real input",
"breaks": [
"C66"
]
},
{
"file": "Rf_Model",
"def": "shifted",
"old": "w32 (a * 2 ^ state_exp P)",
"new": "w32 a",
"edit": "input not shifted",
"breaks": [
"C66"
]
},
{
"file": "Rf_Model",
"def": "dynamics",
"old": "(clip (- lim) lim re, clip (- lim) lim im)",
"new": "(clip (- lim) lim re, im)",
"edit": "imaginary part not clipped",
"breaks": [
"C66"
]
},
{
"file": "Rf_Model",
"def": "lim",
"old": "8388607",
"new": "16777215",
"edit": "25 bit limit",
"breaks": [
"C66"
]
},
{
"file": "Rf_Model",
"def": "rf_step",
"old": "(vth P <=? fst z')",
"new": "(vth P <? fst z')",
"edit": "strict threshold",
"breaks": [
"C66"
]
},
{
"file": "Rf_Model",
"def": "rf_step",
"old": "&& (0 <=? snd z') && (snd z <? 0)",
"new": "&& (0 <=? snd z')",
"edit": "no zero crossing needed",
"breaks": [
"C66"
]
},
{
"file": "Rf_Model",
"def": "rf_step",
"old": "&& (snd z <? 0)",
"new": "&& (snd z <=? 0)",
"edit": "zero counts as negative",
"breaks": [
"C66"
]
},
{
"file": "Rf_Model",
"def": "rf_step",
"old": "&& (0 <=? snd z')",
"new": "&& (0 <? snd z')",
"edit": "strict crossing",
"breaks": [
"C66"
]
},
{
"file": "Rf_Model",
"def": "iz_step",
"old": "let spike := vth P <=? snd z' in",
"new": "let spike := vth P <=? fst z' in",
"edit": "real part compared",
"breaks": [
"C67"
]
},
{
"file": "Rf_Model",
"def": "iz_step",
"old": "let spike := vth P <=? snd z' in",
"new": "let spike := vth P <? snd z' in",
"edit": "strict threshold",
"breaks": [
"C67"
]
},
{
"file": "Rf_Model",
"def": "iz_step",
"old": "s * (vth P - 1) + (1 - s) * snd z'",
"new": "s * vth P + (1 - s) * snd z'",
"edit": "reset to vth",
"breaks": [
"C67"
]
},
{
"file": "Rf_Model",
"def": "iz_step",
"old": "(fst z' * (1 - s),",
"new": "(fst z',",
"edit": "real part not reset",
"breaks": [
"C67"
]
},
{
"file": "Rf_Model",
"def": "zero_step",
"old": "z32 u (lct P) - z32 v (lst P)",
"new": "z32 u (lct P) + z32 v (lst P)",
"edit": "sign of the rotation",
"breaks": [
"C68"
]
},
{
"file": "Rf_Model",
"def": "zero_step",
"old": "z32 v (lct P) + z32 u (lst P)",
"new": "z32 v (lst P) + z32 u (lct P)",
"edit": "constants swapped",
"breaks": [
"C68"
]
},
{
"file": "Rf_Model",
"def": "zero_step",
"old": "(if v <? 0 then 1 else 0)",
"new": "(if nv <? 0 then 1 else 0)",
"edit": "new v compared",
"breaks": [
"C68"
]
},
{
"file": "Rf_Model",
"def": "zero_step",
"old": "(if uth P <? nu then 1 else 0)",
"new": "(if uth P <=? nu then 1 else 0)",
"edit": "non-strict threshold",
"breaks": [
"C68"
]
},
{
"file": "Rf_Model",
"def": "z32",
"old": "w32 (x * y) / 32768",
"new": "w32 (x * y) / 65536",
"edit": "scale",
"breaks": [
"C68"
]
},
{
"file": "Rf_Model",
"def": "frf_step",
"old": "&& lt (snd z) zero",
"new": "&& lt (fst z) zero",
"edit": "real part tested for the crossing",
"breaks": [
"C66"
]
}
]