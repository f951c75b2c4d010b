[
{
"file": "Lif_Model",
"def": "effective_bias",
"old": "if 0 <=? bias_exp P then w32 (bias_mant P * 2 ^ bias_exp P)",
"new": "if 0 <=? bias_exp P then w32 (bias_mant P * bias_exp P)",
"edit": "bias times exponent",
"breaks": [
"C32"
]
},
{
"file": "Lif_Model",
"def": "effective_bias",
"old": "else Z.shiftr (bias_mant P) (- bias_exp P)",
"new": "else bias_mant P",
"edit": "negative bias exponent ignored",
"breaks": [
"C32"
],
"tightened": [
"lif_voltage_exact",
"lif_spike_iff_partial"
]
},
{
"file": "Lif_Model",
"def": "decayed",
"old": "(x * (4096 - c)) 12",
"new": "(x * (4096 - c)) 11",
"edit": "decay shifted by 11",
"breaks": [
"C32",
"C33"
]
},
{
"file": "Lif_Model",
"def": "decayed",
"old": "w32 (sgn_shift (x * (4096 - c)) 12)",
"new": "w32 (Z.shiftr (x * (4096 - c)) 12)",
"edit": "decay rounds down instead of towards zero",
"breaks": [
"C32",
"C33"
]
},
{
"file": "Lif_Model",
"def": "aligned",
"old": "wrap (adt P) (a * 64)",
"new": "wrap (adt P) (a * 32)",
"edit": "activation shifted by 5",
"breaks": [
"C32"
]
},
{
"file": "Lif_Model",
"def": "current",
"old": "(du P + 1)",
"new": "(du P)",
"edit": "ds_offset dropped",
"breaks": [
"C32"
]
},
{
"file": "Lif_Model",
"def": "current",
"old": "if max_uv <? d then w32 (d - 2 * max_uv) else d",
"new": "if max_uv <? d then w32 (d - max_uv) else d",
"edit": "wrap of the current by half the range",
"breaks": [
"C32"
]
},
{
"file": "Lif_Model",
"def": "current",
"old": "if max_uv <? d then",
"new": "if 2 * max_uv <? d then",
"edit": "wrap of the current too late",
"breaks": [
"C32"
]
},
{
"file": "Lif_Model",
"def": "current",
"old": "if w <=? - max_uv then w32 (d + 2 * max_uv) else w",
"new": "w",
"edit": "no wrap at the lower bound",
"breaks": [
"C32"
]
},
{
"file": "Lif_Model",
"def": "voltage",
"old": "clip (- max_uv + 1) (max_uv - 1) (w32 (decayed y (dv P) + x + effective_bias P))",
"new": "w32 (decayed y (dv P) + x + effective_bias P)",
"edit": "voltage not clipped",
"breaks": [
"C32"
]
},
{
"file": "Lif_Model",
"def": "voltage",
"old": "decayed y (dv P) + x + effective_bias P",
"new": "decayed y (dv P) + x",
"edit": "bias forgotten",
"breaks": [
"C32"
]
},
{
"file": "Lif_Model",
"def": "voltage",
"old": "decayed y (dv P)",
"new": "decayed y (dv P + 1)",
"edit": "dm_offset 1",
"breaks": [
"C32",
"C33"
]
},
{
"file": "Lif_Model",
"def": "threshold",
"old": "vth s * 64",
"new": "vth s * 32",
"edit": "threshold scaled by 32",
"breaks": [
"C33"
]
},
{
"file": "Lif_Model",
"def": "run_spk",
"old": "let spike := t <? y in",
"new": "let spike := t <=? y in",
"edit": "spikes at the threshold",
"breaks": [
"C33"
]
},
{
"file": "Lif_Model",
"def": "run_spk",
"old": "v := if spike then 0 else y; vth",
"new": "v := y; vth",
"edit": "no reset after a spike",
"breaks": [
"C33"
]
},
{
"file": "Lif_Model",
"def": "run_spk",
"old": "{| u := x; v := if spike",
"new": "{| u := if spike then 0 else x; v := if spike",
"edit": "current reset after a spike",
"breaks": [
"C33"
]
},
{
"file": "Lif_Model",
"def": "run_spk",
"old": "eff := Some t |}, spike)",
"new": "eff := eff s |}, spike)",
"edit": "threshold recomputed every step",
"breaks": [
"C33"
]
},
{
"file": "Lif_Model",
"def": "run_spk_reset",
"old": "t mod interval =? offset mod interval",
"new": "(t - 1) mod interval =? offset mod interval",
"edit": "reset one step late",
"breaks": [
"C57"
]
},
{
"file": "Lif_Model",
"def": "run_spk_reset",
"old": "then {| u := 0; v := 0;",
"new": "then {| u := u s; v := 0;",
"edit": "current not reset",
"breaks": [
"C57"
]
},
{
"file": "Lif_Model",
"def": "tern_spike",
"old": "if y <? lo * 64 then",
"new": "if y <=? lo * 64 then",
"edit": "ternary lower threshold inclusive",
"breaks": [
"C56"
]
},
{
"file": "Lif_Model",
"def": "tern_spike",
"old": "(-1) * (if y <? lo * 64 then 1 else 0) +",
"new": "(if y <? lo * 64 then 1 else 0) +",
"edit": "negative spike has positive sign",
"breaks": [
"C56"
]
},
{
"file": "Lif_Model",
"def": "tern_step",
"old": "if negb (o =? 0) then 0 else y",
"new": "if 0 <? o then 0 else y",
"edit": "no reset after a negative spike",
"breaks": [
"C56"
]
},
{
"file": "Lif_Model",
"def": "refr_step",
"old": "if rend s <? t then",
"new": "if rend s <=? t then",
"edit": "refractory period one step short",
"breaks": [
"C34"
]
},
{
"file": "Lif_Model",
"def": "refr_step",
"old": "rend := if spike then t + period P else rend s",
"new": "rend := if spike then period P else rend s",
"edit": "refractory end not relative to now",
"breaks": [
"C34"
]
},
{
"file": "Lif_Model",
"def": "refr_step",
"old": "fv := if spike then zero else y;",
"new": "fv := y;",
"edit": "no reset of a refractory neuron",
"breaks": [
"C34"
]
},
{
"file": "Lif_Model",
"def": "refr_step",
"old": "let x := add (mul (fu s) (sub one (fdu P))) a in",
"new": "let x := if rend s <? t then add (mul (fu s) (sub one (fdu P))) a else fu s in",
"edit": "current frozen during refractory period",
"breaks": [
"C34"
]
}
]