[
{
"file": "Sdn_Model",
"def": "delta_dynamics",
"old": "let d := x - act s + residue s in",
"new": "let d := x - act s in",
"edit": "residue not added",
"breaks": [
"C35",
"C58"
]
},
{
"file": "Sdn_Model",
"def": "delta_dynamics",
"old": "({| act := x; residue := d - out; error := error s |}, out)",
"new": "({| act := x; residue := 0; error := error s |}, out)",
"edit": "residue not kept",
"breaks": [
"C35",
"C58"
]
},
{
"file": "Sdn_Model",
"def": "delta_dynamics",
"old": "let out := if vth <=? Z.abs d then d else 0 in",
"new": "let out := if vth <=? d then d else 0 in",
"edit": "negative changes are not sent",
"breaks": [
"C35",
"C58"
]
},
{
"file": "Sdn_Model",
"def": "delta_dynamics",
"old": "let out := if vth <=? Z.abs d then d else 0 in",
"new": "let out := if vth <? Z.abs d then d else 0 in",
"edit": "strict threshold",
"breaks": [
"C35",
"C58"
]
},
{
"file": "Sdn_Model",
"def": "delta_dynamics",
"old": "let out := if vth <=? Z.abs e then d else 0 in",
"new": "let out := if vth <=? Z.abs e then e else 0 in",
"edit": "accumulated error is sent",
"breaks": [
"C35"
]
},
{
"file": "Sdn_Model",
"def": "delta_dynamics",
"old": "e * (1 - if 0 <? Z.abs out then 1 else 0)",
"new": "e",
"edit": "error not cleared on output",
"breaks": [
"C35"
]
},
{
"file": "Sdn_Model",
"def": "delta_step",
"old": "(Z.shiftl a (spike_exp + state_exp))",
"new": "(Z.shiftl a spike_exp)",
"edit": "input not scaled by the state exponent",
"breaks": [
"C35"
]
},
{
"file": "Sdn_Model",
"def": "delta_step",
"old": "Z.shiftr o state_exp",
"new": "o",
"edit": "output not scaled down",
"breaks": [
"C35"
]
},
{
"file": "Sdn_Model",
"def": "sigma_step",
"old": "o + g",
"new": "o",
"edit": "sigma forgets",
"breaks": [
"C35",
"C58"
]
},
{
"file": "Sdn_Model",
"def": "activation",
"old": "Relu => Z.max x 0",
"new": "Relu => Z.min x 0",
"edit": "relu inverted",
"breaks": [
"C58"
],
"tightened": [
"sigma_delta_fixed_tracks_inputs_partial",
"sigma_delta_corrected_tracks_inputs"
]
},
{
"file": "Sdn_Model",
"def": "activation",
"old": "g + bias * 2 ^ (se + st)",
"new": "g + bias",
"edit": "bias not scaled",
"breaks": [
"C58"
]
},
{
"file": "Sdn_Model",
"def": "sdc_step",
"old": "snd q + Z.shiftl o st",
"new": "x",
"edit": "corrected model stores the exact activation",
"breaks": [
"C58"
]
},
{
"file": "Sdn_Model",
"def": "sdc_step",
"old": "let d := x - snd q in",
"new": "let d := x in",
"edit": "corrected model sends the activation itself",
"breaks": [
"C58"
]
},
{
"file": "Sdn_Model",
"def": "sd_step",
"old": "((g, s'), Z.shiftr o st)",
"new": "((fst q, s'), Z.shiftr o st)",
"edit": "sigma not stored",
"breaks": [
"C58"
]
},
{
"file": "Sdn_Model",
"def": "encode_delta",
"old": "let d := x - fst s + snd s in",
"new": "let d := x - fst s in",
"edit": "residue not added",
"breaks": [
"C36"
]
},
{
"file": "Sdn_Model",
"def": "encode_delta",
"old": "((x, d - o), o)",
"new": "((fst s, d - o), o)",
"edit": "act not updated",
"breaks": [
"C36"
]
},
{
"file": "Sdn_Model",
"def": "encode_delta",
"old": "((x, d - o), o)",
"new": "((x, d), o)",
"edit": "residue keeps what was sent",
"breaks": [
"C36"
]
},
{
"file": "Sdn_Model",
"def": "encode_delta",
"old": "clip (a_min bits se) (a_max bits se) o",
"new": "o",
"edit": "not clipped",
"breaks": [
"C36"
]
},
{
"file": "Sdn_Model",
"def": "a_max",
"old": "(2 ^ (n - 1) - 1)",
"new": "(2 ^ n - 1)",
"edit": "a_max one bit too large",
"breaks": [
"C36"
]
},
{
"file": "Sdn_Model",
"def": "enc_step",
"old": "(fst q) (Z.shiftl a se), snd q)",
"new": "(fst q) (Z.shiftl a se), snd (encode_delta (vth * 2 ^ se) bits se (fst q) (Z.shiftl a se)))",
"edit": "output not delayed",
"breaks": [
"C36"
]
},
{
"file": "Sdn_Model",
"def": "enc_step",
"old": "(Z.shiftl a se), snd q)",
"new": "a, snd q)",
"edit": "input not scaled",
"breaks": [
"C36"
]
}
]