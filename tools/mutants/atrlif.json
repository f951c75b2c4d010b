[
{
"file": "Atrlif_Model",
"def": "new_cur",
"old": "4096 - (d_i P + 1)",
"new": "4096 - d_i P",
"edit": "ds_offset forgotten",
"breaks": [
"C69"
]
},
{
"file": "Atrlif_Model",
"def": "new_cur",
"old": "(a * 64)",
"new": "a",
"edit": "input not aligned",
"breaks": [
"C69"
]
},
{
"file": "Atrlif_Model",
"def": "new_cur",
"old": "if max_iv <? u then w32 (u - 2 * max_iv) else u",
"new": "u",
"edit": "no wrap-around",
"breaks": [
"C69"
]
},
{
"file": "Atrlif_Model",
"def": "new_cur",
"old": "w32 (u + 2 * max_iv) else w",
"new": "w32 (u + max_iv) else w",
"edit": "wrap by half",
"breaks": [
"C69"
]
},
{
"file": "Atrlif_Model",
"def": "new_vol",
"old": "4096 - d_v P",
"new": "4096 - d_i P",
"edit": "decay constant swapped",
"breaks": [
"C69"
]
},
{
"file": "Atrlif_Model",
"def": "new_vol",
"old": "+ x + effective_bias P",
"new": "+ effective_bias P",
"edit": "current not added",
"breaks": [
"C69"
]
},
{
"file": "Atrlif_Model",
"def": "new_vol",
"old": "clip (- max_iv + 1) (max_iv - 1) (w32",
"new": "clip (- max_iv + 1) max_iv (w32",
"edit": "upper limit",
"breaks": [
"C69"
]
},
{
"file": "Atrlif_Model",
"def": "effective_bias",
"old": "else Z.shiftr (bias_mant P) (- bias_exp P)",
"new": "else bias_mant P",
"edit": "negative exponent ignored",
"breaks": [
"C69"
]
},
{
"file": "Atrlif_Model",
"def": "new_theta",
"old": "+ th0 P)",
"new": "+ 0)",
"edit": "decays to zero",
"breaks": [
"C69"
]
},
{
"file": "Atrlif_Model",
"def": "new_theta",
"old": "4096 - d_th P",
"new": "4096 - d_r P",
"edit": "decay constant swapped",
"breaks": [
"C69"
]
},
{
"file": "Atrlif_Model",
"def": "new_refr",
"old": "4096 - d_r P",
"new": "4096 - d_th P",
"edit": "decay constant swapped",
"breaks": [
"C69"
]
},
{
"file": "Atrlif_Model",
"def": "step",
"old": "let spike := th <=? w32 (y - r) in",
"new": "let spike := th <? w32 (y - r) in",
"edit": "strict threshold",
"breaks": [
"C69"
]
},
{
"file": "Atrlif_Model",
"def": "step",
"old": "let spike := th <=? w32 (y - r) in",
"new": "let spike := th <=? y in",
"edit": "refractoriness ignored",
"breaks": [
"C69"
]
},
{
"file": "Atrlif_Model",
"def": "step",
"old": "let spike := th <=? w32 (y - r) in",
"new": "let spike := t <=? w32 (y - r) in",
"edit": "threshold before its decay",
"breaks": [
"C69"
]
},
{
"file": "Atrlif_Model",
"def": "step",
"old": "w32 (2 * th)",
"new": "th",
"edit": "refractoriness grows by theta",
"breaks": [
"C69"
]
},
{
"file": "Atrlif_Model",
"def": "step",
"old": "w32 (th + th_step P)",
"new": "th_step P",
"edit": "threshold set to the step",
"breaks": [
"C69"
]
},
{
"file": "Atrlif_Model",
"def": "step",
"old": "scaled := true",
"new": "scaled := false",
"edit": "threshold scaled at every step",
"breaks": [
"C69"
]
},
{
"file": "Atrlif_Model",
"def": "shr12",
"old": "sgn_shift x 12",
"new": "Z.shiftr x 12",
"edit": "rounds down",
"breaks": [
"C69"
]
}
]