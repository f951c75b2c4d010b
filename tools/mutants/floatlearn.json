[
{
"file": "FloatLearn_Model",
"def": "frow",
"old": "if ts =? t then nadd d (Some (f_impulse c)) else d",
"new": "if ts =? t then nmul d (Some (f_impulse c)) else d",
"edit": "impulse multiplied",
"breaks": [
"C83"
]
},
{
"file": "FloatLearn_Model",
"def": "frow",
"old": "if ts =? t then nadd",
"new": "if ts <=? t then nadd",
"edit": "impulse added at every step after the spike",
"breaks": [
"C83"
]
},
{
"file": "FloatLearn_Model",
"def": "frow",
"old": "| None => None end in\n  if ts",
"new": "| None => v end in\n  if ts",
"edit": "traces with tau 0 keep their value",
"breaks": [
"C83"
]
},
{
"file": "FloatLearn_Model",
"def": "fevaluated",
"old": "match d with DX0 => f_tx s pre | DY0 => f_ty s post",
"new": "match d with DX0 => f_ty s post | DY0 => f_tx s pre",
"edit": "spike times swapped",
"breaks": [
"C83"
]
},
{
"file": "FloatLearn_Model",
"def": "fevaluated",
"old": "| DU => fc_epoch c end",
"new": "| DU => 0 end",
"edit": "u sees the traces of the start of the epoch",
"breaks": [
"C83"
]
},
{
"file": "FloatLearn_Model",
"def": "fu",
"old": "(t / fc_epoch c) mod 2 ^ k",
"new": "t mod 2 ^ k",
"edit": "decimation counts steps",
"breaks": [
"C83"
]
},
{
"file": "FloatLearn_Model",
"def": "fu",
"old": "| None => 0\n",
"new": "| None => 1\n",
"edit": "u is 1 if no rule has a period",
"breaks": [
"C83"
],
"tightened": [
"float_spaced_period_lost (added)"
]
},
{
"file": "FloatLearn_Model",
"def": "fapplier_args",
"old": "DX0 => if 0 <? f_tx s pre",
"new": "DX0 => if 1 <? f_tx s pre",
"edit": "spikes in the first step of the epoch do not count",
"breaks": [
"C83"
]
},
{
"file": "FloatLearn_Model",
"def": "ffactor",
"old": "if rf_sgn f then nmap qsign x else x",
"new": "x",
"edit": "sgn dropped",
"breaks": [
"C83"
]
},
{
"file": "FloatLearn_Model",
"def": "ffactor",
"old": "Some q => nadd x (Some q)",
"new": "Some q => nadd x (Some (- q)%Q)",
"edit": "constant with the wrong sign",
"breaks": [
"C83"
]
},
{
"file": "FloatLearn_Model",
"def": "fproduct",
"old": "Qpower 2 (rp_exp p - 7)",
"new": "Qpower 2 (rp_exp p)",
"edit": "exponent offset forgotten",
"breaks": [
"C83"
]
},
{
"file": "FloatLearn_Model",
"def": "fseries",
"old": "nadd v (fproduct a p)",
"new": "nadd (fproduct a p) (Some 0%Q)",
"edit": "only the last product counts",
"breaks": [
"C83"
]
},
{
"file": "FloatLearn_Model",
"def": "fsaturate",
"old": "Excitatory => nmap (Qmax 0) v | Inhibitory => nmap (Qmin 0) v",
"new": "Excitatory => nmap (Qmin 0) v | Inhibitory => nmap (Qmax 0) v",
"edit": "signs swapped",
"breaks": [
"C83"
]
},
{
"file": "FloatLearn_Model",
"def": "fsaturate",
"old": "| STag2 => nmap (Qmax 0) v",
"new": "| STag2 => v",
"edit": "delays may be negative",
"breaks": [
"C83"
]
},
{
"file": "FloatLearn_Model",
"def": "flearned",
"old": "fsaturate (fc_sign c) y (nadd (f_syn s y post pre) (fseries",
"new": "fsaturate (fc_sign c) y (nadd (Some 0%Q) (fseries",
"edit": "old value dropped",
"breaks": [
"C83"
]
},
{
"file": "FloatLearn_Model",
"def": "flearned",
"old": "fapplier_args c t s post pre) ps",
"new": "fapplier_args c t s pre post) ps",
"edit": "post and pre swapped",
"breaks": [
"C83"
]
},
{
"file": "FloatLearn_Model",
"def": "flearn_phase",
"old": "f_tx := fun _ => 0; f_ty := fun _ => 0;\n     f_tr := fun tr n => fhist",
"new": "f_tx := f_tx s; f_ty := fun _ => 0;\n     f_tr := fun tr n => fhist",
"edit": "tx not reset",
"breaks": [
"C83"
]
},
{
"file": "FloatLearn_Model",
"def": "flearn_phase",
"old": "Z.to_nat (fc_epoch c));\n     f_syn",
"new": "Z.to_nat (fc_epoch c - 1));\n     f_syn",
"edit": "trace of the last but one step kept",
"breaks": [
"C83"
]
},
{
"file": "FloatLearn_Model",
"def": "fstep",
"old": "if lrn_guard (fc_epoch c) t then flearn_phase c t s' else s'",
"new": "if lrn_guard (fc_epoch c) (t + 1) then flearn_phase c t s' else s'",
"edit": "learning one step early",
"breaks": [
"C83"
]
},
{
"file": "FloatLearn_Model",
"def": "fspike_phase",
"old": "f_ty := fun n => if f_bap i n then ts else f_ty s n",
"new": "f_ty := fun n => if f_bap i n then ts else 0",
"edit": "ty forgotten at the next step",
"breaks": [
"C83"
]
},
{
"file": "FloatLearn_Model",
"def": "fpre_x1",
"old": "if (0 <? tx) && spiked then nadd v (Some imp) else v\n  | Overwrite",
"new": "if spiked then nadd v (Some imp) else v\n  | Overwrite",
"edit": "impulse for every spike, also the first",
"breaks": [
"C83"
]
},
{
"file": "FloatLearn_Model",
"def": "fpre_x1",
"old": "if spiked then Some (a / 2)%Q else v",
"new": "if spiked then Some a else v",
"edit": "payload not halved",
"breaks": [
"C83"
]
},
{
"file": "FloatLearn_Model",
"def": "fpost_y",
"old": "if (0 <? ty) && s then",
"new": "if (0 <? ty) then",
"edit": "impulse at every step after a post-synaptic spike",
"breaks": [
"C83"
]
},
{
"file": "FloatLearn_Model",
"def": "known_factor",
"old": "VX0 | VY0 => false",
"new": "VX0 => false",
"edit": "y0 accepted as a factor",
"breaks": [
"C83"
]
},
{
"file": "FloatLearn_Model",
"def": "build",
"old": "validate_uk strings, build_rule",
"new": "validate_uk [], build_rule",
"edit": "period of the rules ignored",
"breaks": [
"C83"
]
},
{
"file": "FloatLearn_Model",
"def": "build",
"old": "match y with SWeights => w | STag2 => d | STag1 => t end; fc_decimate",
"new": "match y with SWeights => w | STag2 => t | STag1 => d end; fc_decimate",
"edit": "dd and dt swapped",
"breaks": [
"C83"
]
}
]