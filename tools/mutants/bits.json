[
{
"file": "Bits_Model",
"def": "fits",
"old": "let s := 32 - bits in",
"new": "let s := 31 - bits in",
"edit": "one bit too many accepted",
"breaks": [
"C38"
]
},
{
"file": "Bits_Model",
"def": "fits",
"old": "(Z.shiftr (w32 (Z.shiftl x s)) s) =? x",
"new": "Z.abs x <? 2 ^ (bits - 1)",
"edit": "lowest value rejected",
"breaks": [
"C38"
]
},
{
"file": "Bits_Model",
"def": "check_bit_overflow",
"old": "negb (forallb (fits bits) vs)",
"new": "negb (existsb (fits bits) vs)",
"edit": "overflow only if no value fits",
"breaks": [
"C38"
]
},
{
"file": "Bits_Model",
"def": "bit_check",
"old": "then 1 else o",
"new": "then 1 else 0",
"edit": "overflow flag cleared",
"breaks": [
"C38"
]
},
{
"file": "Bits_Model",
"def": "signed_clamp",
"old": "(x + base / 2) mod base - base / 2",
"new": "(x + base / 2) mod base",
"edit": "not recentred",
"breaks": [
"C42"
]
},
{
"file": "Bits_Model",
"def": "signed_clamp",
"old": "(x + base / 2) mod base - base / 2",
"new": "clip (- (base / 2)) (base / 2 - 1) x",
"edit": "saturates instead of wrapping",
"breaks": [
"C42"
]
},
{
"file": "Bits_Model",
"def": "signed_clamp",
"old": "(x + base / 2) mod base - base / 2",
"new": "(x + base / 2 - 1) mod base - (base / 2 - 1)",
"edit": "range off by one",
"breaks": [
"C42"
]
},
{
"file": "Bits_Model",
"def": "negate",
"old": "Inhibitory => - w",
"new": "Inhibitory => w",
"edit": "inhibitory weights not negated",
"breaks": [
"C39"
]
},
{
"file": "Bits_Model",
"def": "determine_sign_mode",
"old": "if 0 <=? np_min ws then Excitatory",
"new": "if 0 <? np_min ws then Excitatory",
"edit": "zero minimum not excitatory",
"breaks": [
"C59"
]
},
{
"file": "Bits_Model",
"def": "determine_sign_mode",
"old": "else if np_max ws <=? 0 then Inhibitory else Mixed",
"new": "else Inhibitory",
"edit": "mixed never detected",
"breaks": [
"C59"
]
},
{
"file": "Bits_Model",
"def": "truncate",
"old": "let t := max_bits - num_bits + is_mixed m in",
"new": "let t := max_bits - num_bits in",
"edit": "mixed bit forgotten",
"breaks": [
"C39"
]
},
{
"file": "Bits_Model",
"def": "truncate",
"old": "negate m (Z.shiftl (Z.shiftr (negate m w) t) t)",
"new": "Z.shiftl (Z.shiftr w t) t",
"edit": "inhibitory weights rounded away from zero",
"breaks": [
"C39"
]
},
{
"file": "Bits_Model",
"def": "truncate",
"old": "negate m (Z.shiftl (Z.shiftr (negate m w) t) t)",
"new": "negate m (Z.shiftr (negate m w) t)",
"edit": "not shifted back",
"breaks": [
"C39"
]
},
{
"file": "Bits_Model",
"def": "clip_weight",
"old": "let lo := (- 2 ^ num_bits) * is_mixed m in",
"new": "let lo := - 2 ^ num_bits in",
"edit": "exc weights may become negative",
"breaks": [
"C39"
]
},
{
"file": "Bits_Model",
"def": "clip_weight",
"old": "let hi := 2 ^ num_bits - 1 - (if learning then 1 else 0) * is_mixed m in",
"new": "let hi := 2 ^ num_bits - (if learning then 1 else 0) * is_mixed m in",
"edit": "upper bound off by one",
"breaks": [
"C39"
]
},
{
"file": "Bits_Model",
"def": "clip_weight",
"old": "let hi := 2 ^ num_bits - 1 - (if learning then 1 else 0) * is_mixed m in",
"new": "let hi := 2 ^ num_bits - 1 in",
"edit": "learning margin dropped",
"breaks": [
"C39"
]
},
{
"file": "Bits_Model",
"def": "validate",
"old": "let lo := (- 256) * (mixed + inh) + inh in",
"new": "let lo := (- 256) * (mixed + inh) in",
"edit": "-256 accepted for inhibitory weights",
"breaks": [
"C59"
]
},
{
"file": "Bits_Model",
"def": "validate",
"old": "negb ((hi <? np_max ws) || (np_min ws <? lo))",
"new": "negb (hi <? np_max ws)",
"edit": "minimum not validated",
"breaks": [
"C59"
]
},
{
"file": "Bits_Model",
"def": "weight_exp",
"old": "- (s + 1)",
"new": "- s",
"edit": "mixed exponent off by one",
"breaks": [
"C59"
]
},
{
"file": "Bits_Model",
"def": "weight_exp",
"old": "| Inhibitory => - flog2 255 (- lo)",
"new": "| Inhibitory => - flog2 255 hi",
"edit": "inhibitory exponent from the maximum",
"breaks": [
"C59"
]
},
{
"file": "Bits_Model",
"def": "precision",
"old": "w mod 2 ^ Z.of_nat n =? 0",
"new": "w mod 2 ^ Z.of_nat k =? 0",
"edit": "precision one bit too large",
"breaks": [
"C59"
]
},
{
"file": "Bits_Model",
"def": "num_weight_bits",
"old": "8 + weight_exp m ws - (precision 8 ws - is_mixed m)",
"new": "8 + weight_exp m ws - precision 8 ws",
"edit": "mixed bit forgotten in the number of bits",
"breaks": [
"C59"
]
},
{
"file": "Bits_Model",
"def": "optimize",
"old": "np_shl w (- weight_exp m ws)",
"new": "np_shl w (- weight_exp m ws - 1)",
"edit": "scaled by half",
"breaks": [
"C59"
]
}
]