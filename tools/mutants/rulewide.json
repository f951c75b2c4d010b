[
{
"file": "Learning_Model",
"def": "width_sum",
"old": "(p_factors p) + 4.",
"new": "(p_factors p) + 5.",
"edit": "mantissa counted with 5 bits",
"breaks": [
"C80"
]
},
{
"file": "Learning_Model",
"def": "product_value",
"old": "Z.max 0 (width_sum p - 15)",
"new": "Z.max 0 (width_sum p - 16)",
"edit": "accumulator of 16 bits",
"breaks": [
"C80"
]
},
{
"file": "Learning_Model",
"def": "product_value",
"old": "Z.max 0 (width_sum p - 15)",
"new": "(width_sum p - 15)",
"edit": "no max with 0: narrow products shifted up",
"breaks": [
"C80"
]
},
{
"file": "Learning_Model",
"def": "factor_width",
"old": "VTrace _ => 7 | VSyn _ => 9",
"new": "VTrace _ => 8 | VSyn _ => 9",
"edit": "traces counted with 8 bits",
"breaks": [
"C80"
]
},
{
"file": "Learning_Model",
"def": "factor_width",
"old": "VTrace _ => 7 | VSyn _ => 9",
"new": "VTrace _ => 7 | VSyn _ => 8",
"edit": "synaptic variables counted with 8 bits",
"breaks": [
"C80"
]
},
{
"file": "Rule_Model",
"def": "normalize",
"old": "(7 <? Z.abs m)",
"new": "(8 <? Z.abs m)",
"edit": "mantissa 8 not normalised",
"breaks": [
"C80"
]
},
{
"file": "Rule_Model",
"def": "normalize",
"old": "(e <? 8)",
"new": "(e <? 7)",
"edit": "exponent limit 7",
"breaks": [
"C80"
]
},
{
"file": "Rule_Model",
"def": "gen_product",
"old": "rp_exp := e + 7;",
"new": "rp_exp := e + 8;",
"edit": "exponent offset 8",
"breaks": [
"C80"
]
}
]