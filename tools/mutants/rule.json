[
{
"file": "Rule_Model",
"def": "separate",
"old": "| SAdd | SSub => match cur with [] => separate r [y] | _ => cur :: separate r [y] end",
"new": "| SAdd | SSub => match cur with [] => separate r [y] | _ => cur :: separate r [] end",
"edit": "the operator between products is dropped (a - b becomes a + b)",
"breaks": [
"C65"
]
},
{
"file": "Rule_Model",
"def": "separate",
"old": "| [] => [cur]\n  | y :: r =>",
"new": "| [] => []\n  | y :: r =>",
"edit": "the last product is lost",
"breaks": [
"C65"
]
},
{
"file": "Rule_Model",
"def": "separate",
"old": "| _ => separate r (cur ++ [y])",
"new": "| _ => separate r (y :: cur)",
"edit": "symbols of a product collected in reverse",
"breaks": [
"C65"
]
},
{
"file": "Rule_Model",
"def": "gen_symbol",
"old": "| SSub => Some (scale g (-1) 0)",
"new": "| SSub => Some g",
"edit": "minus sign ignored",
"breaks": [
"C65"
]
},
{
"file": "Rule_Model",
"def": "gen_symbol",
"old": "| SLit l => Some (scale g (l_mant l) (l_exp l))",
"new": "| SLit l => Some (scale g (l_mant l) (l_mant l))",
"edit": "literal exponent taken from the mantissa",
"breaks": [
"C65"
]
},
{
"file": "Rule_Model",
"def": "gen_symbol",
"old": "| SLit l => Some (scale g (l_mant l) (l_exp l))",
"new": "| SLit l => Some (scale g 1 (l_exp l))",
"edit": "literal mantissa ignored",
"breaks": [
"C65"
]
},
{
"file": "Rule_Model",
"def": "scale",
"old": "g_mant := g_mant g * m; g_exp := g_exp g + e",
"new": "g_mant := m; g_exp := e",
"edit": "a second literal overwrites the first",
"breaks": [
"C65"
]
},
{
"file": "Rule_Model",
"def": "var_const",
"old": "i_const := Some (if is_sub op_v then (- const)%Q else const)",
"new": "i_const := Some const",
"edit": "(-x + c) compiled as -(x + c)",
"breaks": [
"C65"
]
},
{
"file": "Rule_Model",
"def": "var_const",
"old": "i_mant := if is_sub op_v then -1 else 1;",
"new": "i_mant := 1;",
"edit": "(c - x) compiled as (x - c)",
"breaks": [
"C65"
]
},
{
"file": "Rule_Model",
"def": "var_const",
"old": "(if is_sub op_c then -1 else 1) * lit_const l",
"new": "lit_const l",
"edit": "sign of the constant in brackets lost",
"breaks": [
"C65"
]
},
{
"file": "Rule_Model",
"def": "read_inner",
"old": "then var_const b a op2 op1",
"new": "then var_const b a op1 op2",
"edit": "operators swapped in (const op var)",
"breaks": [
"C65"
]
},
{
"file": "Rule_Model",
"def": "read_inner",
"old": "i_mant := l_mant c * (if is_sub op then -1 else 1)",
"new": "i_mant := l_mant c",
"edit": "(-3) compiled as 3",
"breaks": [
"C65"
]
},
{
"file": "Rule_Model",
"def": "gen_symbol",
"old": "| SX0 => Some (match g_dep g with None => set_dep g DX0 | Some _ => add_factor g (plain_factor VX0) end)",
"new": "| SX0 => Some (set_dep g DX0)",
"edit": "a second x0 replaces the dependency",
"breaks": [
"C65"
]
},
{
"file": "Rule_Model",
"def": "gen_symbol",
"old": "| SY0 => Some (match g_dep g with None => set_dep g DY0",
"new": "| SY0 => Some (match g_dep g with None => set_dep g DX0",
"edit": "y0 compiled as the dependency x0",
"breaks": [
"C65"
]
},
{
"file": "Rule_Model",
"def": "gen_symbol",
"old": "let ok := match g_series g with Some k' => k' =? k | None => true end in",
"new": "let ok := true in",
"edit": "several decimation periods accepted",
"breaks": [
"C65"
]
},
{
"file": "Rule_Model",
"def": "normalize",
"old": "if (7 <? Z.abs m) && Z.even m",
"new": "if (7 <? m) && Z.even m",
"edit": "negative mantissas are not normalised",
"breaks": [
"C65"
]
},
{
"file": "Rule_Model",
"def": "normalize",
"old": "Z.even m && (e <? 8) then",
"new": "(e <? 8) then",
"edit": "odd mantissas are halved, too",
"breaks": [
"C65"
]
},
{
"file": "Rule_Model",
"def": "normalize",
"old": "normalize k m' (e + 1)",
"new": "normalize k m' e",
"edit": "exponent not adjusted when the mantissa is halved",
"breaks": [
"C65"
]
},
{
"file": "Rule_Model",
"def": "gen_product",
"old": "if (m <? -8) || (8 <=? m) then None",
"new": "if (m <? -8) || (9 <=? m) then None",
"edit": "mantissa 8 accepted",
"breaks": [
"C65"
]
},
{
"file": "Rule_Model",
"def": "gen_product",
"old": "else if (e <? -7) || (9 <=? e) then None",
"new": "else if (e <? -8) || (9 <=? e) then None",
"edit": "exponent -8 accepted",
"breaks": [
"C65"
]
},
{
"file": "Rule_Model",
"def": "gen_product",
"old": "rp_exp := e + 7;",
"new": "rp_exp := e;",
"edit": "exponent offset forgotten",
"breaks": [
"C65"
]
},
{
"file": "Rule_Model",
"def": "gen_product",
"old": "| None => None\n       | Some d =>\n           if",
"new": "| None => None\n       | Some d =>\n           if (m =? 0) then None else if",
"edit": "zero products refused",
"breaks": [
"C65"
]
},
{
"file": "Rule_Model",
"def": "finders",
"old": "word [\"d\"]%char (SVar (VSyn STag2)); word [\"t\"]%char (SVar (VSyn STag1))",
"new": "word [\"d\"]%char (SVar (VSyn STag1)); word [\"t\"]%char (SVar (VSyn STag2))",
"edit": "delay and tag swapped",
"breaks": [
"C65"
]
},
{
"file": "Rule_Model",
"def": "finders",
"old": "word [\"y\"; \"3\"]%char (SVar (VTrace TY3))",
"new": "word [\"y\"; \"3\"]%char (SVar (VTrace TY2))",
"edit": "y3 read as y2",
"breaks": [
"C65"
]
},
{
"file": "Rule_Model",
"def": "find_literal",
"old": "Found (SLit {| l_mant := m; l_base := 2; l_exp := sg * x |}) rest",
"new": "Found (SLit {| l_mant := m; l_base := 2; l_exp := x |}) rest",
"edit": "sign of the exponent lost",
"breaks": [
"C65"
]
},
{
"file": "Rule_Model",
"def": "find_literal",
"old": "Found (SLit {| l_mant := 1; l_base := 2; l_exp := sg * x |}) rest",
"new": "Found (SLit {| l_mant := 2; l_base := 2; l_exp := sg * x |}) rest",
"edit": "2^k read as 2*2^k",
"breaks": [
"C65"
]
},
{
"file": "Rule_Model",
"def": "eval_digits",
"old": "fold_left (fun v x => 10 * v + digit_val x) d 0",
"new": "fold_left (fun v x => v + digit_val x) d 0",
"edit": "digits summed",
"breaks": [
"C65"
]
},
{
"file": "Rule_Model",
"def": "split_close",
"old": "(split_close (if is_char \"(\" c then S depth else depth) r)",
"new": "(split_close depth r)",
"edit": "nested brackets close at the first )",
"breaks": [
"C65"
]
},
{
"file": "Rule_Model",
"def": "remove_spaces",
"old": "negb (is_char \" \" c)",
"new": "true",
"edit": "spaces not removed",
"breaks": [
"C65"
]
},
{
"file": "Rule_Model",
"def": "add_factor",
"old": "g_factors := g_factors g ++ [f]",
"new": "g_factors := [f]",
"edit": "only the last factor kept",
"breaks": [
"C65"
]
},
{
"file": "Rule_Model",
"def": "gen_symbol",
"old": "{| rf_var := VSyn s; rf_const := i_const i; rf_sgn := true |}",
"new": "{| rf_var := VSyn s; rf_const := i_const i; rf_sgn := false |}",
"edit": "sgn() ignored",
"breaks": [
"C65"
]
},
{
"file": "Rule_Model",
"def": "gen_symbol",
"old": "{| rf_var := v; rf_const := i_const i; rf_sgn := false |}",
"new": "{| rf_var := v; rf_const := None; rf_sgn := false |}",
"edit": "constants in brackets ignored",
"breaks": [
"C65"
]
},
{
"file": "Rule_Model",
"def": "gen_symbol",
"old": "g_dec := Some k;",
"new": "g_dec := Some 0;",
"edit": "decimation exponent always 0",
"breaks": [
"C65"
]
},
{
"file": "Rule_Model",
"def": "validate_uk",
"old": "if forallb (same_digits d) r",
"new": "if true",
"edit": "rules with different u_k accepted",
"breaks": [
"C65"
]
},
{
"file": "Rule_Model",
"def": "active",
"old": "dep_eqb (rp_dep p) d &&",
"new": "",
"edit": "traces active for every dependency",
"breaks": [
"C65"
]
},
{
"file": "Rule_Model",
"def": "gen_products",
"old": "omap (fun q => (fst p :: fst q, snd q)) (gen_products (snd p) r)",
"new": "omap (fun q => (fst p :: fst q, snd q)) (gen_products None r)",
"edit": "decimation period not carried to the next product",
"breaks": [
"C65"
]
}
]