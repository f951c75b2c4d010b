[
{
"file": "Select_Model",
"def": "idxs_from",
"old": "if f m then i :: idxs_from (S i) f r else idxs_from (S i) f r",
"new": "if f m then i :: idxs_from i f r else idxs_from (S i) f r",
"edit": "enumerate off by one after a hit",
"breaks": [
"C29"
]
},
{
"file": "Select_Model",
"def": "order",
"old": "idxs nc l ++ idxs is_c l ++ idxs is_py l",
"new": "idxs is_py l ++ idxs is_c l ++ idxs nc l",
"edit": "hardware configuration prefers Python models",
"breaks": [
"C29"
]
},
{
"file": "Select_Model",
"def": "order",
"old": "| SimCfg => idxs is_py l",
"new": "| SimCfg => idxs nc l ++ idxs is_py l",
"edit": "simulation may choose a neuro-core model",
"breaks": [
"C29"
]
},
{
"file": "Select_Model",
"def": "hw_supported",
"old": "SimCfg => is_py m",
"new": "SimCfg => true",
"edit": "simulation accepts any single model",
"breaks": [
"C29"
]
},
{
"file": "Select_Model",
"def": "select",
"old": "if (length (tags m0) =? 0) || has_tag t m0 then Chosen m0 else Raised",
"new": "Chosen m0",
"edit": "single model: tag ignored",
"breaks": [
"C29"
]
},
{
"file": "Select_Model",
"def": "select",
"old": "| Some m => Chosen m                                             (* case 1 *)",
"new": "| Some m => Chosen m0",
"edit": "exception map ignored",
"breaks": [
"C29"
]
},
{
"file": "Select_Model",
"def": "select",
"old": "if is_sub m0 || hw_supported c m0 then",
"new": "if hw_supported c m0 then",
"edit": "single sub process models are rejected",
"breaks": [
"C29"
]
},
{
"file": "Select_Model",
"def": "select",
"old": "if want_sub && negb (length subs =? 0) then",
"new": "if negb (length subs =? 0) then",
"edit": "select_sub_proc_model ignored",
"breaks": [
"C29"
]
},
{
"file": "Select_Model",
"def": "select",
"old": "| None => at_idx l i\n                    | Some t =>",
"new": "| None => at_idx l (S i)\n                    | Some t =>",
"edit": "the neighbour of the preferred leaf is returned",
"breaks": [
"C29"
]
},
{
"file": "Select_Model",
"def": "select",
"old": "| j :: _ => at_idx l j",
"new": "| _ :: _ => at_idx l i",
"edit": "tag ignored among leafs",
"breaks": [
"C29"
]
},
{
"file": "Select_Model",
"def": "tagged_subs",
"old": "Some (if has_tag t m then i :: r' else r')",
"new": "Some (i :: r')",
"edit": "tag ignored among sub process models",
"breaks": [
"C29"
]
},
{
"file": "Select_Model",
"def": "select",
"old": "| [] => Raised                                                       (* case 0 *)",
"new": "| [] => Chosen {| is_sub := false; is_py := true; is_c := false; nc := false; tags := [] |}",
"edit": "a model is invented when none is offered",
"breaks": [
"C29"
]
}
]