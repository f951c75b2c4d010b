[
{
"file": "Process_Model",
"def": "alias",
"old": "(init va) (Some b))",
"new": "(init va) (Some a))",
"edit": "a variable is aliased to itself",
"breaks": [
"C23"
]
},
{
"file": "Process_Model",
"def": "alias",
"old": "if negb (shape_eqb (vshape va) (vshape vb)) then None",
"new": "if false then None",
"edit": "alias does not compare shapes",
"breaks": [
"C23"
]
},
{
"file": "Process_Model",
"def": "alias",
"old": "else if negb (Bool.eqb (shareable va) (shareable vb)) then None",
"new": "",
"edit": "alias does not compare shareable",
"breaks": [
"C23"
]
},
{
"file": "Process_Model",
"def": "validate_alias",
"old": "Some (negb (vproc va =? vproc vb) && sub)",
"new": "Some (negb (vproc va =? vproc vb))",
"edit": "alias may target a non-sub-process",
"breaks": [
"C23"
]
},
{
"file": "Process_Model",
"def": "is_sub_proc_of",
"old": "if r =? q then Some true else is_sub_proc_of f par r q",
"new": "if r =? q then Some true else Some false",
"edit": "only direct sub-processes count",
"breaks": [
"C23"
]
},
{
"file": "Process_Model",
"def": "vget",
"old": "| Some b => vget f vs st b",
"new": "| Some b => Some (match st with Some m => m b | None => init va end)",
"edit": "get follows one alias only",
"breaks": [
"C23"
]
},
{
"file": "Process_Model",
"def": "vset",
"old": "| Some b => vset f vs st b x",
"new": "| Some b => Some (match st with Some m => Some (Some (fupd m a x)) | None => None end)",
"edit": "set writes the alias itself",
"breaks": [
"C23"
]
},
{
"file": "Process_Model",
"def": "server_register",
"old": "(S (next_id s))",
"new": "(next_id s)",
"edit": "next id not incremented",
"breaks": [
"C24"
]
},
{
"file": "Process_Model",
"def": "server_call",
"old": "if not_initialized s1 then mkServer true false 0 [] else s1",
"new": "mkServer true false 0 []",
"edit": "every VarServer() call reinitialises",
"breaks": [
"C24"
]
},
{
"file": "Process_Model",
"def": "setitem",
"old": "match lookup d k with Some _ => None | None => Some (dict_set d k v) end",
"new": "Some (dict_set d k v)",
"edit": "__setitem__ overwrites",
"breaks": [
"C24"
]
},
{
"file": "Process_Model",
"def": "dict_set",
"old": "if k' =? k then (k', v) :: r else (k', v') :: dict_set r k v",
"new": "if k' =? k then (k', v') :: r else (k', v') :: dict_set r k v",
"edit": "overwrite keeps the old value",
"breaks": [
"C24"
]
},
{
"file": "Process_Model",
"def": "param_get",
"old": "match lookup d k with None => default | Some v => Some v end",
"new": "match lookup d k with None => None | Some v => Some v end",
"edit": "get ignores the default",
"breaks": [
"C24"
],
"tightened": [
"params_get"
]
},
{
"file": "Process_Model",
"def": "coll_next",
"old": "| Some m => (mkColl (members c) (S i), Some m)",
"new": "| Some m => (mkColl (members c) (S (S i)), Some m)",
"edit": "iteration skips members",
"breaks": [
"C55"
]
},
{
"file": "Process_Model",
"def": "coll_next",
"old": "| None => (mkColl (members c) 0, None)",
"new": "| None => (mkColl (members c) i, None)",
"edit": "iterator not reset at the end",
"breaks": [
"C55"
]
}
]