[
{
"file": "PyPorts_Model",
"def": "compose",
"old": "fold_left (fun x f => f x) fs d",
"new": "fold_right (fun f x => f x) d fs",
"edit": "transformations applied in reverse order",
"breaks": [
"C16"
],
"tightened": [
"inport_recv_sum"
]
},
{
"file": "PyPorts_Model",
"def": "IBegin",
"old": "pc := Some (0, repeat 0%Z size); results := results s |}",
"new": "pc := Some (0, repeat 1%Z size); results := results s |}",
"edit": "recv starts from ones",
"breaks": [
"C16"
]
},
{
"file": "PyPorts_Model",
"def": "ITake",
"old": "pc := Some (S i, vadd acc (compose (fs i) d)); results := results s |}",
"new": "pc := Some (S i, compose (fs i) d); results := results s |}",
"edit": "recv keeps only the last message",
"breaks": [
"C16"
]
},
{
"file": "PyPorts_Model",
"def": "ITake",
"old": "instep k size fs s {| queue := fupd (queue s) i q; hist := hist s;\n                          pc := Some (S i,",
"new": "instep k size fs s {| queue := queue s; hist := hist s;\n                          pc := Some (S i,",
"edit": "recv does not consume",
"breaks": [
"C16"
]
},
{
"file": "PyPorts_Model",
"def": "IEnd",
"old": "| IEnd s acc : pc s = Some (k, acc) ->",
"new": "| IEnd s i acc : pc s = Some (i, acc) ->",
"edit": "recv may return before all sources were read",
"breaks": [
"C16"
]
},
{
"file": "PyPorts_Model",
"def": "ITake",
"old": "i < k -> queue s i = d :: q ->",
"new": "S i < k -> queue s i = d :: q ->",
"edit": "the last source is never read",
"breaks": [
"C16"
]
},
{
"file": "PyPorts_Model",
"def": "in_probe",
"old": "fold_left (fun acc q => acc && match q with [] => false | _ => true end) qs true",
"new": "fold_left (fun acc q => acc || match q with [] => false | _ => true end) qs false",
"edit": "probe is True if any source has data",
"breaks": [
"C16"
]
},
{
"file": "PyPorts_Model",
"def": "take_all",
"old": "| Some (r, qs') => Some (r, q :: qs')",
"new": "| Some (r, qs') => Some (r, (d :: q) :: qs')",
"edit": "peek consumes nothing",
"breaks": [
"C17"
]
},
{
"file": "PyPorts_Model",
"def": "sparse_loop",
"old": "let idx' := resize n idx in",
"new": "let idx' := resize n data in",
"edit": "indices replaced by data",
"breaks": [
"C18"
]
},
{
"file": "PyPorts_Model",
"def": "sparse_send",
"old": "sparse_loop sizes [Z.of_nat (length data)] data idx",
"new": "sparse_loop sizes [Z.of_nat (length data) - 1]%Z data idx",
"edit": "announced length one too small",
"breaks": [
"C18"
]
},
{
"file": "PyPorts_Model",
"def": "sparse_recv",
"old": "Some (upto n data, upto n idx)",
"new": "Some (upto (n + 1) data, upto (n + 1) idx)",
"edit": "one padding element is returned",
"breaks": [
"C18"
]
},
{
"file": "PyPorts_Model",
"def": "resize",
"old": "firstn n l ++ repeat 0%Z (n - length l)",
"new": "firstn n l",
"edit": "resize does not pad",
"breaks": [
"C18"
]
},
{
"file": "PyPorts_Model",
"def": "RWrite",
"old": "c2v := fupd (c2v s) j (c2v s j ++ [MSet]); v2c := v2c s;",
"new": "c2v := fupd (c2v s) j (c2v s j ++ [MGet]); v2c := v2c s;",
"edit": "write sends a GET header",
"breaks": [
"C19"
]
},
{
"file": "PyPorts_Model",
"def": "OStore",
"old": "var := fwd j v; log := log s ++ [LWrite j v] |}",
"new": "var := v; log := log s ++ [LWrite j v] |}",
"edit": "a write is not transformed",
"breaks": [
"C19"
]
},
{
"file": "PyPorts_Model",
"def": "OSend",
"old": "v2c := fupd (v2c s) j (v2c s j ++ [var s]);",
"new": "v2c := fupd (v2c s) 0 (v2c s 0 ++ [var s]);",
"edit": "the answer goes to the first RefPort",
"breaks": [
"C19"
]
},
{
"file": "PyPorts_Model",
"def": "RReadEnd",
"old": "got := fupd (got s) j (got s j ++ [bwd j v]);",
"new": "got := fupd (got s) j (got s j ++ [v]);",
"edit": "a read is not transformed",
"breaks": [
"C19"
]
},
{
"file": "PyPorts_Model",
"def": "RData",
"old": "c2v := fupd (c2v s) j (c2v s j ++ [MData v]); v2c := v2c s;",
"new": "c2v := c2v s; v2c := v2c s;",
"edit": "the data of a write is not sent",
"breaks": [
"C19"
]
},
{
"file": "PyPorts_Model",
"def": "OCmdGet",
"old": "got := got s; ow := OGet j; var := var s; log := log s |}",
"new": "got := got s; ow := OIdle; var := var s; log := log s |}",
"edit": "a GET is not answered",
"breaks": [
"C19"
]
}
]