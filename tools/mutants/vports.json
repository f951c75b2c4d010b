[
{
"file": "VPorts_Model",
"def": "np_reshape",
"old": "Some (mkNd new (elems a))",
"new": "Some (mkNd new (rev (elems a)))",
"edit": "reshape reverses the elements",
"breaks": [
"C20"
]
},
{
"file": "VPorts_Model",
"def": "bwd",
"old": "| ReshapeP _ old => np_reshape old a",
"new": "| ReshapeP new _ => np_reshape new a",
"edit": "bwd of reshape uses the new shape",
"breaks": [
"C20"
]
},
{
"file": "VPorts_Model",
"def": "bwd",
"old": "np_transpose (map Z.of_nat (np_argsort axes)) a",
"new": "np_transpose axes a",
"edit": "bwd of transpose uses the axes instead of their inverse",
"breaks": [
"C20"
]
},
{
"file": "VPorts_Model",
"def": "fwd",
"old": "| TransposeP _ axes => np_transpose axes a\n  end.\n\n(** get_transform_func_bwd",
"new": "| TransposeP _ axes => np_transpose (rev axes) a\n  end.\n\n(** get_transform_func_bwd",
"edit": "fwd of transpose uses reversed axes",
"breaks": [
"C20"
]
},
{
"file": "VPorts_Model",
"def": "port_transpose",
"old": "let ax := rev (seq 0 n) in",
"new": "let ax := seq 0 n in",
"edit": "transpose() without axes keeps the order",
"breaks": [
"C20"
]
},
{
"file": "VPorts_Model",
"def": "port_transpose",
"old": "Some (TransposeP (map (fun k => nth k sh 0) ks) ax)",
"new": "Some (TransposeP sh ax)",
"edit": "the shape of a transpose port is not permuted",
"breaks": [
"C20"
]
},
{
"file": "VPorts_Model",
"def": "port_reshape",
"old": "if prod sh =? prod new then",
"new": "if true then",
"edit": "reshape accepts any size",
"breaks": [
"C20"
]
},
{
"file": "VPorts_Model",
"def": "port_flatten",
"old": "port_reshape sh [prod sh]",
"new": "port_reshape sh sh",
"edit": "flatten keeps the shape",
"breaks": [
"C20"
]
},
{
"file": "VPorts_Model",
"def": "incoming",
"old": "| v :: r => incoming r ++ [v] end.\nFixpoint outgoing",
"new": "| v :: r => v :: incoming r end.\nFixpoint outgoing",
"edit": "incoming transforms in reverse order",
"breaks": [
"C20"
]
},
{
"file": "VPorts_Model",
"def": "outgoing",
"old": "match from_src with [] => [] | v :: r => outgoing r ++ [v] end",
"new": "match from_src with [] => [] | v :: r => v :: outgoing r end",
"edit": "outgoing transforms in the wrong order",
"breaks": [
"C20"
]
},
{
"file": "VPorts_Model",
"def": "norm_axis",
"old": "(if (Z.of_nat n <=? i)%Z then None else Some (Z.to_nat i))",
"new": "(if (Z.of_nat n <? i)%Z then None else Some (Z.to_nat i))",
"edit": "axis = ndim accepted",
"breaks": [
"C20"
]
},
{
"file": "VPorts_Model",
"def": "np_argsort",
"old": "map snd (sort_keys (combine l (seq 0 (length l))))",
"new": "seq 0 (length l)",
"edit": "argsort is the identity",
"breaks": [
"C20"
]
},
{
"file": "VPorts_Model",
"def": "concat_loop",
"old": "(total + nth k sh 0)",
"new": "(total + 1)",
"edit": "concat adds 1 per port",
"breaks": [
"C22"
]
},
{
"file": "VPorts_Model",
"def": "concat_loop",
"old": "| Some p => negb (list_eqb p ex)",
"new": "| Some p => list_eqb p ex",
"edit": "compatibility test negated",
"breaks": [
"C22"
]
},
{
"file": "VPorts_Model",
"def": "concat_loop",
"old": "let ex := take_to sh axis ++ drop_from sh (axis + 1) in\n               let inc",
"new": "let ex := take_to sh axis in\n               let inc",
"edit": "only the dimensions before the axis are compared",
"breaks": [
"C22"
]
},
{
"file": "VPorts_Model",
"def": "concat_loop",
"old": "if (Z.of_nat (length sh) <=? axis)%Z then inl ConcatIndexError",
"new": "if (Z.of_nat (length sh) <? axis)%Z then inl ConcatIndexError",
"edit": "axis = ndim gives another exception",
"breaks": [
"C22"
]
},
{
"file": "VPorts_Model",
"def": "concat_shape",
"old": "ConcatShape (take_to new axis ++ [total] ++ drop_from new axis)",
"new": "ConcatShape ([total] ++ new)",
"edit": "the concatenated dimension is put first",
"breaks": [
"C22"
]
},
{
"file": "VPorts_Model",
"def": "concat_shape",
"old": "if inc then ConcatShapeError",
"new": "if false then ConcatShapeError",
"edit": "incompatible shapes are never rejected",
"breaks": [
"C22"
]
}
]