[
{
"file": "Build_Model",
"def": "trunc",
"old": "Z.quot (Qnum q)",
"new": "Z.div (Qnum q)",
"edit": "fractions rounded down instead of towards zero",
"breaks": [
"C89"
]
},
{
"file": "Build_Model",
"def": "cast",
"old": "(trunc (re x) + 2 ^ (b - 1)) mod 2 ^ b - 2 ^ (b - 1)",
"new": "trunc (re x) mod 2 ^ b",
"edit": "signed integers wrap to unsigned",
"breaks": [
"C89"
]
},
{
"file": "Build_Model",
"def": "cast",
"old": "| DFloat => real (re x)",
"new": "| DFloat => x",
"edit": "float keeps the imaginary part",
"breaks": [
"C89"
]
},
{
"file": "Build_Model",
"def": "strip",
"old": "if n <? List.length sh then strip n r else sh",
"new": "strip n r",
"edit": "all leading ones dropped",
"breaks": [
"C89"
]
},
{
"file": "Build_Model",
"def": "strip",
"old": "  | 1 :: r => if n <?",
"new": "  | 0 :: r => if n <?",
"edit": "leading zeros dropped instead of ones",
"breaks": [
"C89"
]
},
{
"file": "Build_Model",
"def": "fits",
"old": "((a =? b) || (a =? 1))",
"new": "((a =? b) || (b =? 1))",
"edit": "broadcasting in the wrong direction",
"breaks": [
"C89"
]
},
{
"file": "Build_Model",
"def": "fits",
"old": "| _ :: _, [] => false",
"new": "| _ :: _, [] => true",
"edit": "initial value of higher rank accepted",
"breaks": [
"C89"
]
},
{
"file": "Build_Model",
"def": "pick",
"old": "(if d =? 1 then 0 else i)",
"new": "(if d =? 1 then i else i)",
"edit": "broadcast dimension indexed",
"breaks": [
"C89"
]
},
{
"file": "Build_Model",
"def": "bindex",
"old": "skipn (List.length idx - List.length v) idx",
"new": "firstn (List.length v) idx",
"edit": "dimensions aligned at the first instead of the last",
"breaks": [
"C89"
]
},
{
"file": "Build_Model",
"def": "assign",
"old": "  | [] => None\n  | _ => let v := strip",
"new": "  | _ => let v := strip",
"edit": "array without dimensions accepted",
"breaks": [
"C89"
]
},
{
"file": "Build_Model",
"def": "assign",
"old": "if fits (rev v) (rev sh)",
"new": "if fits v sh",
"edit": "shapes compared from the first dimension",
"breaks": [
"C89"
]
},
{
"file": "Build_Model",
"def": "out_configs",
"old": "nth_error l k with",
"new": "nth_error l 0 with",
"edit": "first config of each OutPort (the intended program)",
"breaks": [
"C89"
]
},
{
"file": "Build_Model",
"def": "create_builder",
"old": "map pname (in_ports P ++ out_ports P) ++ map pname (ref_ports P) in",
"new": "map pname (in_ports P ++ out_ports P) in",
"edit": "a type declared only for a RefPort is taken for missing",
"breaks": [
"C89"
]
},
{
"file": "Build_Model",
"def": "create_builder",
"old": "MType _ => existsb (String.eqb (fst na)) all | MOther => true",
"new": "MType _ => true | MOther => true",
"edit": "declared members that are missing accepted",
"breaks": [
"C89"
]
},
{
"file": "Build_Model",
"def": "create_builder",
"old": "let all := names ++ map pname (var_ports P) in",
"new": "let all := names in",
"edit": "VarPorts that are declared refused",
"breaks": [
"C89"
]
},
{
"file": "Build_Model",
"def": "setattr",
"old": "attrs := (n, a) :: attrs m",
"new": "attrs := attrs m ++ [(n, a)]",
"edit": "existing attributes are kept",
"breaks": [
"C89"
]
},
{
"file": "Build_Model",
"def": "build_io",
"old": "CPyIn | CPyOut => Some (setattr",
"new": "CPyIn => Some (setattr",
"edit": "OutPorts refused",
"breaks": [
"C89"
]
},
{
"file": "Build_Model",
"def": "build_varport",
"old": "KVar false => Some m",
"new": "KVar true => Some m",
"edit": "connected VarPorts skipped",
"breaks": [
"C89"
]
},
{
"file": "Build_Model",
"def": "var_value",
"old": "match assign (vshape v) (d_type t) a0 with",
"new": "match assign (ash a0) (d_type t) a0 with",
"edit": "initial value not broadcast",
"breaks": [
"C89"
]
},
{
"file": "Build_Model",
"def": "var_value",
"old": "| IInt z => match assign (vshape v) (d_type t)",
"new": "| IInt z => match assign (vshape v) DFloat",
"edit": "integer not converted",
"breaks": [
"C89"
]
},
{
"file": "Build_Model",
"def": "var_value",
"old": "| CNumber | CStr => Some (AInit (vinit v))",
"new": "| CNumber => Some (AInit (vinit v)) | CStr => None",
"edit": "strings refused",
"breaks": [
"C89"
]
},
{
"file": "Build_Model",
"def": "build_var",
"old": "setattr (prec_name (vname v)) (APrec (precision t)) (setattr (vname v) a m)",
"new": "setattr (vname v) (APrec (precision t)) (setattr (prec_name (vname v)) a m)",
"edit": "value and precision swapped",
"breaks": [
"C89"
]
},
{
"file": "Build_Model",
"def": "build_var",
"old": "id_map := (vid v, vname v) :: id_map m1",
"new": "id_map := (vid v, prec_name (vname v)) :: id_map m1",
"edit": "id refers to the precision",
"breaks": [
"C89"
]
},
{
"file": "Build_Model",
"def": "build_var",
"old": "id_map := (vid v, vname v) :: id_map m1",
"new": "id_map := [(vid v, vname v)]",
"edit": "only the last Var is known by its id",
"breaks": [
"C89"
]
},
{
"file": "Build_Model",
"def": "build",
"old": "build_all (build_ref C) (ref_ports P) m1",
"new": "build_all (build_ref C) [] m1",
"edit": "RefPorts not built",
"breaks": [
"C89"
]
},
{
"file": "Build_Model",
"def": "build",
"old": "(in_ports P ++ out_ports P) {| attrs := base;",
"new": "(in_ports P ++ out_ports P) {| attrs := [];",
"edit": "attributes of the constructor lost",
"breaks": [
"C89"
]
},
{
"file": "Build_Model",
"def": "build_all",
"old": "Some m1 => build_all f r m1",
"new": "Some m1 => build_all f r m",
"edit": "only the last member is kept",
"breaks": [
"C89"
]
}
]