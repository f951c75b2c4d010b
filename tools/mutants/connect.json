[
{
"file": "Connect_Model",
"def": "add_inputs",
"old": "Some (upd g a (set_ins p (ins p ++ l)))",
"new": "Some (upd g a (set_ins p l))",
"edit": "_add_inputs overwrites",
"breaks": [
"C21"
]
},
{
"file": "Connect_Model",
"def": "add_outputs",
"old": "Some (upd g a (set_outs p (outs p ++ l)))",
"new": "Some g",
"edit": "_add_outputs does nothing",
"breaks": [
"C21"
]
},
{
"file": "Connect_Model",
"def": "add_outputs",
"old": "if is_disjoint (outs p) l then",
"new": "if true then",
"edit": "duplicate connections are accepted",
"breaks": [
"C21"
]
},
{
"file": "Connect_Model",
"def": "fwd_loop",
"old": "match add_inputs g p [self] with",
"new": "match add_outputs g p [self] with",
"edit": "forward connection adds an output at the destination",
"breaks": [
"C21"
]
},
{
"file": "Connect_Model",
"def": "bwd_loop",
"old": "match add_outputs g p [self] with",
"new": "match add_inputs g p [self] with",
"edit": "backward connection adds an input at the source",
"breaks": [
"C21"
]
},
{
"file": "Connect_Model",
"def": "spread",
"old": "| [c] => if 1 <? n then repeat c n else configs",
"new": "| [c] => configs",
"edit": "a single configuration is not spread",
"breaks": [
"C21"
]
},
{
"file": "Connect_Model",
"def": "validate",
"old": "(if same_shape then list_eqb (pshape sp) (pshape p) else true)",
"new": "true",
"edit": "shapes are not compared",
"breaks": [
"C76"
],
"tightened": [
"connections_well_typed_partial"
]
},
{
"file": "Connect_Model",
"def": "validate",
"old": "isinstance (cls p) t\n",
"new": "true\n",
"edit": "classes are not checked",
"breaks": [
"C76"
],
"tightened": [
"connections_well_typed_partial"
]
},
{
"file": "Connect_Model",
"def": "connect_backward",
"old": "match add_inputs g self ports with",
"new": "match add_outputs g self ports with",
"edit": "connect_from stores outputs",
"breaks": [
"C21"
]
},
{
"file": "Connect_Model",
"def": "src_ports",
"old": "| [] => Some (if incl then [a] else [])\n                       | l => all_some (map (src_ports f g true) l)",
"new": "| [] => Some (if incl then [a] else [])\n                       | l => all_some (map (src_ports f g false) l)",
"edit": "get_src_ports never includes the sources",
"breaks": [
"C54"
]
},
{
"file": "Connect_Model",
"def": "dst_ports",
"old": "| l => all_some (map (dst_ports f g true) l)",
"new": "| l => Some l",
"edit": "get_dst_ports stops at the next port",
"breaks": [
"C54"
]
},
{
"file": "Connect_Model",
"def": "dst_ports",
"old": "match outs p with\n                       | [] => Some (if incl then [a] else [])\n                       | l => all_some (map (dst_ports f g true) l)",
"new": "match outs p with\n                       | [] => Some (if incl then [a] else [])\n                       | q :: _ => dst_ports f g true q",
"edit": "get_dst_ports follows the first output only",
"breaks": [
"C54"
]
},
{
"file": "Connect_Model",
"def": "rv_check",
"old": "if 1 <? length (to_list a) then Some EAssert else",
"new": "",
"edit": "a RefPort may be connected to several ports",
"breaks": [
"C76"
],
"tightened": [
"reference_ports_refuse"
]
},
{
"file": "Connect_Model",
"def": "do_concat",
"old": "connect_backward (g ++ [new_port ConcatPort sh None]) (length g) ports TAbstractPort [None] false true",
"new": "connect_backward (g ++ [new_port ConcatPort sh None]) (length g) others TAbstractPort [None] false true",
"edit": "concat_with forgets the port itself",
"breaks": [
"C21"
]
},
{
"file": "Connect_Model",
"def": "do_derive",
"old": "connect_forward (g ++ [new_port c (vshape v) None]) self [length g] TAbstractPort [None] false true",
"new": "connect_forward (g ++ [new_port c (vshape v) None]) self [length g] TAbstractPort [None] true true",
"edit": "reshape validates shapes",
"breaks": [
"C21"
]
},
{
"file": "Connect_Model",
"def": "store_cfg",
"old": "match nth_error g1 b with Some p => upd g1 b (add_cfg p a v) | None => g1 end",
"new": "g1",
"edit": "the configuration is stored on one side only",
"breaks": [
"C21"
]
}
]