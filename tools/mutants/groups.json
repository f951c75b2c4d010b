[
{
"file": "Groups_Model",
"def": "pure_in",
"old": "negb (length (succs g n) =? 0) && (length (preds g n) =? 0)",
"new": "(length (succs g n) =? 0) && negb (length (preds g n) =? 0)",
"edit": "leaves are sinks instead of sources",
"breaks": [
"C26"
]
},
{
"file": "Groups_Model",
"def": "pure_in",
"old": "negb (length (succs g n) =? 0) && (length (preds g n) =? 0)",
"new": "(length (preds g n) =? 0)",
"edit": "isolated nodes count as leaves",
"breaks": [
"C26"
]
},
{
"file": "Groups_Model",
"def": "pure_in",
"old": "negb (length (succs g n) =? 0) && (length (preds g n) =? 0)",
"new": "negb (length (succs g n) =? 0) && (length (preds g n) <=? 1)",
"edit": "nodes with one predecessor count as leaves",
"breaks": [
"C26"
]
},
{
"file": "Groups_Model",
"def": "is_dag",
"old": "then Some (length (nodes g') =? length (filter (isolated g') (nodes g')), g')",
"new": "then Some (true, g')",
"edit": "is_dag always answers True",
"breaks": [
"C26"
]
},
{
"file": "Groups_Model",
"def": "is_dag",
"old": "if 1 <? length (nodes g')",
"new": "if 2 <? length (nodes g')",
"edit": "cycles of two nodes are accepted",
"breaks": [
"C26"
]
},
{
"file": "Groups_Model",
"def": "is_dag",
"old": "then Some (length (nodes g') =? length (filter (isolated g') (nodes g')), g')",
"new": "then Some (length (nodes g') <=? 1 + length (filter (isolated g') (nodes g')), g')",
"edit": "one node may remain on a cycle",
"breaks": [
"C26"
]
},
{
"file": "Groups_Model",
"def": "isolated",
"old": "(length (succs g n) =? 0) && (length (preds g n) =? 0).\n\n(** is_dag",
"new": "(length (succs g n) =? 0) || (length (preds g n) =? 0).\n\n(** is_dag",
"edit": "isolated means no successors or no predecessors",
"breaks": [
"C26"
]
},
{
"file": "Groups_Model",
"def": "remove_nodes",
"old": "filter (fun e => negb (nmem (fst e) l) && negb (nmem (snd e) l)) (edges g)",
"new": "filter (fun e => negb (nmem (fst e) l)) (edges g)",
"edit": "edges into removed nodes stay",
"breaks": [
"C26",
"C27"
]
},
{
"file": "Groups_Model",
"def": "collapse_node",
"old": "remove_node og1 n",
"new": "og1",
"edit": "the collapsed node is not removed",
"breaks": [
"C27"
]
},
{
"file": "Groups_Model",
"def": "collapse_node",
"old": "if nmem m (preds og n) then add_edge og m new else og",
"new": "og",
"edit": "incoming edges are lost",
"breaks": [
"C27"
]
},
{
"file": "Groups_Model",
"def": "collapse_node",
"old": "if nmem m (succs og n) then add_edge og new m else og",
"new": "if nmem m (succs og n) then add_edge og m new else og",
"edit": "outgoing edges are reversed",
"breaks": [
"C27"
]
},
{
"file": "Groups_Model",
"def": "collapse",
"old": "then Some {| nodes := [GG (nodes g)]; edges := [] |}",
"new": "then Some {| nodes := []; edges := [] |}",
"edit": "collapsing the whole graph yields nothing",
"breaks": [
"C27"
]
},
{
"file": "Groups_Model",
"def": "collapse",
"old": "then Some {| nodes := [GG (nodes g)]; edges := [] |}",
"new": "then Some {| nodes := [GG (nodes g)]; edges := [(GG (nodes g), GG (nodes g))] |}",
"edit": "collapsing the whole graph yields a self loop",
"breaks": [
"C27"
]
},
{
"file": "Groups_Model",
"def": "subs",
"old": "filter (fun wcc => 1 <? length wcc)",
"new": "filter (fun wcc => true)",
"edit": "single processes are wrapped too",
"breaks": [
"C27"
]
},
{
"file": "Groups_Model",
"def": "subs",
"old": "[0;1;2]",
"new": "[0;0;1;2]",
"edit": "Python models are collapsed twice",
"breaks": [
"C27"
]
},
{
"file": "Groups_Model",
"def": "flatten_list_recursive",
"old": "Some x, Some y => Some (x ++ y)",
"new": "Some x, Some y => Some x",
"edit": "only the first nested list is kept",
"breaks": [
"C27"
]
},
{
"file": "Groups_Model",
"def": "flatten_list_recursive",
"old": "Some y => Some (VP p :: y)",
"new": "Some y => Some y",
"edit": "processes at the outer level are lost",
"breaks": [
"C27"
]
},
{
"file": "Groups_Model",
"def": "flatten_node",
"old": "| Some ll => flatten_list_recursive lim ll",
"new": "| Some ll => Some ll",
"edit": "groups are not flattened",
"breaks": [
"C27"
]
},
{
"file": "Groups_Model",
"def": "get_proc_groups",
"old": "(Some []) (rev topo)",
"new": "(Some []) (tl (rev topo))",
"edit": "the last group is forgotten",
"breaks": [
"C27"
]
},
{
"file": "Groups_Model",
"def": "model_sg",
"old": "subgraph rpg (filter (of_type t) (nodes rpg))",
"new": "subgraph rpg (filter (fun n => negb (of_type t n)) (nodes rpg))",
"edit": "collapses processes of the other types",
"breaks": [
"C27"
]
}
]