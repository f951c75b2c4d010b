[
{
"file": "Network_Model",
"def": "process_of",
"old": "| Some (s :: _) => match nth_error g s with Some q => proc q | None => None end",
"new": "| Some (s :: _) => match nth_error g a with Some q => proc q | None => None end",
"edit": "a virtual port reports its own (absent) process",
"breaks": [
"C25",
"C28"
],
"tightened": [
"find_processes_exact"
]
},
{
"file": "Network_Model",
"def": "owned",
"old": "match proc q with Some r => r =? p | None => false end",
"new": "match proc q with Some r => true | None => false end",
"edit": "ports of every process are looked at",
"breaks": [
"C25",
"C28"
]
},
{
"file": "Network_Model",
"def": "recv_class",
"old": "InPort | VarPort | ImplicitVarPort => true",
"new": "InPort | VarPort => true",
"edit": "implicit var ports are forgotten",
"breaks": [
"C25"
]
},
{
"file": "Network_Model",
"def": "send_class",
"old": "OutPort | RefPort => true",
"new": "OutPort => true",
"edit": "ref ports are forgotten in find_processes",
"breaks": [
"C25"
]
},
{
"file": "Network_Model",
"def": "neighbours",
"old": "Some s, Some d => Some (s ++ d)",
"new": "Some s, Some d => Some d",
"edit": "only destinations are followed",
"breaks": [
"C25"
]
},
{
"file": "Network_Model",
"def": "find_rec",
"old": "if memb q sn then Some (nl, sn)",
"new": "if memb q nl then Some (nl, sn)",
"edit": "processes already collected are not visited",
"breaks": [
"C25"
]
},
{
"file": "Network_Model",
"def": "find_rec",
"old": "Some (setorder (sn ++ nl), sn ++ nl)",
"new": "Some (setorder nl, sn ++ nl)",
"edit": "the seen processes are not returned",
"breaks": [
"C25"
]
},
{
"file": "Network_Model",
"def": "find_rec",
"old": "Some (ret, sn') => Some (nl ++ ret, sn')",
"new": "Some (ret, sn') => Some (nl, sn')",
"edit": "the result of the recursive call is dropped",
"breaks": [
"C25"
]
},
{
"file": "Network_Model",
"def": "port_pairs",
"old": "memb (snd dp) processes",
"new": "negb (memb (snd dp) processes)",
"edit": "channels only to processes outside",
"breaks": [
"C28"
]
},
{
"file": "Network_Model",
"def": "port_pairs",
"old": "Some (map (fun dp => (s, fst dp))",
"new": "Some (map (fun dp => (fst dp, s))",
"edit": "source and destination swapped",
"breaks": [
"C28"
]
},
{
"file": "Network_Model",
"def": "port_pairs",
"old": "++ owned g p (fun c => pclass_eqb c RefPort)",
"new": "",
"edit": "no channels for ref ports",
"breaks": [
"C28"
]
},
{
"file": "Network_Model",
"def": "dict_keys",
"old": "if existsb (pair_eqb k) d then d else d ++ [k]",
"new": "d ++ [k]",
"edit": "one channel per visit instead of per pair",
"breaks": [
"C28"
]
},
{
"file": "Network_Model",
"def": "dict_keys",
"old": "fold_left (fun d k => if existsb (pair_eqb k) d then d else d ++ [k]) l []",
"new": "fold_left (fun d k => if existsb (fun j => fst k =? fst j) d then d else d ++ [k]) l []",
"edit": "one channel per source port",
"breaks": [
"C28"
]
}
]