[
{
"file": "SyncDomain_Model",
"def": "map_custom",
"old": "if negb (isinst (dproto d) (proto_of p)) then None\n      else ",
"new": "",
"edit": "protocol of a custom domain not checked",
"breaks": [
"C30"
]
},
{
"file": "SyncDomain_Model",
"def": "map_custom",
"old": "else if mem p (map fst m) then None",
"new": "else if false then None",
"edit": "a process may be in two custom domains",
"breaks": [
"C30"
]
},
{
"file": "SyncDomain_Model",
"def": "map_custom",
"old": "map_custom d r (m ++ [(p, dname d)])",
"new": "map_custom d r m",
"edit": "custom processes are not recorded",
"breaks": [
"C30"
]
},
{
"file": "SyncDomain_Model",
"def": "add_custom",
"old": "Some m => Some (fst s ++ [d], m)",
"new": "Some m => Some (fst s, m)",
"edit": "custom domain not added",
"breaks": [
"C30"
]
},
{
"file": "SyncDomain_Model",
"def": "add_custom",
"old": "if has_name s (dname d) then None",
"new": "if false then None",
"edit": "duplicate domain names accepted",
"breaks": [
"C30"
]
},
{
"file": "SyncDomain_Model",
"def": "add_process",
"old": "dprocs := dprocs d ++ [p]",
"new": "dprocs := [p]",
"edit": "add_process replaces the processes",
"breaks": [
"C30"
]
},
{
"file": "SyncDomain_Model",
"def": "add_process",
"old": "if name_eqb n (dname d) then {| dname",
"new": "if negb (name_eqb n (dname d)) then {| dname",
"edit": "process added to the other domains",
"breaks": [
"C30"
]
},
{
"file": "SyncDomain_Model",
"def": "add_default",
"old": "if mapped s p then s\n  else ",
"new": "",
"edit": "already mapped processes get a second domain",
"breaks": [
"C30"
]
},
{
"file": "SyncDomain_Model",
"def": "add_default",
"old": "dprocs := [p] |}",
"new": "dprocs := [] |}",
"edit": "new default domain starts empty",
"breaks": [
"C30"
]
},
{
"file": "SyncDomain_Model",
"def": "default_name",
"old": "Default (pname (proto_of p)) (negb (is_py p))",
"new": "Default 0 (negb (is_py p))",
"edit": "one default domain for all protocols",
"breaks": [
"C30"
]
},
{
"file": "SyncDomain_Model",
"def": "add_service",
"old": "(S i, (n, i) :: b,",
"new": "(i, (n, i) :: b,",
"edit": "runtime service ids are not advanced",
"breaks": [
"C30"
]
},
{
"file": "SyncDomain_Model",
"def": "get_id",
"old": "if q =? p then Some i else get_id r p",
"new": "Some i",
"edit": "the first process's service for everyone",
"breaks": [
"C30"
]
},
{
"file": "SyncDomain_Model",
"def": "procs_of",
"old": "if name_eqb n (dname d) then dprocs d else []",
"new": "dprocs d",
"edit": "a service gets the processes of all domains",
"breaks": [
"C30"
]
}
]