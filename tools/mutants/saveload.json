[
 {
  "file": "SaveLoad_Model",
  "def": "has_dot",
  "old": "String c r => Ascii.eqb c \".\"%char || has_dot r",
  "new": "String c r => Ascii.eqb c \".\"%char",
  "edit": "only a leading dot counts",
  "breaks": [
   "C97"
  ]
 },
 {
  "file": "SaveLoad_Model",
  "def": "with_extension",
  "old": "if has_dot name then name else",
  "new": "if negb (has_dot name) then name else",
  "edit": "extension added to names with a dot",
  "breaks": [
   "C97"
  ]
 },
 {
  "file": "SaveLoad_Model",
  "def": "with_extension",
  "old": "(name ++ \".pickle\")%string",
  "new": "(name ++ \".pkl\")%string",
  "edit": "other extension",
  "breaks": [
   "C97"
  ]
 },
 {
  "file": "SaveLoad_Model",
  "def": "write",
  "old": "if String.eqb n name then Some f else fs n",
  "new": "Some f",
  "edit": "save overwrites every file",
  "breaks": [
   "C97"
  ]
 },
 {
  "file": "SaveLoad_Model",
  "def": "write",
  "old": "if String.eqb n name then Some f else fs n",
  "new": "match fs n with Some g => Some g | None => if String.eqb n name then Some f else None end",
  "edit": "an existing file is not overwritten",
  "breaks": [
   "C97"
  ]
 },
 {
  "file": "SaveLoad_Model",
  "def": "pick",
  "old": "Some o, Some m => Some (o :: m)",
  "new": "Some o, Some m => Some m",
  "edit": "nothing saved",
  "breaks": [
   "C97"
  ]
 },
 {
  "file": "SaveLoad_Model",
  "def": "set_value",
  "old": "put_nth os i (Obj",
  "new": "put_nth os 0 (Obj",
  "edit": "assignment goes to the first object",
  "breaks": [
   "C97"
  ]
 },
 {
  "file": "SaveLoad_Model",
  "def": "set_value",
  "old": "(put_nth (o_data o) k z)",
  "new": "(put_nth (o_data o) 0 z)",
  "edit": "assignment goes to the first Var",
  "breaks": [
   "C97"
  ]
 },
 {
  "file": "SaveLoad_Model",
  "def": "create",
  "old": "World (S (nextp w)) (nextv w + List.length values)",
  "new": "World (nextp w) (nextv w + List.length values)",
  "edit": "process id not advanced",
  "breaks": [
   "C97"
  ]
 },
 {
  "file": "SaveLoad_Model",
  "def": "create",
  "old": "World (S (nextp w)) (nextv w + List.length values)",
  "new": "World (S (nextp w)) (nextv w + 1)",
  "edit": "Var ids advanced by one per process",
  "breaks": [
   "C97"
  ]
 },
 {
  "file": "SaveLoad_Model",
  "def": "create",
  "old": "[Obj (nextp w) (seq (nextv w) (List.length values)) values",
  "new": "[Obj (nextp w) (map (fun _ => nextv w) values) values",
  "edit": "all Vars of a process get the same id",
  "breaks": [
   "C97"
  ]
 },
 {
  "file": "SaveLoad_Model",
  "def": "load_answer",
  "old": "Some Foreign => Incompatible",
  "new": "Some Foreign => Loaded []",
  "edit": "a foreign file is accepted",
  "breaks": [
   "C97"
  ]
 },
 {
  "file": "SaveLoad_Model",
  "def": "act",
  "old": "| ResetServers p v => World (if p then 0 else nextp w) (if v then 0 else nextv w) (S (epoch w))",
  "new": "| ResetServers p v => World (if p then 0 else nextp w) (if v then 0 else nextv w) (epoch w)",
  "edit": "server reset does not start a new numbering period",
  "breaks": [
   "C97"
  ]
 },
 {
  "file": "SaveLoad_Model",
  "def": "act",
  "old": "| Exit => World 0 0 (S (epoch w)) (born w) [] (files w)",
  "new": "| Exit => World 0 0 (S (epoch w)) (born w) [] (fun _ => None)",
  "edit": "files lost at exit",
  "breaks": [
   "C97"
  ]
 },
 {
  "file": "SaveLoad_Model",
  "def": "act",
  "old": "(write (files w) (with_extension name) (Saved os))",
  "new": "(write (files w) name (Saved os))",
  "edit": "extension not added",
  "breaks": [
   "C97"
  ]
 },
 {
  "file": "SaveLoad_Model",
  "def": "act",
  "old": "(live w ++ os) (files w)\n                     | _",
  "new": "(os ++ live w) (files w)\n                     | _",
  "edit": "other order of live objects: position of objects changes",
  "breaks": [
   "C97"
  ]
 },
 {
  "file": "SaveLoad_Model",
  "def": "act",
  "old": "(live w ++ os) (files w)\n                     | _",
  "new": "(live w ++ map (fun o => Obj (nextp w) (o_vars o) (o_data o) (o_epoch o) (o_orig o)) os) (files w)\n                     | _",
  "edit": "load renumbers every process with the next id",
  "breaks": [
   "C97"
  ]
 },
 {
  "file": "SaveLoad_Model",
  "def": "act",
  "old": "(live w ++ os) (files w)\n                     | _",
  "new": "(live w ++ os) (fun n => if String.eqb n name then None else files w n)\n                     | _",
  "edit": "load removes the file",
  "breaks": [
   "C97"
  ]
 },
 {
  "file": "SaveLoad_Model",
  "def": "dict_put",
  "old": "if j =? k then (k, v) :: r else (j, w) :: dict_put r k v",
  "new": "(k, v) :: r",
  "edit": "dictionary keeps only the last entry",
  "breaks": [
   "C97"
  ]
 },
 {
  "file": "SaveLoad_Model",
  "def": "dict_put",
  "old": "[] => [(k, v)]",
  "new": "[] => []",
  "edit": "dictionary never grows",
  "breaks": [
   "C97"
  ]
 },
 {
  "file": "SaveLoad_Model",
  "def": "dict_get",
  "old": "if j =? k then Some w else dict_get r k",
  "new": "Some w",
  "edit": "lookup gives the first entry",
  "breaks": [
   "C97"
  ]
 },
 {
  "file": "SaveLoad_Model",
  "def": "index_of",
  "old": "option_map S (index_of r k)",
  "new": "index_of r k",
  "edit": "index not counted",
  "breaks": [
   "C97"
  ]
 },
 {
  "file": "SaveLoad_Model",
  "def": "model_ids",
  "old": "map o_pid net",
  "new": "rev (map o_pid net)",
  "edit": "model ids in the wrong order",
  "breaks": [
   "C97"
  ]
 },
 {
  "file": "SaveLoad_Model",
  "def": "service_ports",
  "old": "dict_put d (o_pid (snd io)) (fst io)",
  "new": "dict_put d 0 (fst io)",
  "edit": "all ports under one name",
  "breaks": [
   "C97"
  ]
 },
 {
  "file": "SaveLoad_Model",
  "def": "var_models",
  "old": "dict_put d v (o_pid o)",
  "new": "dict_put d v v",
  "edit": "VarModel with the wrong process id",
  "breaks": [
   "C97"
  ]
 },
 {
  "file": "SaveLoad_Model",
  "def": "route",
  "old": "nth_error (service_ports net) idx",
  "new": "nth_error (service_ports net) 0",
  "edit": "always the first port used",
  "breaks": [
   "C97"
  ]
 },
 {
  "file": "SaveLoad_Model",
  "def": "route",
  "old": "Some k => Some (p, k)",
  "new": "Some k => Some (p, S k)",
  "edit": "wrong Var of the process",
  "breaks": [
   "C97"
  ]
 }
]