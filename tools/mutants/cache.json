[
 {
  "file": "Cache_Model",
  "def": "Cache_Model.name_builders",
  "old": "if smemb n seen || contains \"Process_\" n then None",
  "new": "if smemb n seen && contains \"Process_\" n then None",
  "edit": "a name is refused only if it is both repeated and a default name",
  "breaks": [
   "C100"
  ]
 },
 {
  "file": "Cache_Model",
  "def": "Cache_Model.name_builders",
  "old": "match name_builders P (n :: seen) r with",
  "new": "match name_builders P seen r with",
  "edit": "repeated names are not noticed",
  "breaks": [
   "C100"
  ]
 },
 {
  "file": "Cache_Model",
  "def": "Cache_Model.name_builders",
  "old": "Some ((n, with_params None b) :: t)",
  "new": "Some ((n, b) :: t)",
  "edit": "parameters are stored too: no effect, they are replaced when read; expected to survive",
  "breaks": []
 },
 {
  "file": "Cache_Model",
  "def": "Cache_Model.contains",
  "old": "prefix s t || match t with EmptyString => false | String _ r => contains s r end.",
  "new": "prefix s t || match t with EmptyString => false | String _ r => false end.",
  "edit": "only names that start with Process_ are refused",
  "breaks": [
   "C100"
  ]
 },
 {
  "file": "Cache_Model",
  "def": "Cache_Model.last_named",
  "old": "match last_named n (S i) r with\n              | Some x => Some x\n              | None => if String.eqb (c_name p) n then Some (i, p) else None\n              end",
  "new": "if String.eqb (c_name p) n then Some (i, p) else last_named n (S i) r",
  "edit": "the first process with a name instead of the last",
  "breaks": [
   "C100"
  ]
 },
 {
  "file": "Cache_Model",
  "def": "Cache_Model.assign_builder",
  "old": "Some (i, with_params (Some (c_params p)) (snd nb))",
  "new": "Some (i, snd nb)",
  "edit": "the parameters of the process at hand are not set",
  "breaks": [
   "C100"
  ]
 },
 {
  "file": "Cache_Model",
  "def": "Cache_Model.locate",
  "old": "if has_port p (snd a) then Some (i, snd a) else None",
  "new": "Some (i, snd a)",
  "edit": "a missing port is not noticed",
  "breaks": [
   "C100"
  ]
 },
 {
  "file": "Cache_Model",
  "def": "Cache_Model.compile",
  "old": "| Broken => (d, None)",
  "new": "| Broken => (NoFile, None)",
  "edit": "a broken file is removed",
  "breaks": [
   "C100"
  ]
 },
 {
  "file": "Cache_Model",
  "def": "Cache_Model.compile",
  "old": "if dump_ok then (Stored c, compile_fresh P) else (Broken, None)",
  "new": "if dump_ok then (Stored c, compile_fresh P) else (NoFile, None)",
  "edit": "an interrupted dump leaves no file",
  "breaks": [
   "C100"
  ]
 },
 {
  "file": "Cache_Model",
  "def": "Cache_Model.compile",
  "old": "| Stored c => (d, compile_cached c P)",
  "new": "| Stored c => (d, compile_fresh P)",
  "edit": "the stored builders are not used",
  "breaks": [
   "C100"
  ]
 },
 {
  "file": "Cache_Model",
  "def": "Cache_Model.compile",
  "old": "else (d, compile_fresh P).",
  "new": "else (NoFile, compile_fresh P).",
  "edit": "a compilation without the flag removes the file",
  "breaks": [
   "C100"
  ]
 },
 {
  "file": "Cache_Model",
  "def": "Cache_Model.package",
  "old": "e_ids := map c_id (procs P)",
  "new": "e_ids := map (fun ib => b_model_id (snd ib)) bs",
  "edit": "the runtime service takes the process ids from the builders",
  "breaks": [
   "C100"
  ]
 },
 {
  "file": "Cache_Model",
  "def": "Cache_Model.make_builder",
  "old": "b_model_id := c_id p; b_params := Some (c_params p)",
  "new": "b_model_id := Z.of_nat (c_model p); b_params := Some (c_params p)",
  "edit": "the model id is not the id of the process",
  "breaks": [
   "C100"
  ]
 },
 {
  "file": "Cache_Model",
  "def": "Cache_Model.make_builder",
  "old": "map (fun v => (v_id v, {| vm_proc_id := c_id p; vm_shape := v_shape v |})) (c_vars p)",
  "new": "map (fun v => (v_id v, {| vm_proc_id := v_id v; vm_shape := v_shape v |})) (c_vars p)",
  "edit": "the var model holds the id of the Var as that of the process",
  "breaks": [
   "C100"
  ]
 },
 {
  "file": "Cache_Model",
  "def": "Cache_Model.get",
  "old": "| None => GAssert  ",
  "new": "| None => GHang  ",
  "edit": "an unknown Var is not noticed by the runtime",
  "breaks": [
   "C100"
  ]
 },
 {
  "file": "Cache_Model",
  "def": "Cache_Model.get",
  "old": "match position 0 (vm_proc_id vm) (e_ids e) with",
  "new": "match Some 0 with",
  "edit": "requests always go to the first process",
  "breaks": [
   "C100"
  ]
 },
 {
  "file": "Cache_Model",
  "def": "Cache_Model.csp_map",
  "old": "if portref_eqb d (q, n) then kset (nth (fst s) ids 0%Z, snd s) ch m else m",
  "new": "if portref_eqb d (q, n) then kset (nth (fst d) ids 0%Z, snd s) ch m else m",
  "edit": "functions are looked up under the id of the receiving process",
  "breaks": [
   "C100"
  ]
 },
 {
  "file": "Cache_Model",
  "def": "Cache_Model.build_model",
  "old": "m_attrs := rev (map (fun v => (vi_name v, vi_value v)) (b_vars b));",
  "new": "m_attrs := rev (map (fun v => (vi_name v, [])) (b_vars b));",
  "edit": "initial values are not set",
  "breaks": [
   "C100"
  ]
 },
 {
  "file": "Cache_Model",
  "def": "Cache_Model.fresh_inits",
  "old": "map (fun q => ((fst ip, p_name q), make_port_init q)) (c_ports (snd ip))",
  "new": "map (fun q => ((0, p_name q), make_port_init q)) (c_ports (snd ip))",
  "edit": "initializers are registered under the first process",
  "breaks": [
   "C100"
  ]
 },
 {
  "file": "Cache_Model",
  "def": "Cache_Model.package",
  "old": "match init_of (fst sd) inits, init_of (snd sd) inits with Some _, Some _ => true | _, _ => false end",
  "new": "match init_of (fst sd) inits with Some _ => true | _ => false end",
  "edit": "the initializer of the destination is not looked up",
  "breaks": [
   "C100"
  ]
 }
]