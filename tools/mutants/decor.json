[
 {
  "file": "Decor_Model",
  "def": "apply_tag",
  "old": "super_tags ++ flat_map to_tag l",
  "new": "flat_map to_tag l ++ super_tags",
  "edit": "tags put in front of the inherited ones",
  "breaks": [
   "C94"
  ]
 },
 {
  "file": "Decor_Model",
  "def": "apply_tag",
  "old": "(upd st c (set_tags (super_tags ++ flat_map to_tag l)), Done)",
  "new": "(upd st c (set_tags (flat_map to_tag l)), Done)",
  "edit": "inherited tags dropped",
  "breaks": [
   "C94"
  ]
 },
 {
  "file": "Decor_Model",
  "def": "apply_tag",
  "old": "(upd st c (set_tags (super_tags ++ flat_map to_tag l)), Done)",
  "new": "(upd st 0 (set_tags (super_tags ++ flat_map to_tag l)), Done)",
  "edit": "list of the base class extended in place",
  "breaks": [
   "C94"
  ]
 },
 {
  "file": "Decor_Model",
  "def": "apply_req",
  "old": "super_res ++ flat_map to_req l",
  "new": "super_res",
  "edit": "new requirements dropped",
  "breaks": [
   "C94"
  ]
 },
 {
  "file": "Decor_Model",
  "def": "apply_req",
  "old": "super_res ++ flat_map to_req l",
  "new": "flat_map to_req l",
  "edit": "inherited requirements dropped",
  "breaks": [
   "C94"
  ]
 },
 {
  "file": "Decor_Model",
  "def": "apply_req",
  "old": "(upd st c (set_req (super_res ++ flat_map to_req l)), Done)",
  "new": "(map (set_req (super_res ++ flat_map to_req l)) st, Done)",
  "edit": "shared list of requirements",
  "breaks": [
   "C94"
  ]
 },
 {
  "file": "Decor_Model",
  "def": "to_req",
  "old": "[Alt (flat_map good_of l)]",
  "new": "map One (flat_map good_of l)",
  "edit": "alternatives flattened",
  "breaks": [
   "C94"
  ]
 },
 {
  "file": "Decor_Model",
  "def": "apply_impl",
  "old": "if conflict (attr k_proc st c) p then (st, AssertionErr) else",
  "new": "",
  "edit": "conflicting process not refused",
  "breaks": [
   "C94"
  ]
 },
 {
  "file": "Decor_Model",
  "def": "apply_impl",
  "old": "if conflict (attr k_proto st1 c) q then (st1, AssertionErr) else",
  "new": "",
  "edit": "conflicting protocol not refused",
  "breaks": [
   "C94"
  ]
 },
 {
  "file": "Decor_Model",
  "def": "apply_impl",
  "old": "CGood n => upd st1 c (set_proto n) | _ => st1",
  "new": "CGood n => upd st1 c (set_proc n) | _ => st1",
  "edit": "protocol stored as process",
  "breaks": [
   "C94"
  ]
 },
 {
  "file": "Decor_Model",
  "def": "apply_impl",
  "old": "match p with CGood n => upd st c (set_proc n) | _ => st end",
  "new": "match q with CGood n => upd st c (set_proc n) | _ => st end",
  "edit": "arguments swapped",
  "breaks": [
   "C94"
  ]
 },
 {
  "file": "Decor_Model",
  "def": "apply_impl",
  "old": "CGood n => upd st c (set_proc n) | _ => st end",
  "new": "CGood n => upd st c (set_proc n) | _ => upd st c (fun k => mkcls (k_mro k) (Some None) (k_proto k) (k_req k) (k_tags k)) end",
  "edit": "None overwrites the inherited process",
  "breaks": [
   "C94"
  ]
 },
 {
  "file": "Decor_Model",
  "def": "conflict",
  "old": "negb (p =? q)",
  "new": "true",
  "edit": "repeating the same process refused",
  "breaks": [
   "C94"
  ]
 },
 {
  "file": "Decor_Model",
  "def": "conflict",
  "old": "| Some (Some p), CGood q => negb (p =? q)",
  "new": "| Some (Some p), _ => true | Some None, CGood q => false",
  "edit": "any second @implements refused",
  "breaks": [
   "C94"
  ]
 },
 {
  "file": "Decor_Model",
  "def": "is_pm",
  "old": "memb 0 (mro_of st c)",
  "new": "true",
  "edit": "classes that are no ProcessModel accepted",
  "breaks": [
   "C94"
  ]
 },
 {
  "file": "Decor_Model",
  "def": "is_pm",
  "old": "memb 0 (mro_of st c)",
  "new": "memb 0 (tl (mro_of st c))",
  "edit": "AbstractProcessModel itself refused",
  "breaks": [
   "C94"
  ]
 },
 {
  "file": "Decor_Model",
  "def": "check_tag",
  "old": "TOther => AssertionErr",
  "new": "TOther => Done",
  "edit": "tags that are not strings ignored",
  "breaks": [
   "C94"
  ]
 },
 {
  "file": "Decor_Model",
  "def": "check_res",
  "old": "| CNone | CNotClass => TypeErr",
  "new": "| CNone => Done | CNotClass => TypeErr",
  "edit": "None accepted as a resource",
  "breaks": [
   "C94"
  ]
 },
 {
  "file": "Decor_Model",
  "def": "check_all",
  "old": "match check_res a with Done => check_all l' | e => e end",
  "new": "check_res a",
  "edit": "only the first alternative checked",
  "breaks": [
   "C94"
  ]
 },
 {
  "file": "Decor_Model",
  "def": "check_impl",
  "old": "| CGood _ => Done\n  | COther => AssertionErr\n  | CNotClass => TypeErr",
  "new": "| CGood _ => Done\n  | COther => Done\n  | CNotClass => TypeErr",
  "edit": "any class accepted as a process",
  "breaks": [
   "C94"
  ]
 },
 {
  "file": "Decor_Model",
  "def": "check_dec",
  "old": "| Implements p q => match check_impl p with Done => check_impl q | e => e end",
  "new": "| Implements p q => check_impl p",
  "edit": "protocol not checked",
  "breaks": [
   "C94"
  ]
 },
 {
  "file": "Decor_Model",
  "def": "set_tags",
  "old": "mkcls (k_mro k) (k_proc k) (k_proto k) (k_req k) (Some l)",
  "new": "mkcls (k_mro k) (k_proc k) (k_proto k) (Some []) (Some l)",
  "edit": "tag forgets the requirements",
  "breaks": [
   "C94"
  ]
 },
 {
  "file": "Decor_Model",
  "def": "set_proc",
  "old": "mkcls (k_mro k) (Some (Some p)) (k_proto k) (k_req k) (k_tags k)",
  "new": "mkcls (k_mro k) (Some (Some p)) (Some (Some p)) (k_req k) (k_tags k)",
  "edit": "protocol overwritten with the process",
  "breaks": [
   "C94"
  ]
 },
 {
  "file": "Decor_Model",
  "def": "find_models",
  "old": "| Some (Some q) => p =? q",
  "new": "| Some (Some q) => p <=? q",
  "edit": "wrong comparison in the search for models",
  "breaks": [
   "C94"
  ]
 },
 {
  "file": "Decor_Model",
  "def": "find_models",
  "old": "filter (fun c => is_pm st c &&",
  "new": "filter (fun c => (match nth_error st c with Some k => match k_proc k with Some (Some _) => true | _ => false end | None => false end) &&",
  "edit": "only classes with a decorator of their own are candidates",
  "breaks": [
   "C94"
  ]
 },
 {
  "file": "Decor_Model",
  "def": "exec",
  "old": "(st ++ [mkcls l (b_proc b) (b_proto b) (b_req b) (b_tags b)], Done)",
  "new": "(st ++ [mkcls l (b_proc b) (b_proto b) (b_req b) None], Done)",
  "edit": "body's tags ignored",
  "breaks": [
   "C94"
  ]
 },
 {
  "file": "Decor_Model",
  "def": "linearise",
  "old": "map (mro_of st) bases ++ [bases]",
  "new": "map (mro_of st) bases",
  "edit": "order of the bases not respected - equivalent for the stated claims except the class order of equal-rank bases; expected to survive",
  "breaks": []
 },
 {
  "file": "Decor_Model",
  "def": "apply_decs",
  "old": "| (st', Done) => apply_decs st' c l'",
  "new": "| (st', Done) => Some st'",
  "edit": "only the lowest decorator applied",
  "breaks": [
   "C94"
  ]
 }
]