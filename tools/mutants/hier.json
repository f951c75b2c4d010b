[
 {
  "file": "Hier_Model",
  "def": "Hier_Model.put",
  "old": "if String.eqb k' k then (k, v) :: d' else",
  "new": "if String.eqb k' k then (k', v') :: d' else",
  "edit": "a key that is there keeps its value [C103: the last process of a name is found]",
  "breaks": [
   "C103"
  ]
 },
 {
  "file": "Hier_Model",
  "def": "Hier_Model.find_step",
  "old": "| AProc q => put (fst na) q d",
  "new": "| AProc q => put (cls w q) q d",
  "edit": "attributes under the class name [C103: a process per attribute is found]",
  "breaks": [
   "C103"
  ]
 },
 {
  "file": "Hier_Model",
  "def": "Hier_Model.find_step",
  "old": "fold_left (fun acc f => match f with Some q => put (cls w q) q acc | None => acc end) fs d",
  "new": "fold_left (fun acc f => match f with Some q => put (fst na) q acc | None => acc end) fs d",
  "edit": "dataclass fields under the attribute name [C103: processes of different classes in a dataclass are found]",
  "breaks": [
   "C103"
  ]
 },
 {
  "file": "Hier_Model",
  "def": "Hier_Model.find_step",
  "old": "fold_left (fun acc f => match f with Some q => put (cls w q) q acc | None => acc end) fs d",
  "new": "d",
  "edit": "dataclasses not looked at [C103: a process in a dataclass is found]",
  "breaks": [
   "C103"
  ]
 },
 {
  "file": "Hier_Model",
  "def": "Hier_Model.find_step",
  "old": "fold_left (fun acc f => match f with Some q => put (cls w q) q acc | None => acc end) fs d",
  "new": "match fs with Some q :: _ => put (cls w q) q d | _ => d end",
  "edit": "only the first field of a dataclass [C103: every field is found]",
  "breaks": [
   "C103"
  ]
 },
 {
  "file": "Hier_Model",
  "def": "Hier_Model.find_step",
  "old": "  | _ => d\n  end.",
  "new": "  | AColl l => fold_left (fun acc q => put (fst na) q acc) l d\n  | _ => d\n  end.",
  "edit": "collections: the last process is found [C103: no process of a collection is found]",
  "breaks": [
   "C103"
  ]
 },
 {
  "file": "Hier_Model",
  "def": "Hier_Model.register",
  "old": "(fold_left (fun f q => upd f q (Some p)) (map snd d) (parent st))",
  "new": "(parent st)",
  "edit": "no parent set [C103: parents]",
  "breaks": [
   "C103"
  ]
 },
 {
  "file": "Hier_Model",
  "def": "Hier_Model.register",
  "old": "fun f q => upd f q (Some p)",
  "new": "fun f q => upd f p (Some q)",
  "edit": "swapped: the sub-process is the parent [C103: parents]",
  "breaks": [
   "C103"
  ]
 },
 {
  "file": "Hier_Model",
  "def": "Hier_Model.register",
  "old": "(upd (procs st) p (put_all (procs st p) d))",
  "new": "(procs st)",
  "edit": "sub-processes not added [C103: members]",
  "breaks": [
   "C103"
  ]
 },
 {
  "file": "Hier_Model",
  "def": "Hier_Model.register",
  "old": "(upd (procs st) p (put_all (procs st p) d))",
  "new": "(upd (procs st) p (put_all d (procs st p)))",
  "edit": "members of its own win over sub-processes [C103: members]",
  "breaks": [
   "C103"
  ]
 },
 {
  "file": "Hier_Model",
  "def": "Hier_Model.putp",
  "old": "if Nat.eqb k' k then (k, v) :: d' else (k', v') :: putp k v d'",
  "new": "(k', v') :: putp k v d'",
  "edit": "a process already mapped is added again [C103: each compiled once]",
  "breaks": [
   "C103"
  ]
 },
 {
  "file": "Hier_Model",
  "def": "Hier_Model.updatep",
  "old": "Definition updatep (d e : pmap) : pmap := fold_left (fun acc x => putp (fst x) (snd x) acc) e d.",
  "new": "Definition updatep (d e : pmap) : pmap := e.",
  "edit": "the sub-map replaces the map [C103: every leaf compiled]",
  "breaks": [
   "C103"
  ]
 },
 {
  "file": "Hier_Model",
  "def": "Hier_Model.updatep",
  "old": "Definition updatep (d e : pmap) : pmap := fold_left (fun acc x => putp (fst x) (snd x) acc) e d.",
  "new": "Definition updatep (d e : pmap) : pmap := d.",
  "edit": "the sub-map is dropped [C103: leaves inside a hierarchical process compiled]",
  "breaks": [
   "C103"
  ]
 },
 {
  "file": "Hier_Model",
  "def": "Hier_Model.map_proc",
  "old": "Some (updatep pm sub, done (classed s' p (Sub m)) p)",
  "new": "Some (putp p m (updatep pm sub), done (classed s' p (Sub m)) p)",
  "edit": "the hierarchical process itself is mapped [C103: only leaves compiled]",
  "breaks": [
   "C103"
  ]
 },
 {
  "file": "Hier_Model",
  "def": "Hier_Model.map_proc",
  "old": "Some (updatep pm sub, done (classed s' p (Sub m)) p)",
  "new": "Some (updatep pm sub, done s' p)",
  "edit": "no model class for hierarchical processes [C103: model classes; TypeError when connected]",
  "breaks": [
   "C103"
  ]
 },
 {
  "file": "Hier_Model",
  "def": "Hier_Model.map_proc",
  "old": "Some (updatep pm sub, done (classed s' p (Sub m)) p)",
  "new": "Some (updatep pm sub, classed s' p (Sub m))",
  "edit": "hierarchical processes not elaborated [C103: folding of hierarchical processes]",
  "breaks": [
   "C103"
  ]
 },
 {
  "file": "Hier_Model",
  "def": "Hier_Model.map_proc",
  "old": "map_proc f w (map snd d) (register (built s p) p d)",
  "new": "map_proc f w (firstn 1 (map snd d)) (register (built s p) p d)",
  "edit": "only the first sub-process expanded [C103: all leaves compiled]",
  "breaks": [
   "C103"
  ]
 },
 {
  "file": "Hier_Model",
  "def": "Hier_Model.map_proc",
  "old": "map_proc f w (map snd d) (register (built s p) p d)",
  "new": "map_proc f w (map snd d) (register (built (built s p) p) p d)",
  "edit": "the model is built twice [C103: built once]",
  "breaks": [
   "C103"
  ]
 },
 {
  "file": "Hier_Model",
  "def": "Hier_Model.map_proc",
  "old": "map_proc f w (map snd d) (register (built s p) p d)",
  "new": "map_proc f w (map snd d) (built s p)",
  "edit": "sub-processes not registered [C103: parents and members]",
  "breaks": [
   "C103"
  ]
 },
 {
  "file": "Hier_Model",
  "def": "Hier_Model.map_proc",
  "old": "let d := find_sub_procs w p in",
  "new": "let d := filter (fun x => negb (Nat.eqb (snd x) p)) (find_sub_procs w p) in",
  "edit": "the own process is left out (a repair) [C103: a model that stores its process never compiles]",
  "breaks": [
   "C103"
  ]
 },
 {
  "file": "Hier_Model",
  "def": "Hier_Model.map_proc",
  "old": "| None => Some (pm, done s p)",
  "new": "| None => Some (putp p 0 pm, done s p)",
  "edit": "no model: mapped to a default one [C103: only processes with a leaf model compiled]",
  "breaks": [
   "C103"
  ]
 },
 {
  "file": "Hier_Model",
  "def": "Hier_Model.map_proc",
  "old": "| Some (Leaf m) => Some (putp p m pm, done s p)",
  "new": "| Some (Leaf m) => Some (putp p m pm, s)",
  "edit": "leaves not elaborated [C103: elaborated processes]",
  "breaks": [
   "C103"
  ]
 },
 {
  "file": "Hier_Model",
  "def": "Hier_Model.map_proc",
  "old": "| Some (Leaf m) => Some (putp p m pm, done s p)",
  "new": "| Some (Leaf m) => Some (putp p p pm, done s p)",
  "edit": "wrong model [C103: model of each leaf]",
  "breaks": [
   "C103"
  ]
 },
 {
  "file": "Hier_Model",
  "def": "Hier_Model.assign",
  "old": "fold_left (fun s x => classed s (fst x) (Leaf (snd x))) pm st",
  "new": "fold_left (fun s x => classed s (fst x) (Leaf (snd x))) (tl pm) st",
  "edit": "the first leaf gets no model class [C103: model classes]",
  "breaks": [
   "C103"
  ]
 },
 {
  "file": "Hier_Model",
  "def": "Hier_Model.elaborate",
  "old": "Some (pm, assign pm st)",
  "new": "Some (pm, st)",
  "edit": "model classes not assigned [C103: model classes]",
  "breaks": [
   "C103"
  ]
 },
 {
  "file": "Hier_Model",
  "def": "Hier_Model.resolve",
  "old": "(nodes w pm)\n  then",
  "new": "(map fst pm)\n  then",
  "edit": "connected processes not checked [C103: TypeError]",
  "breaks": [
   "C103"
  ]
 },
 {
  "file": "Hier_Model",
  "def": "Hier_Model.nodes",
  "old": "map fst pm ++ flat_map (links w) (map fst pm)",
  "new": "map fst pm",
  "edit": "connected processes are not nodes [C103: the resolved graph]",
  "breaks": [
   "C103"
  ]
 },
 {
  "file": "Hier_Model",
  "def": "Hier_Model.is_sub_proc_of",
  "old": "if Nat.eqb r q then Some true else is_sub_proc_of f st r q",
  "new": "if Nat.eqb p q then Some true else is_sub_proc_of f st r q",
  "edit": "a process is inside itself [C103: is_sub_proc_of]",
  "breaks": [
   "C103"
  ]
 },
 {
  "file": "Hier_Model",
  "def": "Hier_Model.is_sub_proc_of",
  "old": "if Nat.eqb r q then Some true else is_sub_proc_of f st r q",
  "new": "if Nat.eqb r q then Some true else Some false",
  "edit": "only the direct parent [C103: is_sub_proc_of]",
  "breaks": [
   "C103"
  ]
 },
 {
  "file": "Hier_Model",
  "def": "Hier_Model.is_sub_proc_of",
  "old": "| None => Some false",
  "new": "| None => Some true",
  "edit": "at the top: true [C103: is_sub_proc_of]",
  "breaks": [
   "C103"
  ]
 },
 {
  "file": "Hier_Model",
  "def": "Hier_Model.mark",
  "old": "mark w names l' (S id) (upd v p (Some (cls w p, id)))",
  "new": "mark w names l' id (upd v p (Some (cls w p, id)))",
  "edit": "number not increased [C103: different numbers]",
  "breaks": [
   "C103"
  ]
 },
 {
  "file": "Hier_Model",
  "def": "Hier_Model.mark",
  "old": "(upd v p (Some (cls w p, id))) else",
  "new": "(upd v p (Some (cls w p, 0))) else",
  "edit": "number always 0 [C103: different numbers]",
  "breaks": [
   "C103"
  ]
 },
 {
  "file": "Hier_Model",
  "def": "Hier_Model.mark",
  "old": "if mem_string (cls w p) names then",
  "new": "if true then",
  "edit": "every process is folded [C103: only the classes given are folded]",
  "breaks": [
   "C103"
  ]
 },
 {
  "file": "Hier_Model",
  "def": "Hier_Model.propagate",
  "old": "propagate f st q (upd v' q (v' p))",
  "new": "propagate f st q (upd v' p (v' q))",
  "edit": "view copied from child to parent [C103: the outermost view]",
  "breaks": [
   "C103"
  ]
 },
 {
  "file": "Hier_Model",
  "def": "Hier_Model.propagate",
  "old": "propagate f st q (upd v' q (v' p))",
  "new": "Some (upd v' q (v' p))",
  "edit": "not recursive [C103: every depth]",
  "breaks": [
   "C103"
  ]
 },
 {
  "file": "Hier_Model",
  "def": "Hier_Model.propagate",
  "old": "propagate f st q (upd v' q (v' p))",
  "new": "(match v' q with Some _ => Some v' | None => propagate f st q (upd v' q (v' p)) end)",
  "edit": "a process that has a view keeps it [C103: outermost wins, order]",
  "breaks": [
   "C103"
  ]
 },
 {
  "file": "Hier_Model",
  "def": "Hier_Model.propagate",
  "old": "propagate f st q (upd v' q (v' p))",
  "new": "propagate f st q (upd v' q (v q))",
  "edit": "view of the child before the loop [C103: the outermost view]",
  "breaks": [
   "C103"
  ]
 },
 {
  "file": "Hier_Model",
  "def": "Hier_Model.annotate",
  "old": "order (Some (mark w names (elab st) 0 (fun _ => None)))",
  "new": "(firstn 1 order) (Some (mark w names (elab st) 0 (fun _ => None)))",
  "edit": "only one folded process is propagated [C103: each folded process]",
  "breaks": [
   "C103"
  ]
 },
 {
  "file": "Hier_Model",
  "def": "Hier_Model.annotate",
  "old": "order (Some (mark w names (elab st) 0 (fun _ => None)))",
  "new": "order (Some (mark w names (rev (elab st)) 0 (fun _ => None)))",
  "edit": "numbers from the other end [(none: numbers stay different; the statement does not fix them)]",
  "breaks": []
 }
]