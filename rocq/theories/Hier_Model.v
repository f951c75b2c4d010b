(** Model of expanding hierarchical processes and of folded views.
    /repo/src/lava/magma/core/model/sub/model.py find_sub_procs 58-71; core/process/process.py register_sub_procs 290-296,
    is_sub_proc_of 304-312, propagate_folded_views 314-318, Collection.add_members 604-615;
    compiler/compiler_graphs.py annotate_folded_view 166-180, ProcGroupDiGraphs.__init__ 641-662, _expand_sub_proc_model 967-1001,
    _map_proc_to_model 1003-1053, _collapse_isomodel_procs 1074-1079.
    Simplifications: finding and selecting a ProcessModel is a parameter ([choose], C29).  Building a SubProcessModel is a
    function of the process ([build]): what a second build of the same process holds is the same.  VarPorts and aliases are
    not touched (C23).  A sub-process name does not clash with an attribute of Collection itself.  Python's recursion limit is
    a number of nested calls ([fuel]); [None] is RecursionError. *)
From Coq Require Import List Bool Arith String.
Import ListNotations.

Inductive mclass := Leaf (m : nat) | Sub (m : nat).

(** an attribute of a built SubProcessModel *)
Inductive attr :=
| AProc (q : nat)                      (* a process *)
| AData (fields : list (option nat))   (* a dataclass object; its fields in order, [None]: not a process *)
| AColl (l : list nat)                 (* a list, tuple or dict of processes *)
| AOther.

Record world := mkWorld {
  cls : nat -> string;                          (* p.__class__.__name__ *)
  own : nat -> list (string * nat);             (* processes that are attributes of the process itself, process.py 260-262 *)
  choose : nat -> option mclass;                (* [None]: exception_proc_model_map gives None *)
  build : nat -> list (string * attr);          (* the attributes of model_cls(proc) in the order of dir() *)
  links : nat -> list nat }.                    (* _traverse_ports_of_proc: the processes at the other end of its ports *)

(** dict: setting a key keeps its place *)
Fixpoint put {A} (k : string) (v : A) (d : list (string * A)) : list (string * A) :=
  match d with
  | [] => [(k, v)]
  | (k', v') :: d' => if String.eqb k' k then (k, v) :: d' else (k', v') :: put k v d'
  end.
Definition put_all {A} (d e : list (string * A)) : list (string * A) := fold_left (fun acc x => put (fst x) (snd x) acc) e d.

(** find_sub_procs 58-71 *)
Definition find_step (w : world) (d : list (string * nat)) (na : string * attr) : list (string * nat) :=
  match snd na with
  | AProc q => put (fst na) q d
  | AData fs => fold_left (fun acc f => match f with Some q => put (cls w q) q acc | None => acc end) fs d
  | _ => d
  end.
Definition find_sub_procs (w : world) (p : nat) : list (string * nat) := fold_left (find_step w) (build w p) [].

Record state := mkState {
  parent : nat -> option nat;                   (* parent_proc *)
  procs : nat -> list (string * nat);           (* the Collection of sub-processes *)
  model_class : nat -> option mclass;           (* _model_class *)
  elab : list nat;                              (* elab_procs *)
  builds : list nat }.                          (* the processes whose SubProcessModel has been built, in order *)
Definition init (w : world) : state := mkState (fun _ => None) (own w) (fun _ => None) [] [].

Definition upd {A} (f : nat -> A) (i : nat) (a : A) : nat -> A := fun j => if Nat.eqb j i then a else f j.

(** register_sub_procs 290-296 *)
Definition register (st : state) (p : nat) (d : list (string * nat)) : state :=
  mkState (fold_left (fun f q => upd f q (Some p)) (map snd d) (parent st))
          (upd (procs st) p (put_all (procs st p) d)) (model_class st) (elab st) (builds st).

Definition pmap := list (nat * nat).            (* OrderedDict from processes to leaf models *)
Fixpoint putp (k v : nat) (d : pmap) : pmap :=
  match d with
  | [] => [(k, v)]
  | (k', v') :: d' => if Nat.eqb k' k then (k, v) :: d' else (k', v') :: putp k v d'
  end.
Definition updatep (d e : pmap) : pmap := fold_left (fun acc x => putp (fst x) (snd x) acc) e d.

Definition built (st : state) (p : nat) : state :=
  mkState (parent st) (procs st) (model_class st) (elab st) (builds st ++ [p]).
Definition done (st : state) (p : nat) : state :=
  mkState (parent st) (procs st) (model_class st) (elab st ++ [p]) (builds st).
Definition classed (st : state) (p : nat) (m : mclass) : state :=
  mkState (parent st) (procs st) (upd (model_class st) p (Some m)) (elab st) (builds st).

(** _map_proc_to_model 1034-1053; one level of [fuel] for each nested _expand_sub_proc_model *)
Fixpoint map_proc (fuel : nat) (w : world) (l : list nat) (st : state) : option (pmap * state) :=
  match fuel with
  | 0 => None
  | S f =>
    fold_left (fun acc p =>
      match acc with
      | None => None
      | Some (pm, s) =>
        match choose w p with
        | None => Some (pm, done s p)
        | Some (Leaf m) => Some (putp p m pm, done s p)
        | Some (Sub m) =>
          let d := find_sub_procs w p in
          match map_proc f w (map snd d) (register (built s p) p d) with
          | None => None
          | Some (sub, s') => Some (updatep pm sub, done (classed s' p (Sub m)) p)
          end
        end
      end) l (Some ([], st))
  end.

(** ProcGroupDiGraphs.__init__ 641-652 *)
Definition assign (pm : pmap) (st : state) : state :=
  fold_left (fun s x => classed s (fst x) (Leaf (snd x))) pm st.
Definition elaborate (limit : nat) (w : world) (l : list nat) : option (pmap * state) :=
  match map_proc limit w l (init w) with
  | None => None
  | Some (pm, st) => Some (pm, assign pm st)
  end.

(** the nodes of the resolved graph (662, ProcDiGraph.__init__), and the issubclass in _collapse_isomodel_procs 1076:
    TypeError for a node that has no model class *)
Definition nodes (w : world) (pm : pmap) : list nat := map fst pm ++ flat_map (links w) (map fst pm).
Inductive outcome := Resolved (l : list nat) | TypeError.
Definition resolve (w : world) (pm : pmap) (st : state) : outcome :=
  if forallb (fun p => match model_class st p with Some _ => true | None => false end) (nodes w pm)
  then Resolved (nodes w pm) else TypeError.

(** is_sub_proc_of 304-312 *)
Fixpoint is_sub_proc_of (fuel : nat) (st : state) (p q : nat) : option bool :=
  match fuel with
  | 0 => None
  | S f => match parent st p with
           | None => Some false
           | Some r => if Nat.eqb r q then Some true else is_sub_proc_of f st r q
           end
  end.

(** folded views: the class name and the number of the instance *)
Definition views := nat -> option (string * nat).
(** annotate_folded_view 171-177 *)
Definition mem_string (s : string) (l : list string) : bool := existsb (String.eqb s) l.
Fixpoint mark (w : world) (names : list string) (l : list nat) (id : nat) (v : views) : views :=
  match l with
  | [] => v
  | p :: l' => if mem_string (cls w p) names then mark w names l' (S id) (upd v p (Some (cls w p, id))) else mark w names l' id v
  end.
(** propagate_folded_views 314-318 *)
Fixpoint propagate (fuel : nat) (st : state) (p : nat) (v : views) : option views :=
  match fuel with
  | 0 => None
  | S f => fold_left (fun acc q => match acc with None => None | Some v' => propagate f st q (upd v' q (v' p)) end)
                     (map snd (procs st p)) (Some v)
  end.
(** annotate_folded_view; [order]: the order in which the set [annotated] is iterated *)
Definition annotate (fuel : nat) (w : world) (st : state) (names : list string) (order : list nat) : option views :=
  fold_left (fun acc p => match acc with None => None | Some v => propagate fuel st p v end)
            order (Some (mark w names (elab st) 0 (fun _ => None))).
