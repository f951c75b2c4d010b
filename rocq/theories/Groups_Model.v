(** Model of the graph surgery that turns processes into process groups
    (/repo/src/lava/magma/compiler/compiler_graphs.py): DiGraphBase (184-362) and
    ProcGroupDiGraphs (1054-1143).  networkx graphs are lists of nodes and of edges. *)
From Coq Require Import List Arith Bool.
Import ListNotations.

(** A node is a process or a graph object standing for the processes inside it (280-335).
    Simplification: the inner edges of a collapsed graph are dropped (nothing reads them), and object
    identity is structural equality (two groups never have the same members). *)
Inductive node := GP (p : nat) | GG (ns : list node).

Fixpoint node_eqb (a b : node) {struct a} : bool :=
  match a, b with
  | GP x, GP y => x =? y
  | GG l, GG m =>
      (fix go (l m : list node) {struct l} : bool :=
         match l, m with
         | [], [] => true
         | x :: l', y :: m' => node_eqb x y && go l' m'
         | _, _ => false
         end) l m
  | _, _ => false
  end.

Definition nmem (x : node) (l : list node) : bool := existsb (node_eqb x) l.
Definition edge_eqb (e f : node * node) : bool := node_eqb (fst e) (fst f) && node_eqb (snd e) (snd f).

Record dgraph := { nodes : list node; edges : list (node * node) }.

(** networkx.DiGraph primitives *)
Definition succs (g : dgraph) (n : node) : list node := map snd (filter (fun e => node_eqb (fst e) n) (edges g)).
Definition preds (g : dgraph) (n : node) : list node := map fst (filter (fun e => node_eqb (snd e) n) (edges g)).
Definition add_node (g : dgraph) (n : node) : dgraph :=
  if nmem n (nodes g) then g else {| nodes := nodes g ++ [n]; edges := edges g |}.
Definition add_edge (g : dgraph) (u v : node) : dgraph :=
  let g1 := add_node (add_node g u) v in
  if existsb (edge_eqb (u, v)) (edges g1) then g1 else {| nodes := nodes g1; edges := edges g1 ++ [(u, v)] |}.
Definition remove_nodes (g : dgraph) (l : list node) : dgraph :=
  {| nodes := filter (fun n => negb (nmem n l)) (nodes g);
     edges := filter (fun e => negb (nmem (fst e) l) && negb (nmem (snd e) l)) (edges g) |}.
Definition remove_node (g : dgraph) (n : node) : dgraph := remove_nodes g [n].
(** graph.subgraph(l).copy() *)
Definition subgraph (g : dgraph) (l : list node) : dgraph :=
  {| nodes := filter (fun n => nmem n l) (nodes g);
     edges := filter (fun e => nmem (fst e) l && nmem (snd e) l) (edges g) |}.

(** annotate_digraph_by_degree (199-230), the two annotations that are ever read *)
Definition pure_in (g : dgraph) (n : node) : bool :=
  negb (length (succs g n) =? 0) && (length (preds g n) =? 0).
Definition isolated (g : dgraph) (n : node) : bool :=
  (length (succs g n) =? 0) && (length (preds g n) =? 0).

(** is_dag (232-278); [fuel] is the recursion limit, [None] RecursionError.  Result: answer and residual graph. *)
Fixpoint is_dag (fuel : nat) (g : dgraph) : option (bool * dgraph) :=
  match fuel with
  | 0 => None
  | S f =>
      let leaves := filter (pure_in g) (nodes g) in
      let res := match leaves with
                 | [] => Some g
                 | _ => match is_dag f (remove_nodes g leaves) with
                        | Some (_, g') => Some g'
                        | None => None
                        end
                 end in
      match res with
      | None => None
      | Some g' =>
          if 1 <? length (nodes g')
          then Some (length (nodes g') =? length (filter (isolated g') (nodes g')), g')
          else Some (true, g')
      end
  end.

Section Collapse.
(** Python's iteration order over set objects *)
Variable setorder : list node -> list node.

Definition same_set (a b : list node) : bool := forallb (fun x => nmem x b) a && forallb (fun x => nmem x a) b.
Fixpoint edges_eqb (a b : list (node * node)) : bool :=
  match a, b with
  | [], [] => true
  | x :: a', y :: b' => edge_eqb x y && edges_eqb a' b'
  | _, _ => false
  end.

(** the inner loop of 322-331: for one node of the subgraph *)
Definition collapse_node (sub : dgraph) (new : node) (og : dgraph) (n : node) : dgraph :=
  let neighbours := filter (fun m => negb (nmem m (nodes sub))) (setorder (succs og n ++ preds og n)) in
  let og1 := fold_left (fun og m =>
      let og := if nmem m (succs og n) then add_edge og new m else og in
      if nmem m (preds og n) then add_edge og m new else og) neighbours og in
  remove_node og1 n.

(** collapse_subgraph_to_node (280-335); [None] = AssertionError.  The attribute 'degdef' of the
    subgraph's nodes is copied from the graph it was taken from. *)
Definition collapse (g sub : dgraph) : option dgraph :=
  if negb (forallb (fun n => nmem n (nodes g)) (nodes sub)) then None
  else match nodes sub with
  | [] => Some g
  | n :: r =>
      if (match r with [] => true | _ => false end) && isolated g n then Some g
      else if edges_eqb (edges sub) (edges g) && same_set (nodes sub) (nodes g)
      then Some {| nodes := [GG (nodes g)]; edges := [] |}
      else Some (fold_left (collapse_node sub (GG (nodes sub))) (nodes sub) g)
  end.

(** collapse_cycles_to_nodes (337-362).  networkx.simple_cycles is external; the code takes the first
    longest cycle, the relation allows any simple cycle. *)
Fixpoint chain (g : dgraph) (x : node) (r : list node) (last : node) : Prop :=
  match r with
  | [] => In (x, last) (edges g)
  | y :: r' => In (x, y) (edges g) /\ chain g y r' last
  end.
Definition is_cycle (g : dgraph) (c : list node) : Prop :=
  match c with [] => False | x :: r => NoDup c /\ chain g x r x end.
Inductive collapse_cycles : dgraph -> dgraph -> Prop :=
| CC_done g : (forall c, ~ is_cycle g c) -> collapse_cycles g g
| CC_step g c g1 g2 : is_cycle g c -> collapse g (subgraph g c) = Some g1 -> collapse_cycles g1 g2 -> collapse_cycles g g2.

(** _collapse_isomodel_procs (1054-1083).  [mtype p]: 0 Py, 1 C, 2 Nc, else none of ProcessModelTypes.
    [wccs]: networkx.weakly_connected_components. *)
Variable mtype : nat -> nat.
Variable wccs : dgraph -> list (list node).

Definition of_type (t : nat) (n : node) : bool := match n with GP p => mtype p =? t | GG _ => false end.
Definition model_sg (rpg : dgraph) (t : nat) : dgraph := subgraph rpg (filter (of_type t) (nodes rpg)).
Definition subs (rpg : dgraph) : list dgraph :=
  flat_map (fun t => map (subgraph (model_sg rpg t)) (filter (fun wcc => 1 <? length wcc) (wccs (model_sg rpg t)))) [0;1;2].
Definition collapse_isomodel (rpg : dgraph) : option dgraph :=
  fold_left (fun st sub => match st with Some g => collapse g sub | None => None end) (subs rpg) (Some rpg).
End Collapse.

(** flatten_list_recursive (76-97) on nested Python lists; [None] = RecursionError *)
Inductive pyval := VP (p : nat) | VL (l : list pyval).
Fixpoint flatten_list_recursive (fuel : nat) (ll : list pyval) : option (list pyval) :=
  match fuel with
  | 0 => None
  | S f => match ll with
           | [] => Some []
           | VL a :: r => match flatten_list_recursive f a, flatten_list_recursive f r with
                          | Some x, Some y => Some (x ++ y)
                          | _, _ => None
                          end
           | VP p :: r => match flatten_list_recursive f r with Some y => Some (VP p :: y) | None => None end
           end
  end.

(** _flatten_node_of_proc_group_digraph (1085-1113) *)
Fixpoint flatten_node (lim : nat) (n : node) : option (list pyval) :=
  match n with
  | GP p => Some [VP p]
  | GG l =>
      match (fix go (l : list node) : option (list pyval) :=
               match l with
               | [] => Some []
               | x :: r => match flatten_node lim x, go r with
                           | Some a, Some b => Some (VL a :: b)
                           | _, _ => None
                           end
               end) l with
      | Some ll => flatten_list_recursive lim ll
      | None => None
      end
  end.

(** get_proc_groups (1115-1143); [topo]: networkx.topological_sort of the group graph *)
Definition get_proc_groups (lim : nat) (topo : list node) : option (list (list pyval)) :=
  fold_right (fun n acc => match flatten_node lim n, acc with Some a, Some b => Some (a :: b) | _, _ => None end)
    (Some []) (rev topo).
