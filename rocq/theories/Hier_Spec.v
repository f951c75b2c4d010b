(** Specification vocabulary for C103. *)
From Coq Require Import List Bool Arith String.
From Verif Require Import Hier_Model.
Import ListNotations.

(** ** the sub-processes of a hierarchical process *)
(** the built model of [p] holds the process [q]: in an attribute, in a field of a dataclass object, or in a collection *)
Definition Holds (w : world) (p q : nat) : Prop :=
  exists n a, In (n, a) (build w p) /\
    match a with AProc q' => q' = q | AData fs => In (Some q) fs | AColl l => In q l | AOther => False end.
(** under which names: attribute name, or class name for a field of a dataclass *)
Definition names_of (w : world) (na : string * attr) : list string :=
  match snd na with
  | AProc _ => [fst na]
  | AData fs => flat_map (fun f => match f with Some q => [cls w q] | None => [] end) fs
  | _ => []
  end.
(** no collection of processes, and no name twice *)
Definition PlainModel (w : world) (p : nat) : Prop :=
  (forall n l, ~ In (n, AColl l) (build w p)) /\ NoDup (flat_map (names_of w) (build w p)).

(** [p] gets a SubProcessModel *)
Definition Hierarchical (w : world) (p : nat) : Prop := exists m, choose w p = Some (Sub m).
(** [q] is found in the model of [p] *)
Definition Found (w : world) (p q : nat) : Prop := Hierarchical w p /\ exists k, In (k, q) (find_sub_procs w p).
(** [q] is [p] or inside it, at any depth *)
Inductive Inside (w : world) : nat -> nat -> Prop :=
| in_self p : Inside w p p
| in_step p q r : Found w p q -> Inside w q r -> Inside w p r.
(** ... strictly inside *)
Definition StrictlyInside (w : world) (p r : nat) : Prop := exists q, Found w p q /\ Inside w q r.

(** [n] hierarchical processes nested in one another, the outermost is [p] *)
Fixpoint Nested (w : world) (n : nat) (p : nat) : Prop :=
  match n with
  | 0 => True
  | S k => Hierarchical w p /\ (k = 0 \/ exists q, Found w p q /\ Nested w k q)
  end.

(** a network of trees: every sub-process is found once, and no process of the list is a sub-process *)
Definition Trees (w : world) (l : list nat) : Prop :=
  NoDup l /\ (forall p, NoDup (map snd (find_sub_procs w p))) /\
  (forall p p' q, Found w p q -> Found w p' q -> p = p') /\
  (forall p q, In q l -> ~ Found w p q).

(** ** folded views, on the sub-processes registered in a state *)
Definition Member (st : state) (p q : nat) : Prop := In q (map snd (procs st p)).
Inductive Under (st : state) : nat -> nat -> Prop :=
| un_one p q : Member st p q -> Under st p q
| un_more p q r : Member st p q -> Under st q r -> Under st p r.
(** every process is in at most one other *)
Definition OneParent (st : state) : Prop := forall p p' q, Member st p q -> Member st p' q -> p = p'.
(** the class of [p] is to be folded *)
Definition Folds (w : world) (st : state) (names : list string) (p : nat) : Prop := In p (elab st) /\ In (cls w p) names.
(** [a] is [q] or around it, is folded, and nothing around [a] is folded *)
Definition Outermost (w : world) (st : state) (names : list string) (a q : nat) : Prop :=
  (a = q \/ Under st a q) /\ Folds w st names a /\ forall b, Under st b a -> ~ Folds w st names b.
