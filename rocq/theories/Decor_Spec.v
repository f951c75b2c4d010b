(* Specification for C94, in terms of what a user reads off a class. *)
From Coq Require Import List Arith String Bool.
From Verif Require Import Decor_Model.
Import ListNotations.

(* What a user reads: Model.tags, Model.required_resources,
   Model.implements_process, Model.implements_protocol. *)
Definition tags_of (st : table) (c : nat) := attr k_tags st c.
Definition res_of (st : table) (c : nat) := attr k_req st c.
Definition proc_of (st : table) (c : nat) := attr k_proc st c.
Definition proto_of (st : table) (c : nat) := attr k_proto st c.

(* The keywords a decorator names. *)
Definition dec_tags (d : dec) : list string :=
  match d with
  | Tag l => flat_map (fun a => match a with TStr s => [s] | TOther => [] end) l
  | _ => []
  end.

Definition dec_res (d : dec) : list req :=
  match d with
  | Requires l =>
      flat_map (fun a => match a with
        | RArg (CGood r) => [One r]
        | RArg _ => []
        | RList rs => [Alt (flat_map (fun a => match a with CGood r => [r]
                                                      | _ => [] end) rs)]
        end) l
  | _ => []
  end.

(* The process a decorator names. *)
Definition names_proc (d : dec) (p : nat) : Prop :=
  exists q, d = Implements (CGood p) q.
Definition names_proto (d : dec) (p : nat) : Prop :=
  exists q, d = Implements q (CGood p).

(* Class statement number i of a module defines class S i (0 is
   AbstractProcessModel). [lineage P c l]: c and its parents, following the
   only base of each, are the class statements l, oldest first. *)
Inductive lineage (P : list decl) : nat -> list decl -> Prop :=
| lin_root : lineage P 0 []
| lin_child : forall i d p l,
    nth_error P i = Some d -> d_bases d = [p] -> d_body d = empty_body ->
    lineage P p l -> lineage P (S i) (l ++ [d]).

(* every decorator of a list of class statements, oldest class first and the
   lowest decorator of a class first *)
Definition all_decs (l : list decl) : list dec := flat_map d_decs l.

(* [c] is [d] or a parent, grandparent, ... of it *)
Definition ancestor (st : table) (c d : nat) : Prop := In c (mro_of st d).

Definition reachable (st : table) : Prop := exists h, st = exec_all table0 h.

(* Histories in which every class has exactly one base and no class body
   assigns the attribute itself. *)
Definition plain (s : stmt) : Prop :=
  match s with
  | NewClass [_] b => b = empty_body
  | NewClass _ _ => False
  | Decorate _ _ => True
  end.

(* valid arguments, as documented (None is only accepted by implements) *)
Definition valid_dec (d : dec) : Prop :=
  match d with
  | Implements p q => (p = CNone \/ exists n, p = CGood n) /\
                      (q = CNone \/ exists n, q = CGood n)
  | Requires l => forall a, In a l ->
      (exists r, a = RArg (CGood r)) \/
      (exists rs, a = RList (map CGood rs))
  | Tag l => forall a, In a l -> exists s, a = TStr s
  end.

(* no conflict with what the class already implements *)
Definition no_conflict (st : table) (c : nat) (d : dec) : Prop :=
  match d with
  | Implements p q =>
      (forall n m, p = CGood n -> proc_of st c = Some (Some m) -> n = m) /\
      (forall n m, q = CGood n -> proto_of st c = Some (Some m) -> n = m)
  | _ => True
  end.
