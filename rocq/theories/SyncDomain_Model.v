(** Model of Compiler._create_sync_domains and _create_runtime_service_builder
    (/repo/src/lava/magma/compiler/compiler.py 603-803). *)
From Coq Require Import List Arith Bool.
Import ListNotations.

(** Names of sync domains: [Plain n] a string of the user's, [Default s hw] the string
    s + "_SyncDomain" or s + "_Nc_C_SyncDomain" (678-680). *)
Inductive name := Plain (n : nat) | Default (s : nat) (hw : bool).
Definition name_eqb (a b : name) : bool :=
  match a, b with
  | Plain x, Plain y => x =? y
  | Default x h, Default y k => (x =? y) && Bool.eqb h k
  | _, _ => false
  end.

Record domain := { dname : name; dproto : nat; dprocs : list nat }.

Section Domains.
(** [proto_of p]: pm.implements_protocol, or AsyncProtocol if it is None; [is_py p]: the model is a
    PyProcessModel; [pname c]: the class name of a protocol class; [isinst c c']: an instance of class c
    is an instance of class c'. *)
Variable proto_of : nat -> nat.
Variable is_py : nat -> bool.
Variable pname : nat -> nat.
Variable isinst : nat -> nat -> bool.

Definition mem (x : nat) (l : list nat) : bool := existsb (Nat.eqb x) l.
(** state: sync_domains (by insertion order) and proc_to_domain_map *)
Definition state := (list domain * list (nat * name))%type.
Definition mapped (s : state) (p : nat) : bool := mem p (map fst (snd s)).
Definition has_name (s : state) (n : name) : bool := existsb (fun d => name_eqb n (dname d)) (fst s).

(** 629-667: one custom domain; [None] = AssertionError *)
Fixpoint map_custom (d : domain) (ps : list nat) (m : list (nat * name)) : option (list (nat * name)) :=
  match ps with
  | [] => Some m
  | p :: r =>
      if negb (isinst (dproto d) (proto_of p)) then None
      else if mem p (map fst m) then None
      else map_custom d r (m ++ [(p, dname d)])
  end.
Definition add_custom (st : option state) (d : domain) : option state :=
  match st with
  | None => None
  | Some s =>
      if has_name s (dname d) then None
      else match map_custom d (dprocs d) (snd s) with
           | Some m => Some (fst s ++ [d], m)
           | None => None
           end
  end.

Definition default_name (p : nat) : name := Default (pname (proto_of p)) (negb (is_py p)).
(** sd.add_process on the object found in the dictionary *)
Definition add_process (n : name) (p : nat) (ds : list domain) : list domain :=
  map (fun d => if name_eqb n (dname d) then {| dname := dname d; dproto := dproto d; dprocs := dprocs d ++ [p] |} else d) ds.
(** 670-692 *)
Definition add_default (s : state) (p : nat) : state :=
  if mapped s p then s
  else let n := default_name p in
       if has_name s n then (add_process n p (fst s), snd s ++ [(p, n)])
       else (fst s ++ [{| dname := n; dproto := proto_of p; dprocs := [p] |}], snd s ++ [(p, n)]).

Definition create_sync_domains (custom : list domain) (procs : list nat) : option state :=
  match fold_left add_custom custom (Some ([], [])) with
  | Some s => Some (fold_left add_default procs s)
  | None => None
  end.

(** 694-703: for each node the set of the domains of its processes; [setorder]: iteration order of sets.
    [None] = KeyError *)
Fixpoint lookup (m : list (nat * name)) (p : nat) : option name :=
  match m with [] => None | (q, n) :: r => if q =? p then Some n else lookup r p end.
Fixpoint node_domains (m : list (nat * name)) (ps : list nat) : option (list name) :=
  match ps with
  | [] => Some []
  | p :: r => match lookup m p, node_domains m r with Some n, Some l => Some (n :: l) | _, _ => None end
  end.
Definition dedup (l : list name) : list name :=
  fold_left (fun acc n => if existsb (name_eqb n) acc then acc else acc ++ [n]) l [].

(** 705-797: one runtime service per (node, domain) pair; rs_builders[sync_domain] and
    proc_id_to_runtime_service_id_map keep the last assignment. State: next id, builders, process map. *)
Definition procs_of (ds : list domain) (n : name) : list nat :=
  flat_map (fun d => if name_eqb n (dname d) then dprocs d else []) ds.
Definition rs_state := (nat * list (name * nat) * list (nat * nat))%type.
Definition add_service (ds : list domain) (s : rs_state) (n : name) : rs_state :=
  let '(i, b, m) := s in (S i, (n, i) :: b, map (fun p => (p, i)) (procs_of ds n) ++ m).
Definition create_services (setorder : list name -> list name) (ds : list domain) (per_node : list (list name)) : rs_state :=
  fold_left (fun s l => fold_left (add_service ds) (setorder (dedup l)) s) per_node (0, [], []).
Fixpoint get_service (b : list (name * nat)) (n : name) : option nat :=
  match b with [] => None | (k, i) :: r => if name_eqb n k then Some i else get_service r n end.
Fixpoint get_id (m : list (nat * nat)) (p : nat) : option nat :=
  match m with [] => None | (q, i) :: r => if q =? p then Some i else get_id r p end.
End Domains.
