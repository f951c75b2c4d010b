(** Model of process members: Var aliases (magma/core/process/variable.py), id servers
    (variable.py 195-230, process.py 533-566, interfaces.py 60-82), ProcessParameters
    (process.py 473-513) and Collection (process.py 569-653). *)
From Coq Require Import List Arith Bool.
From Verif Require Import Base Kahn.
Import ListNotations.

(** ** Var (variable.py 46-190) *)
Record var := mkVar { vshape : list nat; shareable : bool; vproc : nat; init : nat; aliased : option nat }.
(** all Vars that exist, by identity *)
Definition vars := list var.

Definition shape_eqb (a b : list nat) : bool := if list_eq_dec Nat.eq_dec a b then true else false.

(** Var.alias (77-107); [None] = AssertionError *)
Definition alias (vs : vars) (a b : nat) : option vars :=
  match nth_error vs a, nth_error vs b with
  | Some va, Some vb =>
      if negb (shape_eqb (vshape va) (vshape vb)) then None
      else if negb (Bool.eqb (shareable va) (shareable vb)) then None
      else Some (upd vs a (mkVar (vshape va) (shareable va) (vproc va) (init va) (Some b)))
  | _, _ => None
  end.

(** parent_proc of every process (process.py 208, 290-296) *)
Definition parents := nat -> option nat.

(** AbstractProcess.is_sub_proc_of (304-312); [None] = RecursionError *)
Fixpoint is_sub_proc_of (fuel : nat) (par : parents) (p q : nat) : option bool :=
  match fuel with
  | 0 => None
  | S f => match par p with
           | Some r => if r =? q then Some true else is_sub_proc_of f par r q
           | None => Some false
           end
  end.

(** Var.validate_alias (109-131); [Some true] = returns normally, [Some false] = AssertionError *)
Definition validate_alias (fuel : nat) (par : parents) (vs : vars) (a : nat) : option bool :=
  match nth_error vs a with
  | None => None
  | Some va =>
      match aliased va with
      | None => Some true
      | Some b =>
          match nth_error vs b with
          | None => None
          | Some vb =>
              match is_sub_proc_of fuel par (vproc vb) (vproc va) with
              | Some sub => Some (negb (vproc va =? vproc vb) && sub)
              | None => None
              end
          end
      end
  end.

(** The runtime's store: Runtime.get_var / set_var by variable id (C13 shows that these reach exactly
    the addressed variable); [None] = no runtime yet. *)
Definition store := option (nat -> nat).

(** Var.get (168-187) and Var.set (133-166): delegation along aliased_var.  Outer [None] =
    RecursionError; for [vset], inner [None] = ValueError ("No Runtime available yet").
    Simplification: values are opaque (encodings of strings and sparse matrices are in GetSet). *)
Fixpoint vget (fuel : nat) (vs : vars) (st : store) (a : nat) : option nat :=
  match fuel with
  | 0 => None
  | S f => match nth_error vs a with
           | None => None
           | Some va => match aliased va with
                        | Some b => vget f vs st b
                        | None => Some (match st with Some m => m a | None => init va end)
                        end
           end
  end.
Fixpoint vset (fuel : nat) (vs : vars) (st : store) (a x : nat) : option (option store) :=
  match fuel with
  | 0 => None
  | S f => match nth_error vs a with
           | None => None
           | Some va => match aliased va with
                        | Some b => vset f vs st b x
                        | None => Some (match st with Some m => Some (Some (fupd m a x)) | None => None end)
                        end
           end
  end.

(** ** Id servers (VarServer / ProcessServer) *)
(** the singleton: instance present?, is_not_initialized, _next_id, registered objects *)
Record server := mkServer { instance : bool; not_initialized : bool; next_id : nat; registered : list nat }.

(** VarServer() : __new__ then __init__ (variable.py 202-211); IdGeneratorSingleton.__init__ sets _next_id = 0 *)
Definition server_call (s : server) : server :=
  let s1 := if instance s then s else mkServer true (not_initialized s) (next_id s) (registered s) in
  if not_initialized s1 then mkServer true false 0 [] else s1.

(** register (217-222) and get_next_id (interfaces.py 78-82) *)
Definition server_register (s : server) (obj : nat) : server * nat :=
  (mkServer (instance s) (not_initialized s) (S (next_id s)) (registered s ++ [obj]), next_id s).

(** reset_server (224-229): resets the object and drops the singleton *)
Definition server_reset (s : server) : server := mkServer false true 0 [].

(** Session events; creating a Var/Process (52-70, process.py 168-173) calls VarServer().register(self) *)
Inductive event := Create (obj : nat) | Query | ServerReset.

Definition server0 : server := mkServer false true 0 [].

(** new state and the id issued *)
Definition session_step (s : server) (e : event) : server * option nat :=
  match e with
  | Create o => let (s', i) := server_register (server_call s) o in (s', Some i)
  | Query => (server_call s, None)                       (* e.g. VarServer().num_vars *)
  | ServerReset => (server_reset (server_call s), None)
  end.
Fixpoint session (s : server) (es : list event) : list nat :=
  match es with
  | [] => []
  | e :: r => let (s', o) := session_step s e in
              match o with Some i => i :: session s' r | None => session s' r end
  end.

(** ** ProcessParameters (process.py 487-513) *)
Definition params := list (nat * nat).      (* dict: keys unique *)
Definition lookup (d : params) (k : nat) : option nat :=
  match find (fun e => fst e =? k) d with Some e => Some (snd e) | None => None end.
(** d[k] = v of a dict *)
Fixpoint dict_set (d : params) (k v : nat) : params :=
  match d with
  | [] => [(k, v)]
  | (k', v') :: r => if k' =? k then (k', v) :: r else (k', v') :: dict_set r k v
  end.
(** __setitem__ (490-496); [None] = KeyError *)
Definition setitem (d : params) (k v : nat) : option params :=
  match lookup d k with Some _ => None | None => Some (dict_set d k v) end.
(** overwrite (498-501) *)
Definition overwrite (d : params) (k v : nat) : params := dict_set d k v.
(** get (506-510) *)
Definition param_get (d : params) (k : nat) (default : option nat) : option nat :=
  match lookup d k with None => default | Some v => Some v end.

Inductive pop := PSet (k v : nat) | POverwrite (k v : nat).
Definition pstep (d : params) (o : pop) : params * bool :=       (* bool: raised KeyError *)
  match o with
  | PSet k v => match setitem d k v with Some d' => (d', false) | None => (d, true) end
  | POverwrite k v => (overwrite d k v, false)
  end.
Definition prun (d : params) (os : list pop) : params := fold_left (fun d o => fst (pstep d o)) os d.

(** ** Collection (process.py 587-646) *)
(** member names in order and the iterator index (-1 is represented as 0, k as k+1) *)
Record collection := mkColl { members : list nat; iterator : nat }.

(** __next__ (639-644): increment, return the member or reset and raise StopIteration ([None]) *)
Definition coll_next (c : collection) : collection * option nat :=
  let i := iterator c in                          (* index _iterator + 1 *)
  match nth_error (members c) i with
  | Some m => (mkColl (members c) (S i), Some m)
  | None => (mkColl (members c) 0, None)
  end.

(** "for m in collection: body": __iter__ returns the collection itself (636-637), so the position is
    the collection's own.  [stop m] = the body leaves the loop (break, return or exception) at m.
    Result: visited members and whether the loop ended within [fuel] rounds. *)
Fixpoint for_loop (fuel : nat) (c : collection) (body : nat -> collection -> collection) (stop : nat -> bool)
    : collection * list nat * bool :=
  match fuel with
  | 0 => (c, [], false)
  | S f => match coll_next c with
           | (c', None) => (c', [], true)
           | (c', Some m) =>
               if stop m then (c', [m], true)
               else let '(c'', l, e) := for_loop f (body m c') body stop in (c'', m :: l, e)
           end
  end.
