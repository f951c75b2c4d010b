(** C98: specification, in terms of the events of a run *)
From Coq Require Import List Arith ZArith Bool Relations.
From Verif Require Import RefPhase_Model.
Import ListNotations.

(** a phase in which RefPorts are meant to be used *)
Definition management (f : phase) : Prop := f = Pre \/ f = Post.
(** order in time *)
Definition place (f : phase) : nat := match f with Start | Spk => 0 | Pre => 1 | Lrn => 2 | Post => 3 | Host => 4 end.
Definition after (m m' : moment) : Prop := snd m < snd m' \/ (snd m = snd m' /\ place (fst m) < place (fst m')).

(** the ports and Vars a process uses in its code are its own *)
Inductive accesses : code -> nat -> Prop :=
| a_here1 r k : accesses (ReadRef r k) r
| a_here2 r x k : accesses (WriteRef r x k) r
| a_get v k z r : accesses (k z) r -> accesses (GetOwn v k) r
| a_put v x k r : accesses k r -> accesses (PutOwn v x k) r
| a_read q k z r : accesses (k z) r -> accesses (ReadRef q k) r
| a_write q x k r : accesses k r -> accesses (WriteRef q x k) r.
Inductive touches : code -> nat -> Prop :=
| t_here1 v k : touches (GetOwn v k) v
| t_here2 v x k : touches (PutOwn v x k) v
| t_get w k z v : touches (k z) v -> touches (GetOwn w k) v
| t_put w x k v : touches k v -> touches (PutOwn w x k) v
| t_read q k z v : touches (k z) v -> touches (ReadRef q k) v
| t_write q x k v : touches k v -> touches (WriteRef q x k) v.
Definition well_built (N : net) : Prop :=
  0 < cap N /\ (forall p f t r, accesses (body N p f t) r -> user N r = p /\ owner N r < n N) /\
  (forall p f t v, touches (body N p f t) v -> home N v = p).

(** the value of Var v after the events: what was assigned last, by the owner's code or by a served write *)
Definition value_after (N : net) (v : nat) (tr : list label) : Z :=
  fold_left (fun x l => match l with
                        | LOwn _ w y => if w =? v then y else x
                        | LSet r _ y => if target N r =? v then y else x
                        | _ => x
                        end) tr (init N v).
(** requests through port r: made by the user's code, and served *)
Definition made (r : nat) (tr : list label) : list request :=
  flat_map (fun l => match l with
                     | LAsk q m => if q =? r then [AskGet m] else []
                     | LWrite q m x => if q =? r then [AskSet m x] else []
                     | _ => []
                     end) tr.
Definition served (r : nat) (tr : list label) : list request :=
  flat_map (fun l => match l with
                     | LGet q m _ => if q =? r then [AskGet m] else []
                     | LSet q m x => if q =? r then [AskSet m x] else []
                     | _ => []
                     end) tr.
(** answers to reads through port r: sent by the VarPort, and returned by read() *)
Definition sent_back (r : nat) (tr : list label) : list (moment * Z) :=
  flat_map (fun l => match l with LGet q m x => if q =? r then [(m, x)] else [] | _ => [] end) tr.
Definition returned (r : nat) (tr : list label) : list (moment * Z) :=
  flat_map (fun l => match l with LRet q m x => if q =? r then [(m, x)] else [] | _ => [] end) tr.
(** the phase process p is in after the events *)
Definition phase_after (p : nat) (tr : list label) : phase :=
  fold_left (fun f l => match l with LCmd q m => if q =? p then fst m else f | _ => f end) tr Start.
(** the event is code of process p, other than the end of its phase, or the start of its next phase *)
Definition acts (p : nat) (l : label) : Prop :=
  match l with LCmd q _ | LOwn q _ _ | LLook q _ _ => q = p | _ => False end.
(** process p has ended its code of m and done nothing since *)
Definition ended (p : nat) (m : moment) (tr : list label) : Prop :=
  exists a1 a2, tr = a1 ++ LEnd p m :: a2 /\ forall l, In l a2 -> ~ acts p l.

(** process p waits for the answer of a read through r, or for room in the channel of r *)
Definition blocked_on (N : net) (s : state) (p r : nat) : Prop :=
  (exists k, pst s p = Waiting r k /\ reply s r = None) \/
  ((exists k, pst s p = Running (ReadRef r k)) \/ (exists x k, pst s p = Running (WriteRef r x k))) /\ ~ room N s r.
Definition stuck (strict : bool) (N : net) (s : state) : Prop := forall l s', ~ step strict N s l s'.
(** p waits for process q *)
Definition waits_for (N : net) (s : state) (p q : nat) : Prop := exists r, blocked_on N s p r /\ owner N r = q.
(** a circle of processes, each waiting for the next *)
Definition circular_wait (N : net) (s : state) : Prop := exists p, clos_trans nat (waits_for N s) p p.
