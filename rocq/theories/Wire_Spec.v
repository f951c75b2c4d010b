(** Specification for C99: what arrives at an InPort, in terms of the connections only.  Independent of channels, builders,
    dictionaries and transformers. *)
From Coq Require Import List Arith ZArith Bool String.
From Verif Require Import VPorts_Model VPorts_Props Connect_Model Connect_Props Network_Model Wire_Model.
Import ListNotations.
Open Scope nat_scope.
Open Scope list_scope.

(** a way from port a to port c along connections; the list has the ports after a, up to and including c *)
Inductive path (g : graph) : nat -> list nat -> nat -> Prop :=
| path_here a : path g a [] a
| path_on a b l c : In b (outs_of g a) -> path g b l c -> path g a (b :: l) c.

(** what becomes of data on this way: each reshape or transpose port rearranges it (C20 says how), other ports do nothing *)
Fixpoint travel (vp : nat -> option vport) (l : list nat) (x : nd) : option nd :=
  match l with
  | [] => Some x
  | b :: r => match vp b with
              | Some v => match fwd v x with Some y => travel vp r y | None => None end
              | None => travel vp r x
              end
  end.
(** the way back, for what a RefPort reads *)
Fixpoint travel_back (vp : nat -> option vport) (l : list nat) (x : nd) : option nd :=
  match l with
  | [] => Some x
  | b :: r => match travel_back vp r x with
              | Some y => match vp b with Some v => bwd v y | None => Some y end
              | None => None
              end
  end.
(** a sum of arrays; none if one of them could not be computed or has another shape *)
Fixpoint total (acc : nd) (l : list (option nd)) : option nd :=
  match l with
  | [] => Some acc
  | Some y :: r => match plus acc y with Some z => total z r | None => None end
  | None :: _ => None
  end.

(** the virtual ports the user made *)
Definition user_vports (lim : nat) (calls : list call) (a : nat) : option vport := assoc a (derived lim calls).
(** an OutPort of one of the processes *)
Definition out_port (g : graph) (processes : list nat) (s : nat) : Prop :=
  exists ps p, nth_error g s = Some ps /\ cls ps = OutPort /\ proc ps = Some p /\ In p processes.
(** C24: ids of processes are different, and so are names of ports of one process *)
Definition ids_distinct (g : graph) (N : naming) : Prop := forall a b pa pb p q,
  nth_error g a = Some pa -> nth_error g b = Some pb -> is_virtual (cls pa) = false -> is_virtual (cls pb) = false ->
  proc pa = Some p -> proc pb = Some q -> pid N p = pid N q -> pname N a = pname N b -> a = b.

(** each connection into the InPort d comes from an unbranched way, or from ways without reshape and transpose ports (which
    may then be joined in between, at the port of a process with sub-processes) *)
Definition joined_at_end (g : graph) (vp : nat -> option vport) (d : nat) : Prop := forall c, In c (ins_of g d) ->
  (forall v l, path g v l c -> List.length (ins_of g v) <= 1) \/ (forall v l, path g v l c -> vp v = None).
(** there is one way at most from a port to d *)
Definition one_way (g : graph) (d : nat) : Prop := forall s l l', path g s l d -> path g s l' d -> l = l'.
(** an OutPort of a process is the start of the ways on which it is *)
Definition starts (g : graph) (processes : list nat) (d : nat) : Prop :=
  forall s l, out_port g processes s -> path g s l d -> ins_of g s = [].

(** axes given to transpose() are a permutation of 0..n-1 (C20) *)
Definition legal_axes (c : call) : Prop := match c with CDerive _ (OpTranspose (Some ax)) => is_perm (List.length ax) ax | _ => True end.
(** the virtual ports on the ways to d are reshape, flatten and transpose ports made by the user (not concat ports), the others
    belong to processes *)
Definition usual_ports (g : graph) (vp : nat -> option vport) (d : nat) : Prop := forall v l pv, path g v l d -> nth_error g v = Some pv ->
  match cls pv with ConcatPort => False | ReshapePort | TransposePort => vp v <> None | _ => proc pv <> None end.
(** each OutPort sends an array of its shape *)
Definition fits (g : graph) (x : nat -> nd) : Prop := forall s ps, nth_error g s = Some ps -> cls ps = OutPort -> wf (x s) /\ shape (x s) = pshape ps.
