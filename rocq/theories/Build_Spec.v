(** What a process model should start with. *)
From Coq Require Import List Arith Bool ZArith QArith Qabs String.
From Verif Require Import VPorts_Model Build_Model.
Import ListNotations.
Open Scope nat_scope.

(** coordinates of an index, counted from the last *)
Definition back (l : list nat) (k : nat) : nat := nth k (rev l) 0.
Definition valid (sh idx : list nat) : Prop := List.length idx = List.length sh /\ forall k, k < List.length sh -> back idx k < back sh k.
(** the initial value of shape [ish] can be broadcast to [sh]: each of its dimensions, counted from the last, has length one or
    that of the Var *)
Definition broadcastable (ish sh : list nat) : Prop :=
  forall k, k < List.length ish -> back ish k = 1 \/ (k < List.length sh /\ back ish k = back sh k).
(** the element of the initial value that belongs to element [idx] of the Var *)
Definition belongs (ish idx jdx : list nat) : Prop := List.length jdx = List.length ish /\
  forall k, k < List.length ish -> back jdx k = (if back ish k =? 1 then 0 else back idx k).

(** conversion of numbers *)
Open Scope Z_scope.
Inductive converts : dtype -> num -> num -> Prop :=
| c_float x y : y = real (re x) -> converts DFloat x y
| c_complex x : converts DComplex x x
| c_bool x y : y = int (if Qeq_bool (re x) 0 && Qeq_bool (im x) 0 then 0 else 1) -> converts DBool x y
(** the integer next to it in the direction of zero, modulo 2^bits *)
| c_int b x z r : 0 < b -> (inject_Z (Z.abs z) <= Qabs (re x))%Q -> (Qabs (re x) < inject_Z (Z.abs z + 1))%Q ->
    (0 <= inject_Z z * re x)%Q -> - 2 ^ (b - 1) <= r < 2 ^ (b - 1) -> (exists k, r = z + k * 2 ^ b) -> converts (DInt b) x (int r)
| c_uint b x z r : 0 <= b -> (inject_Z (Z.abs z) <= Qabs (re x))%Q -> (Qabs (re x) < inject_Z (Z.abs z + 1))%Q ->
    (0 <= inject_Z z * re x)%Q -> 0 <= r < 2 ^ b -> (exists k, r = z + k * 2 ^ b) -> converts (DUInt b) x (int r).
Close Scope Z_scope.

(** number of an initial value at an index *)
Definition array_of (i : init) : option arr :=
  match i with IInt z => Some {| ash := []; adat := [int z] |} | IArr a => Some a | _ => None end.
Definition well_formed (a : arr) : Prop := List.length (adat a) = prod (ash a).

(** what the Var [v] of declared type [t] starts with *)
Definition starts_as (t : ltype) (v : var) (x : attr) : Prop :=
  match cls t with
  | CArray => exists a0 a, array_of (vinit v) = Some a0 /\ x = AArr (d_type t) a /\ ash a = vshape v /\ well_formed a /\
                forall idx, valid (vshape v) idx -> exists jdx, valid (ash a0) jdx /\ belongs (ash a0) idx jdx /\ converts (d_type t) (elem a0 jdx) (elem a idx)
  | CNumber | CStr => x = AInit (vinit v)
  | CSparse => match vinit v with IInt z => x = ASparseInt (vshape v) (d_type t) z | i => x = AInit i end
  | _ => False
  end.
(** can the Var be initialised? *)
Definition initialisable (t : ltype) (v : var) : Prop :=
  match cls t with
  | CArray => exists a0, array_of (vinit v) = Some a0 /\ vshape v <> [] /\ broadcastable (ash a0) (vshape v)
  | CNumber | CStr => True
  | CSparse => match vinit v with IInt _ => List.length (vshape v) = 2 | _ => True end
  | _ => False
  end.
Definition declared (C : pmclass) (n : string) (t : ltype) : Prop := In (n, MType t) C.
Definition member_names (P : process) : list string :=
  map vname (pvars P) ++ map pname (in_ports P) ++ map pname (out_ports P) ++ map pname (ref_ports P) ++ map pname (var_ports P).
(** the members of a process and the attributes of a class have distinct names, Vars distinct ids; and no member has the name under
    which the precision of a Var is kept *)
Record sane (C : pmclass) (P : process) : Prop := {
  sane_class : NoDup (map fst C);
  sane_names : NoDup (member_names P);
  sane_ids : NoDup (map vid (pvars P));
  sane_prec : forall v, In v (pvars P) -> ~ In (prec_name (vname v)) (member_names P);
  sane_init : forall v a, In v (pvars P) -> vinit v = IArr a -> well_formed a;
  sane_types : forall n t b, In (n, MType t) C -> d_type t = DInt b \/ d_type t = DUInt b -> (0 < b)%Z
}.
(** is the process model accepted?  Every Var and port is declared with a suitable type, everything that is declared is there,
    Vars can be initialised; and the k-th OutPort has no connection config or more than k of them (this last condition is a
    peculiarity of the code) *)
Definition acceptable (C : pmclass) (P : process) : Prop :=
  (forall v, In v (pvars P) -> exists t, declared C (vname v) t /\ initialisable t v) /\
  (forall p, In p (in_ports P) \/ In p (out_ports P) -> exists t, declared C (pname p) t /\ (cls t = CPyIn \/ cls t = CPyOut)) /\
  (forall p, In p (ref_ports P) -> exists t, declared C (pname p) t /\ cls t = CPyRef) /\
  (forall n t, declared C n t -> In n (member_names P)) /\
  (forall k p, nth_error (out_ports P) k = Some p -> configs p = [] \/ k < List.length (configs p)).
