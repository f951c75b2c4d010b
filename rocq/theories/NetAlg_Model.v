(** Model of the algebraic syntax of networks: the operators +, @ and << of Network, AlgebraicVector, AlgebraicMatrix and
    NetworkList (/repo/src/lava/networks/network.py 13-136).
    A network is a number; its kind tells its class.  A port connection is a pair (network of the out_port, network of the
    in_port).  Simplifications: shapes are not checked here (C21, C76); the two InPorts of a ProductVec and the operator *
    are not modelled. *)
From Coq Require Import List Arith Bool.
Import ListNotations.

Inductive kind := Vector | Matrix.                  (* AlgebraicVector 81-117; AlgebraicMatrix 120-136 or another Network *)
Definition kinds := nat -> kind.
(** [lists]: the NetworkList objects by identity; [fresh]: the next network created *)
Record store := mkStore { conns : list (nat * nat); lists : list (list nat); fresh : nat }.
(** a Python value: a network, a NetworkList object, or a plain list *)
Inductive value := VNet (n : nat) | VList (r : nat) | VPlain (l : list nat).
(** the result of a statement: done, or an exception (DuplicateConnectionError, TypeError) *)
Inductive outcome (A : Type) := Done (a : A) | Raised.
Arguments Done {A}. Arguments Raised {A}.

(** out_port.connect(in_port): raises DuplicateConnectionError (C21) *)
Definition pair_eqb (p q : nat * nat) : bool := (fst p =? fst q) && (snd p =? snd q).
Definition connect (s : store) (a b : nat) : outcome store :=
  if existsb (pair_eqb (a, b)) (conns s) then Raised
  else Done (mkStore (conns s ++ [(a, b)]) (lists s) (fresh s)).

(** __lshift__ 40-61, 86-117, for a network on the right *)
Definition shift_net (kd : kinds) (s : store) (self other : nat) : outcome store :=
  match kd self, kd other with
  | Vector, Vector =>
      let i := fresh s in
      match connect (mkStore (conns s) (lists s) (S i)) other i with
      | Done s1 => connect s1 i self
      | Raised => Raised
      end
  | _, _ => connect s other self
  end.
Fixpoint shift_all (kd : kinds) (s : store) (self : nat) (l : list nat) : outcome store :=
  match l with
  | [] => Done s
  | o :: r => match shift_net kd s self o with Done s1 => shift_all kd s1 self r | Raised => Raised end
  end.
(** self << other; a plain list is not accepted *)
Definition shift (kd : kinds) (s : store) (self : nat) (v : value) : outcome store :=
  match v with
  | VNet o => shift_net kd s self o
  | VList r => match nth_error (lists s) r with Some l => shift_all kd s self l | None => Raised end
  | VPlain _ => Raised
  end.

Fixpoint update {A} (l : list A) (i : nat) (x : A) : list A :=
  match l, i with
  | [], _ => []
  | _ :: r, 0 => x :: r
  | y :: r, S j => y :: update r j x
  end.
(** +: __add__, __radd__ 63-78; the sum of two NetworkLists is list.__add__, a plain list *)
Definition append (s : store) (r n : nat) : outcome (store * value) :=
  match nth_error (lists s) r with
  | Some l => Done (mkStore (conns s) (update (lists s) r (l ++ [n])) (fresh s), VList r)
  | None => Raised
  end.
Definition add (s : store) (a b : value) : outcome (store * value) :=
  match a, b with
  | VNet x, VNet y => Done (mkStore (conns s) (lists s ++ [[x; y]]) (fresh s), VList (length (lists s)))
  | VNet x, VList r => append s r x
  | VList r, VNet y => append s r y
  | VList r, VList q =>
      match nth_error (lists s) r, nth_error (lists s) q with
      | Some l, Some m => Done (s, VPlain (l ++ m))
      | _, _ => Raised
      end
  | VPlain l, VList q => match nth_error (lists s) q with Some m => Done (s, VPlain (l ++ m)) | None => Raised end
  | VList r, VPlain m => match nth_error (lists s) r with Some l => Done (s, VPlain (l ++ m)) | None => Raised end
  | VPlain l, VPlain m => Done (s, VPlain (l ++ m))
  | _, _ => Raised                                    (* plain list + Network: TypeError *)
  end.
(** @: __matmul__ 125-136; the result is the matrix *)
Definition matmul (kd : kinds) (s : store) (a b : value) : outcome (store * value) :=
  match a, b with
  | VNet w, VNet x =>
      match kd w, kd x with
      | Matrix, Vector => match connect s x w with Done s1 => Done (s1, VNet w) | Raised => Raised end
      | _, _ => Raised
      end
  | _, _ => Raised
  end.

(** expressions, evaluated from left to right; [EName]: a Python name bound to a value *)
Inductive expr := ENet (n : nat) | EName (x : nat) | EAdd (a b : expr) | EMul (a b : expr).
Definition env := nat -> option value.
Fixpoint eval (kd : kinds) (en : env) (s : store) (e : expr) : outcome (store * value) :=
  match e with
  | ENet n => Done (s, VNet n)
  | EName x => match en x with Some v => Done (s, v) | None => Raised end
  | EAdd a b =>
      match eval kd en s a with
      | Done (s1, va) => match eval kd en s1 b with Done (s2, vb) => add s2 va vb | Raised => Raised end
      | Raised => Raised
      end
  | EMul a b =>
      match eval kd en s a with
      | Done (s1, va) => match eval kd en s1 b with Done (s2, vb) => matmul kd s2 va vb | Raised => Raised end
      | Raised => Raised
      end
  end.
(** statements: x = e and y << e *)
Inductive stmt := SLet (x : nat) (e : expr) | SConnect (y : nat) (e : expr).
Definition exec1 (kd : kinds) (c : env * store) (t : stmt) : outcome (env * store) :=
  match t with
  | SLet x e => match eval kd (fst c) (snd c) e with
                | Done (s, v) => Done (fun z => if z =? x then Some v else fst c z, s)
                | Raised => Raised
                end
  | SConnect y e => match eval kd (fst c) (snd c) e with
                    | Done (s, v) => match shift kd s y v with Done s1 => Done (fst c, s1) | Raised => Raised end
                    | Raised => Raised
                    end
  end.
Fixpoint exec (kd : kinds) (c : env * store) (l : list stmt) : outcome (env * store) :=
  match l with [] => Done c | t :: r => match exec1 kd c t with Done c1 => exec kd c1 r | Raised => Raised end end.
