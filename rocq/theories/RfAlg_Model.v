(** Model of << with a ResFireVec on the left.
    /repo/src/lava/networks/resfire.py ResFireVec.__lshift__ 32-45 (NetworkList is a subclass of list, network.py 14-21); the other
    operators: NetAlg_Model (C77).
    Simplifications: as in NetAlg_Model; tuples and lists hold networks; the second InPort of the ResFireVec [y] has the number
    [in2 y]; a statement that raises keeps the connections it has made. *)
From Coq Require Import List Arith Bool.
From Verif Require Import NetAlg_Model.
Import ListNotations.

(** an exception, or the value of the expression: a network or None *)
Inductive res := Exc | Val (r : option nat).

Section Rf.
Variables (kd : kinds) (in2 : nat -> nat).
(** 37-41: other[0], other[1] *)
Definition rf_list (s : store) (y : nat) (l : list nat) : store * res :=
  match l with
  | [] => (s, Exc)                                                 (* IndexError *)
  | a :: r =>
    match connect s a y with
    | Raised => (s, Exc)
    | Done s1 =>
      match r with
      | [] => (s1, Exc)                                            (* IndexError *)
      | b :: _ => match connect s1 b (in2 y) with Done s2 => (s2, Val None) | Raised => (s1, Exc) end
      end
    end
  end.
(** y << v; nothing is returned *)
Definition rf_shift (s : store) (y : nat) (v : value) : store * res :=
  match v with
  | VPlain l => rf_list s y l
  | VList r => match nth_error (lists s) r with Some l => rf_list s y l | None => (s, Exc) end
  | VNet o => match shift_net kd s y o with Done s1 => (s1, Val None) | Raised => (s, Exc) end
  end.
(** y << v << v' *)
Definition rf_chain (s : store) (y : nat) (v v' : value) : store * res :=
  match rf_shift s y v with
  | (s1, Val (Some z)) => rf_shift s1 z v'
  | (s1, Val None) => (s1, Exc)                                    (* TypeError: None << v' *)
  | (s1, Exc) => (s1, Exc)
  end.
(** y << e for an expression of C77's syntax *)
Definition rf_statement (en : env) (s : store) (y : nat) (e : expr) : store * res :=
  match eval kd en s e with Done (s1, v) => rf_shift s1 y v | Raised => (s, Exc) end.
End Rf.
