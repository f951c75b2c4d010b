(** C97: specification *)
From Coq Require Import List Arith ZArith Ascii String.
From Verif Require Import SaveLoad_Model.
Import ListNotations.

(** x and y are copies of the same process (or the same) *)
Definition copies (x y : obj) : Prop := o_orig x = o_orig y.
(** created while the ids were counted through: in the same Python session, without a reset_server() between *)
Definition same_numbering (x y : obj) : Prop := o_epoch x = o_epoch y.
(** a network as a user may put it together: no two copies of one process, all created in the same session *)
Definition one_session (net : list obj) : Prop :=
  forall p q x y, nth_error net p = Some x -> nth_error net q = Some y -> same_numbering x y /\ (copies x y -> p = q).
(** what the user sees of a process *)
Definition same_process (x y : obj) : Prop := o_pid x = o_pid y /\ o_vars x = o_vars y /\ o_data x = o_data y.
(** the file name contains a dot *)
Definition dotted (name : string) : Prop := exists a b, name = (a ++ "." ++ b)%string.
(** the file save() writes *)
Definition stored_as (name f : string) : Prop := (dotted name /\ f = name) \/ (~ dotted name /\ f = (name ++ ".pickle")%string).
(** the action writes the file [f] *)
Definition writes (a : action) (f : string) : Prop :=
  match a with Save _ name => stored_as name f | Put name => name = f | _ => False end.
(** all processes of the network take part, and get/set reach the Var they are called on *)
Definition works (net : list obj) : Prop :=
  (forall p, p < List.length net -> commanded net p) /\
  (forall p o k v, nth_error net p = Some o -> nth_error (o_vars o) k = Some v -> route net v = Some (p, k)).
