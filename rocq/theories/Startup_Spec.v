(** Specification vocabulary for C102. *)
From Coq Require Import List Bool Arith.
From Verif Require Import Startup_Model.
Import ListNotations.

(** every process belongs to one of the domains, of which there is at least one *)
Definition WellFormed (P : program) : Prop := 0 < ndom P /\ forall p, In p (pms P) -> p_dom p < ndom P.

(** what run() has given the user, once it is over *)
Definition run_result (s : state) : option result :=
  match cl s with
  | KRan r | KStopWait r _ | KStopJoin r _ | KEnd r | KStopRaised r => Some r
  | _ => None
  end.
(** stop() has returned *)
Definition stop_returned (s : state) : Prop := exists r, cl s = KEnd r.
(** stop() is over in one way or the other *)
Definition stop_over (s : state) : Prop := exists r, cl s = KEnd r \/ cl s = KStopRaised r.

(** nothing can happen any more *)
Definition Final (P : program) (s : state) : Prop := forall s', ~ step P s s'.

(** in every schedule run() gives [r] *)
Definition RunGives (P : program) (r : result) : Prop :=
  (forall s, reach P s -> forall x, run_result s = Some x -> x = r) /\
  (forall s, reach P s -> Final P s -> run_result s = Some r).
(** in no schedule is run() ever over *)
Definition RunHangs (P : program) : Prop := forall s, reach P s -> run_result s = None.

(** every constructor succeeds *)
Definition AllBuilt (P : program) : Prop := forall p, In p (pms P) -> p_built p = BOk.
(** if the exception can be pickled it reaches the parent as it is *)
Definition Travels (e : exc) : Prop := pickles e = true -> unpickles e = true /\ fits e = true.
(** every exception raised in the run does so *)
Definition AllTravel (P : program) : Prop := forall p e, In p (pms P) -> p_course p = CRaise e -> Travels e.
(** the domain answers ERROR: all its processes answer, one with an exception *)
Definition DomainErrs (P : program) (d : nat) : Prop :=
  (exists p e, In p (pms P) /\ p_dom p = d /\ p_course p = CRaise e) /\
  (forall p, In p (pms P) -> p_dom p = d -> p_course p <> CDies /\ p_course p <> CBlocked).
(** the number of processes that raise an exception that can be pickled *)
Definition counted (p : pm) : bool := match p_course p with CRaise e => pickles e | _ => false end.
Definition num_reported (P : program) : nat := length (filter counted (pms P)).
(** an execution of [n] steps *)
Inductive steps (P : program) : nat -> state -> Prop :=
| st_init : steps P 0 init
| st_step n s s' : steps P n s -> step P s s' -> steps P (S n) s'.
