(** When a network of communicating processes has no races, and what it means that its results do not depend on the schedule. *)
From Coq Require Import List Arith.
From Verif Require Import Kahn_Model.
Import ListNotations.

Section Spec.
Context {V L : Type}.
(** every channel has one sending process [src c] and one receiving process [dst c] *)
Definition wired (N : net V L) (src dst : nat -> nat) : Prop := forall p l,
  match code N p l with
  | ARecv c _ | APeek c _ | AProbe c _ => dst c = p
  | ASelect cs _ => forall c, In c cs -> dst c = p
  | ASend c _ _ => src c = p
  | _ => True
  end.
Definition reachable (N : net V L) (s0 s : st V L) : Prop := exists ps, exec N s0 ps s.
(** a message is in the channel or about to be sent *)
Definition sending (N : net V L) (s : st V L) (c : nat) : Prop := exists p l v l', nth_error (loc s) p = Some l /\ code N p l = ASend c v l'.
Definition live (N : net V L) (s : st V L) (c : nat) : Prop := chan_of s c <> [] \/ sending N s c.
(** nobody looks whether a message has arrived while one is coming, and nobody waits for two channels on both of which a message
    is coming *)
Definition race_free (N : net V L) (s0 : st V L) : Prop := forall s p l, reachable N s0 s -> nth_error (loc s) p = Some l ->
  match code N p l with
  | AProbe c _ => ~ live N s c
  | ASelect cs _ => forall c c', In c cs -> In c' cs -> live N s c -> live N s c' -> c = c'
  | _ => True
  end.
(** the processes have ended or wait forever *)
Definition stuck (N : net V L) (s : st V L) : Prop := forall p s', ~ step N s p s'.
(** an execution that does not end *)
Record endless (N : net V L) (s0 : st V L) (run : nat -> st V L) (sch : nat -> nat) : Prop := {
  en_start : run 0 = s0;
  en_step : forall n, step N (run n) (sch n) (run (S n))
}.
(** no process can proceed forever without being scheduled *)
Definition fair (N : net V L) (run : nat -> st V L) (sch : nat -> nat) : Prop :=
  forall n p, exists m, n <= m /\ (sch m = p \/ forall s', ~ step N (run m) p s').
Definition prefix {A} (a b : list A) : Prop := exists r, b = a ++ r.
End Spec.

Section LoihiSpec.
Context {D U R : Type}.
(** every channel between process models has one sender [usrc c] and one receiver [udst c] *)
Definition user_wired (W : loihi D U R) (usrc udst : nat -> nat) : Prop := forall p ph u, p < np _ _ _ W ->
  match ucode _ _ _ W p ph u with
  | URecv _ _ c _ | UPeek _ _ c _ => c < nc _ _ _ W /\ udst c = p
  | USend _ _ c _ _ => c < nc _ _ _ W /\ usrc c = p
  | _ => True
  end.
(** no process model sets _req_pause or _req_stop *)
Definition no_requests (W : loihi D U R) : Prop := forall p u, requested _ _ _ W p u = NoReq.
End LoihiSpec.
