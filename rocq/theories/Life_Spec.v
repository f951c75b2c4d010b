(** What the calls of the API are meant to do, without services, tokens and schedules. *)
From Coq Require Import ZArith List Bool.
From Verif Require Import Life_Model.
Import ListNotations.
Open Scope Z_scope.

(** the results of a list of calls: [busy]: a non-blocking run has not been waited for; [t]: time steps requested so far *)
Fixpoint answers (busy : bool) (t : Z) (p : list call) : list result :=
  match p with
  | [] => []
  | Run n b :: p' => Ok :: answers (negb b) (t + n) p'
  | Wait :: p' => Ok :: answers false t p'
  | Stop :: p' => Ok :: answers false t p'
  | Get _ :: p' => (if busy then Nothing else Val t) :: answers busy t p'
  end.
Fixpoint requested (p : list call) : Z :=
  match p with [] => 0 | Run n _ :: p' => n + requested p' | _ :: p' => requested p' end.
(** programs that use the API as documented: a run that does not block is waited for before the next run or stop; variables are read
    after the first run; after stop() nothing is run and read any more *)
Inductive phase := New | Idle | Busy | Stopped.
Definition next (ph : phase) (c : call) : phase :=
  match c with
  | Run _ true => Idle | Run _ false => Busy
  | Wait => match ph with Busy => Idle | _ => ph end
  | Stop => match ph with New => New | _ => Stopped end
  | Get _ => ph
  end.
Definition allowed (k : nat) (ph : phase) (c : call) : Prop :=
  match c with
  | Run n _ => 0 <= n /\ (ph = New \/ ph = Idle)
  | Wait => True
  | Stop => ph <> Busy
  | Get j => (j < k)%nat /\ (ph = Idle \/ ph = Busy)
  end.
Fixpoint documented (k : nat) (ph : phase) (p : list call) : Prop :=
  match p with [] => True | c :: p' => allowed k ph c /\ documented k (next ph c) p' end.
Fixpoint final_phase (ph : phase) (p : list call) : phase :=
  match p with [] => ph | c :: p' => final_phase (next ph c) p' end.
