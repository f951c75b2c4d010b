(** Model of the continual-learning prototype processes: NoveltyDetector
    (/repo/src/lava/proc/clp/novelty_detector/models.py), Readout and Allocator
    (/repo/src/lava/proc/clp/nsm/models.py), and of the Spiker (/repo/src/lava/proc/spiker/models.py).
    Inputs are infinite streams (input of step t, starting with 0); every finite history is a prefix. *)
From Coq Require Import ZArith List Bool Arith.
From Verif Require Import NpInt.
Import ListNotations.
Open Scope Z_scope.

(** ** NoveltyDetector: __init__ 28-32, run_spk 34-70 *)
Record nd := { waiting : bool; t_passed : Z; novelty_detected : bool }.
Definition nd_init : nd := {| waiting := false; t_passed := 0; novelty_detected := false |}.
Definition nd_step (t_wait : Z) (st : nd) (a_in a_out : Z) : nd * Z :=
  (* 37-40 *)
  let '(w, t, n) := if negb (a_in =? 0) then (true, 0, novelty_detected st)
                    else (waiting st, t_passed st, novelty_detected st) in
  (* 44-54 *)
  let '(w, t, n) := if negb (a_out =? 0) then (false, 0, n)
                    else if t_wait <? t then (false, 0, true) else (w, t, n) in
  (* 57-58 *)
  let t := if w : bool then t + 1 else t in
  (* 62-69 *)
  if n : bool then ({| waiting := false; t_passed := t; novelty_detected := false |}, 1)
  else ({| waiting := w; t_passed := t; novelty_detected := n |}, 0).
Fixpoint nd_state (t_wait : Z) (i o : nat -> Z) (t : nat) : nd :=
  match t with O => nd_init | S t' => fst (nd_step t_wait (nd_state t_wait i o t') (i t') (o t')) end.
(** what is sent at step [t] *)
Definition nd_sent (t_wait : Z) (i o : nat -> Z) (t : nat) : Z :=
  snd (nd_step t_wait (nd_state t_wait i o t) (i t) (o t)).

(** ** Allocator: run_spk 139-164; next_alloc_id is an int32 *)
Definition alloc_step (next : Z) (trigger : Z) : Z * Z :=
  if trigger =? 0 then (next, 0) else (w32 (next + 1), next).
Fixpoint alloc_state (first : Z) (tr : nat -> Z) (t : nat) : Z :=
  match t with O => first | S t' => fst (alloc_step (alloc_state first tr t') (tr t')) end.
Definition alloc_sent (first : Z) (tr : nat -> Z) (t : nat) : Z := snd (alloc_step (alloc_state first tr t) (tr t)).

(** ** Readout: run_spk 32-116 *)
Record readout := { proto_labels : nat -> Z; last_winner_id : nat }.
Record rout := { user_output : Z; feedback : Z; trigger_alloc : Z }.
Definition upd (f : nat -> Z) (i : nat) (x : Z) : nat -> Z := fun j => if Nat.eqb j i then x else f j.
(** np.nonzero(output_vec)[0][0] *)
Fixpoint first_active (v : list Z) : option nat :=
  match v with
  | [] => None
  | x :: r => if negb (x =? 0) then Some 0%nat else option_map S (first_active r)
  end.
Definition readout_step (st : readout) (output_vec : list Z) (user_label : Z) : readout * rout :=
  (* 54-73 *)
  let '(labels, last, inferred) :=
    match first_active output_vec with
    | Some w =>
        if proto_labels st w =? 0
        then (upd (proto_labels st) w (-1 * (Z.of_nat w + 1)), w, -1 * (Z.of_nat w + 1))
        else (proto_labels st, w, proto_labels st w)
    | None => (proto_labels st, last_winner_id st, 0)
    end in
  (* 76-105 *)
  let '(labels, inferred, check, alloc) :=
    if negb (user_label =? 0) then
      let l := labels last in
      if 0 <? l then if l =? user_label then (labels, inferred, 1, false) else (labels, inferred, -1, true)
      else if l <? 0 then (upd labels last user_label, user_label, 0, false)
      else (labels, inferred, 0, false)
    else (labels, inferred, 0, false) in
  (* 110-116 *)
  ({| proto_labels := labels; last_winner_id := last |},
   {| user_output := inferred; feedback := check; trigger_alloc := if alloc : bool then 1 else 0 |}).
Definition readout_init (labels : nat -> Z) : readout := {| proto_labels := labels; last_winner_id := 0 |}.
Fixpoint readout_state (labels : nat -> Z) (vec : nat -> list Z) (lab : nat -> Z) (t : nat) : readout :=
  match t with
  | O => readout_init labels
  | S t' => fst (readout_step (readout_state labels vec lab t') (vec t') (lab t'))
  end.
Definition readout_sent (labels : nat -> Z) (vec : nat -> list Z) (lab : nat -> Z) (t : nat) : rout :=
  snd (readout_step (readout_state labels vec lab t) (vec t) (lab t)).

(** ** Spiker: counter starts at 0 (spiker/process.py 41), run_spk spiker/models.py 28-41; element-wise *)
Definition spiker_step (rate payload counter : Z) : Z * Z :=
  if counter =? rate then (1, payload) else (counter + 1, 0).
Fixpoint spiker_state (rate payload : Z) (t : nat) : Z :=
  match t with O => 0 | S t' => fst (spiker_step rate payload (spiker_state rate payload t')) end.
Definition spiker_sent (rate payload : Z) (t : nat) : Z := snd (spiker_step rate payload (spiker_state rate payload t)).
