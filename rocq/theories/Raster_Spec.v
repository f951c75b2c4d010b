(** Specification vocabulary for C106. *)
From Coq Require Import ZArith List Bool Arith String.
From Verif Require Import Raster_Model.
Import ListNotations.
Open Scope Z_scope.

(** an array of [n] neurons by [t] time steps of zeros and ones *)
Definition Spikes (a : array) (n t : nat) : Prop :=
  dims a = [n; t] /\ (0 < n)%nat /\ (0 < t)%nat /\ forall i j, (i < n)%nat -> (j < t)%nat -> val a i j = 0 \/ val a i j = 1.

(** all points on an axes *)
Definition drawn (x : axes) : list (nat * nat) := flat_map points (lines x).

(** the points of every [s]-th neuron: at time [j], in row [i], if neuron [i] spikes then *)
Definition Raster (a : array) (n t : nat) (s : Z) (l : list (nat * nat)) : Prop :=
  NoDup l /\ forall j i, In (j, i) l <-> (i < n)%nat /\ (j < t)%nat /\ (s | Z.of_nat i) /\ val a i j = 1.

(** how the axes looks *)
Definition Labelled (x : axes) (t : nat) (xl yl : string) : Prop :=
  xlimits x = Some (-1, Z.of_nat t) /\ yticks x = false /\ xlab x = xl /\ ylab x = yl.

(** the axes on which pyplot draws *)
Definition current_axes (w : plt) : option axes :=
  match current w with
  | Some f => match nth_error (figs w) f with Some g => nth_error (axs g) (sca g) | None => None end
  | None => None
  end.
(** pyplot's current figure and its current axes exist *)
Definition Consistent (w : plt) : Prop :=
  match current w with
  | Some f => (f < List.length (figs w))%nat
  | None => True
  end /\ forall g, In g (figs w) -> axs g <> [] -> (sca g < List.length (axs g))%nat.
