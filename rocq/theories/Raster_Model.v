(** Model of the raster plot.
    /repo/src/lava/utils/plots.py raster_plot 13-104, with what it uses of pyplot: figure, and xlim, yticks, xlabel, ylabel and
    plot, which act on the current axes of pyplot's current figure (gca; the figure and the axes are created if there are none).
    Simplifications: spikes are integers; marker, marker size, colour and alpha are valid and one [style]; a figure is known to
    pyplot or not, and pyplot's current figure is one number or none; of an axes, its lines, x limits, whether ticks are shown on y,
    and its labels. *)
From Coq Require Import ZArith List Bool Arith String.
Import ListNotations.
Open Scope Z_scope.

Record line := mkLine { points : list (nat * nat) (* time, neuron *); style : nat }.
Record axes := mkAxes { lines : list line; xlimits : option (Z * Z); yticks : bool; xlab : string; ylab : string }.
Record figure := mkFig { axs : list axes; sca : nat; size : nat * nat }.
Record plt := mkPlt { figs : list figure; current : option nat }.

Definition new_axes : axes := mkAxes [] None true "" "".
Fixpoint upd {A} (l : list A) (i : nat) (f : A -> A) : list A :=
  match l, i with
  | [], _ => []
  | x :: r, O => f x :: r
  | x :: r, S i => x :: upd r i f
  end.

(** plt.figure(figsize=...) *)
Definition plt_figure (w : plt) (s : nat * nat) : plt := mkPlt (figs w ++ [mkFig [] 0 s]) (Some (List.length (figs w))).
(** something done to gca() *)
Definition on_axes (f : axes -> axes) (g : figure) : figure :=
  match axs g with
  | [] => mkFig [f new_axes] 0 (size g)
  | l => mkFig (upd l (sca g) f) (sca g) (size g)
  end.
Definition default_size : nat * nat := (6, 5)%nat.              (* rcParams, about: 6.4 by 4.8 *)
Definition gca_do (f : axes -> axes) (w : plt) : plt :=
  let w := match current w with Some _ => w | None => plt_figure w default_size end in
  match current w with
  | Some i => mkPlt (upd (figs w) i (on_axes f)) (current w)
  | None => w
  end.
Definition plt_xlim (a b : Z) := gca_do (fun x => mkAxes (lines x) (Some (a, b)) (yticks x) (xlab x) (ylab x)).
Definition plt_no_yticks := gca_do (fun x => mkAxes (lines x) (xlimits x) false (xlab x) (ylab x)).
Definition plt_xlabel s := gca_do (fun x => mkAxes (lines x) (xlimits x) (yticks x) s (ylab x)).
Definition plt_ylabel s := gca_do (fun x => mkAxes (lines x) (xlimits x) (yticks x) (xlab x) s).
Definition plt_plot (l : line) := gca_do (fun x => mkAxes (lines x ++ [l]) (xlimits x) (yticks x) (xlab x) (ylab x)).

(** the array spikes *)
Record array := mkArr { dims : list nat; val : nat -> nat -> Z }.
Definition any_other (a : array) (n t : nat) : bool :=
  existsb (fun i => existsb (fun j => negb (val a i j =? 0) && negb (val a i j =? 1)) (seq 0 t)) (seq 0 n).

Inductive error := BadShape | BadValues | BadStride | BadFigsize | ZeroStep.
Record args := mkArgs { spikes : array; stride : Z; fig : option nat; figsize : option (nat * nat); sty : nat;
                        xlabel : string; ylabel : string }.

(** range(0, n, stride) for a positive stride *)
Fixpoint range_from (fuel i n s : nat) : list nat :=
  match fuel with
  | O => []
  | S k => if Nat.ltb i n then i :: range_from k (i + s) n s else []
  end.
Definition range3 (n : nat) (s : Z) : list nat := if 0 <? s then range_from n 0 n (Z.to_nat s) else [].

(** 95-96: the line of neuron i *)
Definition row (a : array) (t i k : nat) : line :=
  mkLine (map (fun j => (j, i)) (filter (fun j => val a i j =? 1) (seq 0 t))) k.

Definition raster_plot (w : plt) (x : args) : plt * (error + nat) :=
  match dims (spikes x) with
  | [n; t] =>
    if Nat.eqb n 0 || Nat.eqb t 0 then (w, inl BadShape)
    else if any_other (spikes x) n t then (w, inl BadValues)
    else if Z.of_nat n <? stride x then (w, inl BadStride)
    else match fig x, figsize x with
      | Some _, Some _ => (w, inl BadFigsize)
      | _, _ =>
        let (w, f) := match fig x with
                      | Some f => (w, f)
                      | None => (plt_figure w (match figsize x with Some s => s | None => (10, 5)%nat end), List.length (figs w))
                      end in
        let w := plt_ylabel (ylabel x) (plt_xlabel (xlabel x) (plt_no_yticks (plt_xlim (-1) (Z.of_nat t) w))) in
        if stride x =? 0 then (w, inl ZeroStep)                      (* range(0, n, 0) *)
        else (fold_left (fun w i => plt_plot (row (spikes x) t i (sty x)) w) (range3 n (stride x)) w, inr f)
      end
  | _ => (w, inl BadShape)
  end.
