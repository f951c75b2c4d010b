(** C106: concrete plots, and the parts of the claim that are false. *)
From Coq Require Import ZArith List Bool Arith String Lia.
From Verif Require Import Raster_Model Raster_Spec Raster_Props.
Import ListNotations.
Open Scope Z_scope.

(** neuron i spikes at every (i+1)-th step *)
Definition beat (n t : nat) : array := mkArr [n; t] (fun i j => if Nat.eqb (j mod (i + 1)) 0 then 1 else 0).
Lemma beat_spikes : forall n t, (0 < n)%nat -> (0 < t)%nat -> Spikes (beat n t) n t.
Proof. intros n t Hn Ht. repeat split; try assumption. intros i j _ _. cbn. destruct (Nat.eqb _ 0); tauto. Qed.

Definition call (n t : nat) (s : Z) (f : option nat) : args := mkArgs (beat n t) s f None 0 "Time Steps" "Neurons".
Definition fresh : plt := mkPlt [] None.
Definition points_of (w : plt) : list (list (nat * nat)) := map (fun g => flat_map drawn (axs g)) (figs w).

Example seven_neurons : points_of (fst (raster_plot fresh (call 7 4 3 None))) = [[(0, 0); (1, 0); (2, 0); (3, 0); (0, 3); (0, 6)]]%nat
  /\ snd (raster_plot fresh (call 7 4 3 None)) = inr 0%nat.
Proof. split; vm_compute; reflexivity. Qed.
(** twice on the current figure *)
Definition one_figure : plt := fst (raster_plot fresh (call 7 4 3 None)).
Definition two_figures : plt := plt_figure one_figure (4, 4)%nat.
Example consistent : Consistent two_figures /\ current two_figures = Some 1%nat /\ nth_error (figs two_figures) 1 = Some (mkFig [] 0 (4, 4)%nat).
Proof.
  split; [|split; reflexivity]. split; [vm_compute; lia|]. intros g [<-|[<-|[]]]; intros N; vm_compute in N |- *; [lia|congruence].
Qed.
Example drawn_on_current : points_of (fst (raster_plot two_figures (call 2 2 1 (Some 1%nat)))) =
  [[(0, 0); (1, 0); (2, 0); (3, 0); (0, 3); (0, 6)]; [(0, 0); (1, 0); (0, 1)]]%nat.
Proof. vm_compute. reflexivity. Qed.

(** the figure given is not the one drawn on *)
Theorem shows_on_the_given_figure_refuted : ~ forall w x n t f, Consistent w -> Spikes (spikes x) n t -> 0 < stride x <= Z.of_nat n ->
  fig x = Some f -> figsize x = None -> (f < List.length (figs w))%nat ->
  exists g, nth_error (figs (fst (raster_plot w x))) f = Some g /\
    forall p, In p (flat_map drawn (axs g)) <-> In p (match nth_error (figs w) f with Some o => flat_map drawn (axs o) | None => [] end) \/
      exists j i, p = (j, i) /\ (i < n)%nat /\ (j < t)%nat /\ (stride x | Z.of_nat i) /\ val (spikes x) i j = 1.
Proof.
  intros H. destruct (H two_figures (call 2 2 1 (Some 0%nat)) 2%nat 2%nat 0%nat (proj1 consistent) (beat_spikes 2 2 ltac:(lia) ltac:(lia))
    ltac:(cbn; lia) eq_refl eq_refl ltac:(vm_compute; lia)) as (g & E & P).
  vm_compute in E. injection E as <-. specialize (P (0, 1)%nat). destruct P as [_ P].
  assert (In (0, 1)%nat [(0, 0); (1, 0); (2, 0); (3, 0); (0, 3); (0, 6)]%nat) as X.
  { apply P. right. exists 0%nat, 1%nat. cbn. repeat split; try lia. exists 1. reflexivity. }
  cbn in X. repeat (destruct X as [X|X]; [discriminate X|]). exact X.
Qed.
(** ... nor with no figure of pyplot: a further one is made *)
Example further_figure : points_of (fst (raster_plot (mkPlt [mkFig [] 0 (4, 4)%nat] None) (call 2 2 1 (Some 0%nat)))) =
  [[]; [(0, 0); (1, 0); (0, 1)]]%nat.
Proof. vm_compute. reflexivity. Qed.

(** the default arguments do not suit every array of spikes *)
Theorem default_suits_refuted : ~ forall a n t, Spikes a n t ->
  exists f, snd (raster_plot fresh (mkArgs a 6 None None 0 "Time Steps" "Neurons")) = inr f.
Proof.
  intros H. destruct (H (beat 5 4) 5%nat 4%nat (beat_spikes 5 4 ltac:(lia) ltac:(lia))) as (f & E).
  vm_compute in E. discriminate E.
Qed.
(** no error goes without a trace *)
Theorem errors_leave_no_trace_refuted : ~ forall w x e, snd (raster_plot w x) = inl e -> fst (raster_plot w x) = w.
Proof. intros H. specialize (H fresh (call 2 2 0 None) ZeroStep eq_refl). discriminate H. Qed.
Example errors : snd (raster_plot fresh (call 2 2 3 None)) = inl BadStride /\ snd (raster_plot fresh (call 2 0 1 None)) = inl BadShape /\
  snd (raster_plot fresh (mkArgs (mkArr [2; 2]%nat (fun _ _ => 2)) 1 None None 0 "" "")) = inl BadValues /\
  snd (raster_plot fresh (mkArgs (beat 2 2) 1 (Some 0%nat) (Some (1, 1)%nat) 0 "" "")) = inl BadFigsize.
Proof. repeat split; vm_compute; reflexivity. Qed.
