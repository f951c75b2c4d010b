(** C106: the raster plot shows the spikes of every stride-th neuron. *)
From Coq Require Import ZArith List Bool Arith String Lia FinFun.
From Verif Require Import Raster_Model Raster_Spec.
Import ListNotations.
Open Scope Z_scope.

(** ** lists *)
Lemma upd_comp : forall A (l : list A) i f g, upd (upd l i f) i g = upd l i (fun x => g (f x)).
Proof. intros A l. induction l as [|a l IH]; intros [|i] f g; cbn; [reflexivity..|]. now rewrite IH. Qed.
Lemma upd_ext : forall A (l : list A) i f g, (forall x, f x = g x) -> upd l i f = upd l i g.
Proof. intros A l. induction l as [|a l IH]; intros [|i] f g H; cbn; [reflexivity..| |]; [now rewrite H|]. now rewrite (IH i f g). Qed.
Lemma upd_length : forall A (l : list A) i f, List.length (upd l i f) = List.length l.
Proof. intros A l. induction l as [|a l IH]; intros [|i] f; cbn; [reflexivity..|]. now rewrite IH. Qed.
Lemma upd_same : forall A (l : list A) i f x, nth_error l i = Some x -> nth_error (upd l i f) i = Some (f x).
Proof. intros A l. induction l as [|a l IH]; intros [|i] f x H; cbn in *; try discriminate; [congruence|]. now apply IH. Qed.
Lemma upd_other : forall A (l : list A) i j f, i <> j -> nth_error (upd l i f) j = nth_error l j.
Proof. intros A l. induction l as [|a l IH]; intros [|i] [|j] f H; cbn; try reflexivity; [lia|]. apply IH. lia. Qed.
Lemma upd_last : forall A (l : list A) x f, upd (l ++ [x]) (List.length l) f = l ++ [f x].
Proof. intros A l. induction l as [|a l IH]; intros x f; cbn; [reflexivity|]. now rewrite IH. Qed.

Lemma on_axes_comp : forall f g h, on_axes f (on_axes g h) = on_axes (fun x => f (g x)) h.
Proof.
  intros f g [l i s]. unfold on_axes. cbn [axs sca size]. destruct l as [|a l]; [reflexivity|]. cbn [axs sca size].
  destruct (upd (a :: l) i g) as [|b r] eqn:E.
  - pose proof (upd_length _ (a :: l) i g) as L. rewrite E in L. cbn in L. lia.
  - cbn [axs sca size]. rewrite <- E. now rewrite upd_comp.
Qed.
Lemma gca_do_comp : forall f g w, gca_do f (gca_do g w) = gca_do (fun x => f (g x)) w.
Proof.
  intros f g [l [c|]]; unfold gca_do, plt_figure; cbn; f_equal; rewrite upd_comp; apply upd_ext; intros; apply on_axes_comp.
Qed.
Lemma gca_do_ext : forall f g w, (forall x, f x = g x) -> gca_do f w = gca_do g w.
Proof.
  intros f g [l [c|]] H; unfold gca_do, plt_figure; cbn; f_equal; apply upd_ext; intros h; unfold on_axes; destruct (axs h) as [|a r];
    [now rewrite H| |now rewrite H|]; f_equal; now apply upd_ext.
Qed.

Definition add_lines (r : list line) (x : axes) : axes := mkAxes (lines x ++ r) (xlimits x) (yticks x) (xlab x) (ylab x).
Lemma plot_rows : forall (R : nat -> line) is f w,
  fold_left (fun w i => plt_plot (R i) w) is (gca_do f w) = gca_do (fun x => add_lines (map R is) (f x)) w.
Proof.
  intros R is. induction is as [|i is IH]; intros f w; cbn [fold_left map].
  - apply gca_do_ext. intros x. unfold add_lines. rewrite app_nil_r. now destruct (f x).
  - unfold plt_plot at 2. rewrite gca_do_comp, IH. apply gca_do_ext. intros x. unfold add_lines. cbn. now rewrite <- app_assoc.
Qed.

(** what raster_plot does to the axes it draws on *)
Definition plotted (x : args) (t : nat) (r : list line) (a : axes) : axes :=
  mkAxes (lines a ++ r) (Some (-1, Z.of_nat t)) false (xlabel x) (ylabel x).

Lemma header : forall xl yl t w,
  plt_ylabel yl (plt_xlabel xl (plt_no_yticks (plt_xlim (-1) (Z.of_nat t) w))) =
  gca_do (fun a => mkAxes (lines a) (Some (-1, Z.of_nat t)) false xl yl) w.
Proof.
  intros. unfold plt_ylabel, plt_xlabel, plt_no_yticks, plt_xlim. rewrite !gca_do_comp. reflexivity.
Qed.

(** ** the points *)
Lemma range_In : forall fuel a n s i, (0 < s)%nat -> (n - a <= fuel)%nat ->
  In i (range_from fuel a n s) <-> (a <= i < n)%nat /\ exists k, i = (a + k * s)%nat.
Proof.
  induction fuel as [|fuel IH]; intros a n s i Hs Hf; cbn [range_from].
  - split; [intros []|lia].
  - destruct (Nat.ltb_spec a n) as [L|L]; [|split; [intros []|lia]]. cbn [In]. rewrite IH by lia. split.
    + intros [<-|[R (k & E)]]; [split; [lia|exists 0%nat; lia]|]. split; [lia|]. exists (S k). cbn. lia.
    + intros [R ([|k] & E)]; [left; lia|]. right. cbn in E. pose proof (Nat.le_0_l (k * s)). split; [lia|]. exists k. lia.
Qed.
Lemma range_NoDup : forall fuel a n s, (0 < s)%nat -> NoDup (range_from fuel a n s).
Proof.
  induction fuel as [|fuel IH]; intros a n s Hs; cbn [range_from]; [constructor|]. destruct (Nat.ltb_spec a n); [|constructor].
  constructor; [|now apply IH].
  assert (forall f b i, In i (range_from f b n s) -> (b <= i)%nat) as G.
  { induction f as [|f IHf]; intros b i; cbn [range_from]; [intros []|]. destruct (Nat.ltb b n); [|intros []].
    intros [<-|X]; [lia|]. apply IHf in X. lia. }
  intros X. apply G in X. lia.
Qed.
Lemma range3_In : forall n s i, 0 < s -> In i (range3 n s) <-> (i < n)%nat /\ (s | Z.of_nat i).
Proof.
  intros n s i H. unfold range3. destruct (Z.ltb_spec 0 s); [|lia]. rewrite range_In by lia. split.
  - intros [R (k & E)]. split; [lia|]. exists (Z.of_nat k). rewrite E, Nat.add_0_l, Nat2Z.inj_mul, Z2Nat.id by lia. reflexivity.
  - intros [R (k & E)]. assert (0 <= k) as K by (destruct (Z.le_gt_cases 0 k); [assumption|]; pose proof (Z.mul_neg_pos k s); lia).
    split; [lia|]. exists (Z.to_nat k). rewrite Nat.add_0_l. apply Nat2Z.inj. rewrite Nat2Z.inj_mul, !Z2Nat.id by lia. exact E.
Qed.

Lemma rows_raster : forall a n t s k, 0 < s -> Raster a n t s (flat_map points (map (fun i => row a t i k) (range3 n s))).
Proof.
  intros a n t s k Hs. rewrite flat_map_concat_map, map_map. split.
  - assert (NoDup (range3 n s)) as N by (unfold range3; destruct (0 <? s); [apply range_NoDup; lia|constructor]).
    induction N as [|i r Hi N IH]; [constructor|]. cbn [map concat]. cbn [row points].
    assert (forall l1 l2 : list (nat * nat), NoDup l1 -> NoDup l2 -> (forall p, In p l1 -> ~ In p l2) -> NoDup (l1 ++ l2)) as AP.
    { induction l1 as [|p l1 IHl]; intros l2 H1 H2 D; [exact H2|]. inversion H1; subst. cbn. constructor.
      - rewrite in_app_iff. intros [X|X]; [contradiction|]. apply (D p); [now left|exact X].
      - apply IHl; [assumption..|]. intros q Q. apply D. now right. }
    apply AP; [|exact IH|].
    + apply Injective_map_NoDup; [intros u v E; congruence|]. apply NoDup_filter, seq_NoDup.
    + intros p P Q. apply in_map_iff in P. destruct P as (j & <- & _). apply in_concat in Q. destruct Q as (l & L & M).
      apply in_map_iff in L. destruct L as (i' & <- & I). cbn in M. apply in_map_iff in M. destruct M as (j' & E & _).
      injection E as _ <-. contradiction.
  - intros j i. rewrite in_concat. split.
    + intros (l & L & M). apply in_map_iff in L. destruct L as (i' & <- & I). cbn in M. apply in_map_iff in M. destruct M as (j' & E & F).
      injection E as <- <-. apply filter_In in F. destruct F as [F V]. apply in_seq in F. apply Z.eqb_eq in V. apply range3_In in I; [|exact Hs].
      destruct I, F. repeat split; solve [assumption|lia].
    + intros (Hi & Hj & D & V). exists (points (row a t i k)). split.
      * apply in_map_iff. exists i. split; [reflexivity|]. apply range3_In; [exact Hs|tauto].
      * cbn. apply in_map_iff. exists j. split; [reflexivity|]. apply filter_In. split; [apply in_seq; lia|now apply Z.eqb_eq].
Qed.

Lemma any_other_spec : forall a n t, any_other a n t = false <-> forall i j, (i < n)%nat -> (j < t)%nat -> val a i j = 0 \/ val a i j = 1.
Proof.
  intros a n t. split.
  - intros H i j Hi Hj. destruct (Z.eq_dec (val a i j) 0) as [E|E]; [now left|]. destruct (Z.eq_dec (val a i j) 1) as [E'|E']; [now right|].
    assert (any_other a n t = true) as X; [|congruence]. unfold any_other. apply existsb_exists. exists i. split; [apply in_seq; lia|].
    apply existsb_exists. exists j. split; [apply in_seq; lia|]. apply Z.eqb_neq in E, E'. now rewrite E, E'.
  - intros H. destruct (any_other a n t) eqn:E; [|reflexivity]. unfold any_other in E. apply existsb_exists in E. destruct E as (i & I & E).
    apply existsb_exists in E. destruct E as (j & J & E). apply in_seq in I, J. apply andb_true_iff in E. destruct E as [E1 E2].
    apply negb_true_iff in E1, E2. apply Z.eqb_neq in E1, E2. destruct (H i j); lia.
Qed.

(** raster_plot of spikes with a stride that is not 0 *)
Lemma raster_runs : forall w x n t, Spikes (spikes x) n t -> stride x <= Z.of_nat n -> stride x <> 0 -> (fig x = None \/ figsize x = None) ->
  raster_plot w x =
  let w1 := match fig x with Some _ => w | None => plt_figure w (match figsize x with Some s => s | None => (10, 5)%nat end) end in
  (gca_do (plotted x t (map (fun i => row (spikes x) t i (sty x)) (range3 n (stride x)))) w1,
   inr (match fig x with Some f => f | None => List.length (figs w) end)).
Proof.
  intros w x n t (D & Hn & Ht & V) Hs Hz F. unfold raster_plot. rewrite D.
  destruct (Nat.eqb_spec n 0); [lia|]. destruct (Nat.eqb_spec t 0); [lia|]. cbn [orb].
  apply any_other_spec in V. rewrite V. destruct (Z.ltb_spec (Z.of_nat n) (stride x)); [lia|].
  destruct (Z.eqb_spec (stride x) 0); [contradiction|].
  destruct (fig x) as [f|].
  - destruct F as [F|F]; [discriminate F|]. rewrite F. cbv beta iota zeta. rewrite header, plot_rows. f_equal.
  - destruct (figsize x); cbv beta iota zeta; rewrite header, plot_rows; reflexivity.
Qed.

(** ** a new figure shows the raster *)
Theorem raster_new_figure : forall w x n t, Spikes (spikes x) n t -> 0 < stride x <= Z.of_nat n -> fig x = None ->
  exists a, raster_plot w x =
    (mkPlt (figs w ++ [mkFig [a] 0 (match figsize x with Some s => s | None => (10, 5)%nat end)]) (Some (List.length (figs w))),
     inr (List.length (figs w))) /\
  Raster (spikes x) n t (stride x) (drawn a) /\ Labelled a t (xlabel x) (ylabel x) /\ Forall (fun l => style l = sty x) (lines a).
Proof.
  intros w x n t S H F. rewrite (raster_runs w x n t S) by (lia || now left). rewrite F. cbv zeta. unfold gca_do, plt_figure. cbn [current figs].
  rewrite upd_last. cbn [on_axes axs size]. eexists. split; [reflexivity|]. unfold plotted, new_axes. cbn. split; [|split].
  - unfold drawn. cbn. apply rows_raster. lia.
  - repeat split.
  - apply Forall_forall. intros l L. apply in_map_iff in L. destruct L as (i & <- & _). reflexivity.
Qed.

(** ** a given figure is returned; what is drawn on is pyplot's current figure *)
Theorem raster_on_current_partial : forall w x n t f c g, Spikes (spikes x) n t -> 0 < stride x <= Z.of_nat n -> fig x = Some f -> figsize x = None ->
  Consistent w -> current w = Some c -> nth_error (figs w) c = Some g ->
  exists w' g' a, raster_plot w x = (w', inr f) /\ current w' = Some c /\ nth_error (figs w') c = Some g' /\
  (forall i, i <> c -> nth_error (figs w') i = nth_error (figs w) i) /\ size g' = size g /\
  current_axes w' = Some a /\ Labelled a t (xlabel x) (ylabel x) /\
  (exists l, drawn a = (match current_axes w with Some o => drawn o | None => [] end) ++ l /\ Raster (spikes x) n t (stride x) l) /\
  (forall k, k <> sca g' -> nth_error (axs g') k = nth_error (axs g) k).
Proof.
  intros w x n t f c g S H F F' [_ CO] HC G. rewrite (raster_runs w x n t S) by (lia || now right). rewrite F. cbv zeta.
  assert (nth_error (figs w) c <> None) as X by congruence. assert (In g (figs w)) as IG by (eapply nth_error_In; exact G).
  set (P := plotted x t _). unfold gca_do. rewrite HC, HC. eexists. exists (on_axes P g).
  exists (P (match current_axes w with Some o => o | None => new_axes end)). split; [reflexivity|]. cbn [current figs].
  assert (nth_error (upd (figs w) c (on_axes P)) c = Some (on_axes P g)) as G' by now apply upd_same.
  assert (size (on_axes P g) = size g) as SZ by (unfold on_axes; destruct (axs g); reflexivity).
  split; [reflexivity|]. split; [exact G'|]. split; [intros i Hi; apply upd_other; congruence|]. split; [exact SZ|].
  assert (current_axes w = nth_error (axs g) (sca g)) as CA by (unfold current_axes; now rewrite HC, G).
  assert (forall o, lines (P o) = lines o ++ map (fun i => row (spikes x) t i (sty x)) (range3 n (stride x))) as LP by reflexivity.
  assert (forall o, Labelled (P o) t (xlabel x) (ylabel x)) as LB by (intros; repeat split).
  split.
  { unfold current_axes. cbn [current figs]. rewrite G'. fold (current_axes w). rewrite CA. unfold on_axes. destruct (axs g) as [|a r] eqn:A.
    - cbn. now destruct (sca g).
    - cbn [axs sca]. specialize (CO g IG ltac:(rewrite A; discriminate)). rewrite A in CO. apply nth_error_Some in CO.
      destruct (nth_error (a :: r) (sca g)) as [o|] eqn:O; [|contradiction]. now apply upd_same. }
  split; [apply LB|]. split.
  - eexists. split; [|apply (rows_raster _ _ _ _ (sty x)); lia]. unfold drawn at 1. rewrite LP, flat_map_app. f_equal.
    now destruct (current_axes w).
  - intros k Hk. revert Hk. unfold on_axes. destruct (axs g) as [|a r] eqn:A; cbn [axs sca]; intros Hk.
    + destruct k; [lia|]. now destruct k.
    + apply upd_other. congruence.
Qed.

(** without a current figure: a further figure is created and drawn on *)
Theorem raster_no_current : forall w x n t f, Spikes (spikes x) n t -> 0 < stride x <= Z.of_nat n -> fig x = Some f -> figsize x = None ->
  current w = None -> exists a, raster_plot w x = (mkPlt (figs w ++ [mkFig [a] 0 default_size]) (Some (List.length (figs w))), inr f) /\
  Raster (spikes x) n t (stride x) (drawn a).
Proof.
  intros w x n t f S H F F' HC. rewrite (raster_runs w x n t S) by (lia || now right). rewrite F. cbv zeta. unfold gca_do. rewrite HC.
  unfold plt_figure. cbn [current figs]. rewrite upd_last. cbn [on_axes axs size]. eexists. split; [reflexivity|]. unfold drawn. cbn.
  apply rows_raster. lia.
Qed.

(** a figure that is not the current one is returned as it was *)
Theorem other_figure_untouched : forall w x n t f, Spikes (spikes x) n t -> 0 < stride x <= Z.of_nat n -> fig x = Some f -> figsize x = None ->
  (f < List.length (figs w))%nat -> current w <> Some f ->
  snd (raster_plot w x) = inr f /\ nth_error (figs (fst (raster_plot w x))) f = nth_error (figs w) f.
Proof.
  intros w x n t f S H F F' Hf HC. rewrite (raster_runs w x n t S) by (lia || now right). rewrite F. cbv zeta. split; [reflexivity|].
  unfold gca_do. destruct (current w) as [c|] eqn:C; cbn [fst].
  - rewrite C. cbn [figs]. apply upd_other. congruence.
  - unfold plt_figure. cbn [current figs]. rewrite upd_last. now apply nth_error_app1.
Qed.

(** ** errors *)
Theorem raster_raises_iff : forall w x, (exists e, snd (raster_plot w x) = inl e) <->
  ~ exists n t, Spikes (spikes x) n t /\ stride x <= Z.of_nat n /\ stride x <> 0 /\ (fig x = None \/ figsize x = None).
Proof.
  intros w x. split.
  - intros (e & E) (n & t & S & H & Z & F). rewrite (raster_runs w x n t S H Z F) in E. discriminate E.
  - intros H. unfold raster_plot. destruct (dims (spikes x)) as [|n [|t [|u r]]] eqn:D; [now eexists..| |now eexists].
    destruct (Nat.eqb_spec n 0); [now eexists|]. destruct (Nat.eqb_spec t 0); [now eexists|]. cbn [orb].
    destruct (any_other (spikes x) n t) eqn:A; [now eexists|]. destruct (Z.ltb_spec (Z.of_nat n) (stride x)); [now eexists|].
    assert (stride x <> 0 -> fig x = None \/ figsize x = None -> False) as X.
    { intros Z F. apply H. exists n, t. split; [|tauto]. split; [exact D|]. split; [lia|]. split; [lia|]. now apply any_other_spec. }
    destruct (Z.eqb_spec (stride x) 0) as [Z|Z].
    + destruct (fig x), (figsize x); cbn; now eexists.
    + destruct (fig x); [|exfalso; apply X; [exact Z|now left]]. destruct (figsize x); [now eexists|]. exfalso. apply X; [exact Z|now right].
Qed.
(** an error leaves pyplot as it was, except with stride 0 *)
Theorem refused_without_trace : forall w x e, snd (raster_plot w x) = inl e -> e <> ZeroStep -> fst (raster_plot w x) = w.
Proof.
  intros w x e. unfold raster_plot. destruct (dims (spikes x)) as [|n [|t [|u r]]]; try reflexivity.
  destruct (_ || _); [reflexivity|]. destruct (any_other _ _ _); [reflexivity|]. destruct (_ <? _); [reflexivity|].
  destruct (fig x), (figsize x); try reflexivity; cbv beta iota zeta; destruct (stride x =? 0); cbn; congruence.
Qed.
Theorem stride_0_leaves_a_figure : forall w x n t, Spikes (spikes x) n t -> stride x = 0 -> fig x = None ->
  snd (raster_plot w x) = inl ZeroStep /\ List.length (figs (fst (raster_plot w x))) = S (List.length (figs w)) /\
  current (fst (raster_plot w x)) = Some (List.length (figs w)).
Proof.
  intros w x n t (D & Hn & Ht & V) H F. unfold raster_plot. rewrite D. destruct (Nat.eqb_spec n 0); [lia|]. destruct (Nat.eqb_spec t 0); [lia|].
  cbn [orb]. apply any_other_spec in V. rewrite V. destruct (Z.ltb_spec (Z.of_nat n) (stride x)); [lia|]. rewrite H, F.
  cbv beta iota zeta. rewrite header. cbn [Z.eqb]. cbv iota. destruct (figsize x); unfold gca_do, plt_figure; cbn [fst snd current figs];
    rewrite upd_length, app_length; cbn; (split; [reflexivity|split; [lia|reflexivity]]).
Qed.
(** a negative stride draws nothing *)
Theorem negative_stride_empty : forall w x n t, Spikes (spikes x) n t -> stride x < 0 -> fig x = None ->
  exists a, raster_plot w x =
    (mkPlt (figs w ++ [mkFig [a] 0 (match figsize x with Some s => s | None => (10, 5)%nat end)]) (Some (List.length (figs w))),
     inr (List.length (figs w))) /\ drawn a = [].
Proof.
  intros w x n t S H F. rewrite (raster_runs w x n t S) by (lia || now left). rewrite F. cbv zeta. unfold gca_do, plt_figure. cbn [current figs].
  rewrite upd_last. cbn [on_axes axs size]. eexists. split; [reflexivity|]. unfold plotted, new_axes, drawn, range3. cbn.
  destruct (Z.ltb_spec 0 (stride x)); [lia|]. reflexivity.
Qed.
(** fewer neurons than the default stride of 6 *)
Theorem default_stride_needs_six : forall w x n t, Spikes (spikes x) n t -> stride x = 6 -> (n < 6)%nat ->
  raster_plot w x = (w, inl BadStride).
Proof.
  intros w x n t (D & Hn & Ht & V) H L. unfold raster_plot. rewrite D. destruct (Nat.eqb_spec n 0); [lia|]. destruct (Nat.eqb_spec t 0); [lia|].
  cbn [orb]. apply any_other_spec in V. rewrite V. destruct (Z.ltb_spec (Z.of_nat n) (stride x)); [reflexivity|lia].
Qed.
