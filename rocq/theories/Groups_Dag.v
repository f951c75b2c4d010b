(** C26: is_dag. *)
From Coq Require Import List Arith Bool Lia.
From Verif Require Import Groups_Model.
Import ListNotations.

(** ** Equality of nodes *)
Fixpoint node_size (n : node) : nat :=
  match n with GP _ => 1 | GG l => S (fold_right (fun x s => node_size x + s) 0 l) end.
Lemma node_eqb_eq a : forall b, node_eqb a b = true <-> a = b.
Proof.
  remember (node_size a) as k. assert (node_size a <= k) as Hk by lia. clear Heqk. revert a Hk.
  induction k as [|k IH]; intros a Hk b; [destruct a; simpl in Hk; lia|].
  destruct a as [x|l], b as [y|m]; simpl; try (split; intro H; congruence).
  - rewrite Nat.eqb_eq. split; intro H; congruence.
  - cbn [node_size] in Hk. apply le_S_n in Hk.
    revert m. induction l as [|x l IHl]; intros [|y m]; simpl; try (split; intro H; congruence).
    cbn [fold_right] in Hk. assert (node_size x >= 1) as Hx by (destruct x; simpl; lia).
    rewrite andb_true_iff, (IH x) by lia. rewrite IHl by lia. split.
    + intros [-> H]. injection H as ->. auto.
    + intro H. injection H as -> ->. auto.
Qed.
Lemma node_eqb_refl a : node_eqb a a = true. Proof. apply node_eqb_eq; auto. Qed.
Definition node_dec (a b : node) : {a = b} + {a <> b}.
Proof. destruct (node_eqb a b) eqn:E; [left; apply node_eqb_eq; auto|right; intro H; apply node_eqb_eq in H; congruence]. Defined.
Lemma nmem_spec x l : nmem x l = true <-> In x l.
Proof.
  unfold nmem. rewrite existsb_exists. split.
  - intros [y [H E]]. apply node_eqb_eq in E. subst; auto.
  - intro H. exists x. rewrite node_eqb_refl. auto.
Qed.
Lemma nmem_false x l : nmem x l = false <-> ~ In x l.
Proof. rewrite <- nmem_spec. destruct (nmem x l); split; congruence. Qed.

(** ** Specification: a directed cycle is a non-empty closed walk *)
Inductive walk (g : dgraph) : node -> node -> Prop :=
| W1 x y : In (x, y) (edges g) -> walk g x y
| W2 x y z : In (x, y) (edges g) -> walk g y z -> walk g x z.
Definition acyclic (g : dgraph) : Prop := forall x, ~ walk g x x.
(** a networkx graph: edges join nodes *)
Definition graph_ok (g : dgraph) : Prop :=
  NoDup (nodes g) /\ forall x y, In (x, y) (edges g) -> In x (nodes g) /\ In y (nodes g).

Lemma walk_trans g x y z : walk g x y -> walk g y z -> walk g x z.
Proof. induction 1; intro; eapply W2; eauto. Qed.

Lemma succs_spec g n m : In m (succs g n) <-> In (n, m) (edges g).
Proof.
  unfold succs. rewrite in_map_iff. split.
  - intros [[a b] [<- H]]. apply filter_In in H. destruct H as [H E]. apply node_eqb_eq in E. simpl in *. subst; auto.
  - intro H. exists (n, m). split; auto. apply filter_In. split; auto. simpl. apply node_eqb_refl.
Qed.
Lemma preds_spec g n m : In m (preds g n) <-> In (m, n) (edges g).
Proof.
  unfold preds. rewrite in_map_iff. split.
  - intros [[a b] [<- H]]. apply filter_In in H. destruct H as [H E]. apply node_eqb_eq in E. simpl in *. subst; auto.
  - intro H. exists (m, n). split; auto. apply filter_In. split; auto. simpl. apply node_eqb_refl.
Qed.
Lemma len0 {A} (l : list A) : (length l =? 0) = true <-> forall x, ~ In x l.
Proof.
  rewrite Nat.eqb_eq. split; intro H.
  - destruct l; [intros x []|discriminate].
  - destruct l; auto. exfalso. apply (H a). left; auto.
Qed.
Lemma pure_in_spec g n : pure_in g n = true <-> (exists m, In (n, m) (edges g)) /\ forall m, ~ In (m, n) (edges g).
Proof.
  unfold pure_in. rewrite andb_true_iff, negb_true_iff, len0. split.
  - intros [H1 H2]. split.
    + destruct (succs g n) as [|m r] eqn:E; [discriminate|]. exists m. apply succs_spec. rewrite E. left; auto.
    + intros m H. apply (H2 m). apply preds_spec; auto.
  - intros [[m H1] H2]. split.
    + apply succs_spec in H1. destruct (succs g n); [destruct H1|reflexivity].
    + intros x Hx. apply preds_spec in Hx. eapply H2; eauto.
Qed.
Lemma isolated_spec g n : isolated g n = true <-> (forall m, ~ In (n, m) (edges g)) /\ forall m, ~ In (m, n) (edges g).
Proof.
  unfold isolated. rewrite andb_true_iff, !len0. split; intros [H1 H2]; split; intros m H.
  - apply (H1 m), succs_spec; auto.
  - apply (H2 m), preds_spec; auto.
  - apply succs_spec in H. apply (H1 _ H).
  - apply preds_spec in H. apply (H2 _ H).
Qed.

Lemma remove_edges g l x y : In (x, y) (edges (remove_nodes g l)) <-> In (x, y) (edges g) /\ ~ In x l /\ ~ In y l.
Proof.
  unfold remove_nodes. simpl. rewrite filter_In. simpl.
  rewrite andb_true_iff, !negb_true_iff, !nmem_false. tauto.
Qed.
Lemma remove_nodes_in g l x : In x (nodes (remove_nodes g l)) <-> In x (nodes g) /\ ~ In x l.
Proof. unfold remove_nodes. simpl. rewrite filter_In, negb_true_iff, nmem_false. tauto. Qed.
Lemma filter_NoDup' {A} (f : A -> bool) l : NoDup l -> NoDup (filter f l).
Proof.
  induction 1; simpl; [constructor|]. destruct (f x); auto. constructor; auto.
  intro H1. apply filter_In in H1. tauto.
Qed.
Lemma remove_ok g l : graph_ok g -> graph_ok (remove_nodes g l).
Proof.
  intros [A B]. split; [apply filter_NoDup'; auto|].
  intros x y H. apply remove_edges in H. destruct H as [H [Hx Hy]]. destruct (B x y H).
  rewrite !remove_nodes_in. auto.
Qed.

(** pruning nodes without predecessors neither creates nor destroys cycles *)
Lemma prune_acyclic g l : (forall n, In n l -> forall m, ~ In (m, n) (edges g)) ->
  (acyclic g <-> acyclic (remove_nodes g l)).
Proof.
  intro Hl.
  assert (forall x y, walk (remove_nodes g l) x y -> walk g x y) as A.
  { induction 1; apply remove_edges in H; destruct H as [H _]; [constructor; auto|eapply W2; eauto]. }
  assert (forall x y, walk g x y -> ~ In x l -> walk (remove_nodes g l) x y) as B.
  { induction 1; intro Hx.
    - constructor. apply remove_edges. repeat split; auto. intro Hy. eapply Hl; eauto.
    - assert (~ In y l) as Hy by (intro Hy; eapply Hl; eauto).
      eapply W2; [|apply IHwalk; auto]. apply remove_edges. auto. }
  assert (forall x y, walk g x y -> exists p, In (p, y) (edges g)) as C.
  { induction 1; eauto. }
  split; intros H x Hw.
  - apply (H x). apply A; auto.
  - apply (H x). apply B; auto. intro Hx. destruct (C _ _ Hw) as [p Hp]. eapply Hl; eauto.
Qed.

(** an acyclic graph with an edge has a node with an outgoing and no incoming edge *)
Lemma source_exists g : graph_ok g -> acyclic g -> (forall n, In n (nodes g) -> pure_in g n = false) -> edges g = [].
Proof.
  intros [HN HE] HA HP. destruct (edges g) as [|[u v] es] eqn:EE; auto. exfalso.
  rewrite <- EE in HE. assert (In (u, v) (edges g)) as Huv by (rewrite EE; left; auto).
  assert (forall k, exists x r, length r = k /\ NoDup (x :: r) /\ incl (x :: r) (nodes g) /\
     (exists m, In (x, m) (edges g)) /\ forall y, In y r -> walk g x y) as G.
  { induction k as [|k [x [r [H1 [H2 [H3 [[m H4] H5]]]]]]].
    - exists u, []. split; [reflexivity|]. split; [repeat constructor; auto|]. split; [|split].
      + intros z [<-|[]]. exact (proj1 (HE _ _ Huv)).
      + exists v; auto.
      + intros y [].
    - assert (exists p, In (p, x) (edges g)) as [p Hp].
      { destruct (preds g x) as [|p l] eqn:Ep.
        - exfalso. assert (pure_in g x = true) as Q.
          { apply pure_in_spec. split; [exists m; auto|]. intros q Hq. apply preds_spec in Hq. rewrite Ep in Hq. destruct Hq. }
          rewrite (HP x) in Q; [discriminate|]. apply H3; left; auto.
        - exists p. apply preds_spec. rewrite Ep. left; auto. }
      assert (forall y, In y (x :: r) -> walk g p y) as Hw.
      { intros y [<-|Hy]; [constructor; auto|eapply W2; eauto]. }
      exists p, (x :: r). split; [simpl; auto|]. split.
      { constructor; auto. intro Hin. apply (HA p). apply Hw; auto. }
      split; [|split; [exists x; auto|auto]].
      intros z [<-|Hz]; auto. exact (proj1 (HE _ _ Hp)). }
  destruct (G (length (nodes g))) as [x [r [H1 [H2 [H3 _]]]]].
  pose proof (NoDup_incl_length H2 H3). simpl in H. lia.
Qed.

Definition no_self_loop (g : dgraph) : Prop := forall x, ~ In (x, x) (edges g).

Lemma filter_shrink {A} (f : A -> bool) l x : In x l -> f x = false -> length (filter f l) < length l.
Proof.
  induction l as [|y l IH]; simpl; [intros []|]. intros [->|H] E.
  - rewrite E. clear. induction l as [|z l IH]; simpl; auto. destruct (f z); simpl; lia.
  - specialize (IH H E). destruct (f y); simpl; lia.
Qed.
Lemma filter_all {A} (f : A -> bool) l : length l = length (filter f l) -> forall x, In x l -> f x = true.
Proof.
  intros H x Hx. destruct (f x) eqn:E; auto. pose proof (filter_shrink f l x Hx E). lia.
Qed.

Lemma is_dag_residual fuel : forall g b r, is_dag fuel g = Some (b, r) ->
  graph_ok g -> graph_ok r /\ (acyclic g <-> acyclic r) /\ incl (edges r) (edges g) /\
  (forall n, In n (nodes r) -> pure_in r n = false) /\
  b = (if 1 <? length (nodes r) then length (nodes r) =? length (filter (isolated r) (nodes r)) else true).
Proof.
  induction fuel; intros g b r H Hok; [discriminate|]. cbn [is_dag] in H.
  destruct (filter (pure_in g) (nodes g)) as [|x l] eqn:E.
  - assert (r = g) as -> by (destruct (1 <? length (nodes g)); congruence).
    split; auto. split; [tauto|]. split; [apply incl_refl|]. split.
    + intros n Hn. destruct (pure_in g n) eqn:P; auto. exfalso.
      assert (In n (filter (pure_in g) (nodes g))) as Q by (apply filter_In; auto). rewrite E in Q. destruct Q.
    + destruct (1 <? length (nodes g)); congruence.
  - destruct (is_dag fuel (remove_nodes g (x :: l))) as [[b' g']|] eqn:R; [|discriminate].
    assert (r = g') as -> by (destruct (1 <? length (nodes g')); congruence).
    destruct (IHfuel _ _ _ R (remove_ok _ _ Hok)) as [A [B [C [D _]]]].
    split; auto. split.
    + rewrite <- B. apply prune_acyclic. intros n Hn. rewrite <- E in Hn. apply filter_In in Hn. destruct Hn as [_ Hn].
      apply pure_in_spec in Hn. tauto.
    + split; [|split; auto].
      * intros [u v] H1. apply C in H1. apply remove_edges in H1. tauto.
      * destruct (1 <? length (nodes g')); congruence.
Qed.

(** is_dag() answers True on every acyclic graph, and False on every cyclic one that has no edge from
    a node to itself. *)
Theorem is_dag_accepts_dag : forall lim g b r, graph_ok g -> acyclic g -> is_dag lim g = Some (b, r) -> b = true.
Proof.
  intros lim g b r Hok HA H. destruct (is_dag_residual _ _ _ _ H Hok) as [R1 [R2 [_ [R4 ->]]]].
  destruct (1 <? length (nodes r)); auto. apply R2 in HA. pose proof (source_exists r R1 HA R4) as E.
  apply Nat.eqb_eq. f_equal. symmetry. clear - E. unfold isolated, succs, preds. rewrite E. simpl.
  induction (nodes r); simpl; congruence.
Qed.

Theorem is_dag_correct_partial : forall lim g b r, graph_ok g -> no_self_loop g ->
  is_dag lim g = Some (b, r) -> (b = true <-> acyclic g).
Proof.
  intros lim g b r Hok HL H. split; [|intro; eapply is_dag_accepts_dag; eauto].
  destruct (is_dag_residual _ _ _ _ H Hok) as [R1 [R2 [R3 [_ ->]]]]. intro Hb. apply R2.
  assert (forall x y, ~ In (x, y) (edges r)) as N.
  { intros x y Hxy. destruct (proj2 R1 x y Hxy) as [Hx Hy]. destruct (1 <? length (nodes r)) eqn:L.
    - apply Nat.eqb_eq in Hb. pose proof (filter_all _ _ Hb x Hx) as I. apply isolated_spec in I. eapply (proj1 I); eauto.
    - apply Nat.ltb_ge in L. assert (x = y) as ->.
      { destruct (nodes r) as [|a [|b l]]; simpl in L; [destruct Hx| |lia].
        destruct Hx as [<-|[]], Hy as [<-|[]]; auto. }
      apply (HL y). apply R3; auto. }
  intros x W. inversion W; subst; eapply N; eauto.
Qed.

(** It answers whenever the recursion limit exceeds the number of nodes. *)
Theorem is_dag_total : forall lim g, length (nodes g) < lim -> exists b r, is_dag lim g = Some (b, r).
Proof.
  induction lim; intros g H; [lia|]. cbn [is_dag].
  destruct (filter (pure_in g) (nodes g)) as [|x l] eqn:E.
  - destruct (1 <? length (nodes g)); eauto.
  - destruct (IHlim (remove_nodes g (x :: l))) as [b [r R]].
    + assert (In x (filter (pure_in g) (nodes g))) as Hx by (rewrite E; left; auto).
      apply filter_In in Hx. destruct Hx as [Hx _].
      eapply Nat.lt_le_trans; [|apply Nat.lt_succ_r; exact H].
      unfold remove_nodes. cbn [nodes]. eapply filter_shrink; [exact Hx|].
      apply negb_false_iff. apply nmem_spec. left; auto.
    + rewrite R. destruct (1 <? length (nodes r)); eauto.
Qed.

(** A graph with a cycle for which it answers True: 1 -> 2 and 2 -> 2. *)
Theorem is_dag_self_loop_refuted : exists g r, graph_ok g /\ ~ acyclic g /\ is_dag 1000 g = Some (true, r).
Proof.
  exists {| nodes := [GP 1; GP 2]; edges := [(GP 1, GP 2); (GP 2, GP 2)] |}. eexists. split; [|split].
  - split; simpl.
    + repeat constructor; simpl; intuition congruence.
    + intros x y [H|[H|[]]]; injection H as <- <-; auto.
  - intro A. apply (A (GP 2)). constructor. right; left; auto.
  - reflexivity.
Qed.

(** The exact set of wrong answers.  All paths end in the one node [x], whose only successor is itself, and there
    is no other cycle. *)
Definition all_end_in_self_loop (g : dgraph) (x : node) : Prop :=
  In (x, x) (edges g) /\ (forall y, In (x, y) (edges g) -> y = x) /\
  (forall y, In y (nodes g) -> y <> x -> exists z, In (y, z) (edges g)) /\
  (forall y, y <> x -> ~ walk g y y).

Lemma exc_prune g l x : graph_ok g -> (forall n, In n l -> pure_in g n = true) ->
  (all_end_in_self_loop g x <-> all_end_in_self_loop (remove_nodes g l) x).
Proof.
  intros Hok Hl.
  assert (forall n m, In (m, n) (edges g) -> ~ In n l) as NP.
  { intros n m H Hn. apply Hl, pure_in_spec in Hn. eapply (proj2 Hn); eauto. }
  assert (forall y z, In (y, z) (edges (remove_nodes g l)) <-> In (y, z) (edges g) /\ ~ In y l) as ED.
  { intros y z. rewrite remove_edges. split; [tauto|]. intros [H1 H2]. repeat apply conj; auto. eapply NP; eauto. }
  assert (forall y z, walk (remove_nodes g l) y z -> walk g y z) as WA.
  { induction 1; apply ED in H; [constructor; tauto|eapply W2; [apply H|auto]]. }
  assert (forall y z, walk g y z -> ~ In y l -> walk (remove_nodes g l) y z) as WB.
  { induction 1; intro Hn; [constructor; apply ED; auto|]. eapply W2; [apply ED; split; eauto|]. apply IHwalk. eapply NP; eauto. }
  assert (forall y z, walk g y z -> ~ In z l) as WC. { induction 1; eauto. }
  unfold all_end_in_self_loop. split; intros [A [B [C D]]].
  - assert (~ In x l) as Hx by (eapply NP; eauto). repeat apply conj.
    + apply ED; auto.
    + intros y H. apply ED in H. apply B; tauto.
    + intros y H N. apply remove_nodes_in in H. destruct (C y (proj1 H) N) as [z Hz]. exists z. apply ED; tauto.
    + intros y N W. apply (D y N). auto.
  - apply ED in A. destruct A as [A Hx]. repeat apply conj; auto.
    + intros y H. apply B. apply ED; auto.
    + intros y H N. destruct (in_dec node_dec y l) as [Hy|Hy].
      * apply Hl, pure_in_spec in Hy. tauto.
      * destruct (C y) as [z Hz]; auto; [apply remove_nodes_in; auto|]. exists z. apply ED in Hz. tauto.
    + intros y N W. apply (D y N). apply WB; auto. eapply WC; eauto.
Qed.
Lemma exc_residual fuel : forall g b r x, is_dag fuel g = Some (b, r) -> graph_ok g ->
  (all_end_in_self_loop g x <-> all_end_in_self_loop r x).
Proof.
  induction fuel; intros g b r x H Hok; [discriminate|]. cbn [is_dag] in H.
  destruct (filter (pure_in g) (nodes g)) as [|y l] eqn:E.
  - assert (r = g) as -> by (destruct (1 <? length (nodes g)); congruence). tauto.
  - destruct (is_dag fuel (remove_nodes g (y :: l))) as [[b' g']|] eqn:R; [|discriminate].
    assert (r = g') as -> by (destruct (1 <? length (nodes g')); congruence).
    rewrite (exc_prune g (y :: l) x Hok); [|intros n Hn; rewrite <- E in Hn; apply filter_In in Hn; tauto].
    eapply IHfuel; eauto. apply remove_ok; auto.
Qed.
Lemma exc_single r x : graph_ok r -> (forall n, In n (nodes r) -> pure_in r n = false) -> all_end_in_self_loop r x ->
  nodes r = [x].
Proof.
  intros Hok HP [A [B [C D]]].
  set (g2 := {| nodes := nodes r; edges := filter (fun e => negb (node_eqb (fst e) x)) (edges r) |}).
  assert (forall y z, In (y, z) (edges g2) <-> In (y, z) (edges r) /\ y <> x) as ED.
  { intros y z. unfold g2; cbn [edges]. rewrite filter_In, negb_true_iff. cbn [fst]. split; intros [H1 H2]; split; auto.
    - intros ->. rewrite node_eqb_refl in H2; discriminate H2.
    - destruct (node_eqb y x) eqn:Q; auto. apply node_eqb_eq in Q. contradiction. }
  assert (forall y z, walk g2 y z -> walk r y z /\ y <> x) as WA.
  { induction 1; apply ED in H; destruct H as [H1 H2]; split; auto; [constructor; auto|eapply W2; [eauto|tauto]]. }
  assert (edges g2 = []) as E0.
  { apply source_exists.
    - split; [apply Hok|]. intros y z H. apply ED in H. apply (proj2 Hok). tauto.
    - intros y W. apply WA in W. destruct W as [W N]. apply (D y N W).
    - intros n Hn. destruct (pure_in g2 n) eqn:Q; auto. exfalso. apply pure_in_spec in Q. destruct Q as [[m Q1] Q2].
      apply ED in Q1. assert (pure_in r n = true) as Q3; [|rewrite (HP n Hn) in Q3; discriminate Q3].
      apply pure_in_spec. split; [exists m; tauto|]. intros p Hp. apply (Q2 p). apply ED. split; auto.
      intros ->. apply B in Hp. tauto. }
  assert (forall y, In y (nodes r) -> y = x) as U.
  { intros y Hy. destruct (node_dec y x) as [|N]; auto. destruct (C y Hy N) as [z Hz].
    assert (In (y, z) (edges g2)) as F by (apply ED; auto). rewrite E0 in F. destruct F. }
  pose proof (proj1 (proj2 Hok _ _ A)) as Ix. pose proof (proj1 Hok) as ND.
  destruct (nodes r) as [|a [|b l]]; [destruct Ix|f_equal; apply U; left; auto|].
  exfalso. rewrite (U a), (U b) in ND by (simpl; auto). inversion ND as [|? ? F]. apply F. left; auto.
Qed.
Theorem is_dag_exactly : forall lim g b r, graph_ok g -> is_dag lim g = Some (b, r) ->
  (b = true <-> acyclic g \/ exists x, all_end_in_self_loop g x).
Proof.
  intros lim g b r Hok H. pose proof (is_dag_residual _ _ _ _ H Hok) as [R1 [R2 [R3 [R4 Rb]]]]. split.
  - intro Hb. rewrite Hb in Rb. destruct (1 <? length (nodes r)) eqn:L.
    + left. apply R2. symmetry in Rb. apply Nat.eqb_eq in Rb. intros y W.
      assert (exists z, In (y, z) (edges r)) as [z Hz] by (inversion W; subst; eauto).
      pose proof (filter_all _ _ Rb y (proj1 (proj2 R1 _ _ Hz))) as I. apply isolated_spec in I. eapply (proj1 I); eauto.
    + apply Nat.ltb_ge in L. destruct (edges r) as [|[u v] es] eqn:EE.
      * left. apply R2. intros y W. inversion W; subst; rewrite EE in *; auto.
      * right. assert (In (u, v) (edges r)) as Huv by (rewrite EE; left; auto). destruct (proj2 R1 _ _ Huv) as [Hu Hv].
        assert (forall y, In y (nodes r) -> y = u) as U.
        { intros y Hy. destruct (nodes r) as [|a [|c l]]; simpl in L; [destruct Hu| |lia].
          destruct Hu as [<-|[]], Hy as [<-|[]]; auto. }
        exists u. apply (exc_residual _ _ _ _ u H Hok). rewrite (U v Hv) in Huv. repeat apply conj; auto.
        -- intros y Hy. apply U. apply (proj2 R1 _ _ Hy).
        -- intros y Hy N. contradiction (N (U y Hy)).
        -- intros y N W. apply N, U. assert (exists z, In (y, z) (edges r)) as [z Hz] by (inversion W; subst; eauto).
           apply (proj2 R1 _ _ Hz).
  - intros [HA|[x Hx]]; [exact (is_dag_accepts_dag _ _ _ _ Hok HA H)|].
    pose proof (proj1 (exc_residual _ _ _ _ x H Hok) Hx) as Hr. rewrite (exc_single r x R1 R4 Hr) in Rb. exact Rb.
Qed.

(** instances: a diamond is accepted, a cycle with a tail refused *)
Example is_dag_demo :
  (exists r, is_dag 1000 {| nodes := map GP [1;2;3;4]; edges := [(GP 1, GP 2); (GP 1, GP 3); (GP 2, GP 4); (GP 3, GP 4)] |} = Some (true, r)) /\
  (exists r, is_dag 1000 {| nodes := map GP [1;2;3]; edges := [(GP 1, GP 2); (GP 2, GP 3); (GP 3, GP 2)] |} = Some (false, r)).
Proof. split; eexists; reflexivity. Qed.

Print Assumptions is_dag_correct_partial.
Print Assumptions is_dag_total.
Print Assumptions is_dag_exactly.
