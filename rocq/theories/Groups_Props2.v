(** C27, continued: existence of the final graph, flattening, the theorems. *)
From Coq Require Import List Arith Bool Lia Permutation.
From Verif Require Import Groups_Model Groups_Dag Groups_Props.
Import ListNotations.

(** ** Cycles *)
Lemma walk_chain g x y : walk g x y <-> exists r, chain g x r y.
Proof.
  split.
  - induction 1; [exists []; auto|]. destruct IHwalk as [r Hr]. exists (y :: r). simpl. auto.
  - intros [r H]. revert x H. induction r as [|z r IH]; simpl; intros x H; [constructor; auto|].
    destruct H. eapply W2; eauto.
Qed.
Lemma chain_split g l : forall x y m z, chain g x (l ++ y :: m) z <-> chain g x l y /\ chain g y m z.
Proof.
  induction l as [|a l IH]; simpl; intros; [tauto|]. rewrite IH. tauto.
Qed.
Lemma nodup_or_dup (l : list node) : NoDup l \/ exists l1 a l2 l3, l = l1 ++ a :: l2 ++ a :: l3.
Proof.
  induction l as [|x l IH]; [left; constructor|]. destruct (in_dec node_dec x l) as [H|H].
  - right. apply in_split in H. destruct H as [l2 [l3 ->]]. exists [], x, l2, l3. auto.
  - destruct IH as [IH|[l1 [a [l2 [l3 ->]]]]]; [left; constructor; auto|].
    right. exists (x :: l1), a, l2, l3. auto.
Qed.
Lemma simple_cycle g x : walk g x x -> exists c, is_cycle g c.
Proof.
  intro H. apply walk_chain in H. destruct H as [r H].
  remember (length r) as k. assert (length r <= k) as Hk by lia. clear Heqk. revert x r H Hk.
  induction k as [|k IH]; intros x r H Hk.
  - destruct r; [|simpl in Hk; lia]. exists [x]. simpl. split; [repeat constructor; auto|auto].
  - destruct (nodup_or_dup (x :: r)) as [HN|[l1 [a [l2 [l3 E]]]]]; [exists (x :: r); split; auto|].
    destruct l1 as [|b l1]; simpl in E; injection E as -> ->.
    + apply chain_split in H. apply (IH a l2); [tauto|]. rewrite app_length in Hk. simpl in Hk. lia.
    + apply chain_split in H. destruct H as [_ H]. apply chain_split in H. apply (IH a l2); [tauto|].
      rewrite !app_length in Hk. simpl in Hk. rewrite app_length in Hk. simpl in Hk. lia.
Qed.
Lemma is_cycle_walk g c : is_cycle g c -> exists x, walk g x x.
Proof. destruct c as [|x r]; [intros []|]. intros [_ H]. exists x. apply walk_chain. eauto. Qed.

Lemma backward_cycle g : graph_ok g -> (forall n, In n (nodes g) -> pure_in g n = false) -> edges g <> [] -> exists x, walk g x x.
Proof.
  intros [HN HE] HP HNE. destruct (edges g) as [|[u v] es] eqn:EE; [congruence|]. rewrite <- EE in HE.
  assert (In (u, v) (edges g)) as Huv by (rewrite EE; left; auto).
  assert (forall k, (exists x, walk g x x) \/ exists x r, length r = k /\ NoDup (x :: r) /\ incl (x :: r) (nodes g) /\
     (exists m, In (x, m) (edges g)) /\ forall y, In y r -> walk g x y) as G.
  { induction k as [|k [Hc|[x [r [H1 [H2 [H3 [[m H4] H5]]]]]]]]; [right|left; auto|].
    - exists u, []. split; [reflexivity|]. split; [repeat constructor; auto|]. split; [|split].
      + intros z [<-|[]]. exact (proj1 (HE _ _ Huv)).
      + exists v; auto.
      + intros y [].
    - assert (exists p, In (p, x) (edges g)) as [p Hp].
      { destruct (preds g x) as [|p l] eqn:Ep.
        - exfalso. assert (pure_in g x = true) as Q.
          { apply pure_in_spec. split; [exists m; auto|]. intros q Hq. apply preds_spec in Hq. rewrite Ep in Hq. destruct Hq. }
          rewrite (HP x) in Q; [discriminate|]. apply H3; left; auto.
        - exists p. apply preds_spec. rewrite Ep. left; auto. }
      assert (forall y, In y (x :: r) -> walk g p y) as Hw.
      { intros y [<-|Hy]; [constructor; auto|eapply W2; eauto]. }
      destruct (in_dec node_dec p (x :: r)) as [Hin|Hin]; [left; exists p; apply Hw; auto|].
      right. exists p, (x :: r). split; [simpl; auto|]. split; [constructor; auto|].
      split; [|split; [exists x; auto|auto]].
      intros z [<-|Hz]; auto. exact (proj1 (HE _ _ Hp)). }
  destruct (G (length (nodes g))) as [Hc|[x [r [H1 [H2 [H3 _]]]]]]; auto.
  pose proof (NoDup_incl_length H2 H3). simpl in H. lia.
Qed.

Lemma cyclic_dec g : graph_ok g -> (exists c, is_cycle g c) \/ (forall c, ~ is_cycle g c).
Proof.
  intro Hok. destruct (is_dag_total (S (length (nodes g))) g) as [b [r R]]; [lia|].
  destruct (is_dag_residual _ _ _ _ R Hok) as [R1 [R2 [R3 [R4 _]]]].
  assert (forall x y, walk r x y -> walk g x y) as Q.
  { clear - R3. induction 1; [constructor; apply R3; auto|]. eapply W2; [apply R3; eauto|auto]. }
  destruct (edges r) as [|e l] eqn:E.
  - right. intros c Hc. apply is_cycle_walk in Hc. destruct Hc as [x Hx].
    assert (acyclic r) as A by (intros y Hy; inversion Hy; rewrite E in *; contradiction).
    apply R2 in A. apply (A x Hx).
  - left. destruct (backward_cycle r R1 R4) as [x Hx]; [congruence|].
    apply (simple_cycle g x). auto.
Qed.
Lemma no_cycle_acyclic g : (forall c, ~ is_cycle g c) <-> acyclic g.
Proof.
  split.
  - intros H x Hx. apply simple_cycle in Hx. destruct Hx as [c Hc]. apply (H c Hc).
  - intros H c Hc. apply is_cycle_walk in Hc. destruct Hc as [x Hx]. apply (H x Hx).
Qed.

(** ** Flattening *)
Fixpoint vleaves (v : pyval) : list nat := match v with VP p => [p] | VL l => flat_map vleaves l end.
Lemma flatten_exact fuel : forall ll out, flatten_list_recursive fuel ll = Some out -> out = map VP (flat_map vleaves ll).
Proof.
  induction fuel; intros ll out H; [discriminate|]. destruct ll as [|[p|a] r]; cbn [flatten_list_recursive] in H.
  - injection H as <-. auto.
  - destruct (flatten_list_recursive fuel r) eqn:E; [|discriminate]. injection H as <-. simpl. f_equal. auto.
  - destruct (flatten_list_recursive fuel a) eqn:E1; [|discriminate].
    destruct (flatten_list_recursive fuel r) eqn:E2; [|discriminate]. injection H as <-.
    simpl. rewrite map_app, (IHfuel _ _ E1), (IHfuel _ _ E2). auto.
Qed.
Lemma vleaves_VP l : flat_map vleaves (map VP l) = l.
Proof. induction l; simpl; congruence. Qed.

Fixpoint flat_go (lim : nat) (l : list node) : option (list pyval) :=
  match l with
  | [] => Some []
  | x :: r => match flatten_node lim x, flat_go lim r with Some a, Some b => Some (VL a :: b) | _, _ => None end
  end.
Lemma flatten_node_GG lim l : flatten_node lim (GG l) = match flat_go lim l with Some ll => flatten_list_recursive lim ll | None => None end.
Proof.
  cbn [flatten_node]. match goal with |- match ?f with Some _ => _ | None => _ end = _ => assert (f = flat_go lim l) as -> end; auto.
  induction l as [|x l IH]; [reflexivity|]. cbn [flat_go]. rewrite <- IH. reflexivity.
Qed.

Lemma flatten_node_exact lim n : forall out, flatten_node lim n = Some out -> out = map VP (leaves n).
Proof.
  remember (node_size n) as k. assert (node_size n <= k) as Hk by lia. clear Heqk. revert n Hk.
  induction k as [|k IH]; intros n Hk out H; [destruct n; simpl in Hk; lia|].
  destruct n as [p|l]; [injection H as <-; auto|]. rewrite flatten_node_GG in H.
  destruct (flat_go lim l) as [ll|] eqn:E; [|discriminate].
  apply flatten_exact in H. subst out. f_equal. cbn [leaves].
  assert (forall x, In x l -> node_size x <= k) as Hs by (intros x Hx; pose proof (size_in x l Hx); lia).
  clear Hk. revert ll E. induction l as [|x l IHl]; intros ll E; [injection E as <-; auto|].
  cbn [flat_go] in E. destruct (flatten_node lim x) as [a|] eqn:Ea; [|discriminate].
  destruct (flat_go lim l) as [b|] eqn:Eb; [|discriminate].
  injection E as <-. cbn [flat_map vleaves]. rewrite (IHl (fun y Hy => Hs y (or_intror Hy)) b eq_refl).
  rewrite (IH x (Hs x (or_introl eq_refl)) a Ea), vleaves_VP. auto.
Qed.

(** the recursion is as deep as the list is long *)
Lemma flatten_long fuel : forall ll, fuel <= length ll -> flatten_list_recursive fuel ll = None.
Proof.
  induction fuel; intros ll H; auto. destruct ll as [|[p|a] r]; simpl in H; [lia| |]; cbn [flatten_list_recursive].
  - rewrite IHfuel by lia. auto.
  - rewrite (IHfuel r) by lia. destruct (flatten_list_recursive fuel a); auto.
Qed.
Lemma flatten_enough fuel : forall ll, length (flat_map vleaves ll) + 2 * length ll < fuel ->
  (forall v, In v ll -> exists l, v = VL (map VP l)) -> exists out, flatten_list_recursive fuel ll = Some out.
Proof.
  assert (forall f l, length l < f -> exists out, flatten_list_recursive f (map VP l) = Some out) as Q.
  { induction f; intros l H; [lia|]. destruct l as [|p l]; simpl in H; cbn [map flatten_list_recursive]; [eauto|].
    destruct (IHf l) as [o R]; [lia|]. rewrite R. eauto. }
  induction fuel; intros ll H Hv; [lia|]. destruct ll as [|v r]; cbn [flatten_list_recursive]; [eauto|].
  destruct (Hv v (or_introl eq_refl)) as [l ->]. cbn [flat_map vleaves length] in H. rewrite app_length, vleaves_VP in H.
  destruct (Q fuel l) as [o1 R1]; [lia|]. destruct (IHfuel r) as [o2 R2]; [lia|intros; apply Hv; right; auto|].
  rewrite R1, R2. eauto.
Qed.
Lemma leaves_size n : length (leaves n) <= node_size n.
Proof.
  remember (node_size n) as k. assert (node_size n <= k) as Hk by lia. rewrite Heqk. clear Heqk. revert n Hk.
  induction k as [|k IH]; intros n Hk; [destruct n; simpl in Hk; lia|].
  destruct n as [p|l]; simpl; auto. cbn [node_size] in Hk. apply le_S_n in Hk. apply le_S.
  induction l as [|x l IHl]; simpl in *; auto. rewrite app_length.
  assert (node_size x >= 1) by (destruct x; simpl; lia).
  specialize (IH x). specialize (IHl ltac:(lia)). lia.
Qed.
(** the recursion limit that suffices for a group *)
Theorem flatten_node_total : forall lim n, 3 * node_size n < lim -> exists out, flatten_node lim n = Some out.
Proof.
  intros lim n. remember (node_size n) as k. assert (node_size n <= k) as Hk by lia. clear Heqk. intro Hl. revert n Hk Hl.
  induction k as [|k IH]; intros n Hk Hl; [destruct n; simpl in Hk; lia|].
  destruct n as [p|l]; [simpl; eauto|]. rewrite flatten_node_GG.
  assert (exists ll, flat_go lim l = Some ll /\ flat_map vleaves ll = flat_map leaves l /\ length ll = length l /\
     forall v, In v ll -> exists m, v = VL (map VP m)) as [ll [E [E2 [E3 E4]]]].
  { assert (forall x, In x l -> exists a, flatten_node lim x = Some a) as Hs.
    { intros x Hx. pose proof (size_in x l Hx). apply IH; lia. }
    clear - Hs. induction l as [|x l IHl]; [exists []; simpl; repeat split; auto; intros v []|].
    destruct (Hs x (or_introl eq_refl)) as [a Ea]. destruct IHl as [b [B1 [B2 [B3 B4]]]]; [intros; apply Hs; right; auto|].
    exists (VL a :: b). cbn [flat_go]. rewrite Ea, B1. apply flatten_node_exact in Ea. subst a. split; auto. split; [|split].
    - cbn [flat_map vleaves]. rewrite B2, vleaves_VP. auto.
    - simpl; auto.
    - intros v [<-|Hv]; eauto. }
  rewrite E. apply flatten_enough; auto. rewrite E2, E3.
  pose proof (leaves_size (GG l)) as LS. cbn [leaves] in LS.
  assert (length l < node_size (GG l)) as LL.
  { clear. cbn [node_size]. induction l as [|x l IHl]; simpl; [lia|]. assert (node_size x >= 1) by (destruct x; simpl; lia). lia. }
  lia.
Qed.

(** A group of as many processes as Python's recursion limit cannot be flattened. *)
Theorem large_group_refuted : forall lim, exists n, length (leaves n) = lim /\ NoDup (leaves n) /\ flatten_node lim n = None.
Proof.
  intro lim. exists (GG (map GP (seq 0 lim))).
  assert (forall l, flat_map leaves (map GP l) = l) as F by (induction l; simpl; congruence).
  cbn [leaves]. rewrite F, seq_length. split; auto. split; [apply seq_NoDup|].
  rewrite flatten_node_GG. destruct (flat_go lim (map GP (seq 0 lim))) as [ll|] eqn:E; auto.
  apply flatten_long.
  assert (length ll = length (seq 0 lim)) as ->; [|rewrite seq_length; lia].
  revert ll E. generalize (seq 0 lim). intro l. generalize lim at 1. intro lim'. induction l as [|p l IH]; intros ll E; [injection E as <-; auto|].
  cbn [map flat_go flatten_node] in E. destruct (flat_go lim' (map GP l)) as [b|] eqn:Eb; [|discriminate].
  injection E as <-. simpl. f_equal. apply IH; auto.
Qed.

(** ** C27 *)
(** networkx.topological_sort: an enumeration of the nodes in which every edge points forward *)
Definition before {A} (l : list A) (a b : A) : Prop := exists l1 l2 l3, l = l1 ++ a :: l2 ++ b :: l3.
Definition is_topo (G : dgraph) (ord : list node) : Prop :=
  Permutation ord (nodes G) /\ forall X Y, In (X, Y) (edges G) -> before ord X Y.
(** networkx.weakly_connected_components: a partition of the nodes, no edge leaving a part *)
Definition is_wccs (wccs : dgraph -> list (list node)) : Prop := forall g, graph_ok g ->
  Permutation (concat (wccs g)) (nodes g) /\
  (forall s x y, In s (wccs g) -> In x s -> In (x, y) (edges g) \/ In (y, x) (edges g) -> In y s).
(** the given processes and the connections between them *)
Definition network_ok (procs : list nat) (E : list (nat * nat)) : Prop :=
  NoDup procs /\ forall x y, In (x, y) E -> In x procs /\ In y procs.

Lemma get_groups_exact lim : forall ord groups, get_proc_groups lim ord = Some groups ->
  groups = map (fun n => map VP (leaves n)) (rev ord).
Proof.
  intros ord groups. unfold get_proc_groups. generalize (rev ord). clear ord. intros l. revert groups.
  induction l as [|n l IH]; simpl; intros groups H; [injection H as <-; auto|].
  destruct (flatten_node lim n) eqn:E; [|discriminate]. destruct (fold_right _ _ l); [|discriminate].
  injection H as <-. rewrite (flatten_node_exact _ _ _ E). f_equal. auto.
Qed.

Theorem proc_groups_exact_partial : forall setorder mtype wccs procs E lim,
  (forall l x, In x (setorder l) <-> In x l) -> is_wccs wccs ->
  network_ok procs E -> weakly_connected procs E ->
  exists G1, collapse_isomodel setorder mtype wccs (proc_graph procs E) = Some G1 /\
    (* collapsing cycles ends, whatever cycle is chosen, and has a result *)
    Acc (cstep setorder) G1 /\ (exists G2, collapse_cycles setorder G1 G2) /\
    forall G2, collapse_cycles setorder G1 G2 ->
      acyclic G2 /\
      forall ord groups, is_topo G2 ord -> get_proc_groups lim ord = Some groups ->
        (* every process is in exactly one group *)
        Permutation (concat groups) (map VP procs) /\
        (* connected processes are in one group, or the receiver's group is compiled first *)
        (forall x y, In (x, y) E ->
           (exists grp, In grp groups /\ In (VP x) grp /\ In (VP y) grp) \/
           (exists gx gy, before groups gy gx /\ In (VP x) gx /\ In (VP y) gy)) /\
        (* connected processes with the same type of model are in one group *)
        (forall x y, In (x, y) E -> mtype x = mtype y -> mtype x <= 2 ->
           exists grp, In grp groups /\ In (VP x) grp /\ In (VP y) grp).
Proof.
  intros so mt wccs procs E lim Hso Hw [HN HE] HC.
  destruct (isomodel_ok so Hso procs E HN HE HC mt wccs Hw) as [G1 [A1 [A2 A3]]].
  exists G1. split; auto. pose proof (cycles_terminate so Hso procs E HN HE HC G1 A2) as HA. split; auto. split.
  - clear A1 A3. induction HA as [G HA IH]. destruct (cyclic_dec G (gi_ok _ _ _ A2)) as [[c Hc]|Hn].
    + destruct (cycle_step so Hso procs E HN HE HC G c A2 Hc) as [G' [C1 [C2 _]]].
      destruct (IH G') as [G2 H2]; [exists c; auto|auto|]. exists G2. eapply CC_step; eauto.
    + exists G. constructor; auto.
  - intros G2 H2. destruct (cycles_result so Hso procs E HN HE HC G1 G2 H2 A2) as [B1 [B2 B3]].
    split; [apply no_cycle_acyclic; auto|]. intros ord groups [T1 T2] HG. apply get_groups_exact in HG. subst groups.
    assert (forall X, In X (nodes G2) -> In (map VP (leaves X)) (map (fun n => map VP (leaves n)) (rev ord))) as HIn.
    { intros X HX. apply in_map_iff. exists X. split; auto. apply -> in_rev. eapply Permutation_in; [apply Permutation_sym, T1|auto]. }
    assert (forall x y, together G2 x y -> exists grp, In grp (map (fun n => map VP (leaves n)) (rev ord)) /\ In (VP x) grp /\ In (VP y) grp) as HT.
    { intros x y [X [HX [Hx Hy]]]. exists (map VP (leaves X)). split; auto. split; apply in_map; auto. }
    split; [|split].
    + rewrite <- flat_map_concat_map. eapply perm_trans.
      * apply Permutation_flat_map. eapply perm_trans; [apply Permutation_sym, Permutation_rev|exact T1].
      * eapply perm_trans; [|apply Permutation_map; apply (gi_leaves _ _ _ B1)].
        clear. induction (nodes G2) as [|n l IH]; simpl; auto. rewrite map_app. apply Permutation_app_head. auto.
    + intros x y Hxy. destruct (HE _ _ Hxy) as [Hx Hy].
      destruct (ginv_home procs E G2 x B1 Hx) as [X [HX HxX]]. destruct (ginv_home procs E G2 y B1 Hy) as [Y [HY HyY]].
      destruct (node_dec X Y) as [->|NE]; [left; apply HT; exists Y; auto|]. right.
      assert (In (X, Y) (edges G2)) as HXY by (apply (gi_edges _ _ _ B1); eauto).
      destruct (T2 X Y HXY) as [l1 [l2 [l3 ->]]].
      exists (map VP (leaves X)), (map VP (leaves Y)). split; [|split; apply in_map; auto].
      rewrite !rev_app_distr. simpl. rewrite !rev_app_distr. simpl.
      exists (map (fun n => map VP (leaves n)) (rev l3)), (map (fun n => map VP (leaves n)) (rev l2)), (map (fun n => map VP (leaves n)) (rev l1)).
      rewrite <- !app_assoc. simpl. rewrite !map_app. simpl. rewrite map_app. auto.
    + intros x y Hxy Ht Hle. apply HT. apply B3. apply A3; auto.
Qed.

(** ** Instance: two Python processes in a chain with a C process in a feedback loop *)
Definition demo_procs := [1;2;3;4].
Definition demo_edges := [(1,2);(2,3);(3,2);(3,4)].
Definition demo_type (p : nat) := match p with 1 | 2 => 0 | 3 => 1 | _ => 2 end.
Definition demo_wccs (g : dgraph) : list (list node) := [nodes g].
Lemma demo_wccs_ok : is_wccs demo_wccs.
Proof.
  intros g [HN HE]. split; [simpl; rewrite app_nil_r; auto|]. intros s x y [<-|[]] Hx H.
  destruct H as [H|H]; apply HE in H; tauto.
Qed.

Example groups_demo :
  network_ok demo_procs demo_edges /\ weakly_connected demo_procs demo_edges /\
  exists G1, collapse_isomodel (fun l => l) demo_type demo_wccs (proc_graph demo_procs demo_edges) = Some G1 /\
  exists c G2, is_cycle G1 c /\ collapse (fun l => l) G1 (subgraph G1 c) = Some G2 /\
    is_topo G2 [GG [GP 3; GG [GP 1; GP 2]]; GP 4] /\
    get_proc_groups 20 [GG [GP 3; GG [GP 1; GP 2]]; GP 4] = Some [[VP 4]; [VP 3; VP 1; VP 2]].
Proof.
  split; [|split].
  - split; [repeat constructor; simpl; intuition congruence|]. simpl. intros x y H.
    repeat (destruct H as [H|H]; [injection H as <- <-; auto 6|]). destruct H.
  - assert (linked demo_edges 1 1 /\ linked demo_edges 2 1 /\ linked demo_edges 3 1 /\ linked demo_edges 4 1) as [A1 [A2 [A3 A4]]].
    { assert (linked demo_edges 1 1) as A1 by constructor.
      assert (linked demo_edges 2 1) as A2 by (eapply (L1 _ _ 1); [right; simpl; auto|auto]).
      assert (linked demo_edges 3 1) as A3 by (eapply (L1 _ _ 2); [right; simpl; auto|auto]).
      assert (linked demo_edges 4 1) as A4 by (eapply (L1 _ _ 3); [right; simpl; auto|auto]). auto. }
    assert (linked demo_edges 1 2) as B2 by (eapply (L1 _ _ 2); [left; simpl; auto|constructor]).
    assert (linked demo_edges 1 3) as B3 by (eapply (L1 _ _ 2); [left; simpl; auto|eapply (L1 _ _ 3); [left; simpl; auto|constructor]]).
    assert (linked demo_edges 1 4) as B4.
    { eapply (L1 _ _ 2); [left; simpl; auto|]. eapply (L1 _ _ 3); [left; simpl; auto|]. eapply (L1 _ _ 4); [left; simpl; auto 6|constructor]. }
    assert (forall x y z, linked demo_edges x y -> linked demo_edges y z -> linked demo_edges x z) as T.
    { intros x y z H. induction H; auto. intro. eapply L1; eauto. }
    intros x y Hx Hy. apply (T x 1 y); simpl in Hx, Hy.
    + destruct Hx as [<-|[<-|[<-|[<-|[]]]]]; auto.
    + destruct Hy as [<-|[<-|[<-|[<-|[]]]]]; auto.
  - exists {| nodes := [GP 3; GP 4; GG [GP 1; GP 2]];
              edges := [(GP 3, GP 4); (GG [GP 1; GP 2], GP 3); (GP 3, GG [GP 1; GP 2])] |}.
    split; [vm_compute; reflexivity|].
    exists [GP 3; GG [GP 1; GP 2]], {| nodes := [GP 4; GG [GP 3; GG [GP 1; GP 2]]]; edges := [(GG [GP 3; GG [GP 1; GP 2]], GP 4)] |}.
    split; [|split; [vm_compute; reflexivity|split; [|vm_compute; reflexivity]]].
    + split; [repeat constructor; simpl; intuition congruence|]. simpl. auto 6.
    + split; [simpl; apply perm_swap|]. simpl. intros X Y [H|[]]. injection H as <- <-. exists [], [], []. auto.
Qed.

(** ** Processes are lost when the expanded network is not connected *)
Theorem proc_groups_lost_refuted :
  let procs := [1;2;3;4] in let E := [(1,2);(3,4)] in
  let wccs := fun g => if length (nodes g) =? 4 then [[GP 1; GP 2]; [GP 3; GP 4]] else [] in
  network_ok procs E /\
  exists G1, collapse_isomodel (fun l => l) (fun _ => 0) wccs (proc_graph procs E) = Some G1 /\
    collapse_cycles (fun l => l) G1 G1 /\ is_topo G1 (nodes G1) /\
    get_proc_groups 20 (nodes G1) = Some [[VP 3; VP 4]].
Proof.
  split.
  - split; [repeat constructor; simpl; intuition congruence|]. simpl. intros x y H.
    repeat (destruct H as [H|H]; [injection H as <- <-; auto 6|]). destruct H.
  - eexists. split; [reflexivity|]. split; [|split; [|reflexivity]].
    + constructor. intros c Hc. apply is_cycle_walk in Hc. destruct Hc as [x Hx]. inversion Hx; simpl in *; contradiction.
    + split; [apply Permutation_refl|]. intros X Y [].
Qed.

Print Assumptions proc_groups_exact_partial.
Print Assumptions flatten_node_total.
