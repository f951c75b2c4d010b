(** C27: process groups. *)
From Coq Require Import List Arith Bool Lia Permutation.
From Verif Require Import Groups_Model Groups_Dag.
Import ListNotations.

(** ** Specification *)
(** the processes inside a node *)
Fixpoint leaves (n : node) : list nat := match n with GP p => [p] | GG l => flat_map leaves l end.
(** undirected connection *)
Inductive linked (E : list (nat * nat)) : nat -> nat -> Prop :=
| L0 x : linked E x x
| L1 x y z : In (x, y) E \/ In (y, x) E -> linked E y z -> linked E x z.
Definition weakly_connected (procs : list nat) (E : list (nat * nat)) : Prop :=
  forall x y, In x procs -> In y procs -> linked E x y.
(** the graph of resolved processes *)
Definition proc_graph (procs : list nat) (E : list (nat * nat)) : dgraph :=
  {| nodes := map GP procs; edges := map (fun e => (GP (fst e), GP (snd e))) E |}.

(** ** graph primitives *)
Lemma add_node_in g n x : In x (nodes (add_node g n)) <-> In x (nodes g) \/ x = n.
Proof.
  unfold add_node. destruct (nmem n (nodes g)) eqn:M.
  - apply nmem_spec in M. split; auto. intros [| ->]; auto.
  - simpl. rewrite in_app_iff. simpl. intuition congruence.
Qed.
Lemma add_node_edges g n : edges (add_node g n) = edges g.
Proof. unfold add_node. destruct (nmem n (nodes g)); auto. Qed.
Lemma add_node_NoDup g n : NoDup (nodes g) -> NoDup (nodes (add_node g n)).
Proof.
  intro H. unfold add_node. destruct (nmem n (nodes g)) eqn:M; auto. simpl. apply nmem_false in M.
  apply Permutation_NoDup with (n :: nodes g); [apply Permutation_cons_append|constructor; auto].
Qed.
Lemma add_edge_nodes g u v x : In x (nodes (add_edge g u v)) <-> In x (nodes g) \/ x = u \/ x = v.
Proof.
  unfold add_edge. destruct (existsb _ _); simpl; rewrite !add_node_in; tauto.
Qed.
Lemma add_edge_NoDup g u v : NoDup (nodes g) -> NoDup (nodes (add_edge g u v)).
Proof.
  intro H. unfold add_edge. destruct (existsb _ _); simpl; apply add_node_NoDup, add_node_NoDup; auto.
Qed.
Lemma add_edge_edges g u v x y : In (x, y) (edges (add_edge g u v)) <-> In (x, y) (edges g) \/ (x = u /\ y = v).
Proof.
  unfold add_edge. destruct (existsb _ _) eqn:E; simpl; rewrite !add_node_edges in *.
  - split; auto. intros [|[-> ->]]; auto. apply existsb_exists in E. destruct E as [[a b] [H E]].
    unfold edge_eqb in E. simpl in E. apply andb_prop in E. destruct E as [E1 E2].
    apply node_eqb_eq in E1, E2. subst; auto.
  - rewrite in_app_iff. simpl. split; [intros [|[H|[]]]; auto; injection H as <- <-; auto|intros [|[-> ->]]; auto].
Qed.
Lemma sub_edges g l x y : In (x, y) (edges (subgraph g l)) <-> In (x, y) (edges g) /\ In x l /\ In y l.
Proof. unfold subgraph. simpl. rewrite filter_In. simpl. rewrite andb_true_iff, !nmem_spec. tauto. Qed.
Lemma sub_nodes g l x : In x (nodes (subgraph g l)) <-> In x (nodes g) /\ In x l.
Proof. unfold subgraph. simpl. rewrite filter_In, nmem_spec. tauto. Qed.
Lemma same_set_spec a b : same_set a b = true <-> (forall x, In x a <-> In x b).
Proof.
  unfold same_set. rewrite andb_true_iff, !forallb_forall. split.
  - intros [H1 H2] x. split; intro H; [apply nmem_spec, H1|apply nmem_spec, H2]; auto.
  - intro H. split; intros x Hx; apply nmem_spec, H; auto.
Qed.
Lemma edges_eqb_spec a b : edges_eqb a b = true <-> a = b.
Proof.
  revert b. induction a as [|[x y] a IH]; intros [|[u v] b]; simpl; try (split; congruence).
  unfold edge_eqb. simpl. rewrite !andb_true_iff, !node_eqb_eq, IH. split.
  - intros [[-> ->] ->]. auto.
  - intro H. injection H as -> -> ->. auto.
Qed.

(** ** collapse_subgraph_to_node *)
Section Props.
Variable setorder : list node -> list node.
Hypothesis setorder_ok : forall l x, In x (setorder l) <-> In x l.

Section Loop.
Variable g sub : dgraph.
Variable new : node.
Hypothesis Hg : graph_ok g.
Hypothesis Hnew : ~ In new (nodes g).
Hypothesis Hsub : incl (nodes sub) (nodes g).

Definition crossing (done : list node) : Prop :=
  exists n m, In n done /\ ~ In m (nodes sub) /\ (In (n, m) (edges g) \/ In (m, n) (edges g)).

Record loop_inv (done : list node) (og : dgraph) : Prop := {
  li_nodup : NoDup (nodes og);
  li_nodes : forall x, In x (nodes og) <-> (In x (nodes g) /\ ~ In x done) \/ (x = new /\ crossing done);
  li_edges : forall a b, In (a, b) (edges og) <->
     (In (a, b) (edges g) /\ ~ In a done /\ ~ In b done) \/
     (a = new /\ ~ In b (nodes sub) /\ exists n, In n done /\ In (n, b) (edges g)) \/
     (b = new /\ ~ In a (nodes sub) /\ exists n, In n done /\ In (a, n) (edges g)) }.

(** state inside the loop over the neighbours of n *)
Record inner_inv (done : list node) (n : node) (ms : list node) (og : dgraph) : Prop := {
  ii_nodup : NoDup (nodes og);
  ii_nodes : forall x, In x (nodes og) <-> (In x (nodes g) /\ ~ In x done) \/
     (x = new /\ (crossing done \/ exists m, In m ms /\ (In (n, m) (edges g) \/ In (m, n) (edges g))));
  ii_edges : forall a b, In (a, b) (edges og) <->
     (In (a, b) (edges g) /\ ~ In a done /\ ~ In b done) \/
     (a = new /\ ~ In b (nodes sub) /\ ((exists k, In k done /\ In (k, b) (edges g)) \/ (In b ms /\ In (n, b) (edges g)))) \/
     (b = new /\ ~ In a (nodes sub) /\ ((exists k, In k done /\ In (a, k) (edges g)) \/ (In a ms /\ In (a, n) (edges g)))) }.

Lemma new_not_edge a b : In (a, b) (edges g) -> a <> new /\ b <> new.
Proof. intro H. destruct (proj2 Hg a b H). split; intros ->; contradiction. Qed.

(** edges of n seen in the working copy are those of the original, as long as the other end was not processed *)
Lemma inner_out done n ms og : inner_inv done n ms og -> In n (nodes sub) -> ~ In n done -> incl done (nodes sub) ->
  forall m, In m (nodes g) -> ~ In m (nodes sub) ->
  (In (n, m) (edges og) <-> In (n, m) (edges g)) /\ (In (m, n) (edges og) <-> In (m, n) (edges g)).
Proof.
  intros I Hn Hd Hinc m Hm Hms. assert (n <> new) as Nn by (intros ->; apply Hnew, Hsub; auto).
  assert (m <> new) as Nm by (intros ->; contradiction).
  assert (~ In m done) by (intro; apply Hms, Hinc; auto).
  split; rewrite (ii_edges _ _ _ _ I); intuition congruence.
Qed.

Lemma step_inv done n og : loop_inv done og -> In n (nodes sub) -> ~ In n done -> incl done (nodes sub) ->
  loop_inv (done ++ [n]) (collapse_node setorder sub new og n).
Proof.
  intros I Hn Hd Hinc. unfold collapse_node.
  assert (n <> new) as Nn by (intros ->; apply Hnew, Hsub; auto).
  set (nb := filter (fun m => negb (nmem m (nodes sub))) (setorder (succs og n ++ preds og n))).
  assert (forall m, In m nb <-> ~ In m (nodes sub) /\ (In (n, m) (edges g) \/ In (m, n) (edges g))) as Hnb.
  { intro m. unfold nb. rewrite filter_In, negb_true_iff, nmem_false, setorder_ok, in_app_iff, succs_spec, preds_spec.
    rewrite !(li_edges _ _ I). split.
    - intros [H1 H2]. split; auto. destruct H1 as [[[? _]|[[? _]|[_ [? _]]]]|[[? _]|[[_ [? _]]|[? _]]]]; auto; contradiction.
    - intros [H1 H2]. split; auto. assert (~ In m done) by (intro; apply H1, Hinc; auto). tauto. }
  clearbody nb.
  assert (forall ms done_ms og1, (forall m, In m ms -> In m nb) -> inner_inv done n done_ms og1 ->
     (forall m, In m done_ms -> In m nb) ->
     inner_inv done n (done_ms ++ ms) (fold_left (fun og m =>
      let og := if nmem m (succs og n) then add_edge og new m else og in
      if nmem m (preds og n) then add_edge og m new else og) ms og1)) as G.
  { induction ms as [|m ms IH]; intros dm og1 Hms I1 Hdm; [rewrite app_nil_r; auto|].
    replace (dm ++ m :: ms) with ((dm ++ [m]) ++ ms) by (rewrite <- app_assoc; auto).
    simpl. apply IH; [intros; apply Hms; right; auto| |intros x Hx; apply in_app_iff in Hx; destruct Hx as [|[<-|[]]]; auto; apply Hms; left; auto].
    clear IH.
    assert (In m nb) as Hm by (apply Hms; left; auto).
    apply Hnb in Hm. destruct Hm as [M1 M2].
    assert (In m (nodes g)) as M3 by (destruct M2 as [H|H]; apply (proj2 Hg) in H; tauto).
    assert (m <> new) as Nm by (intros ->; contradiction).
    assert (~ In m done) as M4 by (intro; apply M1, Hinc; auto).
    assert (forall x, In x dm -> x <> new) as Ndm.
    { intros x Hx ->. apply Hdm, Hnb in Hx. destruct Hx as [_ [Hx|Hx]]; apply (proj2 Hg) in Hx; tauto. }
    destruct (inner_out _ _ _ _ I1 Hn Hd Hinc m M3 M1) as [O1 O2].
    set (og2 := if nmem m (succs og1 n) then add_edge og1 new m else og1).
    assert (NoDup (nodes og2) /\
      (forall x, In x (nodes og2) <-> In x (nodes og1) \/ (In (n, m) (edges g) /\ (x = new \/ x = m))) /\
      (forall a b, In (a, b) (edges og2) <-> In (a, b) (edges og1) \/ (In (n, m) (edges g) /\ a = new /\ b = m))) as [A [B C]].
    { unfold og2. destruct (nmem m (succs og1 n)) eqn:M.
      - apply nmem_spec, succs_spec, O1 in M. split; [apply add_edge_NoDup; apply I1|]. split; intros; rewrite ?add_edge_nodes, ?add_edge_edges; tauto.
      - assert (~ In (n, m) (edges g)) by (rewrite <- O1, <- succs_spec; apply nmem_false; auto).
        split; [apply I1|]. split; intros; tauto. }
    assert (In (m, n) (edges og2) <-> In (m, n) (edges g)) as O3.
    { rewrite C, O2. split; auto. intros [|[_ [-> _]]]; auto. contradiction. }
    clearbody og2.
    set (og3 := if nmem m (preds og2 n) then add_edge og2 m new else og2).
    assert (NoDup (nodes og3) /\
      (forall x, In x (nodes og3) <-> In x (nodes og2) \/ (In (m, n) (edges g) /\ (x = new \/ x = m))) /\
      (forall a b, In (a, b) (edges og3) <-> In (a, b) (edges og2) \/ (In (m, n) (edges g) /\ a = m /\ b = new))) as [A' [B' C']].
    { unfold og3. destruct (nmem m (preds og2 n)) eqn:M.
      - apply nmem_spec, preds_spec, O3 in M. split; [apply add_edge_NoDup; auto|]. split; intros; rewrite ?add_edge_nodes, ?add_edge_edges; tauto.
      - assert (~ In (m, n) (edges g)) by (rewrite <- O3, <- preds_spec; apply nmem_false; auto).
        split; auto. split; intros; tauto. }
    clearbody og3. constructor; auto.
    - intro x. rewrite B', B, (ii_nodes _ _ _ _ I1). split.
      + intros [[[H|[-> H]]|[H [->| ->]]]|[H [->| ->]]]; auto.
        * right. split; auto. destruct H as [|[k [Hk H]]]; auto. right. exists k. rewrite in_app_iff. auto.
        * right. split; auto. right. exists m. rewrite in_app_iff. simpl. auto.
        * right. split; auto. right. exists m. rewrite in_app_iff. simpl. auto.
      + intros [H|[-> H]]; auto. destruct H as [H|[k [Hk H]]]; [left; left; right; auto|].
        apply in_app_iff in Hk. destruct Hk as [Hk|[<-|[]]].
        * left. left. right. split; auto. right. exists k. auto.
        * destruct H; auto.
    - intros a b. rewrite C', C, (ii_edges _ _ _ _ I1). rewrite !in_app_iff. simpl. split.
      + intros [[[H|[H|H]]|[H [-> ->]]]|[H [-> ->]]]; auto.
        * right; left. destruct H as [? [? [?|[? ?]]]]; tauto.
        * right; right. destruct H as [? [? [?|[? ?]]]]; tauto.
        * right; left. tauto.
        * right; right. tauto.
      + intros [H|[[-> [H1 [H|[[H|[<-|[]]] H2]]]]|[-> [H1 [H|[[H|[<-|[]]] H2]]]]]].
        * left; left; left; auto.
        * left; left; right; left; auto.
        * left; left; right; left; auto.
        * left; right; auto.
        * left; left; right; right; auto.
        * left; left; right; right; auto.
        * right; auto. }
  assert (inner_inv done n [] og) as I0.
  { constructor; [apply I| |].
    - intro x. rewrite (li_nodes _ _ I). split; intros [H|[-> H]]; auto. destruct H as [|[k [[] _]]]; auto.
    - intros a b. rewrite (li_edges _ _ I). simpl. tauto. }
  specialize (G nb [] og (fun m H => H) I0 (fun m (H : In m []) => match H with end)). simpl in G.
  set (og1 := fold_left _ nb og) in *. clearbody og1.
  constructor.
  - apply filter_NoDup'. apply G.
  - intro x. unfold remove_node. rewrite remove_nodes_in, (ii_nodes _ _ _ _ G), in_app_iff. simpl. split.
    + intros [[[H1 H2]|[-> H]] H3]; [left; split; auto; intros [|[|[]]]; auto|].
      right. split; auto. destruct H as [[k [m [K1 [K2 K3]]]]|[m [Hm H]]].
      * exists k, m. rewrite in_app_iff. auto.
      * exists n, m. rewrite in_app_iff. simpl. apply Hnb in Hm. tauto.
    + intros [[H1 H2]|[-> [k [m [K1 [K2 K3]]]]]].
      * split; [left; split; auto|]. intros [->|[]]. apply H2. auto.
      * split; [|intros [|[]]; auto]. right. split; auto. apply in_app_iff in K1. destruct K1 as [K1|[<-|[]]].
        -- left. exists k, m. auto.
        -- right. exists m. split; auto. apply Hnb. auto.
  - intros a b. unfold remove_node. rewrite remove_edges, (ii_edges _ _ _ _ G). setoid_rewrite in_app_iff. simpl. split.
    + intros [[[H1 [H2 H3]]|[[-> [H1 H]]|[-> [H1 H]]]] [Ha Hb]].
      * left. split; auto. split; intros [|[|[]]]; auto.
      * right; left. split; auto. split; auto. destruct H as [[k [K1 K2]]|[K1 K2]]; [exists k; auto|exists n; auto].
      * right; right. split; auto. split; auto. destruct H as [[k [K1 K2]]|[K1 K2]]; [exists k; auto|exists n; auto].
    + intros [[H1 [H2 H3]]|[[-> [H1 [k [[K1|[<-|[]]] K2]]]]|[-> [H1 [k [[K1|[<-|[]]] K2]]]]]].
      * split; [left; split; auto|]. split; intros [<-|[]]; [apply H2|apply H3]; auto.
      * split; [right; left; split; auto; split; auto; left; exists k; auto|]. split; intros [<-|[]]; auto.
      * split; [right; left; split; auto; split; auto; right; split; auto; apply Hnb; auto|]. split; intros [<-|[]]; auto.
      * split; [right; right; split; auto; split; auto; left; exists k; auto|]. split; intros [<-|[]]; auto.
      * split; [right; right; split; auto; split; auto; right; split; auto; apply Hnb; auto|]. split; intros [<-|[]]; auto.
Qed.

Lemma loop_ok (HN : NoDup (nodes sub)) : loop_inv (nodes sub) (fold_left (collapse_node setorder sub new) (nodes sub) g).
Proof.
  assert (loop_inv [] g) as I0.
  { constructor; [apply Hg| |].
    - intro x. split; [auto|]. intros [[H _]|[_ [k [m [[] _]]]]]; auto.
    - intros a b. split; [auto|]. intros [[H _]|[[_ [_ [k [[] _]]]]|[_ [_ [k [[] _]]]]]]; auto. }
  assert (forall todo done og, NoDup (done ++ todo) -> incl (done ++ todo) (nodes sub) -> loop_inv done og ->
    loop_inv (done ++ todo) (fold_left (collapse_node setorder sub new) todo og)) as G.
  { induction todo as [|n todo IH]; intros done og H1 H2 I; [rewrite app_nil_r; auto|].
    simpl. replace (done ++ n :: todo) with ((done ++ [n]) ++ todo) in * by (rewrite <- app_assoc; auto).
    apply IH; auto. apply step_inv; auto.
    - apply H2. rewrite !in_app_iff. simpl; auto.
    - rewrite <- app_assoc in H1. apply NoDup_remove_2 in H1. intro Hn. apply H1. apply in_app_iff; auto.
    - intros x Hx. apply H2. rewrite !in_app_iff. auto. }
  apply (G (nodes sub) [] g); auto. apply incl_refl.
Qed.
End Loop.

(** ** The invariant of the whole surgery *)
Variable procs : list nat.
Variable E0 : list (nat * nat).
Hypothesis Hprocs : NoDup procs.
Hypothesis HE0 : forall x y, In (x, y) E0 -> In x procs /\ In y procs.
Hypothesis Hconn : weakly_connected procs E0.

Record ginv (G : dgraph) : Prop := {
  gi_ok : graph_ok G;
  gi_leaves : Permutation (flat_map leaves (nodes G)) procs;
  gi_edges : forall X Y, X <> Y -> In X (nodes G) -> In Y (nodes G) ->
     (In (X, Y) (edges G) <-> exists x y, In x (leaves X) /\ In y (leaves Y) /\ In (x, y) E0);
  gi_ne : forall X, In X (nodes G) -> leaves X <> [] }.

Lemma nodup_flat {A B} (f : A -> list B) l X Y x : NoDup (flat_map f l) -> In X l -> In Y l -> In x (f X) -> In x (f Y) -> X = Y.
Proof.
  induction l as [|Z l IH]; simpl; intros HN HX HY H1 H2; [destruct HX|].
  assert (forall z, In z (f Z) -> ~ In z (flat_map f l)) as D.
  { intros z Hz Hl. clear - HN Hz Hl. induction (f Z) as [|a m IHm]; [destruct Hz|]. simpl in HN. inversion HN; subst.
    destruct Hz as [->|Hz]; [apply H1; apply in_app_iff; auto|auto]. }
  assert (NoDup (flat_map f l)) as HN2.
  { clear - HN. induction (f Z); simpl in HN; auto. inversion HN; auto. }
  destruct HX as [->|HX], HY as [->|HY]; auto.
  - exfalso. apply (D x H1). apply in_flat_map. eauto.
  - exfalso. apply (D x H2). apply in_flat_map. eauto.
Qed.

Lemma ginv_nodup G : ginv G -> NoDup (flat_map leaves (nodes G)).
Proof. intro I. eapply Permutation_NoDup; [apply Permutation_sym, (gi_leaves _ I)|auto]. Qed.
Lemma ginv_home G x : ginv G -> In x procs -> exists X, In X (nodes G) /\ In x (leaves X).
Proof.
  intros I H. eapply Permutation_in in H; [|apply Permutation_sym, (gi_leaves _ I)].
  apply in_flat_map in H. auto.
Qed.
Lemma ginv_leaf G X x : ginv G -> In X (nodes G) -> In x (leaves X) -> In x procs.
Proof. intros I HX H. eapply Permutation_in; [apply (gi_leaves _ I)|]. apply in_flat_map. eauto. Qed.

Lemma size_in n l : In n l -> node_size n < node_size (GG l).
Proof.
  cbn [node_size]. induction l as [|x l IH]; simpl; [intros []|]. intros [->|H]; [lia|]. specialize (IH H). lia.
Qed.

Lemma new_fresh G S : ginv G -> incl S (nodes G) -> S <> [] -> ~ In (GG S) (nodes G).
Proof.
  intros I Hi Hne H. destruct S as [|n S]; [congruence|].
  assert (In n (nodes G)) as Hn by (apply Hi; left; auto).
  pose proof (gi_ne _ I n Hn) as L. destruct (leaves n) as [|x r] eqn:El; [congruence|].
  assert (n = GG (n :: S)) as E.
  { apply (nodup_flat leaves (nodes G) n (GG (n :: S)) x); auto.
    - apply ginv_nodup; auto.
    - rewrite El. left; auto.
    - simpl. rewrite El. left; auto. }
  pose proof (size_in n (n :: S) (or_introl eq_refl)). rewrite <- E in H0. lia.
Qed.

Lemma linked_crosses (P : nat -> Prop) (Pdec : forall x, P x \/ ~ P x) x y : linked E0 x y -> P x -> ~ P y ->
  exists u v, P u /\ ~ P v /\ (In (u, v) E0 \/ In (v, u) E0).
Proof.
  induction 1; intros Hx Hz; [contradiction|]. destruct (Pdec y) as [Hy|Hy]; [auto|]. exists x, y. auto.
Qed.

Lemma crossing_exists G S Y : ginv G -> incl S (nodes G) -> S <> [] -> In Y (nodes G) -> ~ In Y S ->
  exists n m, In n S /\ In m (nodes G) /\ ~ In m S /\ (In (n, m) (edges G) \/ In (m, n) (edges G)).
Proof.
  intros I Hi Hne HY HYS. destruct S as [|n S]; [congruence|]. set (T := n :: S) in *.
  assert (In n T) as HnT by (left; auto).
  assert (In n (nodes G)) as Hn by auto.
  pose proof (gi_ne _ I n Hn) as L1. pose proof (gi_ne _ I Y HY) as L2.
  destruct (leaves n) as [|x r] eqn:El; [congruence|]. destruct (leaves Y) as [|y r'] eqn:Ey; [congruence|].
  assert (In x (leaves n)) as Hx by (rewrite El; left; auto). assert (In y (leaves Y)) as Hy by (rewrite Ey; left; auto).
  assert (forall X z, In X (nodes G) -> In z (leaves X) -> (In z (flat_map leaves T) <-> In X T)) as HT.
  { intros X z HX Hz. rewrite in_flat_map. split; [|eauto]. intros [X' [H1 H2]].
    replace X with X'; auto. apply (nodup_flat leaves (nodes G) X' X z); auto. apply ginv_nodup; auto. }
  destruct (linked_crosses (fun z => In z (flat_map leaves T))) with (x := x) (y := y) as [u [v [Hu [Hv Huv]]]].
  - intro z. destruct (in_dec Nat.eq_dec z (flat_map leaves T)); auto.
  - apply Hconn; [apply (ginv_leaf G n x I Hn Hx)|apply (ginv_leaf G Y y I HY Hy)].
  - apply in_flat_map. exists n. auto.
  - rewrite (HT Y y HY Hy). auto.
  - apply in_flat_map in Hu. destruct Hu as [U [HU Hu]].
    assert (In v procs) as Hvp by (destruct Huv as [H|H]; apply HE0 in H; tauto).
    destruct (ginv_home G v I Hvp) as [V [HV HvV]].
    assert (~ In V T) as HVT by (rewrite <- (HT V v HV HvV); auto).
    assert (U <> V) as NE by (intros ->; contradiction).
    exists U, V. split; auto. split; auto. split; auto.
    destruct Huv as [H|H]; [left|right]; apply (gi_edges _ I); auto; eauto 6.
Qed.

Lemma nodup_app (a b : list node) : NoDup a -> NoDup b -> (forall x, In x a -> ~ In x b) -> NoDup (a ++ b).
Proof.
  induction 1; simpl; auto. intros Hb Hd. constructor.
  - rewrite in_app_iff. intros [|Hx]; auto. apply (Hd x (or_introl eq_refl)); auto.
  - apply IHNoDup; [exact Hb|]. intros y Hy. apply Hd. right; auto.
Qed.
Definition rest (S l : list node) : list node := filter (fun n => negb (nmem n S)) l.
Lemma rest_in S l x : In x (rest S l) <-> In x l /\ ~ In x S.
Proof. unfold rest. rewrite filter_In, negb_true_iff, nmem_false. tauto. Qed.
Lemma split_perm (S l : list node) : NoDup S -> NoDup l -> incl S l -> Permutation l (S ++ rest S l).
Proof.
  intros H1 H2 H3. apply NoDup_Permutation; auto.
  - apply nodup_app; auto; [apply filter_NoDup'; auto|]. intros x Hx Hr. apply rest_in in Hr. tauto.
  - intro x. rewrite in_app_iff, rest_in. destruct (in_dec node_dec x S); intuition.
Qed.

Definition self_loops (G : dgraph) : list node := filter (fun x => nmem x (succs G x)) (nodes G).
Lemma self_loops_in G x : In x (self_loops G) <-> In x (nodes G) /\ In (x, x) (edges G).
Proof. unfold self_loops. rewrite filter_In, nmem_spec, succs_spec. tauto. Qed.

(** what one collapse does to a graph satisfying the invariant *)
Definition collapsed (G sub G' : dgraph) : Prop := exists l,
  (forall x, In x (leaves (GG l)) <-> exists n, In n (nodes sub) /\ In x (leaves n)) /\
  Permutation (nodes G') (GG l :: rest (nodes sub) (nodes G)) /\
  (forall x, In (x, x) (edges G') -> In (x, x) (edges G) /\ ~ In x (nodes sub)).

Lemma collapse_inv G sub : ginv G -> NoDup (nodes sub) -> incl (nodes sub) (nodes G) -> nodes sub <> [] ->
  ((forall x, In x (nodes sub) <-> In x (nodes G)) -> edges sub = edges G) ->
  exists G', collapse setorder G sub = Some G' /\ ginv G' /\
    ((G' = G /\ exists n, nodes sub = [n] /\ isolated G n = true) \/ collapsed G sub G').
Proof.
  intros I HN Hi Hne Hall. unfold collapse.
  assert (forallb (fun n => nmem n (nodes G)) (nodes sub) = true) as Hs.
  { apply forallb_forall. intros x Hx. apply nmem_spec; auto. }
  rewrite Hs. cbn [negb]. destruct (nodes sub) as [|n0 r0] eqn:Es; [congruence|]. rewrite <- Es in *.
  destruct ((match r0 with [] => true | _ => false end) && isolated G n0) eqn:Iso.
  { apply andb_prop in Iso. destruct Iso as [Er Iso]. destruct r0; [|discriminate].
    exists G. split; auto. split; auto. left. eauto. }
  assert (In n0 (nodes sub)) as Hn0 by (rewrite Es; left; auto). clear Es Iso r0.
  pose proof (new_fresh G (nodes sub) I Hi Hne) as Hnew.
  destruct (edges_eqb (edges sub) (edges G) && same_set (nodes sub) (nodes G)) eqn:W.
  - apply andb_prop in W. destruct W as [_ W]. rewrite same_set_spec in W.
    eexists. split; [reflexivity|]. split.
    + constructor; cbn [nodes edges].
      * split; [repeat constructor; auto|]. intros x y [].
      * simpl. rewrite app_nil_r. apply (gi_leaves _ I).
      * intros X Y H [<-|[]] [<-|[]]. congruence.
      * intros X [<-|[]] H. simpl in H. pose proof (gi_ne _ I n0 (Hi n0 Hn0)) as L.
        destruct (leaves n0) as [|x r] eqn:El; [congruence|].
        assert (In x (flat_map leaves (nodes G))) as Hx by (apply in_flat_map; exists n0; rewrite El; simpl; auto).
        rewrite H in Hx. destruct Hx.
    + right. exists (nodes G). split; [|split].
      * intro x. cbn [leaves]. rewrite in_flat_map. split; intros [n [H1 H2]]; exists n; split; auto; apply W; auto.
      * cbn [nodes]. replace (rest (nodes sub) (nodes G)) with (@nil node); [auto|].
        symmetry. destruct (rest (nodes sub) (nodes G)) as [|z l] eqn:R; auto.
        assert (In z (rest (nodes sub) (nodes G))) as Hz by (rewrite R; left; auto).
        apply rest_in in Hz. rewrite W in Hz. tauto.
      * intros x [].
  - (* some node stays outside *)
    assert (exists Y, In Y (nodes G) /\ ~ In Y (nodes sub)) as [Y [HY HYS]].
    { destruct (rest (nodes sub) (nodes G)) as [|z l] eqn:R.
      - exfalso. assert (forall x, In x (nodes sub) <-> In x (nodes G)) as Q.
        { intro x. split; auto. intro Hx. destruct (in_dec node_dec x (nodes sub)); auto. exfalso.
          assert (In x (rest (nodes sub) (nodes G))) as Hz by (apply rest_in; auto). rewrite R in Hz. destruct Hz. }
        rewrite (Hall Q) in W. apply same_set_spec in Q. rewrite Q in W.
        assert (edges_eqb (edges G) (edges G) = true) as Q2 by (apply edges_eqb_spec; auto). rewrite Q2 in W. discriminate.
      - exists z. apply rest_in. rewrite R. left; auto. }
    destruct (crossing_exists G (nodes sub) Y I Hi Hne HY HYS) as [cn [cm [C1 [C2 [C3 C4]]]]].
    pose proof (loop_ok G sub (GG (nodes sub)) (gi_ok _ I) Hnew Hi HN) as L.
    set (G' := fold_left _ (nodes sub) G) in *. clearbody G'.
    assert (crossing G sub (nodes sub)) as Hc by (exists cn, cm; auto).
    assert (forall x, In x (nodes G') <-> x = GG (nodes sub) \/ (In x (nodes G) /\ ~ In x (nodes sub))) as Hx.
    { intro x. rewrite (li_nodes _ _ _ _ _ L). tauto. }
    assert (Permutation (nodes G') (GG (nodes sub) :: rest (nodes sub) (nodes G))) as HP.
    { apply NoDup_Permutation; [apply L| |].
      - constructor; [rewrite rest_in; tauto|]. apply filter_NoDup'. apply (gi_ok _ I).
      - intro x. rewrite Hx. simpl. rewrite rest_in. intuition. }
    exists G'. split; auto. split; [|right; exists (nodes sub); split; [|split; auto]].
    + constructor.
      * split; [apply L|]. intros x y H. rewrite !Hx. apply (li_edges _ _ _ _ _ L) in H.
        destruct H as [[H1 [H2 H3]]|[[-> [H1 [k [K1 K2]]]]|[-> [H1 [k [K1 K2]]]]]].
        -- destruct (proj2 (gi_ok _ I) _ _ H1). auto.
        -- destruct (proj2 (gi_ok _ I) _ _ K2). auto.
        -- destruct (proj2 (gi_ok _ I) _ _ K2). auto.
      * eapply perm_trans; [apply Permutation_flat_map; exact HP|]. simpl.
        eapply perm_trans; [|apply (gi_leaves _ I)]. rewrite <- flat_map_app.
        apply Permutation_flat_map. apply Permutation_sym. apply split_perm; auto. apply (gi_ok _ I).
      * intros X Z NE HX HZ. rewrite (li_edges _ _ _ _ _ L). apply Hx in HX. apply Hx in HZ.
        destruct HX as [->|[HX HXS]], HZ as [->|[HZ HZS]]; [congruence| | |].
        -- split.
           ++ intros [[H _]|[[_ [_ [k [K1 K2]]]]|[-> _]]].
              ** exfalso. apply (proj2 (gi_ok _ I)) in H. tauto.
              ** apply (gi_edges _ I) in K2; auto; [|intros ->; contradiction].
                 destruct K2 as [x [y [Q1 [Q2 Q3]]]]. exists x, y. split; auto. cbn [leaves]. apply in_flat_map. eauto.
              ** contradiction.
           ++ intros [x [y [Q1 [Q2 Q3]]]]. cbn [leaves] in Q1. apply in_flat_map in Q1. destruct Q1 as [k [K1 K2]].
              right; left. split; auto. split; auto. exists k. split; auto. apply (gi_edges _ I); eauto. intros ->; contradiction.
        -- split.
           ++ intros [[H _]|[[-> _]|[_ [_ [k [K1 K2]]]]]].
              ** exfalso. apply (proj2 (gi_ok _ I)) in H. tauto.
              ** contradiction.
              ** apply (gi_edges _ I) in K2; auto; [|intros ->; contradiction].
                 destruct K2 as [x [y [Q1 [Q2 Q3]]]]. exists x, y. split; auto. split; auto. cbn [leaves]. apply in_flat_map. eauto.
           ++ intros [x [y [Q1 [Q2 Q3]]]]. cbn [leaves] in Q2. apply in_flat_map in Q2. destruct Q2 as [k [K1 K2]].
              right; right. split; auto. split; auto. exists k. split; auto. apply (gi_edges _ I); eauto. intros ->; contradiction.
        -- rewrite <- (gi_edges _ I X Z NE HX HZ). split; [|auto].
           intros [[H _]|[[-> _]|[-> _]]]; auto; contradiction.
      * intros X HX. apply Hx in HX. destruct HX as [->|[HX _]]; [|apply (gi_ne _ I); auto].
        cbn [leaves]. intro H. pose proof (gi_ne _ I n0 (Hi n0 Hn0)) as Ln.
        destruct (leaves n0) as [|x r] eqn:El; [congruence|].
        assert (In x (flat_map leaves (nodes sub))) as Hxx by (apply in_flat_map; exists n0; rewrite El; simpl; auto).
        rewrite H in Hxx. destruct Hxx.
    + intro x. cbn [leaves]. apply in_flat_map.
    + intros x H. apply (li_edges _ _ _ _ _ L) in H.
      destruct H as [[H1 [H2 H3]]|[[-> [H1 [k [K1 K2]]]]|[-> [H1 [k [K1 K2]]]]]]; auto;
      exfalso; apply (proj2 (gi_ok _ I)) in K2; tauto.
Qed.

(** ** Merging only *)
Definition together (G : dgraph) (x y : nat) : Prop := exists X, In X (nodes G) /\ In x (leaves X) /\ In y (leaves X).
Lemma collapsed_together G sub G' x y : collapsed G sub G' -> together G x y -> together G' x y.
Proof.
  intros [l [H1 [H2 _]]] [X [HX [Hx Hy]]]. destruct (in_dec node_dec X (nodes sub)) as [Hs|Hs].
  - exists (GG l). split; [|split; apply H1; eauto]. eapply Permutation_in; [apply Permutation_sym, H2|]. left; auto.
  - exists X. split; auto. eapply Permutation_in; [apply Permutation_sym, H2|]. right. apply rest_in. auto.
Qed.
Lemma collapsed_members G sub G' x y X Y : collapsed G sub G' -> In X (nodes sub) -> In Y (nodes sub) ->
  In x (leaves X) -> In y (leaves Y) -> together G' x y.
Proof.
  intros [l [H1 [H2 _]]] HX HY Hx Hy. exists (GG l).
  split; [|split; apply H1; eauto]. eapply Permutation_in; [apply Permutation_sym, H2|]. left; auto.
Qed.

Lemma proc_graph_inv : ginv (proc_graph procs E0).
Proof.
  assert (forall l, flat_map leaves (map GP l) = l) as F by (induction l; simpl; congruence).
  constructor.
  - split.
    + simpl. clear - Hprocs. induction Hprocs; simpl; constructor; auto. rewrite in_map_iff. intros [y [E Hy]]. congruence.
    + intros x y H. simpl in H. apply in_map_iff in H. destruct H as [[a b] [E H]]. injection E as <- <-. simpl.
      apply HE0 in H. rewrite !in_map_iff. destruct H. split; eauto.
  - simpl. rewrite F. auto.
  - intros X Y _ HX HY. simpl in *. apply in_map_iff in HX. apply in_map_iff in HY.
    destruct HX as [x [<- Hx]], HY as [y [<- Hy]]. rewrite in_map_iff. simpl. split.
    + intros [[a b] [E H]]. injection E as <- <-. exists a, b. auto.
    + intros [a [b [[<-|[]] [[<-|[]] H]]]]. exists (x, y). auto.
  - intros X HX. simpl in HX. apply in_map_iff in HX. destruct HX as [x [<- _]]. discriminate.
Qed.

(** ** Collapsing connected processes of one model type *)
Definition disj (a b : dgraph) : Prop := forall x, In x (nodes a) -> ~ In x (nodes b).
Fixpoint pdis (l : list dgraph) : Prop :=
  match l with [] => True | a :: r => (forall b, In b r -> disj a b) /\ pdis r end.
Lemma pdis_app a b : pdis a -> pdis b -> (forall x y, In x a -> In y b -> disj x y) -> pdis (a ++ b).
Proof.
  induction a as [|x a IH]; simpl; auto. intros [H1 H2] Hb H. split.
  - intros y Hy. apply in_app_iff in Hy. destruct Hy; auto.
  - apply IH; auto.
Qed.

Section Iso.
Variable mtype : nat -> nat.
Variable wccs : dgraph -> list (list node).
(** the parts form a partition of the nodes and no edge leads from one to another *)
Hypothesis wccs_ok : forall g, graph_ok g -> Permutation (concat (wccs g)) (nodes g) /\
  (forall s x y, In s (wccs g) -> In x s -> In (x, y) (edges g) \/ In (y, x) (edges g) -> In y s).
Let rpg := proc_graph procs E0.

Lemma model_sg_nodup t : NoDup (nodes (model_sg mtype rpg t)).
Proof. apply filter_NoDup'. apply proc_graph_inv. Qed.

Lemma model_sg_ok t : graph_ok (model_sg mtype rpg t).
Proof.
  split; [apply model_sg_nodup|]. intros x y H. unfold model_sg in *. apply sub_edges in H.
  destruct H as [H [Hx Hy]]. rewrite !sub_nodes. apply (proj2 (gi_ok _ proc_graph_inv)) in H. tauto.
Qed.

Lemma nodup_concat_in (l : list (list node)) s : NoDup (concat l) -> In s l -> NoDup s.
Proof.
  induction l as [|a l IH]; simpl; [intros _ []|]. intros HN [->|H].
  - clear - HN. induction s; simpl in *; [constructor|]. inversion HN; subst. constructor; auto.
    intro. apply H1. apply in_app_iff; auto.
  - apply IH; auto. clear - HN. induction a; simpl in HN; auto. inversion HN; auto.
Qed.

Lemma sub_of t s : In s (wccs (model_sg mtype rpg t)) ->
  NoDup s /\ incl s (nodes (model_sg mtype rpg t)) /\ (forall x, In x (nodes (subgraph (model_sg mtype rpg t) s)) <-> In x s).
Proof.
  intro H. destruct (wccs_ok _ (model_sg_ok t)) as [P _].
  assert (NoDup (concat (wccs (model_sg mtype rpg t)))) as HN.
  { eapply Permutation_NoDup; [apply Permutation_sym, P|apply model_sg_nodup]. }
  assert (incl s (nodes (model_sg mtype rpg t))) as Hi.
  { intros x Hx. eapply Permutation_in; [exact P|]. apply in_concat. eauto. }
  split; [eapply nodup_concat_in; eauto|]. split; auto.
  intro x. rewrite sub_nodes. split; [tauto|]. intro Hx. split; auto.
Qed.

Lemma subs_disjoint : pdis (subs mtype wccs rpg).
Proof.
  assert (forall t, pdis (map (subgraph (model_sg mtype rpg t)) (filter (fun wcc => 1 <? length wcc) (wccs (model_sg mtype rpg t))))) as G.
  { intro t. destruct (wccs_ok _ (model_sg_ok t)) as [P _].
    assert (NoDup (concat (wccs (model_sg mtype rpg t)))) as HN.
    { eapply Permutation_NoDup; [apply Permutation_sym, P|apply model_sg_nodup]. }
    induction (wccs (model_sg mtype rpg t)) as [|s l IH]; simpl; auto. simpl in HN.
    assert (NoDup (concat l)) as HN2 by (clear - HN; induction s; simpl in HN; auto; inversion HN; auto).
    destruct (1 <? length s); [|].
    2:{ clear P. revert HN2. clear. intro HN2. induction l as [|a l IHl]; simpl; auto. simpl in HN2.
        assert (NoDup (concat l)) as H by (clear - HN2; induction a; simpl in HN2; auto; inversion HN2; auto).
        destruct (1 <? length a); auto. simpl. split; auto.
        intros b Hb x Hx Hy. apply in_map_iff in Hb. destruct Hb as [b' [<- Hb]]. apply filter_In in Hb. destruct Hb as [Hb _].
        apply sub_nodes in Hx. apply sub_nodes in Hy.
        assert (In x (concat l)) as Hc by (apply in_concat; exists b'; tauto). destruct Hx as [_ Hx].
        clear - HN2 Hx Hc. induction a; [destruct Hx|]. simpl in HN2. inversion HN2; subst. destruct Hx as [->|Hx]; auto.
        apply H1. apply in_app_iff; auto. }
    simpl. split.
    - intros b Hb x Hx Hy. apply in_map_iff in Hb. destruct Hb as [b' [<- Hb]]. apply filter_In in Hb. destruct Hb as [Hb _].
      apply sub_nodes in Hx. apply sub_nodes in Hy.
      assert (In x (concat l)) as Hc by (apply in_concat; exists b'; tauto). destruct Hx as [_ Hx].
      clear - HN Hx Hc. induction s; [destruct Hx|]. simpl in HN. inversion HN; subst. destruct Hx as [->|Hx]; auto.
      apply H1. apply in_app_iff; auto.
    - clear P IH HN. revert HN2. clear. intro HN2. induction l as [|a l IHl]; simpl; auto. simpl in HN2.
      assert (NoDup (concat l)) as H by (clear - HN2; induction a; simpl in HN2; auto; inversion HN2; auto).
      destruct (1 <? length a); auto. simpl. split; auto.
      intros b Hb x Hx Hy. apply in_map_iff in Hb. destruct Hb as [b' [<- Hb]]. apply filter_In in Hb. destruct Hb as [Hb _].
      apply sub_nodes in Hx. apply sub_nodes in Hy.
      assert (In x (concat l)) as Hc by (apply in_concat; exists b'; tauto). destruct Hx as [_ Hx].
      clear - HN2 Hx Hc. induction a; [destruct Hx|]. simpl in HN2. inversion HN2; subst. destruct Hx as [->|Hx]; auto.
      apply H1. apply in_app_iff; auto. }
  assert (forall t t' a b, t <> t' ->
     In a (map (subgraph (model_sg mtype rpg t)) (filter (fun wcc => 1 <? length wcc) (wccs (model_sg mtype rpg t)))) ->
     In b (map (subgraph (model_sg mtype rpg t')) (filter (fun wcc => 1 <? length wcc) (wccs (model_sg mtype rpg t')))) -> disj a b) as D.
  { intros t t' a b NE Ha Hb x Hx Hy. apply in_map_iff in Ha. apply in_map_iff in Hb.
    destruct Ha as [a' [<- _]], Hb as [b' [<- _]]. apply sub_nodes in Hx. apply sub_nodes in Hy.
    destruct Hx as [Hx _], Hy as [Hy _]. unfold model_sg in Hx, Hy. apply sub_nodes in Hx. apply sub_nodes in Hy.
    destruct Hx as [_ Hx], Hy as [_ Hy]. apply filter_In in Hx. apply filter_In in Hy.
    destruct Hx as [_ Hx], Hy as [_ Hy]. destruct x; simpl in *; [|discriminate].
    apply Nat.eqb_eq in Hx. apply Nat.eqb_eq in Hy. congruence. }
  unfold subs. cbn [flat_map]. rewrite app_nil_r. apply pdis_app; [auto|apply pdis_app; auto|].
  - intros x y. apply D. discriminate.
  - intros x y Hx Hy. apply in_app_iff in Hy. destruct Hy as [Hy|Hy]; [eapply (D 0 1)|eapply (D 0 2)]; eauto.
Qed.

Definition sub_good (s : dgraph) : Prop :=
  NoDup (nodes s) /\ 2 <= length (nodes s) /\ (forall n, In n (nodes s) -> exists p, n = GP p) /\
  ((forall x, In x (nodes s) <-> In x (nodes rpg)) -> edges s = edges rpg).

Lemma subs_good s : In s (subs mtype wccs rpg) -> sub_good s /\ incl (nodes s) (nodes rpg).
Proof.
  intro H. unfold subs in H. apply in_flat_map in H. destruct H as [t [_ H]].
  apply in_map_iff in H. destruct H as [w [<- H]]. apply filter_In in H. destruct H as [Hw L]. apply Nat.ltb_lt in L.
  destruct (sub_of t w Hw) as [W1 [W2 W3]].
  assert (incl (nodes (subgraph (model_sg mtype rpg t) w)) (nodes rpg)) as Hi.
  { intros x Hx. apply sub_nodes in Hx. destruct Hx as [Hx _]. unfold model_sg in Hx. apply sub_nodes in Hx. tauto. }
  split; auto. split; [apply filter_NoDup', model_sg_nodup|]. split; [|split].
  - assert (length w <= length (nodes (subgraph (model_sg mtype rpg t) w))); [|lia].
    apply NoDup_incl_length; auto. intros x Hx. apply W3; auto.
  - intros n Hn. apply Hi in Hn. simpl in Hn. apply in_map_iff in Hn. destruct Hn as [p [<- _]]. eauto.
  - intro A. cbn [edges subgraph]. unfold model_sg. cbn [edges subgraph].
    assert (forall e, In e (edges rpg) -> In (fst e) w /\ In (snd e) w) as Q.
    { intros [a b] He. apply (proj2 (gi_ok _ proc_graph_inv)) in He. simpl. rewrite <- !W3, !A. auto. }
    assert (forall x, In x w -> In x (filter (of_type mtype t) (nodes rpg))) as Q2.
    { intros x Hx. apply W2 in Hx. unfold model_sg in Hx. apply sub_nodes in Hx. tauto. }
    assert (forall (f : node * node -> bool) l, (forall e, In e l -> f e = true) -> filter f l = l) as FI.
    { clear. induction l as [|e l IH]; intro H; auto. simpl. rewrite H by (left; auto). f_equal. apply IH. intros; apply H; right; auto. }
    rewrite (FI _ (edges rpg)).
    + apply FI. intros e He. destruct (Q e He). apply andb_true_iff. split; apply nmem_spec; auto.
    + intros e He. destruct (Q e He). apply andb_true_iff. split; apply nmem_spec; auto.
Qed.

Lemma iso_loop : forall ss G, ginv G -> pdis ss -> (forall s, In s ss -> sub_good s /\ incl (nodes s) (nodes G)) ->
  (G = rpg \/ exists l, In (GG l) (nodes G)) ->
  exists G', fold_left (fun st sub => match st with Some g => collapse setorder g sub | None => None end) ss (Some G) = Some G' /\
    ginv G' /\ (forall x y, together G x y -> together G' x y) /\
    (forall s X Y x y, In s ss -> In X (nodes s) -> In Y (nodes s) -> In x (leaves X) -> In y (leaves Y) -> together G' x y).
Proof.
  induction ss as [|s ss IH]; intros G I Hd Hs HG.
  - exists G. split; auto. split; auto. split; auto. intros s X Y x y [].
  - destruct Hd as [Hd1 Hd2]. destruct (Hs s (or_introl eq_refl)) as [[S1 [S2 [S3 S4]]] Si].
    destruct (collapse_inv G s I S1 Si) as [G1 [C1 [C2 C3]]].
    + intro E. rewrite E in S2. simpl in S2. lia.
    + intro A. destruct HG as [->|[l Hl]]; auto. exfalso. apply A in Hl. destruct (S3 _ Hl). discriminate.
    + destruct C3 as [[_ [n [E _]]]|C3]; [rewrite E in S2; simpl in S2; lia|].
      destruct (IH G1) as [G' [R1 [R2 [R3 R4]]]]; auto.
      * intros s' Hs'. destruct (Hs s' (or_intror Hs')) as [Q1 Q2]. split; auto. intros x Hx.
        destruct C3 as [l [_ [P _]]]. eapply Permutation_in; [apply Permutation_sym, P|]. right. apply rest_in. split; auto.
        intro Hxs. apply (Hd1 s' Hs' x); auto.
      * right. destruct C3 as [l [_ [P _]]]. exists l. eapply Permutation_in; [apply Permutation_sym, P|]. left; auto.
      * exists G'. split; [simpl; rewrite C1; auto|]. split; auto. split.
        -- intros x y H. apply R3. eapply collapsed_together; eauto.
        -- intros s' X Y x y [<-|Hs'] HX HY Hx Hy; [|apply (R4 s' X Y); auto].
           apply R3. apply (collapsed_members G s G1 x y X Y); auto.
Qed.

Lemma isomodel_ok : exists G1, collapse_isomodel setorder mtype wccs rpg = Some G1 /\ ginv G1 /\
  forall x y, In (x, y) E0 -> mtype x = mtype y -> mtype x <= 2 -> together G1 x y.
Proof.
  destruct (iso_loop (subs mtype wccs rpg) rpg proc_graph_inv subs_disjoint subs_good (or_introl eq_refl)) as [G1 [R1 [R2 [R3 R4]]]].
  exists G1. split; auto. split; auto. intros x y Hxy Ht Hle.
  destruct (HE0 _ _ Hxy) as [Hx Hy].
  assert (forall p, In p procs -> In (GP p) (nodes rpg)) as HP by (intros; simpl; apply in_map; auto).
  destruct (Nat.eq_dec x y) as [<-|NE].
  { apply R3. exists (GP x). simpl. split; [apply HP; auto|auto]. }
  set (t := mtype x) in *.
  assert (forall p, In p procs -> mtype p = t -> In (GP p) (nodes (model_sg mtype rpg t))) as HM.
  { intros p Hp Hm. unfold model_sg. apply sub_nodes. split; auto. apply filter_In. split; auto.
    simpl. apply Nat.eqb_eq. auto. }
  assert (In (GP x, GP y) (edges (model_sg mtype rpg t))) as He.
  { unfold model_sg. apply sub_edges. split; [simpl; apply in_map_iff; exists (x, y); auto|].
    split; apply filter_In; split; auto; simpl; apply Nat.eqb_eq; auto. }
  destruct (wccs_ok _ (model_sg_ok t)) as [P Q].
  assert (In (GP x) (concat (wccs (model_sg mtype rpg t)))) as Hc.
  { eapply Permutation_in; [apply Permutation_sym, P|]. apply HM; auto. }
  apply in_concat in Hc. destruct Hc as [w [Hw Hxw]].
  assert (In (GP y) w) as Hyw by (eapply Q; eauto).
  destruct (sub_of t w Hw) as [W1 [W2 W3]].
  apply (R4 (subgraph (model_sg mtype rpg t) w) (GP x) (GP y)); simpl; auto.
  - unfold subs. apply in_flat_map. exists t. split; [simpl; lia|]. apply in_map. apply filter_In. split; auto.
    apply Nat.ltb_lt. destruct w as [|a [|b w]]; simpl; try lia; [destruct Hxw|].
    destruct Hxw as [->|[]], Hyw as [E|[]]. congruence.
  - apply W3; auto.
  - apply W3; auto.
Qed.
End Iso.

(** ** Collapsing cycles *)
Lemma cycle_nodes G c x : graph_ok G -> is_cycle G c -> In x c -> In x (nodes G).
Proof.
  intros Hok Hc Hx. destruct c as [|a r]; [destruct Hx|]. destruct Hc as [_ Hc].
  assert (forall r a b, chain G a r b -> In x (a :: r) -> In x (nodes G)) as Q.
  { clear - Hok. induction r as [|y r IH]; simpl; intros a b H [<-|Hx].
    - apply (proj2 Hok) in H. tauto.
    - destruct Hx.
    - destruct H as [H _]. apply (proj2 Hok) in H. tauto.
    - destruct H as [_ H]. eapply IH; eauto. }
  eapply Q; eauto.
Qed.

Definition gmeasure (G : dgraph) : nat := length (nodes G) + length (self_loops G).

Lemma cycle_step G c : ginv G -> is_cycle G c -> exists G', collapse setorder G (subgraph G c) = Some G' /\
  ginv G' /\ collapsed G (subgraph G c) G' /\ gmeasure G' < gmeasure G.
Proof.
  intros I Hc. set (sub := subgraph G c).
  assert (forall x, In x (nodes sub) <-> In x c) as Hsub.
  { intro x. unfold sub. rewrite sub_nodes. split; [tauto|]. intro Hx. split; auto. eapply cycle_nodes; eauto. apply I. }
  assert (NoDup (nodes sub)) as HN by (apply filter_NoDup', I).
  assert (incl (nodes sub) (nodes G)) as Hi by (intros x Hx; unfold sub in Hx; apply sub_nodes in Hx; tauto).
  assert (exists x0, In x0 c) as [x0 Hx0] by (destruct c as [|a r]; [destruct Hc|exists a; left; auto]).
  destruct (collapse_inv G sub I HN Hi) as [G' [C1 [C2 C3]]].
  - intro E. apply Hsub in Hx0. rewrite E in Hx0. destruct Hx0.
  - intro A. unfold sub. cbn [edges subgraph].
    assert (forall e, In e (edges G) -> nmem (fst e) c && nmem (snd e) c = true) as Q.
    { intros [a b] He. apply (proj2 (gi_ok _ I)) in He. simpl. destruct He as [He1 He2].
      apply andb_true_iff. split; apply nmem_spec, Hsub, A; auto. }
    clear - Q. induction (edges G) as [|e l IH]; auto. simpl. rewrite Q by (left; auto). f_equal. apply IH.
    intros; apply Q; right; auto.
  - exists G'. split; auto. split; auto.
    assert (collapsed G sub G') as C4.
    { destruct C3 as [[_ [n [E Iso]]]|]; auto. exfalso. apply isolated_spec in Iso.
      assert (c <> [] /\ forall x, In x c -> x = n) as [Ec En].
      { split; [intros ->; destruct Hx0|]. intros x Hx. apply Hsub in Hx. rewrite E in Hx. destruct Hx as [|[]]; auto. }
      destruct c as [|a r]; [congruence|]. destruct Hc as [_ Hc].
      assert (a = n) as -> by (apply En; left; auto).
      destruct r as [|b r]; simpl in Hc; [eapply (proj1 Iso); eauto|eapply (proj1 Iso); apply Hc]. }
    split; auto. destruct C4 as [l [_ [P L]]].
    pose proof (split_perm (nodes sub) (nodes G) HN (proj1 (gi_ok _ I)) Hi) as SP.
    apply Permutation_length in P. cbn [length] in P.
    pose proof (Permutation_length SP) as SL. rewrite app_length in SL.
    assert (NoDup (self_loops G')) as ND by (apply filter_NoDup'; apply C2).
    assert (incl (self_loops G') (self_loops G)) as LI.
    { intros x Hx. apply self_loops_in in Hx. destruct Hx as [_ Hx]. apply L in Hx. apply self_loops_in. split; [|tauto].
      destruct Hx as [Hx _]. apply (proj2 (gi_ok _ I)) in Hx. tauto. }
    pose proof (NoDup_incl_length ND LI) as LL. unfold gmeasure.
    destruct (nodes sub) as [|a [|b rr]] eqn:En.
    + exfalso. apply Hsub in Hx0. destruct Hx0.
    + (* a self loop *)
      assert (In (a, a) (edges G)) as Ha.
      { destruct c as [|u r]; [destruct Hc|]. destruct Hc as [NDc Hc].
        assert (u = a) as -> by (assert (In u [a]) as Hu by (apply Hsub; left; auto); destruct Hu as [|[]]; auto).
        destruct r as [|v r]; [exact Hc|]. exfalso.
        assert (In v [a]) as Hv by (apply Hsub; right; left; auto). destruct Hv as [->|[]].
        inversion NDc; subst. apply H1. left; auto. }
      assert (NoDup (a :: self_loops G')) as ND2.
      { constructor; auto. intro Hn. apply self_loops_in in Hn. destruct Hn as [_ Hn]. apply L in Hn. apply (proj2 Hn). left; auto. }
      assert (incl (a :: self_loops G') (self_loops G)) as LI2.
      { intros x [<-|Hx]; auto. apply self_loops_in. split; auto. apply Hi. left; auto. }
      pose proof (NoDup_incl_length ND2 LI2) as LL2. cbn [length] in LL2, SL. lia.
    + cbn [length] in SL. lia.
Qed.

Definition cstep (G' G : dgraph) : Prop := exists c, is_cycle G c /\ collapse setorder G (subgraph G c) = Some G'.

Lemma cycles_terminate G : ginv G -> Acc cstep G.
Proof.
  remember (gmeasure G) as k. assert (gmeasure G <= k) as Hk by lia. clear Heqk. revert G Hk.
  induction k as [|k IH]; intros G Hk I; constructor; intros G' [c [Hc H]].
  - destruct (cycle_step G c I Hc) as [G1 [C1 [C2 [_ C4]]]]. exfalso. lia.
  - destruct (cycle_step G c I Hc) as [G1 [C1 [C2 [_ C4]]]]. rewrite H in C1. injection C1 as <-.
    apply IH; auto. lia.
Qed.

Lemma cycles_result G G2 : collapse_cycles setorder G G2 -> ginv G ->
  ginv G2 /\ (forall c, ~ is_cycle G2 c) /\ forall x y, together G x y -> together G2 x y.
Proof.
  induction 1; intro I; auto. destruct (cycle_step g c I H) as [G1 [C1 [C2 [C3 _]]]].
  rewrite H0 in C1. injection C1 as <-. destruct (IHcollapse_cycles C2) as [A [B C]]. split; auto. split; auto.
  intros x y T. apply C. eapply collapsed_together; eauto.
Qed.
End Props.
