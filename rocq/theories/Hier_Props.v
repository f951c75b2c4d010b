(** C103: a hierarchical process becomes the processes inside it; folded views. *)
From Coq Require Import List Bool Arith String Lia.
From Verif Require Import Hier_Model Hier_Spec Hier_Proofs.
Import ListNotations.

(** ** the sub-processes that are found *)
Theorem found_is_held : forall w p q, Found w p q -> Holds w p q.
Proof.
  intros w p q [_ (k & H)]. apply find_in_cands in H. unfold cands in H. apply in_flat_map in H.
  destruct H as ([n a] & Hin & H). exists n, a. split; [exact Hin|].
  pose proof (proj1 (cand_holds w (n, a) q) (ex_intro _ k H)) as X. cbn in X. destruct a; tauto.
Qed.

Theorem found_all_partial : forall w p, Hierarchical w p -> PlainModel w p -> forall q, Found w p q <-> Holds w p q.
Proof.
  intros w p Hh [HC HN] q. split; [apply found_is_held|]. intros (n & a & Hin & H). split; [exact Hh|].
  rewrite find_cands, put_all_fresh by (cbn; now rewrite cands_names).
  cbn. assert (exists k, In (k, q) (cand w (n, a))) as (k & Hk).
  { apply cand_holds. cbn. destruct a; try tauto. exfalso. eapply HC; eauto. }
  exists k. unfold cands. apply in_flat_map. eauto.
Qed.

(** in general the last process of each name is found, and no process of a collection *)
Theorem found_last : forall w p k q, In (k, q) (find_sub_procs w p) <->
  exists e1 e2, cands w p = e1 ++ (k, q) :: e2 /\ ~ In k (map fst e2).
Proof.
  intros w p k q. rewrite find_cands, put_all_last by constructor. split; [intros [H|[_ []]]; exact H|auto].
Qed.

(** ** the expansion *)
Lemma elaborate_expanded : forall limit w l pm st, (forall p, NoDup (map fst (own w p))) -> elaborate limit w l = Some (pm, st) ->
  exists s L B, map_proc limit w l (init w) = Some (pm, s) /\ Expanded w l [] pm (init w) s L B /\ st = assign pm s.
Proof.
  intros limit w l pm st HO H. unfold elaborate in H. destruct (map_proc limit w l (init w)) as [[pm' s]|] eqn:E; [|discriminate].
  injection H as <- <-. destruct (map_proc_expanded limit w l (init w) pm' s) as (L & B & X); [exact HO|exact E|].
  exists s, L, B. auto.
Qed.

Lemma assign_other : forall pm s, parent (assign pm s) = parent s /\ procs (assign pm s) = procs s /\
  elab (assign pm s) = elab s /\ builds (assign pm s) = builds s.
Proof.
  unfold assign. induction pm as [|x pm IH]; intros s; [auto|]. cbn [fold_left].
  destruct (IH (classed s (fst x) (Leaf (snd x)))) as (-> & -> & -> & ->). auto.
Qed.

Lemma assign_class : forall pm s q, NoDup (map fst pm) -> forall m, In (q, m) pm -> model_class (assign pm s) q = Some (Leaf m).
Proof.
  unfold assign. induction pm as [|[k v] pm IH]; intros s q H m Hin; [contradiction|]. cbn [fold_left fst snd map] in *.
  inversion H as [|? ? H1 H2]; subst. destruct Hin as [E|E]; [|now apply IH].
  injection E as -> ->. clear - H1. assert (model_class (classed s q (Leaf m)) q = Some (Leaf m)) as X by apply upd_same.
  revert X. generalize (classed s q (Leaf m)). induction pm as [|[k v] pm IH]; intros t X; [exact X|]. cbn [fold_left fst snd map] in *.
  apply IH; [intros Y; apply H1; now right|]. cbn [classed model_class]. rewrite upd_other; [exact X|]. intros ->. apply H1. now left.
Qed.

Lemma assign_class_other : forall pm s q, ~ In q (map fst pm) -> model_class (assign pm s) q = model_class s q.
Proof.
  unfold assign. induction pm as [|[k v] pm IH]; intros s q H; [reflexivity|]. cbn [fold_left fst snd map] in *.
  rewrite IH by (intros Y; apply H; now right). cbn [classed model_class]. apply upd_other. intros ->. apply H. now left.
Qed.

Definition Reachable (w : world) (l : list nat) (q : nat) : Prop := exists p, In p l /\ Inside w p q.

(** when the expansion fails *)
Theorem elaboration_fails_iff : forall limit w l, elaborate limit w l = None <->
  limit = 0 \/ exists p, In p l /\ Nested w limit p.
Proof.
  intros limit w l. rewrite <- (map_proc_none w limit l (init w)). unfold elaborate.
  destruct (map_proc limit w l (init w)) as [[pm s]|]; split; congruence.
Qed.

(** a model that holds its own process, or two that hold each other, exceed every recursion limit *)
Theorem self_holding_never_compiles : forall w l p, In p l -> StrictlyInside w p p -> forall limit, elaborate limit w l = None.
Proof.
  intros w l p Hp Hc limit. apply elaboration_fails_iff. destruct limit as [|n]; [now left|]. right. exists p.
  split; [exact Hp|]. now apply cycle_nested.
Qed.

(** the processes that are compiled: those at the bottom, each once, with the model chosen for it *)
Theorem leaves_exact : forall limit w l pm st, (forall p, NoDup (map fst (own w p))) -> elaborate limit w l = Some (pm, st) ->
  NoDup (map fst pm) /\ forall q m, In (q, m) pm <-> Reachable w l q /\ choose w q = Some (Leaf m).
Proof.
  intros limit w l pm st HO H. destruct (elaborate_expanded _ _ _ _ _ HO H) as (s & L & B & _ & E & ->).
  split; [apply (ex_pm _ _ _ _ _ _ _ _ E)|]. intros q m. rewrite (ex_in _ _ _ _ _ _ _ _ E). unfold InL, Reachable. cbn. tauto.
Qed.

Theorem elaborated_exact : forall limit w l pm st, (forall p, NoDup (map fst (own w p))) -> elaborate limit w l = Some (pm, st) ->
  (forall q, In q (elab st) <-> Reachable w l q) /\ (forall q, In q (builds st) <-> Reachable w l q /\ Hierarchical w q).
Proof.
  intros limit w l pm st HO H. destruct (elaborate_expanded _ _ _ _ _ HO H) as (s & L & B & _ & E & ->).
  destruct (assign_other pm s) as (_ & _ & -> & ->). rewrite (ex_elab _ _ _ _ _ _ _ _ E), (ex_builds _ _ _ _ _ _ _ _ E). cbn.
  split; [apply (ex_L _ _ _ _ _ _ _ _ E)|apply (ex_B _ _ _ _ _ _ _ _ E)].
Qed.

(** in a network of trees every SubProcessModel is built once and every process elaborated once *)
Theorem built_once : forall limit w l pm st, (forall p, NoDup (map fst (own w p))) -> Trees w l ->
  elaborate limit w l = Some (pm, st) -> NoDup (elab st) /\ NoDup (builds st).
Proof.
  intros limit w l pm st HO (T1 & T2 & T3 & T4) H. destruct (elaborate_expanded _ _ _ _ _ HO H) as (s & L & B & Hm & E & ->).
  destruct (assign_other pm s) as (_ & _ & -> & ->).
  pose proof (ex_elab _ _ _ _ _ _ _ _ E) as F1. pose proof (ex_builds _ _ _ _ _ _ _ _ E) as F2.
  destruct (map_proc_once w T3 T2 limit l (init w) pm s HO Hm T1 (roots_apart w T3 l T4) L B F1 F2) as [N1 N2].
  rewrite F1, F2. auto.
Qed.

(** the model class of every process *)
Theorem model_classes : forall limit w l pm st, (forall p, NoDup (map fst (own w p))) -> elaborate limit w l = Some (pm, st) ->
  forall q, (Reachable w l q -> model_class st q = choose w q) /\ (~ Reachable w l q -> model_class st q = None).
Proof.
  intros limit w l pm st HO H q. destruct (leaves_exact _ _ _ _ _ HO H) as [LN LI].
  destruct (elaborate_expanded _ _ _ _ _ HO H) as (s & L & B & _ & E & ->).
  pose proof (ex_class _ _ _ _ _ _ _ _ E q) as C. pose proof (ex_B _ _ _ _ _ _ _ _ E q) as HB. cbn [init model_class] in C.
  assert (~ In q (map fst pm) \/ exists m, In (q, m) pm) as HK.
  { destruct (in_dec Nat.eq_dec q (map fst pm)) as [X|X]; [right|now left]. apply in_map_iff in X. destruct X as ([k m] & <- & X). eauto. }
  split.
  - intros HR. destruct HK as [HK|(m & HK)]; [|rewrite (assign_class pm s q LN m HK); apply LI in HK; symmetry; apply HK].
    rewrite assign_class_other by exact HK. rewrite C.
    destruct (choose w q) as [[m|m]|] eqn:Ec.
    + exfalso. apply HK. apply in_map_iff. exists (q, m). split; [reflexivity|]. apply LI. auto.
    + assert (inb q B = true) as ->; [|reflexivity]. apply inb_in. apply HB. split; [exact HR|now exists m].
    + destruct (inb q B); reflexivity.
  - intros HR. rewrite assign_class_other.
    + rewrite C. destruct (inb q B) eqn:Eb; [|reflexivity]. exfalso. apply HR. apply inb_in in Eb. apply HB in Eb. apply Eb.
    + intros X. apply in_map_iff in X. destruct X as ([k m] & <- & X). apply LI in X. tauto.
Qed.

(** the parent of a sub-process is the process in whose model it was found *)
Theorem parents_exact : forall limit w l pm st, (forall p, NoDup (map fst (own w p))) ->
  (forall p p' q, Found w p q -> Found w p' q -> p = p') ->
  elaborate limit w l = Some (pm, st) -> forall p q, parent st q = Some p <-> Reachable w l p /\ Found w p q.
Proof.
  intros limit w l pm st HO HU H p q. destruct (elaborate_expanded _ _ _ _ _ HO H) as (s & L & B & _ & E & ->).
  destruct (assign_other pm s) as (-> & _ & _ & _). split.
  - intros X. destruct (ex_parent _ _ _ _ _ _ _ _ E q) as [Y|(r & H1 & H2 & H3)]; [cbn in Y; congruence|].
    rewrite X in H3. injection H3 as <-. apply (ex_B _ _ _ _ _ _ _ _ E) in H1. split; [apply H1|exact H2].
  - intros [HR HF]. destruct (ex_parent2 _ _ _ _ _ _ _ _ E p q) as (r & H1 & H2 & H3); [|exact HF|].
    + apply (ex_B _ _ _ _ _ _ _ _ E). split; [exact HR|apply HF].
    + rewrite H3. f_equal. eapply HU; eauto.
Qed.

(** is_sub_proc_of, when it answers, tells what is inside what *)
Theorem is_sub_proc_exact : forall limit w l pm st, (forall p, NoDup (map fst (own w p))) -> Trees w l ->
  elaborate limit w l = Some (pm, st) ->
  forall fuel q p b, Reachable w l q -> is_sub_proc_of fuel st q p = Some b -> (b = true <-> StrictlyInside w p q).
Proof.
  intros limit w l pm st HO (T1 & T2 & T3 & T4) H.
  pose proof (parents_exact limit w l pm st HO T3 H) as HP.
  induction fuel as [|fuel IH]; intros q p b HR E; [discriminate|]. cbn in E.
  assert (StrictlyInside w p q <-> exists r, Inside w p r /\ Found w r q) as HS.
  { split.
    - intros (y & Hf & Hi). destruct (inside_snoc w y q Hi) as [->|(r & Hr & Hq)]; [exists p; split; [constructor|exact Hf]|].
      exists r. split; [econstructor; eauto|exact Hq].
    - intros (r & Hr & Hq). inversion Hr as [|? y ? Hf Hi]; subst; [exists q; split; [exact Hq|constructor]|].
      exists y. split; [exact Hf|]. eapply inside_trans; [exact Hi|]. econstructor; [exact Hq|constructor]. }
  destruct (parent st q) as [r|] eqn:Ep.
  - apply HP in Ep. destruct Ep as [Rr Fr]. destruct (Nat.eqb_spec r p) as [->|Hn].
    + injection E as <-. split; [intros _|reflexivity]. apply HS. exists p. split; [constructor|exact Fr].
    + apply IH in E; [|exact Rr]. rewrite E, HS. split.
      * intros (y & Hf & Hi). exists r. split; [econstructor; eauto|exact Fr].
      * intros (r' & Hr' & Hq). assert (r' = r) as -> by (eapply T3; eauto).
        inversion Hr' as [|? y ? Hf Hi]; subst; [congruence|]. exists y. auto.
  - injection E as <-. split; [discriminate|]. intros X. exfalso. apply HS in X. destruct X as (r & _ & Hq).
    destruct HR as (a & Ha & Hi). destruct (inside_snoc w a q Hi) as [->|(y & Hy & Hq')]; [eapply T4; eauto|].
    assert (parent st q = Some y) by (apply HP; split; [exists a; auto|exact Hq']). congruence.
Qed.

(** the sub-processes of a process after the expansion *)
Theorem members_exact : forall limit w l pm st, (forall p, own w p = []) -> elaborate limit w l = Some (pm, st) ->
  forall p q, Member st p q <-> Reachable w l p /\ Found w p q.
Proof.
  intros limit w l pm st HO H p q. assert (forall p, NoDup (map fst (own w p))) as HO' by (intros r; rewrite HO; constructor).
  destruct (elaborate_expanded _ _ _ _ _ HO' H) as (s & L & B & _ & E & ->).
  unfold Member. destruct (assign_other pm s) as (_ & -> & _ & _). rewrite (ex_procs _ _ _ _ _ _ _ _ E).
  cbn [init procs]. rewrite HO. pose proof (ex_B _ _ _ _ _ _ _ _ E p) as HB. destruct (inb p B) eqn:Eb.
  - apply inb_in in Eb. apply HB in Eb. destruct Eb as [HR Hh]. rewrite put_all_fresh by (cbn; apply find_nodup). cbn.
    rewrite (found_iff w p q Hh). tauto.
  - split; [intros []|]. intros [HR HF]. exfalso. assert (In p B) as X by (apply HB; split; [exact HR|apply HF]).
    apply inb_in in X. congruence.
Qed.

(** ** the resolved graph: a process that is connected to a compiled one, but is not inside the network, stops the compiler *)
Theorem resolve_exact : forall limit w l pm st, (forall p, NoDup (map fst (own w p))) -> elaborate limit w l = Some (pm, st) ->
  (resolve w pm st = TypeError <->
   exists p q m, Reachable w l p /\ choose w p = Some (Leaf m) /\ In q (links w p) /\ (~ Reachable w l q \/ choose w q = None)) /\
  (forall ns, resolve w pm st = Resolved ns ->
   forall q, In q ns <-> exists p m, Reachable w l p /\ choose w p = Some (Leaf m) /\ (q = p \/ In q (links w p))).
Proof.
  intros limit w l pm st HO H. destruct (leaves_exact _ _ _ _ _ HO H) as [LN LI].
  pose proof (model_classes _ _ _ _ _ HO H) as MC.
  destruct (elaborated_exact _ _ _ _ _ HO H) as [HE _].
  assert (forall q, Reachable w l q \/ ~ Reachable w l q) as HD.
  { intros q. destruct (in_dec Nat.eq_dec q (elab st)) as [X|X]; [left; now apply HE|right; intros Y; apply X; now apply HE]. }
  assert (forall q, In q (nodes w pm) <-> exists p m, Reachable w l p /\ choose w p = Some (Leaf m) /\ (q = p \/ In q (links w p))) as HN.
  { intros q. unfold nodes. rewrite in_app_iff, in_flat_map. split.
    - intros [X|(p & X & Y)]; apply in_map_iff in X; destruct X as ([k m] & <- & X); apply LI in X; destruct X; cbn; eauto 8.
    - intros (p & m & H1 & H2 & H3). assert (In p (map fst pm)) as X.
      { apply in_map_iff. exists (p, m). split; [reflexivity|]. apply LI. auto. }
      destruct H3 as [->|H3]; [now left|right; eauto]. }
  unfold resolve. destruct (forallb _ _) eqn:Ef.
  - rewrite forallb_forall in Ef. split; [|intros ns E; injection E as <-; exact HN].
    split; [discriminate|]. intros (p & q & m & H1 & H2 & H3 & H4). exfalso.
    assert (model_class st q = None) as X.
    { destruct H4 as [H4|H4]; [now apply (MC q)|]. destruct (HD q) as [Y|Y]; [|now apply (MC q)]. rewrite <- H4. now apply (MC q). }
    specialize (Ef q). rewrite X in Ef. discriminate Ef. apply HN. eauto 8.
  - split; [|discriminate]. split; [|reflexivity]. intros _.
    assert (exists q, In q (nodes w pm) /\ model_class st q = None) as (q & Hq & Hc).
    { clear HN. revert Ef. induction (nodes w pm) as [|x ns IH]; [discriminate|]. cbn. destruct (model_class st x) eqn:Ex.
      - cbn. intros X. destruct (IH X) as (q & Hq & Hc). exists q. auto.
      - intros _. exists x. auto. }
    apply HN in Hq. destruct Hq as (p & m & H1 & H2 & [->|H3]).
    + exfalso. rewrite (proj1 (MC p) H1) in Hc. congruence.
    + exists p, q, m. split; [exact H1|]. split; [exact H2|]. split; [exact H3|].
      destruct (HD q) as [Y|Y]; [|now left]. right. rewrite <- (proj1 (MC q) Y). exact Hc.
Qed.
