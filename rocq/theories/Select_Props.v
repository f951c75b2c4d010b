(** C29. *)
From Coq Require Import List Arith Bool Lia.
From Verif Require Import Select_Model.
Import ListNotations.

(** ** Specification *)
(** the model can be executed by the configuration *)
Definition runnable (c : config) (m : pm) : Prop := is_sub m = true \/ hw_supported c m = true.
(** the model carries the requested tag *)
Definition tag_ok (tag : option nat) (m : pm) : Prop := match tag with None => True | Some t => In t (tags m) end.
(** preference: neuro-core before C before Python models on hardware, only Python models in simulation *)
Definition rank (c : config) (m : pm) : option nat :=
  match c with
  | SimCfg => if is_py m then Some 0 else None
  | HwCfg => if nc m then Some 0 else if is_c m then Some 1 else if is_py m then Some 2 else None
  end.
(** [m] at position [i] is the best of the list: lowest rank, then first *)
Definition best (c : config) (tag : option nat) (l : list pm) (i : nat) (m : pm) : Prop :=
  nth_error l i = Some m /\ tag_ok tag m /\
  exists k, rank c m = Some k /\
    forall j m' k', nth_error l j = Some m' -> tag_ok tag m' -> rank c m' = Some k' -> k < k' \/ (k = k' /\ i <= j).

Lemma has_tag_spec t m : has_tag t m = true <-> In t (tags m).
Proof.
  unfold has_tag. rewrite existsb_exists. split.
  - intros [x [H E]]. apply Nat.eqb_eq in E. subst; auto.
  - intro H. exists t. rewrite Nat.eqb_refl. auto.
Qed.

Lemma idxs_spec f l : forall i k, In k (idxs_from i f l) <-> exists m, i <= k /\ nth_error l (k - i) = Some m /\ f m = true.
Proof.
  induction l as [|a l IH]; intros i k; simpl.
  - split; [intros []|]. intros [m [_ [H _]]]. destruct (k - i); discriminate.
  - assert (In k (idxs_from (S i) f l) <-> exists m, S i <= k /\ nth_error (a :: l) (k - i) = Some m /\ f m = true) as Q.
    { rewrite IH. split; intros [m [H1 [H2 H3]]]; exists m; (split; [auto|]); (split; [|auto]).
      - replace (k - i) with (S (k - S i)) by lia. auto.
      - replace (k - i) with (S (k - S i)) in H2 by lia. auto. }
    destruct (f a) eqn:E; simpl; rewrite Q.
    + split.
      * intros [<-|[m [H1 H2]]]; [exists a; rewrite Nat.sub_diag; auto|exists m; split; [lia|auto]].
      * intros [m [H1 [H2 H3]]]. destruct (Nat.eq_dec i k) as [->|]; auto. right. exists m. split; [lia|auto].
    + split; intros [m [H1 [H2 H3]]].
      * exists m. split; [lia|auto].
      * exists m. split; auto. destruct (Nat.eq_dec i k) as [->|]; [|lia]. rewrite Nat.sub_diag in H2. simpl in H2. congruence.
Qed.
Lemma idxs_in f l k : In k (idxs f l) <-> exists m, nth_error l k = Some m /\ f m = true.
Proof.
  unfold idxs. rewrite idxs_spec. rewrite Nat.sub_0_r. split; intros [m H]; exists m; [tauto|]. split; [lia|tauto].
Qed.

Lemma order_in c l k : In k (order c l) <-> exists m, nth_error l k = Some m /\ hw_supported c m = true.
Proof.
  destruct c; simpl; rewrite ?in_app_iff, !idxs_in; [tauto|]. split.
  - intros [[m [H E]]|[[m [H E]]|[m [H E]]]]; exists m; split; auto; rewrite E, ?orb_true_r; auto.
  - intros [m [H E]]. destruct (nc m) eqn:E1; [left; eauto|]. destruct (is_c m) eqn:E2; [right; left; eauto|].
    destruct (is_py m) eqn:E3; [right; right; eauto|]. discriminate.
Qed.

Lemma at_idx_some l i m : at_idx l i = Chosen m -> nth_error l i = Some m.
Proof. unfold at_idx. destruct (nth_error l i); congruence. Qed.

Lemma tagged_subs_in t l subs todo r i : tagged_subs t l subs todo = Some r -> In i r -> In i todo.
Proof.
  revert r. induction todo as [|j todo IH]; simpl; intros r H Hi; [injection H as <-; destruct Hi|].
  destruct (nth_error subs j) as [k|]; [|discriminate]. destruct (nth_error l k) as [m|]; [|discriminate].
  destruct (tagged_subs t l subs todo) as [r'|] eqn:E; [|discriminate]. injection H as <-.
  destruct (has_tag t m); [destruct Hi as [|Hi]; [left; auto|]|]; right; eauto.
Qed.

(** ** The selected model is one of those offered and can be executed, whatever is requested. *)
Theorem select_offered_and_runnable : forall c tag want_sub l m,
  select c None tag want_sub l = Chosen m -> In m l /\ runnable c m.
Proof.
  intros c tag ws l m H. unfold select in H. destruct l as [|m0 [|m1 r]]; [discriminate| |].
  - destruct (is_sub m0 || hw_supported c m0) eqn:E; [|discriminate].
    assert (m = m0) as -> by (destruct tag as [t|]; [destruct ((length (tags m0) =? 0) || has_tag t m0)|]; congruence).
    split; [left; auto|]. apply orb_prop in E. exact E.
  - set (l := m0 :: m1 :: r) in *.
    assert (forall i, at_idx l i = Chosen m -> In i (idxs is_sub l) -> In m l /\ runnable c m) as S.
    { intros i Hi Hs. apply at_idx_some in Hi. split; [eapply nth_error_In; eauto|].
      apply idxs_in in Hs. destruct Hs as [m' [E Es]]. rewrite Hi in E. injection E as <-. left; auto. }
    assert (forall i, at_idx l i = Chosen m -> In i (order c l) -> In m l /\ runnable c m) as O.
    { intros i Hi Hs. apply at_idx_some in Hi. split; [eapply nth_error_In; eauto|].
      apply order_in in Hs. destruct Hs as [m' [E Es]]. rewrite Hi in E. injection E as <-. right; auto. }
    destruct (ws && negb (length (idxs is_sub l) =? 0)).
    + destruct (idxs is_sub l) as [|i [|i2 ri]] eqn:Ei.
      * destruct tag; simpl in H; discriminate.
      * apply (S i H). left; auto.
      * destruct tag as [t|]; [|apply (S i H); left; auto].
        destruct (tagged_subs t l (i :: i2 :: ri) (i :: i2 :: ri)) as [[|k rk]|] eqn:Et; try discriminate.
        apply (S k H). eapply tagged_subs_in; [exact Et|left; auto].
    + destruct (order c l) as [|i ri] eqn:Eo; [discriminate|]. destruct tag as [t|]; [|apply (O i H); left; auto].
      destruct (filter _ (i :: ri)) as [|k rk] eqn:Ef; [discriminate|]. apply (O k H).
      assert (In k (filter (fun i => match nth_error l i with Some m => has_tag t m | None => false end) (i :: ri))) as Q by (rewrite Ef; left; auto).
      apply filter_In in Q. tauto.
Qed.

(** the user's explicit choice wins *)
Theorem select_exception_partial : forall c m tag want_sub l, l <> [] -> select c (Some m) tag want_sub l = Chosen m.
Proof. intros c m tag ws [|m0 r] H; [congruence|reflexivity]. Qed.

(** ** Several models, no sub-process model wanted: the best suitable model is chosen, and an error is
    raised exactly when there is none. *)
Lemma idxs_sorted f l : forall i j k, nth_error (idxs_from i f l) j = Some k -> forall j' k', j < j' -> nth_error (idxs_from i f l) j' = Some k' -> k < k'.
Proof.
  induction l as [|a l IH]; simpl; intros i j k H j' k' Hj H'; [destruct j; discriminate|].
  destruct (f a); [|eapply IH; eauto].
  destruct j' as [|j']; [lia|]. simpl in H'. destruct j as [|j]; simpl in H; [|apply (IH (S i) j k H j' k'); [lia|auto]].
  injection H as <-. apply nth_error_In in H'. apply idxs_spec in H'. destruct H' as [m [H' _]]. lia.
Qed.

Lemma filter_first {A} (f : A -> bool) l j r : filter f l = j :: r ->
  exists l1 l2, l = l1 ++ j :: l2 /\ f j = true /\ forall x, In x l1 -> f x = false.
Proof.
  induction l as [|a l IH]; simpl; [discriminate|]. destruct (f a) eqn:E; intro H.
  - injection H as <- <-. exists [], l. repeat split; auto. intros x [].
  - destruct (IH H) as [l1 [l2 [-> [H1 H2]]]]. exists (a :: l1), l2. repeat split; auto. intros x [<-|Hx]; auto.
Qed.

Lemma idxs_split f l l1 j l2 : idxs f l = l1 ++ j :: l2 -> forall k, In k (idxs f l) -> ~ In k l1 -> j <= k.
Proof.
  intros H k Hk Hn. destruct (Nat.eq_dec j k) as [->|NE]; auto.
  rewrite H in Hk. apply in_app_iff in Hk. destruct Hk as [|[|Hk]]; [contradiction|lia|].
  apply In_nth_error in Hk. destruct Hk as [p Hp].
  assert (nth_error (idxs f l) (length l1) = Some j) as A by (rewrite H, nth_error_app2, Nat.sub_diag by lia; auto).
  assert (nth_error (idxs f l) (length l1 + S p) = Some k) as B.
  { rewrite H, nth_error_app2 by lia. replace (length l1 + S p - length l1) with (S p) by lia. auto. }
  pose proof (idxs_sorted f l 0 _ _ A (length l1 + S p) k ltac:(lia) B). lia.
Qed.

(** the first index of the order that satisfies a condition points to the best model *)
Lemma first_is_best c tag l (P : nat -> bool) l1 j l2 :
  (forall i m, nth_error l i = Some m -> (P i = true <-> tag_ok tag m)) ->
  order c l = l1 ++ j :: l2 -> P j = true -> (forall x, In x l1 -> P x = false) ->
  exists m, at_idx l j = Chosen m /\ best c tag l j m.
Proof.
  intros HP HO Pj Hn.
  assert (In j (order c l)) as Hj by (rewrite HO; apply in_app_iff; right; left; auto).
  apply order_in in Hj. destruct Hj as [m [Em Hs]]. exists m. unfold at_idx. rewrite Em. split; auto.
  split; auto. split; [apply (HP j); auto|].
  assert (forall k m', nth_error l k = Some m' -> tag_ok tag m' -> ~ In k l1) as Hl1.
  { intros k m' E T Hk. apply Hn in Hk. apply (HP _ _ E) in T. congruence. }
  destruct c; simpl in HO.
  - simpl in Hs. exists 0. simpl. rewrite Hs. split; auto. intros k m' k' E T R.
    destruct (is_py m') eqn:Ep; [|discriminate]. injection R as <-. right. split; auto.
    eapply idxs_split; [exact HO| |eapply Hl1; eauto]. apply idxs_in. eauto.
  - (* hardware: locate j in the concatenation *)
    assert (forall a b (x : nat) l1 l2, a ++ b = l1 ++ x :: l2 ->
      (exists u, a = l1 ++ x :: u) \/ (exists u, l1 = a ++ u /\ b = u ++ x :: l2)) as SP.
    { clear. induction a as [|y a IH]; simpl; intros b x l1 l2 H; [right; exists l1; auto|].
      destruct l1 as [|z l1]; simpl in H; injection H as -> H.
      - left. exists a. auto.
      - destruct (IH _ _ _ _ H) as [[u ->]|[u [-> ->]]]; [left; exists u; auto|right; exists u; auto]. }
    assert (forall f k m', In k (idxs f l) -> nth_error l k = Some m' -> f m' = true) as Hin.
    { intros f k m' Hk E. apply idxs_in in Hk. destruct Hk as [m'' [E' F]]. congruence. }
    destruct (SP _ _ _ _ _ HO) as [[u Hu]|[u [Hu1 Hu2]]].
    + assert (nc m = true) as Hnc by (apply (Hin nc j m); [rewrite Hu; apply in_app_iff; right; left; auto|auto]).
      exists 0. simpl. rewrite Hnc. split; auto. intros k m' k' E T R.
      destruct (nc m') eqn:E1; [|destruct (is_c m'); [|destruct (is_py m'); [|discriminate]]; injection R as <-; left; lia].
      injection R as <-. right. split; auto. eapply idxs_split; [exact Hu| |eapply Hl1; eauto]. apply idxs_in; eauto.
    + assert (forall k m', nth_error l k = Some m' -> tag_ok tag m' -> nc m' = false) as Hnc.
      { intros k m' E T. destruct (nc m') eqn:E1; auto. exfalso. eapply (Hl1 k m'); eauto. rewrite Hu1. apply in_app_iff. left.
        apply idxs_in; eauto. }
      assert (tag_ok tag m) as Tm by (apply (HP j); auto).
      destruct (SP _ _ _ _ _ Hu2) as [[w Hw]|[w [Hw1 Hw2]]].
      * assert (is_c m = true) as Hc by (apply (Hin is_c j m); [rewrite Hw; apply in_app_iff; right; left; auto|auto]).
        exists 1. simpl. rewrite (Hnc j m Em Tm), Hc. split; auto. intros k m' k' E T R. rewrite (Hnc k m' E T) in R.
        destruct (is_c m') eqn:E1; [|destruct (is_py m'); [|discriminate]; injection R as <-; left; lia].
        injection R as <-. right. split; auto. eapply idxs_split; [exact Hw| |].
        -- apply idxs_in; eauto.
        -- intro Hk. eapply (Hl1 k m'); eauto. rewrite Hu1. apply in_app_iff; auto.
      * assert (is_py m = true) as Hpy by (apply (Hin is_py j m); [rewrite Hw2; apply in_app_iff; right; left; auto|auto]).
        assert (forall k m', nth_error l k = Some m' -> tag_ok tag m' -> is_c m' = false) as Hcc.
        { intros k m' E T. destruct (is_c m') eqn:E1; auto. exfalso. eapply (Hl1 k m'); eauto. rewrite Hu1, Hw1.
          apply in_app_iff. right. apply in_app_iff. left. apply idxs_in; eauto. }
        exists 2. simpl. rewrite (Hnc j m Em Tm), (Hcc j m Em Tm), Hpy. split; auto. intros k m' k' E T R.
        rewrite (Hnc k m' E T), (Hcc k m' E T) in R. destruct (is_py m') eqn:E1; [|discriminate]. injection R as <-.
        right. split; auto. eapply idxs_split; [exact Hw2| |].
        -- apply idxs_in; eauto.
        -- intro Hk. eapply (Hl1 k m'); eauto. rewrite Hu1, Hw1, !in_app_iff. auto.
Qed.

Lemma rank_supported c m : hw_supported c m = true <-> exists k, rank c m = Some k.
Proof.
  destruct c; simpl; destruct (is_py m), (is_c m), (nc m); simpl; split; intro H; eauto; try discriminate; destruct H; discriminate.
Qed.

Theorem select_best_leaf_partial : forall c tag want_sub l, 2 <= length l ->
  (want_sub = false \/ forall m, In m l -> is_sub m = false) ->
  (forall m, select c None tag want_sub l = Chosen m -> exists i, best c tag l i m) /\
  (select c None tag want_sub l = Raised <-> forall m, In m l -> tag_ok tag m -> hw_supported c m = false).
Proof.
  intros c tag ws l HL Hws. unfold select. destruct l as [|m0 [|m1 r]]; simpl in HL; [lia|lia|].
  set (l := m0 :: m1 :: r) in *. clearbody l. clear HL m0 m1 r.
  assert (ws && negb (length (idxs is_sub l) =? 0) = false) as ->.
  { destruct Hws as [->|H]; auto. replace (idxs is_sub l) with (@nil nat); [rewrite andb_false_r; auto|].
    symmetry. destruct (idxs is_sub l) as [|i q] eqn:E; auto. exfalso.
    assert (In i (idxs is_sub l)) as Hi by (rewrite E; left; auto). apply idxs_in in Hi. destruct Hi as [m [E1 E2]].
    apply nth_error_In in E1. rewrite (H m E1) in E2. discriminate. }
  assert (forall i, In i (order c l) -> exists m, nth_error l i = Some m /\ hw_supported c m = true) as HO by (intro i; apply order_in).
  assert (forall m, In m l -> hw_supported c m = true -> exists i, In i (order c l) /\ nth_error l i = Some m) as HI.
  { intros m Hm Hs. apply In_nth_error in Hm. destruct Hm as [i Hi]. exists i. split; auto. apply order_in. eauto. }
  destruct (order c l) as [|i q] eqn:Eo.
  { split; [discriminate|]. split; [|auto]. intros _ m Hm _. destruct (hw_supported c m) eqn:E; auto.
    destruct (HI m Hm E) as [i [[] _]]. }
  rewrite <- Eo in *. destruct tag as [t|].
  - set (P := fun i => match nth_error l i with Some m => has_tag t m | None => false end).
    assert (forall i m, nth_error l i = Some m -> (P i = true <-> tag_ok (Some t) m)) as HP.
    { intros k m E. unfold P. rewrite E. apply has_tag_spec. }
    destruct (filter P (order c l)) as [|j rj] eqn:Ef.
    + split; [discriminate|]. split; [|auto]. intros _ m Hm T. destruct (hw_supported c m) eqn:E; auto. exfalso.
      destruct (HI m Hm E) as [k [Hk Ek]]. assert (In k (filter P (order c l))) as Q by (apply filter_In; split; auto; apply (HP k m Ek); auto).
      rewrite Ef in Q. destruct Q.
    + destruct (filter_first _ _ _ _ Ef) as [l1 [l2 [E1 [E2 E3]]]].
      destruct (first_is_best c (Some t) l P l1 j l2 HP E1 E2 E3) as [m [M1 M2]]. rewrite M1. split.
      * intros m' H. injection H as <-. eauto.
      * split; [discriminate|]. intro H. exfalso. destruct M2 as [N1 [N2 [k [N3 _]]]].
        assert (hw_supported c m = true) as Q by (apply rank_supported; eauto). rewrite (H m) in Q; [discriminate| |auto].
        eapply nth_error_In; eauto.
  - destruct (first_is_best c None l (fun _ => true) [] i q) as [m [M1 M2]]; auto.
    { intros. simpl. tauto. } { intros x []. }
    rewrite M1. split.
    + intros m' H. injection H as <-. eauto.
    + split; [discriminate|]. intro H. exfalso. destruct M2 as [N1 [N2 [k [N3 _]]]].
      assert (hw_supported c m = true) as Q by (apply rank_supported; eauto). rewrite (H m) in Q; [discriminate| |auto].
      eapply nth_error_In; eauto.
Qed.

(** one model: accepted iff runnable and (no tag wanted, or untagged, or tagged so) *)
Theorem select_single : forall c tag want_sub m,
  (select c None tag want_sub [m] = Chosen m <->
     runnable c m /\ (tag_ok tag m \/ tags m = [])) /\
  (forall m', select c None tag want_sub [m] = Chosen m' -> m' = m).
Proof.
  intros c tag ws m. unfold select, runnable. split.
  - destruct (is_sub m || hw_supported c m) eqn:E.
    + apply orb_prop in E. destruct tag as [t|]; [|simpl; tauto].
      destruct ((length (tags m) =? 0) || has_tag t m) eqn:T.
      * split; [|auto]. intros _. split; auto. apply orb_prop in T. destruct T as [T|T].
        -- right. apply Nat.eqb_eq in T. destruct (tags m); [auto|discriminate].
        -- left. simpl. apply has_tag_spec; auto.
      * apply orb_false_iff in T. destruct T as [T1 T2]. split; [discriminate|]. intros [_ [H|H]].
        -- simpl in H. apply has_tag_spec in H. congruence.
        -- rewrite H in T1. discriminate.
    + apply orb_false_iff in E. destruct E as [E1 E2]. split; [discriminate|]. intros [[|] _]; congruence.
  - intro m'. destruct (is_sub m || hw_supported c m); [|discriminate].
    destruct tag; [destruct (_ || _)|]; congruence.
Qed.

(** a sub-process model is wanted: without a tag, the first one is chosen *)
Theorem select_sub_first : forall c l m, 2 <= length l -> (exists s, In s l /\ is_sub s = true) ->
  select c None None true l = Chosen m ->
  exists i, nth_error l i = Some m /\ is_sub m = true /\ forall j m', nth_error l j = Some m' -> is_sub m' = true -> i <= j.
Proof.
  intros c l m HL [s [Hs1 Hs2]] H. unfold select in H. destruct l as [|m0 [|m1 r]]; simpl in HL; [lia|lia|].
  set (l := m0 :: m1 :: r) in *. clearbody l.
  destruct (idxs is_sub l) as [|i q] eqn:E.
  { exfalso. apply In_nth_error in Hs1. destruct Hs1 as [k Hk]. assert (In k (idxs is_sub l)) as Q by (apply idxs_in; eauto).
    rewrite E in Q. destruct Q. }
  simpl in H. exists i.
  assert (at_idx l i = Chosen m) as H' by (destruct q; auto). apply at_idx_some in H'. split; auto.
  assert (In i (idxs is_sub l)) as Q by (rewrite E; left; auto). apply idxs_in in Q. destruct Q as [m' [Q1 Q2]].
  split; [congruence|]. intros j m'' Ej Hj. apply (idxs_split is_sub l [] i q E); [apply idxs_in; eauto|intros []].
Qed.

(** several sub-process models and a tag: if one is chosen, it is the first with the tag *)
Lemma idxs_ge f l : forall j k, nth_error (idxs f l) j = Some k -> j <= k.
Proof.
  induction j as [|j IH]; intros k H; [lia|].
  destruct (nth_error (idxs f l) j) as [k'|] eqn:E.
  - pose proof (idxs_sorted f l 0 j k' E (S j) k ltac:(lia) H). specialize (IH k' eq_refl). lia.
  - exfalso. apply nth_error_None in E. assert (S j < length (idxs f l)) by (apply nth_error_Some; congruence). lia.
Qed.
Lemma idxs_dense f l : (forall i, In i (idxs f l) -> i < length (idxs f l)) -> forall i, In i (idxs f l) -> nth_error (idxs f l) i = Some i.
Proof.
  intro H.
  assert (forall d j k, length (idxs f l) = j + S d -> nth_error (idxs f l) j = Some k -> k = j) as G.
  { induction d as [|d IH]; intros j k HL E.
    - pose proof (idxs_ge _ _ _ _ E). assert (In k (idxs f l)) as Hk by (eapply nth_error_In; eauto). apply H in Hk. lia.
    - destruct (nth_error (idxs f l) (S j)) as [k'|] eqn:E'.
      + assert (k' = S j) as -> by (apply (IH (S j)); [lia|auto]).
        pose proof (idxs_sorted f l 0 j k E (S j) (S j) ltac:(lia) E'). pose proof (idxs_ge _ _ _ _ E). lia.
      + apply nth_error_None in E'. lia. }
  intros i Hi. pose proof (H i Hi) as L. destruct (nth_error (idxs f l) i) as [k|] eqn:E.
  - f_equal. apply (G (length (idxs f l) - S i) i); [lia|auto].
  - apply nth_error_None in E. lia.
Qed.

Lemma tagged_subs_def t l subs todo r : tagged_subs t l subs todo = Some r -> forall i, In i todo -> i < length subs.
Proof.
  revert r. induction todo as [|j todo IH]; simpl; intros r H i Hi; [destruct Hi|]. destruct Hi as [<-|Hi].
  - destruct (nth_error subs j) eqn:E; [|discriminate]. apply nth_error_Some. congruence.
  - destruct (nth_error subs j) as [k|]; [|discriminate]. destruct (nth_error l k); [|discriminate].
    destruct (tagged_subs t l subs todo) eqn:E; [|discriminate]. eauto.
Qed.
Lemma tagged_subs_id t l subs todo r : (forall i, In i todo -> nth_error subs i = Some i) -> tagged_subs t l subs todo = Some r ->
  r = filter (fun i => match nth_error l i with Some m => has_tag t m | None => false end) todo.
Proof.
  revert r. induction todo as [|j todo IH]; simpl; intros r Hid H; [congruence|].
  rewrite (Hid j (or_introl eq_refl)) in H. destruct (nth_error l j) as [m|]; [|discriminate].
  destruct (tagged_subs t l subs todo) as [r'|]; [|discriminate]. injection H as <-.
  rewrite (IH r' (fun i Hi => Hid i (or_intror Hi)) eq_refl). auto.
Qed.

Theorem select_sub_tagged_partial : forall c l t m, select c None (Some t) true l = Chosen m ->
  (exists i j s s', i <> j /\ nth_error l i = Some s /\ nth_error l j = Some s' /\ is_sub s = true /\ is_sub s' = true) ->
  exists i, nth_error l i = Some m /\ is_sub m = true /\ In t (tags m) /\
    forall j m', nth_error l j = Some m' -> is_sub m' = true -> In t (tags m') -> i <= j.
Proof.
  intros c l t m H [a [b [s [s' [NE [Ea [Eb [Sa Sb]]]]]]]]. unfold select in H.
  destruct l as [|m0 [|m1 r]]; [discriminate|destruct a as [|[|a]], b as [|[|b]]; simpl in *; congruence|].
  set (l := m0 :: m1 :: r) in *. clearbody l.
  assert (In a (idxs is_sub l)) as Ia by (apply idxs_in; eauto). assert (In b (idxs is_sub l)) as Ib by (apply idxs_in; eauto).
  destruct (idxs is_sub l) as [|i [|i2 q]] eqn:E; [destruct Ia|simpl in Ia, Ib; exfalso; intuition congruence|].
  rewrite <- E in *. assert (negb (length (idxs is_sub l) =? 0) = true) as L by (rewrite E; reflexivity).
  rewrite L in H. cbn [andb] in H.
  assert (match tagged_subs t l (idxs is_sub l) (idxs is_sub l) with Some (i :: _) => at_idx l i | _ => Raised end = Chosen m) as H'
    by (rewrite E in *; auto). clear H.
  destruct (tagged_subs t l (idxs is_sub l) (idxs is_sub l)) as [[|k rk]|] eqn:Et; try discriminate.
  pose proof (tagged_subs_id _ _ _ _ _ (idxs_dense is_sub l (tagged_subs_def _ _ _ _ _ Et)) Et) as Ef. symmetry in Ef.
  destruct (filter_first _ _ _ _ Ef) as [l1 [l2 [E1 [E2 E3]]]].
  apply at_idx_some in H'. exists k. split; auto. rewrite H' in E2.
  assert (In k (idxs is_sub l)) as Ik by (rewrite E1; apply in_app_iff; right; left; auto).
  apply idxs_in in Ik. destruct Ik as [m' [Q1 Q2]]. split; [congruence|]. split; [apply has_tag_spec; auto|].
  intros j mj Ej Sj Tj. apply (idxs_split is_sub l l1 k l2 E1); [apply idxs_in; eauto|].
  intro Hj. apply E3 in Hj. rewrite Ej in Hj. apply has_tag_spec in Tj. congruence.
Qed.

Definition mk (s p : bool) (t : list nat) := {| is_sub := s; is_py := p; is_c := false; nc := false; tags := t |}.

(** ... but an error is raised as soon as another model precedes a sub-process model (double indexing, line 275) *)
Theorem select_sub_index_error_refuted : exists l,
  select SimCfg None (Some 7) true l = Raised /\ exists m', In m' l /\ is_sub m' = true /\ In 7 (tags m').
Proof.
  exists [mk false true []; mk true false [7]; mk true false []]. split; [reflexivity|].
  exists (mk true false [7]). simpl. auto.
Qed.
(** a single sub-process model is returned although it lacks the tag *)
Theorem select_sub_tag_ignored_refuted : exists l m,
  select SimCfg None (Some 7) true l = Chosen m /\ tags m = [8] /\ exists m', In m' l /\ In 7 (tags m').
Proof.
  exists [mk true false [8]; mk false true [7]], (mk true false [8]). split; [reflexivity|]. split; [reflexivity|].
  exists (mk false true [7]). simpl; auto.
Qed.
(** the explicit exception is not honoured when no model is found in the modules *)
Theorem select_exception_no_models_refuted : exists m, select SimCfg (Some m) None false [] = Raised.
Proof. exists (mk false true []). reflexivity. Qed.

Example select_demo :
  select HwCfg None (Some 3) false
    [ {| is_sub := false; is_py := true; is_c := false; nc := false; tags := [3] |};
      {| is_sub := false; is_py := false; is_c := false; nc := true; tags := [4] |};
      {| is_sub := false; is_py := false; is_c := true; nc := false; tags := [3] |} ] =
  Chosen {| is_sub := false; is_py := false; is_c := true; nc := false; tags := [3] |}.
Proof. reflexivity. Qed.
