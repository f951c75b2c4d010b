(* Supporting lemmas for C94. *)
From Coq Require Import List Arith String Bool Lia.
From Verif Require Import Decor_Model Decor_Spec.
Import ListNotations.

Lemma memb_In x l : memb x l = true <-> In x l.
Proof.
  unfold memb. rewrite existsb_exists. split.
  - intros [y [Hy He]]. apply Nat.eqb_eq in He. subst. exact Hy.
  - intros H. exists x. split; [exact H|apply Nat.eqb_refl].
Qed.

(* ---------------- update of one class ---------------- *)

Lemma upd_length st : forall c f, List.length (upd st c f) = List.length st.
Proof. induction st; intros [|c] f; cbn; auto. Qed.

Lemma nth_upd st : forall c f x,
  nth_error (upd st c f) x =
  if x =? c then option_map f (nth_error st x) else nth_error st x.
Proof.
  induction st as [|k st IH]; intros [|c] f [|x]; cbn; auto.
  - destruct (x =? c); reflexivity.
Qed.

Lemma mro_upd st c f x :
  (forall k, k_mro (f k) = k_mro k) -> mro_of (upd st c f) x = mro_of st x.
Proof.
  intros H. unfold mro_of. rewrite nth_upd.
  destruct (x =? c); [|reflexivity].
  destruct (nth_error st x); cbn; auto.
Qed.

Lemma first_own_upd_other {A} (g : cls -> option A) st c f l :
  (forall k, g (f k) = g k) ->
  first_own g (upd st c f) l = first_own g st l.
Proof.
  intros H. induction l as [|x l IH]; cbn; [reflexivity|].
  rewrite nth_upd. destruct (x =? c).
  - destruct (nth_error st x); cbn; [rewrite H|]; rewrite IH; reflexivity.
  - rewrite IH. reflexivity.
Qed.

Lemma first_own_upd_notin {A} (g : cls -> option A) st c f l :
  ~ In c l -> first_own g (upd st c f) l = first_own g st l.
Proof.
  induction l as [|x l IH]; cbn; intros H; [reflexivity|].
  rewrite nth_upd. destruct (x =? c) eqn:E.
  - apply Nat.eqb_eq in E. tauto.
  - rewrite IH by tauto. reflexivity.
Qed.

Lemma first_own_app {A} (g : cls -> option A) st l1 l2 :
  first_own g st (l1 ++ l2) =
  match first_own g st l1 with Some a => Some a | None => first_own g st l2 end.
Proof.
  induction l1 as [|x l IH]; cbn; [reflexivity|].
  destruct (nth_error st x) as [k|]; [destruct (g k)|]; auto.
Qed.

Lemma first_own_upd_in {A} (g : cls -> option A) st c f v l1 l2 :
  c < List.length st -> (forall k, g (f k) = Some v) -> ~ In c l1 ->
  first_own g (upd st c f) (l1 ++ c :: l2) =
  match first_own g st l1 with Some a => Some a | None => Some v end.
Proof.
  intros Hc Hf Hn. rewrite first_own_app, first_own_upd_notin by exact Hn.
  destruct (first_own g st l1); [reflexivity|].
  cbn. rewrite nth_upd, Nat.eqb_refl.
  destruct (nth_error st c) as [k|] eqn:E.
  - cbn. rewrite Hf. reflexivity.
  - apply nth_error_None in E. lia.
Qed.

Lemma attr_upd_other {A} (g : cls -> option A) st c f d :
  (forall k, g (f k) = g k) -> (forall k, k_mro (f k) = k_mro k) ->
  attr g (upd st c f) d = attr g st d.
Proof.
  intros H1 H2. unfold attr. rewrite mro_upd by exact H2.
  apply first_own_upd_other, H1.
Qed.

Lemma attr_upd_notin {A} (g : cls -> option A) st c f d :
  (forall k, k_mro (f k) = k_mro k) -> ~ In c (mro_of st d) ->
  attr g (upd st c f) d = attr g st d.
Proof.
  intros H1 H2. unfold attr. rewrite mro_upd by exact H1.
  apply first_own_upd_notin, H2.
Qed.

(* appending a class *)
Lemma nth_app_lt {A} (l : list A) k x :
  x < List.length l -> nth_error (l ++ [k]) x = nth_error l x.
Proof. intros H. apply nth_error_app1, H. Qed.

Lemma mro_app st k x : x < List.length st -> mro_of (st ++ [k]) x = mro_of st x.
Proof. intros H. unfold mro_of. rewrite nth_app_lt by exact H. reflexivity. Qed.

Lemma first_own_app_table {A} (g : cls -> option A) st k l :
  (forall x, In x l -> x < List.length st) ->
  first_own g (st ++ [k]) l = first_own g st l.
Proof.
  induction l as [|x l IH]; intros H; cbn; [reflexivity|].
  rewrite nth_app_lt by (apply H; left; reflexivity).
  rewrite IH; [reflexivity|]. intros y Hy. apply H. right. exact Hy.
Qed.

(* ---------------- C3 ---------------- *)

Lemma good_head_spec all : forall seqs h,
  good_head all seqs = Some h ->
  (exists t, In (h :: t) seqs) /\
  (forall s, In s all -> in_tail h s = false).
Proof.
  induction seqs as [|s r IH]; cbn; [discriminate|].
  intros h H. destruct s as [|x t].
  - destruct (IH _ H) as [[t Ht] Hs]. split; [exists t; auto|exact Hs].
  - destruct (existsb (in_tail x) all) eqn:E.
    + destruct (IH _ H) as [[t' Ht] Hs]. split; [exists t'; auto|exact Hs].
    + injection H as <-. split; [exists t; auto|].
      intros s Hs. destruct (in_tail x s) eqn:E2; [|reflexivity].
      assert (X : existsb (in_tail x) all = true)
        by (apply existsb_exists; exists s; auto).
      congruence.
Qed.

Lemma drop_head_no h s :
  in_tail h s = false -> ~ In h (drop_head h s).
Proof.
  destruct s as [|x t]; cbn; [tauto|]. intros H.
  assert (Ht : ~ In h t) by (rewrite <- memb_In; congruence).
  destruct (x =? h) eqn:E; [exact Ht|].
  intros [->|Hx]; [|exact (Ht Hx)]. rewrite Nat.eqb_refl in E. discriminate E.
Qed.

Lemma drop_head_In h s x : In x (drop_head h s) -> In x s.
Proof. destruct s as [|y t]; cbn; [tauto|]. destruct (y =? h); cbn; tauto. Qed.

Lemma In_drop_head h s x : In x s -> x = h \/ In x (drop_head h s).
Proof.
  destruct s as [|y t]; cbn; [tauto|]. destruct (y =? h) eqn:E; cbn; [|tauto].
  apply Nat.eqb_eq in E. intros [->|H]; [left; exact E|right; exact H].
Qed.

Lemma c3_In : forall n seqs l, c3merge n seqs = Some l ->
  forall x, In x l <-> exists s, In s seqs /\ In x s.
Proof.
  induction n as [|n IH]; intros seqs l H x; cbn in H.
  - destruct (forallb is_nil seqs) eqn:E; [|discriminate H].
    injection H as <-. cbn. split; [tauto|]. intros [s [Hs Hx]].
    rewrite forallb_forall in E. specialize (E s Hs).
    destruct s; [exact Hx|discriminate E].
  - destruct (forallb is_nil seqs) eqn:E.
    + injection H as <-. cbn. split; [tauto|]. intros [s [Hs Hx]].
      rewrite forallb_forall in E. specialize (E s Hs).
      destruct s; [exact Hx|discriminate E].
    + destruct (good_head seqs seqs) as [h|] eqn:Eh; [|discriminate H].
      destruct (c3merge n (map (drop_head h) seqs)) as [l'|] eqn:El;
        [|discriminate H].
      injection H as <-. specialize (IH _ _ El x).
      destruct (good_head_spec _ _ _ Eh) as [[t Ht] _].
      cbn. rewrite IH. split.
      * intros [->|[s [Hs Hx]]].
        -- exists (x :: t). split; [exact Ht|left; reflexivity].
        -- apply in_map_iff in Hs. destruct Hs as [s0 [<- Hs0]].
           exists s0. split; [exact Hs0|]. eapply drop_head_In, Hx.
      * intros [s [Hs Hx]]. destruct (In_drop_head h s x Hx) as [->|Hd].
        -- left. reflexivity.
        -- right. exists (drop_head h s). split; [|exact Hd].
           apply in_map, Hs.
Qed.

Lemma c3_NoDup : forall n seqs l, c3merge n seqs = Some l -> NoDup l.
Proof.
  induction n as [|n IH]; intros seqs l H; cbn in H.
  - destruct (forallb is_nil seqs); [|discriminate H].
    injection H as <-. constructor.
  - destruct (forallb is_nil seqs).
    + injection H as <-. constructor.
    + destruct (good_head seqs seqs) as [h|] eqn:Eh; [|discriminate H].
      destruct (c3merge n (map (drop_head h) seqs)) as [l'|] eqn:El;
        [|discriminate H].
      injection H as <-. constructor; [|exact (IH _ _ El)].
      rewrite (c3_In _ _ _ El). intros [s [Hs Hx]].
      apply in_map_iff in Hs. destruct Hs as [s0 [<- Hs0]].
      destruct (good_head_spec _ _ _ Eh) as [_ Hg].
      exact (drop_head_no h s0 (Hg s0 Hs0) Hx).
Qed.

Lemma NoDup_memb x l : NoDup (x :: l) -> memb x l = false.
Proof.
  intros H. destruct (memb x l) eqn:E; [|reflexivity].
  apply memb_In in E. inversion H. contradiction.
Qed.

Lemma c3_one_aux : forall l n, NoDup l -> List.length l <= n ->
  c3merge n [l; []] = Some l.
Proof.
  induction l as [|x l IH]; intros n Hn Hl.
  - destruct n; reflexivity.
  - destruct n as [|n]; [cbn in Hl; lia|].
    cbn. rewrite (NoDup_memb _ _ Hn). cbn. rewrite Nat.eqb_refl.
    rewrite IH; [reflexivity| |cbn in Hl; lia].
    inversion Hn. assumption.
Qed.

Lemma c3_one p l n : NoDup (p :: l) -> S (List.length l) <= n ->
  c3merge n [p :: l; [p]] = Some (p :: l).
Proof.
  intros Hn Hl. destruct n as [|n]; [lia|].
  cbn. rewrite (NoDup_memb _ _ Hn). cbn. rewrite Nat.eqb_refl.
  rewrite c3_one_aux; [reflexivity| |lia]. inversion Hn. assumption.
Qed.

(* ---------------- well-formed tables ---------------- *)

Definition good_cls (c : nat) (k : cls) : Prop :=
  exists l, k_mro k = c :: l /\ (forall x, In x l -> x < c) /\ NoDup (c :: l).

Definition root_ok (k : cls) : Prop :=
  k_mro k = [0] /\ k_proc k <> None /\ k_proto k <> None /\
  k_req k <> None /\ k_tags k <> None.

Record WF (st : table) : Prop := mkWF {
  wf_cls : forall c k, nth_error st c = Some k -> good_cls c k;
  wf_root : exists k, nth_error st 0 = Some k /\ root_ok k }.

Lemma WF0 : WF table0.
Proof.
  constructor.
  - intros [|[|c]] k H; cbn in H; try discriminate H.
    injection H as <-. exists []. cbn. split; [reflexivity|].
    split; [tauto|]. constructor; [tauto|constructor].
  - exists apm. split; [reflexivity|]. unfold root_ok. cbn.
    repeat apply conj; congruence.
Qed.

Lemma WF_mro st c : WF st -> c < List.length st ->
  exists l, mro_of st c = c :: l /\ (forall x, In x l -> x < c) /\
            NoDup (c :: l).
Proof.
  intros W Hc. unfold mro_of. destruct (nth_error st c) as [k|] eqn:E.
  - destruct (wf_cls _ W _ _ E) as [l H]. exists l. exact H.
  - apply nth_error_None in E. lia.
Qed.

Lemma WF_mro_le st c x : WF st -> In x (mro_of st c) -> x <= c /\ c < List.length st.
Proof.
  intros W H. destruct (Nat.lt_ge_cases c (List.length st)) as [Hc|Hc].
  - destruct (WF_mro _ _ W Hc) as [l [E [Hl _]]]. rewrite E in H.
    destruct H as [<-|H]; [lia|]. specialize (Hl _ H). lia.
  - unfold mro_of in H. apply nth_error_None in Hc. rewrite Hc in H.
    destruct H.
Qed.

Lemma WF_upd st c f : WF st ->
  (forall k, k_mro (f k) = k_mro k) ->
  (forall k, root_ok k -> root_ok (f k)) ->
  WF (upd st c f).
Proof.
  intros W H1 H2. constructor.
  - intros x k Hk. rewrite nth_upd in Hk.
    destruct (x =? c).
    + destruct (nth_error st x) as [k0|] eqn:E; [|discriminate Hk].
      cbn in Hk. injection Hk as <-.
      destruct (wf_cls _ W _ _ E) as [l Hl]. exists l. rewrite H1. exact Hl.
    + exact (wf_cls _ W _ _ Hk).
  - destruct (wf_root _ W) as [k [E R]]. rewrite nth_upd, E.
    destruct (0 =? c); cbn; eexists; split; try reflexivity; auto.
Qed.

Lemma linearise_In st c bases l :
  WF st -> (forall b, In b bases -> b < List.length st) ->
  linearise st c bases = Some l ->
  exists l', l = c :: l' /\ NoDup l' /\
    forall x, In x l' <-> exists b, In b bases /\ In x (mro_of st b).
Proof.
  intros W Hb H. unfold linearise in H.
  destruct (c3merge _ _) as [l'|] eqn:E; [|discriminate H].
  injection H as <-. exists l'. split; [reflexivity|].
  split; [exact (c3_NoDup _ _ _ E)|].
  intros x. rewrite (c3_In _ _ _ E). split.
  - intros [s [Hs Hx]]. apply in_app_or in Hs. destruct Hs as [Hs|Hs].
    + apply in_map_iff in Hs. destruct Hs as [b [<- Hb']].
      exists b. split; assumption.
    + destruct Hs as [<-|[]]. exists x. split; [exact Hx|].
      destruct (WF_mro _ _ W (Hb _ Hx)) as [l0 [E0 _]]. rewrite E0.
      left. reflexivity.
  - intros [b [Hb' Hx]]. exists (mro_of st b). split; [|exact Hx].
    apply in_or_app. left. apply in_map, Hb'.
Qed.

Lemma linearise_one st p :
  WF st -> p < List.length st ->
  linearise st (List.length st) [p] = Some (List.length st :: mro_of st p).
Proof.
  intros W Hp. unfold linearise. cbn [map app].
  destruct (WF_mro _ _ W Hp) as [l [E [_ Hn]]]. rewrite E.
  rewrite c3_one; [reflexivity|exact Hn|]. cbn. lia.
Qed.

Lemma WF_new st bases b st' :
  WF st -> exec st (NewClass bases b) = (st', Done) ->
  exists l, st' = st ++ [mkcls (List.length st :: l) (b_proc b) (b_proto b)
                               (b_req b) (b_tags b)] /\
    linearise st (List.length st) bases = Some (List.length st :: l) /\
    (forall x, In x bases -> x < List.length st) /\
    (forall x, In x l -> x < List.length st) /\ NoDup l /\
    (forall x, In x l <-> exists p, In p bases /\ In x (mro_of st p)).
Proof.
  intros W H. cbn [exec] in H.
  destruct (forallb _ bases) eqn:Eb; [|discriminate H].
  assert (Hb : forall x, In x bases -> x < List.length st).
  { intros x Hx. rewrite forallb_forall in Eb. apply Nat.ltb_lt.
    apply Eb, Hx. }
  destruct (linearise st (List.length st) bases) as [l0|] eqn:El;
    [|discriminate H].
  injection H as <-.
  destruct (linearise_In _ _ _ _ W Hb El) as [l [-> [Hn Hl]]].
  exists l. repeat apply conj; auto.
  intros x Hx. apply Hl in Hx. destruct Hx as [p [Hp Hx]].
  specialize (Hb _ Hp). pose proof (WF_mro_le _ _ _ W Hx). lia.
Qed.

Lemma WF_exec st s : WF st -> WF (fst (exec st s)).
Proof.
  intros W. destruct s as [bases b|c d].
  - destruct (exec st (NewClass bases b)) as [st' o] eqn:E. cbn [fst].
    destruct o.
    + destruct (WF_new _ _ _ _ W E) as [l [-> [_ [_ [Hl [Hn _]]]]]].
      assert (L0 : 0 < List.length st).
      { destruct (wf_root _ W) as [k [E0 _]].
        apply nth_error_Some. congruence. }
      constructor.
      * intros c k Hk. destruct (Nat.lt_ge_cases c (List.length st)) as [Hc|Hc].
        -- rewrite nth_app_lt in Hk by exact Hc. exact (wf_cls _ W _ _ Hk).
        -- rewrite nth_error_app2 in Hk by exact Hc.
           destruct (c - List.length st) as [|[|n]] eqn:En; cbn in Hk;
             try discriminate Hk.
           injection Hk as <-. assert (c = List.length st) by lia. subst c.
           exists l. cbn. split; [reflexivity|]. split; [exact Hl|].
           constructor; [|exact Hn]. intros Hx. specialize (Hl _ Hx). lia.
      * rewrite nth_app_lt by exact L0. exact (wf_root _ W).
    + cbn [exec] in E. destruct (forallb _ bases);
        [destruct (linearise _ _ _)|]; try discriminate E.
    + cbn [exec] in E. destruct (forallb _ bases);
        [destruct (linearise _ _ _)|]; try discriminate E.
      injection E as <-. exact W.
    + cbn [exec] in E. destruct (forallb _ bases);
        [destruct (linearise _ _ _)|]; try discriminate E.
      injection E as <-. exact W.
  - cbn [exec]. unfold apply_dec.
    destruct (check_dec d); try exact W.
    destruct (c <? List.length st); [|exact W].
    destruct (is_pm st c); [|exact W].
    destruct d as [p q|l|l].
    + unfold apply_impl. destruct (conflict _ p); [exact W|].
      assert (W1 : WF (match p with CGood n => upd st c (set_proc n)
                       | _ => st end)).
      { destruct p; try exact W. apply WF_upd; auto.
        intros k [H1 [H2 [H3 [H4 H5]]]].
        unfold root_ok; cbn; repeat apply conj; auto. discriminate. }
      cbv zeta. destruct (conflict _ q); [exact W1|].
      destruct q; try exact W1. apply WF_upd; auto.
      intros k [H1 [H2 [H3 [H4 H5]]]].
      unfold root_ok; cbn; repeat apply conj; auto. discriminate.
    + unfold apply_req. destruct (attr k_req st c); [|exact W].
      apply WF_upd; auto. intros k [H1 [H2 [H3 [H4 H5]]]].
      unfold root_ok; cbn; repeat apply conj; auto. discriminate.
    + unfold apply_tag. destruct (attr k_tags st c); apply WF_upd; auto;
        intros k [H1 [H2 [H3 [H4 H5]]]];
        unfold root_ok; cbn; repeat apply conj; auto; discriminate.
Qed.

Lemma WF_exec_all h : forall st, WF st -> WF (exec_all st h).
Proof.
  induction h as [|s h IH]; intros st W; [exact W|].
  cbn. apply IH, WF_exec, W.
Qed.

Lemma WF_reachable st : reachable st -> WF st.
Proof. intros [h ->]. apply WF_exec_all, WF0. Qed.

(* every attribute of a process model can be read *)
Lemma first_own_In {A} (g : cls -> option A) st x k l :
  nth_error st x = Some k -> g k <> None -> In x l ->
  first_own g st l <> None.
Proof.
  intros Hk Hg. induction l as [|y l IH]; cbn; [tauto|].
  intros [->|H].
  - rewrite Hk. destruct (g k); congruence.
  - destruct (nth_error st y) as [k'|]; [destruct (g k'); [congruence|]|]; auto.
Qed.

Lemma is_pm_In st c : is_pm st c = true <-> In 0 (mro_of st c).
Proof. apply memb_In. Qed.

Lemma pm_attrs st c : WF st -> In 0 (mro_of st c) ->
  attr k_proc st c <> None /\ attr k_proto st c <> None /\
  attr k_req st c <> None /\ attr k_tags st c <> None.
Proof.
  intros W H. destruct (wf_root _ W) as [k [E [_ [H1 [H2 [H3 H4]]]]]].
  unfold attr.
  repeat apply conj; eapply first_own_In; eauto.
Qed.

(* the shape of the mro of a class around one of its members *)
Lemma in_split_first (x : nat) l : In x l ->
  exists l1 l2, l = l1 ++ x :: l2 /\ ~ In x l1.
Proof.
  induction l as [|y l IH]; cbn; [tauto|]. intros H.
  destruct (Nat.eq_dec y x) as [->|Hne].
  - exists [], l. split; [reflexivity|intros []].
  - destruct H as [H|H]; [contradiction|].
    destruct (IH H) as [l1 [l2 [-> Hn]]].
    exists (y :: l1), l2. split; [reflexivity|]. cbn. tauto.
Qed.

(* what a decorator leaves alone: classes that do not inherit from its class *)
Lemma apply_dec_frame st c d e :
  ~ In c (mro_of st e) ->
  attr k_proc (fst (apply_dec st c d)) e = attr k_proc st e /\
  attr k_proto (fst (apply_dec st c d)) e = attr k_proto st e /\
  attr k_req (fst (apply_dec st c d)) e = attr k_req st e /\
  attr k_tags (fst (apply_dec st c d)) e = attr k_tags st e.
Proof.
  intros H. unfold apply_dec.
  destruct (check_dec d); try (repeat apply conj; reflexivity).
  destruct (c <? List.length st); [|repeat apply conj; reflexivity].
  destruct (is_pm st c); [|repeat apply conj; reflexivity].
  destruct d as [p q|l|l].
  - unfold apply_impl. destruct (conflict _ p); [repeat apply conj; reflexivity|].
    cbv zeta.
    set (st1 := match p with CGood n => upd st c (set_proc n) | _ => st end).
    assert (M : mro_of st1 e = mro_of st e)
      by (unfold st1; destruct p; try reflexivity; apply mro_upd; reflexivity).
    assert (K : forall A (g : cls -> option A), attr g st1 e = attr g st e).
    { intros A g. unfold st1. destruct p; try reflexivity.
      apply attr_upd_notin; [reflexivity|exact H]. }
    destruct (conflict _ q); cbn [fst]; [repeat apply conj; apply K|].
    destruct q; cbn [fst]; try (repeat apply conj; apply K).
    repeat apply conj; (rewrite attr_upd_notin; [apply K|reflexivity|congruence]).
  - unfold apply_req. destruct (attr k_req st c); cbn [fst];
      repeat apply conj; try reflexivity;
      (apply attr_upd_notin; [reflexivity|exact H]).
  - unfold apply_tag. destruct (attr k_tags st c); cbn [fst];
      repeat apply conj; (apply attr_upd_notin; [reflexivity|exact H]).
Qed.

Lemma apply_dec_mro st c d e :
  mro_of (fst (apply_dec st c d)) e = mro_of st e.
Proof.
  unfold apply_dec.
  destruct (check_dec d); try reflexivity.
  destruct (c <? List.length st); [|reflexivity].
  destruct (is_pm st c); [|reflexivity].
  destruct d as [p q|l|l].
  - unfold apply_impl. destruct (conflict _ p); [reflexivity|]. cbv zeta.
    set (st1 := match p with CGood n => upd st c (set_proc n) | _ => st end).
    assert (M : mro_of st1 e = mro_of st e)
      by (unfold st1; destruct p; try reflexivity; apply mro_upd; reflexivity).
    destruct (conflict _ q); cbn [fst]; [exact M|].
    destruct q; cbn [fst]; try exact M.
    rewrite mro_upd; [exact M|reflexivity].
  - unfold apply_req. destruct (attr k_req st c); cbn [fst]; try reflexivity.
    apply mro_upd. reflexivity.
  - unfold apply_tag. destruct (attr k_tags st c); cbn [fst];
      apply mro_upd; reflexivity.
Qed.

Lemma apply_dec_length st c d :
  List.length (fst (apply_dec st c d)) = List.length st.
Proof.
  unfold apply_dec.
  destruct (check_dec d); try reflexivity.
  destruct (c <? List.length st); [|reflexivity].
  destruct (is_pm st c); [|reflexivity].
  destruct d as [p q|l|l].
  - unfold apply_impl. destruct (conflict _ p); [reflexivity|]. cbv zeta.
    set (st1 := match p with CGood n => upd st c (set_proc n) | _ => st end).
    assert (M : List.length st1 = List.length st)
      by (unfold st1; destruct p; try reflexivity; apply upd_length).
    destruct (conflict _ q); cbn [fst]; [exact M|].
    destruct q; cbn [fst]; try exact M.
    rewrite upd_length; exact M.
  - unfold apply_req. destruct (attr k_req st c); cbn [fst]; try reflexivity.
    apply upd_length.
  - unfold apply_tag. destruct (attr k_tags st c); cbn [fst]; apply upd_length.
Qed.

(* a new class does not change the others *)
Lemma new_class_frame st bases b st' e :
  WF st -> exec st (NewClass bases b) = (st', Done) -> e < List.length st ->
  mro_of st' e = mro_of st e /\
  forall A (g : cls -> option A), attr g st' e = attr g st e.
Proof.
  intros W H He. destruct (WF_new _ _ _ _ W H) as [l [-> _]].
  split; [apply mro_app, He|].
  intros A g. unfold attr. rewrite mro_app by exact He.
  apply first_own_app_table. intros x Hx.
  pose proof (WF_mro_le _ _ _ W Hx). lia.
Qed.

(* the value read off the decorated class and off its descendants *)
Lemma attr_upd_in {A} (g : cls -> option A) st c f v d l1 l2 :
  c < List.length st -> (forall k, k_mro (f k) = k_mro k) ->
  (forall k, g (f k) = Some v) ->
  mro_of st d = l1 ++ c :: l2 -> ~ In c l1 ->
  attr g (upd st c f) d =
  match first_own g st l1 with Some a => Some a | None => Some v end.
Proof.
  intros Hc Hm Hf E Hn. unfold attr. rewrite mro_upd by exact Hm.
  rewrite E. apply first_own_upd_in; assumption.
Qed.

Lemma attr_upd_self {A} (g : cls -> option A) st c f v :
  WF st -> c < List.length st -> (forall k, k_mro (f k) = k_mro k) ->
  (forall k, g (f k) = Some v) -> attr g (upd st c f) c = Some v.
Proof.
  intros W Hc Hm Hf. destruct (WF_mro _ _ W Hc) as [l [E _]].
  rewrite (attr_upd_in g st c f v c [] l Hc Hm Hf E); [reflexivity|intros []].
Qed.

(* inversion of a successful decoration *)
Lemma apply_dec_inv st c d st' :
  apply_dec st c d = (st', Done) ->
  check_dec d = Done /\ c < List.length st /\ In 0 (mro_of st c) /\
  match d with
  | Implements p q => apply_impl st c p q = (st', Done)
  | Requires l => apply_req st c l = (st', Done)
  | Tag l => apply_tag st c l = (st', Done)
  end.
Proof.
  unfold apply_dec. destruct (check_dec d) eqn:E; try discriminate.
  destruct (c <? List.length st) eqn:Ec; [|discriminate].
  destruct (is_pm st c) eqn:Ep; [|discriminate].
  intros H. repeat apply conj; auto.
  - apply Nat.ltb_lt, Ec.
  - apply is_pm_In, Ep.
  - destruct d; exact H.
Qed.
