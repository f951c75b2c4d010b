(** C30. *)
From Coq Require Import List Arith Bool Lia.
From Verif Require Import SyncDomain_Model.
Import ListNotations.

Lemma name_eqb_eq a b : name_eqb a b = true <-> a = b.
Proof.
  destruct a, b; simpl; try (split; congruence).
  - rewrite Nat.eqb_eq. split; congruence.
  - rewrite andb_true_iff, Nat.eqb_eq. split.
    + intros [-> H]. apply Bool.eqb_prop in H. congruence.
    + intro H. injection H as -> ->. split; auto. apply Bool.eqb_reflx.
Qed.
Lemma mem_spec x l : mem x l = true <-> In x l.
Proof.
  unfold mem. rewrite existsb_exists. split.
  - intros [y [H E]]. apply Nat.eqb_eq in E. subst; auto.
  - intro H. exists x. rewrite Nat.eqb_refl. auto.
Qed.
Lemma mem_false x l : mem x l = false <-> ~ In x l.
Proof. rewrite <- mem_spec. destruct (mem x l); split; congruence. Qed.
Lemma nd_app {A} (a b : list A) : NoDup a -> NoDup b -> (forall x, In x a -> ~ In x b) -> NoDup (a ++ b).
Proof.
  induction 1; simpl; auto. intros Hb Hd. constructor.
  - rewrite in_app_iff. intros [|Hx]; auto. apply (Hd x (or_introl eq_refl)); auto.
  - apply IHNoDup; [exact Hb|]. intros y Hy. apply Hd. right; auto.
Qed.
Lemma nd_snoc {A} (a : list A) x : NoDup a -> ~ In x a -> NoDup (a ++ [x]).
Proof. intros. apply nd_app; auto; [repeat constructor; auto|]. intros y Hy [->|[]]. auto. Qed.

Section Props.
Variable proto_of : nat -> nat.
Variable is_py : nat -> bool.
Variable pname : nat -> nat.
Variable isinst : nat -> nat -> bool.
Hypothesis isinst_refl : forall c, isinst c c = true.

(** ** Specification *)
Definition in_domain (ds : list domain) (p : nat) (d : domain) : Prop := In d ds /\ In p (dprocs d).

(** the dictionary and the lists of the domains agree; nobody is in two domains *)
Record sinv (s : state) : Prop := {
  si_names : NoDup (map dname (fst s));
  si_keys : NoDup (map fst (snd s));
  si_map : forall p n, In (p, n) (snd s) <-> exists d, In d (fst s) /\ dname d = n /\ In p (dprocs d);
  si_nd : forall d, In d (fst s) -> NoDup (dprocs d) }.

Lemma has_name_spec s n : has_name s n = true <-> exists d, In d (fst s) /\ dname d = n.
Proof.
  unfold has_name. rewrite existsb_exists. split; intros [d [H E]]; exists d; split; auto.
  - apply name_eqb_eq in E. auto.
  - apply name_eqb_eq. auto.
Qed.

Lemma map_custom_ok d : forall ps m m', map_custom proto_of isinst d ps m = Some m' -> NoDup (map fst m) ->
  m' = m ++ map (fun p => (p, dname d)) ps /\ NoDup (map fst m') /\ NoDup ps /\ (forall p, In p ps -> ~ In p (map fst m)) /\
  forall p, In p ps -> isinst (dproto d) (proto_of p) = true.
Proof.
  induction ps as [|p ps IH]; simpl; intros m m' H HN.
  - injection H as <-. rewrite app_nil_r. repeat split; auto; try constructor; intros p [].
  - destruct (isinst (dproto d) (proto_of p)) eqn:Ei; simpl in H; [|discriminate].
    destruct (mem p (map fst m)) eqn:Em; [discriminate|]. apply mem_false in Em.
    destruct (IH _ _ H) as [A [B [C [D F]]]].
    { rewrite map_app. simpl. apply nd_snoc; auto. }
    rewrite <- app_assoc in A. split; auto. split; auto.
    split; [constructor; auto; intro Hp; apply (D p Hp); rewrite map_app; apply in_app_iff; right; left; auto|].
    split.
    + intros q [<-|Hq]; auto. intro Hm. apply (D q Hq). rewrite map_app. apply in_app_iff; auto.
    + intros q [<-|Hq]; auto.
Qed.

Lemma add_custom_inv s d s' : add_custom proto_of isinst (Some s) d = Some s' -> sinv s ->
  sinv s' /\ fst s' = fst s ++ [d] /\ forall p, In p (dprocs d) -> isinst (dproto d) (proto_of p) = true.
Proof.
  simpl. destruct (has_name s (dname d)) eqn:E; [discriminate|].
  destruct (map_custom proto_of isinst d (dprocs d) (snd s)) as [m|] eqn:M; [|discriminate].
  intros H I. injection H as <-. destruct (map_custom_ok _ _ _ _ M (si_keys _ I)) as [A [B [C [D F]]]].
  split; [|split; auto]. assert (forall d', In d' (fst s) -> dname d' <> dname d) as Hn.
  { intros d' Hd' En. assert (has_name s (dname d) = true) by (apply has_name_spec; eauto). congruence. }
  constructor; simpl; auto.
  - rewrite map_app. simpl. apply nd_snoc; [apply I|]. rewrite in_map_iff. intros [d' [E1 E2]]. eapply Hn; eauto.
  - intros p n. rewrite A, in_app_iff, (si_map _ I), in_map_iff. split.
    + intros [[d' [H1 [H2 H3]]]|[q [E1 E2]]].
      * exists d'. rewrite in_app_iff. auto.
      * injection E1 as <- <-. exists d. rewrite in_app_iff. simpl. auto.
    + intros [d' [H1 [H2 H3]]]. apply in_app_iff in H1. destruct H1 as [H1|[<-|[]]]; [left; eauto|].
      right. exists p. subst n. auto.
  - intros d' Hd'. apply in_app_iff in Hd'. destruct Hd' as [Hd'|[<-|[]]]; auto. apply I; auto.
Qed.

(** every domain is compatible with the protocols of its processes *)
Definition compat (s : state) : Prop := forall d p, In d (fst s) -> In p (dprocs d) -> isinst (dproto d) (proto_of p) = true.
(** a domain that carries a default name was made by the compiler for that protocol *)
Definition defaults_ok (s : state) : Prop := forall d, In d (fst s) -> forall p, dname d = default_name proto_of is_py pname p -> dproto d = proto_of p.

Lemma customs_inv : forall custom s s', fold_left (add_custom proto_of isinst) custom (Some s) = Some s' -> sinv s ->
  sinv s' /\ fst s' = fst s ++ custom /\ (compat s -> compat s').
Proof.
  induction custom as [|d custom IH]; intros s s' H I; cbn [fold_left] in H.
  - injection H as <-. rewrite app_nil_r. auto.
  - destruct (add_custom proto_of isinst (Some s) d) as [s1|] eqn:E.
    + destruct (add_custom_inv _ _ _ E I) as [A [B C]]. destruct (IH _ _ H A) as [D [F G]].
      split; auto. rewrite F, B, <- app_assoc. split; auto. intro HC. apply G. intros d' p Hd Hp. rewrite B in Hd.
      apply in_app_iff in Hd. destruct Hd as [Hd|[<-|[]]]; [eapply HC; eauto|auto].
    + exfalso. clear - H. induction custom; simpl in H; [discriminate|auto].
Qed.

Lemma add_process_in n p ds d : In d (add_process n p ds) <->
  exists d0, In d0 ds /\ d = (if name_eqb n (dname d0) then {| dname := dname d0; dproto := dproto d0; dprocs := dprocs d0 ++ [p] |} else d0).
Proof. unfold add_process. rewrite in_map_iff. split; intros [d0 [A B]]; exists d0; auto. Qed.

Notation add_default' := (add_default proto_of is_py pname).
Notation default_name' := (default_name proto_of is_py pname).

Lemma add_default_inv s p : sinv s -> sinv (add_default' s p) /\ mapped (add_default' s p) p = true /\
  (forall q, mapped s q = true -> mapped (add_default' s p) q = true).
Proof.
  intro I. unfold add_default. destruct (mapped s p) eqn:Em; [auto|].
  unfold mapped in Em. apply mem_false in Em.
  assert (forall n, ~ In (p, n) (snd s)) as Hp by (intros n H; apply Em; apply in_map_iff; exists (p, n); auto).
  assert (forall l : list domain, mapped (l, snd s ++ [(p, default_name' p)]) p = true /\
     (forall q, mapped s q = true -> mapped (l, snd s ++ [(p, default_name' p)]) q = true)) as HM.
  { intro l. unfold mapped. simpl. rewrite map_app. simpl. split.
    - apply mem_spec. apply in_app_iff. right; left; auto.
    - intros q Hq. apply mem_spec. apply mem_spec in Hq. apply in_app_iff; auto. }
  destruct (has_name s (default_name' p)) eqn:E; (split; [|apply HM]).
  - apply has_name_spec in E. destruct E as [d0 [E1 E2]]. set (n := default_name' p) in *.
    assert (forall d, In d (fst s) -> dname d = n -> d = d0) as Uq.
    { pose proof (si_names _ I) as ND. clear - ND E1 E2. induction (fst s) as [|a l IH]; [destruct E1|].
      simpl in ND. inversion ND; subst. intros d Hd Hn. destruct E1 as [->|E1], Hd as [->|Hd]; auto.
      - exfalso. apply H1. apply in_map_iff. exists d; split; [congruence|auto].
      - exfalso. apply H1. apply in_map_iff. exists d0; split; [congruence|auto]. }
    constructor; simpl.
    + replace (map dname (add_process n p (fst s))) with (map dname (fst s)); [apply I|].
      unfold add_process. rewrite map_map. apply map_ext. intro d. destruct (name_eqb n (dname d)); auto.
    + rewrite map_app. simpl. apply nd_snoc; [apply I|auto].
    + intros q m. rewrite in_app_iff, (si_map _ I). simpl. split.
      * intros [[d [H1 [H2 H3]]]|[H|[]]].
        -- eexists. split; [apply add_process_in; exists d; split; [exact H1|reflexivity]|].
           destruct (name_eqb n (dname d)); simpl; rewrite ?in_app_iff; auto.
        -- injection H as <- <-. eexists. split; [apply add_process_in; exists d0; split; [exact E1|reflexivity]|].
           assert (name_eqb n (dname d0) = true) as -> by (apply name_eqb_eq; auto). simpl. rewrite in_app_iff. simpl. auto.
      * intros [d [H1 [H2 H3]]]. apply add_process_in in H1. destruct H1 as [d1 [H1 ->]].
        destruct (name_eqb n (dname d1)) eqn:En; cbn [dname dproto dprocs] in *; [|left; eauto].
        apply name_eqb_eq in En. apply in_app_iff in H3. destruct H3 as [H3|[<-|[]]]; [left; eauto|]. right; left. congruence.
    + intros d Hd. apply add_process_in in Hd. destruct Hd as [d1 [H1 ->]].
      destruct (name_eqb n (dname d1)) eqn:En; [|apply I; auto]. simpl. apply nd_snoc; [apply I; auto|].
      intro Hin. apply (Hp (dname d1)). apply (si_map _ I). eauto.
  - assert (forall d, In d (fst s) -> dname d <> default_name' p) as Hn.
    { intros d Hd En. assert (has_name s (default_name' p) = true) by (apply has_name_spec; eauto). congruence. }
    constructor; simpl.
    + rewrite map_app. simpl. apply nd_snoc; [apply I|]. rewrite in_map_iff. intros [d [E1 E2]]. eapply Hn; eauto.
    + rewrite map_app. simpl. apply nd_snoc; [apply I|auto].
    + intros q m. rewrite in_app_iff, (si_map _ I). simpl. split.
      * intros [[d [H1 H2]]|[H|[]]]; [exists d; rewrite in_app_iff; auto|]. injection H as <- <-.
        eexists. rewrite in_app_iff. split; [right; left; reflexivity|]. simpl. auto.
      * intros [d [H1 [H2 H3]]]. apply in_app_iff in H1. destruct H1 as [H1|[<-|[]]]; [left; eauto|].
        simpl in *. destruct H3 as [<-|[]]. right; left. congruence.
    + intros d Hd. apply in_app_iff in Hd. destruct Hd as [Hd|[<-|[]]]; [apply I; auto|]. simpl. repeat constructor; auto.
Qed.

Lemma add_default_compat s p : defaults_ok s -> (forall q r, pname (proto_of q) = pname (proto_of r) -> proto_of q = proto_of r) ->
  compat s -> compat (add_default' s p) /\ defaults_ok (add_default' s p).
Proof.
  intros HD Hp HC. unfold add_default. destruct (mapped s p); auto.
  destruct (has_name s (default_name' p)) eqn:E.
  - split.
    + intros d q Hd Hq. simpl in Hd. apply add_process_in in Hd. destruct Hd as [d1 [H1 ->]].
      destruct (name_eqb (default_name' p) (dname d1)) eqn:En; [|eapply HC; eauto]. apply name_eqb_eq in En. cbn [dname dproto dprocs] in *.
      apply in_app_iff in Hq. destruct Hq as [Hq|[<-|[]]]; [eapply HC; eauto|].
      rewrite (HD d1 H1 p) by auto. apply isinst_refl.
    + intros d Hd q Hq. simpl in Hd. apply add_process_in in Hd. destruct Hd as [d1 [H1 ->]].
      destruct (name_eqb (default_name' p) (dname d1)); simpl in *; eauto.
  - split.
    + intros d q Hd Hq. simpl in Hd. apply in_app_iff in Hd. destruct Hd as [Hd|[<-|[]]]; [eapply HC; eauto|].
      simpl in *. destruct Hq as [<-|[]]. apply isinst_refl.
    + intros d Hd q Hq. simpl in Hd. apply in_app_iff in Hd. destruct Hd as [Hd|[<-|[]]]; [eauto|]. simpl in *.
      unfold default_name in Hq. injection Hq as Hq _. auto.
Qed.

Lemma defaults_fold : forall procs s, sinv s -> sinv (fold_left add_default' procs s) /\
  (forall p, In p procs -> mapped (fold_left add_default' procs s) p = true) /\
  (forall p, mapped s p = true -> mapped (fold_left add_default' procs s) p = true).
Proof.
  induction procs as [|p procs IH]; intros s I; simpl; [repeat split; auto; try apply I; intros p []|].
  destruct (add_default_inv s p I) as [A [B C]]. destruct (IH _ A) as [D [F G]]. split; auto. split; auto.
  intros q [<-|Hq]; auto.
Qed.

(** ** Every process is in exactly one domain, once. *)
Theorem sync_domain_unique : forall custom procs ds m,
  create_sync_domains proto_of is_py pname isinst custom procs = Some (ds, m) ->
  NoDup (map dname ds) /\
  (forall p, In p procs -> exists d, in_domain ds p d) /\
  (forall p d d', in_domain ds p d -> in_domain ds p d' -> d = d') /\
  (forall d, In d ds -> NoDup (dprocs d)) /\
  (forall p d, in_domain ds p d -> lookup m p = Some (dname d)).
Proof.
  intros custom procs ds m H. unfold create_sync_domains in H.
  destruct (fold_left (add_custom proto_of isinst) custom (Some ([], []))) as [s|] eqn:E; [|discriminate].
  injection H as H.
  assert (sinv ([], [])) as I0.
  { constructor; simpl; try constructor; try tauto; try (intros [d [[] _]]). }
  destruct (customs_inv _ _ _ E I0) as [I1 _]. destruct (defaults_fold procs s I1) as [I2 [B _]].
  rewrite H in *.
  assert (forall p d, in_domain ds p d -> In (p, dname d) m) as Hm.
  { intros p d [H1 H2]. apply (si_map _ I2). eauto. }
  assert (forall p n n', In (p, n) m -> In (p, n') m -> n = n') as Hf.
  { pose proof (si_keys _ I2) as K. simpl in K. clear - K. induction m as [|[a b] m IH]; [intros p n n' []|].
    simpl in K. inversion K; subst. intros p n n' [X|X] [Y|Y].
    - congruence.
    - injection X as -> ->. exfalso. apply H1. apply in_map_iff. exists (p, n'). auto.
    - injection Y as -> ->. exfalso. apply H1. apply in_map_iff. exists (p, n). auto.
    - eauto. }
  split; [apply I2|]. split; [|split; [|split; [apply I2|]]].
  - intros p Hp. specialize (B p Hp). unfold mapped in B. apply mem_spec, in_map_iff in B. simpl in B.
    destruct B as [[q n] [E1 E2]]. simpl in E1. subst q. apply (si_map _ I2) in E2. destruct E2 as [d [D1 [D2 D3]]].
    exists d. split; auto.
  - intros p d d' H1 H2. pose proof (Hf _ _ _ (Hm _ _ H1) (Hm _ _ H2)) as En.
    pose proof (si_names _ I2) as ND. simpl in ND. destruct H1 as [H1 _], H2 as [H2 _]. clear - ND H1 H2 En.
    induction ds as [|a l IH]; [destruct H1|]. simpl in ND. inversion ND; subst.
    destruct H1 as [->|H1], H2 as [->|H2]; auto.
    + exfalso. apply H3. apply in_map_iff. exists d'; split; auto.
    + exfalso. apply H3. apply in_map_iff. exists d; split; auto.
  - intros p d Hd. specialize (Hm _ _ Hd). clear - Hm Hf. induction m as [|[a b] m IH]; [destruct Hm|]. simpl.
    destruct (a =? p) eqn:Ea.
    + apply Nat.eqb_eq in Ea. subst a. f_equal. apply (Hf p); [left; auto|auto].
    + apply IH; [destruct Hm as [Hm|]; auto; injection Hm as -> ->; rewrite Nat.eqb_refl in Ea; discriminate|].
      intros q n n' X Y. apply (Hf q); right; auto.
Qed.

(** ** and its protocol is compatible, unless the user gave a custom domain a default name *)
Theorem sync_domain_compatible_partial : forall custom procs ds m,
  create_sync_domains proto_of is_py pname isinst custom procs = Some (ds, m) ->
  (forall d s h, In d custom -> dname d <> Default s h) ->
  (forall q r, pname (proto_of q) = pname (proto_of r) -> proto_of q = proto_of r) ->
  forall p d, in_domain ds p d -> isinst (dproto d) (proto_of p) = true.
Proof.
  intros custom procs ds m H Hcust Hpn p d [Hd Hp]. unfold create_sync_domains in H.
  destruct (fold_left (add_custom proto_of isinst) custom (Some ([], []))) as [s|] eqn:E; [|discriminate].
  injection H as H.
  assert (sinv ([], [])) as I0.
  { constructor; simpl; try constructor; try tauto; try (intros [d' [[] _]]). }
  destruct (customs_inv _ _ _ E I0) as [I1 [E1 C1]].
  assert (compat s) as HC by (apply C1; intros d' p' []).
  assert (defaults_ok s) as HD.
  { intros d' Hd' q Hq. rewrite E1 in Hd'. simpl in Hd'. exfalso. eapply Hcust; eauto. }
  assert (forall procs s, compat s -> defaults_ok s -> compat (fold_left add_default' procs s)) as G.
  { clear - Hpn isinst_refl. induction procs as [|q procs IH]; intros s HC HD; simpl; auto.
    destruct (add_default_compat s q HD Hpn HC). auto. }
  specialize (G procs s HC HD). rewrite H in G. eapply G; eauto.
Qed.

(** ** Runtime services *)
Lemma get_service_add ds : forall l s, let '(i, b, m) := s in let '(i', b', m') := fold_left (add_service ds) l s in
  NoDup l -> i <= i' /\
  (forall n, In n l -> exists k, i <= k < i' /\ get_service b' n = Some k) /\
  (forall n, ~ In n l -> get_service b' n = get_service b n) /\
  (forall n n' k, In n l -> In n' l -> get_service b' n = Some k -> get_service b' n' = Some k -> n = n').
Proof.
  induction l as [|n l IH]; intros [[i b] m]; simpl.
  - intros _. repeat split; auto. intros n []. intros n n' k [].
  - specialize (IH (S i, (n, i) :: b, map (fun p => (p, i)) (procs_of ds n) ++ m)). simpl in IH.
    destruct (fold_left (add_service ds) l _) as [[i' b'] m'] eqn:F. intro ND. inversion ND; subst.
    destruct (IH H2) as [A [B [C D]]]. split; [lia|].
    assert (get_service b' n = Some i) as Hn.
    { rewrite C by auto. simpl. assert (name_eqb n n = true) as -> by (apply name_eqb_eq; auto). auto. }
    split; [|split].
    + intros x [<-|Hx]; [exists i; split; [lia|auto]|]. destruct (B x Hx) as [k [K1 K2]]. exists k. split; [lia|auto].
    + intros x Hx. rewrite C by (intro; apply Hx; right; auto). simpl.
      destruct (name_eqb x n) eqn:En; auto. apply name_eqb_eq in En. exfalso. apply Hx. left; auto.
    + intros x y k [<-|Hx] [<-|Hy] K1 K2; auto.
      * rewrite Hn in K1. injection K1 as <-. destruct (B y Hy) as [k [K3 K4]]. rewrite K4 in K2. injection K2 as ->. lia.
      * rewrite Hn in K2. injection K2 as <-. destruct (B x Hx) as [k [K3 K4]]. rewrite K4 in K1. injection K1 as ->. lia.
      * eapply D; eauto.
Qed.

Record rinv (ds : list domain) (seen : list name) (s : rs_state) : Prop := {
  ri_def : forall n, In n seen -> exists k, get_service (snd (fst s)) n = Some k;
  ri_undef : forall n, ~ In n seen -> get_service (snd (fst s)) n = None;
  ri_lt : forall n k, get_service (snd (fst s)) n = Some k -> k < fst (fst s);
  ri_inj : forall n n' k, get_service (snd (fst s)) n = Some k -> get_service (snd (fst s)) n' = Some k -> n = n';
  ri_map : forall p n, In n seen -> In p (procs_of ds n) -> get_id (snd s) p = get_service (snd (fst s)) n }.

Lemma get_id_app a m p i : get_id (map (fun q => (q, i)) a ++ m) p = if mem p a then Some i else get_id m p.
Proof.
  induction a as [|q a IH]; simpl; auto. rewrite (Nat.eqb_sym p q). destruct (q =? p); simpl; auto.
Qed.

Lemma add_service_inv ds seen s n :
  (forall p n n', In p (procs_of ds n) -> In p (procs_of ds n') -> n = n') ->
  rinv ds seen s -> rinv ds (seen ++ [n]) (add_service ds s n).
Proof.
  intros Hu I. destruct s as [[i b] m]. destruct I as [A B C D F]. simpl in *.
  constructor; simpl.
  - intros x Hx. destruct (name_eqb x n) eqn:E; eauto. apply A. apply in_app_iff in Hx. destruct Hx as [|[->|[]]]; auto.
    assert (name_eqb x x = true) by (apply name_eqb_eq; auto). congruence.
  - intros x Hx. destruct (name_eqb x n) eqn:E.
    + apply name_eqb_eq in E. exfalso. apply Hx. apply in_app_iff. right; left; auto.
    + apply B. intro. apply Hx. apply in_app_iff; auto.
  - intros x k H. destruct (name_eqb x n); [injection H as <-; lia|]. apply C in H. lia.
  - intros x y k H1 H2. destruct (name_eqb x n) eqn:E1, (name_eqb y n) eqn:E2; eauto.
    + apply name_eqb_eq in E1, E2. congruence.
    + injection H1 as <-. apply C in H2. lia.
    + injection H2 as <-. apply C in H1. lia.
  - intros p x Hx Hp. rewrite get_id_app. destruct (mem p (procs_of ds n)) eqn:M.
    + apply mem_spec in M. rewrite (Hu p x n Hp M). assert (name_eqb n n = true) as -> by (apply name_eqb_eq; auto). auto.
    + apply mem_false in M. destruct (name_eqb x n) eqn:E; [apply name_eqb_eq in E; subst; contradiction|].
      apply F; auto. apply in_app_iff in Hx. destruct Hx as [|[<-|[]]]; auto. contradiction.
Qed.

Lemma dedup_in l n : In n (dedup l) <-> In n l.
Proof.
  unfold dedup. assert (forall l acc, In n (fold_left (fun acc n => if existsb (name_eqb n) acc then acc else acc ++ [n]) l acc) <-> In n acc \/ In n l) as G.
  { clear l. induction l as [|x l IH]; simpl; intro acc; [tauto|]. rewrite IH.
    destruct (existsb (name_eqb x) acc) eqn:E; [|rewrite in_app_iff; simpl; tauto].
    split; [tauto|]. intros [|[<-|]]; auto. left. apply existsb_exists in E. destruct E as [y [Hy E]].
    apply name_eqb_eq in E. subst; auto. }
  rewrite G. simpl. tauto.
Qed.

(** Each process of each node is served by exactly one runtime service, the one registered for its
    domain; processes of different domains have different services. *)
Theorem runtime_service_unique : forall setorder custom procs ds m nodes per_node,
  (forall l n, In n (setorder l) <-> In n l) ->
  create_sync_domains proto_of is_py pname isinst custom procs = Some (ds, m) ->
  incl (concat nodes) procs ->
  Forall2 (fun ps l => node_domains m ps = Some l) nodes per_node ->
  let '(_, builders, ids) := create_services setorder ds per_node in
  (forall p, In p (concat nodes) -> exists d k, in_domain ds p d /\ get_id ids p = Some k /\ get_service builders (dname d) = Some k) /\
  (forall p q d d' k, In p (concat nodes) -> In q (concat nodes) -> in_domain ds p d -> in_domain ds q d' ->
     get_id ids p = Some k -> get_id ids q = Some k -> d = d').
Proof.
  intros so custom procs ds m nodes per_node Hso H Hi Hf.
  destruct (sync_domain_unique _ _ _ _ H) as [U1 [U2 [U3 [U4 U5]]]].
  assert (forall p n, In p (procs_of ds n) <-> exists d, in_domain ds p d /\ dname d = n) as Hpo.
  { intros p n. unfold procs_of. rewrite in_flat_map. split.
    - intros [d [H1 H2]]. destruct (name_eqb n (dname d)) eqn:E; [|destruct H2]. apply name_eqb_eq in E.
      exists d. split; [split; auto|auto].
    - intros [d [[H1 H2] <-]]. exists d. split; auto. assert (name_eqb (dname d) (dname d) = true) as -> by (apply name_eqb_eq; auto). auto. }
  assert (forall p n n', In p (procs_of ds n) -> In p (procs_of ds n') -> n = n') as Hu.
  { intros p n n' H1 H2. apply Hpo in H1. apply Hpo in H2. destruct H1 as [d [D1 <-]], H2 as [d' [D2 <-]].
    rewrite (U3 p d d'); auto. }
  assert (forall l seen s, rinv ds seen s -> rinv ds (seen ++ l) (fold_left (add_service ds) l s)) as G1.
  { induction l as [|n l IH]; intros seen s I; [rewrite app_nil_r; auto|]. simpl.
    replace (seen ++ n :: l) with ((seen ++ [n]) ++ l) by (rewrite <- app_assoc; auto). apply IH. apply add_service_inv; auto. }
  assert (forall ls seen s, rinv ds seen s -> exists seen', (forall n, In n seen' <-> In n seen \/ In n (concat ls)) /\
     rinv ds seen' (fold_left (fun s l => fold_left (add_service ds) (so (dedup l)) s) ls s)) as G2.
  { induction ls as [|l ls IH]; intros seen s I; simpl; [exists seen; split; [tauto|auto]|].
    destruct (IH _ _ (G1 (so (dedup l)) seen s I)) as [seen' [A B]]. exists seen'. split; auto.
    intro n. rewrite A, !in_app_iff, Hso, dedup_in. tauto. }
  assert (rinv ds [] (0, [], [])) as R0.
  { constructor; simpl; auto; try tauto; try discriminate. }
  destruct (G2 per_node [] _ R0) as [seen [S1 S2]]. fold (create_services so ds per_node) in S2.
  destruct (create_services so ds per_node) as [[i b] ids] eqn:EF.
  assert (forall p, In p (concat nodes) -> exists d, in_domain ds p d /\ In (dname d) seen) as Hs.
  { intros p Hp. destruct (U2 p (Hi p Hp)) as [d Hd]. exists d. split; auto. apply S1. right.
    apply in_concat in Hp. destruct Hp as [ps [Hps Hp]].
    assert (exists l, In l per_node /\ node_domains m ps = Some l) as [l [Hl El]].
    { clear - Hf Hps. induction Hf; [destruct Hps|]. destruct Hps as [->|Hps]; [exists y; simpl; auto|].
      destruct (IHHf Hps) as [l0 [A B]]. exists l0. simpl; auto. }
    apply in_concat. exists l. split; auto. specialize (U5 p d Hd). clear - Hp El U5. revert l El.
    induction ps as [|q ps IH]; intros l El; [destruct Hp|]. simpl in El.
    destruct (lookup m q) as [n|] eqn:E1; [|discriminate]. destruct (node_domains m ps) as [l'|]; [|discriminate]. injection El as <-.
    destruct Hp as [->|Hp]; [left; congruence|right; apply IH; auto]. }
  split.
  - intros p Hp. destruct (Hs p Hp) as [d [D1 D2]]. destruct (ri_def _ _ _ S2 _ D2) as [k K]. exists d, k. split; auto.
    simpl in K. split; auto. rewrite <- K. apply (ri_map _ _ _ S2 p (dname d) D2). apply Hpo. eauto.
  - intros p q d d' k Hp Hq Hd Hd' K1 K2. destruct (Hs p Hp) as [d1 [D1 D2]]. destruct (Hs q Hq) as [d2 [D3 D4]].
    rewrite (U3 p d d1 Hd D1), (U3 q d' d2 Hd' D3) in *.
    assert (In p (procs_of ds (dname d1))) as P1 by (apply Hpo; eauto).
    assert (In q (procs_of ds (dname d2))) as P2 by (apply Hpo; eauto).
    pose proof (ri_map _ _ _ S2 p _ D2 P1) as M1. pose proof (ri_map _ _ _ S2 q _ D4 P2) as M2. simpl in M1, M2.
    rewrite K1 in M1. rewrite K2 in M2.
    assert (dname d1 = dname d2) as En by (eapply (ri_inj _ _ _ S2); simpl; eauto).
    destruct D1 as [D1 _], D3 as [D3 _]. clear - U1 D1 D3 En.
    induction ds as [|a l IH]; [destruct D1|]. simpl in U1. inversion U1; subst.
    destruct D1 as [->|D1], D3 as [->|D3]; auto.
    + exfalso. apply H1. apply in_map_iff. exists d2; split; auto.
    + exfalso. apply H1. apply in_map_iff. exists d1; split; auto.
Qed.
End Props.

(** A custom domain that carries a default name receives processes whose protocol it does not implement. *)
Theorem sync_domain_name_clash_refuted : exists custom procs ds m d p,
  create_sync_domains (fun p => p) (fun _ => true) (fun c => c) Nat.eqb custom procs = Some (ds, m) /\
  in_domain ds p d /\ Nat.eqb (dproto d) p = false.
Proof.
  exists [{| dname := Default 1 false; dproto := 2; dprocs := [2] |}], [1; 2].
  eexists _, _, {| dname := Default 1 false; dproto := 2; dprocs := [2; 1] |}, 1.
  split; [reflexivity|]. split; [split; simpl; auto|]. reflexivity.
Qed.

(** instance: a custom domain, two default domains, two nodes *)
Example sync_demo : exists ds m,
  create_sync_domains (fun p => p / 10) (fun p => p <? 30) (fun c => c) Nat.eqb
    [{| dname := Plain 7; dproto := 1; dprocs := [11] |}] [11; 12; 21; 13; 31] = Some (ds, m) /\
  map dprocs ds = [[11]; [12; 13]; [21]; [31]] /\ map dproto ds = [1; 1; 2; 3] /\
  node_domains m [31] = Some [Default 3 true].
Proof. eexists _, _. split; [reflexivity|]. repeat split. Qed.

Print Assumptions runtime_service_unique.
Print Assumptions sync_domain_compatible_partial.
