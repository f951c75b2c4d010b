(** C98: invariants *)
From Coq Require Import List Arith ZArith Bool Relations Lia.
From Verif Require Import RefPhase_Model RefPhase_Spec.
Import ListNotations.

Lemma upd_eq {A} (f : nat -> A) i x : upd f i x i = x.
Proof. unfold upd. rewrite Nat.eqb_refl. reflexivity. Qed.
Lemma upd_ne {A} (f : nat -> A) i x j : j <> i -> upd f i x j = f j.
Proof. unfold upd. destruct (Nat.eqb_spec j i); congruence. Qed.
Ltac updc j i := destruct (Nat.eq_dec j i) as [-> | ]; [rewrite ?upd_eq in *|rewrite ?upd_ne in * by assumption].

(** ** Commands *)
Definition works_in (f : phase) : Prop := f = Spk \/ f = Pre \/ f = Lrn \/ f = Post.
Definition shape (s : state) (p : nat) : Prop :=
  (cmds s p = [] /\ cur s p = svc s /\ (pst s p = Poll -> needs_answer (fst (svc s)) = true -> answered s p = true) /\
     (pst s p <> Poll -> answered s p = false /\ works_in (fst (svc s)))) \/
  (cmds s p = [svc s] /\ pst s p = Poll /\ answered s p = false /\ follows (fst (cur s p)) (fst (svc s))) \/
  (exists t0, cmds s p = [(Host, t0); svc s] /\ svc s = (Spk, S t0) /\ pst s p = Poll /\ answered s p = false /\ follows (fst (cur s p)) Host).
Definition shapes (N : net) (s : state) : Prop := (forall p, p < n N -> shape s p) /\ (forall p, n N <= p -> pst s p = Poll).

Lemma follows_works f g : follows f g -> g <> Host -> works_in g.
Proof. unfold works_in. destruct 1; auto; congruence. Qed.
Lemma active N s p : shapes N s -> pst s p <> Poll -> p < n N /\ cmds s p = [] /\ cur s p = svc s /\ answered s p = false /\ works_in (fst (svc s)).
Proof.
  intros [A B] H. assert (p < n N) as L by (destruct (le_lt_dec (n N) p); [elim H; auto|assumption]). split; [exact L|].
  destruct (A p L) as [(C & D & _ & E)|[(_ & D & _)|(t0 & _ & _ & D & _)]]; [|contradiction|contradiction].
  destruct (E H). auto.
Qed.
(** a step of the code of process p that stays active *)
Lemma shapes_code N s p q s' : shapes N s -> pst s p <> Poll -> q <> Poll ->
  svc s' = svc s -> cmds s' = cmds s -> answered s' = answered s -> cur s' = cur s -> pst s' = upd (pst s) p q -> shapes N s'.
Proof.
  intros I H Hq E1 E2 E3 E4 E5. destruct (active N s p I H) as (L & C1 & C2 & C3 & C4). destruct I as [A B]. split.
  - intros j Lj. unfold shape. rewrite E1, E2, E3, E4, E5. updc j p.
    + left. split; [exact C1|]. split; [exact C2|]. split; [contradiction|auto].
    + apply A. exact Lj.
  - intros j Lj. rewrite E5. updc j p; [lia|]. apply B. exact Lj.
Qed.
Lemma shapes_same N s s' : shapes N s ->
  svc s' = svc s -> cmds s' = cmds s -> answered s' = answered s -> cur s' = cur s -> pst s' = pst s -> shapes N s'.
Proof. intros [A B] E1 E2 E3 E4 E5. split; intros j Lj; [unfold shape; rewrite E1, E2, E3, E4, E5; apply A|rewrite E5; apply B]; exact Lj. Qed.
Lemma shapes_step b N s l s' : shapes N s -> step b N s l s' -> shapes N s'.
Proof.
  intros I H. inversion H; subst; clear H;
    try (apply (shapes_same N s); [exact I|reflexivity|reflexivity|reflexivity|reflexivity|reflexivity]);
    try (eapply (shapes_code N s); [exact I| | |reflexivity|reflexivity|reflexivity|reflexivity|reflexivity]; [congruence|discriminate]).
  - (* next *) destruct I as [A B]. split; [|intros p L; apply B; exact L]. intros p L. unfold shape. cbn [cmds svc cur pst answered fst snd].
    destruct (Nat.ltb_spec p (n N)); [|lia]. right. destruct (A p L) as [(C1 & C2 & C3 & C4)|[(C1 & C2 & C3 & C4)|(t0 & C1 & C2 & C3 & C4 & C5)]].
    + left. rewrite C1. split; [reflexivity|]. split; [|split; [reflexivity|rewrite C2; assumption]].
      destruct (pst s p) as [| |] eqn:E; [reflexivity| |]; (destruct (C4 ltac:(discriminate)) as [C5 C6];
        destruct C6 as [C6|[C6|[C6|C6]]]; rewrite C6 in *; rewrite (H1 eq_refl p L) in C5; discriminate).
    + right. destruct (fst (svc s)) eqn:E; try (rewrite (H1 eq_refl p L) in C3; discriminate).
      exists (snd (svc s)). inversion H0; subst. rewrite C1. cbn [step_of app]. split; [rewrite <- E, <- surjective_pairing; reflexivity|].
      split; [reflexivity|]. auto.
    + rewrite C2 in H1. cbn in H1. rewrite (H1 eq_refl p L) in C4. discriminate.
  - (* cmd *) destruct I as [A B]. split.
    + intros j Lj. unfold shape. cbn [cmds svc cur pst answered]. updc j p; [|apply A; exact Lj].
      destruct (A p Lj) as [(C1 & C2 & C3 & C4)|[(C1 & C2 & C3 & C4)|(t0 & C1 & C2 & C3 & C4 & C5)]]; [congruence| |].
      * rewrite C1 in H2. injection H2 as E <-. left. split; [reflexivity|]. split; [congruence|]. rewrite E. cbn [fst]. split.
        -- intros P Q. destruct f; discriminate.
        -- intros P. split; [exact C3|]. rewrite E in C4. cbn [fst] in C4. apply (follows_works _ _ C4). intros ->. apply P. reflexivity.
      * rewrite C1 in H2. injection H2 as <- <- <-. right. left. rewrite C2. cbn [fst]. split; [reflexivity|]. split; [reflexivity|]. split; [exact C4|constructor].
    + intros j Lj. cbn [pst]. updc j p; [lia|]. apply B. exact Lj.
  - (* end *) destruct (active N s p I ltac:(congruence)) as (L & C1 & C2 & C3 & C4). destruct I as [A B]. split.
    + intros j Lj. unfold shape. cbn [cmds svc cur pst answered]. updc j p; [|apply A; exact Lj].
      left. split; [exact C1|]. split; [exact C2|]. split; [auto|]. intros P. elim P. reflexivity.
    + intros j Lj. cbn [pst]. updc j p; [reflexivity|]. apply B. exact Lj.
Qed.
Lemma shapes_exec b N tr s : exec b N tr s -> shapes N s.
Proof.
  induction 1; [|eapply shapes_step; eauto]. split; [|reflexivity]. intros p L. left. cbn. auto.
  split; [reflexivity|]. split; [reflexivity|]. split; [reflexivity|]. intros P. elim P. reflexivity.
Qed.

(** ** Code *)
Definition code_ok (N : net) (p : nat) (c : code) : Prop :=
  (forall r, accesses c r -> user N r = p /\ owner N r < n N) /\ (forall v, touches c v -> home N v = p).
Definition codes (N : net) (s : state) : Prop := forall p,
  match pst s p with Poll => True | Running c => code_ok N p c | Waiting r k => user N r = p /\ owner N r < n N /\ forall z, code_ok N p (k z) end.
Lemma codes_upd N s p q s' : codes N s -> pst s' = upd (pst s) p q ->
  match q with Poll => True | Running c => code_ok N p c | Waiting r k => user N r = p /\ owner N r < n N /\ forall z, code_ok N p (k z) end -> codes N s'.
Proof. intros I E H j. rewrite E. updc j p; [exact H|apply I]. Qed.
Lemma codes_step b N s l s' : well_built N -> codes N s -> step b N s l s' -> codes N s'.
Proof.
  intros (_ & W1 & W2) I H. inversion H; subst; clear H; try (intros j; apply I);
    match goal with P : pst s ?p = _ |- _ => pose proof (I p) as C; rewrite P in C end;
    try (eapply codes_upd; [exact I|reflexivity|]).
  - destruct f; [split; [apply W1|apply W2]..|exact Logic.I].
  - destruct C as [C1 C2]. split; intros x X; [apply C1; econstructor; eauto|apply C2; econstructor; eauto].
  - destruct C as [C1 C2]. split; intros y X; [apply C1; econstructor; eauto|apply C2; econstructor; eauto].
  - destruct C as [C1 C2]. destruct (C1 r (a_here1 r k)). split; [assumption|]. split; [assumption|].
    intros z. split; intros y X; [apply C1; econstructor; eauto|apply C2; econstructor; eauto].
  - destruct C as [C1 C2]. split; intros y X; [apply C1; econstructor; eauto|apply C2; econstructor; eauto].
  - apply C.
  - exact Logic.I.
Qed.
Lemma codes_exec b N tr s : well_built N -> exec b N tr s -> codes N s.
Proof. intros W. induction 1; [intros p; exact I|eapply codes_step; eauto]. Qed.

(** ** Requests and replies *)
Lemma made_snoc r tr l : made r (tr ++ [l]) = made r tr ++ made r [l].
Proof. unfold made. rewrite flat_map_app. reflexivity. Qed.
Lemma served_snoc r tr l : served r (tr ++ [l]) = served r tr ++ served r [l].
Proof. unfold served. rewrite flat_map_app. reflexivity. Qed.
Lemma sent_snoc r tr l : sent_back r (tr ++ [l]) = sent_back r tr ++ sent_back r [l].
Proof. unfold sent_back. rewrite flat_map_app. reflexivity. Qed.
Lemma ret_snoc r tr l : returned r (tr ++ [l]) = returned r tr ++ returned r [l].
Proof. unfold returned. rewrite flat_map_app. reflexivity. Qed.
Lemma requests_in_order b N tr s : exec b N tr s -> forall r, made r tr = served r tr ++ seen s r ++ fly s r.
Proof.
  induction 1 as [|tr s l s' E IH H]; intros r; [reflexivity|]. rewrite made_snoc, served_snoc, IH. specialize (IH r).
  inversion H; subst; clear H; cbn [seen fly made served flat_map app]; rewrite ?app_nil_r; auto.
  - rewrite (Nat.eqb_sym r0 r). unfold upd. destruct (Nat.eqb_spec r r0) as [-> |]; rewrite <- ?app_assoc, ?app_nil_r; auto.
  - rewrite (Nat.eqb_sym r0 r). unfold upd. destruct (Nat.eqb_spec r r0) as [-> |]; rewrite <- ?app_assoc, ?app_nil_r; auto.
  - unfold upd. destruct (Nat.eqb_spec r r0) as [-> |]; rewrite <- ?app_assoc; auto. rewrite H0. reflexivity.
  - rewrite (Nat.eqb_sym r0 r). unfold upd. destruct (Nat.eqb_spec r r0) as [-> |]; rewrite <- ?app_assoc, ?app_nil_r; auto. rewrite H2. reflexivity.
  - rewrite (Nat.eqb_sym r0 r). unfold upd. destruct (Nat.eqb_spec r r0) as [-> |]; rewrite <- ?app_assoc, ?app_nil_r; auto. rewrite H2. reflexivity.
Qed.

Definition no_get (l : list request) : Prop := forall m, ~ In (AskGet m) l.
Definition reads (N : net) (s : state) : Prop := forall r,
  (forall k, pst s (user N r) = Waiting r k ->
     (reply s r = None /\ exists l, seen s r ++ fly s r = l ++ [AskGet (cur s (user N r))] /\ no_get l) \/
     (exists x, reply s r = Some x /\ seen s r ++ fly s r = [])) /\
  ((forall k, pst s (user N r) <> Waiting r k) -> reply s r = None /\ no_get (seen s r ++ fly s r)).
Lemma no_get_snoc l m x : no_get l -> no_get (l ++ [AskSet m x]).
Proof. intros H y I. apply in_app_iff in I. destruct I as [I|[I|[]]]; [exact (H y I)|discriminate]. Qed.
Lemma no_get_tl a l : no_get (a :: l) -> no_get l.
Proof. intros H m I. apply (H m). right. exact I. Qed.

(** a step that leaves the channels of all ports alone and neither starts nor ends waiting *)
Lemma reads_keep N s s' : reads N s -> (forall r k, pst s' (user N r) = Waiting r k <-> pst s (user N r) = Waiting r k) ->
  (forall r k, pst s (user N r) = Waiting r k -> cur s' (user N r) = cur s (user N r)) ->
  seen s' = seen s -> fly s' = fly s -> reply s' = reply s -> reads N s'.
Proof.
  intros I H C E1 E2 E3 r. destruct (I r) as [A B]. rewrite E1, E2, E3. split.
  - intros k K. apply H in K. rewrite (C _ _ K). eauto.
  - intros K. apply B. intros k X. apply (K k). apply H. exact X.
Qed.
Lemma reads_step b N s l s' : well_built N -> shapes N s -> codes N s -> reads N s -> step b N s l s' -> reads N s'.
Proof.
  intros W Sh Co I H. inversion H; subst; clear H.
  - apply (reads_keep N s); try reflexivity. exact I.
  - apply (reads_keep N s); try reflexivity; [exact I| |].
    + intros r k. cbn [pst]. updc (user N r) p; [|reflexivity]. rewrite H1. split; destruct f; discriminate.
    + intros r k K. cbn [cur]. destruct (Nat.eq_dec (user N r) p) as [X|X]; [congruence|apply upd_ne; exact X].
  - apply (reads_keep N s); try reflexivity; [exact I|].
    intros r k0. cbn [pst]. updc (user N r) p; [|reflexivity]. rewrite H0. split; discriminate.
  - apply (reads_keep N s); try reflexivity; [exact I|].
    intros r k0. cbn [pst]. updc (user N r) p; [|reflexivity]. rewrite H0. split; discriminate.
  - (* ask *) pose proof (Co p) as C. rewrite H0 in C. destruct C as [C _]. destruct (C r (a_here1 r k)) as [U _]. clear C.
    intros q. cbn [pst seen fly reply cur]. destruct (I q) as [A B]. destruct (Nat.eq_dec q r) as [-> | Nq].
    + rewrite upd_eq. rewrite U, upd_eq. split; [|intros K; elim (K k); reflexivity]. intros k0 K.
      rewrite U in B. destruct B as [B1 B2]; [intros k1; rewrite H0; discriminate|].
      left. split; [exact B1|]. exists (seen s r ++ fly s r). rewrite app_assoc. auto.
    + rewrite (upd_ne (fly s)) by assumption. destruct (Nat.eq_dec (user N q) p) as [E|E].
      * rewrite E, upd_eq in *. split; [intros k0 K; injection K as K _; congruence|]. intros _. apply B. intros k0. rewrite H0. discriminate.
      * rewrite upd_ne by assumption. split; assumption.
  - (* write *) pose proof (Co p) as C. rewrite H0 in C. destruct C as [C _]. destruct (C r (a_here2 r x k)) as [U _]. clear C.
    intros q. cbn [pst seen fly reply cur]. destruct (I q) as [A B]. destruct (Nat.eq_dec (user N q) p) as [E|E].
    + rewrite E, upd_eq in *. split; [intros k0 K; discriminate|]. intros _. destruct B as [B1 B2]; [intros k0; rewrite H0; discriminate|].
      split; [exact B1|]. updc q r; [rewrite app_assoc; apply no_get_snoc; exact B2|exact B2].
    + rewrite (upd_ne (pst s)) by assumption. rewrite (upd_ne (fly s)) by congruence. split; assumption.
  - (* arrive *) intros j. cbn [pst seen fly reply cur]. destruct (I j) as [A B]. updc j r; [|split; assumption].
    rewrite <- app_assoc. cbn [app]. rewrite <- H0. split; assumption.
  - (* get *) intros q. cbn [pst seen fly reply cur]. destruct (I q) as [A B]. updc q r; [|split; assumption].
    rewrite H2 in *. split.
    + intros k K. destruct (A k K) as [(A1 & l' & A2 & A3)|(x & _ & A2)]; [|discriminate]. right. exists (vars s (target N r)). split; [reflexivity|].
      destruct l' as [|y l']; cbn [app] in A2; injection A2 as A2 A4; [exact A4|]. subst y. elim (A3 m). left. reflexivity.
    + intros K. destruct (B K) as [_ B2]. elim (B2 m). left. reflexivity.
  - (* set *) intros q. cbn [pst seen fly reply cur]. destruct (I q) as [A B]. updc q r; [|split; assumption].
    rewrite H2 in *. split.
    + intros k K. destruct (A k K) as [(A1 & l' & A2 & A3)|(y & _ & A2)]; [|discriminate]. left. split; [exact A1|].
      destruct l' as [|y l']; cbn [app] in A2; injection A2 as A2 A4; [discriminate|]. exists l'. split; [exact A4|]. apply no_get_tl in A3. exact A3.
    + intros K. destruct (B K) as [B1 B2]. split; [exact B1|]. apply no_get_tl in B2. exact B2.
  - (* ret *) pose proof (Co p) as C. rewrite H0 in C. destruct C as [U _].
    intros q. cbn [pst seen fly reply cur]. destruct (I q) as [A B]. destruct (Nat.eq_dec q r) as [-> | Nq].
    + rewrite upd_eq. rewrite U, upd_eq in *. split; [intros k0 K; discriminate|]. intros _. split; [reflexivity|].
      destruct (A k H0) as [[A1 _]|(y & _ & A2)]; [congruence|]. rewrite A2. intros m [].
    + rewrite (upd_ne (reply s)) by assumption. destruct (Nat.eq_dec (user N q) p) as [E|E].
      * rewrite E, upd_eq in *. split; [intros k0 K; discriminate|]. intros _. apply B. intros k0. rewrite H0. congruence.
      * rewrite upd_ne by assumption. split; assumption.
  - apply (reads_keep N s); try reflexivity; [exact I|].
    intros r k0. cbn [pst]. updc (user N r) p; [|reflexivity]. rewrite H0. split; discriminate.
Qed.
Lemma reads_exec b N tr s : well_built N -> exec b N tr s -> reads N s.
Proof.
  intros W. induction 1; [|eapply reads_step; eauto using shapes_exec, codes_exec].
  intros r. split; [intros k K; discriminate K|]. intros _. split; [reflexivity|]. intros m [].
Qed.
Lemma replies_in_order b N tr s : well_built N -> exec b N tr s -> forall r,
  sent_back r tr = returned r tr ++ match reply s r with Some x => [(cur s (user N r), x)] | None => [] end.
Proof.
  intros W. induction 1 as [|tr s l s' E IH H]; intros r; [reflexivity|]. rewrite sent_snoc, ret_snoc, IH.
  pose proof (shapes_exec _ _ _ _ E) as Sh. pose proof (codes_exec _ _ _ _ W E) as Co. pose proof (reads_exec _ _ _ _ W E) as Re.
  specialize (IH r). destruct (Re r) as [A B].
  inversion H; subst; clear H; cbn [reply cur sent_back returned flat_map app]; rewrite ?app_nil_r; auto.
  - destruct (reply s r) as [x|] eqn:R; [|reflexivity]. destruct (Nat.eq_dec (user N r) p) as [X|X]; [|rewrite upd_ne by exact X; reflexivity].
    destruct B as [B _]; [intros k; rewrite X, H1; discriminate|congruence].
  - rewrite (Nat.eqb_sym r0 r). unfold upd. destruct (Nat.eqb_spec r r0) as [-> |]; rewrite ?app_nil_r; [|reflexivity].
    destruct (reply s r0) as [x|] eqn:R.
    + exfalso. assert (exists k, pst s (user N r0) = Waiting r0 k) as [k K].
      { destruct (pst s (user N r0)) as [|c|q k] eqn:P; [destruct B as [B _]; [discriminate|congruence]|destruct B as [B _]; [discriminate|congruence]|].
        destruct (Nat.eq_dec q r0) as [-> |Nq]; [eauto|]. destruct B as [B _]; [congruence|congruence]. }
      destruct (A k K) as [[A1 _]|(y & _ & A2)]; [congruence|]. rewrite H2 in A2. discriminate.
    + rewrite ?app_nil_r. f_equal. f_equal. f_equal.
      assert (exists k, pst s (user N r0) = Waiting r0 k) as [k K].
      { assert (~ no_get (seen s r0 ++ fly s r0)) as G by (rewrite H2; intros G; apply (G m); left; reflexivity).
        destruct (pst s (user N r0)) as [|c|q k] eqn:P; [destruct B as [_ B]; [discriminate|contradiction]|destruct B as [_ B]; [discriminate|contradiction]|].
        destruct (Nat.eq_dec q r0) as [-> |Nq]; [eauto|]. destruct B as [_ B]; [congruence|contradiction]. }
      destruct (A k K) as [(A1 & l' & A2 & A3)|(y & R' & _)]; [|congruence].
      rewrite H2 in A2. destruct l' as [|y l']; cbn [app] in A2; injection A2 as A2 A4; [exact A2|]. subst y. elim (A3 m). left. reflexivity.
  - rewrite (Nat.eqb_sym r0 r). unfold upd. destruct (Nat.eqb_spec r r0) as [-> |]; rewrite ?app_nil_r; [|reflexivity].
    rewrite H1. pose proof (Co p) as C. rewrite H0 in C. destruct C as [-> _]. reflexivity.
Qed.

(** ** Values *)
Lemma value_snoc N v tr l : value_after N v (tr ++ [l]) =
  match l with LOwn _ w y => if w =? v then y else value_after N v tr | LSet r _ y => if target N r =? v then y else value_after N v tr | _ => value_after N v tr end.
Proof. unfold value_after. rewrite fold_left_app. destruct l; reflexivity. Qed.
Lemma values_exec b N tr s : exec b N tr s -> forall v, vars s v = value_after N v tr.
Proof.
  induction 1 as [|tr s l s' E IH H]; intros v; [reflexivity|]. rewrite value_snoc. inversion H; subst; clear H; cbn [vars]; auto.
  - unfold upd. rewrite (Nat.eqb_sym v0 v). destruct (v =? v0); auto.
  - unfold upd. rewrite (Nat.eqb_sym (target N r) v). destruct (v =? target N r); auto.
Qed.

(** ** Time *)
Definition upto (m m' : moment) : Prop := m = m' \/ after m m'.
Lemma follows_after f g t : follows f g -> f <> Start -> after (f, t) (g, step_of g t).
Proof. intros H N. destruct H; try congruence; unfold after; cbn; lia. Qed.
Lemma after_trans a b c : after a b -> after b c -> after a c.
Proof. unfold after. destruct a as [f t], b as [g u], c as [h w]. cbn. lia. Qed.
Lemma upto_trans a b c : upto a b -> upto b c -> upto a c.
Proof. intros [-> |A] [-> |B]; unfold upto; eauto using after_trans. Qed.
Lemma after_irr a : ~ after a a.
Proof. unfold after. lia. Qed.
Lemma upto_not_after a b : upto a b -> ~ after b a.
Proof. intros [-> |A] B; [exact (after_irr _ B)|exact (after_irr _ (after_trans _ _ _ A B))]. Qed.
Lemma next_later f g t : follows f g -> upto (f, t) (g, step_of g t).
Proof. destruct 1; right; unfold after; cbn; lia. Qed.
Definition past (N : net) (tr : list label) (s : state) : Prop :=
  (forall p m, In (LCmd p m) tr -> upto m (svc s)) /\ (forall p m, In m (cmds s p) -> upto m (svc s)).
Lemma past_exec b N tr s : exec b N tr s -> past N tr s.
Proof.
  induction 1 as [|tr s l s' E [A B] H]; [split; [intros p m []|intros p m []]|]. inversion H; subst; clear H;
    try (split; cbn [svc cmds]; [|exact B]; intros j m' I; apply in_app_iff in I; destruct I as [I|[I|[]]]; [exact (A _ _ I)|discriminate]).
  - assert (upto (svc s) m) as U by (rewrite (surjective_pairing (svc s)); apply next_later; assumption). split; cbn [svc cmds].
    + intros p m' I. apply in_app_iff in I. destruct I as [I|[I|[]]]; [|discriminate]. eauto using upto_trans.
    + intros p m' I. destruct (p <? n N).
      * apply in_app_iff in I. destruct I as [I|[I|[]]]; [eauto using upto_trans|left; auto].
      * eauto using upto_trans.
  - split; cbn [svc cmds].
    + intros q m' I. apply in_app_iff in I. destruct I as [I|[I|[]]]; [eauto|]. injection I as <- <-. apply (B p). rewrite H2. left. reflexivity.
    + intros q m' I. updc q p; [apply (B p); rewrite H2; right; exact I|eauto].
Qed.
Lemma phase_exec b N tr s : exec b N tr s -> forall p, fst (cur s p) = phase_after p tr.
Proof.
  induction 1 as [|tr s l s' E IH H]; intros p; [reflexivity|]. unfold phase_after in *. rewrite fold_left_app. cbn [fold_left].
  inversion H; subst; clear H; cbn [cur]; auto. unfold upd. rewrite (Nat.eqb_sym p0 p). destruct (p =? p0); auto.
Qed.

(** ** The end of the code of a phase *)
Lemma ended_snoc p m tr l : ended p m tr -> ~ acts p l -> ended p m (tr ++ [l]).
Proof.
  intros (a1 & a2 & -> & H) A. exists a1, (a2 ++ [l]). rewrite <- app_assoc. split; [reflexivity|].
  intros x X. apply in_app_iff in X. destruct X as [X|[<-|[]]]; auto.
Qed.
Lemma ended_exec b N tr s : well_built N -> exec b N tr s -> forall p, p < n N -> pst s p = Poll -> works_in (fst (cur s p)) -> ended p (cur s p) tr.
Proof.
  intros W. induction 1 as [|tr s l s' E IH H]; intros p L P Wk; [destruct Wk as [X|[X|[X|X]]]; discriminate X|].
  inversion H; subst; clear H; cbn [cur pst] in *;
    try (apply ended_snoc; [apply IH; assumption|intros X; exact X]).
  - (* cmd *) updc p p0.
    + destruct f; try discriminate. destruct Wk as [X|[X|[X|X]]]; discriminate X.
    + apply ended_snoc; [apply IH; assumption|]. cbn. congruence.
  - updc p p0; [discriminate|]. apply ended_snoc; [apply IH; assumption|]. cbn. congruence.
  - updc p p0; [discriminate|]. apply ended_snoc; [apply IH; assumption|]. cbn. congruence.
  - updc p p0; [discriminate|]. apply ended_snoc; [apply IH; assumption|]. cbn. auto.
  - updc p p0; [discriminate|]. apply ended_snoc; [apply IH; assumption|]. cbn. auto.
  - updc p p0; [discriminate|]. apply ended_snoc; [apply IH; assumption|]. cbn. auto.
  - updc p p0.
    + exists tr, []. split; [reflexivity|]. intros l [].
    + apply ended_snoc; [apply IH; assumption|]. cbn. auto.
Qed.
