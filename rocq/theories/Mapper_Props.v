(** C31: logical cores are mapped to distinct physical cores. *)
From Coq Require Import List Arith Bool Lia.
From Verif Require Import Mapper_Model.
Import ListNotations.

(** ** Specification: what has to be placed besides the compiled resources: the ports of lava type, the
    variables and the var ports *)
Definition to_place (b : builder) : list (list nat) :=
  flat_map (fun p => match p with Some m => [m] | None => [] end) (io_ports b) ++ var_models b ++ var_ports b.
Lemma mappables_spec b : mappables b = to_place b.
Proof. unfold mappables, to_place. f_equal. induction (io_ports b) as [|[m|] r IH]; simpl; congruence. Qed.
(** logical core [l] of builder [i] was given address [a] (as a resource or as a
    mappable). *)
Definition placed (bs : list builder) (os : list output) (i l : nat) (a : addr) : Prop :=
  exists b o, nth_error bs i = Some b /\ nth_error os i = Some o /\
   ((exists k, nth_error (resources b) k = Some l /\ nth_error (fst o) k = Some a) \/
    (exists j k m am, nth_error (to_place b) j = Some m /\ nth_error (snd o) j = Some am /\
                      nth_error m k = Some l /\ nth_error am k = Some a)).

Definition dinv (lo : nat) (s : mstate) : Prop :=
  lo <= fst s /\ (forall l v, find (snd s) l = Some v -> lo <= v < fst s) /\
  (forall l l' v, find (snd s) l = Some v -> find (snd s) l' = Some v -> l = l').
Definition ext (s s' : mstate) : Prop := forall l v, find (snd s) l = Some v -> find (snd s') l = Some v.
Lemma ext_trans a b c : ext a b -> ext b c -> ext a c.
Proof. unfold ext. auto. Qed.
Definition gives (n : nat) (s : mstate) (l : nat) (a : addr) : Prop :=
  exists v, find (snd s) l = Some v /\ a = (v / n, v mod n).

Lemma assign1_ok lo n s l : dinv lo s -> let '(s', a) := assign1 n s l in
  dinv lo s' /\ ext s s' /\ gives n s' l a /\ fst s <= fst s'.
Proof.
  intros [A [B C]]. destruct s as [off d]. unfold assign1. simpl in *. destruct (find d l) as [v|] eqn:E.
  - split; [split; auto|]. split; [intros x w; auto|]. split; [exists v; auto|auto].
  - split; [split; [simpl; lia|split]|].
    + intros x v. simpl. destruct (l =? x); [intro H; injection H as <-; lia|]. intro H. apply B in H. lia.
    + intros x y v. simpl. destruct (l =? x) eqn:E1, (l =? y) eqn:E2; intros H1 H2.
      * apply Nat.eqb_eq in E1, E2. congruence.
      * injection H1 as <-. apply B in H2. lia.
      * injection H2 as <-. apply B in H1. lia.
      * eauto.
    + split; [|split; [exists off; simpl; rewrite Nat.eqb_refl; auto|simpl; lia]].
      intros x v. simpl. destruct (l =? x) eqn:E1; auto. apply Nat.eqb_eq in E1. subst. congruence.
Qed.

Lemma gives_ext n s s' l a : ext s s' -> gives n s l a -> gives n s' l a.
Proof. intros H [v [A B]]. exists v. auto. Qed.

Lemma assign_ok lo n : forall ls s, dinv lo s -> let '(s', as_) := assign n s ls in
  dinv lo s' /\ ext s s' /\ Forall2 (gives n s') ls as_ /\ fst s <= fst s'.
Proof.
  induction ls as [|l ls IH]; intros s H; simpl; [split; auto; split; [intros ? ?; auto|split; [constructor|auto]]|].
  pose proof (assign1_ok lo n s l H) as P. destruct (assign1 n s l) as [s1 a]. destruct P as [P1 [P2 [P3 P4]]].
  specialize (IH s1 P1). destruct (assign n s1 ls) as [s2 as_]. destruct IH as [Q1 [Q2 [Q3 Q4]]].
  split; auto. split; [eapply ext_trans; eauto|]. split; [|lia]. constructor; auto. eapply gives_ext; eauto.
Qed.

Lemma Forall2_imp {A B} (P Q : A -> B -> Prop) l m : (forall x y, P x y -> Q x y) -> Forall2 P l m -> Forall2 Q l m.
Proof. induction 2; constructor; auto. Qed.

Lemma assign_all_ok lo n : forall ms s, dinv lo s -> let '(s', as_) := assign_all n s ms in
  dinv lo s' /\ ext s s' /\ Forall2 (Forall2 (gives n s')) ms as_ /\ fst s <= fst s'.
Proof.
  induction ms as [|m ms IH]; intros s H; simpl; [split; auto; split; [intros ? ?; auto|split; [constructor|auto]]|].
  pose proof (assign_ok lo n m s H) as P. destruct (assign n s m) as [s1 a]. destruct P as [P1 [P2 [P3 P4]]].
  specialize (IH s1 P1). destruct (assign_all n s1 ms) as [s2 as_]. destruct IH as [Q1 [Q2 [Q3 Q4]]].
  split; auto. split; [eapply ext_trans; eauto|]. split; [|lia]. constructor; auto.
  eapply Forall2_imp; [|exact P3]. intros. eapply gives_ext; eauto.
Qed.

Lemma F2_nth {A B} (P : A -> B -> Prop) l m : Forall2 P l m -> forall k x y, nth_error l k = Some x -> nth_error m k = Some y -> P x y.
Proof.
  induction 1; intros [|k] a b H1 H2; simpl in *; try discriminate; [|eauto]. injection H1 as <-. injection H2 as <-. auto.
Qed.

(** what the builder at [i] got, described by one injective table of core numbers *)
Definition table (n lo hi : nat) (f : nat -> option nat) (b : builder) (o : output) : Prop :=
  (forall l v, f l = Some v -> lo <= v < hi) /\ (forall l l' v, f l = Some v -> f l' = Some v -> l = l') /\
  let g l a := exists v, f l = Some v /\ a = (v / n, v mod n) in
  Forall2 g (resources b) (fst o) /\ Forall2 (Forall2 g) (to_place b) (snd o).

Lemma map_builder_ok off b : let '(off', o) := map_builder off b in
  off <= off' /\ exists f, table (num_cores (n3 b)) off off' f b o.
Proof.
  unfold map_builder. set (n := num_cores (n3 b)).
  assert (dinv off (off, [])) as H0 by (split; simpl; auto; split; discriminate).
  pose proof (assign_ok off n (resources b) _ H0) as P. destruct (assign n (off, []) (resources b)) as [s1 rs].
  destruct P as [P1 [P2 [P3 P4]]]. pose proof (assign_all_ok off n (mappables b) _ P1) as Q.
  destruct (assign_all n s1 (mappables b)) as [s2 ms]. destruct Q as [[Q0 [Qa Qb]] [Q2 [Q3 Q4]]]. simpl in P4.
  split; [lia|]. exists (find (snd s2)). split; auto. split; auto. split; [|rewrite <- mappables_spec; exact Q3].
  simpl. eapply Forall2_imp; [|exact P3]. intros. eapply gives_ext; eauto.
Qed.

Lemma map_cores_tables : forall bs off os, map_cores_from off bs = Some os ->
  length os = length bs /\ (forall b, In b bs -> resources b <> []) /\
  exists lo : nat -> nat, (forall i j, i <= j <= length bs -> off <= lo i <= lo j) /\
  forall i b o, nth_error bs i = Some b -> nth_error os i = Some o ->
    exists f, table (num_cores (n3 b)) (lo i) (lo (S i)) f b o.
Proof.
  induction bs as [|b bs IH]; simpl; intros off os H.
  - injection H as <-. split; auto. split; [intros ? []|]. exists (fun _ => off). split; [intros; lia|]. intros [|i] b o; discriminate.
  - destruct (resources b) as [|r0 rs0] eqn:Er; [discriminate|].
    pose proof (map_builder_ok off b) as P. destruct (map_builder off b) as [off' o]. destruct P as [P1 [f Pf]].
    destruct (map_cores_from off' bs) as [os'|] eqn:E; [|discriminate]. injection H as <-.
    destruct (IH _ _ E) as [A [B [lo [C D]]]]. split; [simpl; lia|].
    split; [intros b' [<-|Hb]; [rewrite Er; discriminate|auto]|].
    exists (fun i => match i with 0 => off | 1 => off' | S j => lo j end).
    pose proof (C 0 0 ltac:(lia)) as C0.
    split.
    + intros [|[|i]] [|[|j]] Hij; try lia.
      * specialize (C (S j) (S j) ltac:(lia)). lia.
      * specialize (C (S j) (S j) ltac:(lia)). lia.
      * specialize (C (S i) (S j) ltac:(lia)). lia.
    + intros [|i] b' o' Hb Ho; simpl in Hb, Ho.
      * injection Hb as <-. injection Ho as <-. exists f. exact Pf.
      * destruct (D i b' o' Hb Ho) as [g [G1 [G2 G3]]]. exists g. split; [|split; auto].
        intros l v Hg. specialize (G1 l v Hg).
        assert (i < length bs) by (apply nth_error_Some; congruence).
        destruct i as [|i]; [|destruct i; lia]. lia.
Qed.

(** ** Every resource and every mappable address gets a place. *)
Theorem mapper_total : forall bs, (forall b, In b bs -> resources b <> []) ->
  exists os, map_cores bs = Some os /\ length os = length bs.
Proof.
  intros bs. unfold map_cores. generalize 0 as off. induction bs as [|b bs IH]; intros off H; simpl; [eexists; split; reflexivity|].
  assert (resources b <> []) as Hr by (apply H; left; auto). destruct (resources b); [contradiction|].
  destruct (map_builder off b) as [off' o]. destruct (IH off') as [os [E L]]; [intros; apply H; right; auto|].
  rewrite E. eexists. split; [reflexivity|]. simpl. lia.
Qed.

Theorem mapper_every_address : forall bs os i b, map_cores bs = Some os -> nth_error bs i = Some b ->
  (forall l, In l (resources b) -> exists a, placed bs os i l a) /\
  (forall m l, In m (to_place b) -> In l m -> exists a, placed bs os i l a).
Proof.
  intros bs os i b H Hb. destruct (map_cores_tables _ _ _ H) as [HL [_ [lo [_ HT]]]].
  assert (exists o, nth_error os i = Some o) as [o Ho].
  { destruct (nth_error os i) eqn:E; eauto. apply nth_error_None in E.
    assert (i < length bs) by (apply nth_error_Some; congruence). lia. }
  destruct (HT i b o Hb Ho) as [f [_ [_ [F1 F2]]]].
  assert (forall A B (P : A -> B -> Prop) l m, Forall2 P l m -> forall x, In x l -> exists k y, nth_error l k = Some x /\ nth_error m k = Some y) as Fin.
  { clear. intros A B P l m. induction 1; intros z Hz; [destruct Hz|]. destruct Hz as [<-|Hz]; [exists 0; simpl; eauto|].
    destruct (IHForall2 z Hz) as [k [w W]]. exists (S k), w. auto. }
  split.
  - intros l Hl. destruct (Fin _ _ _ _ _ F1 l Hl) as [k [a [A B]]]. exists a, b, o. split; auto. split; auto. left. eauto.
  - intros m l Hm Hl. destruct (Fin _ _ _ _ _ F2 m Hm) as [j [am [A B]]]. pose proof (F2_nth _ _ _ F2 _ _ _ A B) as F3.
    destruct (Fin _ _ _ _ _ F3 l Hl) as [k [a [C D]]]. exists a, b, o. split; auto. split; auto. right. exists j, k, m, am. auto.
Qed.

Lemma placed_table bs os i l a lo : (forall i b o, nth_error bs i = Some b -> nth_error os i = Some o ->
    exists f, table (num_cores (n3 b)) (lo i) (lo (S i)) f b o) ->
  placed bs os i l a -> exists b o, nth_error bs i = Some b /\ nth_error os i = Some o /\
    forall f, table (num_cores (n3 b)) (lo i) (lo (S i)) f b o ->
    exists v, f l = Some v /\ a = (v / num_cores (n3 b), v mod num_cores (n3 b)).
Proof.
  intros HT [b [o [Hb [Ho HP]]]]. exists b, o. split; auto. split; auto. intros f [_ [_ [F1 F2]]].
  destruct HP as [[k [H1 H2]]|[j [k [m [am [H1 [H2 [H3 H4]]]]]]]].
  - apply (F2_nth _ _ _ F1 _ _ _ H1 H2).
  - pose proof (F2_nth _ _ _ F2 _ _ _ H1 H2) as F3. apply (F2_nth _ _ _ F3 _ _ _ H3 H4).
Qed.

(** ** The core number is in the range of the builder's chip generation. *)
Theorem mapper_core_in_range : forall bs os i b l a, map_cores bs = Some os -> nth_error bs i = Some b ->
  placed bs os i l a -> snd a < num_cores (n3 b).
Proof.
  intros bs os i b l a H Hb HP. destruct (map_cores_tables _ _ _ H) as [_ [_ [lo [_ HT]]]].
  destruct (placed_table _ _ _ _ _ _ HT HP) as [b' [o [Hb' [Ho P]]]]. rewrite Hb in Hb'. injection Hb' as <-.
  destruct (HT i b o Hb Ho) as [f Hf]. destruct (P f Hf) as [v [_ ->]]. simpl. apply Nat.mod_upper_bound. destruct (n3 b); discriminate.
Qed.

(** ** One logical core of one builder has one address, wherever it is mentioned. *)
Theorem mapper_consistent : forall bs os i l a a', map_cores bs = Some os ->
  placed bs os i l a -> placed bs os i l a' -> a = a'.
Proof.
  intros bs os i l a a' H HP HP'. destruct (map_cores_tables _ _ _ H) as [_ [_ [lo [_ HT]]]].
  destruct (placed_table _ _ _ _ _ _ HT HP) as [b [o [Hb [Ho P]]]].
  destruct (placed_table _ _ _ _ _ _ HT HP') as [b' [o' [Hb' [Ho' P']]]].
  rewrite Hb in Hb'. injection Hb' as <-. rewrite Ho in Ho'. injection Ho' as <-.
  destruct (HT i b o Hb Ho) as [f Hf]. destruct (P f Hf) as [v [V ->]]. destruct (P' f Hf) as [w [W ->]]. congruence.
Qed.

Lemma divmod_inj n u v : n <> 0 -> (u / n, u mod n) = (v / n, v mod n) -> u = v.
Proof.
  intros Hn E. injection E as E1 E2. rewrite (Nat.div_mod u n Hn), (Nat.div_mod v n Hn). congruence.
Qed.

(** ** Different logical cores never share a physical core, if all builders are of one generation;
    within one builder always. *)
Theorem mapper_injective_partial : forall bs os i i' l l' a, map_cores bs = Some os ->
  placed bs os i l a -> placed bs os i' l' a ->
  (i = i' \/ forall b b', In b bs -> In b' bs -> n3 b = n3 b') ->
  i = i' /\ l = l'.
Proof.
  intros bs os i i' l l' a H HP HP' Hsame. destruct (map_cores_tables _ _ _ H) as [_ [_ [lo [Hlo HT]]]].
  destruct (placed_table _ _ _ _ _ _ HT HP) as [b [o [Hb [Ho P]]]].
  destruct (placed_table _ _ _ _ _ _ HT HP') as [b' [o' [Hb' [Ho' P']]]].
  assert (n3 b = n3 b') as En.
  { destruct Hsame as [->|Hs]; [congruence|]. apply Hs; eapply nth_error_In; eauto. }
  destruct (HT i b o Hb Ho) as [f Hf]. destruct (HT i' b' o' Hb' Ho') as [f' Hf'].
  destruct (P f Hf) as [v [V Va]]. destruct (P' f' Hf') as [w [W Wa]]. rewrite <- En in Wa.
  assert (v = w) as -> by (apply (divmod_inj (num_cores (n3 b))); [destruct (n3 b); discriminate|congruence]).
  pose proof (proj1 Hf _ _ V) as R1. pose proof (proj1 Hf' _ _ W) as R2.
  assert (i < length bs) by (apply nth_error_Some; congruence). assert (i' < length bs) by (apply nth_error_Some; congruence).
  assert (i = i') as <-.
  { destruct (Nat.lt_trichotomy i i') as [L|[E|L]]; auto.
    - specialize (Hlo (S i) i' ltac:(lia)). lia.
    - specialize (Hlo (S i') i ltac:(lia)). lia. }
  split; auto. rewrite Hb in Hb'. injection Hb' as <-. rewrite Ho in Ho'. injection Ho' as <-.
  destruct (P' f Hf) as [w' [W' Wa']]. rewrite Va in Wa'.
  apply divmod_inj in Wa'; [|destruct (n3 b); discriminate]. subst w'. destruct Hf as [_ [Hinj _]]. eauto.
Qed.

(** With both generations in one executable, cores of different processes coincide: the id 120 of the
    first (120 cores per chip) and the id 128 of the second (128 cores per chip) are both chip 1 core 0. *)
Definition n3b (n : nat) (g : bool) : builder :=
  {| n3 := g; resources := seq 0 n; io_ports := []; var_models := []; var_ports := [] |}.
Theorem mapper_mixed_generations_refuted : exists bs os i i' l l' a, map_cores bs = Some os /\
  placed bs os i l a /\ placed bs os i' l' a /\ i <> i'.
Proof.
  exists [n3b 121 true; n3b 8 false]. eexists. exists 0, 1, 120, 7, (1, 0).
  split; [vm_compute; reflexivity|]. split; [|split; [|discriminate]].
  - exists (n3b 121 true). eexists. split; [reflexivity|]. split; [reflexivity|]. left. exists 120. split; reflexivity.
  - exists (n3b 8 false). eexists. split; [reflexivity|]. split; [reflexivity|]. left. exists 7. split; reflexivity.
Qed.

(** instance: two processes; logical core 3 shared by a resource and a variable *)
Example mapper_demo : map_cores
  [ {| n3 := true; resources := [5; 3]; io_ports := [None; Some [3; 9]]; var_models := [[5]]; var_ports := [] |};
    {| n3 := true; resources := [3]; io_ports := []; var_models := []; var_ports := [[3; 4]] |} ]
  = Some [ ([(0,0); (0,1)], [[(0,1); (0,2)]; [(0,0)]]); ([(0,3)], [[(0,3); (0,4)]]) ].
Proof. reflexivity. Qed.

Print Assumptions mapper_injective_partial.
