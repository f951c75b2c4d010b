(** Lemmas for C103. *)
From Coq Require Import List Bool Arith String Lia.
From Verif Require Import Hier_Model Hier_Spec.
Import ListNotations.

(** ** dictionaries *)
Section Dict.
Context {A : Type}.
Implicit Types (d e : list (string * A)).

Lemma put_keys : forall k v d x, In x (map fst (put k v d)) <-> x = k \/ In x (map fst d).
Proof.
  intros k v d x. induction d as [|[k' v'] d IH]; cbn; [intuition|].
  destruct (String.eqb_spec k' k) as [->|Hn]; cbn; [intuition|]. rewrite IH. intuition.
Qed.

Lemma put_nodup : forall k v d, NoDup (map fst d) -> NoDup (map fst (put k v d)).
Proof.
  intros k v d. induction d as [|[k' v'] d IH]; cbn; intros H; [constructor; [intros []|constructor]|].
  inversion H as [|? ? H1 H2]; subst. destruct (String.eqb_spec k' k) as [->|Hn]; cbn; [now constructor|].
  constructor; [|now apply IH]. rewrite put_keys. intuition.
Qed.

Lemma put_in : forall k v d, NoDup (map fst d) -> forall k' v', In (k', v') (put k v d) <-> (k' = k /\ v' = v) \/ (k' <> k /\ In (k', v') d).
Proof.
  intros k v d. induction d as [|[k0 v0] d IH]; cbn; intros H k' v'.
  - split; [intros [E|[]]; injection E as -> ->; auto|intros [[-> ->]|[_ []]]; auto].
  - inversion H as [|? ? H1 H2]; subst. destruct (String.eqb_spec k0 k) as [->|Hn]; cbn.
    + split.
      * intros [E|E]; [injection E as -> ->; auto|]. right. split; [|auto]. intros ->. apply H1. now apply (in_map fst) in E.
      * intros [[-> ->]|[Hk [E|E]]]; auto. injection E as -> ->. congruence.
    + rewrite IH by assumption. split.
      * intros [E|[[-> ->]|[Hk E]]]; auto. injection E as -> ->. auto.
      * intros [[-> ->]|[Hk [E|E]]]; auto.
Qed.

Lemma put_fresh : forall k v d, ~ In k (map fst d) -> put k v d = d ++ [(k, v)].
Proof.
  intros k v d. induction d as [|[k' v'] d IH]; cbn; intros H; [reflexivity|].
  destruct (String.eqb_spec k' k) as [->|Hn]; [exfalso; auto|]. f_equal. apply IH. auto.
Qed.

Lemma put_same : forall k v d, NoDup (map fst d) -> In (k, v) d -> put k v d = d.
Proof.
  intros k v d. induction d as [|[k' v'] d IH]; cbn; intros H Hin; [contradiction|].
  inversion H as [|? ? H1 H2]; subst. destruct (String.eqb_spec k' k) as [->|Hn].
  - destruct Hin as [E|E]; [now rewrite E|]. exfalso. apply H1. now apply (in_map fst) in E.
  - destruct Hin as [E|E]; [injection E as -> ->; congruence|]. f_equal. now apply IH.
Qed.

Lemma put_all_nodup : forall e d, NoDup (map fst d) -> NoDup (map fst (put_all d e)).
Proof. unfold put_all. induction e as [|x e IH]; intros d H; [exact H|]. cbn. apply IH. now apply put_nodup. Qed.

Lemma put_all_fresh : forall e d, NoDup (map fst (d ++ e)) -> put_all d e = d ++ e.
Proof.
  unfold put_all. induction e as [|[k v] e IH]; intros d H; cbn; [now rewrite app_nil_r|].
  rewrite map_app in H. cbn in H. pose proof (NoDup_remove_2 _ _ _ H) as Hk.
  rewrite put_fresh; [|intros X; apply Hk; apply in_or_app; now left].
  rewrite IH; [now rewrite <- app_assoc|]. rewrite <- app_assoc, map_app. exact H.
Qed.

Lemma put_all_same : forall e d, NoDup (map fst d) -> (forall x, In x e -> In x d) -> put_all d e = d.
Proof.
  unfold put_all. induction e as [|[k v] e IH]; intros d H Hin; [reflexivity|]. cbn.
  rewrite put_same; [|assumption|apply Hin; now left]. apply IH; [assumption|]. intros x Hx. apply Hin. now right.
Qed.

(** the value of a key is the last one given to it *)
Lemma put_all_last : forall e d, NoDup (map fst d) -> forall k v, In (k, v) (put_all d e) <->
  (exists e1 e2, e = e1 ++ (k, v) :: e2 /\ ~ In k (map fst e2)) \/ (~ In k (map fst e) /\ In (k, v) d).
Proof.
  unfold put_all. induction e as [|[k0 v0] e IH]; intros d H k v; cbn.
  - split; [auto|]. intros [(e1 & e2 & E & _)|[_ E]]; [destruct e1; discriminate|exact E].
  - rewrite IH by now apply put_nodup. rewrite put_in by assumption. split.
    + intros [(e1 & e2 & -> & Hn)|[Hn [[-> ->]|[Hk E]]]].
      * left. now exists ((k0, v0) :: e1), e2.
      * left. now exists [], e.
      * right. split; [|exact E]. intros [X|X]; auto.
    + intros [(e1 & e2 & E & Hn)|[Hn E]].
      * destruct e1 as [|x e1]; cbn in E.
        -- injection E as -> -> ->. right. auto.
        -- injection E as _ ->. left. now exists e1, e2.
      * right. split; [tauto|]. right. split; [|exact E]. intros ->. tauto.
Qed.
End Dict.

(** ** find_sub_procs *)
Definition cand (w : world) (na : string * attr) : list (string * nat) :=
  match snd na with
  | AProc q => [(fst na, q)]
  | AData fs => flat_map (fun f => match f with Some q => [(cls w q, q)] | None => [] end) fs
  | _ => []
  end.
Definition cands (w : world) (p : nat) : list (string * nat) := flat_map (cand w) (build w p).

Lemma put_all_app : forall {A} (d e1 e2 : list (string * A)), put_all d (e1 ++ e2) = put_all (put_all d e1) e2.
Proof. intros. unfold put_all. apply fold_left_app. Qed.

Lemma find_step_cand : forall w d na, find_step w d na = put_all d (cand w na).
Proof.
  intros w d [n a]. unfold find_step, cand. cbn [fst snd]. destruct a as [q|fs|l|]; try reflexivity.
  revert d. induction fs as [|[q|] fs IH]; intros d; cbn; [reflexivity| |apply IH].
  rewrite IH. reflexivity.
Qed.

Lemma find_cands : forall w p, find_sub_procs w p = put_all [] (cands w p).
Proof.
  intros w p. unfold find_sub_procs, cands. generalize (@nil (string * nat)) as d.
  induction (build w p) as [|na l IH]; intros d; cbn [fold_left flat_map]; [reflexivity|]. rewrite put_all_app, IH, find_step_cand. reflexivity.
Qed.

Lemma find_nodup : forall w p, NoDup (map fst (find_sub_procs w p)).
Proof. intros w p. rewrite find_cands. apply put_all_nodup. constructor. Qed.

Lemma cand_names : forall w na, map fst (cand w na) = names_of w na.
Proof.
  intros w [n a]. unfold cand, names_of. cbn [fst snd]. destruct a as [q|fs|l|]; try reflexivity.
  induction fs as [|[q|] fs IH]; cbn; [reflexivity| |exact IH]. now rewrite IH.
Qed.

Lemma cands_names : forall w p, map fst (cands w p) = flat_map (names_of w) (build w p).
Proof.
  intros w p. unfold cands. induction (build w p) as [|na l IH]; cbn; [reflexivity|]. now rewrite map_app, IH, cand_names.
Qed.

Lemma cand_holds : forall w na q, (exists k, In (k, q) (cand w na)) <->
  match snd na with AProc q' => q' = q | AData fs => In (Some q) fs | _ => False end.
Proof.
  intros w [n a] q. unfold cand. cbn [fst snd]. destruct a as [q'|fs|l|]; cbn.
  - split; [intros (k & [E|[]]); injection E as <- <-; reflexivity|intros ->; eauto].
  - split.
    + intros (k & Hin). apply in_flat_map in Hin. destruct Hin as ([f|] & Hf & Hx); [|destruct Hx].
      destruct Hx as [E|[]]. injection E as <- <-. exact Hf.
    + intros Hf. exists (cls w q). apply in_flat_map. exists (Some q). split; [exact Hf|now left].
  - split; [intros (k & [])|intros []].
  - split; [intros (k & [])|intros []].
Qed.

Lemma find_in_cands : forall w p k q, In (k, q) (find_sub_procs w p) -> In (k, q) (cands w p).
Proof.
  intros w p k q H. rewrite find_cands in H. apply put_all_last in H; [|constructor].
  destruct H as [(e1 & e2 & -> & _)|[_ []]]. apply in_or_app. right. now left.
Qed.

(** ** the expansion, as a recursion over the list *)
Definition one (f : nat) (w : world) (pm : pmap) (s : state) (p : nat) : option (pmap * state) :=
  match choose w p with
  | None => Some (pm, done s p)
  | Some (Leaf m) => Some (putp p m pm, done s p)
  | Some (Sub m) =>
    let d := find_sub_procs w p in
    match map_proc f w (map snd d) (register (built s p) p d) with
    | None => None
    | Some (sub, s') => Some (updatep pm sub, done (classed s' p (Sub m)) p)
    end
  end.
Fixpoint mapl (f : nat) (w : world) (l : list nat) (pm : pmap) (s : state) : option (pmap * state) :=
  match l with
  | [] => Some (pm, s)
  | p :: l' => match one f w pm s p with None => None | Some (pm', s') => mapl f w l' pm' s' end
  end.

Lemma map_proc_S : forall f w l st, map_proc (S f) w l st = mapl f w l [] st.
Proof.
  intros f w l st. cbn [map_proc]. generalize (@nil (nat * nat)) as pm. revert st.
  induction l as [|p l IH]; intros st pm; [reflexivity|]. cbn [fold_left mapl].
  fold (one f w pm st p). destruct (one f w pm st p) as [[pm' s']|]; [apply IH|].
  clear. induction l as [|q l IH]; [reflexivity|]. exact IH.
Qed.

Lemma one_none : forall f w pm s p, one f w pm s p = None <->
  Hierarchical w p /\ map_proc f w (map snd (find_sub_procs w p)) (register (built s p) p (find_sub_procs w p)) = None.
Proof.
  intros f w pm s p. unfold one, Hierarchical. destruct (choose w p) as [[m|m]|].
  - split; [discriminate|]. intros [[m' E] _]. discriminate.
  - cbv zeta. destruct (map_proc f w _ _) as [[sub s']|]; split; try discriminate; eauto. intros [_ E]. discriminate.
  - split; [discriminate|]. intros [[m' E] _]. discriminate.
Qed.

Lemma found_list : forall w p q, In q (map snd (find_sub_procs w p)) <-> exists k, In (k, q) (find_sub_procs w p).
Proof.
  intros w p q. rewrite in_map_iff. split; [intros ([k q'] & <- & H); eauto|intros (k & H); exists (k, q); auto].
Qed.

Lemma found_iff : forall w p q, Hierarchical w p -> (In q (map snd (find_sub_procs w p)) <-> Found w p q).
Proof. intros w p q H. rewrite found_list. unfold Found. tauto. Qed.

Lemma map_proc_none : forall w f l st, map_proc f w l st = None <-> f = 0 \/ exists p, In p l /\ Nested w f p.
Proof.
  intros w. induction f as [|f IH]; intros l st; [cbn; tauto|].
  rewrite map_proc_S. generalize (@nil (nat * nat)) as pm. revert st.
  induction l as [|p l IHl]; intros st pm; cbn [mapl].
  - split; [discriminate|]. intros [E|(p & [] & _)]. discriminate.
  - destruct (one f w pm st p) as [[pm' s']|] eqn:E.
    + rewrite IHl. split.
      * intros [X|(q & Hq & Hn)]; [discriminate|]. right. exists q. split; [now right|exact Hn].
      * intros [X|(q & [->|Hq] & Hn)]; [discriminate| |right; now exists q].
        exfalso. assert (one f w pm st q = None) as X; [|congruence]. apply one_none. destruct Hn as [Hh Hn].
        split; [exact Hh|]. apply IH. destruct Hn as [->|(r & Hr & Hn)]; [now left|]. right. exists r. split; [|exact Hn].
        now apply found_iff.
    + split; [|reflexivity]. intros _. right. exists p. split; [now left|]. apply one_none in E. destruct E as [Hh E].
      split; [exact Hh|]. apply IH in E. destruct E as [->|(r & Hr & Hn)]; [now left|]. right. exists r. split; [|exact Hn].
      now apply found_iff in Hr.
Qed.

(** ** paths *)
Lemma inside_trans : forall w a b c, Inside w a b -> Inside w b c -> Inside w a c.
Proof. intros w a b c H. induction H as [|p q r Hf H IH]; [auto|]. intros X. econstructor; eauto. Qed.

Lemma inside_snoc : forall w a x, Inside w a x -> a = x \/ exists y, Inside w a y /\ Found w y x.
Proof.
  intros w a x H. induction H as [p|p q r Hf H IH]; [now left|]. right. destruct IH as [->|(y & Hy & Hx)].
  - exists p. split; [constructor|exact Hf].
  - exists y. split; [econstructor; eauto|exact Hx].
Qed.

Lemma inside_cases : forall w a x, Inside w a x <-> a = x \/ exists q, Found w a q /\ Inside w q x.
Proof.
  intros w a x. split; [intros H; inversion H; subst; eauto|]. intros [->|(q & H1 & H2)]; [constructor|econstructor; eauto].
Qed.

Lemma cycle_nested : forall w n x, StrictlyInside w x x -> Nested w n x.
Proof.
  intros w. induction n as [|n IH]; intros x (y & Hf & Hi); [exact I|]. split; [apply Hf|]. right. exists y. split; [exact Hf|].
  apply IH. inversion Hi as [|? z ? Hz Hi']; subst; [exists x; split; [exact Hf|constructor]|].
  exists z. split; [exact Hz|]. eapply inside_trans; [exact Hi'|]. econstructor; [exact Hf|constructor].
Qed.

Section Unique.
Variable w : world.
Hypothesis HU : forall p p' q, Found w p q -> Found w p' q -> p = p'.

Lemma inside_linear : forall b x, Inside w b x -> forall a, Inside w a x -> Inside w a b \/ Inside w b a.
Proof.
  intros b x Hb a Ha. revert b Hb.
  (* right recursion *)
  assert (forall a x, Inside w a x -> forall P : nat -> Prop, P a -> (forall y z, Inside w a y -> P y -> Found w y z -> P z) -> P x) as RI.
  { clear. intros a x H. induction H as [p|p q r Hf H IH]; intros P HP HS; [exact HP|].
    apply IH; [eapply HS; [constructor|exact HP|exact Hf]|].
    intros y z Hy. apply HS. econstructor; eauto. }
  apply (RI a x Ha); [auto|].
  intros y z Hy IH Hf b Hb. destruct (inside_snoc w b z Hb) as [->|(y' & Hy' & Hf')].
  - left. eapply inside_trans; [exact Hy|]. econstructor; [exact Hf|constructor].
  - assert (y' = y) as -> by (eapply HU; eauto). now apply IH.
Qed.

(** processes of a list with nothing in common *)
Definition Apart (l : list nat) : Prop := forall p q x, In p l -> In q l -> Inside w p x -> Inside w q x -> p = q.

Lemma roots_apart : forall l, (forall p q, In q l -> ~ Found w p q) -> Apart l.
Proof.
  intros l HR p q x Hp Hq Hpx Hqx. destruct (inside_linear p x Hpx q Hqx) as [H|H].
  - destruct (inside_snoc w q p H) as [E|(y & _ & Hf)]; [auto|]. exfalso. exact (HR y p Hp Hf).
  - destruct (inside_snoc w p q H) as [E|(y & _ & Hf)]; [auto|]. exfalso. exact (HR y q Hq Hf).
Qed.

Lemma siblings_apart : forall p, (exists n, ~ Nested w n p) -> forall l, (forall q, In q l -> Found w p q) -> Apart l.
Proof.
  intros p [n Hn] l HF a b x Ha Hb Hax Hbx.
  assert (forall a b, In a l -> In b l -> Inside w a b -> a = b) as X.
  { intros c e Hc He H. destruct (inside_snoc w c e H) as [E|(y & Hy & Hf)]; [exact E|]. exfalso.
    assert (y = p) as -> by (eapply HU; eauto). apply Hn. apply cycle_nested. exists c. split; [now apply HF|exact Hy]. }
  destruct (inside_linear a x Hax b Hbx) as [H|H]; [symmetry; now apply X|now apply X].
Qed.
End Unique.

(** ** what the expansion gives *)
Lemma putp_keys : forall k v d x, In x (map fst (putp k v d)) <-> x = k \/ In x (map fst d).
Proof.
  intros k v d x. induction d as [|[k' v'] d IH]; cbn; [intuition|].
  destruct (Nat.eqb_spec k' k) as [->|Hn]; cbn; [intuition|]. rewrite IH. intuition.
Qed.
Lemma putp_nodup : forall k v d, NoDup (map fst d) -> NoDup (map fst (putp k v d)).
Proof.
  intros k v d. induction d as [|[k' v'] d IH]; cbn; intros H; [constructor; [intros []|constructor]|].
  inversion H as [|? ? H1 H2]; subst. destruct (Nat.eqb_spec k' k) as [->|Hn]; cbn; [now constructor|].
  constructor; [|now apply IH]. rewrite putp_keys. intuition.
Qed.
Lemma putp_in : forall k v d, NoDup (map fst d) -> forall k' v', In (k', v') (putp k v d) <-> (k' = k /\ v' = v) \/ (k' <> k /\ In (k', v') d).
Proof.
  intros k v d. induction d as [|[k0 v0] d IH]; cbn; intros H k' v'.
  - split; [intros [E|[]]; injection E as -> ->; auto|intros [[-> ->]|[_ []]]; auto].
  - inversion H as [|? ? H1 H2]; subst. destruct (Nat.eqb_spec k0 k) as [->|Hn]; cbn.
    + split.
      * intros [E|E]; [injection E as -> ->; auto|]. right. split; [|auto]. intros ->. apply H1. now apply (in_map fst) in E.
      * intros [[-> ->]|[Hk [E|E]]]; auto. injection E as -> ->. congruence.
    + rewrite IH by assumption. split.
      * intros [E|[[-> ->]|[Hk E]]]; auto. injection E as -> ->. auto.
      * intros [[-> ->]|[Hk [E|E]]]; auto.
Qed.

Definition Leafs (w : world) (d : pmap) : Prop := NoDup (map fst d) /\ forall q m, In (q, m) d -> choose w q = Some (Leaf m).

Lemma putp_leafs : forall w k v d, choose w k = Some (Leaf v) -> Leafs w d ->
  Leafs w (putp k v d) /\ forall q m, In (q, m) (putp k v d) <-> In (q, m) d \/ (q = k /\ m = v).
Proof.
  intros w k v d Hc [H1 H2]. assert (forall q m, In (q, m) (putp k v d) <-> In (q, m) d \/ (q = k /\ m = v)) as HI.
  { intros q m. rewrite putp_in by assumption. split; [tauto|]. intros [E|E]; [|tauto].
    destruct (Nat.eq_dec q k) as [-> |Hn]; [|auto]. left. split; [reflexivity|]. apply H2 in E. congruence. }
  split; [|exact HI]. split; [now apply putp_nodup|]. intros q m E. apply HI in E. destruct E as [E|[-> ->]]; auto.
Qed.

Lemma updatep_leafs : forall w e d, (forall q m, In (q, m) e -> choose w q = Some (Leaf m)) -> Leafs w d ->
  Leafs w (updatep d e) /\ forall q m, In (q, m) (updatep d e) <-> In (q, m) d \/ In (q, m) e.
Proof.
  intros w. unfold updatep. induction e as [|[k v] e IH]; intros d He Hd; cbn; [split; [exact Hd|tauto]|].
  destruct (putp_leafs w k v d (He k v (or_introl eq_refl)) Hd) as [H1 H2].
  destruct (IH (putp k v d) (fun q m X => He q m (or_intror X)) H1) as [H3 H4]. split; [exact H3|].
  intros q m. rewrite H4, H2. split; [intros [[E|[-> ->]]|E]; auto|intros [E|[E|E]]; auto]. injection E as -> ->. auto.
Qed.

Definition InL (w : world) (l : list nat) (q : nat) : Prop := exists p, In p l /\ Inside w p q.

Lemma inl_nil : forall w q, InL w [] q <-> False.
Proof. intros w q. split; [intros (p & [] & _)|intros []]. Qed.
Lemma inl_cons : forall w p l q, InL w (p :: l) q <-> Inside w p q \/ InL w l q.
Proof.
  intros w p l q. unfold InL. split; [intros (r & [->|Hr] & H); eauto|]. intros [H|(r & Hr & H)]; [exists p; cbn; auto|exists r; cbn; auto].
Qed.
Lemma inl_found : forall w p q, Hierarchical w p -> (InL w (map snd (find_sub_procs w p)) q <-> StrictlyInside w p q).
Proof.
  intros w p q Hh. unfold InL, StrictlyInside. split; intros (r & Hr & H); exists r; (split; [now apply found_iff|exact H]).
Qed.
Lemma inside_leaf : forall w p q, ~ Hierarchical w p -> (Inside w p q <-> p = q).
Proof. intros w p q Hn. rewrite inside_cases. split; [intros [E|(r & [Hh _] & _)]; [exact E|contradiction]|auto]. Qed.

(** the state after the expansion: [L] the processes elaborated, [B] the models built *)
Definition inb (p : nat) (B : list nat) : bool := existsb (Nat.eqb p) B.
Record Expanded (w : world) (l : list nat) (pm0 pm : pmap) (s s' : state) (L B : list nat) : Prop := {
  ex_elab : elab s' = elab s ++ L;
  ex_builds : builds s' = builds s ++ B;
  ex_L : forall q, In q L <-> InL w l q;
  ex_B : forall q, In q B <-> InL w l q /\ Hierarchical w q;
  ex_pm : Leafs w pm;
  ex_in : forall q m, In (q, m) pm <-> In (q, m) pm0 \/ (InL w l q /\ choose w q = Some (Leaf m));
  ex_procs : forall p, procs s' p = if inb p B then put_all (procs s p) (find_sub_procs w p) else procs s p;
  ex_parent : forall q, parent s' q = parent s q \/ exists p, In p B /\ Found w p q /\ parent s' q = Some p;
  ex_parent2 : forall p q, In p B -> Found w p q -> exists p', In p' B /\ Found w p' q /\ parent s' q = Some p';
  ex_class : forall p, model_class s' p = if inb p B then choose w p else model_class s p
}.

Lemma put_all_twice : forall {A} (d e : list (string * A)), NoDup (map fst d) -> NoDup (map fst e) -> put_all (put_all d e) e = put_all d e.
Proof.
  intros A d e Hd He. apply put_all_same; [now apply put_all_nodup|]. intros [k v] Hin.
  apply put_all_last; [assumption|]. left. apply in_split in Hin. destruct Hin as (e1 & e2 & ->). exists e1, e2. split; [reflexivity|].
  rewrite map_app in He. cbn in He. apply NoDup_remove_2 in He. intros X. apply He. apply in_or_app. now right.
Qed.

Lemma inb_in : forall p B, inb p B = true <-> In p B.
Proof.
  intros p B. unfold inb. rewrite existsb_exists. split; [intros (x & H & E); apply Nat.eqb_eq in E; now subst|intros H; exists p; split; [exact H|apply Nat.eqb_refl]].
Qed.
Lemma inb_app : forall p B C, inb p (B ++ C) = inb p B || inb p C.
Proof. intros. unfold inb. apply existsb_app. Qed.

Definition Dicts (s : state) : Prop := forall p, NoDup (map fst (procs s p)).

Lemma expanded_nil : forall w pm s, Leafs w pm -> Expanded w [] pm pm s s [] [].
Proof.
  intros w pm s H. constructor; try (now rewrite app_nil_r); try (intros; rewrite ?inl_nil; cbn; tauto); auto; try (intros p q []).
Qed.

Lemma expanded_dicts : forall w l pm0 pm s s' L B, Expanded w l pm0 pm s s' L B -> Dicts s -> Dicts s'.
Proof. intros w l pm0 pm s s' L B E H p. rewrite (ex_procs _ _ _ _ _ _ _ _ E). destruct (inb p B); [now apply put_all_nodup|apply H]. Qed.

Lemma expanded_cons : forall w p l pm0 pm1 pm2 s s1 s2 L1 B1 L2 B2, Dicts s ->
  Expanded w [p] pm0 pm1 s s1 L1 B1 -> Expanded w l pm1 pm2 s1 s2 L2 B2 -> Expanded w (p :: l) pm0 pm2 s s2 (L1 ++ L2) (B1 ++ B2).
Proof.
  intros w p l pm0 pm1 pm2 s s1 s2 L1 B1 L2 B2 HD E1 E2.
  assert (forall q, InL w (p :: l) q <-> InL w [p] q \/ InL w l q) as HI.
  { intros q. rewrite inl_cons, (inl_cons w p []), inl_nil. tauto. }
  destruct E1 as [a1 a2 a3 a4 a5 a6 a7 a8 a9 a10]. destruct E2 as [b1 b2 b3 b4 b5 b6 b7 b8 b9 b10]. constructor.
  - rewrite b1, a1. now rewrite app_assoc.
  - rewrite b2, a2. now rewrite app_assoc.
  - intros q. rewrite in_app_iff, a3, b3, HI. tauto.
  - intros q. rewrite in_app_iff, a4, b4, HI. tauto.
  - exact b5.
  - intros q m. rewrite b6, a6, HI. tauto.
  - intros r. rewrite b7, a7, inb_app. destruct (inb r B1), (inb r B2); cbn; try reflexivity.
    apply put_all_twice; [apply HD|apply find_nodup].
  - intros q. destruct (b8 q) as [E|(r & H1 & H2 & H3)].
    + destruct (a8 q) as [E'|(r & H1 & H2 & H3)]; [left; congruence|]. right. exists r. rewrite in_app_iff. split; [auto|]. split; [auto|congruence].
    + right. exists r. rewrite in_app_iff. auto.
  - intros r q Hr Hf. apply in_app_iff in Hr. destruct Hr as [Hr|Hr].
    + destruct (a9 r q Hr Hf) as (r' & H1 & H2 & H3). destruct (b8 q) as [E|(r2 & H4 & H5 & H6)].
      * exists r'. rewrite in_app_iff. split; [auto|]. split; [auto|congruence].
      * exists r2. rewrite in_app_iff. auto.
    + destruct (b9 r q Hr Hf) as (r' & H1 & H2 & H3). exists r'. rewrite in_app_iff. auto.
  - intros r. rewrite b10, a10, inb_app. destruct (inb r B1), (inb r B2); reflexivity.
Qed.

Lemma upd_same : forall {A} (f : nat -> A) i a, upd f i a i = a.
Proof. intros. unfold upd. now rewrite Nat.eqb_refl. Qed.
Lemma upd_other : forall {A} (f : nat -> A) i a j, j <> i -> upd f i a j = f j.
Proof. intros. unfold upd. destruct (Nat.eqb_spec j i); congruence. Qed.

Lemma register_parent : forall l p (f : nat -> option nat) q,
  fold_left (fun f q => upd f q (Some p)) l f q = if inb q l then Some p else f q.
Proof.
  intros l p. induction l as [|x l IH]; intros f q; [reflexivity|]. cbn [fold_left inb existsb]. rewrite IH.
  fold (inb q l). destruct (inb q l); [now rewrite orb_true_r|]. rewrite orb_false_r. unfold upd. reflexivity.
Qed.

Lemma one_expanded : forall f w p pm0 pm s s', Dicts s -> Leafs w pm0 ->
  (forall l st pm st', Dicts st -> map_proc f w l st = Some (pm, st') -> exists L B, Expanded w l [] pm st st' L B) ->
  one f w pm0 s p = Some (pm, s') -> exists L B, Expanded w [p] pm0 pm s s' L B.
Proof.
  intros f w p pm0 pm s s' HD HL IH H. unfold one in H.
  assert (forall q, InL w [p] q <-> Inside w p q) as HI by (intros q; rewrite inl_cons, inl_nil; tauto).
  destruct (choose w p) as [[m|m]|] eqn:Ec.
  - injection H as <- <-. assert (~ Hierarchical w p) as HN by (intros [m' E]; congruence).
    exists [p], []. destruct (putp_leafs w p m pm0 Ec HL) as [X Y]. constructor; cbn [done elab builds procs parent model_class]; auto; try (now rewrite app_nil_r); try (intros a b []).
    + intros q. rewrite HI, (inside_leaf w p q HN). cbn. tauto.
    + intros q. rewrite HI, (inside_leaf w p q HN). cbn. split; [tauto|]. intros [<- Hh]. contradiction.
    + intros q k. rewrite Y, HI, (inside_leaf w p q HN). split; [intros [E|[-> ->]]; auto|]. intros [E|[<- E]]; [auto|]. right. split; congruence.
  - cbv zeta in H. destruct (map_proc f w _ _) as [[sub t]|] eqn:Em; [|discriminate]. injection H as <- <-.
    assert (Hierarchical w p) as Hh by (now exists m).
    apply IH in Em; [|intros r; cbn [register built procs]; unfold upd; destruct (Nat.eqb_spec r p); [apply put_all_nodup|]; apply HD].
    destruct Em as (L & B & E). destruct E as [b1 b2 b3 b4 b5 b6 b7 b8 b9 b10]. cbn [register built procs parent builds elab model_class] in *.
    assert (forall q, Inside w p q <-> p = q \/ InL w (map snd (find_sub_procs w p)) q) as HQ.
    { intros q. rewrite inside_cases, (inl_found w p q Hh). reflexivity. }
    exists (L ++ [p]), (p :: B).
    destruct (updatep_leafs w sub pm0 (proj2 b5) HL) as [X Y].
    constructor; cbn [done classed elab builds procs parent model_class].
    + rewrite b1. now rewrite app_assoc.
    + rewrite b2. now rewrite <- app_assoc.
    + intros q. rewrite in_app_iff, b3, HI, HQ. cbn. tauto.
    + intros q. rewrite HI, HQ. cbn [In]. rewrite b4. split; [intros [<-|[H1 H2]]; auto|intros [[E|H1] H2]; auto].
    + exact X.
    + intros q k. rewrite Y, b6, HI, HQ. split.
      * intros [E|[[]|[E1 E2]]]; auto.
      * intros [E|[[<-|E1] E2]]; auto. congruence.
    + intros r. rewrite b7. cbn [inb existsb]. fold (inb r B). unfold upd. destruct (Nat.eqb_spec r p) as [->|Hn]; cbn [orb]; [|reflexivity].
      destruct (inb p B); [|reflexivity]. apply put_all_twice; [apply HD|apply find_nodup].
    + intros q. specialize (b8 q). rewrite register_parent in b8. destruct b8 as [E|(r & H1 & H2 & H3)].
      * destruct (inb q (map snd (find_sub_procs w p))) eqn:Eb; [|now left]. right. exists p. split; [now left|]. split; [|exact E].
        apply inb_in in Eb. now apply found_iff.
      * right. exists r. cbn [In]. auto.
    + intros r q [<-|Hr] Hf.
      * specialize (b8 q). rewrite register_parent in b8. destruct b8 as [E|(r & H1 & H2 & H3)].
        -- replace (inb q (map snd (find_sub_procs w p))) with true in E by (symmetry; apply inb_in; now apply found_iff).
           exists p. cbn [In]. auto.
        -- exists r. cbn [In]. auto.
      * destruct (b9 r q Hr Hf) as (r' & H1 & H2 & H3). exists r'. cbn [In]. auto.
    + intros r. cbn [inb existsb]. fold (inb r B). unfold upd. destruct (Nat.eqb_spec r p) as [->|Hn]; cbn [orb]; [now rewrite Ec|apply b10].
  - injection H as <- <-. assert (~ Hierarchical w p) as HN by (intros [m' E]; congruence).
    exists [p], []. constructor; cbn [done elab builds procs parent model_class]; auto; try (now rewrite app_nil_r); try (intros a b []).
    + intros q. rewrite HI, (inside_leaf w p q HN). cbn. tauto.
    + intros q. rewrite HI, (inside_leaf w p q HN). cbn. split; [tauto|]. intros [<- Hh]. contradiction.
    + intros q k. rewrite HI, (inside_leaf w p q HN). split; [auto|]. intros [E|[<- E]]; [auto|]. congruence.
Qed.

Theorem map_proc_expanded : forall f w l st pm st', Dicts st -> map_proc f w l st = Some (pm, st') ->
  exists L B, Expanded w l [] pm st st' L B.
Proof.
  induction f as [|f IH]; intros w l st pm st' HD H; [discriminate|].
  rewrite map_proc_S in H. assert (Leafs w []) as HL by (split; [constructor|intros q m []]).
  revert HL st HD H. generalize (@nil (nat * nat)) as pm0. induction l as [|p l IHl]; intros pm0 HL st HD H; cbn [mapl] in H.
  - injection H as <- <-. exists [], []. now apply expanded_nil.
  - destruct (one f w pm0 st p) as [[pm1 s1]|] eqn:E; [|discriminate].
    apply one_expanded in E; auto. destruct E as (L1 & B1 & E1).
    destruct (IHl pm1 (ex_pm _ _ _ _ _ _ _ _ E1) s1 (expanded_dicts _ _ _ _ _ _ _ _ E1 HD) H) as (L2 & B2 & E2).
    exists (L1 ++ L2), (B1 ++ B2). eapply expanded_cons; eauto.
Qed.

(** ** in a network of trees everything happens once *)
Lemma nodup_app : forall {A} (l1 l2 : list A), NoDup l1 -> NoDup l2 -> (forall x, In x l1 -> ~ In x l2) -> NoDup (l1 ++ l2).
Proof.
  intros A l1 l2 H1 H2 HN. induction H1 as [|x l Hx H IH]; [exact H2|]. cbn. constructor.
  - rewrite in_app_iff. intros [X|X]; [auto|]. apply (HN x); [now left|exact X].
  - apply IH. intros y Hy. apply HN. now right.
Qed.

Lemma map_proc_once : forall w, (forall p p' q, Found w p q -> Found w p' q -> p = p') ->
  (forall p, NoDup (map snd (find_sub_procs w p))) ->
  forall f l st pm st', Dicts st -> map_proc f w l st = Some (pm, st') -> NoDup l -> Apart w l ->
  forall L B, elab st' = elab st ++ L -> builds st' = builds st ++ B -> NoDup L /\ NoDup B.
Proof.
  intros w HU HN. induction f as [|f IH]; intros l st pm st' HD H Hl HA L B HeL HeB; [discriminate|].
  assert (map_proc (S f) w l st <> None) as Hok by congruence.
  rewrite map_proc_S in H.
  assert (forall p, In p l -> ~ Nested w (S f) p) as HNest.
  { intros p Hp X. apply Hok. apply map_proc_none. right. eauto. }
  clear Hok. assert (Leafs w []) as HL by (split; [constructor|intros q m []]).
  revert HL st HD H L B HeL HeB. generalize (@nil (nat * nat)) as pm0.
  induction l as [|p l IHl]; intros pm0 HL st HD H L B HeL HeB; cbn [mapl] in H.
  - injection H as <- <-. rewrite <- (app_nil_r (elab st)) in HeL at 1. rewrite <- (app_nil_r (builds st)) in HeB at 1.
    apply app_inv_head in HeL. apply app_inv_head in HeB. subst. split; constructor.
  - destruct (one f w pm0 st p) as [[pm1 s1]|] eqn:E; [|discriminate].
    pose proof E as E'. apply one_expanded in E'; auto; [|intros; eapply map_proc_expanded; eauto]. destruct E' as (L1 & B1 & E1).
    assert (exists L2 B2, Expanded w l pm1 pm s1 st' L2 B2) as (L2 & B2 & E2).
    { clear - H E1 HD. pose proof (ex_pm _ _ _ _ _ _ _ _ E1) as HL. pose proof (expanded_dicts _ _ _ _ _ _ _ _ E1 HD) as HD1.
      clear E1 HD. revert pm1 HL s1 HD1 H. induction l as [|q l IHl]; intros pm1 HL s1 HD1 H; cbn [mapl] in H.
      - injection H as <- <-. exists [], []. now apply expanded_nil.
      - destruct (one f w pm1 s1 q) as [[pm2 s2]|] eqn:E; [|discriminate].
        apply one_expanded in E; auto; [|intros; eapply map_proc_expanded; eauto]. destruct E as (L3 & B3 & E3).
        destruct (IHl pm2 (ex_pm _ _ _ _ _ _ _ _ E3) s2 (expanded_dicts _ _ _ _ _ _ _ _ E3 HD1) H) as (L4 & B4 & E4).
        exists (L3 ++ L4), (B3 ++ B4). eapply expanded_cons; eauto. }
    inversion Hl as [|? ? Hp Hl']; subst.
    destruct (IHl Hl' (fun a b x Ha Hb => HA a b x (or_intror Ha) (or_intror Hb)) (fun a Ha => HNest a (or_intror Ha)) pm1
               (ex_pm _ _ _ _ _ _ _ _ E1) s1 (expanded_dicts _ _ _ _ _ _ _ _ E1 HD) H L2 B2
               (ex_elab _ _ _ _ _ _ _ _ E2) (ex_builds _ _ _ _ _ _ _ _ E2)) as [N1 N2].
    assert (L = L1 ++ L2) as ->.
    { rewrite (ex_elab _ _ _ _ _ _ _ _ E2), (ex_elab _ _ _ _ _ _ _ _ E1), <- app_assoc in HeL. now apply app_inv_head in HeL. }
    assert (B = B1 ++ B2) as ->.
    { rewrite (ex_builds _ _ _ _ _ _ _ _ E2), (ex_builds _ _ _ _ _ _ _ _ E1), <- app_assoc in HeB. now apply app_inv_head in HeB. }
    assert (forall x, In x L1 -> ~ In x L2) as HX.
    { intros x H1 H2. apply (ex_L _ _ _ _ _ _ _ _ E1) in H1. apply (ex_L _ _ _ _ _ _ _ _ E2) in H2.
      destruct H1 as (a & [<-|[]] & H1). destruct H2 as (b & Hb & H2). apply Hp.
      replace p with b; [exact Hb|]. symmetry. eapply HA; [now left|right; exact Hb|exact H1|exact H2]. }
    assert (forall x, In x B1 -> ~ In x B2) as HY.
    { intros x H1 H2. apply (ex_B _ _ _ _ _ _ _ _ E1) in H1. apply (ex_B _ _ _ _ _ _ _ _ E2) in H2.
      apply (HX x); [now apply (ex_L _ _ _ _ _ _ _ _ E1)|now apply (ex_L _ _ _ _ _ _ _ _ E2)]. }
    assert (NoDup L1 /\ NoDup B1) as [N3 N4].
    { pose proof (ex_elab _ _ _ _ _ _ _ _ E1) as F1. pose proof (ex_builds _ _ _ _ _ _ _ _ E1) as F2. unfold one in E.
      destruct (choose w p) as [[m|m]|] eqn:Ec.
      - injection E as <- <-. cbn in F1, F2. rewrite <- (app_nil_r (builds st)) in F2 at 1. apply app_inv_head in F1. apply app_inv_head in F2. subst.
        split; constructor; [intros []|constructor].
      - cbv zeta in E. destruct (map_proc f w _ _) as [[sub t]|] eqn:Em; [|discriminate]. injection E as <- <-.
        assert (Hierarchical w p) as Hh by (now exists m).
        assert (Dicts (register (built st p) p (find_sub_procs w p))) as HD'
          by (intros r; cbn [register built procs]; unfold upd; destruct (Nat.eqb_spec r p); [apply put_all_nodup|]; apply HD).
        destruct (map_proc_expanded _ _ _ _ _ _ HD' Em) as (L3 & B3 & E3).
        pose proof (HNest p (or_introl eq_refl)) as Hnp.
        assert (Apart w (map snd (find_sub_procs w p))) as HA3.
        { apply (siblings_apart w HU p); [now exists (S f)|]. intros q Hq. now apply found_iff. }
        destruct (IH _ _ _ _ HD' Em (HN p) HA3 L3 B3 (ex_elab _ _ _ _ _ _ _ _ E3) (ex_builds _ _ _ _ _ _ _ _ E3)) as [N5 N6].
        cbn [done classed elab builds] in F1, F2.
        rewrite (ex_elab _ _ _ _ _ _ _ _ E3) in F1. rewrite (ex_builds _ _ _ _ _ _ _ _ E3) in F2.
        cbn [register built elab builds] in F1, F2. rewrite <- app_assoc in F1, F2. apply app_inv_head in F1. apply app_inv_head in F2. subst L1 B1.
        assert (~ In p L3) as HpL.
        { intros X. apply (ex_L _ _ _ _ _ _ _ _ E3) in X. apply (inl_found w p p Hh) in X. now apply Hnp, cycle_nested. }
        split.
        + apply nodup_app; [exact N5|constructor; [intros []|constructor]|]. intros x Hx [<-|[]]. contradiction.
        + cbn. constructor; [|exact N6]. intros X. apply HpL. apply (ex_L _ _ _ _ _ _ _ _ E3). now apply (ex_B _ _ _ _ _ _ _ _ E3) in X.
      - injection E as <- <-. cbn in F1, F2. rewrite <- (app_nil_r (builds st)) in F2 at 1. apply app_inv_head in F1. apply app_inv_head in F2. subst.
        split; constructor; [intros []|constructor]. }
    split; now apply nodup_app.
Qed.
