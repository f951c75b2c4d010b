(** C20: reshape and transpose ports only rearrange data; C22: shapes accepted by concat_with. *)
From Coq Require Import List Arith ZArith Bool Lia Permutation Sorted.
From Verif Require Import VPorts_Model.
Import ListNotations.

(** ** Specification vocabulary *)
(** a multi-index within a shape *)
Definition inside (sh idx : list nat) : Prop := Forall2 (fun i n => i < n) idx sh.
Definition wf (a : nd) : Prop := length (elems a) = prod (shape a).
(** axes that are a permutation of 0..n-1, as numpy documents *)
Definition is_perm (n : nat) (axes : list Z) : Prop := Permutation axes (map Z.of_nat (seq 0 n)).

Lemma nth_map {A B} (f : A -> B) l k d d' : k < length l -> nth k (map f l) d' = f (nth k l d).
Proof. revert k. induction l; simpl; intros k H; [lia|]. destruct k; auto. apply IHl. lia. Qed.

(** ** Row-major indices *)
Lemma inside_cons n sh i idx : inside (n :: sh) (i :: idx) <-> i < n /\ inside sh idx.
Proof. split; intro H; [inversion H; auto | destruct H; constructor; auto]. Qed.

Lemma ravel_lt sh idx : inside sh idx -> ravel sh idx < prod sh.
Proof.
  unfold inside. revert idx. induction sh; intros idx H; inversion H; subst; simpl; [lia|].
  specialize (IHsh _ H4). fold (prod sh). nia.
Qed.

Lemma indices_length sh : length (indices sh) = prod sh.
Proof.
  induction sh; simpl; auto. fold (prod sh).
  assert (forall s n, length (flat_map (fun i => map (cons i) (indices sh)) (seq s n)) = n * prod sh) as G.
  { intros s n; revert s; induction n; intros; simpl; auto. rewrite app_length, map_length, IHsh, IHn; auto. }
  apply G.
Qed.

Lemma indices_inside sh idx : In idx (indices sh) -> inside sh idx.
Proof.
  revert idx. induction sh; simpl; intros idx H.
  - destruct H as [<-|[]]. constructor.
  - apply in_flat_map in H. destruct H as [i [Hi H]]. apply in_map_iff in H. destruct H as [t [<- H]].
    apply in_seq in Hi. constructor; [lia|]. apply IHsh; auto.
Qed.

Lemma nth_flat_map_block {B} (g : nat -> list B) (m : nat) (Hg : forall i, length (g i) = m) s n i r d :
  i < n -> r < m -> nth (i * m + r) (flat_map g (seq s n)) d = nth r (g (s + i)) d.
Proof.
  revert s i. induction n; intros s i Hi Hr; [lia|]. simpl.
  destruct i.
  - rewrite app_nth1 by (rewrite Hg; simpl; lia). rewrite Nat.add_0_r. auto.
  - rewrite app_nth2 by (rewrite Hg; nia). rewrite Hg.
    replace (S i * m + r - m) with (i * m + r) by nia.
    rewrite IHn by lia. f_equal. f_equal. lia.
Qed.

Lemma nth_indices sh idx : inside sh idx -> nth (ravel sh idx) (indices sh) [] = idx.
Proof.
  unfold inside. revert idx. induction sh; intros idx H; inversion H; subst; auto.
  simpl. rewrite (nth_flat_map_block _ (prod sh)).
  - simpl. rewrite (nth_indep _ [] (x :: [])) by (rewrite map_length, indices_length; apply ravel_lt; auto).
    rewrite map_nth. f_equal. auto.
  - intro. rewrite map_length. apply indices_length.
  - auto.
  - apply ravel_lt; auto.
Qed.

Lemma inside_length sh idx : inside sh idx -> length idx = length sh.
Proof. unfold inside. induction 1; simpl; auto. Qed.

Lemma ravel_inj sh i j : inside sh i -> inside sh j -> ravel sh i = ravel sh j -> i = j.
Proof. intros Hi Hj E. rewrite <- (nth_indices sh i Hi), <- (nth_indices sh j Hj), E. auto. Qed.

Lemma indices_complete sh idx : inside sh idx -> In idx (indices sh).
Proof.
  intro H. rewrite <- (nth_indices sh idx H). apply nth_In. rewrite indices_length. apply ravel_lt; auto.
Qed.

Lemma ravel_nth sh k : k < prod sh -> ravel sh (nth k (indices sh) []) = k.
Proof.
  revert k. induction sh; simpl; intros k Hk; [lia|]. fold (prod sh) in Hk.
  assert (prod sh <> 0) by nia.
  assert (k / prod sh < a) by (apply Nat.div_lt_upper_bound; nia).
  pose proof (Nat.mod_upper_bound k (prod sh) H).
  assert (k = (k / prod sh) * prod sh + k mod prod sh) as Ek
    by (rewrite Nat.mul_comm; apply Nat.div_mod; auto).
  set (q := k / prod sh) in *. set (r := k mod prod sh) in *. clearbody q r. subst k.
  rewrite (nth_flat_map_block _ (prod sh)); auto.
  - simpl. rewrite (nth_indep _ [] (q :: [])) by (rewrite map_length, indices_length; auto).
    rewrite map_nth. rewrite IHsh by auto. auto.
  - intro. rewrite map_length. apply indices_length.
Qed.

Lemma indices_NoDup sh : NoDup (indices sh).
Proof.
  apply (NoDup_nth _ []). rewrite indices_length. intros i j Hi Hj E.
  rewrite <- (ravel_nth sh i Hi), <- (ravel_nth sh j Hj), E. auto.
Qed.

(** an array is the table of its elements *)
Lemma elems_table a : wf a -> elems a = map (get a) (indices (shape a)).
Proof.
  intro H. apply (nth_ext _ _ 0%Z 0%Z).
  - rewrite map_length, indices_length. auto.
  - intros k Hk. rewrite H in Hk.
    rewrite (nth_indep (map _ _) 0%Z (get a [])) by (rewrite map_length, indices_length; auto).
    rewrite map_nth. unfold get. rewrite ravel_nth; auto.
Qed.

Lemma nd_ext a b : wf a -> wf b -> shape a = shape b ->
  (forall idx, inside (shape a) idx -> get a idx = get b idx) -> a = b.
Proof.
  intros Ha Hb Es H.
  assert (elems a = elems b) as Ee.
  { rewrite (elems_table _ Ha), (elems_table _ Hb), <- Es.
    apply map_ext_in. intros idx Hin. apply H. apply indices_inside; auto. }
  destruct a, b. simpl in *. congruence.
Qed.

(** ** Permutations of axes *)
Lemma norm_axes_ok n axes perm : norm_axes n axes = Some perm ->
  length perm = length axes /\ Forall (fun k => k < n) perm.
Proof.
  revert perm. induction axes as [|i r IH]; simpl; intros perm H; [injection H as <-; auto|].
  unfold norm_axis in H.
  destruct (Z.ltb_spec i 0); [destruct (Z.ltb_spec (Z.of_nat n + i) 0)|destruct (Z.leb_spec (Z.of_nat n) i)];
    destruct (norm_axes n r) as [ks|]; try discriminate; injection H as <-;
    destruct (IH _ eq_refl); simpl; split; auto; constructor; auto; lia.
Qed.

Lemma nodupb_spec l : nodupb l = true <-> NoDup l.
Proof.
  induction l; simpl; split; intro H; auto; [constructor| |].
  - apply andb_prop in H. destruct H as [H1 H2]. apply negb_true_iff in H1.
    constructor; [|apply IHl; auto]. intro Hin.
    assert (existsb (Nat.eqb a) l = true) by (apply existsb_exists; exists a; rewrite Nat.eqb_refl; auto).
    congruence.
  - inversion H; subst. apply andb_true_intro. split; [|apply IHl; auto].
    apply negb_true_iff. destruct (existsb (Nat.eqb a) l) eqn:E; auto.
    apply existsb_exists in E. destruct E as [x [Hx E]]. apply Nat.eqb_eq in E. subst. contradiction.
Qed.

Lemma index_of_nth k l : In k l -> nth (index_of k l) l 0 = k /\ index_of k l < length l.
Proof.
  induction l; simpl; [tauto|]. intro H. destruct (Nat.eqb_spec a k); [split; [auto|lia]|].
  destruct H; [congruence|]. destruct (IHl H). split; auto; lia.
Qed.

Lemma index_of_at l i : NoDup l -> i < length l -> index_of (nth i l 0) l = i.
Proof.
  revert i. induction l; simpl; intros i Hn Hi; [lia|]. inversion Hn; subst.
  destruct i; [rewrite Nat.eqb_refl; auto|].
  destruct (Nat.eqb_spec a (nth i l 0)) as [->|]; [exfalso; apply H1; apply nth_In; lia|].
  f_equal. apply IHl; auto; lia.
Qed.

Lemma perm_mem n perm : length perm = n -> Forall (fun k => k < n) perm -> NoDup perm ->
  forall k, k < n -> In k perm.
Proof.
  intros Hl Hf Hn k Hk.
  assert (incl (seq 0 n) perm) as Hi.
  { apply NoDup_length_incl; auto; [rewrite seq_length; lia|].
    intros x Hx. apply in_seq. rewrite Forall_forall in Hf. specialize (Hf x Hx). lia. }
  apply Hi. apply in_seq. lia.
Qed.

Lemma scatter_length perm idx : length (scatter perm idx) = length perm.
Proof. unfold scatter. rewrite map_length, seq_length. auto. Qed.

Lemma scatter_nth perm idx k : k < length perm ->
  nth k (scatter perm idx) 0 = nth (index_of k perm) idx 0.
Proof.
  intro H. unfold scatter.
  rewrite (nth_map _ _ _ 0) by (rewrite seq_length; auto). rewrite seq_nth; auto.
Qed.

Lemma inside_nth sh idx : inside sh idx <-> length idx = length sh /\ forall k, k < length sh -> nth k idx 0 < nth k sh 0.
Proof.
  unfold inside. split.
  - intro H. split; [apply inside_length; auto|].
    induction H; simpl; intros k Hk; [lia|]. destruct k; auto. apply IHForall2. lia.
  - revert idx. induction sh; destruct idx; simpl; intros [Hl H]; try lia; constructor.
    + specialize (H 0). simpl in H. lia.
    + apply IHsh. split; [lia|]. intros k Hk. apply (H (S k)). lia.
Qed.

Lemma map_nth_shape perm sh k : k < length perm ->
  nth k (map (fun j => nth j sh 0) perm) 0 = nth (nth k perm 0) sh 0.
Proof.
  intro H. apply (nth_map (fun j => nth j sh 0) perm k 0); auto.
Qed.

Section Perm.
Variables (n : nat) (perm sh : list nat).
Hypothesis Hlen : length perm = n.
Hypothesis Hsh : length sh = n.
Hypothesis Hlt : Forall (fun k => k < n) perm.
Hypothesis Hnd : NoDup perm.

Let sh' := map (fun k => nth k sh 0) perm.

Lemma scatter_inside idx : inside sh' idx -> inside sh (scatter perm idx).
Proof.
  intro H. apply inside_nth in H. unfold sh' in H. rewrite map_length in H. destruct H as [Hl H].
  apply inside_nth. rewrite scatter_length. split; [congruence|].
  intros k Hk. rewrite scatter_nth by congruence.
  assert (In k perm) as Hin by (apply (perm_mem n); auto; congruence).
  destruct (index_of_nth k perm Hin) as [E Hi].
  specialize (H _ Hi). rewrite map_nth_shape in H by auto. rewrite E in H. auto.
Qed.

Lemma scatter_spec idx k : inside sh' idx -> k < n -> nth (nth k perm 0) (scatter perm idx) 0 = nth k idx 0.
Proof.
  intros H Hk. rewrite scatter_nth.
  - rewrite index_of_at; auto. rewrite Hlen; auto.
  - rewrite Forall_forall in Hlt. rewrite Hlen. apply Hlt. apply nth_In. lia.
Qed.

Lemma scatter_unique idx j : inside sh' idx -> length j = n ->
  (forall k, k < n -> nth (nth k perm 0) j 0 = nth k idx 0) -> j = scatter perm idx.
Proof.
  intros H Hj Hk. apply (nth_ext _ _ 0 0); [rewrite scatter_length; congruence|].
  intros k Hkk. rewrite scatter_nth by congruence.
  assert (In k perm) as Hin by (apply (perm_mem n); auto; congruence).
  destruct (index_of_nth k perm Hin) as [E Hi].
  rewrite <- E at 1. apply Hk. lia.
Qed.
End Perm.

(** ** np.transpose is what its documentation says *)
Lemma transpose_spec axes a b : np_transpose axes a = Some b ->
  exists perm, norm_axes (length (shape a)) axes = Some perm /\ NoDup perm /\
    length perm = length (shape a) /\ Forall (fun k => k < length (shape a)) perm /\
    shape b = map (fun k => nth k (shape a) 0) perm /\ wf b /\
    forall idx, inside (shape b) idx -> get b idx = get a (scatter perm idx).
Proof.
  unfold np_transpose. destruct (Nat.eqb_spec (length axes) (length (shape a))); [|discriminate].
  destruct (norm_axes _ axes) as [perm|] eqn:En; [|discriminate].
  destruct (nodupb perm) eqn:Ed; [|discriminate]. intro H; injection H as <-.
  apply nodupb_spec in Ed. destruct (norm_axes_ok _ _ _ En).
  exists perm. repeat (split; [try congruence; auto|]); simpl.
  - unfold wf. simpl. rewrite map_length, indices_length. auto.
  - intros idx Hi. unfold get at 1. simpl.
    rewrite (nth_map _ _ _ []) by (rewrite indices_length; apply ravel_lt; auto).
    rewrite nth_indices; auto.
Qed.

Lemma Permutation_map_get a b perm :
  wf a -> wf b -> length perm = length (shape a) -> Forall (fun k => k < length (shape a)) perm -> NoDup perm ->
  shape b = map (fun k => nth k (shape a) 0) perm ->
  (forall idx, inside (shape b) idx -> get b idx = get a (scatter perm idx)) ->
  Permutation (elems b) (elems a).
Proof.
  intros Ha Hb Hl Hf Hn Es Hg.
  rewrite (elems_table _ Ha), (elems_table _ Hb).
  rewrite (map_ext_in _ (fun idx => get a (scatter perm idx))) by
    (intros idx Hi; apply Hg; apply indices_inside; auto).
  rewrite <- (map_map (scatter perm) (get a)). apply Permutation_map.
  rewrite Es. apply NoDup_Permutation_bis.
  - (* injective *)
    apply (NoDup_nth _ []). rewrite map_length. intros i j Hi Hj E.
    set (sh' := map (fun k => nth k (shape a) 0) perm) in *.
    rewrite (nth_map _ _ _ []), (nth_map _ _ _ []) in E by auto.
    rewrite indices_length in Hi, Hj.
    assert (inside sh' (nth i (indices sh') [])) as Ii by (apply indices_inside, nth_In; rewrite indices_length; auto).
    assert (inside sh' (nth j (indices sh') [])) as Ij by (apply indices_inside, nth_In; rewrite indices_length; auto).
    assert (nth i (indices sh') [] = nth j (indices sh') []) as E2.
    { pose proof (inside_length _ _ Ii) as L1. pose proof (inside_length _ _ Ij) as L2.
      apply (nth_ext _ _ 0 0); [congruence|]. intros k Hk. rewrite L1 in Hk. unfold sh' in Hk. rewrite map_length in Hk.
      rewrite <- (scatter_spec (length (shape a)) perm (shape a) Hl eq_refl Hf Hn _ k Ii) by lia.
      rewrite <- (scatter_spec (length (shape a)) perm (shape a) Hl eq_refl Hf Hn _ k Ij) by lia.
      rewrite E. auto. }
    rewrite <- (ravel_nth sh' i Hi), <- (ravel_nth sh' j Hj), E2. auto.
  - (* as many source as target indices *)
    rewrite map_length, !indices_length.
    assert (Permutation perm (seq 0 (length (shape a)))) as P.
    { apply NoDup_Permutation; auto; [apply seq_NoDup|]. intro x. rewrite in_seq. split; intro Hx.
      - rewrite Forall_forall in Hf. specialize (Hf _ Hx). lia.
      - apply (perm_mem (length (shape a))); auto; lia. }
    assert (Permutation (map (fun k => nth k (shape a) 0) perm) (shape a)) as P2.
    { rewrite P. clear. replace (map _ _) with (shape a); auto.
      generalize (shape a) as l. intro l. apply (nth_ext _ _ 0 0); [rewrite map_length, seq_length; auto|].
      intros k Hk. rewrite (nth_map _ _ _ 0) by (rewrite seq_length; auto).
      rewrite seq_nth; auto. }
    assert (forall l m, Permutation l m -> prod l = prod m) as PP.
    { clear. unfold prod. induction 1; simpl; auto; try lia. }
    rewrite (PP _ _ P2). auto.
  - intros x Hx. apply in_map_iff in Hx. destruct Hx as [idx [<- Hx]].
    apply indices_complete. apply (scatter_inside (length (shape a))); auto. apply indices_inside; auto.
Qed.

(** ** np.argsort inverts a permutation *)
Lemma insert_key_perm x l : Permutation (insert_key x l) (x :: l).
Proof.
  induction l; simpl; auto. destruct (fst x <=? fst a)%Z; auto.
  rewrite IHl. apply perm_swap.
Qed.
Lemma sort_keys_perm l : Permutation (sort_keys l) l.
Proof. induction l; simpl; auto. rewrite insert_key_perm. auto. Qed.

Definition kle (a b : Z * nat) := (fst a <= fst b)%Z.
Lemma insert_key_sorted x l : Sorted kle l -> Sorted kle (insert_key x l).
Proof.
  induction l; simpl; intro H; auto.
  destruct (Z.leb_spec (fst x) (fst a)); [constructor; auto|].
  inversion H; subst. constructor; auto.
  destruct l; simpl; [constructor; unfold kle; lia|].
  inversion H4; subst. destruct (fst x <=? fst p)%Z; constructor; auto. unfold kle. lia.
Qed.
Lemma sort_keys_sorted l : Sorted kle (sort_keys l).
Proof. induction l; simpl; auto. apply insert_key_sorted; auto. Qed.

Lemma sorted_seq_unique : forall (l : list Z) s n,
  Sorted Z.le l -> Permutation l (map Z.of_nat (seq s n)) -> l = map Z.of_nat (seq s n).
Proof.
  intros l s n. revert l s. induction n; intros l s Hs Hp; simpl in *.
  - apply Permutation_sym, Permutation_nil in Hp. auto.
  - apply Sorted_StronglySorted in Hs; [|intros ? ? ?; lia].
    destruct l as [|x r]; [apply Permutation_nil in Hp; discriminate|].
    inversion Hs; subst.
    assert (x = Z.of_nat s) as ->.
    { assert (In (Z.of_nat s) (x :: r)) as H by (rewrite Hp; left; auto).
      assert (In x (Z.of_nat s :: map Z.of_nat (seq (S s) n))) as H' by (rewrite <- Hp; left; auto).
      destruct H as [H|H]; auto. rewrite Forall_forall in H2. specialize (H2 _ H).
      destruct H' as [H'|H']; auto. apply in_map_iff in H'. destruct H' as [y [<- Hy]]. apply in_seq in Hy. lia. }
    f_equal. apply IHn; [apply StronglySorted_Sorted; auto|]. eapply Permutation_cons_inv; eauto.
Qed.

Lemma combine_seq_nth (l : list Z) s k v : In (v, k) (combine l (seq s (length l))) -> s <= k /\ nth (k - s) l 0%Z = v /\ k - s < length l.
Proof.
  revert s. induction l; simpl; intros s H; [tauto|]. destruct H as [H|H].
  - injection H as <- <-. rewrite Nat.sub_diag. split; [lia|split; auto; lia].
  - apply IHl in H. destruct H as [? [? ?]]. split; [lia|].
    destruct (k - s) eqn:E; [lia|]. replace (k - S s) with n in * by lia. split; auto; lia.
Qed.

Lemma argsort_spec n axes : is_perm n axes ->
  length (np_argsort axes) = n /\
  forall k, k < n -> nth k (np_argsort axes) 0 < n /\ nth (nth k (np_argsort axes) 0) axes 0%Z = Z.of_nat k.
Proof.
  unfold is_perm. intro P.
  assert (length axes = n) as Hl by (rewrite (Permutation_length P), map_length, seq_length; auto).
  set (S := sort_keys (combine axes (seq 0 (length axes)))).
  assert (length S = n) as HS.
  { unfold S. rewrite (Permutation_length (sort_keys_perm _)), combine_length, seq_length. lia. }
  assert (map fst S = map Z.of_nat (seq 0 n)) as Hf.
  { apply sorted_seq_unique.
    - pose proof (sort_keys_sorted (combine axes (seq 0 (length axes)))) as H. fold S in H. revert H. generalize S.
      induction 1; simpl; auto. constructor; auto. inversion H0; subst; simpl; constructor; auto.
    - unfold S. rewrite sort_keys_perm. rewrite <- P.
      replace (map fst _) with axes; auto.
      generalize 0. clear. induction axes; simpl; intro; auto. f_equal. auto. }
  unfold np_argsort. fold S. split; [rewrite map_length; auto|].
  intros k Hk.
  assert (nth k (map snd S) 0 = snd (nth k S (0%Z, 0))) as -> by (rewrite (map_nth snd S (0%Z,0)); auto).
  assert (fst (nth k S (0%Z, 0)) = Z.of_nat k) as E.
  { rewrite <- (map_nth fst S (0%Z,0)), Hf. simpl.
    rewrite (nth_indep _ 0%Z (Z.of_nat 0)) by (rewrite map_length, seq_length; auto).
    rewrite map_nth, seq_nth; auto. }
  assert (In (nth k S (0%Z,0)) (combine axes (seq 0 (length axes)))) as Hin.
  { eapply Permutation_in; [apply sort_keys_perm|]. apply nth_In. rewrite <- HS in Hk. auto. }
  destruct (nth k S (0%Z, 0)) as [v i]. simpl in *. subst v.
  apply combine_seq_nth in Hin. rewrite Nat.sub_0_r in Hin. destruct Hin as [_ [? ?]]. split; auto; lia.
Qed.

Lemma norm_axes_of_nat n l : Forall (fun k => k < n) l -> norm_axes n (map Z.of_nat l) = Some l.
Proof.
  induction 1; simpl; auto. rewrite IHForall. unfold norm_axis.
  destruct (Z.ltb_spec (Z.of_nat x) 0); [lia|]. destruct (Z.leb_spec (Z.of_nat n) (Z.of_nat x)); [lia|].
  rewrite Nat2Z.id. auto.
Qed.

Lemma is_perm_nat n axes : is_perm n axes -> exists l, axes = map Z.of_nat l /\ Permutation l (seq 0 n).
Proof.
  intro P. exists (map Z.to_nat axes). split.
  - rewrite map_map. rewrite (map_ext_in _ (fun x => x)); [rewrite map_id; auto|].
    intros x Hx. rewrite P in Hx. apply in_map_iff in Hx. destruct Hx as [y [<- _]]. lia.
  - unfold is_perm in P. rewrite P. rewrite map_map. rewrite (map_ext _ (fun x => x)); [rewrite map_id; auto|].
    intro; lia.
Qed.

Lemma is_perm_norm n axes : is_perm n axes ->
  exists l, axes = map Z.of_nat l /\ norm_axes n axes = Some l /\ length l = n /\ NoDup l /\ Forall (fun k => k < n) l.
Proof.
  intro H. destruct (is_perm_nat _ _ H) as [l [-> P]]. exists l.
  assert (Forall (fun k => k < n) l) as F.
  { apply Forall_forall. intros x Hx. rewrite P in Hx. apply in_seq in Hx. lia. }
  split; auto. split; [apply norm_axes_of_nat; auto|].
  split; [rewrite (Permutation_length P), seq_length; auto|].
  split; auto. eapply Permutation_NoDup; [apply Permutation_sym; eauto|apply seq_NoDup].
Qed.

Lemma transpose_defined axes a : is_perm (length (shape a)) axes -> exists b, np_transpose axes a = Some b.
Proof.
  intro H. destruct (is_perm_norm _ _ H) as [l [E [En [Hl [Hn Hf]]]]].
  unfold np_transpose. rewrite En. subst axes. rewrite map_length, Hl, Nat.eqb_refl.
  apply nodupb_spec in Hn. rewrite Hn. eauto.
Qed.

(** ** C20 theorems *)

(** A transpose port re-indexes as numpy documents: result axis k runs over input axis axes[k]. *)
Theorem transpose_rearranges : forall axes a,
  wf a -> is_perm (length (shape a)) axes ->
  exists b, np_transpose axes a = Some b /\ wf b /\
    length (shape b) = length (shape a) /\
    (forall k, k < length (shape a) -> nth k (shape b) 0 = nth (Z.to_nat (nth k axes 0%Z)) (shape a) 0) /\
    (forall idx, inside (shape b) idx ->
       exists j, inside (shape a) j /\
         (forall k, k < length (shape a) -> nth (Z.to_nat (nth k axes 0%Z)) j 0 = nth k idx 0) /\
         get b idx = get a j) /\
    Permutation (elems b) (elems a).
Proof.
  intros axes a Ha Hp. destruct (transpose_defined _ _ Hp) as [b Hb]. exists b. split; auto.
  destruct (transpose_spec _ _ _ Hb) as [perm [En [Hn [Hl [Hf [Es [Hw Hg]]]]]]].
  destruct (is_perm_norm _ _ Hp) as [l [El [En' [Hl' [Hn' Hf']]]]].
  rewrite En in En'. injection En' as ->.
  assert (forall k, k < length (shape a) -> Z.to_nat (nth k axes 0%Z) = nth k l 0) as Enth.
  { intros k Hk. rewrite El. rewrite (nth_indep _ 0%Z (Z.of_nat 0)) by (rewrite map_length; lia).
    rewrite map_nth, Nat2Z.id. auto. }
  split; auto. split; [rewrite Es, map_length; auto|].
  split; [intros k Hk; rewrite Es, map_nth_shape, Enth by lia; auto|].
  split.
  - intros idx Hi. exists (scatter l idx). rewrite Es in Hi.
    split; [apply (scatter_inside (length (shape a))); auto|].
    split; [|apply Hg; rewrite Es; auto].
    intros k Hk. rewrite Enth by auto. apply (scatter_spec (length (shape a)) l (shape a)); auto.
  - eapply Permutation_map_get; eauto.
Qed.

Lemma shape_perm_back n l inv sh : length sh = n -> length l = n -> length inv = n ->
  Forall (fun k => k < n) inv ->
  (forall k, k < n -> nth (nth k inv 0) l 0 = k) ->
  map (fun k => nth k (map (fun k => nth k sh 0) l) 0) inv = sh.
Proof.
  intros Hs Hl Hi Hf H. apply (nth_ext _ _ 0 0); [rewrite map_length; congruence|].
  intros k Hk. rewrite map_length in Hk. rewrite map_nth_shape by auto.
  assert (nth k inv 0 < n) by (rewrite Forall_forall in Hf; apply Hf, nth_In; lia).
  rewrite map_nth_shape by lia. rewrite H by lia. auto.
Qed.

Theorem transpose_undone : forall new axes a b,
  wf a -> is_perm (length (shape a)) axes ->
  fwd (TransposeP new axes) a = Some b -> bwd (TransposeP new axes) b = Some a.
Proof.
  simpl. intros _ axes a b Ha Hp Hb.
  destruct (transpose_spec _ _ _ Hb) as [perm [En [Hn [Hl [Hf [Es [Hw Hg]]]]]]].
  destruct (is_perm_norm _ _ Hp) as [l [El [En' [Hl' [Hn' Hf']]]]].
  rewrite En in En'. injection En' as ->.
  destruct (argsort_spec _ _ Hp) as [Li Hi]. set (inv := np_argsort axes) in *.
  set (n := length (shape a)) in *.
  assert (length (shape b) = n) as Lb by (rewrite Es, map_length; auto).
  assert (Forall (fun k => k < n) inv) as Fi.
  { apply Forall_forall. intros x Hx. destruct (In_nth _ _ 0 Hx) as [k [Hk <-]]. apply Hi. lia. }
  assert (forall k, k < n -> nth (nth k inv 0) l 0 = k) as Hinv.
  { intros k Hk. destruct (Hi k Hk) as [H1 H2]. rewrite El in H2.
    rewrite (nth_indep _ 0%Z (Z.of_nat 0)) in H2 by (rewrite map_length; lia).
    rewrite map_nth in H2. lia. }
  assert (NoDup inv) as Ni.
  { apply (NoDup_nth _ 0). intros i j Hi1 Hj1 E. rewrite <- (Hinv i), <- (Hinv j), E by lia. auto. }
  assert (is_perm (length (shape b)) (map Z.of_nat inv)) as Pb.
  { rewrite Lb. unfold is_perm. apply Permutation_map. apply NoDup_Permutation; auto; [apply seq_NoDup|].
    intro x. rewrite in_seq. split; intro Hx.
    - rewrite Forall_forall in Fi. specialize (Fi _ Hx). lia.
    - apply (perm_mem n); auto; lia. }
  destruct (transpose_defined _ _ Pb) as [c Hc]. rewrite Hc. f_equal.
  destruct (transpose_spec _ _ _ Hc) as [p2 [En2 [_ [_ [_ [Es2 [Hw2 Hg2]]]]]]].
  rewrite Lb in En2. rewrite norm_axes_of_nat in En2 by auto. injection En2 as <-.
  assert (shape c = shape a) as Ec.
  { rewrite Es2, Es. apply (shape_perm_back n); auto. }
  apply nd_ext; auto. intros idx Hidx. rewrite Hg2 by auto.
  rewrite Ec in Hidx. rewrite Es2 in Ec.
  assert (inside (shape b) (scatter inv idx)) as Hs.
  { apply (scatter_inside n); auto. rewrite Ec. auto. }
  rewrite Hg by auto. f_equal.
  symmetry. apply (scatter_unique n l (shape a)); auto.
  - rewrite <- Es. auto.
  - apply inside_length in Hidx. auto.
  - intros k Hk. rewrite scatter_nth by lia.
    assert (index_of k inv = nth k l 0) as ->; auto.
    assert (In (nth k l 0) (seq 0 n)) as HH.
    { apply in_seq. split; [lia|]. rewrite Forall_forall in Hf'. apply Hf', nth_In. lia. }
    apply in_seq in HH. destruct HH as [_ HH]. simpl in HH.
    (* inv at (l k) is k *)
    assert (nth (nth k l 0) inv 0 = k) as E3.
    { assert (nth (nth (nth k l 0) inv 0) l 0 = nth k l 0) as E4 by (apply Hinv; auto).
      apply (proj1 (NoDup_nth l 0) Hn'); auto; [|lia]. rewrite Hl'. apply Hi. auto. }
    rewrite <- E3 at 1. apply index_of_at; auto. lia.
Qed.

Theorem reshape_rearranges : forall old new a v,
  wf a -> shape a = old -> port_reshape old new = Some v ->
  exists b, fwd v a = Some b /\ wf b /\ shape b = new /\ elems b = elems a /\ bwd v b = Some a.
Proof.
  unfold port_reshape. intros old new a v Ha Es. destruct (Nat.eqb_spec (prod old) (prod new)); [|discriminate].
  intro H; injection H as <-. simpl. unfold np_reshape. rewrite Es, e, Nat.eqb_refl.
  exists (mkNd new (elems a)). simpl. rewrite <- e, Nat.eqb_refl. unfold wf in *. simpl.
  repeat split; try congruence. f_equal. destruct a; simpl in *; subst; auto.
Qed.

(** Axes given by the user to the transposes of a chain: none (default), or a permutation of 0..n-1 *)
Fixpoint good_axes (sh : list nat) (ops : list vop) : Prop :=
  match ops with
  | [] => True
  | o :: r =>
      match o with OpTranspose (Some ax) => is_perm (length sh) ax | _ => True end /\
      forall v, derive1 sh o = Some v -> good_axes (vshape v) r
  end.

Lemma is_perm_rev n : is_perm n (map Z.of_nat (rev (seq 0 n))).
Proof. unfold is_perm. apply Permutation_map. apply Permutation_sym, Permutation_rev. Qed.

Lemma derive1_ok sh o v a : derive1 sh o = Some v -> wf a -> shape a = sh ->
  match o with OpTranspose (Some ax) => is_perm (length sh) ax | _ => True end ->
  exists b, fwd v a = Some b /\ wf b /\ shape b = vshape v /\ Permutation (elems b) (elems a) /\ bwd v b = Some a.
Proof.
  intros Hd Ha Es Hg. destruct o as [new| |axes]; simpl in Hd.
  - assert (vshape v = new) by (unfold port_reshape in Hd; destruct (_ =? _); inversion Hd; auto).
    destruct (reshape_rearranges _ _ _ _ Ha Es Hd) as [b [? [? [? [E ?]]]]].
    exists b. rewrite E. repeat split; auto; congruence.
  - assert (vshape v = [prod sh]) by (unfold port_flatten, port_reshape in Hd; destruct (_ =? _); inversion Hd; auto).
    destruct (reshape_rearranges _ _ _ _ Ha Es Hd) as [b [? [? [? [E ?]]]]].
    exists b. rewrite E. repeat split; auto; congruence.
  - assert (exists ax, is_perm (length sh) ax /\ v = TransposeP (map (fun k => nth k sh 0) (map Z.to_nat ax)) ax) as [ax [Hp ->]].
    { unfold port_transpose in Hd. destruct axes as [ax|].
      - destruct (_ =? _); [|discriminate]. destruct (is_perm_norm _ _ Hg) as [l [El [En _]]].
        rewrite En in Hd. injection Hd as <-. exists ax. split; auto. f_equal. f_equal.
        rewrite El, map_map. rewrite (map_ext _ (fun x => x)); [rewrite map_id; auto|intro; lia].
      - injection Hd as <-. exists (map Z.of_nat (rev (seq 0 (length sh)))). split; [apply is_perm_rev|].
        f_equal. f_equal. rewrite map_map. rewrite (map_ext _ (fun x => x)); [rewrite map_id; auto|intro; lia]. }
    rewrite <- Es in Hp. destruct (transpose_rearranges _ _ Ha Hp) as [b [Hb [Hw [Ls [Hs [_ P]]]]]].
    exists b. simpl. split; auto. split; auto. split.
    + destruct (transpose_spec _ _ _ Hb) as [perm [En [_ [_ [_ [Es2 _]]]]]].
      destruct (is_perm_norm _ _ Hp) as [l [El [En' _]]]. rewrite En in En'. injection En' as ->.
      rewrite Es2, Es. f_equal. rewrite El, map_map. rewrite (map_ext _ (fun x => x)); [rewrite map_id; auto|intro; lia].
    + split; auto. apply (transpose_undone [] ax a b); auto.
Qed.

Lemma incoming_rev l : incoming l = rev l.
Proof. induction l; simpl; congruence. Qed.
Lemma outgoing_rev l : outgoing l = rev l.
Proof. induction l; simpl; congruence. Qed.

Lemma run_funcs_app f g a b : run_funcs f a = Some b -> run_funcs (f ++ g) a = run_funcs g b.
Proof. unfold run_funcs. intro H. rewrite fold_left_app, H. auto. Qed.

(** C20: whatever virtual ports the user derives (with legal axes), the data that arrives at the
    other end is the data sent, rearranged and with the declared shape; reading back through the same
    chain undoes it. *)
Theorem virtual_ports_rearrange_partial : forall sh ops chain,
  derive sh ops = Some chain -> good_axes sh ops ->
  forall a, wf a -> shape a = sh ->
  exists b, deliver_fwd chain a = Some b /\ wf b /\
    shape b = last (map vshape chain) sh /\
    Permutation (elems b) (elems a) /\
    deliver_bwd chain b = Some a.
Proof.
  intros sh ops. revert sh. induction ops as [|o r IH]; intros sh chain Hd Hg a Ha Es.
  - injection Hd as <-. exists a. unfold deliver_fwd, deliver_bwd, run_funcs. simpl. auto.
  - simpl in Hd, Hg. destruct Hg as [Hg1 Hg2].
    destruct (derive1 sh o) as [v|] eqn:E1; [|discriminate].
    destruct (derive (vshape v) r) as [vs|] eqn:E2; [|discriminate]. injection Hd as <-.
    destruct (derive1_ok _ _ _ _ E1 Ha Es Hg1) as [b [Hf [Hw [Hs [Hp Hb]]]]].
    destruct (IH _ _ E2 (Hg2 _ eq_refl) b Hw Hs) as [c [Hc [Hwc [Hsc [Hpc Hbc]]]]].
    exists c. unfold deliver_fwd, deliver_bwd in *.
    rewrite incoming_rev, rev_involutive in *. rewrite outgoing_rev in *.
    split; [|split; auto; split; [|split]].
    + simpl. unfold run_funcs in *. simpl. rewrite Hf. auto.
    + rewrite Hsc. simpl. destruct (map vshape vs) eqn:E; auto.
      assert (forall (x : list nat) l d d', last (x :: l) d = last (x :: l) d') as L.
      { clear. intros x l. revert x. induction l; intros; simpl in *; auto. }
      apply L.
    + rewrite Hpc; auto.
    + simpl. rewrite map_app. rewrite (run_funcs_app _ _ _ _ Hbc). unfold run_funcs. simpl. auto.
Qed.

Example virtual_ports_rearrange_applies :
  let a := mkNd [2;3] [1;2;3;4;5;6]%Z in
  let ops := [OpTranspose None; OpReshape [2;3]; OpTranspose (Some [1%Z;0%Z]); OpFlatten] in
  wf a /\ good_axes [2;3] ops /\
  exists ch, derive [2;3] ops = Some ch /\
    deliver_fwd ch a = Some (mkNd [6] [1;5;4;3;2;6]%Z) /\ deliver_bwd ch (mkNd [6] [1;5;4;3;2;6]%Z) = Some a.
Proof.
  split; [reflexivity|]. split.
  - cbn [good_axes]. split; auto. intros v Hv. injection Hv as <-.
    split; auto. intros v Hv. injection Hv as <-. split.
    + unfold is_perm. simpl. apply perm_swap.
    + intros v Hv. injection Hv as <-. split; auto.
  - eexists. split; [reflexivity|]. split; reflexivity.
Qed.

(** Negative axes, accepted by transpose(), are not undone: the full statement is false. *)
Theorem transpose_negative_axes_not_undone_refuted :
  exists v a b, port_transpose [2;3] (Some [(-1)%Z; 0%Z]) = Some v /\ wf a /\ shape a = [2;3] /\
    fwd v a = Some b /\ shape b = [3;2] /\ bwd v b <> Some a /\ bwd v b = Some b.
Proof.
  exists (TransposeP [3;2] [(-1)%Z; 0%Z]), (mkNd [2;3] [1;2;3;4;5;6]%Z), (mkNd [3;2] [1;4;2;5;3;6]%Z).
  repeat split; try reflexivity. vm_compute. discriminate.
Qed.

(** Repeated axes are accepted when the port is created and fail only when data arrives. *)
Theorem transpose_repeated_axes_accepted_refuted :
  exists v, port_transpose [2;2] (Some [0%Z; 0%Z]) = Some v /\ forall a, fwd v a = None.
Proof.
  eexists. split; [reflexivity|]. intro a. simpl. unfold np_transpose.
  destruct (shape a) as [|x [|y [|z r]]]; simpl; auto.
Qed.

(** ** C22: concat_with *)
(** shapes agree outside the axis *)
Definition outside_axis (k : nat) (sh : list nat) : list nat := firstn k sh ++ skipn (S k) sh.
Definition compatible (k : nat) (shapes : list (list nat)) : Prop :=
  (forall sh, In sh shapes -> k < length sh) /\
  (forall s1 s2, In s1 shapes -> In s2 shapes -> outside_axis k s1 = outside_axis k s2).
Definition axis_total (k : nat) (shapes : list (list nat)) : nat :=
  fold_right (fun sh acc => nth k sh 0 + acc) 0 shapes.
(** the shape with entry k replaced *)
Definition with_axis (k : nat) (sh : list nat) (m : nat) : list nat := firstn k sh ++ [m] ++ skipn (S k) sh.

Lemma list_eqb_spec a b : list_eqb a b = true <-> a = b.
Proof. unfold list_eqb. destruct (list_eq_dec Nat.eq_dec a b); split; congruence. Qed.

Lemma slice_pos_nat n k : slice_pos n (Z.of_nat k) = k.
Proof. unfold slice_pos. destruct (Z.ltb_spec (Z.of_nat k) 0); lia. Qed.
Lemma ex_axis sh k : take_to sh (Z.of_nat k) ++ drop_from sh (Z.of_nat k + 1) = outside_axis k sh.
Proof.
  unfold take_to, drop_from, outside_axis. rewrite slice_pos_nat.
  replace (Z.of_nat k + 1)%Z with (Z.of_nat (S k)) by lia. rewrite slice_pos_nat. auto.
Qed.
Lemma norm_axis_nat n k : norm_axis n (Z.of_nat k) = if k <? n then Some k else None.
Proof.
  unfold norm_axis. destruct (Z.ltb_spec (Z.of_nat k) 0); [lia|].
  destruct (Z.leb_spec (Z.of_nat n) (Z.of_nat k)), (Nat.ltb_spec k n); try lia; auto. f_equal. lia.
Qed.

(** what the loop computes for a non-negative axis: only the last two shapes are compared *)
Fixpoint last_two_differ (k : nat) (prev : option (list nat)) (shapes : list (list nat)) (inc : bool) : bool :=
  match shapes with
  | [] => inc
  | sh :: r => last_two_differ k (Some (outside_axis k sh)) r
                 (match prev with Some p => negb (list_eqb p (outside_axis k sh)) | None => inc end)
  end.

Lemma concat_loop_nat k shapes total prev inc :
  concat_loop (Z.of_nat k) shapes total prev inc =
  if forallb (fun sh => k <? length sh) shapes
  then inr (total + axis_total k shapes, last_two_differ k prev shapes inc)
  else inl ConcatIndexError.
Proof.
  revert total prev inc. induction shapes as [|sh r IH]; intros; simpl; [rewrite Nat.add_0_r; auto|].
  rewrite norm_axis_nat.
  destruct (Z.leb_spec (Z.of_nat (length sh)) (Z.of_nat k)), (Nat.ltb_spec k (length sh)); try lia; simpl; auto.
  rewrite ex_axis, IH. destruct (forallb _ r); auto. f_equal. f_equal. lia.
Qed.

Lemma with_axis_eq k sh m : k < length sh ->
  take_to (outside_axis k sh) (Z.of_nat k) ++ [m] ++ drop_from (outside_axis k sh) (Z.of_nat k) = with_axis k sh m.
Proof.
  intro H. unfold take_to, drop_from, with_axis, outside_axis. rewrite slice_pos_nat.
  assert (length (firstn k sh) = k) as L by (rewrite firstn_length; lia).
  rewrite firstn_app, skipn_app, L, Nat.sub_diag.
  rewrite (firstn_all2 (n:=k) (firstn k sh)) by lia. rewrite (skipn_all2 (n:=k) (firstn k sh)) by lia. simpl. rewrite app_nil_r. auto.
Qed.

Lemma ltd_compatible k shapes prev :
  (forall s1 s2, In s1 shapes -> In s2 shapes -> outside_axis k s1 = outside_axis k s2) ->
  (forall p s, prev = Some p -> In s shapes -> p = outside_axis k s) ->
  last_two_differ k prev shapes false = false.
Proof.
  revert prev. induction shapes as [|sh r IH]; intros prev H Hp; simpl; auto.
  assert ((match prev with Some p => negb (list_eqb p (outside_axis k sh)) | None => false end) = false) as ->.
  { destruct prev as [p|]; auto. apply negb_false_iff, list_eqb_spec. apply (Hp p sh); auto. left; auto. }
  apply IH; [intros; apply H; right; auto|]. intros p s E Hs. injection E as <-. apply H; [left|right]; auto.
Qed.

(** Compatible lists are accepted, with the documented shape, for every number of ports. *)
Theorem concat_accepts_compatible : forall k shapes,
  shapes <> [] -> compatible k shapes ->
  concat_shape (Z.of_nat k) shapes = ConcatShape (with_axis k (hd [] shapes) (axis_total k shapes)).
Proof.
  intros k shapes Hne [H1 H2]. unfold concat_shape. rewrite concat_loop_nat.
  assert (forallb (fun sh => k <? length sh) shapes = true) as ->.
  { apply forallb_forall. intros sh Hs. apply Nat.ltb_lt; auto. }
  rewrite ltd_compatible by (auto; congruence).
  destruct shapes as [|sh r]; [congruence|]. simpl hd. rewrite ex_axis, with_axis_eq; auto.
  apply H1. left; auto.
Qed.

(** For one or two ports (and any axis >= 0) exactly the compatible lists are accepted. *)
Theorem concat_exact_partial : forall k s1 rest,
  length rest <= 1 ->
  (exists sh, concat_shape (Z.of_nat k) (s1 :: rest) = ConcatShape sh) <-> compatible k (s1 :: rest).
Proof.
  intros k s1 rest Hl. split.
  - intros [sh H]. unfold concat_shape in H. rewrite concat_loop_nat in H.
    destruct (forallb _ _) eqn:E; [|discriminate]. rewrite forallb_forall in E.
    split; [intros s Hs; apply Nat.ltb_lt; apply E; auto|].
    destruct (last_two_differ k None (s1 :: rest) false) eqn:El; [discriminate|].
    destruct rest as [|s2 [|]]; simpl in Hl; [| |lia].
    + intros a b [<-|[]] [<-|[]]; auto.
    + simpl in El. apply negb_false_iff, list_eqb_spec in El.
      intros a b [<-|[<-|[]]] [<-|[<-|[]]]; auto.
  - intro H. eexists. apply concat_accepts_compatible; auto. discriminate.
Qed.

(** What is accepted, exactly, for any number of ports and any axis >= 0: every shape has the axis, and the last two
    shapes agree outside it (the others are not looked at). The result is the first shape with the sum of the sizes. *)
Lemma ltd_last k shapes : forall prev inc s1 s2,
  last_two_differ k prev (shapes ++ [s1; s2]) inc = negb (list_eqb (outside_axis k s1) (outside_axis k s2)).
Proof. induction shapes as [|sh r IH]; intros; simpl; auto. Qed.
Theorem concat_accepts_exactly : forall k shapes s1 s2 sh,
  concat_shape (Z.of_nat k) (shapes ++ [s1; s2]) = ConcatShape sh <->
  (forall s, In s (shapes ++ [s1; s2]) -> k < length s) /\ outside_axis k s1 = outside_axis k s2 /\
  sh = with_axis k (hd [] (shapes ++ [s1; s2])) (axis_total k (shapes ++ [s1; s2])).
Proof.
  intros k shapes s1 s2 sh. unfold concat_shape. rewrite concat_loop_nat, ltd_last.
  destruct (forallb (fun sh => k <? length sh) (shapes ++ [s1; s2])) eqn:E.
  - rewrite forallb_forall in E. assert (forall s, In s (shapes ++ [s1; s2]) -> k < length s) as L.
    { intros s Hs. apply Nat.ltb_lt. auto. }
    destruct (list_eqb (outside_axis k s1) (outside_axis k s2)) eqn:Q; cbn [negb].
    + apply list_eqb_spec in Q. remember (shapes ++ [s1; s2]) as al. destruct al as [|h t]; [destruct shapes; discriminate Heqal|].
      rewrite ex_axis, with_axis_eq by (apply L; left; auto). cbn [hd]. split.
      * intro H. injection H as <-. auto.
      * intros [_ [_ ->]]. auto.
    + split; [discriminate|]. intros [_ [F _]]. apply list_eqb_spec in F. congruence.
  - split; [discriminate|]. intros [L _]. assert (forallb (fun sh => k <? length sh) (shapes ++ [s1; s2]) = true); [|congruence].
    apply forallb_forall. intros s Hs. apply Nat.ltb_lt. auto.
Qed.

Example concat_applies : compatible 1 [[2;3];[2;5]] /\ concat_shape 1 [[2;3];[2;5]] = ConcatShape [2;8].
Proof.
  split; [|reflexivity]. split.
  - intros sh [<-|[<-|[]]]; simpl; lia.
  - intros a b [<-|[<-|[]]] [<-|[<-|[]]]; reflexivity.
Qed.

(** With three or more ports incompatible shapes are accepted: only the last two are compared. *)
Theorem concat_incompatible_accepted_refuted :
  ~ compatible 0 [[2;3];[2;4];[2;4]] /\ concat_shape 0 [[2;3];[2;4];[2;4]] = ConcatShape [6;3].
Proof.
  split; [|reflexivity]. intros [_ H]. specialize (H [2;3] [2;4]).
  assert ([3] = [4]) by (apply H; simpl; auto). discriminate.
Qed.

(** axis = -1 is accepted but gives a shape of the wrong rank. *)
Theorem concat_negative_axis_refuted :
  concat_shape (-1) [[2;3];[2;5]] = ConcatShapeError /\
  concat_shape (-1) [[2;3];[2;3]] = ConcatShape [2;2;6;3].
Proof. split; reflexivity. Qed.

Print Assumptions virtual_ports_rearrange_partial.
Print Assumptions transpose_rearranges.
Print Assumptions concat_exact_partial.
Print Assumptions concat_accepts_exactly.
