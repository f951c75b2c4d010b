(** C21: connect() records a connection on both sides or on neither. *)
From Coq Require Import List Arith ZArith Bool Lia.
From Verif Require Import Kahn VPorts_Model Connect_Model.
Import ListNotations.

(** ** Specification: what a user sees of a port graph *)
Definition outs_of (g : graph) (a : nat) : list nat := match nth_error g a with Some p => outs p | None => [] end.
Definition ins_of (g : graph) (a : nat) : list nat := match nth_error g a with Some p => ins p | None => [] end.

(** both sides of every connection agree and no connection is listed twice *)
Definition consistent (g : graph) : Prop :=
  (forall a b, In b (outs_of g a) <-> In a (ins_of g b)) /\
  (forall a, NoDup (outs_of g a)) /\ (forall a, NoDup (ins_of g a)).

(** one configuration for all ports, or (at least) one per port *)
Definition cfg_ok (n : nat) (configs : list (option nat)) : Prop := length configs = 1 \/ n <= length configs.

(** no port is given twice in one call *)
Definition proper (c : call) : Prop :=
  match c with
  | CConnect _ a cf | CConnectFrom _ a cf => NoDup (to_list a) /\ cfg_ok (length (to_list a)) cf
  | CConcat s l _ => NoDup (s :: l)
  | CConnectVar _ vs cf => cfg_ok (length vs) cf
  | CNew _ _ _ | CDerive _ _ => True
  end.

Definition same_links (g g' : graph) : Prop :=
  forall a, outs_of g' a = outs_of g a /\ ins_of g' a = ins_of g a.

(** ** Lemmas *)
Lemma disjoint_spec a b : is_disjoint a b = true <-> (forall x, In x a -> ~ In x b).
Proof.
  unfold is_disjoint. rewrite forallb_forall. split.
  - intros H x Hx Hb. specialize (H x Hx). apply negb_true_iff in H.
    assert (existsb (Nat.eqb x) b = true) by (apply existsb_exists; exists x; rewrite Nat.eqb_refl; auto). congruence.
  - intros H x Hx. apply negb_true_iff. destruct (existsb (Nat.eqb x) b) eqn:E; auto.
    apply existsb_exists in E. destruct E as [y [Hy E]]. apply Nat.eqb_eq in E. subst. exfalso. eapply H; eauto.
Qed.

Lemma upd_port (g : graph) a p q x : nth_error g a = Some p ->
  nth_error (upd g a q) x = if a =? x then Some q else nth_error g x.
Proof. intro H. apply nth_upd. apply nth_error_Some. congruence. Qed.

Lemma store_cfg_links g a b c : same_links g (store_cfg g a b c).
Proof.
  unfold store_cfg. destruct c as [v|]; [|split; auto].
  intro x. unfold outs_of, ins_of.
  destruct (nth_error g a) as [p|] eqn:Ea.
  - destruct (nth_error (upd g a (add_cfg p b v)) b) as [q|] eqn:Eb.
    + rewrite (upd_port _ _ _ _ _ Eb). destruct (Nat.eqb_spec b x).
      * subst. rewrite (upd_port _ _ _ _ _ Ea) in Eb. destruct (Nat.eqb_spec a x); subst.
        -- injection Eb as <-. rewrite Ea. auto.
        -- rewrite Eb. auto.
      * rewrite (upd_port _ _ _ _ _ Ea). destruct (Nat.eqb_spec a x); subst; auto. rewrite Ea. auto.
    + rewrite (upd_port _ _ _ _ _ Ea). destruct (Nat.eqb_spec a x); subst; auto. rewrite Ea. auto.
  - destruct (nth_error g b) as [q|] eqn:Eb; auto.
    rewrite (upd_port _ _ _ _ _ Eb). destruct (Nat.eqb_spec b x); subst; auto. rewrite Eb. auto.
Qed.
Lemma store_cfg_length g a b c : length (store_cfg g a b c) = length g.
Proof.
  unfold store_cfg. destruct c; auto. destruct (nth_error g a);
  match goal with |- context [match ?x with _ => _ end] => destruct x end; rewrite ?upd_length; auto.
Qed.

Lemma add_inputs_spec g a l g' : add_inputs g a l = Some g' ->
  length g' = length g /\ (forall x, In x (ins_of g a) -> ~ In x l) /\
  forall x, outs_of g' x = outs_of g x /\ ins_of g' x = ins_of g x ++ (if a =? x then l else []).
Proof.
  unfold add_inputs. destruct (nth_error g a) as [p|] eqn:E; [|discriminate].
  destruct (is_disjoint (ins p) l) eqn:D; [|discriminate]. intro H; injection H as <-.
  split; [apply upd_length|]. split; [unfold ins_of; rewrite E; apply disjoint_spec; auto|].
  intro x. unfold outs_of, ins_of. rewrite (upd_port _ _ _ _ _ E).
  destruct (Nat.eqb_spec a x); subst; [rewrite E; auto|]. rewrite app_nil_r. auto.
Qed.
Lemma add_outputs_spec g a l g' : add_outputs g a l = Some g' ->
  length g' = length g /\ (forall x, In x (outs_of g a) -> ~ In x l) /\
  forall x, ins_of g' x = ins_of g x /\ outs_of g' x = outs_of g x ++ (if a =? x then l else []).
Proof.
  unfold add_outputs. destruct (nth_error g a) as [p|] eqn:E; [|discriminate].
  destruct (is_disjoint (outs p) l) eqn:D; [|discriminate]. intro H; injection H as <-.
  split; [apply upd_length|]. split; [unfold outs_of; rewrite E; apply disjoint_spec; auto|].
  intro x. unfold outs_of, ins_of. rewrite (upd_port _ _ _ _ _ E).
  destruct (Nat.eqb_spec a x); subst; [rewrite E; auto|]. rewrite app_nil_r. auto.
Qed.
Lemma add_inputs_ok g a l : a < length g -> (forall x, In x (ins_of g a) -> ~ In x l) -> exists g', add_inputs g a l = Some g'.
Proof.
  intros H D. unfold add_inputs. destruct (nth_error g a) as [p|] eqn:E.
  - unfold ins_of in D. rewrite E in D. apply disjoint_spec in D. rewrite D. eauto.
  - apply nth_error_None in E. lia.
Qed.
Lemma add_outputs_ok g a l : a < length g -> (forall x, In x (outs_of g a) -> ~ In x l) -> exists g', add_outputs g a l = Some g'.
Proof.
  intros H D. unfold add_outputs. destruct (nth_error g a) as [p|] eqn:E.
  - unfold outs_of in D. rewrite E in D. apply disjoint_spec in D. rewrite D. eauto.
  - apply nth_error_None in E. lia.
Qed.

Definition memb (x : nat) (l : list nat) : bool := existsb (Nat.eqb x) l.
Lemma memb_spec x l : memb x l = true <-> In x l.
Proof.
  unfold memb. rewrite existsb_exists. split.
  - intros [y [H E]]. apply Nat.eqb_eq in E. subst; auto.
  - intro H. exists x. rewrite Nat.eqb_refl. auto.
Qed.

Lemma fwd_loop_ok self : forall z g,
  NoDup (map fst z) -> (forall p, In p (map fst z) -> p < length g /\ ~ In self (ins_of g p)) ->
  exists g', fwd_loop g self z = (g', None) /\ length g' = length g /\
    forall x, outs_of g' x = outs_of g x /\ ins_of g' x = ins_of g x ++ (if memb x (map fst z) then [self] else []).
Proof.
  induction z as [|[p c] z IH]; intros g Hn Hp; simpl.
  - exists g. split; auto. split; auto. intro. rewrite app_nil_r. auto.
  - simpl in Hn. inversion Hn; subst.
    destruct (add_inputs_ok g p [self]) as [g1 E].
    { apply Hp; left; auto. }
    { intros x Hx [<-|[]]. apply (proj2 (Hp p (or_introl eq_refl))); auto. }
    rewrite E. destruct (add_inputs_spec _ _ _ _ E) as [L1 [_ S1]].
    pose proof (store_cfg_links g1 self p c) as S2. pose proof (store_cfg_length g1 self p c) as L2.
    destruct (IH (store_cfg g1 self p c)) as [g' [E' [L' S']]]; auto.
    { intros q Hq. destruct (Hp q (or_intror Hq)) as [A B]. split; [lia|].
      rewrite (proj2 (S2 q)), (proj2 (S1 q)).
      destruct (Nat.eqb_spec p q); [subst; contradiction|]. rewrite app_nil_r. auto. }
    exists g'. split; auto. split; [lia|]. intro x.
    rewrite (proj1 (S' x)), (proj1 (S2 x)), (proj1 (S1 x)). split; auto.
    rewrite (proj2 (S' x)), (proj2 (S2 x)), (proj2 (S1 x)). rewrite <- app_assoc. f_equal.
    rewrite (Nat.eqb_sym x p). destruct (Nat.eqb_spec p x); subst; simpl; auto.
    destruct (memb x (map fst z)) eqn:M; auto. apply memb_spec in M. contradiction.
Qed.
Lemma bwd_loop_ok self : forall z g,
  NoDup (map fst z) -> (forall p, In p (map fst z) -> p < length g /\ ~ In self (outs_of g p)) ->
  exists g', bwd_loop g self z = (g', None) /\ length g' = length g /\
    forall x, ins_of g' x = ins_of g x /\ outs_of g' x = outs_of g x ++ (if memb x (map fst z) then [self] else []).
Proof.
  induction z as [|[p c] z IH]; intros g Hn Hp; simpl.
  - exists g. split; auto. split; auto. intro. rewrite app_nil_r. auto.
  - simpl in Hn. inversion Hn; subst.
    destruct (add_outputs_ok g p [self]) as [g1 E].
    { apply Hp; left; auto. }
    { intros x Hx [<-|[]]. apply (proj2 (Hp p (or_introl eq_refl))); auto. }
    rewrite E. destruct (add_outputs_spec _ _ _ _ E) as [L1 [_ S1]].
    pose proof (store_cfg_links g1 p self c) as S2. pose proof (store_cfg_length g1 p self c) as L2.
    destruct (IH (store_cfg g1 p self c)) as [g' [E' [L' S']]]; auto.
    { intros q Hq. destruct (Hp q (or_intror Hq)) as [A B]. split; [lia|].
      rewrite (proj1 (S2 q)), (proj2 (S1 q)).
      destruct (Nat.eqb_spec p q); [subst; contradiction|]. rewrite app_nil_r. auto. }
    exists g'. split; auto. split; [lia|]. intro x.
    rewrite (proj1 (S' x)), (proj2 (S2 x)), (proj1 (S1 x)). split; auto.
    rewrite (proj2 (S' x)), (proj1 (S2 x)), (proj2 (S1 x)). rewrite <- app_assoc. f_equal.
    rewrite (Nat.eqb_sym x p). destruct (Nat.eqb_spec p x); subst; simpl; auto.
    destruct (memb x (map fst z)) eqn:M; auto. apply memb_spec in M. contradiction.
Qed.

Lemma combine_fst {A B} (l : list A) (m : list B) : length l <= length m -> map fst (combine l m) = l.
Proof. revert m. induction l; destruct m; simpl; intros; auto; try lia. f_equal. apply IHl. lia. Qed.
Lemma spread_length cf n : cfg_ok n cf -> n <= length (spread cf n).
Proof.
  intros [H|H]; unfold spread; destruct cf as [|c [|]]; simpl in *; try lia;
  destruct n as [|[|n]]; simpl; try lia; rewrite repeat_length; lia.
Qed.

Lemma validate_exists g self ports t b1 b2 : validate g self ports t b1 b2 = None ->
  self < length g /\ forall p, In p ports -> p < length g.
Proof.
  unfold validate. destruct ports as [|p0 r]; [discriminate|].
  destruct (nth_error g self) eqn:E; [|discriminate].
  destruct (nth_error g p0) eqn:E0; [|discriminate].
  destruct (forallb _ _) eqn:F; [|discriminate]. intros _. split; [apply nth_error_Some; congruence|].
  rewrite forallb_forall in F. intros x Hp. specialize (F x Hp).
  destruct (nth_error g x) eqn:Ep; [|discriminate]. apply nth_error_Some. congruence.
Qed.

(** What one successful forward (resp. backward) connection does. *)
Definition linked (g g' : graph) (src dst : nat -> bool) : Prop :=
  forall x, (forall b, In b (outs_of g' x) <-> In b (outs_of g x) \/ (src x = true /\ dst b = true)) /\
            (forall a, In a (ins_of g' x) <-> In a (ins_of g x) \/ (dst x = true /\ src a = true)).

Lemma consistent_linked g g' src dst :
  consistent g -> linked g g' src dst ->
  (forall a, NoDup (outs_of g' a)) -> (forall a, NoDup (ins_of g' a)) -> consistent g'.
Proof.
  intros [H _] L N1 N2. split; auto. intros a b. rewrite (proj1 (L a)), (proj2 (L b)), H. tauto.
Qed.

Lemma NoDup_app_disj {A} (l m : list A) : NoDup l -> NoDup m -> (forall x, In x l -> ~ In x m) -> NoDup (l ++ m).
Proof.
  induction 1; simpl; auto. intros Hm Hd. constructor.
  - rewrite in_app_iff. intros [|]; auto. apply (Hd x); auto.
  - apply IHNoDup; auto.
Qed.

Lemma connect_forward_ok g self ports t cf b1 b2 :
  consistent g -> NoDup ports -> cfg_ok (length ports) cf ->
  (exists e, connect_forward g self ports t cf b1 b2 = (g, Some e)) \/
  exists g', connect_forward g self ports t cf b1 b2 = (g', None) /\ length g' = length g /\
    (forall p, In p ports -> ~ In p (outs_of g self)) /\
    linked g g' (Nat.eqb self) (fun x => memb x ports) /\ consistent g'.
Proof.
  intros HC Hn Hcf. unfold connect_forward.
  destruct (validate g self ports t b1 b2) as [e|] eqn:V; [eauto|].
  destruct (validate_exists _ _ _ _ _ _ V) as [Vs Vp].
  destruct (add_outputs g self ports) as [g1|] eqn:E; [|eauto].
  right. destruct (add_outputs_spec _ _ _ _ E) as [L1 [D1 S1]].
  pose proof (spread_length cf (length ports) Hcf) as Hs.
  set (z := combine ports (spread cf (length ports))).
  assert (map fst z = ports) as Ez by (apply combine_fst; auto).
  assert (Hfresh : forall p, In p ports -> ~ In self (ins_of g p)).
  { intros p Hp Hin. apply (proj1 HC) in Hin. eapply D1; eauto. }
  destruct (fwd_loop_ok self z g1) as [g' [E' [L' S']]].
  { rewrite Ez; auto. }
  { rewrite Ez. intros p Hp. split; [rewrite L1; auto|]. rewrite (proj1 (S1 p)). auto. }
  exists g'. rewrite E'. rewrite Ez in S'. split; auto. split; [lia|].
  split; [intros p Hp Hin; eapply D1; eauto|].
  assert (linked g g' (Nat.eqb self) (fun x => memb x ports)) as LK.
  { intro x. split; intro y.
    - rewrite (proj1 (S' x)), (proj2 (S1 x)). rewrite in_app_iff. destruct (Nat.eqb_spec self x); simpl; rewrite ?memb_spec; intuition congruence.
    - rewrite (proj2 (S' x)), (proj1 (S1 x)). rewrite in_app_iff. rewrite Nat.eqb_eq.
      destruct (memb x ports); simpl; intuition congruence. }
  split; auto. eapply consistent_linked; eauto.
  - intro a. rewrite (proj1 (S' a)), (proj2 (S1 a)). apply NoDup_app_disj.
    + apply HC.
    + destruct (self =? a); auto. constructor.
    + destruct (Nat.eqb_spec self a) as [<-|]; auto.
  - intro a. rewrite (proj2 (S' a)), (proj1 (S1 a)). apply NoDup_app_disj.
    + apply HC.
    + destruct (memb a ports); constructor; auto; constructor.
    + destruct (memb a ports) eqn:M; auto. apply memb_spec in M. intros y Hy [<-|[]]. eapply Hfresh; eauto.
Qed.

Lemma connect_backward_ok g self ports t cf b1 b2 :
  consistent g -> NoDup ports -> cfg_ok (length ports) cf ->
  (exists e, connect_backward g self ports t cf b1 b2 = (g, Some e)) \/
  exists g', connect_backward g self ports t cf b1 b2 = (g', None) /\ length g' = length g /\
    (forall p, In p ports -> ~ In p (ins_of g self)) /\
    linked g g' (fun x => memb x ports) (Nat.eqb self) /\ consistent g'.
Proof.
  intros HC Hn Hcf. unfold connect_backward.
  destruct (validate g self ports t b1 b2) as [e|] eqn:V; [eauto|].
  destruct (validate_exists _ _ _ _ _ _ V) as [Vs Vp].
  destruct (add_inputs g self ports) as [g1|] eqn:E; [|eauto].
  right. destruct (add_inputs_spec _ _ _ _ E) as [L1 [D1 S1]].
  pose proof (spread_length cf (length ports) Hcf) as Hs.
  set (z := combine ports (spread cf (length ports))).
  assert (map fst z = ports) as Ez by (apply combine_fst; auto).
  assert (Hfresh : forall p, In p ports -> ~ In self (outs_of g p)).
  { intros p Hp Hin. apply (proj1 HC) in Hin. eapply D1; eauto. }
  destruct (bwd_loop_ok self z g1) as [g' [E' [L' S']]].
  { rewrite Ez; auto. }
  { rewrite Ez. intros p Hp. split; [rewrite L1; auto|]. rewrite (proj1 (S1 p)). auto. }
  exists g'. rewrite E'. rewrite Ez in S'. split; auto. split; [lia|].
  split; [intros p Hp Hin; eapply D1; eauto|].
  assert (linked g g' (fun x => memb x ports) (Nat.eqb self)) as LK.
  { intro x. split; intro y.
    - rewrite (proj2 (S' x)), (proj1 (S1 x)). rewrite in_app_iff. rewrite Nat.eqb_eq.
      destruct (memb x ports); simpl; intuition congruence.
    - rewrite (proj1 (S' x)), (proj2 (S1 x)). rewrite in_app_iff. destruct (Nat.eqb_spec self x); simpl; rewrite ?memb_spec; intuition congruence. }
  split; auto. eapply consistent_linked; eauto.
  - intro a. rewrite (proj2 (S' a)), (proj1 (S1 a)). apply NoDup_app_disj.
    + apply HC.
    + destruct (memb a ports); constructor; auto; constructor.
    + destruct (memb a ports) eqn:M; auto. apply memb_spec in M. intros y Hy [<-|[]]. eapply Hfresh; eauto.
  - intro a. rewrite (proj1 (S' a)), (proj2 (S1 a)). apply NoDup_app_disj.
    + apply HC.
    + destruct (self =? a); auto. constructor.
    + destruct (Nat.eqb_spec self a) as [<-|]; auto.
Qed.

(** adding an unconnected port changes no link *)
Lemma add_port_links g c sh pr : same_links g (g ++ [new_port c sh pr]).
Proof.
  intro a. unfold outs_of, ins_of. destruct (Nat.lt_ge_cases a (length g)).
  - rewrite nth_error_app1 by auto. auto.
  - rewrite nth_error_app2 by auto. rewrite (proj2 (nth_error_None g a)) by auto.
    destruct (a - length g) as [|[|]]; simpl; auto.
Qed.
Lemma same_links_consistent g g' : same_links g g' -> consistent g -> consistent g'.
Proof.
  intros S [H [N1 N2]]. split; [|split].
  - intros a b. rewrite (proj1 (S a)), (proj2 (S b)). auto.
  - intro a. rewrite (proj1 (S a)). auto.
  - intro a. rewrite (proj2 (S a)). auto.
Qed.
Lemma same_links_refl g : same_links g g.
Proof. split; auto. Qed.
Lemma same_links_trans g1 g2 g3 : same_links g1 g2 -> same_links g2 g3 -> same_links g1 g3.
Proof. intros A B x. rewrite (proj1 (B x)), (proj2 (B x)). auto. Qed.
Local Hint Resolve same_links_refl : core.

Lemma implicit_ports_links vs : forall sh g acc g' ps e, implicit_ports vs sh g acc = (g', (ps, e)) ->
  same_links g g' /\ (e = None -> length ps = length acc + length vs).
Proof.
  induction vs as [|v r IH]; simpl; intros sh g acc g' ps e H; [injection H as <- <- <-; split; auto|].
  destruct (list_eqb sh (v_shape v)); [|injection H as <- <- <-; split; [auto|discriminate]].
  destruct (v_shareable v); [|injection H as <- <- <-; split; [auto|discriminate]].
  apply IH in H. destruct H as [A B]. split.
  - eapply same_links_trans; [apply add_port_links|eauto].
  - intro En. rewrite B by auto. rewrite app_length. simpl. lia.
Qed.

Ltac fwd_case HC :=
  match goal with |- context [connect_forward ?g ?s ?p ?t ?c ?b1 ?b2] =>
    destruct (connect_forward_ok g s p t c b1 b2 HC) as [[e E]|[g' [E [? [? [? ?]]]]]]; auto; rewrite E; eauto 10 end.

Lemma do_connect_ok lim g self a cf :
  consistent g -> NoDup (to_list a) -> cfg_ok (length (to_list a)) cf ->
  (exists e, do_connect lim g self a cf = (g, Some e)) \/
  exists g', do_connect lim g self a cf = (g', None) /\
    (forall p, In p (to_list a) -> ~ In p (outs_of g self)) /\
    linked g g' (Nat.eqb self) (fun x => memb x (to_list a)) /\ consistent g'.
Proof.
  intros HC Hn Hcf. unfold do_connect.
  destruct (nth_error g self) as [sp|]; [|eauto].
  destruct (cls sp); try (destruct (rv_check lim g self a); [eauto|]; destruct (all_of _ _ _); [|eauto]);
    try (fwd_case HC; fail);
    (destruct (src_ports lim g false self) as [[|s l]|]; [eauto| |eauto];
     destruct (nth_error g s) as [q|]; [|eauto]; destruct (cls q); try (eauto; fail); fwd_case HC).
Qed.
Lemma do_connect_from_ok lim g self a cf :
  consistent g -> NoDup (to_list a) -> cfg_ok (length (to_list a)) cf ->
  (exists e, do_connect_from lim g self a cf = (g, Some e)) \/
  exists g', do_connect_from lim g self a cf = (g', None) /\
    (forall p, In p (to_list a) -> ~ In p (ins_of g self)) /\
    linked g g' (fun x => memb x (to_list a)) (Nat.eqb self) /\ consistent g'.
Proof.
  intros HC Hn Hcf. unfold do_connect_from.
  destruct (nth_error g self) as [sp|]; [|eauto].
  destruct (cls sp); try (destruct (rv_check lim g self a); [eauto|]; destruct (all_of _ _ _); [|eauto]);
    try (eauto; fail);
  match goal with |- context [connect_backward ?g ?s ?p ?t ?c ?b1 ?b2] =>
    destruct (connect_backward_ok g s p t c b1 b2 HC) as [[e E]|[g' [E [? [? [? ?]]]]]]; auto; rewrite E; eauto 10 end.
Qed.

Lemma do_call_ok lim g c : consistent g -> proper c ->
  (exists g' e, do_call lim g c = (g', Some e) /\ same_links g g') \/
  (exists g', do_call lim g c = (g', None) /\ consistent g').
Proof.
  intros HC Hp. destruct c as [c sh pr|s a cf|s a cf|s o|s l ax|s vs cf]; simpl in *.
  - right. eexists. split; eauto. eapply same_links_consistent; [apply add_port_links|auto].
  - destruct Hp. destruct (do_connect_ok lim g s a cf) as [[e E]|[g' [E [_ [_ ?]]]]]; auto; rewrite E; eauto 10.
  - destruct Hp. destruct (do_connect_from_ok lim g s a cf) as [[e E]|[g' [E [_ [_ ?]]]]]; auto; rewrite E; eauto 10.
  - unfold do_derive. destruct (nth_error g s) as [sp|]; [|left; eauto 10].
    destruct (derive1 (pshape sp) o) as [v|]; [|left; eauto 10].
    set (cc := match v with ReshapeP _ _ => ReshapePort | TransposeP _ _ => TransposePort end).
    pose proof (add_port_links g cc (vshape v) None) as S.
    destruct (connect_forward_ok (g ++ [new_port cc (vshape v) None]) s [length g] TAbstractPort [None] false true)
      as [[e E]|[g' [E [_ [_ [_ ?]]]]]].
    + eapply same_links_consistent; eauto.
    + repeat constructor; auto.
    + left; auto.
    + left. exists (g ++ [new_port cc (vshape v) None]), e. auto.
    + right. exists g'. auto.
  - unfold do_concat. destruct (nth_error g s) as [sp|]; [|left; eauto 10].
    destruct (validate _ _ _ _ _ _); [left; eauto 10|].
    destruct (concat_shape _ _) as [sh| | |]; try (left; eauto 10; fail).
    pose proof (add_port_links g ConcatPort sh None) as S.
    destruct (connect_backward_ok (g ++ [new_port ConcatPort sh None]) (length g) (s :: l) TAbstractPort [None] false true)
      as [[e E]|[g' [E [_ [_ [_ ?]]]]]]; auto.
    + eapply same_links_consistent; eauto.
    + left; auto.
    + left. exists (g ++ [new_port ConcatPort sh None]), e. auto.
    + right. exists g'. auto.
  - unfold do_connect_var. destruct (nth_error g s) as [sp|]; [|left; eauto 10].
    destruct (negb _); [left; eauto 10|].
    destruct (Nat.ltb_spec 1 (length vs)); [left; eauto 10|].
    destruct (dst_ports lim g false s) as [[|]|], (src_ports lim g false s) as [[|]|]; try (left; eauto 10; fail).
    destruct (existsb _ vs); [left; eauto 10|].
    destruct vs as [|v r]; [left; eauto 10|].
    destruct r as [|]; [|simpl in H; lia].
    destruct (implicit_ports [v] (v_shape v) g []) as [g1 [ps e]] eqn:I.
    destruct (implicit_ports_links _ _ _ _ _ _ _ I) as [S Hl].
    destruct e as [e|]; [left; eauto 10|]. specialize (Hl eq_refl). simpl in Hl.
    destruct ps as [|p [|]]; simpl in Hl; try lia.
    destruct (do_connect_ok lim g1 s (Many [p]) cf) as [[e E]|[g' [E [_ [_ ?]]]]].
    + eapply same_links_consistent; eauto.
    + repeat constructor; auto.
    + exact Hp.
    + left. rewrite E. eauto.
    + right. rewrite E. eauto.
Qed.

Lemma consistent_nil : consistent [].
Proof.
  unfold consistent, outs_of, ins_of. split; [|split]; intros; destruct a; simpl; try constructor; try tauto;
  destruct b; simpl; tauto.
Qed.

Lemma run_consistent lim cs : forall g, consistent g -> Forall proper cs ->
  consistent (fold_left (fun g c => fst (do_call lim g c)) cs g).
Proof.
  induction cs as [|c cs IH]; intros g HC HF; simpl; auto. inversion HF; subst.
  apply IH; auto. destruct (do_call_ok lim g c HC H1) as [[g' [e [E S]]]|[g' [E C]]]; rewrite E; simpl; auto.
  eapply same_links_consistent; eauto.
Qed.

(** ** C21 *)
(** After any program of calls, including calls that raised, both sides agree. *)
Theorem connections_consistent_partial : forall lim calls,
  Forall proper calls -> consistent (run_calls lim calls).
Proof. intros. apply run_consistent; auto. apply consistent_nil. Qed.

(** A call that raises leaves every port's connections as they were. *)
Theorem failed_call_changes_nothing_partial : forall lim calls c g' e,
  Forall proper calls -> proper c ->
  do_call lim (run_calls lim calls) c = (g', Some e) -> same_links (run_calls lim calls) g'.
Proof.
  intros lim calls c g' e HF Hp H. pose proof (connections_consistent_partial lim calls HF) as HC.
  destruct (do_call_ok lim _ c HC Hp) as [[g1 [e1 [E S]]]|[g1 [E _]]]; rewrite H in E; [|discriminate].
  injection E as <- <-. auto.
Qed.

(** A connect() that returns has made exactly the requested connections, none of which existed. *)
Theorem connect_adds_exactly : forall lim calls self a cf g',
  Forall proper calls -> NoDup (to_list a) -> cfg_ok (length (to_list a)) cf ->
  do_call lim (run_calls lim calls) (CConnect self a cf) = (g', None) ->
  let g := run_calls lim calls in
  (forall p, In p (to_list a) -> ~ In p (outs_of g self)) /\
  (forall x b, In b (outs_of g' x) <-> In b (outs_of g x) \/ (x = self /\ In b (to_list a))) /\
  (forall x s, In s (ins_of g' x) <-> In s (ins_of g x) \/ (In x (to_list a) /\ s = self)).
Proof.
  intros lim calls self a cf g' HF Hn Hc H. pose proof (connections_consistent_partial lim calls HF) as HC.
  simpl in H. destruct (do_connect_ok lim _ self a cf HC Hn Hc) as [[e E]|[g1 [E [D [L _]]]]]; rewrite H in E; [discriminate|].
  injection E as <-. split; auto. split; intros x y.
  - rewrite (proj1 (L x)). rewrite Nat.eqb_eq, memb_spec. intuition congruence.
  - rewrite (proj2 (L x)). rewrite Nat.eqb_eq, memb_spec. intuition congruence.
Qed.

Theorem connect_from_adds_exactly : forall lim calls self a cf g',
  Forall proper calls -> NoDup (to_list a) -> cfg_ok (length (to_list a)) cf ->
  do_call lim (run_calls lim calls) (CConnectFrom self a cf) = (g', None) ->
  let g := run_calls lim calls in
  (forall p, In p (to_list a) -> ~ In p (ins_of g self)) /\
  (forall x b, In b (outs_of g' x) <-> In b (outs_of g x) \/ (In x (to_list a) /\ b = self)) /\
  (forall x s, In s (ins_of g' x) <-> In s (ins_of g x) \/ (x = self /\ In s (to_list a))).
Proof.
  intros lim calls self a cf g' HF Hn Hc H. pose proof (connections_consistent_partial lim calls HF) as HC.
  simpl in H. destruct (do_connect_from_ok lim _ self a cf HC Hn Hc) as [[e E]|[g1 [E [D [L _]]]]]; rewrite H in E; [discriminate|].
  injection E as <-. split; auto. split; intros x y.
  - rewrite (proj1 (L x)). rewrite Nat.eqb_eq, memb_spec. intuition congruence.
  - rewrite (proj2 (L x)). rewrite Nat.eqb_eq, memb_spec. intuition congruence.
Qed.

(** Same-class, same-shape In ports are accepted: the hypotheses are met by real programs. *)
Example connect_example :
  let calls := [CNew OutPort [2] (Some 0); CNew InPort [2] (Some 1); CNew InPort [2] (Some 2);
                CConnect 0 (Many [1;2]) [None]; CConnect 0 (One 1) [None]; CDerive 0 (OpReshape [1;2])] in
  Forall proper calls /\
  outs_of (run_calls 100 calls) 0 = [1;2;3] /\ ins_of (run_calls 100 calls) 1 = [0] /\
  snd (do_call 100 (run_calls 100 calls) (CConnect 0 (One 1) [None])) = Some EDuplicate.
Proof.
  repeat split; try reflexivity. repeat constructor; simpl; unfold cfg_ok; simpl; auto; intuition congruence.
Qed.

(** The full statement is false.  The same port twice in one list: the call raises, but the output
    side keeps both entries and the input side one. *)
Theorem connect_repeated_port_refuted :
  exists calls c, Forall proper calls /\
    let g := run_calls 100 calls in
    snd (do_call 100 g c) = Some EDuplicate /\
    let g' := fst (do_call 100 g c) in
    outs_of g' 0 = [1;1] /\ ins_of g' 1 = [0] /\ outs_of g 0 = [].
Proof.
  exists [CNew OutPort [2] None; CNew InPort [2] None], (CConnect 0 (Many [1;1]) [None]).
  repeat split; try reflexivity. repeat constructor.
Qed.

(** Two configurations for three ports: the call returns normally with the third connection
    recorded on the sending side only. *)
Theorem connect_short_configs_refuted :
  exists calls c, Forall proper calls /\
    let g := run_calls 100 calls in
    snd (do_call 100 g c) = None /\
    let g' := fst (do_call 100 g c) in
    outs_of g' 0 = [1;2;3] /\ ins_of g' 1 = [0] /\ ins_of g' 2 = [0] /\ ins_of g' 3 = [].
Proof.
  exists [CNew OutPort [2] None; CNew InPort [2] None; CNew InPort [2] None; CNew InPort [2] None],
         (CConnect 0 (Many [1;2;3]) [Some 7; Some 8]).
  repeat split; try reflexivity. repeat constructor.
Qed.

(** Concatenating a port with itself raises and leaves a dangling output behind. *)
Theorem concat_with_itself_refuted :
  exists calls c, Forall proper calls /\
    let g := run_calls 100 calls in
    snd (do_call 100 g c) = Some EDuplicate /\ outs_of g 0 = [] /\ outs_of (fst (do_call 100 g c)) 0 = [1].
Proof.
  exists [CNew OutPort [2] None], (CConcat 0 [0] 0%Z).
  repeat split; try reflexivity. repeat constructor.
Qed.

Print Assumptions connections_consistent_partial.
Print Assumptions failed_call_changes_nothing_partial.
Print Assumptions connect_adds_exactly.
