(** C103 continued: folded views. *)
From Coq Require Import List Bool Arith String Lia.
From Verif Require Import Hier_Model Hier_Spec Hier_Proofs Hier_Props.
Import ListNotations.

(** [n] processes nested below [p] *)
Fixpoint Deep (st : state) (n : nat) (p : nat) : Prop :=
  match n with 0 => True | S k => exists q, Member st p q /\ Deep st k q end.

Fixpoint propl (f : nat) (st : state) (p : nat) (l : list nat) (v : views) : option views :=
  match l with
  | [] => Some v
  | q :: l' => match propagate f st q (upd v q (v p)) with None => None | Some v' => propl f st p l' v' end
  end.
Lemma propagate_S : forall f st p v, propagate (S f) st p v = propl f st p (map snd (procs st p)) v.
Proof.
  intros f st p v. cbn [propagate]. revert v. induction (map snd (procs st p)) as [|q l IH]; intros v; [reflexivity|].
  cbn [fold_left propl]. destruct (propagate f st q (upd v q (v p))) as [v'|]; [apply IH|].
  clear. induction l as [|r l IH]; [reflexivity|]. exact IH.
Qed.

Lemma under_trans : forall st a b c, Under st a b -> Under st b c -> Under st a c.
Proof. intros st a b c H. induction H as [p q Hm|p q r Hm H IH]; intros X; [now apply un_more with q|apply un_more with q; auto]. Qed.

Lemma under_cases : forall st a x, Under st a x <-> exists q, Member st a q /\ (q = x \/ Under st q x).
Proof.
  intros st a x. split.
  - intros H. inversion H; subst; eauto.
  - intros (q & Hm & [<- |H]); [now apply un_one|now apply un_more with q].
Qed.

Lemma under_snoc : forall st a x, Under st a x <-> exists q, (q = a \/ Under st a q) /\ Member st q x.
Proof.
  intros st a x. split.
  - intros H. induction H as [p q Hm|p q r Hm H IH]; [exists p; auto|]. destruct IH as (y & [->|Hy] & Hr).
    + exists q. split; [right; now apply un_one|exact Hr].
    + exists y. split; [right; now apply un_more with q|exact Hr].
  - intros (q & [->|H] & Hm); [now apply un_one|]. eapply under_trans; [exact H|now apply un_one].
Qed.

(** a process under itself: the propagation does not end *)
Lemma cycle_deep : forall st n p, Under st p p -> Deep st n p.
Proof.
  intros st. induction n as [|n IH]; intros p H; [exact I|]. pose proof H as H'. apply under_cases in H'. destruct H' as (q & Hm & Hq).
  exists q. split; [exact Hm|]. apply IH. destruct Hq as [-> |Hq]; [exact H|]. eapply under_trans; [exact Hq|now apply un_one].
Qed.

Lemma propagate_none : forall st f p v, propagate f st p v = None <-> Deep st f p \/ f = 0.
Proof.
  intros st. induction f as [|f IH]; intros p v; [cbn; tauto|]. rewrite propagate_S.
  assert (forall l v, propl f st p l v = None <-> exists q, In q l /\ (Deep st f q \/ f = 0)) as HL.
  { induction l as [|q l IHl]; intros u; cbn [propl]; [split; [discriminate|intros (q & [] & _)]|].
    destruct (propagate f st q (upd u q (u p))) as [v'|] eqn:E.
    - rewrite IHl. split; [intros (r & Hr & Hd); exists r; cbn; auto|]. intros (r & [<- |Hr] & Hd); [|eauto].
      exfalso. apply (proj2 (IH q (upd u q (u p)))) in Hd. congruence.
    - split; [|reflexivity]. intros _. exists q. split; [now left|]. now apply IH in E. }
  rewrite HL. cbn [Deep]. unfold Member. split.
  - intros (q & Hq & [Hd| ->]); left; exists q; cbn; auto.
  - intros [(q & Hq & Hd)|E]; [eauto|discriminate].
Qed.

(** everything under [p] gets the view of [p], nothing else changes *)
Lemma propagate_spec : forall st f p v v', propagate f st p v = Some v' ->
  forall q, (Under st p q -> v' q = v p) /\ (~ Under st p q -> v' q = v q) /\ ((Under st p q /\ v' q = v p) \/ v' q = v q).
Proof.
  intros st. induction f as [|f IH]; intros p v v' H; [discriminate|].
  assert (propagate (S f) st p v <> None) as Hok by congruence.
  assert (~ Under st p p) as Hnp.
  { intros X. apply Hok. apply propagate_none. left. now apply cycle_deep. }
  clear Hok. rewrite propagate_S in H.
  assert (forall l u u', (forall q, In q l -> Member st p q) -> propl f st p l u = Some u' -> forall x,
    ((exists q, In q l /\ (q = x \/ Under st q x)) -> u' x = u p) /\ ((forall q, In q l -> q <> x /\ ~ Under st q x) -> u' x = u x) /\
    (((exists q, In q l /\ (q = x \/ Under st q x)) /\ u' x = u p) \/ u' x = u x)) as HL.
  { induction l as [|q l IHl]; intros u u' HM E x; cbn [propl] in E.
    - injection E as <-. split; [intros (q & [] & _)|split; [reflexivity|now right]].
    - destruct (propagate f st q (upd u q (u p))) as [u1|] eqn:E1; [|discriminate].
      pose proof (IH q _ _ E1) as H1. specialize (IHl u1 u' (fun r Hr => HM r (or_intror Hr)) E).
      assert (u1 p = u p) as Hp.
      { destruct (H1 p) as (_ & X & _). rewrite X.
        - unfold upd. destruct (Nat.eqb_spec p q) as [->|]; reflexivity.
        - intros Y. apply Hnp. apply un_more with q; [apply HM; now left|exact Y]. }
      assert (u1 q = u p) as Hq.
      { destruct (H1 q) as (X & Y & _).
        assert (~ Under st q q) as Hnq. { intros Z. assert (propagate f st q (upd u q (u p)) = None) by (apply propagate_none; left; now apply cycle_deep). congruence. }
        rewrite (Y Hnq). apply upd_same. }
      assert ((q = x \/ Under st q x) -> u1 x = u p) as HX.
      { intros [<- |X]; [exact Hq|]. destruct (H1 x) as (Y & _). rewrite (Y X). apply upd_same. }
      assert (((q = x \/ Under st q x) /\ u1 x = u p) \/ u1 x = u x) as HC.
      { destruct (H1 x) as (_ & _ & [[Z Y]|Y]); rewrite Y; [left; split; [auto|apply upd_same]|]. unfold upd. destruct (Nat.eqb_spec x q); auto. }
      destruct (IHl x) as (A & B & C). rewrite Hp in A, C. split; [|split].
      + intros (r & [<- |Hr] & X); [|apply A; eauto]. specialize (HX X). destruct C as [[_ C]|C]; congruence.
      + intros X. rewrite B by (intros r Hr; apply X; now right). destruct (H1 x) as (_ & Y & _). destruct (X q (or_introl eq_refl)) as [X1 X2].
        rewrite (Y X2). apply upd_other. congruence.
      + destruct C as [[(r & Hr & X) C]|C]; [left; split; [exists r; cbn; auto|exact C]|]. rewrite C.
        destruct HC as [[X Y]|Y]; [left; split; [exists q; cbn; auto|exact Y]|now right]. }
  intros q. destruct (HL _ v v' (fun r Hr => Hr) H q) as (A & B & C). split; [|split; [|destruct C as [[X C]|C]; [left; split; [now apply under_cases|exact C]|now right]]].
  - intros X. apply A. apply under_cases in X. exact X.
  - intros X. apply B. intros r Hr. split; intros Y; apply X; apply under_cases; exists r; (split; [exact Hr|auto]).
Qed.

(** ** marking *)
Lemma mem_string_in : forall x l, mem_string x l = true <-> In x l.
Proof.
  intros x l. unfold mem_string. rewrite existsb_exists. split; [intros (y & H & E); apply String.eqb_eq in E; now subst|intros H; exists x; split; [exact H|apply String.eqb_refl]].
Qed.

Lemma mark_spec : forall w names l id v p,
  (~ (In p l /\ In (cls w p) names) -> mark w names l id v p = v p) /\
  (In p l -> In (cls w p) names -> exists k, id <= k < id + List.length l /\ mark w names l id v p = Some (cls w p, k)).
Proof.
  intros w names. induction l as [|q l IH]; intros id v p; [split; [reflexivity|intros []]|]. cbn [mark List.length].
  destruct (mem_string (cls w q) names) eqn:E.
  - destruct (IH (S id) (upd v q (Some (cls w q, id))) p) as [A B]. split.
    + intros H. rewrite A by (intros [X Y]; apply H; split; [now right|exact Y]). apply upd_other. intros ->. apply H.
      split; [now left|]. now apply mem_string_in.
    + intros H Hc. destruct (in_dec Nat.eq_dec p l) as [Hp|Hp].
      * destruct (B Hp Hc) as (k & Hk & Ek). exists k. split; [lia|exact Ek].
      * destruct H as [->|H]; [|contradiction]. exists id. split; [lia|]. rewrite A by tauto. apply upd_same.
  - destruct (IH id v p) as [A B]. split.
    + intros H. apply A. intros [X Y]. apply H. split; [now right|exact Y].
    + intros [->|H] Hc; [apply mem_string_in in Hc; congruence|]. destruct (B H Hc) as (k & Hk & Ek). exists k. split; [lia|exact Ek].
Qed.

(** two marked processes have different numbers *)
Lemma mark_inj : forall w names l id v, NoDup l -> forall p q k, In p l -> In q l -> In (cls w p) names -> In (cls w q) names ->
  (exists c, mark w names l id v p = Some (c, k)) -> (exists c, mark w names l id v q = Some (c, k)) -> p = q.
Proof.
  intros w names. induction l as [|x l IH]; intros id v H p q k Hp Hq Np Nq Ep Eq; [contradiction|]. cbn [mark] in *.
  inversion H as [|? ? Hx Hl]; subst. destruct (mem_string (cls w x) names) eqn:E.
  - assert (mark w names l (S id) (upd v x (Some (cls w x, id))) x = Some (cls w x, id)) as Hm.
    { destruct (mark_spec w names l (S id) (upd v x (Some (cls w x, id))) x) as [A _]. rewrite A by tauto. apply upd_same. }
    assert (forall r, In r l -> In (cls w r) names -> forall c, mark w names l (S id) (upd v x (Some (cls w x, id))) r = Some (c, k) -> S id <= k) as HG.
    { intros r Hr Nr c Er. destruct (mark_spec w names l (S id) (upd v x (Some (cls w x, id))) r) as [_ B].
      destruct (B Hr Nr) as (k' & Hk & Ek). rewrite Ek in Er. injection Er as _ ->. lia. }
    destruct Hp as [->|Hp], Hq as [->|Hq]; [reflexivity| | |eapply IH; eauto].
    + destruct Ep as [c Ep]. destruct Eq as [c' Eq]. rewrite Hm in Ep. injection Ep as _ <-. specialize (HG q Hq Nq c' Eq). lia.
    + destruct Ep as [c Ep]. destruct Eq as [c' Eq]. rewrite Hm in Eq. injection Eq as _ <-. specialize (HG p Hp Np c Ep). lia.
  - assert (forall r, In r (x :: l) -> In (cls w r) names -> In r l) as HG.
    { intros r [->|Hr] Nr; [|exact Hr]. apply mem_string_in in Nr. congruence. }
    eapply IH; eauto.
Qed.

(** ** the result does not depend on the order in which the set is iterated *)
Lemma fold_annotate : forall fuel st order v v',
  fold_left (fun acc p => match acc with None => None | Some v => propagate fuel st p v end) order (Some v) = Some v' ->
  OneParent st ->
  (forall q, (forall p, In p order -> ~ Under st p q) -> v' q = v q) /\
  (forall a q, In a order -> (forall b, In b order -> ~ Under st b a) -> (a = q \/ Under st a q) -> v' q = v a).
Proof.
  intros fuel st order v v' H HU.
  assert (forall a b x, Under st a x -> Under st b x -> a = b \/ Under st a b \/ Under st b a) as LIN.
  { assert (forall a x, Under st a x -> forall P : nat -> Prop, (forall z, Member st a z -> P z) -> (forall y z, Under st a y -> P y -> Member st y z -> P z) -> P x) as RI.
    { clear. intros a x H. induction H as [p q Hm|p q r Hm H IH]; intros P HP HS; [now apply HP|].
      apply IH; [intros z Hz; apply (HS q z); [now apply un_one|now apply HP|exact Hz]|].
      intros y z Hy. apply HS. now apply un_more with q. }
    intros a b x Ha. revert b. apply (RI a x Ha).
    - intros z Hz b Hb. apply under_snoc in Hb. destruct Hb as (y & Hy & Hm). assert (y = a) as -> by (eapply HU; eauto). destruct Hy; auto.
    - intros y z Hy IH Hm b Hb. apply under_snoc in Hb. destruct Hb as (y' & Hy' & Hm').
      assert (y' = y) as -> by (eapply HU; eauto). destruct Hy' as [-> |Hb]; [right; left; exact Hy|now apply IH]. }
  revert v H. induction order as [|p order IH]; intros v H.
  - injection H as <-. split; [reflexivity|intros a q []].
  - cbn [fold_left] in H. destruct (propagate fuel st p v) as [v1|] eqn:E1.
    2:{ exfalso. clear - H. induction order as [|x l IHl]; [discriminate|]. now apply IHl. }
    pose proof (propagate_spec st fuel p v v1 E1) as P1. destruct (IH v1 H) as [A B].
    assert (forall q, (forall r, In r (p :: order) -> ~ Under st r q) -> v' q = v q) as G1.
    { intros q X. rewrite A by (intros r Hr; apply X; now right). destruct (P1 q) as (_ & Y & _). apply Y. apply X. now left. }
    split; [exact G1|]. intros a q Ha Hout Hq.
    assert (v1 a = v a) as Ea by (destruct (P1 a) as (_ & Y & _); apply Y; apply Hout; now left).
    destruct (in_dec Nat.eq_dec a order) as [Hin|Hin].
    + rewrite <- Ea. apply B; auto. intros b Hb. apply Hout. now right.
    + destruct Ha as [->|Ha]; [|contradiction]. destruct Hq as [<- |Hq].
      * apply G1. exact Hout.
      * (* everything under [a] has the view of [a] now, and keeps it *)
        assert (forall z, Under st a z -> v1 z = v a) as HZ by (intros z Hz; now apply (P1 z)).
        clear - HZ Hq H Hout LIN Hin. assert (forall b, In b order -> ~ Under st b a) as Ho by (intros b Hb; apply Hout; now right).
        clear Hout. revert v1 HZ H. induction order as [|b order IHo]; intros v1 HZ H; [injection H as <-; now apply HZ|].
        cbn [fold_left] in H. destruct (propagate fuel st b v1) as [v2|] eqn:E2.
        2:{ exfalso. clear - H. induction order as [|x l IHl]; [discriminate|]. now apply IHl. }
        pose proof (propagate_spec st fuel b v1 v2 E2) as P2.
        apply (IHo (fun X => Hin (or_intror X)) (fun c Hc => Ho c (or_intror Hc)) v2); [|exact H].
        intros z Hz. destruct (P2 z) as (_ & _ & [[X Y]|Y]); [|rewrite Y; now apply HZ].
        rewrite Y. destruct (LIN b a z X Hz) as [->|[Z|Z]]; [exfalso; apply Hin; now left|exfalso; apply (Ho b); [now left|exact Z]|].
        now apply HZ.
Qed.

(** [order] is some order of the set [annotated] *)
Definition IsOrder (w : world) (st : state) (names : list string) (order : list nat) : Prop :=
  forall p, In p order <-> Folds w st names p.

(** a process inside a folded one gets the view of the outermost, every other process none *)
Theorem folded_view_outermost : forall fuel w st names order v, OneParent st -> IsOrder w st names order ->
  annotate fuel w st names order = Some v ->
  (forall a q, Outermost w st names a q -> exists k, k < List.length (elab st) /\ v a = Some (cls w a, k) /\ v q = v a) /\
  (forall q, (forall a, (a = q \/ Under st a q) -> ~ Folds w st names a) -> v q = None).
Proof.
  intros fuel w st names order v HU HO H. unfold annotate in H.
  destruct (fold_annotate fuel st order _ v H HU) as [A B]. split.
  - intros a q (Hq & [Ha Hc] & Hout).
    destruct (mark_spec w names (elab st) 0 (fun _ => None) a) as [_ M]. destruct (M Ha Hc) as (k & Hk & Ek). exists k.
    assert (In a order) as Hin by (apply HO; split; auto).
    assert (forall b, In b order -> ~ Under st b a) as Ho by (intros b Hb X; apply (Hout b X); now apply HO).
    split; [lia|]. rewrite (B a a Hin Ho (or_introl eq_refl)), (B a q Hin Ho Hq). auto.
  - intros q Hn. rewrite A by (intros p Hp X; apply (Hn p (or_intror X)); now apply HO).
    destruct (mark_spec w names (elab st) 0 (fun _ => None) q) as [M _]. apply M. intros [X Y]. apply (Hn q (or_introl eq_refl)). split; auto.
Qed.

(** two outermost folded processes have different instance numbers *)
Theorem folded_instances_differ : forall fuel w st names order v a b k c c', OneParent st -> IsOrder w st names order -> NoDup (elab st) ->
  annotate fuel w st names order = Some v ->
  Outermost w st names a a -> Outermost w st names b b -> v a = Some (c, k) -> v b = Some (c', k) -> a = b.
Proof.
  intros fuel w st names order v a b k c c' HU HO HN H Oa Ob Ea Eb. unfold annotate in H.
  destruct (fold_annotate fuel st order _ v H HU) as [_ B].
  destruct Oa as (_ & Fa & Na). destruct Ob as (_ & Fb & Nb).
  assert (v a = mark w names (elab st) 0 (fun _ => None) a) as Xa.
  { apply B; [now apply HO| |now left]. intros x Hx X. apply (Na x X). now apply HO. }
  assert (v b = mark w names (elab st) 0 (fun _ => None) b) as Xb.
  { apply B; [now apply HO| |now left]. intros x Hx X. apply (Nb x X). now apply HO. }
  eapply (mark_inj w names (elab st) 0 (fun _ => None) HN a b k); [apply Fa|apply Fb|apply Fa|apply Fb|exists c; congruence|exists c'; congruence].
Qed.

Lemma nn_all : forall (P : nat -> Prop) l, ~ ~ (forall x, In x l -> P x \/ ~ P x).
Proof.
  intros P l. induction l as [|x l IH]; intros H; [apply H; intros y []|].
  apply IH. intros HL. assert (~ ~ (P x \/ ~ P x)) as HX by tauto. apply HX. intros Hx. apply H. intros y [<-|Hy]; auto.
Qed.
Lemma nn_all2 : forall (R : nat -> nat -> Prop) l l', ~ ~ (forall x y, In x l -> In y l' -> R x y \/ ~ R x y).
Proof.
  intros R l l'. induction l as [|x l IH]; intros H; [apply H; intros a b []|].
  apply IH. intros HL. apply (nn_all (R x) l'). intros HX. apply H. intros a b [<-|Ha] Hb; auto.
Qed.

Lemma top_exists : forall (R : nat -> nat -> Prop) (A : nat -> Prop) l,
  (forall x y, In x l -> In y l -> R x y \/ ~ R x y) -> (forall x, In x l -> A x \/ ~ A x) ->
  (forall x y z, R x y -> R y z -> R x z) -> (forall x, In x l -> ~ R x x) ->
  (forall x, In x l -> ~ A x) \/ exists a, In a l /\ A a /\ forall b, In b l -> A b -> ~ R b a.
Proof.
  intros R A l. induction l as [|x l IH]; intros HR HA HT HI; [left; intros y []|].
  assert (forall y z, In y l -> In z l -> R y z \/ ~ R y z) as H1 by (intros y z Hy Hz; apply HR; now right).
  assert (forall y, In y l -> A y \/ ~ A y) as H2 by (intros y Hy; apply HA; now right).
  assert (forall y, In y l -> ~ R y y) as H3 by (intros y Hy; apply HI; now right).
  destruct (IH H1 H2 HT H3) as [H|(a & Ha & Aa & Hb)].
  - destruct (HA x (or_introl eq_refl)) as [Ax|Nx].
    + right. exists x. split; [now left|]. split; [exact Ax|]. intros b [<-|Hb] Ab; [apply HI; now left|]. exfalso. now apply (H b).
    + left. intros y [<-|Hy]; auto.
  - right. destruct (HA x (or_introl eq_refl)) as [Ax|Nx].
    + destruct (HR x a (or_introl eq_refl) (or_intror Ha)) as [Y|N].
      * exists x. split; [now left|]. split; [exact Ax|]. intros b [<-|Hb'] Ab; [apply HI; now left|]. intros Z. apply (Hb b Hb' Ab). eauto.
      * exists a. split; [now right|]. split; [exact Aa|]. intros b [<-|Hb'] Ab; auto.
    + exists a. split; [now right|]. split; [exact Aa|]. intros b [<-|Hb'] Ab; [contradiction|auto].
Qed.

Lemma annotate_acyclic : forall fuel st order v v',
  fold_left (fun acc p => match acc with None => None | Some v => propagate fuel st p v end) order (Some v) = Some v' ->
  forall p, In p order -> ~ Under st p p.
Proof.
  intros fuel st order. induction order as [|x order IH]; intros v v' H p Hp; [contradiction|]. cbn [fold_left] in H.
  destruct (propagate fuel st x v) as [v1|] eqn:E.
  - destruct Hp as [<-|Hp]; [|eapply IH; eauto]. intros X.
    assert (propagate fuel st x v = None) by (apply propagate_none; left; now apply cycle_deep). congruence.
  - exfalso. clear - H. induction order as [|y l IHl]; [discriminate|]. now apply IHl.
Qed.

(** the iteration order of the set makes no difference *)
Theorem folded_view_order_independent : forall fuel w st names order1 order2 v1 v2, OneParent st ->
  IsOrder w st names order1 -> IsOrder w st names order2 ->
  annotate fuel w st names order1 = Some v1 -> annotate fuel w st names order2 = Some v2 -> forall q, v1 q = v2 q.
Proof.
  intros fuel w st names order1 order2 v1 v2 HU O1 O2 H1 H2 q.
  pose proof H1 as F1. pose proof H2 as F2. unfold annotate in F1, F2.
  pose proof (annotate_acyclic _ _ _ _ _ F1) as AC.
  destruct (fold_annotate _ _ _ _ _ F1 HU) as [A1 B1]. destruct (fold_annotate _ _ _ _ _ F2 HU) as [A2 B2].
  assert ({v1 q = v2 q} + {v1 q <> v2 q}) as [E|N]; [|exact E|].
  { repeat decide equality. }
  exfalso. apply (nn_all2 (Under st) order1 order1). intros DR. apply (nn_all (fun b => b = q \/ Under st b q) order1). intros DA.
  apply N. destruct (top_exists (Under st) (fun b => b = q \/ Under st b q) order1 DR DA (under_trans st) AC) as [X|(a & Ha & Aa & Hb)].
  - rewrite A1, A2; [reflexivity| |].
    + intros p Hp Y. apply (X p); [apply O1; now apply O2|now right].
    + intros p Hp Y. apply (X p Hp). now right.
  - assert (forall b, In b order1 -> ~ Under st b a) as Ho.
    { intros b Hin Y. apply (Hb b Hin); [|exact Y]. right. destruct Aa as [-> |Z]; [exact Y|now apply (under_trans st b a q)]. }
    rewrite (B1 a q Ha Ho Aa). symmetry. rewrite (B2 a q); [reflexivity|apply O2; now apply O1| |exact Aa].
    intros b Hin. apply Ho. apply O1. now apply O2.
Qed.

(** propagate_folded_views ends exactly if the processes are not nested deeper than the recursion limit *)
Theorem propagation_ends_iff : forall st fuel p v, propagate fuel st p v = None <-> fuel = 0 \/ Deep st fuel p.
Proof. intros. rewrite propagate_none. tauto. Qed.
