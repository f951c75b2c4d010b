(** C54: get_dst_ports() and get_src_ports() see the same connections from both ends. *)
From Coq Require Import List Arith ZArith Bool Lia.
From Verif Require Import Kahn VPorts_Model Connect_Model Connect_Props.
Import ListNotations.

(** Specification: a chain of direct connections, in terms of the out_connections only *)
Inductive leads_to (g : graph) : nat -> nat -> Prop :=
| LT0 a : leads_to g a a
| LT1 a b c : In b (outs_of g a) -> leads_to g b c -> leads_to g a c.

Lemma leads_to_snoc g a b c : leads_to g a b -> In c (outs_of g b) -> leads_to g a c.
Proof.
  induction 1; intro Hin.
  - eapply LT1; eauto. constructor.
  - eapply LT1; eauto.
Qed.
Lemma leads_to_last g a c : leads_to g a c -> a = c \/ exists b, leads_to g a b /\ In c (outs_of g b).
Proof.
  induction 1; auto. right. destruct IHleads_to as [->|[d [H1 H2]]].
  - exists a. split; auto. constructor.
  - exists d. split; auto. eapply LT1; eauto.
Qed.

Lemma all_some_in {A B} (f : A -> option (list B)) l r : all_some (map f l) = Some r ->
  forall y, In y r <-> exists x m, In x l /\ f x = Some m /\ In y m.
Proof.
  revert r. induction l as [|x l IH]; simpl; intros r H y.
  - injection H as <-. split; [intros []|]. intros [x [m [[] _]]].
  - destruct (f x) as [m|] eqn:E; [|discriminate].
    destruct (all_some (map f l)) as [r'|]; [|discriminate]. injection H as <-.
    rewrite in_app_iff, (IH _ eq_refl). split.
    + intros [H|[x' [m' [H1 [H2 H3]]]]]; [exists x, m; auto|exists x', m'; auto].
    + intros [x' [m' [[<-|H1] [H2 H3]]]]; [left; congruence|right; eauto].
Qed.
Lemma all_some_def {A B} (f : A -> option (list B)) l r : all_some (map f l) = Some r ->
  forall x, In x l -> exists m, f x = Some m.
Proof.
  revert r. induction l as [|x l IH]; simpl; intros r H y Hy; [tauto|].
  destruct (f x) as [m|] eqn:E; [|discriminate].
  destruct (all_some (map f l)) as [r'|]; [|discriminate].
  destruct Hy as [<-|Hy]; eauto.
Qed.

Lemma dst_ports_spec f : forall g a l, dst_ports f g true a = Some l ->
  forall b, In b l <-> leads_to g a b /\ outs_of g b = [].
Proof.
  induction f; simpl; intros g a l H b; [discriminate|].
  destruct (nth_error g a) as [p|] eqn:E; [|discriminate].
  assert (outs_of g a = outs p) as Eo by (unfold outs_of; rewrite E; auto).
  destruct (outs p) as [|o os] eqn:Ep.
  - injection H as <-. simpl. split.
    + intros [<-|[]]. split; auto. constructor.
    + intros [HL _]. inversion HL; subst; auto. rewrite Eo in H. destruct H.
  - change (all_some (map (dst_ports f g true) (o :: os)) = Some l) in H. rewrite (all_some_in _ _ _ H b). split.
    + intros [x [m [H1 [H2 H3]]]]. apply (IHf _ _ _ H2) in H3. destruct H3.
      split; auto. eapply LT1; eauto. rewrite Eo; auto.
    + intros [HL Hb]. inversion HL; subst; [congruence|]. rewrite Eo in H0.
      destruct (all_some_def _ _ _ H _ H0) as [m Hm]. exists b0, m. split; auto. split; auto.
      apply (IHf _ _ _ Hm). auto.
Qed.

Lemma src_ports_spec f : forall g, consistent g -> forall a l, src_ports f g true a = Some l ->
  forall b, In b l <-> leads_to g b a /\ ins_of g b = [].
Proof.
  intros g HC. induction f; simpl; intros a l H b; [discriminate|].
  destruct (nth_error g a) as [p|] eqn:E; [|discriminate].
  assert (ins_of g a = ins p) as Eo by (unfold ins_of; rewrite E; auto).
  destruct (ins p) as [|o os] eqn:Ep.
  - injection H as <-. simpl. split.
    + intros [<-|[]]. split; auto. constructor.
    + intros [HL _]. apply leads_to_last in HL. destruct HL as [->|[c [_ Hc]]]; auto.
      apply (proj1 HC) in Hc. rewrite Eo in Hc. destruct Hc.
  - change (all_some (map (src_ports f g true) (o :: os)) = Some l) in H. rewrite (all_some_in _ _ _ H b). split.
    + intros [x [m [H1 [H2 H3]]]]. apply (IHf _ _ H2) in H3. destruct H3.
      split; auto. eapply leads_to_snoc; eauto. apply (proj1 HC). rewrite Eo; auto.
    + intros [HL Hb]. apply leads_to_last in HL. destruct HL as [->|[c [H1 H2]]]; [congruence|].
      apply (proj1 HC) in H2. rewrite Eo in H2.
      destruct (all_some_def _ _ _ H _ H2) as [m Hm]. exists c, m. split; auto. split; auto.
      apply (IHf _ _ Hm). auto.
Qed.

(** The user calls the methods without the include-self flag. *)
Lemma dst_ports_top f g a l : dst_ports f g false a = Some l -> outs_of g a <> [] -> dst_ports f g true a = Some l.
Proof.
  destruct f; simpl; [discriminate|]. unfold outs_of. destruct (nth_error g a) as [p|]; [|discriminate].
  destruct (outs p); [congruence|auto].
Qed.
Lemma src_ports_top f g a l : src_ports f g false a = Some l -> ins_of g a <> [] -> src_ports f g true a = Some l.
Proof.
  destruct f; simpl; [discriminate|]. unfold ins_of. destruct (nth_error g a) as [p|]; [|discriminate].
  destruct (ins p); [congruence|auto].
Qed.

(** C54: what get_dst_ports() returns is what the connections say: exactly the ports without further
    outputs at the end of a chain of connections. *)
Theorem get_dst_ports_exact : forall lim calls a l,
  Forall proper calls -> let g := run_calls lim calls in
  dst_ports lim g false a = Some l ->
  forall b, In b l <-> leads_to g a b /\ b <> a /\ outs_of g b = [].
Proof.
  intros lim calls a l HF g H b.
  destruct (list_eq_dec Nat.eq_dec (outs_of g a) []) as [E|E].
  - assert (l = []) as ->.
    { destruct lim; simpl in H; [discriminate|]. unfold outs_of in E. fold g in H.
      destruct (nth_error g a) as [p|]; [|discriminate]. rewrite E in H. congruence. }
    split; [intros []|]. intros [HL [Hn _]].
    inversion HL; subst; [congruence|]. rewrite E in H0. destruct H0.
  - rewrite (dst_ports_spec _ _ _ _ (dst_ports_top _ _ _ _ H E)). split.
    + intros [HL Hb]. split; auto. split; auto. congruence.
    + intros [HL [_ Hb]]. auto.
Qed.

(** C54: source and destination agree on who is connected to whom. *)
Theorem src_dst_agree_partial : forall lim calls a b ds ss,
  Forall proper calls -> let g := run_calls lim calls in
  ins_of g a = [] -> outs_of g b = [] -> a <> b ->
  dst_ports lim g false a = Some ds -> src_ports lim g false b = Some ss ->
  (In b ds <-> In a ss) /\ (In b ds <-> leads_to g a b).
Proof.
  intros lim calls a b ds ss HF g Ha Hb Hab Hd Hs.
  pose proof (connections_consistent_partial lim calls HF) as HC. fold g in HC.
  assert (In b ds <-> leads_to g a b) as D.
  { rewrite (get_dst_ports_exact lim calls a ds HF Hd). split; [intros [? _]; auto|].
    intro HL. auto. }
  split; auto. rewrite D.
  destruct (list_eq_dec Nat.eq_dec (ins_of g b) []) as [E|E].
  - assert (ss = []) as ->.
    { destruct lim; simpl in Hs; [discriminate|]. unfold ins_of in E.
      destruct (nth_error g b) as [p|]; [|discriminate]. rewrite E in Hs. congruence. }
    split; [|intros []]. intro HL. apply leads_to_last in HL. destruct HL as [|[c [_ Hc]]]; [congruence|].
    apply (proj1 HC) in Hc. rewrite E in Hc. destruct Hc.
  - rewrite (src_ports_spec _ _ HC _ _ (src_ports_top _ _ _ _ Hs E)). tauto.
Qed.

Example src_dst_agree_applies :
  let calls := [CNew OutPort [2] (Some 0); CNew InPort [1;2] (Some 1); CDerive 0 (OpReshape [1;2]);
                CConnect 2 (One 1) [None]] in
  Forall proper calls /\ dst_ports 100 (run_calls 100 calls) false 0 = Some [1] /\
  src_ports 100 (run_calls 100 calls) false 1 = Some [0].
Proof. repeat split; try reflexivity. repeat constructor; simpl; unfold cfg_ok; simpl; auto; intuition. Qed.

(** After a connect() with too few configurations the two ends disagree (see C21). *)
Theorem src_dst_disagree_refuted :
  exists calls, let g := run_calls 100 calls in
    dst_ports 100 g false 0 = Some [1;2;3] /\ src_ports 100 g false 3 = Some [].
Proof.
  exists [CNew OutPort [2] None; CNew InPort [2] None; CNew InPort [2] None; CNew InPort [2] None;
          CConnect 0 (Many [1;2;3]) [Some 7; Some 8]].
  split; reflexivity.
Qed.

Print Assumptions src_dst_agree_partial.
