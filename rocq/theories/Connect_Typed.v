(** C76: connections only join compatible ports, for every program of calls, including failing ones. *)
From Coq Require Import List Arith ZArith Bool Lia.
From Verif Require Import Kahn VPorts_Model Connect_Model Connect_Props Network_Model.
Import ListNotations.

(** ** Specification *)
(** a connection from [a] to [b], listed at either end *)
Definition link (g : graph) (a b : nat) : Prop := In b (outs_of g a) \/ In a (ins_of g b).
Definition of_class (g : graph) (a : nat) (c : pclass) : Prop := exists p, nth_error g a = Some p /\ cls p = c.
Definition of_shape (g : graph) (a : nat) (s : list nat) : Prop := exists p, nth_error g a = Some p /\ pshape p = s.
(** who may be connected to whom: data flows from OutPorts to InPorts, references from RefPorts to VarPorts; two ports of
    the same kind connect a process with a sub process *)
Definition allowed (a b : pclass) : Prop :=
  match a, b with
  | OutPort, (OutPort | InPort) | InPort, InPort => True
  | RefPort, (RefPort | VarPort | ImplicitVarPort) => True
  | (VarPort | ImplicitVarPort), (VarPort | ImplicitVarPort) => True
  | _, _ => False
  end.
Definition data_port (c : pclass) : bool := match c with OutPort | InPort => true | _ => false end.
(** [b] is reached from [a] through any number of connections *)
Inductive chain (g : graph) : nat -> nat -> Prop :=
| chain_0 a : chain g a a
| chain_1 a b c : link g a b -> chain g b c -> chain g a c.

(** ** Attributes of ports never change, links are only added *)
Definition attrs (g : graph) (a : nat) : option (pclass * list nat) :=
  match nth_error g a with Some p => Some (cls p, pshape p) | None => None end.
Definition keeps (g g' : graph) : Prop := length g' = length g /\ forall x, attrs g' x = attrs g x.
Lemma keeps_refl g : keeps g g. Proof. split; auto. Qed.
Lemma keeps_trans g h k : keeps g h -> keeps h k -> keeps g k.
Proof. intros [A B] [C D]. split; [congruence|]. intro x. rewrite D. auto. Qed.
Lemma keeps_upd g a p q : nth_error g a = Some p -> cls q = cls p -> pshape q = pshape p -> keeps g (upd g a q).
Proof.
  intros H C S. split; [apply upd_length|]. intro x. unfold attrs. rewrite (upd_port _ _ _ _ _ H).
  destruct (Nat.eqb_spec a x); [subst; rewrite H; congruence|reflexivity].
Qed.
Lemma add_inputs_keeps g a l g' : add_inputs g a l = Some g' -> keeps g g'.
Proof.
  unfold add_inputs. destruct (nth_error g a) as [p|] eqn:E; [|discriminate]. destruct (is_disjoint _ _); [|discriminate].
  intro H; injection H as <-. eapply keeps_upd; eauto.
Qed.
Lemma add_outputs_keeps g a l g' : add_outputs g a l = Some g' -> keeps g g'.
Proof.
  unfold add_outputs. destruct (nth_error g a) as [p|] eqn:E; [|discriminate]. destruct (is_disjoint _ _); [|discriminate].
  intro H; injection H as <-. eapply keeps_upd; eauto.
Qed.
Lemma store_cfg_keeps g a b c : keeps g (store_cfg g a b c).
Proof.
  unfold store_cfg. destruct c as [v|]; [|apply keeps_refl]. set (g1 := match nth_error g a with Some p => upd g a (add_cfg p b v) | None => g end).
  assert (keeps g g1) as K by (unfold g1; destruct (nth_error g a) eqn:E; [eapply keeps_upd; eauto|apply keeps_refl]).
  destruct (nth_error g1 b) eqn:E; [|exact K]. eapply keeps_trans; [exact K|]. eapply keeps_upd; eauto.
Qed.

Definition adds (g g' : graph) (P : nat -> nat -> Prop) : Prop := forall a b, link g' a b -> link g a b \/ P a b.
Lemma fwd_loop_adds self : forall z g, let g' := fst (fwd_loop g self z) in
  keeps g g' /\ adds g g' (fun a b => a = self /\ In b (map fst z)).
Proof.
  induction z as [|[p c] z IH]; intros g; cbn [fwd_loop fst].
  - split; [apply keeps_refl|]. intros a b H. auto.
  - destruct (add_inputs g p [self]) as [g1|] eqn:E; [|split; [apply keeps_refl|intros a b H; auto]].
    destruct (IH (store_cfg g1 self p c)) as [K A]. split.
    + eapply keeps_trans; [eapply add_inputs_keeps; eauto|]. eapply keeps_trans; [apply store_cfg_keeps|exact K].
    + intros a b H. destruct (A _ _ H) as [L|[-> L]]; [|right; simpl; auto].
      destruct (add_inputs_spec _ _ _ _ E) as (_ & _ & S). pose proof (store_cfg_links g1 self p c) as S2.
      unfold link in L. rewrite (proj1 (S2 a)), (proj2 (S2 b)), (proj1 (S a)), (proj2 (S b)) in L.
      destruct L as [L|L]; [left; left; exact L|]. apply in_app_iff in L. destruct L as [L|L]; [left; right; exact L|].
      destruct (Nat.eqb_spec p b); [|destruct L]. destruct L as [<-|[]]. right. simpl. auto.
Qed.
Lemma bwd_loop_adds self : forall z g, let g' := fst (bwd_loop g self z) in
  keeps g g' /\ adds g g' (fun a b => b = self /\ In a (map fst z)).
Proof.
  induction z as [|[p c] z IH]; intros g; cbn [bwd_loop fst].
  - split; [apply keeps_refl|]. intros a b H. auto.
  - destruct (add_outputs g p [self]) as [g1|] eqn:E; [|split; [apply keeps_refl|intros a b H; auto]].
    destruct (IH (store_cfg g1 p self c)) as [K A]. split.
    + eapply keeps_trans; [eapply add_outputs_keeps; eauto|]. eapply keeps_trans; [apply store_cfg_keeps|exact K].
    + intros a b H. destruct (A _ _ H) as [L|[-> L]]; [|right; simpl; auto].
      destruct (add_outputs_spec _ _ _ _ E) as (_ & _ & S). pose proof (store_cfg_links g1 p self c) as S2.
      unfold link in L. rewrite (proj1 (S2 a)), (proj2 (S2 b)), (proj2 (S a)), (proj1 (S b)) in L.
      destruct L as [L|L]; [|left; right; exact L]. apply in_app_iff in L. destruct L as [L|L]; [left; left; exact L|].
      destruct (Nat.eqb_spec p a); [|destruct L]. destruct L as [<-|[]]. right. simpl. auto.
Qed.
Lemma in_combine_fst {A B} (l : list A) (m : list B) x : In x (map fst (combine l m)) -> In x l.
Proof. intro H. apply in_map_iff in H. destruct H as ([y z] & <- & H). apply in_combine_l in H. exact H. Qed.

(** what _validate_ports guarantees *)
Definition valid (g : graph) (self p : nat) (t : ptype) (same_shape : bool) : Prop :=
  exists sp q, nth_error g self = Some sp /\ nth_error g p = Some q /\ isinstance (cls q) t = true /\
    (same_shape = true -> pshape sp = pshape q).
Lemma list_eqb_eq a b : list_eqb a b = true -> a = b.
Proof. unfold list_eqb. destruct (list_eq_dec Nat.eq_dec a b); [auto|discriminate]. Qed.
Lemma validate_valid g self ports t b1 b2 p : validate g self ports t b1 b2 = None -> In p ports -> valid g self p t b1.
Proof.
  unfold validate. destruct ports as [|p0 r]; [discriminate|]. destruct (nth_error g self) as [sp|] eqn:Es; [|discriminate].
  destruct (nth_error g p0) as [fp|]; [|discriminate]. destruct (forallb _ _) eqn:F; [|discriminate]. intros _ H.
  rewrite forallb_forall in F. specialize (F p H). destruct (nth_error g p) as [q|] eqn:Eq; [|discriminate].
  apply andb_prop in F. destruct F as [F1 F2]. apply andb_prop in F1. destruct F1 as [F1 _].
  exists sp, q. split; [exact Es|]. split; [exact Eq|]. split; [exact F1|]. intros ->. apply list_eqb_eq. exact F2.
Qed.
Lemma connect_forward_adds g self ports t cf b1 b2 : let g' := fst (connect_forward g self ports t cf b1 b2) in
  keeps g g' /\ adds g g' (fun a b => a = self /\ In b ports /\ valid g self b t b1).
Proof.
  unfold connect_forward. destruct (validate g self ports t b1 b2) eqn:V; [split; [apply keeps_refl|intros a b H; auto]|].
  destruct (add_outputs g self ports) as [g1|] eqn:E; [|split; [apply keeps_refl|intros a b H; auto]].
  destruct (fwd_loop_adds self (combine ports (spread cf (length ports))) g1) as [K A]. split.
  - eapply keeps_trans; [eapply add_outputs_keeps; eauto|exact K].
  - intros a b H. destruct (A _ _ H) as [L|[-> L]].
    + destruct (add_outputs_spec _ _ _ _ E) as (_ & _ & S). unfold link in L. rewrite (proj2 (S a)), (proj1 (S b)) in L.
      destruct L as [L|L]; [|left; right; exact L]. apply in_app_iff in L. destruct L as [L|L]; [left; left; exact L|].
      destruct (Nat.eqb_spec self a); [|destruct L]. subst. right. split; auto. split; auto. eapply validate_valid; eauto.
    + apply in_combine_fst in L. right. split; auto. split; auto. eapply validate_valid; eauto.
Qed.
Lemma connect_backward_adds g self ports t cf b1 b2 : let g' := fst (connect_backward g self ports t cf b1 b2) in
  keeps g g' /\ adds g g' (fun a b => b = self /\ In a ports /\ valid g self a t b1).
Proof.
  unfold connect_backward. destruct (validate g self ports t b1 b2) eqn:V; [split; [apply keeps_refl|intros a b H; auto]|].
  destruct (add_inputs g self ports) as [g1|] eqn:E; [|split; [apply keeps_refl|intros a b H; auto]].
  destruct (bwd_loop_adds self (combine ports (spread cf (length ports))) g1) as [K A]. split.
  - eapply keeps_trans; [eapply add_inputs_keeps; eauto|exact K].
  - intros a b H. destruct (A _ _ H) as [L|[-> L]].
    + destruct (add_inputs_spec _ _ _ _ E) as (_ & _ & S). unfold link in L. rewrite (proj1 (S a)), (proj2 (S b)) in L.
      destruct L as [L|L]; [left; left; exact L|]. apply in_app_iff in L. destruct L as [L|L]; [left; right; exact L|].
      destruct (Nat.eqb_spec self b); [|destruct L]. subst. right. split; auto. split; auto. eapply validate_valid; eauto.
    + apply in_combine_fst in L. right. split; auto. split; auto. eapply validate_valid; eauto.
Qed.

(** ** Invariant.  [k]: whether a port (virtual ones included) carries data or references *)
Definition joined (k : nat -> bool) (pa pb : pclass * list nat) : Prop :=
  is_virtual (fst pb) = false -> snd pa = snd pb /\ (is_virtual (fst pa) = false -> allowed (fst pa) (fst pb)).
Record typed (g : graph) (k : nat -> bool) : Prop := {
  ty_link : forall a b, link g a b -> exists pa pb, attrs g a = Some pa /\ attrs g b = Some pb /\ joined k pa pb /\ k a = k b;
  ty_kind : forall a p, attrs g a = Some p -> is_virtual (fst p) = false -> k a = data_port (fst p) }.
Lemma typed_adds g g' k P : typed g k -> keeps g g' -> adds g g' P ->
  (forall a b, P a b -> exists pa pb, attrs g a = Some pa /\ attrs g b = Some pb /\ joined k pa pb /\ k a = k b) -> typed g' k.
Proof.
  intros [T1 T2] [_ K] A HP. constructor.
  - intros a b L. rewrite !K. destruct (A _ _ L) as [L0|L0]; auto.
  - intros a p. rewrite K. auto.
Qed.
Lemma link_bound g k a b : typed g k -> link g a b -> a < length g /\ b < length g.
Proof.
  intros [T _] L. destruct (T _ _ L) as (pa & pb & A & B & _). unfold attrs in *.
  split; apply nth_error_Some; [destruct (nth_error g a)|destruct (nth_error g b)]; congruence.
Qed.
Lemma link_app g p a b : ins p = [] -> outs p = [] -> link (g ++ [p]) a b -> link g a b.
Proof.
  intros I O. unfold link, outs_of, ins_of. intros [H|H].
  - left. destruct (Nat.lt_ge_cases a (length g)); [rewrite nth_error_app1 in H by auto; exact H|].
    rewrite nth_error_app2 in H by auto. destruct (a - length g) as [|j]; simpl in H; [rewrite O in H; destruct H|].
    destruct j; destruct H.
  - right. destruct (Nat.lt_ge_cases b (length g)); [rewrite nth_error_app1 in H by auto; exact H|].
    rewrite nth_error_app2 in H by auto. destruct (b - length g) as [|j]; simpl in H; [rewrite I in H; destruct H|].
    destruct j; destruct H.
Qed.
Lemma attrs_app g p a : attrs (g ++ [p]) a = if a =? length g then Some (cls p, pshape p) else attrs g a.
Proof.
  unfold attrs. destruct (Nat.eqb_spec a (length g)) as [->|N].
  - rewrite nth_error_app2, Nat.sub_diag by auto. reflexivity.
  - destruct (Nat.lt_ge_cases a (length g)); [rewrite nth_error_app1 by auto; reflexivity|].
    assert (nth_error (g ++ [p]) a = None) as -> by (apply nth_error_None; rewrite app_length; simpl; lia).
    assert (nth_error g a = None) as -> by (apply nth_error_None; lia). reflexivity.
Qed.
(** a new port without connections *)
Lemma typed_new g k p b : typed g k -> ins p = [] -> outs p = [] -> (is_virtual (cls p) = false -> b = data_port (cls p)) ->
  typed (g ++ [p]) (fun x => if x =? length g then b else k x).
Proof.
  intros T I O V. constructor.
  - intros x y L. apply link_app in L; auto. destruct (link_bound _ _ _ _ T L) as [Lx Ly].
    rewrite !attrs_app. destruct (Nat.eqb_spec x (length g)); [lia|]. destruct (Nat.eqb_spec y (length g)); [lia|].
    destruct T as [T _]. destruct (T _ _ L) as (pa & pb & A & B & J & K). exists pa, pb. auto.
  - intros x q. rewrite attrs_app. destruct (Nat.eqb_spec x (length g)).
    + intros E H. injection E as <-. apply V, H.
    + apply T.
Qed.

Lemma all_some_in {A} : forall (l : list (option (list A))) m x, all_some l = Some m -> In x m -> exists y, In (Some y) l /\ In x y.
Proof.
  induction l as [|[y|] l IH]; intros m x H Hx; simpl in H; try discriminate.
  - injection H as <-. destruct Hx.
  - destruct (all_some l) as [z|]; [|discriminate]. injection H as <-. apply in_app_iff in Hx. destruct Hx as [Hx|Hx].
    + exists y. simpl. auto.
    + destruct (IH z x eq_refl Hx) as (w & W1 & W2). exists w. simpl. auto.
Qed.
Lemma src_ports_kind g k : typed g k -> forall f i a l s, src_ports f g i a = Some l -> In s l -> k s = k a.
Proof.
  intros T. induction f as [|f IH]; intros i a l s H Hs; simpl in H; [discriminate|].
  destruct (nth_error g a) as [p|] eqn:E; [|discriminate]. destruct (ins p) as [|x r] eqn:Ei.
  - injection H as <-. destruct i; [destruct Hs as [<-|[]]; reflexivity|destruct Hs].
  - destruct (all_some_in (map (src_ports f g true) (x :: r)) l s H Hs) as (y & Y1 & Y2). apply in_map_iff in Y1. destruct Y1 as (z & Y1 & Z).
    rewrite (IH _ _ _ _ Y1 Y2). assert (link g z a) as L by (right; unfold ins_of; rewrite E, Ei; exact Z).
    destruct (ty_link _ _ T _ _ L) as (? & ? & _ & _ & _ & K). exact K.
Qed.
Lemma attrs_some g a p : nth_error g a = Some p -> attrs g a = Some (cls p, pshape p).
Proof. unfold attrs. intros ->. reflexivity. Qed.

(** connecting [self] forward *)
Lemma forward_typed g k self sp ports t cf : typed g k -> nth_error g self = Some sp ->
  (forall c, isinstance c t = true -> is_virtual c = false /\ k self = data_port c /\ (is_virtual (cls sp) = false -> allowed (cls sp) c)) ->
  typed (fst (connect_forward g self ports t cf true true)) k.
Proof.
  intros T Hs Ht. destruct (connect_forward_adds g self ports t cf true true) as [K A].
  apply (typed_adds _ _ _ _ T K A). intros a b (-> & _ & (sp' & q & E1 & E2 & I & S)).
  rewrite Hs in E1. injection E1 as <-. destruct (Ht _ I) as (V & D & Al).
  exists (cls sp, pshape sp), (cls q, pshape q). split; [apply attrs_some; auto|]. split; [apply attrs_some; auto|]. split.
  - intros _. simpl. split; auto.
  - rewrite D. symmetry. apply (ty_kind _ _ T b (cls q, pshape q)); [apply attrs_some; auto|exact V].
Qed.
Lemma backward_typed g k self sp ports t cf : typed g k -> nth_error g self = Some sp -> is_virtual (cls sp) = false ->
  (forall c, isinstance c t = true -> is_virtual c = false /\ data_port c = data_port (cls sp) /\ allowed c (cls sp)) ->
  typed (fst (connect_backward g self ports t cf true true)) k.
Proof.
  intros T Hs Hv Ht. destruct (connect_backward_adds g self ports t cf true true) as [K A].
  apply (typed_adds _ _ _ _ T K A). intros a b (-> & _ & (sp' & q & E1 & E2 & I & S)).
  rewrite Hs in E1. injection E1 as <-. destruct (Ht _ I) as (V & D & Al).
  exists (cls q, pshape q), (cls sp, pshape sp). split; [apply attrs_some; auto|]. split; [apply attrs_some; auto|]. split.
  - intros _. simpl. split; [symmetry; auto|auto].
  - rewrite (ty_kind _ _ T a (cls q, pshape q)) by (auto using attrs_some).
    rewrite (ty_kind _ _ T self (cls sp, pshape sp)) by (auto using attrs_some). exact D.
Qed.
Ltac classes := let c := fresh in intros c; destruct c; simpl; intro; try discriminate; repeat split; auto; try discriminate; try (intro; exact I); try exact I.
Lemma do_connect_typed lim g k self a cf : typed g k -> typed (fst (do_connect lim g self a cf)) k.
Proof.
  intro T. unfold do_connect. destruct (nth_error g self) as [sp|] eqn:Es; [|exact T].
  assert (is_virtual (cls sp) = false -> k self = data_port (cls sp)) as D
    by (intro V; apply (ty_kind _ _ T self (cls sp, pshape sp)); [apply attrs_some; auto|exact V]).
  destruct (cls sp) eqn:Ec; simpl in D.
  - apply (forward_typed _ _ _ sp); auto. rewrite Ec, D by auto. classes.
  - apply (forward_typed _ _ _ sp); auto. rewrite Ec, D by auto. classes.
  - destruct (rv_check _ _ _ _); [exact T|]. destruct (all_of _ _ _); [|exact T].
    apply (forward_typed _ _ _ sp); auto. rewrite Ec, D by auto. classes.
  - destruct (rv_check _ _ _ _); [exact T|]. destruct (all_of _ _ _); [|exact T].
    apply (forward_typed _ _ _ sp); auto. rewrite Ec, D by auto. classes.
  - destruct (rv_check _ _ _ _); [exact T|]. destruct (all_of _ _ _); [|exact T].
    apply (forward_typed _ _ _ sp); auto. rewrite Ec, D by auto. classes.
  - destruct (src_ports lim g false self) as [[|s l]|] eqn:Ep; try exact T.
    destruct (nth_error g s) as [q|] eqn:Eq; [|exact T].
    assert (is_virtual (cls q) = false -> k self = data_port (cls q)) as D'.
    { intro V. rewrite <- (src_ports_kind _ _ T _ _ _ _ s Ep (or_introl eq_refl)).
      apply (ty_kind _ _ T s (cls q, pshape q)); [apply attrs_some; auto|exact V]. }
    destruct (cls q); simpl in D'; try exact T; apply (forward_typed _ _ _ sp); auto; rewrite Ec, D' by auto; classes.
  - destruct (src_ports lim g false self) as [[|s l]|] eqn:Ep; try exact T.
    destruct (nth_error g s) as [q|] eqn:Eq; [|exact T].
    assert (is_virtual (cls q) = false -> k self = data_port (cls q)) as D'.
    { intro V. rewrite <- (src_ports_kind _ _ T _ _ _ _ s Ep (or_introl eq_refl)).
      apply (ty_kind _ _ T s (cls q, pshape q)); [apply attrs_some; auto|exact V]. }
    destruct (cls q); simpl in D'; try exact T; apply (forward_typed _ _ _ sp); auto; rewrite Ec, D' by auto; classes.
  - destruct (src_ports lim g false self) as [[|s l]|] eqn:Ep; try exact T.
    destruct (nth_error g s) as [q|] eqn:Eq; [|exact T].
    assert (is_virtual (cls q) = false -> k self = data_port (cls q)) as D'.
    { intro V. rewrite <- (src_ports_kind _ _ T _ _ _ _ s Ep (or_introl eq_refl)).
      apply (ty_kind _ _ T s (cls q, pshape q)); [apply attrs_some; auto|exact V]. }
    destruct (cls q); simpl in D'; try exact T; apply (forward_typed _ _ _ sp); auto; rewrite Ec, D' by auto; classes.
Qed.
Lemma do_connect_from_typed lim g k self a cf : typed g k -> typed (fst (do_connect_from lim g self a cf)) k.
Proof.
  intro T. unfold do_connect_from. destruct (nth_error g self) as [sp|] eqn:Es; [|exact T].
  destruct (cls sp) eqn:Ec; try exact T;
    try (destruct (rv_check _ _ _ _); [exact T|]; destruct (all_of _ _ _); [|exact T]);
    (apply (backward_typed _ _ _ sp); auto; rewrite Ec; [reflexivity|classes]).
Qed.
(** a virtual port made from ports that exist *)
Lemma virtual_typed g k c sh (P : nat -> nat -> Prop) g' b : typed g k -> is_virtual c = true ->
  keeps (g ++ [new_port c sh None]) g' -> adds (g ++ [new_port c sh None]) g' P ->
  (forall x y, P x y -> y = length g /\ x < length g /\ k x = b) -> exists k', typed g' k'.
Proof.
  intros T V K A HP. exists (fun x => if x =? length g then b else k x).
  apply (typed_adds _ _ _ P (typed_new g k (new_port c sh None) b T eq_refl eq_refl ltac:(simpl; congruence)) K A).
  intros x y Hxy. destruct (HP _ _ Hxy) as (-> & Lx & Kx). rewrite !attrs_app, Nat.eqb_refl.
  destruct (Nat.eqb_spec x (length g)); [lia|]. destruct (nth_error g x) as [p|] eqn:E; [|apply nth_error_None in E; lia].
  exists (cls p, pshape p), (c, sh). split; [apply attrs_some; auto|]. split; [reflexivity|]. split; [|exact Kx].
  intro H. simpl in H. congruence.
Qed.
Lemma do_call_typed lim g k c : typed g k -> exists k', typed (fst (do_call lim g c)) k'.
Proof.
  intro T. destruct c as [c sh pr|self a cf|self a cf|self o|self l ax|self vs cf]; cbn [do_call].
  - exists (fun x => if x =? length g then data_port c else k x). apply typed_new; auto.
  - exists k. apply do_connect_typed, T.
  - exists k. apply do_connect_from_typed, T.
  - unfold do_derive. destruct (nth_error g self) as [sp|] eqn:Es; [|exists k; exact T].
    destruct (derive1 (pshape sp) o) as [v|]; [|exists k; exact T].
    destruct (connect_forward_adds (g ++ [new_port (match v with ReshapeP _ _ => ReshapePort | TransposeP _ _ => TransposePort end) (vshape v) None])
      self [length g] TAbstractPort [None] false true) as [K A].
    eapply (virtual_typed g k _ _ _ _ (k self) T); [|exact K|exact A|].
    + destruct v; reflexivity.
    + intros x y (-> & [<-|[]] & _). split; auto. split; auto. apply nth_error_Some. congruence.
  - unfold do_concat. destruct (nth_error g self) as [sp|] eqn:Es; [|exists k; exact T].
    set (t := if isinstance (cls sp) TAbstractIOPort then TAbstractIOPort else TAbstractRVPort).
    destruct (validate g self (self :: l) t false false) eqn:V; [exists k; exact T|].
    destruct (concat_shape _ _) as [sh| | |] eqn:Ec; try (exists k; exact T).
    destruct (connect_backward_adds (g ++ [new_port ConcatPort sh None]) (length g) (self :: l) TAbstractPort [None] false true) as [K A].
    eapply (virtual_typed g k ConcatPort sh _ _ (isinstance (cls sp) TAbstractIOPort) T); [reflexivity|exact K|exact A|].
    intros x y (-> & Hx & _). split; auto.
    destruct (validate_valid _ _ _ _ _ _ x V Hx) as (sp' & q & E1 & E2 & I & _).
    split; [apply nth_error_Some; congruence|].
    rewrite (ty_kind _ _ T x (cls q, pshape q)); [|apply attrs_some; auto|].
    + cbn [fst]. unfold t in I. destruct (isinstance (cls sp) TAbstractIOPort); destruct (cls q); simpl in *; congruence.
    + unfold t in I. destruct (isinstance (cls sp) TAbstractIOPort); destruct (cls q); simpl in *; congruence.
  - unfold do_connect_var. destruct (nth_error g self) as [sp|] eqn:Es; [|exists k; exact T].
    destruct (negb _); [exists k; exact T|]. destruct (1 <? length vs); [exists k; exact T|].
    destruct (dst_ports lim g false self) as [[|? ?]|]; [|destruct (src_ports lim g false self); exists k; exact T|exists k; exact T].
    destruct (src_ports lim g false self) as [[|? ?]|]; try (exists k; exact T).
    destruct (existsb _ vs); [exists k; exact T|]. destruct vs as [|v0 r]; [exists k; exact T|].
    assert (forall vs sh0 g k acc, typed g k -> exists k', typed (fst (implicit_ports vs sh0 g acc)) k') as G.
    { clear. induction vs as [|v r IH]; intros sh0 g k acc T; cbn [implicit_ports]; [exists k; exact T|].
      destruct (list_eqb _ _); [|exists k; exact T]. destruct (v_shareable v); [|exists k; exact T].
      eapply IH. apply (typed_new g k (new_port ImplicitVarPort (v_shape v) (v_proc v)) false T); auto. }
    destruct (G (v0 :: r) (v_shape v0) g k [] T) as [k' T']. destruct (implicit_ports (v0 :: r) (v_shape v0) g []) as [g' [ps [e|]]]; exists k'.
    + exact T'.
    + apply do_connect_typed. exact T'.
Qed.
Lemma run_typed lim calls : exists k, typed (run_calls lim calls) k.
Proof.
  unfold run_calls. assert (exists k, typed [] k) as B.
  { exists (fun _ => false). constructor; [intros a b [H|H]; unfold outs_of, ins_of in H; [destruct a|destruct b]; destruct H|].
    intros a p H. unfold attrs in H. destruct a; discriminate. }
  revert B. generalize ([] : graph). induction calls as [|c r IH]; intros g [k T]; [exists k; exact T|]. cbn [fold_left].
  apply IH. eapply do_call_typed. exact T.
Qed.

(** ** Theorems *)
(** A connection to a port of a process (not a virtual one) comes from a port of the same shape, and one port of a process
    is connected directly only to one it may be connected to *)
Theorem connections_well_typed_partial lim calls a b pa pb : let g := run_calls lim calls in
  link g a b -> nth_error g a = Some pa -> nth_error g b = Some pb -> is_virtual (cls pb) = false ->
  pshape pa = pshape pb /\ (is_virtual (cls pa) = false -> allowed (cls pa) (cls pb)).
Proof.
  intros g L Ha Hb V. destruct (run_typed lim calls) as [k T]. fold g in T. destruct (ty_link _ _ T _ _ L) as (qa & qb & A & B & J & _).
  rewrite (attrs_some _ _ _ Ha) in A. rewrite (attrs_some _ _ _ Hb) in B. injection A as <-. injection B as <-.
  apply (J V).
Qed.
(** Through any chain of connections, virtual ports included, data ports are only connected with data ports, reference
    ports only with reference ports *)
Theorem chains_keep_kind lim calls a b pa pb : let g := run_calls lim calls in
  chain g a b -> nth_error g a = Some pa -> nth_error g b = Some pb -> is_virtual (cls pa) = false -> is_virtual (cls pb) = false ->
  data_port (cls pa) = data_port (cls pb).
Proof.
  intros g C Ha Hb Va Vb. destruct (run_typed lim calls) as [k T]. fold g in T.
  assert (k a = k b) as E.
  { clear Ha Hb Va Vb. induction C as [a|a b c L C IH]; [reflexivity|]. rewrite <- IH.
    destruct (ty_link _ _ T _ _ L) as (? & ? & _ & _ & _ & K). exact K. }
  rewrite (ty_kind _ _ T a (cls pa, pshape pa)) in E by (auto using attrs_some).
  rewrite (ty_kind _ _ T b (cls pb, pshape pb)) in E by (auto using attrs_some). exact E.
Qed.
(** RefPorts and VarPorts refuse a list of several ports, and a RefPort or VarPort that has a destination refuses to be
    connected to (another) VarPort; nothing is changed *)
Theorem reference_ports_refuse lim g self sp a cf : nth_error g self = Some sp ->
  In (cls sp) [RefPort; VarPort; ImplicitVarPort] ->
  1 < length (to_list a) \/ (outs sp <> [] /\ exists v q, a = One v /\ nth_error g v = Some q /\ In (cls q) [VarPort; ImplicitVarPort]) ->
  exists e, do_call lim g (CConnect self a cf) = (g, Some e) /\ (e = EAssert \/ e = ERecursion).
Proof.
  intros Hs Hc H. assert (exists e, rv_check lim g self a = Some e /\ (e = EAssert \/ e = ERecursion)) as (e & E & D).
  { unfold rv_check. destruct (Nat.ltb_spec 1 (length (to_list a))); [eauto|]. destruct H as [H|(O & v & q & -> & Hv & Hq)]; [lia|].
    destruct (dst_ports lim g false self) as [ds|] eqn:Ed; [|eauto].
    assert (0 <? length ds = true) as ->.
    { destruct lim as [|f]; simpl in Ed; [discriminate|]. rewrite Hs in Ed. destruct (outs sp) as [|x r] eqn:Eo; [congruence|].
      apply Nat.ltb_lt. cbn [map all_some] in Ed. destruct (dst_ports f g true x) as [m|] eqn:Em; [|discriminate].
      destruct (all_some (map (dst_ports f g true) r)) as [m'|]; [|discriminate]. injection Ed as <-. rewrite app_length.
      assert (0 < length m); [|lia]. clear - Em. revert x m Em. induction f as [|f IH]; intros x m Em; simpl in Em; [discriminate|].
      destruct (nth_error g x) as [p|]; [|discriminate]. destruct (outs p) as [|y r]; [injection Em as <-; simpl; lia|].
      cbn [map all_some] in Em. destruct (dst_ports f g true y) as [z|] eqn:Ez; [|discriminate].
      destruct (all_some (map (dst_ports f g true) r)); [|discriminate]. injection Em as <-. rewrite app_length. specialize (IH _ _ Ez). lia. }
    cbn [arg_isinstance]. rewrite Hv. assert (isinstance (cls q) TAbstractSrcPort = false) as -> by (destruct Hq as [<-|[<-|[]]]; reflexivity).
    simpl. eauto. }
  exists e. split; [|exact D]. cbn [do_call]. unfold do_connect. rewrite Hs, E. destruct Hc as [<-|[<-|[<-|[]]]]; reflexivity.
Qed.
(** ... but 1:1 connections are not enforced: a RefPort can still be connected to two VarPorts, by connecting it to a second
    RefPort, or from the side of the VarPort, and two RefPorts to the same VarPort. *)
Definition two_vars : list call :=
  [CNew RefPort [2] (Some 0); CNew VarPort [2] (Some 1); CNew RefPort [2] (Some 2); CNew VarPort [2] (Some 3);
   CConnect 0 (One 1) [None]; CConnect 0 (One 2) [None]; CConnectFrom 3 (One 0) [None]; CConnect 2 (One 1) [None]].
Theorem reference_one_to_one_refuted : let g := run_calls 100 two_vars in
  outs_of g 0 = [1; 2; 3] /\ ins_of g 1 = [0; 2].
Proof. vm_compute. auto. Qed.
(** ... and through a virtual port an InPort can feed an OutPort, if the InPort is itself fed by an OutPort: what may be
    connected to a virtual port is decided by the port at the start of the chain *)
Theorem virtual_direction_refuted : let g := run_calls 100
   [CNew OutPort [2] (Some 0); CNew InPort [2] (Some 1); CNew OutPort [1; 2] (Some 2); CConnect 0 (One 1) [None];
    CDerive 1 (OpReshape [1; 2]); CConnect 3 (One 2) [None]] in
  of_class g 1 InPort /\ of_class g 2 OutPort /\ chain g 1 2.
Proof.
  split; [eexists; split; reflexivity|]. split; [eexists; split; reflexivity|].
  apply (chain_1 _ 1 3 2); [left; vm_compute; auto|]. apply (chain_1 _ 3 2 2); [left; vm_compute; auto|]. apply chain_0.
Qed.
Example typed_demo : let g := run_calls 100 two_vars in link g 0 1 /\ of_class g 0 RefPort /\ of_class g 1 VarPort /\ chain g 0 1.
Proof.
  assert (link (run_calls 100 two_vars) 0 1) as L by (left; vm_compute; auto).
  split; [exact L|]. split; [eexists; split; reflexivity|]. split; [eexists; split; reflexivity|].
  eapply chain_1; [exact L|apply chain_0].
Qed.
