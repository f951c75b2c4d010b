(** C108: what the compiler of Python processes does to the channel map. *)
From Coq Require Import List Arith Bool Lia.
From Verif Require Import VPorts_Model Connect_Model Connect_Props Connect_Props2 Network_Model Network_Props ChanUpd_Model.
Import ListNotations.

(** ** Specification *)
(** a pair that the compiler of the group has to enter: an OutPort or RefPort [s] of a process of the group and a port [t] that is no
    such port at the end of a chain of connections from it, ... *)
Definition from_source (g : graph) (group : list nat) (s t : nat) : Prop :=
  (exists p q, In p group /\ nth_error g s = Some q /\ proc q = Some p /\ (cls q = OutPort \/ cls q = RefPort)) /\
  leads_to g s t /\ t <> s /\ outs_of g t = [] /\ is_a g t TAbstractSrcPort = false.
(** ... or an InPort or VarPort [t] of a process of the group and a port [s] that is no such port at the start of a chain *)
Definition from_destination (g : graph) (group : list nat) (s t : nat) : Prop :=
  (exists p q, In p group /\ nth_error g t = Some q /\ proc q = Some p /\ (cls q = InPort \/ cls q = VarPort \/ cls q = ImplicitVarPort)) /\
  leads_to g s t /\ s <> t /\ ins_of g s = [] /\ is_a g s TAbstractDstPort = false.
(** [k] is entered with payload [v] *)
Definition holds (d : dict) (k : nat * nat) (v : nat) : Prop := In (k, v) d.

(** ** dictionaries *)
Lemma pair_eqb_iff : forall a b, pair_eqb a b = true <-> a = b.
Proof.
  intros [a a'] [b b']. unfold pair_eqb. cbn. rewrite andb_true_iff, !Nat.eqb_eq. split; [intros [-> ->]; reflexivity|intros E; injection E; auto].
Qed.
Lemma set_item_keys : forall d k v, In k (keys d) -> keys (set_item d k v) = keys d.
Proof.
  induction d as [|[k' v'] r IH]; intros k v H; [destruct H|]. cbn [set_item]. destruct (pair_eqb k' k) eqn:E; [reflexivity|].
  cbn [keys map fst] in *. f_equal. apply IH. destruct H as [H|H]; [|exact H]. subst. assert (pair_eqb k k = true) by now apply pair_eqb_iff. congruence.
Qed.
Lemma set_item_new : forall d k v, ~ In k (keys d) -> set_item d k v = d ++ [(k, v)].
Proof.
  induction d as [|[k' v'] r IH]; intros k v H; [reflexivity|]. cbn [set_item]. destruct (pair_eqb k' k) eqn:E.
  - apply pair_eqb_iff in E. subst. destruct H. now left.
  - cbn. f_equal. apply IH. intros X. apply H. now right.
Qed.
Lemma key_dec : forall (k : nat * nat) l, In k l \/ ~ In k l.
Proof. intros k l. destruct (in_dec (fun p q : nat * nat => ltac:(decide equality; apply Nat.eq_dec)) k l); auto. Qed.
Lemma set_item_In : forall d k v k', In k' (keys (set_item d k v)) <-> In k' (keys d) \/ k' = k.
Proof.
  intros d k v k'. destruct (key_dec k (keys d)) as [H|H].
  - rewrite set_item_keys by exact H. split; [auto|intros [X| ->]; assumption].
  - rewrite set_item_new by exact H. unfold keys. rewrite map_app, in_app_iff. cbn. intuition.
Qed.
Lemma set_item_NoDup : forall d k v, NoDup (keys d) -> NoDup (keys (set_item d k v)).
Proof.
  intros d k v N. destruct (key_dec k (keys d)) as [H|H]; [now rewrite set_item_keys|].
  rewrite set_item_new by exact H. unfold keys in *. rewrite map_app. cbn. apply NoDup_app_disj; [exact N|repeat constructor; intros []|intros x X [<-|[]]; contradiction].
Qed.

Lemma set_item_holds : forall d k v k' v', NoDup (keys d) -> (In (k', v') (set_item d k v) <-> (k' = k /\ v' = v) \/ (k' <> k /\ In (k', v') d)).
Proof.
  induction d as [|[a b] r IH]; intros k v k' v' N; cbn [set_item].
  - cbn. split; [intros [E|[]]; injection E; auto|intros [[-> ->]|[_ []]]; auto].
  - inversion N as [|? ? Na Nr]; subst. destruct (pair_eqb a k) eqn:E.
    + apply pair_eqb_iff in E. subst. cbn [In]. split.
      * intros [X|X]; [injection X as <- <-; auto|]. right. split; [|now right]. intros ->. apply Na. unfold keys. apply (in_map fst) in X. exact X.
      * intros [[-> ->]|[D [X|X]]]; [now left|injection X; congruence|now right].
    + cbn [In]. rewrite IH by exact Nr. assert (a <> k) as D by (intros ->; pose proof (proj2 (pair_eqb_iff k k) eq_refl); congruence).
      split.
      * intros [X|[X|[X Y]]]; [injection X as <- <-; right; auto|auto|auto].
      * intros [X|[X [Y|Y]]]; auto.
Qed.

(** ** updates *)
Definition grows (pl : nat) (d d' : dict) (P : nat * nat -> Prop) : Prop :=
  (forall k, In k (keys d') <-> In k (keys d) \/ P k) /\
  (NoDup (keys d) -> NoDup (keys d')) /\
  ((forall k, P k -> In k (keys d)) -> keys d' = keys d) /\
  (forall k, P k \/ ~ P k) /\
  (NoDup (keys d) -> forall k v, holds d' k v <-> (P k /\ v = pl) \/ (~ P k /\ holds d k v)).
Lemma grows_none : forall pl d P, (forall k, ~ P k) -> grows pl d d P.
Proof.
  intros pl d P H. split; [|split; [auto|split; [auto|split]]].
  - intros k. specialize (H k). tauto.
  - intros k. right. apply H.
  - intros _ k v. specialize (H k). tauto.
Qed.
Lemma grows_ext : forall pl d d' P Q, (forall k, P k <-> Q k) -> grows pl d d' P -> grows pl d d' Q.
Proof.
  intros pl d d' P Q E (A & B & C & D & F). split; [|split; [exact B|split; [|split]]].
  - intros k. rewrite A, E. tauto.
  - intros X. apply C. intros k Y. now apply X, E.
  - intros k. rewrite <- E. apply D.
  - intros N k v. rewrite (F N), E. tauto.
Qed.
Lemma grows_comp : forall pl d d1 d2 P Q, grows pl d d1 P -> grows pl d1 d2 Q -> grows pl d d2 (fun k => P k \/ Q k).
Proof.
  intros pl d d1 d2 P Q (A & B & C & D & F) (A' & B' & C' & D' & F'). split; [|split; [auto|split; [|split]]].
  - intros k. rewrite A', A. tauto.
  - intros X. assert (keys d1 = keys d) as E by (apply C; auto). rewrite <- E. apply C'. rewrite E. auto.
  - intros k. destruct (D k), (D' k); tauto.
  - intros N k v. rewrite (F' (B N)), (F N). destruct (D' k); tauto.
Qed.
Lemma grows_set : forall pl d k, grows pl d (set_item d k pl) (fun x => x = k).
Proof.
  intros pl d k. split; [|split; [|split; [|split]]].
  - intros x. apply set_item_In.
  - apply set_item_NoDup.
  - intros X. apply set_item_keys. now apply X.
  - intros x. destruct (key_dec x [k]) as [[E|[]]|E]; [now left|right; intros ->; apply E; now left].
  - intros N x v. unfold holds. now apply set_item_holds.
Qed.
Lemma grows_fold : forall pl (f : dict -> nat -> dict) (P : nat -> nat * nat -> Prop), (forall d x, grows pl d (f d x) (P x)) ->
  forall l d, grows pl d (fold_left f l d) (fun k => exists x, In x l /\ P x k).
Proof.
  intros pl f P H. induction l as [|x l IH]; intros d; cbn [fold_left]; [apply grows_none; intros k (x & [] & _)|].
  eapply grows_ext; [|exact (grows_comp _ _ _ _ _ _ (H d x) (IH (f d x)))]. intros k. cbv beta. split.
  - intros [X|(y & Y & X)]; [exists x; split; [now left|exact X]|exists y; split; [now right|exact X]].
  - intros (y & [<-|Y] & X); [now left|right; eauto].
Qed.
Lemma each_none : forall f l, each f l None = None.
Proof. intros f l. unfold each. induction l as [|x l IH]; [reflexivity|exact IH]. Qed.
Lemma grows_each : forall pl (f : dict -> nat -> option dict) (P : nat -> nat * nat -> Prop), (forall d x d', f d x = Some d' -> grows pl d d' (P x)) ->
  forall l o d', each f l o = Some d' -> exists d, o = Some d /\ grows pl d d' (fun k => exists x, In x l /\ P x k).
Proof.
  intros pl f P H. induction l as [|x l IH]; intros o d' E.
  - exists d'. split; [exact E|]. apply grows_none. intros k (x & [] & _).
  - destruct o as [d|]; [|now rewrite each_none in E]. exists d. split; [reflexivity|]. change (each f l (f d x) = Some d') in E.
    destruct (IH _ _ E) as (d1 & E1 & G). eapply grows_ext; [|exact (grows_comp _ _ _ _ _ _ (H _ _ _ E1) G)]. intros k. cbv beta. split.
    + intros [X|(y & Y & X)]; [exists x; split; [now left|exact X]|exists y; split; [now right|exact X]].
    + intros (y & [<-|Y] & X); [now left|right; eauto].
Qed.

Section Calls.
Variables (lim : nat) (calls : list call) (pl : nat).
Hypothesis HF : Forall proper calls.
Let g := run_calls lim calls.

Lemma add_src_grows : forall d s d', add_src_port lim g pl d s = Some d' ->
  grows pl d d' (fun k => fst k = s /\ leads_to g s (snd k) /\ snd k <> s /\ outs_of g (snd k) = [] /\ is_a g (snd k) TAbstractSrcPort = false).
Proof.
  intros d s d' E. unfold add_src_port in E. destruct (dst_ports lim g false s) as [l|] eqn:D; [|discriminate]. injection E as <-.
  pose proof (get_dst_ports_exact lim calls s l HF D) as L. cbv zeta in L. fold g in L.
  eapply grows_ext; [|apply (grows_fold pl _ (fun t k => is_a g t TAbstractSrcPort = false /\ k = (s, t)))].
  - intros [a b]. cbn [fst snd]. split.
    + intros (t & I & T & X). injection X as -> ->. apply L in I. tauto.
    + intros (-> & A & B & C & T). exists b. split; [apply L; tauto|auto].
  - intros e t. destruct (is_a g t TAbstractSrcPort); [apply grows_none; intros k [X _]; discriminate|].
    eapply grows_ext; [|apply grows_set]. intros k. cbv beta. tauto.
Qed.
Lemma add_dst_grows : forall d t d', add_dst_port lim g pl d t = Some d' ->
  grows pl d d' (fun k => snd k = t /\ leads_to g (fst k) t /\ fst k <> t /\ ins_of g (fst k) = [] /\ is_a g (fst k) TAbstractDstPort = false).
Proof.
  intros d s d' E. unfold add_dst_port in E. destruct (src_ports lim g false s) as [l|] eqn:D; [|discriminate]. injection E as <-.
  pose proof (src_ports_exact lim calls s l HF D) as L. cbv zeta in L. fold g in L.
  eapply grows_ext; [|apply (grows_fold pl _ (fun t k => is_a g t TAbstractDstPort = false /\ k = (t, s)))].
  - intros [a b]. cbn [fst snd]. split.
    + intros (t & I & T & X). injection X as -> ->. apply L in I. tauto.
    + intros (-> & A & B & C & T). exists a. split; [apply L; tauto|auto].
  - intros e t. destruct (is_a g t TAbstractDstPort); [apply grows_none; intros k [X _]; discriminate|].
    eapply grows_ext; [|apply grows_set]. intros k. cbv beta. tauto.
Qed.

Lemma update_process_grows : forall o p d', update_process lim g pl o p = Some d' -> exists d, o = Some d /\
  grows pl d d' (fun k => from_source g [p] (fst k) (snd k) \/ from_destination g [p] (fst k) (snd k)).
Proof.
  intros o p d' E. unfold update_process, add_dst_ports, add_src_ports in E.
  destruct (grows_each pl _ _ (fun d x d' => add_dst_grows d x d') _ _ _ E) as (d3 & E3 & G4).
  destruct (grows_each pl _ _ (fun d x d' => add_dst_grows d x d') _ _ _ E3) as (d2 & E2 & G3).
  destruct (grows_each pl _ _ (fun d x d' => add_src_grows d x d') _ _ _ E2) as (d1 & E1 & G2).
  destruct (grows_each pl _ _ (fun d x d' => add_src_grows d x d') _ _ _ E1) as (d & E0 & G1).
  exists d. split; [exact E0|].
  eapply grows_ext; [|exact (grows_comp _ _ _ _ _ _ (grows_comp _ _ _ _ _ _ (grows_comp _ _ _ _ _ _ G1 G2) G3) G4)].
  intros [s t]. cbv beta. cbn [fst snd]. unfold from_source, from_destination. split.
  - intros [[[X|X]|X]|X]; destruct X as (x & I & A & B); apply owned_spec in I; destruct I as (q & I1 & I2 & I3); subst x;
      [left|left|right|right]; (split; [exists p, q; split; [now left|]; split; [exact I1|]; split; [exact I3|]; destruct (cls q); try discriminate I2; tauto|tauto]).
  - intros [((p' & q & [<-|[]] & I1 & I3 & C) & R)|((p' & q & [<-|[]] & I1 & I3 & C) & R)].
    + destruct C as [C|C]; [left; left; left|left; left; right]; exists s; (split; [apply owned_spec; exists q; rewrite C; auto|tauto]).
    + destruct C as [C|C]; [left; right; exists t; split; [apply owned_spec; exists q; rewrite C; auto|tauto]|].
      right. exists t. split; [apply owned_spec; exists q; split; [exact I1|]; split; [|exact I3]; destruct C as [-> | ->]; reflexivity|tauto].
Qed.
Lemma update_group_grows : forall group o d', update_group lim g pl group o = Some d' -> exists d, o = Some d /\
  grows pl d d' (fun k => from_source g group (fst k) (snd k) \/ from_destination g group (fst k) (snd k)).
Proof.
  induction group as [|p group IH]; intros o d' E.
  - exists d'. split; [exact E|]. apply grows_none. intros k [((p & q & [] & _) & _)|((p & q & [] & _) & _)].
  - cbn [update_group fold_left] in E. destruct (IH _ _ E) as (d1 & E1 & G1). destruct (update_process_grows _ _ _ E1) as (d & E0 & G0).
    exists d. split; [exact E0|]. eapply grows_ext; [|exact (grows_comp _ _ _ _ _ _ G0 G1)]. intros [s t]. cbv beta. cbn [fst snd].
    unfold from_source, from_destination. cbn [In]. split.
    + intros [[((x & q & [<-|[]] & X) & R)|((x & q & [<-|[]] & X) & R)]|[((x & q & I & X) & R)|((x & q & I & X) & R)]];
        [left|right|left|right]; (split; [|exact R]); [exists p, q|exists p, q|exists x, q|exists x, q]; tauto.
    + intros [((x & q & [<-|I] & X) & R)|((x & q & [<-|I] & X) & R)];
        [left; left|right; left|left; right|right; right]; (split; [|exact R]); [exists p, q|exists x, q|exists p, q|exists x, q]; tauto.
Qed.
End Calls.

(** ** the channel map after compiling a group *)
Theorem updated_exactly : forall lim calls pl group d d', Forall proper calls -> let g := run_calls lim calls in
  update_group lim g pl group (Some d) = Some d' -> NoDup (keys d) ->
  NoDup (keys d') /\
  (forall s t, In (s, t) (keys d') <-> In (s, t) (keys d) \/ from_source g group s t \/ from_destination g group s t) /\
  (forall s t v, holds d' (s, t) v <-> (from_source g group s t \/ from_destination g group s t) /\ v = pl \/
     ~ (from_source g group s t \/ from_destination g group s t) /\ holds d (s, t) v).
Proof.
  intros lim calls pl group d d' HF g E N. destruct (update_group_grows lim calls pl HF group _ _ E) as (d0 & E0 & A & B & C & D & F).
  injection E0 as <-. split; [auto|]. split.
  - intros s t. apply (A (s, t)).
  - intros s t v. apply (F N (s, t) v).
Qed.
(** all entries for the group's ports have one Payload in common *)
Theorem payload_shared : forall lim calls pl group d d' s t s' t' v v', Forall proper calls -> let g := run_calls lim calls in
  update_group lim g pl group (Some d) = Some d' -> NoDup (keys d) ->
  from_source g group s t \/ from_destination g group s t -> from_source g group s' t' \/ from_destination g group s' t' ->
  holds d' (s, t) v -> holds d' (s', t') v' -> v = v'.
Proof.
  intros lim calls pl group d d' s t s' t' v v' HF g E N P P' H H'. destruct (updated_exactly lim calls pl group d d' HF E N) as (_ & _ & F).
  apply F in H. apply F in H'. destruct H as [[_ ->]|[X _]]; [|contradiction]. destruct H' as [[_ ->]|[X _]]; [reflexivity|contradiction].
Qed.
(** a network in which every chain from or to a port of the group begins and ends at ports of compiled processes that are not virtual:
    no entry is added *)
Theorem closed_network_unchanged_partial : forall lim calls pl group groups d d', Forall proper calls -> let g := run_calls lim calls in
  channel_map lim g groups = Some (keys d) -> incl group (concat groups) ->
  (forall s t, from_source g group s t -> exists q, belongs lim g t q /\ In q (concat groups)) ->
  (forall s t, from_destination g group s t -> outs_of g t = [] /\
     exists q ps, nth_error g s = Some ps /\ proc ps = Some q /\ In q (concat groups) /\ (cls ps = OutPort \/ cls ps = RefPort)) ->
  update_group lim g pl group (Some d) = Some d' -> keys d' = keys d.
Proof.
  intros lim calls pl group groups d d' HF g M I S T E. destruct (update_group_grows lim calls pl HF group _ _ E) as (d0 & E0 & A & B & C & _).
  injection E0 as <-. apply C. intros [s t] P. cbn [fst snd] in P. destruct (channel_map_exact_partial lim calls groups _ HF M) as [_ K].
  apply K. clear K. fold g in P. destruct P as [P|P].
  - destruct (S _ _ P) as (q & Q & Q'). destruct P as ((p & ps & P1 & P2 & P3 & P4) & L & X & O & _).
    split; [exists p, ps; auto|]. split; [exact L|]. split; [congruence|]. split; [exact O|]. eauto.
  - destruct (T _ _ P) as (O & q & ps & Q1 & Q2 & Q3 & Q4). destruct P as ((p & pt & P1 & P2 & P3 & P4) & L & X & _).
    split; [exists q, ps; auto|]. split; [exact L|]. split; [exact X|]. split; [exact O|]. exists p. split; [|now apply I].
    apply belongs_iff. unfold process_of. fold g. rewrite P2. destruct P4 as [P4|[P4|P4]]; rewrite P4; exact P3.
Qed.

(** add_port_pairs adds nothing *)
Theorem add_port_pairs_refuted : ~ forall d l k, In k l -> In k (keys (add_port_pairs d l)).
Proof. intros H. destruct (H [] [(0, 1)] (0, 1) (or_introl eq_refl)). Qed.

(** ** examples *)
Definition closed : list call := [CNew OutPort [2] (Some 0); CNew InPort [2] (Some 1); CConnect 0 (One 1) [None]].
Example closed_runs : Forall proper closed /\ channel_map 50 (run_calls 50 closed) [[0; 1]] = Some (keys [((0, 1), 7)]) /\
  update_group 50 (run_calls 50 closed) 9 [0; 1] (Some [((0, 1), 7)]) = Some [((0, 1), 9)].
Proof. split; [|split; reflexivity]. repeat constructor; simpl; unfold cfg_ok; simpl; auto; intuition congruence. Qed.
(** an OutPort connected to the InPort of a hierarchical process (2) that leads nowhere *)
Definition dangling : list call := [CNew OutPort [2] (Some 0); CNew InPort [2] (Some 2); CConnect 0 (One 1) [None]].
Theorem only_compiled_pairs_refuted : ~ forall lim calls pl group groups d d', Forall proper calls -> let g := run_calls lim calls in
  channel_map lim g groups = Some (keys d) -> incl group (concat groups) ->
  update_group lim g pl group (Some d) = Some d' -> keys d' = keys d.
Proof.
  intros H. specialize (H 50 dangling 9 [0] [[0]] [] [((0, 1), 9)]). cbv zeta in H.
  assert (Forall proper dangling) as P by (repeat constructor; simpl; unfold cfg_ok; simpl; auto; intuition congruence).
  specialize (H P eq_refl (incl_refl _) eq_refl). discriminate H.
Qed.
(** each pair has a Payload of its own: false *)
Definition two_pairs : list call := [CNew OutPort [2] (Some 0); CNew InPort [2] (Some 1); CNew InPort [2] (Some 1); CConnect 0 (Many [1; 2]) [None]].
Theorem own_payload_refuted : ~ forall lim calls pl groups d d', Forall proper calls -> let g := run_calls lim calls in
  channel_map lim g groups = Some (keys d) -> NoDup (map snd d) -> update_group lim g pl (concat groups) (Some d) = Some d' -> NoDup (map snd d').
Proof.
  intros H. specialize (H 50 two_pairs 9 [[0; 1]] [((0, 1), 7); ((0, 2), 8)] [((0, 1), 9); ((0, 2), 9)]). cbv zeta in H.
  assert (Forall proper two_pairs) as P by (repeat constructor; simpl; unfold cfg_ok; simpl; auto; intuition congruence).
  specialize (H P eq_refl ltac:(repeat constructor; cbn; intuition discriminate) eq_refl). cbn in H. inversion H as [|? ? X _]; subst. apply X. now left.
Qed.
