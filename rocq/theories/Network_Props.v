(** C25 (find_processes) and C28 (channel map). *)
From Coq Require Import List Arith ZArith Bool Lia.
From Verif Require Import Kahn VPorts_Model Connect_Model Connect_Props Connect_Props2 Network_Model.
Import ListNotations.

(** ** Depth-first search *)
Section Search.
Variable setorder : list nat -> list nat.
(** Python's set iteration: some order, every element *)
Hypothesis setorder_ok : forall l x, In x (setorder l) <-> In x l.
Variable adj : nat -> option (list nat).

Inductive reach : nat -> nat -> Prop :=
| Rch0 x : reach x x
| Rch1 x l y z : adj x = Some l -> In y l -> reach y z -> reach x z.

Lemma reach_trans x y z : reach x y -> reach y z -> reach x z.
Proof. induction 1; auto. intro. eapply Rch1; eauto. Qed.

Lemma nmemb_spec x l : memb x l = true <-> In x l.
Proof.
  unfold memb. rewrite existsb_exists. split.
  - intros [y [H E]]. apply Nat.eqb_eq in E. subst; auto.
  - intro H. exists x. rewrite Nat.eqb_refl. auto.
Qed.

Definition closed_new (old new : list nat) : Prop :=
  forall x, In x new -> ~ In x old -> exists l, adj x = Some l /\ incl l new.

Definition body (rec : nat -> list nat -> option (list nat * list nat)) :=
  fun (st : option (list nat * list nat)) q =>
    match st with
    | None => None
    | Some (nl, sn) =>
        if memb q sn then Some (nl, sn)
        else match rec q sn with
             | Some (ret, sn') => Some (nl ++ ret, sn')
             | None => None
             end
    end.

Lemma fold_none rec l : fold_left (body rec) l None = None.
Proof. induction l; simpl; auto. Qed.

Lemma loop_ok rec p new_list (Hadj : adj p = Some new_list) :
  (forall q seen ret sn', rec q seen = Some (ret, sn') ->
     incl seen sn' /\ In q sn' /\ (forall x, In x sn' -> In x seen \/ reach q x) /\ closed_new seen sn' /\
     (forall x, In x ret <-> In x sn')) ->
  forall todo nl sn nl' sn', incl todo new_list ->
  fold_left (body rec) todo (Some (nl, sn)) = Some (nl', sn') ->
  incl sn sn' /\ incl todo sn' /\ (forall x, In x sn' -> In x sn \/ reach p x) /\
  (forall x, In x sn' -> ~ In x sn -> exists l, adj x = Some l /\ incl l sn') /\
  (forall x, In x nl' -> In x nl \/ In x sn') /\ incl nl nl'.
Proof.
  intros Hrec. induction todo as [|q todo IH]; intros nl sn nl' sn' Hin H; simpl in H.
  - injection H as <- <-. repeat split; auto using incl_refl; try (intros x []); try tauto.
  - destruct (memb q sn) eqn:M.
    + apply nmemb_spec in M. destruct (IH _ _ _ _ (fun x Hx => Hin x (or_intror Hx)) H) as [A [B [C [D [E F]]]]].
      repeat split; auto. intros x [<-|Hx]; auto.
    + destruct (rec q sn) as [[ret sn1]|] eqn:R; [|rewrite fold_none in H; discriminate].
      destruct (Hrec _ _ _ _ R) as [R1 [R2 [R3 [R4 R5]]]].
      destruct (IH _ _ _ _ (fun x Hx => Hin x (or_intror Hx)) H) as [A [B [C [D [E F]]]]].
      repeat split.
      * intros x Hx. apply A, R1; auto.
      * intros x [<-|Hx]; auto.
      * intros x Hx. destruct (C x Hx) as [Hx1|]; auto. destruct (R3 x Hx1) as [|Hr]; auto.
        right. eapply Rch1; [exact Hadj| |exact Hr]. apply Hin; left; auto.
      * intros x Hx Hn. destruct (in_dec Nat.eq_dec x sn1) as [Hx1|Hx1]; auto.
        destruct (R4 x Hx1 Hn) as [l [L1 L2]]. exists l. split; auto. intros y Hy. apply A; auto.
      * intros x Hx. destruct (E x Hx) as [Hx1|]; auto. apply in_app_iff in Hx1. destruct Hx1 as [|Hx1]; auto.
        right. apply A. apply R5; auto.
      * intros x Hx. apply F. apply in_app_iff. auto.
Qed.

Lemma find_rec_ok fuel : forall p seen ret sn', find_rec setorder adj fuel p seen = Some (ret, sn') ->
  incl seen sn' /\ In p sn' /\ (forall x, In x sn' -> In x seen \/ reach p x) /\ closed_new seen sn' /\
  (forall x, In x ret <-> In x sn').
Proof.
  induction fuel; intros p seen ret sn' H; [discriminate|]. cbn [find_rec] in H.
  destruct (adj p) as [nl|] eqn:E; [|discriminate].
  change (fun st q => match st with None => None | Some (nl0, sn) => if memb q sn then Some (nl0, sn) else _ end)
    with (body (find_rec setorder adj fuel)) in H.
  destruct (fold_left (body (find_rec setorder adj fuel)) (setorder nl) (Some (nl, seen ++ [p]))) as [[nl' sn]|] eqn:F; [|discriminate].
  injection H as <- <-.
  assert (incl (setorder nl) nl) as Hs by (intros x Hx; apply setorder_ok; auto).
  destruct (loop_ok _ p nl E IHfuel _ _ _ _ _ Hs F) as [A [B [C [D [G K]]]]].
  assert (forall x, In x (sn ++ nl') <-> In x sn) as Q.
  { intro x. rewrite in_app_iff. split; auto. intros [|Hx]; auto. destruct (G x Hx) as [Hn|]; auto.
    apply B. apply setorder_ok; auto. }
  split; [|split; [|split; [|split]]].
  - intros x Hx. apply Q. apply A. apply in_app_iff; auto.
  - apply Q, A. apply in_app_iff. right; left; auto.
  - intros x Hx. apply Q in Hx. destruct (C x Hx) as [Hx1|]; auto.
    apply in_app_iff in Hx1. destruct Hx1 as [|[<-|[]]]; auto. right. constructor.
  - intros x Hx Hn. apply Q in Hx. destruct (Nat.eq_dec x p) as [->|Hp].
    + exists nl. split; auto. intros y Hy. apply Q. apply B. apply setorder_ok; auto.
    + destruct (D x Hx) as [l [L1 L2]].
      { rewrite in_app_iff. intros [|[|[]]]; auto. }
      exists l. split; auto. intros y Hy. apply Q; auto.
  - intro x. apply setorder_ok.
Qed.

(** what the search returns *)
Lemma search_exact fuel p ret sn : find_rec setorder adj fuel p [] = Some (ret, sn) ->
  forall x, In x ret <-> reach p x.
Proof.
  intros H x. destruct (find_rec_ok _ _ _ _ _ H) as [_ [A [B [C D]]]]. rewrite D. split.
  - intro Hx. destruct (B x Hx) as [[]|]; auto.
  - intro Hr. clear H D B. induction Hr; auto. apply IHHr.
    destruct (C x A (fun h => h)) as [l' [L1 L2]]. rewrite H in L1. injection L1 as <-. auto.
Qed.

(** it ends on every finite network, cyclic or not, if the recursion limit exceeds the number of processes *)
Definition unseen (u seen : list nat) : nat := length (filter (fun x => negb (memb x seen)) u).

Lemma unseen_mono u s s' : incl s s' -> unseen u s' <= unseen u s.
Proof.
  unfold unseen. intro H. induction u as [|x u IH]; simpl; auto.
  destruct (memb x s') eqn:M', (memb x s) eqn:M; simpl; try lia.
  exfalso. apply nmemb_spec in M. apply H in M. apply nmemb_spec in M. congruence.
Qed.
Lemma unseen_add u s p : In p u -> ~ In p s -> unseen u (s ++ [p]) < unseen u s.
Proof.
  unfold unseen. intros Hu Hn. induction u as [|x u IH]; simpl; [destruct Hu|].
  assert (memb x (s ++ [p]) = memb x s || (x =? p)) as E.
  { unfold memb. rewrite existsb_app. simpl. rewrite orb_false_r. auto. }
  rewrite E. destruct Hu as [->|Hu].
  - rewrite Nat.eqb_refl, orb_true_r. simpl.
    destruct (memb p s) eqn:M; [apply nmemb_spec in M; contradiction|]. simpl.
    pose proof (unseen_mono u s (s ++ [p]) (fun y Hy => in_or_app _ _ _ (or_introl Hy))) as Q. unfold unseen in Q. lia.
  - specialize (IH Hu). destruct (memb x s); simpl; auto. destruct (x =? p); simpl; lia.
Qed.

Lemma search_total u (Hu : forall x, In x u -> exists l, adj x = Some l /\ incl l u) :
  forall fuel p seen, In p u -> ~ In p seen -> unseen u seen < fuel ->
  exists r, find_rec setorder adj fuel p seen = Some r.
Proof.
  induction fuel; intros p seen Hp Hn Hf; [lia|]. cbn [find_rec].
  destruct (Hu p Hp) as [nl [E Hnl]]. rewrite E.
  change (fun st q => match st with None => None | Some (nl0, sn) => if memb q sn then Some (nl0, sn) else _ end)
    with (body (find_rec setorder adj fuel)).
  pose proof (unseen_add u seen p Hp Hn) as Hlt.
  assert (forall todo a sn, incl todo u -> incl (seen ++ [p]) sn ->
     exists r, fold_left (body (find_rec setorder adj fuel)) todo (Some (a, sn)) = Some r) as G.
  { induction todo as [|q todo IH]; intros a sn Hi Hs; simpl; [eauto|].
    destruct (memb q sn) eqn:M; [apply IH; auto; intros x Hx; apply Hi; right; auto|].
    destruct (IHfuel q sn) as [[ret sn'] R].
    - apply Hi; left; auto.
    - intro Hq. apply nmemb_spec in Hq. congruence.
    - pose proof (unseen_mono u _ _ Hs). lia.
    - rewrite R. apply IH; [intros x Hx; apply Hi; right; auto|].
      destruct (find_rec_ok _ _ _ _ _ R) as [A _]. intros x Hx. apply A, Hs; auto. }
  destruct (G (setorder nl) nl (seen ++ [p])) as [[a b] R]; [|apply incl_refl|].
  { intros x Hx. apply Hnl. apply setorder_ok. exact Hx. }
  rewrite R. eauto.
Qed.
End Search.

(** ** Linking to the ports *)
Lemma map_opt_in {A B} (f : A -> option B) l r : map_opt f l = Some r ->
  forall y, In y r <-> exists x, In x l /\ f x = Some y.
Proof.
  revert r. induction l as [|x l IH]; simpl; intros r H y.
  - injection H as <-. split; [intros []|intros [? [[] _]]].
  - destruct (f x) as [z|] eqn:E; [|discriminate]. destruct (map_opt f l) as [zs|]; [|discriminate].
    injection H as <-. simpl. rewrite (IH _ eq_refl). split.
    + intros [<-|[x' [H1 H2]]]; [exists x; auto|exists x'; auto].
    + intros [x' [[<-|H1] H2]]; [left; congruence|right; eauto].
Qed.
Lemma map_opt_def {A B} (f : A -> option B) l r : map_opt f l = Some r -> forall x, In x l -> exists y, f x = Some y.
Proof.
  revert r. induction l as [|x l IH]; simpl; intros r H y Hy; [destruct Hy|].
  destruct (f x) eqn:E; [|discriminate]. destruct (map_opt f l); [|discriminate].
  destruct Hy as [<-|]; eauto.
Qed.

(** a user's port of process p *)
Definition port_of (g : graph) (p a : nat) : Prop :=
  exists q, nth_error g a = Some q /\ proc q = Some p /\ is_virtual (cls q) = false.

Lemma owned_spec g p f a : In a (owned g p f) <-> exists q, nth_error g a = Some q /\ f (cls q) = true /\ proc q = Some p.
Proof.
  unfold owned. rewrite filter_In, in_seq. split.
  - intros [_ H]. destruct (nth_error g a) as [q|]; [|discriminate]. apply andb_prop in H. destruct H as [H1 H2].
    destruct (proc q) as [r|] eqn:E; [|discriminate]. apply Nat.eqb_eq in H2. subst. eauto.
  - intros [q [E [H1 H2]]]. split; [split; [lia|]; apply nth_error_Some; congruence|].
    rewrite E, H1, H2, Nat.eqb_refl. auto.
Qed.

Lemma owned_all g p a : In a (owned g p recv_class ++ owned g p send_class) <-> port_of g p a.
Proof.
  rewrite in_app_iff, !owned_spec. unfold port_of. split.
  - intros [[q [H1 [H2 H3]]]|[q [H1 [H2 H3]]]]; exists q; repeat split; auto; destruct (cls q); auto; discriminate.
  - intros [q [H1 [H2 H3]]]. destruct (cls q) eqn:E; try discriminate;
    first [left; exists q; rewrite E; auto; fail | right; exists q; rewrite E; auto].
Qed.

(** The process a port belongs to: its own, or, for a virtual port, that of the first port at the start of the chain *)
Definition belongs (lim : nat) (g : graph) (b q : nat) : Prop :=
  exists p, nth_error g b = Some p /\
    ((is_virtual (cls p) = false /\ proc p = Some q) \/
     (is_virtual (cls p) = true /\ exists s l r, src_ports lim g false b = Some (s :: l) /\ nth_error g s = Some r /\ proc r = Some q)).
Lemma belongs_iff lim g b q : process_of lim g b = Some q <-> belongs lim g b q.
Proof.
  unfold process_of, belongs. destruct (nth_error g b) as [p|] eqn:E.
  - destruct (is_virtual (cls p)) eqn:Ev.
    + split.
      * destruct (src_ports lim g false b) as [[|s l]|] eqn:Es; try discriminate.
        destruct (nth_error g s) as [r|] eqn:Er; [|discriminate]. intro H. exists p. split; auto. right. split; auto. exists s, l, r. auto.
      * intros (p' & Hp & [[V _]|[_ (s & l & r & H1 & H2 & H3)]]); injection Hp as <-; [congruence|]. rewrite H1, H2. exact H3.
    + split; [intro H; exists p; split; auto|]. intros (p' & Hp & [[_ H]|[V _]]); injection Hp as <-; [exact H|congruence].
  - split; [discriminate|]. intros (p & H & _). discriminate.
Qed.

(** The two processes communicate: some port of p is linked, through any chain of connections
    (hierarchical or virtual ports), with the port of q at the far end, in either direction. *)
Definition linked_procs (lim : nat) (g : graph) (p q : nat) : Prop :=
  exists a b, port_of g p a /\ belongs lim g b q /\ a <> b /\
    ((leads_to g a b /\ outs_of g b = []) \/ (leads_to g b a /\ ins_of g b = [])).

Inductive network (lim : nat) (g : graph) : nat -> nat -> Prop :=
| Net0 p : network lim g p p
| Net1 p q r : linked_procs lim g p q -> network lim g q r -> network lim g p r.

Lemma src_ports_exact lim calls a l : Forall proper calls -> let g := run_calls lim calls in
  src_ports lim g false a = Some l -> forall b, In b l <-> leads_to g b a /\ b <> a /\ ins_of g b = [].
Proof.
  intros HF g H b. pose proof (connections_consistent_partial lim calls HF) as HC. fold g in HC.
  destruct (list_eq_dec Nat.eq_dec (ins_of g a) []) as [E|E].
  - assert (l = []) as ->.
    { destruct lim; simpl in H; [discriminate|]. unfold ins_of in E.
      destruct (nth_error g a) as [p|]; [|discriminate]. rewrite E in H. congruence. }
    split; [intros []|]. intros [HL [Hn _]].
    apply leads_to_last in HL. destruct HL as [|[c [_ Hc]]]; [congruence|].
    apply (proj1 HC) in Hc. rewrite E in Hc. destruct Hc.
  - rewrite (src_ports_spec _ _ HC _ _ (src_ports_top _ _ _ _ H E)). split.
    + intros [HL Hb]. split; auto. split; auto. congruence.
    + intros [HL [_ Hb]]. auto.
Qed.

Lemma neighbours_spec lim calls p l : Forall proper calls -> let g := run_calls lim calls in
  neighbours lim g p = Some l -> forall q, In q l <-> linked_procs lim g p q.
Proof.
  intros HF g H q. unfold neighbours in H.
  destruct (map_opt _ (owned g p recv_class ++ owned g p send_class)) as [ends|] eqn:M; [|discriminate].
  rewrite (map_opt_in _ _ _ H q). unfold linked_procs. split.
  - intros [b [Hb Hq]]. apply in_concat in Hb. destruct Hb as [m [Hm Hb]].
    apply (map_opt_in _ _ _ M) in Hm. destruct Hm as [a [Ha Hm]].
    destruct (src_ports lim g false a) as [s|] eqn:Es; [|discriminate].
    destruct (dst_ports lim g false a) as [d|] eqn:Ed; [|discriminate]. injection Hm as <-.
    apply owned_all in Ha. apply in_app_iff in Hb. exists a, b. split; auto. split; [apply belongs_iff; auto|]. destruct Hb as [Hb|Hb].
    + apply (src_ports_exact lim calls a s HF Es) in Hb. destruct Hb as [H1 [H2 H3]]. auto.
    + apply (get_dst_ports_exact lim calls a d HF Ed) in Hb. destruct Hb as [H1 [H2 H3]]. auto.
  - intros [a [b [Ha [Hq [Hab Hl]]]]]. apply belongs_iff in Hq. exists b. split; auto. apply in_concat.
    apply owned_all in Ha. destruct (map_opt_def _ _ _ M a Ha) as [m Hm]. exists m.
    split; [apply (map_opt_in _ _ _ M); exists a; auto|].
    destruct (src_ports lim g false a) as [s|] eqn:Es; [|discriminate].
    destruct (dst_ports lim g false a) as [d|] eqn:Ed; [|discriminate]. injection Hm as <-.
    apply in_app_iff. destruct Hl as [[H1 H2]|[H1 H2]].
    + right. apply (get_dst_ports_exact lim calls a d HF Ed). auto.
    + left. apply (src_ports_exact lim calls a s HF Es). auto.
Qed.

(** ** C25: the processes found are exactly those of the network, in any order of set iteration. *)
Theorem find_processes_exact : forall setorder lim calls p found,
  (forall l x, In x (setorder l) <-> In x l) -> Forall proper calls ->
  let g := run_calls lim calls in
  find_processes setorder lim g p = Some found ->
  forall q, In q found <-> network lim g p q.
Proof.
  intros so lim calls p found Hso HF g H q. unfold find_processes in H.
  destruct (find_rec so (neighbours lim g) lim p []) as [[ret sn]|] eqn:R; [|discriminate]. injection H as <-.
  rewrite (search_exact so Hso _ _ _ _ _ R q).
  assert (forall x, In x sn -> exists l, neighbours lim g x = Some l) as Hdef.
  { intros x Hx. destruct (find_rec_ok so Hso _ _ _ _ _ _ R) as [_ [_ [_ [C _]]]].
    destruct (C x Hx) as [l [L _]]; [auto|eauto]. }
  split.
  - intro Hr. clear - Hr HF. induction Hr; [constructor|]. eapply Net1; eauto.
    apply (neighbours_spec lim calls x l HF H). auto.
  - intro Hn.
    assert (forall a b, network lim g a b -> reach (neighbours lim g) p a -> reach (neighbours lim g) p b) as G.
    { intros a b HN. induction HN; auto. intro Hp0. apply IHHN. eapply reach_trans; eauto.
      assert (In p0 sn) as Hin.
      { apply (search_exact so Hso _ _ _ _ _ R) in Hp0.
        destruct (find_rec_ok so Hso _ _ _ _ _ _ R) as [_ [_ [_ [_ D]]]]. apply D; auto. }
      destruct (Hdef _ Hin) as [l Hl]. eapply Rch1; [exact Hl| |constructor].
      apply (neighbours_spec lim calls p0 l HF Hl). auto. }
    eapply G; eauto. constructor.
Qed.

(** In a flat network (every user port is only a source or only a destination, as before sub-process
    models are expanded) it does not matter on which process compile() is called. *)
Definition flat (g : graph) : Prop := forall p a, port_of g p a -> ins_of g a = [] \/ outs_of g a = [].
(** every port at the end of a chain is a user's port with a process *)
Definition no_dangling (lim : nat) (g : graph) : Prop :=
  forall b q, belongs lim g b q -> ins_of g b = [] \/ outs_of g b = [] -> port_of g q b.

Lemma linked_sym lim g p q : consistent g -> flat g -> no_dangling lim g -> linked_procs lim g p q -> linked_procs lim g q p.
Proof.
  intros HC HF HD [a [b [Ha [Hb [Hab Hl]]]]].
  assert (port_of g q b) as Hpb.
  { apply HD; auto. destruct Hl as [[_ H]|[_ H]]; auto. }
  exists b, a. split; auto. split; [|split; auto].
  - destruct Ha as [r [H1 [H2 H3]]]. apply belongs_iff. unfold process_of. rewrite H1, H3. auto.
  - destruct Hl as [[H1 H2]|[H1 H2]].
    + right. split; auto. destruct (HF p a Ha) as [|Ho]; auto. exfalso.
      inversion H1; subst; [congruence|]. rewrite Ho in H. destruct H.
    + left. split; auto. destruct (HF p a Ha) as [Hi|]; auto.
      exfalso. destruct (leads_to_last _ _ _ H1) as [|[c [_ Hc]]]; [congruence|].
      apply (proj1 HC) in Hc. rewrite Hi in Hc. destruct Hc.
Qed.

Theorem find_processes_same_network : forall setorder lim calls p q fp fq,
  (forall l x, In x (setorder l) <-> In x l) -> Forall proper calls ->
  let g := run_calls lim calls in
  flat g -> no_dangling lim g ->
  find_processes setorder lim g p = Some fp -> find_processes setorder lim g q = Some fq ->
  In q fp -> forall x, In x fp <-> In x fq.
Proof.
  intros so lim calls p q fp fq Hso HF g Hflat HD Hp Hq Hin x.
  pose proof (connections_consistent_partial lim calls HF) as HC. fold g in HC.
  rewrite (find_processes_exact so lim calls p fp Hso HF Hp), (find_processes_exact so lim calls q fq Hso HF Hq).
  apply (find_processes_exact so lim calls p fp Hso HF Hp) in Hin. 
  assert (forall a b c, network lim g a b -> network lim g b c -> network lim g a c) as T.
  { intros a b c H. induction H; auto. intro. eapply Net1; eauto. }
  assert (forall a b, network lim g a b -> network lim g b a) as S.
  { intros a b H. induction H; [constructor|]. eapply T; [exact IHnetwork|].
    eapply Net1; [apply linked_sym; eauto|constructor]. }
  split; intro H; eapply T; eauto.
Qed.

(** The search succeeds on every finite network whose ports can be traversed, if Python's recursion
    limit exceeds the number of processes. *)
Theorem find_processes_total : forall setorder lim g procs p,
  (forall l x, In x (setorder l) <-> In x l) ->
  (forall x, In x procs -> exists l, neighbours lim g x = Some l /\ incl l procs) ->
  In p procs -> length procs < lim ->
  exists found, find_processes setorder lim g p = Some found.
Proof.
  intros so lim g procs p Hso Hu Hp Hl. unfold find_processes.
  destruct (search_total so Hso (neighbours lim g) procs Hu lim p []) as [[ret sn] R]; auto.
  - unfold unseen. eapply Nat.le_lt_trans; [|exact Hl]. clear. induction procs as [|y l IH]; simpl in *; auto.
    lia.
  - rewrite R. eauto.
Qed.

(** ** C28 *)
Lemma dict_keys_spec l : NoDup (dict_keys l) /\ forall k, In k (dict_keys l) <-> In k l.
Proof.
  unfold dict_keys.
  assert (forall l d, NoDup d -> NoDup (fold_left (fun d k => if existsb (pair_eqb k) d then d else d ++ [k]) l d) /\
     forall k, In k (fold_left (fun d k => if existsb (pair_eqb k) d then d else d ++ [k]) l d) <-> In k d \/ In k l) as G.
  { clear l. induction l as [|k l IH]; intros d Hd; simpl; [split; auto; tauto|].
    assert (existsb (pair_eqb k) d = true <-> In k d) as Ek.
    { rewrite existsb_exists. split.
      - intros [x [Hx E]]. unfold pair_eqb in E. apply andb_prop in E. destruct E as [E1 E2].
        apply Nat.eqb_eq in E1, E2. destruct k, x. simpl in *. congruence.
      - intro Hk. exists k. unfold pair_eqb. rewrite !Nat.eqb_refl. auto. }
    destruct (existsb (pair_eqb k) d).
    - destruct (IH d Hd) as [A B]. split; auto. intro x. rewrite B. split; [tauto|].
      intros [|[<-|]]; auto. left. apply Ek; auto.
    - destruct (IH (d ++ [k])) as [A B].
      + apply NoDup_app_disj; auto; [repeat constructor; auto|]. intros x Hx [<-|[]]. apply Ek in Hx. discriminate.
      + split; auto. intro x. rewrite B, in_app_iff. simpl. tauto. }
  destruct (G l [] (NoDup_nil _)) as [A B]. split; auto. intro k. rewrite B. simpl. tauto.
Qed.

Lemma combine_map_opt {A B} (f : A -> option B) l r : map_opt f l = Some r ->
  forall x y, In (x, y) (combine l r) <-> In x l /\ f x = Some y.
Proof.
  revert r. induction l as [|a l IH]; simpl; intros r H x y.
  - injection H as <-. split; [intros []|intros [[] _]].
  - destruct (f a) as [b|] eqn:E; [|discriminate]. destruct (map_opt f l) as [bs|]; [|discriminate].
    injection H as <-. simpl. rewrite (IH _ eq_refl). split.
    + intros [H|[H1 H2]]; [injection H as <- <-; auto|auto].
    + intros [[<-|H1] H2]; [left; congruence|right; auto].
Qed.

(** One entry for each source port s (OutPort or RefPort of a compiled process) and each port d of a
    compiled process at the end of a chain of connections from s: exactly once, and no other. *)
Theorem channel_map_exact_partial : forall lim calls groups keys,
  Forall proper calls -> let g := run_calls lim calls in
  channel_map lim g groups = Some keys ->
  NoDup keys /\
  forall s d, In (s, d) keys <->
    (exists p ps, In p (concat groups) /\ nth_error g s = Some ps /\ proc ps = Some p /\
       (cls ps = OutPort \/ cls ps = RefPort)) /\
    leads_to g s d /\ s <> d /\ outs_of g d = [] /\
    (exists q, belongs lim g d q /\ In q (concat groups)).
Proof.
  intros lim calls groups keys HF g H. unfold channel_map in H.
  destruct (port_pairs lim g (concat groups)) as [l|] eqn:E; [|discriminate]. injection H as <-.
  destruct (dict_keys_spec l) as [A B]. split; auto. intros s d. rewrite B. clear A B.
  unfold port_pairs in E. destruct (map_opt _ _) as [ll|] eqn:M; [|discriminate]. injection E as <-.
  rewrite in_concat.
  assert (forall s, In s (flat_map (fun p => owned g p (fun c => pclass_eqb c OutPort) ++ owned g p (fun c => pclass_eqb c RefPort)) (concat groups)) <->
    (exists p ps, In p (concat groups) /\ nth_error g s = Some ps /\ proc ps = Some p /\ (cls ps = OutPort \/ cls ps = RefPort))) as Hs.
  { intro x. rewrite in_flat_map. split.
    - intros [p [Hp Hx]]. rewrite in_app_iff, !owned_spec in Hx. destruct Hx as [[q [H1 [H2 H3]]]|[q [H1 [H2 H3]]]];
      exists p, q; repeat split; auto; destruct (cls q); auto; discriminate.
    - intros [p [ps [Hp [H1 [H2 H3]]]]]. exists p. split; auto. rewrite in_app_iff, !owned_spec.
      destruct H3 as [H3|H3]; [left|right]; exists ps; rewrite H3; auto. }
  split.
  - intros [m [Hm Hd]]. apply (map_opt_in _ _ _ M) in Hm. destruct Hm as [s' [Hs' Hm]].
    destruct (dst_ports lim g false s') as [ds|] eqn:Ed; [|discriminate].
    destruct (map_opt (process_of lim g) ds) as [ps|] eqn:Ep; [|discriminate]. injection Hm as <-.
    apply in_map_iff in Hd. destruct Hd as [[d' q] [Eq Hd]]. simpl in Eq. injection Eq as -> ->.
    apply filter_In in Hd. destruct Hd as [Hd Hq]. simpl in Hq.
    apply (combine_map_opt _ _ _ Ep) in Hd. destruct Hd as [Hd Hpd].
    apply (get_dst_ports_exact lim calls s ds HF Ed) in Hd. destruct Hd as [D1 [D2 D3]].
    split; [apply Hs; auto|]. split; auto. split; auto. split; auto. exists q. split; [apply belongs_iff; auto|]. apply nmemb_spec; auto.
  - intros [H1 [H2 [H3 [H4 [q [H5 H6]]]]]]. apply belongs_iff in H5. apply Hs in H1.
    destruct (map_opt_def _ _ _ M s H1) as [m Hm]. exists m. split; [apply (map_opt_in _ _ _ M); eauto|].
    destruct (dst_ports lim g false s) as [ds|] eqn:Ed; [|discriminate].
    destruct (map_opt (process_of lim g) ds) as [ps|] eqn:Ep; [|discriminate]. injection Hm as <-.
    apply in_map_iff. exists (d, q). split; auto. apply filter_In. split; [|simpl; apply nmemb_spec; auto].
    apply (combine_map_opt _ _ _ Ep). split; auto. apply (get_dst_ports_exact lim calls s ds HF Ed). auto.
Qed.

(** non-trivial instance: a cyclic network of three processes with a virtual port *)
Definition demo : list call :=
  [CNew OutPort [2] (Some 0); CNew InPort [2] (Some 0); CNew OutPort [2] (Some 1); CNew InPort [1;2] (Some 1);
   CNew OutPort [2] (Some 2); CNew InPort [2] (Some 2); CNew InPort [2] (Some 3);
   CDerive 0 (OpReshape [1;2]); CConnect 7 (One 3) [None]; CConnect 2 (Many [1;5]) [None]].
Example demo_applies :
  let g := run_calls 50 demo in
  Forall proper demo /\
  find_processes (nodup Nat.eq_dec) 50 g 0 = Some [0; 2; 1] /\
  channel_map 50 g [[0;1];[2]] = Some [(0,3);(2,1);(2,5)].
Proof.
  split; [|split]; try reflexivity.
  repeat constructor; simpl; unfold cfg_ok; simpl; auto; intuition congruence.
Qed.

(** A virtual port left unconnected becomes the destination of a channel. *)
Theorem channel_map_dangling_virtual_refuted : exists calls keys d pd,
  Forall proper calls /\ let g := run_calls 50 calls in
  channel_map 50 g [[0]] = Some keys /\ In (0, d) keys /\ nth_error g d = Some pd /\ cls pd = ReshapePort.
Proof.
  exists [CNew OutPort [2] (Some 0); CDerive 0 (OpReshape [1;2])], [(0,1)], 1.
  eexists. split; [repeat constructor|]. split; [reflexivity|]. split; [left; auto|]. split; reflexivity.
Qed.

(** Two connections between the same two ports (direct and through a virtual port) share one channel. *)
Theorem channel_map_parallel_merged_refuted : exists calls,
  Forall proper calls /\ let g := run_calls 50 calls in
  dst_ports 50 g false 0 = Some [1; 1] /\ channel_map 50 g [[0;1]] = Some [(0,1)].
Proof.
  exists [CNew OutPort [2] (Some 0); CNew InPort [2] (Some 1); CConnect 0 (One 1) [None];
          CDerive 0 (OpReshape [2]); CConnect 2 (One 1) [None]].
  split; [repeat constructor; simpl; unfold cfg_ok; simpl; auto; intuition congruence|]. split; reflexivity.
Qed.

Print Assumptions find_processes_exact.
Print Assumptions find_processes_same_network.
Print Assumptions channel_map_exact_partial.
