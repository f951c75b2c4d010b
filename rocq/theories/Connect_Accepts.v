(** C76, the other direction: what connect() and connect_from() accept.  A call with one port is accepted exactly when the
    two ports may be connected, have the same shape, are not connected yet, and - for RefPorts and VarPorts - the port
    connecting has no destination and no source, except that a RefPort given alone (not in a list) is still accepted by a
    port that has destinations and a VarPort given alone by one that has sources. *)
From Coq Require Import List Arith ZArith Bool Lia.
From Verif Require Import Kahn VPorts_Model Connect_Model Connect_Props Network_Model Connect_Typed.
Import ListNotations.

(** ** Specification *)
(** the condition on ports that only allow one connection *)
Definition still_free (g : graph) (self other : nat) (alone : bool) (c : pclass) : Prop :=
  (outs_of g self = [] \/ (alone = true /\ c = RefPort)) /\
  (ins_of g self = [] \/ (alone = true /\ (c = VarPort \/ c = ImplicitVarPort))).
Definition given_alone (a : parg) : bool := match a with One _ => true | Many _ => false end.

(** ** Proofs *)
Lemma dst_ports_nonempty f g : forall x m, dst_ports f g true x = Some m -> m <> [].
Proof.
  induction f as [|f IH]; intros x m H; simpl in H; [discriminate|].
  destruct (nth_error g x) as [p|]; [|discriminate]. destruct (outs p) as [|y r]; [injection H as <-; discriminate|].
  cbn [map all_some] in H. destruct (dst_ports f g true y) as [z|] eqn:Ez; [|discriminate].
  destruct (all_some (map (dst_ports f g true) r)); [|discriminate]. injection H as <-. specialize (IH _ _ Ez).
  destruct z; [congruence|discriminate].
Qed.
Lemma src_ports_nonempty f g : forall x m, src_ports f g true x = Some m -> m <> [].
Proof.
  induction f as [|f IH]; intros x m H; simpl in H; [discriminate|].
  destruct (nth_error g x) as [p|]; [|discriminate]. destruct (ins p) as [|y r]; [injection H as <-; discriminate|].
  cbn [map all_some] in H. destruct (src_ports f g true y) as [z|] eqn:Ez; [|discriminate].
  destruct (all_some (map (src_ports f g true) r)); [|discriminate]. injection H as <-. specialize (IH _ _ Ez).
  destruct z; [congruence|discriminate].
Qed.
Lemma has_dst f g self sp ds : nth_error g self = Some sp -> dst_ports f g false self = Some ds ->
  (0 <? length ds) = negb (match outs sp with [] => true | _ => false end).
Proof.
  intros Hs H. destruct f as [|f]; simpl in H; [discriminate|]. rewrite Hs in H. destruct (outs sp) as [|x r].
  - injection H as <-. reflexivity.
  - cbn [map all_some] in H. destruct (dst_ports f g true x) as [m|] eqn:E; [|discriminate].
    destruct (all_some (map (dst_ports f g true) r)); [|discriminate]. injection H as <-.
    apply dst_ports_nonempty in E. destruct m; [congruence|reflexivity].
Qed.
Lemma has_src f g self sp ss : nth_error g self = Some sp -> src_ports f g false self = Some ss ->
  (0 <? length ss) = negb (match ins sp with [] => true | _ => false end).
Proof.
  intros Hs H. destruct f as [|f]; simpl in H; [discriminate|]. rewrite Hs in H. destruct (ins sp) as [|x r].
  - injection H as <-. reflexivity.
  - cbn [map all_some] in H. destruct (src_ports f g true x) as [m|] eqn:E; [|discriminate].
    destruct (all_some (map (src_ports f g true) r)); [|discriminate]. injection H as <-.
    apply src_ports_nonempty in E. destruct m; [congruence|reflexivity].
Qed.

Lemma in_disjoint1 l x : is_disjoint l [x] = true <-> ~ In x l.
Proof.
  rewrite disjoint_spec. split.
  - intros H I. apply (H x I). simpl. auto.
  - intros H y I [E|[]]. subst. auto.
Qed.
Lemma list_eqb_iff a b : list_eqb a b = true <-> a = b.
Proof. unfold list_eqb. destruct (list_eq_dec Nat.eq_dec a b); split; auto; discriminate. Qed.

Lemma add_outputs_none g a l p : nth_error g a = Some p -> is_disjoint (outs p) l = false -> add_outputs g a l = None.
Proof. intros H D. unfold add_outputs. rewrite H, D. reflexivity. Qed.
Lemma spread1 c r : spread (c :: r) 1 = c :: r.
Proof. unfold spread. destruct r; reflexivity. Qed.
Lemma isinstance_refl c : isinstance c (TExact c) = true.
Proof. destruct c; reflexivity. Qed.

Lemma upd_same_ins g a p q b : nth_error g a = Some p -> ins q = ins p ->
  forall r, nth_error g b = Some r -> exists r', nth_error (upd g a q) b = Some r' /\ ins r' = ins r.
Proof.
  intros H E r Hr. rewrite (upd_port _ _ _ _ _ H). destruct (Nat.eqb_spec a b).
  - subst. exists q. split; auto. congruence.
  - exists r. auto.
Qed.
Lemma upd_same_outs g a p q b : nth_error g a = Some p -> outs q = outs p ->
  forall r, nth_error g b = Some r -> exists r', nth_error (upd g a q) b = Some r' /\ outs r' = outs r.
Proof.
  intros H E r Hr. rewrite (upd_port _ _ _ _ _ H). destruct (Nat.eqb_spec a b).
  - subst. exists q. split; auto. congruence.
  - exists r. auto.
Qed.

Lemma validate_one g self sp b q t : nth_error g self = Some sp -> nth_error g b = Some q ->
  validate g self [b] t true true = None <-> isinstance (cls q) t = true /\ pshape sp = pshape q.
Proof.
  intros Hs Hb. unfold validate. rewrite Hs, Hb. cbn [forallb]. rewrite Hb, isinstance_refl, !andb_true_r.
  rewrite <- list_eqb_iff. destruct (isinstance (cls q) t), (list_eqb (pshape sp) (pshape q)); simpl;
    split; try discriminate; try (intros [? ?]; discriminate); auto.
Qed.
Lemma forward_one g self sp b q t c r : nth_error g self = Some sp -> nth_error g b = Some q ->
  snd (connect_forward g self [b] t (c :: r) true true) = None <->
  isinstance (cls q) t = true /\ pshape sp = pshape q /\ ~ In b (outs sp) /\ ~ In self (ins q).
Proof.
  intros Hs Hb. unfold connect_forward. pose proof (validate_one g self sp b q t Hs Hb) as V.
  destruct (validate g self [b] t true true) as [e|].
  - cbn [snd]. split; [discriminate|]. intros (A & B & _). destruct V as [_ V]. discriminate (V (conj A B)).
  - destruct V as [V _]. specialize (V eq_refl). destruct V as [VA VB]. unfold add_outputs. rewrite Hs.
    pose proof (in_disjoint1 (outs sp) b) as D. destruct (is_disjoint (outs sp) [b]).
    + cbn [length]. rewrite spread1. cbn [combine fwd_loop].
      destruct (upd_same_ins g self sp (set_outs sp (outs sp ++ [b])) b Hs eq_refl q Hb) as (q' & Hq' & Iq').
      unfold add_inputs. rewrite Hq', Iq'. pose proof (in_disjoint1 (ins q) self) as D2.
      destruct (is_disjoint (ins q) [self]); cbn [snd].
      * tauto.
      * split; [discriminate|]. intros (_ & _ & _ & N). destruct D2 as [_ D2]. discriminate (D2 N).
    + cbn [snd]. split; [discriminate|]. intros (_ & _ & N & _). destruct D as [_ D]. discriminate (D N).
Qed.
Lemma backward_one g self sp b q t c r : nth_error g self = Some sp -> nth_error g b = Some q ->
  snd (connect_backward g self [b] t (c :: r) true true) = None <->
  isinstance (cls q) t = true /\ pshape sp = pshape q /\ ~ In b (ins sp) /\ ~ In self (outs q).
Proof.
  intros Hs Hb. unfold connect_backward. pose proof (validate_one g self sp b q t Hs Hb) as V.
  destruct (validate g self [b] t true true) as [e|].
  - cbn [snd]. split; [discriminate|]. intros (A & B & _). destruct V as [_ V]. discriminate (V (conj A B)).
  - destruct V as [V _]. specialize (V eq_refl). destruct V as [VA VB]. unfold add_inputs. rewrite Hs.
    pose proof (in_disjoint1 (ins sp) b) as D. destruct (is_disjoint (ins sp) [b]).
    + cbn [length]. rewrite spread1. cbn [combine bwd_loop].
      destruct (upd_same_outs g self sp (set_ins sp (ins sp ++ [b])) b Hs eq_refl q Hb) as (q' & Hq' & Iq').
      unfold add_outputs. rewrite Hq', Iq'. pose proof (in_disjoint1 (outs q) self) as D2.
      destruct (is_disjoint (outs q) [self]); cbn [snd].
      * tauto.
      * split; [discriminate|]. intros (_ & _ & _ & N). destruct D2 as [_ D2]. discriminate (D2 N).
    + cbn [snd]. split; [discriminate|]. intros (_ & _ & N & _). destruct D as [_ D]. discriminate (D N).
Qed.

Lemma rv_check_one lim g self sp a b q ds ss : nth_error g self = Some sp -> nth_error g b = Some q -> to_list a = [b] ->
  dst_ports lim g false self = Some ds -> src_ports lim g false self = Some ss ->
  is_virtual (cls q) = false -> data_port (cls q) = false ->
  rv_check lim g self a = None <-> still_free g self b (given_alone a) (cls q).
Proof.
  intros Hs Hb Ha Hd Hss Vq Dq. unfold rv_check, still_free, outs_of, ins_of. rewrite Ha, Hd, Hss, Hs. change (1 <? length [b]) with false. cbv iota.
  rewrite (has_dst _ _ _ _ _ Hs Hd), (has_src _ _ _ _ _ Hs Hss).
  assert (arg_isinstance g a TAbstractSrcPort = given_alone a && isinstance (cls q) TAbstractSrcPort) as ->.
  { destruct a as [p|l]; simpl in Ha; [injection Ha as ->; cbn [arg_isinstance given_alone]; rewrite Hb; reflexivity|reflexivity]. }
  assert (arg_isinstance g a TAbstractDstPort = given_alone a && isinstance (cls q) TAbstractDstPort) as ->.
  { destruct a as [p|l]; simpl in Ha; [injection Ha as ->; cbn [arg_isinstance given_alone]; rewrite Hb; reflexivity|reflexivity]. }
  destruct (cls q); try discriminate; destruct (given_alone a); destruct (outs sp) as [|o1 o2], (ins sp) as [|i1 i2]; simpl;
    split; intros H; try discriminate; try reflexivity;
    try (split; [first [left; reflexivity|right; auto; fail]|first [left; reflexivity|right; auto; fail]]);
    destruct H as [[H1|[H1 H1']] [H2|[H2 [H2'|H2']]]]; discriminate.
Qed.

(** ** Theorems *)
Theorem connect_accepts_exactly lim g self sp a b q c r ds ss :
  nth_error g self = Some sp -> nth_error g b = Some q -> to_list a = [b] ->
  is_virtual (cls sp) = false -> is_virtual (cls q) = false ->
  dst_ports lim g false self = Some ds -> src_ports lim g false self = Some ss ->
  snd (do_call lim g (CConnect self a (c :: r))) = None <->
  allowed (cls sp) (cls q) /\ pshape sp = pshape q /\ ~ link g self b /\
  (data_port (cls sp) = false -> still_free g self b (given_alone a) (cls q)).
Proof.
  intros Hs Hb Ha Vs Vq Hd Hss. cbn [do_call].
  assert (forall t, snd (connect_forward g self [b] t (c :: r) true true) = None <->
     isinstance (cls q) t = true /\ pshape sp = pshape q /\ ~ link g self b) as F.
  { intro t. rewrite (forward_one g self sp b q t c r Hs Hb). unfold link, outs_of, ins_of. rewrite Hs, Hb. tauto. }
  unfold do_connect. rewrite Hs, Ha.
  destruct (cls sp) eqn:Cs; try discriminate Vs.
  - rewrite F. destruct (cls q) eqn:Cq; try discriminate Vq; simpl; intuition discriminate.
  - rewrite F. destruct (cls q) eqn:Cq; try discriminate Vq; simpl; intuition discriminate.
  - destruct (data_port (cls q)) eqn:Dq.
    { assert (~ allowed RefPort (cls q)) as N by (destruct (cls q); try discriminate; simpl; auto).
      split; [|intros (A & _); contradiction]. destruct (rv_check lim g self a); [discriminate|].
      unfold all_of. cbn [forallb]. rewrite Hb. destruct (cls q); try discriminate. }
    pose proof (rv_check_one lim g self sp a b q ds ss Hs Hb Ha Hd Hss Vq Dq) as RC.
    destruct (rv_check lim g self a) as [e|].
    + split; [discriminate|]. intros (_ & _ & _ & SF). destruct RC as [_ RC]. discriminate (RC (SF eq_refl)).
    + assert (still_free g self b (given_alone a) (cls q)) as SF by (apply RC; reflexivity).
      unfold all_of. cbn [forallb]. rewrite Hb.
      destruct (cls q) eqn:Cq; try discriminate; cbn [isinstance pclass_eqb orb andb]; rewrite F; simpl; tauto.
  - destruct (data_port (cls q)) eqn:Dq.
    { assert (~ allowed VarPort (cls q)) as N by (destruct (cls q); try discriminate; simpl; auto).
      split; [|intros (A & _); contradiction]. destruct (rv_check lim g self a); [discriminate|].
      unfold all_of. cbn [forallb]. rewrite Hb. destruct (cls q); try discriminate. }
    pose proof (rv_check_one lim g self sp a b q ds ss Hs Hb Ha Hd Hss Vq Dq) as RC.
    destruct (rv_check lim g self a) as [e|].
    + split; [discriminate|]. intros (_ & _ & _ & SF). destruct RC as [_ RC]. discriminate (RC (SF eq_refl)).
    + assert (still_free g self b (given_alone a) (cls q)) as SF by (apply RC; reflexivity).
      unfold all_of. cbn [forallb]. rewrite Hb.
      destruct (cls q) eqn:Cq; try discriminate; cbn [isinstance pclass_eqb orb andb snd]; rewrite ?F; simpl;
        intuition discriminate.
  - destruct (data_port (cls q)) eqn:Dq.
    { assert (~ allowed ImplicitVarPort (cls q)) as N by (destruct (cls q); try discriminate; simpl; auto).
      split; [|intros (A & _); contradiction]. destruct (rv_check lim g self a); [discriminate|].
      unfold all_of. cbn [forallb]. rewrite Hb. destruct (cls q); try discriminate. }
    pose proof (rv_check_one lim g self sp a b q ds ss Hs Hb Ha Hd Hss Vq Dq) as RC.
    destruct (rv_check lim g self a) as [e|].
    + split; [discriminate|]. intros (_ & _ & _ & SF). destruct RC as [_ RC]. discriminate (RC (SF eq_refl)).
    + assert (still_free g self b (given_alone a) (cls q)) as SF by (apply RC; reflexivity).
      unfold all_of. cbn [forallb]. rewrite Hb.
      destruct (cls q) eqn:Cq; try discriminate; cbn [isinstance pclass_eqb orb andb snd]; rewrite ?F; simpl;
        intuition discriminate.
Qed.

Theorem connect_from_accepts_exactly lim g self sp a b q c r ds ss :
  nth_error g self = Some sp -> nth_error g b = Some q -> to_list a = [b] ->
  is_virtual (cls sp) = false -> is_virtual (cls q) = false ->
  dst_ports lim g false self = Some ds -> src_ports lim g false self = Some ss ->
  snd (do_call lim g (CConnectFrom self a (c :: r))) = None <->
  allowed (cls q) (cls sp) /\ pshape sp = pshape q /\ ~ link g b self /\
  (data_port (cls sp) = false -> still_free g self b (given_alone a) (cls q)).
Proof.
  intros Hs Hb Ha Vs Vq Hd Hss. cbn [do_call].
  assert (forall t, snd (connect_backward g self [b] t (c :: r) true true) = None <->
     isinstance (cls q) t = true /\ pshape sp = pshape q /\ ~ link g b self) as F.
  { intro t. rewrite (backward_one g self sp b q t c r Hs Hb). unfold link, outs_of, ins_of. rewrite Hs, Hb. tauto. }
  assert (forall k, isinstance k TAbstractIOPort = false -> cls sp = k -> data_port (cls q) = true -> ~ allowed (cls q) k) as N.
  { intros k D _ D2. destruct k, (cls q); try discriminate; simpl; auto. }
  unfold do_connect_from. rewrite Hs, Ha.
  destruct (cls sp) eqn:Cs; try discriminate Vs.
  - rewrite F. destruct (cls q) eqn:Cq; try discriminate Vq; simpl; intuition discriminate.
  - rewrite F. destruct (cls q) eqn:Cq; try discriminate Vq; simpl; intuition discriminate.
  - destruct (data_port (cls q)) eqn:Dq.
    { specialize (N RefPort eq_refl eq_refl eq_refl).
      split; [|intros (A & _); contradiction]. destruct (rv_check lim g self a); [discriminate|].
      unfold all_of. cbn [forallb]. rewrite Hb. destruct (cls q); try discriminate. }
    pose proof (rv_check_one lim g self sp a b q ds ss Hs Hb Ha Hd Hss Vq Dq) as RC.
    destruct (rv_check lim g self a) as [e|].
    + split; [discriminate|]. intros (_ & _ & _ & SF). destruct RC as [_ RC]. discriminate (RC (SF eq_refl)).
    + assert (still_free g self b (given_alone a) (cls q)) as SF by (apply RC; reflexivity).
      unfold all_of. cbn [forallb]. rewrite Hb.
      destruct (cls q) eqn:Cq; try discriminate; cbn [isinstance pclass_eqb orb andb snd]; rewrite ?F; simpl;
        intuition discriminate.
  - destruct (data_port (cls q)) eqn:Dq.
    { specialize (N VarPort eq_refl eq_refl eq_refl).
      split; [|intros (A & _); contradiction]. destruct (rv_check lim g self a); [discriminate|].
      unfold all_of. cbn [forallb]. rewrite Hb. destruct (cls q); try discriminate. }
    pose proof (rv_check_one lim g self sp a b q ds ss Hs Hb Ha Hd Hss Vq Dq) as RC.
    destruct (rv_check lim g self a) as [e|].
    + split; [discriminate|]. intros (_ & _ & _ & SF). destruct RC as [_ RC]. discriminate (RC (SF eq_refl)).
    + assert (still_free g self b (given_alone a) (cls q)) as SF by (apply RC; reflexivity).
      unfold all_of. cbn [forallb]. rewrite Hb.
      destruct (cls q) eqn:Cq; try discriminate; cbn [isinstance pclass_eqb orb andb snd]; rewrite ?F; simpl; tauto.
  - destruct (data_port (cls q)) eqn:Dq.
    { specialize (N ImplicitVarPort eq_refl eq_refl eq_refl).
      split; [|intros (A & _); contradiction]. destruct (rv_check lim g self a); [discriminate|].
      unfold all_of. cbn [forallb]. rewrite Hb. destruct (cls q); try discriminate. }
    pose proof (rv_check_one lim g self sp a b q ds ss Hs Hb Ha Hd Hss Vq Dq) as RC.
    destruct (rv_check lim g self a) as [e|].
    + split; [discriminate|]. intros (_ & _ & _ & SF). destruct RC as [_ RC]. discriminate (RC (SF eq_refl)).
    + assert (still_free g self b (given_alone a) (cls q)) as SF by (apply RC; reflexivity).
      unfold all_of. cbn [forallb]. rewrite Hb.
      destruct (cls q) eqn:Cq; try discriminate; cbn [isinstance pclass_eqb orb andb snd]; rewrite ?F; simpl; tauto.
Qed.

(** a RefPort that reads two Vars (through a second RefPort given alone); a list with the same port is refused *)
Example accepts_demo : let g := run_calls 100 (firstn 5 two_vars) in
  snd (do_call 100 g (CConnect 0 (One 2) [None])) = None /\ snd (do_call 100 g (CConnect 0 (Many [2]) [None])) = Some EAssert /\
  snd (do_call 100 g (CConnect 0 (One 3) [None])) = Some EAssert /\
  allowed RefPort RefPort /\ still_free g 0 2 true RefPort /\ ~ still_free g 0 2 false RefPort.
Proof.
  cbv zeta. do 3 (split; [vm_compute; reflexivity|]). split; [exact I|]. split.
  - split; [right; auto|left; vm_compute; reflexivity].
  - intros [[H|[H _]] _]; [vm_compute in H|]; discriminate.
Qed.
