(* C94: the theorems. *)
From Coq Require Import List Arith String Bool Lia.
From Verif Require Import Decor_Model Decor_Spec Decor_Proofs.
Import ListNotations.

(* ------------------------------------------------------------------ *)
(* One decoration, in any history                                      *)

Lemma dec_tags_eq l : flat_map to_tag l = dec_tags (Tag l).
Proof.
  cbn. induction l as [|a l IH]; cbn; [reflexivity|].
  rewrite IH. destruct a; reflexivity.
Qed.

Lemma dec_res_eq l : flat_map to_req l = dec_res (Requires l).
Proof.
  cbn. induction l as [|a l IH]; cbn; [reflexivity|].
  rewrite IH. destruct a as [[| | |]|rs]; cbn; reflexivity.
Qed.

(* @tag appends its keywords to what the class had, its own or inherited; no
   class outside its descendants changes, and no other attribute of any class. *)
Theorem tag_appends st c args st' :
  reachable st -> exec st (Decorate c (Tag args)) = (st', Done) ->
  (exists old, tags_of st c = Some old /\
               tags_of st' c = Some (old ++ dec_tags (Tag args))) /\
  (forall e, ~ ancestor st c e -> tags_of st' e = tags_of st e) /\
  (forall e, res_of st' e = res_of st e /\ proc_of st' e = proc_of st e /\
             proto_of st' e = proto_of st e).
Proof.
  intros R H. pose proof (WF_reachable _ R) as W.
  pose proof (apply_dec_frame st c (Tag args)) as F.
  cbn [exec] in H. rewrite H in F. cbn [fst] in F.
  destruct (apply_dec_inv _ _ _ _ H) as [_ [Hc [H0 Ha]]].
  unfold apply_tag in Ha.
  destruct (pm_attrs _ _ W H0) as [_ [_ [_ Ht]]].
  destruct (attr k_tags st c) as [old|] eqn:Eo; [|congruence].
  injection Ha as <-. rewrite dec_tags_eq in *.
  split; [|split].
  - exists old. split; [exact Eo|]. unfold tags_of.
    apply attr_upd_self; auto.
  - intros e He. destruct (F e He) as [_ [_ [_ X]]]. exact X.
  - intros e. unfold res_of, proc_of, proto_of.
    repeat apply conj; apply attr_upd_other; reflexivity.
Qed.

(* @requires appends its requirements, an alternative being one entry. *)
Theorem requires_appends st c args st' :
  reachable st -> exec st (Decorate c (Requires args)) = (st', Done) ->
  (exists old, res_of st c = Some old /\
               res_of st' c = Some (old ++ dec_res (Requires args))) /\
  (forall e, ~ ancestor st c e -> res_of st' e = res_of st e) /\
  (forall e, tags_of st' e = tags_of st e /\ proc_of st' e = proc_of st e /\
             proto_of st' e = proto_of st e).
Proof.
  intros R H. pose proof (WF_reachable _ R) as W.
  pose proof (apply_dec_frame st c (Requires args)) as F.
  cbn [exec] in H. rewrite H in F. cbn [fst] in F.
  destruct (apply_dec_inv _ _ _ _ H) as [_ [Hc [H0 Ha]]].
  unfold apply_req in Ha.
  destruct (attr k_req st c) as [old|] eqn:Eo; [|discriminate Ha].
  injection Ha as <-. rewrite dec_res_eq in *.
  split; [|split].
  - exists old. split; [exact Eo|]. unfold res_of.
    apply attr_upd_self; auto.
  - intros e He. destruct (F e He) as [_ [_ [X _]]]. exact X.
  - intros e. unfold tags_of, proc_of, proto_of.
    repeat apply conj; apply attr_upd_other; reflexivity.
Qed.

(* @implements sets what it names and leaves the rest. *)
Theorem implements_sets st c p q st' :
  reachable st -> exec st (Decorate c (Implements p q)) = (st', Done) ->
  (forall n, p = CGood n -> proc_of st' c = Some (Some n)) /\
  (forall n, q = CGood n -> proto_of st' c = Some (Some n)) /\
  (p = CNone -> forall e, proc_of st' e = proc_of st e) /\
  (q = CNone -> forall e, proto_of st' e = proto_of st e) /\
  (forall e, ~ ancestor st c e ->
     proc_of st' e = proc_of st e /\ proto_of st' e = proto_of st e) /\
  (forall e, tags_of st' e = tags_of st e /\ res_of st' e = res_of st e).
Proof.
  intros R H. pose proof (WF_reachable _ R) as W.
  pose proof (apply_dec_frame st c (Implements p q)) as F.
  cbn [exec] in H. rewrite H in F. cbn [fst] in F.
  destruct (apply_dec_inv _ _ _ _ H) as [_ [Hc [H0 Ha]]].
  unfold apply_impl in Ha.
  destruct (conflict (attr k_proc st c) p); [discriminate Ha|].
  cbv zeta in Ha.
  set (st1 := match p with CGood n => upd st c (set_proc n) | _ => st end) in *.
  destruct (conflict (attr k_proto st1 c) q); [discriminate Ha|].
  injection Ha as Ha.
  assert (W1 : WF st1).
  { unfold st1. destruct p; try exact W. apply WF_upd; auto.
    intros k [H1 [H2 [H3 [H4 H5]]]].
    unfold root_ok; cbn; repeat apply conj; auto; discriminate. }
  assert (L1 : List.length st1 = List.length st)
    by (unfold st1; destruct p; try reflexivity; apply upd_length).
  assert (Kp : forall e, attr k_proc st' e = attr k_proc st1 e).
  { intros e. rewrite <- Ha. destruct q; try reflexivity.
    apply attr_upd_other; reflexivity. }
  assert (Kq : forall e, attr k_proto st1 e = attr k_proto st e).
  { intros e. unfold st1. destruct p; try reflexivity.
    apply attr_upd_other; reflexivity. }
  unfold proc_of, proto_of, tags_of, res_of.
  repeat apply conj.
  - intros n ->. rewrite Kp. unfold st1. apply attr_upd_self; auto.
  - intros n ->. rewrite <- Ha. apply attr_upd_self; auto. lia.
  - intros -> e. rewrite Kp. reflexivity.
  - intros -> e. rewrite <- Ha. apply Kq.
  - intros e He. destruct (F e He) as [X1 [X2 _]]. split; assumption.
  - intros e. rewrite <- Ha. unfold st1.
    split; destruct p, q;
      repeat (rewrite attr_upd_other by reflexivity); reflexivity.
Qed.

(* A class that inherits from the decorated one sees the change exactly if no
   class before it in the method resolution order has the attribute itself. *)
Theorem late_tag_reaches_descendants st c args st' d l1 l2 :
  reachable st -> exec st (Decorate c (Tag args)) = (st', Done) ->
  mro_of st d = l1 ++ c :: l2 -> ~ In c l1 ->
  tags_of st' d =
  (match first_own k_tags st l1 with
   | Some _ => tags_of st d
   | None => tags_of st' c
   end).
Proof.
  intros R H E Hn. pose proof (WF_reachable _ R) as W.
  cbn [exec] in H.
  destruct (apply_dec_inv _ _ _ _ H) as [_ [Hc [H0 Ha]]].
  unfold apply_tag in Ha.
  destruct (pm_attrs _ _ W H0) as [_ [_ [_ Ht]]].
  destruct (attr k_tags st c) as [old|] eqn:Eo; [|congruence].
  injection Ha as <-. unfold tags_of.
  rewrite (attr_upd_in k_tags st c _ (old ++ flat_map to_tag args) d l1 l2);
    auto.
  rewrite (attr_upd_self k_tags st c _ (old ++ flat_map to_tag args)); auto.
  unfold attr. rewrite E, first_own_app.
  destruct (first_own k_tags st l1); reflexivity.
Qed.

(* ------------------------------------------------------------------ *)
(* What is accepted                                                    *)

Lemma check_impl_ok a :
  check_impl a = Done <-> a = CNone \/ exists n, a = CGood n.
Proof.
  destruct a; cbn; split; intros H; auto.
  - right. exists n. reflexivity.
  - discriminate H.
  - destruct H as [H|[n H]]; discriminate H.
  - discriminate H.
  - destruct H as [H|[n H]]; discriminate H.
Qed.

Lemma check_res_ok a : check_res a = Done <-> exists n, a = CGood n.
Proof.
  split.
  - destruct a; cbn; intros H; try discriminate H. exists n. reflexivity.
  - intros [n ->]. reflexivity.
Qed.

Lemma check_all_ok l : check_all l = Done <-> exists rs, l = map CGood rs.
Proof.
  induction l as [|a l IH]; cbn.
  - split; [intros _; exists []; reflexivity|auto].
  - destruct (check_res a) eqn:E.
    + apply check_res_ok in E. destruct E as [n ->]. rewrite IH. split.
      * intros [rs ->]. exists (n :: rs). reflexivity.
      * intros [[|r rs] Hr]; [discriminate Hr|]. cbn in Hr.
        injection Hr as _ ->. exists rs. reflexivity.
    + split; [discriminate|]. intros [[|r rs] Hr]; [discriminate Hr|].
      cbn in Hr. injection Hr as -> _. cbn in E. discriminate E.
    + split; [discriminate|]. intros [[|r rs] Hr]; [discriminate Hr|].
      cbn in Hr. injection Hr as -> _. cbn in E. discriminate E.
    + split; [discriminate|]. intros [[|r rs] Hr]; [discriminate Hr|].
      cbn in Hr. injection Hr as -> _. cbn in E. discriminate E.
Qed.

Lemma check_reqs_ok l : check_reqs l = Done <->
  forall a, In a l -> (exists r, a = RArg (CGood r)) \/
                      (exists rs, a = RList (map CGood rs)).
Proof.
  induction l as [|a l IH]; cbn.
  - split; [intros _ a []|auto].
  - assert (K : (match a with
                 | RArg a => check_res a
                 | RList rs => check_all rs end) = Done <->
                (exists r, a = RArg (CGood r)) \/
                (exists rs, a = RList (map CGood rs))).
    { destruct a as [a|rs].
      - rewrite check_res_ok. split.
        + intros [n ->]. left. exists n. reflexivity.
        + intros [[r H]|[rs H]]; [|discriminate H].
          injection H as ->. exists r. reflexivity.
      - rewrite check_all_ok. split.
        + intros [r ->]. right. exists r. reflexivity.
        + intros [[r H]|[r H]]; [discriminate H|].
          injection H as ->. exists r. reflexivity. }
    transitivity ((match a with
                 | RArg a => check_res a
                 | RList rs => check_all rs end) = Done /\ check_reqs l = Done).
    + destruct a as [a|rs].
      * destruct (check_res a); split; intros H; try tauto;
          try discriminate H; destruct H as [H _]; discriminate H.
      * destruct (check_all rs); split; intros H; try tauto;
          try discriminate H; destruct H as [H _]; discriminate H.
    + rewrite K, IH. split.
      * intros [H1 H2] x [<-|Hx]; auto.
      * intros H. split; [apply H; left; reflexivity|].
        intros x Hx. apply H. right. exact Hx.
Qed.

Lemma check_tags_ok l : check_tags l = Done <->
  forall a, In a l -> exists s, a = TStr s.
Proof.
  induction l as [|a l IH]; cbn.
  - split; [intros _ a []|auto].
  - destruct a as [s|]; cbn.
    + rewrite IH. split.
      * intros H x [<-|Hx]; [exists s; reflexivity|auto].
      * intros H x Hx. apply H. right. exact Hx.
    + split; [discriminate|]. intros H.
      destruct (H TOther (or_introl eq_refl)) as [s E]. discriminate E.
Qed.

Lemma check_dec_ok d : check_dec d = Done <-> valid_dec d.
Proof.
  destruct d as [p q|l|l]; cbn.
  - rewrite <- !check_impl_ok. destruct (check_impl p); split; intros H;
      try tauto; try discriminate H; destruct H as [H _]; discriminate H.
  - apply check_reqs_ok.
  - apply check_tags_ok.
Qed.

Lemma conflict_ok cur a :
  conflict cur a = false <->
  (forall n m, a = CGood n -> cur = Some (Some m) -> n = m).
Proof.
  destruct cur as [[m|]|], a; cbn; split; intros H; auto;
    try (intros x y Hx Hy; discriminate);
    try (intros x y Hx Hy; discriminate Hx).
  - intros x y Hx Hy. injection Hx as <-. injection Hy as <-.
    apply negb_false_iff, Nat.eqb_eq in H. auto.
  - apply negb_false_iff, Nat.eqb_eq. symmetry. apply H; reflexivity.
Qed.

(* A decorator is accepted exactly if its arguments are as documented, the
   class is a ProcessModel, and a process or protocol it names is the one the
   class has already (by itself or by inheritance), if any. *)
Theorem decorator_accepts_exactly st c d :
  reachable st -> c < List.length st ->
  (snd (exec st (Decorate c d)) = Done <->
   valid_dec d /\ ancestor st 0 c /\ no_conflict st c d).
Proof.
  intros R Hc. pose proof (WF_reachable _ R) as W.
  cbn [exec]. unfold apply_dec. rewrite <- check_dec_ok.
  apply Nat.ltb_lt in Hc.
  destruct (check_dec d) eqn:Ed;
    try (split; [discriminate|intros [H _]; discriminate H]).
  rewrite Hc. unfold ancestor. rewrite <- is_pm_In.
  destruct (is_pm st c) eqn:Ep;
    [|split; [discriminate|intros [_ [H _]]; discriminate H]].
  apply is_pm_In in Ep. destruct (pm_attrs _ _ W Ep) as [_ [_ [Hr Ht]]].
  destruct d as [p q|l|l].
  - unfold no_conflict, proc_of, proto_of. rewrite <- !conflict_ok.
    unfold apply_impl.
    destruct (conflict (attr k_proc st c) p) eqn:E1;
      [split; [discriminate|intros [_ [_ [H _]]]; discriminate H]|].
    cbv zeta.
    set (st1 := match p with CGood n => upd st c (set_proc n) | _ => st end).
    assert (Kq : attr k_proto st1 c = attr k_proto st c).
    { unfold st1. destruct p; try reflexivity.
      apply attr_upd_other; reflexivity. }
    rewrite Kq. destruct (conflict (attr k_proto st c) q) eqn:E2;
      [split; [discriminate|intros [_ [_ [_ H]]]; discriminate H]|].
    split; [intros _; auto|reflexivity].
  - unfold apply_req. destruct (attr k_req st c); [|congruence].
    split; [intros _; cbn; auto|reflexivity].
  - unfold apply_tag. destruct (attr k_tags st c);
    split; try (intros _; cbn; auto; fail); reflexivity.
Qed.

(* ------------------------------------------------------------------ *)
(* Other classes                                                       *)

(* No statement, accepted or not, changes what a user reads off a class that
   is not the decorated class or one of its descendants: parents, siblings and
   unrelated models are safe. *)
Theorem other_classes_untouched st s e :
  reachable st -> e < List.length st ->
  (forall c d, s = Decorate c d -> ~ ancestor st c e) ->
  let st' := fst (exec st s) in
  tags_of st' e = tags_of st e /\ res_of st' e = res_of st e /\
  proc_of st' e = proc_of st e /\ proto_of st' e = proto_of st e.
Proof.
  intros R He Hs. cbv zeta. pose proof (WF_reachable _ R) as W.
  destruct s as [bases b|c d].
  - destruct (exec st (NewClass bases b)) as [st' o] eqn:E. cbn [fst].
    destruct o;
      try (cbn [exec] in E; destruct (forallb _ bases);
           [destruct (linearise _ _ _)|]; try discriminate E;
           injection E as <-; repeat apply conj; reflexivity).
    destruct (new_class_frame _ _ _ _ _ W E He) as [_ K].
    unfold tags_of, res_of, proc_of, proto_of. repeat apply conj; apply K.
  - destruct (apply_dec_frame st c d e (Hs c d eq_refl)) as [A [B [C D]]].
    cbn [exec]. unfold tags_of, res_of, proc_of, proto_of.
    repeat apply conj; assumption.
Qed.

(* A parent is never a descendant of its child. *)
Theorem parents_are_not_descendants st c e :
  reachable st -> ancestor st c e -> c <> e -> ~ ancestor st e c.
Proof.
  intros R H Hne H'. pose proof (WF_reachable _ R) as W. unfold ancestor in *.
  apply (WF_mro_le _ _ _ W) in H. apply (WF_mro_le _ _ _ W) in H'. lia.
Qed.

(* A class statement gives the new class the attributes of its only parent,
   unless its body assigns them. *)
Theorem child_inherits st p b st' :
  reachable st -> exec st (NewClass [p] b) = (st', Done) ->
  let c := List.length st in
  List.length st' = S c /\
  mro_of st' c = c :: mro_of st p /\
  tags_of st' c = (match b_tags b with Some t => Some t | None => tags_of st p end) /\
  res_of st' c = (match b_req b with Some t => Some t | None => res_of st p end) /\
  proc_of st' c = (match b_proc b with Some t => Some t | None => proc_of st p end) /\
  proto_of st' c = (match b_proto b with Some t => Some t | None => proto_of st p end).
Proof.
  intros R H. cbv zeta. pose proof (WF_reachable _ R) as W.
  destruct (WF_new _ _ _ _ W H) as [l [-> [El [Hb [Hl _]]]]].
  rewrite linearise_one in El; [|exact W|apply Hb; left; reflexivity].
  injection El as El.
  set (k := mkcls _ _ _ _ _).
  assert (M : mro_of (st ++ [k]) (List.length st) = List.length st :: l).
  { unfold mro_of. rewrite nth_error_app2, Nat.sub_diag by lia. reflexivity. }
  assert (K : forall A (g : cls -> option A),
    attr g (st ++ [k]) (List.length st) =
    match g k with Some a => Some a | None => attr g st p end).
  { intros A g. unfold attr at 1. rewrite M. cbn [first_own].
    rewrite nth_error_app2, Nat.sub_diag by lia. cbn [nth_error].
    destruct (g k); [reflexivity|].
    rewrite first_own_app_table by exact Hl. unfold attr. rewrite El.
    reflexivity. }
  split; [rewrite app_length; cbn; lia|].
  split; [rewrite M; congruence|].
  unfold tags_of, res_of, proc_of, proto_of. rewrite !K. cbn.
  repeat apply conj; reflexivity.
Qed.

(* With any number of bases: the class inherits from exactly the bases and
   their ancestors, each once, and reads each attribute off the first of them
   that has it. *)
Theorem several_bases st bases st' :
  reachable st -> exec st (NewClass bases empty_body) = (st', Done) ->
  let c := List.length st in
  exists l, mro_of st' c = c :: l /\ NoDup (c :: l) /\
    (forall x, In x l <-> exists p, In p bases /\ ancestor st p p /\ ancestor st x p) /\
    tags_of st' c = first_own k_tags st l /\
    res_of st' c = first_own k_req st l /\
    proc_of st' c = first_own k_proc st l /\
    proto_of st' c = first_own k_proto st l.
Proof.
  intros R H. cbv zeta. pose proof (WF_reachable _ R) as W.
  destruct (WF_new _ _ _ _ W H) as [l [-> [El [Hb [Hl [Hn Hi]]]]]].
  set (k := mkcls _ _ _ _ _).
  assert (M : mro_of (st ++ [k]) (List.length st) = List.length st :: l).
  { unfold mro_of. rewrite nth_error_app2, Nat.sub_diag by lia. reflexivity. }
  assert (K : forall A (g : cls -> option A), g k = None ->
    attr g (st ++ [k]) (List.length st) = first_own g st l).
  { intros A g Hg. unfold attr. rewrite M. cbn [first_own].
    rewrite nth_error_app2, Nat.sub_diag by lia. cbn [nth_error].
    rewrite Hg. apply first_own_app_table, Hl. }
  exists l. split; [exact M|]. split.
  { constructor; [|exact Hn]. intros X. specialize (Hl _ X). lia. }
  split.
  { intros x. rewrite Hi. unfold ancestor. split.
    - intros [p [Hp Hx]]. exists p. repeat apply conj; auto.
      destruct (WF_mro _ _ W (Hb _ Hp)) as [l0 [E0 _]]. rewrite E0.
      left. reflexivity.
    - intros [p [Hp [_ Hx]]]. exists p. split; assumption. }
  unfold tags_of, res_of, proc_of, proto_of.
  repeat apply conj; apply K; reflexivity.
Qed.
