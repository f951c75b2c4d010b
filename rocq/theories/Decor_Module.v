(* C94: whole modules and whole histories. *)
From Coq Require Import List Arith String Bool Lia.
From Verif Require Import Decor_Model Decor_Spec Decor_Proofs Decor_Props.
Import ListNotations.

Lemma exec_all_app h1 : forall h2 st,
  exec_all st (h1 ++ h2) = exec_all (exec_all st h1) h2.
Proof. induction h1 as [|s h1 IH]; intros h2 st; cbn; auto. Qed.

Lemma reach_step st s : reachable st -> reachable (fst (exec st s)).
Proof.
  intros [h ->]. exists (h ++ [s]). rewrite exec_all_app. reflexivity.
Qed.

Lemma reach_step' st s st' o :
  reachable st -> exec st s = (st', o) -> reachable st'.
Proof.
  intros R H. pose proof (reach_step st s R) as X. rewrite H in X. exact X.
Qed.

(* the process (protocol) resulting from a list of decorators *)
Definition settles (names : dec -> nat -> Prop) (ds : list dec)
    (v : option (option nat)) : Prop :=
  (forall d p, In d ds -> names d p -> v = Some (Some p)) /\
  ((forall d p, In d ds -> ~ names d p) -> v = Some None).

Lemma settles_proc_step st c d st' ds :
  reachable st -> exec st (Decorate c d) = (st', Done) ->
  settles names_proc ds (proc_of st c) ->
  settles names_proc (ds ++ [d]) (proc_of st' c).
Proof.
  intros R H [S1 S2].
  assert (Hc : c < List.length st)
    by (destruct (apply_dec_inv _ _ _ _ H) as [_ [X _]]; exact X).
  assert (NC : no_conflict st c d).
  { apply (decorator_accepts_exactly st c d R Hc). rewrite H. reflexivity. }
  destruct d as [p q|l|l].
  - destruct (implements_sets _ _ _ _ _ R H) as [I1 [_ [I3 _]]].
    destruct NC as [NC _].
    assert (Vd : p = CNone \/ exists n, p = CGood n).
    { destruct (apply_dec_inv _ _ _ _ H) as [V _].
      apply check_dec_ok in V. exact (proj1 V). }
    split.
    + intros d x Hd Hx. apply in_app_or in Hd. destruct Hd as [Hd|[<-|[]]].
      * specialize (S1 _ _ Hd Hx). destruct Vd as [->|[n ->]].
        -- rewrite I3; auto.
        -- rewrite (NC n x eq_refl S1) in *. apply I1. reflexivity.
      * destruct Hx as [q' Hx]. injection Hx as -> _. apply I1. reflexivity.
    + intros Hno. destruct Vd as [->|[n ->]].
      * rewrite I3 by reflexivity. apply S2. intros d x Hd. apply Hno.
        apply in_or_app. left. exact Hd.
      * exfalso. apply (Hno (Implements (CGood n) q) n).
        -- apply in_or_app. right. left. reflexivity.
        -- exists q. reflexivity.
  - destruct (requires_appends _ _ _ _ R H) as [_ [_ K]].
    destruct (K c) as [_ [Kp _]]. rewrite Kp. split.
    + intros d x Hd Hx. apply in_app_or in Hd. destruct Hd as [Hd|[<-|[]]].
      * exact (S1 _ _ Hd Hx).
      * destruct Hx as [q Hx]. discriminate Hx.
    + intros Hno. apply S2. intros d x Hd. apply Hno.
      apply in_or_app. left. exact Hd.
  - destruct (tag_appends _ _ _ _ R H) as [_ [_ K]].
    destruct (K c) as [_ [Kp _]]. rewrite Kp. split.
    + intros d x Hd Hx. apply in_app_or in Hd. destruct Hd as [Hd|[<-|[]]].
      * exact (S1 _ _ Hd Hx).
      * destruct Hx as [q Hx]. discriminate Hx.
    + intros Hno. apply S2. intros d x Hd. apply Hno.
      apply in_or_app. left. exact Hd.
Qed.

Lemma settles_proto_step st c d st' ds :
  reachable st -> exec st (Decorate c d) = (st', Done) ->
  settles names_proto ds (proto_of st c) ->
  settles names_proto (ds ++ [d]) (proto_of st' c).
Proof.
  intros R H [S1 S2].
  assert (Hc : c < List.length st)
    by (destruct (apply_dec_inv _ _ _ _ H) as [_ [X _]]; exact X).
  assert (NC : no_conflict st c d).
  { apply (decorator_accepts_exactly st c d R Hc). rewrite H. reflexivity. }
  destruct d as [p q|l|l].
  - destruct (implements_sets _ _ _ _ _ R H) as [_ [I1 [_ [I3 _]]]].
    destruct NC as [_ NC].
    assert (Vd : q = CNone \/ exists n, q = CGood n).
    { destruct (apply_dec_inv _ _ _ _ H) as [V _].
      apply check_dec_ok in V. exact (proj2 V). }
    split.
    + intros d x Hd Hx. apply in_app_or in Hd. destruct Hd as [Hd|[<-|[]]].
      * specialize (S1 _ _ Hd Hx). destruct Vd as [->|[n ->]].
        -- rewrite I3; auto.
        -- rewrite (NC n x eq_refl S1) in *. apply I1. reflexivity.
      * destruct Hx as [q' Hx]. injection Hx as _ ->. apply I1. reflexivity.
    + intros Hno. destruct Vd as [->|[n ->]].
      * rewrite I3 by reflexivity. apply S2. intros d x Hd. apply Hno.
        apply in_or_app. left. exact Hd.
      * exfalso. apply (Hno (Implements p (CGood n)) n).
        -- apply in_or_app. right. left. reflexivity.
        -- exists p. reflexivity.
  - destruct (requires_appends _ _ _ _ R H) as [_ [_ K]].
    destruct (K c) as [_ [_ Kp]]. rewrite Kp. split.
    + intros d x Hd Hx. apply in_app_or in Hd. destruct Hd as [Hd|[<-|[]]].
      * exact (S1 _ _ Hd Hx).
      * destruct Hx as [q Hx]. discriminate Hx.
    + intros Hno. apply S2. intros d x Hd. apply Hno.
      apply in_or_app. left. exact Hd.
  - destruct (tag_appends _ _ _ _ R H) as [_ [_ K]].
    destruct (K c) as [_ [_ Kp]]. rewrite Kp. split.
    + intros d x Hd Hx. apply in_app_or in Hd. destruct Hd as [Hd|[<-|[]]].
      * exact (S1 _ _ Hd Hx).
      * destruct Hx as [q Hx]. discriminate Hx.
    + intros Hno. apply S2. intros d x Hd. apply Hno.
      apply in_or_app. left. exact Hd.
Qed.

(* what a user reads off class c, given the decorators that made it *)
Definition reads (st : table) (c : nat) (ds : list dec) : Prop :=
  tags_of st c = Some (flat_map dec_tags ds) /\
  res_of st c = Some (flat_map dec_res ds) /\
  settles names_proc ds (proc_of st c) /\
  settles names_proto ds (proto_of st c).

Lemma reads_step st c d st' ds :
  reachable st -> exec st (Decorate c d) = (st', Done) ->
  reads st c ds -> reads st' c (ds ++ [d]).
Proof.
  intros R H [T [Q [P1 P2]]]. unfold reads.
  rewrite !flat_map_app. cbn [flat_map]. rewrite !app_nil_r.
  split; [|split; [|split]].
  - destruct d as [p q|l|l].
    + destruct (implements_sets _ _ _ _ _ R H) as [_ [_ [_ [_ [_ K]]]]].
      destruct (K c) as [K1 _]. rewrite K1, T. cbn. rewrite app_nil_r.
      reflexivity.
    + destruct (requires_appends _ _ _ _ R H) as [_ [_ K]].
      destruct (K c) as [K1 _]. rewrite K1, T. cbn. rewrite app_nil_r.
      reflexivity.
    + destruct (tag_appends _ _ _ _ R H) as [[old [O1 O2]] _].
      rewrite O2. congruence.
  - destruct d as [p q|l|l].
    + destruct (implements_sets _ _ _ _ _ R H) as [_ [_ [_ [_ [_ K]]]]].
      destruct (K c) as [_ K1]. rewrite K1, Q. cbn. rewrite app_nil_r.
      reflexivity.
    + destruct (requires_appends _ _ _ _ R H) as [[old [O1 O2]] _].
      rewrite O2. congruence.
    + destruct (tag_appends _ _ _ _ R H) as [_ [_ K]].
      destruct (K c) as [K1 _]. rewrite K1, Q. cbn. rewrite app_nil_r.
      reflexivity.
  - exact (settles_proc_step _ _ _ _ _ R H P1).
  - exact (settles_proto_step _ _ _ _ _ R H P2).
Qed.

Lemma apply_decs_effect c : forall new st st',
  reachable st -> apply_decs st c new = Some st' ->
  reachable st' /\ List.length st' = List.length st /\
  (forall e, mro_of st' e = mro_of st e) /\
  (forall e ds, ~ ancestor st c e -> reads st e ds -> reads st' e ds) /\
  (forall ds, reads st c ds -> reads st' c (ds ++ new)).
Proof.
  induction new as [|d new IH]; intros st st' R H; cbn in H.
  - injection H as <-. repeat apply conj; auto.
    intros ds Hr. rewrite app_nil_r. exact Hr.
  - destruct (apply_dec st c d) as [st1 o] eqn:E.
    destruct o; try discriminate H.
    assert (E' : exec st (Decorate c d) = (st1, Done)) by exact E.
    pose proof (reach_step' _ _ _ _ R E') as R1.
    destruct (IH _ _ R1 H) as [R' [L [M [F K]]]].
    assert (M1 : forall e, mro_of st1 e = mro_of st e).
    { intros e. pose proof (apply_dec_mro st c d e) as X. rewrite E in X.
      exact X. }
    pose proof (apply_dec_length st c d) as L1. rewrite E in L1.
    cbn [fst] in L1.
    repeat apply conj.
    + exact R'.
    + congruence.
    + intros e. rewrite M. apply M1.
    + intros e ds He Hr. apply F.
      * unfold ancestor. rewrite M1. exact He.
      * destruct (apply_dec_frame st c d e He) as [A [B [C D]]].
        rewrite E in A, B, C, D. cbn [fst] in A, B, C, D.
        unfold reads, tags_of, res_of, proc_of, proto_of in *.
        rewrite A, B, C, D. exact Hr.
    + intros ds Hr. replace (ds ++ d :: new) with ((ds ++ [d]) ++ new)
        by (rewrite <- app_assoc; reflexivity).
      apply K. exact (reads_step _ _ _ _ _ R E' Hr).
Qed.

Lemma run_module_snoc P : forall st d,
  run_module st (P ++ [d]) =
  match run_module st P with Some st' => run_decl st' d | None => None end.
Proof.
  induction P as [|x P IH]; intros st d; cbn.
  - destruct (run_decl st d); reflexivity.
  - destruct (run_decl st x); [apply IH|reflexivity].
Qed.

Lemma lineage_weaken P d c l :
  lineage (P ++ [d]) c l -> c <= List.length P ->
  (forall i x b, nth_error P i = Some x -> In b (d_bases x) -> b <= i) ->
  lineage P c l.
Proof.
  intros H. induction H as [|i x p l Hx Hb He H IH]; intros Hc Hlt.
  - constructor.
  - rewrite nth_error_app1 in Hx by lia.
    apply (lin_child P i x p l); auto.
    apply IH; [|exact Hlt].
    specialize (Hlt i x p Hx). rewrite Hb in Hlt.
    specialize (Hlt (or_introl eq_refl)). lia.
Qed.

Lemma nth_snoc_last {A} (l : list A) x i y :
  nth_error (l ++ [x]) i = Some y ->
  (i < List.length l /\ nth_error l i = Some y) \/ (i = List.length l /\ y = x).
Proof.
  intros H. destruct (Nat.lt_ge_cases i (List.length l)) as [Hi|Hi].
  - left. rewrite nth_error_app1 in H by exact Hi. auto.
  - right. rewrite nth_error_app2 in H by exact Hi.
    destruct (i - List.length l) as [|[|n]] eqn:E; cbn in H; try discriminate H.
    injection H as ->. split; [lia|reflexivity].
Qed.

Record minv (P : list decl) (st : table) : Prop := mkminv {
  mi_reach : reachable st;
  mi_len : List.length st = S (List.length P);
  mi_bases : forall i x b, nth_error P i = Some x -> In b (d_bases x) -> b <= i;
  mi_mro : forall i x p, nth_error P i = Some x -> d_bases x = [p] ->
             mro_of st (S i) = S i :: mro_of st p;
  mi_reads : forall c l, lineage P c l -> reads st c (all_decs l) }.

Lemma reach0 : reachable table0.
Proof. exists []. reflexivity. Qed.

Lemma run_decl_inv st d st' :
  reachable st -> run_decl st d = Some st' ->
  exists st1, exec st (NewClass (d_bases d) (d_body d)) = (st1, Done) /\
    reachable st1 /\ List.length st1 = S (List.length st) /\
    (forall b, In b (d_bases d) -> b < List.length st) /\
    apply_decs st1 (List.length st) (d_decs d) = Some st'.
Proof.
  intros R H. unfold run_decl in H.
  destruct (exec st (NewClass (d_bases d) (d_body d))) as [st1 o] eqn:E.
  destruct o; try discriminate H.
  exists st1. split; [reflexivity|].
  split; [exact (reach_step' _ _ _ _ R E)|].
  destruct (WF_new _ _ _ _ (WF_reachable _ R) E) as [l [-> [_ [Hb _]]]].
  repeat apply conj; auto.
  rewrite app_length. cbn. lia.
Qed.

Lemma reads_new_class st bases b st' e ds :
  reachable st -> exec st (NewClass bases b) = (st', Done) ->
  e < List.length st -> reads st e ds -> reads st' e ds.
Proof.
  intros R H He Hr.
  destruct (new_class_frame _ _ _ _ _ (WF_reachable _ R) H He) as [_ K].
  unfold reads, tags_of, res_of, proc_of, proto_of in *.
  rewrite !K. exact Hr.
Qed.

Lemma module_invariant P : forall st,
  run_module table0 P = Some st -> minv P st.
Proof.
  induction P as [|d P IH] using rev_ind; intros st H.
  - cbn in H. injection H as <-. constructor.
    + exact reach0.
    + reflexivity.
    + intros [|i] x b Hx; discriminate Hx.
    + intros [|i] x p Hx; discriminate Hx.
    + intros c l Hl. inversion Hl as [|i x p l' Hx]; subst.
      * unfold reads, settles, tags_of, res_of, proc_of, proto_of. cbn.
        repeat apply conj; try reflexivity; intros d p [].
      * destruct i; discriminate Hx.
  - rewrite run_module_snoc in H.
    destruct (run_module table0 P) as [st0|] eqn:E0; [|discriminate H].
    destruct (IH _ eq_refl) as [R0 L0 B0 M0 Q0].
    destruct (run_decl_inv _ _ _ R0 H) as [st1 [E1 [R1 [L1 [Hb Ha]]]]].
    destruct (apply_decs_effect _ _ _ _ R1 Ha) as [R2 [L2 [M2 [F2 K2]]]].
    pose proof (WF_reachable _ R0) as W0.
    pose proof (WF_reachable _ R1) as W1.
    assert (Bs : forall i x b, nth_error (P ++ [d]) i = Some x ->
                   In b (d_bases x) -> b <= i).
    { intros i x b Hx Hbx. destruct (nth_snoc_last _ _ _ _ Hx) as [[_ Hx']|[-> ->]].
      - exact (B0 _ _ _ Hx' Hbx).
      - specialize (Hb _ Hbx). lia. }
    assert (Old : forall e, e < List.length st0 -> mro_of st1 e = mro_of st0 e).
    { intros e He. exact (proj1 (new_class_frame _ _ _ _ _ W0 E1 He)). }
    constructor.
    + exact R2.
    + rewrite L2, L1, L0, app_length. cbn. lia.
    + exact Bs.
    + intros i x p Hx Hp. rewrite !M2.
      destruct (nth_snoc_last _ _ _ _ Hx) as [[Hi Hx']|[-> ->]].
      * pose proof (B0 _ _ p Hx') as Hpi. rewrite Hp in Hpi.
        specialize (Hpi (or_introl eq_refl)).
        rewrite !Old by lia. exact (M0 _ _ _ Hx' Hp).
      * rewrite Hp in Hb. specialize (Hb p (or_introl eq_refl)).
        rewrite Hp in E1.
        destruct (child_inherits _ _ _ _ R0 E1) as [_ [Mc _]].
        rewrite L0 in Mc. rewrite (Old p) by lia. exact Mc.
    + intros c l Hl.
      destruct (Nat.le_gt_cases c (List.length P)) as [Hc|Hc].
      * pose proof (lineage_weaken _ _ _ _ Hl Hc B0) as Hl'.
        assert (Hlt : c < List.length st0) by lia.
        apply F2.
        -- intros X. pose proof (WF_mro_le _ _ _ W1 X). lia.
        -- exact (reads_new_class _ _ _ _ _ _ R0 E1 Hlt (Q0 _ _ Hl')).
      * inversion Hl as [|i x p l' Hx Hp He Hl' E2 E3]; subst; [lia|].
        destruct (nth_snoc_last _ _ _ _ Hx) as [[Hi _]|[-> ->]]; [lia|].
        pose proof (Bs _ _ p Hx) as Hpi. rewrite Hp in Hpi.
        specialize (Hpi (or_introl eq_refl)).
        pose proof (lineage_weaken _ _ _ _ Hl' Hpi B0) as Hw.
        pose proof (Q0 _ _ Hw) as Hq.
        rewrite Hp, He in E1.
        destruct (child_inherits _ _ _ _ R0 E1) as [_ [_ [C1 [C2 [C3 C4]]]]].
        unfold all_decs. rewrite flat_map_app. cbn [flat_map].
        rewrite app_nil_r, <- L0. apply K2.
        unfold reads. rewrite C1, C2, C3, C4. exact Hq.
Qed.

(* Tags and resources are additive over single inheritance: after importing a
   module, a class has the keywords (requirements) of all its ancestors and its
   own, oldest class first and the lowest decorator of a class first, none
   lost, none repeated; its process and protocol are the ones that any of these
   decorators names, and None if none does. *)
Theorem module_attributes P st c l :
  run_module table0 P = Some st -> lineage P c l ->
  tags_of st c = Some (flat_map dec_tags (all_decs l)) /\
  res_of st c = Some (flat_map dec_res (all_decs l)) /\
  (forall d p, In d (all_decs l) -> names_proc d p ->
     proc_of st c = Some (Some p)) /\
  ((forall d p, In d (all_decs l) -> ~ names_proc d p) ->
     proc_of st c = Some None) /\
  (forall d p, In d (all_decs l) -> names_proto d p ->
     proto_of st c = Some (Some p)) /\
  ((forall d p, In d (all_decs l) -> ~ names_proto d p) ->
     proto_of st c = Some None).
Proof.
  intros H Hl.
  destruct (mi_reads _ _ (module_invariant _ _ H) c l Hl)
    as [T [Q [[P1 P2] [O1 O2]]]].
  repeat apply conj; auto.
Qed.

(* Hence an importable module never names two processes along one line of
   inheritance. *)
Theorem one_process_per_lineage P st c l d1 d2 p q :
  run_module table0 P = Some st -> lineage P c l ->
  In d1 (all_decs l) -> names_proc d1 p ->
  In d2 (all_decs l) -> names_proc d2 q -> p = q.
Proof.
  intros H Hl A1 N1 A2 N2.
  destruct (module_attributes _ _ _ _ H Hl) as [_ [_ [K _]]].
  pose proof (K _ _ A1 N1) as X. pose proof (K _ _ A2 N2) as Y. congruence.
Qed.

(* In a module of single inheritance every class has a lineage. *)
Theorem single_inheritance_lineage P st :
  run_module table0 P = Some st ->
  (forall x, In x P -> (exists p, d_bases x = [p]) /\ d_body x = empty_body) ->
  List.length st = S (List.length P) /\
  forall c, c < List.length st -> exists l, lineage P c l.
Proof.
  intros H Hs. pose proof (module_invariant _ _ H) as I.
  split; [apply (mi_len _ _ I)|].
  intros c. rewrite (mi_len _ _ I).
  induction c as [c IH] using lt_wf_ind. intros Hc.
  destruct c as [|i]; [exists []; constructor|].
  destruct (nth_error P i) as [x|] eqn:Ex;
    [|apply nth_error_None in Ex; lia].
  destruct (Hs x (nth_error_In _ _ Ex)) as [[p Hp] He].
  pose proof (mi_bases _ _ I i x p Ex) as Hpi. rewrite Hp in Hpi.
  specialize (Hpi (or_introl eq_refl)).
  destruct (IH p) as [l Hl]; [lia|lia|].
  exists (l ++ [x]). exact (lin_child P i x p l Ex Hp He Hl).
Qed.

(* The compiler's candidates for a process are exactly the classes of which
   some decorator of the lineage names it - subclasses included. *)
Theorem candidates_exactly P st p c l :
  run_module table0 P = Some st -> lineage P c l -> c < List.length st ->
  (In c (find_models st p) <->
   exists d, In d (all_decs l) /\ names_proc d p).
Proof.
  intros H Hl Hc. pose proof (module_invariant _ _ H) as I.
  destruct (mi_reads _ _ I c l Hl) as [_ [_ [[P1 P2] _]]].
  assert (H0 : In 0 (mro_of st c)).
  { clear Hc P1 P2. induction Hl as [|i x q l Hx Hb He Hl IH].
    - destruct (wf_root _ (WF_reachable _ (mi_reach _ _ I)))
        as [k [E [M _]]].
      unfold mro_of. rewrite E, M. left. reflexivity.
    - rewrite (mi_mro _ _ I _ _ _ Hx Hb). right. exact IH. }
  unfold find_models. rewrite filter_In, andb_true_iff, is_pm_In, in_seq.
  assert (D : (exists d q, In d (all_decs l) /\ names_proc d q) \/
              (forall d q, In d (all_decs l) -> ~ names_proc d q)).
  { clear. induction (all_decs l) as [|d ds IH].
    - right. intros d q [].
    - destruct IH as [[e [q [He Hq]]]|IH].
      + left. exists e, q. split; [right; exact He|exact Hq].
      + destruct d as [[| | |] b|a|a];
          try (right; intros e q [<-|He] [z Hz];
               [discriminate Hz|exact (IH e q He (ex_intro _ z Hz))]).
        left. exists (Implements (CGood n) b), n.
        split; [left; reflexivity|exists b; reflexivity]. }
  fold (proc_of st c).
  split.
  - intros [_ [_ Hm]]. destruct D as [[d [q [Hd Hq]]]|D].
    + rewrite (P1 _ _ Hd Hq) in Hm. apply Nat.eqb_eq in Hm. subst q.
      exists d. split; assumption.
    + rewrite (P2 D) in Hm. discriminate Hm.
  - intros [d [Hd Hq]]. rewrite (P1 _ _ Hd Hq), Nat.eqb_refl.
    repeat apply conj; auto; lia.
Qed.

(* ------------------------------------------------------------------ *)
(* Histories with late decoration                                      *)

(* chain: the method resolution order after a class is that of the class *)
Record plain_inv (st : table) : Prop := mkpi {
  pi_wf : WF st;
  pi_chain : forall d c l1 l2, mro_of st d = l1 ++ c :: l2 ->
               mro_of st c = c :: l2;
  pi_none : forall c k, nth_error st c = Some k ->
              (k_proc k = Some None -> c = 0) /\
              (k_proto k = Some None -> c = 0) }.

Lemma plain_inv0 : plain_inv table0.
Proof.
  constructor.
  - exact WF0.
  - intros [|d] c l1 l2 H.
    + unfold mro_of in H. cbn in H. destruct l1 as [|x [|y l1]]; cbn in H.
      * injection H as <- <-. reflexivity.
      * discriminate H.
      * discriminate H.
    + unfold mro_of in H. cbn in H. destruct d; cbn in H;
        destruct l1; discriminate H.
  - intros [|[|c]] k H; cbn in H; try discriminate H.
    auto.
Qed.

Lemma dec_own_none st c d : forall x k',
  nth_error (fst (apply_dec st c d)) x = Some k' ->
  exists k, nth_error st x = Some k /\
    (k_proc k' = Some None -> k_proc k = Some None) /\
    (k_proto k' = Some None -> k_proto k = Some None).
Proof.
  intros x k' H. unfold apply_dec in H.
  destruct (check_dec d); try (exists k'; auto; fail).
  destruct (c <? List.length st); [|exists k'; auto].
  destruct (is_pm st c); [|exists k'; auto].
  assert (U : forall s f, (forall k, k_proc (f k) = Some None -> k_proc k = Some None) ->
              (forall k, k_proto (f k) = Some None -> k_proto k = Some None) ->
              forall x k', nth_error (upd s c f) x = Some k' ->
              exists k, nth_error s x = Some k /\
              (k_proc k' = Some None -> k_proc k = Some None) /\
              (k_proto k' = Some None -> k_proto k = Some None)).
  { intros s f F1 F2 y z Hz. rewrite nth_upd in Hz. destruct (y =? c).
    - destruct (nth_error s y) as [k|]; [|discriminate Hz].
      injection Hz as <-. exists k. auto.
    - exists z. auto. }
  destruct d as [p q|l|l].
  - unfold apply_impl in H. destruct (conflict _ p); [exists k'; auto|].
    cbv zeta in H.
    set (st1 := match p with CGood n => upd st c (set_proc n) | _ => st end) in *.
    assert (S1 : forall x k', nth_error st1 x = Some k' ->
              exists k, nth_error st x = Some k /\
              (k_proc k' = Some None -> k_proc k = Some None) /\
              (k_proto k' = Some None -> k_proto k = Some None)).
    { unfold st1. intros y z Hz. destruct p; try (exists z; auto; fail).
      eapply U; [| |exact Hz]; cbn; auto; discriminate. }
    destruct (conflict _ q); [exact (S1 _ _ H)|].
    destruct q; cbn [fst] in H; try exact (S1 _ _ H).
    eapply U in H; [|cbn; auto|cbn; discriminate].
    destruct H as [k1 [E [A B]]]. destruct (S1 _ _ E) as [k [E' [A' B']]].
    exists k. auto.
  - unfold apply_req in H. destruct (attr k_req st c); cbn [fst] in H;
      [|exists k'; auto].
    eapply U in H; [exact H|cbn; auto|cbn; auto].
  - unfold apply_tag in H. destruct (attr k_tags st c); cbn [fst] in H;
      (eapply U in H; [exact H|cbn; auto|cbn; auto]).
Qed.

Lemma plain_inv_step st s :
  plain_inv st -> plain s -> plain_inv (fst (exec st s)).
Proof.
  intros [W C N] Hs. destruct s as [bases b|c d].
  - destruct bases as [|p [|? ?]]; try contradiction. cbn in Hs. subst b.
    destruct (exec st (NewClass [p] empty_body)) as [st' o] eqn:E.
    pose proof (WF_exec st (NewClass [p] empty_body) W) as W'.
    rewrite E in W'. cbn [fst] in *.
    destruct o;
      try (cbn [exec] in E; destruct (forallb _ _);
           [destruct (linearise _ _ _)|]; try discriminate E;
           injection E as <-; constructor; assumption).
    destruct (WF_new _ _ _ _ W E) as [l [-> [El [Hb [Hl _]]]]].
    assert (Hp : p < List.length st) by (apply Hb; left; reflexivity).
    rewrite linearise_one in El by assumption.
    injection El as El.
    set (k := mkcls _ _ _ _ _) in *.
    assert (M : mro_of (st ++ [k]) (List.length st) = List.length st :: l).
    { unfold mro_of. rewrite nth_error_app2, Nat.sub_diag by lia. reflexivity. }
    constructor.
    + exact W'.
    + intros d c l1 l2 H.
      destruct (Nat.lt_ge_cases d (List.length st)) as [Hd|Hd].
      * rewrite mro_app in H by exact Hd.
        assert (Hc : c < List.length st).
        { assert (X : In c (mro_of st d))
            by (rewrite H; apply in_or_app; right; left; reflexivity).
          pose proof (WF_mro_le _ _ _ W X). lia. }
        rewrite mro_app by exact Hc. exact (C _ _ _ _ H).
      * assert (Hd' : d = List.length st).
        { assert (X : In c (mro_of (st ++ [k]) d))
            by (rewrite H; apply in_or_app; right; left; reflexivity).
          pose proof (WF_mro_le _ _ _ W' X) as Y. rewrite app_length in Y.
          cbn in Y. lia. }
        subst d. rewrite M in H. destruct l1 as [|x l1].
        -- cbn in H. injection H as <- <-. exact M.
        -- cbn in H. injection H as <- H.
           assert (X : In c (mro_of st p))
             by (rewrite El, H; apply in_or_app; right; left; reflexivity).
           pose proof (WF_mro_le _ _ _ W X).
           rewrite mro_app by lia. apply (C p c l1 l2). congruence.
    + intros c k' Hk. destruct (nth_snoc_last _ _ _ _ Hk) as [[_ Hk']|[-> ->]].
      * exact (N _ _ Hk').
      * cbn. split; discriminate.
  - pose proof (WF_exec st (Decorate c d) W) as W'.
    cbn [exec] in *. constructor.
    + exact W'.
    + intros e x l1 l2 H. rewrite apply_dec_mro in H. rewrite apply_dec_mro.
      exact (C _ _ _ _ H).
    + intros x k' Hk. destruct (dec_own_none _ _ _ _ _ Hk) as [k [E [A B]]].
      destruct (N _ _ E) as [N1 N2]. auto.
Qed.

Lemma plain_inv_all h : (forall s, In s h -> plain s) ->
  forall st, plain_inv st -> plain_inv (exec_all st h).
Proof.
  induction h as [|s h IH]; intros Hp st I; [exact I|].
  cbn. apply IH.
  - intros x Hx. apply Hp. right. exact Hx.
  - apply plain_inv_step; [exact I|apply Hp; left; reflexivity].
Qed.

(* no None before the root *)
Lemma root_not_before st d c l1 l2 :
  plain_inv st -> mro_of st d = l1 ++ c :: l2 -> ~ In 0 l1.
Proof.
  intros [W C _] E H. apply in_split in H. destruct H as [a [b ->]].
  rewrite <- app_assoc in E. cbn in E.
  pose proof (C _ _ _ _ E) as X.
  destruct (wf_root _ W) as [k [Ek [M _]]].
  unfold mro_of in X. rewrite Ek, M in X. injection X as X.
  destruct b; discriminate X.
Qed.

Lemma first_own_some {A} (g : cls -> option A) st l a :
  first_own g st l = Some a ->
  exists x k, In x l /\ nth_error st x = Some k /\ g k = Some a.
Proof.
  induction l as [|x l IH]; cbn; [discriminate|].
  destruct (nth_error st x) as [k|] eqn:E.
  - destruct (g k) as [b|] eqn:Eg.
    + intros H. injection H as <-. exists x, k. auto.
    + intros H. destruct (IH H) as [y [k' [Hy X]]]. exists y, k'. auto.
  - intros H. destruct (IH H) as [y [k' [Hy X]]]. exists y, k'. auto.
Qed.

(* the value of an attribute that is set below, at, or above class c *)
Lemma settled_stays (g : cls -> option (option nat)) st c f n d p :
  plain_inv st ->
  (forall x k, nth_error st x = Some k -> g k = Some None -> x = 0) ->
  c < List.length st ->
  (forall k, k_mro (f k) = k_mro k) -> (forall k, g (f k) = Some (Some n)) ->
  (forall m, attr g st c = Some (Some m) -> n = m) ->
  attr g st d = Some (Some p) -> attr g (upd st c f) d = Some (Some p).
Proof.
  intros I N Hc Hm Hf Hnc Hd.
  destruct (in_dec Nat.eq_dec c (mro_of st d)) as [Hin|Hin].
  - destruct (in_split_first _ _ Hin) as [l1 [l2 [E Hn]]].
    rewrite (attr_upd_in g st c f (Some n) d l1 l2); auto.
    unfold attr in Hd. rewrite E, first_own_app in Hd.
    destruct (first_own g st l1) as [[q|]|] eqn:E1.
    + exact Hd.
    + exfalso. destruct (first_own_some _ _ _ _ E1) as [x [k [Hx [Ek Eg]]]].
      rewrite (N _ _ Ek Eg) in Hx.
      exact (root_not_before _ _ _ _ _ I E Hx).
    + rewrite <- (pi_chain _ I _ _ _ _ E) in Hd.
      fold (attr g st c) in Hd. rewrite (Hnc _ Hd). reflexivity.
  - rewrite attr_upd_notin; auto.
Qed.

(* In any history of single inheritance, including decorators applied to a
   class long after its children were defined and decorators that are refused,
   a class that implements a process (protocol) implements it for ever. *)
Theorem process_never_changes h s d p :
  (forall x, In x (s :: h) -> plain x) ->
  let st := exec_all table0 h in
  proc_of st d = Some (Some p) ->
  proc_of (fst (exec st s)) d = Some (Some p).
Proof.
  intros Hp st Hd.
  assert (I : plain_inv st).
  { apply plain_inv_all; [|exact plain_inv0].
    intros x Hx. apply Hp. right. exact Hx. }
  assert (R : reachable st) by (exists h; reflexivity).
  clearbody st.
  assert (Hlt : d < List.length st).
  { destruct (Nat.lt_ge_cases d (List.length st)) as [H|H]; [exact H|].
    unfold proc_of, attr, mro_of in Hd. apply nth_error_None in H.
    rewrite H in Hd. discriminate Hd. }
  destruct s as [bases b|c e].
  - destruct (other_classes_untouched st (NewClass bases b) d R Hlt)
      as [_ [_ [X _]]]; [discriminate|].
    rewrite X. exact Hd.
  - cbn [exec]. unfold apply_dec.
    destruct (check_dec e); try exact Hd.
    destruct (c <? List.length st) eqn:Hc; [|exact Hd].
    apply Nat.ltb_lt in Hc.
    destruct (is_pm st c); [|exact Hd].
    unfold proc_of in *.
    destruct e as [p1 q1|l|l].
    + unfold apply_impl.
      destruct (conflict (attr k_proc st c) p1) eqn:E1; [exact Hd|].
      cbv zeta.
      set (st1 := match p1 with CGood n => upd st c (set_proc n) | _ => st end).
      assert (K : attr k_proc st1 d = Some (Some p)).
      { unfold st1. destruct p1; try exact Hd.
        apply (settled_stays k_proc st c (set_proc n) n d p I); auto.
        - intros x k Ek. exact (proj1 (pi_none _ I _ _ Ek)).
        - intros m Hm. rewrite conflict_ok in E1. apply (E1 n m eq_refl Hm). }
      destruct (conflict (attr k_proto st1 c) q1); [exact K|].
      destruct q1; try exact K. cbn [fst].
      rewrite attr_upd_other; [exact K|reflexivity|reflexivity].
    + unfold apply_req. destruct (attr k_req st c); [|exact Hd]. cbn [fst].
      rewrite attr_upd_other; [exact Hd|reflexivity|reflexivity].
    + unfold apply_tag. destruct (attr k_tags st c); cbn [fst];
        (rewrite attr_upd_other; [exact Hd|reflexivity|reflexivity]).
Qed.

Theorem protocol_never_changes h s d p :
  (forall x, In x (s :: h) -> plain x) ->
  let st := exec_all table0 h in
  proto_of st d = Some (Some p) ->
  proto_of (fst (exec st s)) d = Some (Some p).
Proof.
  intros Hp st Hd.
  assert (I : plain_inv st).
  { apply plain_inv_all; [|exact plain_inv0].
    intros x Hx. apply Hp. right. exact Hx. }
  assert (R : reachable st) by (exists h; reflexivity).
  clearbody st.
  assert (Hlt : d < List.length st).
  { destruct (Nat.lt_ge_cases d (List.length st)) as [H|H]; [exact H|].
    unfold proto_of, attr, mro_of in Hd. apply nth_error_None in H.
    rewrite H in Hd. discriminate Hd. }
  destruct s as [bases b|c e].
  - destruct (other_classes_untouched st (NewClass bases b) d R Hlt)
      as [_ [_ [_ X]]]; [discriminate|].
    rewrite X. exact Hd.
  - cbn [exec]. unfold apply_dec.
    destruct (check_dec e); try exact Hd.
    destruct (c <? List.length st) eqn:Hc; [|exact Hd].
    apply Nat.ltb_lt in Hc.
    destruct (is_pm st c); [|exact Hd].
    unfold proto_of in *.
    destruct e as [p1 q1|l|l].
    + unfold apply_impl.
      destruct (conflict (attr k_proc st c) p1) eqn:E1; [exact Hd|].
      cbv zeta.
      set (st1 := match p1 with CGood n => upd st c (set_proc n) | _ => st end).
      assert (I1 : plain_inv st1 /\ List.length st1 = List.length st).
      { unfold st1. destruct p1; try (split; [exact I|reflexivity]).
        split; [|apply upd_length]. destruct I as [W C N]. constructor.
        - apply WF_upd; auto. intros k [H1 [H2 [H3 [H4 H5]]]].
          unfold root_ok; cbn; repeat apply conj; auto; discriminate.
        - intros x y l1 l2. rewrite !mro_upd by reflexivity. apply C.
        - intros x k Hk. rewrite nth_upd in Hk. destruct (x =? c).
          + destruct (nth_error st x) as [k0|] eqn:E; [|discriminate Hk].
            injection Hk as <-. cbn. split; [discriminate|].
            exact (proj2 (N _ _ E)).
          + exact (N _ _ Hk). }
      destruct I1 as [I1 L1].
      assert (K : attr k_proto st1 d = Some (Some p)).
      { unfold st1. destruct p1; try exact Hd.
        rewrite attr_upd_other; [exact Hd|reflexivity|reflexivity]. }
      destruct (conflict (attr k_proto st1 c) q1) eqn:E2; [exact K|].
      destruct q1; try exact K. cbn [fst].
      apply (settled_stays k_proto st1 c (set_proto n) n d p I1); auto.
      * intros x k Ek. exact (proj2 (pi_none _ I1 _ _ Ek)).
      * lia.
      * intros m Hm. rewrite conflict_ok in E2. apply (E2 n m eq_refl Hm).
    + unfold apply_req. destruct (attr k_req st c); [|exact Hd]. cbn [fst].
      rewrite attr_upd_other; [exact Hd|reflexivity|reflexivity].
    + unfold apply_tag. destruct (attr k_tags st c); cbn [fst];
        (rewrite attr_upd_other; [exact Hd|reflexivity|reflexivity]).
Qed.

(* ------------------------------------------------------------------ *)
(* Concrete cases and what fails outside the statement                 *)

Open Scope string_scope.

(* class 1: @implements(proc=7, protocol=3) @requires(5) @tag('a','b');
   class 2(1): @requires([5, 6]) @tag('c');  class 3(2): no decorators *)
Definition ex_module : list decl :=
  [ mkdecl [0] empty_body
      [Tag [TStr "a"; TStr "b"]; Requires [RArg (CGood 5)];
       Implements (CGood 7) (CGood 3)];
    mkdecl [1] empty_body
      [Tag [TStr "c"]; Requires [RList [CGood 5; CGood 6]];
       Implements (CGood 7) CNone];
    mkdecl [2] empty_body [] ].

Theorem decorators_example :
  exists st, run_module table0 ex_module = Some st /\
    (exists l, lineage ex_module 3 l) /\
    tags_of st 3 = Some ["a"; "b"; "c"] /\
    res_of st 3 = Some [One 5; Alt [5; 6]] /\
    proc_of st 3 = Some (Some 7) /\ proto_of st 3 = Some (Some 3) /\
    tags_of st 1 = Some ["a"; "b"] /\
    find_models st 7 = [1; 2; 3].
Proof.
  eexists. split; [vm_compute; reflexivity|].
  split; [|vm_compute; repeat apply conj; reflexivity].
  eexists. eapply lin_child; [reflexivity|reflexivity|reflexivity|].
  eapply lin_child; [reflexivity|reflexivity|reflexivity|].
  eapply lin_child; [reflexivity|reflexivity|reflexivity|].
  constructor.
Qed.

(* a conflicting process is refused, as an exception of the class statement *)
Example conflicting_process_refused :
  run_module table0
    [ mkdecl [0] empty_body [Implements (CGood 7) CNone];
      mkdecl [1] empty_body [Implements (CGood 8) CNone] ] = None.
Proof. reflexivity. Qed.

(* decorator.py 123-125 says that the list of tags is additive over
   inheritance. With two parents it is not: the keywords and resources of the
   second parent are lost, and so is the process. *)
Theorem two_parents_additivity_refuted :
  exists st, run_module table0
    [ mkdecl [0] empty_body [Tag [TStr "a"]; Requires [RArg (CGood 5)]];
      mkdecl [0] empty_body [Tag [TStr "b"]; Requires [RArg (CGood 6)]];
      mkdecl [1; 2] empty_body [Tag [TStr "c"]] ] = Some st /\
    tags_of st 1 = Some ["a"] /\ tags_of st 2 = Some ["b"] /\
    mro_of st 3 = [3; 1; 2; 0] /\
    tags_of st 3 = Some ["a"; "c"] /\ res_of st 3 = Some [One 5].
Proof. eexists. split; [vm_compute; reflexivity|]. vm_compute. auto 10. Qed.

(* With two parents a process can change silently: class 3 inherits process 7
   from its second parent until its first parent is decorated. *)
Theorem two_parents_process_changes_refuted :
  exists h s d, let st := exec_all table0 h in
    proc_of st d = Some (Some 7) /\
    snd (exec st s) = Done /\
    proc_of (fst (exec st s)) d = Some (Some 8).
Proof.
  exists [NewClass [0] empty_body; NewClass [0] empty_body;
          Decorate 2 (Implements (CGood 7) CNone);
          NewClass [1; 2] empty_body],
         (Decorate 1 (Implements (CGood 8) CNone)), 3.
  vm_compute. auto.
Qed.

(* Additivity is a matter of time: a keyword given to a parent after its child
   was tagged does not reach the child. *)
Theorem late_tag_misses_child_refuted :
  exists h, let st := exec_all table0 h in
    mro_of st 2 = [2; 1; 0] /\
    tags_of st 1 = Some ["late"] /\ tags_of st 2 = Some ["c"].
Proof.
  exists [NewClass [0] empty_body; NewClass [1] empty_body;
          Decorate 2 (Tag [TStr "c"]); Decorate 1 (Tag [TStr "late"])].
  vm_compute. auto.
Qed.

(* decorator.py 78-79: "include them in a list or tuple" - a tuple of
   resources raises TypeError. *)
Theorem tuple_of_resources_refuted st c args :
  In (RArg CNotClass) args -> (forall a, In a args -> a = RArg CNotClass \/
     (exists r, a = RArg (CGood r))) ->
  exec st (Decorate c (Requires args)) = (st, TypeErr).
Proof.
  intros Hin Hall. cbn [exec]. unfold apply_dec. cbn [check_dec].
  assert (X : check_reqs args = TypeErr).
  { induction args as [|a args IH]; [destruct Hin|].
    destruct (Hall a (or_introl eq_refl)) as [->|[r ->]]; [reflexivity|].
    cbn. apply IH.
    - destruct Hin as [H|H]; [discriminate H|exact H].
    - intros x Hx. apply Hall. right. exact Hx. }
  rewrite X. reflexivity.
Qed.

(* An alternative is not seen by the run configurations: a model that requires
   "one of 5 or 6" is not a model that requires 5, nor one that requires 6. *)
Theorem alternatives_not_selected_refuted :
  exists st, run_module table0
    [ mkdecl [0] empty_body [Requires [RList [CGood 5; CGood 6]]] ] = Some st /\
    res_of st 1 = Some [Alt [5; 6]] /\
    requires_b st 1 5 = false /\ requires_b st 1 6 = false.
Proof. eexists. split; [vm_compute; reflexivity|]. vm_compute. auto. Qed.

(* @implements with a good process and a conflicting protocol raises, but the
   class has the process afterwards. *)
Theorem refused_implements_half_done_refuted :
  exists h s c, let st := exec_all table0 h in
    snd (exec st s) = AssertionErr /\
    proc_of st c = Some None /\
    proc_of (fst (exec st s)) c = Some (Some 7).
Proof.
  exists [NewClass [0] empty_body;
          Decorate 1 (Implements CNone (CGood 3))],
         (Decorate 1 (Implements (CGood 7) (CGood 4))), 1.
  vm_compute. auto.
Qed.

(* A class body may assign implements_process itself: nothing is checked. *)
Theorem body_bypasses_check_refuted :
  exists st, run_module table0
    [ mkdecl [0] empty_body [Implements (CGood 7) CNone];
      mkdecl [1] (mkbody (Some (Some 8)) None None None) [] ] = Some st /\
    proc_of st 1 = Some (Some 7) /\ proc_of st 2 = Some (Some 8).
Proof. eexists. split; [vm_compute; reflexivity|]. vm_compute. auto. Qed.
