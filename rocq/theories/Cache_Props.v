(** C100: compiling with a cache. *)
From Coq Require Import List Arith ZArith Bool String Lia.
From Verif Require Import VPorts_Model Wire_Model Cache_Model Cache_Spec Cache_Proofs.
Import ListNotations.
Open Scope nat_scope.

(** ** Without a file: the program is compiled as usual, and stored iff its names allow it *)
Lemma portref_eqb_eq : forall a b, portref_eqb a b = true <-> a = b.
Proof.
  intros [i n] [j m]. unfold portref_eqb. cbn [fst snd]. rewrite andb_true_iff, Nat.eqb_eq, String.eqb_eq. split; [intros [-> ->]; reflexivity | intros H; injection H; auto].
Qed.
Lemma init_of_some : forall a l, (exists x, In (a, x) l) <-> init_of a l <> None.
Proof.
  intros a. induction l as [|[b y] l IH]; cbn [init_of]; [split; [intros [x []] | congruence] |].
  destruct (portref_eqb a b) eqn:E.
  - apply portref_eqb_eq in E. subst b. split; [discriminate |]. intros _. exists y. left; reflexivity.
  - rewrite <- IH. split; intros [x H]; exists x; [destruct H as [H|H]; [|exact H] | right; exact H].
    injection H as -> _. assert (Ht : portref_eqb a a = true) by (apply portref_eqb_eq; reflexivity). congruence.
Qed.
Lemma package_some : forall P bs inits,
  (exists e, package P bs inits = Some e) <-> (forall s d a, In (s, d) (conns P) -> a = s \/ a = d -> exists x, In (a, x) inits).
Proof.
  intros P bs inits. unfold package.
  assert (Hb : forallb (fun sd => match init_of (fst sd) inits, init_of (snd sd) inits with Some _, Some _ => true | _, _ => false end) (conns P) = true
    <-> (forall s d a, In (s, d) (conns P) -> a = s \/ a = d -> exists x, In (a, x) inits)).
  { rewrite forallb_forall. split.
    - intros H s d a Hi Ha. specialize (H _ Hi). cbn [fst snd] in H. apply init_of_some.
      destruct (init_of s inits) eqn:E1; [|discriminate]. destruct (init_of d inits) eqn:E2; [|discriminate]. destruct Ha as [-> | ->]; congruence.
    - intros H [s d] Hi. cbn [fst snd]. pose proof (proj1 (init_of_some s inits) (H s d s Hi (or_introl eq_refl))) as H1.
      pose proof (proj1 (init_of_some d inits) (H s d d Hi (or_intror eq_refl))) as H2. destruct (init_of s inits); [|congruence]. destruct (init_of d inits); [reflexivity | congruence]. }
  match goal with |- context [if ?b then _ else _] => destruct b eqn:E end.
  - split; [intros _; apply Hb; reflexivity | eauto].
  - split; [intros [e He]; discriminate |]. intros H. apply Hb in H. congruence.
Qed.
Theorem fresh_compiles : forall P, wf P -> exists e, compile_fresh P = Some e.
Proof.
  intros P HW. apply package_some. intros s d a Hi Ha. destruct (wf_conns P HW s d a Hi Ha) as [p [q [H1 [H2 H3]]]].
  exists (make_port_init q). apply fresh_inits_In. exists p, q. auto.
Qed.
Theorem cache_written : forall P, wf P ->
  (cacheable P -> exists c, compile true true NoFile P = (Stored c, compile_fresh P))
  /\ (~ cacheable P -> forall ok, compile true ok NoFile P = (NoFile, None)).
Proof.
  intros P HW. unfold compile. split.
  - intros HC. apply (make_cache_iff P HW) in HC. destruct HC as [c ->]. eauto.
  - intros HC ok. destruct (make_cache P) as [c|] eqn:E; [|reflexivity]. destruct HC. apply (make_cache_iff P HW). eauto.
Qed.

(** ** The same script again *)
Lemma same_names : forall l l', Forall2 same_process l l' -> map c_name l = map c_name l'.
Proof. induction 1 as [|p p' l l' H _ IH]; [reflexivity |]. cbn [map]. destruct H as [-> _]. rewrite IH. reflexivity. Qed.
Lemma same_inits : forall l l', Forall2 same_process l l' -> forall i,
  flat_map (fun ip => map (fun q => ((fst ip, p_name q), make_port_init q)) (c_ports (snd ip))) (indexed i l)
  = flat_map (fun ip => map (fun q => ((fst ip, p_name q), make_port_init q)) (c_ports (snd ip))) (indexed i l').
Proof.
  induction 1 as [|p p' l l' H _ IH]; intros i; [reflexivity |]. cbn [indexed flat_map fst snd]. destruct H as [_ [_ [_ [_ ->]]]]. rewrite IH. reflexivity.
Qed.
Lemma same_nth : forall l l', Forall2 same_process l l' -> forall i p, nth_error l i = Some p -> exists p', nth_error l' i = Some p' /\ same_process p p'.
Proof.
  induction 1 as [|p p' l l' H _ IH]; intros i q Hi; destruct i; simpl in *; try discriminate; [injection Hi as <-; eauto | apply IH, Hi].
Qed.
Lemma same_builder : forall p p', same_process p p' -> with_params (Some (c_params p')) (with_params None (make_builder p)) = make_builder p'.
Proof. intros p p' [_ [H2 [H3 [H4 H5]]]]. unfold with_params, make_builder. cbn [b_model b_model_id b_vars b_ports b_var_models]. rewrite H2, H3, H4, H5. reflexivity. Qed.
Lemma same_builders : forall P' l l', Forall2 same_process l l' -> forall pre, procs P' = (pre ++ l')%list -> NoDup (names P') ->
  map_opt (fun p => assign_builder P' (c_name p, with_params None (make_builder p))) l
  = Some (map (fun ip => (fst ip, make_builder (snd ip))) (indexed (List.length pre) l')).
Proof.
  intros P'. induction 1 as [|p p' l l' H _ IH]; intros pre HP HN; [reflexivity |].
  cbn [map_opt indexed map fst snd].
  assert (Hi : nth_error (procs P') (List.length pre) = Some p') by (rewrite HP, nth_error_app2, Nat.sub_diag by lia; reflexivity).
  unfold assign_builder at 1. cbn [fst snd]. pose proof H as [Hn _]. rewrite Hn, (find_proc_unique P' _ p' HN Hi), (same_builder p p' H).
  specialize (IH (pre ++ [p'])%list). rewrite app_length, Nat.add_1_r in IH. rewrite IH; [reflexivity | rewrite HP, <- app_assoc; reflexivity | exact HN].
Qed.
Lemma locate_ok : forall P i p q, NoDup (names P) -> nth_error (procs P) i = Some p -> In q (c_ports p) -> locate P (c_name p, p_name q) = Some (i, p_name q).
Proof.
  intros P i p q HN Hi Hq. unfold locate. cbn [fst snd]. rewrite (find_proc_unique P i p HN Hi).
  assert (Hh : has_port p (p_name q) = true) by (apply existsb_exists; exists q; split; [exact Hq | apply String.eqb_refl]). rewrite Hh. reflexivity.
Qed.
Lemma map_opt_ext : forall A B (f g : A -> option B) l, (forall x, In x l -> f x = g x) -> map_opt f l = map_opt g l.
Proof.
  intros A B f g. induction l as [|x l IH]; intros H; [reflexivity |]. cbn [map_opt]. rewrite (H x (or_introl eq_refl)), IH; [reflexivity |]. intros y Hy; apply H; right; exact Hy.
Qed.
(** the executable of a program that is compiled with the cache of an equal program is that of a compilation without cache;
    parameters of processes (proc_params) and connections may have changed, as long as no port has got or lost functions *)
Theorem cache_transparent_partial : forall P P' ok ok' d, wf P -> cacheable P ->
  Forall2 same_process (procs P) (procs P') ->
  d = fst (compile true true NoFile P) ->
  compile true ok d P' = (d, snd (compile false ok' d P')).
Proof.
  intros P P' ok ok' d HW HC HS Hd. destruct (cache_written P HW) as [Hw _]. destruct (Hw HC) as [c Hc]. rewrite Hc in Hd. cbn [fst] in Hd. subst d.
  unfold compile in *. cbn [snd]. f_equal.
  destruct (make_cache P) as [c0|] eqn:E; [|discriminate]. injection Hc as ->.
  destruct (make_cache_shape P c E) as [Hb [Hi [Hk HN]]].
  assert (HN' : NoDup (names P')) by (unfold names in *; rewrite <- (same_names _ _ HS); exact HN).
  unfold compile_cached, compile_fresh. rewrite Hb, map_opt_map, (same_builders P' _ _ HS [] eq_refl HN').
  assert (Hread : map_opt (read_init P') (k_inits c) = Some (fresh_inits P')).
  { rewrite Hi, map_opt_map. replace (fresh_inits P) with (fresh_inits P') by (unfold fresh_inits; symmetry; apply same_inits, HS).
    rewrite (map_opt_total _ _ _ (fun x => x)); [rewrite map_id; reflexivity |].
    intros [a x] Hx. apply fresh_inits_In in Hx. destruct Hx as [p' [q [H1 [H2 [H3 H4]]]]]. destruct a as [i n]. cbn [fst snd] in *.
    assert (Hn : name_at P i = c_name p').
    { assert (nth_error (names P) i = Some (c_name p')) as Hx by (unfold names; rewrite (same_names _ _ HS); apply map_nth_error, H1).
      unfold names in Hx. destruct (nth_error (procs P) i) as [p|] eqn:Ep.
      - rewrite (map_nth_error c_name i _ Ep) in Hx. injection Hx as Hx. rewrite (name_at_In P i p Ep). exact Hx.
      - apply nth_error_None in Ep. assert (nth_error (map c_name (procs P)) i = None) as Hz by (apply nth_error_None; rewrite map_length; exact Ep). congruence. }
    unfold read_init. cbn [fst snd]. subst n. rewrite Hn, (locate_ok P' i p' q HN' H1 H2). reflexivity. }
  rewrite Hread.
  assert (Hconn : forallb (fun sd => match locate P' (fst sd), locate P' (snd sd) with Some _, Some _ => true | _, _ => false end) (k_conns c) = true).
  { rewrite Hk. apply forallb_forall. intros x Hx. apply in_map_iff in Hx. destruct Hx as [[s d] [<- Hx]]. cbn [fst snd].
    assert (Hloc : forall a, a = s \/ a = d -> exists b, locate P' (name_at P (fst a), snd a) = Some b).
    { intros a Ha. destruct (wf_conns P HW s d a Hx Ha) as [p [q [H1 [H2 H3]]]].
      destruct (same_nth _ _ HS _ _ H1) as [p' [H4 [Hn [_ [_ [_ Hp]]]]]]. rewrite (name_at_In P _ p H1), Hn, <- H3. rewrite Hp in H2.
      eexists. apply (locate_ok P' _ p' q HN' H4 H2). }
    destruct (Hloc s (or_introl eq_refl)) as [b1 H1]. destruct (Hloc d (or_intror eq_refl)) as [b2 H2]. rewrite H1, H2. reflexivity. }
  rewrite Hconn. reflexivity.
Qed.

(** ** Another program: what is used of it *)
Section Another.
Context (P P' : program) (c : cache) (e : executable).
Hypothesis (HW : wf P) (HW' : wf P') (Hc : make_cache P = Some c) (He : compile_cached c P' = Some e).

Lemma exe_shape : exists bs inits, e = {| e_builders := bs; e_inits := inits; e_conns := conns P'; e_ids := map c_id (procs P') |}
  /\ map_opt (assign_builder P') (k_builders c) = Some bs /\ map_opt (read_init P') (k_inits c) = Some inits.
Proof using He.
  pose proof He as He0. unfold compile_cached in He0. destruct (map_opt (assign_builder P') (k_builders c)) as [bs|] eqn:E1; [|discriminate].
  destruct (map_opt (read_init P') (k_inits c)) as [inits|] eqn:E2; [|discriminate].
  match type of He0 with (if ?b then _ else _) = _ => destruct b; [|discriminate] end.
  unfold package in He0. match type of He0 with (if ?b then _ else _) = _ => destruct b; [|discriminate] end. injection He0 as <-. eauto.
Qed.
Lemma exe_conns : e_conns e = conns P'. Proof using He. destruct exe_shape as [bs [inits [H _]]]; rewrite H; reflexivity. Qed.
Lemma exe_ids : e_ids e = map c_id (procs P'). Proof using He. destruct exe_shape as [bs [inits [H _]]]; rewrite H; reflexivity. Qed.
Lemma exe_builder : forall i b, builder_of i (e_builders e) = Some b -> cached_from P P' i b.
Proof using Hc He.
  intros i b H. destruct exe_shape as [bs [inits [Hx [H1 _]]]]. rewrite Hx in H. destruct (cached_builders P P' c bs Hc H1) as [H2 _]. apply H2, builder_of_In, H.
Qed.
Lemma exe_builder_ex : forall p, In p (procs P) -> exists i p', find_proc P' (c_name p) = Some (i, p') /\ builder_of i (e_builders e) = Some (with_params (Some (c_params p')) (make_builder p)).
Proof using Hc He.
  intros p Hp. destruct exe_shape as [bs [inits [Hx [H1 _]]]]. rewrite Hx. destruct (cached_builders P P' c bs Hc H1) as [_ [H2 H3]].
  destruct (H3 p Hp) as [i [p' [H4 H5]]]. exists i, p'. split; [exact H4 | apply builder_of_unique; assumption].
Qed.
Lemma exe_var_models : var_models e = rev (flat_map (fun p => map (fun v => (v_id v, {| vm_proc_id := c_id p; vm_shape := v_shape v |})) (c_vars p)) (procs P)).
Proof using Hc He.
  destruct exe_shape as [bs [inits [Hx [H1 _]]]]. rewrite Hx. clear Hx. unfold var_models. cbn [e_builders]. f_equal.
  destruct (make_cache_shape P c Hc) as [Hk _]. rewrite Hk, map_opt_map in H1. clear Hk. revert bs H1. induction (procs P) as [|p l IH]; intros bs H; cbn [map_opt] in H.
  - injection H as <-. reflexivity.
  - unfold assign_builder in H at 1. cbn [fst snd] in H. destruct (find_proc P' (c_name p)) as [[i p']|]; [|discriminate].
    match type of H with context [map_opt ?f l] => destruct (map_opt f l) as [t|] eqn:Et; [|discriminate] end. injection H as <-.
    cbn [flat_map snd]. rewrite (IH t eq_refl). reflexivity.
Qed.

Lemma started_model : forall ms, start e = Some ms -> forall i, nth_error ms i = if i <? List.length (procs P') then build_model e i else None.
Proof using He.
  intros ms Hs i. unfold start in Hs. rewrite (map_opt_nth _ _ _ _ _ Hs). rewrite exe_ids, map_length.
  destruct (i <? List.length (procs P')) eqn:E.
  - apply Nat.ltb_lt in E. rewrite (nth_error_nth' _ 0) by (rewrite seq_length; exact E). rewrite seq_nth by exact E. reflexivity.
  - apply Nat.ltb_ge in E. assert (nth_error (seq 0 (List.length (procs P'))) i = None) as -> by (apply nth_error_None; rewrite seq_length; exact E). reflexivity.
Qed.
Lemma started_all : forall ms, start e = Some ms -> forall i p', nth_error (procs P') i = Some p' -> exists m, build_model e i = Some m /\ nth_error ms i = Some m.
Proof using He.
  intros ms Hs i p' Hi. assert (Hl : i < List.length (procs P')) by (apply nth_error_Some; rewrite Hi; discriminate).
  unfold start in Hs. destruct (map_opt_all _ _ _ _ _ Hs i) as [m [H1 _]]; [apply in_seq; rewrite exe_ids, map_length; lia |].
  exists m. split; [exact H1 |]. rewrite (started_model ms Hs). apply Nat.ltb_lt in Hl. rewrite Hl. exact H1.
Qed.
End Another.

(** a started program has exactly the processes of the cached one, by name; names are distinct *)
Theorem cached_start_names : forall P P' c e ms, make_cache P = Some c -> compile_cached c P' = Some e -> start e = Some ms ->
  NoDup (names P') /\ forall n, In n (names P') <-> In n (names P).
Proof.
  intros P P' c e ms Hc He Hs.
  assert (Hall : forall i p', nth_error (procs P') i = Some p' -> exists p, In p (procs P) /\ c_name p' = c_name p /\ find_proc P' (c_name p') = Some (i, p')).
  { intros i p' Hi. destruct (started_all P' c e He ms Hs i p' Hi) as [m [Hm _]]. unfold build_model in Hm.
    destruct (builder_of i (e_builders e)) as [b|] eqn:Eb; [|discriminate]. destruct (exe_builder P P' c e Hc He i b Eb) as [p [p2 [H1 [H2 [H3 [H4 _]]]]]].
    rewrite Hi in H2. injection H2 as <-. exists p. rewrite H4. auto. }
  split.
  - apply NoDup_nth_error. intros i j Hi Hij. unfold names in *. rewrite map_length in Hi.
    destruct (nth_error (procs P') i) as [pi|] eqn:Ei; [|apply nth_error_None in Ei; lia]. rewrite (map_nth_error c_name i _ Ei) in Hij.
    destruct (nth_error (procs P') j) as [pj|] eqn:Ej.
    + rewrite (map_nth_error c_name j _ Ej) in Hij. injection Hij as Hij. destruct (Hall i pi Ei) as [_ [_ [_ H1]]]. destruct (Hall j pj Ej) as [_ [_ [_ H2]]]. congruence.
    + apply nth_error_None in Ej. assert (nth_error (map c_name (procs P')) j = None) as Hz by (apply nth_error_None; rewrite map_length; exact Ej). congruence.
  - intros n. unfold names. rewrite !in_map_iff. split.
    + intros [p' [<- Hp]]. apply In_nth_error in Hp. destruct Hp as [i Hi]. destruct (Hall i p' Hi) as [p [H1 [H2 _]]]. exists p. auto.
    + intros [p [<- Hp]]. destruct (exe_builder_ex P P' c e Hc He p Hp) as [i [p' [H1 _]]]. apply find_proc_sound in H1. exists p'. split; [apply H1 | apply nth_error_In with i, H1].
Qed.

(** ** What Var.get() answers *)
Lemma zget_In : forall A k (l : list (Z * A)) x, NoDup (map fst l) -> In (k, x) l -> zget k l = Some x.
Proof.
  intros A k. induction l as [|[j y] l IH]; intros x HN H; [contradiction |]. cbn [zget]. inversion HN as [|? ? Hj HN']; subst. destruct H as [H|H].
  - injection H as -> ->. rewrite Z.eqb_refl. reflexivity.
  - destruct (Z.eqb k j) eqn:E; [|apply IH; assumption]. apply Z.eqb_eq in E. subst j. destruct Hj. change k with (fst (k, x)). apply in_map, H.
Qed.
Lemma zget_none : forall A k (l : list (Z * A)), ~ In k (map fst l) -> zget k l = None.
Proof.
  intros A k. induction l as [|[j y] l IH]; intros H; [reflexivity |]. cbn [zget]. destruct (Z.eqb k j) eqn:E.
  - apply Z.eqb_eq in E. subst j. destruct H. left; reflexivity.
  - apply IH. intros Hi. apply H. right; exact Hi.
Qed.
Lemma sget_In : forall A k (l : list (string * A)) x, NoDup (map fst l) -> In (k, x) l -> sget k l = Some x.
Proof.
  intros A k. induction l as [|[j y] l IH]; intros x HN H; [contradiction |]. cbn [sget]. inversion HN as [|? ? Hj HN']; subst. destruct H as [H|H].
  - injection H as -> ->. rewrite String.eqb_refl. reflexivity.
  - destruct (String.eqb k j) eqn:E; [|apply IH; assumption]. apply String.eqb_eq in E. subst j. destruct Hj. change k with (fst (k, x)). apply in_map, H.
Qed.
Lemma position_none : forall k l i, position i k l = None -> ~ In k l.
Proof.
  intros k. induction l as [|x l IH]; intros i H; [auto |]. cbn [position] in H. destruct (Z.eqb k x) eqn:E; [discriminate |].
  intros [<- |Hi]; [rewrite Z.eqb_refl in E; discriminate | apply (IH (S i) H Hi)].
Qed.
Lemma position_some : forall k l i j, position i k l = Some j -> i <= j /\ nth_error l (j - i) = Some k.
Proof.
  intros k. induction l as [|x l IH]; intros i j H; [discriminate |]. cbn [position] in H. destruct (Z.eqb k x) eqn:E.
  - injection H as <-. apply Z.eqb_eq in E. subst x. rewrite Nat.sub_diag. split; [lia | reflexivity].
  - apply IH in H. destruct H as [H1 H2]. split; [lia |]. replace (j - i) with (S (j - S i)) by lia. exact H2.
Qed.
Lemma NoDup_rev_keys : forall A B (l : list (A * B)), NoDup (map fst l) -> NoDup (map fst (rev l)).
Proof. intros A B l H. rewrite map_rev. apply NoDup_rev, H. Qed.
Lemma NoDup_app_l : forall A (l m : list A), NoDup (l ++ m)%list -> NoDup l.
Proof. induction l as [|x l IH]; intros m H; [constructor |]. inversion H as [|? ? H1 H2]; subst. constructor; [intros Hi; apply H1, in_or_app; auto | apply (IH m H2)]. Qed.
Lemma NoDup_app_r : forall A (l m : list A), NoDup (l ++ m)%list -> NoDup m.
Proof. induction l as [|x l IH]; intros m H; [exact H |]. inversion H as [|? ? H1 H2]; subst. apply (IH m H2). Qed.
Lemma NoDup_app_disj : forall A (l m : list A), NoDup (l ++ m)%list -> forall x, In x l -> ~ In x m.
Proof.
  induction l as [|y l IH]; intros m H x Hx; [contradiction |]. inversion H as [|? ? H1 H2]; subst.
  destruct Hx as [<- |Hx]; [intros Hm; apply H1, in_or_app; auto | apply IH; assumption].
Qed.
Lemma var_owner : forall ps, NoDup (map v_id (flat_map c_vars ps)) -> forall p q v w, In p ps -> In q ps -> In v (c_vars p) -> In w (c_vars q) -> v_id v = v_id w -> p = q.
Proof.
  induction ps as [|r ps IH]; intros HN p q v w Hp Hq Hv Hw Hid; [contradiction |]. cbn [flat_map] in HN. rewrite map_app in HN.
  pose proof (NoDup_app_disj _ _ _ HN) as Hd.
  assert (Hin : forall q w, In q ps -> In w (c_vars q) -> In (v_id w) (map v_id (flat_map c_vars ps))) by (intros; apply in_map, in_flat_map; eauto).
  destruct Hp as [<- |Hp], Hq as [<- |Hq].
  - reflexivity.
  - destruct (Hd (v_id v)); [apply in_map, Hv | rewrite Hid; eapply Hin; eauto].
  - destruct (Hd (v_id w)); [apply in_map, Hw | rewrite <- Hid; eapply Hin; eauto].
  - apply (IH (NoDup_app_r _ _ _ HN) p q v w); assumption.
Qed.
Lemma vars_of_proc : forall ps p, NoDup (map v_id (flat_map c_vars ps)) -> In p ps -> NoDup (map v_id (c_vars p)).
Proof.
  induction ps as [|r ps IH]; intros p HN Hp; [contradiction |]. cbn [flat_map] in HN. rewrite map_app in HN.
  destruct Hp as [<- |Hp]; [apply (NoDup_app_l _ _ _ HN) | apply IH; [apply (NoDup_app_r _ _ _ HN) | exact Hp]].
Qed.
Definition all_models (P : program) : list (Z * var_model) :=
  flat_map (fun p => map (fun v => (v_id v, {| vm_proc_id := c_id p; vm_shape := v_shape v |})) (c_vars p)) (procs P).
Lemma all_models_keys : forall P, map fst (all_models P) = map v_id (flat_map c_vars (procs P)).
Proof.
  intros P. unfold all_models. induction (procs P) as [|p l IH]; [reflexivity |]. cbn [flat_map]. rewrite !map_app, IH. f_equal. rewrite map_map. reflexivity.
Qed.
Lemma all_models_get : forall P, wf P -> forall p v, In p (procs P) -> In v (c_vars p) ->
  zget (v_id v) (rev (all_models P)) = Some {| vm_proc_id := c_id p; vm_shape := v_shape v |}.
Proof.
  intros P HW p v Hp Hv. apply zget_In; [apply NoDup_rev_keys; rewrite all_models_keys; apply (wf_vars P HW) |].
  apply in_rev. rewrite rev_involutive. apply in_flat_map. exists p. split; [exact Hp |]. apply in_map_iff. exists v. auto.
Qed.
Lemma all_models_none : forall P id, ~ has_var P id -> zget id (rev (all_models P)) = None.
Proof.
  intros P id H. apply zget_none. rewrite map_rev, <- in_rev, all_models_keys. intros Hi. apply H. apply in_map_iff in Hi. destruct Hi as [v [H1 H2]].
  apply in_flat_map in H2. destruct H2 as [p [H2 H3]]. exists p, v. auto.
Qed.
(** a process model that was built from the variables of p *)
Definition built_from (p : cproc) (m : model) : Prop :=
  m_attrs m = rev (map (fun v => (v_name v, v_init v)) (c_vars p)) /\ m_ids m = rev (map (fun v => (v_id v, v_name v)) (c_vars p)).
Lemma built_get : forall P p m v, wf P -> In p (procs P) -> built_from p m -> In v (c_vars p) ->
  zget (v_id v) (m_ids m) = Some (v_name v) /\ sget (v_name v) (m_attrs m) = Some (v_init v).
Proof.
  intros P p m v HW Hp [Ha Hi] Hv. rewrite Ha, Hi. split.
  - apply zget_In; [apply NoDup_rev_keys; rewrite map_map; apply (vars_of_proc (procs P) p (wf_vars P HW) Hp) |].
    apply in_rev. rewrite rev_involutive. apply in_map_iff. exists v. auto.
  - apply sget_In; [apply NoDup_rev_keys; rewrite map_map; apply (wf_vnames P HW p Hp) |].
    apply in_rev. rewrite rev_involutive. apply in_map_iff. exists v. auto.
Qed.
Lemma built_none : forall p m id, built_from p m -> (forall v, In v (c_vars p) -> v_id v <> id) -> zget id (m_ids m) = None.
Proof.
  intros p m id [_ Hi] H. apply zget_none. rewrite Hi, map_rev, <- in_rev, map_map. cbn [fst]. intros Hin. apply in_map_iff in Hin. destruct Hin as [v [H1 H2]]. apply (H v H2 H1).
Qed.
Lemma build_model_from : forall e i b p x m, builder_of i (e_builders e) = Some b -> b = with_params x (make_builder p) -> build_model e i = Some m ->
  built_from p m /\ m_class m = c_model p /\ m_id m = c_id p /\ m_params m = x.
Proof.
  intros e i b p x m Hb -> Hm. unfold build_model in Hm. rewrite Hb in Hm. destruct (map_opt _ _) as [ts|]; [|discriminate]. injection Hm as <-.
  cbn [m_class m_id m_params b_model b_model_id b_params with_params make_builder]. split; [|auto].
  unfold built_from. cbn [m_attrs m_ids with_params make_builder b_vars]. rewrite !map_map. auto.
Qed.

(** without a cache every Var has its own initial value *)
Theorem fresh_reads : forall P e ms, wf P -> compile_fresh P = Some e -> start e = Some ms -> reads_right P e ms.
Proof.
  intros P e ms HW He Hs p v Hp Hv. unfold compile_fresh, package in He.
  match type of He with (if ?b then _ else _) = _ => destruct b; [|discriminate] end. injection He as <-.
  set (e := {| e_builders := fresh_builders P; e_inits := fresh_inits P; e_conns := conns P; e_ids := map c_id (procs P) |}) in *.
  assert (Hvm : var_models e = rev (all_models P)).
  { unfold var_models, all_models, e. cbn [e_builders]. f_equal. unfold fresh_builders. clear. generalize 0. induction (procs P) as [|q l IH]; intros k; [reflexivity |].
    cbn [indexed map flat_map snd fst]. rewrite (IH (S k)). reflexivity. }
  unfold get. rewrite Hvm, (all_models_get P HW p v Hp Hv). cbn [vm_proc_id vm_shape].
  destruct (position 0 (c_id p) (e_ids e)) as [i|] eqn:Ep.
  2: { apply position_none in Ep. destruct Ep. unfold e. cbn [e_ids]. apply in_map, Hp. }
  apply position_some in Ep. rewrite Nat.sub_0_r in Ep. destruct Ep as [_ Ep]. unfold e in Ep. cbn [e_ids] in Ep.
  apply In_nth_error in Hp. destruct Hp as [j Hj].
  assert (i = j).
  { destruct (nth_error (procs P) i) as [pi|] eqn:Ei.
    - rewrite (map_nth_error c_id i _ Ei) in Ep. injection Ep as Ep. apply (NoDup_nth_inj _ _ c_id (procs P) i j pi p (wf_ids P HW) Ei Hj Ep).
    - apply nth_error_None in Ei. assert (nth_error (map c_id (procs P)) i = None) as Hz by (apply nth_error_None; rewrite map_length; exact Ei). congruence. }
  subst j. assert (Hl : i < List.length (procs P)) by (apply nth_error_Some; rewrite Hj; discriminate).
  assert (Hb : builder_of i (e_builders e) = Some (make_builder p)).
  { apply builder_of_unique.
    - unfold e. cbn [e_builders]. unfold fresh_builders. rewrite map_map. cbn [fst].
      assert (Hseq : forall l k, map (fun x : nat * cproc => fst x) (indexed k l) = seq k (List.length l)) by (induction l as [|? l IH]; intros k; [reflexivity | cbn; rewrite IH; reflexivity]).
      rewrite Hseq. apply seq_NoDup.
    - unfold e. cbn [e_builders]. apply in_map_iff. exists (i, p). split; [reflexivity |]. apply indexed_In. rewrite Nat.sub_0_r. split; [lia | exact Hj]. }
  destruct (map_opt_all _ _ _ _ _ Hs i) as [m [Hm _]]; [apply in_seq; unfold e; cbn [e_ids]; rewrite map_length; lia |].
  assert (Hn : nth_error ms i = Some m).
  { unfold start in Hs. rewrite (map_opt_nth _ _ _ _ _ Hs). unfold e at 1. cbn [e_ids]. rewrite map_length.
    rewrite (nth_error_nth' _ 0) by (rewrite seq_length; exact Hl). rewrite seq_nth by exact Hl. exact Hm. }
  rewrite Hn. destruct (build_model_from e i _ p (Some (c_params p)) m Hb eq_refl Hm) as [Hf _].
  destruct (built_get P p m v HW (nth_error_In _ _ Hj) Hf Hv) as [H1 H2]. rewrite H1, H2. reflexivity.
Qed.
(** with a cache: the answer is the value, in the cached program, of the variable with the same id, if its process has kept its
    id, whatever Var of the program at hand has been asked *)
Theorem cached_reads : forall P P' c e ms, wf P -> wf P' -> make_cache P = Some c -> compile_cached c P' = Some e -> start e = Some ms ->
  (forall id, ~ has_var P id -> get e ms id = GAssert)
  /\ (forall p v, In p (procs P) -> In v (c_vars p) ->
       (forall p', In p' (procs P') -> c_name p' = c_name p -> c_id p' = c_id p -> get e ms (v_id v) = GVal (v_shape v) (v_init v))
       /\ ((forall p', In p' (procs P') -> c_name p' = c_name p -> c_id p' <> c_id p) -> get e ms (v_id v) = GHang)).
Proof.
  intros P P' c e ms HW HW' Hc He Hs.
  pose proof (exe_var_models P P' c e Hc He) as Hvm. fold (all_models P) in Hvm.
  destruct (make_cache_shape P c Hc) as [_ [_ [_ HN]]].
  split.
  - intros id Hid. unfold get. rewrite Hvm, (all_models_none P id Hid). reflexivity.
  - intros p v Hp Hv. unfold get. rewrite Hvm, (all_models_get P HW p v Hp Hv). cbn [vm_proc_id vm_shape]. rewrite (exe_ids P' c e He).
    assert (Hfrom : forall i p', nth_error (procs P') i = Some p' -> exists m p0, nth_error ms i = Some m /\ In p0 (procs P) /\ c_name p' = c_name p0 /\ built_from p0 m).
    { intros i p' Hi. destruct (started_all P' c e He ms Hs i p' Hi) as [m [Hm Hn]].
      destruct (builder_of i (e_builders e)) as [b|] eqn:Eb; [|unfold build_model in Hm; rewrite Eb in Hm; discriminate].
      destruct (exe_builder P P' c e Hc He i b Eb) as [p0 [p2 [H1 [H2 [_ [H4 H5]]]]]]. rewrite Hi in H2. injection H2 as <-.
      exists m, p0. destruct (build_model_from e i b p0 _ m Eb H5 Hm) as [Hf _]. auto. }
    destruct (position 0 (c_id p) (map c_id (procs P'))) as [i|] eqn:Ep.
    + apply position_some in Ep. rewrite Nat.sub_0_r in Ep. destruct Ep as [_ Ep].
      destruct (nth_error (procs P') i) as [pi|] eqn:Ei.
      2: { apply nth_error_None in Ei. assert (nth_error (map c_id (procs P')) i = None) as Hz by (apply nth_error_None; rewrite map_length; exact Ei). congruence. }
      rewrite (map_nth_error c_id i _ Ei) in Ep. injection Ep as Ep.
      destruct (Hfrom i pi Ei) as [m [p0 [Hm [Hp0 [Hn0 Hf]]]]]. rewrite Hm. split.
      * intros p' Hp' Hn Hid. apply In_nth_error in Hp'. destruct Hp' as [j Hj].
        assert (i = j) by (apply (NoDup_nth_inj _ _ c_id (procs P') i j pi p' (wf_ids P' HW') Ei Hj); congruence). subst j.
        assert (p0 = p).
        { rewrite Ei in Hj. injection Hj as ->. apply In_nth_error in Hp0. destruct Hp0 as [a Ha]. apply In_nth_error in Hp. destruct Hp as [b Hb].
          assert (a = b) by (apply (NoDup_nth_inj _ _ c_name (procs P) a b p0 p HN Ha Hb); congruence). subst b. congruence. }
        subst p0. destruct (built_get P p m v HW Hp Hf Hv) as [H1 H2]. rewrite H1, H2. reflexivity.
      * intros Hno. rewrite (built_none p0 m (v_id v) Hf); [reflexivity |]. intros w Hw Hid.
        assert (p0 = p) by (apply (var_owner (procs P) (wf_vars P HW) p0 p w v); assumption). subst p0.
        apply (Hno pi (nth_error_In _ _ Ei) Hn0 Ep).
    + apply position_none in Ep. split; [|reflexivity]. intros p' Hp' _ Hid. destruct Ep. rewrite <- Hid. apply in_map, Hp'.
Qed.
(** of the processes at hand, only the parameters are used *)
Theorem cached_models : forall P P' c e ms i p', make_cache P = Some c -> compile_cached c P' = Some e -> start e = Some ms -> nth_error (procs P') i = Some p' ->
  exists p m, In p (procs P) /\ c_name p = c_name p' /\ nth_error ms i = Some m /\ m_class m = c_model p /\ m_id m = c_id p /\ m_params m = Some (c_params p')
              /\ m_attrs m = rev (map (fun v => (v_name v, v_init v)) (c_vars p)).
Proof.
  intros P P' c e ms i p' Hc He Hs Hi. destruct (started_all P' c e He ms Hs i p' Hi) as [m [Hm Hn]].
  destruct (builder_of i (e_builders e)) as [b|] eqn:Eb; [|unfold build_model in Hm; rewrite Eb in Hm; discriminate].
  destruct (exe_builder P P' c e Hc He i b Eb) as [p0 [p2 [H1 [H2 [_ [H4 H5]]]]]]. rewrite Hi in H2. injection H2 as <-.
  destruct (build_model_from e i b p0 _ m Eb H5 Hm) as [[Hf _] [H6 [H7 H8]]]. exists p0, m. auto 9.
Qed.
