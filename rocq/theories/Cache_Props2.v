(** C100: when a cached program compiles and starts; ports with virtual ports; histories of compilations; cases in which the
    cache gives wrong results. *)
From Coq Require Import List Arith ZArith Bool String Lia.
From Verif Require Import VPorts_Model Wire_Model Cache_Model Cache_Spec Cache_Proofs Cache_Props.
Import ListNotations.
Open Scope nat_scope.

(** ** Exactly which programs compile with the cache of P *)
Lemma has_port_iff : forall p n, has_port p n = true <-> exists q, In q (c_ports p) /\ p_name q = n.
Proof.
  intros p n. unfold has_port. rewrite existsb_exists. split; intros [q [H1 H2]]; exists q; (split; [exact H1 |]); apply String.eqb_eq; exact H2.
Qed.
Lemma locate_some : forall P n m a, locate P (n, m) = Some a <-> exists i p q, find_proc P n = Some (i, p) /\ In q (c_ports p) /\ p_name q = m /\ a = (i, m).
Proof.
  intros P n m a. unfold locate. cbn [fst snd]. destruct (find_proc P n) as [[i p]|].
  - destruct (has_port p m) eqn:E.
    + apply has_port_iff in E. destruct E as [q [H1 H2]]. split.
      * intros H. injection H as <-. exists i, p, q. auto.
      * intros [i' [p' [q' [H3 [_ [_ ->]]]]]]. injection H3 as <- <-. reflexivity.
    + split; [discriminate |]. intros [i' [p' [q' [H3 [H4 [H5 _]]]]]]. injection H3 as <- <-.
      assert (has_port p m = true) by (apply has_port_iff; eauto). congruence.
  - split; [discriminate |]. intros [i [p [q [H _]]]]. discriminate.
Qed.
Definition has_process_like (P' : program) (p : cproc) : Prop :=
  exists p', In p' (procs P') /\ c_name p' = c_name p /\ (forall q, In q (c_ports p) -> exists q', In q' (c_ports p') /\ p_name q' = p_name q).
Definition knows_port (P : program) (n m : string) : Prop := exists p q, In p (procs P) /\ c_name p = n /\ In q (c_ports p) /\ p_name q = m.
Theorem cached_compiles_iff : forall P P' c, wf P -> wf P' -> NoDup (names P') -> make_cache P = Some c ->
  (exists e, compile_cached c P' = Some e)
  <-> ((forall p, In p (procs P) -> has_process_like P' p)
       /\ (forall s d a p', In (s, d) (conns P') -> a = s \/ a = d -> nth_error (procs P') (fst a) = Some p' -> knows_port P (c_name p') (snd a))).
Proof.
  intros P P' c HW HW' HN' Hc. destruct (make_cache_shape P c Hc) as [Hb [Hi [Hk HN]]]. split.
  - intros [e He]. destruct (exe_shape P' c e He) as [bs [inits [Hx [H1 H2]]]]. split.
    + intros p Hp. destruct (exe_builder_ex P P' c e Hc He p Hp) as [i [p' [H3 _]]]. pose proof (find_proc_sound _ _ _ _ H3) as [H4 H5].
      exists p'. split; [apply nth_error_In with i, H4 |]. split; [exact H5 |]. intros q Hq.
      apply In_nth_error in Hp. destruct Hp as [j Hj].
      assert (Hin : In ((c_name p, p_name q), make_port_init q) (k_inits c)).
      { rewrite Hi. apply in_map_iff. exists ((j, p_name q), make_port_init q). cbn [fst snd]. rewrite (name_at_In P j p Hj). split; [reflexivity |].
        apply fresh_inits_In. exists p, q. auto. }
      destruct (map_opt_all _ _ _ _ _ H2 _ Hin) as [y [Hy _]]. unfold read_init in Hy. cbn [fst snd] in Hy.
      destruct (locate P' (c_name p, p_name q)) as [a|] eqn:El; [|discriminate]. apply locate_some in El. destruct El as [i' [p2 [q' [H6 [H7 [H8 _]]]]]].
      rewrite H3 in H6. injection H6 as <- <-. eauto.
    + intros s d a p' Hsd Ha Hp'.
      assert (Hpk : exists e0, package P' bs inits = Some e0).
      { pose proof He as He0. unfold compile_cached in He0. rewrite H1, H2 in He0. match type of He0 with (if ?b then _ else _) = _ => destruct b; [|discriminate] end. eauto. }
      destruct (proj1 (package_some P' bs inits) Hpk s d a Hsd Ha) as [x Hin].
      destruct (map_opt_In _ _ _ _ _ H2 _ Hin) as [[[n m] y] [H3 H4]]. unfold read_init in H4. cbn [fst snd] in H4.
      destruct (locate P' (n, m)) as [b|] eqn:El; [|discriminate]. injection H4 as -> ->. apply locate_some in El. destruct El as [i [p2 [q2 [H5 [_ [_ ->]]]]]].
      apply find_proc_sound in H5. destruct H5 as [H5 H6]. cbn [fst snd] in *. rewrite Hp' in H5. injection H5 as <-.
      rewrite Hi in H3. apply in_map_iff in H3. destruct H3 as [[[j k] z] [H3 H7]]. cbn [fst snd] in H3. injection H3 as H3 -> ->.
      apply fresh_inits_In in H7. destruct H7 as [p [q [H7 [H8 [H9 _]]]]]. cbn [fst snd] in *. exists p, q.
      rewrite (name_at_In P j p H7) in H3. split; [apply nth_error_In with j, H7 |]. split; [congruence |]. auto.
  - intros [Hall Hconn]. unfold compile_cached.
    assert (Hfind : forall p, In p (procs P) -> exists i p', find_proc P' (c_name p) = Some (i, p') /\ (forall q, In q (c_ports p) -> exists q', In q' (c_ports p') /\ p_name q' = p_name q)).
    { intros p Hp. destruct (Hall p Hp) as [p' [H1 [H2 H3]]]. apply In_nth_error in H1. destruct H1 as [i H1]. exists i, p'. rewrite <- H2. split; [apply find_proc_unique; assumption | exact H3]. }
    assert (Hloc : forall p q, In p (procs P) -> In q (c_ports p) -> exists a, locate P' (c_name p, p_name q) = Some a).
    { intros p q Hp Hq. destruct (Hfind p Hp) as [i [p' [H1 H2]]]. destruct (H2 q Hq) as [q' [H3 H4]]. exists (i, p_name q). apply locate_some. exists i, p', q'. auto. }
    destruct (map_opt_some _ _ (assign_builder P') (k_builders c)) as [bs ->].
    { intros x Hx. rewrite Hb in Hx. apply in_map_iff in Hx. destruct Hx as [p [<- Hp]]. destruct (Hfind p Hp) as [i [p' [H1 _]]].
      unfold assign_builder. cbn [fst snd]. rewrite H1. eauto. }
    destruct (map_opt_some _ _ (read_init P') (k_inits c)) as [inits Hinits].
    { intros x Hx. rewrite Hi in Hx. apply in_map_iff in Hx. destruct Hx as [[[i n] y] [<- Hy]]. apply fresh_inits_In in Hy. destruct Hy as [p [q [H1 [H2 [H3 _]]]]].
      cbn [fst snd] in *. unfold read_init. cbn [fst snd]. rewrite (name_at_In P i p H1), H3. destruct (Hloc p q (nth_error_In _ _ H1) H2) as [a ->]. eauto. }
    rewrite Hinits.
    assert (Hok : forallb (fun sd => match locate P' (fst sd), locate P' (snd sd) with Some _, Some _ => true | _, _ => false end) (k_conns c) = true).
    { rewrite Hk. apply forallb_forall. intros x Hx. apply in_map_iff in Hx. destruct Hx as [[s d] [<- Hx]]. cbn [fst snd].
      assert (Hl : forall a, a = s \/ a = d -> exists b, locate P' (name_at P (fst a), snd a) = Some b).
      { intros a Ha. destruct (wf_conns P HW s d a Hx Ha) as [p [q [H1 [H2 H3]]]]. rewrite (name_at_In P _ p H1), <- H3. apply Hloc; [apply nth_error_In with (fst a), H1 | exact H2]. }
      destruct (Hl s (or_introl eq_refl)) as [b1 ->]. destruct (Hl d (or_intror eq_refl)) as [b2 ->]. reflexivity. }
    rewrite Hok. apply package_some. intros s d a Hsd Ha. destruct (wf_conns P' HW' s d a Hsd Ha) as [p' [q' [H1 _]]].
    destruct (Hconn s d a p' Hsd Ha H1) as [p [q [H2 [H3 [H4 H5]]]]]. apply In_nth_error in H2. destruct H2 as [j Hj].
    assert (Hin : In ((c_name p, p_name q), make_port_init q) (k_inits c)).
    { rewrite Hi. apply in_map_iff. exists ((j, p_name q), make_port_init q). cbn [fst snd]. rewrite (name_at_In P j p Hj). split; [reflexivity |].
      apply fresh_inits_In. exists p, q. auto. }
    destruct (map_opt_all _ _ _ _ _ Hinits _ Hin) as [y [Hy1 Hy2]]. unfold read_init in Hy1. cbn [fst snd] in Hy1.
    destruct (locate P' (c_name p, p_name q)) as [b|] eqn:El; [|discriminate]. injection Hy1 as <-.
    apply locate_some in El. destruct El as [i [p2 [q2 [H6 [_ [_ ->]]]]]]. rewrite H3, (find_proc_unique P' _ p' HN' H1) in H6. injection H6 as <- <-.
    exists (make_port_init q). destruct a as [ia na]. cbn [fst snd] in *. rewrite <- H5. exact Hy2.
Qed.

(** ** Ports: the channels of the program at hand, the functions of the cached one *)
Theorem cached_ports : forall P P' c e ms i p' n t, make_cache P = Some c -> compile_cached c P' = Some e -> start e = Some ms ->
  nth_error (procs P') i = Some p' -> (exists m, nth_error ms i = Some m /\ In (n, t) (m_ports m)) ->
  exists p q, In p (procs P) /\ c_name p = c_name p' /\ In q (c_ports p) /\ p_name q = n
              /\ make_transformer (csp_map (map c_id (procs P')) 0 i n (conns P') []) (p_funcs q) = Some t.
Proof.
  intros P P' c e ms i p' n t Hc He Hs Hi [m [Hm Ht]]. destruct (started_all P' c e He ms Hs i p' Hi) as [m' [Hb Hm']]. rewrite Hm in Hm'. injection Hm' as <-.
  unfold build_model in Hb. destruct (builder_of i (e_builders e)) as [b|] eqn:Eb; [|discriminate].
  destruct (exe_builder P P' c e Hc He i b Eb) as [p [p2 [H1 [H2 [_ [H4 ->]]]]]]. rewrite Hi in H2. injection H2 as <-.
  match type of Hb with context [map_opt ?f ?l] => destruct (map_opt f l) as [ts|] eqn:Et; [|discriminate] end. injection Hb as <-. cbn [m_ports] in Ht.
  destruct (map_opt_In _ _ _ _ _ Et _ Ht) as [x [Hx1 Hx2]]. cbn [b_ports with_params make_builder] in Hx1. apply in_map_iff in Hx1. destruct Hx1 as [q [<- Hq]].
  unfold build_port in Hx2. cbn [pi_name pi_funcs make_port_init] in Hx2. rewrite (exe_conns P' c e He), (exe_ids P' c e He) in Hx2.
  destruct (make_transformer _ _) as [t'|] eqn:E; [|discriminate]. injection Hx2 as <- <-. exists p, q. auto.
Qed.
Lemma kset_keys : forall A k (x : A) l j, In j (map fst (kset k x l)) -> j = k \/ In j (map fst l).
Proof.
  intros A k x. induction l as [|[a y] l IH]; intros j H; cbn [kset] in H.
  - destruct H as [<- |[]]. auto.
  - destruct (key_eqb k a); cbn [map fst In] in *; [tauto |]. destruct H as [H|H]; [tauto |]. destruct (IH j H); tauto.
Qed.
Lemma csp_map_keys : forall ids q n l ch m k, In k (map fst (csp_map ids ch q n l m)) -> In k (map fst m) \/ exists s d, In (s, d) l /\ d = (q, n) /\ k = (nth (fst s) ids 0%Z, snd s).
Proof.
  intros ids q n. induction l as [|[s d] l IH]; intros ch m k H; cbn [csp_map] in H; [auto |]. apply IH in H.
  destruct H as [H|[s' [d' [H1 H2]]]].
  - destruct (portref_eqb d (q, n)) eqn:E; [|auto]. apply portref_eqb_eq in E. apply kset_keys in H. destruct H as [-> |H]; [|auto].
    right. exists s, d. simpl; auto.
  - right. exists s', d'. simpl; tauto.
Qed.
Lemma kget_none : forall A k (l : list (key * A)), (forall j, In j (map fst l) -> fst j <> fst k) -> kget k l = None.
Proof.
  intros A k. induction l as [|[j x] l IH]; intros H; cbn [kget]; [reflexivity |].
  assert (E : key_eqb k j = false) by (unfold key_eqb; apply andb_false_iff; left; apply Z.eqb_neq; intros Hc; apply (H j); [left; reflexivity | congruence]).
  rewrite E. apply IH. intros i Hi. apply H. right; exact Hi.
Qed.
Lemma assoc_map_nil : forall (m : list (key * nat)) (g : key -> list vport) ch vs, (forall k, In k (map fst m) -> g k = []) ->
  assoc ch (map (fun kc => (snd kc, g (fst kc))) m) = Some vs -> vs = [].
Proof.
  induction m as [|[k c] m IH]; intros g ch vs Hg H; cbn [map assoc fst snd] in H; [discriminate |].
  destruct (ch =? c); [injection H as <-; apply Hg; left; reflexivity | apply (IH g ch vs); [intros j Hj; apply Hg; right; exact Hj | exact H]].
Qed.
(** if the processes have got new ids, no port rearranges what it receives any more *)
Theorem new_ids_drop_functions : forall P P' c e ms i p' n t m, wf P' -> make_cache P = Some c -> compile_cached c P' = Some e -> start e = Some ms ->
  (forall p q k vs, In p (procs P) -> In q (c_ports p) -> In (k, vs) (p_funcs q) -> ~ In (fst k) (map c_id (procs P'))) ->
  nth_error (procs P') i = Some p' -> nth_error ms i = Some m -> In (n, t) (m_ports m) ->
  forall f ch x y, transform f t ch x = Some y -> y = x.
Proof.
  intros P P' c e ms i p' n t m HW' Hc He Hs Hids Hi Hm Ht f ch x y Hy.
  destruct (cached_ports P P' c e ms i p' n t Hc He Hs Hi (ex_intro _ m (conj Hm Ht))) as [p [q [H1 [_ [H2 [_ H3]]]]]].
  unfold make_transformer in H3. destruct (p_funcs q) as [|[k0 vs0] r] eqn:Eq; [injection H3 as <-; cbn [transform] in Hy; congruence |]. rewrite <- Eq in H3.
  destruct (csp_map (map c_id (procs P')) 0 i n (conns P') []) as [|kc m0] eqn:Em; [discriminate |]. rewrite <- Em in H3. injection H3 as <-.
  cbn [transform] in Hy. match type of Hy with match ?a with _ => _ end = _ => destruct a as [vs|] eqn:Ea; [|discriminate] end.
  apply (assoc_map_nil _ (fun k => match kget k (p_funcs q) with Some vs => vs | None => [] end)) in Ea.
  - subst vs. cbn in Hy. congruence.
  - intros k Hk. apply csp_map_keys in Hk. destruct Hk as [[]|[s [d [Hsd [_ ->]]]]]. rewrite kget_none; [reflexivity |].
    intros j Hj Hjk. cbn [fst] in Hjk. apply in_map_iff in Hj. destruct Hj as [[j' vs'] [<- Hj]]. cbn [fst] in Hjk.
    apply (Hids p q j' vs' H1 H2 Hj). rewrite Hjk. destruct (wf_conns P' HW' s d s Hsd (or_introl eq_refl)) as [ps [_ [Hps _]]].
    apply nth_In. rewrite map_length. apply nth_error_Some. rewrite Hps. discriminate.
Qed.
(** a program that is created again in the same session: no Var can be read *)
Theorem new_ids_no_reads : forall P P' c e ms, wf P -> wf P' -> make_cache P = Some c -> compile_cached c P' = Some e -> start e = Some ms ->
  (forall id, has_var P' id -> ~ has_var P id) -> forall p' v', In p' (procs P') -> In v' (c_vars p') -> get e ms (v_id v') = GAssert.
Proof.
  intros P P' c e ms HW HW' Hc He Hs Hids p' v' Hp Hv. destruct (cached_reads P P' c e ms HW HW' Hc He Hs) as [H _]. apply H, Hids. exists p', v'. auto.
Qed.

(** ** Histories of compilations with one cache_dir *)
Lemma history_stored : forall l c, history (Stored c) l = Stored c.
Proof. induction l as [|[[u ok] P] l IH]; intros c; [reflexivity |]. unfold history in *. cbn [fold_left fst snd]. unfold compile. destruct u; apply IH. Qed.
Lemma history_broken : forall l, history Broken l = Broken.
Proof. induction l as [|[[u ok] P] l IH]; [reflexivity |]. unfold history in *. cbn [fold_left fst snd]. unfold compile. destruct u; apply IH. Qed.
(** the file is written once, by the first program with fitting names that is compiled with the cache, and stays as it is: later
    changes of programs never reach it *)
Theorem first_program_wins : forall l c, history NoFile l = Stored c <->
  exists l1 P l2, l = (l1 ++ (true, true, P) :: l2)%list /\ make_cache P = Some c /\ (forall u ok Q, In (u, ok, Q) l1 -> u = true -> make_cache Q = None).
Proof.
  intros l c. split.
  - induction l as [|[[u ok] P] l IH]; intros H; [discriminate |].
    change (history NoFile ((u, ok, P) :: l)) with (history (fst (compile u ok NoFile P)) l) in H. unfold compile in H.
    assert (Hskip : history NoFile l = Stored c -> (u = true -> make_cache P = None) -> exists l1 Q l2, (u, ok, P) :: l = (l1 ++ (true, true, Q) :: l2)%list
      /\ make_cache Q = Some c /\ (forall u0 ok0 Q0, In (u0, ok0, Q0) l1 -> u0 = true -> make_cache Q0 = None)).
    { intros H0 Hno. destruct (IH H0) as [l1 [Q [l2 [-> [H2 H3]]]]]. exists ((u, ok, P) :: l1), Q, l2. split; [reflexivity |]. split; [exact H2 |].
      intros u0 ok0 Q0 [H4|H4] Hu; [injection H4 as <- _ <-; apply Hno, Hu | apply (H3 u0 ok0 Q0 H4 Hu)]. }
    destruct u.
    + destruct (make_cache P) as [c'|] eqn:E; cbn [fst] in H.
      * destruct ok; cbn [fst] in H.
        -- rewrite history_stored in H. injection H as ->. exists [], P, l. split; [reflexivity |]. split; [exact E | intros u0 ok0 Q0 []].
        -- rewrite history_broken in H. discriminate.
      * apply Hskip; [exact H | reflexivity].
    + apply Hskip; [exact H | discriminate].
  - intros [l1 [P [l2 [-> [H1 H2]]]]]. induction l1 as [|[[u ok] Q] l1 IH].
    + change (history (fst (compile true true NoFile P)) l2 = Stored c). unfold compile. rewrite H1. apply history_stored.
    + change (history (fst (compile u ok NoFile Q)) (l1 ++ (true, true, P) :: l2) = Stored c). unfold compile.
      assert (Hq : u = true -> make_cache Q = None) by (apply (H2 u ok Q); left; reflexivity).
      destruct u; [rewrite (Hq eq_refl) |]; cbn [fst]; apply IH; intros u0 ok0 Q0 H3; apply (H2 u0 ok0 Q0); right; exact H3.
Qed.
(** a dump that fails or is interrupted makes the directory unusable for all later compilations with the cache *)
Theorem interrupted_dump_stays : forall P l ok Q, make_cache P <> None ->
  compile true ok (history NoFile ((true, false, P) :: l)) Q = (Broken, None).
Proof.
  intros P l ok Q HP. change (history NoFile ((true, false, P) :: l)) with (history (fst (compile true false NoFile P)) l).
  unfold compile at 2. destruct (make_cache P); [|congruence]. cbn [fst]. rewrite history_broken. reflexivity.
Qed.
(** without the cache flag the file neither counts nor changes *)
Theorem uncached_ignores_file : forall ok d P, compile false ok d P = (d, compile_fresh P).
Proof. reflexivity. Qed.

(** ** Exactly which compiled programs start *)
Lemma csp_map_nil : forall ids q n l ch m, csp_map ids ch q n l m = [] <-> m = [] /\ forall s, ~ In (s, (q, n)) l.
Proof.
  intros ids q n. induction l as [|[s d] l IH]; intros ch m; cbn [csp_map]; [split; [intros ->; auto | tauto] |]. rewrite IH.
  destruct (portref_eqb d (q, n)) eqn:E.
  - apply portref_eqb_eq in E. subst d. split.
    + intros [H _]. destruct m as [|[j y] m]; cbn [kset] in H; [discriminate |]. destruct (key_eqb _ j); discriminate.
    + intros [_ H]. destruct (H s). left; reflexivity.
  - split; intros [-> H]; split; try reflexivity; intros s0.
    + intros [Hi|Hi]; [|apply (H s0 Hi)]. injection Hi as -> ->. assert (portref_eqb (q, n) (q, n) = true) by (apply portref_eqb_eq; reflexivity). congruence.
    + intros Hi. apply (H s0). right; exact Hi.
Qed.
Theorem cached_starts_iff : forall P P' c e, wf P -> wf P' -> NoDup (names P') -> make_cache P = Some c -> compile_cached c P' = Some e ->
  (exists ms, start e = Some ms)
  <-> ((forall n, In n (names P') -> In n (names P))
       /\ (forall p q i p', In p (procs P) -> In q (c_ports p) -> p_funcs q <> [] -> nth_error (procs P') i = Some p' -> c_name p' = c_name p ->
           exists s, In (s, (i, p_name q)) (conns P'))).
Proof.
  intros P P' c e HW HW' HN' Hc He. destruct (make_cache_shape P c Hc) as [_ [_ [_ HN]]].
  assert (Hb : forall p i p', In p (procs P) -> nth_error (procs P') i = Some p' -> c_name p' = c_name p ->
    builder_of i (e_builders e) = Some (with_params (Some (c_params p')) (make_builder p))).
  { intros p i p' Hp Hi Hn. destruct (exe_builder_ex P P' c e Hc He p Hp) as [j [p2 [H1 H2]]].
    rewrite <- Hn, (find_proc_unique P' i p' HN' Hi) in H1. injection H1 as <- <-. exact H2. }
  assert (Hport : forall i q, p_funcs q <> [] -> (build_port e i (make_port_init q) = None <-> forall s, ~ In (s, (i, p_name q)) (conns P'))).
  { intros i q Hq. unfold build_port. cbn [pi_name pi_funcs make_port_init]. rewrite (exe_conns P' c e He), (exe_ids P' c e He). unfold make_transformer.
    destruct (p_funcs q) as [|f0 fs]; [congruence |]. destruct (csp_map _ 0 i (p_name q) (conns P') []) as [|k0 ks] eqn:Em.
    - apply csp_map_nil in Em. tauto.
    - split; [discriminate |]. intros H. assert (csp_map (map c_id (procs P')) 0 i (p_name q) (conns P') [] = []) by (apply csp_map_nil; auto). congruence. }
  split.
  - intros [ms Hs]. split; [intros n Hn; apply (proj2 (cached_start_names P P' c e ms Hc He Hs) n), Hn |].
    intros p q i p' Hp Hq Hf Hi Hn. destruct (started_all P' c e He ms Hs i p' Hi) as [m [Hm _]]. unfold build_model in Hm. rewrite (Hb p i p' Hp Hi Hn) in Hm.
    match type of Hm with context [map_opt ?f ?l] => destruct (map_opt f l) as [ts|] eqn:Et; [|discriminate] end.
    destruct (map_opt_all _ _ _ _ _ Et (make_port_init q)) as [y [Hy _]]; [cbn [b_ports with_params make_builder]; apply in_map, Hq |].
    assert (Hd : (exists s, In (s, (i, p_name q)) (conns P')) \/ ~ (exists s, In (s, (i, p_name q)) (conns P'))).
    { destruct (existsb (fun sd => portref_eqb (snd sd) (i, p_name q)) (conns P')) eqn:Ee.
      - left. apply existsb_exists in Ee. destruct Ee as [[s d] [H1 H2]]. apply portref_eqb_eq in H2. cbn [snd] in H2. subst d. eauto.
      - right. intros [s H]. assert (existsb (fun sd => portref_eqb (snd sd) (i, p_name q)) (conns P') = true); [|congruence].
        apply existsb_exists. exists (s, (i, p_name q)). split; [exact H | apply portref_eqb_eq; reflexivity]. }
    destruct Hd as [Hd|Hd]; [exact Hd |]. assert (build_port e i (make_port_init q) = None) by (apply (Hport i q Hf); intros s H; apply Hd; eauto). congruence.
  - intros [Hnames Hfun]. apply map_opt_some. intros i Hi. apply in_seq in Hi. rewrite (exe_ids P' c e He), map_length in Hi.
    destruct (nth_error (procs P') i) as [p'|] eqn:Ei; [|apply nth_error_None in Ei; lia].
    assert (Hn : In (c_name p') (names P)) by (apply Hnames; apply in_map, nth_error_In with i, Ei). apply in_map_iff in Hn. destruct Hn as [p [Hn Hp]].
    unfold build_model. rewrite (Hb p i p' Hp Ei (eq_sym Hn)). cbn [b_ports with_params make_builder].
    destruct (map_opt_some _ _ (build_port e i) (map make_port_init (c_ports p))) as [ts ->]; [|eauto].
    intros x Hx. apply in_map_iff in Hx. destruct Hx as [q [<- Hq]].
    destruct (p_funcs q) as [|f0 fs] eqn:Ef.
    + unfold build_port. cbn [pi_name pi_funcs make_port_init]. rewrite Ef. cbn [make_transformer]. eauto.
    + assert (Hne : p_funcs q <> []) by congruence. destruct (build_port e i (make_port_init q)) as [y|] eqn:Eb; [eauto |].
      destruct (Hfun p q i p' Hp Hq Hne Ei (eq_sym Hn)) as [s Hs]. destruct (proj1 (Hport i q Hne) Eb s Hs).
Qed.
