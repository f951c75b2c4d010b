(** C23 (aliases), C24 (ids and parameters), C55 (iterating collections). *)
From Coq Require Import List Arith Bool Lia.
From Verif Require Import Base Kahn Process_Model.
Import ListNotations.

(** ** C23 *)
(** Specification: the variable at the end of the alias chain, and strict sub-processes *)
Inductive denotes (vs : vars) : nat -> nat -> Prop :=
| Den0 a va : nth_error vs a = Some va -> aliased va = None -> denotes vs a a
| Den1 a va b c : nth_error vs a = Some va -> aliased va = Some b -> denotes vs b c -> denotes vs a c.

Inductive strict_sub (par : parents) : nat -> nat -> Prop :=
| Sub0 p q : par p = Some q -> strict_sub par p q
| Sub1 p r q : par p = Some r -> strict_sub par r q -> strict_sub par p q.

Lemma denotes_fun vs a b c : denotes vs a b -> denotes vs a c -> b = c.
Proof.
  intro H. revert c. induction H; intros d H'; inversion H'; subst; try congruence.
  apply IHdenotes. congruence.
Qed.
Lemma denotes_end vs a b : denotes vs a b -> exists vb, nth_error vs b = Some vb /\ aliased vb = None.
Proof. induction 1; eauto. Qed.

(** get() on a Var is the value of the variable it denotes: the runtime's, or the initial value when
    nothing has been compiled yet. *)
Theorem alias_get : forall lim vs st a x,
  vget lim vs st a = Some x ->
  exists b vb, denotes vs a b /\ nth_error vs b = Some vb /\
    x = match st with Some m => m b | None => init vb end.
Proof.
  induction lim; simpl; intros vs st a x H; [discriminate|].
  destruct (nth_error vs a) as [va|] eqn:E; [|discriminate].
  destruct (aliased va) as [b|] eqn:Ea.
  - destruct (IHlim _ _ _ _ H) as [c [vc [H1 [H2 H3]]]]. exists c, vc. split; auto. eapply Den1; eauto.
  - injection H as <-. exists a, va. split; auto. eapply Den0; eauto.
Qed.

(** set() changes exactly the variable denoted. *)
Theorem alias_set : forall lim vs st a x r,
  vset lim vs st a x = Some r ->
  exists b, denotes vs a b /\
    match st with
    | None => r = None
    | Some m => exists m', r = Some (Some m') /\ m' b = x /\ forall c, c <> b -> m' c = m c
    end.
Proof.
  induction lim; simpl; intros vs st a x r H; [discriminate|].
  destruct (nth_error vs a) as [va|] eqn:E; [|discriminate].
  destruct (aliased va) as [b|] eqn:Ea.
  - destruct (IHlim _ _ _ _ _ H) as [c [H1 H2]]. exists c. split; auto. eapply Den1; eauto.
  - injection H as <-. exists a. split; [eapply Den0; eauto|].
    destruct st as [m|]; auto. exists (fupd m a x). split; auto. split; [apply fupd_same|].
    intros. apply fupd_other; auto.
Qed.

(** Whoever writes through any alias, whoever reads through any other alias of the same variable sees it. *)
Theorem alias_set_get : forall lim vs m a b x st' y c,
  vset lim vs (Some m) a x = Some (Some st') -> vget lim vs st' b = Some y ->
  denotes vs a c ->
  (denotes vs b c -> y = x) /\
  (forall d, denotes vs b d -> d <> c -> y = m d).
Proof.
  intros lim vs m a b x st' y c Hs Hg Ha.
  destruct (alias_set _ _ _ _ _ _ Hs) as [c' [Hc [m' [E [Ex Ho]]]]].
  injection E as ->. assert (c' = c) as -> by (eapply denotes_fun; eauto).
  destruct (alias_get _ _ _ _ _ Hg) as [d [vd [Hd [_ Ey]]]].
  split.
  - intro Hb. rewrite (denotes_fun _ _ _ _ Hd Hb) in Ey. congruence.
  - intros e He Hne. rewrite (denotes_fun _ _ _ _ He Hd). rewrite Ey. apply Ho.
    rewrite <- (denotes_fun _ _ _ _ He Hd). auto.
Qed.

(** alias() is accepted exactly for equal shapes and equal sharing, and only adds the alias. *)
Theorem alias_accepted_iff : forall vs a b va vb,
  nth_error vs a = Some va -> nth_error vs b = Some vb ->
  (exists vs', alias vs a b = Some vs') <-> (vshape va = vshape vb /\ shareable va = shareable vb).
Proof.
  intros vs a b va vb Ea Eb. unfold alias. rewrite Ea, Eb. unfold shape_eqb.
  destruct (list_eq_dec Nat.eq_dec (vshape va) (vshape vb)); simpl.
  - destruct (Bool.eqb (shareable va) (shareable vb)) eqn:Es; simpl.
    + apply eqb_prop in Es. split; [auto|eauto].
    + split; [intros [? ?]; discriminate|]. intros [_ H]. rewrite H, Bool.eqb_reflx in Es. discriminate.
  - split; [intros [? ?]; discriminate|]. intros [? _]. contradiction.
Qed.

(** all variables along alias chains keep the same shape, whatever aliases are established *)
Definition shapes_agree (vs : vars) : Prop :=
  forall a va b, nth_error vs a = Some va -> aliased va = Some b ->
    exists vb, nth_error vs b = Some vb /\ vshape va = vshape vb /\ shareable va = shareable vb.

Inductive built : vars -> Prop :=
| Built0 : built []
| BuiltVar vs sh s p i : built vs -> built (vs ++ [mkVar sh s p i None])
| BuiltAlias vs a b vs' : built vs -> alias vs a b = Some vs' -> built vs'.

Lemma built_agree vs : built vs -> shapes_agree vs.
Proof.
  induction 1; intros a' va b' Ea Eb.
  - destruct a'; discriminate.
  - assert (a' < length vs) as Hl.
    { assert (a' < length (vs ++ [mkVar sh s p i None])) as Hl by (apply nth_error_Some; congruence).
      rewrite app_length in Hl. simpl in Hl. destruct (Nat.eq_dec a' (length vs)); [|lia]. subst.
      rewrite nth_error_app2, Nat.sub_diag in Ea by lia. injection Ea as <-. discriminate. }
    rewrite nth_error_app1 in Ea by auto.
    destruct (IHbuilt _ _ _ Ea Eb) as [vb [H1 H2]]. exists vb. split; auto.
    rewrite nth_error_app1; auto. apply nth_error_Some. congruence.
  - unfold alias in H0. destruct (nth_error vs a) as [wa|] eqn:Wa; [|discriminate].
    destruct (nth_error vs b) as [wb|] eqn:Wb; [|discriminate].
    unfold shape_eqb in H0. destruct (list_eq_dec Nat.eq_dec (vshape wa) (vshape wb)) as [Esh|]; [|discriminate].
    simpl in H0. destruct (Bool.eqb (shareable wa) (shareable wb)) eqn:Es; [|discriminate].
    apply eqb_prop in Es. simpl in H0. injection H0 as <-.
    assert (a < length vs) as La by (apply nth_error_Some; congruence).
    rewrite nth_upd in Ea by auto.
    assert (forall c vc, nth_error vs c = Some vc -> exists vc',
      nth_error (upd vs a (mkVar (vshape wa) (shareable wa) (vproc wa) (init wa) (Some b))) c = Some vc' /\
      vshape vc' = vshape vc /\ shareable vc' = shareable vc) as G.
    { intros c vc Hc. rewrite nth_upd by auto. destruct (Nat.eqb_spec a c); eauto.
      subst. eexists. split; [reflexivity|]. simpl. rewrite Wa in Hc. injection Hc as <-. auto. }
    destruct (Nat.eqb_spec a a').
    + injection Ea as <-. simpl in Eb. injection Eb as <-.
      destruct (G _ _ Wb) as [vb [H1 [H2 H3]]]. exists vb. simpl. split; auto. split; congruence.
    + destruct (IHbuilt _ _ _ Ea Eb) as [vb [H1 [H2 H3]]].
      destruct (G _ _ H1) as [vb' [H4 [H5 H6]]]. exists vb'. split; auto. split; congruence.
Qed.

Theorem alias_shape_preserved : forall vs a b, built vs -> denotes vs a b ->
  exists va vb, nth_error vs a = Some va /\ nth_error vs b = Some vb /\ vshape va = vshape vb /\ shareable va = shareable vb.
Proof.
  intros vs a b HB H. induction H.
  - exists va, va. auto.
  - destruct (IHdenotes) as [vb [vc [H2 [H3 [H4 H5]]]]].
    destruct (built_agree _ HB _ _ _ H H0) as [vb' [H6 [H7 H8]]].
    rewrite H2 in H6. injection H6 as <-. exists va, vc. repeat split; auto; congruence.
Qed.

(** is_sub_proc_of decides the strict sub-process relation *)
Lemma is_sub_proc_spec lim : forall par p q b, is_sub_proc_of lim par p q = Some b -> (b = true <-> strict_sub par p q).
Proof.
  induction lim; simpl; intros par p q b H; [discriminate|].
  destruct (par p) as [r|] eqn:E.
  - destruct (Nat.eqb_spec r q).
    + injection H as <-. subst. split; auto. intro. constructor; auto.
    + rewrite (IHlim _ _ _ _ H). split; intro HS.
      * eapply Sub1; eauto.
      * inversion HS; subst; congruence.
  - injection H as <-. split; [discriminate|]. intro HS. inversion HS; congruence.
Qed.

(** validate_alias passes exactly when the aliased Var belongs to a strict sub-process of another process *)
Theorem alias_validated_iff : forall lim par vs a va b vb r,
  nth_error vs a = Some va -> aliased va = Some b -> nth_error vs b = Some vb ->
  validate_alias lim par vs a = Some r ->
  (r = true <-> vproc va <> vproc vb /\ strict_sub par (vproc vb) (vproc va)).
Proof.
  intros lim par vs a va b vb r Ea El Eb H. unfold validate_alias in H. rewrite Ea, El, Eb in H.
  destruct (is_sub_proc_of lim par (vproc vb) (vproc va)) as [s|] eqn:S; [|discriminate].
  injection H as <-. pose proof (is_sub_proc_spec _ _ _ _ _ S) as HS.
  rewrite andb_true_iff, negb_true_iff, Nat.eqb_neq, HS. tauto.
Qed.

(** When every alias has been validated and processes form a tree, every alias chain ends: get() and
    set() cannot recurse for ever. *)
Lemma depth_sub par (depth : nat -> nat) :
  (forall p q, par p = Some q -> depth q < depth p) -> forall p q, strict_sub par p q -> depth q < depth p.
Proof. intros H p q HS. induction HS; [auto|]. specialize (H _ _ H0). lia. Qed.

Theorem alias_chain_ends : forall par vs (depth : nat -> nat),
  built vs ->
  (forall p q, par p = Some q -> depth q < depth p) ->
  (exists D, forall p, depth p <= D) ->
  (forall a va b vb, nth_error vs a = Some va -> aliased va = Some b -> nth_error vs b = Some vb ->
     exists lim, validate_alias lim par vs a = Some true) ->
  forall a, a < length vs -> exists b, denotes vs a b.
Proof.
  intros par vs depth HB HD [D Hmax] Hv a Ha.
  assert (forall n a va, nth_error vs a = Some va -> D - depth (vproc va) < n -> exists b, denotes vs a b) as G.
  { induction n; intros c vc Ec Hn; [lia|].
    destruct (aliased vc) as [d|] eqn:El; [|exists c; eapply Den0; eauto].
    destruct (built_agree _ HB _ _ _ Ec El) as [vd [Ed _]].
    destruct (Hv _ _ _ _ Ec El Ed) as [lim HV].
    apply (alias_validated_iff _ _ _ _ _ _ _ _ Ec El Ed) in HV.
    destruct (proj1 HV eq_refl) as [_ HS]. pose proof (depth_sub _ _ HD _ _ HS). pose proof (Hmax (vproc vd)).
    destruct (IHn d vd Ed) as [b Hb]; [lia|]. exists b. eapply Den1; eauto. }
  destruct (nth_error vs a) as [va|] eqn:Ea; [|apply nth_error_None in Ea; lia].
  eapply G; eauto.
Qed.

(** a chain that ends is followed to its end when the recursion limit allows its length *)
Theorem alias_get_defined : forall vs a b, denotes vs a b -> exists n, forall lim st, n <= lim -> exists x, vget lim vs st a = Some x.
Proof.
  induction 1.
  - exists 1. intros lim st Hl. destruct lim; [lia|]. simpl. rewrite H, H0. eauto.
  - destruct IHdenotes as [n Hn]. exists (S n). intros lim st Hl. destruct lim; [lia|]. simpl. rewrite H, H0.
    apply Hn. lia.
Qed.

Example alias_applies :
  let vs0 := [mkVar [2] true 0 5 None; mkVar [2] true 1 6 None; mkVar [2] true 2 7 None] in
  let par := fun p => match p with 1 => Some 0 | 2 => Some 1 | _ => None end in
  exists vs1 vs2, alias vs0 0 1 = Some vs1 /\ alias vs1 1 2 = Some vs2 /\ built vs2 /\
    validate_alias 10 par vs2 0 = Some true /\ validate_alias 10 par vs2 1 = Some true /\
    denotes vs2 0 2 /\ vget 10 vs2 None 0 = Some 7.
Proof.
  eexists. eexists. split; [reflexivity|]. split; [reflexivity|]. repeat split; try reflexivity.
  - apply (BuiltAlias [mkVar [2] true 0 5 (Some 1); mkVar [2] true 1 6 None; mkVar [2] true 2 7 None] 1 2); [|reflexivity].
    apply (BuiltAlias [mkVar [2] true 0 5 None; mkVar [2] true 1 6 None; mkVar [2] true 2 7 None] 0 1); [|reflexivity].
    apply (BuiltVar [mkVar [2] true 0 5 None; mkVar [2] true 1 6 None]).
    apply (BuiltVar [mkVar [2] true 0 5 None]). apply (BuiltVar []). constructor.
  - eapply Den1; [reflexivity|reflexivity|]. eapply Den1; [reflexivity|reflexivity|].
    eapply Den0; reflexivity.
Qed.

(** ** C24 *)
Definition no_reset (es : list event) : Prop := Forall (fun e => e <> ServerReset) es.
Fixpoint creations (es : list event) : nat :=
  match es with [] => 0 | Create _ :: r => S (creations r) | _ :: r => creations r end.

Lemma session_ids es : forall s, no_reset es -> (instance s = true -> not_initialized s = false) ->
  (instance s = false -> not_initialized s = true) ->
  session s es = seq (if not_initialized s then 0 else next_id s) (creations es).
Proof.
  induction es as [|e r IH]; intros s HF Hi Hn; simpl; auto. inversion HF; subst.
  destruct s as [i n x regs]. simpl in *.
  assert (forall m l, session (mkServer true false m l) r = seq m (creations r)) as G.
  { intros. rewrite IH; simpl; auto; discriminate. }
  destruct e; [| |congruence]; unfold session_step, server_register, server_call; simpl;
  destruct i; [rewrite (Hi eq_refl)|rewrite (Hn eq_refl)|rewrite (Hi eq_refl)|rewrite (Hn eq_refl)];
  simpl; rewrite ?G; auto.
Qed.

(** Every object created in a session gets a new id, whatever else happens in between; the ids are
    0, 1, 2, ... in order of creation. *)
Theorem ids_unique : forall es, no_reset es ->
  NoDup (session server0 es) /\ session server0 es = seq 0 (creations es).
Proof.
  intros es H. assert (session server0 es = seq 0 (creations es)) as E.
  { rewrite session_ids; auto; simpl; auto; discriminate. }
  rewrite E. split; auto. apply seq_NoDup.
Qed.

Example ids_unique_applies : no_reset [Create 7; Query; Create 8; Create 9] /\
  session server0 [Create 7; Query; Create 8; Create 9] = [0;1;2].
Proof. split; [repeat constructor; discriminate|reflexivity]. Qed.

(** reset_server() starts a new session: ids are issued again (why C24 speaks of one session). *)
Theorem ids_reused_after_reset : session server0 [Create 7; ServerReset; Create 8] = [0; 0].
Proof. reflexivity. Qed.

(** Parameters: the value of a key after any history of assignments is the one of the last overwrite(),
    or else of the first assignment. *)
Fixpoint expected (k : nat) (cur : option nat) (os : list pop) : option nat :=
  match os with
  | [] => cur
  | PSet k' v :: r => expected k (if k' =? k then (match cur with Some w => Some w | None => Some v end) else cur) r
  | POverwrite k' v :: r => expected k (if k' =? k then Some v else cur) r
  end.

Lemma lookup_set d k v j : lookup (dict_set d k v) j = if k =? j then Some v else lookup d j.
Proof.
  unfold lookup. induction d as [|[k' v'] r IH]; simpl.
  - destruct (Nat.eqb_spec k j); auto.
  - destruct (Nat.eqb_spec k' k); simpl.
    + subst. destruct (Nat.eqb_spec k j); auto.
    + destruct (Nat.eqb_spec k' j).
      * subst. destruct (Nat.eqb_spec k j); auto. congruence.
      * auto.
Qed.

Theorem params_history : forall os d k,
  lookup (prun d os) k = expected k (lookup d k) os.
Proof.
  unfold prun. induction os as [|o r IH]; intros d k; simpl; auto. rewrite IH.
  destruct o as [k' v|k' v]; simpl; f_equal; [|apply lookup_set].
  unfold setitem. destruct (lookup d k') as [w|] eqn:E; simpl.
  - destruct (Nat.eqb_spec k' k); auto. subst. rewrite E. auto.
  - rewrite lookup_set. destruct (Nat.eqb_spec k' k); auto. subst. rewrite E. auto.
Qed.

(** Assigning to a present key is refused and changes nothing. *)
Theorem params_never_overwritten : forall d k v w, lookup d k = Some w -> pstep d (PSet k v) = (d, true).
Proof. intros. simpl. unfold setitem. rewrite H. auto. Qed.
Theorem params_new_key : forall d k v, lookup d k = None ->
  exists d', pstep d (PSet k v) = (d', false) /\ lookup d' k = Some v /\ forall j, j <> k -> lookup d' j = lookup d j.
Proof.
  intros. simpl. unfold setitem. rewrite H. eexists. split; eauto. split.
  - rewrite lookup_set, Nat.eqb_refl. auto.
  - intros j Hj. rewrite lookup_set. destruct (Nat.eqb_spec k j); auto. congruence.
Qed.

(** ** C55: iterating over a collection *)
Definition coll (ms : list nat) : collection := mkColl ms 0.

Lemma for_loop_from ms : forall k fuel body, (forall m c, body m c = c) -> k <= length ms -> length ms - k < fuel ->
  for_loop fuel (mkColl ms k) body (fun _ => false) = (mkColl ms 0, skipn k ms, true).
Proof.
  intros k fuel. revert k. induction fuel; intros k body Hb Hk Hf; [lia|]. simpl. unfold coll_next. simpl.
  destruct (nth_error ms k) as [m|] eqn:E.
  - assert (k < length ms) by (apply nth_error_Some; congruence). rewrite Hb. rewrite IHfuel by (auto; lia).
    f_equal. f_equal. clear - E. revert k E. induction ms; destruct k; simpl; intros; try discriminate.
    + injection E as ->. auto.
    + apply IHms. auto.
  - apply nth_error_None in E. rewrite skipn_all2 by auto. auto.
Qed.

(** A complete loop whose body does not iterate the same collection visits every member once, in
    order, and leaves the collection ready for the next loop. *)
Theorem collection_loop_partial : forall ms body fuel,
  (forall m c, body m c = c) -> length ms < fuel ->
  for_loop fuel (coll ms) body (fun _ => false) = (coll ms, ms, true).
Proof. intros. unfold coll. rewrite (for_loop_from ms 0) by (auto; lia). auto. Qed.

Example collection_loop_applies : for_loop 9 (coll [3;1;2]) (fun _ c => c) (fun _ => false) = (coll [3;1;2], [3;1;2], true).
Proof. reflexivity. Qed.

(** Leaving a loop early makes the next loop over the collection skip the members already seen. *)
Theorem collection_break_refuted : forall m ms fuel, length ms < fuel ->
  let '(c, _, _) := for_loop (S fuel) (coll (m :: ms)) (fun _ c => c) (fun _ => true) in
  for_loop fuel c (fun _ c => c) (fun _ => false) = (coll (m :: ms), ms, true).
Proof.
  intros. simpl. rewrite (for_loop_from (m :: ms) 1) by (auto; simpl; lia). auto.
Qed.

(** Two nested loops over the same collection never end: the inner one resets the position. *)
Theorem collection_nested_refuted : forall m ms fuel inner_fuel, length (m :: ms) < inner_fuel ->
  let inner := fun (_ : nat) c => fst (fst (for_loop inner_fuel c (fun _ c => c) (fun _ => false))) in
  let '(_, visited, ended) := for_loop fuel (coll (m :: ms)) inner (fun _ => false) in
  ended = false /\ visited = repeat m fuel.
Proof.
  intros m ms fuel ifuel Hf inner. unfold coll. induction fuel; simpl; auto.
  assert (inner m (mkColl (m :: ms) 1) = mkColl (m :: ms) 0) as ->.
  { unfold inner. rewrite (for_loop_from (m :: ms) 1) by (auto; simpl in *; lia). auto. }
  destruct (for_loop fuel (mkColl (m :: ms) 0) inner (fun _ => false)) as [[c l] e].
  destruct IHfuel as [-> ->]. auto.
Qed.

(** get(): the value in force, or else the default *)
Theorem params_get os d k default :
  param_get (prun d os) k default = match expected k (lookup d k) os with Some v => Some v | None => default end.
Proof. unfold param_get. rewrite params_history. destruct (expected k (lookup d k) os); reflexivity. Qed.

Print Assumptions alias_set_get.
Print Assumptions alias_chain_ends.
Print Assumptions ids_unique.
Print Assumptions params_history.
Print Assumptions collection_nested_refuted.
