(** C99: nothing fails on the way.  With arrays of the shapes of the ports, recv returns an array of the shape of the InPort. *)
From Coq Require Import List Arith ZArith Bool String Lia Permutation.
From Verif Require Import VPorts_Model VPorts_Props Connect_Model Connect_Props Connect_Props2 Connect_Typed Network_Model Network_Props Wire_Model Wire_Spec Wire_Inv Wire_Props.
Import ListNotations.
Open Scope nat_scope.
Open Scope list_scope.

(** ** Connections are never removed *)
Definition more (g g' : graph) : Prop := forall a x, In x (ins_of g a) -> In x (ins_of g' a).
Lemma more_refl g : more g g. Proof. intros a x H. exact H. Qed.
Lemma more_trans g h k : more g h -> more h k -> more g k. Proof. intros A B a x H. apply B, A, H. Qed.
Lemma more_app g p : more g (g ++ [p]).
Proof.
  intros a x H. unfold ins_of in *. destruct (nth_error g a) as [q|] eqn:E; [|destruct H].
  rewrite nth_error_app1 by (apply nth_error_Some; congruence). rewrite E. exact H.
Qed.
Lemma more_cfg g a b c : more g (store_cfg g a b c).
Proof. intros x y H. destruct (store_cfg_links g a b c x) as [_ E]. rewrite E. exact H. Qed.
Lemma fwd_loop_more self z : forall g, more g (fst (fwd_loop g self z)).
Proof.
  induction z as [|[p c] z IH]; intro g; cbn [fwd_loop]; [apply more_refl|].
  destruct (add_inputs g p [self]) as [g1|] eqn:E; [|apply more_refl].
  apply more_trans with g1; [|apply more_trans with (store_cfg g1 self p c); [apply more_cfg|apply IH]].
  intros a x H. destruct (add_inputs_spec _ _ _ _ E) as (_ & _ & S). rewrite (proj2 (S a)). apply in_or_app. auto.
Qed.
Lemma bwd_loop_more self z : forall g, more g (fst (bwd_loop g self z)).
Proof.
  induction z as [|[p c] z IH]; intro g; cbn [bwd_loop]; [apply more_refl|].
  destruct (add_outputs g p [self]) as [g1|] eqn:E; [|apply more_refl].
  apply more_trans with g1; [|apply more_trans with (store_cfg g1 p self c); [apply more_cfg|apply IH]].
  intros a x H. destruct (add_outputs_spec _ _ _ _ E) as (_ & _ & S). rewrite (proj1 (S a)). exact H.
Qed.
Lemma connect_forward_more g self ports t cf b1 b2 : more g (fst (connect_forward g self ports t cf b1 b2)).
Proof.
  unfold connect_forward. destruct (validate _ _ _ _ _ _); [apply more_refl|]. destruct (add_outputs g self ports) as [g1|] eqn:E; [|apply more_refl].
  apply more_trans with g1; [|apply fwd_loop_more]. intros a x H. destruct (add_outputs_spec _ _ _ _ E) as (_ & _ & S). rewrite (proj1 (S a)). exact H.
Qed.
Lemma connect_backward_more g self ports t cf b1 b2 : more g (fst (connect_backward g self ports t cf b1 b2)).
Proof.
  unfold connect_backward. destruct (validate _ _ _ _ _ _); [apply more_refl|]. destruct (add_inputs g self ports) as [g1|] eqn:E; [|apply more_refl].
  apply more_trans with g1; [|apply bwd_loop_more]. intros a x H. destruct (add_inputs_spec _ _ _ _ E) as (_ & _ & S). rewrite (proj2 (S a)). apply in_or_app. auto.
Qed.
Lemma do_connect_more lim g self a cf : more g (fst (do_connect lim g self a cf)).
Proof.
  unfold do_connect. destruct (nth_error g self) as [sp|]; [|apply more_refl].
  destruct (cls sp); repeat (match goal with |- context [match ?x with _ => _ end] => destruct x end);
    try apply more_refl; apply connect_forward_more.
Qed.
Lemma do_connect_from_more lim g self a cf : more g (fst (do_connect_from lim g self a cf)).
Proof.
  unfold do_connect_from. destruct (nth_error g self) as [sp|]; [|apply more_refl].
  destruct (cls sp); repeat (match goal with |- context [match ?x with _ => _ end] => destruct x end);
    try apply more_refl; apply connect_backward_more.
Qed.
Lemma implicit_more vs : forall sh g acc, more g (fst (implicit_ports vs sh g acc)).
Proof.
  induction vs as [|v r IH]; intros sh g acc; cbn [implicit_ports]; [apply more_refl|].
  destruct (list_eqb _ _); [|apply more_refl]. destruct (v_shareable v); [|apply more_refl].
  eapply more_trans; [apply more_app|apply IH].
Qed.
Lemma do_call_more lim g c : more g (fst (do_call lim g c)).
Proof.
  destruct c as [c sh pr|self a cf|self a cf|self o|self l ax|self vs cf]; cbn [do_call].
  - apply more_app.
  - apply do_connect_more.
  - apply do_connect_from_more.
  - unfold do_derive. destruct (nth_error g self) as [sp|]; [|apply more_refl]. destruct (derive1 _ _) as [v|]; [|apply more_refl].
    eapply more_trans; [apply more_app|apply connect_forward_more].
  - unfold do_concat. destruct (nth_error g self) as [sp|]; [|apply more_refl]. destruct (validate _ _ _ _ _ _); [apply more_refl|].
    destruct (concat_shape _ _); try apply more_refl. eapply more_trans; [apply more_app|apply connect_backward_more].
  - unfold do_connect_var. destruct (nth_error g self) as [sp|]; [|apply more_refl].
    repeat (match goal with |- more _ (fst (if ?b then _ else _)) => destruct b; [apply more_refl|] end).
    destruct (dst_ports lim g false self) as [[|? ?]|]; destruct (src_ports lim g false self) as [[|? ?]|]; try apply more_refl.
    destruct (existsb _ _); [apply more_refl|]. destruct vs as [|v0 r]; [apply more_refl|].
    pose proof (implicit_more (v0 :: r) (v_shape v0) g []) as G. destruct (implicit_ports _ _ _ _) as [g' [ps [e|]]]; [exact G|].
    eapply more_trans; [exact G|apply do_connect_more].
Qed.

(** ** A derived port is connected to the port it was derived from *)
Lemma derive_linked g k self sp o v : typed g k -> nth_error g self = Some sp -> derive1 (pshape sp) o = Some v ->
  In self (ins_of (fst (do_derive g self o)) (List.length g)).
Proof.
  intros T E D. unfold do_derive. rewrite E, D. cbv zeta. set (c := match v with ReshapeP _ _ => _ | TransposeP _ _ => _ end).
  set (g0 := g ++ [new_port c (vshape v) None]).
  assert (nth_error g0 (List.length g) = Some (new_port c (vshape v) None)) as En by (unfold g0; rewrite nth_error_app2, Nat.sub_diag by lia; reflexivity).
  assert (self < List.length g) as L by (apply nth_error_Some; congruence).
  assert (nth_error g0 self = Some sp) as Es by (unfold g0; rewrite nth_error_app1 by exact L; exact E).
  unfold connect_forward, validate. rewrite Es, En. cbn [forallb]. rewrite En. unfold new_port at 1. cbn [cls pshape].
  assert (isinstance c TAbstractPort = true /\ isinstance c (TExact c) = true) as [I1 I2] by (unfold c; destruct v; split; reflexivity).
  replace (cls (new_port c (vshape v) None)) with c by reflexivity. rewrite I1, I2. cbn [andb].
  unfold add_outputs. rewrite Es.
  assert (is_disjoint (outs sp) [List.length g] = true) as Dj.
  { apply disjoint_spec. intros x Hx [<-|[]]. assert (link g self (List.length g)) as K by (left; unfold outs_of; rewrite E; exact Hx).
    apply (link_bound _ _ _ _ T) in K. lia. }
  rewrite Dj. change (combine [List.length g] (spread [None] (List.length [List.length g]))) with [(List.length g, @None nat)]. cbn [fwd_loop].
  match goal with |- context [add_inputs ?g1 (List.length g) [self]] => set (g1' := g1) end.
  assert (nth_error g1' (List.length g) = Some (new_port c (vshape v) None)) as E1.
  { unfold g1'. rewrite (upd_port _ _ _ _ _ Es). destruct (Nat.eqb_spec self (List.length g)); [lia|exact En]. }
  destruct (add_inputs g1' (List.length g) [self]) as [g2|] eqn:A.
  - destruct (add_inputs_spec _ _ _ _ A) as (_ & _ & S). cbn [store_cfg fst]. rewrite (proj2 (S (List.length g))), Nat.eqb_refl. apply in_or_app. right. left. reflexivity.
  - unfold add_inputs in A. rewrite E1 in A. discriminate.
Qed.
Definition derived_from (calls : list call) (g : graph) (a : nat) (v : vport) : Prop :=
  exists self o sh c, In (CDerive self o) calls /\ In self (ins_of g a) /\ attrs g self = Some (c, sh) /\ derive1 sh o = Some v.
Lemma sources_run lim calls a v : user_vports lim calls a = Some v -> derived_from calls (run_calls lim calls) a v /\
  exists pa, nth_error (run_calls lim calls) a = Some pa /\ pshape pa = vshape v.
Proof.
  intro H. unfold user_vports, derived in H. split.
  2:{ destruct (remember_run lim calls [] []) as [A B]; [intros ? ? []|]. cbv zeta in A, B.
      destruct (B _ _ (assoc_in _ _ _ H)) as (p & P & _ & C). rewrite A in P. exists p. split; [exact P|exact C]. }
  assert (forall all cs g k vs, typed g k -> (forall c, In c cs -> In c all) -> (forall a v, In (a, v) vs -> derived_from all g a v) ->
    let st := fold_left (remember lim) cs (g, vs) in forall a v, In (a, v) (snd st) -> derived_from all (fst st) a v) as G.
  { intro all. induction cs as [|c cs IH]; intros g k vs T HA HV; cbn [fold_left]; [exact HV|].
    set (vs' := snd (remember lim (g, vs) c)). change (remember lim (g, vs) c) with (fst (do_call lim g c), vs').
    destruct (do_call_typed lim g k c T) as [k' T']. apply (IH _ k'); [exact T'|intros; apply HA; right; assumption|].
    intros a0 v0 Hin.
    assert (In (a0, v0) vs \/ exists self sp o, c = CDerive self o /\ a0 = List.length g /\ nth_error g self = Some sp /\ derive1 (pshape sp) o = Some v0) as [O|O].
    { unfold vs', remember in Hin. cbn [snd] in Hin. destruct c as [| | |self o| |]; auto. destruct (nth_error g self) as [sp|] eqn:E; auto.
      destruct (derive1 (pshape sp) o) as [w|] eqn:E2; auto. destruct Hin as [Hin|Hin]; auto. injection Hin as <- <-. right. exists self, sp, o. auto. }
    - destruct (HV _ _ O) as (self & o & sh & cc & A1 & A2 & A3 & A4). exists self, o, sh, cc. split; [exact A1|]. split; [apply do_call_more; exact A2|]. split; [|exact A4].
      rewrite (proj2 (do_call_grows lim g c)); [exact A3|]. unfold attrs in A3. apply nth_error_Some. destruct (nth_error g self); congruence.
    - destruct O as (self & sp & o & -> & -> & E & E2). exists self, o, (pshape sp), (cls sp).
      split; [apply HA; left; reflexivity|]. split; [cbn [do_call]; eapply derive_linked; eauto|]. split; [|exact E2].
      rewrite (proj2 (do_call_grows lim g (CDerive self o))); [unfold attrs; rewrite E; reflexivity|]. apply nth_error_Some. congruence. }
  assert (typed [] (fun _ => false)) as T0.
  { destruct (run_typed lim []) as [k T]. constructor; [intros x y [L|L]; [unfold outs_of in L|unfold ins_of in L]; destruct x, y; destruct L|intros x p X; destruct x; discriminate X]. }
  pose proof (G calls calls [] (fun _ => false) [] T0 (fun c Hc => Hc) (fun a v (F : In (a, v) []) => match F with end) a v (assoc_in _ _ _ H)) as R.
  destruct (remember_run lim calls [] []) as [A _]; [intros ? ? []|]. cbv zeta in A. rewrite A in R. exact R.
Qed.

(** ** Arrays on the way *)
Section Way.
  Variables (lim : nat) (calls : list call).
  Notation g := (run_calls lim calls).
  Notation vp := (user_vports lim calls).
  Hypothesis HF : Forall proper calls.
  Hypothesis HA : Forall legal_axes calls.

  Lemma exists_port a b : In b (outs_of g a) -> exists pa pb, nth_error g a = Some pa /\ nth_error g b = Some pb.
  Proof using.
    intro H. destruct (run_typed lim calls) as [k T]. assert (link g a b) as L by (left; exact H). destruct (link_bound _ _ _ _ T L) as [A B].
    destruct (nth_error g a) as [pa|] eqn:Ea; [|apply nth_error_None in Ea; lia].
    destruct (nth_error g b) as [pb|] eqn:Eb; [|apply nth_error_None in Eb; lia]. eauto.
  Qed.
  Lemma step_ok d a b pa pb (P : exists l, path g b l d) x : In b (outs_of g a) -> nth_error g a = Some pa -> nth_error g b = Some pb ->
    usual_ports g vp d -> (vp b <> None -> List.length (ins_of g b) <= 1) -> wf x -> shape x = pshape pa ->
    exists y, match vp b with Some v => fwd v x | None => Some x end = Some y /\ wf y /\ shape y = pshape pb.
  Proof using HF HA.
    intros H Ea Eb UP UL Wx Sx. pose proof (connections_consistent_partial lim calls HF) as HC. destruct P as [l P].
    destruct (vp b) as [v|] eqn:Ev.
    - destruct (sources_run lim calls b v Ev) as [(self & o & sh & c & A1 & A2 & A3 & A4) (pb' & Eb' & Sb)].
      rewrite Eb in Eb'. injection Eb' as <-.
      assert (self = a) as ->.
      { assert (List.length (ins_of g b) <= 1) as Nb by (apply UL; discriminate). apply (ins_outs g HC) in H.
        destruct (short_cases _ Nb) as [Z|[z Z]]; rewrite Z in A2, H; [destruct H|]. destruct A2 as [<-|[]]. destruct H as [<-|[]]. reflexivity. }
      unfold attrs in A3. rewrite Ea in A3. injection A3 as <- <-.
      destruct (derive1_ok (pshape pa) o v x A4 Wx Sx) as (y & Fy & Wy & Sy & _).
      { rewrite Forall_forall in HA. specialize (HA _ A1). destruct o as [| |[ax|]]; auto. cbn [legal_axes] in HA.
        cbn [derive1] in A4. unfold port_transpose in A4. destruct (Nat.eqb_spec (List.length ax) (List.length (pshape pa))) as [E|]; [|discriminate]. rewrite <- E. exact HA. }
      exists y. rewrite Sb. auto.
    - exists x. split; [reflexivity|]. split; [exact Wx|]. rewrite Sx. specialize (UP _ _ _ P Eb).
      assert (is_virtual (cls pb) = false) as V by (destruct (cls pb); try reflexivity; [congruence|congruence|destruct UP]).
      apply (connections_well_typed_partial lim calls a b pa pb (or_introl H) Ea Eb V).
  Qed.
  Lemma travel_ok d pd : nth_error g d = Some pd -> usual_ports g vp d -> (forall v l, path g v l d -> vp v <> None -> List.length (ins_of g v) <= 1) ->
    forall w a pa x, path g a w d -> nth_error g a = Some pa -> wf x -> shape x = pshape pa ->
    exists y, travel vp w x = Some y /\ wf y /\ shape y = pshape pd.
  Proof using HF HA.
    intros Ed UP UL. induction w as [|b w IH]; intros a pa x P Ea Wx Sx; inversion P as [|? ? ? ? H Q]; subst.
    - exists x. rewrite Ed in Ea. injection Ea as <-. auto.
    - destruct (exists_port _ _ H) as (pa' & pb & _ & Eb).
      destruct (step_ok d a b pa pb (ex_intro _ w Q) x H Ea Eb UP (UL _ _ Q) Wx Sx) as (y & E & Wy & Sy). cbn [travel].
      destruct (vp b) as [v|]; [rewrite E|injection E as <-]; eapply IH; eauto.
  Qed.

  (** ** The search for functions ends *)
  Lemma map_opt_ok {A B} (f : A -> option B) l : (forall x, In x l -> exists y, f x = Some y) -> exists r, map_opt f l = Some r /\ List.length r = List.length l.
  Proof using.
    induction l as [|x l IH]; intro H; cbn [map_opt]; [exists []; auto|]. destruct (H x (or_introl eq_refl)) as [y ->].
    destruct IH as (r & -> & L); [intros; apply H; right; assumption|]. exists (y :: r). cbn. auto.
  Qed.
  Lemma incoming_ok N d : usual_ports g vp d -> forall f c l0, path g c l0 d -> (forall v l, path g v l c -> List.length l < f) ->
    (exists pc, nth_error g c = Some pc) -> exists r, incoming_vports f lim g N vp c = Some r.
  Proof using HF.
    intro UP. pose proof (connections_consistent_partial lim calls HF) as HC.
    induction f as [|f IH]; intros c l0 P L [pc Ec]; [specialize (L c [] (path_here _ _)); cbn in L; lia|]. cbn [incoming_vports]. rewrite Ec.
    pose proof (UP _ _ _ P Ec) as K.
    destruct (ins pc) as [|b0 bs] eqn:Ei.
    - assert (vp c = None) as Nc.
      { destruct (vp c) as [v|] eqn:Ev; [|reflexivity]. destruct (sources_run lim calls c v Ev) as [(self & o & sh & cc & _ & A2 & _) _].
        unfold ins_of in A2. rewrite Ec, Ei in A2. destruct A2. }
      assert (is_virtual (cls pc) = false) as V by (destruct (cls pc); try reflexivity; [congruence|congruence|destruct K]).
      assert (exists q, proc pc = Some q) as [q Q] by (destruct (proc pc); [eauto|destruct (cls pc); try discriminate V; congruence]).
      unfold port_key, process_of. rewrite Ec, V, Q. eauto.
    - rewrite <- Ei. destruct (map_opt_ok (incoming_vports f lim g N vp) (ins pc)) as (rs & -> & Lr).
      + intros b Hb. assert (In c (outs_of g b)) as Hc by (apply (ins_outs g HC); unfold ins_of; rewrite Ec; exact Hb).
        destruct (exists_port _ _ Hc) as (pb & _ & Eb & _).
        apply (IH b (c :: l0)); [econstructor; eauto| |eauto]. intros v l Q. specialize (L v (l ++ [c]) (path_snoc _ _ _ _ _ Q Hc)). rewrite app_length in L. cbn in L. lia.
      + rewrite Ei in Lr. destruct rs as [|r rs]; [discriminate|]. unfold with_self.
        destruct (cls pc); eauto; try contradiction; destruct (vp c); eauto; congruence.
  Qed.
  Lemma funcs_ok N d pd : usual_ports g vp d -> nth_error g d = Some pd -> (forall v l, path g v l d -> List.length l <= lim) ->
    exists fs, incoming_funcs lim g N vp d = Some fs /\ ((forall v l, path g v l d -> vp v = None) -> fs = []).
  Proof using HF.
    intros UP Ed L. pose proof (connections_consistent_partial lim calls HF) as HC. unfold incoming_funcs. rewrite Ed.
    destruct (map_opt_ok (incoming_vports lim lim g N vp) (ins pd)) as (rs & E & _).
    - intros b Hb. assert (In d (outs_of g b)) as Hd by (apply (ins_outs g HC); unfold ins_of; rewrite Ed; exact Hb).
      destruct (exists_port _ _ Hd) as (pb & _ & Eb & _).
      apply (incoming_ok N d UP lim b [d]); [econstructor; [exact Hd|constructor]| |eauto].
      intros v l Q. specialize (L v (l ++ [d]) (path_snoc _ _ _ _ _ Q Hd)). rewrite app_length in L. cbn in L. lia.
    - rewrite E. eexists. split; [reflexivity|]. intro NV.
      assert (forall r, In r rs -> snd r = []) as Z.
      { intros [k ws] Hr. apply (map_opt_in _ _ _ E) in Hr. destruct Hr as (b & Hb & Eb).
        assert (In d (outs_of g b)) as Hd by (apply (ins_outs g HC); unfold ins_of; rewrite Ed; exact Hb).
        cbn [snd]. eapply incoming_none; [exact HC|exact Eb|]. intros v l Q. apply (NV v (l ++ [d])). eapply path_snoc; eauto. }
      clear E. assert (forall d0 : list (key * list vport), fold_left (fun d r => match snd r with [] => d | v :: l => kset (fst r) (v :: l) d end) rs d0 = d0) as G; [|apply G].
      induction rs as [|r rs IH]; intro d0; cbn [fold_left]; [reflexivity|]. rewrite (Z r (or_introl eq_refl)). apply IH. intros; apply Z; right; assumption.
  Qed.
End Way.

(** ** Channels into d *)
Lemma kset_some {A} k (x : A) l : kset k x l <> [].
Proof. destruct l as [|[j y] r]; cbn [kset]; [discriminate|]. destruct (key_eqb k j); discriminate. Qed.
Lemma mapping_some lim calls N groups B d pd q s l : Forall proper calls -> let g := run_calls lim calls in let procs := List.concat groups in
  wire lim g N groups = Some B -> nth_error g d = Some pd -> cls pd = InPort -> outs pd = [] -> proc pd = Some q -> In q procs ->
  out_port g procs s -> path g s l d -> csp_port_map B q (pname N d) <> [].
Proof.
  intros HF g procs HW Ed Cd Od Pd Hq Ho P.
  unfold wire in HW. destruct (channel_builders lim g groups) as [cl|] eqn:EL; [|discriminate].
  unfold channel_builders in EL. destruct (channel_map lim g groups) as [keys|] eqn:EK; [|discriminate].
  destruct (forallb _ keys) eqn:EF; [|discriminate]. injection EL as <-.
  destruct (channel_map_exact_partial lim calls groups keys HF EK) as [_ KEYS]. fold g in KEYS.
  assert (In (s, d) keys) as K.
  { destruct Ho as (ps & r & A1 & A2 & A3 & A4). apply KEYS. split; [exists r, ps; auto|]. split; [eapply path_leads; eauto|].
    split; [intros ->; rewrite A1 in Ed; injection Ed as ->; congruence|]. split; [unfold outs_of; rewrite Ed; exact Od|].
    exists q. split; [|exact Hq]. exists pd. split; [exact Ed|]. left. rewrite Cd. auto. }
  set (cl := flat_map _ keys) in *.
  assert (In (s, d) cl) as Kc by (apply in_flat_map; exists (s, d); split; [exact K|left; reflexivity]).
  destruct (build_spec g N _ _ _ _ HW q (pname N d)) as [_ M]. rewrite M. destruct (numbered_has 0 cl (s, d) Kc) as [i Hi].
  generalize (csp_port_map no_builders q (pname N d)) as m. clear M HW. revert Hi. generalize (numbered 0 cl). induction l0 as [|ic r IH]; intros Hi m; [destruct Hi|].
  assert (forall r0 (m : list (key * nat)), m <> [] -> fold_left (fun m ic => if at_name g N q (pname N d) (snd (snd ic)) then kset (skey g N (fst (snd ic))) (fst ic) m else m) r0 m <> []) as KEEP.
  { induction r0 as [|ic0 r0 IH0]; intros m0 Hm; cbn [fold_left]; [exact Hm|]. apply IH0. destruct (at_name _ _ _ _ _); [apply kset_some|exact Hm]. }
  cbn [fold_left]. destruct Hi as [-> |Hi].
  - cbn [fst snd]. assert (at_name g N q (pname N d) d = true) as -> by (unfold at_name; rewrite Ed, Pd, Nat.eqb_refl, String.eqb_refl; reflexivity).
    apply KEEP. apply kset_some.
  - apply IH. exact Hi.
Qed.

(** the sum of arrays of the specification, element by element *)
Theorem total_pointwise : forall l acc z, total acc l = Some z ->
  exists ys, l = map Some ys /\ shape z = shape acc /\ List.length (elems z) = List.length (elems acc) /\
    Forall (fun y => shape y = shape acc /\ List.length (elems y) = List.length (elems acc)) ys /\
    forall j, nth j (elems z) 0%Z = (nth j (elems acc) 0 + fold_right Z.add 0 (map (fun y => nth j (elems y) 0) ys))%Z.
Proof.
  induction l as [|[y|] l IH]; intros acc z H; cbn [total] in H; [|unfold plus in H|discriminate].
  - injection H as <-. exists []. repeat split; [constructor|]. intro j. cbn. lia.
  - destruct (list_eqb (shape acc) (shape y)) eqn:E1; [|discriminate]. destruct (Nat.eqb_spec (List.length (elems acc)) (List.length (elems y))) as [E2|]; [|discriminate].
    cbn [andb] in H. apply Connect_Typed.list_eqb_eq in E1. destruct (IH _ _ H) as (ys & -> & S1 & L1 & F1 & P1). cbn [shape elems] in *.
    rewrite map_length, combine_length, <- E2, Nat.min_id in L1, F1.
    exists (y :: ys). split; [reflexivity|]. split; [exact S1|]. split; [exact L1|]. split; [constructor; auto|].
    intro j. rewrite P1. cbn [map fold_right]. rewrite Z.add_assoc. f_equal.
    clear - E2. revert j E2. generalize (elems acc), (elems y). induction l as [|a l IH]; intros [|b l'] j E; try discriminate E; [destruct j; reflexivity|].
    destruct j; [reflexivity|]. cbn. apply IH. injection E as E. exact E.
Qed.
Lemma total_ok l : forall acc, wf acc -> Forall (fun o => exists y, o = Some y /\ wf y /\ shape y = shape acc) l -> exists z, total acc l = Some z.
Proof.
  induction l as [|o l IH]; intros acc W F; [exists acc; reflexivity|]. inversion F as [|? ? (y & -> & Wy & Sy) F']; subst. cbn [total].
  unfold plus. rewrite Sy. assert (list_eqb (shape acc) (shape acc) = true) as -> by (apply list_eqb_spec; reflexivity).
  assert (List.length (elems acc) =? List.length (elems y) = true) as E by (apply Nat.eqb_eq; unfold wf in *; congruence). rewrite E. cbn [andb].
  apply Nat.eqb_eq in E. apply IH; [|exact F']. unfold wf in *. cbn [shape elems]. rewrite map_length, combine_length, <- E, Nat.min_id. exact W.
Qed.

(** An InPort of a compiled process receives, in every round: from each OutPort of a compiled process with a way to it the array
    sent there, rearranged on the way, and returns their sum, of its own shape; nothing fails and nothing else is added. *)
Theorem inport_value_partial : forall lim calls N groups B d pd q x,
  Forall proper calls -> Forall legal_axes calls -> let g := run_calls lim calls in let procs := List.concat groups in
  let vp := user_vports lim calls in
  wire lim g N groups = Some B -> ids_distinct g N ->
  nth_error g d = Some pd -> cls pd = InPort -> outs pd = [] -> proc pd = Some q -> In q procs ->
  joined_at_end g vp d -> one_way g d -> starts g procs d -> usual_ports g vp d ->
  (forall v l, path g v l d -> List.length l <= lim) ->
  (exists s l, out_port g procs s /\ path g s l d) \/ (forall v l, path g v l d -> vp v = None) ->
  fits g x ->
  exists p y ways ys, build_in lim g N vp B d = Some p /\ recv p (sends g N B procs x) = Some y /\
    NoDup ways /\ (forall s l, In (s, l) ways <-> out_port g procs s /\ path g s l d) /\
    Forall2 (fun sl z => travel vp (snd sl) (x (fst sl)) = Some z) ways ys /\
    wf y /\ shape y = pshape pd /\
    forall j, nth j (elems y) 0%Z = fold_right Z.add 0%Z (map (fun z => nth j (elems z) 0%Z) ys).
Proof.
  intros lim calls N groups B d pd q x HF HA g procs vp HW HI Ed Cd Od Pd Hq HJ H1 HST UP HL HS FX.
  pose proof (connections_consistent_partial lim calls HF) as HC. fold g in HC.
  destruct (funcs_ok lim calls HF N d pd UP Ed HL) as (fs & EFs & NF). fold g vp in EFs, NF.
  assert (exists p, build_in lim g N vp B d = Some p) as [p EB].
  { unfold build_in. rewrite Ed, Pd, EFs. unfold make_transformer. destruct fs as [|f0 fr]; [eauto|].
    destruct HS as [(s & l & Ho & P)|NV]; [|specialize (NF NV); discriminate].
    pose proof (mapping_some lim calls N groups B d pd q s l HF HW Ed Cd Od Pd Hq Ho P) as M. destruct (csp_port_map B q (pname N d)); [congruence|eauto]. }
  destruct (inport_receives_partial lim calls N groups B d pd q p x HF HW HI Ed Cd Od Pd Hq HJ H1 HST EB) as (ways & ND & WY & RV).
  fold g vp procs in WY, RV.
  assert (forall v l, path g v l d -> vp v <> None -> List.length (ins_of g v) <= 1) as UL.
  { intros v l P Nv. apply path_last in P as P'. destruct P' as [[_ ->]|(l' & c & -> & P' & Hc)].
    - exfalso. destruct (vp d) as [z|] eqn:Ez; [|congruence]. pose proof (user_vports_class lim calls d z pd Ez Ed) as V. rewrite Cd in V. discriminate.
    - apply (ins_outs g HC) in Hc. destruct (HJ c Hc) as [U|U]; [eapply U; eauto|]. elim Nv. eapply U; eauto. }
  assert (Forall (fun sl => exists z, travel vp (snd sl) (x (fst sl)) = Some z /\ wf z /\ shape z = pshape pd) ways) as TW.
  { apply Forall_forall. intros [s l] Hin. apply WY in Hin. destruct Hin as [(ps & r & Es & Cs & _) P]. cbn [fst snd].
    destruct (FX _ _ Es Cs) as [Wx Sx]. eapply (travel_ok lim calls HF HA d pd Ed UP UL); eauto. }
  assert (wf (zeros (pshape pd))) as WZ by (unfold wf, zeros; cbn [shape elems]; apply repeat_length).
  destruct (total_ok (map (fun sl => travel vp (snd sl) (x (fst sl))) ways) (zeros (pshape pd)) WZ) as [y Ty].
  { apply Forall_forall. intros o Ho. apply in_map_iff in Ho. destruct Ho as (sl & <- & Hin). rewrite Forall_forall in TW. exact (TW _ Hin). }
  destruct (total_pointwise _ _ _ Ty) as (ys & EY & SY & LY & _ & PY).
  exists p, y, ways, ys. split; [exact EB|]. split; [rewrite RV; exact Ty|]. split; [exact ND|]. split; [exact WY|]. split.
  { clear - EY. revert ys EY. induction ways as [|sl ways IH]; intros [|y0 ys] EY; try discriminate; constructor; cbn [map] in EY.
    - congruence.
    - apply IH. congruence. }
  split; [unfold wf in *; rewrite LY, SY; exact WZ|]. split; [exact SY|].
  intro j. rewrite PY. unfold zeros. cbn [elems]. replace (nth j (repeat 0%Z (prod (pshape pd))) 0%Z) with 0%Z; [reflexivity|].
  generalize (prod (pshape pd)) as n. clear. induction j as [|j IH]; intros [|n]; cbn; auto.
Qed.

(** When the network is compiled: if the channel map is found and no virtual port is left unconnected, all channels are built. *)
Theorem wire_succeeds : forall lim calls N groups keys, Forall proper calls -> let g := run_calls lim calls in
  channel_map lim g groups = Some keys ->
  (forall v pv, nth_error g v = Some pv -> is_virtual (cls pv) = true -> outs pv <> []) ->
  exists B, wire lim g N groups = Some B.
Proof.
  intros lim calls N groups keys HF g EK NV. destruct (channel_map_exact_partial lim calls groups keys HF EK) as [_ KEYS]. fold g in KEYS.
  assert (forall s d, In (s, d) keys -> (exists ps p, nth_error g s = Some ps /\ proc ps = Some p) /\ has_initializer g (List.concat groups) d = true /\
            exists pe p, nth_error g d = Some pe /\ proc pe = Some p) as K.
  { intros s d H. apply KEYS in H. destruct H as ((p & ps & A1 & A2 & A3 & _) & _ & _ & O & q & (pd & Ed & Bd) & Hq).
    split; [exists ps, p; auto|]. unfold outs_of in O. rewrite Ed in O.
    destruct Bd as [[V Pq]|[V _]]; [|exfalso; apply (NV d pd Ed V O)].
    split; [|exists pd, q; auto]. unfold has_initializer. rewrite Ed, V, Pq. cbn [negb andb]. apply nmemb_spec. exact Hq. }
  unfold wire, channel_builders. rewrite EK.
  assert (forallb (fun sd => has_initializer g (List.concat groups) (snd sd)) keys = true) as ->.
  { apply forallb_forall. intros [s d] H. apply (K _ _ H). }
  set (l := flat_map _ keys).
  assert (forall s d, In (s, d) l -> (exists ps p, nth_error g s = Some ps /\ proc ps = Some p) /\ exists pe p, nth_error g d = Some pe /\ proc pe = Some p) as KL.
  { intros s d H. apply in_flat_map in H. destruct H as ([s' d'] & H & I). destruct (K _ _ H) as (K1 & _ & K2). cbn [fst snd] in I.
    destruct I as [I|I]; [injection I as <- <-; auto|]. destruct (is_var_port _); [|destruct I]. destruct I as [I|[]]. injection I as <- <-. auto. }
  clearbody l. generalize no_builders as B, 0 as ch. induction l as [|[s d] l IH]; intros B ch; cbn [build_channels]; [eauto|].
  unfold build_channel. cbn [fst snd]. destruct (KL s d (or_introl eq_refl)) as [(ps & p & -> & ->) (pe & q & -> & ->)].
  apply IH. intros; apply KL; right; assumption.
Qed.
