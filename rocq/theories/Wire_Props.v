(** C99: what arrives at an InPort of a compiled network *)
From Coq Require Import List Arith ZArith Bool String Lia.
From Verif Require Import VPorts_Model Connect_Model Connect_Props Connect_Props2 Connect_Typed Network_Model Network_Props Wire_Model Wire_Spec Wire_Inv.
Import ListNotations.
Open Scope nat_scope.
Open Scope list_scope.

Lemma run_travel vp l : forall x, run_funcs (map fwd (vports_of vp l)) x = travel vp l x.
Proof.
  unfold run_funcs. induction l as [|b r IH]; intro x; [reflexivity|]. cbn [vports_of flat_map travel]. fold (vports_of vp r).
  destruct (vp b) as [v|]; cbn [app map fold_left]; [|apply IH]. destruct (fwd v x) as [y|]; [apply IH|apply run_funcs_none].
Qed.

Section Net.
  Variables (lim : nat) (g : graph) (N : naming) (vp : nat -> option vport).
  Hypothesis HC : consistent g.
  Hypothesis HV : forall a v pa, vp a = Some v -> nth_error g a = Some pa -> is_virtual (cls pa) = true.

  Lemma ins_outs a b : In b (outs_of g a) <-> In a (ins_of g b).
  Proof using HC. apply (proj1 HC). Qed.
  Lemma short_cases (l : list nat) : List.length l <= 1 -> l = [] \/ exists b, l = [b].
  Proof using. destruct l as [|b [|c r]]; intro H; [left; auto|right; eauto|cbn in H; lia]. Qed.

  (** with one connection at most into each port there is one way to c from a start *)
  Lemma way_unique : forall l l' s s' c, path g s l c -> path g s' l' c -> ins_of g s = [] -> ins_of g s' = [] ->
    (forall v m, path g v m c -> List.length (ins_of g v) <= 1) -> s = s' /\ l = l'.
  Proof using HC.
    intro l. induction l as [|b0 l0 IH] using rev_ind; intros l' s s' c P P' I I' U.
    - apply path_last in P. destruct P as [[_ ->]|(m & b & E & _)]; [|destruct m; discriminate].
      apply path_last in P'. destruct P' as [[-> ->]|(m & b & _ & _ & H)]; [auto|]. apply ins_outs in H. rewrite I in H. destruct H.
    - apply path_last in P. destruct P as [[E _]|(m & b & E & P & H)]; [destruct l0; discriminate|].
      apply app_inj_tail in E. destruct E as [<- ->].
      apply path_last in P'. destruct P' as [[-> ->]|(m' & b' & -> & P' & H')].
      + apply ins_outs in H. rewrite I' in H. destruct H.
      + assert (b' = b) as ->.
        { apply ins_outs in H, H'. pose proof (U c [] (path_here g c)) as Hs.
          destruct (short_cases _ Hs) as [Z|[z Z]]; rewrite Z in H, H'; [destruct H|].
          destruct H as [<-|[]]. destruct H' as [<-|[]]. reflexivity. }
        destruct (IH m' s s' b P P' I I') as [-> ->]; [|auto].
        intros v w Q. apply (U v (w ++ [c])). eapply path_snoc; eauto.
  Qed.
  Lemma incoming_way f : forall c k vs, incoming_vports f lim g N vp c = Some (k, vs) ->
    (forall v l, path g v l c -> List.length (ins_of g v) <= 1) ->
    exists s l, path g s l c /\ ins_of g s = [] /\ port_key lim g N s = Some k /\ vs = vports_of vp l.
  Proof using HC HV.
    induction f as [|f IH]; intros c k vs H U; [discriminate|]. cbn [incoming_vports] in H.
    destruct (nth_error g c) as [p|] eqn:E; [|discriminate].
    assert (ins_of g c = ins p) as Ei by (unfold ins_of; rewrite E; reflexivity).
    pose proof (U c [] (path_here g c)) as Hs. rewrite Ei in Hs.
    destruct (short_cases _ Hs) as [Z|[b Z]]; rewrite Z in H.
    - destruct (port_key lim g N c) as [k'|] eqn:Ek; [|discriminate]. injection H as <- <-.
      exists c, []. split; [constructor|]. split; [congruence|]. auto.
    - cbn [map_opt] in H. destruct (incoming_vports f lim g N vp b) as [[k' ws]|] eqn:Eb; [|discriminate].
      cbn [last map List.concat fst snd] in H. rewrite app_nil_r in H.
      assert (In c (outs_of g b)) as Hc by (apply ins_outs; rewrite Ei, Z; left; reflexivity).
      destruct (IH b k' ws Eb) as (s & l & P & I & K & W).
      { intros v w Q. apply (U v (w ++ [c])). eapply path_snoc; eauto. }
      exists s, (l ++ [c]). split; [eapply path_snoc; eauto|]. split; [exact I|].
      unfold with_self in H. rewrite vports_app. unfold vports_of at 2. cbn [flat_map]. rewrite app_nil_r.
      assert (is_virtual (cls p) = false -> vp c = None) as NV.
      { intro F. destruct (vp c) as [v|] eqn:Ev; [|reflexivity]. rewrite (HV _ _ _ Ev E) in F. discriminate. }
      destruct (cls p) eqn:Ec; cbn [fst snd] in H; try discriminate;
        try (injection H as <- <-; rewrite NV by reflexivity; rewrite app_nil_r; auto; fail);
        (destruct (vp c) as [v|]; [|discriminate]; injection H as <- <-; rewrite W; auto).
  Qed.

  (** without virtual ports, joins or not *)
  Lemma vports_none : forall w s c, path g s w c -> (forall v l, path g v l c -> vp v = None) -> vports_of vp w = [].
  Proof using.
    induction w as [|b w IH]; intros s c P U; [reflexivity|]. inversion P; subst. unfold vports_of. cbn [flat_map]. fold (vports_of vp w).
    rewrite (U b w) by assumption. cbn [app]. eapply IH; eauto.
  Qed.
  Lemma incoming_none f : forall c k vs, incoming_vports f lim g N vp c = Some (k, vs) -> (forall v l, path g v l c -> vp v = None) -> vs = [].
  Proof using HC.
    induction f as [|f IH]; intros c k vs H U; [discriminate|]. cbn [incoming_vports] in H.
    destruct (nth_error g c) as [p|] eqn:E; [|discriminate].
    destruct (ins p) as [|b0 bs] eqn:Ei.
    - destruct (port_key lim g N c); [|discriminate]. congruence.
    - rewrite <- Ei in H. destruct (map_opt (incoming_vports f lim g N vp) (ins p)) as [[|r rs]|] eqn:ER; try discriminate.
      assert (forall x, In x (r :: rs) -> snd x = []) as Z.
      { intros [k' ws] Hx. apply (map_opt_in _ _ _ ER) in Hx. destruct Hx as (b & Hb & Eb). cbn [snd]. eapply IH; [exact Eb|].
        intros v l Q. apply (U v (l ++ [c])). eapply path_snoc; [exact Q|]. apply ins_outs. unfold ins_of. rewrite E. exact Hb. }
      assert (List.concat (map snd (r :: rs)) = []) as Y.
      { clear - Z. induction (r :: rs) as [|y ys IH]; [reflexivity|]. cbn [map List.concat]. rewrite (Z y) by (left; reflexivity). apply IH. intros; apply Z; right; assumption. }
      rewrite Y in H. unfold with_self in H. rewrite (U c []) in H by constructor. destruct (cls p); cbn [fst snd] in H; congruence.
  Qed.

  (** ** Channels *)
  Definition at_name (p : nat) (n : string) (a : nat) : bool :=
    match nth_error g a with
    | Some q => match proc q with Some r => (p =? r) && String.eqb n (pname N a) | None => false end
    | None => false
    end.
  Definition skey (a : nat) : key :=
    (match nth_error g a with Some q => match proc q with Some r => pid N r | None => 0%Z end | None => 0%Z end, pname N a).
  Definition ends (p : nat) (n : string) (ic : nat * (nat * nat)) : list csp :=
    (if at_name p n (fst (snd ic)) then [CspSend (fst ic)] else []) ++ (if at_name p n (snd (snd ic)) then [CspRecv (fst ic)] else []).
  Definition numbered (ch : nat) (l : list (nat * nat)) := combine (seq ch (List.length l)) l.
  Lemma build_spec l : forall ch B B', build_channels g N B ch l = Some B' -> forall p n,
    csp_ports B' p n = csp_ports B p n ++ flat_map (ends p n) (numbered ch l) /\
    csp_port_map B' p n = fold_left (fun m ic => if at_name p n (snd (snd ic)) then kset (skey (fst (snd ic))) (fst ic) m else m)
                            (numbered ch l) (csp_port_map B p n).
  Proof using.
    induction l as [|[s d] l IH]; intros ch B B' H p n; cbn [build_channels] in H.
    - injection H as <-. cbn. rewrite app_nil_r. auto.
    - destruct (build_channel g N B ch (s, d)) as [B1|] eqn:E1; [|discriminate].
      destruct (IH _ _ _ H p n) as [C M]. unfold numbered. cbn [List.length seq combine flat_map fold_left].
      fold (numbered (S ch) l). rewrite C, M. clear IH H C M. unfold build_channel in E1. cbn [fst snd] in E1.
      unfold ends, at_name, skey. cbn [fst snd].
      destruct (nth_error g s) as [ps|] eqn:Es; [|discriminate]. destruct (nth_error g d) as [pd|] eqn:Ed; [|discriminate].
      destruct (proc ps) as [q|]; [|discriminate]. destruct (proc pd) as [r|]; [|discriminate]. injection E1 as <-.
      cbn [add_mapping set_csp_port csp_ports csp_port_map]. split.
      + rewrite app_assoc. f_equal. unfold upd2.
        destruct ((p =? r) && String.eqb n (pname N d)) eqn:A; destruct ((p =? q) && String.eqb n (pname N s)) eqn:A2;
          cbn [app]; rewrite ?app_nil_r; try reflexivity.
        * apply andb_prop in A. destruct A as [A1 A3]. apply Nat.eqb_eq in A1. apply String.eqb_eq in A3. subst r n.
          rewrite A2. apply andb_prop in A2. destruct A2 as [A1 A3]. apply Nat.eqb_eq in A1. apply String.eqb_eq in A3. subst q.
          rewrite A3, <- app_assoc. reflexivity.
        * apply andb_prop in A. destruct A as [A1 A3]. apply Nat.eqb_eq in A1. apply String.eqb_eq in A3. subst r n.
          rewrite A2. reflexivity.
        * apply andb_prop in A2. destruct A2 as [A1 A3]. apply Nat.eqb_eq in A1. apply String.eqb_eq in A3. subst q n. reflexivity.
      + f_equal. unfold upd2. destruct ((p =? r) && String.eqb n (pname N d)) eqn:A; [|reflexivity].
        apply andb_prop in A. destruct A as [A1 A3]. apply Nat.eqb_eq in A1. apply String.eqb_eq in A3. subst r n. reflexivity.
  Qed.

  Lemma numbered_in ch l i sd : In (i, sd) (numbered ch l) -> In sd l /\ ch <= i.
  Proof using. unfold numbered. intro H. split; [eapply in_combine_r; eauto|]. apply in_combine_l, in_seq in H. lia. Qed.
  Lemma numbered_has ch l sd : In sd l -> exists i, In (i, sd) (numbered ch l).
  Proof using.
    unfold numbered. revert ch. induction l as [|x l IH]; intros ch; [intros []|]. cbn [List.length seq combine]. intros [-> |H].
    - exists ch. left. reflexivity.
    - destruct (IH (S ch) H) as [i Hi]. exists i. right. exact Hi.
  Qed.
  Lemma numbered_fun ch l i a b : In (i, a) (numbered ch l) -> In (i, b) (numbered ch l) -> a = b.
  Proof using.
    unfold numbered. revert ch. induction l as [|x l IH]; intros ch; [intros []|]. cbn [List.length seq combine].
    intros [H|H] [H'|H'].
    - congruence.
    - injection H as -> ->. apply (numbered_in (S i) l) in H'. lia.
    - injection H' as -> ->. apply (numbered_in (S i) l) in H. lia.
    - eapply IH; eauto.
  Qed.
  Lemma numbered_filter P ch l : map snd (filter (fun ic => P (snd ic)) (numbered ch l)) = filter P l.
  Proof using.
    unfold numbered. revert ch. induction l as [|x l IH]; intro ch; [reflexivity|]. cbn [List.length seq combine filter snd].
    destruct (P x); cbn [map snd]; rewrite IH; reflexivity.
  Qed.

  (** Distinct names: the tables of a port have what belongs to this port *)
  Hypothesis HI : ids_distinct g N.
  Lemma at_own a d pa pd q : nth_error g a = Some pa -> nth_error g d = Some pd -> is_virtual (cls pa) = false ->
    is_virtual (cls pd) = false -> (exists r, proc pa = Some r) -> proc pd = Some q -> at_name q (pname N d) a = (a =? d).
  Proof using HI.
    intros Ea Ed Va Vd [r Er] Eq. unfold at_name. rewrite Ea, Er. destruct (Nat.eqb_spec a d) as [-> |NE].
    - rewrite Ea in Ed. injection Ed as ->. rewrite Er in Eq. injection Eq as ->. rewrite Nat.eqb_refl, String.eqb_refl. reflexivity.
    - destruct (Nat.eqb_spec q r) as [-> |]; [|reflexivity]. destruct (String.eqb_spec (pname N d) (pname N a)) as [E|]; [|reflexivity].
      exfalso. apply NE. eapply HI; eauto.
  Qed.
  Definition sound_ends (l : list (nat * nat)) : Prop := forall s d, In (s, d) l ->
    (exists ps p, nth_error g s = Some ps /\ is_virtual (cls ps) = false /\ proc ps = Some p) /\
    (exists pd p, nth_error g d = Some pd /\ is_virtual (cls pd) = false /\ proc pd = Some p).
  Lemma fold_kset (D : list (nat * (nat * nat))) : forall m, NoDup (map fst m ++ map (fun ic => skey (fst (snd ic))) D) ->
    fold_left (fun m ic => kset (skey (fst (snd ic))) (fst ic) m) D m = m ++ map (fun ic => (skey (fst (snd ic)), fst ic)) D.
  Proof using.
    induction D as [|ic D IH]; intros m H; cbn [fold_left map]; [rewrite app_nil_r; reflexivity|].
    cbn [map] in H. rewrite kset_new.
    - rewrite IH; [rewrite <- app_assoc; reflexivity|]. rewrite map_app. cbn [map fst]. rewrite <- app_assoc. exact H.
    - apply NoDup_remove_2 in H. intro F. apply H. apply in_or_app. left. exact F.
  Qed.
  Lemma fold_filter {A} (P : nat * (nat * nat) -> bool) (f : A -> nat * (nat * nat) -> A) D : forall m,
    fold_left (fun m ic => if P ic then f m ic else m) D m = fold_left f (filter P D) m.
  Proof using. induction D as [|ic D IH]; intro m; cbn [fold_left filter]; [reflexivity|]. destruct (P ic); cbn [fold_left]; apply IH. Qed.
  Lemma skey_inj a b pa pb p q : nth_error g a = Some pa -> nth_error g b = Some pb -> is_virtual (cls pa) = false ->
    is_virtual (cls pb) = false -> proc pa = Some p -> proc pb = Some q -> skey a = skey b -> a = b.
  Proof using HI.
    intros Ea Eb Va Vb P Q. unfold skey. rewrite Ea, Eb, P, Q. intro H. injection H as H1 H2. eapply HI; eauto.
  Qed.
  Lemma NoDup_map_inj {A B} (f : A -> B) l : (forall x y, In x l -> In y l -> f x = f y -> x = y) -> NoDup l -> NoDup (map f l).
  Proof using.
    intros I H. induction H as [|x l Hx Hl IH]; cbn [map]; [constructor|]. constructor.
    - intro F. apply in_map_iff in F. destruct F as (y & E & Hy). apply Hx. rewrite <- (I y x); [exact Hy|right; exact Hy|left; reflexivity|exact E].
    - apply IH. intros y z Hy Hz. apply I; right; assumption.
  Qed.

  (** the tables of a port d that is only a destination *)
  Lemma tables_dst l B d pd q : build_channels g N no_builders 0 l = Some B -> sound_ends l ->
    nth_error g d = Some pd -> is_virtual (cls pd) = false -> proc pd = Some q ->
    (forall s e, In (s, e) l -> s <> d) -> NoDup (filter (fun sd => snd sd =? d) l) ->
    let D := filter (fun ic => snd (snd ic) =? d) (numbered 0 l) in
    csp_ports B q (pname N d) = map (fun ic => CspRecv (fst ic)) D /\
    csp_port_map B q (pname N d) = map (fun ic => (skey (fst (snd ic)), fst ic)) D.
  Proof using HI.
    intros HB HS Ed Vd Pd Hsrc HN D. destruct (build_spec _ _ _ _ HB q (pname N d)) as [C M]. cbn [no_builders csp_ports csp_port_map app] in C, M.
    rewrite C, M. clear C M.
    assert (forall ic, In ic (numbered 0 l) -> at_name q (pname N d) (fst (snd ic)) = false /\ at_name q (pname N d) (snd (snd ic)) = (snd (snd ic) =? d)) as HA.
    { intros [i [s e]] Hic. cbn [fst snd]. apply numbered_in in Hic. destruct Hic as [Hic _]. destruct (HS _ _ Hic) as [(ps & p & E1 & V1 & P1) (pe & p' & E2 & V2 & P2)].
      rewrite (at_own s d ps pd q) by eauto. rewrite (at_own e d pe pd q) by eauto.
      destruct (Nat.eqb_spec s d) as [X|X]; [exfalso; exact (Hsrc _ _ Hic X)|auto]. }
    split.
    - unfold D. clear D HN. revert HA. generalize (numbered 0 l). induction l0 as [|ic r IH]; intro HA; [reflexivity|].
      cbn [flat_map filter]. rewrite IH by (intros; apply HA; right; assumption).
      destruct (HA ic (or_introl eq_refl)) as [A1 A2]. unfold ends. rewrite A1, A2.
      destruct (snd (snd ic) =? d); reflexivity.
    - rewrite (fold_filter (fun ic => at_name q (pname N d) (snd (snd ic)))).
      assert (filter (fun ic => at_name q (pname N d) (snd (snd ic))) (numbered 0 l) = D) as ->.
      { unfold D. clear D HN. revert HA. generalize (numbered 0 l). induction l0 as [|ic r IH]; intro HA; [reflexivity|].
        cbn [filter]. rewrite (proj2 (HA ic (or_introl eq_refl))), IH by (intros; apply HA; right; assumption). reflexivity. }
      rewrite fold_kset; [reflexivity|]. cbn [map app].
      assert (map (fun ic : nat * (nat * nat) => skey (fst (snd ic))) D = map (fun sd => skey (fst sd)) (filter (fun sd => snd sd =? d) l)) as ->.
      { rewrite <- (numbered_filter (fun sd => snd sd =? d) 0 l), map_map. reflexivity. }
      apply NoDup_map_inj; [|exact HN]. intros [s e] [s' e'] H1 H2 K. apply filter_In in H1, H2. cbn [fst snd] in *.
      destruct H1 as [H1 X1], H2 as [H2 X2]. apply Nat.eqb_eq in X1, X2. subst e e'. f_equal.
      destruct (HS _ _ H1) as [(ps & p & E1 & V1 & P1) _]. destruct (HS _ _ H2) as [(ps' & p' & E1' & V1' & P1') _]. eapply skey_inj; eauto.
  Qed.

  (** what an OutPort sends is on each of its channels *)
  Lemma sends_on l B procs x i s e : build_channels g N no_builders 0 l = Some B -> sound_ends l ->
    In (i, (s, e)) (numbered 0 l) -> out_port g procs s -> assoc i (sends g N B procs x) = Some (x s).
  Proof using HI.
    intros HB HS Hi (ps & p & Es & Cs & Ps & Hp).
    assert (forall a pa r j, nth_error g a = Some pa -> cls pa = OutPort -> proc pa = Some r ->
              (In (CspSend j) (csp_ports B r (pname N a)) <-> exists e', In (j, (a, e')) (numbered 0 l))) as HA.
    { intros a pa r j Ea Ca Pa. destruct (build_spec _ _ _ _ HB r (pname N a)) as [C _]. cbn [no_builders csp_ports app] in C. rewrite C, in_flat_map. split.
      - intros ([j' [s' e']] & Hin & H). pose proof (numbered_in _ _ _ _ Hin) as [Hl _]. destruct (HS _ _ Hl) as [(ps' & p' & E1 & V1 & P1) _].
        unfold ends in H. cbn [fst snd] in H. rewrite (at_own s' a ps' pa r) in H by (eauto; rewrite Ca; reflexivity).
        apply in_app_or in H. destruct H as [H|H].
        + destruct (Nat.eqb_spec s' a) as [-> |]; [|destruct H]. destruct H as [H|[]]. injection H as ->. eauto.
        + destruct (at_name _ _ e'); [|destruct H]. destruct H as [H|[]]. discriminate.
      - intros (e' & Hin). exists (j, (a, e')). split; [exact Hin|]. unfold ends. cbn [fst snd].
        rewrite (at_own a a pa pa r) by (eauto; rewrite Ca; reflexivity). rewrite Nat.eqb_refl. left. reflexivity. }
    assert (forall a, In a (out_ports g procs) <-> out_port g procs a) as HO.
    { intro a. unfold out_ports, out_port. rewrite in_flat_map. split.
      - intros (r & Hr & H). apply owned_spec in H. destruct H as (pa & Ea & Ca & Pa). exists pa, r. repeat split; auto. destruct (cls pa); try discriminate; reflexivity.
      - intros (pa & r & Ea & Ca & Pa & Hr). exists r. split; [exact Hr|]. apply owned_spec. exists pa. rewrite Ca. auto. }
    assert (forall j y, In (j, y) (sends g N B procs x) <-> exists a e', out_port g procs a /\ In (j, (a, e')) (numbered 0 l) /\ y = x a) as HX.
    { intros j y. unfold sends. rewrite in_flat_map. split.
      - intros (a & Ha & H). apply HO in Ha. destruct (Ha) as (pa & r & Ea & Ca & Pa & Hr). rewrite Ea, Pa in H. apply in_flat_map in H.
        destruct H as ([j'|j'] & Hc & H); [|destruct H]. destruct H as [H|[]]. injection H as -> <-.
        apply (HA _ _ _ _ Ea Ca Pa) in Hc. destruct Hc as [e' He]. exists a, e'. auto.
      - intros (a & e' & Ha & Hin & ->). exists a. split; [apply HO; exact Ha|]. destruct Ha as (pa & r & Ea & Ca & Pa & Hr). rewrite Ea, Pa.
        apply in_flat_map. exists (CspSend j). split; [apply (HA _ _ _ _ Ea Ca Pa); eauto|left; reflexivity]. }
    apply assoc_some.
    - apply HX. exists s, e. split; [exists ps, p; auto|auto].
    - intros y Hy. apply HX in Hy. destruct Hy as (a & e' & _ & Hin & ->). pose proof (numbered_fun _ _ _ _ _ Hi Hin) as X. congruence.
  Qed.
  Lemma recv_total procs x B tr (D : list (nat * (nat * nat))) : (forall ic, In ic D -> assoc (fst ic) (sends g N B procs x) = Some (x (fst (snd ic)))) ->
    forall L acc, map fst L = map (fun ic => fst (snd ic)) D ->
    Forall2 (fun ic sl => transform fwd tr (fst ic) (x (fst sl)) = travel vp (snd sl) (x (fst sl))) D L ->
    recv_loop tr (sends g N B procs x) (map (fun ic => CspRecv (fst ic)) D) acc = total acc (map (fun sl => travel vp (snd sl) (x (fst sl))) L).
  Proof using.
    intros HA. induction D as [|ic D IH]; intros L acc E F; inversion F as [|? sl ? L' Ht F' Q1 Q2]; subst; [reflexivity|].
    cbn [map] in E. injection E as E1 E2. cbn [map recv_loop total].
    rewrite (HA ic (or_introl eq_refl)), <- E1, Ht. destruct (travel vp (snd sl) (x (fst sl))) as [y|]; [|reflexivity].
    destruct (plus acc y) as [z|]; [|reflexivity]. apply IH; auto. intros; apply HA; right; assumption.
  Qed.
End Net.

(** the pairs into an InPort or a VarPort *)
Lemma builders_into g keys d : (forall s e, In (s, e) keys -> s <> d) ->
  filter (fun sd => snd sd =? d) (flat_map (fun sd => sd :: (if is_var_port (class_of g (snd sd)) then [(snd sd, fst sd)] else [])) keys)
  = filter (fun sd => snd sd =? d) keys.
Proof.
  induction keys as [|[s e] r IH]; intro H; [reflexivity|]. cbn [flat_map filter snd fst app].
  assert (s =? d = false) as Hs by (apply Nat.eqb_neq, (H s e); left; reflexivity).
  assert (filter (fun sd => snd sd =? d) ((if is_var_port (class_of g e) then [(e, s)] else []) ++
     flat_map (fun sd => sd :: (if is_var_port (class_of g (snd sd)) then [(snd sd, fst sd)] else [])) r) = filter (fun sd => snd sd =? d) r) as E.
  { destruct (is_var_port (class_of g e)); cbn [app filter snd]; [rewrite Hs|]; (apply IH; intros; apply (H s0 e0); right; assumption). }
  rewrite E. reflexivity.
Qed.
Lemma choose_paths (P : nat -> list nat -> Prop) ss : (forall s, In s ss -> exists l, P s l) ->
  exists L, map fst L = ss /\ Forall (fun sl => P (fst sl) (snd sl)) L.
Proof.
  induction ss as [|s r IH]; intro H; [exists []; split; [reflexivity|constructor]|].
  destruct (H s (or_introl eq_refl)) as [l Hl]. destruct IH as (L & E & F); [intros; apply H; right; assumption|].
  exists ((s, l) :: L). cbn [map fst]. rewrite E. split; [reflexivity|]. constructor; auto.
Qed.

(** ** The InPort receives, from each OutPort with a way to it, what was sent there, rearranged by the virtual ports on the way,
    and nothing else: one round of messages. *)
Theorem inport_receives_partial : forall lim calls N groups B d pd q p x,
  Forall proper calls -> let g := run_calls lim calls in let procs := List.concat groups in
  wire lim g N groups = Some B -> ids_distinct g N ->
  nth_error g d = Some pd -> cls pd = InPort -> outs pd = [] -> proc pd = Some q -> In q procs ->
  joined_at_end g (user_vports lim calls) d -> one_way g d -> starts g procs d ->
  build_in lim g N (user_vports lim calls) B d = Some p ->
  exists ways, NoDup ways /\
    (forall s l, In (s, l) ways <-> out_port g procs s /\ path g s l d) /\
    recv p (sends g N B procs x) =
      total (zeros (pshape pd)) (map (fun sl => travel (user_vports lim calls) (snd sl) (x (fst sl))) ways).
Proof.
  intros lim calls N groups B d pd q p x HF g procs HW HI Ed Cd Od Pd Hq HJ H1 HST HB.
  pose proof (connections_consistent_partial lim calls HF) as HC. fold g in HC.
  set (vp := user_vports lim calls) in *.
  assert (forall a v pa, vp a = Some v -> nth_error g a = Some pa -> is_virtual (cls pa) = true) as HV by (intros; eapply user_vports_class; eauto).
  unfold wire in HW. destruct (channel_builders lim g groups) as [l|] eqn:EL; [|discriminate].
  unfold channel_builders in EL. destruct (channel_map lim g groups) as [keys|] eqn:EK; [|discriminate].
  destruct (forallb _ keys) eqn:EF; [|discriminate]. injection EL as <-.
  destruct (channel_map_exact_partial lim calls groups keys HF EK) as [ND KEYS]. fold g in KEYS. rewrite forallb_forall in EF.
  set (l := flat_map (fun sd => sd :: (if is_var_port (class_of g (snd sd)) then [(snd sd, fst sd)] else [])) keys) in *.
  assert (forall s e, In (s, e) keys -> exists ps r, nth_error g s = Some ps /\ proc ps = Some r /\ In r procs /\ (cls ps = OutPort \/ cls ps = RefPort)) as KS.
  { intros s e H. apply KEYS in H. destruct H as [(r & ps & A1 & A2 & A3 & A4) _]. exists ps, r. auto. }
  assert (forall (s e : nat), In (s, e) keys -> exists pe r, nth_error g e = Some pe /\ is_virtual (cls pe) = false /\ proc pe = Some r) as KD.
  { intros s e H. specialize (EF _ H). cbn [snd] in EF. unfold has_initializer in EF. destruct (nth_error g e) as [pe|]; [|discriminate].
    apply andb_prop in EF. destruct EF as [X Y]. destruct (proc pe) as [r|] eqn:Epe; [|discriminate]. apply negb_true_iff in X. exists pe, r. auto. }
  assert (sound_ends g l) as HS.
  { intros s e H. unfold l in H. apply in_flat_map in H. destruct H as ([s' e'] & Hk & H). cbn [fst snd] in H.
    destruct (KS _ _ Hk) as (ps & r & A1 & A2 & _ & A3). destruct (KD _ _ Hk) as (pe & r' & B1 & B2 & B3).
    assert (is_virtual (cls ps) = false) as V by (destruct A3 as [-> | ->]; reflexivity).
    destruct H as [H|H]; [injection H as <- <-; split; [exists ps, r|exists pe, r']; auto|].
    destruct (is_var_port _); [|destruct H]. destruct H as [H|[]]. injection H as <- <-. split; [exists pe, r'|exists ps, r]; auto. }
  assert (forall s e, In (s, e) keys -> s <> d) as Ksd.
  { intros s e H ->. destruct (KS _ _ H) as (ps & r & A1 & _ & _ & A3). rewrite A1 in Ed. injection Ed as <-. rewrite Cd in A3. destruct A3; discriminate. }
  assert (forall s e, In (s, e) l -> s <> d) as Lsd.
  { intros s e H. unfold l in H. apply in_flat_map in H. destruct H as ([s' e'] & Hk & H). cbn [fst snd] in H.
    destruct H as [H|H]; [injection H as <- <-; eapply Ksd; eauto|].
    destruct (is_var_port (class_of g e')) eqn:Ev; [|destruct H]. destruct H as [H|[]]. injection H as <- <-. intros ->.
    unfold class_of in Ev. rewrite Ed, Cd in Ev. discriminate. }
  assert (filter (fun sd => snd sd =? d) l = filter (fun sd => snd sd =? d) keys) as EFl by (apply builders_into; exact Ksd).
  assert (is_virtual (cls pd) = false) as Vd by (rewrite Cd; reflexivity).
  destruct (tables_dst g N HI l B d pd q HW HS Ed Vd Pd Lsd) as [TC TM]; [rewrite EFl; apply NoDup_filter; exact ND|].
  set (D := filter (fun ic => snd (snd ic) =? d) (numbered 0 l)) in *.
  assert (map snd D = filter (fun sd => snd sd =? d) keys) as ED by (unfold D; rewrite (numbered_filter (fun sd => snd sd =? d)); exact EFl).
  assert (map (fun ic => fst (snd ic)) D = map fst (filter (fun sd => snd sd =? d) keys)) as ES by (rewrite <- ED, map_map; reflexivity).
  (* the sources *)
  assert (forall s, In s (map fst (filter (fun sd => snd sd =? d) keys)) <-> out_port g procs s /\ leads_to g s d) as SRC.
  { intro s. rewrite in_map_iff. split.
    - intros ([s' e] & <- & H). apply filter_In in H. destruct H as [H X]. cbn [snd fst] in *. apply Nat.eqb_eq in X. subst e.
      destruct (KS _ _ H) as (ps & r & A1 & A2 & A3 & A4). apply KEYS in H. destruct H as (_ & HL & _). split; [|exact HL].
      exists ps, r. destruct A4 as [A4|A4]; [auto|]. exfalso.
      assert (chain g s' d) as HCh.
      { clear - HL. induction HL as [a|a b c H HL IH]; [constructor|]. econstructor; [left; exact H|exact IH]. }
      assert (is_virtual (cls ps) = false) as V by (rewrite A4; reflexivity).
      pose proof (chains_keep_kind lim calls s' d ps pd HCh A1 Ed V Vd) as K. rewrite A4, Cd in K. discriminate.
    - intros [(ps & r & A1 & A2 & A3 & A4) HL]. exists (s, d). split; [reflexivity|]. apply filter_In. cbn [snd]. rewrite Nat.eqb_refl. split; [|reflexivity].
      apply KEYS. split; [exists r, ps; auto|]. split; [exact HL|]. split; [intros ->; rewrite A1 in Ed; injection Ed as ->; congruence|].
      split; [unfold outs_of; rewrite Ed; exact Od|]. exists q. split; [|exact Hq]. exists pd. split; [exact Ed|]. left. auto. }
  assert (NoDup (map fst (filter (fun sd => snd sd =? d) keys))) as NDs.
  { apply NoDup_map_inj; [|apply NoDup_filter; exact ND]. intros [a b] [a' b'] Ha Hb E. apply filter_In in Ha, Hb. cbn [fst snd] in *.
    destruct Ha as [_ Ha], Hb as [_ Hb]. apply Nat.eqb_eq in Ha, Hb. congruence. }
  destruct (choose_paths (fun s l => path g s l d) (map fst (filter (fun sd => snd sd =? d) keys))) as (ways & WE & WF).
  { intros s H. apply SRC in H. apply leads_path. tauto. }
  exists ways. split; [rewrite <- WE in NDs; eapply NoDup_map_inv; exact NDs|]. split.
  { intros s w. split.
    - intro H. rewrite Forall_forall in WF. split; [|exact (WF _ H)]. apply (SRC s). rewrite <- WE. apply in_map_iff. exists (s, w). auto.
    - intros [Ho Hp]. assert (In s (map fst ways)) as Hin by (rewrite WE; apply SRC; split; [exact Ho|eapply path_leads; eauto]).
      apply in_map_iff in Hin. destruct Hin as ([s' w'] & <- & Hin). cbn [fst] in *. rewrite Forall_forall in WF. specialize (WF _ Hin). cbn [fst snd] in WF.
      rewrite (H1 _ _ _ Hp WF). exact Hin. }
  (* the port *)
  unfold build_in in HB. rewrite Ed, Pd in HB. destruct (incoming_funcs lim g N vp d) as [funcs|] eqn:EFu; [|discriminate].
  destruct (make_transformer (csp_port_map B q (pname N d)) funcs) as [tr|] eqn:ET; [|discriminate]. injection HB as <-.
  unfold recv. cbn [in_tr in_csp in_shape]. rewrite TC. apply recv_total.
  - intros ic Hic. destruct ic as [i [s e]]. cbn [fst snd].
    assert (In s (map fst (filter (fun sd => snd sd =? d) keys))) as Hs by (rewrite <- ES; apply in_map_iff; exists (i, (s, e)); auto).
    apply SRC in Hs. unfold D in Hic. apply filter_In in Hic. eapply sends_on; [exact HI|exact HW|exact HS|exact (proj1 Hic)|exact (proj1 Hs)].
  - congruence.
  - (* transformations *)
    assert (forall i s e w, In (i, (s, e)) D -> path g s w d -> transform fwd tr i (x s) = travel vp w (x s)) as HT.
    { intros i s e w Hic P.
      assert (out_port g procs s) as Ho.
      { apply (SRC s). rewrite <- ES. apply in_map_iff. exists (i, (s, e)). auto. }
      assert (s <> d) as Nsd by (intros ->; destruct Ho as (? & ? & E1 & E2 & _); rewrite Ed in E1; injection E1 as <-; congruence).
      pose proof (HST _ _ Ho P) as Is.
      apply path_last in P as P'. destruct P' as [[_ X]|(w' & c & -> & P' & Hc)]; [contradiction|].
      assert (vp d = None) as Nvd by (destruct (vp d) as [v|] eqn:Ev; [|reflexivity]; rewrite (HV _ _ _ Ev Ed) in Vd; discriminate).
      rewrite <- (run_travel vp (w' ++ [d])), vports_app. unfold vports_of at 2. cbn [flat_map]. rewrite Nvd. cbn [app]. rewrite app_nil_r.
      unfold incoming_funcs in EFu. rewrite Ed in EFu. destruct (map_opt _ (ins pd)) as [rs|] eqn:ER; [|discriminate]. injection EFu as <-.
      set (kt := fold_left _ rs []) in *.
      assert (exists ps r, nth_error g s = Some ps /\ is_virtual (cls ps) = false /\ proc ps = Some r) as (ps & r & Es & Vs & Prs).
      { destruct Ho as (ps & r & E1 & E2 & E3 & _). exists ps, r. rewrite E2. auto. }
      assert (port_key lim g N s = Some (skey g N s)) as PK.
      { unfold port_key, process_of, skey. rewrite Es, Vs, Prs. reflexivity. }
      (* all entries for the key of s come from the way of s *)
      assert (forall c', In c' (ins pd) -> (forall v m, path g v m c' -> List.length (ins_of g v) <= 1) \/ (forall v m, path g v m c' -> vp v = None)) as HU.
      { intros c' Hc'. apply HJ. unfold ins_of. rewrite Ed. exact Hc'. }
      assert (forall ws, In (skey g N s, ws) rs -> ws <> [] -> ws = vports_of vp w') as HR.
      { intros ws Hws Nws. apply (map_opt_in _ _ _ ER) in Hws. destruct Hws as (c' & Hc' & Eq).
        destruct (HU c' Hc') as [U|U]; [|elim Nws; eapply incoming_none; eauto].
        destruct (incoming_way lim g N vp HC HV _ _ _ _ Eq U) as (s2 & l2 & P2 & I2 & K2 & ->).
        assert (s2 = s) as ->.
        { unfold port_key in K2. destruct (process_of lim g s2) as [r2|] eqn:Ep2; [|discriminate]. injection K2 as K2a K2b.
          apply belongs_iff in Ep2. destruct Ep2 as (p2 & E2 & [[V2 Q2]|[_ (a & la & ra & S2 & _)]]).
          - unfold skey in K2a. rewrite Es, Prs in K2a. eapply HI; eauto.
          - destruct lim as [|lm]; [discriminate|]. cbn [src_ports] in S2. rewrite E2 in S2. unfold ins_of in I2. rewrite E2 in I2. rewrite I2 in S2. discriminate. }
        assert (In d (outs_of g c')) as Hd by (apply (ins_outs g HC); unfold ins_of; rewrite Ed; exact Hc').
        pose proof (H1 _ _ _ (path_snoc g s l2 c' d P2 Hd) P) as Z. apply app_inj_tail in Z. destruct Z as [-> _]. reflexivity. }
      assert (vports_of vp w' <> [] -> In (skey g N s, vports_of vp w') rs) as Hws.
      { intro Nw. assert (In c (ins pd)) as Hc' by (apply (ins_outs g HC) in Hc; unfold ins_of in Hc; rewrite Ed in Hc; exact Hc).
        destruct (HU c Hc') as [U|U]; [|elim Nw; eapply vports_none; eauto].
        destruct (map_opt_def _ _ _ ER c Hc') as [[k ws] Eq].
        destruct (incoming_way lim g N vp HC HV _ _ _ _ Eq U) as (s2 & l2 & P2 & I2 & K2 & ->).
        destruct (way_unique g HC _ _ _ _ _ P2 P' I2 Is U) as [-> ->].
        rewrite PK in K2. injection K2 as <-. apply (map_opt_in _ _ _ ER). exists c. auto. }
      assert (kget (skey g N s) kt = match vports_of vp w' with [] => None | vs => Some vs end) as KG.
      { destruct (vports_of vp w') as [|v r0] eqn:Ew.
        - apply funcs_none. intros [|w0 ws] H; [reflexivity|]. apply HR; [exact H|discriminate].
        - apply funcs_get; [discriminate|apply Hws; discriminate|exact HR]. }
      unfold make_transformer in ET. rewrite TM in ET.
      destruct kt as [|k0 kr] eqn:Ekt.
      - injection ET as <-. cbn [transform]. cbn [kget] in KG. destruct (vports_of vp w'); [reflexivity|discriminate].
      - destruct (map (fun ic => (skey g N (fst (snd ic)), fst ic)) D) as [|m0 mr] eqn:Em; [discriminate|].
        assert (tr = Virtual (map (fun kc => (snd kc, match kget (fst kc) (k0 :: kr) with Some vs => vs | None => [] end))
                                  (map (fun ic => (skey g N (fst (snd ic)), fst ic)) D))) as ->
          by (rewrite Em; injection ET as <-; reflexivity).
        cbn [transform].
        rewrite (assoc_some i _ (vports_of vp w')); [reflexivity| |].
        + apply in_map_iff. exists (skey g N s, i). cbn [fst snd]. rewrite KG. split; [destruct (vports_of vp w'); reflexivity|].
          apply in_map_iff. exists (i, (s, e)). auto.
        + intros y Hy. apply in_map_iff in Hy. destruct Hy as ([k j] & E1 & H). cbn [fst snd] in E1. injection E1 as -> <-.
          apply in_map_iff in H. destruct H as ([i' [s' e']] & E2 & H). cbn [fst snd] in E2. injection E2 as <- ->.
          unfold D in H, Hic. apply filter_In in H, Hic. pose proof (numbered_fun _ _ _ _ _ (proj1 Hic) (proj1 H)) as Z. injection Z as <- <-.
          change (match kget (skey g N s) (k0 :: kr) with Some vs => vs | None => [] end = vports_of vp w').
          rewrite KG. destruct (vports_of vp w'); reflexivity. }
    assert (map fst ways = map (fun ic => fst (snd ic)) D) as E by congruence. clear - HT E WF.
    assert (forall ic, In ic D -> In ic D) as HD by auto. revert HD E WF. generalize D at 1 3 4. intro D0. revert ways.
    induction D0 as [|[i [s e]] D0 IH]; intros ways HD E WF; destruct ways as [|[s' w] ways]; cbn [map] in E; try discriminate; constructor.
    + cbn [fst snd] in *. injection E as -> _. inversion WF; subst. eapply HT; [apply HD; left; reflexivity|assumption].
    + injection E as _ E. inversion WF; subst. apply IH; auto. intros; apply HD; right; assumption.
Qed.
