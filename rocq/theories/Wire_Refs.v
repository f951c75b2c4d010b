(** C99: a RefPort and the VarPort it is connected to *)
From Coq Require Import List Arith ZArith Bool String Lia.
From Verif Require Import VPorts_Model Connect_Model Connect_Props Connect_Props2 Connect_Typed Network_Model Network_Props Wire_Model Wire_Spec Wire_Inv Wire_Props.
Import ListNotations.
Open Scope nat_scope.
Open Scope list_scope.

Lemma run_app fs fs' x : run_funcs (fs ++ fs') x = match run_funcs fs x with Some y => run_funcs fs' y | None => None end.
Proof.
  unfold run_funcs. rewrite fold_left_app. destruct (fold_left _ fs (Some x)); [reflexivity|]. apply run_funcs_none.
Qed.
Lemma run_back vp w : forall y, run_funcs (map bwd (rev (vports_of vp w))) y = travel_back vp w y.
Proof.
  induction w as [|b r IH]; intro y; [reflexivity|]. cbn [vports_of flat_map travel_back]. fold (vports_of vp r).
  rewrite rev_app_distr, map_app, run_app, IH. destruct (travel_back vp r y) as [z|]; [|reflexivity].
  destruct (vp b) as [v|]; [|reflexivity]. cbn. reflexivity.
Qed.
Lemma ahead_unique g : forall w w' r v v', path g r w v -> path g r w' v' -> outs_of g v = [] -> outs_of g v' = [] ->
  (forall u m, path g r m u -> List.length (outs_of g u) <= 1) -> w = w' /\ v = v'.
Proof.
  induction w as [|b w IH]; intros w' r v v' P P' O O' U.
  - inversion P; subst. inversion P' as [|? b' l' ? H]; subst; [auto|]. rewrite O in H. destruct H.
  - inversion P as [|? ? ? ? H Pb]; subst. inversion P' as [|? b' w2 ? H' Pb']; subst; [rewrite O' in H; destruct H|].
    assert (b' = b) as ->.
    { pose proof (U r [] (path_here g r)) as L. destruct (short_cases _ L) as [Z|[z Z]]; rewrite Z in H, H'; [destruct H|].
      destruct H as [<-|[]]. destruct H' as [<-|[]]. reflexivity. }
    destruct (IH w2 b v v' Pb Pb' O O') as [-> ->]; [|auto].
    intros u m Q. apply (U u (b :: m)). econstructor; eauto.
Qed.
Lemma outgoing_way lim g N vp : (forall a v pa, vp a = Some v -> nth_error g a = Some pa -> is_virtual (cls pa) = true) ->
  forall f b k vs, outgoing_vports f lim g N vp b = Some (k, vs) -> (forall u m, path g b m u -> List.length (outs_of g u) <= 1) ->
  exists e l, path g b l e /\ outs_of g e = [] /\ port_key lim g N e = Some k /\ (vp e = None -> vs = rev (vports_of vp (b :: l))).
Proof.
  intro HV. induction f as [|f IH]; intros b k vs H U; [discriminate|]. cbn [outgoing_vports] in H.
  destruct (nth_error g b) as [p|] eqn:E; [|discriminate].
  assert (outs_of g b = outs p) as Eo by (unfold outs_of; rewrite E; reflexivity).
  pose proof (U b [] (path_here g b)) as Hs. rewrite Eo in Hs.
  destruct (short_cases _ Hs) as [Z|[c Z]]; rewrite Z in H.
  - destruct (port_key lim g N b) as [k'|] eqn:Ek; [|discriminate]. injection H as <- <-.
    exists b, []. split; [constructor|]. split; [congruence|]. split; [exact Ek|]. intro Hb. unfold vports_of. cbn [flat_map]. rewrite Hb. reflexivity.
  - cbn [map_opt] in H. destruct (outgoing_vports f lim g N vp c) as [[k' ws]|] eqn:Ec; [|discriminate].
    cbn [last map List.concat fst snd] in H. rewrite app_nil_r in H.
    assert (In c (outs_of g b)) as Hc by (rewrite Eo, Z; left; reflexivity).
    destruct (IH c k' ws Ec) as (e & l & P & O & K & W).
    { intros u m Q. apply (U u (c :: m)). econstructor; eauto. }
    exists e, (c :: l). split; [econstructor; eauto|]. split; [exact O|].
    assert (is_virtual (cls p) = false -> vp b = None) as NV.
    { intro F. destruct (vp b) as [v|] eqn:Ev; [|reflexivity]. rewrite (HV _ _ _ Ev E) in F. discriminate. }
    assert (vports_of vp (b :: c :: l) = match vp b with Some v => [v] | None => [] end ++ vports_of vp (c :: l)) as -> by reflexivity.
    rewrite rev_app_distr. unfold with_self in H.
    destruct (cls p) eqn:Ecp; cbn [fst snd] in H; try discriminate;
      try (injection H as <- <-; rewrite NV by reflexivity; split; [exact K|]; intro He; rewrite (W He); cbn [rev]; rewrite app_nil_r; reflexivity);
      (destruct (vp b) as [v|]; [|discriminate]; injection H as <- <-; split; [exact K|]; intro He; rewrite (W He); reflexivity).
Qed.

Lemma numbered_app ch l m : numbered ch (l ++ m) = numbered ch l ++ numbered (ch + List.length l) m.
Proof.
  unfold numbered. revert ch. induction l as [|x l IH]; intro ch; cbn [app List.length seq combine].
  - rewrite Nat.add_0_r. reflexivity.
  - rewrite IH. replace (ch + S (List.length l)) with (S ch + List.length l) by lia. reflexivity.
Qed.
Lemma ends_nil g N p n ch l : (forall s e, In (s, e) l -> at_name g N p n s = false /\ at_name g N p n e = false) ->
  flat_map (ends g N p n) (numbered ch l) = [].
Proof.
  intro H. assert (forall m, (forall ic, In ic m -> at_name g N p n (fst (snd ic)) = false /\ at_name g N p n (snd (snd ic)) = false) -> flat_map (ends g N p n) m = []) as G.
  { induction m as [|ic m IH]; intro A; [reflexivity|]. cbn [flat_map]. destruct (A ic (or_introl eq_refl)) as [A1 A2]. unfold ends at 1. rewrite A1, A2. apply IH.
    intros; apply A; right; assumption. }
  apply G. intros [i [s e]] Hic. apply H. apply (numbered_in _ _ _ _ Hic).
Qed.
Lemma map_keep g N p n ch l m : (forall s e, In (s, e) l -> at_name g N p n e = false) ->
  fold_left (fun m ic => if at_name g N p n (snd (snd ic)) then kset (skey g N (fst (snd ic))) (fst ic) m else m) (numbered ch l) m = m.
Proof.
  intro H. assert (forall (ns : list (nat * (nat * nat))) (m : list (key * nat)), (forall ic, In ic ns -> at_name g N p n (snd (snd ic)) = false) ->
    fold_left (fun m ic => if at_name g N p n (snd (snd ic)) then kset (skey g N (fst (snd ic))) (fst ic) m else m) ns m = m) as G.
  { induction ns as [|ic ns IH]; intros m0 A; [reflexivity|]. cbn [fold_left]. rewrite (A ic (or_introl eq_refl)). apply IH. intros; apply A; right; assumption. }
  apply G. intros [i [s e]] Hic. eapply H. apply (numbered_in _ _ _ _ Hic).
Qed.

(** A RefPort and a VarPort that are connected one to one, in an unbranched way: the RefPort's request channel ends in the VarPort,
    the answer channel of the VarPort ends in the RefPort, no other port has an end of these channels; what is written is
    rearranged as on the way, what is read as on the way back. *)
Theorem refport_wired_partial : forall lim calls N groups B r v pr pv qr qv w R V,
  Forall proper calls -> let g := run_calls lim calls in let procs := List.concat groups in
  wire lim g N groups = Some B -> ids_distinct g N ->
  nth_error g r = Some pr -> cls pr = RefPort -> proc pr = Some qr -> In qr procs ->
  nth_error g v = Some pv -> (cls pv = VarPort \/ cls pv = ImplicitVarPort) -> proc pv = Some qv -> In qv procs ->
  path g r w v -> ins pr = [] -> outs pv = [] ->
  (forall u l, path g r l u -> List.length (outs_of g u) <= 1) -> (forall u l, path g u l v -> List.length (ins_of g u) <= 1) ->
  (forall s l ps p, path g s l v -> nth_error g s = Some ps -> cls ps = RefPort -> proc ps = Some p -> In p procs -> ins ps = []) ->
  build_refport lim g N (user_vports lim calls) B true r = Some R ->
  build_refport lim g N (user_vports lim calls) B false v = Some V ->
  exists i j, i <> j /\ r_send R = Some i /\ r_recv V = Some i /\ r_send V = Some j /\ r_recv R = Some j /\
    (forall a pa q, nth_error g a = Some pa -> is_virtual (cls pa) = false -> proc pa = Some q ->
       (In (CspSend i) (csp_ports B q (pname N a)) \/ In (CspRecv j) (csp_ports B q (pname N a)) -> a = r) /\
       (In (CspRecv i) (csp_ports B q (pname N a)) \/ In (CspSend j) (csp_ports B q (pname N a)) -> a = v)) /\
    (forall x, transform fwd (r_tr V) i x = travel (user_vports lim calls) w x) /\
    (forall y, transform bwd (r_tr R) j y = travel_back (user_vports lim calls) w y).
Proof.
  intros lim calls N groups B r v pr pv qr qv w R V HF g procs HW HI Er Cr Pr Hqr Ev Cv Pv Hqv HP Ir Ov UF UB HST HR HV'.
  pose proof (connections_consistent_partial lim calls HF) as HC. fold g in HC.
  set (vp := user_vports lim calls) in *.
  assert (forall a v pa, vp a = Some v -> nth_error g a = Some pa -> is_virtual (cls pa) = true) as HV by (intros; eapply user_vports_class; eauto).
  unfold wire in HW. destruct (channel_builders lim g groups) as [l|] eqn:EL; [|discriminate].
  unfold channel_builders in EL. destruct (channel_map lim g groups) as [keys|] eqn:EK; [|discriminate].
  destruct (forallb _ keys) eqn:EF; [|discriminate]. injection EL as <-.
  destruct (channel_map_exact_partial lim calls groups keys HF EK) as [ND KEYS]. fold g in KEYS. rewrite forallb_forall in EF.
  set (F := fun sd : nat * nat => sd :: (if is_var_port (class_of g (snd sd)) then [(snd sd, fst sd)] else [])) in *.
  assert (forall s e, In (s, e) keys -> exists ps p, nth_error g s = Some ps /\ proc ps = Some p /\ In p procs /\ (cls ps = OutPort \/ cls ps = RefPort)) as KS.
  { intros s e H. apply KEYS in H. destruct H as [(p & ps & A1 & A2 & A3 & A4) _]. exists ps, p. auto. }
  assert (forall (s e : nat), In (s, e) keys -> exists pe p, nth_error g e = Some pe /\ is_virtual (cls pe) = false /\ proc pe = Some p) as KD.
  { intros s e H. specialize (EF _ H). cbn [snd] in EF. unfold has_initializer in EF. destruct (nth_error g e) as [pe|]; [|discriminate].
    apply andb_prop in EF. destruct EF as [X Y]. destruct (proc pe) as [p|] eqn:Epe; [|discriminate]. apply negb_true_iff in X. exists pe, p. auto. }
  assert (is_virtual (cls pr) = false) as Vr by (rewrite Cr; reflexivity).
  assert (is_virtual (cls pv) = false) as Vv by (destruct Cv as [-> | ->]; reflexivity).
  assert (r <> v) as Nrv by (intros ->; rewrite Er in Ev; injection Ev as <-; rewrite Cr in Cv; destruct Cv; discriminate).
  assert (ins_of g r = []) as Ir' by (unfold ins_of; rewrite Er; exact Ir).
  assert (outs_of g v = []) as Ov' by (unfold outs_of; rewrite Ev; exact Ov).
  assert (vp v = None) as Nv by (destruct (vp v) as [z|] eqn:Ez; [|reflexivity]; rewrite (HV _ _ _ Ez Ev) in Vv; discriminate).
  assert (forall s e, In (s, e) keys -> s <> v) as K1.
  { intros s e H ->. destruct (KS _ _ H) as (ps & p & A1 & _ & _ & A4). rewrite Ev in A1. injection A1 as <-. destruct Cv as [C|C]; rewrite C in A4; destruct A4; discriminate. }
  assert (forall s e, In (s, e) keys -> e <> r) as K2.
  { intros s e H ->. apply KEYS in H. destruct H as (_ & _ & _ & O & _). inversion HP as [|? b ? ? Hb]; subst; [congruence|]. rewrite O in Hb. destruct Hb. }
  assert (forall s, In (s, v) keys -> s = r) as K3.
  { intros s H. destruct (KS _ _ H) as (ps & p & A1 & A2 & A3 & A4). apply KEYS in H. destruct H as (_ & HL & _).
    destruct (leads_path _ _ _ HL) as [ls Ps].
    assert (ins_of g s = []) as Is.
    { destruct A4 as [A4|A4].
      - exfalso. assert (chain g s v) as HCh by (clear - HL; induction HL as [a|a b c H HL IH]; [constructor|]; econstructor; [left; exact H|exact IH]).
        assert (is_virtual (cls ps) = false) as Z by (rewrite A4; reflexivity).
        pose proof (chains_keep_kind lim calls s v ps pv HCh A1 Ev Z Vv) as K. rewrite A4 in K. destruct Cv as [C|C]; rewrite C in K; discriminate.
      - unfold ins_of. rewrite A1. eapply HST; eauto. }
    destruct (way_unique g HC _ _ _ _ _ Ps HP Is Ir' UB) as [-> _]. reflexivity. }
  assert (forall e, In (r, e) keys -> e = v) as K4.
  { intros e H. apply KEYS in H. destruct H as (_ & HL & _ & O & _). destruct (leads_path _ _ _ HL) as [le Pe].
    destruct (ahead_unique g _ _ _ _ _ Pe HP O Ov' UF) as [_ ->]. reflexivity. }
  assert (In (r, v) keys) as K0.
  { apply KEYS. split; [exists qr, pr; auto|]. split; [eapply path_leads; eauto|]. split; [exact Nrv|]. split; [exact Ov'|].
    exists qv. split; [|exact Hqv]. exists pv. split; [exact Ev|]. left. auto. }
  destruct (in_split _ _ K0) as (k1 & k2 & Ek).
  assert (~ In (r, v) k1 /\ ~ In (r, v) k2) as [X1 X2].
  { rewrite Ek in ND. apply NoDup_remove_2 in ND. split; intro Hin; apply ND, in_or_app; auto. }
  assert (flat_map F keys = flat_map F k1 ++ [(r, v); (v, r)] ++ flat_map F k2) as El.
  { rewrite Ek, flat_map_app. cbn [flat_map app]. unfold F at 2. cbn [fst snd]. unfold class_of. rewrite Ev.
    destruct Cv as [-> | ->]; reflexivity. }
  set (i := List.length (flat_map F k1)).
  assert (numbered 0 (flat_map F keys) = numbered 0 (flat_map F k1) ++ (i, (r, v)) :: (S i, (v, r)) :: numbered (S (S i)) (flat_map F k2)) as EN.
  { rewrite El, numbered_app. cbn [Nat.add app]. fold i. unfold numbered. cbn [List.length seq combine]. reflexivity. }
  assert (forall s e, In (s, e) (flat_map F keys) -> (exists ps p, nth_error g s = Some ps /\ is_virtual (cls ps) = false /\ proc ps = Some p) /\
            (exists pe p, nth_error g e = Some pe /\ is_virtual (cls pe) = false /\ proc pe = Some p)) as HS.
  { intros s e H. apply in_flat_map in H. destruct H as ([s' e'] & Hk & H).
    destruct (KS _ _ Hk) as (ps & p & A1 & A2 & _ & A3). destruct (KD _ _ Hk) as (pe & p' & B1 & B2 & B3).
    assert (is_virtual (cls ps) = false) as Z by (destruct A3 as [-> | ->]; reflexivity).
    unfold F in H. cbn [fst snd] in H. destruct H as [H|H]; [injection H as <- <-; split; [exists ps, p|exists pe, p']; auto|].
    destruct (is_var_port _); [|destruct H]. destruct H as [H|[]]. injection H as <- <-. split; [exists pe, p'|exists ps, p]; auto. }
  assert (forall kk, (forall sd, In sd kk -> In sd keys) -> ~ In (r, v) kk -> forall s e, In (s, e) (flat_map F kk) -> s <> r /\ s <> v /\ e <> r /\ e <> v) as HX.
  { intros kk Hkk X s e H. apply in_flat_map in H. destruct H as ([s' e'] & Hk & H).
    assert (s' <> r) as Y1 by (intros ->; pose proof (K4 _ (Hkk _ Hk)); subst; contradiction).
    assert (e' <> v) as Y2 by (intros ->; pose proof (K3 _ (Hkk _ Hk)); subst; contradiction).
    pose proof (K1 _ _ (Hkk _ Hk)) as Y3. pose proof (K2 _ _ (Hkk _ Hk)) as Y4.
    unfold F in H. cbn [fst snd] in H. destruct H as [H|H]; [injection H as <- <-; auto|].
    destruct (is_var_port _); [|destruct H]. destruct H as [H|[]]. injection H as <- <-. auto. }
  assert (forall sd, In sd k1 -> In sd keys) as S1 by (intros; rewrite Ek; apply in_or_app; auto).
  assert (forall sd, In sd k2 -> In sd keys) as S2 by (intros; rewrite Ek; apply in_or_app; right; right; auto).
  pose proof (HX k1 S1 X1) as HX1. pose proof (HX k2 S2 X2) as HX2.
  assert (forall a d pd q, In a [r; v] \/ (exists e, In (a, e) (flat_map F keys) \/ In (e, a) (flat_map F keys)) -> nth_error g d = Some pd -> is_virtual (cls pd) = false -> proc pd = Some q ->
            at_name g N q (pname N d) a = (a =? d)) as AT.
  { intros a d pd q Ha E1 V1 P1. assert (exists pa p, nth_error g a = Some pa /\ is_virtual (cls pa) = false /\ proc pa = Some p) as (pa & p & A1 & A2 & A3).
    { destruct Ha as [[<-|[<-|[]]]|[e [He|He]]]; [exists pr, qr; auto|exists pv, qv; auto|apply (proj1 (HS _ _ He))|apply (proj2 (HS _ _ He))]. }
    eapply at_own; eauto. }
  assert (forall kk s e, (forall sd, In sd kk -> In sd keys) -> In (s, e) (flat_map F kk) -> In (s, e) (flat_map F keys)) as SUB.
  { intros kk s e Hkk H. apply in_flat_map in H. destruct H as (sd & Hk & H). apply in_flat_map. exists sd. auto. }
  assert (forall d pd q, nth_error g d = Some pd -> is_virtual (cls pd) = false -> proc pd = Some q -> d = r \/ d = v -> forall kk, (forall sd, In sd kk -> In sd keys) -> ~ In (r, v) kk ->
            forall s e, In (s, e) (flat_map F kk) -> at_name g N q (pname N d) s = false /\ at_name g N q (pname N d) e = false) as OFF.
  { intros d pd q E1 V1 P1 Hd kk Hkk X s e H. pose proof (HX kk Hkk X _ _ H) as (Y1 & Y2 & Y3 & Y4). apply (SUB _ _ _ Hkk) in H.
    rewrite (AT s d pd q), (AT e d pd q) by eauto. rewrite !Nat.eqb_neq. destruct Hd as [-> | ->]; auto. }
  assert (csp_ports B qr (pname N r) = [CspSend i; CspRecv (S i)] /\ csp_port_map B qr (pname N r) = [(skey g N v, S i)]) as [CR MR].
  { destruct (build_spec _ _ _ _ _ _ HW qr (pname N r)) as [C M]. rewrite EN in C, M. cbn [no_builders csp_ports csp_port_map app] in C, M.
    rewrite flat_map_app, fold_left_app in *. cbn [flat_map fold_left] in C, M.
    rewrite (ends_nil g N qr (pname N r)) in C by (eapply OFF; eauto). rewrite (ends_nil g N qr (pname N r)) in C by (eapply OFF; eauto).
    rewrite (map_keep g N qr (pname N r) 0) in M by (intros s e He; eapply (OFF r pr qr Er Vr Pr (or_introl eq_refl) k1 S1 X1); eauto).
    rewrite (map_keep g N qr (pname N r) (S (S i))) in M by (intros s e He; eapply (OFF r pr qr Er Vr Pr (or_introl eq_refl) k2 S2 X2); eauto).
    unfold ends in C. cbn [fst snd] in C, M.
    assert (v =? r = false) as Z by (apply Nat.eqb_neq; auto).
    rewrite (AT r r pr qr), (AT v r pr qr) in C by (eauto; left; simpl; auto). rewrite Nat.eqb_refl, Z in C.
    rewrite (AT r r pr qr), (AT v r pr qr) in M by (eauto; left; simpl; auto). rewrite Nat.eqb_refl, Z in M. auto. }
  assert (csp_ports B qv (pname N v) = [CspRecv i; CspSend (S i)] /\ csp_port_map B qv (pname N v) = [(skey g N r, i)]) as [CV MV].
  { destruct (build_spec _ _ _ _ _ _ HW qv (pname N v)) as [C M]. rewrite EN in C, M. cbn [no_builders csp_ports csp_port_map app] in C, M.
    rewrite flat_map_app, fold_left_app in *. cbn [flat_map fold_left] in C, M.
    rewrite (ends_nil g N qv (pname N v)) in C by (eapply OFF; eauto). rewrite (ends_nil g N qv (pname N v)) in C by (eapply OFF; eauto).
    rewrite (map_keep g N qv (pname N v) 0) in M by (intros s e He; eapply (OFF v pv qv Ev Vv Pv (or_intror eq_refl) k1 S1 X1); eauto).
    rewrite (map_keep g N qv (pname N v) (S (S i))) in M by (intros s e He; eapply (OFF v pv qv Ev Vv Pv (or_intror eq_refl) k2 S2 X2); eauto).
    unfold ends in C. cbn [fst snd] in C, M.
    assert (r =? v = false) as Z by (apply Nat.eqb_neq; auto).
    rewrite (AT r v pv qv), (AT v v pv qv) in C by (eauto; left; simpl; auto). rewrite Nat.eqb_refl, Z in C.
    rewrite (AT r v pv qv), (AT v v pv qv) in M by (eauto; left; simpl; auto). rewrite Nat.eqb_refl, Z in M. auto. }
  assert (forall a pa q c, nth_error g a = Some pa -> is_virtual (cls pa) = false -> proc pa = Some q -> In c (csp_ports B q (pname N a)) ->
            exists j s e, In (j, (s, e)) (numbered 0 (flat_map F keys)) /\ ((c = CspSend j /\ a = s) \/ (c = CspRecv j /\ a = e))) as ONLY.
  { intros a pa q c Ea Va Pa Hc. destruct (build_spec _ _ _ _ _ _ HW q (pname N a)) as [C _]. rewrite C in Hc. cbn [no_builders csp_ports app] in Hc.
    apply in_flat_map in Hc. destruct Hc as ([j [s e]] & Hin & Hc). exists j, s, e. split; [exact Hin|].
    apply numbered_in in Hin. destruct Hin as [Hin _]. unfold ends in Hc. cbn [fst snd] in Hc.
    rewrite (AT s a pa q), (AT e a pa q) in Hc by eauto. apply in_app_or in Hc.
    destruct Hc as [Hc|Hc]; [destruct (Nat.eqb_spec s a); [|destruct Hc]|destruct (Nat.eqb_spec e a); [|destruct Hc]]; (destruct Hc as [Hc|[]]; subst; auto). }
  assert (In (i, (r, v)) (numbered 0 (flat_map F keys))) as Ni by (rewrite EN; apply in_or_app; right; left; reflexivity).
  assert (In (S i, (v, r)) (numbered 0 (flat_map F keys))) as Nj by (rewrite EN; apply in_or_app; right; right; left; reflexivity).
  unfold build_refport in HR, HV'. rewrite Er, Pr in HR. rewrite Ev, Pv in HV'.
  destruct (outgoing_funcs lim g N vp r) as [fr|] eqn:EFr; [|discriminate].
  destruct (incoming_funcs lim g N vp v) as [fv|] eqn:EFv; [|discriminate].
  rewrite CR, MR in HR. rewrite CV, MV in HV'.
  destruct (make_transformer _ fr) as [tr|] eqn:ETr; [|discriminate]. injection HR as <-.
  destruct (make_transformer _ fv) as [tv|] eqn:ETv; [|discriminate]. injection HV' as <-.
  exists i, (S i). cbn [r_send r_recv r_tr first_send first_recv]. split; [lia|]. do 4 (split; [reflexivity|]). split.
  { intros a pa q Ea Va Pa.
    assert (forall j s e s' e', In (j, (s, e)) (numbered 0 (flat_map F keys)) -> In (j, (s', e')) (numbered 0 (flat_map F keys)) -> s = s' /\ e = e') as FN.
    { intros j s e s' e' Hj Hj'. pose proof (numbered_fun _ _ _ _ _ Hj Hj') as Z. injection Z as -> ->. auto. }
    split; intros [H|H]; destruct (ONLY _ _ _ _ Ea Va Pa H) as (j & s & e & Hin & [[Hc ->]|[Hc ->]]); try discriminate; injection Hc as <-;
      first [exact (proj1 (FN _ _ _ _ _ Hin Ni)) | exact (proj2 (FN _ _ _ _ _ Hin Nj)) | exact (proj2 (FN _ _ _ _ _ Hin Ni)) | exact (proj1 (FN _ _ _ _ _ Hin Nj))]. }
  split.
  - (* write *)
    intro x. apply path_last in HP as HP'. destruct HP' as [[_ Z]|(w' & c & -> & P' & Hc)]; [contradiction|].
    rewrite <- (run_travel vp (w' ++ [v])), vports_app. unfold vports_of at 2. cbn [flat_map]. rewrite Nv. cbn [app]. rewrite app_nil_r.
    unfold incoming_funcs in EFv. rewrite Ev in EFv.
    assert (ins pv = [c]) as Ic.
    { apply (ins_outs g HC) in Hc. pose proof (UB v [] (path_here g v)) as L. unfold ins_of in Hc, L. rewrite Ev in Hc, L.
      destruct (short_cases _ L) as [Z|[z Z]]; rewrite Z in *; [destruct Hc|]. destruct Hc as [<-|[]]. reflexivity. }
    rewrite Ic in EFv. cbn [map_opt] in EFv. destruct (incoming_vports lim lim g N vp c) as [[k vs]|] eqn:Ek2; [|discriminate]. injection EFv as <-.
    assert (forall u m, path g u m c -> List.length (ins_of g u) <= 1) as UB' by (intros u m Q; apply (UB u (m ++ [v])); eapply path_snoc; eauto).
    destruct (incoming_way lim g N vp HC HV _ _ _ _ Ek2 UB') as (s2 & l2 & P2 & I2 & K2' & ->).
    destruct (way_unique g HC _ _ _ _ _ P2 P' I2 Ir' UB') as [-> ->].
    assert (port_key lim g N r = Some (skey g N r)) as PK by (unfold port_key, process_of, skey; rewrite Er, Vr, Pr; reflexivity).
    rewrite PK in K2'. injection K2' as <-. cbn [fold_left fst snd] in ETv.
    destruct (vports_of vp w') as [|v0 vr]; cbn [kset make_transformer] in ETv.
    + injection ETv as <-. reflexivity.
    + injection ETv as <-. cbn [transform map assoc fst snd kget]. rewrite key_eqb_refl, Nat.eqb_refl. reflexivity.
  - (* read *)
    intro y. inversion HP as [|? b w' ? Hb Pb]; subst; [congruence|].
    unfold outgoing_funcs in EFr. rewrite Er in EFr.
    assert (outs pr = [b]) as Ob.
    { pose proof (UF r [] (path_here g r)) as L. unfold outs_of in Hb, L. rewrite Er in Hb, L.
      destruct (short_cases _ L) as [Z|[z Z]]; rewrite Z in *; [destruct Hb|]. destruct Hb as [<-|[]]. reflexivity. }
    rewrite Ob in EFr. cbn [map_opt] in EFr. destruct (outgoing_vports lim lim g N vp b) as [[k vs]|] eqn:Ek2; [|discriminate]. injection EFr as <-.
    assert (forall u m, path g b m u -> List.length (outs_of g u) <= 1) as UF' by (intros u m Q; apply (UF u (b :: m)); econstructor; eauto).
    destruct (outgoing_way lim g N vp HV _ _ _ _ Ek2 UF') as (e & l2 & P2 & O2 & K2' & W2).
    destruct (ahead_unique g _ _ _ _ _ P2 Pb O2 Ov' UF') as [-> ->].
    assert (port_key lim g N v = Some (skey g N v)) as PK by (unfold port_key, process_of, skey; rewrite Ev, Vv, Pv; reflexivity).
    rewrite PK in K2'. injection K2' as <-. rewrite (W2 Nv) in ETr. cbn [fold_left fst snd kset make_transformer] in ETr. injection ETr as <-.
    cbn [transform map assoc fst snd kget]. rewrite key_eqb_refl, Nat.eqb_refl. exact (run_back vp (b :: w') y).
Qed.
