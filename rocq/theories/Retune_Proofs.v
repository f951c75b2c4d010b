(** Proofs for C95. *)
From Coq Require Import ZArith QArith List Bool String Lia.
From Verif Require Import Bits_Model Learning_Model Rule_Model FloatLearn_Model RuleApply_Props Retune_Model Retune_Spec.
Import ListNotations.
Open Scope Z_scope.

(** what a rule computes from its texts *)
Definition core (x : targets (option string)) : option (option Z * targets (option (list rproduct))) :=
  if Nat.eqb (List.length (active_texts x)) 0 then None else
  obind (validate_uk (active_texts x)) (fun k =>
  obind (series_of (at_w x)) (fun w => obind (series_of (at_d x)) (fun d => obind (series_of (at_t x)) (fun t =>
    Some (k, {| at_w := w; at_d := d; at_t := t |}))))).
Definition mk (x : targets (option string)) (i u : traces Q) (e : Z) : option rule_obj :=
  omap (fun r => {| o_text := x; o_imp := i; o_tau := u; o_epoch := e; o_dec := fst r; o_series := snd r |}) (core x).

Lemma retext_mk o : obind (validate_strings o) create_series = mk (o_text o) (o_imp o) (o_tau o) (o_epoch o).
Proof.
  destruct o as [x i u e k s]. unfold mk, core, validate_strings, create_series. cbn [o_text o_imp o_tau o_epoch].
  destruct (Nat.eqb _ _); [reflexivity|]. destruct (validate_uk (active_texts x)) as [k'|]; cbn [omap obind]; [|reflexivity].
  cbn [o_text with_dec]. destruct (series_of (at_w x)); cbn [omap obind]; [|reflexivity].
  destruct (series_of (at_d x)); cbn [omap obind]; [|reflexivity]. destruct (series_of (at_t x)); reflexivity.
Qed.
Lemma set_text_mk y s o : set_text y s o = mk (put_target y s (o_text o)) (o_imp o) (o_tau o) (o_epoch o).
Proof. unfold set_text. rewrite retext_mk. reflexivity. Qed.
Definition checked (i u : traces Q) : bool :=
  forallb (fun tr => Qle_bool 0 (get_trace i tr) && Qle_bool 0 (get_trace u tr)) all_traces.
Lemma new_rule_mk e p : new_rule e p =
  if checked (p_imp p) (p_tau p) && (0 <? e) then mk (p_text p) (p_imp p) (p_tau p) e else None.
Proof.
  unfold new_rule. fold (checked (p_imp p) (p_tau p)).
  set (o := {| o_text := p_text p; o_imp := p_imp p; o_tau := p_tau p; o_epoch := e; o_dec := None; o_series := _ |}).
  assert (H : obind (validate_strings o) (fun o => if checked (p_imp p) (p_tau p) then if e <=? 0 then None else create_series o else None)
            = if checked (p_imp p) (p_tau p) && (0 <? e) then obind (validate_strings o) create_series else None).
  { rewrite Z.leb_antisym. destruct (validate_strings o); cbn [obind]; destruct (checked _ _), (0 <? e); reflexivity. }
  rewrite H, retext_mk. reflexivity.
Qed.

Lemma targets_eta {A} (x : targets A) : x = {| at_w := at_w x; at_d := at_d x; at_t := at_t x |}.
Proof. now destruct x. Qed.
Lemma traces_eta {A} (x : traces A) :
  x = {| at_x1 := at_x1 x; at_x2 := at_x2 x; at_y1 := at_y1 x; at_y2 := at_y2 x; at_y3 := at_y3 x |}.
Proof. now destruct x. Qed.

(** the texts of the Vars and of the rule differ in at most one *)
Definition near (a b : targets (option string)) : Prop := exists y s, a = put_target y s b.
Lemma near_refl a : near a a.
Proof. exists SWeights, (at_w a). now destruct a. Qed.

Lemma update_rule_mk v o : core (o_text o) <> None -> near (p_text v) (o_text o) ->
  update_rule v o = if checked (p_imp v) (p_tau v) then mk (p_text v) (p_imp v) (p_tau v) (o_epoch o) else None.
Proof.
  intros Hc (y & s & Hn). destruct v as [x [i1 i2 i3 i4 i5] [u1 u2 u3 u4 u5]]. destruct o as [xo io uo e k so].
  cbn [o_text o_epoch p_text p_imp p_tau] in *.
  assert (ST : forall tr v i u, set_tau tr v {| o_text := xo; o_imp := i; o_tau := u; o_epoch := e; o_dec := k; o_series := so |} =
    if Qle_bool 0 v then Some {| o_text := xo; o_imp := i; o_tau := put_trace tr v u; o_epoch := e; o_dec := k; o_series := so |} else None)
    by (intros tr v i u; unfold set_tau, not_negative; destruct (Qle_bool 0 v); reflexivity).
  assert (SI : forall tr v i u, set_imp tr v {| o_text := xo; o_imp := i; o_tau := u; o_epoch := e; o_dec := k; o_series := so |} =
    if Qle_bool 0 v then Some {| o_text := xo; o_imp := put_trace tr v i; o_tau := u; o_epoch := e; o_dec := k; o_series := so |} else None)
    by (intros tr v i u; unfold set_imp, not_negative; destruct (Qle_bool 0 v); reflexivity).
  unfold update_rule, checked, all_traces. cbn [p_imp p_tau at_x1 at_x2 at_y1 at_y2 at_y3 forallb get_trace].
  rewrite ST. destruct (Qle_bool 0 u1); [|rewrite ?andb_false_r; reflexivity]. cbn [obind].
  rewrite SI. destruct (Qle_bool 0 i1); [|reflexivity]. cbn [obind].
  rewrite ST. destruct (Qle_bool 0 u2); [|rewrite ?andb_false_r; reflexivity]. cbn [obind].
  rewrite SI. destruct (Qle_bool 0 i2); [|reflexivity]. cbn [obind].
  rewrite ST. destruct (Qle_bool 0 u3); [|rewrite ?andb_false_r; reflexivity]. cbn [obind].
  rewrite SI. destruct (Qle_bool 0 i3); [|reflexivity]. cbn [obind].
  rewrite ST. destruct (Qle_bool 0 u4); [|rewrite ?andb_false_r; reflexivity]. cbn [obind].
  rewrite SI. destruct (Qle_bool 0 i4); [|reflexivity]. cbn [obind].
  rewrite ST. destruct (Qle_bool 0 u5); [|rewrite ?andb_false_r; reflexivity]. cbn [obind].
  rewrite SI. destruct (Qle_bool 0 i5); [|reflexivity]. cbn [obind andb].
  clear ST SI. cbn [p_text]. unfold put_trace. cbn [at_x1 at_x2 at_y1 at_y2 at_y3].
  set (I := {| at_x1 := i1; at_x2 := i2; at_y1 := i3; at_y2 := i4; at_y3 := i5 |}).
  set (U := {| at_x1 := u1; at_x2 := u2; at_y1 := u3; at_y2 := u4; at_y3 := u5 |}).
  rewrite set_text_mk. cbn [o_text o_imp o_tau o_epoch].
  assert (K : forall z, core z <> None -> exists r, mk z I U e = Some r /\ o_text r = z /\ o_imp r = I /\ o_tau r = U /\ o_epoch r = e).
  { intros z Hz. unfold mk. destruct (core z) as [r|]; [|congruence]. eexists. split; [reflexivity|]. repeat apply conj; reflexivity. }
  destruct xo as [w d t]. subst x. destruct y; unfold put_target; cbn [at_w at_d at_t].
  - (* dw changed *)
    destruct (core {| at_w := s; at_d := d; at_t := t |}) as [r|] eqn:E.
    + destruct (K {| at_w := s; at_d := d; at_t := t |}) as (r1 & E1 & A1 & A2 & A3 & A4); [congruence|].
      rewrite E1. cbn [obind]. rewrite set_text_mk, A1, A2, A3, A4. unfold put_target; cbn [at_w at_d at_t]. rewrite E1. cbn [obind].
      rewrite set_text_mk, A1, A2, A3, A4. unfold put_target; cbn [at_w at_d at_t]. exact E1.
    + unfold mk at 1. rewrite E. cbn [omap obind]. unfold mk. now rewrite E.
  - destruct (K {| at_w := w; at_d := d; at_t := t |} Hc) as (r0 & E0 & A1 & A2 & A3 & A4).
    rewrite E0. cbn [obind]. rewrite set_text_mk, A1, A2, A3, A4. unfold put_target; cbn [at_w at_d at_t].
    destruct (core {| at_w := w; at_d := s; at_t := t |}) as [r|] eqn:E.
    + destruct (K {| at_w := w; at_d := s; at_t := t |}) as (r1 & E1 & B1 & B2 & B3 & B4); [congruence|].
      rewrite E1. cbn [obind]. rewrite set_text_mk, B1, B2, B3, B4. unfold put_target; cbn [at_w at_d at_t]. exact E1.
    + unfold mk at 1. rewrite E. cbn [omap obind]. unfold mk. now rewrite E.
  - destruct (K {| at_w := w; at_d := d; at_t := t |} Hc) as (r0 & E0 & A1 & A2 & A3 & A4).
    rewrite E0. cbn [obind]. rewrite set_text_mk, A1, A2, A3, A4. unfold put_target; cbn [at_w at_d at_t].
    rewrite E0. cbn [obind]. rewrite set_text_mk, A1, A2, A3, A4. unfold put_target; cbn [at_w at_d at_t]. reflexivity.
Qed.

(** ** fresh settings *)
Section Gen.
Variable cast : Q -> Q.
Variable applier_ok : list rproduct -> bool.
Definition fresh (e : Z) (p : params) : option settings :=
  if checked (p_imp p) (p_tau p) && (0 <? e) then
    obind (core (p_text p)) (fun r => omap (fun a => {| st_epoch := e; st_dec := fst r; st_imp := p_imp p; st_tau := p_tau p; st_rules := a |})
      (appliers applier_ok (snd r)))
  else None.
Lemma checked_spec i u : checked i u = true <-> forall tr, (0 <= get_trace i tr /\ 0 <= get_trace u tr)%Q.
Proof.
  unfold checked. rewrite forallb_forall. split.
  - intros H tr. assert (In tr all_traces) as Hi by (destruct tr; cbn; tauto). specialize (H tr Hi).
    apply andb_true_iff in H. now rewrite !Qle_bool_iff in H.
  - intros H tr _. destruct (H tr). apply andb_true_iff. now rewrite !Qle_bool_iff.
Qed.
Lemma texts_active p : texts p = active_texts (p_text p).
Proof. reflexivity. Qed.
Lemma no_texts x : Nat.eqb (List.length (active_texts x)) 0 = false <-> exists y s, get_target x y = Some s.
Proof.
  unfold active_texts. destruct x as [[w|] [d|] [t|]]; cbn; (split; [|first [reflexivity|intros ([] & s & H); discriminate H]]);
    intro; first [discriminate|exists SWeights; eexists; reflexivity|exists STag2; eexists; reflexivity|exists STag1; eexists; reflexivity].
Qed.
Definition target_ok (s : option string) (r : option (list rproduct)) : Prop :=
  match s with None => r = None | Some s => exists ps k, compile s = Some (ps, k) /\ applier_ok ps = true /\ r = Some ps end.
Lemma series_applier s r : obind (series_of s) (applier applier_ok) = Some r <-> target_ok s r.
Proof.
  destruct s as [s|]; cbn [series_of target_ok].
  - destruct (compile s) as [[ps k]|]; cbn [omap obind fst applier].
    + destruct (applier_ok ps) eqn:E.
      * split; [intro H; injection H as <-; exists ps, k; auto|intros (q & j & H & _ & ->); injection H as -> ->; reflexivity].
      * split; [discriminate|]. intros (q & j & H & A & _). injection H as -> ->. congruence.
    + split; [discriminate|intros (q & j & H & _); discriminate H].
  - cbn. split; [intro H; injection H as <-; reflexivity|now intros ->].
Qed.
Lemma core_appliers x k a : obind (core x) (fun r => omap (fun a => (fst r, a)) (appliers applier_ok (snd r))) = Some (k, a) <->
  (exists y s, get_target x y = Some s) /\ validate_uk (active_texts x) = Some k /\
  target_ok (at_w x) (at_w a) /\ target_ok (at_d x) (at_d a) /\ target_ok (at_t x) (at_t a).
Proof.
  rewrite <- no_texts, <- !series_applier. unfold core.
  destruct (Nat.eqb _ _); [cbn [obind]; split; [discriminate|intros (H & _); discriminate H]|].
  destruct (validate_uk (active_texts x)) as [k'|]; [|cbn [obind]; split; [discriminate|intros (_ & H & _); discriminate H]].
  destruct (series_of (at_w x)) as [w|]; [|cbn [obind]; split; [discriminate|intros (_ & _ & H & _); discriminate H]].
  destruct (series_of (at_d x)) as [d|]; [|cbn [obind]; split; [discriminate|intros (_ & _ & _ & H & _); discriminate H]].
  destruct (series_of (at_t x)) as [t|]; [|cbn [obind]; split; [discriminate|intros (_ & _ & _ & _ & H); discriminate H]].
  cbn [obind fst snd]. unfold appliers. cbn [at_w at_d at_t].
  destruct (applier applier_ok w) as [w'|]; [|cbn [obind omap]; split; [discriminate|intros (_ & _ & H & _); discriminate H]].
  destruct (applier applier_ok d) as [d'|]; [|cbn [obind omap]; split; [discriminate|intros (_ & _ & _ & H & _); discriminate H]].
  destruct (applier applier_ok t) as [t'|]; [|cbn [obind omap]; split; [discriminate|intros (_ & _ & _ & _ & H); discriminate H]].
  cbn [obind omap]. split.
  - intro H. injection H as <- <-. cbn [at_w at_d at_t]. repeat apply conj; reflexivity.
  - intros (_ & H0 & H1 & H2 & H3). injection H0 as <-. injection H1 as H1. injection H2 as H2. injection H3 as H3.
    rewrite (targets_eta a), H1, H2, H3. reflexivity.
Qed.
Theorem fresh_proper e p c : fresh e p = Some c <-> proper applier_ok e p c.
Proof.
  unfold fresh, proper. rewrite texts_active, <- checked_spec. destruct c as [ce ck ci cu cr]. cbn [st_epoch st_dec st_imp st_tau st_rules].
  assert (T : (forall y, match get_target (p_text p) y with
                         | Some s => exists ps k, compile s = Some (ps, k) /\ applier_ok ps = true /\ get_target cr y = Some ps
                         | None => get_target cr y = None end) <->
              target_ok (at_w (p_text p)) (at_w cr) /\ target_ok (at_d (p_text p)) (at_d cr) /\ target_ok (at_t (p_text p)) (at_t cr)).
  { split; [intro H; repeat apply conj; [exact (H SWeights)|exact (H STag2)|exact (H STag1)]|].
    intros (H1 & H2 & H3) []; assumption. }
  rewrite T. clear T. destruct (checked _ _); cbn [andb].
  - destruct (0 <? e) eqn:E0.
    + apply Z.ltb_lt in E0. pose proof (core_appliers (p_text p) ck cr) as C.
      split.
      * intro H. assert (obind (core (p_text p)) (fun r => omap (fun a => (fst r, a)) (appliers applier_ok (snd r))) = Some (ck, cr)
                         /\ ce = e /\ ci = p_imp p /\ cu = p_tau p) as (H1 & -> & -> & ->).
        { destruct (core (p_text p)) as [r|]; [|discriminate H]. cbn [obind] in H |- *. destruct (appliers applier_ok (snd r)) as [a|]; [|discriminate H].
          cbn [omap] in H |- *. injection H as <- <- <- <- <-. repeat apply conj; reflexivity. }
        apply C in H1. tauto.
      * intros (_ & -> & H1 & H2 & _ & -> & -> & H3).
        assert (obind (core (p_text p)) (fun r => omap (fun a => (fst r, a)) (appliers applier_ok (snd r))) = Some (ck, cr)) as H.
        { apply C. tauto. }
        destruct (core (p_text p)) as [r|]; [|discriminate H]. cbn [obind] in H |- *. destruct (appliers applier_ok (snd r)) as [a|]; [|discriminate H].
        cbn [omap] in H |- *. injection H as <- <-. reflexivity.
    + apply Z.ltb_ge in E0. split; [discriminate|]. intros (H & _). lia.
  - split; [discriminate|]. intros (_ & _ & _ & _ & H & _). discriminate H.
Qed.

Variables (ST STIM : Type) (step : settings -> Z -> STIM -> ST -> ST).
Notation exec := (exec cast applier_ok ST STIM step).
Notation exec_all := (exec_all cast applier_ok ST STIM step).
Notation start := (start cast applier_ok ST).
Notation on_var_update := (on_var_update applier_ok ST).

(** the rule object follows its texts, and the Vars hold the same texts *)
Definition coherent (e : Z) (m : pm ST) : Prop :=
  o_text (m_rule m) = p_text (m_vars m) /\ core (o_text (m_rule m)) <> None /\ o_epoch (m_rule m) = e /\ 0 < e.
Lemma start_spec e p s m : start e p s = Some m ->
  coherent e m /\ fresh e p = Some (reads m) /\ m_state m = s /\ m_time m = 0 /\
  m_vars m = {| p_text := p_text p; p_imp := cast_all cast (p_imp p); p_tau := cast_all cast (p_tau p) |}.
Proof.
  unfold start. rewrite new_rule_mk. unfold fresh, mk. destruct (checked _ _); cbn [andb]; [|discriminate].
  destruct (0 <? e) eqn:E; [|discriminate]. destruct (core (p_text p)) as [r|] eqn:C; [|discriminate]. cbn [omap obind].
  unfold new_model. cbn [o_series o_text o_imp o_tau o_dec o_epoch]. destruct (appliers applier_ok (snd r)) as [a|]; [|discriminate].
  cbn [omap]. intro H. injection H as <-. unfold coherent, reads.
  cbn [m_rule m_vars m_appl m_imp m_tau m_time m_state o_text o_epoch o_dec p_text].
  rewrite C. repeat apply conj; try reflexivity; [discriminate|now apply Z.ltb_lt].
Qed.
Lemma start_fresh e p s : start e p s = None <-> fresh e p = None.
Proof.
  unfold start. rewrite new_rule_mk. unfold fresh, mk. destruct (checked _ _ && _); [|tauto].
  destruct (core (p_text p)) as [r|]; [|tauto]. cbn [omap obind]. unfold new_model. cbn [o_series].
  destruct (appliers applier_ok (snd r)); cbn [omap]; [|tauto]. split; discriminate.
Qed.
Lemma update_spec e m : core (o_text (m_rule m)) <> None -> near (p_text (m_vars m)) (o_text (m_rule m)) ->
  o_epoch (m_rule m) = e -> 0 < e ->
  match on_var_update m with
  | None => fresh e (m_vars m) = None
  | Some m' => coherent e m' /\ fresh e (m_vars m) = Some (reads m') /\ m_vars m' = m_vars m /\ m_time m' = m_time m /\ m_state m' = m_state m
  end.
Proof.
  intros Hc Hn He H0. unfold on_var_update. rewrite (update_rule_mk _ _ Hc Hn), He. unfold fresh.
  replace (0 <? e) with true by (symmetry; now apply Z.ltb_lt). rewrite andb_true_r. unfold mk.
  destruct (checked _ _); [|reflexivity]. destruct (core (p_text (m_vars m))) as [r|] eqn:C; [|reflexivity].
  cbn [omap obind o_series]. destruct (appliers applier_ok (snd r)) as [a|]; cbn [omap]; [|reflexivity].
  unfold coherent, reads. cbn [m_rule m_vars m_appl m_imp m_tau m_time m_state o_text o_epoch o_dec o_imp o_tau].
  rewrite C. repeat apply conj; try reflexivity; [discriminate|assumption].
Qed.
(** a change of a Var *)
Lemma set_spec e m h : coherent e m -> is_set h = true ->
  match exec m h with
  | None => match change cast (m_vars m) h with None => True | Some p => fresh e p = None end
  | Some m' => exists p, change cast (m_vars m) h = Some p /\ coherent e m' /\ fresh e p = Some (reads m') /\ m_vars m' = p /\
                 m_time m' = m_time m /\ m_state m' = match h with SetState f => f (m_state m) | _ => m_state m end
  end.
Proof.
  intros (C1 & C2 & C3 & C4) Hs. destruct h as [i|y s|tr v|tr v|f]; [discriminate Hs|..]; cbn [Retune_Model.exec change].
  - destruct (get_target (p_text (m_vars m)) y) as [s0|] eqn:E; [|exact I].
    match goal with |- context [on_var_update ?x] => pose proof (update_spec e x) as U end.
    cbn [with_vars m_rule m_vars p_text m_time m_state] in U.
    specialize (U C2 (ex_intro _ y (ex_intro _ (Some s) (f_equal _ (eq_sym C1)))) C3 C4).
    destruct (on_var_update _) as [m'|]; [|exact U]. destruct U as (U1 & U2 & U3 & U4 & U5). eexists. split; [reflexivity|].
    exact (conj U1 (conj U2 (conj U3 (conj U4 U5)))).
  - match goal with |- context [on_var_update ?x] => pose proof (update_spec e x) as U end.
    cbn [with_vars m_rule m_vars p_text m_time m_state] in U. rewrite C1 in C2. rewrite C1 in U.
    specialize (U C2 (near_refl _) C3 C4).
    destruct (on_var_update _) as [m'|]; [|exact U]. destruct U as (U1 & U2 & U3 & U4 & U5). eexists. split; [reflexivity|].
    exact (conj U1 (conj U2 (conj U3 (conj U4 U5)))).
  - match goal with |- context [on_var_update ?x] => pose proof (update_spec e x) as U end.
    cbn [with_vars m_rule m_vars p_text m_time m_state] in U. rewrite C1 in C2. rewrite C1 in U.
    specialize (U C2 (near_refl _) C3 C4).
    destruct (on_var_update _) as [m'|]; [|exact U]. destruct U as (U1 & U2 & U3 & U4 & U5). eexists. split; [reflexivity|].
    exact (conj U1 (conj U2 (conj U3 (conj U4 U5)))).
  - match goal with |- context [on_var_update ?x] => pose proof (update_spec e x) as U end.
    cbn [with_state m_rule m_vars p_text m_time m_state] in U. rewrite C1 in C2. rewrite C1 in U.
    specialize (U C2 (near_refl _) C3 C4).
    destruct (on_var_update _) as [m'|]; [|exact U]. destruct U as (U1 & U2 & U3 & U4 & U5). eexists. split; [reflexivity|].
    exact (conj U1 (conj U2 (conj U3 (conj U4 U5)))).
Qed.

Definition view (m : pm ST) : ideal ST := {| i_params := m_vars m; i_time := m_time m; i_state := m_state m |}.
Notation lives := (lives applier_ok cast ST STIM step).
(** the connection follows its Vars *)
Definition tuned (e : Z) (m : pm ST) : Prop := coherent e m /\ fresh e (m_vars m) = Some (reads m).
Lemma tuned_step e m i : tuned e m -> exists m', exec m (Step i) = Some m' /\ tuned e m' /\ m_vars m' = m_vars m /\ reads m' = reads m.
Proof. intros (A & B). eexists. split; [reflexivity|]. split; [split; [exact A|exact B]|]. split; reflexivity. Qed.
Lemma exec_lives e l : forall m m', tuned e m -> exec_all m l = Some m' -> lives e (view m) l (view m') /\ tuned e m'.
Proof.
  induction l as [|h l IH]; intros m m' Ht E; cbn [Retune_Model.exec_all] in E.
  - injection E as <-. split; [constructor|exact Ht].
  - destruct (exec m h) as [m1|] eqn:E1; cbn [obind] in E; [|discriminate E].
    destruct (is_set h) eqn:Eh.
    + destruct Ht as (Hc & Hf). pose proof (set_spec e m h Hc Eh) as S1. rewrite E1 in S1. destruct S1 as (p & P1 & P2 & P3 & P4 & P5 & P6).
      assert (tuned e m1) as Ht1 by (split; [exact P2|now rewrite P4]).
      destruct (IH m1 m' Ht1 E) as (L & T). split; [|exact T].
      assert (view m1 = {| i_params := p; i_time := m_time m; i_state := match h with SetState f => f (m_state m) | _ => m_state m end |}) as V
        by (unfold view; now rewrite P4, P5, P6).
      rewrite V in L. destruct h as [i|y s|tr v|tr v|f]; [discriminate Eh|..].
      1-3: eapply L_change; [exact I|exact P1|apply fresh_proper; exact P3|exact L].
      apply L_state. cbn [change] in P1. injection P1 as <-. exact L.
    + destruct h as [i|y s|tr v|tr v|f]; try discriminate Eh.
      destruct (tuned_step e m i Ht) as (m1' & Q1 & Q2 & Q3 & Q4). rewrite E1 in Q1. injection Q1 as <-.
      destruct (IH m1 m' Q2 E) as (L & T). split; [|exact T]. cbn [Retune_Model.exec] in E1. injection E1 as <-.
      eapply L_step; [apply fresh_proper; exact (proj2 Ht)|exact L].
Qed.
Lemma proper_inj e p c c' : proper applier_ok e p c -> proper applier_ok e p c' -> c = c'.
Proof. rewrite <- !fresh_proper. congruence. Qed.
Lemma lives_exec e l : forall m w, tuned e m -> lives e (view m) l w -> exists m', exec_all m l = Some m' /\ view m' = w.
Proof.
  induction l as [|h l IH]; intros m w Ht L.
  - inversion L; subst. exists m. split; reflexivity.
  - cbn [Retune_Model.exec_all]. inversion L; subst.
    + destruct (tuned_step e m i Ht) as (m1 & Q1 & Q2 & Q3 & Q4). rewrite Q1. cbn [obind]. apply IH; [exact Q2|].
      cbn [Retune_Model.exec] in Q1. injection Q1 as <-. cbn [view m_vars with_state m_time m_state].
      assert (c = reads m) as -> by (eapply proper_inj; [eassumption|apply fresh_proper; exact (proj2 Ht)]). assumption.
    + pose proof (set_spec e m (SetState f) (proj1 Ht) eq_refl) as S1. destruct (exec m (SetState f)) as [m1|].
      * destruct S1 as (p & P1 & P2 & P3 & P4 & P5 & P6). cbn [obind]. apply IH; [split; [exact P2|now rewrite P4]|].
        cbn [change] in P1. injection P1 as <-. unfold view. rewrite P4, P5, P6. assumption.
      * cbn [change] in S1. rewrite (proj2 Ht) in S1. discriminate S1.
    + assert (is_set h = true) as Eh by (destruct h; auto).
      pose proof (set_spec e m h (proj1 Ht) Eh) as S1.
      match goal with H : change _ _ h = Some p |- _ => cbn [view i_params] in H; rename H into Hp end.
      match goal with H : proper _ _ p c |- _ => apply fresh_proper in H; rename H into Hq end.
      destruct (exec m h) as [m1|].
      * destruct S1 as (p' & P1 & P2 & P3 & P4 & P5 & P6). cbn [obind]. apply IH; [split; [exact P2|now rewrite P4]|].
        assert (p' = p) as -> by congruence. unfold view. rewrite P4, P5, P6. destruct h; try contradiction; assumption.
      * rewrite Hp in S1. congruence.
Qed.
End Gen.
