(** Learning rules mean what they say. *)
From Coq Require Import ZArith QArith Qpower Qabs List Bool Ascii String Lia Lqa.
From Verif Require Import Learning_Model Rule_Model Rule_Spec Rule_Proofs.
Import ListNotations.
Open Scope Z_scope.

(** ** The value of the compiled form: Product.__str__ (product_series.py 350-363) writes it as
    dependency * mantissa * 2^(s_exp - 7) * factors *)
Definition state_value (rho : env) (e : event) (v : state_var) : Q :=
  match v with
  | VX0 => occurs rho Pre | VY0 => occurs rho Post
  | VTrace TX1 => at_event rho e X1 | VTrace TX2 => at_event rho e X2
  | VTrace TY1 => at_event rho e Y1 | VTrace TY2 => at_event rho e Y2 | VTrace TY3 => at_event rho e Y3
  | VSyn SWeights => at_event rho e W | VSyn STag2 => at_event rho e D | VSyn STag1 => at_event rho e T
  | VC => 0
  end.
Definition factor_value (rho : env) (e : event) (f : rfactor) : Q :=
  let q := (state_value rho e (rf_var f) + match rf_const f with Some c => c | None => 0 end)%Q in
  if rf_sgn f then sgn q else q.
Definition product_event (p : rproduct) : event :=
  match rp_dep p with
  | DX0 => Pre | DY0 => Post
  | DU => Periodic (Z.to_nat (match rp_decimate p with Some k => k | None => 0 end))
  end.
Definition compiled_value (rho : env) (p : rproduct) : Q :=
  (occurs rho (product_event p) * (inject_Z (rp_mant p) * Qpower 2 (rp_exp p - 7))
   * qprod (map (factor_value rho (product_event p)) (rp_factors p)))%Q.
Definition series_value (rho : env) (ps : list rproduct) : Q := qsum (map (compiled_value rho) ps).

(** ** One symbol of a product *)
Definition ev_dep (e : event) : dep := match e with Pre => DX0 | Post => DY0 | Periodic _ => DU end.
Definition is_event (a : atom) : bool := match a with AEvent _ => true | _ => false end.
Definition has (g : gen) : bool := match g_dep g with Some _ => true | None => false end.
Definition vl_const (s s' : sign) (l : lit) : Q :=
  let c := ((match s' with Minus => -1 | _ => 1 end) * lit_value l)%Q in match s with Minus => (- c)%Q | _ => c end.
Definition afactors (has : bool) (a : atom) : list rfactor :=
  match a with
  | AEvent Pre => if has then [plain_factor VX0] else []
  | AEvent Post => if has then [plain_factor VY0] else []
  | AEvent (Periodic _) => []
  | AVar v => [plain_factor (var_state v)]
  | ALit _ => []
  | ABracket (InVar _ v) => [plain_factor (var_state v)]
  | ABracket (InLit _ _) => []
  | ABracket (VarLit s b s' l) => [{| rf_var := base_state b; rf_const := Some (vl_const s s' l); rf_sgn := false |}]
  | ABracket (LitVar s l s' b) => [{| rf_var := base_state b; rf_const := Some (vl_const s' s l); rf_sgn := false |}]
  | ASgn (InVar _ v) => [{| rf_var := var_state v; rf_const := None; rf_sgn := true |}]
  | ASgn (InLit _ _) => []
  | ASgn (VarLit s b s' l) => [{| rf_var := base_state b; rf_const := Some (vl_const s s' l); rf_sgn := true |}]
  | ASgn (LitVar s l s' b) => [{| rf_var := base_state b; rf_const := Some (vl_const s' s l); rf_sgn := true |}]
  end.
Definition aperiod (a : atom) : option nat := match a with AEvent (Periodic k) => Some k | _ => None end.
Definition upd (o : option Z) (a : atom) : option Z := match aperiod a with Some k => Some (Z.of_nat k) | None => o end.
Definition closed1 (g : gen) (a : atom) : gen :=
  {| g_dep := match g_dep g, a with None, AEvent e => Some (ev_dep e) | d, _ => d end;
     g_dec := upd (g_dec g) a; g_mant := g_mant g * fst (atom_scale a); g_exp := g_exp g + snd (atom_scale a);
     g_factors := g_factors g ++ afactors (has g) a; g_series := upd (g_series g) a |}.
Definition ok1 (o : option Z) (a : atom) : bool :=
  match aperiod a, o with Some k, Some k' => k' =? Z.of_nat k | _, _ => true end.

Lemma synaptic_state v : synaptic v -> exists s, var_state v = VSyn s.
Proof. intros [->|[->| ->]]; eexists; reflexivity. Qed.
Lemma read_var s v : read_inner (inside_syms (InVar s v))
  = Some {| i_mant := 1; i_exp := 0; i_var := Some (var_state v); i_const := None; i_neg := false |}.
Proof. destruct s; reflexivity. Qed.
Lemma read_lit s l : read_inner (inside_syms (InLit s l))
  = Some {| i_mant := lit_mant l * sign_value s; i_exp := lit_exp l; i_var := None; i_const := None; i_neg := false |}.
Proof. destruct s; reflexivity. Qed.
Definition is_minus (s : sign) : bool := match s with Minus => true | _ => false end.
Lemma read_varlit s b s' l : s' <> NoSign -> read_inner (inside_syms (VarLit s b s' l))
  = Some {| i_mant := sign_value s; i_exp := 0; i_var := Some (base_state b);
            i_const := Some (vl_const s s' l); i_neg := is_minus s |}.
Proof.
  intros H. destruct s' as [| |]; [congruence| |]; destruct s, b; reflexivity.
Qed.
Lemma read_litvar s l s' b : s' <> NoSign -> read_inner (inside_syms (LitVar s l s' b))
  = Some {| i_mant := sign_value s'; i_exp := 0; i_var := Some (base_state b);
            i_const := Some (vl_const s' s l); i_neg := is_minus s' |}.
Proof.
  intros H. destruct s' as [| |]; [congruence| |]; destruct s, b; reflexivity.
Qed.

Lemma gen_eq d1 c1 m1 e1 f1 s1 d2 c2 m2 e2 f2 s2 :
  d1 = d2 -> c1 = c2 -> m1 = m2 -> e1 = e2 -> f1 = f2 -> s1 = s2 ->
  {| g_dep := d1; g_dec := c1; g_mant := m1; g_exp := e1; g_factors := f1; g_series := s1 |}
  = {| g_dep := d2; g_dec := c2; g_mant := m2; g_exp := e2; g_factors := f2; g_series := s2 |}.
Proof. now intros -> -> -> -> -> ->. Qed.
Ltac gen_tac := unfold closed1, scale, add_factor, set_dep, has, upd;
  cbn [g_dep g_dec g_mant g_exp g_factors g_series aperiod atom_scale fst snd afactors plain_factor is_event];
  apply gen_eq; rewrite ?app_nil_r; try reflexivity; try lia.

Lemma gen_atom g a : wf_atom a -> gen_symbol g (atom_sym a) = if ok1 (g_series g) a then Some (closed1 g a) else None.
Proof.
  intros Hw. destruct g as [d c m e f s]. destruct a as [ev|v|l|i|i].
  - destruct ev as [| |k]; cbn [atom_sym event_sym gen_symbol ok1 aperiod g_series g_dep].
    + f_equal. destruct d; gen_tac.
    + f_equal. destruct d; gen_tac.
    + assert (E : closed1 {| g_dep := d; g_dec := c; g_mant := m; g_exp := e; g_factors := f; g_series := s |} (AEvent (Periodic k))
         = {| g_dep := match d with None => Some DU | x => x end; g_dec := Some (Z.of_nat k); g_mant := m; g_exp := e;
              g_factors := f; g_series := Some (Z.of_nat k) |}) by (destruct d; gen_tac).
      rewrite E. cbn [g_dec g_mant g_exp g_factors]. unfold ok1. cbn [aperiod]. destruct s as [k1|], d; reflexivity.
  - cbn [atom_sym gen_symbol ok1 aperiod g_series]. f_equal. destruct d; gen_tac.
  - cbn [atom_sym gen_symbol ok1 aperiod g_series lit_sym l_mant l_exp]. f_equal. destruct d; gen_tac.
  - cbn [atom_sym gen_symbol ok1 aperiod g_series]. destruct i as [s1 v|s1 l|s1 b s2 l|s1 l s2 b]; cbn [wf_atom wf_bracket] in Hw.
    + rewrite read_var. cbn [obind i_mant i_exp i_var i_const]. f_equal. destruct d; gen_tac.
    + rewrite read_lit. cbn [obind i_mant i_exp i_var i_const]. f_equal. destruct d; gen_tac.
    + rewrite read_varlit by tauto. cbn [obind i_mant i_exp i_var i_const]. f_equal. destruct d; gen_tac.
    + rewrite read_litvar by tauto. cbn [obind i_mant i_exp i_var i_const]. f_equal. destruct d; gen_tac.
  - cbn [atom_sym gen_symbol ok1 aperiod g_series]. destruct i as [s1 v|s1 l|s1 b s2 l|s1 l s2 b]; cbn [wf_atom wf_sgn] in Hw.
    + rewrite read_var. cbn [obind i_mant i_exp i_var i_const i_neg]. destruct Hw as [_ Hv].
      destruct (synaptic_state v Hv) as [x E].
      assert (F : afactors (match d with Some _ => true | None => false end) (ASgn (InVar s1 v))
                  = [{| rf_var := VSyn x; rf_const := None; rf_sgn := true |}]) by (cbn [afactors]; now rewrite E).
      rewrite E. f_equal. unfold closed1, has. cbn [g_dep g_factors]. rewrite F. destruct d; gen_tac.
    + destruct Hw.
    + destruct Hw as (Hs & (v & -> & Hv) & Hl & Hs2). rewrite read_varlit by assumption.
      cbn [obind i_mant i_exp i_var i_const i_neg base_state]. destruct (synaptic_state v Hv) as [x E].
      assert (F : afactors (match d with Some _ => true | None => false end) (ASgn (VarLit s1 (BVar v) s2 l))
                  = [{| rf_var := VSyn x; rf_const := Some (vl_const s1 s2 l); rf_sgn := true |}])
        by (cbn [afactors base_state]; now rewrite E).
      rewrite E. destruct s1; [| |congruence]; cbn [is_minus sign_value]; f_equal; unfold closed1, has;
        cbn [g_dep g_factors]; rewrite F; destruct d; gen_tac.
    + destruct Hw as (-> & (v & -> & Hv) & Hl). rewrite read_litvar by discriminate.
      cbn [obind i_mant i_exp i_var i_const i_neg base_state]. destruct (synaptic_state v Hv) as [x E].
      assert (F : afactors (match d with Some _ => true | None => false end) (ASgn (LitVar s1 l Plus (BVar v)))
                  = [{| rf_var := VSyn x; rf_const := Some (vl_const Plus s1 l); rf_sgn := true |}])
        by (cbn [afactors base_state]; now rewrite E).
      rewrite E. cbn [is_minus sign_value]. f_equal. unfold closed1, has. cbn [g_dep g_factors]. rewrite F. destruct d; gen_tac.
Qed.

(** ** All symbols of a product *)
Fixpoint okp (o : option Z) (l : list nat) : bool :=
  match l with
  | [] => true
  | k :: r => match o with Some k' => k' =? Z.of_nat k | None => true end && okp (Some (Z.of_nat k)) r
  end.
Definition closed (g : gen) (l : list atom) : gen := fold_left closed1 l g.
Lemma periods_cons a r : periods (a :: r) = match aperiod a with Some k => k :: periods r | None => periods r end.
Proof. destruct a as [e|v|l|i|i]; [destruct e| | | |]; reflexivity. Qed.
Lemma okp_cons o a r : okp o (periods (a :: r)) = ok1 o a && okp (upd o a) (periods r).
Proof. rewrite periods_cons. unfold ok1, upd. destruct (aperiod a); reflexivity. Qed.
Lemma gen_atoms l : forall g, Forall wf_atom l ->
  gen_symbols (map atom_sym l) g = if okp (g_series g) (periods l) then Some (closed g l) else None.
Proof.
  induction l as [|a r IH]; intros g Hw; [reflexivity|]. inversion Hw; subst. cbn [map gen_symbols].
  rewrite gen_atom by assumption. rewrite okp_cons. destruct (ok1 (g_series g) a) eqn:E; [|reflexivity].
  cbn [obind andb]. rewrite IH by assumption. reflexivity.
Qed.

Definition amant (l : list atom) : Z := fold_right (fun a m => fst (atom_scale a) * m) 1 l.
Definition aexp (l : list atom) : Z := fold_right (fun a e => snd (atom_scale a) + e) 0 l.
Lemma closed_scale l : forall g, g_mant (closed g l) = g_mant g * amant l /\ g_exp (closed g l) = g_exp g + aexp l.
Proof.
  induction l as [|a r IH]; intros g; [unfold closed; cbn; lia|].
  change (closed g (a :: r)) with (closed (closed1 g a) r). destruct (IH (closed1 g a)) as [-> ->].
  cbn [closed1 g_mant g_exp amant aexp fold_right]. fold (amant r) (aexp r). split; ring.
Qed.
Lemma closed_dep l : forall g, g_dep (closed g l) =
  match g_dep g with Some d => Some d | None => omap ev_dep (dependency l) end.
Proof.
  induction l as [|a r IH]; intros g; [unfold closed; cbn; now destruct (g_dep g)|].
  change (closed g (a :: r)) with (closed (closed1 g a) r). rewrite IH. cbn [closed1 g_dep].
  destruct (g_dep g) as [d|]; [reflexivity|]. destruct a; reflexivity.
Qed.
Lemma okp_all o l : okp o l = true -> forall k, In k l -> (match o with Some k' => k' = Z.of_nat k | None => True end) /\
  (match l with k0 :: _ => k0 = k | [] => True end).
Proof.
  revert o. induction l as [|k0 r IH]; intros o H k Hin; [destruct Hin|]. cbn [okp] in H.
  apply andb_prop in H. destruct H as [H1 H2]. destruct Hin as [->|Hin].
  - split; [|reflexivity]. destruct o; [lia|exact I].
  - destruct (IH _ H2 k Hin) as [E _]. assert (k0 = k) by lia. subst k0. split; [|reflexivity].
    destruct o; [lia|exact I].
Qed.
Lemma okp_iff o l : okp o l = true <->
  (forall k, In k l -> match o with Some k' => k' = Z.of_nat k | None => True end) /\
  (forall k k', In k l -> In k' l -> k = k').
Proof.
  split.
  - intros H. split; [intros k Hk; apply (okp_all o l H k Hk)|].
    intros k k' Hk Hk'. pose proof (proj2 (okp_all o l H k Hk)). pose proof (proj2 (okp_all o l H k' Hk')).
    destruct l; [destruct Hk|congruence].
  - revert o. induction l as [|k0 r IH]; intros o [H1 H2]; [reflexivity|]. cbn [okp]. apply andb_true_intro. split.
    + specialize (H1 k0 (or_introl eq_refl)). destruct o; [lia|reflexivity].
    + apply IH. split; [|intros; apply H2; right; assumption].
      intros k Hk. f_equal. apply H2; [left; reflexivity|right; exact Hk].
Qed.
Lemma upd_fold (f : gen -> option Z) : (forall g a, f (closed1 g a) = upd (f g) a) -> forall l g o,
  okp o (periods l) = true ->
  f (closed g l) = match periods l with k :: _ => Some (Z.of_nat k) | [] => f g end.
Proof.
  intros Hf. induction l as [|a r IH]; intros g o Ho; [reflexivity|].
  change (closed g (a :: r)) with (closed (closed1 g a) r). rewrite okp_cons in Ho. apply andb_prop in Ho. destruct Ho as [_ Ho].
  rewrite (IH _ (upd o a) Ho), Hf, periods_cons. unfold upd in *. destruct (aperiod a) as [k|]; [|reflexivity].
  destruct (periods r) as [|k' r'] eqn:E; [reflexivity|]. apply okp_iff in Ho. destruct Ho as [Ho _].
  specialize (Ho k' (or_introl eq_refl)). cbv iota beta in Ho. congruence.
Qed.

(** ** Values *)
Lemma qprod_app a b : (qprod (a ++ b) == qprod a * qprod b)%Q.
Proof.
  induction a as [|x a IH]; [unfold qprod; cbn [List.app fold_right]; ring|].
  unfold qprod in *. cbn [List.app fold_right]. rewrite IH. ring.
Qed.
Definition gval (rho : env) (e : event) (g : gen) : Q :=
  (inject_Z (g_mant g) * Qpower 2 (g_exp g) * qprod (map (factor_value rho e) (g_factors g)))%Q.
Definition used (rho : env) (h : bool) (a : atom) : Q :=
  match a with
  | AEvent (Periodic k) => occurs rho (Periodic k)
  | AEvent e => if h then 1 else occurs rho e
  | _ => 1
  end.
Fixpoint consumed (rho : env) (h : bool) (l : list atom) : Q :=
  match l with [] => 1%Q | a :: r => (used rho h a * consumed rho (h || is_event a) r)%Q end.
Lemma state_var_value rho e v : state_value rho e (var_state v) = at_event rho e v.
Proof. destruct v; reflexivity. Qed.
Lemma state_base_value rho e b : state_value rho e (base_state b) = base_value rho e b.
Proof. destruct b as [v| |]; [destruct v| |]; reflexivity. Qed.
Lemma sgn_ext a b : (a == b)%Q -> (sgn a = sgn b)%Q.
Proof.
  intros H. unfold sgn. replace (Qeq_bool b 0) with (Qeq_bool a 0).
  - replace (Qle_bool 0 b) with (Qle_bool 0 a); [reflexivity|].
    apply eq_true_iff_eq. rewrite !Qle_bool_iff. now rewrite H.
  - apply eq_true_iff_eq. rewrite !Qeq_bool_iff. now rewrite H.
Qed.
Lemma pow2_add a b : (Qpower 2 (a + b) == Qpower 2 a * Qpower 2 b)%Q.
Proof. apply Qpower_plus. discriminate. Qed.
Lemma injz_mul a b : (inject_Z (a * b) == inject_Z a * inject_Z b)%Q.
Proof. now rewrite inject_Z_mult. Qed.

Definition atom_rest (rho : env) (e : event) (h : bool) (a : atom) : Q :=
  (inject_Z (fst (atom_scale a)) * Qpower 2 (snd (atom_scale a)) * qprod (map (factor_value rho e) (afactors h a)) * used rho h a)%Q.
Lemma atom_rest_value rho e h a : wf_atom a -> (atom_rest rho e h a == atom_value rho e a)%Q.
Proof.
  intros Hw. unfold atom_rest. destruct a as [ev|v|l|i|i].
  - destruct ev as [| |k]; [destruct h|destruct h|]; cbn [atom_scale fst snd afactors map qprod fold_right used atom_value];
      try unfold factor_value; cbn [plain_factor rf_var rf_const rf_sgn state_value]; ring.
  - cbn [atom_scale fst snd afactors map qprod fold_right used atom_value]. unfold factor_value.
    cbn [plain_factor rf_var rf_const rf_sgn]. rewrite state_var_value. change (Qpower 2 0) with 1%Q. ring.
  - cbn [atom_scale fst snd afactors map qprod fold_right used atom_value]. unfold lit_value. ring.
  - destruct i as [s1 v|s1 l|s1 b s2 l|s1 l s2 b]; cbn [wf_atom wf_bracket] in Hw;
      cbn [atom_scale fst snd afactors map qprod fold_right used atom_value inside_value]; unfold factor_value;
      cbn [plain_factor rf_var rf_const rf_sgn]; rewrite ?state_var_value, ?state_base_value; change (Qpower 2 0) with 1%Q;
      unfold signed, lit_value.
    + destruct s1; [| |congruence]; cbn [sign_value]; ring.
    + rewrite injz_mul. ring.
    + unfold vl_const, lit_value. destruct s1, s2; cbn [sign_value]; try (exfalso; tauto); ring.
    + unfold vl_const, lit_value. destruct s1, s2; cbn [sign_value]; try (exfalso; tauto); ring.
  - destruct i as [s1 v|s1 l|s1 b s2 l|s1 l s2 b]; cbn [wf_atom wf_sgn] in Hw;
      cbn [atom_scale fst snd afactors map qprod fold_right used atom_value inside_value]; unfold factor_value;
      cbn [plain_factor rf_var rf_const rf_sgn]; rewrite ?state_var_value, ?state_base_value; change (Qpower 2 0) with 1%Q;
      unfold signed.
    + rewrite (sgn_ext (at_event rho e v + 0) (inject_Z (sign_value s1) * at_event rho e v)); [ring|].
      destruct s1; [| |tauto]; cbn [sign_value]; ring.
    + destruct Hw.
    + rewrite (sgn_ext (base_value rho e b + vl_const s1 s2 l)
        (inject_Z (sign_value s1) * base_value rho e b + inject_Z (sign_value s2) * lit_value l)); [ring|].
      unfold vl_const. destruct s1; [| |tauto]; destruct s2; cbn [sign_value]; try (exfalso; tauto); ring.
    + destruct Hw as (-> & _ & _).
      rewrite (sgn_ext (base_value rho e b + vl_const Plus s1 l)
        (inject_Z (sign_value s1) * lit_value l + inject_Z (sign_value Plus) * base_value rho e b)); [ring|].
      unfold vl_const. destruct s1; cbn [sign_value]; ring.
Qed.
Lemma closed1_val rho e g a : wf_atom a ->
  (gval rho e (closed1 g a) * used rho (has g) a == gval rho e g * atom_value rho e a)%Q.
Proof.
  intros Hw. rewrite <- (atom_rest_value rho e (has g) a Hw). unfold gval, atom_rest.
  cbn [closed1 g_mant g_exp g_factors]. rewrite injz_mul, pow2_add, map_app, qprod_app. ring.
Qed.
Lemma closed1_has g a : has (closed1 g a) = has g || is_event a.
Proof. unfold has. cbn [closed1 g_dep]. destruct (g_dep g); [reflexivity|]. destruct a; reflexivity. Qed.
Lemma closed_val rho e l : forall g, Forall wf_atom l ->
  (gval rho e (closed g l) * consumed rho (has g) l == gval rho e g * qprod (map (atom_value rho e) l))%Q.
Proof.
  induction l as [|a r IH]; intros g Hw; [unfold closed; cbn; ring|]. inversion Hw; subst.
  change (closed g (a :: r)) with (closed (closed1 g a) r). cbn [consumed map qprod fold_right].
  fold (qprod (map (atom_value rho e) r)).
  assert (E := IH (closed1 g a) ltac:(assumption)). rewrite closed1_has in E.
  transitivity (used rho (has g) a * (gval rho e (closed (closed1 g a) r) * consumed rho (has g || is_event a) r))%Q; [ring|].
  rewrite E. transitivity ((gval rho e (closed1 g a) * used rho (has g) a) * qprod (map (atom_value rho e) r))%Q; [ring|].
  rewrite closed1_val by assumption. ring.
Qed.
Lemma consumed_true rho l k : binary rho -> (forall k', In k' (periods l) -> k' = k) ->
  (occurs rho (Periodic k) * consumed rho true l == occurs rho (Periodic k))%Q.
Proof.
  intros Hb. induction l as [|a r IH]; intros H; [cbn; ring|]. cbn [consumed orb].
  rewrite periods_cons in H. destruct (aperiod a) as [k'|] eqn:E.
  - assert (k' = k) by (apply H; left; reflexivity). subst k'.
    assert (Hr := IH (fun k' Hk => H k' (or_intror Hk))).
    destruct a as [ev|v|l|i|i]; try discriminate E. destruct ev as [| |k2]; try discriminate E. injection E as ->.
    cbn [used]. destruct (Hb (Periodic k)) as [Z|Z]; rewrite Z in *; [ring|].
    transitivity (1 * consumed rho true r)%Q; [ring|exact Hr].
  - assert (Hr := IH H). assert (U : (used rho true a == 1)%Q).
    { destruct a as [ev|v|l|i|i]; try reflexivity. destruct ev; try reflexivity. discriminate E. }
    rewrite U. transitivity (occurs rho (Periodic k) * consumed rho true r)%Q; [ring|exact Hr].
Qed.
Lemma consumed_none rho l : periods l = [] -> (consumed rho true l == 1)%Q.
Proof.
  induction l as [|a r IH]; intros H; [reflexivity|]. rewrite periods_cons in H. destruct (aperiod a) eqn:E; [discriminate|].
  cbn [consumed orb]. rewrite (IH H). destruct a as [ev|v|l|i|i]; try reflexivity. destruct ev; try reflexivity. discriminate E.
Qed.
Lemma consumed_false rho l e : binary rho -> dependency l = Some e ->
  (match e with Periodic k => forall k', In k' (periods l) -> k' = k | _ => periods l = [] end) ->
  (consumed rho false l == occurs rho e)%Q.
Proof.
  intros Hb. induction l as [|a r IH]; intros Hd H; [discriminate|].
  destruct a as [ev|v|l|i|i]; cbn [dependency] in Hd; cbn [consumed is_event orb];
    try (change (periods _) with (periods r) in H; rewrite (IH Hd H); cbn [used]; ring).
  injection Hd as ->. destruct e as [| |k]; cbn [used].
  - rewrite consumed_none by exact H. ring.
  - rewrite consumed_none by exact H. ring.
  - apply consumed_true; [exact Hb|]. intros k' Hk. apply H. right. exact Hk.
Qed.

(** ** Normalization of the scaling constant *)
Lemma py_half_small m : Z.abs m < 2 ^ 54 -> py_half m = Some (m / 2).
Proof. intros H. unfold py_half. destruct (Z.ltb_spec (Z.abs m) (2 ^ 54)); [reflexivity|lia]. Qed.
Lemma normalize_spec : forall n m e, Z.abs m < 2 ^ 54 -> (Z.to_nat (Z.log2 (Z.abs m)) < n)%nat ->
  exists k m', 0 <= k /\ m = m' * 2 ^ k /\ normalize n m e = Some (m', e + k) /\
    (k = 0 \/ (7 < Z.abs (m' * 2) /\ e + k <= 8)) /\ (Z.abs m' <= 7 \/ Z.odd m' = true \/ 8 <= e + k).
Proof.
  induction n as [|n IH]; intros m e Hm Hn; [lia|]. cbn [normalize].
  destruct ((7 <? Z.abs m) && Z.even m && (e <? 8)) eqn:C.
  - apply andb_prop in C. destruct C as [C Ce]. apply andb_prop in C. destruct C as [C7 Cev].
    rewrite py_half_small by assumption. cbn [obind].
    assert (Hh : m = 2 * (m / 2)).
    { apply Z.even_spec in Cev. destruct Cev as [x ->]. rewrite (Z.mul_comm 2 x), Z.div_mul by lia. lia. }
    set (h := m / 2) in *. assert (L : Z.log2 (Z.abs m) = 1 + Z.log2 (Z.abs h)).
    { rewrite Hh at 1. rewrite Z.abs_mul. change (Z.abs 2) with 2. rewrite Z.log2_double by lia. lia. }
    assert (0 <= Z.log2 (Z.abs h)) by apply Z.log2_nonneg.
    destruct (IH h (e + 1)) as (k & m' & Hk & E1 & E2 & E3 & E4); [lia|lia|].
    exists (k + 1), m'. split; [lia|]. split; [rewrite Z.pow_add_r by lia; lia|].
    split; [rewrite E2; do 2 f_equal; lia|]. split.
    + right. split; [|destruct E3; lia]. destruct E3 as [->|[E3 _]]; [|exact E3].
      rewrite E1 in Hh. rewrite Z.pow_0_r in Hh. lia.
    + destruct E4 as [E4|[E4|E4]]; [left; exact E4|right; left; exact E4|right; right; lia].
  - exists 0, m. split; [lia|]. split; [lia|]. split; [do 2 f_equal; lia|]. split; [left; reflexivity|].
    apply andb_false_iff in C. destruct C as [C|C]; [apply andb_false_iff in C; destruct C as [C|C]|].
    + left. lia.
    + right. left. rewrite <- Z.negb_even, C. reflexivity.
    + right. right. lia.
Qed.
Lemma norm_fuel_ok m : (Z.to_nat (Z.log2 (Z.abs m)) < norm_fuel m)%nat.
Proof. unfold norm_fuel. lia. Qed.
Definition in_range (m e : Z) : bool := negb ((m <? -8) || (8 <=? m)) && negb ((e <? -7) || (9 <=? e)).
Lemma normalize_representable m e : Z.abs m < 2 ^ 54 ->
  exists m' e', normalize (norm_fuel m) m e = Some (m', e') /\
    (inject_Z m * Qpower 2 e == inject_Z m' * Qpower 2 e')%Q /\ (in_range m' e' = true <-> representable m e).
Proof.
  intros Hm. destruct (normalize_spec _ m e Hm (norm_fuel_ok m)) as (k & m' & Hk & E1 & E2 & E3 & E4).
  exists m', (e + k). split; [exact E2|]. split.
  - rewrite E1 at 1. rewrite injz_mul, pow2_add. rewrite <- (Zpower_Qpower 2 k Hk). ring.
  - assert (R : in_range m' (e + k) = true <-> -8 <= m' < 8 /\ -7 <= e + k <= 8).
    { unfold in_range. rewrite andb_true_iff, !negb_true_iff, !orb_false_iff. lia. }
    rewrite R. clear R. split.
    + intros [R1 R2]. exists k, m'. split; [exact Hk|]. split; [exact E1|]. split; [exact R1|]. split; [exact R2|].
      destruct E3 as [E3|[E3 _]]; [left|right]; assumption.
    + intros (k0 & m0 & Hk0 & F1 & F2 & F3 & F4).
      destruct (Z.lt_trichotomy k k0) as [H|[->|H]].
      * assert (F5 : m' = m0 * 2 * 2 ^ (k0 - k - 1)).
        { assert (m' * 2 ^ k = m0 * 2 * 2 ^ (k0 - k - 1) * 2 ^ k).
          { rewrite <- E1, F1. replace k0 with (1 + (k0 - k - 1) + k) at 1 by lia.
            rewrite !Z.pow_add_r by lia. rewrite Z.pow_1_r. ring. }
          assert (0 < 2 ^ k) by (apply Z.pow_pos_nonneg; lia). nia. }
        assert (P : 0 < 2 ^ (k0 - k - 1)) by (apply Z.pow_pos_nonneg; lia).
        assert (7 < Z.abs m') by (rewrite F5, Z.abs_mul; rewrite (Z.abs_eq (2 ^ (k0 - k - 1))) by lia; nia).
        assert (Z.odd m' = false) by (rewrite F5, !Z.odd_mul; cbn; rewrite andb_false_r; reflexivity).
        destruct E4 as [E4|[E4|E4]]; [lia|congruence|lia].
      * assert (m' = m0) by (assert (0 < 2 ^ k0) by (apply Z.pow_pos_nonneg; lia); nia). subst m0. tauto.
      * assert (F5 : m0 = m' * 2 * 2 ^ (k - k0 - 1)).
        { assert (m0 * 2 ^ k0 = m' * 2 * 2 ^ (k - k0 - 1) * 2 ^ k0).
          { rewrite <- F1, E1. replace k with (1 + (k - k0 - 1) + k0) at 1 by lia.
            rewrite !Z.pow_add_r by lia. rewrite Z.pow_1_r. ring. }
          assert (0 < 2 ^ k0) by (apply Z.pow_pos_nonneg; lia). nia. }
        assert (P : 0 < 2 ^ (k - k0 - 1)) by (apply Z.pow_pos_nonneg; lia).
        destruct E3 as [E3|[E3 E5]]; [lia|]. nia.
Qed.

(** ** Merging literals changes nothing *)
Lemma norm_amant l : amant (norm l) = amant l.
Proof.
  induction l as [|a r IH]; [reflexivity|]. destruct (norm_cases a r) as [(n & s & e & r' & -> & E & ->)|[-> N]].
  - rewrite E in IH. cbn [amant fold_right atom_scale fst lit_mant] in IH |- *.
    fold (amant r') (amant r) in *. rewrite <- IH. ring.
  - cbn [amant fold_right]. fold (amant (norm r)) (amant r). now rewrite IH.
Qed.
Lemma norm_aexp l : aexp (norm l) = aexp l.
Proof.
  induction l as [|a r IH]; [reflexivity|]. destruct (norm_cases a r) as [(n & s & e & r' & -> & E & ->)|[-> N]].
  - rewrite E in IH. cbn [aexp fold_right atom_scale snd lit_exp] in IH |- *.
    fold (aexp r') (aexp r) in *. rewrite <- IH. lia.
  - cbn [aexp fold_right]. fold (aexp (norm r)) (aexp r). now rewrite IH.
Qed.
Lemma norm_dependency l : dependency (norm l) = dependency l.
Proof.
  induction l as [|a r IH]; [reflexivity|]. destruct (norm_cases a r) as [(n & s & e & r' & -> & E & ->)|[-> N]].
  - rewrite E in IH. cbn [dependency] in *. exact IH.
  - destruct a; cbn [dependency]; auto.
Qed.
Lemma norm_periods l : periods (norm l) = periods l.
Proof.
  induction l as [|a r IH]; [reflexivity|]. destruct (norm_cases a r) as [(n & s & e & r' & -> & E & ->)|[-> N]].
  - rewrite E in IH. exact IH.
  - rewrite !periods_cons, IH. reflexivity.
Qed.
Lemma norm_value rho e l : (qprod (map (atom_value rho e) (norm l)) == qprod (map (atom_value rho e) l))%Q.
Proof.
  induction l as [|a r IH]; [reflexivity|]. destruct (norm_cases a r) as [(n & s & x & r' & -> & E & ->)|[-> N]].
  - rewrite E in IH. cbn [map qprod fold_right atom_value] in IH |- *. fold (qprod (map (atom_value rho e) r)) in *.
    rewrite <- IH. unfold lit_value. cbn [lit_mant lit_exp]. change (Qpower 2 0) with 1%Q. ring.
  - cbn [map qprod fold_right]. fold (qprod (map (atom_value rho e) r)) (qprod (map (atom_value rho e) (norm r))).
    now rewrite IH.
Qed.

(** ** One product *)
Definition start (series : option Z) (s : sign) : gen :=
  {| g_dep := None; g_dec := None; g_mant := sign_value s; g_exp := 0; g_factors := []; g_series := series |}.
Lemma gen_term series t : wf_term t ->
  gen_symbols (term_syms t) {| g_dep := None; g_dec := None; g_mant := 1; g_exp := 0; g_factors := []; g_series := series |}
  = if okp series (periods (t_atoms t)) then Some (closed (start series (t_sign t)) (norm (t_atoms t))) else None.
Proof.
  intros [_ Hw]. unfold term_syms. rewrite <- norm_periods.
  assert (E : forall g, gen_symbols (sign_syms (t_sign t) ++ map atom_sym (norm (t_atoms t))) g
     = gen_symbols (map atom_sym (norm (t_atoms t))) (match t_sign t with Minus => scale g (-1) 0 | _ => g end))
    by (intros g; destruct (t_sign t); reflexivity).
  rewrite E. rewrite gen_atoms by now apply norm_wf.
  destruct (t_sign t); reflexivity.
Qed.

Definition dep_ok (l : list atom) : Prop :=
  exists e, dependency l = Some e /\ (periods l = [] \/ exists k, e = Periodic k).
Lemma dependency_period l k : dependency l = Some (Periodic k) -> In k (periods l).
Proof.
  induction l as [|a r IH]; [discriminate|]. destruct a as [e|v|l|i|i]; cbn [dependency]; intros H;
    try (rewrite periods_cons; cbn [aperiod]; auto; fail).
  injection H as ->. left. reflexivity.
Qed.
Lemma gen_product_term series t : wf_term t -> Z.abs (term_mant t) < 2 ^ 54 ->
  (exists p, gen_product series (term_syms t) = Some (p, match periods (t_atoms t) with k :: _ => Some (Z.of_nat k) | [] => series end) /\
     okp series (periods (t_atoms t)) = true /\ representable (term_mant t) (term_exp t) /\ dep_ok (t_atoms t) /\
     forall rho, binary rho -> (compiled_value rho p == term_value rho t)%Q)
  \/ (gen_product series (term_syms t) = None /\
      ~ (okp series (periods (t_atoms t)) = true /\ representable (term_mant t) (term_exp t) /\ dep_ok (t_atoms t))).
Proof.
  intros Hw Hm. unfold gen_product. rewrite (gen_term series t Hw).
  destruct (okp series (periods (t_atoms t))) eqn:Eok; [|right; split; [reflexivity|intros (H & _); discriminate]].
  cbn [obind]. set (g := closed (start series (t_sign t)) (norm (t_atoms t))).
  assert (Em : g_mant g = term_mant t /\ g_exp g = term_exp t).
  { unfold g. destruct (closed_scale (norm (t_atoms t)) (start series (t_sign t))) as [-> ->].
    rewrite norm_amant, norm_aexp. unfold term_mant, term_exp, start. cbn [g_mant g_exp]. fold (amant (t_atoms t)) (aexp (t_atoms t)).
    split; [reflexivity|lia]. }
  destruct Em as [Em Ee]. rewrite Em, Ee.
  destruct (normalize_representable (term_mant t) (term_exp t) Hm) as (m' & e' & En & Eq & Er).
  rewrite En. cbn [obind].
  assert (Ed : g_dep g = omap ev_dep (dependency (t_atoms t)))
    by (unfold g; rewrite closed_dep, norm_dependency; reflexivity).
  assert (Ec : g_dec g = match periods (t_atoms t) with k :: _ => Some (Z.of_nat k) | [] => None end).
  { unfold g. rewrite <- norm_periods in Eok |- *. rewrite (upd_fold g_dec (fun _ _ => eq_refl) _ _ series Eok). reflexivity. }
  assert (Es : g_series g = match periods (t_atoms t) with k :: _ => Some (Z.of_nat k) | [] => series end).
  { unfold g. rewrite <- norm_periods in Eok |- *. rewrite (upd_fold g_series (fun _ _ => eq_refl) _ _ series Eok). reflexivity. }
  rewrite Ed. destruct (dependency (t_atoms t)) as [e|] eqn:Edep; cbn [omap].
  2: { right. split; [reflexivity|]. intros (_ & _ & (e & H & _)). congruence. }
  destruct (in_range m' e') eqn:Ein.
  2: { right. split.
       - unfold in_range in Ein. destruct ((m' <? -8) || (8 <=? m')); [reflexivity|].
         destruct ((e' <? -7) || (9 <=? e')); [reflexivity|discriminate Ein].
       - intros (_ & H & _). apply Er in H. discriminate. }
  assert (Ein' := Ein). unfold in_range in Ein'. apply andb_prop in Ein'. destruct Ein' as [I1 I2].
  apply negb_true_iff in I1, I2. rewrite I1, I2.
  rewrite Ec, Es.
  assert (V : match e with Periodic k => forall k', In k' (periods (t_atoms t)) -> k' = k | _ => periods (t_atoms t) = [] end ->
     forall rho, binary rho ->
     (compiled_value rho {| rp_dep := ev_dep e; rp_mant := m'; rp_exp := e' + 7; rp_factors := g_factors g;
         rp_decimate := match periods (t_atoms t) with k :: _ => Some (Z.of_nat k) | [] => None end |} == term_value rho t)%Q).
  { intros Hp rho Hb. unfold compiled_value, product_event. cbn [rp_dep rp_decimate rp_mant rp_exp rp_factors].
    assert (Ev : match ev_dep e with DX0 => Pre | DY0 => Post
        | DU => Periodic (Z.to_nat match match periods (t_atoms t) with k :: _ => Some (Z.of_nat k) | [] => None end with Some k => k | None => 0 end) end = e).
    { destruct e as [| |k]; try reflexivity. cbn [ev_dep]. pose proof (dependency_period _ _ Edep) as Hin.
      destruct (periods (t_atoms t)) as [|k0 r]; [destruct Hin|]. rewrite (Hp k0 (or_introl eq_refl)). now rewrite Nat2Z.id. }
    rewrite Ev. replace (e' + 7 - 7) with e' by lia. rewrite <- Eq, <- Em, <- Ee.
    assert (C := consumed_false rho (norm (t_atoms t)) e Hb). rewrite norm_dependency, norm_periods in C. specialize (C Edep Hp).
    assert (G := closed_val rho e (norm (t_atoms t)) (start series (t_sign t)) (norm_wf _ (proj2 Hw))).
    fold g in G. change (has (start series (t_sign t))) with false in G. rewrite C in G. rewrite norm_value in G.
    unfold gval in G. cbn [start g_mant g_exp g_factors map qprod fold_right] in G. change (Qpower 2 0) with 1%Q in G.
    unfold term_value. rewrite Edep. unfold signed.
    transitivity (inject_Z (g_mant g) * Qpower 2 (g_exp g) * qprod (map (factor_value rho e) (g_factors g)) * occurs rho e)%Q; [ring|].
    rewrite G. ring. }
  apply okp_iff in Eok. destruct Eok as [Eok1 Eok2].
  destruct (periods (t_atoms t)) as [|k0 ks] eqn:Ep.
  - left. destruct e as [| |k]; cbn [ev_dep] in *; try (eexists; split; [reflexivity|]; split; [reflexivity|]; split; [now apply Er|];
      split; [eexists; split; [exact Edep|left; exact Ep]|exact (V eq_refl)]).
    pose proof (dependency_period _ _ Edep) as Hin. rewrite Ep in Hin. destruct Hin.
  - destruct e as [| |k]; cbn [ev_dep] in *.
    + right. split; [reflexivity|]. intros (_ & _ & (e2 & H1 & H2)). rewrite Edep in H1. injection H1 as <-.
      rewrite Ep in H2. destruct H2 as [H2|[k H2]]; discriminate.
    + right. split; [reflexivity|]. intros (_ & _ & (e2 & H1 & H2)). rewrite Edep in H1. injection H1 as <-.
      rewrite Ep in H2. destruct H2 as [H2|[k H2]]; discriminate.
    + left. eexists. split; [reflexivity|]. split; [reflexivity|]. split; [now apply Er|].
      split; [eexists; split; [exact Edep|right; eexists; reflexivity]|]. apply V.
      intros k' Hk'. apply Eok2; [exact Hk'|]. pose proof (dependency_period _ _ Edep) as Hin. now rewrite Ep in Hin.
Qed.

(** ** The theorems *)
Lemma gen_products_rule : forall r series, Forall wf_term r -> small r ->
  (exists ps k, gen_products series (map term_syms r) = Some (ps, k) /\
     (forall t, In t r -> representable (term_mant t) (term_exp t) /\ dep_ok (t_atoms t)) /\
     (forall t k', In t r -> In k' (periods (t_atoms t)) -> k = Some (Z.of_nat k')) /\
     ((forall t, In t r -> periods (t_atoms t) = []) -> k = series) /\
     (forall k', series = Some k' -> k = series) /\
     List.length ps = List.length r /\
     forall rho, binary rho -> (series_value rho ps == rule_value rho r)%Q)
  \/ (gen_products series (map term_syms r) = None /\
      ~ ((forall t, In t r -> representable (term_mant t) (term_exp t) /\ dep_ok (t_atoms t)) /\
         (forall t t' k k', In t r -> In t' r -> In k (periods (t_atoms t)) -> In k' (periods (t_atoms t')) -> k = k') /\
         (forall t k, In t r -> In k (periods (t_atoms t)) -> match series with Some k' => k' = Z.of_nat k | None => True end))).
Proof.
  induction r as [|t r IH]; intros series Hw Hs.
  - left. exists [], series. cbn. repeat split; auto; try (intros; contradiction). 
  - inversion Hw as [|? ? Ht Hw']; subst. assert (Hs' : small r) by (intros x Hx; apply Hs; right; exact Hx).
    cbn [map gen_products].
    destruct (gen_product_term series t Ht (Hs t (or_introl eq_refl))) as [(p & E & Eok & Er & Ed & Ev)|[E N]].
    + rewrite E. cbn [obind fst snd]. apply okp_iff in Eok. destruct Eok as [Eok1 Eok2].
      set (s1 := match periods (t_atoms t) with k :: _ => Some (Z.of_nat k) | [] => series end) in *.
      destruct (IH s1 Hw' Hs') as [(ps & k & F1 & F2 & F3 & F4 & F5 & F6 & F7)|[F1 F2]].
      * left. rewrite F1. cbn [omap fst snd]. exists (p :: ps), k. split; [reflexivity|].
        assert (K1 : forall k', In k' (periods (t_atoms t)) -> k = Some (Z.of_nat k')).
        { intros k' Hk'. unfold s1 in *. destruct (periods (t_atoms t)) as [|k0 ks] eqn:Ep; [destruct Hk'|].
          rewrite (F5 _ eq_refl). do 2 f_equal. apply Eok2; [left; reflexivity|exact Hk']. }
        split; [intros x [<-|Hx]; [split; assumption|now apply F2]|].
        split; [intros x k' [<-|Hx] Hk; [now apply K1|now apply (F3 x)]|].
        split; [|split; [|split]].
        -- intros H. rewrite F4 by (intros x Hx; apply H; right; exact Hx). unfold s1.
           now rewrite (H t (or_introl eq_refl)).
        -- intros k' Hk'. unfold s1 in *. destruct (periods (t_atoms t)) as [|k0 ks] eqn:Ep.
           ++ now apply (F5 k').
           ++ rewrite (K1 k0 (or_introl eq_refl)), Hk'. f_equal. specialize (Eok1 k0 (or_introl eq_refl)).
              rewrite Hk' in Eok1. congruence.
        -- cbn [List.length]. now rewrite F6.
        -- intros rho Hb. cbn [series_value rule_value map qsum fold_right]. unfold series_value, rule_value in F7 |- *.
           cbn [map qsum fold_right]. unfold qsum in F7 |- *. rewrite (F7 rho Hb), (Ev rho Hb). reflexivity.
      * right. rewrite F1. split; [reflexivity|]. intros (H1 & H2 & H3). apply F2. split; [|split].
        -- intros x Hx. apply H1. right. exact Hx.
        -- intros x x' a b Hx Hx'. apply (H2 x x' a b); right; assumption.
        -- intros x a Hx Ha. unfold s1. destruct (periods (t_atoms t)) as [|k0 ks] eqn:Ep.
           ++ apply (H3 x a); [right; exact Hx|exact Ha].
           ++ f_equal. apply (H2 t x k0 a); [left; reflexivity|right; exact Hx|rewrite Ep; left; reflexivity|exact Ha].
    + right. rewrite E. split; [reflexivity|]. intros (H1 & H2 & H3). apply N. split; [|apply (H1 t (or_introl eq_refl))].
      apply okp_iff. split.
      * intros k Hk. apply (H3 t k); [left; reflexivity|exact Hk].
      * intros k k' Hk Hk'. apply (H2 t t k k'); auto; left; reflexivity.
Qed.

(** C65: every accepted rule of the documented grammar has its arithmetic value: one product per term, whatever
    the events and the values of the variables *)
Theorem rule_means_what_it_says_partial : forall s r, wf_rule r -> small r -> writes s r ->
  forall ps k, compile s = Some (ps, k) ->
  List.length ps = List.length r /\
  forall rho, binary rho -> (series_value rho ps == rule_value rho r)%Q.
Proof.
  intros s r Hw Hs Hwr ps k E. rewrite (compile_rule s r Hw Hwr) in E.
  destruct (gen_products_rule r None (proj1 (proj2 Hw)) Hs) as [(ps' & k' & F1 & _ & _ & _ & _ & F6 & F7)|[F1 _]].
  - rewrite F1 in E. injection E as -> ->. split; assumption.
  - rewrite F1 in E. discriminate.
Qed.

(** C65: exactly the rules with one dependency per product, one period and representable constants are accepted *)
Theorem rule_accepted_iff : forall s r, wf_rule r -> small r -> writes s r ->
  ((exists ps k, compile s = Some (ps, k)) <-> acceptable r).
Proof.
  intros s r Hw Hs Hwr. rewrite (compile_rule s r Hw Hwr).
  destruct (gen_products_rule r None (proj1 (proj2 Hw)) Hs) as [(ps & k & F1 & F2 & F3 & _)|[F1 F2]].
  - split; [intros _|intros _; exists ps, k; exact F1]. split.
    + intros t Ht. exact (F2 t Ht).
    + intros t t' a b Ht Ht' Ha Hb. pose proof (F3 t a Ht Ha) as E1. pose proof (F3 t' b Ht' Hb) as E2.
      rewrite E1 in E2. injection E2 as E2. apply Nat2Z.inj. exact E2.
  - split; [intros (ps & k & E); rewrite F1 in E; discriminate|]. intros [H1 H2]. exfalso. apply F2.
    split; [exact H1|]. split; [exact H2|]. intros; exact I.
Qed.

(** C65: the decimation exponent of the series is the period written *)
Theorem rule_decimation : forall s r, wf_rule r -> small r -> writes s r ->
  forall ps k, compile s = Some (ps, k) ->
  (forall n, k = Some (Z.of_nat n) <-> exists t, In t r /\ In n (periods (t_atoms t))) /\
  (k = None <-> forall t, In t r -> periods (t_atoms t) = []).
Proof.
  intros s r Hw Hs Hwr ps k E. rewrite (compile_rule s r Hw Hwr) in E.
  destruct (gen_products_rule r None (proj1 (proj2 Hw)) Hs) as [(ps' & k' & F1 & _ & F3 & F4 & _)|[F1 _]];
    [|rewrite F1 in E; discriminate].
  rewrite F1 in E. injection E as -> ->.
  assert (D : (forall t, In t r -> periods (t_atoms t) = []) \/ exists t n, In t r /\ In n (periods (t_atoms t))).
  { clear. induction r as [|t r [IH|(x & n & Hx & Hn)]].
    - left. intros t [].
    - destruct (periods (t_atoms t)) as [|n l] eqn:E.
      + left. intros x [<-|Hx]; auto.
      + right. exists t, n. split; [left; reflexivity|rewrite E; left; reflexivity].
    - right. exists x, n. split; [right; exact Hx|exact Hn]. }
  split.
  - intros n. split.
    + intros Hk. destruct D as [D|(t & n' & Ht & Hn)].
      * rewrite (F4 D) in Hk. discriminate.
      * exists t. split; [exact Ht|]. rewrite (F3 t n' Ht Hn) in Hk. injection Hk as Hk. apply Nat2Z.inj in Hk. now subst.
    + intros (t & Ht & Hn). now apply (F3 t).
  - split; [|exact F4]. intros Hk t Ht. destruct (periods (t_atoms t)) as [|n l] eqn:Ep; [reflexivity|].
    assert (k = Some (Z.of_nat n)) by (apply (F3 t n Ht); rewrite Ep; left; reflexivity). congruence.
Qed.
