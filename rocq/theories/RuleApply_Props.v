(** C78: from the text of a learning rule to the new weight in a fixed-point learning connection.  Combines the rule
    compiler ([Rule_Model]), the rule applier and the learning connection ([Learning_Model]). *)
From Coq Require Import ZArith QArith Qpower Qround Qabs List Bool Ascii String Lia Lqa.
From Verif Require Import NpInt Bits_Model Learning_Model Learning_Props Rule_Model Rule_Spec Rule_Proofs Rule_Props Rule_Props2.
Import ListNotations.
Open Scope Z_scope.

(** ** The products as the applier uses them (LearningRuleApplierBitApprox.__init__ keeps the ProductSeries; the constant
    of a factor is a Python int when its exponent is not negative) *)
Definition whole (q : Q) : option Z := if Pos.eqb (Qden (Qred q)) 1 then Some (Qnum (Qred q)) else None.
Definition to_factor (f : rfactor) : option factor :=
  match rf_const f with
  | None => Some {| f_var := rf_var f; f_const := None; f_sgn := rf_sgn f |}
  | Some q => omap (fun z => {| f_var := rf_var f; f_const := Some z; f_sgn := rf_sgn f |}) (whole q)
  end.
Fixpoint all_some {A B} (f : A -> option B) (l : list A) : option (list B) :=
  match l with [] => Some [] | x :: r => obind (f x) (fun y => omap (cons y) (all_some f r)) end.
Definition to_product (p : rproduct) : option product :=
  omap (fun fs => {| p_dep := rp_dep p; p_mant := rp_mant p; p_exp := rp_exp p; p_factors := fs |}) (all_some to_factor (rp_factors p)).
Definition to_products : list rproduct -> option (list product) := all_some to_product.

(** ** Specification *)
(** bits of the hardware for a variable, and of all factors of a product; the event it depends on needs none *)
Definition var_bits (v : var) : Z := match v with W | D | T => 9 | _ => 7 end.
Definition base_bits (b : base) : Z := match b with BVar v => var_bits v | _ => 1 end.
Definition atom_bits (a : atom) : Z :=
  match a with
  | AEvent (Periodic _) | ALit _ | ABracket (InLit _ _) | ASgn (InLit _ _) => 0
  | AEvent _ => 1
  | AVar v | ABracket (InVar _ v) | ASgn (InVar _ v) => var_bits v
  | ABracket (VarLit _ b _ _) | ABracket (LitVar _ _ _ b) | ASgn (VarLit _ b _ _) | ASgn (LitVar _ _ _ b) => base_bits b
  end.
Definition bits (l : list atom) : Z := fold_right (fun a n => atom_bits a + n) 0 l.
Fixpoint term_bits (l : list atom) : Z :=
  match l with [] => 0 | AEvent _ :: r => bits r | a :: r => atom_bits a + term_bits r end.
(** constants added to a variable are whole numbers *)
Definition whole_lit (l : lit) : Prop := 0 <= lit_exp l.
Definition whole_atom (a : atom) : Prop :=
  match a with
  | ABracket (VarLit _ _ _ l) | ABracket (LitVar _ l _ _) | ASgn (VarLit _ _ _ l) | ASgn (LitVar _ l _ _) => whole_lit l
  | _ => True
  end.
(** no factor saturates; a sign never does *)
Definition fits (rho : env) (e : event) (a : atom) : Prop :=
  match a with
  | AVar v => (Qabs (at_event rho e v) < inject_Z (2 ^ var_bits v))%Q
  | ABracket (InVar s v) => (Qabs (at_event rho e v) < inject_Z (2 ^ var_bits v))%Q
  | ABracket (VarLit s b s' l) => (Qabs (inside_value rho e (VarLit s b s' l)) < inject_Z (2 ^ base_bits b))%Q
  | ABracket (LitVar s l s' b) => (Qabs (inside_value rho e (LitVar s l s' b)) < inject_Z (2 ^ base_bits b))%Q
  | _ => True
  end.
Definition term_event (t : term) : event := match dependency (t_atoms t) with Some e => e | None => Pre end.
(** a rule that the 15-bit arithmetic computes exactly *)
Definition easy (rho : env) (r : rule) : Prop :=
  forall t, In t r -> term_bits (t_atoms t) <= 11 /\ Forall whole_atom (t_atoms t) /\
    Forall (fits rho (term_event t)) (t_atoms t) /\ (Qabs (term_value rho t) < 256)%Q.
(** no intermediate sum leaves the range of the accumulator *)
Definition sums_fit (rho : env) (v : Z) (r : rule) : Prop :=
  forall n, (Qabs (inject_Z v + rule_value rho (firstn n r)) < 256)%Q.
(** stochastic rounding of [x] with the random number [rnd] *)
Definition rounded (rnd x : Q) : Z := if Qlt_le_dec rnd (x - inject_Z (Qfloor x)) then Qfloor x + 1 else Qfloor x.
(** what the applier is told about an epoch *)
Definition args_env (a : args) : env :=
  {| occurs := fun e => inject_Z (match e with Pre => a_x0 a | Post => a_y0 a | Periodic _ => a_u a end);
     at_event := fun e v => inject_Z (match v with
       | X1 => a_trace a TX1 (ev_dep e) | X2 => a_trace a TX2 (ev_dep e)
       | Y1 => a_trace a TY1 (ev_dep e) | Y2 => a_trace a TY2 (ev_dep e) | Y3 => a_trace a TY3 (ev_dep e)
       | W => a_syn a SWeights | D => a_syn a STag2 | T => a_syn a STag1 end) |}.

(** ** Proofs *)
Lemma whole_inject q z : (q == inject_Z z)%Q -> whole q = Some z.
Proof.
  intro H. unfold whole. apply Qred_complete in H. rewrite H.
  assert (Qred (inject_Z z) = inject_Z z) as ->.
  { unfold Qred, inject_Z. pose proof (Z.ggcd_gcd z 1). pose proof (Z.ggcd_correct_divisors z 1).
    destruct (Z.ggcd z 1) as [g [p q']]. cbn [fst snd] in *. rewrite Z.gcd_1_r in *. subst g. destruct H1 as [-> H1].
    rewrite Z.mul_1_l in *. subst q'. reflexivity. }
  reflexivity.
Qed.
Lemma whole_spec q z : whole q = Some z -> (q == inject_Z z)%Q.
Proof.
  unfold whole. destruct (Pos.eqb_spec (Qden (Qred q)) 1) as [E|]; [|discriminate]. intro H. injection H as <-.
  rewrite <- (Qred_correct q) at 1. destruct (Qred q) as [n d]. cbn in *. subst d. reflexivity.
Qed.
Lemma pow2_inject e : 0 <= e -> (Qpower 2 e == inject_Z (2 ^ e))%Q.
Proof. intro H. rewrite Zpower_Qpower by exact H. reflexivity. Qed.
Lemma whole_lit_value l : whole_lit l -> exists z, (lit_value l == inject_Z z)%Q.
Proof.
  intro H. exists (lit_mant l * 2 ^ lit_exp l). unfold lit_value. rewrite pow2_inject by exact H. rewrite inject_Z_mult. reflexivity.
Qed.
Lemma whole_const s s' l : whole_lit l -> exists z, whole (vl_const s s' l) = Some z.
Proof.
  intro H. destruct (whole_lit_value l H) as [z E].
  exists ((match s with Minus => -1 | _ => 1 end) * ((match s' with Minus => -1 | _ => 1 end) * z)). apply whole_inject. unfold vl_const.
  rewrite !inject_Z_mult. destruct s, s'; rewrite E; try ring; unfold inject_Z; ring.
Qed.

Lemma all_some_app {A B} (f : A -> option B) l m x y : all_some f l = Some x -> all_some f m = Some y -> all_some f (l ++ m) = Some (x ++ y).
Proof.
  revert x. induction l as [|a l IH]; intros x Hx Hy; cbn [all_some app] in *; [injection Hx as <-; exact Hy|].
  destruct (f a) as [b|]; [|discriminate]. cbn [obind] in *. destruct (all_some f l) as [x'|]; [|discriminate]. cbn [omap] in *.
  injection Hx as <-. rewrite (IH x' eq_refl Hy). reflexivity.
Qed.
Lemma all_some_forall {A B} (f : A -> option B) l : (forall a, In a l -> exists b, f a = Some b) -> exists x, all_some f l = Some x.
Proof.
  induction l as [|a l IH]; intro H; cbn [all_some]; [eauto|]. destruct (H a (or_introl eq_refl)) as [b ->]. cbn [obind].
  destruct IH as [x ->]; [intros; apply H; right; assumption|]. cbn [omap]. eauto.
Qed.
Lemma all_some_forall2 {A B} (f : A -> option B) l : forall x, all_some f l = Some x -> Forall2 (fun a b => f a = Some b) l x.
Proof.
  induction l as [|a l IH]; intros x H; cbn [all_some] in H; [injection H as <-; constructor|].
  destruct (f a) eqn:E; [|discriminate]. cbn [obind] in H. destruct (all_some f l); [|discriminate]. cbn [omap] in H. injection H as <-.
  constructor; auto.
Qed.

(** *** factors *)
(** everything one needs to know about a factor of the compiled product *)
Definition good (rho : env) (e : event) (f : rfactor) : Prop :=
  (exists g, to_factor f = Some g) /\ (rf_sgn f = true -> exists s, rf_var f = VSyn s) /\
  (Qabs (factor_value rho e f) < inject_Z (2 ^ factor_width (rf_var f)))%Q.
Lemma var_bits_width v : var_bits v = factor_width (var_state v).
Proof. destruct v; reflexivity. Qed.
Lemma base_bits_width b : base_bits b = factor_width (base_state b).
Proof. destruct b as [v| |]; [apply var_bits_width|reflexivity|reflexivity]. Qed.
Lemma state_value_var rho e v : state_value rho e (var_state v) = at_event rho e v.
Proof. destruct v; reflexivity. Qed.
Lemma state_value_base rho e b : state_value rho e (base_state b) = base_value rho e b.
Proof. destruct b as [v| |]; [apply state_value_var|reflexivity|reflexivity]. Qed.
Lemma sgn_abs q : (Qabs (Rule_Spec.sgn q) <= 1)%Q.
Proof. unfold Rule_Spec.sgn. destruct (Qeq_bool q 0); [|destruct (Qle_bool 0 q)]; vm_compute; intro; discriminate. Qed.
Lemma occ_abs rho e : binary rho -> (Qabs (occurs rho e) < inject_Z 2)%Q.
Proof. intro H. destruct (H e) as [-> | ->]; vm_compute; reflexivity. Qed.
Lemma two_le_width v : (inject_Z 2 <= inject_Z (2 ^ factor_width v))%Q.
Proof. destruct v; vm_compute; intro; discriminate. Qed.
Lemma vl_value rho e s b s' l : s' <> NoSign ->
  (inside_value rho e (VarLit s b s' l) == inject_Z (sign_value s) * (base_value rho e b + vl_const s s' l))%Q.
Proof. intro H. cbn [inside_value]. unfold signed, vl_const. destruct s, s'; try congruence; cbn [sign_value]; unfold inject_Z; ring. Qed.
Lemma lv_value rho e s b s' l :
  (inside_value rho e (LitVar s' l s b) == inject_Z (sign_value s) * (base_value rho e b + vl_const s s' l))%Q.
Proof. cbn [inside_value]. unfold signed, vl_const. destruct s, s'; cbn [sign_value]; unfold inject_Z; ring. Qed.
Lemma signed_abs s q : (Qabs (inject_Z (sign_value s) * q) == Qabs q)%Q.
Proof. rewrite Qabs_Qmult. destruct s; cbn [sign_value]; change (Qabs (inject_Z 1)) with 1%Q; change (Qabs (inject_Z (-1))) with 1%Q; ring. Qed.

Lemma good_const rho e v q sg : (exists z, whole q = Some z) -> (sg = true -> exists s, v = VSyn s) ->
  (sg = false -> (Qabs (state_value rho e v + q) < inject_Z (2 ^ factor_width v))%Q) ->
  good rho e {| rf_var := v; rf_const := Some q; rf_sgn := sg |}.
Proof.
  intros [z Hz] Hs Hv. split; [|split; [exact Hs|]]; cbn [rf_var rf_const rf_sgn].
  - unfold to_factor. cbn [rf_const]. rewrite Hz. cbn [omap]. eauto.
  - unfold factor_value. cbn [rf_var rf_const rf_sgn]. destruct sg; [|auto].
    eapply Qle_lt_trans; [apply sgn_abs|]. eapply Qlt_le_trans; [|apply two_le_width]. reflexivity.
Qed.
Lemma good_plain rho e v sg : (sg = true -> exists s, v = VSyn s) ->
  (sg = false -> (Qabs (state_value rho e v) < inject_Z (2 ^ factor_width v))%Q) ->
  good rho e {| rf_var := v; rf_const := None; rf_sgn := sg |}.
Proof.
  intros Hs Hv. split; [|split; [exact Hs|]]; cbn [rf_var rf_const rf_sgn].
  - unfold to_factor. cbn [rf_const]. eauto.
  - unfold factor_value. cbn [rf_var rf_const rf_sgn]. destruct sg.
    + eapply Qle_lt_trans; [apply sgn_abs|]. eapply Qlt_le_trans; [|apply two_le_width]. reflexivity.
    + rewrite Qplus_0_r. auto.
Qed.
Lemma base_synaptic b : (exists v, b = BVar v /\ synaptic v) -> exists s, base_state b = VSyn s.
Proof. intros (v & -> & H). apply synaptic_state. exact H. Qed.
Lemma atom_good rho e h a : binary rho -> wf_atom a -> whole_atom a -> fits rho e a -> Forall (good rho e) (afactors h a).
Proof.
  intros Hb Hw Hi Hf. destruct a as [ev|v|l|i|i]; cbn [afactors].
  - assert (forall v, v = VX0 \/ v = VY0 -> Forall (good rho e) [plain_factor v]) as G.
    { intros v Hv. constructor; [|constructor]. apply good_plain; [discriminate|]. intros _.
      eapply Qlt_le_trans; [|apply two_le_width]. destruct Hv as [-> | ->]; cbn [state_value]; apply occ_abs; exact Hb. }
    destruct ev; [destruct h| destruct h|]; auto.
  - constructor; [|constructor]. apply good_plain; [discriminate|]. intros _. rewrite state_value_var, <- var_bits_width. exact Hf.
  - constructor.
  - destruct i as [s v|s l|s b s' l|s l s' b]; cbn [wf_atom wf_bracket whole_atom fits] in *.
    + constructor; [|constructor]. apply good_plain; [discriminate|]. intros _. rewrite state_value_var, <- var_bits_width. exact Hf.
    + constructor.
    + constructor; [|constructor]. apply good_const; [apply whole_const; exact Hi|discriminate|]. intros _.
      rewrite state_value_base, <- base_bits_width. rewrite vl_value, signed_abs in Hf by apply Hw. exact Hf.
    + constructor; [|constructor]. apply good_const; [apply whole_const; exact Hi|discriminate|]. intros _.
      rewrite state_value_base, <- base_bits_width. rewrite lv_value, signed_abs in Hf. exact Hf.
  - destruct i as [s v|s l|s b s' l|s l s' b]; cbn [wf_atom wf_sgn whole_atom fits] in *.
    + constructor; [|constructor]. apply good_plain; [|discriminate]. intros _. apply synaptic_state. apply Hw.
    + constructor.
    + constructor; [|constructor]. apply good_const; [apply whole_const; exact Hi| |discriminate]. intros _. apply base_synaptic. apply Hw.
    + constructor; [|constructor]. apply good_const; [apply whole_const; exact Hi| |discriminate]. intros _. apply base_synaptic. apply Hw.
Qed.
Definition fwidths (l : list rfactor) : Z := fold_right (fun f n => factor_width (rf_var f) + n) 0 l.
Lemma fwidths_app l m : fwidths (l ++ m) = fwidths l + fwidths m.
Proof. unfold fwidths. induction l as [|f l IH]; cbn [fold_right app]; lia. Qed.
Lemma atom_width_true a : fwidths (afactors true a) = atom_bits a.
Proof.
  destruct a as [[| |k]|v|l|[s v|s l|s b s' l|s l s' b]|[s v|s l|s b s' l|s l s' b]]; cbn [afactors atom_bits fwidths fold_right plain_factor rf_var];
    rewrite ?base_bits_width, ?var_bits_width; cbn [factor_width]; lia.
Qed.
Lemma atom_width_false a : is_event a = false -> afactors false a = afactors true a.
Proof. destruct a; [discriminate|reflexivity..]. Qed.
Lemma closed_good rho e l : binary rho -> Forall wf_atom l -> Forall whole_atom l -> Forall (fits rho e) l ->
  forall g, Forall (good rho e) (g_factors g) -> Forall (good rho e) (g_factors (closed g l)).
Proof.
  intros Hb Hw. induction Hw as [|a l Wa Wl IH]; intros Hi Hf g Hg; [exact Hg|]. inversion Hi; inversion Hf; subst.
  change (closed g (a :: l)) with (closed (closed1 g a) l). apply IH; auto. cbn [closed1 g_factors].
  apply Forall_app. split; [exact Hg|]. apply atom_good; auto.
Qed.
Lemma closed_width_true l : forall g, has g = true -> fwidths (g_factors (closed g l)) = fwidths (g_factors g) + bits l.
Proof.
  induction l as [|a l IH]; intros g Hg; [cbn; lia|]. change (closed g (a :: l)) with (closed (closed1 g a) l).
  rewrite IH. 2:{ unfold has in *. cbn [closed1 g_dep]. destruct (g_dep g); [reflexivity|discriminate]. }
  cbn [closed1 g_factors]. rewrite Hg, fwidths_app, atom_width_true. unfold bits. cbn [fold_right]. lia.
Qed.
Lemma closed_width_false l : forall g, has g = false -> fwidths (g_factors (closed g l)) = fwidths (g_factors g) + term_bits l.
Proof.
  induction l as [|a l IH]; intros g Hg; [cbn; lia|]. change (closed g (a :: l)) with (closed (closed1 g a) l).
  destruct (is_event a) eqn:Ea.
  - destruct a as [ev|?|?|?|?]; try discriminate. rewrite closed_width_true.
    2:{ unfold has in *. cbn [closed1 g_dep]. destruct (g_dep g); [discriminate|reflexivity]. }
    cbn [closed1 g_factors term_bits]. rewrite Hg. cbn [afactors]. destruct ev; rewrite app_nil_r; reflexivity.
  - rewrite IH.
    2:{ unfold has in *. cbn [closed1 g_dep]. destruct (g_dep g); [discriminate|]. destruct a; (discriminate || reflexivity). }
    cbn [closed1 g_factors]. rewrite Hg, fwidths_app, atom_width_false, atom_width_true by exact Ea.
    destruct a; try discriminate; cbn [term_bits]; lia.
Qed.

Lemma norm_bits l : bits (norm l) = bits l.
Proof.
  induction l as [|a r IH]; [reflexivity|]. destruct (norm_cases a r) as [(n & s & e & r' & -> & E & ->)|[-> _]].
  - rewrite E in IH. unfold bits in *. cbn [fold_right atom_bits] in *. lia.
  - unfold bits in *. cbn [fold_right]. lia.
Qed.
Lemma norm_term_bits l : term_bits (norm l) = term_bits l.
Proof.
  induction l as [|a r IH]; [reflexivity|]. destruct (norm_cases a r) as [(n & s & e & r' & -> & E & ->)|[-> _]].
  - rewrite E in IH. cbn [term_bits atom_bits] in *. lia.
  - destruct a; cbn [term_bits]; [apply norm_bits|rewrite IH; reflexivity..].
Qed.
Lemma norm_forall (P : atom -> Prop) l : (forall x, P (ALit x)) -> Forall P l -> Forall P (norm l).
Proof.
  intro HL. induction 1 as [|a r Ha Hr IH]; [constructor|]. destruct (norm_cases a r) as [(n & s & e & r' & -> & E & ->)|[-> _]].
  - rewrite E in IH. inversion IH; subst. constructor; auto.
  - constructor; auto.
Qed.
Lemma product_shape series t p k : wf_term t -> gen_product series (term_syms t) = Some (p, k) ->
  omap ev_dep (dependency (t_atoms t)) = Some (rp_dep p) /\ -8 <= rp_mant p < 8 /\ 0 <= rp_exp p <= 15 /\
  rp_factors p = g_factors (closed (start series (t_sign t)) (norm (t_atoms t))).
Proof.
  intros Hw E. unfold gen_product in E. rewrite (gen_term series t Hw) in E.
  destruct (okp series (periods (t_atoms t))); [|discriminate]. cbn [obind] in E.
  set (g := closed (start series (t_sign t)) (norm (t_atoms t))) in *.
  destruct (normalize (norm_fuel (g_mant g)) (g_mant g) (g_exp g)) as [[m e]|]; [|discriminate]. cbn [obind] in E.
  assert (Ed : g_dep g = omap ev_dep (dependency (t_atoms t)))
    by (unfold g; rewrite closed_dep, norm_dependency; reflexivity).
  destruct (g_dep g) as [d|] eqn:Egd; [|discriminate].
  destruct ((m <? -8) || (8 <=? m)) eqn:E1; [discriminate|]. destruct ((e <? -7) || (9 <=? e)) eqn:E2; [discriminate|].
  match goal with H : (if ?b then None else Some _) = Some _ |- _ => destruct b; [discriminate|] end.
  injection E as <- <-. cbn [rp_dep rp_factors rp_mant rp_exp]. apply orb_false_iff in E1, E2.
  rewrite !Z.ltb_ge, !Z.leb_gt in *. repeat split; try lia. congruence.
Qed.

(** *** values *)
Lemma args_binary a : args_ok a -> binary (args_env a).
Proof.
  intros H e. cbn [args_env occurs]. pose proof (H DX0). pose proof (H DY0). pose proof (H DU). cbn [dep_value] in *.
  assert (forall z : Z, 0 <= z <= 1 -> (inject_Z z == 0)%Q \/ (inject_Z z == 1)%Q) as B.
  { intros z Hz. assert (z = 0 \/ z = 1) as [-> | ->] by lia; [left|right]; reflexivity. }
  destruct e; apply B; assumption.
Qed.
Lemma sgn_inject z : (Rule_Spec.sgn (inject_Z z) == inject_Z (Z.sgn z))%Q.
Proof. destruct z; reflexivity. Qed.
Lemma sgn_compat x y : (x == y)%Q -> (Rule_Spec.sgn x == Rule_Spec.sgn y)%Q.
Proof. intro H. unfold Rule_Spec.sgn.
  replace (Qle_bool 0 x) with (Qle_bool 0 y) by (apply eq_true_iff_eq; rewrite !Qle_bool_iff, H; reflexivity).
  replace (Qeq_bool x 0) with (Qeq_bool y 0) by (apply eq_true_iff_eq; rewrite !Qeq_bool_iff, H; reflexivity). reflexivity.
Qed.
Lemma state_var_value a e v : state_value (args_env a) e v = inject_Z (var_value a (ev_dep e) v).
Proof. destruct v as [| |[]|[]|]; reflexivity. Qed.
Lemma factor_ok_value a e f g : to_factor f = Some g -> f_var g = rf_var f /\ f_sgn g = rf_sgn f /\
  (factor_value (args_env a) e f == inject_Z (factor_meaning a (ev_dep e) g))%Q.
Proof.
  unfold to_factor. destruct (rf_const f) as [q|] eqn:Eq.
  - destruct (whole q) as [z|] eqn:Ez; [|discriminate]. cbn [omap]. intro H. injection H as <-. cbn [f_var f_sgn].
    split; [reflexivity|]. split; [reflexivity|]. apply whole_spec in Ez. unfold factor_value, factor_meaning. rewrite Eq. cbn [f_var f_const f_sgn].
    rewrite state_var_value. assert (inject_Z (var_value a (ev_dep e) (rf_var f)) + q == inject_Z (var_value a (ev_dep e) (rf_var f) + z))%Q as X
      by (rewrite inject_Z_plus, Ez; reflexivity).
    destruct (rf_sgn f); [rewrite (sgn_compat _ _ X); apply sgn_inject|exact X].
  - intro H. injection H as <-. cbn [f_var f_sgn]. split; [reflexivity|]. split; [reflexivity|].
    unfold factor_value, factor_meaning. rewrite Eq. cbn [f_var f_const f_sgn]. rewrite state_var_value.
    assert (inject_Z (var_value a (ev_dep e) (rf_var f)) + 0 == inject_Z (var_value a (ev_dep e) (rf_var f) + 0))%Q as X
      by (rewrite inject_Z_plus; reflexivity).
    destruct (rf_sgn f); [rewrite (sgn_compat _ _ X); apply sgn_inject|exact X].
Qed.
Lemma abs_inject z n : (Qabs (inject_Z z) < inject_Z n)%Q -> Z.abs z < n.
Proof. intro H. change (Qabs (inject_Z z)) with (inject_Z (Z.abs z)) in H. rewrite <- Zlt_Qlt in H. exact H. Qed.
Lemma factors_value a e fs : Forall (good (args_env a) e) fs -> forall gs, all_some to_factor fs = Some gs ->
  Forall factor_ok gs /\ fold_right (fun f n => factor_width (f_var f) + n) 0 gs = fwidths fs /\
  (qprod (map (factor_value (args_env a) e) fs) ==
   inject_Z (fold_right (fun f n => (clip_factor (f_var f) (factor_meaning a (ev_dep e) f) * n)%Z) 1%Z gs))%Q.
Proof.
  induction 1 as [|f fs (Hf1 & Hf2 & Hf3) Hfs IH]; intros gs H; cbn [all_some] in H.
  - injection H as <-. split; [constructor|]. split; reflexivity.
  - destruct (to_factor f) as [g|] eqn:Eg; [|discriminate]. cbn [obind] in H.
    destruct (all_some to_factor fs) as [gs'|]; [|discriminate]. cbn [omap] in H. injection H as <-.
    destruct (IH gs' eq_refl) as (I1 & I2 & I3). destruct (factor_ok_value a e f g Eg) as (V1 & V2 & V3). split; [|split].
    + constructor; [|exact I1]. unfold factor_ok. rewrite V1, V2. exact Hf2.
    + cbn [fold_right fwidths]. unfold fwidths in I2. rewrite V1. cbn [fold_right]. rewrite I2. reflexivity.
    + cbn [map qprod fold_right]. fold (qprod (map (factor_value (args_env a) e) fs)). rewrite I3, V3, inject_Z_mult.
      rewrite V3 in Hf3. apply abs_inject in Hf3. rewrite <- V1 in Hf3.
      assert (clip_factor (f_var g) (factor_meaning a (ev_dep e) g) = factor_meaning a (ev_dep e) g) as ->; [|reflexivity].
      unfold clip_factor. apply clip_id. lia.
Qed.
Lemma product_applied a series t p k : args_ok a -> wf_term t -> Z.abs (term_mant t) < 2 ^ 54 ->
  gen_product series (term_syms t) = Some (p, k) -> easy (args_env a) [t] ->
  exists q, to_product p = Some q /\ product_ok q /\ widths q <= 27 /\
    (inject_Z (update a q) == 128 * term_value (args_env a) t)%Q.
Proof.
  intros Ha Hw Hm E He. destruct (He t (or_introl eq_refl)) as (Hb & Hi & Hf & Hv).
  destruct (product_shape _ _ _ _ Hw E) as (S1 & S2 & S3 & S4).
  assert (binary (args_env a)) as B by (apply args_binary; exact Ha).
  assert (compiled_value (args_env a) p == term_value (args_env a) t)%Q as V.
  { destruct (gen_product_term series t Hw Hm) as [(p' & E' & _ & _ & _ & V)|[E' _]]; [|congruence].
    rewrite E in E'. injection E' as <-. apply V. exact B. }
  destruct (dependency (t_atoms t)) as [e|] eqn:Ed; [|discriminate S1]. cbn [omap] in S1. injection S1 as S1.
  unfold term_event in Hf. rewrite Ed in Hf.
  assert (Forall (good (args_env a) e) (rp_factors p)) as G.
  { rewrite S4. apply closed_good; [exact B|apply norm_wf, Hw| | |constructor].
    - apply norm_forall; [intro; exact I|exact Hi].
    - apply norm_forall; [intro; exact I|exact Hf]. }
  assert (fwidths (rp_factors p) <= 11) as Wd.
  { rewrite S4, closed_width_false by reflexivity. cbn [start g_factors fwidths fold_right]. rewrite norm_term_bits. exact Hb. }
  assert (exists gs, all_some to_factor (rp_factors p) = Some gs) as [gs Egs].
  { apply all_some_forall. intros f Hin. rewrite Forall_forall in G. apply (G f Hin). }
  destruct (factors_value a e _ G gs Egs) as (F1 & F2 & F3).
  unfold to_product. rewrite Egs. cbn [omap]. eexists. split; [reflexivity|].
  unfold product_ok, widths. cbn [p_mant p_exp p_factors]. split; [split; [exact S2|split; [exact S3|exact F1]]|].
  split; [rewrite F2; lia|].
  assert (update a {| p_dep := rp_dep p; p_mant := rp_mant p; p_exp := rp_exp p; p_factors := gs |} =
    clip_acc (dep_value a (rp_dep p) * fold_right (fun f n => clip_factor (f_var f) (factor_meaning a (rp_dep p) f) * n) 1 gs * rp_mant p * 2 ^ rp_exp p)) as ->.
  { unfold update, exact_product, widths. cbn [p_dep p_mant p_exp p_factors]. rewrite F2.
    rewrite Z.max_l by lia. change (2 ^ 0) with 1. rewrite Z.div_1_r. reflexivity. }
  set (x := fold_right (fun f n => clip_factor (f_var f) (factor_meaning a (rp_dep p) f) * n) 1 gs) in *.
  assert (inject_Z (dep_value a (rp_dep p) * x * rp_mant p * 2 ^ rp_exp p) == 128 * term_value (args_env a) t)%Q as X.
  { rewrite <- V. unfold compiled_value.
    assert (occurs (args_env a) (product_event p) = inject_Z (dep_value a (rp_dep p))) as ->.
    { unfold product_event. destruct (rp_dep p); reflexivity. }
    assert (map (factor_value (args_env a) (product_event p)) (rp_factors p) = map (factor_value (args_env a) e) (rp_factors p)) as ->.
    { apply map_ext. intro f. unfold factor_value. rewrite !state_var_value. do 2 f_equal.
      replace (ev_dep (product_event p)) with (ev_dep e); [reflexivity|]. rewrite S1. unfold product_event. destruct (rp_dep p); reflexivity. }
    rewrite F3. rewrite S1. fold x. rewrite !inject_Z_mult. rewrite <- pow2_inject by lia.
    replace (rp_exp p - 7) with (rp_exp p + -(7)) by lia. rewrite Qpower_plus by (intro; discriminate).
    change (Qpower 2 (-(7))) with (1 # 128)%Q. change (128%Q) with (128 # 1). field. }
  rewrite <- X. unfold clip_acc. rewrite clip_id; [reflexivity|]. change (- 2 ^ 15 - 1) with (-32769). change (2 ^ 15 - 1) with 32767.
  set (y := dep_value a (rp_dep p) * x * rp_mant p * 2 ^ rp_exp p) in *.
  assert (Z.abs y < 32768); [|lia]. apply abs_inject. rewrite X, Qabs_Qmult. change (Qabs 128) with 128%Q.
  apply (Qlt_le_trans _ (128 * 256)); [|vm_compute; intro; discriminate]. rewrite Qmult_lt_l by reflexivity. exact Hv.
Qed.

Lemma easy_cons rho t r : easy rho (t :: r) -> easy rho [t] /\ easy rho r.
Proof. intro H. split; intros x Hx; apply H; [destruct Hx as [<-|[]]; left; reflexivity|right; exact Hx]. Qed.
Lemma products_applied a : args_ok a -> forall r series ps k, Forall wf_term r -> small r -> easy (args_env a) r ->
  gen_products series (map term_syms r) = Some (ps, k) ->
  exists qs, to_products ps = Some qs /\ (forall q, In q qs -> product_ok q /\ widths q <= 27) /\
    Forall2 (fun q t => inject_Z (update a q) == 128 * term_value (args_env a) t)%Q qs r.
Proof.
  intro Ha. induction r as [|t r IH]; intros series ps k Hw Hs He E; cbn [map gen_products] in E.
  - injection E as <- <-. exists []. split; [reflexivity|]. split; [intros q []|constructor].
  - inversion Hw as [|? ? Ht Hw']; subst. destruct (easy_cons _ _ _ He) as [He1 He2].
    destruct (gen_product series (term_syms t)) as [[p k1]|] eqn:E1; [|discriminate]. cbn [obind fst snd] in E.
    destruct (gen_products k1 (map term_syms r)) as [[ps' k2]|] eqn:E2; [|discriminate]. cbn [omap fst snd] in E. injection E as <- <-.
    destruct (product_applied a series t p k1 Ha Ht (Hs t (or_introl eq_refl)) E1 He1) as (q & Q1 & Q2 & Q3 & Q4).
    destruct (IH k1 ps' k2 Hw' ltac:(intros x Hx; apply Hs; right; exact Hx) He2 E2) as (qs & P1 & P2 & P3).
    exists (q :: qs). unfold to_products in *. cbn [all_some]. rewrite Q1. cbn [obind]. rewrite P1. cbn [omap]. split; [reflexivity|].
    split; [intros x [<-|Hx]; auto|]. constructor; assumption.
Qed.
Lemma total_value a rho qs r : Forall2 (fun q t => inject_Z (update a q) == 128 * term_value rho t)%Q qs r ->
  forall n v, (inject_Z (total a (firstn n qs) (v * 128)) == 128 * (inject_Z v + rule_value rho (firstn n r)))%Q.
Proof.
  intros H n v. revert n. assert (forall acc n, inject_Z (total a (firstn n qs) acc) == inject_Z acc + 128 * rule_value rho (firstn n r))%Q as G.
  { induction H as [|q t qs r E _ IH]; intros acc n.
    - rewrite !firstn_nil. unfold total, rule_value. cbn. rewrite Z.add_0_r. ring.
    - destruct n as [|n]; cbn [firstn].
      + unfold total, rule_value. cbn. rewrite Z.add_0_r. ring.
      + rewrite total_cons, IH, inject_Z_plus, E. unfold rule_value. cbn [map qsum fold_right]. unfold qsum. ring. }
  intro n. rewrite G, inject_Z_mult. change (inject_Z 128) with 128%Q. ring.
Qed.

Definition bounds (m : sign_mode) (s : syn) : Z * Z :=
  match s with
  | SWeights => match m with Mixed => (-256, 255) | Excitatory => (0, 255) | Inhibitory => (-255, 0) end
  | STag2 => (0, 255)
  | STag1 => (-256, 255)
  end.
(** saturation to the range of the variable *)
Definition saturated (m : sign_mode) (s : syn) (z : Z) : Z := Z.max (fst (bounds m s)) (Z.min (snd (bounds m s)) z).
Lemma round_rounded rnd x q : (inject_Z x == 128 * q)%Q -> round_syn rnd x = rounded rnd q * 128 /\ x / 128 = Qfloor q.
Proof.
  intro H. assert (Qfloor q = x / 128) as F.
  { rewrite <- (Qfloor_comp (x # 128) q); [reflexivity|]. rewrite (Qmake_Qdiv x 128). rewrite H. change (inject_Z (Zpos 128)) with 128%Q. field. }
  split; [|symmetry; exact F]. unfold round_syn, rounded, round_up, qlt. rewrite F.
  assert (q - inject_Z (x / 128) == (x mod 128) # 128)%Q as R.
  { rewrite (Qmake_Qdiv (x mod 128) 128). rewrite Z.mod_eq by lia. change (inject_Z (Zpos 128)) with 128%Q.
    unfold Zminus. rewrite inject_Z_plus, inject_Z_opp, inject_Z_mult, H. change (inject_Z 128) with 128%Q. field. }
  destruct (Qlt_le_dec rnd (q - inject_Z (x / 128))) as [L|L]; rewrite R in L.
  - destruct (Qle_bool _ rnd) eqn:E; [apply Qle_bool_iff in E; exfalso; apply (Qlt_not_le _ _ L E)|]. cbn [negb]. lia.
  - apply Qle_bool_iff in L. rewrite L. cbn [negb]. lia.
Qed.
Lemma rounded_bounds rnd q : Qfloor q <= rounded rnd q <= Qfloor q + 1.
Proof. unfold rounded. destruct (Qlt_le_dec _ _); lia. Qed.
Lemma learn_rounded m rnd a ps s v q : (0 <= rnd)%Q -> (inject_Z (apply_rule a ps (v * 128)) == 128 * q)%Q -> (Qabs q < 256)%Q ->
  learn m rnd a ps s v = saturated m s (rounded rnd q).
Proof.
  intros Hr E B. unfold learn. rewrite Z.shiftl_mul_pow2 by lia. change (2 ^ 7) with 128. set (x := apply_rule _ _ _) in *.
  destruct (round_rounded rnd x q E) as [R F]. pose proof (rounded_bounds rnd q) as RB.
  assert (-32768 < x < 32768) as Bx.
  { assert (Z.abs x < 32768); [|lia]. apply abs_inject. rewrite E, Qabs_Qmult. change (Qabs 128) with 128%Q.
    apply (Qlt_le_trans _ (128 * 256)); [|vm_compute; intro; discriminate]. rewrite Qmult_lt_l by reflexivity. exact B. }
  assert (round_syn rnd 0 = 0) as R0.
  { unfold round_syn, round_up, qlt. change (0 mod 128) with 0. change (0 / 128) with 0.
    replace (Qle_bool (0 # 128) rnd) with true; [reflexivity|]. symmetry. apply Qle_bool_iff.
    eapply Qle_trans; [|exact Hr]. vm_compute. intro; discriminate. }
  pose proof (Z.div_mod x 128 ltac:(lia)) as Dm. pose proof (Z.mod_pos_bound x 128 ltac:(lia)) as Mb. rewrite F in Dm.
  assert (x mod 128 = 0 -> rounded rnd q = Qfloor q) as Int.
  { intro M0. unfold rounded. destruct (Qlt_le_dec _ _) as [L|]; [|reflexivity]. exfalso. apply (Qlt_not_le _ _ L).
    eapply Qle_trans; [|exact Hr]. assert (q == inject_Z (Qfloor q))%Q as Eq.
    { apply (Qmult_inj_l _ _ 128); [intro; discriminate|]. rewrite <- E. rewrite Dm at 1. rewrite M0, Z.add_0_r, inject_Z_mult. reflexivity. }
    rewrite Eq at 1. apply Qle_minus_iff. ring_simplify. apply Qle_refl. }
  assert (forall z, Z.shiftr (z * 128) 7 = z) as Sh by (intro z; rewrite Z.shiftr_div_pow2 by lia; change (2 ^ 7) with 128; apply Z.div_mul; lia).
  assert (Z.shiftr 0 7 = 0) as Sh0 by reflexivity.
  unfold saturated. destruct s; cbn [saturate_acc saturate bounds].
  - destruct m; cbn [fst snd].
    + rewrite R, Sh. unfold clip_weight, clip. change (2 ^ 8) with 256. cbn [is_mixed negate]. lia.
    + destruct (Z.max_spec 0 x) as [[H ->]|[H ->]].
      * rewrite R, Sh. unfold clip_weight, clip. change (2 ^ 8) with 256. cbn [is_mixed negate]. lia.
      * rewrite R0, Sh0. unfold clip_weight, clip. change (2 ^ 8) with 256. cbn [is_mixed negate]. lia.
    + destruct (Z.min_spec 0 x) as [[H ->]|[H ->]].
      * rewrite R0, Sh0. unfold clip_weight, clip. change (2 ^ 8) with 256. cbn [is_mixed negate]. lia.
      * rewrite R, Sh. unfold clip_weight, clip. change (2 ^ 8) with 256. cbn [is_mixed negate]. lia.
  - destruct (Z.max_spec 0 x) as [[H ->]|[H ->]].
    + rewrite R, Sh. unfold clip. change (2 ^ 8) with 256. cbn [fst snd]. lia.
    + rewrite R0, Sh0. unfold clip. change (2 ^ 8) with 256. cbn [fst snd]. lia.
  - rewrite R, Sh. unfold clip. change (2 ^ 8) with 256. cbn [fst snd]. lia.
Qed.

(** ** Theorems *)
(** The text of a rule, compiled and applied to a synaptic variable of value v: the new value is v plus the value of the
    rule, stochastically rounded and saturated to the range of the variable. *)
Theorem rule_text_applied_partial : forall s r, wf_rule r -> small r -> writes s r ->
  forall ps k, compile s = Some (ps, k) ->
  forall a, args_ok a -> easy (args_env a) r ->
  exists qs, to_products ps = Some qs /\
    forall m rnd y v, (0 <= rnd)%Q -> sums_fit (args_env a) v r ->
      learn m rnd a qs y v = saturated m y (rounded rnd (inject_Z v + rule_value (args_env a) r)).
Proof.
  intros s r Hw Hs Hwr ps k E a Ha He. rewrite (compile_rule s r Hw Hwr) in E.
  destruct (products_applied a Ha r None ps k (proj1 (proj2 Hw)) Hs He E) as (qs & P1 & P2 & P3).
  exists qs. split; [exact P1|]. intros m rnd y v Hr Hf. pose proof (total_value a (args_env a) qs r P3) as TV.
  assert (List.length qs = List.length r) as Len by (clear - P3; induction P3; cbn; congruence).
  apply learn_rounded; [exact Hr| |].
  - rewrite (rule_adds_products_partial a qs (v * 128) Ha P2).
    + specialize (TV (List.length r) v). rewrite firstn_all2 in TV by lia. rewrite firstn_all2 in TV by lia. exact TV.
    + intro n. assert (Z.abs (total a (firstn n qs) (v * 128)) < 32768); [|lia]. apply abs_inject. rewrite TV, Qabs_Qmult.
      change (Qabs 128) with 128%Q. apply (Qlt_le_trans _ (128 * 256)); [|vm_compute; intro; discriminate].
      rewrite Qmult_lt_l by reflexivity. apply Hf.
  - specialize (Hf (List.length r)). rewrite firstn_all2 in Hf by lia. exact Hf.
Qed.

(** What happens in an epoch that ends at time step t, for the synapse between two neurons: a neuron has spiked in it if its
    spike time [tx], [ty] is not 0 (C62, [epoch_spike_times]); u<k> happens in every 2^k-th epoch; traces have the value they
    had at the event (C64). *)
Definition epoch_env (c : conn_cfg) (t : Z) (i : stimulus) (s : conn) (post pre : nat) : env :=
  {| occurs := fun e => match e with
       | Pre => if 0 <? tx s pre then 1%Q else 0%Q
       | Post => if 0 <? ty s post then 1%Q else 0%Q
       | Periodic k => if (t / t_epoch c) mod 2 ^ Z.of_nat k =? 0 then 1%Q else 0%Q end;
     at_event := fun e v =>
       let trace tr := ideal (cfg_trace c tr) (side tr (r_xd i) (r_yd i)) (side tr (r_xi i) (r_yi i))
         (fun n => side tr (tx s pre) (ty s post) =? Z.of_nat n) (trace_of s tr (side tr pre post))
         (Z.to_nat (match e with Pre => tx s pre | Post => ty s post | Periodic _ => t_epoch c end)) in
       inject_Z (match v with X1 => trace TX1 | X2 => trace TX2 | Y1 => trace TY1 | Y2 => trace TY2 | Y3 => trace TY3
         | W => syn_val s SWeights post pre | D => syn_val s STag2 post pre | T => syn_val s STag1 post pre end) |}.

Section Agree.
Variables (rho rho' : env).
Hypothesis (Hpre : (occurs rho Pre == occurs rho' Pre)%Q) (Hpost : (occurs rho Post == occurs rho' Post)%Q)
  (Hat : forall e v, (at_event rho e v == at_event rho' e v)%Q).
Lemma agree_base e b : (base_value rho e b == base_value rho' e b)%Q.
Proof. destruct b; cbn [base_value]; auto. Qed.
Lemma agree_inside e i : (inside_value rho e i == inside_value rho' e i)%Q.
Proof. destruct i; cbn [inside_value]; unfold signed; rewrite ?Hat, ?agree_base; reflexivity. Qed.
Lemma agree_atom e a : (forall k, In k (periods [a]) -> (occurs rho (Periodic k) == occurs rho' (Periodic k))%Q) ->
  (atom_value rho e a == atom_value rho' e a)%Q.
Proof.
  intro H. destruct a as [[| |k]|v|l|i|i]; cbn [atom_value]; auto; try reflexivity.
  - apply H. left. reflexivity.
  - apply agree_inside.
  - apply sgn_compat, agree_inside.
Qed.
Lemma agree_term t : (forall k, In k (periods (t_atoms t)) -> (occurs rho (Periodic k) == occurs rho' (Periodic k))%Q) ->
  (term_value rho t == term_value rho' t)%Q.
Proof.
  unfold term_value. set (e := match dependency _ with Some e => e | None => Pre end). clearbody e. intro H. unfold signed.
  assert (qprod (map (atom_value rho e) (t_atoms t)) == qprod (map (atom_value rho' e) (t_atoms t)))%Q as ->; [|reflexivity].
  induction (t_atoms t) as [|a l IH]; [reflexivity|]. cbn [map qprod fold_right]. fold (qprod (map (atom_value rho e) l)) (qprod (map (atom_value rho' e) l)).
  rewrite IH, agree_atom; [reflexivity| |]; intros k Hk; apply H; rewrite periods_cons.
  - rewrite periods_cons in Hk. destruct (aperiod a); [destruct Hk as [<-|[]]; left; reflexivity|destruct Hk].
  - destruct (aperiod a); [right|]; exact Hk.
Qed.
Lemma agree_rule r : (forall t k, In t r -> In k (periods (t_atoms t)) -> (occurs rho (Periodic k) == occurs rho' (Periodic k))%Q) ->
  (rule_value rho r == rule_value rho' r)%Q.
Proof.
  intro H. unfold rule_value. induction r as [|t r IH]; [reflexivity|]. cbn [map qsum fold_right].
  unfold qsum in IH. rewrite IH by (intros x k Hx; apply H; right; exact Hx). rewrite agree_term; [reflexivity|].
  intros k Hk. apply (H t k); [left; reflexivity|exact Hk].
Qed.
Lemma agree_fits e a : fits rho e a -> fits rho' e a.
Proof.
  destruct a as [ev|v|l|i|i]; cbn [fits]; try exact (fun H => H); [rewrite Hat; auto|].
  destruct i; rewrite ?Hat, ?agree_inside; auto.
Qed.
Lemma agree_easy r : (forall t k, In t r -> In k (periods (t_atoms t)) -> (occurs rho (Periodic k) == occurs rho' (Periodic k))%Q) ->
  easy rho r -> easy rho' r.
Proof.
  intros H He t Ht. destruct (He t Ht) as (H1 & H2 & H3 & H4). split; [exact H1|]. split; [exact H2|]. split.
  - eapply Forall_impl; [|exact H3]. intros a. apply agree_fits.
  - rewrite <- agree_term; [exact H4|]. intros k. apply H. exact Ht.
Qed.
End Agree.
Lemma rounded_compat rnd x y : (x == y)%Q -> rounded rnd x = rounded rnd y.
Proof.
  intro H. unfold rounded. rewrite (Qfloor_comp _ _ H). set (f := Qfloor y).
  destruct (Qlt_le_dec rnd (x - inject_Z f)) as [L|L], (Qlt_le_dec rnd (y - inject_Z f)) as [L'|L']; try reflexivity; exfalso; rewrite H in L.
  - apply (Qlt_not_le _ _ L L').
  - apply (Qlt_not_le _ _ L' L).
Qed.

(** A learning connection whose rule for the synaptic variable [y] was compiled from the text [s]: at the end of an epoch
    every synapse gets its old value plus the value of the rule for what happened to its two neurons in the epoch. *)
Theorem rule_text_learned_partial : forall s r, wf_rule r -> small r -> writes s r ->
  forall ps k, compile s = Some (ps, k) ->
  forall c t i st y post pre, (k = None \/ k = cfg_decimate c) -> 
  cfg_rule c y = to_products ps -> to_products ps <> None -> (0 <= r_syn i)%Q ->
  let rho := epoch_env c t i st post pre in
  easy rho r -> sums_fit rho (syn_val st y post pre) r ->
  syn_val (learn_phase c t i st) y post pre =
  saturated (cfg_sign c) y (rounded (r_syn i) (inject_Z (syn_val st y post pre) + rule_value rho r)).
Proof.
  intros s r Hw Hs Hwr ps k E c t i st y post pre Hk Hc Hn Hr rho He Hf.
  destruct (rule_decimation s r Hw Hs Hwr ps k E) as [D1 D2].
  set (a := applier_args c t i st post pre (fun w => syn_val st w post pre)).
  assert (args_ok a) as Ha.
  { intros d. unfold a, dep_value, applier_args. cbn [a_x0 a_y0 a_u]. unfold u_value. destruct d.
    - destruct (0 <? tx st pre); lia.
    - destruct (0 <? ty st post); lia.
    - destruct (cfg_decimate c); [destruct (_ =? 0)|]; lia. }
  assert (occurs rho Pre == occurs (args_env a) Pre)%Q as A1 by (cbn; destruct (0 <? tx st pre); reflexivity).
  assert (occurs rho Post == occurs (args_env a) Post)%Q as A2 by (cbn; destruct (0 <? ty st post); reflexivity).
  assert (forall e v, at_event rho e v == at_event (args_env a) e v)%Q as A3.
  { intros e v. unfold rho, args_env. cbn [at_event epoch_env]. unfold a.
    destruct v; rewrite ?rule_sees_traces_at_events; destruct e; reflexivity. }
  assert (forall q kk, In q r -> In kk (periods (t_atoms q)) -> occurs rho (Periodic kk) == occurs (args_env a) (Periodic kk))%Q as A4.
  { intros q kk Hq Hkk. assert (k = Some (Z.of_nat kk)) as K by (apply D1; eauto).
    destruct Hk as [Hk|Hk]; [congruence|]. rewrite K in Hk. unfold rho, args_env, a. cbn [occurs epoch_env applier_args a_u].
    unfold u_value. rewrite <- Hk. destruct (_ =? 0); reflexivity. }
  destruct (rule_text_applied_partial s r Hw Hs Hwr ps k E a Ha (agree_easy _ _ A1 A2 A3 r A4 He)) as (qs & Q1 & Q2).
  cbn [learn_phase syn_val]. unfold learned. rewrite Hc, Q1. fold a. rewrite Q2; [|exact Hr|].
  - f_equal. apply rounded_compat. rewrite (agree_rule _ _ A1 A2 A3 r A4). reflexivity.
  - intro n. specialize (Hf n). rewrite <- (agree_rule _ _ A1 A2 A3); [exact Hf|].
    intros q kk Hq. apply A4. rewrite <- (firstn_skipn n r). apply in_or_app. left. exact Hq.
Qed.

(** ** Non-trivial instance *)
Definition stdp_string : string := "2^-1*x0*y1 - 3*2^-3*y0*x1 + u2*(w - 4)*2^-2".
Definition stdp : rule :=
  [ {| t_sign := NoSign; t_atoms := [ALit (Pow Minus (nm "1")); AEvent Pre; AVar Y1] |};
    {| t_sign := Minus; t_atoms := [ALit (Plain (nm "3")); ALit (Pow Minus (nm "3")); AEvent Post; AVar X1] |};
    {| t_sign := Plus; t_atoms := [AEvent (Periodic 2); ABracket (VarLit NoSign (BVar W) Minus (Plain (nm "4"))); ALit (Pow Minus (nm "2"))] |} ].
Definition stdp_args : args :=
  {| a_x0 := 1; a_y0 := 1; a_u := 1; a_syn := fun _ => 61; a_trace := fun tr d => match tr with TY1 => 43 | _ => 25 end |}.
Lemma stdp_ok : wf_rule stdp /\ small stdp /\ writes stdp_string stdp.
Proof.
  assert (H1 : is_numeral (nm "1")) by (apply numeral_ok; reflexivity).
  assert (H3 : is_numeral (nm "3")) by (apply numeral_ok; reflexivity).
  assert (H2 : is_numeral (nm "2")) by (apply numeral_ok; reflexivity).
  assert (H4 : is_numeral (nm "4")) by (apply numeral_ok; reflexivity).
  split; [|split].
  - split; [discriminate|]. split; [|repeat constructor; discriminate].
    repeat apply Forall_cons; try apply Forall_nil; (split; [discriminate|]); cbn [t_atoms];
      repeat apply Forall_cons; try apply Forall_nil; cbn [wf_atom wf_lit wf_bracket wf_sgn];
      repeat match goal with |- _ /\ _ => split end; try exact I; try assumption; try discriminate; try lia.
  - intros t [<-|[<-|[<-|[]]]]; vm_compute; reflexivity.
  - vm_compute. reflexivity.
Qed.
(** 61 + 21.5 - 9.375 + 14.25 = 87.375: the new weight is 87, or 88 if the random number is below 0.375 *)
Example stdp_demo : easy (args_env stdp_args) stdp /\ sums_fit (args_env stdp_args) 61 stdp /\ args_ok stdp_args /\
  exists ps qs, compile stdp_string = Some (ps, Some 2) /\ to_products ps = Some qs /\
    learn Mixed (1 # 2) stdp_args qs SWeights 61 = 87 /\ learn Mixed (1 # 4) stdp_args qs SWeights 61 = 88.
Proof.
  split; [|split; [|split]].
  - intros t Ht. destruct Ht as [<-|[<-|[<-|[]]]]; (split; [vm_compute; intro; discriminate|]); (split; [repeat constructor; vm_compute; intro; discriminate|]);
      (split; [|vm_compute; reflexivity]); repeat apply Forall_cons; try apply Forall_nil; try exact I; vm_compute; reflexivity.
  - intro n. destruct n as [|[|[|n]]]; [vm_compute; reflexivity..|]. rewrite firstn_all2 by (cbn; lia). vm_compute. reflexivity.
  - intros []; vm_compute; split; intro; discriminate.
  - eexists. eexists. split; [vm_compute; reflexivity|]. split; [vm_compute; reflexivity|]. split; vm_compute; reflexivity.
Qed.
(** instance of [rule_text_learned_partial]: a connection with this rule, traces that do not decay, and an epoch of 4 steps
    in which both neurons have spiked *)
Definition stdp_cfg (ps : list rproduct) : conn_cfg :=
  {| t_epoch := 4; cfg_sign := Mixed; cfg_graded := UseRegularImpulse; cfg_trace := fun _ => {| imp_int := 0; imp_frac := 0; decay_fn := Some inject_Z |};
     cfg_rule := fun y => match y with SWeights => to_products ps | _ => None end; cfg_decimate := Some 2 |}.
Definition stdp_state : conn :=
  {| tx := fun _ => 2; x1 := fun _ => 25; x2 := fun _ => 0; ty := fun _ => 3; y1 := fun _ => 43; y2 := fun _ => 0; y3 := fun _ => 0;
     syn_val := fun _ _ _ => 61 |}.
Example stdp_learned_demo : exists ps, compile stdp_string = Some (ps, Some 2) /\ to_products ps <> None /\
  let rho := epoch_env (stdp_cfg ps) 16 (quiet (1 # 2)) stdp_state 0 0 in
  easy rho stdp /\ sums_fit rho 61 stdp /\ (rule_value rho stdp == 211 # 8)%Q /\
  syn_val (learn_phase (stdp_cfg ps) 16 (quiet (1 # 2)) stdp_state) SWeights 0 0 = 87.
Proof.
  eexists. split; [vm_compute; reflexivity|]. split; [vm_compute; discriminate|]. cbn zeta. split; [|split; [|split]].
  - intros t Ht. destruct Ht as [<-|[<-|[<-|[]]]]; (split; [vm_compute; intro; discriminate|]); (split; [repeat constructor; vm_compute; intro; discriminate|]);
      (split; [|vm_compute; reflexivity]); repeat apply Forall_cons; try apply Forall_nil; try exact I; vm_compute; reflexivity.
  - intro n. destruct n as [|[|[|n]]]; [vm_compute; reflexivity..|]. rewrite firstn_all2 by (cbn; lia). vm_compute. reflexivity.
  - vm_compute. reflexivity.
  - vm_compute. reflexivity.
Qed.

(** ** Products with more than 11 bits are scaled down: with x1 = 40, y1 = 30 the rule 2^-6*x0*x1*y1 is 18.75, but the weight
    changes by 2.34 *)
Definition hebb_string : string := "2^-6*x0*x1*y1".
Definition hebb : rule := [ {| t_sign := NoSign; t_atoms := [ALit (Pow Minus (nm "6")); AEvent Pre; AVar X1; AVar Y1] |} ].
Definition hebb_args : args :=
  {| a_x0 := 1; a_y0 := 0; a_u := 0; a_syn := fun _ => 10; a_trace := fun tr d => match tr with TX1 => 40 | _ => 30 end |}.
Theorem rule_two_traces_scaled_refuted : exists s r a ps qs, wf_rule r /\ small r /\ writes s r /\ args_ok a /\
  compile s = Some (ps, None) /\ to_products ps = Some qs /\
  (forall t, In t r -> Forall (fits (args_env a) (term_event t)) (t_atoms t)) /\ sums_fit (args_env a) 10 r /\
  (rule_value (args_env a) r == 75 # 4)%Q /\
  forall rnd, (0 <= rnd)%Q -> learn Mixed rnd a qs SWeights 10 <= 13.
Proof.
  assert (H6 : is_numeral (nm "6")) by (apply numeral_ok; reflexivity).
  exists hebb_string, hebb, hebb_args. eexists. eexists. split; [|split; [|split; [|split; [|split; [|split; [|split; [|split; [|split]]]]]]]].
  - split; [discriminate|]. split; [|constructor].
    repeat apply Forall_cons; try apply Forall_nil; (split; [discriminate|]); cbn [t_atoms];
      repeat apply Forall_cons; try apply Forall_nil; cbn [wf_atom wf_lit]; try exact I; assumption.
  - intros t [<-|[]]. vm_compute. reflexivity.
  - vm_compute. reflexivity.
  - intros []; vm_compute; split; intro; discriminate.
  - vm_compute. reflexivity.
  - vm_compute. reflexivity.
  - intros t [<-|[]]. repeat apply Forall_cons; try apply Forall_nil; try exact I; vm_compute; reflexivity.
  - intro n. destruct n as [|n]; [vm_compute; reflexivity|]. rewrite firstn_all2 by (cbn; lia). vm_compute. reflexivity.
  - vm_compute. reflexivity.
  - intros rnd _. unfold learn. set (x := apply_rule _ _ _). vm_compute in x. subst x. cbn [saturate_acc].
    unfold round_syn, round_up. destruct (qlt _ _); vm_compute; intro; discriminate.
Qed.
