(** C80: learning rules with several factors per product in fixed-point learning connections.  A product whose factors have
    b > 11 bits together is divided by 2^(b-11) and rounded down; the theorem covers up to 27 bits, beyond which the 32-bit
    accumulator overflows (C64, [product_exact_refuted]). *)
From Coq Require Import ZArith QArith Qpower Qround Qabs List Bool Ascii String Lia Lqa.
From Verif Require Import NpInt Bits_Model Learning_Model Learning_Props Rule_Model Rule_Spec Rule_Proofs Rule_Props Rule_Props2
  RuleApply_Props Stdp_Model Stdp_Props.
Import ListNotations.
Open Scope Z_scope.

(** ** Specification *)
(** the scaling constant of a product, m * 2^x, is stored as m' * 2^e: as long as the mantissa is even and larger than 7, and the
    exponent below 8, a factor 2 is moved to the exponent *)
Definition stored (m x m' e : Z) : Prop :=
  exists k, 0 <= k /\ m = m' * 2 ^ k /\ e = x + k /\ (k = 0 \/ (7 < Z.abs (m' * 2) /\ e <= 8)) /\
            (Z.abs m' <= 7 \/ Z.odd m' = true \/ 8 <= e).
(** how far the product of factors with [b] bits is shifted down to fit 15 bits with its 4-bit mantissa *)
Definition excess (b : Z) : Z := Z.max 0 (b - 11).
(** what the product [t] contributes: with the exponent e it is stored with, its value is n * 2^e for a whole number n, and it
    contributes floor(n / 2^excess) * 2^e *)
Definition contributes (rho : env) (t : term) (x : Q) : Prop :=
  exists m' e n, stored (term_mant t) (term_exp t) m' e /\ (term_value rho t == inject_Z n * Qpower 2 e)%Q /\
    (x == inject_Z (n / 2 ^ excess (term_bits (t_atoms t))) * Qpower 2 e)%Q.
(** up to 27 bits, whole constants in sums, factors in the range of the hardware *)
Definition modest (rho : env) (r : rule) : Prop :=
  forall t, In t r -> term_bits (t_atoms t) <= 27 /\ Forall whole_atom (t_atoms t) /\ Forall (fits rho (term_event t)) (t_atoms t).

(** ** Proofs *)
Lemma stored_unique m x m1 e1 m2 e2 : stored m x m1 e1 -> stored m x m2 e2 -> m1 = m2 /\ e1 = e2.
Proof.
  intros (k1 & K1 & E1 & X1 & C1 & S1) (k2 & K2 & E2 & X2 & C2 & S2).
  assert (forall ka kb ma mb, 0 <= ka -> ka < kb -> m = ma * 2 ^ ka -> m = mb * 2 ^ kb ->
    (kb = 0 \/ 7 < Z.abs (mb * 2) /\ x + kb <= 8) -> (Z.abs ma <= 7 \/ Z.odd ma = true \/ 8 <= x + ka) -> False) as K.
  { intros ka kb ma mb Ha Hab Ea Eb [Cb|[Cb Eb8]] Sa; [lia|].
    assert (ma = mb * 2 ^ (kb - ka)) as F.
    { replace kb with (ka + (kb - ka)) in Eb by lia. rewrite Z.pow_add_r in Eb by lia. rewrite Ea in Eb.
      assert (0 < 2 ^ ka) by (apply Z.pow_pos_nonneg; lia). nia. }
    replace (kb - ka) with (Z.succ (kb - ka - 1)) in F by lia. rewrite Z.pow_succ_r in F by lia.
    assert (0 < 2 ^ (kb - ka - 1)) by (apply Z.pow_pos_nonneg; lia). set (p := 2 ^ (kb - ka - 1)) in *. destruct Sa as [Sa|[Sa|Sa]].
    - nia.
    - rewrite F in Sa. replace (mb * (2 * p)) with (2 * (mb * p)) in Sa by ring. rewrite Z.odd_mul in Sa. discriminate.
    - lia. }
  assert (k1 = k2) as <-.
  { destruct (Z.lt_trichotomy k1 k2) as [L|[L|L]]; [exfalso|exact L|exfalso].
    - apply (K k1 k2 m1 m2); auto; subst; auto.
    - apply (K k2 k1 m2 m1); auto; subst; auto. }
  assert (0 < 2 ^ k1) by (apply Z.pow_pos_nonneg; lia). split; [nia|congruence].
Qed.
Lemma contributes_unique rho t x y : contributes rho t x -> contributes rho t y -> (x == y)%Q.
Proof.
  intros (m1 & e1 & n1 & S1 & V1 & X1) (m2 & e2 & n2 & S2 & V2 & X2). destruct (stored_unique _ _ _ _ _ _ S1 S2) as [<- <-].
  rewrite V1 in V2. assert (n1 = n2) as <-; [|rewrite X1, X2; reflexivity].
  apply inject_Z_injective. apply (Qmult_inj_r _ _ (Qpower 2 e1)); [|exact V2]. pose proof (pow2_pos e1). intro F. rewrite F in H. discriminate H.
Qed.
Lemma contributes_agree rho rho' t x : (term_value rho t == term_value rho' t)%Q -> contributes rho t x -> contributes rho' t x.
Proof. intros H (m & e & n & S & V & X). exists m, e, n. rewrite <- H. auto. Qed.
Lemma product_stored series t p k : wf_term t -> Z.abs (term_mant t) < 2 ^ 54 -> gen_product series (term_syms t) = Some (p, k) ->
  stored (term_mant t) (term_exp t) (rp_mant p) (rp_exp p - 7).
Proof.
  intros Hw Hm E. unfold gen_product in E. rewrite (gen_term series t Hw) in E.
  destruct (okp series (periods (t_atoms t))); [|discriminate]. cbn [obind] in E.
  set (g := closed (start series (t_sign t)) (norm (t_atoms t))) in *.
  assert (Em : g_mant g = term_mant t /\ g_exp g = term_exp t).
  { unfold g. destruct (closed_scale (norm (t_atoms t)) (start series (t_sign t))) as [-> ->].
    rewrite norm_amant, norm_aexp. unfold term_mant, term_exp, start. cbn [g_mant g_exp]. fold (amant (t_atoms t)) (aexp (t_atoms t)).
    split; [reflexivity|lia]. }
  destruct Em as [Em Ee]. rewrite Em, Ee in E.
  destruct (normalize_spec _ (term_mant t) (term_exp t) Hm (norm_fuel_ok _)) as (j & m' & K1 & K2 & K3 & K4 & K5). rewrite K3 in E. cbn [obind] in E.
  destruct (g_dep g) as [d|]; [|discriminate].
  destruct ((m' <? -8) || (8 <=? m')); [discriminate|]. destruct ((term_exp t + j <? -7) || (9 <=? term_exp t + j)); [discriminate|].
  match goal with H : (if ?b then None else Some _) = Some _ |- _ => destruct b; [discriminate|] end.
  injection E as <- <-. cbn [rp_mant rp_exp]. replace (term_exp t + j + 7 - 7) with (term_exp t + j) by lia.
  exists j. auto.
Qed.
(** the unsaturated contribution of a product, in units of 2^-7 *)
Definition raw (a : args) (p : product) : Z := exact_product a p / 2 ^ Z.max 0 (widths p + 4 - 15) * 2 ^ p_exp p.
Lemma product_wide a series t p k : args_ok a -> wf_term t -> Z.abs (term_mant t) < 2 ^ 54 ->
  gen_product series (term_syms t) = Some (p, k) -> modest (args_env a) [t] ->
  exists q, to_product p = Some q /\ product_ok q /\ widths q <= 27 /\
    exists x, contributes (args_env a) t x /\ (inject_Z (raw a q) == 128 * x)%Q.
Proof.
  intros Ha Hw Hm E He. destruct (He t (or_introl eq_refl)) as (Hb & Hi & Hf).
  destruct (product_shape _ _ _ _ Hw E) as (S1 & S2 & S3 & S4). pose proof (product_stored _ _ _ _ Hw Hm E) as St.
  assert (binary (args_env a)) as B by (apply args_binary; exact Ha).
  assert (compiled_value (args_env a) p == term_value (args_env a) t)%Q as V.
  { destruct (gen_product_term series t Hw Hm) as [(p' & E' & _ & _ & _ & V)|[E' _]]; [|congruence].
    rewrite E in E'. injection E' as <-. apply V. exact B. }
  destruct (dependency (t_atoms t)) as [e|] eqn:Ed; [|discriminate S1]. cbn [omap] in S1. injection S1 as S1.
  unfold term_event in Hf. rewrite Ed in Hf.
  assert (Forall (good (args_env a) e) (rp_factors p)) as G.
  { rewrite S4. apply closed_good; [exact B|apply norm_wf, Hw| | |constructor].
    - apply norm_forall; [intro; exact I|exact Hi].
    - apply norm_forall; [intro; exact I|exact Hf]. }
  assert (fwidths (rp_factors p) = term_bits (t_atoms t)) as Wd.
  { rewrite S4, closed_width_false by reflexivity. cbn [start g_factors fwidths fold_right]. rewrite norm_term_bits. reflexivity. }
  assert (exists gs, all_some to_factor (rp_factors p) = Some gs) as [gs Egs].
  { apply all_some_forall. intros f Hin. rewrite Forall_forall in G. apply (G f Hin). }
  destruct (factors_value a e _ G gs Egs) as (F1 & F2 & F3).
  unfold to_product. rewrite Egs. cbn [omap]. eexists. split; [reflexivity|].
  unfold product_ok. cbn [p_mant p_exp p_factors]. split; [split; [exact S2|split; [exact S3|exact F1]]|].
  assert (widths {| p_dep := rp_dep p; p_mant := rp_mant p; p_exp := rp_exp p; p_factors := gs |} = term_bits (t_atoms t)) as Wq by (unfold widths; cbn [p_factors]; lia).
  rewrite Wq. split; [exact Hb|]. unfold raw. rewrite Wq. unfold exact_product. cbn [p_dep p_mant p_exp p_factors].
  set (x := fold_right (fun f n => clip_factor (f_var f) (factor_meaning a (rp_dep p) f) * n) 1 gs) in *.
  set (n := dep_value a (rp_dep p) * x * rp_mant p).
  assert (term_value (args_env a) t == inject_Z n * Qpower 2 (rp_exp p - 7))%Q as X.
  { rewrite <- V. unfold compiled_value.
    assert (occurs (args_env a) (product_event p) = inject_Z (dep_value a (rp_dep p))) as ->.
    { unfold product_event. destruct (rp_dep p); reflexivity. }
    assert (map (factor_value (args_env a) (product_event p)) (rp_factors p) = map (factor_value (args_env a) e) (rp_factors p)) as ->.
    { apply map_ext. intro f. unfold factor_value. rewrite !state_var_value. do 2 f_equal.
      replace (ev_dep (product_event p)) with (ev_dep e); [reflexivity|]. rewrite S1. unfold product_event. destruct (rp_dep p); reflexivity. }
    rewrite F3. rewrite S1. fold x. unfold n. rewrite !inject_Z_mult. ring. }
  replace (Z.max 0 (term_bits (t_atoms t) + 4 - 15)) with (excess (term_bits (t_atoms t))) by (unfold excess; lia).
  exists (inject_Z (n / 2 ^ excess (term_bits (t_atoms t))) * Qpower 2 (rp_exp p - 7))%Q. split.
  - exists (rp_mant p), (rp_exp p - 7), n. split; [exact St|]. split; [exact X|reflexivity].
  - rewrite inject_Z_mult, <- pow2_Z by lia. replace (rp_exp p) with (7 + (rp_exp p - 7)) at 1 by lia. rewrite pow2_add. change (Qpower 2 7) with 128%Q. ring.
Qed.
Lemma products_wide a : args_ok a -> forall r series ps k, Forall wf_term r -> small r -> modest (args_env a) r ->
  gen_products series (map term_syms r) = Some (ps, k) ->
  exists qs xs, to_products ps = Some qs /\ (forall q, In q qs -> product_ok q /\ widths q <= 27) /\
    Forall2 (fun q x => inject_Z (raw a q) == 128 * x)%Q qs xs /\ Forall2 (contributes (args_env a)) r xs.
Proof.
  intro Ha. induction r as [|t r IH]; intros series ps k Hw Hs He E; cbn [map gen_products] in E.
  - injection E as <- <-. exists [], []. split; [reflexivity|]. split; [intros q []|split; constructor].
  - inversion Hw as [|? ? Ht Hw']; subst.
    assert (modest (args_env a) [t] /\ modest (args_env a) r) as [He1 He2].
    { split; intros y Hy; apply He; [destruct Hy as [<-|[]]; left; reflexivity|right; exact Hy]. }
    destruct (gen_product series (term_syms t)) as [[p k1]|] eqn:E1; [|discriminate]. cbn [obind fst snd] in E.
    destruct (gen_products k1 (map term_syms r)) as [[ps' k2]|] eqn:E2; [|discriminate]. cbn [omap fst snd] in E. injection E as <- <-.
    destruct (product_wide a series t p k1 Ha Ht (Hs t (or_introl eq_refl)) E1 He1) as (q & Q1 & Q2 & Q3 & x & Q4 & Q5).
    destruct (IH k1 ps' k2 Hw' ltac:(intros y Hy; apply Hs; right; exact Hy) He2 E2) as (qs & xs & P1 & P2 & P3 & P4).
    exists (q :: qs), (x :: xs). unfold to_products in *. cbn [all_some]. rewrite Q1. cbn [obind]. rewrite P1. cbn [omap]. split; [reflexivity|].
    split; [intros y [<-|Hy]; auto|]. split; constructor; assumption.
Qed.
(** no contribution and no intermediate sum leaves the range of the accumulator *)
Definition sums_in_range (v : Z) (xs : list Q) : Prop :=
  Forall (fun x => Qabs x < 256)%Q xs /\ forall n, (Qabs (inject_Z v + qsum (firstn n xs)) < 256)%Q.
Lemma contributes_list rho r xs : Forall2 (contributes rho) r xs -> forall ys, Forall2 (contributes rho) r ys -> Forall2 Qeq xs ys.
Proof.
  induction 1 as [|t x r xs H Hl IH]; intros ys Hy; inversion Hy; subst; constructor; [|now apply IH].
  eapply contributes_unique; eassumption.
Qed.
Lemma qsum_compat xs ys : Forall2 Qeq xs ys -> forall n, (qsum (firstn n xs) == qsum (firstn n ys))%Q.
Proof.
  induction 1 as [|x y xs ys H Hl IH]; intros [|n]; cbn [firstn]; try reflexivity. cbn [qsum fold_right].
  fold (qsum (firstn n xs)) (qsum (firstn n ys)). now rewrite H, IH.
Qed.
Lemma total_raw a qs xs : Forall2 (fun q x => inject_Z (raw a q) == 128 * x)%Q qs xs -> Forall (fun x => Qabs x < 256)%Q xs ->
  forall n v, (inject_Z (total a (firstn n qs) (v * 128)) == 128 * (inject_Z v + qsum (firstn n xs)))%Q.
Proof.
  intros H Hx n v. revert n. assert (forall acc n, inject_Z (total a (firstn n qs) acc) == inject_Z acc + 128 * qsum (firstn n xs))%Q as G.
  { induction H as [|q x qs xs E _ IH]; intros acc n.
    - rewrite !firstn_nil. unfold total. cbn. rewrite Z.add_0_r. ring.
    - inversion Hx as [|? ? Hx1 Hx2]; subst. destruct n as [|n]; cbn [firstn].
      + unfold total. cbn. rewrite Z.add_0_r. ring.
      + rewrite total_cons, (IH Hx2), inject_Z_plus. cbn [qsum fold_right]. fold (qsum (firstn n xs)).
        assert (update a q = raw a q) as ->; [|rewrite E; ring].
        unfold update. fold (raw a q). unfold clip_acc. apply clip_id. change (- 2 ^ 15 - 1) with (-32769). change (2 ^ 15 - 1) with 32767.
        assert (Z.abs (raw a q) < 32768); [|lia]. apply abs_inject. rewrite E, Qabs_Qmult. change (Qabs 128) with 128%Q.
        apply (Qlt_le_trans _ (128 * 256)); [|vm_compute; intro; discriminate]. rewrite Qmult_lt_l by reflexivity. exact Hx1. }
  intro n. rewrite G, inject_Z_mult. change (inject_Z 128) with 128%Q. ring.
Qed.
Lemma Forall2_len {A B} (P : A -> B -> Prop) l m : Forall2 P l m -> List.length l = List.length m.
Proof. induction 1; cbn; congruence. Qed.

(** ** Theorems *)
(** C80: the text of a rule, compiled and applied: the new value is the old one plus what the products contribute *)
Theorem rule_text_contributes_partial : forall s r, wf_rule r -> small r -> writes s r ->
  forall ps k, compile s = Some (ps, k) ->
  forall a, args_ok a -> modest (args_env a) r ->
  exists qs, to_products ps = Some qs /\ (exists xs, Forall2 (contributes (args_env a)) r xs) /\
    forall xs, Forall2 (contributes (args_env a)) r xs ->
    forall m rnd y v, (0 <= rnd)%Q -> sums_in_range v xs ->
      learn m rnd a qs y v = saturated m y (rounded rnd (inject_Z v + qsum xs)).
Proof.
  intros s r Hw Hs Hwr ps k E a Ha He. rewrite (compile_rule s r Hw Hwr) in E.
  destruct (products_wide a Ha r None ps k (proj1 (proj2 Hw)) Hs He E) as (qs & ys & P1 & P2 & P3 & P4).
  exists qs. split; [exact P1|]. split; [exists ys; exact P4|]. intros xs Hxs m rnd y v Hr [Hf1 Hf2].
  pose proof (contributes_list _ _ _ P4 _ Hxs) as Eq. pose proof (qsum_compat _ _ Eq) as Qc.
  assert (Forall (fun x => Qabs x < 256)%Q ys) as Hf1'.
  { clear - Eq Hf1. induction Eq as [|p q ps qs H _ IH]; inversion Hf1; subst; constructor; auto. rewrite H. assumption. }
  pose proof (total_raw a qs ys P3 Hf1') as TV. pose proof (Forall2_len _ _ _ P3) as Len. pose proof (Forall2_len _ _ _ Eq) as Len2.
  assert (forall n, Qabs (inject_Z v + qsum (firstn n ys)) < 256)%Q as Hf2' by (intro n; rewrite Qc; apply Hf2).
  assert (qsum ys == qsum xs)%Q as Qs.
  { specialize (Qc (List.length ys)). rewrite !firstn_all2 in Qc by lia. exact Qc. }
  rewrite (rounded_compat rnd (inject_Z v + qsum xs) (inject_Z v + qsum ys)) by (rewrite Qs; reflexivity).
  apply learn_rounded; [exact Hr| |].
  - rewrite (rule_adds_products_partial a qs (v * 128) Ha P2).
    + specialize (TV (List.length qs) v). rewrite !firstn_all2 in TV by lia. exact TV.
    + intro n. assert (Z.abs (total a (firstn n qs) (v * 128)) < 32768); [|lia]. apply abs_inject. rewrite TV, Qabs_Qmult.
      change (Qabs 128) with 128%Q. apply (Qlt_le_trans _ (128 * 256)); [|vm_compute; intro; discriminate].
      rewrite Qmult_lt_l by reflexivity. apply Hf2'.
  - specialize (Hf2' (List.length ys)). rewrite firstn_all2 in Hf2' by lia. exact Hf2'.
Qed.
(** C80: a product contributes its value divided by 2^excess, rounded down to a multiple of 2^e *)
Theorem contribution_bounds : forall rho t x, contributes rho t x ->
  exists m' e, stored (term_mant t) (term_exp t) m' e /\
  let v := (term_value rho t / inject_Z (2 ^ excess (term_bits (t_atoms t))))%Q in
  (x <= v /\ v < x + Qpower 2 e)%Q /\ (term_bits (t_atoms t) <= 11 -> (x == term_value rho t)%Q).
Proof.
  intros rho t x (m' & e & n & S & V & X). exists m', e. split; [exact S|]. cbv zeta.
  assert (0 <= excess (term_bits (t_atoms t))) as He by (unfold excess; lia). set (s := excess (term_bits (t_atoms t))) in *.
  assert (0 < 2 ^ s) as Ps by (apply Z.pow_pos_nonneg; lia). assert (0 < inject_Z (2 ^ s))%Q as Ps' by (change 0%Q with (inject_Z 0); rewrite <- Zlt_Qlt; lia).
  pose proof (pow2_pos e) as Pe. split; [|].
  - rewrite V, X. assert (inject_Z n * Qpower 2 e / inject_Z (2 ^ s) == inject_Z n / inject_Z (2 ^ s) * Qpower 2 e)%Q as -> by (field; lra).
    pose proof (Z.div_mod n (2 ^ s) ltac:(lia)) as D. pose proof (Z.mod_pos_bound n (2 ^ s) Ps) as M. split.
    + apply Qmult_le_r; [exact Pe|]. apply Qle_shift_div_l; [exact Ps'|]. rewrite <- inject_Z_mult, <- Zle_Qle. lia.
    + assert (inject_Z (n / 2 ^ s) * Qpower 2 e + Qpower 2 e == (inject_Z (n / 2 ^ s) + 1) * Qpower 2 e)%Q as -> by ring.
      apply Qmult_lt_r; [exact Pe|]. apply Qlt_shift_div_r; [exact Ps'|]. change 1%Q with (inject_Z 1). rewrite <- inject_Z_plus, <- inject_Z_mult, <- Zlt_Qlt. lia.
  - intro H11. assert (s = 0) as E0 by (unfold s, excess; lia). rewrite V, X, E0. change (2 ^ 0) with 1. rewrite Z.div_1_r. reflexivity.
Qed.
(** C80: in a learning connection *)
Theorem rule_text_learned_wide_partial : forall s r, wf_rule r -> small r -> writes s r ->
  forall ps k, compile s = Some (ps, k) ->
  forall c t i st y post pre, (k = None \/ k = cfg_decimate c) ->
  cfg_rule c y = to_products ps -> (0 <= r_syn i)%Q ->
  let rho := epoch_env c t i st post pre in
  modest rho r -> (exists xs, Forall2 (contributes rho) r xs) /\
  forall xs, Forall2 (contributes rho) r xs -> sums_in_range (syn_val st y post pre) xs ->
  syn_val (learn_phase c t i st) y post pre =
  saturated (cfg_sign c) y (rounded (r_syn i) (inject_Z (syn_val st y post pre) + qsum xs)).
Proof.
  intros s r Hw Hs Hwr ps k E c t i st y post pre Hk Hc Hr rho He.
  destruct (rule_decimation s r Hw Hs Hwr ps k E) as [D1 D2].
  set (a := applier_args c t i st post pre (fun w => syn_val st w post pre)).
  assert (args_ok a) as Ha.
  { intros d. unfold a, dep_value, applier_args. cbn [a_x0 a_y0 a_u]. unfold u_value. destruct d.
    - destruct (0 <? tx st pre); lia.
    - destruct (0 <? ty st post); lia.
    - destruct (cfg_decimate c); [destruct (_ =? 0)|]; lia. }
  assert (occurs rho Pre == occurs (args_env a) Pre)%Q as A1 by (cbn; destruct (0 <? tx st pre); reflexivity).
  assert (occurs rho Post == occurs (args_env a) Post)%Q as A2 by (cbn; destruct (0 <? ty st post); reflexivity).
  assert (forall e v, at_event rho e v == at_event (args_env a) e v)%Q as A3.
  { intros e v. unfold rho, args_env. cbn [at_event epoch_env]. unfold a.
    destruct v; rewrite ?rule_sees_traces_at_events; destruct e; reflexivity. }
  assert (forall q kk, In q r -> In kk (periods (t_atoms q)) -> occurs rho (Periodic kk) == occurs (args_env a) (Periodic kk))%Q as A4.
  { intros q kk Hq Hkk. assert (k = Some (Z.of_nat kk)) as K by (apply D1; eauto).
    destruct Hk as [Hk|Hk]; [congruence|]. rewrite K in Hk. unfold rho, args_env, a. cbn [occurs epoch_env applier_args a_u].
    unfold u_value. rewrite <- Hk. destruct (_ =? 0); reflexivity. }
  assert (modest (args_env a) r) as He'.
  { intros q Hq. destruct (He q Hq) as (H1 & H2 & H3). split; [exact H1|]. split; [exact H2|]. eapply Forall_impl; [|exact H3].
    intros b. apply agree_fits; assumption. }
  assert (forall q, In q r -> term_value rho q == term_value (args_env a) q)%Q as TE.
  { intros q Hq. apply agree_term; auto. intros kk Hkk. eapply A4; eassumption. }
  assert (forall xs, Forall2 (contributes rho) r xs <-> Forall2 (contributes (args_env a)) r xs) as CE.
  { intro xs. clear - TE. split; intro H; induction H as [|q x l xs Hq Hl IH]; constructor.
    - eapply contributes_agree; [apply TE; left; reflexivity|exact Hq].
    - apply IH. intros z Hz. apply TE. right. exact Hz.
    - eapply contributes_agree; [symmetry; apply TE; left; reflexivity|exact Hq].
    - apply IH. intros z Hz. apply TE. right. exact Hz. }
  destruct (rule_text_contributes_partial s r Hw Hs Hwr ps k E a Ha He') as (qs & Q1 & (ys & Q2) & Q3).
  split; [exists ys; apply CE; exact Q2|]. intros xs Hxs Hf.
  cbn [learn_phase syn_val]. unfold learned. rewrite Hc, Q1. fold a. apply Q3; [apply CE; exact Hxs|exact Hr|exact Hf].
Qed.
(** C80: so RewardModulatedSTDP moves the weight, in every epoch, by 1/32 of the documented t * y2, rounded down *)
Theorem rstdp_weight : exists ps qs, compile rstdp_dw = Some (ps, Some 0) /\ to_products ps = Some qs /\
  forall a, args_ok a -> a_u a = 1 -> Z.abs (a_syn a STag1) < 512 -> Z.abs (a_trace a TY2 DU) < 128 ->
  let d := (a_syn a STag1 * a_trace a TY2 DU) / 32 in
  forall m rnd v, (0 <= rnd)%Q -> Z.abs v < 256 -> Z.abs d < 256 -> Z.abs (v + d) < 256 ->
    learn m rnd a qs SWeights v = saturated m SWeights (v + d).
Proof.
  assert (Hw : wf_rule rstdp_w).
  { split; [discriminate|]. split; [|constructor]. constructor; [|constructor]. split; [discriminate|]. cbn [t_atoms].
    repeat apply Forall_cons; try apply Forall_nil; cbn [wf_atom]; [lia|exact I|exact I]. }
  assert (Hs : small rstdp_w) by (intros t [<-|[]]; vm_compute; reflexivity).
  assert (Hwr : writes rstdp_dw rstdp_w) by reflexivity.
  eexists. eexists. split; [vm_compute; reflexivity|]. split; [vm_compute; reflexivity|].
  intros a Ha Hu Ht Hy d m rnd v Hr Hv Hd Hvd.
  assert (He : modest (args_env a) rstdp_w).
  { intros t [<-|[]]. cbn [t_atoms]. split; [vm_compute; discriminate|]. split; [repeat constructor|].
    unfold term_event. cbn [t_atoms dependency]. repeat apply Forall_cons; try apply Forall_nil; cbn [fits]; [exact I| |];
      cbn [args_env at_event ev_dep var_bits]; match goal with |- (Qabs (inject_Z ?z) < _)%Q => change (Qabs (inject_Z z)) with (inject_Z (Z.abs z)) end; rewrite <- Zlt_Qlt; assumption. }
  destruct (rule_text_contributes_partial rstdp_dw rstdp_w Hw Hs Hwr _ _ (eq_refl : compile rstdp_dw = Some (_, _)) a Ha He) as (qs & Q1 & _ & Q3).
  vm_compute in Q1. injection Q1 as <-.
  assert (C : Forall2 (contributes (args_env a)) rstdp_w [inject_Z d]).
  { constructor; [|constructor]. exists 1, 0, (a_syn a STag1 * a_trace a TY2 DU). split; [|split].
    - exists 0. split; [lia|]. split; [reflexivity|]. split; [reflexivity|]. split; [left; reflexivity|left; vm_compute; discriminate].
    - unfold term_value. cbn [t_atoms dependency map atom_value qprod fold_right t_sign]. cbn [args_env occurs at_event ev_dep].
      rewrite Hu. unfold signed. cbn [sign_value]. change (inject_Z 1) with 1%Q. change (Qpower 2 0) with 1%Q. rewrite inject_Z_mult. ring.
    - change (excess (term_bits (t_atoms _))) with 5. change (2 ^ 5) with 32. fold d. change (Qpower 2 0) with 1%Q. ring. }
  rewrite (Q3 _ C); [|exact Hr|].
  - f_equal. cbn [qsum fold_right]. rewrite (rounded_compat rnd _ (inject_Z (v + d))) by (rewrite inject_Z_plus; ring).
    unfold rounded. rewrite Qfloor_Z. destruct (Qlt_le_dec _ _) as [L|]; [|reflexivity]. exfalso.
    setoid_replace (inject_Z (v + d) - inject_Z (v + d))%Q with 0%Q in L by ring. apply (Qlt_not_le _ _ L Hr).
  - split.
    + constructor; [|constructor]. change (Qabs (inject_Z d)) with (inject_Z (Z.abs d)). change 256%Q with (inject_Z 256). rewrite <- Zlt_Qlt. exact Hd.
    + assert (W : forall z, Z.abs z < 256 -> (Qabs (inject_Z z) < 256)%Q).
      { intros z Hz. change (Qabs (inject_Z z)) with (inject_Z (Z.abs z)). change 256%Q with (inject_Z 256). rewrite <- Zlt_Qlt. exact Hz. }
      intros [|n].
      * cbn [firstn qsum fold_right]. setoid_replace (inject_Z v + 0)%Q with (inject_Z v) by ring. apply W, Hv.
      * rewrite firstn_all2 by (cbn; lia). cbn [qsum fold_right]. setoid_replace (inject_Z v + (inject_Z d + 0))%Q with (inject_Z (v + d)) by (rewrite inject_Z_plus; ring).
        apply W, Hvd.
Qed.
(** an instance: tag 50, reward 40: 50 * 40 = 2000 acts as 62 *)
Definition reward_args : args := {| a_x0 := 0; a_y0 := 0; a_u := 1; a_syn := fun s => match s with STag1 => 50 | _ => 10 end; a_trace := fun _ _ => 40 |}.
Example rstdp_weight_demo : args_ok reward_args /\ exists ps qs, compile rstdp_dw = Some (ps, Some 0) /\ to_products ps = Some qs /\
  learn Mixed (1 # 2) reward_args qs SWeights 10 = 72.
Proof.
  split; [intros []; vm_compute; split; intro; discriminate|]. eexists. eexists. split; [vm_compute; reflexivity|]. split; [vm_compute; reflexivity|]. vm_compute. reflexivity.
Qed.
(** an instance of [rule_text_contributes_partial] with several products: 2^-6*x0*x1*y1 - 3*y0*(w-4)*x1 *)
Definition wide_string : string := "2^-6*x0*x1*y1 - 3*2^-4*y0*(w-4)*x1".
Definition wide : rule :=
  [ {| t_sign := NoSign; t_atoms := [ALit (Pow Minus (nm "6")); AEvent Pre; AVar X1; AVar Y1] |};
    {| t_sign := Minus; t_atoms := [ALit (Scaled (nm "3") Minus (nm "4")); AEvent Post; ABracket (VarLit NoSign (BVar W) Minus (Plain (nm "4"))); AVar X1] |} ].
Definition wide_args : args :=
  {| a_x0 := 1; a_y0 := 1; a_u := 0; a_syn := fun _ => 61; a_trace := fun tr d => match tr with TX1 => 40 | _ => 30 end |}.
Example wide_demo : wf_rule wide /\ small wide /\ writes wide_string wide /\ args_ok wide_args /\ modest (args_env wide_args) wide /\
  exists ps xs, compile wide_string = Some (ps, None) /\ Forall2 (contributes (args_env wide_args)) wide xs /\ sums_in_range 61 xs /\
  (inject_Z 61 + qsum xs == 1599 # 32)%Q.
Proof.
  assert (H6 : is_numeral (nm "6")) by (apply numeral_ok; reflexivity).
  assert (H3 : is_numeral (nm "3")) by (apply numeral_ok; reflexivity).
  assert (H4 : is_numeral (nm "4")) by (apply numeral_ok; reflexivity).
  split; [|split; [|split; [|split; [|split]]]].
  - split; [discriminate|]. split; [|constructor; [discriminate|constructor]].
    repeat apply Forall_cons; try apply Forall_nil; (split; [discriminate|]); cbn [t_atoms];
      repeat apply Forall_cons; try apply Forall_nil; cbn [wf_atom wf_lit wf_bracket];
      repeat match goal with |- _ /\ _ => split end; try exact I; try assumption; try discriminate.
  - intros t [<-|[<-|[]]]; vm_compute; reflexivity.
  - vm_compute. reflexivity.
  - intros []; vm_compute; split; intro; discriminate.
  - intros t [<-|[<-|[]]]; (split; [vm_compute; intro; discriminate|]); (split; [repeat constructor; vm_compute; intro; discriminate|]);
      repeat apply Forall_cons; try apply Forall_nil; try exact I; vm_compute; reflexivity.
  - eexists. exists [150 # 64; - (214) # 16]%Q. split; [vm_compute; reflexivity|]. split; [|split].
    + constructor; [|constructor; [|constructor]].
      * exists 1, (-6), 1200. split; [exists 0; split; [lia|]; split; [reflexivity|]; split; [reflexivity|]; split; [left; reflexivity|left; vm_compute; discriminate]|].
        split; vm_compute; reflexivity.
      * exists (-3), (-4), (-6840). split; [exists 0; split; [lia|]; split; [reflexivity|]; split; [reflexivity|]; split; [left; reflexivity|left; vm_compute; discriminate]|].
        split; vm_compute; reflexivity.
    + split; [repeat apply Forall_cons; try apply Forall_nil; vm_compute; reflexivity|].
      intros [|[|n]]; [vm_compute; reflexivity..|]. rewrite firstn_all2 by (cbn; lia). vm_compute. reflexivity.
    + vm_compute. reflexivity.
Qed.
