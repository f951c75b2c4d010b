(** C92: LearningSparse learns what LearningDense learns, on its synapses *)
From Coq Require Import ZArith QArith List Bool String Lia.
From Verif Require Import NpInt Bits_Model Learning_Model Rule_Model FloatLearn_Model LSparse_Model LSparse_Spec.
Import ListNotations.
Open Scope Z_scope.

(** ** Fixed point *)
Definition same (a b : conn) : Prop :=
  tx a = tx b /\ x1 a = x1 b /\ x2 a = x2 b /\ ty a = ty b /\ y1 a = y1 b /\ y2 a = y2 b /\ y3 a = y3 b.
Lemma same_refl : forall a, same a a.
Proof. intros a; repeat apply conj; reflexivity. Qed.
Lemma same_spike : forall c t i a b, same a b -> same (spike_phase c t i a) (spike_phase c t i b).
Proof.
  intros c t i [] [] (H1 & H2 & H3 & H4 & H5 & H6 & H7); cbn in *; subst; repeat apply conj; reflexivity.
Qed.
Lemma same_learn : forall c t i a b, same a b -> same (learn_phase c t i a) (learn_phase c t i b).
Proof.
  intros c t i [] [] (H1 & H2 & H3 & H4 & H5 & H6 & H7); cbn in *; subst; repeat apply conj; reflexivity.
Qed.
Lemma same_evaluated : forall c i a b, same a b -> evaluated c i a = evaluated c i b.
Proof. intros c i [] [] (H1 & H2 & H3 & H4 & H5 & H6 & H7); cbn in *; subst; reflexivity. Qed.
Lemma sp_same : forall c i st a n, same (sp_run c i st a n) (run c i a n).
Proof.
  intros c i st a n; induction n as [|n IH]; [apply same_refl |].
  cbn [sp_run run]; unfold sp_step, conn_step.
  pose proof (same_spike c (Z.of_nat (S n)) (i (S n)) _ _ IH) as Hs.
  destruct (lrn_guard (t_epoch c) (Z.of_nat (S n))); [|exact Hs].
  unfold sp_learn_phase; cbn zeta.
  apply (same_learn c (Z.of_nat (S n)) (i (S n))) in Hs.
  destruct Hs as (H1 & H2 & H3 & H4 & H5 & H6 & H7); repeat apply conj; assumption.
Qed.
(** a rule without synaptic variables does not depend on them *)
Definition with_syn (a : args) (v : syn -> Z) : args := {| a_x0 := a_x0 a; a_y0 := a_y0 a; a_u := a_u a; a_syn := v; a_trace := a_trace a |}.
Lemma compute_factor_no_syn : forall a v d f, (forall y, f_var f <> VSyn y) -> compute_factor (with_syn a v) d f = compute_factor a d f.
Proof.
  intros a v d [w k g] H; unfold compute_factor, with_syn; cbn in *; destruct w; try reflexivity.
  exfalso; apply (H s); reflexivity.
Qed.
Lemma product_no_syn : forall a v p, (forall f y, In f (p_factors p) -> f_var f <> VSyn y) -> product_value (with_syn a v) p = product_value a p.
Proof.
  intros a v p H; unfold product_value, mac.
  replace (dep_value (with_syn a v) (p_dep p)) with (dep_value a (p_dep p)) by (destruct (p_dep p); reflexivity).
  assert (E : forall fs m, (forall f, In f fs -> In f (p_factors p)) ->
    fold_left (fun m f => w32 (m * w32 (clip_factor (f_var f) (compute_factor (with_syn a v) (p_dep p) f)))) fs m =
    fold_left (fun m f => w32 (m * w32 (clip_factor (f_var f) (compute_factor a (p_dep p) f)))) fs m).
  { induction fs as [|f fs IH]; intros m Hin; [reflexivity |]; cbn [fold_left].
    rewrite compute_factor_no_syn by (intros y; apply H, Hin; left; reflexivity).
    apply IH; intros g Hg; apply Hin; right; exact Hg. }
  cbn zeta; rewrite E by (intros f Hf; exact Hf); reflexivity.
Qed.
Lemma apply_no_syn : forall ps a v acc, no_syn ps -> apply_rule (with_syn a v) ps acc = apply_rule a ps acc.
Proof.
  unfold apply_rule; induction ps as [|p ps IH]; intros a v acc H; [reflexivity |]; cbn [fold_left].
  rewrite product_no_syn by (intros f y Hf; apply (H p f y); [left; reflexivity | exact Hf]).
  apply IH; intros q f y Hq Hf; apply (H q f y); [right; exact Hq | exact Hf].
Qed.
Lemma learned_same : forall c t i a b y post pre, same a b -> (forall ps, cfg_rule c y = Some ps -> no_syn ps) ->
  syn_val a y post pre = syn_val b y post pre -> learned c t i a y post pre = learned c t i b y post pre.
Proof.
  intros c t i a b y post pre S0 Hr Hv; unfold learned.
  destruct (cfg_rule c y) as [ps|] eqn:E; [|exact Hv].
  rewrite Hv; unfold learn; do 4 f_equal.
  set (A := applier_args c t i b post pre (fun w => syn_val b w post pre)).
  replace (applier_args c t i a post pre (fun w => syn_val a w post pre)) with (with_syn A (fun w => syn_val a w post pre)).
  - apply apply_no_syn, Hr; reflexivity.
  - unfold A, with_syn, applier_args; cbn [a_x0 a_y0 a_u a_trace].
    rewrite <- (same_evaluated c i a b S0); destruct S0 as (H1 & _ & _ & H4 & _); rewrite H1, H4; reflexivity.
Qed.
Lemma spike_syn : forall c t i s, syn_val (spike_phase c t i s) = syn_val s.
Proof. reflexivity. Qed.
Lemma sp_equal : forall c i st a y post pre n, (forall ps, cfg_rule c y = Some ps -> no_syn ps) -> st y post pre = true ->
  syn_val (sp_run c i st a n) y post pre = syn_val (run c i a n) y post pre.
Proof.
  intros c i st a y post pre n Hr Hst; induction n as [|n IH]; [reflexivity |].
  cbn [sp_run run]; unfold sp_step, conn_step.
  destruct (lrn_guard (t_epoch c) (Z.of_nat (S n))); [|rewrite !spike_syn; exact IH].
  unfold sp_learn_phase; cbn zeta; cbn [syn_val]; unfold sp_learned; rewrite Hst.
  unfold learn_phase; cbn zeta; cbn [syn_val].
  apply learned_same; [apply same_spike, sp_same | exact Hr | rewrite !spike_syn; exact IH].
Qed.
Lemma sp_outside : forall c i st a y post pre n, st y post pre = false -> syn_val (sp_run c i st a n) y post pre = syn_val a y post pre.
Proof.
  intros c i st a y post pre n Hst; induction n as [|n IH]; [reflexivity |].
  cbn [sp_run]; unfold sp_step.
  destruct (lrn_guard (t_epoch c) (Z.of_nat (S n))); [|rewrite spike_syn; exact IH].
  unfold sp_learn_phase; cbn zeta; cbn [syn_val]; unfold sp_learned; rewrite Hst, spike_syn; exact IH.
Qed.

(** the traces and spike times are those of LearningDense, at any time *)
Theorem learning_sparse_same_traces : forall c bits i st s0 n,
  let s := learning_sparse c bits i st s0 n in let d := learning_dense c bits i s0 n in
  tx s = tx d /\ x1 s = x1 d /\ x2 s = x2 d /\ ty s = ty d /\ y1 s = y1 d /\ y2 s = y2 d /\ y3 s = y3 d.
Proof. intros c bits i st s0 n; apply sp_same. Qed.
(** a synapse whose weight is stored and survives the truncation has, at any time, the weight LearningDense gives it; the same for tags *)
Theorem learning_sparse_learns_as_dense_partial : forall c bits i st s0 n y post pre, cfg_sign c = Mixed ->
  (forall y ps, cfg_rule c y = Some ps -> no_syn ps) ->
  st y post pre = true -> (y = SWeights -> truncate Mixed bits 8 (syn_val s0 SWeights post pre) <> 0) ->
  syn_val (learning_sparse c bits i st s0 n) y post pre = syn_val (learning_dense c bits i s0 n) y post pre.
Proof.
  intros c bits i st s0 n y post pre Hm Hr Hst Hw; unfold learning_sparse, learning_dense; cbn zeta.
  apply sp_equal; [intros ps; apply Hr |].
  unfold eliminated; destruct y; try exact Hst.
  rewrite Hst; cbn [andb truncated syn_val]; rewrite Hm.
  apply negb_true_iff, Z.eqb_neq, Hw; reflexivity.
Qed.
Lemma truncate_0 : forall m b, truncate m b 8 0 = 0.
Proof.
  intros m b; unfold truncate; destruct m; cbn [negate Z.opp]; rewrite Z.shiftr_0_l, Z.shiftl_0_l; reflexivity.
Qed.
(** and no synapse appears *)
Theorem learning_sparse_no_new_synapses : forall c bits i st s0 n y post pre, zero_outside st (syn_val s0) ->
  st y post pre = false -> syn_val (learning_sparse c bits i st s0 n) y post pre = 0.
Proof.
  intros c bits i st s0 n y post pre Hz Hst; unfold learning_sparse; cbn zeta.
  rewrite sp_outside.
  - pose proof (Hz y post pre Hst) as H0; destruct y; cbn [truncated syn_val]; rewrite H0; [apply truncate_0 | reflexivity | reflexivity].
  - unfold eliminated; destruct y; rewrite Hst; reflexivity.
Qed.
(** a weight that is truncated to 0 in the first step never changes again, while LearningDense learns it *)
Theorem learning_sparse_truncated_weights_never_learn : forall c bits i st s0 n post pre, cfg_sign c = Mixed ->
  truncate Mixed bits 8 (syn_val s0 SWeights post pre) = 0 -> syn_val (learning_sparse c bits i st s0 n) SWeights post pre = 0.
Proof.
  intros c bits i st s0 n post pre Hm Ht; unfold learning_sparse; cbn zeta; rewrite Hm.
  rewrite sp_outside; [exact Ht |].
  cbn [eliminated truncated syn_val]; rewrite Ht; apply andb_false_r.
Qed.

(** ** Floating point *)
Definition fsame (a b : fconn) : Prop := f_tx a = f_tx b /\ f_ty a = f_ty b /\ f_tr a = f_tr b.
Lemma fsame_spike : forall c t i a b, fsame a b -> fsame (fspike_phase c t i a) (fspike_phase c t i b).
Proof. intros c t i [] [] (H1 & H2 & H3); cbn in *; subst; repeat apply conj; reflexivity. Qed.
Lemma fsame_learn : forall c t a b, fsame a b -> fsame (flearn_phase c t a) (flearn_phase c t b).
Proof. intros c t [] [] (H1 & H2 & H3); cbn in *; subst; repeat apply conj; reflexivity. Qed.
Lemma fsp_same : forall c i st a n, fsame (fsp_run c i st a n) (frun c i a n).
Proof.
  intros c i st a n; induction n as [|n IH]; [repeat apply conj; reflexivity |].
  cbn [fsp_run frun]; unfold fsp_step, fstep.
  pose proof (fsame_spike c (Z.of_nat (S n)) (i (S n)) _ _ IH) as Hs.
  destruct (lrn_guard (fc_epoch c) (Z.of_nat (S n))); [|exact Hs].
  apply (fsame_learn c (Z.of_nat (S n))) in Hs; destruct Hs as (H1 & H2 & H3).
  unfold fsp_learn_phase; cbn zeta; repeat apply conj; assumption.
Qed.
Definition with_fsyn (a : fargs) (v : syn -> num) : fargs := {| fa_dep := fa_dep a; fa_syn := v; fa_trace := fa_trace a |}.
Lemma fseries_reads : forall ps a v, (forall y, reads_f ps y -> v y = fa_syn a y) -> fseries (with_fsyn a v) ps = fseries a ps.
Proof.
  intros ps a v H.
  assert (F : forall p f, In p ps -> In f (rp_factors p) -> ffactor (with_fsyn a v) (rp_dep p) f = ffactor a (rp_dep p) f).
  { intros p f Hp Hf; unfold ffactor; destruct (rf_var f) as [| | |y|] eqn:E; try reflexivity.
    cbn [with_fsyn fa_syn]; rewrite (H y) by (exists p, f; repeat apply conj; assumption); reflexivity. }
  assert (P : forall p, In p ps -> fproduct (with_fsyn a v) p = fproduct a p).
  { intros p Hp; unfold fproduct; cbn [with_fsyn fa_dep].
    assert (G : forall fs m, (forall f, In f fs -> In f (rp_factors p)) ->
      fold_left (fun v0 f => nmul v0 (ffactor (with_fsyn a v) (rp_dep p) f)) fs m = fold_left (fun v0 f => nmul v0 (ffactor a (rp_dep p) f)) fs m).
    { induction fs as [|f fs IH]; intros m Hin; [reflexivity |]; cbn [fold_left].
      rewrite F by (try exact Hp; apply Hin; left; reflexivity); apply IH; intros g Hg; apply Hin; right; exact Hg. }
    apply G; intros f Hf; exact Hf. }
  unfold fseries.
  assert (K : forall qs m, (forall p, In p qs -> In p ps) ->
    fold_left (fun v0 p => nadd v0 (fproduct (with_fsyn a v) p)) qs m = fold_left (fun v0 p => nadd v0 (fproduct a p)) qs m).
  { induction qs as [|q qs IH]; intros m Hin; [reflexivity |]; cbn [fold_left].
    rewrite P by (apply Hin; left; reflexivity); apply IH; intros g Hg; apply Hin; right; exact Hg. }
  apply K; intros p Hp; exact Hp.
Qed.
Lemma flearned_same : forall c t a b y post pre, fsame a b ->
  (forall ps y', fc_rule c y = Some ps -> reads_f ps y' -> f_syn a y' post pre = f_syn b y' post pre) ->
  f_syn a y post pre = f_syn b y post pre -> flearned c t a y post pre = flearned c t b y post pre.
Proof.
  intros c t a b y post pre Hs Hr Hv; unfold flearned.
  destruct (fc_rule c y) as [ps|] eqn:E; [|exact Hv].
  rewrite Hv; do 2 f_equal.
  set (A := fapplier_args c t b post pre).
  replace (fapplier_args c t a post pre) with (with_fsyn A (fun w => f_syn a w post pre)).
  - apply fseries_reads; intros y' Hy; apply (Hr ps); [reflexivity | exact Hy].
  - destruct Hs as (H1 & H2 & H3); destruct a, b; cbn in *; subst; reflexivity.
Qed.

(** the same in floating point, for synaptic variables that are stored at the synapse together with all those their rules read *)
Theorem learning_sparse_learns_as_dense_float_partial : forall c i st s0 n post pre (D : syn -> Prop), fc_sign c = Mixed ->
  (forall y ps p, fc_rule c y = Some ps -> In p ps -> plain p) ->
  (forall y ps y', D y -> fc_rule c y = Some ps -> reads_f ps y' -> D y') -> (forall y, D y -> st y post pre = true) ->
  forall y, D y -> f_syn (fsp_run c i st s0 n) y post pre = f_syn (frun c i s0 n) y post pre.
Proof.
  intros c i st s0 n post pre D _ _ HD Hst; induction n as [|n IH]; intros y Hy; [reflexivity |].
  cbn [fsp_run frun]; unfold fsp_step, fstep.
  destruct (lrn_guard (fc_epoch c) (Z.of_nat (S n))); [|apply IH, Hy].
  unfold fsp_learn_phase; cbn zeta; cbn [f_syn]; unfold fsp_learned; rewrite (Hst y Hy).
  unfold flearn_phase; cbn [f_syn].
  apply flearned_same; [apply fsame_spike, fsp_same | | apply IH, Hy].
  intros ps y' E R; apply IH, (HD y ps y' Hy E R).
Qed.
Theorem learning_sparse_no_new_synapses_float : forall c i st s0 n y post pre, st y post pre = false ->
  f_syn (fsp_run c i st s0 n) y post pre = f_syn s0 y post pre.
Proof.
  intros c i st s0 n y post pre Hst; induction n as [|n IH]; [reflexivity |].
  cbn [fsp_run]; unfold fsp_step.
  destruct (lrn_guard (fc_epoch c) (Z.of_nat (S n))); [|exact IH].
  unfold fsp_learn_phase; cbn zeta; cbn [f_syn]; unfold fsp_learned; rewrite Hst; exact IH.
Qed.
(** tags that are not given are never learned *)
Theorem learning_sparse_default_tags_never_learn : forall c i weights s0 n y post pre, y <> SWeights ->
  f_syn (fsp_run c i (stored_init weights (fun _ => None)) s0 n) y post pre = f_syn s0 y post pre.
Proof.
  intros c i weights s0 n y post pre Hy; apply learning_sparse_no_new_synapses_float.
  destruct y; [contradiction Hy; reflexivity | reflexivity | reflexivity].
Qed.

(** ** Examples and refutations *)
(* a connection of one synapse; weight 4, everything else 0 *)
Definition fone : fconn := {| f_tx := fun _ => 0; f_ty := fun _ => 0; f_tr := fun _ _ => Some 0%Q;
  f_syn := fun y _ _ => match y with SWeights => Some 4%Q | _ => Some 0%Q end |}.
Definition spikes_always : nat -> fstim := fun _ => {| f_in := fun _ => 1%Q; f_bap := fun _ => true |}.
Definition rule_tag : syn -> option string := fun y => match y with SWeights => Some "u0*t"%string | STag1 => Some "2*x0"%string | STag2 => None end.
Definition tr1 : trace -> ftrace := fun _ => {| f_decay := Some (1 # 2)%Q; f_impulse := 16%Q |}.
Definition cfg_tag : fcfg := {| fc_epoch := 1; fc_sign := Mixed; fc_graded := UseRegularImpulse; fc_trace := tr1;
  fc_rule := fun y => match y with
    | SWeights => Some [{| rp_dep := DU; rp_mant := 1; rp_exp := 7; rp_factors := [{| rf_var := VSyn STag1; rf_const := None; rf_sgn := false |}]; rp_decimate := Some 0 |}]
    | STag1 => Some [{| rp_dep := DX0; rp_mant := 2; rp_exp := 7; rp_factors := []; rp_decimate := None |}]
    | STag2 => None end;
  fc_decimate := Some 0 |}.
Definition default_tags : stored := stored_init (fun _ _ => 4) (fun _ => None).
(** a rule that accumulates a tag and moves it to the weight (dt = 2*x0, dw = u0*t), a spike in every step: LearningDense learns;
    LearningSparse does so if the tag is stored, but never with the tags of the default *)
Theorem learning_sparse_default_tags_refuted :
  (exists c, build 1 Mixed UseRegularImpulse tr1 rule_tag = Some c /\ forall y, fc_rule c y = fc_rule cfg_tag y) /\
  (forall y ps p, fc_rule cfg_tag y = Some ps -> In p ps -> plain p) /\
  (forall n, exists q, f_syn (fsp_run cfg_tag spikes_always default_tags fone n) SWeights 0%nat 0%nat = Some q /\ (q == 4)%Q) /\
  (exists q, f_syn (frun cfg_tag spikes_always fone 3) SWeights 0%nat 0%nat = Some q /\ (q == 10)%Q) /\
  (exists q, f_syn (fsp_run cfg_tag spikes_always (fun _ _ _ => true) fone 3) SWeights 0%nat 0%nat = Some q /\ (q == 10)%Q).
Proof.
  repeat apply conj.
  - destruct (build 1 Mixed UseRegularImpulse tr1 rule_tag) as [c|] eqn:E; [|vm_compute in E; discriminate E].
    exists c; split; [reflexivity |]; vm_compute in E; injection E as <-; intros []; reflexivity.
  - intros y ps p H Hp; destruct y; cbn in H; injection H as <- || discriminate H; destruct Hp as [<- | []].
    + right; split; [reflexivity |]; exists [], {| rf_var := VSyn STag1; rf_const := None; rf_sgn := false |}, [].
      repeat apply conj; try reflexivity; intros g [].
    + left; intros f z [].
  - induction n as [|n IH]; [exists 4%Q; split; reflexivity |].
    destruct IH as (q & Hq & H4).
    cbn [fsp_run]; unfold fsp_step.
    destruct (lrn_guard (fc_epoch cfg_tag) (Z.of_nat (S n))); [|exists q; split; assumption].
    unfold fsp_learn_phase; cbn zeta; cbn [f_syn]; unfold fsp_learned.
    change (default_tags SWeights 0%nat 0%nat) with true; cbn iota.
    unfold flearned; cbn [cfg_tag fc_rule fc_sign fsaturate].
    set (s := fspike_phase cfg_tag (Z.of_nat (S n)) (spikes_always (S n)) (fsp_run cfg_tag spikes_always default_tags fone n)).
    assert (W : f_syn s SWeights 0%nat 0%nat = Some q) by exact Hq.
    assert (T : f_syn s STag1 0%nat 0%nat = Some 0%Q) by (apply (learning_sparse_default_tags_never_learn cfg_tag spikes_always (fun _ _ => 4) fone n STag1 0%nat 0%nat); discriminate).
    rewrite W; unfold fseries; cbn [fold_left]; unfold fproduct; cbn [rp_factors rp_dep rp_mant rp_exp fold_left ffactor rf_var rf_const rf_sgn].
    cbn [fapplier_args fa_syn fa_dep]; rewrite T; cbn [nmul nadd].
    eexists; split; [reflexivity |]; rewrite H4; ring.
  - eexists; split; [vm_compute; reflexivity | reflexivity].
  - eexists; split; [vm_compute; reflexivity | reflexivity].
Qed.

(* fixed point: one synapse of weight [w] *)
Definition one (w : Z) : conn := {| tx := fun _ => 0; x1 := fun _ => 0; x2 := fun _ => 0; ty := fun _ => 0; y1 := fun _ => 0; y2 := fun _ => 0; y3 := fun _ => 0;
  syn_val := fun y _ _ => match y with SWeights => w | _ => 0 end |}.
Definition stim1 : nat -> stimulus := fun _ => {| s_in := fun _ => 1; s_bap := fun _ => true; r_post := 0; r_xd := 0; r_yd := 0; r_xi := 0; r_yi := 0; r_syn := 0 |}.
(* dw = 4*x0 *)
Definition cfg_fix : conn_cfg := {| t_epoch := 1; cfg_sign := Mixed; cfg_graded := UseRegularImpulse;
  cfg_trace := fun _ => {| imp_int := 16; imp_frac := 0; decay_fn := None |};
  cfg_rule := fun y => match y with SWeights => Some [{| p_dep := DX0; p_mant := 4; p_exp := 7; p_factors := [] |}] | _ => None end;
  cfg_decimate := None |}.
Example cfg_fix_ok : cfg_sign cfg_fix = Mixed /\ forall y ps, cfg_rule cfg_fix y = Some ps -> no_syn ps.
Proof. split; [reflexivity |]; intros [] ps H; try discriminate H; injection H as <-; intros p f y [<- | []] []. Qed.
(** a weight of 1 is truncated to 0 and never learned again; LearningDense learns it.  A weight of 6 is learned by both *)
Theorem learning_sparse_truncation_refuted :
  (forall n, syn_val (learning_sparse cfg_fix 8 stim1 (stored_init (fun _ _ => 1) (fun _ => None)) (one 1) n) SWeights 0%nat 0%nat = 0) /\
  syn_val (learning_dense cfg_fix 8 stim1 (one 1) 3) SWeights 0%nat 0%nat = 12 /\
  syn_val (learning_sparse cfg_fix 8 stim1 (stored_init (fun _ _ => 6) (fun _ => None)) (one 6) 3) SWeights 0%nat 0%nat = 18.
Proof.
  repeat apply conj; [|vm_compute; reflexivity | vm_compute; reflexivity].
  intros n; apply learning_sparse_truncated_weights_never_learn; reflexivity.
Qed.
