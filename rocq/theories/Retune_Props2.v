(** C95: instances and limits. *)
From Coq Require Import ZArith QArith Qround List Bool Ascii String Lia.
From Verif Require Import Bits_Model Learning_Model Learning_Props Rule_Model Rule_Spec FloatLearn_Model
  FloatLearn_Props RuleApply_Props Retune_Model Retune_Spec Retune_Proofs Retune_Props.
Import ListNotations.
Open Scope Z_scope.

Definition same_value {A} (v : A) : traces A := {| at_x1 := v; at_x2 := v; at_y1 := v; at_y2 := v; at_y3 := v |}.
Definition given (dw dd dt : option string) (imp tau : Q) : params :=
  {| p_text := {| at_w := dw; at_d := dd; at_t := dt |}; p_imp := same_value imp; p_tau := same_value tau |}.
Definition halve (tau : Q) : Q := (1 # 2)%Q.                 (* stands for exp(-1/tau) *)
Definition both_spike : fstim := {| f_in := fun _ => 1%Q; f_bap := fun _ => true |}.
Definition fexec := exec_all float_cast applier_builds fconn fstim (float_step halve Mixed UseRegularImpulse).
Definition val (v : num) (q : Q) : bool := match v with Some x => Qeq_bool x q | None => false end.
Lemma val_is v q : val v q = true -> value_is v q.
Proof. destruct v as [x|]; [|discriminate]. intro H. exists x. split; [reflexivity|now apply Qeq_bool_iff]. Qed.
Lemma two_runs {A B} (x : option A) (f : A -> option B) (P : B -> bool) :
  match x with Some a => match f a with Some b => P b | None => false end | None => false end = true ->
  exists a b, x = Some a /\ f a = Some b /\ P b = true.
Proof. destruct x as [a|]; [|discriminate]. destruct (f a) as [b|] eqn:E; [|discriminate]. intro H. exists a, b. auto. Qed.
(** dw = x0*y1: in the first epoch y1 = 0 + 16; then the rule becomes dw = -2*x0*x1 and the impulse 8; then the weights are
    set to 100 *)
Example retuning_demo : exists m0 m, start float_cast applier_builds fconn 1 (given (Some "x0*y1"%string) None None 16%Q 5%Q) (resting 0) = Some m0 /\
  fexec m0 [Step both_spike; SetRule SWeights "-2*x0*x1"%string; SetImpulse TX1 8%Q; Step both_spike;
            SetState (fun s => {| f_tx := f_tx s; f_ty := f_ty s; f_tr := f_tr s; f_syn := fun _ _ _ => Some 100%Q |}); Step both_spike] = Some m /\
  m_time m = 3 /\ get_target (p_text (m_vars m)) SWeights = Some "-2*x0*x1"%string /\
  value_is (f_syn (m_state m) SWeights 0%nat 0%nat) 68 /\ value_is (f_tr (m_state m) TX1 0%nat) 16.
Proof.
  match goal with |- exists m0 m, ?x = Some m0 /\ fexec m0 ?l = Some m /\ _ =>
    destruct (two_runs x (fun m => fexec m l) (fun m => (m_time m =? 3) &&
      match get_target (p_text (m_vars m)) SWeights with Some t => String.eqb t "-2*x0*x1"%string | None => false end &&
      val (f_syn (m_state m) SWeights 0%nat 0%nat) 68 && val (f_tr (m_state m) TX1 0%nat) 16)) as (a & b & A & B & P) end.
  - vm_compute. reflexivity.
  - exists a, b. apply andb_true_iff in P. destruct P as (P & P4). apply andb_true_iff in P. destruct P as (P & P3).
    apply andb_true_iff in P. destruct P as (P1 & P2). split; [exact A|]. split; [exact B|]. split; [now apply Z.eqb_eq|].
    split; [|split; now apply val_is]. destruct (get_target _ _); [|discriminate P2]. apply String.eqb_eq in P2. now subst.
Qed.
(** a new rule, set after the first of two steps of an epoch, is applied to both *)
Definition silence : fstim := {| f_in := fun _ => 0%Q; f_bap := fun _ => false |}.
Example late_change_demo : exists m0 m, start float_cast applier_builds fconn 2 (given (Some "x0*y1"%string) None None 16%Q 5%Q) (resting 0) = Some m0 /\
  fexec m0 [Step both_spike; SetRule SWeights "y0*4"%string; Step silence] = Some m /\
  retunes_late (ST := fconn) (STIM := fstim) (SetRule SWeights "y0*4"%string) /\ (m_time m0 + 1 + Z.of_nat 0) mod 2 <> 0 /\
  value_is (f_syn (m_state m) SWeights 0%nat 0%nat) 4.
Proof.
  match goal with |- exists m0 m, ?x = Some m0 /\ fexec m0 ?l = Some m /\ _ =>
    destruct (two_runs x (fun m => fexec m l) (fun m => val (f_syn (m_state m) SWeights 0%nat 0%nat) 4)) as (a & b & A & B & P) end.
  - vm_compute. reflexivity.
  - exists a, b. split; [exact A|]. split; [exact B|]. split; [exact I|]. split; [|now apply val_is].
    destruct (start_spec _ _ _ _ _ _ _ A) as (_ & _ & _ & -> & _). discriminate.
Qed.

(** ** Limits *)
(** what one would expect: setting the weights leaves the parameters of learning alone *)
Definition setting_weights_keeps_parameters (cast : Q -> Q) (applier_ok : list rproduct -> bool) : Prop :=
  forall ST STIM (step : settings -> Z -> STIM -> ST -> ST) e p s m, start cast applier_ok ST e p s = Some m ->
  forall f m', exec cast applier_ok ST STIM step m (SetState f) = Some m' -> reads m' = reads m.
Theorem float_setting_weights_keeps_parameters : setting_weights_keeps_parameters float_cast applier_builds.
Proof.
  intros ST STIM step e p s m E f m' X. destruct (start_spec float_cast applier_builds ST e p s m E) as (C & F & _ & _ & V).
  pose proof (set_spec float_cast applier_builds ST STIM step e m (SetState f) C eq_refl) as K. rewrite X in K. destruct K as (q & K1 & _ & K3 & _).
  cbn [change] in K1. injection K1 as <-. rewrite V in K3. destruct p as [x [i1 i2 i3 i4 i5] [u1 u2 u3 u4 u5]].
  unfold cast_all, float_cast in K3. cbn [p_text p_imp p_tau at_x1 at_x2 at_y1 at_y2 at_y3] in K3. congruence.
Qed.
(** it fails for fixed-point connections: an impulse of 16.5 becomes 16 when the weights are set *)
Definition fxstep := fixed_step (fun _ => inject_Z) Mixed UseRegularImpulse.
Definition fxspike : stimulus := {| s_in := fun _ => 1; s_bap := fun _ => true; r_post := 0; r_xd := 0%Q; r_yd := 0%Q; r_xi := 0; r_yi := 0; r_syn := 0%Q |}.
Theorem fixed_setting_weights_keeps_parameters_refuted : ~ setting_weights_keeps_parameters fixed_cast fixed_applier_ok.
Proof.
  intros H.
  assert (A : exists m m', start fixed_cast fixed_applier_ok unit 1 (given (Some "x0*y1"%string) None None (33 # 2) 5%Q) tt = Some m /\
    exec fixed_cast fixed_applier_ok unit unit (fun _ _ _ s => s) m (SetState (fun s => s)) = Some m' /\ reads m' <> reads m).
  { eexists. eexists. split; [vm_compute; reflexivity|]. split; [vm_compute; reflexivity|]. vm_compute. discriminate. }
  destruct A as (m & m' & A1 & A2 & A3). apply A3. exact (H _ _ _ _ _ _ _ A1 _ _ A2).
Qed.
(** ... with an effect on the traces: with this random number the spike adds 17 to x1, after setting the weights 16 *)
Theorem setting_weights_changes_traces : exists m0 a b,
  start fixed_cast fixed_applier_ok conn 1 (given (Some "x0*y1"%string) None None (33 # 2) 5%Q) (rest (fun _ => 0)) = Some m0 /\
  exec_all fixed_cast fixed_applier_ok conn stimulus fxstep m0 [Step fxspike] = Some a /\
  exec_all fixed_cast fixed_applier_ok conn stimulus fxstep m0 [SetState (fun s => s); Step fxspike] = Some b /\
  x1 (m_state a) 0%nat = 17 /\ x1 (m_state b) 0%nat = 16.
Proof.
  match goal with |- exists m0 a b, ?x = Some m0 /\ exec_all _ _ _ _ _ m0 ?l = Some a /\ exec_all _ _ _ _ _ m0 ?k = Some b /\ _ =>
    destruct (two_runs x (fun m => exec_all fixed_cast fixed_applier_ok conn stimulus fxstep m l) (fun m => x1 (m_state m) 0%nat =? 17)) as (m & a & A & B & P);
    [vm_compute; reflexivity|];
    destruct (two_runs x (fun m => exec_all fixed_cast fixed_applier_ok conn stimulus fxstep m k) (fun m => x1 (m_state m) 0%nat =? 16)) as (m' & b & A' & B' & P');
    [vm_compute; reflexivity|] end.
  rewrite A in A'. injection A' as <-. exists m, a, b. split; [exact A|]. split; [exact B|]. split; [exact B'|]. split; now apply Z.eqb_eq.
Qed.
(** integer parameters are representable, so [retuned_connection_follows_its_parameters] applies to them *)
Theorem integers_fit : forall x imp tau, (forall tr, Qden (get_trace imp tr) = 1%positive /\ Qden (get_trace tau tr) = 1%positive) ->
  fits_vars fixed_cast {| p_text := x; p_imp := imp; p_tau := tau |}.
Proof.
  intros x imp tau H tr. cbn [p_imp p_tau]. destruct (H tr) as (A & B).
  assert (K : forall q, Qden q = 1%positive -> fixed_cast q = q).
  { intros [n d] Hd. cbn in Hd. subst d. unfold fixed_cast. cbn [Qnum Qden]. rewrite Z.quot_1_r. reflexivity. }
  split; apply K; assumption.
Qed.

(** what one would expect: any two sets of parameters a connection can be created with, with the same rules present, can be
    reached from each other by setting the Vars that differ, in some order *)
Definition can_be_retuned : Prop := forall p q,
  (exists c, proper applier_builds 1 p c) -> (exists c, proper applier_builds 1 q c) ->
  (forall y, get_target (p_text p) y = None <-> get_target (p_text q) y = None) ->
  forall m0 s, start float_cast applier_builds fconn 1 p s = Some m0 ->
  exists l : list (syn * string), (forall y t, In (y, t) l -> get_target (p_text q) y = Some t) /\
  exists m, fexec m0 (map (fun yt => SetRule (fst yt) (snd yt)) l) = Some m /\ p_text (m_vars m) = p_text q.
Definition period1 : params := given (Some "u1*x1"%string) (Some "u1*y1"%string) None 16%Q 5%Q.
Definition period2 : params := given (Some "u2*x1"%string) (Some "u2*y1"%string) None 16%Q 5%Q.
Definition p_start (p : params) := start float_cast applier_builds fconn 1 p (resting 0).
Lemma proper_of p : match p_start p with Some _ => true | None => false end = true -> exists c, proper applier_builds 1 p c.
Proof.
  intro H. apply (proj1 (proj1 (connection_created_iff float_cast applier_builds fconn 1 p (resting 0)))).
  unfold p_start in H. destruct (start _ _ _ _ _ _); [discriminate|discriminate H].
Qed.
Definition refuses (p : params) (y : syn) (t : string) : bool :=
  match p_start p with Some m => match fexec m [SetRule y t] with Some _ => false | None => true end | None => false end.
Theorem can_be_retuned_refuted : ~ can_be_retuned.
Proof.
  intros H. destruct (p_start period1) as [m0|] eqn:E0.
  2: { assert (match p_start period1 with Some _ => true | None => false end = true) as X by (vm_compute; reflexivity). rewrite E0 in X. discriminate X. }
  destruct (H period1 period2) with (m0 := m0) (s := resting 0) as (l & Hl & m & Em & Ht).
  - apply proper_of. vm_compute. reflexivity.
  - apply proper_of. vm_compute. reflexivity.
  - intros []; split; intro X; discriminate X || reflexivity.
  - exact E0.
  - destruct l as [|(y & t) l].
    + unfold fexec in Em. cbn [map exec_all] in Em. injection Em as <-.
      destruct (start_spec _ _ _ _ _ _ _ E0) as (_ & _ & _ & _ & V). rewrite V in Ht. discriminate Ht.
    + pose proof (Hl y t (or_introl eq_refl)) as Hy. unfold fexec in Em. cbn [map fst snd exec_all] in Em.
      assert (R : refuses period1 y t = true).
      { destruct y; cbn in Hy; try discriminate Hy; injection Hy as <-; vm_compute; reflexivity. }
      unfold refuses in R. rewrite E0 in R. unfold fexec in R. cbn [exec_all] in R.
      destruct (exec _ _ _ _ _ m0 (SetRule y t)); [cbn [obind] in R; discriminate R|discriminate Em].
Qed.
(** a detour through rules without a period works *)
Example period_detour : exists m0 m, p_start period1 = Some m0 /\
  fexec m0 [SetRule SWeights "x0"%string; SetRule STag2 "u2*y1"%string; SetRule SWeights "u2*x1"%string] = Some m /\
  p_text (m_vars m) = p_text period2 /\ st_dec (reads m) = Some 2.
Proof.
  match goal with |- exists m0 m, ?x = Some m0 /\ fexec m0 ?l = Some m /\ _ =>
    destruct (two_runs x (fun m => fexec m l) (fun m =>
      match p_text (m_vars m), st_dec (reads m) with
      | {| at_w := Some w; at_d := Some d; at_t := None |}, Some k => String.eqb w "u2*x1"%string && String.eqb d "u2*y1"%string && (k =? 2)
      | _, _ => false end)) as (a & b & A & B & P) end.
  - vm_compute. reflexivity.
  - exists a, b. split; [exact A|]. split; [exact B|]. destruct (p_text (m_vars b)) as [[w|] [d|] [t|]]; try discriminate P.
    destruct (st_dec (reads b)) as [k|]; [|discriminate P]. apply andb_true_iff in P. destruct P as (P & P3). apply andb_true_iff in P. destruct P as (P1 & P2).
    apply String.eqb_eq in P1, P2. apply Z.eqb_eq in P3. subst. split; reflexivity.
Qed.
(** a rule can neither be added nor removed: a Var without a rule cannot be set (it ends the process), and no value removes one *)
Theorem rules_cannot_be_added : forall cast applier_ok ST STIM step m y s, get_target (p_text (m_vars m)) y = None ->
  exec cast applier_ok ST STIM step m (SetRule y s) = None.
Proof. intros cast aok ST STIM step m y s H. cbn [exec]. now rewrite H. Qed.
Theorem rules_cannot_be_removed : forall cast applier_ok ST STIM step e p s m, start cast applier_ok ST e p s = Some m ->
  forall l m', exec_all cast applier_ok ST STIM step m l = Some m' ->
  forall y, get_target (p_text (m_vars m')) y = None <-> get_target (p_text p) y = None.
Proof.
  intros cast aok ST STIM step e p s m E l m' L y. destruct (start_spec cast aok ST e p s m E) as (C & _ & _ & _ & V).
  assert (P : get_target (p_text (m_vars m)) y = get_target (p_text p) y) by (now rewrite V). rewrite <- P. clear P V E.
  revert m C L. induction l as [|h l IH]; intros m C L; cbn [exec_all] in L; [injection L as <-; tauto|].
  destruct (exec cast aok ST STIM step m h) as [m1|] eqn:E1; [|discriminate L]. cbn [obind] in L.
  rewrite (IH m1 (exec_coherent cast aok ST STIM step e m h m1 C E1) L). destruct (is_set h) eqn:Eh.
  - pose proof (set_spec cast aok ST STIM step e m h C Eh) as K. rewrite E1 in K. destruct K as (q & K1 & _ & _ & -> & _).
    destruct h as [i|z t|tr v|tr v|f]; cbn [change] in K1; try discriminate Eh; try (injection K1 as <-; reflexivity).
    destruct (get_target (p_text (m_vars m)) z) eqn:Ez; [|discriminate K1]. injection K1 as <-. cbn [p_text].
    destruct y, z; cbn [get_target put_target at_w at_d at_t] in *; try reflexivity; (split; intro X; [discriminate X|congruence]).
  - destruct h; try discriminate Eh. cbn [exec] in E1. injection E1 as <-. reflexivity.
Qed.
