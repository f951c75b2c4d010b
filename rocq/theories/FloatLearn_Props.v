(** C83: floating-point learning connections follow their rules. *)
From Coq Require Import ZArith QArith Qpower Qabs Qminmax List Bool Ascii String Lia Lqa.
From Verif Require Import Bits_Model Learning_Model Learning_Props Rule_Model Rule_Spec Rule_Proofs Rule_Props Rule_Props2 RuleApply_Props
  RuleSpaces_Props FloatLearn_Model FloatLearn_Spec FloatLearn_Proofs.
Import ListNotations.
Open Scope Z_scope.

(** ** Which rules can be used *)
(** A rule that compiles can be used by a floating-point connection exactly if x0 and y0 occur in it only as the first
    event of a product; others raise an exception when the ProcessModel is built. *)
Theorem float_rule_usable_iff : forall s r, wf_rule r -> writes s r ->
  forall ps k, compile s = Some (ps, k) -> (applier_builds ps = true <-> reads_event r = false).
Proof.
  intros s r Hw Hwr ps k E. rewrite (compile_rule s r Hw Hwr) in E.
  rewrite (products_event_factors r None ps k (proj1 (proj2 Hw)) E). now rewrite negb_true_iff.
Qed.
(** x0*y0 is a legal rule: the fixed-point connection runs it, the floating-point connection refuses it *)
Theorem float_refuses_coincidence : exists r ps, wf_rule r /\ writes "x0*y0" r /\ compile "x0*y0" = Some (ps, None) /\
  to_products ps <> None /\
  forall e m g tr, build e m g tr (fun y => match y with SWeights => Some "x0*y0"%string | _ => None end) = None.
Proof.
  exists [{| t_sign := NoSign; t_atoms := [AEvent Pre; AEvent Post] |}]. eexists. split; [|split; [|split; [|split]]].
  - split; [discriminate|]. split; [|constructor]. constructor; [|constructor]. split; [discriminate|]. repeat constructor.
  - vm_compute. reflexivity.
  - vm_compute. reflexivity.
  - vm_compute. discriminate.
  - intros. vm_compute. reflexivity.
Qed.

(** ** The rules of a connection *)
(** the strings of dw, dd and dt write these rules, with no space between u and its number (C65, [spaced_period_lost]) *)
Definition texts_of (text : syn -> option string) (rules : syn -> option rule) : Prop :=
  forall y, match rules y, text y with
    | Some r, Some s => wf_rule r /\ small r /\ writes s r /\ tight (list_ascii_of_string s)
    | None, None => True
    | _, _ => False
    end.
Definition active_list {A} (f : syn -> option A) : list A :=
  flat_map (fun y => match f y with Some s => [s] | None => [] end) [SWeights; STag2; STag1].
Lemma active_list_in {A} (f : syn -> option A) x : In x (active_list f) <-> exists y, f y = Some x.
Proof.
  unfold active_list. rewrite in_flat_map. split.
  - intros (y & _ & H). destruct (f y) eqn:E; [|destruct H]. destruct H as [<-|[]]. exists y. exact E.
  - intros (y & E). exists y. split; [destruct y; cbn; tauto|]. rewrite E. left. reflexivity.
Qed.
Lemma texts_active text rules : texts_of text rules ->
  Forall wf_rule (active_list rules) /\ Forall2 writes (active_list text) (active_list rules) /\
  Forall (fun s => tight (list_ascii_of_string s)) (active_list text).
Proof.
  intros H. unfold active_list. induction [SWeights; STag2; STag1] as [|y l (IH1 & IH2 & IH3)]; [split; [constructor|split; constructor]|].
  cbn [flat_map]. specialize (H y). destruct (rules y) as [r|], (text y) as [s|]; try contradiction; [|split; [assumption|split; assumption]].
  destruct H as (H1 & H2 & H3 & H4). cbn [List.app]. split; [|split]; constructor; assumption.
Qed.
(** what the constructor has checked and made *)
Lemma built e m g tr text c : build e m g tr text = Some c ->
  fc_epoch c = e /\ fc_sign c = m /\ fc_graded c = g /\ fc_trace c = tr /\ validate_uk (active_list text) = Some (fc_decimate c) /\
  forall y, match text y with
    | None => fc_rule c y = None
    | Some s => exists ps k, compile s = Some (ps, k) /\ applier_builds ps = true /\ fc_rule c y = Some ps
    end.
Proof.
  unfold build. fold (active_list text). destruct (Nat.eqb _ _); [discriminate|].
  destruct (validate_uk (active_list text)) as [k|]; [|discriminate].
  assert (forall s x, build_rule s = Some x -> match s with None => x = None | Some s => exists ps k, compile s = Some (ps, k) /\ applier_builds ps = true /\ x = Some ps end) as B.
  { intros [s|] x H; cbn [build_rule] in H; [|congruence]. destruct (compile s) as [[ps k']|]; [|discriminate].
    destruct (applier_builds ps) eqn:E; [|discriminate]. exists ps, k'. split; [reflexivity|]. split; [exact E|congruence]. }
  destruct (build_rule (text SWeights)) as [w|] eqn:E1; [|discriminate]. destruct (build_rule (text STag2)) as [d|] eqn:E2; [|discriminate].
  destruct (build_rule (text STag1)) as [t|] eqn:E3; [|discriminate]. intros H. injection H as <-. cbn [fc_epoch fc_sign fc_graded fc_trace fc_decimate].
  do 5 (split; [reflexivity|]). intros y. cbn [fc_rule]. destruct y; apply B; assumption.
Qed.

(** ** Synaptic variables *)
Definition params_of (c : fcfg) (rules : syn -> option rule) : params :=
  {| epoch := Z.to_nat (fc_epoch c); signs := fc_sign c;
     decay_of := fun tr => match f_decay (fc_trace c tr) with Some d => d | None => 0%Q end;
     impulse_of := fun tr => f_impulse (fc_trace c tr); rule_of := rules |}.
(** in epoch k = 1, 2, ... the neuron spikes in step j = 1..e *)
Definition pre_train (e : nat) (i : nat -> fstim) (k m j : nat) : bool := nonzero (f_in (i ((k - 1) * e + j)%nat) m).
Definition post_train (e : nat) (i : nat -> fstim) (k m j : nat) : bool := f_bap (i ((k - 1) * e + j)%nat) m.

Section Run.
Variables (e : nat) (m : sign_mode) (tr : trace -> ftrace) (text : syn -> option string) (rules : syn -> option rule) (c : fcfg)
  (i : nat -> fstim) (s0 : fconn) (st0 : istate).
Hypothesis (He : (0 < e)%nat) (Ht : texts_of text rules) (Hb : build (Z.of_nat e) m UseRegularImpulse tr text = Some c).
Hypothesis (Hdec : forall y r v, rules y = Some r -> refers r (trace_var v) -> f_decay (tr v) <> None).
Hypothesis (Hx0 : forall n, f_tx s0 n = 0) (Hy0 : forall n, f_ty s0 n = 0).
Hypothesis (Htr0 : forall v n, f_tr s0 v n = Some (i_trace st0 v n)) (Hsyn0 : forall y a b, f_syn s0 y a b = Some (i_syn st0 y a b)).
Hypothesis (Hpre : forall k n, (spike_count (pre_train e i k n) e <= 1)%nat) (Hpost : forall k n, (spike_count (post_train e i k n) e <= 1)%nat).
Let p := params_of c rules.
Let ideal := ideal_run p (pre_train e i) (post_train e i) st0.
Definition follows (n : nat) : Prop :=
  (forall k, f_tx (frun c i s0 (n * e)) k = 0) /\ (forall k, f_ty (frun c i s0 (n * e)) k = 0) /\
  (forall v k, f_decay (tr v) <> None -> exists q, f_tr (frun c i s0 (n * e)) v k = Some q /\ (q == i_trace (ideal n) v k)%Q) /\
  (forall y a b, exists q, f_syn (frun c i s0 (n * e)) y a b = Some q /\ (q == i_syn (ideal n) y a b)%Q).

Lemma p_epoch : epoch p = e.
Proof. unfold p, params_of. cbn [epoch]. rewrite (proj1 (built _ _ _ _ _ _ Hb)). apply Nat2Z.id. Qed.
Lemma follows_step n : follows n -> follows (S n).
Proof.
  intros (F1 & F2 & F3 & F4). destruct (built _ _ _ _ _ _ Hb) as (B1 & B2 & B3 & B4 & B5 & B6).
  unfold follows. rewrite (epoch_end c i s0 e He B1 n). set (s := frun c i s0 (n * e)) in *.
  set (s' := spikes_from c i e s n e). pose proof p_epoch as Ep.
  assert (forall v k, neuron_spk i e n v k = (if presynaptic v then pre_train e i (S n) k else post_train e i (S n) k)) as N.
  { intros v k. unfold neuron_spk, pre_spk, post_spk, pre_train, post_train. replace (S n - 1)%nat with n by lia. reflexivity. }
  assert (forall v k, (spike_count (neuron_spk i e n v k) e <= 1)%nat) as N1 by (intros v k; rewrite N; destruct (presynaptic v); auto).
  (* traces at any time of the epoch *)
  assert (forall v k t, f_decay (tr v) <> None -> (t <= e)%nat -> exists q, fhist c s' v k t = Some q /\
    (q == trace_at (decay_of p v) (impulse_of p v) (if presynaptic v then pre_train e i (S n) k else post_train e i (S n) k) (i_trace (ideal n) v k) t)%Q) as Tr.
  { intros v k t Hv Hle. destruct (F3 v k Hv) as (q0 & E0 & Q0). destruct (f_decay (tr v)) as [d|] eqn:Ed; [|congruence].
    assert (f_decay (fc_trace c v) = Some d) as Ed' by (rewrite B4; exact Ed).
    destruct (epoch_history_once c i e He B1 s n F1 F2 k v d q0 t B3 E0 Ed' (N1 v k) Hle) as (q & E & Q).
    exists q. split; [exact E|]. rewrite Q, N. unfold p, params_of. cbn [decay_of impulse_of]. rewrite Ed'. apply trace_at_compat. exact Q0. }
  split; [reflexivity|]. split; [reflexivity|]. split.
  { intros v k Hv. cbn [flearn_phase f_tr]. rewrite B1, Nat2Z.id. destruct (Tr v k e Hv ltac:(lia)) as (q & E & Q).
    exists q. split; [exact E|]. rewrite Q. unfold ideal. cbn [ideal_run]. fold ideal. unfold ideal_epoch. cbn [i_trace]. rewrite Ep.
    destruct (presynaptic v); reflexivity. }
  intros y post pre. cbn [flearn_phase f_syn]. unfold flearned.
  assert (f_syn s' = f_syn s) as Sy by apply spikes_syn.
  assert (f_tx s' pre = Z.of_nat (last_spike (pre_train e i (S n) pre) e)) as Tx.
  { unfold s'. rewrite (spikes_tx c i e He B1 s n F1 pre e (le_n _)). specialize (N TX1 pre). cbn [presynaptic] in N.
    unfold neuron_spk in N. cbn [presynaptic] in N. rewrite N. reflexivity. }
  assert (f_ty s' post = Z.of_nat (last_spike (post_train e i (S n) post) e)) as Ty.
  { unfold s'. rewrite (spikes_ty c i e He B1 s n F2 post e (le_n _)). specialize (N TY1 post). cbn [presynaptic] in N.
    unfold neuron_spk in N. cbn [presynaptic] in N. rewrite N. reflexivity. }
  destruct (F4 y post pre) as (w & Ew & Qw). rewrite Sy, Ew. unfold ideal. cbn [ideal_run]. fold ideal.
  unfold ideal_epoch. cbn [i_syn]. change (rule_of p y) with (rules y).
  pose proof (Ht y) as Hy. specialize (B6 y). destruct (rules y) as [r|] eqn:Er, (text y) as [str|]; try contradiction.
  2:{ rewrite B6. exists w. split; [reflexivity|exact Qw]. }
  destruct Hy as (W1 & W2 & W3 & W4). destruct B6 as (ps & k & C1 & C2 & ->).
  set (rho := epoch_facts p (S n) (pre_train e i (S n)) (post_train e i (S n)) (ideal n) post pre).
  set (t := Z.of_nat (S n * e)). set (a := fapplier_args c t s' post pre).
  (* the environment of the compiled form: every u is the u of the connection *)
  set (rho_u := {| occurs := fun ev => match ev with Periodic _ => fu c t | ev => occurs rho ev end; at_event := at_event rho |}).
  assert (t / fc_epoch c = Z.of_nat (S n)) as Tn by (unfold t; rewrite B1, Nat2Z.inj_mul; apply Z.div_mul; lia).
  assert (fu c t == 0 \/ fu c t == 1)%Q as U by (unfold fu; destruct (fc_decimate c); [destruct (_ =? 0)|]; auto with qarith).
  assert (forall p0, fa_dep a (rp_dep p0) = occurs rho_u (product_event p0)) as Dep.
  { intros p0. unfold product_event, a, rho_u, rho. cbn [fa_dep fapplier_args occurs]. destruct (rp_dep p0).
    - cbn [epoch_facts occurs]. rewrite Tx, Ep, spiked_count.
      destruct (Z.ltb_spec 0 (Z.of_nat (last_spike (pre_train e i (S n) pre) e))) as [L|L];
        destruct (Nat.eqb_spec (spike_count (pre_train e i (S n) pre) e) 0) as [Z0|Z0]; try reflexivity; exfalso;
        [apply last_count in Z0; lia|apply Z0, last_count; lia].
    - cbn [epoch_facts occurs]. rewrite Ty, Ep, spiked_count.
      destruct (Z.ltb_spec 0 (Z.of_nat (last_spike (post_train e i (S n) post) e))) as [L|L];
        destruct (Nat.eqb_spec (spike_count (post_train e i (S n) post) e) 0) as [Z0|Z0]; try reflexivity; exfalso;
        [apply last_count in Z0; lia|apply Z0, last_count; lia].
    - reflexivity. }
  assert (forall z, exists q, fa_syn a z = Some q /\ forall ev, (q == state_value rho_u ev (VSyn z))%Q) as Sn.
  { intros z. destruct (F4 z post pre) as (q & E & Q). exists q. unfold a. cbn [fa_syn fapplier_args]. rewrite Sy. split; [exact E|].
    intros ev. destruct z; exact Q. }
  assert (forall p0, In p0 ps -> evaluable a rho_u p0) as Ev.
  { intros p0 Hp f Hf. unfold applier_builds in C2. rewrite forallb_forall in C2. specialize (C2 p0 Hp). rewrite forallb_forall in C2.
    pose proof C1 as C1'. rewrite (compile_rule str r W1 W3) in C1'.
    split; [exact (C2 f Hf)|]. split; [exact (products_noconst r None ps k (proj1 (proj2 W1)) C1' p0 f Hp Hf)|].
    intros v Hv. assert (refers r (trace_var v)) as Rf.
    { destruct (proj1 (active_traces_exact [str] [r] [ps] (Forall_cons _ W1 (Forall_nil _)) (Forall2_cons _ _ W3 (Forall2_nil _))
        (Forall2_cons _ _ (ex_intro _ k C1) (Forall2_nil _)) (rp_dep p0) v)) as (r' & t' & e' & [<-|[]] & T1 & _ & _ & T2).
      - unfold active. cbn [existsb]. rewrite orb_false_r. apply existsb_exists. exists p0. split; [exact Hp|].
        apply andb_true_iff. split; [now apply dep_eqb_spec|]. apply existsb_exists. exists f. split; [exact Hf|]. rewrite Hv. now apply trace_eqb_spec.
      - exists t'. split; assumption. }
    assert (f_decay (tr v) <> None) as Dv by (eapply Hdec; eauto).
    unfold a. cbn [fa_trace fapplier_args]. unfold fevaluated.
    assert (exists q, fhist c s' v (match v with TX1 | TX2 => pre | _ => post end)
      (match rp_dep p0 with DX0 => last_spike (pre_train e i (S n) pre) e | DY0 => last_spike (post_train e i (S n) post) e | DU => e end) = Some q /\
      (q == state_value rho_u (product_event p0) (VTrace v))%Q) as (q & E & Q).
    { destruct (Tr v (match v with TX1 | TX2 => pre | _ => post end)
        (match rp_dep p0 with DX0 => last_spike (pre_train e i (S n) pre) e | DY0 => last_spike (post_train e i (S n) post) e | DU => e end) Dv) as (q & E & Q).
      - destruct (rp_dep p0); [apply last_spike_le|apply last_spike_le|lia].
      - exists q. split; [exact E|]. rewrite Q. unfold product_event, rho_u, rho, epoch_facts, state_value. cbn [at_event]. rewrite Ep.
        destruct v, (rp_dep p0); reflexivity. }
    exists q. split; [|exact Q]. rewrite <- E. rewrite Tx, Ty, B1. destruct (rp_dep p0); rewrite ?Nat2Z.id; reflexivity. }
  destruct (fseries_value a rho_u Dep Sn ps Ev) as (q & Eq & Qq). rewrite Eq. cbn [nadd].
  assert (q == rule_value rho r)%Q as Qr.
  { rewrite Qq. destruct (rule_means_what_it_says_partial str r W1 W2 W3 ps k C1) as [_ M]. rewrite M.
    - apply agree_rule; try reflexivity. intros x kk Hx Hkk. unfold rho_u. cbn [occurs]. unfold fu, rho. cbn [epoch_facts occurs].
      assert (fc_decimate c = Some (Z.of_nat kk)) as ->; [|rewrite Tn; reflexivity].
      destruct (texts_active text rules Ht) as (A1 & A2 & A3).
      pose proof (learning_rule_period_spaces (active_list rules) (active_list text) A1 A2 A3) as P. cbn zeta in P. destruct P as (P1 & P2 & P3).
      assert (In kk (flat_map all_periods (active_list rules))) as Ik.
      { apply in_flat_map. exists r. split; [apply active_list_in; exists y; exact Er|]. apply in_flat_map. exists x. split; assumption. }
      assert (validate_uk (active_list text) = Some (Some (Z.of_nat kk))) as V; [|rewrite B5 in V; congruence].
      apply P3. split; [exact Ik|]. intros k' Hk'. destruct (Nat.eq_dec k' kk) as [E'|N']; [exact E'|]. exfalso.
      assert (validate_uk (active_list text) = None) as V by (apply P1; exists k', kk; auto). rewrite B5 in V. discriminate.
    - intros ev. destruct ev; cbn [occurs rho_u]; [| |exact U].
      + unfold rho. cbn [epoch_facts occurs]. destruct (spiked _ _); auto with qarith.
      + unfold rho. cbn [epoch_facts occurs]. destruct (spiked _ _); auto with qarith. }
  rewrite <- B2 in *. change (signs p) with (fc_sign c).
  assert (w + q == i_syn (ideal n) y post pre + rule_value rho r)%Q as S by (rewrite Qw, Qr; reflexivity).
  destruct y; cbn [fsaturate keep_sign]; try destruct (fc_sign c); cbn [nmap]; eexists; (split; [reflexivity|]); rewrite S; reflexivity.
Qed.
Lemma follows_all n : follows n.
Proof.
  induction n as [|n IH]; [|apply follows_step, IH]. split; [exact Hx0|]. split; [exact Hy0|]. split.
  - intros v k _. exists (i_trace st0 v k). split; [apply Htr0|reflexivity].
  - intros y a b. exists (i_syn st0 y a b). split; [apply Hsyn0|reflexivity].
Qed.
End Run.

(** A two-factor floating-point connection built from the texts of its rules, none of which refers to a trace with time
    constant 0, in exact arithmetic, with regular impulses: if no neuron spikes more than once in an epoch, then after any
    number of time steps every synaptic variable has the value that the rules prescribe for the completed epochs. *)
Theorem float_learning_follows_equations_partial : forall e m tr text rules c i s0 st0,
  (0 < e)%nat -> texts_of text rules -> build (Z.of_nat e) m UseRegularImpulse tr text = Some c ->
  (forall y r v, rules y = Some r -> refers r (trace_var v) -> f_decay (tr v) <> None) ->
  (forall n, f_tx s0 n = 0) -> (forall n, f_ty s0 n = 0) ->
  (forall v n, f_tr s0 v n = Some (i_trace st0 v n)) -> (forall y a b, f_syn s0 y a b = Some (i_syn st0 y a b)) ->
  (forall k n, (spike_count (pre_train e i k n) e <= 1)%nat) -> (forall k n, (spike_count (post_train e i k n) e <= 1)%nat) ->
  let p := {| epoch := e; signs := m; decay_of := fun v => match f_decay (tr v) with Some d => d | None => 0%Q end;
              impulse_of := fun v => f_impulse (tr v); rule_of := rules |} in
  forall n y post pre, exists q, f_syn (frun c i s0 n) y post pre = Some q /\
    (q == i_syn (ideal_run p (pre_train e i) (post_train e i) st0 (n / e)) y post pre)%Q.
Proof.
  intros e m tr text rules c i s0 st0 He Ht Hb Hd Hx Hy Htr Hs Hp Hq p n y post pre.
  destruct (built _ _ _ _ _ _ Hb) as (B1 & B2 & B3 & B4 & B5 & B6).
  assert (p = params_of c rules) as -> by (unfold p, params_of; rewrite B1, B2, B4, Nat2Z.id; reflexivity).
  destruct (follows_all e m tr text rules c i s0 st0 He Ht Hb Hd Hx Hy Htr Hs Hp Hq (n / e)) as (_ & _ & _ & F).
  destruct (F y post pre) as (q & E & Q). exists q. split; [|exact Q].
  rewrite (Nat.div_mod n e) by lia. rewrite (Nat.mul_comm e (n / e)).
  rewrite (epoch_steps c i s0 e He B1 (n / e) (n mod e)) by (apply Nat.mod_upper_bound; lia). rewrite spikes_syn. exact E.
Qed.
(** ... and at the end of every epoch every trace with a time constant has the value its dynamics prescribe *)
Theorem float_traces_follow_dynamics_partial : forall e m tr text rules c i s0 st0,
  (0 < e)%nat -> texts_of text rules -> build (Z.of_nat e) m UseRegularImpulse tr text = Some c ->
  (forall y r v, rules y = Some r -> refers r (trace_var v) -> f_decay (tr v) <> None) ->
  (forall n, f_tx s0 n = 0) -> (forall n, f_ty s0 n = 0) ->
  (forall v n, f_tr s0 v n = Some (i_trace st0 v n)) -> (forall y a b, f_syn s0 y a b = Some (i_syn st0 y a b)) ->
  (forall k n, (spike_count (pre_train e i k n) e <= 1)%nat) -> (forall k n, (spike_count (post_train e i k n) e <= 1)%nat) ->
  let p := {| epoch := e; signs := m; decay_of := fun v => match f_decay (tr v) with Some d => d | None => 0%Q end;
              impulse_of := fun v => f_impulse (tr v); rule_of := rules |} in
  forall n v k, f_decay (tr v) <> None -> exists q, f_tr (frun c i s0 (n * e)) v k = Some q /\
    (q == i_trace (ideal_run p (pre_train e i) (post_train e i) st0 n) v k)%Q.
Proof.
  intros e m tr text rules c i s0 st0 He Ht Hb Hd Hx Hy Htr Hs Hp Hq p n v k Hv.
  destruct (built _ _ _ _ _ _ Hb) as (B1 & B2 & B3 & B4 & B5 & B6).
  assert (p = params_of c rules) as -> by (unfold p, params_of; rewrite B1, B2, B4, Nat2Z.id; reflexivity).
  destruct (follows_all e m tr text rules c i s0 st0 He Ht Hb Hd Hx Hy Htr Hs Hp Hq n) as (_ & _ & F & _).
  exact (F v k Hv).
Qed.

(** ** More than one spike in an epoch *)
(** Whatever the neurons do: at the end of an epoch a trace has decayed from the value it had at its start plus one impulse
    for every spike but the last, and has jumped at the last spike. *)
Theorem float_trace_any_spikes : forall e c i s0 n v k d x,
  (0 < e)%nat -> fc_epoch c = Z.of_nat e -> fc_graded c = UseRegularImpulse ->
  (forall n, f_tx s0 n = 0) -> (forall n, f_ty s0 n = 0) ->
  f_decay (fc_trace c v) = Some d -> f_tr (frun c i s0 (n * e)) v k = Some x ->
  let spk := if presynaptic v then pre_train e i (S n) k else post_train e i (S n) k in
  let imp := f_impulse (fc_trace c v) in
  exists q, f_tr (frun c i s0 (S n * e)) v k = Some q /\
    (q == trace_at d imp (fun j => (last_spike spk e =? j)%nat) (x + inject_Z (Z.of_nat (spike_count spk e - 1)) * imp) e)%Q.
Proof.
  intros e c i s0 n v k d x He Hc Hg Hx Hy Hd Hv spk imp.
  assert (forall k, f_tx (frun c i s0 (n * e)) k = 0) as F1.
  { destruct n as [|n']; [exact Hx|]. rewrite (epoch_end c i s0 e He Hc n'). reflexivity. }
  assert (forall k, f_ty (frun c i s0 (n * e)) k = 0) as F2.
  { destruct n as [|n']; [exact Hy|]. rewrite (epoch_end c i s0 e He Hc n'). reflexivity. }
  destruct (epoch_history c i e He Hc (frun c i s0 (n * e)) n F1 F2 k v d x e Hg Hv Hd) as (q & E & Q).
  exists q. rewrite (epoch_end c i s0 e He Hc n). cbn [flearn_phase f_tr]. rewrite Hc, Nat2Z.id. split; [exact E|].
  rewrite Q. unfold early. assert (neuron_spk i e n v k = spk) as ->; [|reflexivity].
  unfold spk, neuron_spk, pre_spk, post_spk, pre_train, post_train. replace (S n - 1)%nat with n by lia. reflexivity.
Qed.
Lemma qmul_le d a b : (0 <= d)%Q -> (a <= b)%Q -> (d * a <= d * b)%Q.
Proof. intros. nra. Qed.
Fixpoint dpow (d : Q) (t : nat) : Q := match t with O => 1%Q | S k => (d * dpow d k)%Q end.
Lemma trace_at_linear d imp p v t : (trace_at d imp p v t == dpow d t * v + trace_at d imp p 0 t)%Q.
Proof.
  induction t as [|t IH]; [cbn; ring|]. cbn [trace_at]. rewrite IH.
  cbn [dpow]. ring.
Qed.
Lemma pow_unit d t : (0 <= d <= 1)%Q -> (0 <= dpow d t <= 1)%Q.
Proof.
  intros H. induction t as [|t IH]; [cbn; lra|].
  cbn [dpow]. nra.
Qed.
Lemma count_zero_trace d imp p t : (spike_count p t = 0)%nat -> (trace_at d imp p 0 t == 0)%Q.
Proof.
  induction t as [|t IH]; intros H; [reflexivity|]. cbn [trace_at spike_count] in *. destruct (p (S t)); [lia|]. rewrite IH by lia. ring.
Qed.
(** d^t for every spike bounds the effect of the spikes from below *)
Lemma spikes_at_least d imp p t : (0 <= d <= 1)%Q -> (0 <= imp)%Q ->
  (dpow d t * (inject_Z (Z.of_nat (spike_count p t)) * imp) <= trace_at d imp p 0 t)%Q.
Proof.
  intros Hd Hi. induction t as [|t IH]; [cbn [dpow spike_count trace_at]; change (inject_Z (Z.of_nat 0)) with 0%Q; ring_simplify; lra|]. cbn [trace_at spike_count].
  cbn [dpow].
  pose proof (pow_unit d t Hd) as Hp. set (P := dpow d t) in *. set (N := spike_count p t) in *. set (X := trace_at d imp p 0 t) in *.
  destruct (p (S t)).
  - replace (Z.of_nat (1 + N)) with (Z.of_nat N + 1) by lia. rewrite inject_Z_plus. change (inject_Z 1) with 1%Q.
    assert (d * P <= 1)%Q by nra. assert (d * P * imp <= 1 * imp)%Q by nra.
    assert (d * (P * (inject_Z (Z.of_nat N) * imp)) <= d * X)%Q by (apply qmul_le; [lra|assumption]). lra.
  - cbn [Nat.add]. assert (d * (P * (inject_Z (Z.of_nat N) * imp)) <= d * X)%Q by (apply qmul_le; [lra|assumption]). lra.
Qed.
(** So it never exceeds what its dynamics prescribe; it can be less (below). *)
Theorem float_trace_at_most_ideal : forall e c i s0 n v k d x,
  (0 < e)%nat -> fc_epoch c = Z.of_nat e -> fc_graded c = UseRegularImpulse ->
  (forall n, f_tx s0 n = 0) -> (forall n, f_ty s0 n = 0) ->
  f_decay (fc_trace c v) = Some d -> (0 <= d <= 1)%Q -> (0 <= f_impulse (fc_trace c v))%Q -> f_tr (frun c i s0 (n * e)) v k = Some x ->
  let spk := if presynaptic v then pre_train e i (S n) k else post_train e i (S n) k in
  exists q, f_tr (frun c i s0 (S n * e)) v k = Some q /\ (q <= trace_at d (f_impulse (fc_trace c v)) spk x e)%Q.
Proof.
  intros e c i s0 n v k d x He Hc Hg Hx Hy Hd Hd1 Hi Hv spk.
  destruct (float_trace_any_spikes e c i s0 n v k d x He Hc Hg Hx Hy Hd Hv) as (q & E & Q). exists q. split; [exact E|].
  fold spk in Q. set (imp := f_impulse (fc_trace c v)) in *. rewrite Q. clear Q E.
  assert (forall t, (trace_at d imp (fun j => (last_spike spk t =? j)%nat) (x + inject_Z (Z.of_nat (spike_count spk t - 1)) * imp) t
            <= trace_at d imp spk x t)%Q) as G; [|apply G].
  intros t. rewrite trace_at_linear, (trace_at_linear d imp spk x). rewrite Qmult_plus_distr_r, <- Qplus_assoc. apply Qplus_le_r.
  induction t as [|t IH]; [cbn [dpow spike_count trace_at last_spike]; change (inject_Z (Z.of_nat (0 - 1))) with 0%Q; ring_simplify; lra|]. cbn [spike_count last_spike].
  cbn [dpow].
  pose proof (pow_unit d t Hd1) as Hp. pose proof (spikes_at_least d imp spk t Hd1 Hi) as L. destruct (spk (S t)) eqn:Es.
  - cbn [trace_at]. rewrite Nat.eqb_refl, Es. replace (1 + spike_count spk t - 1)%nat with (spike_count spk t) by lia.
    rewrite (count_zero_trace d imp (fun j => (S t =? j)%nat) t).
    + set (P := dpow d t) in *. set (N := inject_Z (Z.of_nat (spike_count spk t))) in *. set (X := trace_at d imp spk 0 t) in *.
      assert (d * (P * (N * imp)) <= d * X)%Q by (apply qmul_le; [lra|assumption]). lra.
    + clear. assert (forall u, (u <= t)%nat -> spike_count (fun j => (S t =? j)%nat) u = 0%nat) as G; [|apply G; lia].
      induction u as [|u IH]; intros H; [reflexivity|]. cbn [spike_count]. rewrite IH by lia. destruct (Nat.eqb_spec (S t) (S u)); lia.
  - cbn [Nat.add trace_at]. rewrite Es. destruct (Nat.eqb_spec (last_spike spk t) (S t)) as [A|_]; [pose proof (last_spike_le spk t); lia|].
    set (P := dpow d t) in *. set (N := inject_Z (Z.of_nat (spike_count spk t - 1))) in *.
    set (X := trace_at d imp spk 0 t) in *. set (Y := trace_at d imp (fun j => (last_spike spk t =? j)%nat) 0 t) in *.
    assert (d * (P * (N * imp) + Y) <= d * X)%Q by (apply qmul_le; [lra|assumption]). lra.
Qed.

(** ** Time constant 0 *)
(** If a rule refers to a trace whose time constant is 0 - the default -, then from the end of the second epoch on every
    value of its synaptic variable is NaN, whatever the neurons do.  (x1 in OVERWRITE mode is excepted.) *)
Theorem float_zero_tau_ruins : forall e m g tr text rules c,
  (0 < e)%nat -> texts_of text rules -> build (Z.of_nat e) m g tr text = Some c ->
  forall y r v, rules y = Some r -> refers r (trace_var v) -> f_decay (tr v) = None -> (g <> Overwrite \/ v <> TX1) ->
  forall i s0 n post pre, (2 * e <= n)%nat -> f_syn (frun c i s0 n) y post pre = None.
Proof.
  intros e m g tr text rules c He Ht Hb y r v Hr Hv Hd Hg i s0 n post pre Hn.
  destruct (built _ _ _ _ _ _ Hb) as (B1 & B2 & B3 & B4 & B5 & B6).
  pose proof (Ht y) as Hy. specialize (B6 y). rewrite Hr in Hy. destruct (text y) as [str|]; [|contradiction].
  destruct Hy as (W1 & W2 & W3 & W4). destruct B6 as (ps & k & C1 & C2 & C3).
  destruct Hv as (tm & Htm & Hm).
  assert (exists p f, In p ps /\ In f (rp_factors p) /\ rf_var f = VTrace v) as (p & f & Hp & Hf & Ef).
  { pose proof (proj1 (rule_accepted_iff str r W1 W2 W3) (ex_intro _ ps (ex_intro _ k C1))) as [A _].
    destruct (A tm Htm) as (_ & ev & Ev & _).
    assert (active [ps] (ev_dep ev) v = true) as Act.
    { apply (proj2 (active_traces_exact [str] [r] [ps] (Forall_cons _ W1 (Forall_nil _)) (Forall2_cons _ _ W3 (Forall2_nil _))
        (Forall2_cons _ _ (ex_intro _ k C1) (Forall2_nil _)) (ev_dep ev) v)). exists r, tm, ev. split; [left; reflexivity|]. auto. }
    unfold active in Act. cbn [existsb] in Act. rewrite orb_false_r in Act. apply existsb_exists in Act. destruct Act as (p & Hp & H).
    apply andb_true_iff in H. destruct H as [_ H]. apply existsb_exists in H. destruct H as (f & Hf & H). exists p, f.
    split; [exact Hp|]. split; [exact Hf|]. destruct (rf_var f) eqn:E; try discriminate. apply trace_eqb_spec in H. now subst. }
  assert (f_decay (fc_trace c v) = None) as Hd' by (rewrite B4; exact Hd).
  assert (forall s nn j a, f_tr s v a = None -> f_tr (spikes_from c i e s nn j) v a = None) as Sp.
  { intros s nn j a H. induction j as [|j IH]; [exact H|]. cbn [spikes_from fspike_phase f_tr]. rewrite B3.
    destruct v; rewrite IH.
    - destruct g; cbn [fpre_x1]; try (destruct (_ && _)); try reflexivity. destruct Hg; congruence.
    - unfold fpre_x2. destruct (_ && _); reflexivity.
    - unfold fpost_y. destruct (_ && _); reflexivity.
    - unfold fpost_y. destruct (_ && _); reflexivity.
    - unfold fpost_y. destruct (_ && _); reflexivity. }
  assert (forall ts v0 t, v0 = None \/ (0 < t)%nat -> fhistory (fc_trace c v) ts v0 t = None) as Hi.
  { intros ts v0 t [->|H].
    - induction t as [|t IH]; [reflexivity|]. cbn [fhistory]. unfold frow. rewrite Hd'. destruct (_ =? _); reflexivity.
    - destruct t as [|t]; [lia|]. cbn [fhistory]. unfold frow. rewrite Hd'. destruct (_ =? _); reflexivity. }
  assert (forall q a, f_tr (frun c i s0 (S q * e)) v a = None) as Tn.
  { intros q a. rewrite (epoch_end c i s0 e He B1 q). cbn [flearn_phase f_tr]. unfold fhist. apply Hi. right. rewrite B1, Nat2Z.id. exact He. }
  assert (forall q, f_syn (frun c i s0 (S (S q) * e)) y post pre = None) as Sn.
  { intros q. rewrite (epoch_end c i s0 e He B1 (S q)). cbn [flearn_phase f_syn]. unfold flearned. rewrite C3.
    set (a := fapplier_args c (Z.of_nat (S (S q) * e)) (spikes_from c i e (frun c i s0 (S q * e)) (S q) e) post pre).
    assert (fseries a ps = None) as ->.
    { unfold fseries. apply fold_nan_add. left. exists p. split; [exact Hp|]. unfold fproduct. apply fold_nan_mul. left. exists f. split; [exact Hf|].
      unfold ffactor. rewrite Ef. unfold a. cbn [fa_trace fapplier_args]. unfold fevaluated, fhist.
      rewrite Hi by (left; apply Sp; apply Tn). destruct (rf_const f), (rf_sgn f); reflexivity. }
    destruct (f_syn _ y post pre), y; cbn [nadd fsaturate]; try destruct (fc_sign c); reflexivity. }
  assert (n / e >= 2)%nat as Hq by (apply Nat.div_le_lower_bound; lia).
  rewrite (Nat.div_mod n e) by lia. rewrite (Nat.mul_comm e (n / e)).
  rewrite (epoch_steps c i s0 e He B1 (n / e) (n mod e)) by (apply Nat.mod_upper_bound; lia). rewrite spikes_syn.
  destruct (n / e)%nat as [|[|q]]; try lia. apply Sn.
Qed.

(** ** Graded spikes *)
(** the sum of the payloads of steps 1..t of an epoch, and the payload of the last spike (0 if there is none) *)
Fixpoint payload_sum (a : nat -> Q) (t : nat) : Q := match t with O => 0%Q | S k => (payload_sum a k + a t)%Q end.
Fixpoint last_payload (a : nat -> Q) (t : nat) : option Q :=
  match t with O => None | S k => if nonzero (a t) then Some (a t) else last_payload a k end.
Definition x1_start (g : graded_cfg) (a : nat -> Q) (imp x : Q) (e : nat) : Q :=
  match g with
  | UseRegularImpulse => (x + inject_Z (Z.of_nat (spike_count (fun j => nonzero (a j)) e - 1)) * imp)%Q
  | Overwrite => match last_payload a e with Some q => (q / 2)%Q | None => x end
  | AddWithSaturation | AddWithoutSaturation => (x + payload_sum a e / 2)%Q
  end.
(** In every mode: at the end of an epoch x1 has decayed for the whole epoch from a value that already contains the
    payloads of all spikes of the epoch, and has got its regular impulse at the last spike. *)
Theorem float_graded_trace : forall e c i s0 n k d x,
  (0 < e)%nat -> fc_epoch c = Z.of_nat e -> (forall n, f_tx s0 n = 0) -> (forall n, f_ty s0 n = 0) ->
  f_decay (fc_trace c TX1) = Some d -> f_tr (frun c i s0 (n * e)) TX1 k = Some x ->
  let imp := f_impulse (fc_trace c TX1) in
  let a j := f_in (i (n * e + j)%nat) k in
  exists q, f_tr (frun c i s0 (S n * e)) TX1 k = Some q /\
    (q == trace_at d imp (fun j => (last_spike (fun j => nonzero (a j)) e =? j)%nat) (x1_start (fc_graded c) a imp x e) e)%Q.
Proof.
  intros e c i s0 n k d x He Hc Hx Hy Hd Hv imp a.
  assert (forall k, f_tx (frun c i s0 (n * e)) k = 0) as F1.
  { destruct n as [|n']; [exact Hx|]. rewrite (epoch_end c i s0 e He Hc n'). reflexivity. }
  assert (forall k, f_ty (frun c i s0 (n * e)) k = 0) as F2.
  { destruct n as [|n']; [exact Hy|]. rewrite (epoch_end c i s0 e He Hc n'). reflexivity. }
  set (s := frun c i s0 (n * e)) in *.
  assert (forall j, (j <= e)%nat -> exists q, f_tr (spikes_from c i e s n j) TX1 k = Some q /\ (q == x1_start (fc_graded c) a imp x j)%Q) as St.
  { intros j Hj. destruct (fc_graded c) eqn:Eg.
    - destruct (spikes_tr c i e He Hc s n F1 F2 k TX1 x j Eg Hj Hv) as (q & E & Q). exists q. split; [exact E|]. exact Q.
    - induction j as [|j IH]; [exists x; split; [exact Hv|reflexivity]|]. destruct (IH ltac:(lia)) as (q & E & Q).
      cbn [spikes_from fspike_phase f_tr]. rewrite Eg. cbn [fpre_x1]. fold (a (S j)). cbn [x1_start last_payload].
      destruct (nonzero (a (S j))); [eexists; split; reflexivity|]. exists q. split; [exact E|exact Q].
    - induction j as [|j IH]; [exists x; split; [exact Hv|cbn [x1_start payload_sum]; field]|]. destruct (IH ltac:(lia)) as (q & E & Q).
      cbn [spikes_from fspike_phase f_tr]. rewrite Eg. cbn [fpre_x1]. fold (a (S j)). rewrite E. cbn [nadd].
      eexists. split; [reflexivity|]. rewrite Q. cbn [x1_start payload_sum]. field.
    - induction j as [|j IH]; [exists x; split; [exact Hv|cbn [x1_start payload_sum]; field]|]. destruct (IH ltac:(lia)) as (q & E & Q).
      cbn [spikes_from fspike_phase f_tr]. rewrite Eg. cbn [fpre_x1]. fold (a (S j)). rewrite E. cbn [nadd].
      eexists. split; [reflexivity|]. rewrite Q. cbn [x1_start payload_sum]. field. }
  destruct (St e (le_n _)) as (q0 & E0 & Q0).
  destruct (fhistory_trace (fc_trace c TX1) d (spike_time (spikes_from c i e s n e) TX1 k) q0 e Hd) as (q & E & Q).
  exists q. rewrite (epoch_end c i s0 e He Hc n). cbn [flearn_phase f_tr]. fold s. unfold fhist. rewrite Hc, Nat2Z.id, E0.
  split; [exact E|]. rewrite Q, (trace_at_compat _ _ _ _ _ e Q0). fold imp.
  rewrite (trace_at_ext d imp _ (fun j => (last_spike (fun j => nonzero (a j)) e =? j)%nat)); [reflexivity|].
  intros j _. unfold spike_time. rewrite (spikes_tx c i e He Hc s n F1 k e (le_n _)).
  change (pre_spk i e n k) with (fun j => nonzero (a j)).
  destruct (Nat.eqb_spec (last_spike (fun j => nonzero (a j)) e) j) as [->|N]; [apply Z.eqb_refl|]. apply Z.eqb_neq. lia.
Qed.

(** ** Witnesses *)
Definition half_decay (imp : Q) : ftrace := {| f_decay := Some (1 # 2); f_impulse := imp |}.
Definition no_tau : ftrace := {| f_decay := None; f_impulse := 1 |}.
Definition resting (w : Q) : fconn :=
  {| f_tx := fun _ => 0; f_ty := fun _ => 0; f_tr := fun _ _ => Some 0%Q; f_syn := fun _ _ _ => Some w |}.
Definition dw_only (s : string) (y : syn) : option string := match y with SWeights => Some s | _ => None end.
(** which steps the pre- and the post-synaptic neuron spike at, with a payload *)
Definition stim (payload : Q) (pre post : list nat) (t : nat) : fstim :=
  {| f_in := fun _ => if existsb (Nat.eqb t) pre then payload else 0%Q; f_bap := fun _ => existsb (Nat.eqb t) post |}.
Definition value_is (v : num) (q : Q) : Prop := exists x, v = Some x /\ (x == q)%Q.
(** Two spikes in an epoch: a product gated by y0 sees x1 raised before any pre-synaptic spike has happened. *)
Theorem float_rule_sees_future_spikes : exists c rules text,
  texts_of text rules /\ build 4 Mixed UseRegularImpulse (fun _ => half_decay 16) text = Some c /\
  rules SWeights = Some [{| t_sign := NoSign; t_atoms := [AEvent Post; AVar X1] |}] /\
  (* the pre-synaptic neuron spikes in steps 2 and 4, the post-synaptic one in step 1 *)
  let i := stim 1 [2; 4]%nat [1]%nat in
  value_is (f_syn (frun c i (resting 0) 4) SWeights 0 0) 8 /\
  value_is (f_tr (frun c i (resting 0) 4) TX1 0%nat) 17 /\
  (trace_at (1 # 2) 16 (pre_train 4 i 1 0) 0 1 == 0)%Q /\ (trace_at (1 # 2) 16 (pre_train 4 i 1 0) 0 4 == 20)%Q.
Proof.
  eexists. exists (fun y => match y with SWeights => Some [{| t_sign := NoSign; t_atoms := [AEvent Post; AVar X1] |}] | _ => None end).
  exists (dw_only "y0*x1"). split; [|split; [vm_compute; reflexivity|split; [reflexivity|]]].
  - intros y. destruct y; cbn [dw_only]; try exact I. split; [|split; [|split]].
    + split; [discriminate|]. split; [|constructor]. constructor; [|constructor]. split; [discriminate|]. repeat constructor.
    + intros t [<-|[]]. vm_compute. reflexivity.
    + vm_compute. reflexivity.
    + cbn. repeat split; discriminate.
  - cbv zeta. split; [eexists; split; [vm_compute; reflexivity|vm_compute; reflexivity]|].
    split; [eexists; split; [vm_compute; reflexivity|vm_compute; reflexivity]|]. split; vm_compute; reflexivity.
Qed.
(** OVERWRITE: a spike with payload 20 in the last step of an epoch leaves x1 = 10 / 4 + 1 instead of 10. *)
Theorem float_overwrite_decays_payload : exists c,
  build 2 Mixed Overwrite (fun _ => half_decay 1) (dw_only "x0*x1") = Some c /\
  value_is (f_tr (frun c (stim 20 [2]%nat []) (resting 0) 2) TX1 0%nat) (7 # 2).
Proof. eexists. split; [vm_compute; reflexivity|]. eexists. split; vm_compute; reflexivity. Qed.

(** the STDP rule of C79 with a decimated decay, on an excitatory connection *)
Definition fstdp_text : string := "2^-1*x0*y1-3*2^-3*y0*x1+u1*(w-4)*2^-2".
Definition fstdp : rule :=
  [ {| t_sign := NoSign; t_atoms := [ALit (Pow Minus (nm "1")); AEvent Pre; AVar Y1] |};
    {| t_sign := Minus; t_atoms := [ALit (Plain (nm "3")); ALit (Pow Minus (nm "3")); AEvent Post; AVar X1] |};
    {| t_sign := Plus; t_atoms := [AEvent (Periodic 1); ABracket (VarLit NoSign (BVar W) Minus (Plain (nm "4"))); ALit (Pow Minus (nm "2"))] |} ].
Definition fstdp_rules (y : syn) : option rule := match y with SWeights => Some fstdp | _ => None end.
(** x1 and y1 decay, the other traces are not used *)
Definition fstdp_traces (v : trace) : ftrace := match v with TX1 => half_decay 16 | TY1 => half_decay 8 | _ => no_tau end.
Definition fstdp_in : nat -> fstim := stim 1 [1; 6]%nat [3; 5]%nat.
Lemma fstdp_texts : texts_of (dw_only fstdp_text) fstdp_rules.
Proof.
  assert (H1 : is_numeral (nm "1")) by (apply numeral_ok; reflexivity).
  assert (H3 : is_numeral (nm "3")) by (apply numeral_ok; reflexivity).
  assert (H2 : is_numeral (nm "2")) by (apply numeral_ok; reflexivity).
  assert (H4 : is_numeral (nm "4")) by (apply numeral_ok; reflexivity).
  intros y. destruct y; cbn [dw_only fstdp_rules]; try exact I. split; [|split; [|split]].
  - split; [discriminate|]. split; [|repeat constructor; discriminate].
    repeat apply Forall_cons; try apply Forall_nil; (split; [discriminate|]); cbn [t_atoms];
      repeat apply Forall_cons; try apply Forall_nil; cbn [wf_atom wf_lit wf_bracket wf_sgn];
      repeat match goal with |- _ /\ _ => split end; try exact I; try assumption; try discriminate; try lia.
  - intros t [<-|[<-|[<-|[]]]]; vm_compute; reflexivity.
  - vm_compute. reflexivity.
  - cbn. repeat split; try discriminate. intros _. tauto.
Qed.
(** a connection that meets all hypotheses of [float_learning_follows_equations_partial], and the weights it computes *)
Example fstdp_demo : exists c, build 4 Excitatory UseRegularImpulse fstdp_traces (dw_only fstdp_text) = Some c /\
  (forall y r v, fstdp_rules y = Some r -> refers r (trace_var v) -> f_decay (fstdp_traces v) <> None) /\
  (forall k n, (spike_count (pre_train 4 fstdp_in k n) 4 <= 1)%nat) /\ (forall k n, (spike_count (post_train 4 fstdp_in k n) 4 <= 1)%nat) /\
  value_is (f_syn (frun c fstdp_in (resting 10) 3) SWeights 0 0) 10 /\
  value_is (f_syn (frun c fstdp_in (resting 10) 4) SWeights 0 0) (17 # 2) /\
  value_is (f_syn (frun c fstdp_in (resting 10) 8) SWeights 0 0) (47 # 4).
Proof.
  eexists. split; [vm_compute; reflexivity|]. split.
  { intros y r v Hr (t & Ht & a & Ha & E). destruct y; try discriminate Hr. injection Hr as <-.
    destruct Ht as [<-|[<-|[<-|[]]]]; cbn [t_atoms] in Ha; destruct Ha as [<-|Ha]; try discriminate E;
      repeat (destruct Ha as [<-|Ha]; try discriminate E); try (destruct Ha); destruct v; cbn in E; try discriminate E; discriminate. }
  assert (forall l k, (forall j j', In j l -> In j' l -> (j - 1) / 4 = (j' - 1) / 4 -> j = j')%nat ->
    (spike_count (fun j => existsb (Nat.eqb ((k - 1) * 4 + j)) l) 4 <= 1)%nat) as G.
  { intros l k H. cbn [spike_count].
    assert (forall j, existsb (Nat.eqb j) l = true -> In j l) as X.
    { intros j Hj. apply existsb_exists in Hj. destruct Hj as (z & Hz & E). apply Nat.eqb_eq in E. now subst. }
    assert (forall a b, (1 <= a <= 4)%nat -> (1 <= b <= 4)%nat -> a <> b ->
      existsb (Nat.eqb ((k - 1) * 4 + a)) l = true -> existsb (Nat.eqb ((k - 1) * 4 + b)) l = true -> False) as Y.
    { intros a b Ha Hb N Ea Eb. apply X in Ea, Eb. assert ((k - 1) * 4 + a = (k - 1) * 4 + b)%nat; [|lia]. apply H; [exact Ea|exact Eb|].
      rewrite <- (Nat.div_unique ((k - 1) * 4 + a - 1) 4 (k - 1) (a - 1)) by lia.
      apply (Nat.div_unique ((k - 1) * 4 + b - 1) 4 (k - 1) (b - 1)); lia. }
    destruct (existsb (Nat.eqb ((k - 1) * 4 + 4)) l) eqn:E4, (existsb (Nat.eqb ((k - 1) * 4 + 3)) l) eqn:E3,
      (existsb (Nat.eqb ((k - 1) * 4 + 2)) l) eqn:E2, (existsb (Nat.eqb ((k - 1) * 4 + 1)) l) eqn:E1; try lia; exfalso;
      first [eapply (Y 4 3)%nat; (assumption || lia)|eapply (Y 4 2)%nat; (assumption || lia)|eapply (Y 4 1)%nat; (assumption || lia)
        |eapply (Y 3 2)%nat; (assumption || lia)|eapply (Y 3 1)%nat; (assumption || lia)|eapply (Y 2 1)%nat; (assumption || lia)]. }
  split.
  { intros k n. assert (forall j, pre_train 4 fstdp_in k n j = existsb (Nat.eqb ((k - 1) * 4 + j)) [1; 6]%nat) as A.
    { intros j. unfold pre_train, fstdp_in, stim. cbn [f_in]. destruct (existsb _ _); reflexivity. }
    cbn [spike_count]. rewrite !A. apply (G [1; 6]%nat k). intros j j' [<-|[<-|[]]] [<-|[<-|[]]]; cbn; lia. }
  split.
  { intros k n. apply (G [3; 5]%nat k). intros j j' [<-|[<-|[]]] [<-|[<-|[]]]; cbn; lia. }
  split; [|split]; eexists; (split; [vm_compute; reflexivity|vm_compute; reflexivity]).
Qed.
(** and one for [float_zero_tau_ruins]: the default time constant *)
Example zero_tau_demo : exists c, build 4 Excitatory UseRegularImpulse (fun _ => no_tau) (dw_only fstdp_text) = Some c /\
  refers fstdp (trace_var TX1) /\ f_decay no_tau = None /\
  f_syn (frun c fstdp_in (resting 10) 4) SWeights 0 0 = None /\ f_syn (frun c (stim 1 [] []) (resting 10) 8) SWeights 0 0 = None.
Proof.
  eexists. split; [vm_compute; reflexivity|]. split.
  - exists {| t_sign := Minus; t_atoms := [ALit (Plain (nm "3")); ALit (Pow Minus (nm "3")); AEvent Post; AVar X1] |}.
    split; [right; left; reflexivity|]. exists (AVar X1). split; [do 3 right; left; reflexivity|reflexivity].
  - split; [reflexivity|]. split; vm_compute; reflexivity.
Qed.
(** A space inside u<k> (C65, [spaced_period_lost]): "u 0*2" is the rule "add 2 in every epoch", but nothing is ever added. *)
Theorem float_spaced_period_lost : exists ps, compile "u 0*2" = Some (ps, Some 0) /\
  forall e, 0 < e -> exists c, build e Mixed UseRegularImpulse (fun _ => no_tau) (dw_only "u 0*2") = Some c /\ fc_rule c SWeights = Some ps /\
  forall i s0 n a b q, f_syn s0 SWeights a b = Some q ->
    value_is (f_syn (frun c i s0 n) SWeights a b) q.
Proof.
  eexists. split; [vm_compute; reflexivity|]. intros e He. eexists. split; [vm_compute; reflexivity|]. split; [reflexivity|].
  intros i s0 n a b q H. induction n as [|n (x & E & Q)]; [exists q; split; [exact H|reflexivity]|]. cbn [frun]. unfold fstep.
  destruct (lrn_guard _ _); [|exists x; split; [exact E|exact Q]]. cbn [flearn_phase f_syn]. unfold flearned. cbn [fc_rule fspike_phase f_syn].
  rewrite E. cbn [fsaturate fc_sign]. unfold fseries. cbn [fold_left]. unfold fproduct. cbn [rp_factors fold_left rp_dep rp_mant rp_exp fa_dep fapplier_args fu fc_decimate nadd].
  eexists. split; [reflexivity|]. rewrite Q. ring.
Qed.
