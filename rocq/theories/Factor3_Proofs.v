(** Lemmas about three-factor learning connections. *)
From Coq Require Import ZArith QArith Qpower Qabs Qminmax List Bool Ascii String Lia Lqa.
From Verif Require Import Bits_Model Learning_Model Learning_Props Rule_Model Rule_Spec Rule_Proofs Rule_Props Rule_Props2 RuleApply_Props
  RuleSpaces_Props FloatLearn_Model FloatLearn_Spec FloatLearn_Proofs FloatLearn_Props Factor3_Model Factor3_Spec.
Import ListNotations.
Open Scope Z_scope.

(** ** One learning phase, whatever the traces are *)
Definition syn_var (y : syn) : var := match y with SWeights => W | STag2 => D | STag1 => T end.
Definition event_of (d : dep) (k : nat) : event := match d with DX0 => Pre | DY0 => Post | DU => Periodic k end.
Lemma learn_once c t s post pre rho str r ps k y w :
  wf_rule r -> small r -> writes str r -> compile str = Some (ps, k) -> applier_builds ps = true -> fc_rule c y = Some ps ->
  occurs rho Pre = (if 0 <? f_tx s pre then 1%Q else 0%Q) -> occurs rho Post = (if 0 <? f_ty s post then 1%Q else 0%Q) ->
  (forall x kk, In x r -> In kk (periods (t_atoms x)) -> (occurs rho (Periodic kk) == fu c t)%Q) ->
  (forall v d, refers r (trace_var v) -> exists q, fevaluated c s post pre v d = Some q /\ forall kk, (q == at_event rho (event_of d kk) (trace_var v))%Q) ->
  (forall z, exists q, f_syn s z post pre = Some q /\ forall ev, (q == at_event rho ev (syn_var z))%Q) ->
  f_syn s y post pre = Some w ->
  exists q, flearned c t s y post pre = Some q /\ (q == keep_sign (fc_sign c) y (w + rule_value rho r))%Q.
Proof.
  intros W1 W2 W3 C1 C2 C3 Opre Opost Operi Htr Hsy Hw. unfold flearned. rewrite C3, Hw.
  set (a := fapplier_args c t s post pre).
  set (rho_u := {| occurs := fun ev => match ev with Periodic _ => fu c t | ev => occurs rho ev end; at_event := at_event rho |}).
  assert (fu c t == 0 \/ fu c t == 1)%Q as U by (unfold fu; destruct (fc_decimate c); [destruct (_ =? 0)|]; auto with qarith).
  assert (forall p0, fa_dep a (rp_dep p0) = occurs rho_u (product_event p0)) as Dep.
  { intros p0. unfold product_event, a, rho_u. cbn [fa_dep fapplier_args occurs]. destruct (rp_dep p0); cbn [occurs]; auto. }
  assert (forall z, exists q, fa_syn a z = Some q /\ forall ev, (q == state_value rho_u ev (VSyn z))%Q) as Sn.
  { intros z. destruct (Hsy z) as (q & E & Q). exists q. split; [exact E|]. intros ev. rewrite (Q ev). destruct z; reflexivity. }
  assert (forall p0, In p0 ps -> evaluable a rho_u p0) as Ev.
  { intros p0 Hp f Hf. unfold applier_builds in C2. rewrite forallb_forall in C2. specialize (C2 p0 Hp). rewrite forallb_forall in C2.
    pose proof C1 as C1'. rewrite (compile_rule str r W1 W3) in C1'.
    split; [exact (C2 f Hf)|]. split; [exact (products_noconst r None ps k (proj1 (proj2 W1)) C1' p0 f Hp Hf)|].
    intros v Hv. assert (refers r (trace_var v)) as Rf.
    { destruct (proj1 (active_traces_exact [str] [r] [ps] (Forall_cons _ W1 (Forall_nil _)) (Forall2_cons _ _ W3 (Forall2_nil _))
        (Forall2_cons _ _ (ex_intro _ k C1) (Forall2_nil _)) (rp_dep p0) v)) as (r' & t' & e' & [<-|[]] & T1 & _ & _ & T2).
      - unfold active. cbn [existsb]. rewrite orb_false_r. apply existsb_exists. exists p0. split; [exact Hp|].
        apply andb_true_iff. split; [now apply dep_eqb_spec|]. apply existsb_exists. exists f. split; [exact Hf|]. rewrite Hv. now apply trace_eqb_spec.
      - exists t'. split; assumption. }
    destruct (Htr v (rp_dep p0) Rf) as (q & E & Q). exists q. split; [exact E|].
    specialize (Q (Z.to_nat (match rp_decimate p0 with Some k => k | None => 0 end))). rewrite Q.
    unfold product_event, state_value, event_of. destruct v, (rp_dep p0); reflexivity. }
  destruct (fseries_value a rho_u Dep Sn ps Ev) as (q & Eq & Qq). rewrite Eq. cbn [nadd].
  assert (q == rule_value rho r)%Q as Qr.
  { rewrite Qq. destruct (rule_means_what_it_says_partial str r W1 W2 W3 ps k C1) as [_ M]. rewrite M.
    - apply agree_rule; try reflexivity. intros x kk Hx Hkk. unfold rho_u. cbn [occurs]. symmetry. now apply (Operi x kk).
    - intros ev. destruct ev; cbn [occurs rho_u]; [| |exact U].
      + rewrite Opre. destruct (0 <? f_tx s pre); [right|left]; reflexivity.
      + rewrite Opost. destruct (0 <? f_ty s post); [right|left]; reflexivity. }
  assert (w + q == w + rule_value rho r)%Q as S by (rewrite Qr; reflexivity).
  destruct y; cbn [fsaturate keep_sign]; try destruct (fc_sign c); cbn [nmap]; eexists; (split; [reflexivity|]); rewrite S; reflexivity.
Qed.

(** ** The pre-synaptic side does not depend on the third factors *)
Definition presame (a b : fconn) : Prop :=
  (forall m, f_tx a m = f_tx b m) /\ (forall m, f_ty a m = f_ty b m) /\ (forall v m, presynaptic v = true -> f_tr a v m = f_tr b v m).
Lemma presame_spike c t i a b : presame a b -> presame (f3spike_phase c t i a) (fspike_phase c t (g_spk i) b).
Proof.
  intros (H1 & H2 & H3). split; [|split].
  - intros m. cbn [f3spike_phase fspike_phase f_tx]. rewrite H1. reflexivity.
  - intros m. cbn [f3spike_phase fspike_phase f_ty]. rewrite H2. reflexivity.
  - intros v m Hv. destruct v; try discriminate Hv; cbn [f3spike_phase fspike_phase f_tr]; rewrite H1, (H3 _ _ Hv); reflexivity.
Qed.
Lemma presame_hist c a b v m t : presame a b -> presynaptic v = true -> fhist c a v m t = fhist c b v m t.
Proof.
  intros (H1 & H2 & H3) Hv. unfold fhist. rewrite (H3 v m Hv). unfold spike_time. destruct v; try discriminate Hv; rewrite H1; reflexivity.
Qed.
Lemma presame_learn c t a b : presame a b -> presame (f3learn_phase c t a) (flearn_phase c t b).
Proof.
  intros H. split; [reflexivity|]. split; [reflexivity|]. intros v m Hv.
  destruct v; try discriminate Hv; cbn [f3learn_phase flearn_phase f_tr]; now apply presame_hist.
Qed.
Lemma presame_run c i s0 n : presame (f3run c i s0 n) (frun c (fun t => g_spk (i t)) s0 n).
Proof.
  induction n as [|n IH]; [split; [reflexivity|split; reflexivity]|]. cbn [f3run frun]. unfold f3step, fstep.
  destruct (lrn_guard _ _); [apply presame_learn|]; apply presame_spike, IH.
Qed.
Lemma syn_inside c i s0 e n j : (0 < e)%nat -> fc_epoch c = Z.of_nat e -> (j < e)%nat -> f_syn (f3run c i s0 (n * e + j)) = f_syn (f3run c i s0 (n * e)).
Proof.
  intros He Hc. induction j as [|j IH]; intros H; [now rewrite Nat.add_0_r|]. rewrite <- plus_n_Sm. cbn [f3run]. unfold f3step, lrn_guard.
  replace (S (n * e + j)) with (n * e + S j)%nat by lia.
  assert ((Z.of_nat (n * e + S j) mod fc_epoch c =? 0) = false) as ->.
  { apply Z.eqb_neq. rewrite Hc, Nat2Z.inj_add, Nat2Z.inj_mul, Z.add_comm, Z.mod_add by lia. rewrite Z.mod_small; lia. }
  cbn [f3spike_phase fspike_phase f_syn]. apply IH. lia.
Qed.
Lemma epoch3_end c i s0 e n : (0 < e)%nat -> fc_epoch c = Z.of_nat e ->
  f3run c i s0 (S n * e) = f3learn_phase c (Z.of_nat (S n * e))
    (f3spike_phase c (Z.of_nat (S n * e)) (i (S n * e)%nat) (f3run c i s0 (n * e + (e - 1)))).
Proof.
  intros He Hc. assert (S n * e = S (n * e + (e - 1)))%nat as A by lia. rewrite A at 1. cbn [f3run]. rewrite <- A. unfold f3step, lrn_guard.
  assert ((Z.of_nat (S n * e) mod fc_epoch c =? 0) = true) as ->; [|reflexivity].
  apply Z.eqb_eq. rewrite Hc, Nat2Z.inj_mul. apply Z.mod_mul. lia.
Qed.
Lemma last_spike_phase c i s0 e n : (0 < e)%nat -> fc_epoch c = Z.of_nat e ->
  fspike_phase c (Z.of_nat (S n * e)) (i (S n * e)%nat) (frun c i s0 (n * e + (e - 1))) = spikes_from c i e (frun c i s0 (n * e)) n e.
Proof.
  intros He Hc. rewrite (epoch_steps c i s0 e He Hc n (e - 1)) by lia.
  replace (spikes_from c i e (frun c i s0 (n * e)) n e) with (spikes_from c i e (frun c i s0 (n * e)) n (S (e - 1))) by (f_equal; lia).
  cbn [spikes_from]. replace (n * e + S (e - 1))%nat with (S n * e)%nat by lia. reflexivity.
Qed.
(** the history of a received value *)
Lemma received_history dy ts v t : exists q, fhistory {| f_decay := Some dy; f_impulse := 0 |} ts (Some v) t = Some q /\ (q == power dy t * v)%Q.
Proof.
  induction t as [|t (q & E & Q)]; [exists v; split; [reflexivity|cbn; ring]|]. cbn [fhistory]. rewrite E. unfold frow. cbn [f_decay nmul f_impulse].
  destruct (_ =? _); cbn [nadd]; eexists; (split; [reflexivity|]); rewrite Q; cbn [power]; ring.
Qed.

(** ** All epochs *)
Section Run.
Variables (e : nat) (m : sign_mode) (dy : Q) (x : trace -> ftrace) (text : syn -> option string) (rules : syn -> option rule) (c : fcfg)
  (i : nat -> f3stim) (s0 : fconn) (st0 : istate).
Hypothesis (He : (0 < e)%nat) (Ht : texts_of text rules) (Hb : build3 (Z.of_nat e) m UseRegularImpulse dy x text = Some c).
Hypothesis (Hdec : forall y r v, rules y = Some r -> refers r (trace_var v) -> presynaptic v = true -> f_decay (x v) <> None).
Hypothesis (Hx0 : forall n, f_tx s0 n = 0) (Hy0 : forall n, f_ty s0 n = 0).
Hypothesis (Htr0 : forall v n, presynaptic v = true -> f_tr s0 v n = Some (i_trace st0 v n)) (Hsyn0 : forall y a b, f_syn s0 y a b = Some (i_syn st0 y a b)).
Let i2 t := g_spk (i t).
Hypothesis (Hpre : forall k n, (spike_count (pre_train e i2 k n) e <= 1)%nat).
Let p : params := {| epoch := e; signs := m; decay_of := fun v => match f_decay (x v) with Some d => d | None => 0%Q end;
                     impulse_of := fun v => f_impulse (x v); rule_of := rules |}.
Let seen (k : nat) (v : trace) (n t : nat) : Q := (power dy t * g_y (i (k * e)%nat) v n)%Q.
Let ideal := ideal3_run p (pre_train e i2) (post_train e i2) seen st0.
Definition follows3 (n : nat) : Prop :=
  (forall v k, presynaptic v = true -> f_decay (x v) <> None -> exists q, f_tr (f3run c i s0 (n * e)) v k = Some q /\ (q == i_trace (ideal n) v k)%Q) /\
  (forall y a b, exists q, f_syn (f3run c i s0 (n * e)) y a b = Some q /\ (q == i_syn (ideal n) y a b)%Q).
Lemma times_zero n : (forall k, f_tx (frun c i2 s0 (n * e)) k = 0) /\ (forall k, f_ty (frun c i2 s0 (n * e)) k = 0).
Proof.
  destruct (built _ _ _ _ _ _ Hb) as (B1 & _). destruct n as [|n]; [split; assumption|].
  rewrite (epoch_end c i2 s0 e He B1 n). split; reflexivity.
Qed.
Lemma follows3_step n : follows3 n -> follows3 (S n).
Proof.
  intros (F3 & F4). destruct (built _ _ _ _ _ _ Hb) as (B1 & B2 & B3 & B4 & B5 & B6). unfold follows3.
  rewrite (epoch3_end c i s0 e n He B1). destruct (times_zero n) as [F1 F2].
  set (P := f3spike_phase c (Z.of_nat (S n * e)) (i (S n * e)%nat) (f3run c i s0 (n * e + (e - 1)))).
  set (s := frun c i2 s0 (n * e)) in *.
  assert (presame P (spikes_from c i2 e s n e)) as PS.
  { unfold s. rewrite <- (last_spike_phase c i2 s0 e n He B1). apply presame_spike, presame_run. }
  assert (f_syn P = f_syn (f3run c i s0 (n * e))) as Sy by (unfold P; cbn [f3spike_phase fspike_phase f_syn]; apply (syn_inside c i s0 e n); (assumption || lia)).
  assert (forall v k, neuron_spk i2 e n v k = (if presynaptic v then pre_train e i2 (S n) k else post_train e i2 (S n) k)) as N.
  { intros v k. unfold neuron_spk, pre_spk, post_spk, pre_train, post_train. replace (S n - 1)%nat with n by lia. reflexivity. }
  assert (forall k, f_tx P k = Z.of_nat (last_spike (pre_train e i2 (S n) k) e)) as Tx.
  { intros k. rewrite (proj1 PS). rewrite (spikes_tx c i2 e He B1 s n F1 k e (le_n _)). exact (f_equal (fun g => Z.of_nat (last_spike g e)) (N TX1 k)). }
  assert (forall k, f_ty P k = Z.of_nat (last_spike (post_train e i2 (S n) k) e)) as Ty.
  { intros k. rewrite (proj1 (proj2 PS)). rewrite (spikes_ty c i2 e He B1 s n F2 k e (le_n _)). exact (f_equal (fun g => Z.of_nat (last_spike g e)) (N TY1 k)). }
  assert (forall v k t, presynaptic v = true -> f_decay (x v) <> None -> (t <= e)%nat -> exists q, fhist c P v k t = Some q /\
    (q == trace_at (decay_of p v) (impulse_of p v) (pre_train e i2 (S n) k) (i_trace (ideal n) v k) t)%Q) as Tr.
  { intros v k t Hv Hd Hle. destruct (F3 v k Hv Hd) as (q0 & E0 & Q0). rewrite (proj2 (proj2 (presame_run c i s0 (n * e))) v k Hv) in E0. fold i2 s in E0.
    destruct (f_decay (x v)) as [d|] eqn:Ed; [|congruence].
    assert (fc_trace c v = x v) as Ec by (rewrite B4; destruct v; try discriminate Hv; reflexivity).
    assert (f_decay (fc_trace c v) = Some d) as Ed' by (rewrite Ec; exact Ed).
    rewrite (presame_hist c P _ v k t PS Hv).
    destruct (epoch_history_once c i2 e He B1 s n F1 F2 k v d q0 t B3 E0 Ed') as (q & E & Q); [rewrite N, Hv; apply Hpre|exact Hle|].
    exists q. split; [exact E|]. rewrite Q, N, Hv, Ec. unfold p. cbn [decay_of impulse_of]. rewrite Ed. apply trace_at_compat. exact Q0. }
  assert (forall v k t, presynaptic v = false -> exists q, fhist c P v k t = Some q /\ (q == seen (S n) v k t)%Q) as Ye.
  { intros v k t Hv. unfold fhist. assert (fc_trace c v = {| f_decay := Some dy; f_impulse := 0 |}) as -> by (rewrite B4; destruct v; try discriminate Hv; reflexivity).
    assert (f_tr P v k = Some (g_y (i (S n * e)%nat) v k)) as -> by (destruct v; try discriminate Hv; reflexivity). apply received_history. }
  split.
  { intros v k Hv Hd. destruct (Tr v k e Hv Hd (le_n _)) as (q & E & Q). exists q. split.
    - rewrite <- E. destruct v; try discriminate Hv; cbn [f3learn_phase flearn_phase f_tr]; rewrite B1, Nat2Z.id; reflexivity.
    - rewrite Q. reflexivity. }
  intros y post pre. cbn [f3learn_phase flearn_phase f_syn].
  destruct (F4 y post pre) as (w & Ew & Qw). unfold ideal. cbn [ideal3_run]. fold ideal. unfold ideal3_epoch. cbn [i_syn]. change (rule_of p y) with (rules y).
  pose proof (Ht y) as Hy. specialize (B6 y). destruct (rules y) as [r|] eqn:Er, (text y) as [str|]; try contradiction.
  2:{ unfold flearned. rewrite B6, Sy. exists w. split; [exact Ew|exact Qw]. }
  destruct Hy as (W1 & W2 & W3 & W4). destruct B6 as (ps & k & C1 & C2 & C3).
  set (t := Z.of_nat (S n * e)).
  assert (t / fc_epoch c = Z.of_nat (S n)) as Tn by (unfold t; rewrite B1, Nat2Z.inj_mul; apply Z.div_mul; lia).
  set (rho := facts3 p (S n) (pre_train e i2 (S n)) (post_train e i2 (S n)) (seen (S n)) (ideal n) post pre).
  destruct (learn_once c t P post pre rho str r ps k y w) as (q & E & Q); try assumption.
  - unfold rho. cbn [facts3 occurs]. rewrite Tx, spiked_count. change (epoch p) with e.
    destruct (Z.ltb_spec 0 (Z.of_nat (last_spike (pre_train e i2 (S n) pre) e))) as [L|L];
      destruct (Nat.eqb_spec (spike_count (pre_train e i2 (S n) pre) e) 0) as [Z0|Z0]; try reflexivity; exfalso;
      [apply last_count in Z0; lia|apply Z0, last_count; lia].
  - unfold rho. cbn [facts3 occurs]. rewrite Ty, spiked_count. change (epoch p) with e.
    destruct (Z.ltb_spec 0 (Z.of_nat (last_spike (post_train e i2 (S n) post) e))) as [L|L];
      destruct (Nat.eqb_spec (spike_count (post_train e i2 (S n) post) e) 0) as [Z0|Z0]; try reflexivity; exfalso;
      [apply last_count in Z0; lia|apply Z0, last_count; lia].
  - intros z kk Hz Hkk. unfold fu, rho. cbn [facts3 occurs].
    assert (fc_decimate c = Some (Z.of_nat kk)) as ->; [|rewrite Tn; reflexivity].
    destruct (texts_active text rules Ht) as (A1 & A2 & A3).
    pose proof (learning_rule_period_spaces (active_list rules) (active_list text) A1 A2 A3) as Pe. cbn zeta in Pe. destruct Pe as (P1 & P2 & P3).
    assert (In kk (flat_map (fun r => flat_map (fun t => periods (t_atoms t)) r) (active_list rules))) as Ik.
    { apply in_flat_map. exists r. split; [apply active_list_in; exists y; exact Er|]. apply in_flat_map. exists z. split; assumption. }
    assert (validate_uk (active_list text) = Some (Some (Z.of_nat kk))) as V; [|rewrite B5 in V; congruence].
    apply P3. split; [exact Ik|]. intros k' Hk'. destruct (Nat.eq_dec k' kk) as [E'|N']; [exact E'|]. exfalso.
    assert (validate_uk (active_list text) = None) as V by (apply P1; exists k', kk; auto). rewrite B5 in V. discriminate.
  - intros v d Rf. unfold fevaluated.
    set (tt := Z.to_nat (match d with DX0 => f_tx P pre | DY0 => f_ty P post | DU => fc_epoch c end)).
    assert (tt = match d with DX0 => last_spike (pre_train e i2 (S n) pre) e | DY0 => last_spike (post_train e i2 (S n) post) e | DU => e end) as Et.
    { unfold tt. rewrite Tx, Ty, B1. destruct d; apply Nat2Z.id. }
    assert (tt <= e)%nat as Tle by (rewrite Et; destruct d; [apply last_spike_le|apply last_spike_le|lia]).
    destruct (presynaptic v) eqn:Hv.
    + destruct (Tr v (match v with TX1 | TX2 => pre | _ => post end) tt Hv ltac:(eapply Hdec; eauto) Tle) as (q & E & Q).
      exists q. split; [exact E|]. intros kk. rewrite Q, Et. unfold rho, facts3, event_of. cbn [at_event]. change (epoch p) with e.
      destruct v; try discriminate Hv; destruct d; reflexivity.
    + destruct (Ye v (match v with TX1 | TX2 => pre | _ => post end) tt Hv) as (q & E & Q).
      exists q. split; [exact E|]. intros kk. rewrite Q, Et. unfold rho, facts3, event_of. cbn [at_event]. change (epoch p) with e.
      destruct v; try discriminate Hv; destruct d; reflexivity.
  - intros z. destruct (F4 z post pre) as (q & E & Q). exists q. rewrite Sy. split; [exact E|]. intros ev. destruct z; exact Q.
  - rewrite Sy. exact Ew.
  - exists q. split; [exact E|]. rewrite Q, B2. change (signs p) with m. fold rho.
    assert (w + rule_value rho r == i_syn (ideal n) y post pre + rule_value rho r)%Q as S by (rewrite Qw; reflexivity).
    destruct y; cbn [keep_sign]; try destruct m; rewrite S; reflexivity.
Qed.
Lemma follows3_all n : follows3 n.
Proof.
  induction n as [|n IH]; [|apply follows3_step, IH]. split.
  - intros v k Hv _. exists (i_trace st0 v k). split; [apply Htr0, Hv|reflexivity].
  - intros y a b. exists (i_syn st0 y a b). split; [apply Hsyn0|reflexivity].
Qed.
End Run.
