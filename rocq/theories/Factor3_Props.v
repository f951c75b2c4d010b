(** C84: learning connections with three-factor rules use the signals of the post-synaptic neuron. *)
From Coq Require Import ZArith QArith Qpower Qabs Qround Qminmax List Bool Ascii String Lia Lqa.
From Verif Require Import NpInt Bits_Model Learning_Model Learning_Props Rule_Model Rule_Spec Rule_Proofs Rule_Props Rule_Props2 RuleApply_Props
  RuleSpaces_Props Stdp_Model Stdp_Props FloatLearn_Model FloatLearn_Spec FloatLearn_Proofs FloatLearn_Props Factor3_Model Factor3_Spec Factor3_Proofs.
Import ListNotations.
Open Scope Z_scope.

(** ** Floating point *)
(** After any number of time steps y1, y2 and y3 are what the post-synaptic neuron sent last, ... *)
Theorem three_factor_shows_received : forall c i s0 n v k, presynaptic v = false ->
  f_tr (f3run c i s0 (S n)) v k = Some (g_y (i (S n)) v k).
Proof.
  intros c i s0 n v k Hv. cbn [f3run]. unfold f3step. destruct (lrn_guard _ _); destruct v; try discriminate Hv; reflexivity.
Qed.
(** ... and spike times, x1 and x2 are those of the two-factor connection with the same spikes (C83). *)
Theorem three_factor_pre_side : forall c i s0 n k,
  let s := f3run c i s0 n in let s' := frun c (fun t => g_spk (i t)) s0 n in
  f_tx s k = f_tx s' k /\ f_ty s k = f_ty s' k /\ f_tr s TX1 k = f_tr s' TX1 k /\ f_tr s TX2 k = f_tr s' TX2 k.
Proof.
  intros c i s0 n k s s'. destruct (presame_run c i s0 n) as (H1 & H2 & H3).
  split; [apply H1|]. split; [apply H2|]. split; apply H3; reflexivity.
Qed.
(** A connection built from the texts of three-factor rules, none of which refers to a trace x1, x2 with time constant 0, in
    exact arithmetic: if no pre-synaptic neuron spikes more than once in an epoch, then after any number of time steps every
    synaptic variable has the value that the rules prescribe if, at step t of an epoch, y1, y2 and y3 have the value
    that was sent in the *last* step of the epoch, decayed t times by the factor [dy]. *)
Theorem three_factor_follows_equations_partial : forall e m dy x text rules c i s0 st0,
  (0 < e)%nat -> texts_of text rules -> build3 (Z.of_nat e) m UseRegularImpulse dy x text = Some c ->
  (forall y r v, rules y = Some r -> refers r (trace_var v) -> presynaptic v = true -> f_decay (x v) <> None) ->
  (forall n, f_tx s0 n = 0) -> (forall n, f_ty s0 n = 0) ->
  (forall v n, presynaptic v = true -> f_tr s0 v n = Some (i_trace st0 v n)) -> (forall y a b, f_syn s0 y a b = Some (i_syn st0 y a b)) ->
  let i2 t := g_spk (i t) in
  (forall k n, (spike_count (pre_train e i2 k n) e <= 1)%nat) ->
  let p := {| epoch := e; signs := m; decay_of := fun v => match f_decay (x v) with Some d => d | None => 0%Q end;
              impulse_of := fun v => f_impulse (x v); rule_of := rules |} in
  let seen k v j t := (power dy t * g_y (i (k * e)%nat) v j)%Q in
  forall n y post pre, exists q, f_syn (f3run c i s0 n) y post pre = Some q /\
    (q == i_syn (ideal3_run p (pre_train e i2) (post_train e i2) seen st0 (n / e)) y post pre)%Q.
Proof.
  intros e m dy x text rules c i s0 st0 He Ht Hb Hd Hx Hy Htr Hs i2 Hp p seen n y post pre.
  destruct (built _ _ _ _ _ _ Hb) as (B1 & _).
  destruct (follows3_all e m dy x text rules c i s0 st0 He Ht Hb Hd Hx Hy Htr Hs Hp (n / e)) as (_ & F).
  destruct (F y post pre) as (q & E & Q). exists q. split; [|exact Q].
  rewrite (Nat.div_mod n e) by lia. rewrite (Nat.mul_comm e (n / e)).
  rewrite (syn_inside c i s0 e (n / e) (n mod e) He B1) by (apply Nat.mod_upper_bound; lia). exact E.
Qed.
(** How much [dy] matters: np.exp(-1/65535) is between 1 - 1/65535 and 1, so the rules see a value that is off by at most
    t / 65535 of it. *)
Theorem three_factor_attenuation : forall dy v t, (1 - (1 # 65535) <= dy)%Q -> (dy <= 1)%Q ->
  (Qabs (power dy t * v - v) <= inject_Z (Z.of_nat t) * (1 # 65535) * Qabs v)%Q.
Proof.
  intros dy v t H1 H2.
  assert (0 <= power dy t /\ power dy t <= 1 /\ 1 - power dy t <= inject_Z (Z.of_nat t) * (1 # 65535))%Q as (P0 & P1 & P2).
  { induction t as [|t (A & B & C)]; [cbn [power]; change (inject_Z (Z.of_nat 0)) with 0%Q; lra|]. cbn [power].
    rewrite Nat2Z.inj_succ. unfold Z.succ. rewrite inject_Z_plus. change (inject_Z 1) with 1%Q. set (P := power dy t) in *.
    set (N := inject_Z (Z.of_nat t)) in *. assert (dy * P <= 1 * P)%Q by nra. assert (0 <= dy * P)%Q by nra.
    assert ((1 - (1 # 65535)) * P <= dy * P)%Q by nra. split; [assumption|]. split; [lra|]. lra. }
  assert (power dy t * v - v == - ((1 - power dy t) * v))%Q as -> by ring. rewrite Qabs_opp, Qabs_Qmult.
  rewrite (Qabs_pos (1 - power dy t)) by lra. apply Qmult_le_compat_r; [exact P2|apply Qabs_nonneg].
Qed.

(** In an epoch of one time step - the default - the rules see what was sent in this step (times [dy]); in longer epochs
    they see what was sent later: here y1 = 0 in step 1, when the pre-synaptic neuron spikes, and y1 = 10 in step 2.
    The rule dw = x0*y1 must not change the weight, but adds 10 * dy. *)
Definition signals (pre post : list nat) (y : nat -> Q) (t : nat) : f3stim :=
  {| g_spk := stim 1 pre post t; g_y := fun _ _ => y t |}.
Theorem three_factor_sees_later_signals_refuted : forall dy, exists c,
  build3 2 Mixed UseRegularImpulse dy (fun _ => half_decay 1) (dw_only "x0*y1") = Some c /\
  let y t := if (t =? 2)%nat then 10%Q else 0%Q in
  value_is (f_syn (f3run c (signals [1%nat] [] y) (resting 0) 2) SWeights 0 0) (dy * 10).
Proof.
  intros dy. eexists. split; [vm_compute; reflexivity|]. cbv zeta. eexists. split; [reflexivity|].
  unfold fseries, fproduct. cbn. ring.
Qed.

(** ** Reward-modulated STDP *)
Definition rstdp_texts (lr ap am tau : Q) (y : syn) : option string :=
  match y with SWeights => Some rstdp_dw | STag1 => Some (rstdp_dt lr ap am tau) | STag2 => None end.
Definition rstdp_rules (lr ap am tau : Q) (y : syn) : option rule :=
  match y with SWeights => Some rstdp_w | STag1 => Some (rstdp_terms lr ap am tau) | STag2 => None end.
Lemma tight_skip w : no_u w -> forall rest, tight rest -> tight (w ++ rest).
Proof. induction 1 as [|a w Ha Hw IH]; intros rest Hr; [exact Hr|]. cbn [List.app tight]. split; [congruence|]. apply IH, Hr. Qed.
Lemma no_u_atoms l : Forall wf_atom l -> Forall (fun a => aperiod a = None) l -> no_u (show_atoms l).
Proof.
  induction l as [|a l IH]; intros H1 H2; [constructor|]. inversion H1; inversion H2; subst. destruct l as [|b l].
  - cbn [show_atoms]. now apply nu_atom.
  - rewrite show_atoms_cons by discriminate. apply nu_app; [now apply nu_atom|]. constructor; [discriminate|]. apply IH; assumption.
Qed.
Lemma literal_no_u q : no_u (float_to_literal q).
Proof.
  assert (no_u (filter nospace (float_to_literal q))) as H.
  { rewrite lit_text. destruct (lit_const_atoms q) as (Hc & _). apply no_u_atoms; [now apply const_wf|].
    eapply Forall_impl; [|exact Hc]. intros a Ha. destruct a as [e|v|l|j|j]; try reflexivity. destruct Ha. }
  unfold no_u in *. rewrite Forall_forall in *. intros a Ha. destruct (nospace a) eqn:E.
  - apply H. apply filter_In. split; assumption.
  - unfold nospace in E. apply negb_false_iff, Ascii.eqb_eq in E. subst. discriminate.
Qed.
Lemma rstdp_w_wf : wf_rule rstdp_w.
Proof.
  split; [discriminate|]. split; [|constructor]. constructor; [|constructor]. split; [discriminate|]. cbn [t_atoms].
  repeat apply Forall_cons; try apply Forall_nil; cbn [wf_atom]; [lia|exact I|exact I].
Qed.
Lemma rstdp_texts_of lr ap am tau : moderate lr -> moderate ap -> moderate am -> moderate tau ->
  texts_of (rstdp_texts lr ap am tau) (rstdp_rules lr ap am tau).
Proof.
  intros M1 M2 M3 M4 y. destruct y; cbn [rstdp_texts rstdp_rules].
  - split; [exact rstdp_w_wf|]. split; [intros t [<-|[]]; vm_compute; reflexivity|]. split; [reflexivity|].
    cbn. repeat split; try discriminate. intros _. tauto.
  - exact I.
  - split; [apply rstdp_wf|]. split; [now apply rstdp_small|]. split; [apply rstdp_writes|].
    unfold rstdp_dt. rewrite list_ascii_of_string_of_list_ascii.
    assert (forall s rest, no_u (list_ascii_of_string s) -> tight rest -> tight (list_ascii_of_string s ++ rest)) as K by (intros; now apply tight_skip).
    apply tight_skip; [apply literal_no_u|]. apply K; [repeat constructor; discriminate|].
    apply tight_skip; [apply literal_no_u|]. apply K; [repeat constructor; discriminate|].
    apply tight_skip; [apply literal_no_u|]. apply K; [repeat constructor; discriminate|].
    apply tight_skip; [apply literal_no_u|]. apply K; [repeat constructor; discriminate|].
    cbn [list_ascii_of_string List.app tight]. split; [intros _; cbn; tauto|]. do 8 (split; [discriminate|]).
    rewrite <- (app_nil_r (float_to_literal tau)). apply tight_skip; [apply literal_no_u|exact I].
Qed.
Lemma refers_presyn_rstdp lr ap am tau y r v : rstdp_rules lr ap am tau y = Some r -> refers r (trace_var v) -> presynaptic v = true -> v = TX1.
Proof.
  intros Hr (t & Ht & a & Ha & E) Hv. destruct v; try discriminate Hv; [reflexivity|]. exfalso. cbn [trace_var] in E.
  assert (forall q b, In b (lit_atoms q) -> atom_var b = None) as L.
  { intros q b Hb. destruct (lit_const_atoms q) as (Hc & _). rewrite Forall_forall in Hc. specialize (Hc b Hb).
    destruct b as [?|?|?|j|?]; try reflexivity; try (destruct Hc; fail). destruct j; try reflexivity; destruct Hc. }
  destruct y; try discriminate Hr; injection Hr as <-.
  - destruct Ht as [<-|[]]. cbn [t_atoms] in Ha. destruct Ha as [<-|[<-|[<-|[]]]]; discriminate E.
  - destruct Ht as [<-|[<-|[<-|[]]]]; cbn [t_atoms] in Ha; rewrite ?in_app_iff in Ha.
    + destruct Ha as [Ha|[Ha|[<-|[<-|[]]]]]; try (rewrite (L _ _ Ha) in E); discriminate E.
    + destruct Ha as [Ha|[Ha|[<-|[<-|[]]]]]; try (rewrite (L _ _ Ha) in E); discriminate E.
    + destruct Ha as [[<-|[<-|[]]]|Ha]; try (rewrite (L _ _ Ha) in E); discriminate E.
Qed.
(** The recurrence of reward-modulated STDP: the eligibility trace [tag] follows STDP and decays, and the weight changes by
    the product of the eligibility trace and the reward.  (pre, post: does the neuron spike in step n; y1, y2: what the post-synaptic
    neuron sends in step n.) *)
Record rs := { rs_x1 : Q; rs_tag : Q; rs_w : Q }.
Definition rs_step (m : sign_mode) (dx ix lr ap am tau : Q) (pre post : bool) (y1 y2 : Q) (s : rs) : rs :=
  let x1 := (dx * rs_x1 s + if pre then ix else 0)%Q in
  {| rs_x1 := x1;
     rs_tag := (rs_tag s + (if pre then lr * am * y1 else 0) + (if post then lr * ap * x1 else 0) - tau * rs_tag s)%Q;
     rs_w := keep_sign m SWeights (rs_w s + rs_tag s * y2) |}.
Fixpoint rs_run (m : sign_mode) (dx ix lr ap am tau : Q) (pre post : nat -> bool) (y1 y2 : nat -> Q) (s : rs) (n : nat) : rs :=
  match n with
  | O => s
  | S k => rs_step m dx ix lr ap am tau (pre n) (post n) (y1 n) (y2 n) (rs_run m dx ix lr ap am tau pre post y1 y2 s k)
  end.
(** RewardModulatedSTDP with t_epoch = 1 (the default): with the values lr, ap, am, tau that the parameters act as (C79), every
    synapse follows this recurrence, up to the factor [dy] on y1 and y2. *)
Theorem rstdp_follows_recurrence : forall m dy dx ix lr ap am tau ml el mp ep ma ea mt et c i s0 x tag w post pre,
  moderate lr -> moderate ap -> moderate am -> moderate tau ->
  acts_as lr ml el -> acts_as ap mp ep -> acts_as am ma ea -> acts_as tau mt et ->
  build3 1 m UseRegularImpulse dy (fun v => match v with TX1 => {| f_decay := Some dx; f_impulse := ix |} | _ => no_tau end)
    (rstdp_texts lr ap am tau) = Some c ->
  (forall n, f_tx s0 n = 0) -> (forall n, f_ty s0 n = 0) -> (forall v n, presynaptic v = true -> exists q, f_tr s0 v n = Some q) ->
  (forall y a b, exists q, f_syn s0 y a b = Some q) ->
  f_tr s0 TX1 pre = Some x -> f_syn s0 STag1 post pre = Some tag -> f_syn s0 SWeights post pre = Some w ->
  forall n,
  let r := rs_run m dx ix (two_exp ml el) (two_exp mp ep) (two_exp ma ea) (two_exp mt et)
             (fun t => nonzero (f_in (g_spk (i t)) pre)) (fun t => f_bap (g_spk (i t)) post)
             (fun t => dy * g_y (i t) TY1 post)%Q (fun t => dy * g_y (i t) TY2 post)%Q
             {| rs_x1 := x; rs_tag := tag; rs_w := w |} n in
  value_is (f_syn (f3run c i s0 n) SWeights post pre) (rs_w r) /\
  value_is (f_syn (f3run c i s0 n) STag1 post pre) (rs_tag r) /\
  value_is (f_tr (f3run c i s0 n) TX1 pre) (rs_x1 r).
Proof.
  intros m dy dx ix lr ap am tau ml el mp ep ma ea mt et c i s0 x tag w post pre M1 M2 M3 M4 A1 A2 A3 A4 Hb Hx Hy Htr Hsy Ex Et Ew n r.
  set (xt := fun v => match v with TX1 => {| f_decay := Some dx; f_impulse := ix |} | _ => no_tau end) in *.
  set (st0 := {| i_trace := fun v n => match f_tr s0 v n with Some q => q | None => 0%Q end;
                 i_syn := fun y a b => match f_syn s0 y a b with Some q => q | None => 0%Q end |}).
  pose proof (follows3_all 1 m dy xt (rstdp_texts lr ap am tau) (rstdp_rules lr ap am tau) c i s0 st0 ltac:(lia)
    (rstdp_texts_of lr ap am tau M1 M2 M3 M4) Hb) as F.
  specialize (F ltac:(intros y r0 v H1 H2 H3; rewrite (refers_presyn_rstdp _ _ _ _ _ _ _ H1 H2 H3); discriminate) Hx Hy).
  specialize (F ltac:(intros v k Hv; cbn [i_trace st0]; destruct (Htr v k Hv) as (q & ->); reflexivity)).
  specialize (F ltac:(intros y a b; cbn [i_syn st0]; destruct (Hsy y a b) as (q & ->); reflexivity)).
  specialize (F ltac:(intros k j; cbn [spike_count]; destruct (pre_train _ _ _ _ _); lia)).
  set (p := {| epoch := 1%nat; signs := m; decay_of := fun v => match f_decay (xt v) with Some d => d | None => 0%Q end;
               impulse_of := fun v => f_impulse (xt v); rule_of := rstdp_rules lr ap am tau |}) in *.
  set (i2 := fun t => g_spk (i t)) in *.
  set (seen := fun (k : nat) (v : trace) (j t : nat) => (power dy t * g_y (i (k * 1)%nat) v j)%Q) in *.
  set (ideal := ideal3_run p (pre_train 1 i2) (post_train 1 i2) seen st0).
  assert (G : (rs_w r == i_syn (ideal n) SWeights post pre /\ rs_tag r == i_syn (ideal n) STag1 post pre /\ rs_x1 r == i_trace (ideal n) TX1 pre)%Q).
  { acts A1. acts A2. acts A3. acts A4. unfold r. clear r F. induction n as [|n IH].
    - cbn [rs_run rs_w rs_tag rs_x1]. unfold ideal. cbn [ideal3_run st0 i_syn i_trace]. rewrite Ex, Et, Ew. split; [|split]; reflexivity.
    - cbn [rs_run]. set (rk := rs_run _ _ _ _ _ _ _ _ _ _ _ _ n) in *. destruct IH as (I1 & I2 & I3).
      unfold ideal. cbn [ideal3_run]. fold ideal. unfold ideal3_epoch. cbn [i_syn i_trace]. cbn [rs_step rs_w rs_tag rs_x1].
      change (rule_of p SWeights) with (Some rstdp_w). change (rule_of p STag1) with (Some (rstdp_terms lr ap am tau)). cbv iota.
      set (rho := facts3 p (S n) (pre_train 1 i2 (S n)) (post_train 1 i2 (S n)) (seen (S n)) (ideal n) post pre).
      assert (forall k j, pre_train 1 i2 (S n) k j = nonzero (f_in (i2 (n * 1 + j)%nat) k)) as Pt.
      { intros k j. unfold pre_train. replace (S n - 1)%nat with n by lia. reflexivity. }
      assert (pre_train 1 i2 (S n) pre 1 = nonzero (f_in (g_spk (i (S n))) pre)) as Ep by (rewrite Pt; replace (n * 1 + 1)%nat with (S n) by lia; reflexivity).
      assert (post_train 1 i2 (S n) post 1 = f_bap (g_spk (i (S n))) post) as Eq.
      { unfold post_train. replace ((S n - 1) * 1 + 1)%nat with (S n) by lia. reflexivity. }
      assert (occurs rho Pre = if nonzero (f_in (g_spk (i (S n))) pre) then 1%Q else 0%Q) as O1.
      { unfold rho. cbn [facts3 occurs]. unfold spiked. cbn [epoch p seq existsb]. rewrite Ep, orb_false_r. reflexivity. }
      assert (occurs rho Post = if f_bap (g_spk (i (S n))) post then 1%Q else 0%Q) as O2.
      { unfold rho. cbn [facts3 occurs]. unfold spiked. cbn [epoch p seq existsb]. rewrite Eq, orb_false_r. reflexivity. }
      assert (occurs rho (Periodic 0) = 1%Q) as O3.
      { unfold rho. cbn [facts3 occurs]. change (2 ^ Z.of_nat 0) with 1. rewrite Z.mod_1_r. reflexivity. }
      assert (at_event rho (Periodic 0) T = i_syn (ideal n) STag1 post pre) as V1 by reflexivity.
      assert (at_event rho (Periodic 0) Y2 == dy * g_y (i (S n)) TY2 post)%Q as V2.
      { change (at_event rho (Periodic 0) Y2) with (seen (S n) TY2 post 1%nat). unfold seen. cbn [power]. replace (S n * 1)%nat with (S n) by lia. ring. }
      assert (nonzero (f_in (g_spk (i (S n))) pre) = true -> at_event rho Pre Y1 == dy * g_y (i (S n)) TY1 post)%Q as V3.
      { intros Hs. change (at_event rho Pre Y1) with (seen (S n) TY1 post (last_spike (pre_train 1 i2 (S n) pre) 1)). cbn [last_spike]. rewrite Ep, Hs.
        unfold seen. cbn [power]. replace (S n * 1)%nat with (S n) by lia. ring. }
      assert (trace_at (decay_of p TX1) (impulse_of p TX1) (pre_train 1 i2 (S n) pre) (i_trace (ideal n) TX1 pre) 1 ==
              dx * i_trace (ideal n) TX1 pre + if nonzero (f_in (g_spk (i (S n))) pre) then ix else 0)%Q as V4.
      { cbn [trace_at p decay_of impulse_of xt f_decay f_impulse]. rewrite Ep. reflexivity. }
      assert (f_bap (g_spk (i (S n))) post = true -> at_event rho Post X1 ==
              dx * i_trace (ideal n) TX1 pre + if nonzero (f_in (g_spk (i (S n))) pre) then ix else 0)%Q as V5.
      { intros Hs. rewrite <- V4. unfold rho. cbn [facts3 at_event]. change (epoch p) with 1%nat. cbn [last_spike]. rewrite Eq, Hs. reflexivity. }
      split; [|split].
      + change (signs p) with m.
        assert (rs_w rk + rs_tag rk * (dy * g_y (i (S n)) TY2 post) == i_syn (ideal n) SWeights post pre + rule_value rho rstdp_w)%Q as S.
        { unfold rule_value, rstdp_w, term_value. cbn [map qsum fold_right t_atoms t_sign dependency qprod atom_value]. unfold signed. cbn [sign_value].
          rewrite O3, V1, V2, I1, I2. change (inject_Z 1) with 1%Q. ring. }
        cbn [keep_sign]. destruct m; rewrite S; reflexivity.
      + cbn [keep_sign]. rewrite rstdp_rule_value. unfold stdp_value. rewrite O1, O2, O3, V1.
        destruct (nonzero (f_in (g_spk (i (S n))) pre)), (f_bap (g_spk (i (S n))) post); rewrite ?V3, ?V5 by reflexivity; rewrite I2, ?I3; ring.
      + change (epoch p) with 1%nat. rewrite V4, I3. reflexivity. }
  destruct G as (G1 & G2 & G3). destruct (F n) as (F3 & F4). fold ideal in F3, F4. replace (n * 1)%nat with n in * by lia.
  destruct (F4 SWeights post pre) as (qw & Qw1 & Qw2), (F4 STag1 post pre) as (qt & Qt1 & Qt2).
  destruct (F3 TX1 pre eq_refl ltac:(discriminate)) as (qx & Qx1 & Qx2).
  split; [|split]; eexists; (split; [eassumption|]); [rewrite G1|rewrite G2|rewrite G3]; assumption.
Qed.
(** an instance: learning rate 1/2, A_plus 2, A_minus -1, decay 1/4; the pre-synaptic neuron spikes in steps 1 and 4, the post-synaptic
    one in step 2; the reward comes in step 3 *)
Definition rs_in (t : nat) : f3stim :=
  {| g_spk := stim 1 [1; 4]%nat [2]%nat t;
     g_y := fun v _ => match v with TY1 => if (t =? 2)%nat then 6%Q else 3%Q | TY2 => if (t =? 3)%nat then 5%Q else 0%Q | _ => 0%Q end |}.
Example rstdp_demo : exists c,
  build3 1 Mixed UseRegularImpulse (65534 # 65535) (fun v => match v with TX1 => half_decay 8 | _ => no_tau end) (rstdp_texts (1 # 2) 2 (-1) (1 # 4)) = Some c /\
  moderate (1 # 2) /\ moderate 2 /\ moderate (-1) /\ moderate (1 # 4) /\
  acts_as (1 # 2) 1 (-1) /\ acts_as 2 2 0 /\ acts_as (-1) (-1) 0 /\ acts_as (1 # 4) 1 (-2) /\
  exists q, f_syn (f3run c rs_in (resting 0) 3) SWeights 0 0 = Some q /\ (14 <= q)%Q /\ (q <= 15)%Q.
Proof.
  eexists. split; [vm_compute; reflexivity|]. do 4 (split; [vm_compute; reflexivity|]).
  do 4 (split; [right; (split; [discriminate|]); (split; [reflexivity|]); split; vm_compute; (discriminate || reflexivity)|]).
  eexists. split; [vm_compute; reflexivity|]. split; vm_compute; discriminate.
Qed.

(** ** Fixed point *)
Definition sent_y (i : stim3) (v : trace) : nat -> Z := h_y i v.
Definition y_var (s : conn) (v : trace) : nat -> Z := match v with TY2 => y2 s | TY3 => y3 s | _ => y1 s end.
Theorem three_factor_fixed_shows_received : forall c i s0 n v k, presynaptic v = false -> y_var (run3 c i s0 (S n)) v k = h_y (i (S n)) v k.
Proof.
  intros c i s0 n v k Hv. cbn [run3]. unfold conn_step3. destruct (lrn_guard _ _); destruct v; try discriminate Hv; reflexivity.
Qed.
Definition presame3 (a b : conn) : Prop := forall k, tx a k = tx b k /\ ty a k = ty b k /\ x1 a k = x1 b k /\ x2 a k = x2 b k.
Theorem three_factor_fixed_pre_side : forall c i s0 n k,
  let s := run3 c i s0 n in let s' := run c (fun t => h_stim (i t)) s0 n in
  tx s k = tx s' k /\ ty s k = ty s' k /\ x1 s k = x1 s' k /\ x2 s k = x2 s' k.
Proof.
  intros c i s0 n. change (presame3 (run3 c i s0 n) (run c (fun t => h_stim (i t)) s0 n)).
  assert (forall t j a b, presame3 a b -> presame3 (spike_phase3 c t j a) (spike_phase c t (h_stim j) b)) as Sp.
  { intros t j a b H k. destruct (H k) as (H1 & H2 & H3 & H4).
    cbn [spike_phase3 spike_phase tx ty x1 x2]. rewrite H1, H3, H4. unfold post_spike. cbn [fst snd]. rewrite H2. auto. }
  assert (forall t j a b, presame3 a b -> presame3 (learn_phase3 c t j a) (learn_phase c t (h_stim j) b)) as Le.
  { intros t j a b H k. destruct (H k) as (H1 & H2 & H3 & H4).
    cbn [learn_phase3 learn_phase tx ty x1 x2]. unfold x_hist. rewrite H1, H3, H4. auto. }
  induction n as [|n IH]; [intros k; auto|]. cbn [run3 run]. unfold conn_step3, conn_step. destruct (lrn_guard _ _); [apply Le|]; apply Sp, IH.
Qed.
(** np.exp(-1/65535) * v, up to rounding: 1 - 1/65535 <= exp(-1/65535) <= 1 *)
Definition slow (f : Z -> Q) : Prop :=
  forall v : Z, (0 <= v -> (inject_Z v * (1 - (1 # 65535)) <= f v)%Q /\ (f v <= inject_Z v)%Q) /\
                (v <= 0 -> (inject_Z v <= f v)%Q /\ (f v <= inject_Z v * (1 - (1 # 65535)))%Q).
Lemma slow_decay f r v : slow f -> (0 <= r)%Q -> 0 <= v <= 65535 -> (v = 0 -> decay_trace f r v = 0) /\ v - 1 <= decay_trace f r v <= v.
Proof.
  intros Hf Hr Hv. destruct (Hf v) as [H _]. destruct (H ltac:(lia)) as [L U]. unfold decay_trace.
  assert (Qfloor (f v) <= v) as F1 by (pose proof (Qfloor_resp_le _ _ U) as W; rewrite Qfloor_Z in W; exact W).
  assert (v - 1 <= Qfloor (f v)) as F2.
  { rewrite <- (Qfloor_Z (v - 1)). apply Qfloor_resp_le. eapply Qle_trans; [|exact L].
    unfold Qle, inject_Z, Qmult, Qminus, Qplus, Qopp. cbn [Qnum Qden]. lia. }
  assert (Qfloor (f v) = v -> qlt r (qfrac (f v)) = false) as F3.
  { intros E. unfold qlt, qfrac. rewrite E. apply negb_false_iff, Qle_bool_iff. lra. }
  unfold round_up. split.
  - intros ->. assert (Qfloor (f 0) = 0) as E.
    { assert (0 <= Qfloor (f 0)); [|lia]. assert (0 <= f 0%Z)%Q as P by (change (inject_Z 0) with 0%Q in L; lra). pose proof (Qfloor_resp_le _ _ P) as W. exact W. }
    rewrite (F3 E). lia.
  - destruct (qlt _ _) eqn:E; [|lia]. assert (Qfloor (f v) <> v) by (intro K; specialize (F3 K); congruence). lia.
Qed.
Lemma slow_decay_neg f r v : slow f -> (0 <= r)%Q -> v <= 0 -> v <= decay_trace f r v <= 0.
Proof.
  intros Hf Hr Hv. destruct (Z.eq_dec v 0) as [->|Nv]; [destruct (slow_decay f r 0 Hf Hr ltac:(lia)) as [H _]; rewrite H; lia|].
  destruct (Hf v) as [_ H]. destruct (H Hv) as [L U]. unfold decay_trace, round_up.
  assert (v <= Qfloor (f v)) as F1 by (pose proof (Qfloor_resp_le _ _ L) as W; rewrite Qfloor_Z in W; exact W).
  assert (Qfloor (f v) < 0) as F2.
  { apply Z.lt_nge. intro G. assert (0 <= f v)%Q as P.
    { eapply Qle_trans; [|apply Qfloor_le]. change 0%Q with (inject_Z 0). rewrite <- Zle_Qle. exact G. }
    pose proof (Qle_trans _ _ _ P U) as W. unfold Qle, inject_Z, Qmult, Qminus, Qplus, Qopp in W. cbn [Qnum Qden] in W. lia. }
  destruct (qlt _ _); lia.
Qed.
(** the value of y1, y2 or y3 of neuron [m] that the rules see for step [t] of the epoch when they are applied at the end of time step n + 1 *)
Definition rules_see (c : conn_cfg) (i : nat -> stim3) (s0 : conn) (n : nat) (tr : trace) (m t : nat) : Z :=
  y_hist c (h_stim (i (S n))) (spike_phase3 c (Z.of_nat (S n)) (i (S n)) (run3 c i s0 n)) tr t m.
(** the step of the current epoch in which neuron [m] last spiked, 0 if it did not *)
Definition post_time (c : conn_cfg) (i : nat -> stim3) (s0 : conn) (n m : nat) : Z :=
  ty (spike_phase3 c (Z.of_nat (S n)) (i (S n)) (run3 c i s0 n)) m.
Section FixedPoint.
Variables (c : conn_cfg) (f : Z -> Q) (x : trace -> trace_cfg) (i : nat -> stim3) (s0 : conn) (n : nat).
Hypothesis Hc : forall tr, cfg_trace c tr = three_factor_cfg f x tr.
Hypothesis Hf : slow f.
Hypothesis Hd : (0 <= r_yd (h_stim (i (S n))))%Q.
Hypothesis Hi : 0 <= r_yi (h_stim (i (S n))).
Lemma see_step tr m t : presynaptic tr = false ->
  rules_see c i s0 n tr m 0 = h_y (i (S n)) tr m /\
  exists d, d = decay_trace f (r_yd (h_stim (i (S n)))) (rules_see c i s0 n tr m t) /\
  rules_see c i s0 n tr m (S t) = if post_time c i s0 n m =? Z.of_nat (S t) then clip 0 127 d else d.
Proof using Hc Hi.
  intros Hv. split; [destruct tr; try discriminate Hv; reflexivity|]. eexists. split; [reflexivity|].
  unfold rules_see at 1, y_hist at 1. cbn [history]. rewrite (Hc tr).
  assert (three_factor_cfg f x tr = {| imp_int := 0; imp_frac := 0; decay_fn := Some f |}) as E by (destruct tr; try discriminate Hv; reflexivity).
  unfold history_step, add_impulse, round_up. rewrite E. cbn [decay_fn imp_int imp_frac].
  replace (r_yi (h_stim (i (S n))) <? 0) with false by (symmetry; apply Z.ltb_ge; exact Hi). rewrite !Z.add_0_r.
  unfold rules_see, y_hist. rewrite (Hc tr), E. reflexivity.
Qed.
(** signals within the range of a trace are seen, at most one unit lower per step of the epoch *)
Theorem three_factor_fixed_sees_signal : forall tr m t, presynaptic tr = false -> 0 <= h_y (i (S n)) tr m <= 127 ->
  Z.max 0 (h_y (i (S n)) tr m - Z.of_nat t) <= rules_see c i s0 n tr m t <= h_y (i (S n)) tr m.
Proof using Hc Hi Hd Hf.
  intros tr m t Hv Hy. induction t as [|t IH]; [rewrite (proj1 (see_step tr m 0 Hv)); lia|].
  destruct (see_step tr m t Hv) as (_ & d & Ed & ->).
  destruct (slow_decay f _ (rules_see c i s0 n tr m t) Hf Hd ltac:(lia)) as [D0 D1]. rewrite <- Ed in D0, D1.
  assert (0 <= d) by lia.
  unfold clip. destruct (_ =? _); lia.
Qed.
(** a negative signal is seen as such before the post-synaptic spike, and as 0 from the spike on *)
Theorem three_factor_fixed_punishment_lost : forall tr m t, presynaptic tr = false -> h_y (i (S n)) tr m <= 0 ->
  h_y (i (S n)) tr m <= rules_see c i s0 n tr m t <= 0 /\
  (0 < post_time c i s0 n m <= Z.of_nat t -> rules_see c i s0 n tr m t = 0).
Proof using Hc Hi Hd Hf.
  intros tr m t Hv Hy. induction t as [|t [IH1 IH2]]; [rewrite (proj1 (see_step tr m 0 Hv)); lia|].
  destruct (see_step tr m t Hv) as (_ & d & Ed & ->).
  pose proof (slow_decay_neg f _ (rules_see c i s0 n tr m t) Hf Hd ltac:(lia)) as D. rewrite <- Ed in D.
  unfold clip. destruct (_ =? _) eqn:E; [lia|]. apply Z.eqb_neq in E. split; [lia|]. intros P. rewrite IH2 in D by lia. lia.
Qed.
(** a signal above 127 is cut to the range of a trace by the post-synaptic spike *)
Theorem three_factor_fixed_signal_cut : forall tr m t, presynaptic tr = false -> 0 <= h_y (i (S n)) tr m <= 65535 ->
  0 < post_time c i s0 n m <= Z.of_nat t -> 0 <= rules_see c i s0 n tr m t <= 127.
Proof using Hc Hi Hd Hf.
  intros tr m t Hv Hy. assert (0 <= rules_see c i s0 n tr m t <= 65535 /\ (0 < post_time c i s0 n m <= Z.of_nat t -> 0 <= rules_see c i s0 n tr m t <= 127)); [|tauto].
  induction t as [|t [IH1 IH2]]; [rewrite (proj1 (see_step tr m 0 Hv)); lia|].
  destruct (see_step tr m t Hv) as (_ & d & Ed & ->).
  destruct (slow_decay f _ (rules_see c i s0 n tr m t) Hf Hd ltac:(lia)) as [D0 D1]. rewrite <- Ed in D0, D1.
  assert (0 <= d) by lia.
  unfold clip. destruct (_ =? _) eqn:E; [lia|]. apply Z.eqb_neq in E. split; [lia|]. intros P. specialize (IH2 ltac:(lia)). lia.
Qed.
End FixedPoint.

(** an instance with both signals: y1 = 20 and y2 = -20, epoch of 4 steps, post-synaptic spike in step 2; the functions differ from exp only
    by rounding *)
Definition f3_cfg : conn_cfg :=
  {| t_epoch := 4; cfg_sign := Mixed; cfg_graded := UseRegularImpulse;
     cfg_trace := three_factor_cfg (fun v => inject_Z v * (1 - (1 # 65536)))%Q (fun _ => {| imp_int := 16; imp_frac := 0; decay_fn := None |});
     cfg_rule := fun _ => None; cfg_decimate := None |}.
Definition f3_in (t : nat) : stim3 :=
  {| h_stim := {| s_in := fun _ => 0; s_bap := fun _ => (t =? 2)%nat; r_post := 0; r_xd := 0; r_yd := 1 # 2; r_xi := 0; r_yi := 3; r_syn := 0 |};
     h_y := fun v _ => match v with TY1 => 20 | TY2 => -20 | _ => 0 end |}.
Definition f3_rest : conn :=
  {| tx := fun _ => 0; x1 := fun _ => 0; x2 := fun _ => 0; ty := fun _ => 0; y1 := fun _ => 0; y2 := fun _ => 0; y3 := fun _ => 0; syn_val := fun _ _ _ => 0 |}.
Example f3_fixed_demo :
  slow (fun v => inject_Z v * (1 - (1 # 65536)))%Q /\ post_time f3_cfg f3_in f3_rest 3 0 = 2 /\
  map (fun t => (rules_see f3_cfg f3_in f3_rest 3 TY1 0 t, rules_see f3_cfg f3_in f3_rest 3 TY2 0 t)) [0; 1; 2; 4]%nat = [(20, -20); (20, -20); (20, 0); (20, 0)].
Proof.
  split; [|split; vm_compute; reflexivity].
  intros v. split; intros Hv; split; unfold Qle, inject_Z, Qmult, Qminus, Qplus, Qopp; cbn [Qnum Qden]; lia.
Qed.
