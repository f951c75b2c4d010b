(** C90, C91: S4D neurons *)
From Coq Require Import List Arith Bool ZArith QArith Qabs Lia Lqa.
From Verif Require Import S4d_Model S4d_Spec S4d_Proofs.
Import ListNotations.
Open Scope Q_scope.

(** ** C90: S4d computes the response of its linear system *)
(** the output of step k is twice the real part of c times the state that the inputs up to and including step k lead to *)
Theorem s4d_computes_the_response_of_the_linear_system : forall a b c s0 xs k, (k < length xs)%nat ->
  length (s4d_outputs a b c s0 xs) = length xs /\ nth k (s4d_outputs a b c s0 xs) 0 == lti a b c s0 (firstn (S k) xs).
Proof. intros a b c s0 xs k Hk; split; [apply s4d_outputs_length | apply s4d_closed, Hk]. Qed.

(** linear in state and input together *)
Theorem s4d_superposition : forall a b c p q s t xs ys k, length xs = length ys ->
  nth k (s4d_outputs a b c (plus (times (creal p) s) (times (creal q) t)) (mix p q xs ys)) 0 ==
  p * nth k (s4d_outputs a b c s xs) 0 + q * nth k (s4d_outputs a b c t ys) 0.
Proof. intros a b c p q s t xs ys k Hl; apply s4d_mix; [exact Hl | reflexivity]. Qed.

(** a later input gives the same output later *)
Theorem s4d_time_invariant : forall a b c d xs k,
  (forall i, (i < d)%nat -> nth i (s4d_outputs a b c (creal 0) (repeat 0 d ++ xs)) 0 == 0) /\
  nth (d + k) (s4d_outputs a b c (creal 0) (repeat 0 d ++ xs)) 0 == nth k (s4d_outputs a b c (creal 0) xs) 0.
Proof.
  intros a b c d xs k.
  assert (G : forall d s, ceq s (creal 0) ->
    (forall i, (i < d)%nat -> nth i (s4d_outputs a b c s (repeat 0 d ++ xs)) 0 == 0) /\
    nth (d + k) (s4d_outputs a b c s (repeat 0 d ++ xs)) 0 == nth k (s4d_outputs a b c (creal 0) xs) 0).
  { clear d; induction d as [|d IH]; intros s Hs.
    - split; [intros i Hi; lia |]; cbn [repeat app Nat.add]; apply s4d_ext, Hs.
    - cbn [repeat app s4d_outputs s4d_step Nat.add].
      assert (Hn : ceq (cadd (cmul s a) (cmul (creal 0) b)) (creal 0)) by (rewrite Hs; cring).
      destruct (IH _ Hn) as [I1 I2]; split.
      + intros [|i] Hi; cbn [nth]; [|apply I1; lia].
        rewrite Hn; cbn [cmul creal cre cim]; ring.
      + cbn [nth]; exact I2. }
  apply G; reflexivity.
Qed.

(** the equations of the documentation describe another output: theirs lags one step and lacks the factor 2 *)
Theorem s4d_documented_equations_refuted :
  exists a b c xs k, (k < length xs)%nat /\ nth k (s4d_outputs a b c (creal 0) xs) 0 == 2 /\ cre (documented a b c (creal 0) xs k) == 0 /\
  cre (documented a b c (creal 0) xs (S k)) == 1.
Proof. exists (creal 1), (creal 1), (creal 1), [1; 0], 0%nat; repeat apply conj; [cbn; lia | reflexivity | reflexivity | reflexivity]. Qed.
(** in general: the output of step k is twice the real part of the documented activation of step k + 1 *)
Theorem s4d_outputs_twice_the_next_documented_activation : forall a b c s0 xs k, (k < length xs)%nat ->
  nth k (s4d_outputs a b c s0 xs) 0 == 2 * cre (documented a b c s0 xs (S k)).
Proof. intros a b c s0 xs k Hk; rewrite (s4d_closed xs a b c s0 k Hk); reflexivity. Qed.

(** ** C91: SigmaS4dDelta and SigmaS4dDeltaLayer *)
(** what has been sent is within the threshold of the response to what has been received *)
Theorem sigma_s4d_delta_within_threshold : forall th p xs k, 0 < th ->
  Qabs (rlti (cre (pa p)) (cre (pb p)) (cre (pc p)) (sums (firstn k xs)) - total (firstn k (snd (ss_run false th p sst0 xs)))) < th.
Proof. intros th p xs k Hth; rewrite run_firstn, follow_gap; apply run_false, Hth. Qed.
Theorem sigma_s4d_delta_exact_without_threshold : forall th p xs k, th <= 0 ->
  rlti (cre (pa p)) (cre (pb p)) (cre (pc p)) (sums (firstn k xs)) == total (firstn k (snd (ss_run false th p sst0 xs))).
Proof.
  intros th p xs k Hth; rewrite run_firstn.
  destruct (inv_run false th p (firstn k xs)) as (_ & _ & I3 & I4); rewrite I4, I3, run_exact by exact Hth; ring.
Qed.
(** with cum_error twice the threshold, and not less *)
Theorem sigma_s4d_delta_cumulative_within_twice_the_threshold : forall th p xs k, 0 < th ->
  Qabs (rlti (cre (pa p)) (cre (pb p)) (cre (pc p)) (sums (firstn k xs)) - total (firstn k (snd (ss_run true th p sst0 xs)))) < 2 * th.
Proof. intros th p xs k Hth; rewrite run_firstn, follow_gap; apply run_cum, Hth. Qed.
Theorem sigma_s4d_delta_cumulative_threshold_refuted : forall r, 1 <= r -> r < 2 ->
  exists p xs, r <= Qabs (rlti (cre (pa p)) (cre (pb p)) (cre (pc p)) (sums xs) - total (snd (ss_run true 1 p sst0 xs))).
Proof.
  intros r Hr Hr2.
  exists {| pa := creal 0; pb := creal 1; pc := creal (1 # 2) |}.
  exists [(1 # 2) * r; - (3 # 2) * r].
  set (p := {| pa := creal 0; pb := creal 1; pc := creal (1 # 2) |}).
  destruct (inv_run true 1 p [(1 # 2) * r; - (3 # 2) * r]) as (_ & _ & I3 & I4).
  cut (Qabs (residue (fst (ss_run true 1 p sst0 [(1 # 2) * r; - (3 # 2) * r]))) == r).
  { intros E. rewrite follow_gap, E; apply Qle_refl. }
  cbn [ss_run]; unfold ss_step at 1; cbn zeta; cbn [sst0 sg s4 act residue error].
  set (y1 := cre (pc p) * (0 * cre (pa p) + ((1 # 2) * r + 0) * cre (pb p)) * 2).
  assert (Y1 : y1 == (1 # 2) * r) by (unfold y1, p; cbn [pa pb pc creal cre]; field).
  assert (F1 : Qle_bool 1 (Qabs (0 + (y1 - 0 + 0))) = false).
  { apply not_true_iff_false; intros C; apply Qle_bool_iff in C.
    assert (Z : 0 + (y1 - 0 + 0) == (1 # 2) * r) by (rewrite Y1; ring); rewrite Z in C.
    assert (N : 0 <= (1 # 2) * r) by (lra); rewrite (Qabs_pos ((1 # 2) * r) N) in C; lra. }
  rewrite F1; change (Qle_bool (Qabs 0) 0) with true; cbn iota.
  unfold ss_step; cbn zeta; cbn [sg s4 act residue error].
  set (y2 := cre (pc p) * (_ * cre (pa p) + _ * cre (pb p)) * 2).
  assert (Y2 : y2 == - r) by (unfold y2, p; cbn [pa pb pc creal cre]; field).
  set (d2 := y2 - y1 + _).
  assert (D2 : d2 == - r) by (unfold d2; rewrite Y2; ring).
  assert (F2 : Qle_bool 1 (Qabs ((0 + (y1 - 0 + 0)) * (1 - 0) + d2)) = false).
  { apply not_true_iff_false; intros C; apply Qle_bool_iff in C.
    assert (Z : (0 + (y1 - 0 + 0)) * (1 - 0) + d2 == - ((1 # 2) * r)) by (rewrite Y1, D2; field); rewrite Z, Qabs_opp in C.
    assert (N : 0 <= (1 # 2) * r) by (lra); rewrite (Qabs_pos ((1 # 2) * r) N) in C; lra. }
  rewrite F2; cbn [fst residue].
  setoid_replace (d2 - 0) with (- r) by (rewrite D2; ring).
  rewrite Qabs_opp; apply Qabs_pos; lra.
Qed.

(** followed by a neuron that itself receives changes which track a signal [us] up to [e]: errors do not accumulate *)
Theorem sigma_s4d_delta_tracks_a_signal : forall th e p us xs, 0 < th -> 0 <= e -> within e (sums xs) us ->
  Qabs (rlti (cre (pa p)) (cre (pb p)) (cre (pc p)) us - total (snd (ss_run false th p sst0 xs))) <
  th + 2 * Qabs (cre (pc p)) * Qabs (cre (pb p)) * e * qsum (qpow (Qabs (cre (pa p)))) (length us).
Proof.
  intros th e p us xs Hth He W.
  pose proof (rlti_gap (cre (pa p)) (cre (pb p)) (cre (pc p)) e (sums xs) us He W) as G.
  pose proof (sigma_s4d_delta_within_threshold th p xs (length xs) Hth) as T.
  rewrite firstn_all in T; rewrite (run_firstn false th p xs (length xs) sst0), firstn_all in T.
  assert (L : length (sums xs) = length us) by apply W.
  rewrite (qsum_rev (qpow (Qabs (cre (pa p)))) (length (sums xs))), L in G.
  set (A := rlti _ _ _ us) in *; set (B := rlti _ _ _ (sums xs)) in *; set (C := total _) in *.
  set (D := 2 * _ * _ * _ * _) in *.
  setoid_replace (A - C) with (- (B - A) + (B - C)) by ring.
  eapply Qle_lt_trans; [apply Qabs_triangle |].
  rewrite Qabs_opp; lra.
Qed.
Theorem sigma_s4d_delta_tracks_a_signal_stable : forall th e p us xs, 0 < th -> 0 <= e -> within e (sums xs) us -> Qabs (cre (pa p)) < 1 ->
  Qabs (rlti (cre (pa p)) (cre (pb p)) (cre (pc p)) us - total (snd (ss_run false th p sst0 xs))) <
  th + 2 * Qabs (cre (pc p)) * Qabs (cre (pb p)) * e / (1 - Qabs (cre (pa p))).
Proof.
  intros th e p us xs Hth He W Ha.
  eapply Qlt_le_trans; [apply sigma_s4d_delta_tracks_a_signal; eassumption |].
  apply Qplus_le_compat; [apply Qle_refl |].
  unfold Qdiv; apply Qmult_le_compat_nonneg; split; try apply Qle_refl.
  - pose proof (Qabs_nonneg (cre (pc p))); pose proof (Qabs_nonneg (cre (pb p))).
    repeat apply Qmult_le_0_compat; try assumption; lra.
  - clear; induction (length us) as [|n IH]; cbn [qsum]; [lra |].
    pose proof (qpow_nonneg (Qabs (cre (pa p))) n (Qabs_nonneg _)); lra.
  - apply geometric_bound; [apply Qabs_nonneg | exact Ha].
Qed.

(** the layer: what has been sent on channel j after k + 2 steps is within d thresholds of the sum of the responses of its d states to
    the first k inputs of the channel; nothing before *)
Theorem s4d_layer_follows : forall n d th P xs k j, (0 < d)%nat -> (j < n)%nat -> 0 < th -> (k + 2 <= length xs)%nat ->
  Qabs (qsum (fun m => rlti (cre (pa (P (j * d + m)%nat))) (cre (pb (P (j * d + m)%nat))) (cre (pc (P (j * d + m)%nat)))
                            (sums (firstn k (channel j xs)))) d
        - total (firstn (k + 2) (channel j (layer_outputs n d true th P layer0 xs)))) < inject_Z (Z.of_nat d) * th.
Proof. intros; apply layer_follow; assumption. Qed.
Theorem s4d_layer_silent_for_two_steps : forall n d th P xs k j, (j < n)%nat -> (k < 2)%nat ->
  nth k (channel j (layer_outputs n d true th P layer0 xs)) 0 == 0.
Proof. intros; apply layer_first; assumption. Qed.
(** the connections: every state of a channel gets its input, and its output is the sum over its states *)
Theorem s4d_layer_connections : forall n d x y j m, (j < n)%nat -> (m < d)%nat ->
  dot (fun i k => conn_weights d k i) n true x (j * d + m)%nat == x j /\
  dot (conn_weights d) (n * d) true y j == qsum (fun i => y (j * d + i)%nat) d.
Proof. intros n d x y j m Hj Hm; split; [apply dot_in; assumption | apply dot_out, Hj]. Qed.

(** complex parameters, which S4d accepts, do not work here: the same parameters give the responses 2 0 -2 and 2 0 0 to a pulse,
    without threshold *)
Theorem sigma_s4d_delta_complex_parameters_refuted :
  exists p xs, map Qred (s4d_outputs (pa p) (pb p) (pc p) (creal 0) (sums xs)) = [2; 0; -2] /\
               map Qred (sums (snd (ss_run false 0 p sst0 xs))) = [2; 0; 0].
Proof. exists {| pa := {| cre := 0; cim := 1 |}; pb := creal 1; pc := creal 1 |}, [1; -1; 0]; split; reflexivity. Qed.
(** without message bits the layer forwards ones: after an input of 3 the true response is 6, the total output 1 *)
Theorem s4d_layer_binary_messages_refuted :
  exists P xs, rlti (cre (pa (P 0%nat))) (cre (pb (P 0%nat))) (cre (pc (P 0%nat))) (sums (firstn 1 (channel 0 xs))) == 6 /\
               total (channel 0 (layer_outputs 1 1 false (1 # 10) P layer0 xs)) == 1.
Proof. exists (fun _ => {| pa := creal 0; pb := creal 1; pc := creal 1 |}), [fun _ => 3; fun _ => 0; fun _ => 0]; split; reflexivity. Qed.
(** state_exp, documented as relevant for nc models only, scales the threshold of the floating-point model *)
Theorem sigma_s4d_delta_state_exp_refuted :
  exists vth e p xs, 0 < vth /\ vth < Qabs (rlti (cre (pa p)) (cre (pb p)) (cre (pc p)) (sums xs) - total (snd (ss_run false (threshold vth e) p sst0 xs))).
Proof. exists 1, 6%Z, {| pa := creal 0; pb := creal 1; pc := creal 1 |}, [5]; split; reflexivity. Qed.

(** ** Examples *)
Definition ex_p : params := {| pa := creal (1 # 2); pb := creal 1; pc := creal 1 |}.
Example ex_s4d : map Qred (s4d_outputs (creal (1 # 2)) (creal 1) (creal 1) (creal 0) [1; 0; 0; 4]) = [2; 1; 1 # 2; 33 # 4].
Proof. reflexivity. Qed.
Example ex_s4d_complex : map Qred (s4d_outputs {| cre := 0; cim := 1 |} (creal 1) (creal 1) (creal 0) [1; 0; 0; 0]) = [2; 0; -2; 0].
Proof. reflexivity. Qed.
Example ex_sigma : map Qred (snd (ss_run false 1 ex_p sst0 [1; 0; 0; 0])) = [2; 1; 0; 0].
Proof. reflexivity. Qed.
(* an input that tracks 1, 1, 1 up to 1/4 *)
Example ex_tracks : within (1 # 4) (sums [3 # 4; 1 # 4; 0]) [1; 1; 1].
Proof. split; [reflexivity |]; intros [|[|[|i]]] Hi; cbn in Hi; try lia; intros C; discriminate C. Qed.
Example ex_layer : map Qred (channel 1 (layer_outputs 2 2 true (1 # 10) (fun _ => ex_p) layer0
   [fun i => if (i =? 1)%nat then 1 else 5; fun _ => 0; fun _ => 0; fun _ => 0])) = [0; 0; 4; 2].
Proof. reflexivity. Qed.
