From Coq Require Import List Arith Bool ZArith QArith Qabs Lia Lqa Setoid Morphisms.
From Verif Require Import S4d_Model S4d_Spec.
Import ListNotations.
Open Scope Q_scope.

Definition ceq (x y : cplx) : Prop := cre x == cre y /\ cim x == cim y.
Global Instance ceq_equiv : Equivalence ceq.
Proof.
  split; [intros x; split; reflexivity | intros x y [H1 H2]; split; symmetry; assumption |].
  intros x y z [A1 A2] [B1 B2]; split; etransitivity; eassumption.
Qed.
Global Instance cadd_proper : Proper (ceq ==> ceq ==> ceq) cadd.
Proof. intros x y [H1 H2] u v [H3 H4]; split; cbn [cadd cre cim]; [rewrite H1, H3 | rewrite H2, H4]; reflexivity. Qed.
Global Instance cmul_proper : Proper (ceq ==> ceq ==> ceq) cmul.
Proof. intros x y [H1 H2] u v [H3 H4]; split; cbn [cmul cre cim]; rewrite H1, H2, H3, H4; reflexivity. Qed.
Global Instance cre_proper : Proper (ceq ==> Qeq) cre.
Proof. intros x y [H _]; exact H. Qed.
Global Instance creal_proper : Proper (Qeq ==> ceq) creal.
Proof. intros x y H; split; cbn [creal cre cim]; [exact H | reflexivity]. Qed.
Lemma times_cmul : times = cmul.
Proof. reflexivity. Qed.
Lemma plus_cadd : plus = cadd.
Proof. reflexivity. Qed.
Ltac std := rewrite ?times_cmul, ?plus_cadd.
Ltac cring := split; cbn [cadd cmul creal cre cim]; ring.

Lemma csum_ext : forall n f g, (forall i, (i < n)%nat -> ceq (f i) (g i)) -> ceq (csum f n) (csum g n).
Proof.
  induction n as [|n IH]; intros f g H; cbn [csum]; std; [reflexivity |].
  rewrite (IH f g), (H n); [reflexivity | lia | intros i Hi; apply H; lia].
Qed.
Lemma csum_scale : forall n a f, ceq (cmul a (csum f n)) (csum (fun i => cmul a (f i)) n).
Proof.
  induction n as [|n IH]; intros a f; cbn [csum]; std; [cring |].
  rewrite <- IH; cring.
Qed.

Lemma lti_state_snoc : forall a b s0 xs x,
  ceq (lti_state a b s0 (xs ++ [x])) (cadd (cmul (lti_state a b s0 xs) a) (cmul (creal x) b)).
Proof.
  intros a b s0 xs x; unfold lti_state; rewrite app_length; cbn [length]; rewrite Nat.add_1_r.
  cbn [cpow csum]; std.
  set (k := length xs).
  rewrite (csum_ext k (fun i => cmul (cpow a (S k - 1 - i)) (cmul b (creal (nth i (xs ++ [x]) 0))))
                      (fun i => cmul a (cmul (cpow a (k - 1 - i)) (cmul b (creal (nth i xs 0)))))).
  - rewrite <- csum_scale.
    replace (S k - 1 - k)%nat with O by lia; cbn [cpow]; std.
    rewrite app_nth2 by (unfold k; lia).
    replace (k - length xs)%nat with O by (unfold k; lia); cbn [nth].
    cring.
  - intros i Hi; rewrite app_nth1 by (exact Hi).
    replace (S k - 1 - i)%nat with (S (k - 1 - i)) by lia; cbn [cpow]; std; cring.
Qed.

Lemma s4d_outputs_length : forall xs a b c s, length (s4d_outputs a b c s xs) = length xs.
Proof. induction xs as [|x xs IH]; intros a b c s; [reflexivity |]; cbn [s4d_outputs s4d_step length]; rewrite IH; reflexivity. Qed.

Lemma s4d_gen : forall xs ys a b c s0 s k, ceq s (lti_state a b s0 ys) -> (k < length xs)%nat ->
  nth k (s4d_outputs a b c s xs) 0 == lti a b c s0 (ys ++ firstn (S k) xs).
Proof.
  induction xs as [|x xs IH]; intros ys a b c s0 s k Hs Hk; [cbn in Hk; lia |].
  cbn [s4d_outputs s4d_step].
  assert (Hn : ceq (cadd (cmul s a) (cmul (creal x) b)) (lti_state a b s0 (ys ++ [x]))).
  { rewrite lti_state_snoc, Hs; reflexivity. }
  destruct k as [|k].
  - cbn [nth firstn]; unfold lti; std.
    rewrite <- Hn; cbn [cmul creal cre cim]; ring.
  - cbn [nth]; rewrite (IH (ys ++ [x]) a b c s0 _ k Hn) by (cbn in Hk; lia).
    rewrite <- app_assoc; reflexivity.
Qed.
Lemma lti_state_nil : forall a b s0, ceq (lti_state a b s0 []) s0.
Proof. intros a b s0; unfold lti_state; cbn [length cpow csum]; std; cring. Qed.
Lemma s4d_closed : forall xs a b c s0 k, (k < length xs)%nat ->
  nth k (s4d_outputs a b c s0 xs) 0 == lti a b c s0 (firstn (S k) xs).
Proof. intros xs a b c s0 k Hk; apply (s4d_gen xs [] a b c s0 s0 k); [symmetry; apply lti_state_nil | exact Hk]. Qed.

Lemma s4d_mix : forall xs ys a b c s t u p q k, length xs = length ys ->
  ceq u (cadd (cmul (creal p) s) (cmul (creal q) t)) ->
  nth k (s4d_outputs a b c u (mix p q xs ys)) 0 ==
  p * nth k (s4d_outputs a b c s xs) 0 + q * nth k (s4d_outputs a b c t ys) 0.
Proof.
  induction xs as [|x xs IH]; intros [|y ys] a b c s t u p q k Hl Hu; try discriminate Hl.
  - cbn [mix s4d_outputs]; destruct k; cbn [nth]; ring.
  - cbn [mix s4d_outputs s4d_step].
    destruct k as [|k]; cbn [nth].
    + destruct Hu as [Hu1 Hu2]; cbn [cadd cmul creal cre cim] in *; rewrite Hu1, Hu2; ring.
    + apply IH; [cbn in Hl; lia |].
      rewrite Hu; cring.
Qed.
Lemma s4d_ext : forall xs a b c s t k, ceq s t -> nth k (s4d_outputs a b c s xs) 0 == nth k (s4d_outputs a b c t xs) 0.
Proof.
  induction xs as [|x xs IH]; intros a b c s t k H; [reflexivity |].
  cbn [s4d_outputs s4d_step]; destruct k as [|k]; cbn [nth].
  - destruct H as [H1 H2]; cbn [cadd cmul creal cre cim]; rewrite H1, H2; reflexivity.
  - apply IH; rewrite H; reflexivity.
Qed.

(** ** real sums *)
Lemma qsum_ext : forall n f g, (forall i, (i < n)%nat -> f i == g i) -> qsum f n == qsum g n.
Proof.
  induction n as [|n IH]; intros f g H; cbn [qsum]; [reflexivity |].
  rewrite (IH f g), (H n); [reflexivity | lia | intros i Hi; apply H; lia].
Qed.
Lemma qsum_scale : forall n a f, a * qsum f n == qsum (fun i => a * f i) n.
Proof. induction n as [|n IH]; intros a f; cbn [qsum]; [ring |]; rewrite <- IH; ring. Qed.
Lemma qsum_sub : forall n f g, qsum f n - qsum g n == qsum (fun i => f i - g i) n.
Proof. induction n as [|n IH]; intros f g; cbn [qsum]; [ring |]; rewrite <- IH; ring. Qed.
Lemma qsum_abs : forall n f, Qabs (qsum f n) <= qsum (fun i => Qabs (f i)) n.
Proof.
  induction n as [|n IH]; intros f; cbn [qsum]; [apply Qle_refl |].
  eapply Qle_trans; [apply Qabs_triangle |]; apply Qplus_le_compat; [apply IH | apply Qle_refl].
Qed.
Lemma qsum_le : forall n f g, (forall i, (i < n)%nat -> f i <= g i) -> qsum f n <= qsum g n.
Proof.
  induction n as [|n IH]; intros f g H; cbn [qsum]; [apply Qle_refl |].
  apply Qplus_le_compat; [apply IH; intros i Hi; apply H; lia | apply H; lia].
Qed.
Lemma qsum_lt : forall n f g, (0 < n)%nat -> (forall i, (i < n)%nat -> f i < g i) -> qsum f n < qsum g n.
Proof.
  intros [|n] f g Hn H; [lia |]; cbn [qsum].
  apply Qplus_le_lt_compat || (assert (A : qsum f n <= qsum g n) by (apply qsum_le; intros i Hi; apply Qlt_le_weak, H; lia);
    assert (B : f n < g n) by (apply H; lia); lra).
Qed.
Lemma qsum_const : forall n a, qsum (fun _ => a) n == inject_Z (Z.of_nat n) * a.
Proof.
  induction n as [|n IH]; intros a; cbn [qsum]; [ring |].
  rewrite IH, Nat2Z.inj_succ; unfold Z.succ; rewrite inject_Z_plus; ring.
Qed.
Lemma qsum_add : forall n f g, qsum (fun i => f i + g i) n == qsum f n + qsum g n.
Proof. induction n as [|n IH]; intros f g; cbn [qsum]; [ring |]; rewrite IH; ring. Qed.
Lemma qsum_zero : forall n f, (forall i, (i < n)%nat -> f i == 0) -> qsum f n == 0.
Proof.
  induction n as [|n IH]; intros f H; cbn [qsum]; [reflexivity |].
  rewrite IH, (H n); [ring | lia | intros i Hi; apply H; lia].
Qed.
Lemma qsum_shift : forall n f, qsum f (S n) == f O + qsum (fun i => f (S i)) n.
Proof.
  induction n as [|n IH]; intros f; [cbn [qsum]; ring |].
  change (qsum f (S n) + f (S n) == f O + (qsum (fun i => f (S i)) n + f (S n))); rewrite IH; ring.
Qed.

(** ** the real system *)
Lemma rlti_snoc : forall a b c xs x,
  rlti a b c (xs ++ [x]) == a * rlti a b c xs + 2 * c * (b * x).
Proof.
  intros a b c xs x; unfold rlti; rewrite app_length; cbn [length]; rewrite Nat.add_1_r; cbn [qsum].
  set (k := length xs).
  rewrite (qsum_ext k (fun i => qpow a (S k - 1 - i) * b * nth i (xs ++ [x]) 0) (fun i => a * (qpow a (k - 1 - i) * b * nth i xs 0))).
  - rewrite <- qsum_scale.
    replace (S k - 1 - k)%nat with O by lia; cbn [qpow].
    rewrite app_nth2 by (unfold k; lia); replace (k - length xs)%nat with O by (unfold k; lia); cbn [nth]; ring.
  - intros i Hi; rewrite app_nth1 by exact Hi; replace (S k - 1 - i)%nat with (S (k - 1 - i)) by lia; cbn [qpow]; ring.
Qed.
Lemma rlti_ext : forall a b c xs ys, length xs = length ys -> (forall i, (i < length xs)%nat -> nth i xs 0 == nth i ys 0) -> rlti a b c xs == rlti a b c ys.
Proof.
  intros a b c xs ys Hl H; unfold rlti; rewrite <- Hl.
  rewrite (qsum_ext (length xs) _ (fun i => qpow a (length xs - 1 - i) * b * nth i ys 0)); [reflexivity |].
  intros i Hi; rewrite (H i Hi); reflexivity.
Qed.
Lemma rlti_lead : forall a b c x xs, x == 0 -> rlti a b c (x :: xs) == rlti a b c xs.
Proof.
  intros a b c x xs Hx; unfold rlti; cbn [length]; rewrite qsum_shift; cbn [nth]; rewrite Hx.
  rewrite (qsum_ext (length xs) (fun i => qpow a (S (length xs) - 1 - S i) * b * nth i xs 0) (fun i => qpow a (length xs - 1 - i) * b * nth i xs 0)); [ring |].
  intros i Hi; replace (S (length xs) - 1 - S i)%nat with (length xs - 1 - i)%nat by lia; reflexivity.
Qed.

Lemma sums_from_length : forall xs g, length (sums_from g xs) = length xs.
Proof. induction xs as [|x xs IH]; intros g; [reflexivity |]; cbn [sums_from length]; rewrite IH; reflexivity. Qed.
Lemma sums_from_app : forall xs ys g, exists g', g' == g + total xs /\ sums_from g (xs ++ ys) = sums_from g xs ++ sums_from g' ys.
Proof.
  induction xs as [|x xs IH]; intros ys g.
  - exists g; split; [cbn; ring | reflexivity].
  - destruct (IH ys (g + x)) as (g' & Hg & He); exists g'; split.
    + rewrite Hg; cbn [total fold_right]; unfold total; ring.
    + cbn [app sums_from]; rewrite He; reflexivity.
Qed.
Lemma total_app : forall xs ys, total (xs ++ ys) == total xs + total ys.
Proof. induction xs as [|x xs IH]; intros ys; cbn [app total fold_right]; [unfold total; ring |]; unfold total in *; rewrite IH; ring. Qed.

(** invariant of a neuron that has received [done] and sent [sent] *)
Definition inv (p : params) (q : sst) (done sent : list Q) : Prop :=
  sg q == total done /\
  2 * cre (pc p) * s4 q == rlti (cre (pa p)) (cre (pb p)) (cre (pc p)) (sums done) /\
  act q == rlti (cre (pa p)) (cre (pb p)) (cre (pc p)) (sums done) /\
  total sent == act q - residue q.
Lemma inv0 : forall p, inv p sst0 [] [].
Proof. intros p; unfold inv, sst0; cbn [sg s4 act residue]; repeat apply conj; unfold rlti; cbn; ring. Qed.
Lemma rlti_sums_snoc : forall a b c xs x, rlti a b c (sums (xs ++ [x])) == a * rlti a b c (sums xs) + 2 * c * (b * (total xs + x)).
Proof.
  intros a b c xs x; unfold sums.
  destruct (sums_from_app xs [x] 0) as (g & Hg & He); rewrite He; cbn [sums_from].
  rewrite rlti_snoc, Hg; ring.
Qed.
Lemma inv_step : forall cum th p q x done sent, inv p q done sent ->
  inv p (fst (ss_step cum th p q x)) (done ++ [x]) (sent ++ [snd (ss_step cum th p q x)]).
Proof.
  intros cum th p q x done sent (I1 & I2 & I3 & I4).
  assert (E : 2 * cre (pc p) * (s4 q * cre (pa p) + (x + sg q) * cre (pb p)) ==
              rlti (cre (pa p)) (cre (pb p)) (cre (pc p)) (sums (done ++ [x]))).
  { rewrite rlti_sums_snoc, <- I2, I1; ring. }
  assert (T : forall y, total (sent ++ [y]) == total sent + y) by (intros y; rewrite total_app; cbn; ring).
  assert (G : x + sg q == total (done ++ [x])) by (rewrite total_app, I1; cbn; ring).
  unfold ss_step; destruct cum; cbn zeta; cbn [fst snd]; unfold inv; cbn [sg s4 act residue]; repeat apply conj;
    try exact G; try exact E; try (rewrite <- E; ring); rewrite T, I4; ring.
Qed.
Lemma ss_run_snoc : forall cum th p xs x q,
  ss_run cum th p q (xs ++ [x]) =
  (fst (ss_step cum th p (fst (ss_run cum th p q xs)) x), snd (ss_run cum th p q xs) ++ [snd (ss_step cum th p (fst (ss_run cum th p q xs)) x)]).
Proof.
  intros cum th p xs x; induction xs as [|y xs IH]; intros q.
  - cbn [app ss_run fst snd]; destruct (ss_step cum th p q x); reflexivity.
  - cbn [app ss_run]; destruct (ss_step cum th p q y) as [q1 o1].
    rewrite IH; destruct (ss_run cum th p q1 xs) as [q2 o2]; reflexivity.
Qed.
Lemma inv_run : forall cum th p xs, inv p (fst (ss_run cum th p sst0 xs)) xs (snd (ss_run cum th p sst0 xs)).
Proof.
  intros cum th p xs; induction xs as [|x xs IH] using rev_ind; [apply inv0 |].
  rewrite ss_run_snoc; cbn [fst snd]; apply inv_step, IH.
Qed.

Lemma Qleb_false : forall x y, Qle_bool x y = false -> y < x.
Proof. intros x y H; apply Qnot_le_lt; intros C; apply Qle_bool_iff in C; rewrite C in H; discriminate H. Qed.
Lemma residue_false : forall th p q x, 0 < th -> Qabs (residue (fst (ss_step false th p q x))) < th.
Proof.
  intros th p q x Hth; unfold ss_step; cbn zeta; cbn [fst residue].
  set (d := cre (pc p) * (s4 q * cre (pa p) + (x + sg q) * cre (pb p)) * 2 - act q + residue q).
  destruct (Qle_bool th (Qabs d)) eqn:E.
  - assert (H : d - d == 0) by ring; rewrite H; exact Hth.
  - assert (H : d - 0 == d) by ring; rewrite H; apply Qleb_false, E.
Qed.
Lemma residue_exact : forall th p q x, th <= 0 -> residue (fst (ss_step false th p q x)) == 0.
Proof.
  intros th p q x Hth; unfold ss_step; cbn zeta; cbn [fst residue].
  set (d := cre (pc p) * (s4 q * cre (pa p) + (x + sg q) * cre (pb p)) * 2 - act q + residue q).
  assert (E : Qle_bool th (Qabs d) = true) by (apply Qle_bool_iff; eapply Qle_trans; [exact Hth | apply Qabs_nonneg]).
  rewrite E; ring.
Qed.
Lemma step_cum : forall th p q x, 0 < th -> Qabs (error q) < th ->
  Qabs (residue (fst (ss_step true th p q x))) < 2 * th /\ Qabs (error (fst (ss_step true th p q x))) < th.
Proof.
  intros th p q x Hth He; unfold ss_step; cbn zeta; cbn [fst residue error].
  set (d := cre (pc p) * (s4 q * cre (pa p) + (x + sg q) * cre (pb p)) * 2 - act q + residue q).
  destruct (Qle_bool th (Qabs (error q + d))) eqn:E.
  - split; [assert (H : d - d == 0) by ring; rewrite H; cbn; lra |].
    destruct (Qle_bool (Qabs d) 0) eqn:D.
    + apply Qle_bool_iff in D; apply Qle_bool_iff in E.
      assert (D0 : d == 0). { pose proof (Qabs_nonneg d). apply Qabs_Qle_condition in D; lra. }
      rewrite D0 in E; assert (H : error q + 0 == error q) by ring; rewrite H in E; lra.
    + assert (H : (error q + d) * (1 - 1) == 0) by ring; rewrite H; cbn; lra.
  - apply Qleb_false in E; apply Qabs_Qlt_condition in E; apply Qabs_Qlt_condition in He.
    split; [assert (H : d - 0 == d) by ring; rewrite H; apply Qabs_Qlt_condition; lra |].
    cbn [Qabs]; change (Qle_bool (Qabs 0) 0) with true; cbn iota.
    assert (H : (error q + d) * (1 - 0) == error q + d) by ring; rewrite H; apply Qabs_Qlt_condition; lra.
Qed.

Lemma run_false : forall th p xs, 0 < th -> Qabs (residue (fst (ss_run false th p sst0 xs))) < th.
Proof.
  intros th p xs Hth; induction xs as [|x xs IH] using rev_ind; [exact Hth |].
  rewrite ss_run_snoc; cbn [fst]; apply residue_false, Hth.
Qed.
Lemma run_exact : forall th p xs, th <= 0 -> residue (fst (ss_run false th p sst0 xs)) == 0.
Proof.
  intros th p xs Hth; induction xs as [|x xs IH] using rev_ind; [reflexivity |].
  rewrite ss_run_snoc; cbn [fst]; apply residue_exact, Hth.
Qed.
Lemma run_cum : forall th p xs, 0 < th ->
  Qabs (residue (fst (ss_run true th p sst0 xs))) < 2 * th /\ Qabs (error (fst (ss_run true th p sst0 xs))) < th.
Proof.
  intros th p xs Hth; induction xs as [|x xs IH] using rev_ind; [cbn; lra |].
  rewrite ss_run_snoc; cbn [fst]; apply step_cum; [exact Hth | apply IH].
Qed.
Lemma run_firstn : forall cum th p xs k q, firstn k (snd (ss_run cum th p q xs)) = snd (ss_run cum th p q (firstn k xs)).
Proof.
  intros cum th p xs; induction xs as [|x xs IH]; intros [|k] q; try reflexivity.
  cbn [ss_run firstn]; destruct (ss_step cum th p q x) as [q1 o1].
  specialize (IH k q1); destruct (ss_run cum th p q1 xs) as [q2 o2].
  destruct (ss_run cum th p q1 (firstn k xs)) as [q3 o3]; cbn [snd firstn] in *; rewrite IH; reflexivity.
Qed.
Lemma follow_gap : forall cum th p xs,
  Qabs (rlti (cre (pa p)) (cre (pb p)) (cre (pc p)) (sums xs) - total (snd (ss_run cum th p sst0 xs))) ==
  Qabs (residue (fst (ss_run cum th p sst0 xs))).
Proof.
  intros cum th p xs; destruct (inv_run cum th p xs) as (_ & _ & I3 & I4).
  apply Qabs_wd; rewrite I4, <- I3; ring.
Qed.

(** tracking *)
Lemma rlti_gap : forall a b c e xs ys, 0 <= e -> within e xs ys ->
  Qabs (rlti a b c xs - rlti a b c ys) <= 2 * Qabs c * Qabs b * e * qsum (fun i => qpow (Qabs a) (length xs - 1 - i)) (length xs).
Proof.
  intros a b c e xs ys He [Hl H]; unfold rlti; rewrite <- Hl.
  set (n := length xs) in *.
  assert (E : 2 * c * qsum (fun i => qpow a (n - 1 - i) * b * nth i xs 0) n - 2 * c * qsum (fun i => qpow a (n - 1 - i) * b * nth i ys 0) n
    == (2 * c) * qsum (fun i => qpow a (n - 1 - i) * b * (nth i xs 0 - nth i ys 0)) n).
  { rewrite (qsum_ext n (fun i => qpow a (n - 1 - i) * b * (nth i xs 0 - nth i ys 0)) (fun i => qpow a (n - 1 - i) * b * nth i xs 0 - qpow a (n - 1 - i) * b * nth i ys 0)) by (intros; ring).
    rewrite <- qsum_sub; ring. }
  rewrite E, Qabs_Qmult, Qabs_Qmult.
  assert (Hp : forall m, 0 <= qpow (Qabs a) m).
  { induction m as [|m IH]; cbn [qpow]; [lra | apply Qmult_le_0_compat; [apply Qabs_nonneg | exact IH]]. }
  assert (Ha : forall m, Qabs (qpow a m) == qpow (Qabs a) m).
  { induction m as [|m IH]; cbn [qpow]; [reflexivity | rewrite Qabs_Qmult, IH; reflexivity]. }
  assert (B : Qabs (qsum (fun i => qpow a (n - 1 - i) * b * (nth i xs 0 - nth i ys 0)) n) <=
              Qabs b * e * qsum (fun i => qpow (Qabs a) (n - 1 - i)) n).
  { eapply Qle_trans; [apply qsum_abs |]; rewrite qsum_scale; apply qsum_le; intros i Hi.
    rewrite !Qabs_Qmult, Ha; specialize (H i Hi); specialize (Hp (n - 1 - i)%nat).
    pose proof (Qabs_nonneg b) as Hb.
    setoid_replace (Qabs b * e * qpow (Qabs a) (n - 1 - i)) with (qpow (Qabs a) (n - 1 - i) * Qabs b * e) by ring.
    apply Qmult_le_compat_nonneg; split; try apply Qabs_nonneg; try exact H; [|apply Qle_refl].
    apply Qmult_le_0_compat; assumption. }
  setoid_replace (2 * Qabs c * Qabs b * e * qsum (fun i => qpow (Qabs a) (n - 1 - i)) n)
    with ((Qabs 2 * Qabs c) * (Qabs b * e * qsum (fun i => qpow (Qabs a) (n - 1 - i)) n)) by (change (Qabs 2) with 2; ring).
  apply Qmult_le_compat_nonneg; split; try exact B; try apply Qabs_nonneg; [|apply Qle_refl].
  apply Qmult_le_0_compat; apply Qabs_nonneg.
Qed.
Lemma qsum_rev : forall f n, qsum (fun i => f (n - 1 - i)%nat) n == qsum f n.
Proof.
  intros f n; induction n as [|n IH]; [reflexivity |].
  rewrite qsum_shift; cbn [qsum].
  rewrite (qsum_ext n (fun i => f (S n - 1 - S i)%nat) (fun i => f (n - 1 - i)%nat)).
  - rewrite IH; replace (S n - 1 - 0)%nat with n by lia; ring.
  - intros i Hi; replace (S n - 1 - S i)%nat with (n - 1 - i)%nat by lia; reflexivity.
Qed.
Lemma geometric : forall a n, (1 - a) * qsum (qpow a) n == 1 - qpow a n.
Proof. intros a n; induction n as [|n IH]; cbn [qsum qpow]; [ring |]; rewrite Qmult_plus_distr_r, IH; ring. Qed.
Lemma qpow_nonneg : forall a m, 0 <= a -> 0 <= qpow a m.
Proof. intros a m Ha; induction m as [|m IH]; cbn [qpow]; [lra | apply Qmult_le_0_compat; assumption]. Qed.
Lemma geometric_bound : forall a n, 0 <= a -> a < 1 -> qsum (qpow a) n <= / (1 - a).
Proof.
  intros a n H0 H1; pose proof (geometric a n) as G; pose proof (qpow_nonneg a n H0) as P.
  assert (D : 0 < 1 - a) by lra.
  apply Qmult_le_l with (z := 1 - a); [exact D |].
  rewrite G, Qmult_inv_r by lra; lra.
Qed.

(** ** layer *)
Lemma qsum_plus : forall m n f, qsum f (n + m) == qsum f n + qsum (fun i => f (n + i)%nat) m.
Proof.
  induction m as [|m IH]; intros n f; [rewrite Nat.add_0_r; cbn [qsum]; ring |].
  rewrite Nat.add_succ_r; cbn [qsum]; rewrite IH; ring.
Qed.
Lemma qsum_block : forall n d f, qsum f (n * d) == qsum (fun i => qsum (fun m => f (i * d + m)%nat) d) n.
Proof.
  induction n as [|n IH]; intros d f; [reflexivity |].
  replace (S n * d)%nat with (n * d + d)%nat by lia; rewrite qsum_plus, IH; cbn [qsum]; reflexivity.
Qed.
Lemma qsum_pick : forall n j g, (j < n)%nat -> qsum (fun i => eye j i * g i) n == g j.
Proof.
  induction n as [|n IH]; intros j g Hj; [lia |]; cbn [qsum].
  destruct (Nat.eq_dec j n) as [-> | Hn].
  - rewrite qsum_zero.
    + unfold eye; rewrite Nat.eqb_refl; ring.
    + intros i Hi; unfold eye; replace (n =? i)%nat with false by (symmetry; apply Nat.eqb_neq; lia); ring.
  - rewrite IH by lia; unfold eye; replace (j =? n)%nat with false by (symmetry; apply Nat.eqb_neq; lia); ring.
Qed.
Lemma qsum_pick' : forall n j g, (j < n)%nat -> qsum (fun i => eye i j * g i) n == g j.
Proof.
  intros n j g Hj; rewrite <- (qsum_pick n j g Hj); apply qsum_ext; intros i _; unfold eye; rewrite Nat.eqb_sym; reflexivity.
Qed.
Lemma divmod : forall d j m, (m < d)%nat -> ((j * d + m) / d = j /\ (j * d + m) mod d = m)%nat.
Proof.
  intros d j m Hm; split.
  - rewrite Nat.div_add_l by lia; rewrite Nat.div_small by lia; lia.
  - rewrite Nat.add_comm, Nat.mod_add by lia; apply Nat.mod_small, Hm.
Qed.
Lemma dot_out : forall n d x j, (j < n)%nat -> dot (conn_weights d) (n * d) true x j == qsum (fun m => x (j * d + m)%nat) d.
Proof.
  intros n d x j Hj; unfold dot; rewrite qsum_block.
  rewrite <- (qsum_pick n j (fun i => qsum (fun m => x (i * d + m)%nat) d) Hj).
  apply qsum_ext; intros i Hi; rewrite qsum_scale; apply qsum_ext; intros m Hm.
  destruct (divmod d i m Hm) as [E1 E2]; unfold conn_weights, kron; rewrite E1; cbn [message]; ring.
Qed.
Lemma dot_in : forall n d x j m, (j < n)%nat -> (m < d)%nat -> dot (fun i k => conn_weights d k i) n true x (j * d + m)%nat == x j.
Proof.
  intros n d x j m Hj Hm; unfold dot; rewrite <- (qsum_pick' n j x Hj).
  apply qsum_ext; intros i Hi; destruct (divmod d j m Hm) as [E1 E2]; unfold conn_weights, kron; rewrite E1; cbn [message]; ring.
Qed.

(** what the neurons receive, from a state of the layer *)
Section Layer.
Variables (n d : nat) (th : Q) (P : nat -> params).
Let into (x : nat -> Q) (k : nat) : Q := dot (fun i j => conn_weights d j i) n true x k.
Let ins (l : layer) (xs : list (nat -> Q)) (k : nat) : list Q := buf1 l k :: map (fun x => into x k) xs.

Lemma outputs_length : forall xs l g, length (layer_outputs n d g th P l xs) = length xs.
Proof using. induction xs as [|x xs IH]; intros l g; [reflexivity |]; cbn [layer_outputs layer_step length]; rewrite IH; reflexivity. Qed.
Lemma outputs_firstn : forall xs k l g, firstn k (layer_outputs n d g th P l xs) = layer_outputs n d g th P l (firstn k xs).
Proof using.
  induction xs as [|x xs IH]; intros [|k] l g; try reflexivity.
  cbn [layer_outputs layer_step firstn]; rewrite IH; reflexivity.
Qed.

Lemma layer_total : forall r x l j, (j < n)%nat ->
  total (channel j (layer_outputs n d true th P l (x :: r))) ==
  buf2 l j + qsum (fun m => total (snd (ss_run false th (P (j * d + m)%nat) (neurons l (j * d + m)%nat) (firstn (length r) (ins l (x :: r) (j * d + m)%nat))))) d.
Proof using.
  induction r as [|x2 r IH]; intros x l j Hj.
  - cbn [layer_outputs layer_step channel map length firstn ss_run snd].
    rewrite (qsum_zero d); [cbn [total fold_right]; ring | intros; reflexivity].
  - change (total (channel j (layer_outputs n d true th P l (x :: x2 :: r)))) with
      (buf2 l j + total (channel j (layer_outputs n d true th P (fst (layer_step n d true th P l x)) (x2 :: r)))).
    rewrite IH by exact Hj.
    cbn [layer_step fst buf2]; cbn zeta; rewrite dot_out by exact Hj.
    rewrite <- qsum_add.
    apply Qplus_comp; [reflexivity |].
    apply qsum_ext; intros m Hm.
    unfold ins; cbn [buf1 neurons map length firstn ss_run].
    destruct (ss_step false th (P (j * d + m)%nat) (neurons l (j * d + m)%nat) (buf1 l (j * d + m)%nat)) as [q1 o1].
    cbn [fst snd].
    fold (into x (j * d + m)).
    destruct (ss_run false th (P (j * d + m)%nat) q1 (firstn (length r) (into x (j * d + m)%nat :: into x2 (j * d + m)%nat :: map (fun x0 : nat -> Q => into x0 (j * d + m)%nat) r))) as [q2 o2].
    cbn [snd total fold_right]; reflexivity.
Qed.

Lemma sums_from_ext : forall xs ys g h, g == h -> Forall2 Qeq xs ys -> Forall2 Qeq (sums_from g xs) (sums_from h ys).
Proof using.
  intros xs ys g h Hg H; revert g h Hg; induction H as [|x y xs ys Hx H IH]; intros g h Hg; cbn [sums_from]; constructor.
  - rewrite Hg, Hx; reflexivity.
  - apply IH; rewrite Hg, Hx; reflexivity.
Qed.
Lemma rlti_F2 : forall a b c xs ys, Forall2 Qeq xs ys -> rlti a b c xs == rlti a b c ys.
Proof using.
  intros a b c xs ys H.
  assert (L : length xs = length ys) by (induction H; cbn; congruence).
  apply rlti_ext; [exact L |].
  induction H as [|x y xs ys Hx H IH]; intros i Hi; [cbn in Hi; lia |].
  destruct i as [|i]; cbn [nth]; [exact Hx | apply IH; [cbn in L; lia | cbn in Hi; lia]].
Qed.

Lemma layer_follow : forall xs k j, (0 < d)%nat -> (j < n)%nat -> 0 < th -> (k + 2 <= length xs)%nat ->
  Qabs (qsum (fun m => rlti (cre (pa (P (j * d + m)%nat))) (cre (pb (P (j * d + m)%nat))) (cre (pc (P (j * d + m)%nat))) (sums (firstn k (channel j xs)))) d
        - total (firstn (k + 2) (channel j (layer_outputs n d true th P layer0 xs)))) < inject_Z (Z.of_nat d) * th.
Proof using.
  intros xs k j Hd Hj Hth Hk.
  unfold channel; rewrite firstn_map, firstn_map, outputs_firstn.
  destruct xs as [|x xs]; [cbn in Hk; lia |].
  rewrite (Nat.add_comm k 2); change (firstn (2 + k) (x :: xs)) with (x :: firstn (S k) xs).
  fold (channel j (layer_outputs n d true th P layer0 (x :: firstn (S k) xs))).
  rewrite layer_total by exact Hj; cbn [layer0 buf2 neurons].
  rewrite firstn_length_le by (cbn in Hk; lia).
  rewrite Qplus_0_l, qsum_sub.
  eapply Qle_lt_trans; [apply qsum_abs |].
  rewrite <- qsum_const; apply qsum_lt; [exact Hd |].
  intros m Hm.
  set (p := P (j * d + m)%nat).
  set (I := firstn (S k) (ins layer0 (x :: firstn (S k) xs) (j * d + m)%nat)).
  assert (E : rlti (cre (pa p)) (cre (pb p)) (cre (pc p)) (sums (map (fun x0 => x0 j) (firstn k (x :: xs)))) == rlti (cre (pa p)) (cre (pb p)) (cre (pc p)) (sums I)).
  { unfold I, ins; cbn [layer0 buf1]; rewrite firstn_cons; unfold sums; cbn [sums_from].
    rewrite rlti_lead by reflexivity.
    apply rlti_F2, sums_from_ext; [reflexivity |].
    rewrite firstn_map.
    assert (F : firstn k (x :: firstn (S k) xs) = firstn k (x :: xs)).
    { destruct k as [|k']; [reflexivity |].
      change (x :: firstn k' (firstn (S (S k')) xs) = x :: firstn k' xs).
      rewrite firstn_firstn; replace (Nat.min k' (S (S k'))) with k' by lia; reflexivity. }
    rewrite F.
    clear F; induction (firstn k (x :: xs)) as [|z zs IHz]; cbn [map]; [constructor | constructor; [|exact IHz]].
    unfold into; rewrite dot_in by assumption; reflexivity. }
  rewrite E, follow_gap.
  apply run_false, Hth.
Qed.

Lemma layer_first : forall xs k j, (j < n)%nat -> (k < 2)%nat -> nth k (channel j (layer_outputs n d true th P layer0 xs)) 0 == 0.
Proof using.
  intros xs k j Hj Hk; destruct xs as [|x xs]; [destruct k; reflexivity |].
  destruct k as [|[|k]]; [reflexivity | | lia].
  destruct xs as [|x2 xs]; [reflexivity |].
  cbn [layer_outputs layer_step channel map nth buf2].
  rewrite dot_out by exact Hj; apply qsum_zero; intros m Hm.
  cbn [layer0 neurons buf1]; unfold ss_step; cbn zeta; cbn [snd sst0 act residue s4 sg].
  set (e := _ + _ : Q).
  assert (Z : e == 0) by (unfold e; ring).
  destruct (Qle_bool th (Qabs e)); [exact Z | reflexivity].
Qed.
End Layer.
