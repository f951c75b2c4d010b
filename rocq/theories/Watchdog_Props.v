(** C93: the watchdog reports calls that are blocked. *)
From Coq Require Import List Arith Bool Lia.
From Verif Require Import Watchdog_Model Watchdog_Spec Watchdog_Proofs.
Import ListNotations.

Section P.
Variable T : bool -> nat.
Variable cls : nat -> bool.

(** A message says the truth: when "Blocked on" the port of watchdog [i] is printed at [p], a call had begun at least the
    timeout before and did not return within the timeout (with latency [d]: it ended at most [d] before the message). *)
Theorem watchdog_messages_true : forall lat s l1 p i l,
  reachable T cls lat s -> tr s = l1 ++ (p, Print i) :: l ->
  exists l2 b l3, l = l2 ++ (b, Begin i) :: l3 /\ b + T (cls i) <= p /\
    forall e, In (e, End i) l2 -> b + T (cls i) <= e /\ forall d, lat = Some d -> p <= e + d.
Proof using. intros lat s l1 p i l R E. eapply sound_reach; eauto. Qed.

(** *** Completeness *)
Definition witness (d : nat) (s : st) (i x : nat) : Prop :=
  (exists t a c, t <= x /\ mon s (cls i) = MRun /\ q s (cls i) = a ++ Meta i t :: c /\ ~ nones a) \/
  (exists t, In (i, TStart t) (pool s) /\ t <= x + d) \/
  (exists f, In (i, TWait f) (pool s) /\ f <= x + 2 * d) \/
  (exists t, In (i, TPrint t) (pool s) /\ t <= x + T (cls i) + 3 * d) \/
  exists p, In (p, Print i) (tr s) /\ x <= p /\ p <= x + T (cls i) + 4 * d.

Lemma alive_witness d s i : inv T cls s -> alive cls s i -> witness d s i (now s).
Proof using.
  intros I [[t [a [c [M [Q B]]]]]|[t [H N]]].
  - left. exists t, a, c. split; auto. destruct (i_meta _ _ _ I (cls i) i t) as [_ [L _]]; auto. rewrite Q. apply in_elt.
  - destruct t as [t|f|t|]; [| | |congruence].
    + right; left. exists t. split; auto. pose proof (i_start _ _ _ I _ _ H). lia.
    + right; right; left. exists f. split; auto. pose proof (i_wait _ _ _ I _ _ H) as [L _]. lia.
    + right; right; right; left. exists t. split; auto. pose proof (i_print _ _ _ I _ _ H) as [L _]. lia.
Qed.

Lemma open_app i u l2 l1 : never (End i) l2 -> never StopCall l1 -> open (l2 ++ (u, Started i) :: l1) i u.
Proof using. intros A B. exists l2, l1. auto. Qed.

Lemma witness_step d s s' i x : reachable T cls (Some d) s -> step T cls (Some d) s s' ->
  (exists u, open (tr s) i u) -> (forall t, tr s' <> (t, End i) :: tr s) -> x <= now s -> witness d s i x -> witness d s' i x.
Proof using.
  intros R S [u O] NE Hx W. pose proof (inv_reach _ _ _ _ R) as I. pose proof (inv2_reach _ _ _ _ R) as J.
  pose proof (timely_reach _ _ _ _ R) as [LE LT].
  assert (flag s i = false) as HF. { apply (i_call _ _ _ I i). rewrite (j_run _ _ J i u O). discriminate. }
  destruct W as [[t [a [c [A [M [Q B]]]]]]|[[t [H A]]|[[f [H A]]|[[t [H A]]|[p [H A]]]]]].
  - (* entry *)
    destruct S as [j NS PI|j NS PI|j NS PI|b0 j t0 r HM HQ|b0 t0 r HM HQ|a0 c0 j t0 E F|a0 c0 j t0 E F|a0 c0 j t0 E F|a0 c0 j t0 E|b0 HM HJ|Z|Z|Z ZM|Z ZM|HT];
      try (left; exists t, a, c; cbn [q mon]; auto; fail).
    + left. cbn [mon q]. destruct (Bool.bool_dec (cls i) (cls j)) as [C|C].
      * exists t, a, (c ++ [Meta j (now s)]). rewrite <- C, updb_same, Q, <- app_assoc. cbn [app]. auto.
      * exists t, a, c. rewrite updb_other; auto.
    + destruct (Bool.bool_dec (cls i) b0) as [C|C].
      * rewrite C in *. rewrite HQ in Q. destruct a as [|y a]; cbn [app] in Q.
        -- injection Q as -> -> ->. right; left. cbn [pool]. exists (now s). split; [apply in_or_app; right; left; auto|].
           assert (now s <= t + d); [|lia]. apply (LE b0 (Meta i t)); auto. rewrite HQ. left; auto.
        -- injection Q as <- ->. left. exists t, a, c. cbn [mon q]. rewrite C, updb_same. split; auto. split; auto. split; auto.
           intro Z. apply B. apply nones_cons; auto.
      * left. exists t, a, c. cbn [mon q]. rewrite updb_other by auto. auto.
    + destruct (Bool.bool_dec (cls i) b0) as [C|C].
      * exfalso. rewrite C, HQ in Q. destruct a as [|y a]; cbn [app] in Q; [discriminate Q|]. injection Q as <- _. apply B. exists t0. left; auto.
      * left. exists t, a, c. cbn [mon q]. rewrite !updb_other by auto. auto.
    + left. destruct (Bool.bool_dec (cls i) b0) as [C|C]; [congruence|]. exists t, a, c. cbn [mon q]. rewrite !updb_other by auto. auto.
    + left. cbn [mon q]. destruct (Bool.bool_dec (cls i) true) as [C|C].
      * exists t, a, (c ++ [NoneE (now s)]). rewrite C in *. rewrite updb_same, Q, <- app_assoc. cbn [app]. auto.
      * exists t, a, c. rewrite updb_other; auto.
    + left. cbn [mon q]. destruct (Bool.bool_dec (cls i) false) as [C|C].
      * exists t, a, (c ++ [NoneE (now s)]). rewrite C in *. rewrite updb_same, Q, <- app_assoc. cbn [app]. auto.
      * exists t, a, c. rewrite updb_other; auto.
  - (* start *)
    destruct S as [j NS PI|j NS PI|j NS PI|b0 j t0 r HM HQ|b0 t0 r HM HQ|a0 c0 j t0 E F|a0 c0 j t0 E F|a0 c0 j t0 E F|a0 c0 j t0 E|b0 HM HJ|Z|Z|Z ZM|Z ZM|HT];
      try (right; left; exists t; cbn [pool]; auto; fail).
    + right; left; exists t; cbn [pool]; split; auto. apply in_map_iff. exists (i, TStart t). auto.
    + right; left; exists t; cbn [pool]; split; auto. apply in_or_app; auto.
    + right; left; exists t; cbn [pool]; split; auto. rewrite E in H. apply in_mid with (x := (j, TEnd)) in H. destruct H as [H|H]; auto.
      injection H as -> ->. congruence.
    + pose proof H as H0. rewrite E in H. apply in_mid with (x := (j, TWait (now s))) in H. destruct H as [H|H]; [|right; left; exists t; auto].
      injection H as -> ->. right; right; left. exists (now s). cbn [pool]. split; [apply in_elt|].
      specialize (LT _ _ H0 eq_refl). lia.
    + right; left; exists t; cbn [pool]; split; auto. rewrite E in H. apply in_mid with (x := (j, TPrint (now s))) in H. destruct H as [H|H]; auto. discriminate H.
    + right; left; exists t; cbn [pool]; split; auto. rewrite E in H. apply in_mid with (x := (j, TStart (now s))) in H. destruct H as [H|H]; auto. discriminate H.
  - (* wait *)
    destruct S as [j NS PI|j NS PI|j NS PI|b0 j t0 r HM HQ|b0 t0 r HM HQ|a0 c0 j t0 E F|a0 c0 j t0 E F|a0 c0 j t0 E F|a0 c0 j t0 E|b0 HM HJ|Z|Z|Z ZM|Z ZM|HT];
      try (right; right; left; exists f; cbn [pool]; auto; fail).
    + right; right; left; exists f; cbn [pool]; split; auto. apply in_map_iff. exists (i, TWait f). split; auto. unfold wake. cbn [fst snd].
      destruct (i =? j) eqn:Q; auto. apply Nat.eqb_eq in Q. subst j. exfalso. apply (NE (now s)). auto.
    + right; right; left; exists f; cbn [pool]; split; auto. apply in_or_app; auto.
    + right; right; left; exists f; cbn [pool]; split; auto. rewrite E in H. apply in_mid with (x := (j, TEnd)) in H. destruct H as [H|H]; auto. discriminate H.
    + right; right; left; exists f; cbn [pool]; split; auto. rewrite E in H. apply in_mid with (x := (j, TWait (now s))) in H. destruct H as [H|H]; auto. discriminate H.
    + pose proof H as H0. rewrite E in H. apply in_mid with (x := (j, TPrint (now s))) in H. destruct H as [H|H]; [|right; right; left; exists f; auto].
      injection H as -> ->. right; right; right; left. exists (now s). cbn [pool]. split; [apply in_elt|].
      specialize (LT _ _ H0 eq_refl). cbn [fst] in LT. lia.
    + right; right; left; exists f; cbn [pool]; split; auto. rewrite E in H. apply in_mid with (x := (j, TStart (now s))) in H. destruct H as [H|H]; auto. discriminate H.
  - (* print *)
    destruct S as [j NS PI|j NS PI|j NS PI|b0 j t0 r HM HQ|b0 t0 r HM HQ|a0 c0 j t0 E F|a0 c0 j t0 E F|a0 c0 j t0 E F|a0 c0 j t0 E|b0 HM HJ|Z|Z|Z ZM|Z ZM|HT];
      try (right; right; right; left; exists t; cbn [pool]; auto; fail).
    + right; right; right; left; exists t; cbn [pool]; split; auto. apply in_map_iff. exists (i, TPrint t). auto.
    + right; right; right; left; exists t; cbn [pool]; split; auto. apply in_or_app; auto.
    + right; right; right; left; exists t; cbn [pool]; split; auto. rewrite E in H. apply in_mid with (x := (j, TEnd)) in H. destruct H as [H|H]; auto. discriminate H.
    + right; right; right; left; exists t; cbn [pool]; split; auto. rewrite E in H. apply in_mid with (x := (j, TWait (now s))) in H. destruct H as [H|H]; auto. discriminate H.
    + right; right; right; left; exists t; cbn [pool]; split; auto. rewrite E in H. apply in_mid with (x := (j, TPrint (now s))) in H. destruct H as [H|H]; auto. discriminate H.
    + pose proof H as H0. rewrite E in H. apply in_mid with (x := (j, TStart (now s))) in H. destruct H as [H|H]; [|right; right; right; left; exists t; auto].
      injection H as -> ->. right; right; right; right. exists (now s). cbn [tr]. split; [left; auto|].
      specialize (LT _ _ H0 eq_refl). lia.
  - right; right; right; right. exists p. split; auto. destruct S; cbn [tr]; auto; right; auto.
Qed.

Lemma trace_step lat s s' : step T cls lat s s' -> tr s' = tr s \/ exists o, tr s' = (now s, o) :: tr s.
Proof using. intro S. destruct S; cbn [tr]; auto; right; eauto. Qed.

Lemma witness_reach d s : reachable T cls (Some d) s -> forall i u x, open (tr s) i u -> u <= x -> x <= now s -> witness d s i x.
Proof using.
  intro H. pattern s. eapply reach_ind2; [| |exact H]; clear s H.
  - intros i u x [l2 [l1 [E _]]]. destruct l2; discriminate E.
  - intros s s' R R' IH S i u x O Ux Xn.
    destruct (Nat.eq_dec x (now s')) as [->|NX].
    { apply alive_witness; [eapply inv_reach; eauto|]. eapply j_alive; [eapply inv2_reach; eauto|exact O]. }
    assert (x <= now s) as Xs by (destruct S; cbn [now] in *; lia).
    assert ((exists u', open (tr s) i u' /\ u' <= x) /\ (forall t, tr s' <> (t, End i) :: tr s) \/ u = now s') as Q.
    { destruct (trace_step _ _ _ S) as [E|[o E]]; rewrite E in O.
      - left. split; [exists u; auto|]. intros t F. rewrite E in F. apply (f_equal (@length _)) in F. cbn [length] in F. lia.
      - apply open_inv in O. destruct O as [[A [B C]]|[A B]].
        + right. destruct S; cbn [now tr] in *; try lia; apply (f_equal (@length _)) in E; cbn [length] in E; lia.
        + left. split; [exists u; auto|]. intros t F. rewrite E in F. injection F as _ F. contradiction. }
    destruct Q as [[[u' [O' U']] NE]|Q]; [|lia].
    eapply (witness_step d s s'); [exact R|exact S|exists u'; auto|exact NE|exact Xs|eapply IH; eauto].
Qed.

(** A blocked call is reported: while a call of [i] that started at [u] (before stop() was called) is in progress, any
    period of the timeout plus four latencies contains a message. *)
Theorem watchdog_reports_blocked_calls : forall d s l2 u i l1 x,
  reachable T cls (Some d) s -> tr s = l2 ++ (u, Started i) :: l1 -> never (End i) l2 -> never StopCall l1 ->
  u <= x -> x + T (cls i) + 4 * d < now s ->
  exists p, In (p, Print i) (tr s) /\ x <= p <= x + T (cls i) + 4 * d.
Proof using.
  intros d s l2 u i l1 x R E N M Ux Xn.
  assert (witness d s i x) as W.
  { eapply witness_reach; eauto; [|lia]. rewrite E. apply open_app; auto. }
  pose proof (timely_reach _ _ _ _ R) as [LE LT].
  destruct W as [[t [a [c [A [MR [Q B]]]]]]|[[t [H A]]|[[f [H A]]|[[t [H A]]|[p [H A]]]]]].
  - assert (now s <= t + d); [|lia]. apply (LE (cls i) (Meta i t)); auto. rewrite Q. apply in_elt.
  - specialize (LT _ _ H eq_refl). lia.
  - specialize (LT _ _ H eq_refl). cbn [fst] in LT. lia.
  - specialize (LT _ _ H eq_refl). lia.
  - exists p. auto.
Qed.

(** *** stop() *)
Lemma obs_dec (a b : obs) : {a = b} + {a <> b}.
Proof using. decide equality; apply Nat.eq_dec. Qed.
Lemma never_dec o l : never o l \/ exists t, In (t, o) l.
Proof using.
  induction l as [|[t x] l IH]; [left; intros t []|]. destruct (obs_dec x o) as [->|N]; [right; exists t; left; auto|].
  destruct IH as [IH|[t' IH]]; [left|right; exists t'; right; auto]. intros y [Q|Q]; [congruence|]. eapply IH; eauto.
Qed.
Lemma stop_once lat s : reachable T cls lat s -> forall l2 c l1, tr s = l2 ++ (c, StopCall) :: l1 -> never StopCall l1 /\ never StopCall l2.
Proof using.
  intro H. pattern s. eapply reach_ind; [| |exact H]; clear s H; [intros [|x l2] c l1 E; discriminate E|].
  intros s s' R IH S l2 c l1. pose proof (inv2_reach _ _ _ _ R) as J.
  destruct S as [i NS PI|i NS PI|i NS PI|b0 i t0 r HM HQ|b0 t0 r HM HQ|a0 c0 i t0 E F|a0 c0 i t0 E F|a0 c0 i t0 E F|a0 c0 i t0 E|b0 HM HJ|Z|Z|Z ZM|Z ZM|HT];
    cbn [tr]; eauto; intro Q; destruct l2 as [|y l2]; cbn [app] in Q; try discriminate Q; injection Q as Q1 Q2; subst;
    try (destruct (IH _ _ _ Q2) as [I1 I2]; split; auto; intros t [X|X]; [discriminate X|eapply I2; eauto]; fail).
  - split; [apply (j_s0 _ _ J Z)|intros t []].
  - exfalso. destruct (j_s0 _ _ J Z) as [K _]. apply (K c). rewrite Q2. apply in_elt.
Qed.

(** stop() does not return before every monitored call that had started before has ended. *)
Theorem watchdog_stop_waits_for_calls : forall lat s l0 r l1 c l2 u i l3,
  reachable T cls lat s -> tr s = l0 ++ (r, StopRet) :: l1 ++ (c, StopCall) :: l2 ++ (u, Started i) :: l3 ->
  exists e, In (e, End i) (l1 ++ l2).
Proof using.
  intros lat s l0 r l1 c l2 u i l3 R. revert l0 r l1 c l2 u i l3. pattern s. eapply reach_ind; [| |exact R]; clear s R.
  - intros [|x l0] r l1 c l2 u i l3 E; discriminate E.
  - intros s s' R IH S l0 r l1 c l2 u i l3. pose proof (inv2_reach _ _ _ _ R) as J.
    destruct S as [j NS PI|j NS PI|j NS PI|b0 j t0 r0 HM HQ|b0 t0 r0 HM HQ|a0 c0 j t0 E F|a0 c0 j t0 E F|a0 c0 j t0 E F|a0 c0 j t0 E|b0 HM HJ|Z|Z|Z ZM|Z ZM|HT];
      cbn [tr]; try (intro Q; eapply IH; eauto; fail);
      intro Q; destruct l0 as [|y l0]; cbn [app] in Q; try discriminate Q; injection Q as Q1 Q2; subst; try (eapply IH; eauto; fail).
    destruct (never_dec (End i) (l1 ++ l2)) as [N|N]; auto. exfalso.
    assert (never StopCall l3) as M.
    { destruct (stop_once _ _ R _ _ _ Q2) as [M _]. intros t Ht. apply (M t). apply in_or_app. right; right; auto. }
    assert (open (tr s) i u) as O.
    { exists (l1 ++ (c, StopCall) :: l2), l3. split; [rewrite Q2, <- app_assoc; auto|]. split; auto.
      intros t Ht. apply (N t). apply in_app_or in Ht. apply in_or_app. destruct Ht as [Ht|[Ht|Ht]]; auto. discriminate Ht. }
    pose proof (j_s3 _ _ J (or_introl Z)) as ME.
    destruct (j_alive _ _ J i u O) as [[t [a [k [M1 _]]]]|[t [H K]]].
    + destruct (cls i); congruence.
    + apply K. eapply (j_exit _ _ J (cls i)); eauto. destruct (cls i); auto.
Qed.

(** After stop() nothing is printed. *)
Theorem watchdog_silent_after_stop : forall lat s l1 r l2 p i,
  reachable T cls lat s -> tr s = l1 ++ (r, StopRet) :: l2 -> ~ In (p, Print i) l1.
Proof using.
  intros lat s l1 r l2 p i R. revert l1 r l2 p i. pattern s. eapply reach_ind; [| |exact R]; clear s R.
  - intros [|x l1] r l2 p i E; discriminate E.
  - intros s s' R IH S l1 r l2 p i. pose proof (inv2_reach _ _ _ _ R) as J.
    destruct S as [j NS PI|j NS PI|j NS PI|b0 j t0 r0 HM HQ|b0 t0 r0 HM HQ|a0 c0 j t0 E F|a0 c0 j t0 E F|a0 c0 j t0 E F|a0 c0 j t0 E|b0 HM HJ|Z|Z|Z ZM|Z ZM|HT];
      cbn [tr]; try (intro Q; eapply IH; eauto; fail);
      intro Q; destruct l1 as [|y l1]; cbn [app] in Q; try discriminate Q; injection Q as Q1 Q2; subst;
      try (intros [X|X]; [discriminate X|]; eapply IH; eauto; fail); try (intros []; fail).
    exfalso. assert (stp s = S4) as X by (apply (j_ret _ _ J r); rewrite Q2; apply in_elt).
    assert (TPrint t0 = TEnd) as Y; [|discriminate Y].
    eapply (j_exit _ _ J (cls j) j); [|rewrite E; apply in_elt|auto]. destruct (cls j); [apply (j_s3 _ _ J); auto|apply (j_s4 _ _ J); auto].
Qed.

(** *** stop() returns *)
Record quiet (d c : nat) (s : st) : Prop := {
  k_ph : forall i, ph s i = Idle;
  k_c : c <= now s;
  k_none : forall b, mon s b = MRun -> (exists t, In (NoneE t) (q s b) /\ t <= c) \/ (b = false /\ stp s = S1);
  k_stp : stp s <> S0;
  k_s1 : stp s = S1 -> now s = c;
  k_meta : forall b i t, In (Meta i t) (q s b) -> t <= c;
  k_start : forall i t, In (i, TStart t) (pool s) -> t <= c + d;
  k_print : forall i t, In (i, TPrint t) (pool s) -> t <= c;
  k_bound : stp s = S4 \/ now s <= c + 2 * d }.

Lemma prompt_spec d s : prompt T cls d s = true ->
  (forall b e, mon s b = MRun -> In e (q s b) -> now s < entry_due e + d) /\
  (forall t x, In t (pool s) -> thread_due T cls t = Some x -> now s < x + d) /\
  (forall b, fire_exit cls b s = None) /\ (stp s <> S0 -> fire_stop s = None).
Proof using.
  unfold prompt. rewrite !andb_true_iff. intros [[[H1 H2] H3] H4]. split; [|split; [|split]].
  - intros b e M Hi. cbn [forallb] in H1. rewrite !andb_true_iff in H1. destruct H1 as [Q1 [Q2 _]].
    assert (forallb (fun e => now s <? entry_due e + d) (q s b) = true) as Q.
    { destruct b; [rewrite M in Q1|rewrite M in Q2]; cbn [reading negb orb] in *; auto. }
    rewrite forallb_forall in Q. apply Q, Nat.ltb_lt in Hi. auto.
  - intros t x Hi D. rewrite forallb_forall in H2. specialize (H2 t Hi). rewrite D in H2. apply Nat.ltb_lt in H2. auto.
  - intros b. destruct (fire_exit cls true s) eqn:A; [discriminate H3|]. destruct (fire_exit cls false s) eqn:B; [discriminate H3|]. destruct b; auto.
  - intro N. destruct (stp s) eqn:Z; [congruence| | | |]; destruct (fire_stop s) eqn:F; auto; discriminate H4.
Qed.

Lemma quiet_step d c s s' : reachable T cls (Some d) s -> quiet d c s -> step T cls (Some d) s s' ->
  (forall t i, tr s' <> (t, Begin i) :: tr s) -> quiet d c s'.
Proof using.
  intros R K S NB. pose proof (inv_reach _ _ _ _ R) as I. pose proof (timely_reach _ _ _ _ R) as [LE LT].
  destruct K as [KP KC KN KS K1 KM KT KR KB].
  destruct S as [j NS PI|j NS PI|j NS PI|b0 j t0 r0 HM HQ|b0 t0 r0 HM HQ|a0 c0 j t0 E F|a0 c0 j t0 E F|a0 c0 j t0 E F|a0 c0 j t0 E|b0 HM HJ|Z|Z|Z ZM|Z ZM|HT].
  - exfalso. eapply NB; reflexivity.
  - rewrite KP in PI. discriminate PI.
  - rewrite KP in PI. discriminate PI.
  - (* get *)
    assert (t0 <= c) as Ht by (eapply KM; rewrite HQ; left; auto).
    assert (now s <= t0 + d) as Hd by (apply (LE b0 (Meta j t0)); auto; rewrite HQ; left; auto).
    constructor; cbn [ph now mon q stp pool]; auto.
    + intros b M. destruct (KN b M) as [[t [A B]]|A]; auto. left. exists t. split; auto.
      destruct (Bool.bool_dec b b0) as [->|N]; [|rewrite updb_other; auto]. rewrite updb_same. rewrite HQ in A. destruct A as [A|A]; auto. discriminate A.
    + intros b i t A. destruct (Bool.bool_dec b b0) as [->|N]; [|rewrite updb_other in A by auto; eauto]. rewrite updb_same in A. eapply KM. rewrite HQ. right; eauto.
    + intros i t A. apply in_app_or in A. destruct A as [A|[A|[]]]; eauto. injection A as _ <-. lia.
    + intros i t A. apply in_app_or in A. destruct A as [A|[A|[]]]; eauto. discriminate A.
  - (* getnone *)
    constructor; cbn [ph now mon q stp pool]; auto.
    + intros b M. destruct (Bool.bool_dec b b0) as [->|N]; [rewrite updb_same in M; discriminate M|]. rewrite updb_other in M by auto. rewrite updb_other by auto. auto.
    + intros b i t A. destruct (Bool.bool_dec b b0) as [->|N]; [|rewrite updb_other in A by auto; eauto]. rewrite updb_same in A. eapply KM. rewrite HQ. right; eauto.
  - constructor; cbn [ph now mon q stp pool]; auto.
    + intros i t A. apply in_mid with (x := (j, TStart t0)) in A. rewrite <- E in A. destruct A as [A|A]; eauto. discriminate A.
    + intros i t A. apply in_mid with (x := (j, TStart t0)) in A. rewrite <- E in A. destruct A as [A|A]; eauto. discriminate A.
  - exfalso. rewrite (i_idle _ _ _ I j (KP j)) in F; [discriminate F|]. eapply (i_pool _ _ _ I). rewrite E. apply in_elt.
  - exfalso. destruct (i_wait _ _ _ I j t0) as [_ [A _]]; [rewrite E; apply in_elt|]. apply A, KP.
  - (* print *)
    assert (In (j, TPrint t0) (pool s)) as Hi by (rewrite E; apply in_elt).
    assert (now s <= t0 + d) as Hd by (apply (LT _ _ Hi eq_refl)). pose proof (KR _ _ Hi) as Hc.
    constructor; cbn [ph now mon q stp pool]; auto.
    + intros i t A. apply in_mid with (x := (j, TPrint t0)) in A. rewrite <- E in A. destruct A as [A|A]; eauto. injection A as _ ->. lia.
    + intros i t A. apply in_mid with (x := (j, TPrint t0)) in A. rewrite <- E in A. destruct A as [A|A]; eauto. discriminate A.
  - constructor; cbn [ph now mon q stp pool]; auto.
    intros b M. destruct (Bool.bool_dec b b0) as [->|N]; [rewrite updb_same in M; discriminate M|]. rewrite updb_other in M by auto. auto.
  - congruence.
  - (* stop2 *)
    pose proof (K1 Z) as Hn. constructor; cbn [ph now mon q stp pool]; auto; try discriminate.
    + intros b M. left. destruct b.
      * rewrite updb_other by discriminate. destruct (KN true M) as [A|[A _]]; auto. discriminate A.
      * rewrite updb_same. exists (now s). split; [apply in_or_app; right; left; auto|lia].
    + intros b i t A. destruct b; [rewrite updb_other in A by discriminate; eauto|]. rewrite updb_same in A. apply in_app_or in A.
      destruct A as [A|[A|[]]]; eauto. discriminate A.
    + right. lia.
  - constructor; cbn [ph now mon q stp pool]; auto; try discriminate.
    + intros b M. destruct (KN b M) as [A|[_ A]]; auto. congruence.
    + destruct KB as [KB|KB]; [congruence|auto].
  - constructor; cbn [ph now mon q stp pool]; auto; try discriminate.
    intros b M. destruct (KN b M) as [A|[_ A]]; auto. congruence.
  - (* tick *)
    destruct (prompt_spec _ _ (HT d eq_refl)) as [P1 [P2 [P3 P4]]]. specialize (P4 KS).
    constructor; cbn [ph now mon q stp pool]; auto.
    + intro Z. unfold fire_stop in P4. rewrite Z in P4. discriminate P4.
    + assert (stp s = S4 \/ now s < c + 2 * d) as [Q|Q]; [|auto|right; lia].
      destruct (Nat.lt_ge_cases (now s) (c + 2 * d)) as [L|L]; auto. left.
      assert (forall b, mon s b <> MRun) as NR.
      { intros b M. destruct (KN b M) as [[t [A B]]|[_ Z]].
        - specialize (P1 b (NoneE t) M A). cbn [entry_due] in P1. lia.
        - unfold fire_stop in P4. rewrite Z in P4. discriminate P4. }
      assert (forall b, joined cls s b = true) as JN.
      { intro b. unfold joined. apply forallb_forall. intros [i t] H. destruct t as [t|f|t|].
        - specialize (P2 _ _ H eq_refl). specialize (KT _ _ H). lia.
        - destruct (i_wait _ _ _ I i f H) as [_ [A _]]. exfalso. apply A, KP.
        - specialize (P2 _ _ H eq_refl). specialize (KR _ _ H). lia.
        - cbn [ended snd]. apply orb_true_r. }
      assert (forall b, mon s b = MExit) as MX.
      { intro b. specialize (P3 b). unfold fire_exit in P3. rewrite (JN b) in P3. specialize (NR b). destruct (mon s b); congruence. }
      unfold fire_stop in P4. destruct (stp s) eqn:Z; auto; [congruence|discriminate P4|rewrite MX in P4; discriminate P4|rewrite MX in P4; discriminate P4].
Qed.

Lemma quiet_reach d s : reachable T cls (Some d) s -> forall l2 c l1, tr s = l2 ++ (c, StopCall) :: l1 -> at_rest l1 ->
  (forall i, never (Begin i) l2) -> quiet d c s.
Proof using.
  intro R. pattern s. eapply reach_ind; [| |exact R]; clear s R; [intros [|x l2] c l1 E; discriminate E|].
  intros s s' R IH S l2 c l1 E A N. pose proof (inv_reach _ _ _ _ R) as I. pose proof (inv2_reach _ _ _ _ R) as J.
  destruct (trace_step _ _ _ S) as [Q|[o Q]].
  - rewrite Q in E. eapply quiet_step; eauto. intros t i X. rewrite Q in X. apply (f_equal (@length _)) in X. cbn [length] in X. lia.
  - rewrite Q in E. destruct l2 as [|x l2]; cbn [app] in E.
    + injection E as Ec Eo El. subst c o l1.
      destruct S as [j NS PI|j NS PI|j NS PI|b0 j t0 r0 HM HQ|b0 t0 r0 HM HQ|a0 c0 j t0 E F|a0 c0 j t0 E F|a0 c0 j t0 E F|a0 c0 j t0 E|b0 HM HJ|Z|Z|Z ZM|Z ZM|HT];
        cbn [tr] in Q; try discriminate Q; try (apply (f_equal (@length _)) in Q; cbn [length] in Q; lia).
      constructor; cbn [ph now mon q stp pool]; auto; try discriminate.
      * intro i. destruct (ph s i) eqn:P; auto; exfalso; destruct (i_call _ _ _ I i) as [_ [b B]]; try congruence; eapply A; eauto.
      * intros b M. destruct b; auto. left. rewrite updb_same. exists (now s). split; auto. apply in_or_app. right; left; auto.
      * intros b i t H. destruct b; [rewrite updb_same in H; apply in_app_or in H; destruct H as [H|[H|[]]]; [|discriminate H]|rewrite updb_other in H by discriminate];
          eapply (i_meta _ _ _ I); eauto.
      * intros i t H. pose proof (i_start _ _ _ I i t H). lia.
      * intros i t H. apply (i_print _ _ _ I i t H).
      * right. lia.
    + injection E as <- E. assert (quiet d c s) as K.
      { eapply IH; eauto. intros i t H. apply (N i t). right; auto. }
      eapply quiet_step; eauto. intros t i X. rewrite Q in X. injection X as X1 X2. apply (N i (now s)). left. congruence.
Qed.

(** If no call is in progress when stop() is called, and none begins afterwards, stop() returns within two latencies. *)
Theorem watchdog_stop_returns : forall d s l2 c l1,
  reachable T cls (Some d) s -> tr s = l2 ++ (c, StopCall) :: l1 -> at_rest l1 -> (forall i, never (Begin i) l2) ->
  c + 2 * d < now s -> exists r, In (r, StopRet) (tr s).
Proof using.
  intros d s l2 c l1 R E A N L. pose proof (quiet_reach _ _ R _ _ _ E A N) as K. destruct (k_bound _ _ _ K) as [B|B]; [|lia].
  clear - R B. revert B. pattern s. eapply reach_ind; [discriminate| |exact R]. clear s R.
  intros s s' R IH S B. destruct (trace_step _ _ _ S) as [Q|[o Q]].
  - rewrite Q. apply IH. destruct S; cbn [stp tr] in *; try discriminate B; auto; apply (f_equal (@length _)) in Q; cbn [length] in Q; lia.
  - destruct S as [j NS PI|j NS PI|j NS PI|b0 j t0 r0 HM HQ|b0 t0 r0 HM HQ|a0 c0 j t0 E F|a0 c0 j t0 E F|a0 c0 j t0 E F|a0 c0 j t0 E|b0 HM HJ|Z|Z|Z ZM|Z ZM|HT];
      cbn [stp tr] in *; try discriminate B; try (destruct (IH B) as [r Hr]; exists r; auto; right; auto; fail).
    exists (now s). left; auto.
Qed.

(** *** At most one message per timeout *)
Inductive obj := OE (t : nat) | OT (u : tst).
Definition objs_q (i : nat) (l : list entry) : list obj :=
  flat_map (fun e => match e with Meta j t => if j =? i then [OE t] else [] | NoneE _ => [] end) l.
Definition obj_t (i : nat) (x : nat * tst) : list obj :=
  if fst x =? i then match snd x with TEnd => [] | u => [OT u] end else [].
Definition objs_p (i : nat) (pl : list (nat * tst)) : list obj := flat_map (obj_t i) pl.
Definition objs (s : st) (i : nat) : list obj :=
  (if reading (mon s (cls i)) then objs_q i (q s (cls i)) else []) ++ objs_p i (pool s).

Lemma in_OE s i t : In (OE t) (objs s i) -> mon s (cls i) = MRun /\ In (Meta i t) (q s (cls i)).
Proof using.
  unfold objs. rewrite in_app_iff. intros [H|H].
  - destruct (mon s (cls i)) eqn:M; cbn [reading] in H; try contradiction H. split; auto.
    apply in_flat_map in H. destruct H as [e [H1 H2]]. destruct e as [j t'|t']; [|destruct H2].
    destruct (j =? i) eqn:Q; [|destruct H2]. apply Nat.eqb_eq in Q. destruct H2 as [H2|[]]. injection H2 as <-. subst j. auto.
  - apply in_flat_map in H. destruct H as [[j u] [H1 H2]]. unfold obj_t in H2. cbn [fst snd] in H2.
    destruct (j =? i); [|destruct H2]. destruct u; cbn [In] in H2; try contradiction H2; destruct H2 as [H2|[]]; discriminate H2.
Qed.
Lemma in_OT s i u : In (OT u) (objs s i) -> In (i, u) (pool s) /\ u <> TEnd.
Proof using.
  unfold objs. rewrite in_app_iff. intros [H|H].
  - destruct (reading (mon s (cls i))); [|destruct H].
    apply in_flat_map in H. destruct H as [e [H1 H2]]. destruct e as [j t'|t']; [|destruct H2].
    destruct (j =? i) eqn:Q; [|destruct H2]. destruct H2 as [H2|[]]. discriminate H2.
  - apply in_flat_map in H. destruct H as [[j v] [H1 H2]]. unfold obj_t in H2. cbn [fst snd] in H2.
    destruct (j =? i) eqn:Q; [|destruct H2]. apply Nat.eqb_eq in Q. subst j.
    destruct v; cbn [In] in H2; try contradiction H2; destruct H2 as [H2|[]]; injection H2 as <-; split; auto; discriminate.
Qed.
Lemma one_mid {A} (a : list A) x c : length (a ++ x :: c) <= 1 -> a = [] /\ c = [].
Proof using. rewrite app_length. cbn [length]. intro H. destruct a; cbn [length] in H; [|lia]. destruct c; cbn [length] in H; [auto|lia]. Qed.

Record single (d i : nat) (s : st) : Prop := {
  g_len : length (objs s i) <= 1;
  g_cleared : ph s i = Cleared -> objs s i = [];
  g_idle : ph s i = Idle -> forall o, In o (objs s i) -> exists e, In (e, End i) (tr s) /\
     match o with OE t => t <= e | OT (TStart t) => t <= e + d | OT (TPrint t) => t <= e | _ => True end;
  g_gap : forall p o, In (p, Print i) (tr s) -> In o (objs s i) ->
     match o with OE t => p <= t | OT (TStart t) => p <= t | OT (TWait f) => p <= f | OT (TPrint t) => p + T (cls i) <= t | _ => True end;
  g_sp : forall l1 p2 l2 p1, tr s = l1 ++ (p2, Print i) :: l2 -> In (p1, Print i) l2 -> p1 + T (cls i) <= p2 }.

(** steps that change neither the objects nor the phase of [i] and log nothing about it *)
Lemma single_frame d i s s' : single d i s -> incl (objs s' i) (objs s i) -> length (objs s' i) <= length (objs s i) ->
  ph s' i = ph s i -> (tr s' = tr s \/ exists t o, tr s' = (t, o) :: tr s /\ o <> Print i) -> single d i s'.
Proof using.
  intros [G1 G2 G3 G4 G5] HI HL HP HT. constructor.
  - lia.
  - rewrite HP. intro P. specialize (G2 P). destruct (objs s' i) as [|x l]; auto. exfalso. specialize (HI x (or_introl eq_refl)). rewrite G2 in HI. destruct HI.
  - rewrite HP. intros P o H. destruct (G3 P o (HI o H)) as [e [A B]]. exists e. split; auto.
    destruct HT as [->|[t [o' [-> _]]]]; auto. right; auto.
  - intros p o H Ho. apply G4; auto. destruct HT as [E|[t [o' [E N]]]]; rewrite E in H; auto. destruct H as [H|H]; auto. congruence.
  - intros l1 p2 l2 p1 E H. destruct HT as [Q|[t [o' [Q N]]]]; rewrite Q in E; [eapply G5; eauto|].
    destruct l1 as [|x l1]; cbn [app] in E; [congruence|]. injection E as _ E. eapply G5; eauto.
Qed.

Lemma objs_q_app i a b : objs_q i (a ++ b) = objs_q i a ++ objs_q i b.
Proof using. apply flat_map_app. Qed.
Lemma objs_p_app i a b : objs_p i (a ++ b) = objs_p i a ++ objs_p i b.
Proof using. apply flat_map_app. Qed.
Lemma objs_p_mid i a x c : objs_p i (a ++ x :: c) = objs_p i a ++ obj_t i x ++ objs_p i c.
Proof using. rewrite objs_p_app. auto. Qed.
Lemma obj_t_same i u : u <> TEnd -> obj_t i (i, u) = [OT u].
Proof using. intro N. unfold obj_t. cbn [fst snd]. rewrite Nat.eqb_refl. destruct u; auto. congruence. Qed.
Lemma obj_t_other i j u : j <> i -> obj_t i (j, u) = [].
Proof using. intro N. unfold obj_t. cbn [fst snd]. apply Nat.eqb_neq in N. rewrite N. auto. Qed.

(** the only object is the thread that makes a step *)
Lemma single_thread i s a c u : length (objs s i) <= 1 -> pool s = a ++ (i, u) :: c -> u <> TEnd ->
  (if reading (mon s (cls i)) then objs_q i (q s (cls i)) else []) = [] /\ objs_p i a = [] /\ objs_p i c = [].
Proof using.
  unfold objs. intros L E N. rewrite E, objs_p_mid, obj_t_same in L by auto. rewrite !app_length in L. cbn [length] in L.
  repeat apply conj; apply length_zero_iff_nil; lia.
Qed.

Lemma single_step d i s s' : reachable T cls (Some d) s -> separated (2 * d) i (tr s') -> single d i s -> step T cls (Some d) s s' -> single d i s'.
Proof using.
  intros R HS G S. pose proof (inv_reach _ _ _ _ R) as I. pose proof (timely_reach _ _ _ _ R) as [LE LT].
  destruct S as [j NS PI|j NS PI|j NS PI|b0 j t0 r0 HM HQ|b0 t0 r0 HM HQ|a0 c0 j t0 E F|a0 c0 j t0 E F|a0 c0 j t0 E F|a0 c0 j t0 E|b0 HM HJ|Z|Z|Z ZM|Z ZM|HT].
  - (* begin *)
    destruct (Nat.eq_dec i j) as [<-|N].
    + destruct G as [G1 G2 G3 G4 G5].
      assert (objs s i = []) as OB.
      { destruct (objs s i) as [|o l] eqn:O; auto. exfalso. destruct (G3 PI o (or_introl eq_refl)) as [e [A B]].
        assert (e + 2 * d < now s) as L. { eapply (HS [] (now s) (tr s)); eauto. }
        assert (In o (objs s i)) as Ho by (rewrite O; left; auto). destruct o as [t|[t|f|t|]].
        - apply in_OE in Ho. destruct Ho as [M Ho]. specialize (LE _ _ M Ho). cbn [entry_due] in LE. lia.
        - apply in_OT in Ho. destruct Ho as [Ho _]. specialize (LT _ _ Ho eq_refl). lia.
        - apply in_OT in Ho. destruct Ho as [Ho _]. destruct (i_wait _ _ _ I i f Ho) as [_ [X _]]. contradiction.
        - apply in_OT in Ho. destruct Ho as [Ho _]. specialize (LT _ _ Ho eq_refl). lia.
        - apply in_OT in Ho. destruct Ho as [_ Ho]. congruence. }
      constructor; match goal with |- context [objs ?x i] => change (objs x i) with (objs s i) | _ => idtac end; cbn [ph tr]; auto.
      * rewrite upd_same. discriminate.
      * intros p o _ H. rewrite OB in H. destruct H.
      * intros l1 p2 l2 p1 E H. destruct l1 as [|x l1]; cbn [app] in E; [discriminate E|]. injection E as _ E. eapply G5; eauto.
    + apply (single_frame d i s); auto; [apply incl_refl|cbn [ph]; rewrite upd_other; auto|].
      right. exists (now s), (Begin j). split; auto. discriminate.
  - (* put *)
    destruct (Nat.eq_dec i j) as [<-|N].
    + destruct G as [G1 G2 G3 G4 G5]. pose proof (G2 PI) as OB. unfold objs in OB. apply app_eq_nil in OB. destruct OB as [O1 O2].
      match goal with |- single d i ?s2 => assert (forall o, In o (objs s2 i) -> o = OE (now s)) as OB end.
      { intros o. unfold objs. cbn [mon q pool]. rewrite O2, app_nil_r, updb_same.
        destruct (reading (mon s (cls i))); [|intros []]. rewrite objs_q_app, O1. cbn. rewrite Nat.eqb_refl. intros [H|[]]. auto. }
      constructor; auto.
      * unfold objs. cbn [mon q pool]. rewrite O2, app_nil_r, updb_same.
        destruct (reading (mon s (cls i))); [|cbn; lia]. rewrite objs_q_app, O1. cbn. rewrite Nat.eqb_refl. cbn. lia.
      * cbn [ph]. rewrite upd_same. discriminate.
      * cbn [ph]. rewrite upd_same. discriminate.
      * cbn [tr]. intros p o H Ho. rewrite (OB o Ho). destruct H as [H|H]; [discriminate H|]. apply (i_past _ _ _ I _ _ H).
      * cbn [tr]. intros l1 p2 l2 p1 E H. destruct l1 as [|x l1]; cbn [app] in E; [discriminate E|]. injection E as _ E. eapply G5; eauto.
    + match goal with |- single d i ?s2 => assert (objs s2 i = objs s i) as OB end.
      { unfold objs. cbn [mon q pool]. f_equal. destruct (Bool.bool_dec (cls i) (cls j)) as [C|C].
        - rewrite <- C, updb_same, objs_q_app. cbn. assert (j =? i = false) as -> by (apply Nat.eqb_neq; auto). rewrite app_nil_r. auto.
        - rewrite updb_other by auto. auto. }
      apply (single_frame d i s); auto; [rewrite OB; apply incl_refl|rewrite OB; auto|cbn [ph]; rewrite upd_other; auto|].
      right. exists (now s), (Started j). split; auto. discriminate.
  - (* end *)
    assert (forall pl, incl (objs_p i (map (wake j) pl)) (objs_p i pl) /\ length (objs_p i (map (wake j) pl)) <= length (objs_p i pl) /\
       (i = j -> forall f, ~ In (OT (TWait f)) (objs_p i (map (wake j) pl)))) as WK.
    { induction pl as [|[k u] pl [W1 [W2 W3]]]; [repeat apply conj; auto; intros x []|].
      cbn [map]. change (objs_p i (wake j (k, u) :: map (wake j) pl)) with (obj_t i (wake j (k, u)) ++ objs_p i (map (wake j) pl)).
      change (objs_p i ((k, u) :: pl)) with (obj_t i (k, u) ++ objs_p i pl).
      assert (incl (obj_t i (wake j (k, u))) (obj_t i (k, u)) /\ length (obj_t i (wake j (k, u))) <= length (obj_t i (k, u)) /\
              (i = j -> forall f, ~ In (OT (TWait f)) (obj_t i (wake j (k, u))))) as [V1 [V2 V3]].
      { unfold wake. cbn [fst snd]. destruct u as [t|f|t|];
          try (repeat apply conj; [apply incl_refl|auto|]; intros _ f; unfold obj_t; cbn [fst snd]; destruct (k =? i); [intros [X|[]]; discriminate X|intros []]).
        - destruct (k =? j) eqn:Q.
          + unfold obj_t. cbn [fst snd]. destruct (k =? i); repeat apply conj; try (intros x []); cbn [length]; auto; try lia; intros _ g [].
          + repeat apply conj; [apply incl_refl|auto|]. intros -> g. rewrite (obj_t_other j k) by (apply Nat.eqb_neq; auto). intros [].
        - unfold obj_t. cbn [fst snd]. destruct (k =? i); repeat apply conj; try (apply incl_refl); auto; intros _ g []. }
      repeat apply conj.
      - apply incl_app; [apply incl_appl; auto|apply incl_appr; auto].
      - rewrite !app_length. lia.
      - intros Q f H. apply in_app_or in H. destruct H as [H|H]; [eapply V3; eauto|eapply W3; eauto]. }
    match goal with |- single d i ?s2 => assert (incl (objs s2 i) (objs s i) /\ length (objs s2 i) <= length (objs s i)) as [OB OL] end.
    { unfold objs. cbn [mon q pool]. destruct (WK (pool s)) as [W1 [W2 _]]. split.
      - apply incl_app; [apply incl_appl, incl_refl|apply incl_appr; auto].
      - rewrite !app_length. lia. }
    destruct (Nat.eq_dec i j) as [<-|N].
    + destruct G as [G1 G2 G3 G4 G5]. constructor.
      * lia.
      * cbn [ph]. rewrite upd_same. discriminate.
      * intros _ o Ho. exists (now s). cbn [tr]. split; [left; auto|]. specialize (OB _ Ho). destruct o as [t|[t|f|t|]]; auto.
        -- apply in_OE in OB. destruct OB as [_ OB]. apply (i_meta _ _ _ I _ _ _ OB).
        -- apply in_OT in OB. destruct OB as [OB _]. pose proof (i_start _ _ _ I _ _ OB). lia.
        -- apply in_OT in OB. destruct OB as [OB _]. apply (i_print _ _ _ I _ _ OB).
      * cbn [tr]. intros p o H Ho. destruct H as [H|H]; [discriminate H|]. apply G4; auto.
      * cbn [tr]. intros l1 p2 l2 p1 E H. destruct l1 as [|x l1]; cbn [app] in E; [discriminate E|]. injection E as _ E. eapply G5; eauto.
    + apply (single_frame d i s); auto; [cbn [ph]; rewrite upd_other; auto|].
      right. exists (now s), (End j). split; auto. discriminate.
  - (* get *)
    assert (b0 = cls j) as HB by (apply (i_meta _ _ _ I b0 j t0); rewrite HQ; left; auto).
    destruct (Nat.eq_dec i j) as [<-|N].
    + subst b0. destruct G as [G1 G2 G3 G4 G5].
      assert (objs s i = OE t0 :: objs_q i r0 ++ objs_p i (pool s)) as O.
      { unfold objs. rewrite HM, HQ. cbn. rewrite Nat.eqb_refl. auto. }
      assert (objs_q i r0 = [] /\ objs_p i (pool s) = []) as [O1 O2].
      { rewrite O in G1. cbn [length] in G1. apply app_eq_nil. apply length_zero_iff_nil. lia. }
      match goal with |- single d i ?s2 => assert (objs s2 i = [OT (TStart (now s))]) as OB end.
      { unfold objs. cbn [mon q pool]. rewrite HM, updb_same, O1, objs_p_app, O2. unfold objs_p. cbn [flat_map reading app]. rewrite obj_t_same by discriminate. auto. }
      assert (In (OE t0) (objs s i)) as H0 by (rewrite O; left; auto).
      constructor; rewrite ?OB; cbn [ph tr]; auto.
      * intro P. rewrite (G2 P) in O. discriminate O.
      * intros P o [<-|[]]. destruct (G3 P _ H0) as [e [A B]]. exists e. split; auto.
        assert (now s <= t0 + d); [|lia]. apply (LE _ (Meta i t0) HM). rewrite HQ. left; auto.
      * intros p o H [<-|[]]. apply (i_past _ _ _ I _ _ H).
    + match goal with |- single d i ?s2 => assert (objs s2 i = objs s i) as OB end.
      { unfold objs. cbn [mon q pool]. rewrite objs_p_app. cbn [objs_p flat_map]. rewrite obj_t_other by auto. cbn [app]. rewrite app_nil_r. f_equal.
        destruct (Bool.bool_dec (cls i) b0) as [C|C]; [|rewrite updb_other; auto].
        rewrite C, updb_same, HQ. cbn. assert (j =? i = false) as -> by (apply Nat.eqb_neq; auto). auto. }
      apply (single_frame d i s); auto; [rewrite OB; apply incl_refl|rewrite OB; auto].
  - (* getnone *)
    match goal with |- single d i ?s2 => assert (incl (objs s2 i) (objs s i) /\ length (objs s2 i) <= length (objs s i)) as [OB OL] end.
    { unfold objs. cbn [mon q pool]. destruct (Bool.bool_dec (cls i) b0) as [C|C].
      - rewrite C, updb_same. cbn [reading app]. split; [apply incl_appr, incl_refl|]. rewrite app_length. lia.
      - rewrite !updb_other by auto. split; [apply incl_refl|auto]. }
    apply (single_frame d i s); auto.
  - (* waitset *)
    match goal with |- single d i ?s2 => assert (incl (objs s2 i) (objs s i) /\ length (objs s2 i) <= length (objs s i)) as [OB OL] end.
    { unfold objs. cbn [mon q pool]. rewrite E, !objs_p_mid. assert (obj_t i (j, TEnd) = []) as -> by (unfold obj_t; cbn; destruct (j =? i); auto). split.
      - apply incl_app; [apply incl_appl, incl_refl|]. apply incl_appr. apply incl_app; [apply incl_appl, incl_refl|]. apply incl_appr, incl_appr, incl_refl.
      - rewrite !app_length. cbn [length]. lia. }
    apply (single_frame d i s); auto.
  - (* wait *)
    destruct (Nat.eq_dec i j) as [<-|N].
    + destruct G as [G1 G2 G3 G4 G5]. destruct (single_thread i s a0 c0 (TStart t0) G1 E) as [O1 [O2 O3]]; [discriminate|].
      match goal with |- single d i ?s2 => assert (objs s2 i = [OT (TWait (now s))]) as OB end.
      { unfold objs. cbn [mon q pool]. rewrite O1, objs_p_mid, O2, O3, obj_t_same; auto; discriminate. }
      assert (ph s i <> Idle) as NI.
      { intro P. rewrite (i_idle _ _ _ I i P) in F; [discriminate F|]. eapply (i_pool _ _ _ I). rewrite E. apply in_elt. }
      constructor; rewrite ?OB; cbn [ph tr]; auto; try (intro; contradiction).
      * intro P. specialize (G2 P). unfold objs in G2. rewrite E, objs_p_mid, obj_t_same in G2 by discriminate.
        apply app_eq_nil in G2. destruct G2 as [_ G2]. apply app_eq_nil in G2. destruct G2 as [_ G2]. discriminate G2.
      * intros p o H [<-|[]]. apply (i_past _ _ _ I _ _ H).
    + match goal with |- single d i ?s2 => assert (objs s2 i = objs s i) as OB end.
      { unfold objs. cbn [mon q pool]. rewrite E, !objs_p_mid, !obj_t_other by auto. auto. }
      apply (single_frame d i s); auto; [rewrite OB; apply incl_refl|rewrite OB; auto].
  - (* timeout *)
    destruct (Nat.eq_dec i j) as [<-|N].
    + destruct G as [G1 G2 G3 G4 G5]. destruct (single_thread i s a0 c0 (TWait t0) G1 E) as [O1 [O2 O3]]; [discriminate|].
      match goal with |- single d i ?s2 => assert (objs s2 i = [OT (TPrint (now s))]) as OB end.
      { unfold objs. cbn [mon q pool]. rewrite O1, objs_p_mid, O2, O3, obj_t_same; auto; discriminate. }
      assert (objs s i = [OT (TWait t0)]) as OA.
      { unfold objs. rewrite O1, E, objs_p_mid, O2, O3, obj_t_same; auto; discriminate. }
      assert (ph s i <> Idle) as NI. { apply (i_wait _ _ _ I i t0). rewrite E. apply in_elt. }
      constructor; rewrite ?OB; cbn [ph tr]; auto; try (intro; contradiction).
      * intro P. rewrite (G2 P) in OA. discriminate OA.
      * intros p o H [<-|[]]. specialize (G4 p (OT (TWait t0)) H). rewrite OA in G4. specialize (G4 (or_introl eq_refl)). cbn in G4. lia.
    + match goal with |- single d i ?s2 => assert (objs s2 i = objs s i) as OB end.
      { unfold objs. cbn [mon q pool]. rewrite E, !objs_p_mid, !obj_t_other by auto. auto. }
      apply (single_frame d i s); auto; [rewrite OB; apply incl_refl|rewrite OB; auto].
  - (* print *)
    destruct (Nat.eq_dec i j) as [<-|N].
    + destruct G as [G1 G2 G3 G4 G5]. destruct (single_thread i s a0 c0 (TPrint t0) G1 E) as [O1 [O2 O3]]; [discriminate|].
      match goal with |- single d i ?s2 => assert (objs s2 i = [OT (TStart (now s))]) as OB end.
      { unfold objs. cbn [mon q pool]. rewrite O1, objs_p_mid, O2, O3, obj_t_same; auto; discriminate. }
      assert (objs s i = [OT (TPrint t0)]) as OA.
      { unfold objs. rewrite O1, E, objs_p_mid, O2, O3, obj_t_same; auto; discriminate. }
      assert (In (i, TPrint t0) (pool s)) as Hi by (rewrite E; apply in_elt).
      assert (t0 <= now s) as Hn by (apply (i_print _ _ _ I _ _ Hi)).
      assert (forall p, In (p, Print i) (tr s) -> p + T (cls i) <= t0) as GP.
      { intros p H. specialize (G4 p (OT (TPrint t0)) H). rewrite OA in G4. apply (G4 (or_introl eq_refl)). }
      constructor; rewrite ?OB; cbn [ph tr]; auto.
      * intro P. rewrite (G2 P) in OA. discriminate OA.
      * intros P o [<-|[]]. destruct (G3 P (OT (TPrint t0))) as [e [A B]]; [rewrite OA; left; auto|]. exists e. split; [right; auto|].
        specialize (LT _ _ Hi eq_refl). lia.
      * intros p o H [<-|[]]. destruct H as [H|H]; [injection H as <-; auto|]. specialize (GP p H). lia.
      * intros l1 p2 l2 p1 Q H. destruct l1 as [|x l1]; cbn [app] in Q.
        -- injection Q as <- <-. specialize (GP p1 H). lia.
        -- injection Q as _ Q. eapply G5; eauto.
    + match goal with |- single d i ?s2 => assert (objs s2 i = objs s i) as OB end.
      { unfold objs. cbn [mon q pool]. rewrite E, !objs_p_mid, !obj_t_other by auto. auto. }
      apply (single_frame d i s); auto; [rewrite OB; apply incl_refl|rewrite OB; auto|].
      right. exists (now s), (Print j). split; auto. congruence.
  - (* exit *)
    match goal with |- single d i ?s2 => assert (incl (objs s2 i) (objs s i) /\ length (objs s2 i) <= length (objs s i)) as [OB OL] end.
    { unfold objs. cbn [mon q pool]. destruct (Bool.bool_dec (cls i) b0) as [C|C].
      - rewrite C, updb_same. cbn [reading app]. split; [apply incl_appr, incl_refl|]. rewrite app_length. lia.
      - rewrite !updb_other by auto. split; [apply incl_refl|auto]. }
    apply (single_frame d i s); auto.
  - match goal with |- single d i ?s2 => assert (objs s2 i = objs s i) as OB end.
    { unfold objs. cbn [mon q pool]. f_equal. destruct (cls i); [rewrite updb_same, objs_q_app; cbn; rewrite app_nil_r|rewrite updb_other by discriminate]; auto. }
    apply (single_frame d i s); auto; [rewrite OB; apply incl_refl|rewrite OB; auto|]. right. exists (now s), StopCall. split; auto. discriminate.
  - match goal with |- single d i ?s2 => assert (objs s2 i = objs s i) as OB end.
    { unfold objs. cbn [mon q pool]. f_equal. destruct (cls i); [rewrite updb_other by discriminate|rewrite updb_same, objs_q_app; cbn; rewrite app_nil_r]; auto. }
    apply (single_frame d i s); auto; [rewrite OB; apply incl_refl|rewrite OB; auto].
  - apply (single_frame d i s); auto. apply incl_refl.
  - apply (single_frame d i s); auto; [apply incl_refl|]. right. exists (now s), StopRet. split; auto. discriminate.
  - apply (single_frame d i s); auto. apply incl_refl.
Qed.

(** If the calls of a port are separated by more than two latencies, its messages are at least the timeout apart. *)
Theorem watchdog_one_message_per_timeout : forall d i s l1 p2 l2 p1,
  reachable T cls (Some d) s -> separated (2 * d) i (tr s) ->
  tr s = l1 ++ (p2, Print i) :: l2 -> In (p1, Print i) l2 -> p1 + T (cls i) <= p2.
Proof using.
  intros d i s l1 p2 l2 p1 R HS. revert l1 p2 l2 p1. apply g_sp with (d := d). revert HS. pattern s. eapply reach_ind; [| |exact R]; clear s R.
  - intros _. constructor; cbn; auto; try contradiction. intros [|x l1] p2 l2 p1 E; discriminate E.
  - intros s s' R IH S HS. eapply single_step; eauto. apply IH. destruct (trace_step _ _ _ S) as [Q|[o Q]]; rewrite Q in HS; auto.
    intros l1 b l2 e E H. apply (HS ((now s, o) :: l1) b l2 e); auto. rewrite E. auto.
Qed.

(** The monitors keep a thread object for every call ever made. *)
Theorem watchdog_threads_accumulate : forall lat s, reachable T cls lat s ->
  length (pool s) + length (filter is_meta (q s true)) + length (filter is_meta (q s false)) = length (filter is_started (tr s)).
Proof using.
  intros lat s R. pattern s. eapply reach_ind; [reflexivity| |exact R]. clear s R.
  intros s s' R IH S. destruct S as [j NS PI|j NS PI|j NS PI|b0 j t0 r0 HM HQ|b0 t0 r0 HM HQ|a0 c0 j t0 E F|a0 c0 j t0 E F|a0 c0 j t0 E F|a0 c0 j t0 E|b0 HM HJ|Z|Z|Z ZM|Z ZM|HT];
    cbn [pool q tr filter is_started snd length]; auto.
  - destruct (cls j); [rewrite updb_same, updb_other by discriminate|rewrite updb_same, updb_other by discriminate];
      rewrite filter_app, app_length; cbn [filter is_meta length]; lia.
  - rewrite map_length. auto.
  - rewrite app_length. cbn [length]. destruct b0; rewrite HQ in IH; cbn [filter is_meta length] in IH;
      [rewrite updb_same, updb_other by discriminate|rewrite updb_same, updb_other by discriminate]; lia.
  - destruct b0; rewrite HQ in IH; cbn [filter is_meta length] in IH;
      [rewrite updb_same, updb_other by discriminate|rewrite updb_same, updb_other by discriminate]; lia.
  - rewrite E, app_length in IH. rewrite app_length. auto.
  - rewrite E, app_length in IH. rewrite app_length. auto.
  - rewrite E, app_length in IH. rewrite app_length. auto.
  - rewrite E, app_length in IH. rewrite app_length. auto.
  - rewrite updb_same, updb_other by discriminate. rewrite filter_app, app_length. cbn [filter is_meta length]. lia.
  - rewrite updb_same, updb_other by discriminate. rewrite filter_app, app_length. cbn [filter is_meta length]. lia.
Qed.
End P.

(** *** Instances and refutations *)
Definition exT (b : bool) : nat := if b then 5 else 2.
Definition exC (i : nat) : bool := i =? 7.

Lemma exec_view T cls lat al l n k :
  option_map (fun s => (tr s, now s, length (pool s))) (exec T cls lat al init) = Some (l, n, k) ->
  exists s, exec T cls lat al init = Some s /\ tr s = l /\ now s = n /\ length (pool s) = k.
Proof. destruct (exec T cls lat al init) as [s|]; [|discriminate]. cbn [option_map]. intro H. injection H as <- <- <-. exists s. auto. Qed.

(** a call of port 0 blocks for 8 ticks and is reported at 2, 4, 6 and 8; another port is not; stop() returns *)
Definition ex_acts : list act :=
  [ABegin 0; APut 0; AGet false; AThread 0; ABegin 7; APut 7; AGet true; AEnd 7; ATick; AThread 1; ATick;
   AThread 0; AThread 0; AThread 0; ATick; ATick; AThread 0; AThread 0; AThread 0; ATick; ATick;
   AThread 0; AThread 0; AThread 0; ATick; ATick; AThread 0; AThread 0; AThread 0].
Example watchdog_ex : exists s, exec exT exC (Some 1) ex_acts init = Some s /\
  tr s = [(8, Print 0); (6, Print 0); (4, Print 0); (2, Print 0); (0, End 7); (0, Started 7); (0, Begin 7); (0, Started 0); (0, Begin 0)] /\ now s = 8.
Proof.
  destruct (exec_view exT exC (Some 1) ex_acts [(8, Print 0); (6, Print 0); (4, Print 0); (2, Print 0); (0, End 7); (0, Started 7); (0, Begin 7); (0, Started 0); (0, Begin 0)] 8 2) as [s [A [B [C _]]]].
  - vm_compute. reflexivity.
  - exists s. auto.
Qed.
Example watchdog_ex_blocked : exists p, (p = 2 \/ p = 4 \/ p = 6 \/ p = 8) /\ 1 <= p <= 7.
Proof.
  destruct watchdog_ex as [s [E [Q N]]].
  destruct (watchdog_reports_blocked_calls exT exC 1 s
    [(8, Print 0); (6, Print 0); (4, Print 0); (2, Print 0); (0, End 7); (0, Started 7); (0, Begin 7)] 0 0 [(0, Begin 0)] 1) as [p [H L]].
  - exists ex_acts. exact E.
  - exact Q.
  - intros t H. cbn [In] in H. intuition congruence.
  - intros t H. cbn [In] in H. intuition congruence.
  - lia.
  - rewrite N. cbn. lia.
  - exists p. rewrite Q in H. cbn [In] in H. split; [|exact L]. intuition congruence.
Qed.
Example watchdog_ex_stop : exists s, exec exT exC (Some 1) (ex_acts ++ [AEnd 0; AStop; AStop; AGet true; AGet false; AExit true; AExit false; AStop; AStop]) init = Some s /\
  tr s = [(8, StopRet); (8, StopCall); (8, End 0); (8, Print 0); (6, Print 0); (4, Print 0); (2, Print 0); (0, End 7); (0, Started 7); (0, Begin 7); (0, Started 0); (0, Begin 0)].
Proof.
  destruct (exec_view exT exC (Some 1) (ex_acts ++ [AEnd 0; AStop; AStop; AGet true; AGet false; AExit true; AExit false; AStop; AStop])
    [(8, StopRet); (8, StopCall); (8, End 0); (8, Print 0); (6, Print 0); (4, Print 0); (2, Print 0); (0, End 7); (0, Started 7); (0, Begin 7); (0, Started 0); (0, Begin 0)] 8 2) as [s [A [B _]]].
  - vm_compute. reflexivity.
  - exists s. auto.
Qed.

(** A port that is used twice in quick succession can be reported twice at once, and that although its second call has
    been blocked for one timeout only: the thread of the first call has not noticed its end. *)
Theorem watchdog_duplicate_messages_refuted : exists s l, reachable exT exC (Some 1) s /\
  tr s = (2, Print 0) :: (2, Print 0) :: l /\ never (Print 0) l /\ ~ separated 2 0 (tr s).
Proof.
  destruct (exec_view exT exC (Some 1) [ABegin 0; APut 0; AEnd 0; ABegin 0; APut 0; AGet false; AGet false; AThread 0; AThread 1; ATick; ATick;
            AThread 0; AThread 1; AThread 0; AThread 1]
    [(2, Print 0); (2, Print 0); (0, Started 0); (0, Begin 0); (0, End 0); (0, Started 0); (0, Begin 0)] 2 2) as [s [A [B _]]]; [vm_compute; reflexivity|].
  exists s. eexists. split; [eexists; exact A|]. rewrite B. split; [reflexivity|]. split.
  - intros t H. cbn [In] in H. intuition congruence.
  - intro H. specialize (H [(2, Print 0); (2, Print 0); (0, Started 0)] 0 [(0, End 0); (0, Started 0); (0, Begin 0)] 0 eq_refl (or_introl eq_refl)). lia.
Qed.

(** stop() hangs as long as a monitored call is blocked, whatever else happens. *)
Lemma no_end T cls lat i al : forall s s', ~ In (AEnd i) al -> exec T cls lat al s = Some s' ->
  exists l, tr s' = l ++ tr s /\ never (End i) l.
Proof.
  induction al as [|a al IH]; intros s s' N E; cbn [exec] in E.
  - injection E as <-. exists []. split; auto. intros t [].
  - destruct (fire T cls lat a s) as [s1|] eqn:F; [|discriminate E].
    destruct (IH s1 s') as [l [Q M]]; auto; [intro H; apply N; right; auto|].
    assert (tr s1 = tr s \/ exists t o, tr s1 = (t, o) :: tr s /\ o <> End i) as K.
    { destruct a as [j|j|j|b|k|b| |]; cbn [fire] in F.
      - unfold fire_begin in F. destruct (stopped s); [discriminate F|]. destruct (ph s j); try discriminate F. injection F as <-.
        right. exists (now s), (Begin j). split; auto. discriminate.
      - unfold fire_put in F. destruct (stopped s); [discriminate F|]. destruct (ph s j); try discriminate F. injection F as <-.
        right. exists (now s), (Started j). split; auto. discriminate.
      - unfold fire_end in F. destruct (stopped s); [discriminate F|]. destruct (ph s j); try discriminate F. injection F as <-.
        right. exists (now s), (End j). split; auto. intro X. injection X as ->. apply N. left; auto.
      - unfold fire_get in F. destruct (mon s b); try discriminate F. destruct (q s b) as [|[]]; try discriminate F; injection F as <-; auto.
      - unfold fire_thread in F. destruct (nth_error (pool s) k) as [[j u]|]; [|discriminate F]. unfold thread_next in F.
        destruct u as [t|f|t|]; try discriminate F.
        + destruct (flag s j); injection F as <-; auto.
        + destruct (f + T (cls j) <=? now s); [|discriminate F]. injection F as <-; auto.
        + injection F as <-. right. exists (now s), (Print j). split; auto. discriminate.
      - unfold fire_exit in F. destruct (mon s b); try discriminate F. destruct (joined cls s b); [|discriminate F]. injection F as <-; auto.
      - unfold fire_stop in F. destruct (stp s); try discriminate F.
        + injection F as <-. right. exists (now s), StopCall. split; auto. discriminate.
        + injection F as <-. auto.
        + destruct (mon s true); try discriminate F. injection F as <-. auto.
        + destruct (mon s false); try discriminate F. injection F as <-. right. exists (now s), StopRet. split; auto. discriminate.
      - unfold fire_tick in F. destruct (match lat with Some d => prompt T cls d s | None => true end); [|discriminate F]. injection F as <-. auto. }
    destruct K as [K|[t [o [K KN]]]].
    + exists l. rewrite Q, K. auto.
    + exists (l ++ [(t, o)]). rewrite Q, K, <- app_assoc. split; auto. intros x H. apply in_app_or in H. destruct H as [H|[H|[]]]; [eapply M; eauto|congruence].
Qed.
Theorem watchdog_stop_hangs_refuted : forall T cls lat, exists s, exec T cls lat [ABegin 0; APut 0; AStop] init = Some s /\
  forall al s', ~ In (AEnd 0) al -> exec T cls lat al s = Some s' -> never StopRet (tr s').
Proof.
  intros T cls lat. eexists. split; [reflexivity|]. intros al s' N E r H.
  destruct (no_end T cls lat 0 al _ _ N E) as [l [Q M]]. rewrite Q in H. cbn [tr log now] in H, Q.
  apply in_app_or in H. destruct H as [H|H]; [|cbn in H; intuition congruence].
  apply in_split in H. destruct H as [l0 [l1 ->]].
  destruct (watchdog_stop_waits_for_calls T cls lat s' l0 r l1 0 [] 0 0 [(0, Begin 0)]) as [e He].
  - eapply reach_extend; [|exact E]. exists [ABegin 0; APut 0; AStop]. reflexivity.
  - rewrite Q, <- app_assoc. reflexivity.
  - rewrite app_nil_r in He. apply (M e). apply in_or_app. right; right; auto.
Qed.

(** after n calls of a port, all over and all threads finished, the monitors still hold n thread objects *)
Example watchdog_leak_ex : exists s, exec exT exC None (concat (repeat [ABegin 0; APut 0; AGet false; AEnd 0] 5)) init = Some s /\ length (pool s) = 5.
Proof.
  destruct (exec_view exT exC None (concat (repeat [ABegin 0; APut 0; AGet false; AEnd 0] 5)) (concat (repeat [(0, End 0); (0, Started 0); (0, Begin 0)] 5)) 0 5) as [s [A [_ [_ B]]]].
  - vm_compute. reflexivity.
  - exists s. auto.
Qed.

Print Assumptions watchdog_messages_true.
Print Assumptions watchdog_reports_blocked_calls.
Print Assumptions watchdog_stop_waits_for_calls.
Print Assumptions watchdog_silent_after_stop.
Print Assumptions watchdog_stop_returns.
Print Assumptions watchdog_one_message_per_timeout.
Print Assumptions watchdog_threads_accumulate.
Print Assumptions watchdog_duplicate_messages_refuted.
Print Assumptions watchdog_stop_hangs_refuted.
