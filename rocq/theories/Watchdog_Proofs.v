(** Proofs about the watchdog. *)
From Coq Require Import List Arith Bool Lia.
From Verif Require Import Watchdog_Model Watchdog_Spec.
Import ListNotations.

Lemma set_nth_split {A} (l : list A) : forall k x, nth_error l k = Some x ->
  exists a c, l = a ++ x :: c /\ forall y, set_nth l k y = a ++ y :: c.
Proof.
  induction l as [|z l IH]; intros [|k] x H; try discriminate H; cbn [nth_error] in H.
  - injection H as ->. exists [], l. split; auto.
  - destruct (IH _ _ H) as [a [c [E F]]]. exists (z :: a), c. split; [cbn [app]; congruence|]. intro y. cbn [set_nth app]. rewrite F. auto.
Qed.
Lemma upd_same {A} (f : nat -> A) i x : upd f i x i = x.
Proof. unfold upd. rewrite Nat.eqb_refl. auto. Qed.
Lemma upd_other {A} (f : nat -> A) i x j : j <> i -> upd f i x j = f j.
Proof. intro H. unfold upd. apply Nat.eqb_neq in H. rewrite H. auto. Qed.
Lemma updb_same {A} (f : bool -> A) b x : updb f b x b = x.
Proof. unfold updb. rewrite eqb_reflx. auto. Qed.
Lemma updb_other {A} (f : bool -> A) b x c : c <> b -> updb f b x c = f c.
Proof. intro H. unfold updb. destruct (Bool.eqb c b) eqn:E; auto. apply eqb_prop in E. contradiction. Qed.

Section P.
Variable T : bool -> nat.
Variable cls : nat -> bool.

(** the actions as a relation *)
Inductive step (lat : option nat) (s : st) : st -> Prop :=
| st_begin i : stp s <> S4 -> ph s i = Idle ->
    step lat s {| now := now s; flag := upd (flag s) i false; ph := upd (ph s) i Cleared; q := q s; mon := mon s;
                  pool := pool s; stp := stp s; tr := (now s, Begin i) :: tr s |}
| st_put i : stp s <> S4 -> ph s i = Cleared ->
    step lat s {| now := now s; flag := flag s; ph := upd (ph s) i Running;
                  q := updb (q s) (cls i) (q s (cls i) ++ [Meta i (now s)]); mon := mon s;
                  pool := pool s; stp := stp s; tr := (now s, Started i) :: tr s |}
| st_end i : stp s <> S4 -> ph s i = Running ->
    step lat s {| now := now s; flag := upd (flag s) i true; ph := upd (ph s) i Idle; q := q s; mon := mon s;
                  pool := map (wake i) (pool s); stp := stp s; tr := (now s, End i) :: tr s |}
| st_get b i t r : mon s b = MRun -> q s b = Meta i t :: r ->
    step lat s {| now := now s; flag := flag s; ph := ph s; q := updb (q s) b r; mon := mon s;
                  pool := pool s ++ [(i, TStart (now s))]; stp := stp s; tr := tr s |}
| st_getnone b t r : mon s b = MRun -> q s b = NoneE t :: r ->
    step lat s {| now := now s; flag := flag s; ph := ph s; q := updb (q s) b r; mon := updb (mon s) b MJoin;
                  pool := pool s; stp := stp s; tr := tr s |}
| st_waitset a c i t : pool s = a ++ (i, TStart t) :: c -> flag s i = true ->
    step lat s {| now := now s; flag := flag s; ph := ph s; q := q s; mon := mon s;
                  pool := a ++ (i, TEnd) :: c; stp := stp s; tr := tr s |}
| st_wait a c i t : pool s = a ++ (i, TStart t) :: c -> flag s i = false ->
    step lat s {| now := now s; flag := flag s; ph := ph s; q := q s; mon := mon s;
                  pool := a ++ (i, TWait (now s)) :: c; stp := stp s; tr := tr s |}
| st_timeout a c i f : pool s = a ++ (i, TWait f) :: c -> f + T (cls i) <= now s ->
    step lat s {| now := now s; flag := flag s; ph := ph s; q := q s; mon := mon s;
                  pool := a ++ (i, TPrint (now s)) :: c; stp := stp s; tr := tr s |}
| st_print a c i t : pool s = a ++ (i, TPrint t) :: c ->
    step lat s {| now := now s; flag := flag s; ph := ph s; q := q s; mon := mon s;
                  pool := a ++ (i, TStart (now s)) :: c; stp := stp s; tr := (now s, Print i) :: tr s |}
| st_exit b : mon s b = MJoin -> joined cls s b = true ->
    step lat s {| now := now s; flag := flag s; ph := ph s; q := q s; mon := updb (mon s) b MExit; pool := pool s;
                  stp := stp s; tr := tr s |}
| st_stop1 : stp s = S0 ->
    step lat s {| now := now s; flag := flag s; ph := ph s; q := updb (q s) true (q s true ++ [NoneE (now s)]); mon := mon s;
                  pool := pool s; stp := S1; tr := (now s, StopCall) :: tr s |}
| st_stop2 : stp s = S1 ->
    step lat s {| now := now s; flag := flag s; ph := ph s; q := updb (q s) false (q s false ++ [NoneE (now s)]); mon := mon s;
                  pool := pool s; stp := S2; tr := tr s |}
| st_stop3 : stp s = S2 -> mon s true = MExit ->
    step lat s {| now := now s; flag := flag s; ph := ph s; q := q s; mon := mon s; pool := pool s; stp := S3; tr := tr s |}
| st_stop4 : stp s = S3 -> mon s false = MExit ->
    step lat s {| now := now s; flag := flag s; ph := ph s; q := q s; mon := mon s; pool := pool s; stp := S4;
                  tr := (now s, StopRet) :: tr s |}
| st_tick : (forall d, lat = Some d -> prompt T cls d s = true) ->
    step lat s {| now := S (now s); flag := flag s; ph := ph s; q := q s; mon := mon s; pool := pool s; stp := stp s; tr := tr s |}.

Lemma fire_step lat a s s' : fire T cls lat a s = Some s' -> step lat s s'.
Proof using.
  destruct a as [i|i|i|b|k|b| |]; cbn [fire].
  - unfold fire_begin, stopped. destruct (stp s) eqn:E; intro H; try discriminate H;
      destruct (ph s i) eqn:P; try discriminate H; injection H as <-; rewrite <- E; apply st_begin; congruence.
  - unfold fire_put, stopped. destruct (stp s) eqn:E; intro H; try discriminate H;
      destruct (ph s i) eqn:P; try discriminate H; injection H as <-; rewrite <- E; apply st_put; congruence.
  - unfold fire_end, stopped. destruct (stp s) eqn:E; intro H; try discriminate H;
      destruct (ph s i) eqn:P; try discriminate H; injection H as <-; rewrite <- E; apply st_end; congruence.
  - unfold fire_get. destruct (mon s b) eqn:M; intro H; try discriminate H.
    destruct (q s b) as [|[i t|t] r] eqn:Q; try discriminate H; injection H as <-; [eapply st_get|eapply st_getnone]; eauto.
  - unfold fire_thread. destruct (nth_error (pool s) k) as [[i t]|] eqn:N; intro H; try discriminate H.
    destruct (set_nth_split _ _ _ N) as [a [c [E F]]]. unfold thread_next in H. destruct t as [t|f|t|].
    + destruct (flag s i) eqn:G; injection H as <-; rewrite F; [eapply st_waitset|eapply st_wait]; eauto.
    + destruct (f + T (cls i) <=? now s) eqn:G; [|discriminate H]. apply Nat.leb_le in G. injection H as <-. rewrite F. eapply st_timeout; eauto.
    + injection H as <-. rewrite F. eapply st_print; eauto.
    + discriminate H.
  - unfold fire_exit. destruct (mon s b) eqn:M; intro H; try discriminate H.
    destruct (joined cls s b) eqn:J; [|discriminate H]. injection H as <-. apply st_exit; auto.
  - unfold fire_stop. destruct (stp s) eqn:E; intro H; try discriminate H.
    + injection H as <-. apply st_stop1; auto.
    + injection H as <-. apply st_stop2; auto.
    + destruct (mon s true) eqn:M; try discriminate H. injection H as <-. apply st_stop3; auto.
    + destruct (mon s false) eqn:M; try discriminate H. injection H as <-. apply st_stop4; auto.
  - unfold fire_tick. destruct lat as [d|].
    + destruct (prompt T cls d s) eqn:Q; intro H; [|discriminate H]. injection H as <-. apply st_tick. intros d' E. congruence.
    + intro H. injection H as <-. apply st_tick. discriminate.
Qed.

Lemma exec_app lat al : forall s bl, exec T cls lat (al ++ bl) s =
  match exec T cls lat al s with Some s' => exec T cls lat bl s' | None => None end.
Proof using. induction al as [|a al IH]; intros s bl; cbn [app exec]; auto. destruct (fire T cls lat a s); auto. Qed.

(** induction over executions *)
Lemma reach_ind lat (P : st -> Prop) : P init ->
  (forall s s', reachable T cls lat s -> P s -> step lat s s' -> P s') ->
  forall s, reachable T cls lat s -> P s.
Proof using.
  intros H0 HS s [al H]. revert s H. induction al as [|a al IH] using rev_ind; intros s H.
  - injection H as <-. auto.
  - rewrite exec_app in H. destruct (exec T cls lat al init) as [s1|] eqn:E; [|discriminate H].
    cbn [exec] in H. destruct (fire T cls lat a s1) as [s2|] eqn:F; [|discriminate H]. injection H as <-.
    eapply HS; [exists al; exact E|apply IH; auto|eapply fire_step; eauto].
Qed.
Lemma reach_ind2 lat (P : st -> Prop) : P init ->
  (forall s s', reachable T cls lat s -> reachable T cls lat s' -> P s -> step lat s s' -> P s') ->
  forall s, reachable T cls lat s -> P s.
Proof using.
  intros H0 HS s [al H]. revert s H. induction al as [|a al IH] using rev_ind; intros s H.
  - injection H as <-. auto.
  - pose proof H as Hx. rewrite exec_app in H. destruct (exec T cls lat al init) as [s1|] eqn:E; [|discriminate H].
    cbn [exec] in H. destruct (fire T cls lat a s1) as [s2|] eqn:F; [|discriminate H]. injection H as <-.
    eapply HS; [exists al; exact E|eexists; exact Hx|apply IH; auto|eapply fire_step; eauto].
Qed.
Lemma exec_ind lat s0 (P : st -> Prop) : P s0 -> (forall s s', P s -> step lat s s' -> P s') ->
  forall al s, exec T cls lat al s0 = Some s -> P s.
Proof using.
  intros H0 HS al. induction al as [|a al IH] using rev_ind; intros s H.
  - injection H as <-. auto.
  - rewrite exec_app in H. destruct (exec T cls lat al s0) as [s1|] eqn:E; [|discriminate H].
    cbn [exec] in H. destruct (fire T cls lat a s1) as [s2|] eqn:F; [|discriminate H]. injection H as <-.
    eapply HS; [apply IH; eauto|eapply fire_step; eauto].
Qed.
Lemma reach_extend lat s al s' : reachable T cls lat s -> exec T cls lat al s = Some s' -> reachable T cls lat s'.
Proof using. intros [bl H] E. exists (bl ++ al). rewrite exec_app, H. auto. Qed.

(** *** Traces *)
Lemma ip_cons l i b t o : in_progress l i b -> o <> End i -> in_progress ((t, o) :: l) i b.
Proof using.
  intros [l2 [l1 [-> N]]] H. exists ((t, o) :: l2), l1. split; auto.
  intros x [E|E]; [injection E as _ E; auto|eapply N; eauto].
Qed.
Lemma ip_inv l i b t o : in_progress ((t, o) :: l) i b -> (t = b /\ o = Begin i) \/ (in_progress l i b /\ o <> End i).
Proof using.
  intros [l2 [l1 [E N]]]. destruct l2 as [|x l2]; cbn [app] in E.
  - injection E as -> -> ->. auto.
  - injection E as <- ->. right. split.
    + exists l2, l1. split; auto. intros y Hy. apply (N y). right; auto.
    + intros ->. apply (N t). left; auto.
Qed.
Lemma ip_in l i b : in_progress l i b -> In (b, Begin i) l.
Proof using. intros [l2 [l1 [-> _]]]. apply in_or_app. right; left; auto. Qed.

(** *** Pools *)
Lemma in_mid {A} (a c : list A) x y z : In z (a ++ y :: c) -> z = y \/ In z (a ++ x :: c).
Proof using. rewrite !in_app_iff. cbn [In]. intros [H|[H|H]]; auto. Qed.
Lemma wake_in i t pl : In t (map (wake i) pl) -> (fst t = i /\ snd t = TEnd) \/ (In t pl /\ (fst t = i -> forall f, snd t <> TWait f)).
Proof using.
  rewrite in_map_iff. intros [[j u] [E H]]. unfold wake in E. cbn [fst snd] in E. destruct u as [x|f|x|]; subst t; cbn [fst snd].
  - right. split; auto. discriminate.
  - destruct (j =? i) eqn:Q; cbn [fst snd].
    + apply Nat.eqb_eq in Q. auto.
    + apply Nat.eqb_neq in Q. right. split; auto.
  - right. split; auto. discriminate.
  - right. split; auto. discriminate.
Qed.

(** *** The basic invariant *)
Definition past (s : st) : Prop := forall t o, In (t, o) (tr s) -> t <= now s.
Definition begun (s : st) (i : nat) : Prop := exists t, In (t, Begin i) (tr s).
Record inv (s : st) : Prop := {
  i_past : past s;
  i_idle : forall i, ph s i = Idle -> begun s i -> flag s i = true;
  i_rest : forall i b, ph s i = Idle -> ~ in_progress (tr s) i b;
  i_call : forall i, ph s i <> Idle -> flag s i = false /\ exists b, in_progress (tr s) i b;
  i_meta : forall b i t, In (Meta i t) (q s b) -> begun s i /\ t <= now s /\ b = cls i;
  i_pool : forall i t, In (i, t) (pool s) -> begun s i;
  i_start : forall i t, In (i, TStart t) (pool s) -> t <= now s;
  i_wait : forall i f, In (i, TWait f) (pool s) -> f <= now s /\ ph s i <> Idle /\ exists b, b <= f /\ in_progress (tr s) i b;
  i_print : forall i t, In (i, TPrint t) (pool s) -> t <= now s /\
     exists l2 b l1, tr s = l2 ++ (b, Begin i) :: l1 /\ b + T (cls i) <= t /\ forall e, In (e, End i) l2 -> t <= e }.

Lemma past_step lat s s' : past s -> step lat s s' -> past s'.
Proof using.
  intros H S t o. destruct S; cbn [now tr]; intro E; try (destruct E as [E|E]; [injection E as <- _; lia|]); try (apply H in E; lia).
Qed.
Lemma begun_step lat s s' i : begun s i -> step lat s s' -> begun s' i.
Proof using. intros [t H] S. exists t. destruct S; cbn [tr]; auto; right; auto. Qed.

Lemma inv_init : inv init.
Proof using.
  constructor; cbn; try (intros; contradiction).
  - intros t o [].
  - intros i _ [t []].
  - intros i b _ [l2 [l1 [E _]]]. destruct l2; discriminate E.
Qed.

Lemma inv_step lat s s' : inv s -> step lat s s' -> inv s'.
Proof using.
  intros I S. pose proof (past_step _ _ _ (i_past s I) S) as HP. assert (forall i, begun s i -> begun s' i) as HB by (intros; eapply begun_step; eauto).
  assert (now s <= now s') as HN by (destruct S; cbn [now]; lia).
  constructor; auto.
  - (* idle *)
    intros j. destruct S as [i|i|i| | | | | | | | | | | |]; cbn [ph flag]; try (intros P B; eapply i_idle; eauto; fail).
    + destruct (Nat.eq_dec j i) as [->|N]; [rewrite upd_same; discriminate|]. rewrite !upd_other by auto. intros P [tb B].
      apply (i_idle s I j P). exists tb. destruct B as [B|B]; auto. congruence.
    + destruct (Nat.eq_dec j i) as [->|N]; [rewrite upd_same; discriminate|]. rewrite !upd_other by auto. intros P [tb B].
      apply (i_idle s I j P). exists tb. destruct B as [B|B]; auto. congruence.
    + destruct (Nat.eq_dec j i) as [->|N]; [rewrite !upd_same; auto|]. rewrite !upd_other by auto. intros P [tb B].
      apply (i_idle s I j P). exists tb. destruct B as [B|B]; auto. congruence.
    + intros P [tb B]. apply (i_idle s I j P). exists tb. destruct B as [B|B]; auto. congruence.
    + intros P [tb B]. apply (i_idle s I j P). exists tb. destruct B as [B|B]; auto. congruence.
    + intros P [tb B]. apply (i_idle s I j P). exists tb. destruct B as [B|B]; auto. congruence.
  - (* rest *)
    intros j b. destruct S as [i|i|i| | | | | | | | | | | |]; cbn [ph tr]; try (intros P F; eapply i_rest; eauto; fail).
    + destruct (Nat.eq_dec j i) as [->|N]; [rewrite upd_same; discriminate|]. rewrite !upd_other by auto. intros P F.
      apply ip_inv in F. destruct F as [[_ F]|[F _]]; [congruence|]. eapply i_rest; eauto.
    + destruct (Nat.eq_dec j i) as [->|N]; [rewrite upd_same; discriminate|]. rewrite !upd_other by auto. intros P F.
      apply ip_inv in F. destruct F as [[_ F]|[F _]]; [congruence|]. eapply i_rest; eauto.
    + intros P F. apply ip_inv in F. destruct F as [[_ F]|[F G]]; [congruence|].
      destruct (Nat.eq_dec j i) as [->|N]; [congruence|]. rewrite !upd_other in P by auto. eapply i_rest; eauto.
    + intros P F. apply ip_inv in F. destruct F as [[_ F]|[F _]]; [congruence|]. eapply i_rest; eauto.
    + intros P F. apply ip_inv in F. destruct F as [[_ F]|[F _]]; [congruence|]. eapply i_rest; eauto.
    + intros P F. apply ip_inv in F. destruct F as [[_ F]|[F _]]; [congruence|]. eapply i_rest; eauto.
  - (* call *)
    assert (forall j t o, ph s j <> Idle -> o <> End j -> flag s j = false /\ exists b, in_progress ((t, o) :: tr s) j b) as K.
    { intros j t o P N. destruct (i_call s I j P) as [F [b B]]. split; auto. exists b. apply ip_cons; auto. }
    intros j. destruct S as [i|i|i| | | | | | | | | | | |]; cbn [ph flag tr]; intro P; try (eapply i_call; eauto; fail); try (apply K; [solve [auto]|congruence]).
    + destruct (Nat.eq_dec j i) as [->|N].
      * rewrite upd_same. split; auto. exists (now s), [], (tr s). split; auto. intros t [].
      * rewrite !upd_other in * by auto. apply K; auto. congruence.
    + apply K; [|congruence]. destruct (Nat.eq_dec j i) as [->|N]; [congruence|]. rewrite upd_other in P; auto.
    + destruct (Nat.eq_dec j i) as [->|N]; [rewrite upd_same in P; congruence|]. rewrite !upd_other in * by auto. apply K; auto. congruence.
  - (* meta *)
    assert (forall b j t, In (Meta j t) (q s b) -> begun s' j /\ t <= now s' /\ b = cls j) as K.
    { intros b j t H. destruct (i_meta s I b j t H) as [H1 [H2 H3]]. split; auto. split; auto. lia. }
    intros b j t H. destruct S as [i|i NS PI|i|b0 i t0 r HM HQ|b0 t0 r HM HQ| | | | | | | | | |]; cbn [q] in H; auto.
    + destruct (Bool.bool_dec b (cls i)) as [->|N].
      * rewrite updb_same in H. apply in_app_or in H. destruct H as [H|[H|[]]]; auto. injection H as <- <-.
        destruct (i_call s I i) as [_ [b B]]; [congruence|]. split; [apply HB; exists b; eapply ip_in; eauto|]. cbn [now]. auto.
      * rewrite updb_other in H by auto. auto.
    + destruct (Bool.bool_dec b b0) as [->|N]; [rewrite updb_same in H; apply K; rewrite HQ; right; auto|rewrite updb_other in H by auto; auto].
    + destruct (Bool.bool_dec b b0) as [->|N]; [rewrite updb_same in H; apply K; rewrite HQ; right; auto|rewrite updb_other in H by auto; auto].
    + destruct (Bool.bool_dec b true) as [->|N]; [|rewrite updb_other in H by auto; auto].
      rewrite updb_same in H. apply in_app_or in H. destruct H as [H|[H|[]]]; auto. discriminate H.
    + destruct (Bool.bool_dec b false) as [->|N]; [|rewrite updb_other in H by auto; auto].
      rewrite updb_same in H. apply in_app_or in H. destruct H as [H|[H|[]]]; auto. discriminate H.
  - (* pool *)
    intros j t H. assert (forall u, In (j, u) (pool s) -> begun s' j) as K. { intros u Hu. apply HB. eapply i_pool; eauto. }
    destruct S as [i|i|i|b0 i t0 r HM HQ|b0 t0 r HM HQ|a c i t0 E F|a c i t0 E F|a c i t0 E F|a c i t0 E| | | | | |]; cbn [pool] in H; try (eapply K; eauto; fail).
    + apply in_map_iff in H. destruct H as [[j' u] [E H]]. unfold wake in E. cbn [fst snd] in E. apply (K u).
      destruct u; try destruct (j' =? i); injection E as <- <-; auto.
    + apply in_app_or in H. destruct H as [H|[H|[]]]; [eapply K; eauto|]. injection H as <- <-. apply HB.
      apply (i_meta s I b0 i t0). rewrite HQ. left; auto.
    + apply in_mid with (x := (i, TStart t0)) in H. rewrite <- E in H. destruct H as [H|H]; [|eapply K; eauto]. injection H as -> _. eapply K. rewrite E. apply in_elt.
    + apply in_mid with (x := (i, TStart t0)) in H. rewrite <- E in H. destruct H as [H|H]; [|eapply K; eauto]. injection H as -> _. eapply K. rewrite E. apply in_elt.
    + apply in_mid with (x := (i, TWait t0)) in H. rewrite <- E in H. destruct H as [H|H]; [|eapply K; eauto]. injection H as -> _. eapply K. rewrite E. apply in_elt.
    + apply in_mid with (x := (i, TPrint t0)) in H. rewrite <- E in H. destruct H as [H|H]; [|eapply K; eauto]. injection H as -> _. eapply K. rewrite E. apply in_elt.
  - (* start *)
    intros j t H. assert (forall u, In (j, TStart u) (pool s) -> u <= now s') as K. { intros u Hu. pose proof (i_start s I _ _ Hu). lia. }
    destruct S as [i|i|i|b0 i t0 r HM HQ|b0 t0 r HM HQ|a c i t0 E F|a c i t0 E F|a c i t0 E F|a c i t0 E| | | | | |]; cbn [pool now] in *; try (eapply K; eauto; fail).
    + apply wake_in in H. destruct H as [[_ H]|[H _]]; [discriminate H|eapply K; eauto].
    + apply in_app_or in H. destruct H as [H|[H|[]]]; [eapply K; eauto|]. injection H as <- <-. lia.
    + apply in_mid with (x := (i, TStart t0)) in H. rewrite <- E in H. destruct H as [H|H]; [discriminate H|eapply K; eauto].
    + apply in_mid with (x := (i, TStart t0)) in H. rewrite <- E in H. destruct H as [H|H]; [discriminate H|eapply K; eauto].
    + apply in_mid with (x := (i, TWait t0)) in H. rewrite <- E in H. destruct H as [H|H]; [discriminate H|eapply K; eauto].
    + apply in_mid with (x := (i, TPrint t0)) in H. rewrite <- E in H. destruct H as [H|H]; [injection H as _ ->; lia|eapply K; eauto].
  - (* wait *)
    assert (forall j f t o, In (j, TWait f) (pool s) -> o <> End j ->
       f <= now s /\ ph s j <> Idle /\ exists b, b <= f /\ in_progress ((t, o) :: tr s) j b) as K.
    { intros j f t o H N. destruct (i_wait s I j f H) as [A [B [b [C D]]]]. split; auto. split; auto. exists b. split; auto. apply ip_cons; auto. }
    intros j f H.
    destruct S as [i NS PI|i NS PI|i NS PI|b0 i t0 r HM HQ|b0 t0 r HM HQ|a c i t0 E F|a c i t0 E F|a c i t0 E F|a c i t0 E| | | | | |];
      cbn [pool ph tr now] in *; try (apply (i_wait s I); auto; fail); try (apply K; [solve [auto]|congruence]).
    + destruct (K j f (now s) (Begin i) H) as [A [B C]]; [congruence|]. split; auto. split; auto.
      destruct (Nat.eq_dec j i) as [->|N]; [congruence|rewrite upd_other; auto].
    + destruct (K j f (now s) (Started i) H) as [A [B C]]; [congruence|]. split; auto. split; auto.
      destruct (Nat.eq_dec j i) as [->|N]; [rewrite upd_same; discriminate|rewrite upd_other; auto].
    + apply wake_in in H. destruct H as [[_ H]|[H N]]; [discriminate H|]. cbn [fst snd] in N.
      assert (j <> i) as NE. { intro Q. apply (N Q f). auto. }
      rewrite upd_other by auto. apply K; auto. congruence.
    + apply in_app_or in H. destruct H as [H|[H|[]]]; [|discriminate H]. apply (i_wait s I); auto.
    + apply in_mid with (x := (i, TStart t0)) in H. rewrite <- E in H. destruct H as [H|H]; [discriminate H|apply (i_wait s I); auto].
    + apply in_mid with (x := (i, TStart t0)) in H. rewrite <- E in H. destruct H as [H|H]; [|apply (i_wait s I); auto].
      injection H as -> ->. split; auto. assert (ph s i <> Idle) as P.
      { intro P. rewrite (i_idle s I i P) in F; [discriminate F|]. eapply (i_pool s I). rewrite E. apply in_elt. }
      split; auto. destruct (i_call s I i P) as [_ [b B]]. exists b. split; auto. apply (i_past s I _ _ (ip_in _ _ _ B)).
    + apply in_mid with (x := (i, TWait t0)) in H. rewrite <- E in H. destruct H as [H|H]; [discriminate H|apply (i_wait s I); auto].
    + apply in_mid with (x := (i, TPrint t0)) in H. rewrite <- E in H. destruct H as [H|H]; [discriminate H|apply K; [auto|congruence]].
    + destruct (i_wait s I j f H) as [A B]. split; auto.
  - (* print *)
    assert (forall j f n o, In (j, TPrint f) (pool s) -> now s <= n ->
       f <= n /\ exists l2 b l1, (n, o) :: tr s = l2 ++ (b, Begin j) :: l1 /\ b + T (cls j) <= f /\ forall e, In (e, End j) l2 -> f <= e) as K.
    { intros j f n o H Hn. destruct (i_print s I j f H) as [A [l2 [b [l1 [B [C D]]]]]]. split; [lia|].
      exists ((n, o) :: l2), b, l1. split; [rewrite B; auto|]. split; auto. intros e [Q|Q]; [injection Q as <- _; lia|auto]. }
    intros j f H.
    destruct S as [i NS PI|i NS PI|i NS PI|b0 i t0 r HM HQ|b0 t0 r HM HQ|a c i t0 E F|a c i t0 E F|a c i t0 E F|a c i t0 E| | | | | |];
      cbn [pool ph tr now] in *; try (apply (i_print s I); auto; fail); try (apply K; [solve [auto]|lia]).
    + apply wake_in in H. destruct H as [[_ H]|[H N]]; [discriminate H|]. apply K; auto.
    + apply in_app_or in H. destruct H as [H|[H|[]]]; [|discriminate H]. apply (i_print s I); auto.
    + apply in_mid with (x := (i, TStart t0)) in H. rewrite <- E in H. destruct H as [H|H]; [discriminate H|apply (i_print s I); auto].
    + apply in_mid with (x := (i, TStart t0)) in H. rewrite <- E in H. destruct H as [H|H]; [discriminate H|apply (i_print s I); auto].
    + apply in_mid with (x := (i, TWait t0)) in H. rewrite <- E in H. destruct H as [H|H]; [|apply (i_print s I); auto].
      injection H as -> ->. split; auto. destruct (i_wait s I i t0) as [A [_ [b [B [l2 [l1 [C D]]]]]]]; [rewrite E; apply in_elt|].
      exists l2, b, l1. split; auto. split; [lia|]. intros e He. exfalso. eapply D; eauto.
    + apply in_mid with (x := (i, TPrint t0)) in H. rewrite <- E in H. destruct H as [H|H]; [discriminate H|apply K; auto].
    + destruct (i_print s I j f H) as [A B]. split; auto.
Qed.
Lemma inv_reach lat s : reachable T cls lat s -> inv s.
Proof using. intro H. revert s H. apply reach_ind; [apply inv_init|]. intros; eapply inv_step; eauto. Qed.
(** *** Latency *)
Record timely (d : nat) (s : st) : Prop := {
  l_entry : forall b e, mon s b = MRun -> In e (q s b) -> now s <= entry_due e + d;
  l_thread : forall t x, In t (pool s) -> thread_due T cls t = Some x -> now s <= x + d }.
Lemma timely_step d s s' : timely d s -> step (Some d) s s' -> timely d s'.
Proof using.
  intros [LE LT] S. constructor.
  - intros b e M H. destruct S as [i|i NS PI|i|b0 i t0 r HM HQ|b0 t0 r HM HQ|a c i t0 E F|a c i t0 E F|a c i t0 E F|a c i t0 E|b0 HM HJ| | | | |HT];
      cbn [mon q now] in *; try (eapply LE; eauto; fail).
    + destruct (Bool.bool_dec b (cls i)) as [->|N].
      * rewrite updb_same in H. apply in_app_or in H. destruct H as [H|[<-|[]]]; [eapply LE; eauto|]. cbn [entry_due]. lia.
      * rewrite updb_other in H by auto. eapply LE; eauto.
    + destruct (Bool.bool_dec b b0) as [->|N].
      * rewrite updb_same in H. eapply LE; eauto. rewrite HQ. right; auto.
      * rewrite updb_other in H by auto. eapply LE; eauto.
    + destruct (Bool.bool_dec b b0) as [->|N].
      * rewrite updb_same in M. discriminate M.
      * rewrite updb_other in H by auto. rewrite updb_other in M by auto. eapply LE; eauto.
    + destruct (Bool.bool_dec b b0) as [->|N]; [rewrite updb_same in M; discriminate M|].
      rewrite updb_other in M by auto. eapply LE; eauto.
    + destruct (Bool.bool_dec b true) as [->|N].
      * rewrite updb_same in H. apply in_app_or in H. destruct H as [H|[<-|[]]]; [eapply LE; eauto|]. cbn [entry_due]. lia.
      * rewrite updb_other in H by auto. eapply LE; eauto.
    + destruct (Bool.bool_dec b false) as [->|N].
      * rewrite updb_same in H. apply in_app_or in H. destruct H as [H|[<-|[]]]; [eapply LE; eauto|]. cbn [entry_due]. lia.
      * rewrite updb_other in H by auto. eapply LE; eauto.
    + specialize (HT d eq_refl). unfold prompt in HT. rewrite !andb_true_iff in HT. destruct HT as [[[H1 _] _] _].
      cbn [forallb] in H1. rewrite !andb_true_iff in H1. destruct H1 as [Q1 [Q2 _]].
      assert (forallb (fun e => now s <? entry_due e + d) (q s b) = true) as Q.
      { destruct b; [rewrite M in Q1|rewrite M in Q2]; cbn [reading negb orb] in *; auto. }
      rewrite forallb_forall in Q. apply Q, Nat.ltb_lt in H. lia.
  - intros t x H D. destruct S as [i|i NS PI|i|b0 i t0 r HM HQ|b0 t0 r HM HQ|a c i t0 E F|a c i t0 E F|a c i t0 E F|a c i t0 E|b0 HM HJ| | | | |HT];
      cbn [pool now] in *; try (eapply LT; eauto; fail).
    + apply wake_in in H. destruct H as [[_ H]|[H _]]; [unfold thread_due in D; rewrite H in D; discriminate D|eapply LT; eauto].
    + apply in_app_or in H. destruct H as [H|[<-|[]]]; [eapply LT; eauto|]. cbn [thread_due snd] in D. injection D as <-. lia.
    + apply in_mid with (x := (i, TStart t0)) in H. rewrite <- E in H. destruct H as [->|H]; [discriminate D|eapply LT; eauto].
    + apply in_mid with (x := (i, TStart t0)) in H. rewrite <- E in H. destruct H as [->|H]; [cbn in D; injection D as <-; lia|eapply LT; eauto].
    + apply in_mid with (x := (i, TWait t0)) in H. rewrite <- E in H. destruct H as [->|H]; [cbn in D; injection D as <-; lia|eapply LT; eauto].
    + apply in_mid with (x := (i, TPrint t0)) in H. rewrite <- E in H. destruct H as [->|H]; [cbn in D; injection D as <-; lia|eapply LT; eauto].
    + specialize (HT d eq_refl). unfold prompt in HT. rewrite !andb_true_iff in HT. destruct HT as [[[_ H1] _] _].
      rewrite forallb_forall in H1. specialize (H1 t H). rewrite D in H1. apply Nat.ltb_lt in H1. lia.
Qed.
Lemma timely_reach d s : reachable T cls (Some d) s -> timely d s.
Proof using.
  intro H. revert s H. apply reach_ind; [|intros; eapply timely_step; eauto].
  constructor; [intros b e _ []|intros t x []].
Qed.

(** *** Soundness of the messages *)
Lemma sound_reach lat s : reachable T cls lat s -> forall l1 p i l, tr s = l1 ++ (p, Print i) :: l ->
  exists l2 b l3, l = l2 ++ (b, Begin i) :: l3 /\ b + T (cls i) <= p /\
    forall e, In (e, End i) l2 -> b + T (cls i) <= e /\ forall d, lat = Some d -> p <= e + d.
Proof using.
  intro H. pattern s. eapply reach_ind; [| |exact H]; clear s H; [intros [|x l1] p i l E; discriminate E|].
  intros s s' R IH S. pose proof (inv_reach _ _ R) as I.
  destruct S as [i|i NS PI|i|b0 i t0 r HM HQ|b0 t0 r HM HQ|a c i t0 E F|a c i t0 E F|a c i t0 E F|a c i t0 E|b0 HM HJ| | | | |HT]; cbn [tr]; auto;
    intros l1 p j l Q; destruct l1 as [|x l1]; cbn [app] in Q; try discriminate Q; try (injection Q as _ Q; eapply IH; eauto; fail).
  injection Q as <- <- <-. destruct (i_print s I i t0) as [A [l2 [b [l3 [B [C D]]]]]]; [rewrite E; apply in_elt|].
  exists l2, b, l3. split; auto. split; [lia|]. intros e He. specialize (D e He). split; [lia|].
  intros d ->. pose proof (timely_reach _ _ R) as [_ LT]. assert (In (i, TPrint t0) (pool s)) as HIn by (rewrite E; apply in_elt).
  specialize (LT _ _ HIn eq_refl). lia.
Qed.

(** *** Calls whose body has started *)
Definition open (l : trace) (i u : nat) : Prop :=
  exists later earlier, l = later ++ (u, Started i) :: earlier /\ never (End i) later /\ never StopCall earlier.
Lemma open_inv l i u t o : open ((t, o) :: l) i u -> (t = u /\ o = Started i /\ never StopCall l) \/ (open l i u /\ o <> End i).
Proof using.
  intros [l2 [l1 [E [N M]]]]. destruct l2 as [|x l2]; cbn [app] in E.
  - injection E as -> -> ->. auto.
  - injection E as <- ->. right. split.
    + exists l2, l1. split; auto. split; auto. intros y Hy. apply (N y). right; auto.
    + intros ->. apply (N t). left; auto.
Qed.

Definition nones (l : list entry) : Prop := exists t, In (NoneE t) l.
Definition alive (s : st) (i : nat) : Prop :=
  (exists t a c, mon s (cls i) = MRun /\ q s (cls i) = a ++ Meta i t :: c /\ ~ nones a) \/
  exists t, In (i, t) (pool s) /\ t <> TEnd.

Record inv2 (s : st) : Prop := {
  j_s0 : stp s = S0 -> never StopCall (tr s) /\ (forall b, mon s b = MRun /\ ~ nones (q s b));
  j_s0' : never StopCall (tr s) -> stp s = S0;
  j_s3 : stp s = S3 \/ stp s = S4 -> mon s true = MExit;
  j_s4 : stp s = S4 -> mon s false = MExit;
  j_ret : forall t, In (t, StopRet) (tr s) -> stp s = S4;
  j_exit : forall b i t, mon s b = MExit -> In (i, t) (pool s) -> cls i = b -> t = TEnd;
  j_run : forall i u, open (tr s) i u -> ph s i = Running;
  j_alive : forall i u, open (tr s) i u -> alive s i }.

Lemma inv2_init : inv2 init.
Proof using.
  constructor; cbn.
  - intros _. split; [intros t []|]. intro b. split; auto. intros [t []].
  - auto.
  - intros [H|H]; discriminate H.
  - discriminate.
  - intros t [].
  - discriminate.
  - intros i u [l2 [l1 [E _]]]. destruct l2; discriminate E.
  - intros i u [l2 [l1 [E _]]]. destruct l2; discriminate E.
Qed.

Lemma joined_spec s b : joined cls s b = true -> forall i t, In (i, t) (pool s) -> cls i = b -> t = TEnd.
Proof using.
  unfold joined. rewrite forallb_forall. intros H i t Hi C. specialize (H _ Hi). cbn [fst] in H. rewrite C, eqb_reflx in H.
  cbn [negb orb] in H. unfold ended in H. cbn [snd] in H. destruct t; try discriminate H. auto.
Qed.

Lemma nones_cons e l : nones l -> nones (e :: l). Proof using. intros [t H]. exists t. right; auto. Qed.

Lemma inv2_step lat s s' : inv s -> inv2 s -> step lat s s' -> inv2 s'.
Proof using.
  intros I J S.
  assert (forall i u, open (tr s) i u -> flag s i = false) as HF.
  { intros i u O. apply (i_call s I i). rewrite (j_run s J i u O). discriminate. }
  constructor.
  - (* s0 *)
    pose proof (j_s0 s J) as K.
    destruct S as [i NS PI|i NS PI|i NS PI|b0 i t0 r HM HQ|b0 t0 r HM HQ|a c i t0 E F|a c i t0 E F|a c i t0 E F|a c i t0 E|b0 HM HJ| | | | |HT];
      cbn [stp tr mon q]; intro Z; try discriminate Z; try (destruct (K Z) as [K1 K2]); auto;
      try (split; [intros t [Q|Q]; [discriminate Q|eapply K1; eauto]|auto]; fail).
    + split; [intros t [Q|Q]; [discriminate Q|eapply K1; eauto]|]. intro b. split; [apply K2|].
      destruct (Bool.bool_dec b (cls i)) as [->|N]; [rewrite updb_same|rewrite updb_other by auto; apply K2].
      intros [t H]. apply in_app_or in H. destruct H as [H|[H|[]]]; [|discriminate H]. apply (proj2 (K2 (cls i))). exists t; auto.
    + split; auto. intro b. split; [apply K2|].
      destruct (Bool.bool_dec b b0) as [->|N]; [rewrite updb_same|rewrite updb_other by auto; apply K2].
      intro H. apply (proj2 (K2 b0)). rewrite HQ. apply nones_cons; auto.
    + exfalso. apply (proj2 (K2 b0)). exists t0. rewrite HQ. left; auto.
    + exfalso. pose proof (proj1 (K2 b0)). congruence.
  - (* s0' *)
    pose proof (j_s0' s J) as K.
    destruct S as [i NS PI|i NS PI|i NS PI|b0 i t0 r HM HQ|b0 t0 r HM HQ|a c i t0 E F|a c i t0 E F|a c i t0 E F|a c i t0 E|b0 HM HJ|Z|Z|Z|Z|HT];
      cbn [stp tr]; intro N; auto; try (apply K; intros t Q; apply (N t); right; auto; fail);
      try (rewrite K in Z by auto; discriminate Z).
    + exfalso. apply (N (now s)). left; auto.
    + exfalso. rewrite K in Z; [discriminate Z|]. intros t Q. apply (N t). right; auto.
  - (* s3 *)
    pose proof (j_s3 s J) as K.
    destruct S as [i NS PI|i NS PI|i NS PI|b0 i t0 r HM HQ|b0 t0 r HM HQ|a c i t0 E F|a c i t0 E F|a c i t0 E F|a c i t0 E|b0 HM HJ|Z|Z|Z ZM|Z ZM|HT];
      cbn [stp mon]; auto; try (intros [W|W]; discriminate W).
    + intro W. specialize (K W). destruct b0; [congruence|rewrite updb_other; auto; discriminate].
    + intro W. specialize (K W). destruct b0; [congruence|rewrite updb_other; auto; discriminate].
  - (* s4 *)
    pose proof (j_s4 s J) as K.
    destruct S as [i NS PI|i NS PI|i NS PI|b0 i t0 r HM HQ|b0 t0 r HM HQ|a c i t0 E F|a c i t0 E F|a c i t0 E F|a c i t0 E|b0 HM HJ|Z|Z|Z ZM|Z ZM|HT];
      cbn [stp mon]; auto; try (intros W; discriminate W).
    + intro W. specialize (K W). destruct b0; [rewrite updb_other; auto; discriminate|congruence].
    + intro W. specialize (K W). destruct b0; [rewrite updb_other; auto; discriminate|congruence].
  - (* ret *)
    pose proof (j_ret s J) as K.
    destruct S as [i NS PI|i NS PI|i NS PI|b0 i t0 r HM HQ|b0 t0 r HM HQ|a c i t0 E F|a c i t0 E F|a c i t0 E F|a c i t0 E|b0 HM HJ|Z|Z|Z ZM|Z ZM|HT];
      cbn [stp tr]; auto; intros t H; try (destruct H as [H|H]; [discriminate H|eauto]; fail).
    + destruct H as [H|H]; [discriminate H|]. apply K in H. congruence.
    + apply K in H. congruence.
    + apply K in H. congruence.
  - (* exit *)
    pose proof (j_exit s J) as K.
    destruct S as [i NS PI|i NS PI|i NS PI|b0 i t0 r HM HQ|b0 t0 r HM HQ|a c i t0 E F|a c i t0 E F|a c i t0 E F|a c i t0 E|b0 HM HJ|Z|Z|Z ZM|Z ZM|HT];
      cbn [mon pool]; auto; intros b j t M H C.
    + apply wake_in in H. destruct H as [[_ H]|[H _]]; auto. eapply K; eauto.
    + apply in_app_or in H. destruct H as [H|[H|[]]]; [eapply K; eauto|]. injection H as <- <-.
      destruct (i_meta s I b0 i t0) as [_ [_ B]]; [rewrite HQ; left; auto|]. congruence.
    + destruct (Bool.bool_dec b b0) as [->|N]; [rewrite updb_same in M; discriminate M|rewrite updb_other in M by auto; eapply K; eauto].
    + apply in_mid with (x := (i, TStart t0)) in H. rewrite <- E in H. destruct H as [H|H]; [congruence|eapply K; eauto].
    + apply in_mid with (x := (i, TStart t0)) in H. rewrite <- E in H. destruct H as [H|H]; [|eapply K; eauto]. injection H as -> ->.
      assert (TStart t0 = TEnd) as Q by (eapply K; eauto; rewrite E; apply in_elt). discriminate Q.
    + apply in_mid with (x := (i, TWait t0)) in H. rewrite <- E in H. destruct H as [H|H]; [|eapply K; eauto]. injection H as -> ->.
      assert (TWait t0 = TEnd) as Q by (eapply K; eauto; rewrite E; apply in_elt). discriminate Q.
    + apply in_mid with (x := (i, TPrint t0)) in H. rewrite <- E in H. destruct H as [H|H]; [|eapply K; eauto]. injection H as -> ->.
      assert (TPrint t0 = TEnd) as Q by (eapply K; eauto; rewrite E; apply in_elt). discriminate Q.
    + destruct (Bool.bool_dec b b0) as [->|N]; [eapply joined_spec; eauto|rewrite updb_other in M by auto; eapply K; eauto].
  - (* run *)
    pose proof (j_run s J) as K.
    destruct S as [i NS PI|i NS PI|i NS PI|b0 i t0 r HM HQ|b0 t0 r HM HQ|a c i t0 E F|a c i t0 E F|a c i t0 E F|a c i t0 E|b0 HM HJ|Z|Z|Z ZM|Z ZM|HT];
      cbn [tr ph]; auto; intros j u O; apply open_inv in O; destruct O as [[_ [O _]]|[O N]]; try discriminate O; try (apply K in O); auto.
    + destruct (Nat.eq_dec j i) as [->|N']; [congruence|rewrite upd_other; auto].
    + injection O as ->. apply upd_same.
    + destruct (Nat.eq_dec j i) as [->|N']; [apply upd_same|rewrite upd_other; auto].
    + destruct (Nat.eq_dec j i) as [->|N']; [congruence|rewrite upd_other; auto].
  - (* alive *)
    pose proof (j_alive s J) as K.
    assert (forall j, alive s j -> forall q' p', q' (cls j) = q s (cls j) -> p' = pool s -> forall s2, q s2 = q' -> pool s2 = p' -> mon s2 = mon s -> alive s2 j) as KS.
    { intros j A q' p' Eq Ep s2 E1 E2 E3. unfold alive. rewrite E1, E2, E3, Eq, Ep. exact A. }
    destruct S as [i NS PI|i NS PI|i NS PI|b0 i t0 r HM HQ|b0 t0 r HM HQ|a c i t0 E F|a c i t0 E F|a c i t0 E F|a c i t0 E|b0 HM HJ|Z|Z|Z ZM|Z ZM|HT];
      cbn [tr]; auto; intros j u O; try (apply open_inv in O; destruct O as [[_ [O OS]]|[O N]]; try discriminate O);
      try (specialize (K j u O)); auto.
    + (* put *) injection O as ->. left. apply (j_s0' s J) in OS. destruct (j_s0 s J OS) as [_ K2].
      exists (now s), (q s (cls j)), []. cbn [mon q]. rewrite updb_same. split; [apply K2|]. split; auto. apply K2.
    + destruct K as [[t [a [c [M [Q B]]]]]|K]; [|right; auto]. left. cbn [mon q]. destruct (Bool.bool_dec (cls j) (cls i)) as [C|C].
      * exists t, a, (c ++ [Meta i (now s)]). rewrite <- C, updb_same, Q, <- app_assoc. cbn [app]. auto.
      * exists t, a, c. rewrite updb_other; auto.
    + (* end *) destruct K as [K|[t [H M]]]; [left; auto|]. right. cbn [pool]. exists t. split; auto.
      apply in_map_iff. exists (j, t). split; auto. unfold wake. cbn [fst snd].
      assert (j =? i = false) as -> by (apply Nat.eqb_neq; congruence). destruct t; auto.
    + (* get *) destruct K as [[t [a [c [M [Q B]]]]]|[t [H M]]].
      * destruct (Bool.bool_dec (cls j) b0) as [C|C].
        -- rewrite C in *. rewrite HQ in Q. destruct a as [|x a]; cbn [app] in Q.
           ++ injection Q as -> -> ->. right. cbn [pool]. exists (TStart (now s)). split; [apply in_or_app; right; left; auto|discriminate].
           ++ injection Q as <- ->. left. exists t, a, c. cbn [mon q]. rewrite C, updb_same. split; auto. split; auto.
              intro Z. apply B. apply nones_cons; auto.
        -- left. exists t, a, c. cbn [mon q]. rewrite updb_other by auto. auto.
      * right. exists t. cbn [pool]. split; auto. apply in_or_app; auto.
    + (* getnone *) destruct K as [[t [a [c [M [Q B]]]]]|[t [H M]]]; [|right; exists t; auto].
      left. destruct (Bool.bool_dec (cls j) b0) as [C|C].
      * exfalso. rewrite C, HQ in Q. destruct a as [|x a]; cbn [app] in Q; [discriminate Q|]. injection Q as <- _. apply B. exists t0. left; auto.
      * exists t, a, c. cbn [mon q]. rewrite !updb_other by auto. auto.
    + (* waitset *) destruct K as [K|[t [H M]]]; [left; auto|]. right. cbn [pool]. exists t. split; auto.
      rewrite E in H. apply in_mid with (x := (i, TEnd)) in H. destruct H as [H|H]; auto. injection H as -> ->. rewrite (HF i u O) in F. discriminate F.
    + (* wait *) destruct K as [K|[t [H M]]]; [left; auto|]. right. cbn [pool].
      rewrite E in H. apply in_mid with (x := (i, TWait (now s))) in H. destruct H as [H|H].
      * injection H as -> ->. exists (TWait (now s)). split; [apply in_elt|discriminate].
      * exists t. auto.
    + destruct K as [K|[t [H M]]]; [left; auto|]. right. cbn [pool].
      rewrite E in H. apply in_mid with (x := (i, TPrint (now s))) in H. destruct H as [H|H].
      * injection H as -> ->. exists (TPrint (now s)). split; [apply in_elt|discriminate].
      * exists t. auto.
    + destruct K as [K|[t [H M]]]; [left; auto|]. right. cbn [pool].
      rewrite E in H. apply in_mid with (x := (i, TStart (now s))) in H. destruct H as [H|H].
      * injection H as -> ->. exists (TStart (now s)). split; [apply in_elt|discriminate].
      * exists t. auto.
    + (* exit *) destruct K as [[t [a [c [M [Q B]]]]]|[t [H M]]]; [|right; exists t; auto].
      left. destruct (Bool.bool_dec (cls j) b0) as [C|C]; [congruence|].
      exists t, a, c. cbn [mon q]. rewrite !updb_other by auto. auto.
    + (* stop1 *) destruct K as [[t [a [c [M [Q B]]]]]|[t [H M]]]; [|right; exists t; auto].
      left. cbn [mon q]. destruct (Bool.bool_dec (cls j) true) as [C|C].
      * exists t, a, (c ++ [NoneE (now s)]). rewrite C in *. rewrite updb_same, Q, <- app_assoc. cbn [app]. auto.
      * exists t, a, c. rewrite updb_other; auto.
    + (* stop2 *) destruct K as [[t [a [c [M [Q B]]]]]|[t [H M]]]; [|right; exists t; auto].
      left. cbn [mon q]. destruct (Bool.bool_dec (cls j) false) as [C|C].
      * exists t, a, (c ++ [NoneE (now s)]). rewrite C in *. rewrite updb_same, Q, <- app_assoc. cbn [app]. auto.
      * exists t, a, c. rewrite updb_other; auto.
Qed.
Lemma inv2_reach lat s : reachable T cls lat s -> inv2 s.
Proof using. intro H. revert s H. apply reach_ind; [apply inv2_init|]. intros s s' R J S. eapply inv2_step; eauto. eapply inv_reach; eauto. Qed.
End P.
