(** C102: how an exception in one system process reaches the user. *)
From Coq Require Import List Bool Arith Lia.
From Verif Require Import Startup_Model Startup_Spec Startup_Proofs.
Import ListNotations.

(** ** starting *)
(** process models before position i are built without a problem *)
Definition BuiltBefore (P : program) (i : nat) : Prop := forall j q, j < i -> nth_error (pms P) j = Some q -> p_built q = BOk.

Lemma item_ok : forall P s, reach P s -> forall j q, nth_error (pms P) j = Some q -> p_built q = BOk ->
  item s j = None \/ item s j = Some None.
Proof.
  intros P s H j q Hq Hb. pose proof (pm_inv P s H j q Hq) as X. unfold PmInv in X. rewrite Hb in X.
  destruct (act s j); tauto.
Qed.

Lemma item_raise : forall P s, reach P s -> forall j q e, nth_error (pms P) j = Some q -> p_built q = BRaise e ->
  item s j = None \/ item s j = item_of e.
Proof.
  intros P s H j q e Hq Hb. pose proof (pm_inv P s H j q Hq) as X. unfold PmInv in X. rewrite Hb in X.
  destruct (act s j); tauto.
Qed.

Lemma item_none : forall P s, reach P s -> forall j q, nth_error (pms P) j = Some q -> p_built q = BDies \/ p_built q = BNever ->
  item s j = None.
Proof.
  intros P s H j q Hq Hb. pose proof (pm_inv P s H j q Hq) as X. unfold PmInv in X.
  destruct Hb as [Hb|Hb]; rewrite Hb in X; destruct (act s j); tauto.
Qed.

Lemma item_svc : forall P s, reach P s -> forall d, d < ndom P -> item s (npm P + d) = None \/ item s (npm P + d) = Some None.
Proof. intros P s H d Hd. pose proof (svc_inv P s H d Hd) as X. unfold SvcInv in X. destruct (act s (npm P + d)); tauto. Qed.

Lemma pm_or_svc : forall P i, i < nact P -> (exists p, nth_error (pms P) i = Some p) \/ (exists d, d < ndom P /\ i = npm P + d).
Proof.
  intros P i Hi. unfold nact in Hi. destruct (Nat.lt_ge_cases i (npm P)) as [Hlt|Hge].
  - left. destruct (nth_error (pms P) i) eqn:E; [eauto|]. apply nth_error_None in E. unfold npm in Hlt. lia.
  - right. exists (i - npm P). split; lia.
Qed.

Lemma result_inv : forall P s, reach P s -> forall r, run_result s = Some r -> ResultInv P s r.
Proof.
  intros P s H r Hr. destruct (client_inv P s H) as (_ & _ & IC). unfold run_result in Hr.
  destruct (cl s); try discriminate; injection Hr as ->; try tauto.
Qed.

Lemma started_passes : forall P s, reach P s -> started s = true -> AllPass P s (nact P).
Proof. intros P s H. apply (client_inv P s H). Qed.

(** where a result of the start comes from: not from before the first process that is not built *)
Lemma start_results : forall P s i p, reach P s -> nth_error (pms P) i = Some p -> BuiltBefore P i ->
  ~ Passes P s i -> forall r, run_result s = Some r ->
  exists e, item s i = Some (Some e) /\
    ((r = StartError e /\ unpickles e = true) \/ (r = StartBroken /\ unpickles e = false)).
Proof.
  intros P s i p H Hp HB HN r Hr. pose proof (result_inv P s H r Hr) as X.
  assert (i < nact P) as Hi by (apply nth_pm in Hp; unfold nact; lia).
  assert (started s = true -> False) as HS by (intros Y; apply HN; now apply (started_passes P s H Y)).
  assert (forall k e, k < nact P -> item s k = Some (Some e) -> AllPass P s k -> k = i) as HK.
  { intros k e Hk Hit HA. destruct (Nat.lt_trichotomy k i) as [Hlt|[->|Hgt]]; [|reflexivity|exfalso; now apply HN, HA].
    destruct (pm_or_svc P k Hk) as [[q Hq]|(d & Hd & ->)].
    - destruct (item_ok P s H k q Hq (HB k q Hlt Hq)); congruence.
    - apply nth_pm in Hp. lia. }
  destruct r; cbn in X.
  - destruct X; tauto.
  - destruct X; tauto.
  - destruct X as (k & H1 & H2 & H3 & H4 & H5). rewrite <- (HK k e H1 H2 H5). eauto.
  - destruct X as (k & e & H1 & H2 & H3 & H4). rewrite <- (HK k e H1 H2 H4). eauto.
  - destruct X; tauto.
Qed.

Lemma not_started_client : forall P s, reach P s -> started s = false ->
  (exists i, cl s = KCheck i /\ i <= nact P /\ AllPass P s i) \/ exists r, run_result s = Some r.
Proof.
  intros P s H Hs. destruct (client_inv P s H) as (_ & _ & IC). unfold run_result.
  destruct (cl s) as [i| |i n|r|r j|r i|r|r] eqn:Ec; eauto.
  - destruct IC as (I1 & I2 & _). left. eauto.
  - destruct IC; congruence.
  - destruct IC; congruence.
Qed.

Lemma final_built : forall P s, Final P s -> forall i p, nth_error (pms P) i = Some p -> p_built p <> BNever -> act s i <> Building.
Proof.
  intros P s HF i p Hp Hb Ha. destruct (p_built p) eqn:E; try congruence.
  - eapply HF. eapply s_built; eauto.
  - eapply HF. eapply s_bexc; eauto.
  - eapply HF. eapply s_bdies; eauto.
Qed.

Lemma final_ok_item : forall P s, reach P s -> Final P s -> forall j q, nth_error (pms P) j = Some q -> p_built q = BOk -> item s j = Some None.
Proof.
  intros P s H HF j q Hq Hb. pose proof (final_built P s HF j q Hq ltac:(congruence)) as HN.
  pose proof (pm_inv P s H j q Hq) as X. unfold PmInv in X. rewrite Hb in X. destruct (act s j); tauto.
Qed.

Lemma final_svc_item : forall P s, reach P s -> Final P s -> forall d, d < ndom P -> item s (npm P + d) = Some None.
Proof.
  intros P s H HF d Hd. pose proof (svc_inv P s H d Hd) as X. unfold SvcInv in X.
  destruct (act s (npm P + d)) eqn:E; try tauto. exfalso. eapply HF. eapply s_sbuilt; eauto.
Qed.

Lemma start_final : forall P s i p e, reach P s -> Final P s -> nth_error (pms P) i = Some p -> BuiltBefore P i ->
  p_built p = BRaise e -> pickles e = true -> ~ Passes P s i -> run_result s <> None.
Proof.
  intros P s i p e H HF Hp HB Hb Hpk HN.
  assert (i < nact P) as Hi by (apply nth_pm in Hp; unfold nact; lia).
  assert (started s = false) as HS.
  { destruct (started s) eqn:E; [|reflexivity]. exfalso. apply HN. now apply (started_passes P s H E). }
  destruct (not_started_client P s H HS) as [(k & Hk & Hle & HA)|[r Hr]]; [|congruence].
  exfalso. destruct (Nat.lt_trichotomy k i) as [Hlt|[->|Hgt]].
  - destruct (pm_or_svc P k ltac:(lia)) as [[q Hq]|(d & Hd & ->)].
    + eapply HF. eapply k_none; [exact Hk|lia|]. eapply final_ok_item; eauto.
    + apply nth_pm in Hp. lia.
  - pose proof (final_built P s HF i p Hp ltac:(congruence)) as HnB.
    pose proof (pm_inv P s H i p Hp) as X. unfold PmInv in X. rewrite Hb in X. unfold item_of in X. rewrite Hpk in X.
    assert (item s i = Some (Some e)) as Hit by (destruct (act s i); tauto).
    destruct (unpickles e) eqn:Eu; [destruct (truthy e) eqn:Et|].
    + eapply HF. eapply k_raise; eauto.
    + apply HN. right. eauto.
    + eapply HF. eapply k_unreadable; eauto.
  - now apply HN, HA.
Qed.

(** the exception of the first constructor that fails is raised by run(), in every schedule *)
Theorem constructor_error_reported : forall P i p e,
  nth_error (pms P) i = Some p -> BuiltBefore P i -> p_built p = BRaise e ->
  pickles e = true -> unpickles e = true -> truthy e = true -> RunGives P (StartError e).
Proof.
  intros P i p e Hp HB Hb Hpk Hun Htr.
  assert (forall s, reach P s -> ~ Passes P s i) as HN.
  { intros s H X. unfold Passes in X. destruct (item_raise P s H i p e Hp Hb) as [E|E]; rewrite E in X; unfold item_of in X;
      try rewrite Hpk in X; destruct X as [X|(e' & X & Y & Z)]; congruence. }
  assert (forall s, reach P s -> forall x, run_result s = Some x -> x = StartError e) as HR.
  { intros s H x Hx. destruct (start_results P s i p H Hp HB (HN s H) x Hx) as (e' & Hit & Hcase).
    destruct (item_raise P s H i p e Hp Hb) as [E|E]; rewrite E in Hit; [discriminate|].
    unfold item_of in Hit. rewrite Hpk in Hit. injection Hit as <-. destruct Hcase as [[-> _]|[_ X]]; congruence. }
  split; [exact HR|].
  intros s H HF. pose proof (start_final P s i p e H HF Hp HB Hb Hpk (HN s H)) as X.
  destruct (run_result s) as [x|] eqn:E; [|congruence]. f_equal. now apply (HR s H).
Qed.

(** ... unless it cannot be read again in the parent: then another exception is raised *)
Theorem constructor_error_replaced : forall P i p e,
  nth_error (pms P) i = Some p -> BuiltBefore P i -> p_built p = BRaise e ->
  pickles e = true -> unpickles e = false -> RunGives P StartBroken.
Proof.
  intros P i p e Hp HB Hb Hpk Hun.
  assert (forall s, reach P s -> ~ Passes P s i) as HN.
  { intros s H X. unfold Passes in X. destruct (item_raise P s H i p e Hp Hb) as [E|E]; rewrite E in X; unfold item_of in X;
      try rewrite Hpk in X; destruct X as [X|(e' & X & Y & Z)]; congruence. }
  assert (forall s, reach P s -> forall x, run_result s = Some x -> x = StartBroken) as HR.
  { intros s H x Hx. destruct (start_results P s i p H Hp HB (HN s H) x Hx) as (e' & Hit & Hcase).
    destruct (item_raise P s H i p e Hp Hb) as [E|E]; rewrite E in Hit; [discriminate|].
    unfold item_of in Hit. rewrite Hpk in Hit. injection Hit as <-. destruct Hcase as [[_ X]|[-> _]]; congruence. }
  split; [exact HR|].
  intros s H HF. pose proof (start_final P s i p e H HF Hp HB Hb Hpk (HN s H)) as X.
  destruct (run_result s) as [x|] eqn:E; [|congruence]. f_equal. now apply (HR s H).
Qed.

(** ... or not be sent, or the constructor leaves without an Exception, or does not return: then run() hangs *)
Theorem constructor_failure_hangs : forall P i p,
  nth_error (pms P) i = Some p -> BuiltBefore P i ->
  (p_built p = BDies \/ p_built p = BNever \/ exists e, p_built p = BRaise e /\ pickles e = false) -> RunHangs P.
Proof.
  intros P i p Hp HB Hb s H.
  assert (item s i = None) as Hit.
  { destruct Hb as [Hb|[Hb|(e & Hb & Hpk)]]; [eapply item_none; eauto|eapply item_none; eauto|].
    destruct (item_raise P s H i p e Hp Hb) as [E|E]; [exact E|]. unfold item_of in E. now rewrite Hpk in E. }
  assert (~ Passes P s i) as HN by (intros [X|(e & X & _)]; congruence).
  destruct (run_result s) as [r|] eqn:E; [|reflexivity].
  destruct (start_results P s i p H Hp HB HN r E) as (e & X & _). congruence.
Qed.

(** ** running, when everything has been built *)
Lemma allbuilt_nth : forall P, AllBuilt P -> forall i p, nth_error (pms P) i = Some p -> p_built p = BOk.
Proof. intros P H i p Hp. apply H. eapply nth_error_In; eauto. Qed.

Lemma no_start_error : forall P s r, AllBuilt P -> reach P s -> run_result s = Some r -> started_result r = true.
Proof.
  intros P s r HA H Hr. pose proof (result_inv P s H r Hr) as X. destruct r; try reflexivity; exfalso; cbn in X.
  - destruct X as (i & Hi & Hit & _). destruct (pm_or_svc P i Hi) as [[q Hq]|(d & Hd & ->)].
    + destruct (item_ok P s H i q Hq (allbuilt_nth P HA i q Hq)); congruence.
    + destruct (item_svc P s H d Hd); congruence.
  - destruct X as (i & e & Hi & Hit & _). destruct (pm_or_svc P i Hi) as [[q Hq]|(d & Hd & ->)].
    + destruct (item_ok P s H i q Hq (allbuilt_nth P HA i q Hq)); congruence.
    + destruct (item_svc P s H d Hd); congruence.
Qed.

Lemma built_pm : forall P s, AllBuilt P -> reach P s -> forall i p, nth_error (pms P) i = Some p ->
  act s i = Building \/ act s i = Up \/
  match p_course p with
  | CFine => act s i = Gone None /\ leaving (dom s (p_dom p)) = true
  | CRaise e => act s i = leave_with e
  | CDies => act s i = Gone None
  | CBlocked => False
  end.
Proof.
  intros P s HA H i p Hp. pose proof (pm_inv P s H i p Hp) as X. unfold PmInv in X.
  rewrite (allbuilt_nth P HA i p Hp) in X. destruct (act s i) eqn:E; auto; right;
    destruct X as [_ [X|X]]; auto; right; destruct (p_course p); tauto.
Qed.

Lemma leave_gone : forall e m, leave_with e = Gone m -> m = if pickles e then Some e else None.
Proof. intros e m. unfold leave_with. destruct (pickles e); [destruct (fits e)|]; intros E; try discriminate; congruence. Qed.

Lemma travels_leave : forall e, Travels e -> leave_with e = Gone (if pickles e then Some e else None).
Proof. intros e H. unfold leave_with. destruct (pickles e) eqn:E; [|reflexivity]. destruct (H E) as [_ ->]. reflexivity. Qed.

Lemma gone_exc : forall P s, AllBuilt P -> reach P s -> forall i e, i < nact P -> act s i = Gone (Some e) ->
  pickles e = true /\ exists p, nth_error (pms P) i = Some p /\ p_course p = CRaise e.
Proof.
  intros P s HA H i e Hi Ha. destruct (pm_or_svc P i Hi) as [[p Hp]|(d & Hd & ->)].
  - pose proof (built_pm P s HA H i p Hp) as X. destruct X as [X|[X|X]]; try congruence.
    destruct (p_course p) as [|e'| |] eqn:Ec; try (destruct X; congruence); try congruence.
    rewrite Ha in X. symmetry in X. apply leave_gone in X. destruct (pickles e') eqn:Ep; [|discriminate].
    injection X as <-. split; [exact Ep|eauto].
  - pose proof (svc_inv P s H d Hd) as X. unfold SvcInv in X. rewrite Ha in X. destruct X as [_ [X|[X _]]]; discriminate.
Qed.

Lemma gone_readable : forall P s, AllBuilt P -> AllTravel P -> reach P s -> forall i e, i < nact P -> act s i = Gone (Some e) ->
  unpickles e = true.
Proof.
  intros P s HA HT H i e Hi Ha. destruct (gone_exc P s HA H i e Hi Ha) as (Hpk & p & Hp & Hc).
  now apply (HT p e (nth_error_In _ _ Hp) Hc).
Qed.

Lemma gone_none : forall P s, AllBuilt P -> reach P s -> forall i p, nth_error (pms P) i = Some p ->
  act s i = Gone None -> counted p = false.
Proof.
  intros P s HA H i p Hp Ha. unfold counted. destruct (built_pm P s HA H i p Hp) as [X|[X|X]]; try congruence.
  destruct (p_course p) as [|e| |] eqn:Ec; try reflexivity.
  rewrite Ha in X. symmetry in X. apply leave_gone in X. now destruct (pickles e).
Qed.

(** the errors counted so far *)
Definition counted_before (P : program) (i : nat) : nat := length (filter counted (firstn i (pms P))).

Lemma counted_S : forall P i p, nth_error (pms P) i = Some p -> counted_before P (S i) = counted_before P i + (if counted p then 1 else 0).
Proof.
  intros P i p Hp. unfold counted_before.
  assert (firstn (S i) (pms P) = firstn i (pms P) ++ [p]) as ->.
  { revert i Hp. induction (pms P) as [|q l IH]; intros i Hp; [destruct i; discriminate|].
    destruct i as [|i]; [injection Hp as ->; reflexivity|]. cbn in *. f_equal. now apply IH. }
  rewrite filter_app, app_length. cbn. destruct (counted p); reflexivity.
Qed.

Lemma counted_past : forall P i, npm P <= i -> counted_before P i = num_reported P.
Proof. intros P i Hi. unfold counted_before, num_reported. now rewrite firstn_all2. Qed.

Lemma count_inv : forall P, AllBuilt P -> forall s, reach P s ->
  (forall i n, cl s = KJoin i n -> n = counted_before P i) /\
  (forall n, run_result s = Some (Failed n) -> n = num_reported P).
Proof.
  intros P HA s H. induction H as [|s s' H [IH1 IH2] Hs]; [split; discriminate|].
  pose proof (client_inv P s H) as (_ & _ & IC).
  destruct Hs; unfold run_result in *; cbn [cl set_act set_built set_dom set_cl set_dom_cl] in *;
    try (split; assumption); match goal with X : cl s = _ |- _ => rename X into Hc0 end; rewrite Hc0 in IH1, IH2, IC; try (split; intros; discriminate).
  - split; [|discriminate]. intros j m E. injection E as <- <-. reflexivity.
  - split; [|discriminate]. intros j m E. injection E as <- <-. rewrite (IH1 i n eq_refl).
    destruct (pm_or_svc P i H1) as [[p Hp]|(d & Hd & ->)].
    + rewrite (counted_S P i p Hp), (gone_none P s HA H i p Hp H2). lia.
    + rewrite !counted_past by lia. reflexivity.
  - split; [|discriminate]. intros j m E. injection E as <- <-. rewrite (IH1 i n eq_refl).
    destruct (gone_exc P s HA H i e H1 H2) as (Hpk & p & Hp & Hc).
    rewrite (counted_S P i p Hp). unfold counted. rewrite Hc, Hpk. lia.
  - split; [discriminate|]. intros m E. injection E as <-. rewrite (IH1 _ _ eq_refl). apply counted_past. unfold nact. lia.
  - split; [discriminate|]. intros m0 E. apply IH2. exact E.
  - split; [discriminate|]. intros m0 E. apply IH2. exact E.
  - split; [discriminate|]. intros m0 E. apply IH2. exact E.
  - split; [discriminate|]. intros m0 E. apply IH2. exact E.
  - split; [discriminate|]. intros m0 E. apply IH2. exact E.
  - split; [discriminate|]. intros m0 E. apply IH2. exact E.
  - split; [discriminate|]. intros m0 E. apply IH2. exact E.
Qed.

(** responses *)
Lemma response_done : forall P d, response P d = Some RDone <->
  forall p, In p (pms P) -> p_dom p = d -> p_built p = BOk /\ p_course p = CFine.
Proof.
  intros P d. unfold response.
  assert (forall p, In p (filter (in_dom d) (pms P)) <-> In p (pms P) /\ p_dom p = d) as HF.
  { intros p. rewrite filter_In. unfold in_dom. now rewrite Nat.eqb_eq. }
  destruct (existsb silent _) eqn:E1.
  - split; [discriminate|]. intros H. apply existsb_exists in E1. destruct E1 as (p & Hp & Hs).
    apply HF in Hp. destruct Hp as [Hp Hd]. destruct (H p Hp Hd) as [X Y]. unfold silent in Hs. now rewrite X, Y in Hs.
  - destruct (existsb raises _) eqn:E2.
    + split; [discriminate|]. intros H. apply existsb_exists in E2. destruct E2 as (p & Hp & Hs).
      apply HF in Hp. destruct Hp as [Hp Hd]. destruct (H p Hp Hd) as [X Y]. unfold raises in Hs. now rewrite Y in Hs.
    + split; [|reflexivity]. intros _ p Hp Hd.
      assert (In p (filter (in_dom d) (pms P))) as Hin by now apply HF.
      assert (silent p = false) as Hs.
      { destruct (silent p) eqn:Es; [|reflexivity]. rewrite <- E1. symmetry. apply existsb_exists. eauto. }
      assert (raises p = false) as Hr.
      { destruct (raises p) eqn:Er; [|reflexivity]. rewrite <- E2. symmetry. apply existsb_exists. eauto. }
      unfold silent in Hs. unfold raises in Hr. destruct (p_built p); try discriminate. destruct (p_course p); try discriminate. auto.
Qed.

Lemma response_error : forall P, AllBuilt P -> forall d, response P d = Some RError <-> DomainErrs P d.
Proof.
  intros P HA d. unfold response, DomainErrs.
  assert (forall p, In p (filter (in_dom d) (pms P)) <-> In p (pms P) /\ p_dom p = d) as HF.
  { intros p. rewrite filter_In. unfold in_dom. now rewrite Nat.eqb_eq. }
  destruct (existsb silent _) eqn:E1.
  - split; [discriminate|]. intros [_ H]. apply existsb_exists in E1. destruct E1 as (p & Hp & Hs).
    apply HF in Hp. destruct Hp as [Hp Hd]. destruct (H p Hp Hd) as [X Y]. unfold silent in Hs. rewrite (HA p Hp) in Hs.
    destruct (p_course p); congruence.
  - assert (forall p, In p (pms P) -> p_dom p = d -> p_course p <> CDies /\ p_course p <> CBlocked) as HS.
    { intros p Hp Hd. assert (silent p = false) as Hs.
      { destruct (silent p) eqn:Es; [|reflexivity]. rewrite <- E1. symmetry. apply existsb_exists. exists p. split; [now apply HF|exact Es]. }
      unfold silent in Hs. rewrite (HA p Hp) in Hs. split; intros X; now rewrite X in Hs. }
    destruct (existsb raises _) eqn:E2.
    + split; [|reflexivity]. intros _. split; [|exact HS]. apply existsb_exists in E2. destruct E2 as (p & Hp & Hr).
      apply HF in Hp. unfold raises in Hr. destruct (p_course p) as [|e| |] eqn:Ec; try discriminate. exists p, e. tauto.
    + split; [discriminate|]. intros [(p & e & Hp & Hd & Hc) _]. exfalso.
      assert (existsb raises (filter (in_dom d) (pms P)) = true); [|congruence].
      apply existsb_exists. exists p. split; [now apply HF|]. unfold raises. now rewrite Hc.
Qed.

(** a failed run: every domain has answered ERROR *)
Lemma failed_all_err : forall P s, reach P s -> forall n, run_result s = Some (Failed n) ->
  forall d, d < ndom P -> response P d = Some RError.
Proof.
  intros P s H. induction H as [|s s' H IH Hs]; [discriminate|]. intros n Hr d Hd.
  pose proof (client_inv P s H) as HC.
  destruct Hs; unfold run_result in *; cbn [cl set_act set_built set_dom set_cl set_dom_cl] in *;
    try (eapply IH; eassumption); match goal with X : cl s = _ |- _ => rename X into Hc0 end; rewrite Hc0 in IH; try discriminate; try (eapply IH; eassumption).
  pose proof (no_stopped P s d HC) as NS. destruct HC as (_ & _ & IC). rewrite Hc0 in IC. destruct IC as (I1 & I2 & I3).
  unfold run_result in NS. rewrite Hc0 in NS. specialize (NS eq_refl).
  destruct (I3 (npm P + d)) as (m & Hm & _); [unfold nact; lia|].
  pose proof (svc_inv P s H d Hd) as X. unfold SvcInv in X. rewrite Hm in X.
  destruct X as [_ [X|[_ X]]]; [discriminate|].
  assert (dom s d <> DStart) as HnS by (intros Y; rewrite Y in X; discriminate).
  destruct (dom_inv P s H d HnS) as (Y & _). rewrite <- Y.
  destruct (dom s d) as [|[]|[]|]; try discriminate; try reflexivity. congruence.
Qed.

Lemma returned_all_done : forall P s, reach P s -> run_result s = Some Returned ->
  forall d, d < ndom P -> response P d = Some RDone.
Proof.
  intros P s H Hr d Hd. pose proof (result_inv P s H _ Hr) as [_ X].
  destruct (X d Hd) as [Y|Y]; destruct (dom_inv P s H d) as (Z & _); try congruence; rewrite Y in Z; now rewrite <- Z.
Qed.

Lemma no_broken : forall P s, AllBuilt P -> AllTravel P -> reach P s -> run_result s <> Some JoinBroken.
Proof.
  intros P s HA HT H Hr. pose proof (result_inv P s H _ Hr) as (_ & i & e & Hi & Ha & Hu).
  pose proof (gone_readable P s HA HT H i e Hi Ha). congruence.
Qed.

(** what is true when nothing can happen any more *)
Lemma final_started : forall P s, AllBuilt P -> reach P s -> Final P s -> started s = true.
Proof.
  intros P s HA H HF. destruct (started s) eqn:E; [reflexivity|]. exfalso.
  destruct (not_started_client P s H E) as [(k & Hk & Hle & HP)|[r Hr]].
  - destruct (Nat.eq_dec k (nact P)) as [-> |Hn].
    + eapply HF. now apply k_start.
    + assert (k < nact P) as Hlt by lia. eapply HF. eapply k_none; [exact Hk|exact Hlt|].
      destruct (pm_or_svc P k Hlt) as [[q Hq]|(d & Hd & ->)].
      * eapply final_ok_item; eauto. now apply (allbuilt_nth P HA k).
      * now apply final_svc_item.
  - pose proof (no_start_error P s r HA H Hr) as X. pose proof (result_inv P s H r Hr) as Y.
    destruct r; cbn in X, Y; try discriminate; destruct Y; congruence.
Qed.

Lemma final_dom : forall P s d r, started s = true -> Final P s -> d < ndom P -> response P d = Some r -> dom s d <> DStart.
Proof. intros P s d r Hs HF Hd Hr E. eapply HF. eapply s_resp; eauto. Qed.

Lemma final_wait : forall P s, reach P s -> Final P s -> cl s = KWait -> started s = true ->
  exists d, d < ndom P /\ response P d = None.
Proof.
  intros P s H HF Hc Hs.
  assert (forall d, d < ndom P -> (dom s d = DRead RDone) \/ response P d = None) as HD.
  { intros d Hd. destruct (response P d) as [r|] eqn:E; [|now right]. left.
    pose proof (final_dom P s d r Hs HF Hd E) as HN.
    destruct (client_inv P s H) as (_ & _ & IC). rewrite Hc in IC. destruct IC as [_ IC].
    destruct (dom s d) as [|[|]|[|]|] eqn:Ed; try congruence.
    - exfalso. eapply HF. eapply k_done; eauto.
    - exfalso. eapply HF. eapply k_error; eauto.
    - exfalso. now apply (IC d Hd).
    - exfalso. apply (no_stopped P s d (client_inv P s H)); [unfold run_result; now rewrite Hc|exact Ed]. }
  assert ((exists d, d < ndom P /\ response P d = None) \/ forall d, d < ndom P -> dom s d = DRead RDone) as [X|X]; [|exact X|].
  { clear HF. induction (ndom P) as [|k IH]; [right; intros; lia|].
    destruct IH as [(d & Hd & E)|IH]; [intros d Hd; apply HD; lia|left; exists d; split; [lia|exact E]|].
    destruct (HD k ltac:(lia)) as [E|E]; [|left; exists k; split; [lia|exact E]].
    right. intros d Hd. destruct (Nat.eq_dec d k) as [-> |Hn]; [exact E|apply IH; lia]. }
  exfalso. eapply HF. now apply k_return.
Qed.

Lemma final_svc_gone : forall P s d, reach P s -> Final P s -> d < ndom P -> leaving (dom s d) = true -> act s (npm P + d) = Gone None.
Proof.
  intros P s d H HF Hd Hl. pose proof (svc_inv P s H d Hd) as X. unfold SvcInv in X.
  destruct (act s (npm P + d)) as [| | |m] eqn:E.
  - exfalso. eapply HF. eapply s_sbuilt; eauto.
  - exfalso. eapply HF. eapply s_exit_svc; eauto.
  - destruct X as [_ [X|[X _]]]; discriminate.
  - destruct X as [_ [X|[X _]]]; congruence.
Qed.

Lemma final_pm_gone : forall P s i p, AllBuilt P -> reach P s -> Final P s -> nth_error (pms P) i = Some p ->
  p_course p <> CBlocked -> leaving (dom s (p_dom p)) = true ->
  act s i = match p_course p with CRaise e => leave_with e | _ => Gone None end.
Proof.
  intros P s i p HA H HF Hp Hb Hl. pose proof (final_started P s HA H HF) as Hs.
  destruct (built_pm P s HA H i p Hp) as [X|[X|X]].
  - exfalso. eapply (final_built P s HF i p Hp); [|exact X]. rewrite (allbuilt_nth P HA i p Hp). discriminate.
  - exfalso. destruct (p_course p) as [|e| |] eqn:Ec; try congruence.
    + eapply HF. eapply s_exit_pm; eauto.
    + eapply HF. eapply s_raise; eauto.
    + eapply HF. eapply s_dies; eauto.
  - destruct (p_course p); tauto.
Qed.

(** everything built and nothing raised: run() returns, then stop() returns, and every system process has exited *)
Theorem fine_run_and_stop : forall P, WellFormed P -> AllBuilt P -> (forall p, In p (pms P) -> p_course p = CFine) ->
  RunGives P Returned /\
  forall s, reach P s -> Final P s -> stop_returned s /\ forall i, i < nact P -> act s i = Gone None.
Proof.
  intros P [HW1 HW2] HA HC.
  assert (forall d, response P d = Some RDone) as HR.
  { intros d. apply response_done. intros p Hp _. auto. }
  assert (AllTravel P) as HT by (intros p e Hp Hc; rewrite (HC p Hp) in Hc; discriminate).
  assert (forall s, reach P s -> forall x, run_result s = Some x -> x = Returned) as HS.
  { intros s H x Hx. pose proof (no_start_error P s x HA H Hx) as Hst. destruct x; try discriminate; [reflexivity| |].
    - exfalso. pose proof (failed_all_err P s H n Hx 0 HW1) as E. rewrite HR in E. discriminate.
    - exfalso. now apply (no_broken P s HA HT H). }
  assert (forall s, reach P s -> Final P s -> stop_returned s /\ forall i, i < nact P -> act s i = Gone None) as HE.
  { intros s H HF. pose proof (final_started P s HA H HF) as Hs.
    assert (forall d, d < ndom P -> dom s d = DStopped -> act s (npm P + d) = Gone None) as HG
      by (intros d Hd E; apply final_svc_gone; auto; now rewrite E).
    assert ((forall d, d < ndom P -> dom s d = DStopped) -> forall i, i < nact P -> act s i = Gone None) as HAll.
    { intros HD i Hi. destruct (pm_or_svc P i Hi) as [[p Hp]|(d & Hd & ->)]; [|now apply HG, HD].
      pose proof (nth_error_In _ _ Hp) as Hin.
      rewrite (final_pm_gone P s i p HA H HF Hp); [now rewrite (HC p Hin)|rewrite (HC p Hin); discriminate|].
      rewrite HD; [reflexivity|]. now apply HW2. }
    pose proof (client_inv P s H) as (_ & _ & IC).
    destruct (cl s) as [i| |i n|r|r j|r i|r|r] eqn:Ec.
    - destruct IC as (_ & _ & IC). congruence.
    - destruct (final_wait P s H HF Ec Hs) as (d & _ & E). rewrite HR in E. discriminate.
    - exfalso. destruct IC as (I1 & I2 & I3). destruct (Nat.eq_dec i (nact P)) as [-> |Hn]; [eapply HF; eapply k_failed; eauto|].
      (* an error has been read: impossible *)
      assert (exists d, dom s d = DRead RError) as [d Ed].
      { clear - H Ec. revert i n Ec. induction H as [|s s' H IH Hs]; intros i n Ec; [discriminate|].
        assert (forall d, dom s d = DRead RError -> dom s' d = DRead RError) as ST.
        { intros d Hd. destruct (dom_step P s s' Hs d) as [E|E]; [congruence|]. inversion E; congruence. }
        destruct Hs; cbn [cl set_act set_built set_dom set_cl set_dom_cl dom] in *; try discriminate;
          try (destruct (IH _ _ Ec) as [d' Hd']; exists d'; apply ST; exact Hd').
        - exists d. now rewrite upd_same.
        - destruct (IH _ _ H0) as [d' Hd']. now exists d'.
        - destruct (IH _ _ H0) as [d' Hd']. now exists d'. }
      destruct (dom_inv P s H d) as (X & _); [congruence|]. rewrite Ed, HR in X. discriminate.
    - exfalso. assert (started_result r = true) as Hr by (apply (no_start_error P s r HA H); unfold run_result; now rewrite Ec).
      eapply HF. eapply k_stop; eauto.
    - exfalso. assert (r = Returned) as -> by (apply (HS s H); unfold run_result; now rewrite Ec).
      destruct IC as (I1 & I2 & I3 & I4). destruct (Nat.eq_dec j (ndom P)) as [-> |Hn]; [eapply HF; eapply k_all_terminated; eauto|].
      destruct I1 as [_ I1]. destruct (I1 j ltac:(lia)) as [E|E].
      + eapply HF. eapply (s_stop P s j Returned j); [lia|exact Ec|exact E].
      + eapply HF. eapply (k_terminated P s Returned j); [exact Ec|lia|exact E].
    - exfalso. assert (r = Returned) as -> by (apply (HS s H); unfold run_result; now rewrite Ec).
      destruct IC as (I1 & I2 & I3 & I4). destruct (Nat.eq_dec i (nact P)) as [-> |Hn]; [eapply HF; eapply k_end; eauto|].
      eapply HF. eapply (k_stop_join P s Returned i None); [exact Ec|lia| |discriminate]. apply HAll; [now apply I4|lia].
    - split; [now exists r|]. assert (r = Returned) as -> by (apply (HS s H); unfold run_result; now rewrite Ec).
      destruct IC as (I1 & I2). intros i Hi. destruct (I2 i Hi) as (m & Hm & _). destruct m as [e|]; [|exact Hm].
      destruct (gone_exc P s HA H i e Hi Hm) as (_ & p & Hp & Hco). rewrite (HC p (nth_error_In _ _ Hp)) in Hco. discriminate.
    - exfalso. destruct IC as (_ & i & e & Hi & Hg & _). destruct (gone_exc P s HA H i e Hi Hg) as (_ & p & Hp & Hco).
      rewrite (HC p (nth_error_In _ _ Hp)) in Hco. discriminate. }
  split; [|exact HE]. split; [exact HS|].
  intros s H HF. destruct (HE s H HF) as [[r Hr] _]. unfold run_result. rewrite Hr. f_equal. apply (HS s H). unfold run_result. now rewrite Hr.
Qed.

(** every domain has a process that raises and none that is silent: run() raises RuntimeError with the number of
    processes that raised an exception that can be pickled, in every schedule *)
Theorem errors_reported_partial : forall P, WellFormed P -> AllBuilt P -> AllTravel P ->
  (forall d, d < ndom P -> DomainErrs P d) -> RunGives P (Failed (num_reported P)).
Proof.
  intros P [HW1 HW2] HA HT HD.
  assert (forall d, d < ndom P -> response P d = Some RError) as HR by (intros d Hd; apply response_error; auto).
  assert (forall s, reach P s -> forall x, run_result s = Some x -> x = Failed (num_reported P)) as HS.
  { intros s H x Hx. pose proof (no_start_error P s x HA H Hx) as Hst. destruct x; try discriminate.
    - exfalso. pose proof (returned_all_done P s H Hx 0 HW1) as E. rewrite (HR 0 HW1) in E. discriminate.
    - f_equal. now apply (count_inv P HA s H).
    - exfalso. now apply (no_broken P s HA HT H). }
  split; [exact HS|]. intros s H HF. pose proof (final_started P s HA H HF) as Hs.
  assert (forall d, d < ndom P -> leaving (dom s d) = true) as HL.
  { intros d Hd. pose proof (final_dom P s d RError Hs HF Hd (HR d Hd)) as HN.
    destruct (dom_inv P s H d HN) as (X & _). rewrite (HR d Hd) in X.
    destruct (dom s d) as [|[]|[]|]; try discriminate; reflexivity. }
  assert (forall i, i < nact P -> exists m, act s i = Gone m) as HG.
  { intros i Hi. destruct (pm_or_svc P i Hi) as [[p Hp]|(d & Hd & ->)]; [|exists None; apply final_svc_gone; auto].
    pose proof (nth_error_In _ _ Hp) as Hin. pose proof (HW2 p Hin) as Hd.
    destruct (HD (p_dom p) Hd) as [_ Hno]. destruct (Hno p Hin eq_refl) as [_ Hb].
    pose proof (final_pm_gone P s i p HA H HF Hp Hb (HL _ Hd)) as X.
    destruct (p_course p) as [|e| |] eqn:Ec; eauto. rewrite (travels_leave e (HT p e Hin Ec)) in X. eauto. }
  pose proof (client_inv P s H) as (_ & _ & IC).
  destruct (cl s) as [i| |i n|r|r j|r i|r|r] eqn:Ec;
    try (f_equal; apply (HS s H); unfold run_result; now rewrite Ec); unfold run_result; rewrite Ec.
  - destruct IC as (_ & _ & IC). congruence.
  - exfalso. destruct (final_wait P s H HF Ec Hs) as (d & Hd & E). rewrite (HR d Hd) in E. discriminate.
  - exfalso. destruct IC as (I1 & I2 & I3). destruct (Nat.eq_dec i (nact P)) as [-> |Hn]; [eapply HF; eapply k_failed; eauto|].
    assert (i < nact P) as Hi by lia. destruct (HG i Hi) as [[e|] Hm].
    + pose proof (gone_readable P s HA HT H i e Hi Hm) as Hu. eapply HF. eapply k_join_exc; eauto.
    + eapply HF. eapply k_join_none; eauto.
  - f_equal. apply (HS s H). unfold run_result. now rewrite Ec.
  - f_equal. apply (HS s H). unfold run_result. now rewrite Ec.
  - f_equal. apply (HS s H). unfold run_result. now rewrite Ec.
  - f_equal. apply (HS s H). unfold run_result. now rewrite Ec.
  - f_equal. apply (HS s H). unfold run_result. now rewrite Ec.
Qed.

(** in every other case run() is never over: something is not fine, and some domain does not answer ERROR *)
Theorem error_elsewhere_hangs : forall P, WellFormed P -> AllBuilt P -> AllTravel P ->
  (exists p, In p (pms P) /\ p_course p <> CFine) -> (exists d, d < ndom P /\ ~ DomainErrs P d) -> RunHangs P.
Proof.
  intros P [HW1 HW2] HA HT (p & Hp & Hc) (d & Hd & HD) s H.
  destruct (run_result s) as [r|] eqn:Hr; [|reflexivity]. exfalso.
  pose proof (no_start_error P s r HA H Hr) as Hst. destruct r; try discriminate.
  - pose proof (returned_all_done P s H Hr (p_dom p) (HW2 p Hp)) as E.
    destruct (proj1 (response_done P (p_dom p)) E p Hp eq_refl) as [_ X]. congruence.
  - pose proof (failed_all_err P s H n Hr d Hd) as E. apply HD. now apply response_error.
  - now apply (no_broken P s HA HT H).
Qed.
