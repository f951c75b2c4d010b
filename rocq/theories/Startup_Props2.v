(** C102 continued: exceptions that do not arrive as they are, what stop() does afterwards, and termination. *)
From Coq Require Import List Bool Arith Lia.
From Verif Require Import Startup_Model Startup_Spec Startup_Proofs Startup_Props.
Import ListNotations.

(** ** exceptions that do not arrive as they are *)
Definition AllFit (P : program) : Prop := forall p e, In p (pms P) -> p_course p = CRaise e -> pickles e = true -> fits e = true.

Lemma fit_leave : forall e, (pickles e = true -> fits e = true) -> leave_with e = Gone (if pickles e then Some e else None).
Proof. intros e H. unfold leave_with. destruct (pickles e); [now rewrite H|reflexivity]. Qed.

(** every system process can exit once every domain has answered ERROR *)
Lemma errs_all_gone : forall P, WellFormed P -> AllBuilt P -> AllFit P -> (forall d, d < ndom P -> DomainErrs P d) ->
  forall s, reach P s -> Final P s -> forall i, i < nact P -> exists m, act s i = Gone m.
Proof.
  intros P [HW1 HW2] HA HT HD s H HF i Hi. pose proof (final_started P s HA H HF) as Hs.
  assert (forall d, d < ndom P -> leaving (dom s d) = true) as HL.
  { intros d Hd. pose proof (proj2 (response_error P HA d) (HD d Hd)) as HR.
    pose proof (final_dom P s d RError Hs HF Hd HR) as HN.
    destruct (dom_inv P s H d HN) as (X & _). rewrite HR in X.
    destruct (dom s d) as [|[]|[]|]; try discriminate; reflexivity. }
  destruct (pm_or_svc P i Hi) as [[p Hp]|(d & Hd & ->)]; [|exists None; apply final_svc_gone; auto].
  pose proof (nth_error_In _ _ Hp) as Hin. pose proof (HW2 p Hin) as Hd.
  destruct (HD (p_dom p) Hd) as [_ Hno]. destruct (Hno p Hin eq_refl) as [_ Hb].
  pose proof (final_pm_gone P s i p HA H HF Hp Hb (HL _ Hd)) as X.
  destruct (p_course p) as [|e| |] eqn:Ec; eauto. rewrite (fit_leave e (HT p e Hin Ec)) in X. eauto.
Qed.

(** the client's own progress: an ERROR has been read if it joins, or if run() has failed; then some service has left and
    will never answer STOP *)
Definition errored (s : state) : bool :=
  match cl s with
  | KJoin _ _ | KRan (Failed _) | KRan JoinBroken
  | KStopWait (Failed _) _ | KStopWait JoinBroken _ | KStopJoin (Failed _) _ | KStopJoin JoinBroken _
  | KEnd (Failed _) | KEnd JoinBroken | KStopRaised (Failed _) | KStopRaised JoinBroken => true
  | _ => false
  end.

Lemma errored_read : forall P s, reach P s -> errored s = true -> exists d, d < ndom P /\ dom s d = DRead RError.
Proof.
  intros P s H. induction H as [|s s' H IH Hs]; [discriminate|]. intros He.
  assert (forall d, dom s d = DRead RError -> dom s' d = DRead RError) as ST.
  { intros d Hd. destruct (dom_step P s s' Hs d) as [E|E]; [congruence|]. inversion E; congruence. }
  assert (errored s = true -> exists d, d < ndom P /\ dom s' d = DRead RError) as GO.
  { intros X. destruct (IH X) as (d & Hd & E). eauto. }
  destruct Hs; unfold errored in *; cbn [cl set_act set_built set_dom set_cl set_dom_cl dom] in *;
    try (apply GO; exact He);
    match goal with X : cl s = _ |- _ => rename X into Hc0 end; rewrite Hc0 in GO; try discriminate; try (apply GO; reflexivity);
    try (apply GO; destruct r; (discriminate || reflexivity)).
  exists d. split; [assumption|]. now rewrite upd_same.
Qed.

(** stop() after a run that has failed is never over: it waits for the answer of a service that has left *)
Theorem stop_after_error_never_over : forall P s r, reach P s -> run_result s = Some r ->
  (r = JoinBroken \/ exists n, r = Failed n) -> ~ stop_over s.
Proof.
  intros P s r H Hr Hc.
  assert (forall r', (r' = JoinBroken \/ exists n, r' = Failed n) -> cl s <> KEnd r' /\ cl s <> KStopRaised r' /\ (forall i, cl s <> KStopJoin r' i)) as HN.
  { clear r Hr Hc. intros r Hc. induction H as [|s s' H IH Hs]; [repeat split; discriminate|].
    destruct IH as (I1 & I2 & I3).
    assert (forall i, cl s' <> KStopJoin r i) as J3.
    { intros i E. destruct Hs; cbn [cl set_act set_built set_dom set_cl set_dom_cl dom] in *; try discriminate;
        try (eapply I3; eassumption); try (injection E as <- <-).
      - destruct Hc as [->|[n ->]]; discriminate.
      - pose proof (client_inv P s H) as (_ & _ & IC). match goal with X : cl s = _ |- _ => rename X into Hc0 end.
        rewrite Hc0 in IC. destruct IC as (_ & _ & _ & IC).
        destruct (errored_read P s H) as (d & Hd & Ed).
        { unfold errored. rewrite Hc0. destruct Hc as [->|[n ->]]; reflexivity. }
        rewrite (IC d Hd) in Ed. discriminate.
      - eapply I3; eassumption. }
    repeat split; [intros E|intros E|exact J3];
      (destruct Hs; cbn [cl set_act set_built set_dom set_cl set_dom_cl dom] in *; try discriminate; try contradiction;
       injection E as <-; eapply I3; eassumption). }
  intros (r' & Hx). destruct (HN r Hc) as (H1 & H2 & _). unfold run_result in Hr.
  destruct Hx as [X|X]; rewrite X in Hr; injection Hr as ->; contradiction.
Qed.

(** stop() after a start that has failed never returns: it joins runtime services that have never been started *)
Theorem stop_after_failed_start_never_returns : forall P s r, WellFormed P -> reach P s -> run_result s = Some r ->
  (r = StartBroken \/ exists e, r = StartError e) -> ~ stop_returned s.
Proof.
  intros P s r [HW1 _] H Hr Hc [r' X].
  assert (r' = r) as -> by (unfold run_result in Hr; rewrite X in Hr; congruence).
  pose proof (client_inv P s H) as (IA & _ & IC). rewrite X in IC. destruct IC as [IR IC].
  destruct (IC (npm P)) as (m & Hm & _); [unfold nact; lia|].
  pose proof (svc_inv P s H 0 HW1) as Y. unfold SvcInv in Y. rewrite Nat.add_0_r, Hm in Y.
  destruct Y as [_ [Y|[_ Y]]]; [discriminate|].
  assert (dom s 0 <> DStart) as HnS by (intros Z; rewrite Z in Y; discriminate).
  destruct (dom_inv P s H 0 HnS) as (_ & Hs & _). specialize (IA Hs).
  destruct Hc as [->|[e ->]]; cbn in IR.
  - destruct IR as (i & e & Hi & Hit & Hu & _). destruct (IA i Hi) as [Z|(e' & Z & Z1 & Z2)]; congruence.
  - destruct IR as (i & Hi & Hit & Hu & Ht & _). destruct (IA i Hi) as [Z|(e' & Z & Z1 & Z2)]; congruence.
Qed.

(** an exception that cannot be read again in the parent: run() raises what pickle raises, not RuntimeError *)
Theorem unreadable_error_replaced : forall P p e, WellFormed P -> AllBuilt P -> AllFit P ->
  (forall d, d < ndom P -> DomainErrs P d) ->
  In p (pms P) -> p_course p = CRaise e -> pickles e = true -> unpickles e = false -> RunGives P JoinBroken.
Proof.
  intros P p e HW HA HT HD Hin Hc Hpk Hun.
  assert (forall s, reach P s -> forall x, run_result s = Some x -> x = JoinBroken) as HS.
  { intros s H x Hx. pose proof (no_start_error P s x HA H Hx) as Hst. destruct x; try discriminate; [| |reflexivity]; exfalso.
    - destruct HW as [HW1 _]. pose proof (returned_all_done P s H Hx 0 HW1) as E.
      rewrite (proj2 (response_error P HA 0) (HD 0 HW1)) in E. discriminate.
    - pose proof (result_inv P s H _ Hx) as [_ X]. apply In_nth_error in Hin. destruct Hin as [i Hp].
      destruct (X i) as (m & Hm & Hr); [apply nth_pm in Hp; unfold nact; lia|].
      destruct (built_pm P s HA H i p Hp) as [Y|[Y|Y]]; try congruence. rewrite Hc, Hm in Y. symmetry in Y. apply leave_gone in Y.
      rewrite Hpk in Y. rewrite (Hr e Y) in Hun. discriminate. }
  split; [exact HS|]. intros s H HF. pose proof (final_started P s HA H HF) as Hs.
  pose proof (errs_all_gone P HW HA HT HD s H HF) as HG.
  pose proof (client_inv P s H) as (_ & _ & IC).
  destruct (run_result s) as [x|] eqn:Ex; [now rewrite (HS s H x Ex)|]. exfalso. unfold run_result in Ex.
  destruct (cl s) as [i| |i n|r|r j|r i|r|r] eqn:Ec; try discriminate.
  - destruct IC as (_ & _ & IC). congruence.
  - destruct (final_wait P s H HF Ec Hs) as (d & Hd & E).
    rewrite (proj2 (response_error P HA d) (HD d Hd)) in E. discriminate.
  - destruct IC as (I1 & I2 & I3). destruct (Nat.eq_dec i (nact P)) as [-> |Hn]; [eapply HF; eapply k_failed; eauto|].
    assert (i < nact P) as Hi by lia. destruct (HG i Hi) as [[e'|] Hm].
    + destruct (unpickles e') eqn:Eu; [eapply HF; eapply k_join_exc; eauto|eapply HF; eapply k_join_bad; eauto].
    + eapply HF. eapply k_join_none; eauto.
Qed.

(** an exception that does not fit in the pipe is never reported: the process waits for room, the parent for its exit *)
Theorem large_error_hangs : forall P p e, WellFormed P -> AllBuilt P ->
  (forall q e', In q (pms P) -> p_course q = CRaise e' -> pickles e' = true -> unpickles e' = true) ->
  In p (pms P) -> p_course p = CRaise e -> pickles e = true -> fits e = false -> RunHangs P.
Proof.
  intros P p e [HW1 HW2] HA HR Hin Hc Hpk Hft s H.
  destruct (run_result s) as [r|] eqn:Hr; [|reflexivity]. exfalso.
  pose proof (no_start_error P s r HA H Hr) as Hst. pose proof (result_inv P s H r Hr) as X. destruct r; try discriminate; cbn in X.
  - pose proof (returned_all_done P s H Hr (p_dom p) (HW2 p Hin)) as E.
    destruct (proj1 (response_done P (p_dom p)) E p Hin eq_refl) as [_ Y]. congruence.
  - destruct X as [_ X]. apply In_nth_error in Hin. destruct Hin as [i Hp].
    destruct (X i) as (m & Hm & _); [apply nth_pm in Hp; unfold nact; lia|].
    destruct (built_pm P s HA H i p Hp) as [Y|[Y|Y]]; try congruence. rewrite Hc, Hm in Y. unfold leave_with in Y.
    rewrite Hpk, Hft in Y. discriminate.
  - destruct X as (_ & i & e' & Hi & Ha & Hu). destruct (gone_exc P s HA H i e' Hi Ha) as (Hp' & q & Hq & Hqc).
    rewrite (HR q e' (nth_error_In _ _ Hq) Hqc Hp') in Hu. discriminate.
Qed.

Lemma forallb_no : forall {A} (f : A -> bool) l, forallb f l = false -> exists x, In x l /\ f x = false.
Proof.
  intros A f l. induction l as [|a l IH]; [discriminate|]. cbn. intros H. apply andb_false_iff in H.
  destruct H as [H|H]; [exists a; split; [now left|exact H]|].
  destruct (IH H) as (x & Hx & E). exists x. split; [now right|exact E].
Qed.

(** ** what run() gives does not depend on the schedule *)
Theorem outcome_decided : forall P, WellFormed P -> AllBuilt P -> AllTravel P ->
  RunGives P Returned \/ RunGives P (Failed (num_reported P)) \/ RunHangs P.
Proof.
  intros P HW HA HT.
  destruct (forallb (fun p => match p_course p with CFine => true | _ => false end) (pms P)) eqn:E.
  - left. apply fine_run_and_stop; auto. intros p Hp. rewrite forallb_forall in E. specialize (E p Hp).
    destruct (p_course p); congruence.
  - destruct (forallb (fun d => match response P d with Some RError => true | _ => false end) (seq 0 (ndom P))) eqn:E2.
    + right. left. apply errors_reported_partial; auto. intros d Hd. apply (response_error P HA).
      rewrite forallb_forall in E2. specialize (E2 d ltac:(apply in_seq; lia)).
      destruct (response P d) as [[|]|]; congruence.
    + right. right. apply error_elsewhere_hangs; auto.
      * apply forallb_no in E. destruct E as (p & Hp & X). exists p. split; [exact Hp|]. intros Y. now rewrite Y in X.
      * apply forallb_no in E2. destruct E2 as (d & Hd & X). apply in_seq in Hd. exists d. split; [lia|].
        intros Y. apply (response_error P HA) in Y. now rewrite Y in X.
Qed.

(** ** termination *)
Definition w_act (a : actor) : nat := match a with Building => 2 | Up => 1 | _ => 0 end.
Definition w_dom (x : dstate) : nat := match x with DStart => 3 | DOut _ => 2 | DRead _ => 1 | DStopped => 0 end.
Fixpoint total (f : nat -> nat) (n : nat) : nat := match n with 0 => 0 | S k => f k + total f k end.
Definition w_cl (P : program) (k : client) : nat :=
  let N := nact P in let D := ndom P in
  match k with
  | KCheck i => 2 * N + D + 6 + (N - i)
  | KWait => 2 * N + D + 5
  | KJoin i _ => N + D + 4 + (N - i)
  | KRan _ => N + D + 3
  | KStopWait _ j => N + 2 + (D - j)
  | KStopJoin _ i => 1 + (N - i)
  | KEnd _ | KStopRaised _ => 0
  end.
Definition weight (P : program) (s : state) : nat :=
  total (fun i => w_act (act s i)) (nact P) + total (fun d => w_dom (dom s d)) (ndom P) + w_cl P (cl s).

Lemma total_same : forall f g n, (forall i, i < n -> f i = g i) -> total f n = total g n.
Proof. intros f g n. induction n as [|n IH]; intros H; [reflexivity|]. cbn. rewrite (H n) by lia. rewrite IH; [reflexivity|]. intros i Hi. apply H. lia. Qed.

Lemma total_upd : forall {A} (w : A -> nat) (f : nat -> A) i a n, i < n -> w a < w (f i) ->
  total (fun k => w (upd f i a k)) n < total (fun k => w (f k)) n.
Proof.
  intros A w f i a n. induction n as [|n IH]; intros Hi Hw; [lia|]. cbn.
  destruct (Nat.eq_dec i n) as [-> |Hn].
  - rewrite upd_same. rewrite (total_same _ (fun k => w (f k)) n); [lia|]. intros k Hk. unfold upd.
    destruct (Nat.eqb_spec k n); [lia|reflexivity].
  - specialize (IH ltac:(lia) Hw). unfold upd at 1. destruct (Nat.eqb_spec n i); [lia|]. lia.
Qed.

Lemma total_const : forall c n, total (fun _ => c) n = c * n.
Proof. intros c n. induction n as [|n IH]; cbn; [lia|]. rewrite IH. lia. Qed.

Lemma leave_weight : forall e, w_act (leave_with e) = 0.
Proof. intros e. unfold leave_with. destruct (pickles e); [destruct (fits e)|]; reflexivity. Qed.

Lemma step_weight : forall P s s', step P s s' -> weight P s' < weight P s.
Proof.
  intros P s s' Hs.
  assert (forall i a x, i < nact P -> w_act a < w_act (act s i) -> weight P (set_built s i a x) < weight P s) as HB.
  { intros i a x Hi Hw. unfold weight. cbn [act dom cl set_built].
    pose proof (total_upd w_act (act s) i a (nact P) Hi Hw). cbn beta in *. lia. }
  assert (forall i a, i < nact P -> w_act a < w_act (act s i) -> weight P (set_act s i a) < weight P s) as HA.
  { intros i a Hi Hw. unfold weight. cbn [act dom cl set_act].
    pose proof (total_upd w_act (act s) i a (nact P) Hi Hw). cbn beta in *. lia. }
  assert (forall d x, d < ndom P -> w_dom x < w_dom (dom s d) -> weight P (set_dom s d x) < weight P s) as HD.
  { intros d x Hd Hw. unfold weight. cbn [act dom cl set_dom].
    pose proof (total_upd w_dom (dom s) d x (ndom P) Hd Hw). cbn beta in *. lia. }
  assert (forall k, w_cl P k < w_cl P (cl s) -> weight P (set_cl s k) < weight P s) as HC.
  { intros k Hw. unfold weight. cbn [act dom cl set_cl]. lia. }
  assert (forall i p, nth_error (pms P) i = Some p -> i < nact P) as HP by (intros i p X; apply nth_pm in X; unfold nact; lia).
  destruct Hs as [s i p Hp Ha Hb|s i p e Hp Ha Hb|s i p Hp Ha Hb|s d Hd Ha|s i p e Hp Hst Ha Hco|s i p Hp Hst Ha Hco
                 |s d r Hd Hst Hdm Hr|s i p Hp Ha Hco Hl|s d Hd Ha Hl|s d r j Hd Hc Hdm|s i Hc Hi Hit|s i e Hc Hi Hit Hu
                 |s i e Hc Hi Hit Hu Ht|s i e Hc Hi Hit Hu Ht|s Hc|s d Hd Hc Hdm|s Hc Hall|s d Hd Hc Hdm|s i n Hc Hi Ha
                 |s i n e Hc Hi Ha Hu|s i n e Hc Hi Ha Hu|s n Hc|s r Hc Hr|s r Hc Hr|s r j Hc Hj Hdm|s r Hc|s r i m Hc Hi Ha Hm
                 |s r i e Hc Hi Ha Hu|s r Hc].
  - apply HB; [eauto|]. rewrite Ha. cbn. lia.
  - apply HB; [eauto|]. rewrite Ha, leave_weight. cbn. lia.
  - apply HA; [eauto|]. rewrite Ha. cbn. lia.
  - apply HB; [unfold nact; lia|]. rewrite Ha. cbn. lia.
  - apply HA; [eauto|]. rewrite Ha, leave_weight. cbn. lia.
  - apply HA; [eauto|]. rewrite Ha. cbn. lia.
  - apply HD; [exact Hd|]. rewrite Hdm. cbn. lia.
  - apply HA; [eauto|]. rewrite Ha. cbn. lia.
  - apply HA; [unfold nact; lia|]. rewrite Ha. cbn. lia.
  - apply HD; [exact Hd|]. rewrite Hdm. cbn. lia.
  - apply HC. rewrite Hc. cbn [w_cl]. lia.
  - apply HC. rewrite Hc. cbn [w_cl]. lia.
  - apply HC. rewrite Hc. cbn [w_cl]. lia.
  - apply HC. rewrite Hc. cbn [w_cl]. lia.
  - unfold weight. rewrite Hc. cbn [act dom cl w_cl]. lia.
  - apply HD; [exact Hd|]. rewrite Hdm. cbn. lia.
  - apply HC. rewrite Hc. cbn [w_cl]. lia.
  - unfold weight. rewrite Hc. cbn [act dom cl w_cl set_dom_cl].
    pose proof (total_upd w_dom (dom s) d (DRead RError) (ndom P) Hd) as X. rewrite Hdm in X. cbn [w_dom] in X. specialize (X ltac:(lia)).
    cbn beta in *. lia.
  - apply HC. rewrite Hc. cbn [w_cl]. lia.
  - apply HC. rewrite Hc. cbn [w_cl]. lia.
  - apply HC. rewrite Hc. cbn [w_cl]. lia.
  - apply HC. rewrite Hc. cbn [w_cl]. lia.
  - apply HC. rewrite Hc. cbn [w_cl]. lia.
  - apply HC. rewrite Hc. cbn [w_cl]. lia.
  - apply HC. rewrite Hc. cbn [w_cl]. lia.
  - apply HC. rewrite Hc. cbn [w_cl]. lia.
  - apply HC. rewrite Hc. cbn [w_cl]. lia.
  - apply HC. rewrite Hc. cbn [w_cl]. lia.
  - apply HC. rewrite Hc. cbn [w_cl]. lia.
Qed.

(** every execution is finite: a run() that is never over waits for ever, it does not loop *)
Theorem executions_bounded : forall P n s, steps P n s -> n <= 5 * length (pms P) + 9 * ndom P + 6.
Proof.
  intros P n s H.
  assert (n + weight P s <= weight P init) as X.
  { induction H as [|n s s' H IH Hs]; [lia|]. pose proof (step_weight P s s' Hs). lia. }
  assert (weight P init = 5 * nact P + 4 * ndom P + 6) as Y.
  { unfold weight. cbn [act dom cl init w_act w_dom w_cl]. rewrite !total_const. lia. }
  unfold nact, npm in Y. lia.
Qed.
