(** Invariants for C102. *)
From Coq Require Import List Bool Arith Lia.
From Verif Require Import Startup_Model Startup_Spec.
Import ListNotations.

Lemma upd_same : forall A (f : nat -> A) i a, upd f i a i = a.
Proof. intros. unfold upd. now rewrite Nat.eqb_refl. Qed.
Lemma upd_other : forall A (f : nat -> A) i a j, j <> i -> upd f i a j = f j.
Proof. intros A f i a j H. unfold upd. apply Nat.eqb_neq in H. now rewrite H. Qed.

Inductive act_change (P : program) (s : state) (i : nat) : actor -> option (option exc) -> Prop :=
| ac_built p : nth_error (pms P) i = Some p -> act s i = Building -> p_built p = BOk -> act_change P s i Up (Some None)
| ac_bexc p e : nth_error (pms P) i = Some p -> act s i = Building -> p_built p = BRaise e -> act_change P s i (leave_with e) (item_of e)
| ac_bdies p : nth_error (pms P) i = Some p -> act s i = Building -> p_built p = BDies -> act_change P s i (Gone None) (item s i)
| ac_sbuilt d : i = npm P + d -> d < ndom P -> act s i = Building -> act_change P s i Up (Some None)
| ac_raise p e : nth_error (pms P) i = Some p -> started s = true -> act s i = Up -> p_course p = CRaise e ->
    act_change P s i (leave_with e) (item s i)
| ac_dies p : nth_error (pms P) i = Some p -> started s = true -> act s i = Up -> p_course p = CDies ->
    act_change P s i (Gone None) (item s i)
| ac_exit_pm p : nth_error (pms P) i = Some p -> act s i = Up -> p_course p = CFine -> leaving (dom s (p_dom p)) = true ->
    act_change P s i (Gone None) (item s i)
| ac_exit_svc d : i = npm P + d -> d < ndom P -> act s i = Up -> leaving (dom s d) = true -> act_change P s i (Gone None) (item s i).

Lemma act_step : forall P s s', step P s s' -> forall i,
  (act s' i = act s i /\ item s' i = item s i) \/ act_change P s i (act s' i) (item s' i).
Proof.
  intros P s s' H i.
  destruct H; cbn; auto;
    match goal with |- context [upd _ ?k _ i] => destruct (Nat.eq_dec i k) as [-> |Hn] end;
    try (left; rewrite ?upd_other by assumption; split; reflexivity); right; rewrite ?upd_same; econstructor; eauto; fail.
Qed.

Inductive dom_change (P : program) (s s' : state) (d : nat) : dstate -> Prop :=
| dc_resp r : d < ndom P -> started s = true -> dom s d = DStart -> response P d = Some r -> cl s' = cl s -> dom_change P s s' d (DOut r)
| dc_done : d < ndom P -> dom s d = DOut RDone -> cl s = KWait -> cl s' = KWait -> dom_change P s s' d (DRead RDone)
| dc_error : d < ndom P -> dom s d = DOut RError -> cl s = KWait -> cl s' = KJoin 0 0 -> dom_change P s s' d (DRead RError)
| dc_stop r j : d < ndom P -> dom s d = DRead RDone -> cl s = KStopWait r j -> cl s' = cl s -> dom_change P s s' d DStopped.

Lemma dom_step : forall P s s', step P s s' -> forall d, dom s' d = dom s d \/ dom_change P s s' d (dom s' d).
Proof.
  intros P s s' H d.
  destruct H; cbn; auto;
    match goal with |- context [upd _ ?k _ d] => destruct (Nat.eq_dec d k) as [-> |Hn] end;
    try (left; rewrite ?upd_other by assumption; reflexivity); right; rewrite ?upd_same; econstructor; eauto; fail.
Qed.

(** ** actors *)
Definition Passes (P : program) (s : state) (i : nat) : Prop :=
  item s i = Some None \/ exists e, item s i = Some (Some e) /\ unpickles e = true /\ truthy e = false.

(** what is known of a process model *)
Definition PmInv (P : program) (s : state) (i : nat) (p : pm) : Prop :=
  match act s i with
  | Building => item s i = None
  | a =>
      match p_built p with
      | BNever => False
      | BDies => item s i = None /\ a = Gone None
      | BRaise e => item s i = item_of e /\ a = leave_with e
      | BOk =>
          item s i = Some None /\
          (a = Up \/
           match p_course p with
           | CFine => a = Gone None /\ leaving (dom s (p_dom p)) = true
           | CRaise e => a = leave_with e /\ started s = true
           | CDies => a = Gone None /\ started s = true
           | CBlocked => False
           end)
      end
  end.
Definition SvcInv (P : program) (s : state) (d : nat) : Prop :=
  match act s (npm P + d) with
  | Building => item s (npm P + d) = None
  | a => item s (npm P + d) = Some None /\ (a = Up \/ (a = Gone None /\ leaving (dom s d) = true))
  end.

Lemma leaving_step : forall P s s', step P s s' -> forall d, leaving (dom s d) = true -> leaving (dom s' d) = true.
Proof.
  intros P s s' H d Hl. destruct (dom_step P s s' H d) as [E|E]; [now rewrite E|].
  inversion E as [r ? ? E2|? E2|? E2|? ? ? E2]; rewrite E2 in Hl; discriminate || reflexivity.
Qed.

Lemma started_step : forall P s s', step P s s' -> started s = true -> started s' = true.
Proof. intros P s s' H Hs. destruct H; cbn; auto. Qed.

Lemma leave_not_building : forall e, leave_with e <> Building.
Proof. intros e. unfold leave_with. destruct (pickles e); [destruct (fits e)|]; discriminate. Qed.
Lemma leave_not_up : forall e, leave_with e <> Up.
Proof. intros e. unfold leave_with. destruct (pickles e); [destruct (fits e)|]; discriminate. Qed.

Lemma nth_pm : forall P i p, nth_error (pms P) i = Some p -> i < npm P.
Proof. intros P i p H. apply nth_error_Some. congruence. Qed.

Lemma pm_inv : forall P s, reach P s -> forall i p, nth_error (pms P) i = Some p -> PmInv P s i p.
Proof.
  intros P s H. induction H as [|s s' H IH Hs]; intros i p Hp; [reflexivity|].
  specialize (IH i p Hp).
  pose proof (leaving_step P s s' Hs (p_dom p)) as HL. pose proof (started_step P s s' Hs) as HS.
  destruct (act_step P s s' Hs i) as [[E1 E2]|E].
  - unfold PmInv in *. rewrite E1, E2. destruct (act s i); auto;
      (destruct (p_built p); auto; destruct IH as [IH1 [IH2|IH2]]; (split; [exact IH1|]); [now left|right]; destruct (p_course p); (contradiction || (destruct IH2; split; auto))).
  - unfold PmInv. revert E. generalize (act s' i), (item s' i). intros a x E.
    destruct E as [q Hq Hb Hk|q e Hq Hb Hk|q Hq Hb Hk|d Hd Hd' Hb|q e Hq Ht Hu Hc|q Hq Ht Hu Hc|q Hq Hu Hc Hl|d Hd Hd' Hu Hl];
      try (assert (q = p) by congruence; subst q);
      try (exfalso; apply nth_pm in Hp; lia);
      unfold PmInv in IH; try rewrite Hb in IH; try rewrite Hu in IH; cbn [PmInv] in *; cbv beta iota in *.
    + rewrite Hk. cbv beta iota. auto.
    + pose proof (leave_not_building e). destruct (leave_with e) eqn:El; try congruence; rewrite Hk; cbv beta iota; split; congruence.
    + rewrite Hk. cbv beta iota. auto.
    + pose proof (leave_not_building e). pose proof (leave_not_up e).
      destruct (p_built p); [|destruct IH as [_ IH]; symmetry in IH; now apply leave_not_up in IH|destruct IH; discriminate|destruct IH].
      destruct (leave_with e) eqn:El; try congruence; destruct IH as [IH _]; split; auto; right; rewrite Hc; auto.
    + destruct (p_built p); [|destruct IH as [_ IH]; symmetry in IH; now apply leave_not_up in IH|destruct IH; discriminate|destruct IH].
      destruct IH as [IH _]; split; auto; right; rewrite Hc; auto.
    + destruct (p_built p); [|destruct IH as [_ IH]; symmetry in IH; now apply leave_not_up in IH|destruct IH; discriminate|destruct IH].
      destruct IH as [IH _]; split; auto; right; rewrite Hc; auto.
Qed.

Lemma svc_inv : forall P s, reach P s -> forall d, d < ndom P -> SvcInv P s d.
Proof.
  intros P s H. induction H as [|s s' H IH Hs]; intros d Hd; [reflexivity|].
  specialize (IH d Hd).
  pose proof (leaving_step P s s' Hs d) as HL.
  destruct (act_step P s s' Hs (npm P + d)) as [[E1 E2]|E].
  - unfold SvcInv in *. rewrite E1, E2. destruct (act s (npm P + d)); auto; intuition.
  - unfold SvcInv. revert E. generalize (act s' (npm P + d)), (item s' (npm P + d)). intros a x E.
    destruct E as [q Hq Hb Hk|q e Hq Hb Hk|q Hq Hb Hk|d' Hd' Hd'' Hb|q e Hq Ht Hu Hc|q Hq Ht Hu Hc|q Hq Hu Hc Hl|d' Hd' Hd'' Hu Hl];
      try (exfalso; apply nth_pm in Hq; lia).
    + auto.
    + assert (d' = d) by lia. subst d'. unfold SvcInv in IH. rewrite Hu in IH. destruct IH as [IH _]. auto.
Qed.

(** items stay, exits stay *)
Lemma item_stays : forall P s s', reach P s -> step P s s' -> forall i, i < nact P -> item s i <> None -> item s' i = item s i.
Proof.
  intros P s s' Hr Hs i Hi Hn. destruct (act_step P s s' Hs i) as [[_ E]|E]; [exact E|].
  assert (act s i <> Building) as Hb.
  { intros Hb. unfold nact in Hi. destruct (Nat.lt_ge_cases i (npm P)) as [Hlt|Hge].
    - destruct (nth_error (pms P) i) as [p|] eqn:Ep; [|apply nth_error_None in Ep; unfold npm in *; lia].
      pose proof (pm_inv P s Hr i p Ep) as X. unfold PmInv in X. rewrite Hb in X. contradiction.
    - pose proof (svc_inv P s Hr (i - npm P) ltac:(lia)) as X. unfold SvcInv in X.
      replace (npm P + (i - npm P)) with i in X by lia. rewrite Hb in X. contradiction. }
  inversion E; congruence.
Qed.

Lemma passes_stays : forall P s s', reach P s -> step P s s' -> forall i, i < nact P -> Passes P s i -> Passes P s' i.
Proof.
  intros P s s' Hr Hs i Hi HP. unfold Passes in *.
  rewrite (item_stays P s s' Hr Hs i Hi); [exact HP|]. destruct HP as [->|(e & -> & _)]; discriminate.
Qed.

Lemma gone_stays : forall P s s', step P s s' -> forall i m, act s i = Gone m -> act s' i = Gone m.
Proof.
  intros P s s' Hs i m Hm. destruct (act_step P s s' Hs i) as [[E _]|E]; [congruence|]. inversion E; congruence.
Qed.

(** ** domains *)
Definition dresp (x : dstate) : option resp :=
  match x with DStart => None | DOut r | DRead r => Some r | DStopped => Some RDone end.

Lemma dom_inv : forall P s, reach P s -> forall d, dom s d <> DStart -> dresp (dom s d) = response P d /\ started s = true /\ d < ndom P.
Proof.
  intros P s H. induction H as [|s s' H IH Hs]; intros d Hd; [now cbn in Hd|].
  destruct (dom_step P s s' Hs d) as [E|E].
  - rewrite E in *. destruct (IH d Hd) as (H1 & H2 & H3). repeat split; auto. eapply started_step; eauto.
  - revert E. generalize (dom s' d). intros x E.
    destruct E as [r Hlt Hst E2 Hr Hc|Hlt E2 Hc Hc'|Hlt E2 Hc Hc'|r j Hlt E2 Hc Hc']; cbn [dresp].
    + repeat split; auto. eapply started_step; eauto.
    + destruct (IH d) as (H1 & H2 & _); [congruence|]. rewrite E2 in H1. repeat split; auto. eapply started_step; eauto.
    + destruct (IH d) as (H1 & H2 & _); [congruence|]. rewrite E2 in H1. repeat split; auto. eapply started_step; eauto.
    + destruct (IH d) as (H1 & H2 & _); [congruence|]. rewrite E2 in H1. repeat split; auto. eapply started_step; eauto.
Qed.

(** ** the client *)
Definition Readable (s : state) (i : nat) : Prop :=
  exists m, act s i = Gone m /\ forall e, m = Some e -> unpickles e = true.

Definition AllPass (P : program) (s : state) (k : nat) : Prop := forall j, j < k -> Passes P s j.

Definition ResultInv (P : program) (s : state) (r : result) : Prop :=
  match r with
  | StartError e => exists i, i < nact P /\ item s i = Some (Some e) /\ unpickles e = true /\ truthy e = true /\ AllPass P s i
  | StartBroken => exists i e, i < nact P /\ item s i = Some (Some e) /\ unpickles e = false /\ AllPass P s i
  | Returned => started s = true /\ forall d, d < ndom P -> dom s d = DRead RDone \/ dom s d = DStopped
  | Failed n => started s = true /\ forall i, i < nact P -> Readable s i
  | JoinBroken => started s = true /\ exists i e, i < nact P /\ act s i = Gone (Some e) /\ unpickles e = false
  end.

Definition ClientInv (P : program) (s : state) : Prop :=
  (started s = true -> AllPass P s (nact P)) /\
  (forall d, dom s d = DStopped -> exists r, run_result s = Some r /\ started_result r = true) /\
  match cl s with
  | KCheck i => i <= nact P /\ AllPass P s i /\ started s = false
  | KWait => started s = true /\ forall d, d < ndom P -> dom s d <> DRead RError
  | KJoin i n => started s = true /\ i <= nact P /\ forall j, j < i -> Readable s j
  | KRan r => ResultInv P s r
  | KStopWait r j => ResultInv P s r /\ started_result r = true /\ j <= ndom P /\ forall d, d < j -> dom s d = DStopped
  | KStopJoin r i => ResultInv P s r /\ i <= nact P /\ (forall j, j < i -> Readable s j) /\
                     (started_result r = true -> forall d, d < ndom P -> dom s d = DStopped)
  | KEnd r => ResultInv P s r /\ (forall j, j < nact P -> Readable s j)
  | KStopRaised r => ResultInv P s r /\ exists i e, i < nact P /\ act s i = Gone (Some e) /\ unpickles e = false
  end.

Lemma readable_stays : forall P s s', step P s s' -> forall i, Readable s i -> Readable s' i.
Proof. intros P s s' Hs i (m & H1 & H2). exists m. split; [eapply gone_stays; eauto|exact H2]. Qed.

Lemma allpass_stays : forall P s s', reach P s -> step P s s' -> forall k, k <= nact P -> AllPass P s k -> AllPass P s' k.
Proof. intros P s s' Hr Hs k Hk H j Hj. apply (passes_stays P s s' Hr Hs); [lia|now apply H]. Qed.

Lemma stopped_stays : forall P s s', step P s s' -> forall d, dom s d = DStopped -> dom s' d = DStopped.
Proof.
  intros P s s' Hs d Hd. destruct (dom_step P s s' Hs d) as [E|E]; [congruence|]. inversion E; congruence.
Qed.

Lemma read_done_stays : forall P s s', step P s s' -> forall d, dom s d = DRead RDone \/ dom s d = DStopped ->
  dom s' d = DRead RDone \/ dom s' d = DStopped.
Proof.
  intros P s s' Hs d Hd. destruct (dom_step P s s' Hs d) as [E|E]; [rewrite E; exact Hd|].
  inversion E as [r Hlt Hst E2|? E2|? E2|? ? ? E2]; auto; destruct Hd; congruence.
Qed.

Lemma result_stays : forall P s s' r, reach P s -> step P s s' -> ResultInv P s r -> ResultInv P s' r.
Proof.
  intros P s s' r Hr Hs H. pose proof (started_step P s s' Hs) as HS. destruct r; cbn in *.
  - destruct H as [H1 H2]. split; auto. intros d Hd. eapply read_done_stays; eauto.
  - destruct H as [H1 H2]. split; auto. intros i Hi. eapply readable_stays; eauto.
  - destruct H as (i & Hi & H1 & H2 & H3 & H4). exists i. repeat split; auto.
    + rewrite (item_stays P s s' Hr Hs i Hi); [exact H1|congruence].
    + eapply allpass_stays; eauto. lia.
  - destruct H as (i & e & Hi & H1 & H2 & H4). exists i, e. repeat split; auto.
    + rewrite (item_stays P s s' Hr Hs i Hi); [exact H1|congruence].
    + eapply allpass_stays; eauto. lia.
  - destruct H as (H & i & e & Hi & H1 & H2). split; auto. exists i, e. repeat split; auto. eapply gone_stays; eauto.
Qed.

(** a step of an actor or of a service on its own *)
Lemma client_frame : forall P s s', reach P s -> step P s s' -> cl s' = cl s -> started s' = started s ->
  (forall d, dom s' d = DStopped -> dom s d = DStopped \/ exists r j, cl s = KStopWait r j) ->
  ClientInv P s -> ClientInv P s'.
Proof.
  intros P s s' H Hs Hc Hst Hd (IA & IB & IC).
  pose proof (stopped_stays P s s' Hs) as ST.
  pose proof (readable_stays P s s' Hs) as RD.
  pose proof (fun r => result_stays P s s' r H Hs) as RS.
  pose proof (allpass_stays P s s' H Hs) as AP.
  split; [intros X; apply AP; [lia|]; apply IA; congruence|].
  split.
  { unfold run_result in *. rewrite Hc. intros d Hd'. destruct (Hd d Hd') as [X|(r & j & X)]; [eauto|].
    rewrite X in *. exists r. split; [reflexivity|]. apply IC. }
  rewrite Hc, Hst. destruct (cl s) as [i| |i n|r|r j|r i|r|r] eqn:Ec.
  - destruct IC as (I1 & I2 & I3). split; [exact I1|]. split; [now apply AP|exact I3].
  - destruct IC as (I1 & I2). split; [exact I1|]. intros d Hlt.
    destruct (dom_step P s s' Hs d) as [E|E]; [rewrite E; now apply I2|].
    specialize (I2 d Hlt). inversion E; congruence.
  - destruct IC as (I1 & I2 & I3). split; [exact I1|]. split; [exact I2|]. intros j Hj. now apply RD, I3.
  - now apply RS.
  - destruct IC as (I1 & I2 & I3 & I4). split; [now apply RS|]. split; [exact I2|]. split; [exact I3|].
    intros d Hlt. now apply ST, I4.
  - destruct IC as (I1 & I2 & I3 & I4). split; [now apply RS|]. split; [exact I2|].
    split; [intros j Hj; now apply RD, I3|]. intros X d Hlt. apply ST. now apply I4.
  - destruct IC as (I1 & I2). split; [now apply RS|]. intros j Hj. now apply RD, I2.
  - destruct IC as (I1 & i & e & I2 & I3 & I4). split; [now apply RS|]. exists i, e. split; [exact I2|]. split; [|exact I4].
    eapply gone_stays; eauto.
Qed.

Lemma no_stopped : forall P s d, ClientInv P s -> run_result s = None -> dom s d <> DStopped.
Proof. intros P s d (_ & IB & _) Hr Hd. destruct (IB d Hd) as (r & X & _). congruence. Qed.

Lemma client_inv : forall P s, reach P s -> ClientInv P s.
Proof.
  intros P s H. induction H as [|s s' H IH Hs].
  - split; [discriminate|]. split; [discriminate|]. cbn. split; [lia|]. split; [intros j Hj; lia|reflexivity].
  - pose proof (client_frame P s s' H Hs) as FR.
    pose proof (no_stopped P s) as NS.
    pose proof (readable_stays P s s' Hs) as RD.
    pose proof (fun r => result_stays P s s' r H Hs) as RS.
    pose proof (allpass_stays P s s' H Hs) as AP.
    pose proof IH as (IA & IB & IC).
    destruct Hs as
      [s i p Hp Ha Hb|s i p e Hp Ha Hb|s i p Hp Ha Hb|s d Hd Ha|s i p e Hp Hst Ha Hco|s i p Hp Hst Ha Hco
      |s d r Hd Hst Hds Hr|s i p Hp Ha Hco Hl|s d Hd Ha Hl|s d r j Hd Hc Hds|s i Hc Hi Hit|s i e Hc Hi Hit Hu|s i e Hc Hi Hit Hu Ht
      |s i e Hc Hi Hit Hu Ht|s Hc|s d Hd Hc Hds|s Hc Hall|s d Hd Hc Hds|s i n Hc Hi Ha|s i n e Hc Hi Ha Hu|s i n e Hc Hi Ha Hu
      |s n Hc|s r Hc Hr|s r Hc Hr|s r j Hc Hj Hds|s r Hc|s r i m Hc Hi Ha Hu|s r i e Hc Hi Ha Hu|s r Hc].
    all: try (apply FR; [reflexivity|reflexivity|intros d0 Hd0; left; exact Hd0|exact IH]; fail).
    (* s_resp *)
    + apply FR; [reflexivity|reflexivity| |exact IH]. cbn. intros d0 Hd0. left.
      destruct (Nat.eq_dec d0 d) as [-> |Hn]; [rewrite upd_same in Hd0; discriminate|].
      now rewrite upd_other in Hd0.
    (* s_stop *)
    + apply FR; [reflexivity|reflexivity| |exact IH]. intros d0 Hd0. right. eauto.
    (* k_none *)
    + rewrite Hc in IC. destruct IC as (I1 & I2 & I3).
      split; [intros X; cbn in X; congruence|]. split.
      { intros d Hd. exfalso. apply (NS d IH); [unfold run_result; now rewrite Hc|exact Hd]. }
      cbn. split; [lia|]. split; [|exact I3]. intros j Hj.
      destruct (Nat.eq_dec j i) as [-> |Hn]; [left; exact Hit|apply (AP i); [lia|exact I2|lia]].
    + rewrite Hc in IC. destruct IC as (I1 & I2 & I3).
      split; [intros X; cbn in X; congruence|]. split.
      { intros d Hd. exfalso. apply (NS d IH); [unfold run_result; now rewrite Hc|exact Hd]. }
      cbn. exists i, e. split; [exact Hi|]. split; [exact Hit|]. split; [exact Hu|]. now apply AP.
    + rewrite Hc in IC. destruct IC as (I1 & I2 & I3).
      split; [intros X; cbn in X; congruence|]. split.
      { intros d Hd. exfalso. apply (NS d IH); [unfold run_result; now rewrite Hc|exact Hd]. }
      cbn. exists i. split; [exact Hi|]. split; [exact Hit|]. split; [exact Hu|]. split; [exact Ht|]. now apply AP.
    + rewrite Hc in IC. destruct IC as (I1 & I2 & I3).
      split; [intros X; cbn in X; congruence|]. split.
      { intros d Hd. exfalso. apply (NS d IH); [unfold run_result; now rewrite Hc|exact Hd]. }
      cbn. split; [lia|]. split; [|exact I3]. intros j Hj.
      destruct (Nat.eq_dec j i) as [-> |Hn]; [right; eauto|apply (AP i); [lia|exact I2|lia]].
    (* k_start *)
    + rewrite Hc in IC. destruct IC as (I1 & I2 & I3).
      split; [intros _; now apply AP|]. split.
      { intros d Hd. exfalso. apply (NS d IH); [unfold run_result; now rewrite Hc|exact Hd]. }
      cbn. split; [reflexivity|]. intros d Hd E.
      destruct (dom_inv P s H d) as (_ & X & _); [congruence|]. congruence.
    (* k_done *)
    + rewrite Hc in IC. destruct IC as (I1 & I2).
      split; [intros _; apply AP; [lia|now apply IA]|]. split.
      { cbn. intros d0 Hd0. exfalso. destruct (Nat.eq_dec d0 d) as [-> |Hn]; [rewrite upd_same in Hd0; discriminate|].
        rewrite upd_other in Hd0 by exact Hn. apply (NS d0 IH); [unfold run_result; now rewrite Hc|exact Hd0]. }
      cbn. rewrite Hc. split; [exact I1|]. intros d0 Hd0. destruct (Nat.eq_dec d0 d) as [-> |Hn]; [rewrite upd_same; discriminate|].
      rewrite upd_other by exact Hn. now apply I2.
    (* k_return *)
    + rewrite Hc in IC. destruct IC as (I1 & I2).
      split; [intros _; apply AP; [lia|now apply IA]|]. split.
      { intros d Hd. exfalso. apply (NS d IH); [unfold run_result; now rewrite Hc|exact Hd]. }
      cbn. split; [exact I1|]. intros d Hd. left. now apply Hall.
    (* k_error *)
    + rewrite Hc in IC. destruct IC as (I1 & I2).
      split; [intros _; apply AP; [lia|now apply IA]|]. split.
      { cbn. intros d0 Hd0. exfalso. destruct (Nat.eq_dec d0 d) as [-> |Hn]; [rewrite upd_same in Hd0; discriminate|].
        rewrite upd_other in Hd0 by exact Hn. apply (NS d0 IH); [unfold run_result; now rewrite Hc|exact Hd0]. }
      cbn. split; [exact I1|]. split; [lia|]. intros j Hj. lia.
    (* joins *)
    + rewrite Hc in IC. destruct IC as (I1 & I2 & I3).
      split; [intros _; apply AP; [lia|now apply IA]|]. split.
      { intros d Hd. exfalso. apply (NS d IH); [unfold run_result; now rewrite Hc|exact Hd]. }
      cbn. split; [exact I1|]. split; [lia|]. intros j Hj.
      destruct (Nat.eq_dec j i) as [-> |Hn]; [exists None; split; [exact Ha|discriminate]|apply RD, I3; lia].
    + rewrite Hc in IC. destruct IC as (I1 & I2 & I3).
      split; [intros _; apply AP; [lia|now apply IA]|]. split.
      { intros d Hd. exfalso. apply (NS d IH); [unfold run_result; now rewrite Hc|exact Hd]. }
      cbn. split; [exact I1|]. split; [lia|]. intros j Hj.
      destruct (Nat.eq_dec j i) as [-> |Hn]; [exists (Some e); split; [exact Ha|congruence]|apply RD, I3; lia].
    + rewrite Hc in IC. destruct IC as (I1 & I2 & I3).
      split; [intros _; apply AP; [lia|now apply IA]|]. split.
      { intros d Hd. exfalso. apply (NS d IH); [unfold run_result; now rewrite Hc|exact Hd]. }
      cbn. split; [exact I1|]. exists i, e. auto.
    + rewrite Hc in IC. destruct IC as (I1 & I2 & I3).
      split; [intros _; apply AP; [lia|now apply IA]|]. split.
      { intros d Hd. exfalso. apply (NS d IH); [unfold run_result; now rewrite Hc|exact Hd]. }
      cbn. split; [exact I1|]. exact I3.
    (* k_stop *)
    + rewrite Hc in IC. split; [intros X; apply AP; [lia|now apply IA]|]. split.
      { intros d Hd. exists r. split; [reflexivity|exact Hr]. }
      cbn. split; [now apply RS|]. split; [exact Hr|]. split; [lia|]. intros d Hd. lia.
    + rewrite Hc in IC. split; [intros X; apply AP; [lia|now apply IA]|]. split.
      { intros d Hd. unfold run_result in IB. rewrite Hc in IB. destruct (IB d Hd) as (r0 & X & Y). congruence. }
      cbn. split; [now apply RS|]. split; [lia|]. split; [intros j Hj; lia|congruence].
    + rewrite Hc in IC. destruct IC as (I1 & I2 & I3 & I4).
      split; [intros X; apply AP; [lia|now apply IA]|]. split.
      { intros d Hd. exists r. split; [reflexivity|exact I2]. }
      cbn. split; [now apply RS|]. split; [exact I2|]. split; [lia|].
      intros d Hd. destruct (Nat.eq_dec d j) as [-> |Hn]; [exact Hds|apply I4; lia].
    + rewrite Hc in IC. destruct IC as (I1 & I2 & I3 & I4).
      split; [intros X; apply AP; [lia|now apply IA]|]. split.
      { intros d Hd. exists r. split; [reflexivity|exact I2]. }
      cbn. split; [now apply RS|]. split; [lia|]. split; [intros j Hj; lia|]. intros _. exact I4.
    + rewrite Hc in IC. destruct IC as (I1 & I2 & I3 & I4).
      split; [intros X; apply AP; [lia|now apply IA]|]. split.
      { intros d Hd. unfold run_result in *. rewrite Hc in IB. exact (IB d Hd). }
      cbn. split; [now apply RS|]. split; [lia|]. split; [|exact I4].
      intros j Hj. destruct (Nat.eq_dec j i) as [-> |Hn]; [exists m; auto|apply RD, I3; lia].
    + rewrite Hc in IC. destruct IC as (I1 & I2 & I3 & I4).
      split; [intros X; apply AP; [lia|now apply IA]|]. split.
      { intros d Hd. unfold run_result in *. rewrite Hc in IB. exact (IB d Hd). }
      cbn. split; [now apply RS|]. eauto.
    + rewrite Hc in IC. destruct IC as (I1 & I2 & I3 & I4).
      split; [intros X; apply AP; [lia|now apply IA]|]. split.
      { intros d Hd. unfold run_result in *. rewrite Hc in IB. exact (IB d Hd). }
      cbn. split; [now apply RS|]. exact I3.
Qed.
