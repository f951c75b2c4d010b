(** C82: a Monitor records what the network does, and does not change it. *)
From Coq Require Import List Arith ZArith Bool Lia.
From Verif Require Import Base Kahn PyPorts_Model Exec_Model Exec_Spec Exec_Proofs Exec_Props Monitor_Model Monitor_Spec.
From Verif Require Exec_Layers.
Import ListNotations.

Lemma history_of_run St (models : list (pmodel St)) wires n ss ss' :
  sync_run models wires n ss ss' -> exists tr, sync_history models wires ss tr ss' /\ length tr = n.
Proof.
  induction 1 as [|n ss o ss1 ss2 S R (tr & H & L)].
  - exists []. split; [constructor|auto].
  - exists ((o, ss1) :: tr). split; [econstructor; eauto|cbn; auto].
Qed.
Lemma run_of_history St (models : list (pmodel St)) wires ss tr ss' :
  sync_history models wires ss tr ss' -> sync_run models wires (length tr) ss ss'.
Proof. induction 1; cbn; econstructor; eauto. Qed.

(** *** Monitors *)
Lemma vadd_zeros n s : length s = n -> vadd (repeat 0%Z n) s = s.
Proof. intros <-. unfold vadd. induction s; cbn; auto. f_equal; auto. Qed.

Lemma set_row_app k x l r : length l = k -> r <> [] -> set_row k x (l ++ r) = l ++ x :: tl r.
Proof.
  intros <-. induction l; cbn; intros; [destruct r; [congruence|auto]|f_equal; auto].
Qed.
Lemma set_row_length k x l : length (set_row k x l) = length l.
Proof. revert k. induction l; intros [|k]; cbn; auto. Qed.

Definition record' (m : option mon) (x : vec) : option mon := match m with Some m => record m x | None => None end.
Lemma record_none xs : fold_left record' xs None = None.
Proof. induction xs; cbn; auto. Qed.
Lemma record_all size N xs : forall pre, length pre <= N ->
  fold_left record' xs (Some (mkMon (length pre) (rows pre size N))) =
    (if length pre + length xs <=? N then Some (mkMon (length pre + length xs) (rows (pre ++ xs) size N)) else None).
Proof.
  induction xs as [|x xs IH]; intros pre HL.
  - cbn. rewrite Nat.add_0_r, app_nil_r. replace (length pre <=? N) with true; auto. symmetry. apply Nat.leb_le. auto.
  - cbn [fold_left record']. unfold record. cbn [m_step m_rows].
    assert (length (rows pre size N) = N) as LR. { unfold rows. rewrite app_length, repeat_length. lia. }
    rewrite LR. destruct (Nat.ltb_spec (length pre) N) as [H|H].
    + assert (set_row (length pre) x (rows pre size N) = rows (pre ++ [x]) size N) as ->.
      { unfold rows. rewrite set_row_app; auto.
        - rewrite app_length, <- app_assoc. cbn [length app]. do 2 f_equal.
          replace (N - length pre) with (S (N - (length pre + 1))) by lia. auto.
        - replace (N - length pre) with (S (N - (length pre + 1))) by lia. discriminate. }
      specialize (IH (pre ++ [x])). rewrite app_length in IH. cbn [length] in IH. rewrite Nat.add_1_r in IH.
      rewrite IH by lia. cbn [length]. rewrite <- app_assoc. cbn [app]. replace (length pre + S (length xs)) with (S (length pre) + length xs) by lia. auto.
    + rewrite record_none. symmetry. destruct (Nat.leb_spec (length pre + length (x :: xs)) N); auto. cbn in *. lia.
Qed.

Section Probed.
Context {St : Type}.
Variable models : list (pmodel St).
Variable wires : list wire.
Variable ps : list probe.
Hypothesis WF : wf models wires.
Hypothesis PS : forall p, In p ps -> exists m, nth_error models (p_proc p) = Some m /\ In (p_port p) (early m ++ late m).

Lemma nth_lift i : i < length models -> nth_error (probed models ps) i = option_map lift (nth_error models i).
Proof. intros H. unfold probed. rewrite nth_error_app1 by (rewrite map_length; auto). apply nth_error_map. Qed.
Lemma nth_mon j : nth_error (probed models ps) (length models + j) = option_map (fun p => mon_proc (p_size p)) (nth_error ps j).
Proof.
  unfold probed. rewrite nth_error_app2 by (rewrite map_length; lia). rewrite map_length.
  replace (length models + j - length models) with j by lia. apply nth_error_map.
Qed.
Lemma mon_wire_in w : In w (mon_wires (length models) ps) <->
  exists j p, nth_error ps j = Some p /\ w = mkWire (p_proc p, p_port p) (length models + j, 0) [].
Proof.
  unfold mon_wires. rewrite in_map_iff. split.
  - intros ([j p] & <- & H). apply In_nth_error in H. destruct H as [k Hk]. exists j, p. cbn. split; auto.
    assert (k < length ps) as L. { assert (k < length (combine (seq 0 (length ps)) ps)) by (apply nth_error_Some; congruence).
      rewrite combine_length, seq_length in H. lia. }
    destruct (nth_error_lt _ ps k L) as [p' Hp']. rewrite (nth_error_combine _ _ _ _ _ _ _ (nth_error_seq 0 _ _ L) Hp') in Hk.
    injection Hk as <- <-. auto.
  - intros (j & p & Hp & ->). exists (j, p). split; auto. assert (j < length ps) as L by (apply nth_error_Some; congruence).
    pose proof (nth_error_combine _ _ _ _ _ _ _ (nth_error_seq 0 _ _ L) Hp) as H. apply nth_error_In in H. auto.
Qed.
Lemma wire_dst w : In w wires -> fst (w_dst w) < length models.
Proof. intros H. destruct (wf_dst _ _ WF w H) as (m & Hm & _). apply nth_error_Some. congruence. Qed.
Lemma wire_src w : In w wires -> fst (w_src w) < length models.
Proof. intros H. destruct (wf_src _ _ WF w H) as (m & Hm & _). apply nth_error_Some. congruence. Qed.

Lemma filter_nil A (f : A -> bool) l : (forall x, In x l -> f x = false) -> filter f l = [].
Proof. induction l; cbn; auto. intros H. rewrite (H a), IHl; auto. Qed.

Lemma filter_mon_at k (l : list probe) a j p : nth_error l j = Some p ->
  filter (fun w => eqp (w_dst w) (k + (a + j), 0))
    (map (fun jp => mkWire (p_proc (snd jp), p_port (snd jp)) (k + fst jp, 0) []) (combine (seq a (length l)) l)) =
  [mkWire (p_proc p, p_port p) (k + (a + j), 0) []].
Proof.
  revert a j. induction l as [|q l IH]; intros a [|j] H; try discriminate; cbn [length seq combine map filter].
  - injection H as ->. cbn [w_dst fst snd]. replace (eqp (k + a, 0) (k + (a + 0), 0)) with true
      by (symmetry; apply eqp_spec; f_equal; lia). rewrite Nat.add_0_r. f_equal.
    apply filter_nil. intros w Hw. apply in_map_iff in Hw. destruct Hw as ([b c] & <- & Hb). cbn [w_dst].
    apply in_combine_l in Hb. apply in_seq in Hb. cbn [fst].
    destruct (eqp (k + b, 0) (k + a, 0)) eqn:E; auto. apply eqp_spec in E. injection E. lia.
  - cbn [w_dst fst snd]. destruct (eqp (k + a, 0) (k + (a + S j), 0)) eqn:E. { apply eqp_spec in E. injection E. lia. }
    replace (a + S j) with (S a + j) by lia. apply IH. auto.
Qed.

(** ports of the network see the same *)
Lemma in_value_net o i q size : i < length models ->
  in_value (probed_wires models wires ps) o i q size = in_value wires o i q size.
Proof.
  intros H. unfold in_value, probed_wires. rewrite filter_app.
  rewrite (filter_nil _ _ (mon_wires (length models) ps)); [rewrite app_nil_r; auto|].
  intros w Hw. apply mon_wire_in in Hw. destruct Hw as (j & p & _ & ->). cbn.
  destruct (eqp _ _) eqn:E; auto. apply eqp_spec in E. injection E. lia.
Qed.
Lemma in_values_lift o i (m : pmodel St) : i < length models ->
  in_values (probed_wires models wires ps) o i (lift m) = in_values wires o i m.
Proof.
  intros H. unfold in_values. cbn. apply map_ext. intros [q size]. apply in_value_net. auto.
Qed.
Lemma in_values_mon o j p : nth_error ps j = Some p ->
  in_values (probed_wires models wires ps) o (length models + j) (@mon_proc St (p_size p)) =
    [vadd (repeat 0%Z (p_size p)) (o (p_proc p) (p_port p))].
Proof.
  intros Hp. unfold in_values. cbn. f_equal. unfold in_value, probed_wires. rewrite filter_app.
  rewrite (filter_nil _ _ wires).
  - cbn [app]. unfold mon_wires. pose proof (filter_mon_at (length models) ps 0 j p Hp) as FM. cbn [Nat.add] in FM. rewrite FM. auto.
  - intros w Hw. destruct (eqp _ _) eqn:E; auto. apply eqp_spec in E. pose proof (wire_dst w Hw). rewrite E in H. cbn in H. lia.
Qed.

Definition observe (o : nat -> nat -> vec) (p : probe) : vec := vadd (repeat 0%Z (p_size p)) (o (p_proc p) (p_port p)).
Definition both (ss : list St) (ms : list (option mon)) : list (ext St) := map inl ss ++ map inr ms.
Definition mons_step (o : nat -> nat -> vec) (ms : list (option mon)) : list (option mon) :=
  map (fun pm => record' (snd pm) (observe o (fst pm))) (combine ps ms).

Lemma nth_both_l ss ms i s : nth_error ss i = Some s -> nth_error (both ss ms) i = Some (inl s).
Proof.
  intros H. unfold both. rewrite nth_error_app1.
  - rewrite nth_error_map, H. auto.
  - rewrite map_length. apply nth_error_Some. congruence.
Qed.
Lemma nth_both_r ss ms j : nth_error (both ss ms) (length ss + j) = option_map inr (nth_error ms j).
Proof.
  unfold both. rewrite nth_error_app2 by (rewrite map_length; lia). rewrite map_length.
  replace (length ss + j - length ss) with j by lia. apply nth_error_map.
Qed.

Lemma ext_step ss o ss' ms : sync_step models wires ss o ss' -> length ms = length ps ->
  sync_step (probed models ps) (probed_wires models wires ps) (both ss ms) o (both ss' (mons_step o ms)).
Proof.
  intros S L. destruct (ss_len _ _ _ _ _ S) as [L1 L2].
  assert (forall i mm x, nth_error (probed models ps) i = Some mm -> nth_error (both ss ms) i = Some x ->
    (exists m s, nth_error models i = Some m /\ nth_error ss i = Some s /\ mm = lift m /\ x = inl s) \/
    (exists j p a, i = length models + j /\ nth_error ps j = Some p /\ nth_error ms j = Some a /\ mm = mon_proc (p_size p) /\ x = inr a)) as C.
  { intros i mm x Hm Hx. destruct (lt_dec i (length models)) as [Hi|Hi].
    - left. rewrite nth_lift in Hm by auto. destruct (nth_error_lt _ models i Hi) as [m Em]. rewrite <- L1 in Hi.
      destruct (nth_error_lt _ ss i Hi) as [s Es]. exists m, s. split; auto. split; auto. rewrite Em in Hm. cbn in Hm.
      rewrite (nth_both_l _ _ _ _ Es) in Hx. split; congruence.
    - right. replace i with (length models + (i - length models)) in * by lia. remember (i - length models) as j eqn:Ej. clear Ej Hi i.
      rewrite nth_mon in Hm. rewrite <- L1, nth_both_r in Hx. destruct (nth_error ps j) as [p|] eqn:Ep; [|discriminate].
      destruct (nth_error ms j) as [a|] eqn:Ea; [|discriminate]. cbn in Hm, Hx. exists j, p, a. repeat split; auto; congruence. }
  split.
  - unfold both, probed, mons_step. rewrite !app_length, !map_length, combine_length, !L1, L2. lia.
  - intros i mm x Hm Hx. destruct (C _ _ _ Hm Hx) as [(m & s & A & B & -> & ->)|(j & p & a & -> & Hp & Ha & -> & ->)].
    + cbn. eapply (ss_early _ _ _ _ _ S); eauto.
    + cbn. auto.
  - intros i mm x Hm Hx. destruct (C _ _ _ Hm Hx) as [(m & s & A & B & -> & ->)|(j & p & a & -> & Hp & Ha & -> & ->)].
    + rewrite in_values_lift by (apply nth_error_Some; congruence). cbn. rewrite (ss_late _ _ _ _ _ S _ _ _ A B).
      destruct (body m s _); auto.
    + cbn. destruct a; auto.
  - intros i mm x Hm Hx. destruct (C _ _ _ Hm Hx) as [(m & s & A & B & -> & ->)|(j & p & a & -> & Hp & Ha & -> & ->)].
    + rewrite in_values_lift by (apply nth_error_Some; congruence). cbn.
      pose proof (ss_state _ _ _ _ _ S _ _ _ A B) as N. rewrite (nth_both_l _ _ _ _ N). destruct (body m s _); auto.
    + rewrite (in_values_mon _ _ _ Hp). rewrite <- L2, nth_both_r. unfold mons_step. rewrite nth_error_map.
      rewrite (nth_error_combine _ _ _ _ _ _ _ Hp Ha). cbn. destruct a; auto.
Qed.

Lemma ext_history ss tr ss' : sync_history models wires ss tr ss' -> forall ms, length ms = length ps ->
  sync_run (probed models ps) (probed_wires models wires ps) (length tr) (both ss ms)
    (both ss' (fold_left (fun ms x => mons_step (fst x) ms) tr ms)).
Proof.
  induction 1 as [|ss o ss1 tr ss2 S H IH]; intros ms L; cbn [length fold_left].
  - constructor.
  - econstructor; [apply ext_step; eauto|]. cbn [fst]. apply IH. unfold mons_step. rewrite map_length, combine_length. lia.
Qed.
Lemma mons_each (tr : list (moment St)) : forall ms, length ms = length ps ->
  fold_left (fun ms x => mons_step (fst x) ms) tr ms =
    map (fun pm => fold_left record' (map (fun x => observe (fst x) (fst pm)) tr) (snd pm)) (combine ps ms).
Proof.
  induction tr as [|x tr IH]; intros ms L; cbn [fold_left map].
  - clear PS. revert ms L. induction ps; intros [|m ms] L; try discriminate; auto. cbn. f_equal. apply IHl; auto.
  - rewrite IH by (unfold mons_step; rewrite map_length, combine_length; lia). clear. unfold mons_step.
    revert ms. induction ps; intros [|m ms]; cbn; auto. f_equal. apply IHl.
Qed.

Lemma probed_wf : wf (probed models ps) (probed_wires models wires ps).
Proof.
  assert (forall mm, In mm (probed models ps) -> (exists m, In m models /\ mm = lift m) \/ exists p, mm = mon_proc (p_size p)) as C.
  { intros mm H. apply in_app_or in H. destruct H as [H|H]; apply in_map_iff in H; destruct H as (x & <- & H); eauto. }
  split.
  - intros w Hw. apply in_app_or in Hw. destruct Hw as [Hw|Hw].
    + destruct (wf_src _ _ WF w Hw) as (m & Hm & H). exists (lift m). rewrite nth_lift by (apply wire_src; auto). rewrite Hm. auto.
    + apply mon_wire_in in Hw. destruct Hw as (j & p & Hp & ->). cbn. destruct (PS p (nth_error_In _ _ Hp)) as (m & Hm & H).
      exists (lift m). rewrite nth_lift by (apply nth_error_Some; congruence). rewrite Hm. auto.
  - intros w Hw. apply in_app_or in Hw. destruct Hw as [Hw|Hw].
    + destruct (wf_dst _ _ WF w Hw) as (m & Hm & H). exists (lift m). rewrite nth_lift by (apply wire_dst; auto). rewrite Hm. auto.
    + apply mon_wire_in in Hw. destruct Hw as (j & p & Hp & ->). cbn [w_dst fst snd]. rewrite nth_mon, Hp. cbn. eauto.
  - intros mm H. destruct (C mm H) as [(m & Hm & ->)|(p & ->)]; cbn; [apply (wf_ports _ _ WF); auto|constructor].
  - intros mm s H. destruct (C mm H) as [(m & Hm & ->)|(p & ->)]; cbn; auto. destruct s; [apply (wf_early _ _ WF); auto|apply map_length].
  - intros mm s xs H. destruct (C mm H) as [(m & Hm & ->)|(p & ->)]; cbn.
    + destruct s; cbn; [|apply map_length]. pose proof (wf_late _ _ WF m s xs Hm) as E. destruct (body m s xs). auto.
    + destruct s as [|[a|]]; auto. destruct xs as [|x [|y r]]; auto.
Qed.

Lemma probed_no_feedback : ~ (exists C, feedback models wires C) -> ~ (exists C, feedback (probed models ps) (probed_wires models wires ps) C).
Proof.
  intros NF (C & (i & Ci) & F). apply NF. exists (fun i => C i /\ i < length models).
  assert (forall w, In w (probed_wires models wires ps) -> fst (w_src w) < length models) as SRC.
  { intros w Hw. apply in_app_or in Hw. destruct Hw as [Hw|Hw]; [apply wire_src; auto|]. apply mon_wire_in in Hw.
    destruct Hw as (j & p & Hp & ->). cbn. destruct (PS p (nth_error_In _ _ Hp)) as (m & Hm & _). apply nth_error_Some. congruence. }
  split.
  - destruct (F i Ci) as (w & Hw & _ & Cs & _). eauto.
  - intros k [Ck Hk]. destruct (F k Ck) as (w & Hw & E & Cs & (mm & Hmm & HL)). exists w.
    pose proof (SRC w Hw) as Hs. apply in_app_or in Hw. destruct Hw as [Hw|Hw].
    + repeat split; auto. rewrite nth_lift in Hmm by auto. destruct (nth_error models (fst (w_src w))) as [m|] eqn:Em; [|discriminate].
      injection Hmm as <-. exists m. auto.
    + apply mon_wire_in in Hw. destruct Hw as (j & p & _ & ->). cbn in E. lia.
Qed.
End Probed.

(** ** C82 *)

(** Whatever the network, the schedule, the channel sizes and the sync domains: probing OutPorts changes nothing
    in the network, and row t-1 of each monitor is the value sent on the probed port in step t; the rows of
    steps that were not run are 0.  (A monitor that is run for more steps than it has rows has died.) *)
Theorem monitor_records : forall (St : Type) (models : list (pmodel St)) wires dom cap n ss ps,
  wf models wires -> 0 < cap -> ~ (exists C, feedback models wires C) -> length ss = length models ->
  (forall p, In p ps -> exists m, nth_error models (p_proc p) = Some m /\ In (p_port p) (early m ++ late m)) ->
  exists tr ss', sync_history models wires ss tr ss' /\ length tr = n /\
    (* without monitors *)
    inevitable (enext models wires dom cap n) (fun y => y = idle wires n ss') (idle wires 0 ss) /\
    (* with monitors *)
    ((forall p o, In p ps -> In o tr -> length (fst o (p_proc p) (p_port p)) = p_size p) ->
     inevitable (enext (probed models ps) (probed_wires models wires ps) dom cap n)
       (fun y => y = idle (probed_wires models wires ps) n
          (map inl ss' ++ map (fun p => inr (if n <=? p_steps p
              then Some (mkMon n (rows (port_values tr (p_proc p) (p_port p)) (p_size p) (p_steps p))) else None)) ps))
       (idle (probed_wires models wires ps) 0
          (map inl ss ++ map (fun p => inr (Some (fresh_mon (p_steps p) (p_size p)))) ps))).
Proof.
  intros St models wires dom cap n ss ps WF Hc NF L PS.
  destruct (network_computes_equations _ models wires dom cap n ss WF Hc NF L) as (ss' & R & I).
  destruct (history_of_run _ _ _ _ _ _ R) as (tr & H & Ln). exists tr, ss'. split; auto. split; auto. split; auto.
  intros SZ.
  pose (ms0 := map (fun p => Some (fresh_mon (p_steps p) (p_size p))) ps).
  assert (length ms0 = length ps) as L0 by (unfold ms0; apply map_length).
  assert (length (both ss ms0) = length (probed models ps)) as LB.
  { unfold both, probed. rewrite !app_length, !map_length. lia. }
  pose proof (ext_history models wires ps WF ss tr ss' H ms0 L0) as R'. rewrite Ln in R'.
  pose proof (probed_wf models wires ps WF PS) as WF'.
  pose proof (probed_no_feedback models wires ps WF PS NF) as NF'.
  destruct (network_computes_equations _ _ _ dom cap n _ WF' Hc NF' LB) as (z & Rz & Iz).
  pose proof (equations_deterministic _ _ _ _ _ _ _ WF' NF' LB Rz R') as ->.
  assert (map inl ss' ++ map (fun p => inr (if n <=? p_steps p
              then Some (mkMon n (rows (port_values tr (p_proc p) (p_port p)) (p_size p) (p_steps p))) else None)) ps =
          both ss' (fold_left (fun ms x => mons_step ps (fst x) ms) tr ms0)) as ->.
  { rewrite mons_each by auto. unfold both. f_equal. rewrite map_map. unfold ms0.
    assert (forall l, (forall p, In p l -> In p ps) ->
      map (fun p => inr (if n <=? p_steps p then Some (mkMon n (rows (port_values tr (p_proc p) (p_port p)) (p_size p) (p_steps p))) else None)) l =
      map (fun x => (inr (fold_left record' (map (fun x0 => observe (fst x0) (fst x)) tr) (snd x)) : ext St))
        (combine l (map (fun p => Some (fresh_mon (p_steps p) (p_size p))) l))) as G; [|apply G; auto].
    induction l as [|p l IH]; intros HP; cbn; auto. f_equal; [|apply IH; intros; apply HP; right; auto].
    f_equal. pose proof (record_all (p_size p) (p_steps p) (port_values tr (p_proc p) (p_port p)) [] ltac:(cbn; lia)) as E.
    cbn [length] in E. rewrite Nat.add_0_l in E. assert (length (port_values tr (p_proc p) (p_port p)) = n) as LP by (unfold port_values; rewrite map_length; auto).
    rewrite LP in E. cbn [app] in E. rewrite <- E. f_equal.
    - apply map_ext_in. intros o Ho. unfold observe. symmetry. apply vadd_zeros. apply SZ; auto. apply HP. left. auto.
    - unfold fresh_mon, rows. cbn. rewrite Nat.sub_0_r. auto. }
  unfold both in Iz at 2. unfold ms0 in Iz at 2. rewrite map_map in Iz. exact Iz.
Qed.

(** *** Vars *)
Section Exposed.
Context {St : Type}.
Variable models : list (pmodel St).
Variable wires : list wire.
Hypothesis WF : wf models wires.
Variables (i q : nat) (var : St -> vec) (m : pmodel St).
Hypothesis Hm : nth_error models i = Some m.
Hypothesis Hq : ~ In q (early m ++ late m).

Definition exposed : list (pmodel St) := upd models i (expose q var m).

Lemma nth_exposed k : nth_error exposed k = if i =? k then Some (expose q var m) else nth_error models k.
Proof. apply nth_upd. apply nth_error_Some. congruence. Qed.
Lemma expose_in mm : In mm exposed -> In mm models \/ mm = expose q var m.
Proof.
  intros H. apply In_nth_error in H. destruct H as [k H]. rewrite nth_exposed in H. destruct (i =? k).
  - injection H as <-. auto.
  - left. eapply nth_error_In; eauto.
Qed.
Lemma exposed_wf : wf exposed wires.
Proof.
  split.
  - intros w Hw. destruct (wf_src _ _ WF w Hw) as (m' & Hm' & H). rewrite nth_exposed. destruct (Nat.eqb_spec i (fst (w_src w))) as [E|E]; eauto.
    rewrite <- E, Hm in Hm'. injection Hm' as <-. exists (expose q var m). split; auto. cbn. rewrite app_assoc. apply in_or_app. auto.
  - intros w Hw. destruct (wf_dst _ _ WF w Hw) as (m' & Hm' & H). rewrite nth_exposed. destruct (Nat.eqb_spec i (fst (w_dst w))) as [E|E]; eauto.
    rewrite <- E, Hm in Hm'. injection Hm' as <-. exists (expose q var m). split; auto.
  - intros mm H. destruct (expose_in mm H) as [H1| ->]; [apply (wf_ports _ _ WF); auto|]. cbn. rewrite app_assoc. apply NoDup_app_intro.
    + apply (wf_ports _ _ WF). eapply nth_error_In; eauto.
    + constructor; auto. constructor.
    + intros x Hx [<-|[]]. auto.
  - intros mm s H. destruct (expose_in mm H) as [H1| ->]; [apply (wf_early _ _ WF); auto|]. cbn. apply (wf_early _ _ WF). eapply nth_error_In; eauto.
  - intros mm s xs H. destruct (expose_in mm H) as [H1| ->]; [apply (wf_late _ _ WF); auto|]. cbn.
    pose proof (wf_late _ _ WF m s xs (nth_error_In _ _ Hm)) as E. destruct (body m s xs). cbn in *. rewrite !app_length. cbn. lia.
Qed.
Lemma exposed_no_feedback : ~ (exists C, feedback models wires C) -> ~ (exists C, feedback exposed wires C).
Proof.
  intros NF (C & NE & F). apply NF. exists C. split; auto. intros k Ck. destruct (F k Ck) as (w & Hw & E & Cs & (m' & Hm' & HL)).
  exists w. repeat split; auto. rewrite nth_exposed in Hm'. destruct (Nat.eqb_spec i (fst (w_src w))) as [Ei|Ei]; [|exists m'; auto].
  injection Hm' as <-. cbn in HL. apply in_app_or in HL. destruct HL as [HL|[HL|[]]].
  - exists m. rewrite <- Ei. auto.
  - exfalso. apply Hq. destruct (wf_src _ _ WF w Hw) as (m' & Hm' & H). rewrite <- Ei, Hm in Hm'. injection Hm' as <-. rewrite HL. auto.
Qed.
Lemma in_values_exposed o k (mm : pmodel St) : in_values wires o k (expose q var mm) = in_values wires o k mm.
Proof. auto. Qed.
Lemma unexpose_step ss o ss' : sync_step exposed wires ss o ss' ->
  sync_step models wires ss o ss' /\ (forall s', nth_error ss' i = Some s' -> o i q = var s').
Proof.
  intros S. assert (length exposed = length models) as LE by apply upd_length.
  assert (forall k mk s, nth_error models k = Some mk -> nth_error ss k = Some s ->
    nth_error exposed k = Some (if i =? k then expose q var m else mk)) as NE.
  { intros k mk s Hk _. rewrite nth_exposed. destruct (i =? k); auto. }
  destruct (ss_len _ _ _ _ _ S) as [L1 L2].
  assert (nth_error exposed i = Some (expose q var m)) as Ei. { rewrite nth_exposed, Nat.eqb_refl. auto. }
  assert (forall s, nth_error ss i = Some s -> map (o i) (late m) = snd (body m s (in_values wires o i m)) /\
     o i q = var (fst (body m s (in_values wires o i m))) /\ nth_error ss' i = Some (fst (body m s (in_values wires o i m)))) as T.
  { intros s Hs. pose proof (ss_late _ _ _ _ _ S _ _ _ Ei Hs) as A. pose proof (ss_state _ _ _ _ _ S _ _ _ Ei Hs) as B.
    rewrite in_values_exposed in A, B. cbn in A, B. destruct (body m s _) as [s' vs]. cbn in *. rewrite map_app in A. cbn in A.
    apply app_inj_tail in A. destruct A as [A1 A2]. auto. }
  split.
  - split.
    + lia.
    + intros k mk s Hk Hs. pose proof (ss_early _ _ _ _ _ S _ _ _ (NE _ _ _ Hk Hs) Hs) as E.
      destruct (Nat.eqb_spec i k) as [<-|]; auto. cbn in E. congruence.
    + intros k mk s Hk Hs. pose proof (ss_late _ _ _ _ _ S _ _ _ (NE _ _ _ Hk Hs) Hs) as E.
      destruct (Nat.eqb_spec i k) as [<-|]; auto. rewrite Hm in Hk. injection Hk as <-. apply T. auto.
    + intros k mk s Hk Hs. pose proof (ss_state _ _ _ _ _ S _ _ _ (NE _ _ _ Hk Hs) Hs) as E.
      destruct (Nat.eqb_spec i k) as [<-|]; auto. rewrite Hm in Hk. injection Hk as <-. apply T. auto.
  - intros s' Hs'. assert (i < length ss) as Li. { rewrite L1, LE. apply nth_error_Some. congruence. }
    destruct (nth_error_lt _ ss i Li) as [s Hs]. destruct (T s Hs) as (_ & A & B). rewrite Hs' in B. injection B as ->. auto.
Qed.
Lemma unexpose_history ss tr ss' : sync_history exposed wires ss tr ss' ->
  sync_history models wires ss tr ss' /\ port_values tr i q = var_values tr i var.
Proof.
  induction 1 as [|ss o ss1 tr ss2 S H [IH1 IH2]]; [split; [constructor|auto]|].
  destruct (unexpose_step _ _ _ S) as [S' V]. split; [econstructor; eauto|]. unfold port_values, var_values in *. cbn. f_equal; auto.
  destruct (ss_len _ _ _ _ _ S') as [_ L2]. destruct (nth_error_lt _ ss1 i) as [s Hs]. { rewrite L2. apply nth_error_Some. congruence. }
  rewrite Hs. auto.
Qed.
End Exposed.

(** A monitored Var: row t-1 is the value of the Var at the end of step t; nothing else changes. *)
Theorem monitor_records_var : forall (St : Type) (models : list (pmodel St)) wires dom cap n ss i m q var size N,
  wf models wires -> 0 < cap -> ~ (exists C, feedback models wires C) -> length ss = length models ->
  nth_error models i = Some m -> ~ In q (early m ++ late m) -> (forall s, length (var s) = size) ->
  let models' := upd models i (expose q var m) in
  let ps := [mkProbe i q size N] in
  exists tr ss', sync_history models wires ss tr ss' /\ length tr = n /\
    inevitable (enext models wires dom cap n) (fun y => y = idle wires n ss') (idle wires 0 ss) /\
    inevitable (enext (probed models' ps) (probed_wires models' wires ps) dom cap n)
       (fun y => y = idle (probed_wires models' wires ps) n
          (map inl ss' ++ [inr (if n <=? N then Some (mkMon n (rows (var_values tr i var) size N)) else None)]))
       (idle (probed_wires models' wires ps) 0 (map inl ss ++ [inr (Some (fresh_mon N size))])).
Proof.
  intros St models wires dom cap n ss i m q var size N WF Hc NF L Hm Hq SZ models' ps.
  assert (wf models' wires) as WF' by (apply exposed_wf; auto).
  destruct (monitor_records St models' wires dom cap n ss ps WF' Hc) as (tr & ss' & H & Ln & I & IM).
  - apply (exposed_no_feedback models wires WF i q var m Hm Hq NF).
  - unfold models'. rewrite upd_length. auto.
  - intros p [<-|[]]. cbn. exists (expose q var m). split.
    + unfold models'. rewrite nth_upd by (apply nth_error_Some; congruence). rewrite Nat.eqb_refl. auto.
    + cbn. apply in_or_app. right. apply in_or_app. right. left. auto.
  - destruct (unexpose_history models wires i q var m Hm ss tr ss' H) as [H' E].
    exists tr, ss'. split; auto. split; auto. split.
    + destruct (network_computes_equations _ models wires dom cap n ss WF Hc NF L) as (z & R & Iz).
      pose proof (run_of_history _ _ _ _ _ _ H') as R'. rewrite Ln in R'.
      rewrite (equations_deterministic _ _ _ _ _ _ _ WF NF L R' R). auto.
    + cbn [map p_proc p_port p_size p_steps ps] in IM. rewrite E in IM. apply IM.
      intros p o [<-|[]] Ho. cbn. apply In_nth_error in Ho. destruct Ho as [k Hk].
      assert (nth_error (port_values tr i q) k = Some (fst o i q)) as P1 by (exact (map_nth_error (fun x => fst x i q) k tr Hk)).
      rewrite E in P1. unfold var_values in P1. rewrite (map_nth_error _ k tr Hk) in P1. cbn in P1. injection P1 as P1.
      rewrite <- P1. destruct (nth_error (snd o) i) eqn:Es; auto. exfalso. revert Es.
      assert (forall ss tr ss', sync_history models wires ss tr ss' -> forall k o, nth_error tr k = Some o -> length (snd o) = length models) as G.
      { clear. induction 1 as [|ss o1 ss1 tr ss2 S H IH]; intros k o Ho; [destruct k; discriminate|].
        destruct k; cbn in Ho; [|eauto]. injection Ho as <-. cbn. apply (ss_len _ _ _ _ _ S). }
      apply nth_error_Some. rewrite (G _ _ _ H' _ _ Hk). apply nth_error_Some. congruence.
Qed.

(** *** probe() *)

(** A Monitor can be built only if every probe() call but the last was refused: a second probe, or a refused one
    after a successful one, makes the process impossible to build. *)
Lemma builds_step m ts : builds (fold_left (fun m t => fst (do_probe m t)) ts m) = true -> builds m = true.
Proof.
  revert m. induction ts as [|t ts IH]; cbn; auto. intros m H. apply IH in H. unfold builds in *. destruct t; cbn in H;
    repeat (apply andb_prop in H; destruct H as [_ H]); auto.
Qed.
Lemma builds_counts m t : n_ref m <> 0 \/ n_in m <> 0 -> builds (fst (do_probe m t)) = false.
Proof.
  intros H. unfold builds. destruct t; cbn; destruct (Nat.eqb_spec (n_ref m) 0); cbn; auto; destruct (Nat.eqb_spec (n_in m) 0); cbn; auto; lia.
Qed.
Theorem monitor_one_probe : forall ts, builds (probes ts) = true <-> Forall (eq TOther) (removelast ts).
Proof.
  intros ts. unfold probes.
  assert (forall ts m, n_ref m = 0 -> n_in m = 0 -> builds m = true ->
    (builds (fold_left (fun m t => fst (do_probe m t)) ts m) = true <-> Forall (eq TOther) (removelast ts))) as G; [|apply G; auto].
  clear ts. induction ts as [|t ts IH]; intros m R I B.
  - cbn. split; auto.
  - destruct ts as [|t' ts].
    + cbn. split; auto. intros _. unfold builds in *. destruct t; cbn; rewrite R, I; auto.
    + change (removelast (t :: t' :: ts)) with (t :: removelast (t' :: ts)). cbn [fold_left].
      destruct t.
      * split.
        -- intros H. exfalso. apply builds_step in H. rewrite builds_counts in H; [discriminate|]. left. cbn. discriminate.
        -- intros H. inversion H. discriminate.
      * split.
        -- intros H. exfalso. apply builds_step in H. rewrite builds_counts in H; [discriminate|]. right. cbn. discriminate.
        -- intros H. inversion H. discriminate.
      * specialize (IH (fst (do_probe m TOther)) R I). cbn [fold_left] in IH. rewrite IH.
        -- split; intros H; [constructor; auto|inversion H; auto].
        -- unfold builds in *. cbn. rewrite R, I. auto.
Qed.
(** ... and then it records exactly the last target, through the port and into the array made for it. *)
Theorem monitor_records_last : forall ts t, Forall (eq TOther) ts ->
  recorded (probes (ts ++ [t])) = match t with TVar => [(RefPortN 0, VarReadN 0)] | TOut => [(InPortN 0, OutReadN 0)] | TOther => [] end.
Proof.
  intros ts t H. unfold probes. rewrite fold_left_app. cbn [fold_left].
  assert (forall m, n_ref m = 0 -> n_in m = 0 ->
    Forall (eq (RefPortN 0)) (lref m) -> Forall (eq (VarReadN 0)) (lv1 m) -> Forall (eq (InPortN 0)) (lin m) -> Forall (eq (OutReadN 0)) (lv2 m) ->
    let m' := fold_left (fun m t => fst (do_probe m t)) ts m in
    n_ref m' = 0 /\ n_in m' = 0 /\
    Forall (eq (RefPortN 0)) (lref m') /\ Forall (eq (VarReadN 0)) (lv1 m') /\ Forall (eq (InPortN 0)) (lin m') /\ Forall (eq (OutReadN 0)) (lv2 m')) as G.
  { induction H as [|t' ts E H IH]; intros m; [cbn; intros; auto 10|]. rewrite <- E. cbn [fold_left do_probe fst]. intros. apply IH; cbn; auto; apply Forall_app; auto. }
  destruct (G new_monitor) as (A & B & F1 & F2 & F3 & F4); try constructor. revert A B F1 F2 F3 F4.
  generalize (fold_left (fun m t => fst (do_probe m t)) ts new_monitor). intros m A B F1 F2 F3 F4.
  assert (forall (a b : mem) l1 l2, Forall (eq a) l1 -> Forall (eq b) l2 -> firstn 1 (combine (l1 ++ [a]) (l2 ++ [b])) = [(a, b)]) as K.
  { intros a b l1 l2 Q1 Q2. destruct Q1; destruct Q2; subst; cbn; auto. }
  unfold recorded. destruct t; cbn -[firstn combine app]; rewrite ?A, ?B.
  - rewrite K; auto.
  - rewrite K; auto.
  - auto.
Qed.

(** Two targets cannot be monitored by one Monitor (documented: "Note: Monitor currently only supports to record from a singe Var or Port"). *)
Theorem monitor_two_targets_rejected : forall t, t <> TOther -> builds (probes [t; t]) = false.
Proof. intros [] H; try congruence; reflexivity. Qed.

(** Instance: monitors on the Dense and on the neurons of the network source -> Dense -> LIF -> sink. *)
Example monitor_instance : forall k m,
  let ps := [mkProbe 1 0 m 10; mkProbe 2 0 m 20] in
  wf (Exec_Layers.pipeline k m) Exec_Layers.pipeline_wires /\
  ~ (exists C, feedback (Exec_Layers.pipeline k m) Exec_Layers.pipeline_wires C) /\
  (forall p, In p ps -> exists x, nth_error (Exec_Layers.pipeline k m) (p_proc p) = Some x /\ In (p_port p) (early x ++ late x)).
Proof.
  intros k m ps. split; [apply Exec_Layers.pipeline_wf|]. split; [apply Exec_Layers.pipeline_feeds_forward|].
  intros p [<-|[<-|[]]]; cbn; eexists; split; try reflexivity; cbn; auto.
Qed.
(** a monitor with 3 rows after 2 steps *)
Example monitor_rows : fold_left record' [[5%Z]; [7%Z]] (Some (fresh_mon 3 1)) = Some (mkMon 2 [[5%Z]; [7%Z]; [0%Z]]).
Proof. reflexivity. Qed.
