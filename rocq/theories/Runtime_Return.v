(** C07 as seen by the caller of run(): the k-th completion message that is received (the return of the
    k-th blocking run() or wait()) comes after every process has finished all steps of the first k runs. *)
From Coq Require Import List Arith Bool Lia.
From Verif Require Import Base Runtime_Model Runtime_Spec Runtime_Proofs Runtime_Inv2 Runtime_Props Runtime_Props2 Runtime_Props3 Runtime_Props4.
Import ListNotations.

(** Messages received by the runtime, in order. *)
Fixpoint received (tr : list event) : list rresp :=
  match tr with
  | [] => []
  | EvPop x :: r => x :: received r
  | _ :: r => received r
  end.
Definition total (l : list nat) : nat := fold_right Nat.add 0 l.

Lemma received_app a b : received (a ++ b) = received a ++ received b.
Proof. induction a as [|[] a IH]; simpl; rewrite ?IH; auto. Qed.
Lemma total_app a b : total (a ++ b) = total a + total b.
Proof. unfold total. induction a; simpl; auto. lia. Qed.
Lemma total_firstn k l : total (firstn k l) <= total l.
Proof. revert k. induction l; intros [|k]; simpl; try lia. specialize (IHl k). simpl in *. lia. Qed.

Section Return.
  Variable N : nat.
  Notation exec := (exec N).

  (** the channel to the runtime loses, invents and repeats nothing *)
  Theorem responses_fifo : forall tr s, exec tr s -> said tr = received tr ++ s2r s.
  Proof.
    induction 1 as [|tr s e s' H IH St]; auto.
    destruct St as [? ? ? Hv|? ? ? Hm|? ? ? He].
    - destruct Hv; cbn [ext s2r set_sv set_svf say]; rewrite ?said_app, ?received_app; simpl; rewrite ?app_nil_r; auto;
        try (rewrite IH, app_assoc; auto; fail).
      + destruct (pausing (fl s)); cbn [ext]; rewrite ?said_app, ?received_app; simpl; rewrite ?app_nil_r; auto.
        rewrite IH, app_assoc; auto.
      + destruct (stopping (fl s)); cbn [ext]; rewrite ?said_app, ?received_app; simpl; rewrite ?app_nil_r; auto.
        rewrite IH, app_assoc; auto.
    - destruct Hm; cbn [ext set_m s2r]; rewrite ?said_app, ?received_app; simpl; rewrite ?app_nil_r; auto.
    - destruct He; cbn [ext psh pop s2r]; rewrite ?said_app, ?received_app; simpl; rewrite ?app_nil_r; auto.
      rewrite IH, H0, <- app_assoc. auto.
  Qed.

  Definition rest (s : sys) : nat := match sv s with VIdle => 0 | _ => nn s - cur s end.

  (** benign histories: no pausing or stopping *)
  Lemma no_pause tr s : exec tr s -> benign tr -> ~ In Pause (r2s s) /\
       match sv s with VSend CPause _ | VRecv CPause _ => False | _ => True end.
  Proof.
    induction 1 as [|tr s e s' H IH St]; intro B; [simpl; auto|].
    pose proof (benign_pre _ _ B) as B''. destruct (IH B'') as [I1 I2].
    destruct St as [? ? ? Hv|? ? ? Hm|? ? ? He].
    - destruct Hv; simpl; repeat match goal with Z : sv s = _ |- _ => rewrite Z in I2; revert Z end; intros; auto;
        try (rewrite H1 in I1; simpl in I1; tauto); split; auto; destruct c; auto.
    - destruct Hm; simpl; auto.
    - destruct He; simpl; auto. split; auto. rewrite in_snoc. intros [|X]; auto. subst c.
      destruct B as (B1 & _). apply B1. simpl. apply in_snoc; auto.
  Qed.

  Lemma steps_so_far tr s : exec tr s -> benign tr -> count CSpk (bcasts tr) + rest s = total (starts tr).
  Proof.
    induction 1 as [|tr s e s' H IH St]; intro B; auto.
    pose proof (benign_pre _ _ B) as B'. specialize (IH B').
    pose proof (no_pause _ _ H B') as [NP Ncp].
    pose proof (invL_exec _ _ _ H (benign_disc _ B')) as [F P S R U L].
    pose proof (count_done _ _ _ H B') as C1.
    pose proof (invR_exec _ _ _ H) as Rr. unfold InvR in Rr.
    destruct F as (F1 & F2 & F3).
    assert (Lr : forall n l, since_start tr = Some (n, l) -> Forall (fun e => ~ self_req e) l).
    { intros n l E. apply since_suffix in E as (a & -> & _). rewrite Forall_forall. intros x Hx.
      apply B'. apply in_or_app. simpl; auto. }
    unfold rest in *.
    destruct St as [? ? ? Hv|? ? ? Hm|? ? ? He].
    - destruct Hv; cbn [ext sv nn cur set_sv set_svf say];
        repeat match goal with Z : sv s = _ |- _ => rewrite Z in IH, S, U, L, Ncp, Rr; revert Z end; intros;
        rewrite ?F1, ?F2 in *; cbn [ext] in *; rewrite ?bcasts_app, ?starts_app, ?count_app, ?total_app, ?app_nil_r; auto;
        try (simpl in *; tauto); try (unfold count in *; simpl; lia); try (destruct c; unfold count in *; simpl in *; try lia; auto; fail).
      + destruct R as (k0 & q0 & R1 & _). rewrite H1 in R1. symmetry in R1. exfalso. eapply shape_stop; eauto.
      + rewrite H1 in NP. simpl in NP. tauto.
      + destruct (since_start tr) as [[m l]|]; [|simpl in Rr; tauto].
        destruct Rr as (_ & Rn & _ & Rc & _). unfold count in *. simpl in *. lia.
      + exfalso. destruct (since_start tr) as [[m l]|] eqn:E; [|simpl in Rr; tauto].
        destruct L as [_ L]. destruct (L (Lr _ _ eq_refl)) as (_ & _ & X & _). rewrite (X I) in H1. discriminate.
      + destruct (since_start tr) as [[m l]|] eqn:E; [|simpl in Rr; tauto].
        destruct Rr as (_ & _ & Rl & _). simpl in H1. destruct (last (fl s)); [|discriminate].
        rewrite Rl in IH by auto. unfold count in *. simpl in *. lia.
    - destruct Hm; cbn [ext set_m sv nn cur] in *; rewrite ?bcasts_app, ?starts_app; simpl; rewrite ?app_nil_r; auto.
    - destruct He; cbn [ext psh pop sv nn cur] in *; rewrite ?bcasts_app, ?starts_app; simpl; rewrite ?app_nil_r; auto.
  Qed.

  Lemma idle_ended tr s i : exec tr s -> benign tr -> sv s = VIdle -> i < N -> count CSpk (ended i tr) = total (starts tr).
  Proof.
    intros H B V Hi. pose proof (steps_so_far _ _ H B) as J. unfold rest in J. rewrite V in J.
    pose proof (invA_exec _ _ _ H) as A. pose proof (invB_exec _ _ _ H) as Bb.
    destruct (quiet_none _ _ i Bb Hi) as [Q1 Q2]; [rewrite V; auto|].
    rewrite (a_del _ _ _ A i Hi), (a_busy _ _ _ A i Hi), V in J. simpl in J.
    rewrite !count_app, (count_host _ Q1), (count_busy_host _ Q2) in J. unfold count in *. simpl in J. lia.
  Qed.

  Lemma done_ended tr s i : exec tr s -> benign tr -> i < N ->
    total (firstn (times DONE (said tr)) (starts tr)) <= count CSpk (ended i tr).
  Proof.
    intros H B Hi. induction H as [|tr s e s' H IH St]; [simpl; auto|].
    pose proof (benign_pre _ _ B) as B'. specialize (IH B').
    assert (X : exec (ext tr e) s') by (econstructor; eauto).
    pose proof (count_done _ _ _ H B') as C1.
    assert (D : e = Some (EvResp DONE) \/ times DONE (said (ext tr e)) = times DONE (said tr)).
    { destruct e as [[]|]; cbn [ext]; auto; rewrite ?said_app, ?times_app; try (right; unfold times; simpl; lia).
      destruct r; auto; right; unfold times; simpl; lia. }
    destruct D as [->|D].
    - assert (V : sv s' = VIdle).
      { inversion St; subst; try match goal with Z : mstep _ _ _ _ |- _ => inversion Z | Z : estep _ _ _ |- _ => inversion Z end.
        match goal with Z : vstep _ _ _ _ |- _ => inversion Z; subst end;
        try (destruct (pausing (fl s)); discriminate); try (destruct (stopping (fl s)); discriminate); auto. }
      rewrite (idle_ended _ _ i X B V Hi). apply total_firstn.
    - rewrite D.
      assert (E1 : firstn (times DONE (said tr)) (starts (ext tr e)) = firstn (times DONE (said tr)) (starts tr)).
      { destruct e as [e|]; cbn [ext]; auto. rewrite starts_app, firstn_app.
        replace (times DONE (said tr) - length (starts tr)) with 0 by lia. simpl. apply app_nil_r. }
      rewrite E1. assert (count CSpk (ended i tr) <= count CSpk (ended i (ext tr e))); [|lia].
      destruct e as [e|]; cbn [ext]; auto. rewrite ended_app, count_app. lia.
  Qed.

  Lemma pushed_prefix tr s : exec tr s -> exists r, pushed tr = starts tr ++ r.
  Proof. intro H. exists (steps_of (r2s s)). apply fifo_exec with (N := N). auto. Qed.

  (** While nobody pauses, stops, requests or raises: after the caller has received [k] completion
      messages, every process has finished at least the steps of the first [k] requested runs, and exactly
      these if no further run was requested. *)
  Theorem run_returns_complete : forall tr s i,
    exec tr s -> benign tr -> i < N ->
    let k := times DONE (received tr) in
    k <= length (pushed tr) /\
    total (firstn k (pushed tr)) <= count CSpk (ended i tr) /\
    (k = length (pushed tr) -> count CSpk (ended i tr) = total (pushed tr)).
  Proof.
    intros tr s i H B Hi k.
    pose proof (responses_fifo _ _ H) as Fi. pose proof (count_done _ _ _ H B) as C.
    destruct (pushed_prefix _ _ H) as [q Pq].
    assert (K : k <= times DONE (said tr)) by (rewrite Fi, times_app; unfold k; lia).
    assert (Lq : length (pushed tr) = length (starts tr) + length q) by (rewrite Pq, app_length; auto).
    repeat split.
    - lia.
    - pose proof (done_ended _ _ i H B Hi) as D.
      assert (total (firstn k (pushed tr)) <= total (firstn (times DONE (said tr)) (starts tr))); [|lia].
      rewrite Pq, firstn_app. replace (k - length (starts tr)) with 0 by lia. simpl. rewrite app_nil_r.
      replace k with (Nat.min k (times DONE (said tr))) by lia. rewrite <- firstn_firstn. apply total_firstn.
    - intro E. assert (V : sv s = VIdle).
      { destruct (sv s); auto; simpl in C; lia. }
      assert (Q0 : q = []) by (destruct q; auto; simpl in Lq; rewrite V in C; lia).
      rewrite Pq, Q0, app_nil_r. apply (idle_ended _ s i); auto.
  Qed.

End Return.

(** The hypotheses are met by a history in which run(1) was called, completed and returned, and a second
    run was requested. *)
Theorem run_returns_witness : exists tr s, exec 1 tr s /\ benign tr /\ times DONE (received tr) = 1 /\
  pushed tr = [1; 2] /\ count CSpk (ended 0 tr) = 1.
Proof.
  pose proof (ex_init 1) as W. unfold sys0 in W.
  ee (Steps 1). vv V_start. vv V_spk. vv V_send. vv V_sent. mm ltac:(eapply (M_begin 1 _ 0 CSpk)). mm ltac:(eapply (M_end 1 _ 0 CSpk (mkO false false false false false false))).
  vv V_recv. vv V_got. vv V_ok. vv V_probe_no. vv V_host. vv V_send. vv V_sent_host.
  mm ltac:(eapply (M_begin 1 _ 0 CHost)). mm ltac:(eapply (M_end 1 _ 0 CHost (mkO false false false false false false))). vv V_probe_no. vv V_end_done. comp.
  match goal with W : exec 1 ?t ?s |- _ =>
    assert (W' := ex_step 1 _ _ _ _ W (st_e _ _ _ _ (E_pop s DONE [] eq_refl))); clear W end.
  cbn [ext app psh pop set_sv set_svf say set_m r2s s2r s2p p2s mp ts sv nn cur fl] in W'. ee (Steps 2). comp.
  match goal with W : exec 1 ?t ?s |- _ => exists t, s; split; [exact W|] end.
  split; [|repeat split; reflexivity].
  split; [|split]; simpl; try (intro Hq; repeat (destruct Hq as [Hq|Hq]; try discriminate Hq); contradiction).
  intros e Hq. repeat (destruct Hq as [<-|Hq]; [simpl; auto|]). contradiction.
Qed.
