(** C10, C11: what goes wrong with pause() and stop(): concrete reachable executions of the
    client Runtime with the service and one process (also witnesses that the hypotheses of
    the theorems of Runtime_Props*.v are met by non-trivial executions). *)
From Coq Require Import List Arith Lia Bool.
From Verif Require Import Runtime_Spec Runtime_Proofs Runtime_Live Runtime_Inv2 Runtime_Props Runtime_Props2 Runtime_Props3.
Import ListNotations.

Ltac fwd tac :=
  match goal with W : wexec 1 ?tr ?w |- _ =>
    let e := fresh "e" in let w' := fresh "w" in
    evar (e : option event); evar (w' : world);
    let St := fresh "St" in
    assert (St : wstep 1 w e w') by (subst e w'; tac);
    let W' := fresh "W" in
    pose proof (wx_step 1 _ _ _ _ W St) as W'; subst e w'; clear W St; 
    cbn [ext app psh pop set_sv set_svf say set_m r2s s2r s2p p2s mp ts sv nn cur fl] in W';
    match type of W' with wexec 1 ?t ?x =>
      let t' := eval vm_compute in t in change (wexec 1 t' x) in W' end
  end.
Ltac fin := try reflexivity; try lia; try discriminate; auto.
Ltac gov c := fwd ltac:(apply w_v; eapply c; fin).
Ltac gom c := fwd ltac:(apply w_m; eapply c; fin).
Ltac gok c := fwd ltac:(apply w_k; c; fin).
Ltac gobegin c := fwd ltac:(apply w_m; eapply (M_begin 1 _ 0 c); fin).
Ltac goend c := fwd ltac:(apply w_m; eapply (M_end 1 _ 0 c o0); fin).
Ltac spk := gov V_spk; gov V_send; gov V_sent; gobegin CSpk; goend CSpk; gov V_recv; gov V_got; gov V_ok.

Definition stuck (N : nat) (w : world) : Prop := forall e w', ~ wstep N w e w'.

(** run(RunSteps(5), blocking=False); pause() noticed in the first time step returns; a
    following blocking run(RunSteps(1)) executes its time step but DONE is never sent: the
    call blocks for ever although nothing is left to execute. *)
Theorem pause_then_run_hangs_refuted :
  exists tr w a b,
    wexec 1 tr w /\ tr = a ++ EvPop PAUSED :: EvPush (Steps 1) :: b /\
    count CSpk (ended 0 b) = 1 /\ In (EvBcast CHost) b /\
    kl w = KRun /\ running w = true /\ stuck 1 w.
Proof.
  pose proof (wx_init 1) as W. unfold world0, sys0 in W.
  gok ltac:(apply (K_run _ _ _ 5 false)).
  gov V_start. spk.
  gok ltac:(apply K_pause).
  gov V_probe_yes. gov V_req_pause. gov V_end_quiet.
  gov V_pause. gov V_send. gov V_sent. gobegin CPause. goend CPause. gov V_recv. gov V_paused.
  gok ltac:(eapply K_paused).
  gok ltac:(apply (K_run _ _ _ 1 true)).
  gov V_start. spk. gov V_probe_no. gov V_host. gov V_send. gov V_sent_host. gobegin CHost. goend CHost.
  gov V_probe_no. gov V_end_quiet.
  match goal with W : wexec 1 ?tr ?w |- _ => exists tr, w end.
  match goal with W : wexec 1 ?tr _ |- _ =>
    match tr with context C [EvPop PAUSED :: EvPush (Steps 1) :: ?b] => 
      exists (firstn (length tr - S (S (length b))) tr), b end end.
  split; [eassumption|]. split; [reflexivity|]. split; [reflexivity|]. split; [simpl; auto 20|].
  split; [reflexivity|]. split; [reflexivity|].
  intros e w' St. inversion St; subst.
  - match goal with K : kstep _ _ _ |- _ => inversion K; subst; simpl in *; discriminate end.
  - match goal with K : vstep _ _ _ _ |- _ => inversion K; subst; simpl in *; discriminate end.
  - match goal with K : mstep _ _ _ _ |- _ => inversion K; subst; simpl in * end;
      assert (i = 0) by lia; subst; discriminate.
Qed.

(** The PAUSE command can be noticed while the last phase (HOST) of a run is being sent:
    pause() succeeds, but the following run executes no time step at all (and its blocking
    call never returns). *)
Theorem pause_then_run_skips_refuted :
  exists tr w a b,
    wexec 1 tr w /\ tr = a ++ EvPop PAUSED :: EvPush (Steps 3) :: b /\
    In (EvStart 3) b /\ begun 0 b = [] /\ kl w = KRun /\ stuck 1 w.
Proof.
  pose proof (wx_init 1) as W. unfold world0, sys0 in W.
  gok ltac:(apply (K_run _ _ _ 1 false)).
  gov V_start. spk. gov V_probe_no. gov V_host. gov V_send. gov V_sent_host. gobegin CHost. goend CHost.
  gok ltac:(apply K_pause).
  gov V_probe_yes. gov V_end_quiet.
  gov V_pause. gov V_send. gov V_sent. gobegin CPause. goend CPause. gov V_recv. gov V_paused.
  gok ltac:(eapply K_paused).
  gok ltac:(apply (K_run _ _ _ 3 true)).
  gov V_start. gov V_req_pause. gov V_end_quiet.
  match goal with W : wexec 1 ?tr ?w |- _ => exists tr, w end.
  match goal with W : wexec 1 ?tr _ |- _ =>
    match tr with context C [EvPop PAUSED :: EvPush (Steps 3) :: ?b] => 
      exists (firstn (length tr - S (S (length b))) tr), b end end.
  split; [eassumption|]. split; [reflexivity|]. split; [simpl; auto|]. split; [reflexivity|].
  split; [reflexivity|].
  intros e w' St. inversion St; subst.
  - match goal with K : kstep _ _ _ |- _ => inversion K; subst; simpl in *; discriminate end.
  - match goal with K : vstep _ _ _ _ |- _ => inversion K; subst; simpl in *; discriminate end.
  - match goal with K : mstep _ _ _ _ |- _ => inversion K; subst; simpl in * end;
      assert (i = 0) by lia; subst; discriminate.
Qed.

(** pause() called just before the run completes raises RuntimeError: it receives DONE and
    PAUSED has not been sent yet. *)
Theorem pause_races_completion_refuted :
  exists tr w, wexec 1 tr w /\ kl w = KFail /\ count CSpk (ended 0 tr) = 1 /\
               (forall e, In e tr -> ~ self_req e /\ ~ raised e).
Proof.
  pose proof (wx_init 1) as W. unfold world0, sys0 in W.
  gok ltac:(apply (K_run _ _ _ 1 false)).
  gov V_start. spk. gov V_probe_no. gov V_host. gov V_send. gov V_sent_host. gobegin CHost. goend CHost.
  gov V_probe_no. gov V_end_done.
  gok ltac:(apply K_pause).
  gok ltac:(eapply K_pause_other).
  gok ltac:(apply K_pause_no).
  match goal with W : wexec 1 ?tr ?w |- _ => exists tr, w end.
  split; [eassumption|]. split; [reflexivity|]. split; [reflexivity|].
  simpl. intros e H. repeat (destruct H as [<-|H]; [simpl; auto|]). contradiction.
Qed.

(** stop() called just before a (non-blocking) run completes raises RuntimeError: it
    receives DONE and TERMINATED has not been sent yet. *)
Theorem stop_races_completion_refuted :
  exists tr w, wexec 1 tr w /\ kl w = KFail /\ In (EvPush Stop) tr /\
               (forall e, In e tr -> ~ self_req e /\ ~ raised e).
Proof.
  pose proof (wx_init 1) as W. unfold world0, sys0 in W.
  gok ltac:(apply (K_run _ _ _ 1 false)).
  gov V_start. spk. gov V_probe_no. gov V_host. gov V_send. gov V_sent_host. gobegin CHost. goend CHost.
  gov V_probe_no. gov V_end_done.
  gok ltac:(apply K_stop).
  gok ltac:(eapply K_stop_other).
  gok ltac:(apply K_stop_no).
  match goal with W : wexec 1 ?tr ?w |- _ => exists tr, w end.
  split; [eassumption|]. split; [reflexivity|]. split; [simpl; auto 40|].
  simpl. intros e H. repeat (destruct H as [<-|H]; [simpl; auto|]). contradiction.
Qed.

(** pause() that receives ERROR calls stop(), which waits for ever for an answer of the
    dead service: the error is never raised to the user. *)
Theorem pause_after_error_hangs_refuted :
  exists tr w, wexec 1 tr w /\ In (EvPop ERROR) tr /\ kl w = KStop /\ stuck 1 w.
Proof.
  pose proof (wx_init 1) as W. unfold world0, sys0 in W.
  gok ltac:(apply (K_run _ _ _ 5 false)).
  gov V_start. gov V_spk; gov V_send; gov V_sent; gobegin CSpk.
  fwd ltac:(apply w_m; eapply (M_end 1 _ 0 CSpk (mkO false false false false false true)); fin).
  gov V_recv; gov V_got; gov V_err. gov V_err_b. gov V_err_stop. gov V_err_end.
  gok ltac:(apply K_pause).
  gok ltac:(eapply K_pause_err).
  match goal with W : wexec 1 ?tr ?w |- _ => exists tr, w end.
  split; [eassumption|]. split; [simpl; auto 40|]. split; [reflexivity|].
  intros e w' St. inversion St; subst.
  - match goal with K : kstep _ _ _ |- _ => inversion K; subst; simpl in *; discriminate end.
  - match goal with K : vstep _ _ _ _ |- _ => inversion K; subst; simpl in *; discriminate end.
  - match goal with K : mstep _ _ _ _ |- _ => inversion K; subst; simpl in * end;
      assert (i = 0) by lia; subst; discriminate.
Qed.

(** *** Every execution of the client is an execution in the arbitrary environment, so all
    theorems about [exec] hold for it. *)
Theorem world_is_exec : forall N tr w, wexec N tr w -> exists tr', exec N tr' (sy w) /\
  (forall i, begun i tr' = begun i tr) /\ (forall i, ended i tr' = ended i tr) /\
  bcasts tr' = bcasts tr /\ said tr' = said tr /\ starts tr' = starts tr.
Proof.
  induction 1 as [|tr w e w' H IH St].
  - exists []. split; [constructor|auto].
  - destruct IH as (tr' & X & E1 & E2 & E3 & E4 & E5).
    assert (G : forall e s', step N (sy w) e s' -> exec N (ext tr' e) s') by (intros; econstructor; eauto).
    assert (K : forall e s', step N (sy w) e s' ->
       exists tr'', exec N tr'' s' /\
         (forall i, begun i tr'' = begun i (ext tr e)) /\ (forall i, ended i tr'' = ended i (ext tr e)) /\
         bcasts tr'' = bcasts (ext tr e) /\ said tr'' = said (ext tr e) /\ starts tr'' = starts (ext tr e)).
    { intros e0 s' S. exists (ext tr' e0). split; [apply G; auto|].
      destruct e0; simpl; auto. repeat split; intros;
        rewrite ?begun_app, ?ended_app, ?bcasts_app, ?said_app, ?starts_app; congruence. }
    destruct St as [w0 e w' Hk|s s' k r t e Hv|s s' k r t e Hm].
    + assert (P : forall c, step N (sy w0) (Some (EvPush c)) (psh (sy w0) c)) by (intros; apply st_e; constructor).
      assert (Q : forall d q, s2r (sy w0) = d :: q -> step N (sy w0) (Some (EvPop d)) (pop (sy w0) q)) by (intros; apply st_e; constructor; auto).
      destruct Hk; cbn [sy] in *; try (apply K; auto; fail); cbn [ext]; try (exists tr'; split; auto; fail).
      all: match goal with Hq : s2r ?s = ?d :: ?q |- context [psh (pop ?s ?q) ?c] =>
             specialize (Q d q Hq); exists ((tr' ++ [EvPop d]) ++ [EvPush c]); split;
             [apply (ex_step N _ (pop s q) (Some (EvPush c))); [apply (ex_step N _ s (Some (EvPop d))); auto|apply st_e; constructor]
             |rewrite ?bcasts_app, ?said_app, ?starts_app; repeat split; intros;
              rewrite ?begun_app, ?ended_app; simpl; rewrite ?app_nil_r; auto] end.
    + apply K. apply st_v. auto.
    + apply K. apply st_m. auto.
Qed.

Ltac vv c := match goal with W : exec 1 ?tr ?s |- _ =>
  let e := fresh in let s' := fresh in evar (e : option event); evar (s' : sys);
  let St := fresh in assert (St : vstep 1 s e s') by (subst e s'; eapply c; fin);
  let W' := fresh in pose proof (ex_step 1 _ _ _ _ W (st_v _ _ _ _ St)) as W'; subst e s'; clear W St;
  cbn [ext app psh pop set_sv set_svf say set_m r2s s2r s2p p2s mp ts sv nn cur fl] in W' end.
Ltac mm c := match goal with W : exec 1 ?tr ?s |- _ =>
  let e := fresh in let s' := fresh in evar (e : option event); evar (s' : sys);
  let St := fresh in assert (St : mstep 1 s e s') by (subst e s'; c; fin);
  let W' := fresh in pose proof (ex_step 1 _ _ _ _ W (st_m _ _ _ _ St)) as W'; subst e s'; clear W St;
  cbn [ext app psh pop set_sv set_svf say set_m r2s s2r s2p p2s mp ts sv nn cur fl] in W' end.
(** Hypotheses of the main theorems are met: a complete run of one time step. *)
Example run_exact_witness : exists a l s,
  exec 1 (a ++ EvStart 1 :: l ++ [EvResp DONE]) s /\ Forall (fun e => ~ is_start e) l /\
  benign (a ++ EvStart 1 :: l ++ [EvResp DONE]).
Proof.
  set (tr := [EvPush (Steps 1); EvStart 1; EvBcast CSpk; EvBegin 0 CSpk; EvEnd 0 CSpk (Some RDone);
              EvBcast CHost; EvBegin 0 CHost; EvEnd 0 CHost None; EvResp DONE]).
  assert (X : exists s, exec 1 tr s).
  { eexists. unfold tr.
    pose proof (ex_init 1) as W. unfold sys0 in W.
    assert (H1 := ex_step 1 _ _ _ _ W (st_e _ _ _ _ (E_push _ (Steps 1)))). clear W.
    cbn [ext app psh] in H1.
    vv V_start. vv V_spk. vv V_send. vv V_sent. mm ltac:(eapply (M_begin 1 _ 0 CSpk)). mm ltac:(eapply (M_end 1 _ 0 CSpk o0)).
    vv V_recv. vv V_got. vv V_ok. vv V_probe_no. vv V_host. vv V_send. vv V_sent_host.
    mm ltac:(eapply (M_begin 1 _ 0 CHost)). mm ltac:(eapply (M_end 1 _ 0 CHost o0)). vv V_probe_no. vv V_end_done. eassumption. }
  destruct X as [s X]. exists [EvPush (Steps 1)], (firstn 6 (skipn 2 tr)), s. split; [exact X|].
  split; [repeat constructor; simpl; auto|].
  split; [|split]; simpl; try (intro H; repeat (destruct H as [H|H]; try discriminate H); contradiction).
  intros e H. repeat (destruct H as [<-|H]; [simpl; auto|]). contradiction.
Qed.

Ltac ee c := match goal with W : exec 1 ?tr ?s |- _ =>
  let W' := fresh in pose proof (ex_step 1 _ _ _ _ W (st_e _ _ _ _ (E_push s c))) as W'; clear W;
  cbn [ext app psh pop set_sv set_svf say set_m r2s s2r s2p p2s mp ts sv nn cur fl] in W' end.
Ltac comp := match goal with W : exec 1 ?t ?x |- _ => let t' := eval vm_compute in t in change (exec 1 t' x) in W end.

(** A run of 2 steps paused by the network itself after the first step, then PAUSE: the
    hypotheses of [resume_completes_partial] are met. *)
Example resume_witness : exists tr s, exec 1 tr s /\ disciplined tr /\ idle tr /\
  In (EvPush Pause) tr /\ In (EvResp PAUSED) tr /\ count CSpk (ended 0 tr) = 1.
Proof.
  pose proof (ex_init 1) as W. unfold sys0 in W.
  ee (Steps 2). vv V_start. vv V_spk. vv V_send. vv V_sent. mm ltac:(eapply (M_begin 1 _ 0 CSpk)).
  mm ltac:(eapply (M_end 1 _ 0 CSpk (mkO false false false true false false))).
  vv V_recv. vv V_got. vv V_ok. vv V_probe_no. vv V_req_pause. vv V_end_quiet.
  comp. ee Pause. vv V_pause. vv V_send. vv V_sent. mm ltac:(eapply (M_begin 1 _ 0 CPause)). mm ltac:(eapply (M_end 1 _ 0 CPause o0)).
  vv V_recv. vv V_paused. comp.
  match goal with W : exec 1 ?tr ?s |- _ => exists tr, s; split; [exact W|] end.
  split; [|split; [|split; [|split]]]; [|split; simpl; auto|simpl; auto 20|simpl; auto 20|reflexivity].
  split; [|split; [|split]].
  - intros a b E.
    assert (A : a = [EvPush (Steps 2); EvStart 2; EvBcast CSpk; EvBegin 0 CSpk; EvEnd 0 CSpk (Some RReqPause); EvResp REQ_PAUSE]).
    { repeat (destruct a as [|? a]; simpl in E; [discriminate E || (injection E; intros; subst; auto)|injection E as <- E]);
        try reflexivity; try discriminate. destruct a; discriminate. }
    subst a. split; simpl; auto.
  - simpl. intro H. repeat (destruct H as [H|H]; try discriminate H). contradiction.
  - simpl. intros e H. repeat (destruct H as [<-|H]; [simpl; auto|]). contradiction.
  - simpl. intros i c H. repeat (destruct H as [H|H]; try discriminate H). contradiction.
Qed.

(** A process raises in its first time step while another time step was requested: the
    hypotheses of [error_no_more_phases] and [error_reported] are met. *)
Example error_witness : exists tr s, exec 1 tr s /\ exists e, In e tr /\ raised e.
Proof.
  pose proof (ex_init 1) as W. unfold sys0 in W.
  ee (Steps 2). vv V_start. vv V_spk. vv V_send. vv V_sent. mm ltac:(eapply (M_begin 1 _ 0 CSpk)).
  mm ltac:(eapply (M_end 1 _ 0 CSpk (mkO false false false false false true))). comp.
  match goal with W : exec 1 ?tr ?s |- _ => exists tr, s; split; [exact W|] end.
  exists (EvEnd 0 CSpk (Some RErr)). simpl. auto 20.
Qed.

(** STOP pushed in the middle of a run of 3 steps and acknowledged: the hypotheses of the
    termination theorems are met. *)
Example stop_witness : exists tr s, exec 1 tr s /\ In (EvPush Stop) tr /\ In TERMINATED (said tr) /\
  count CSpk (ended 0 tr) = 1.
Proof.
  pose proof (ex_init 1) as W. unfold sys0 in W.
  ee (Steps 3). vv V_start. vv V_spk. vv V_send. vv V_sent. mm ltac:(eapply (M_begin 1 _ 0 CSpk)).
  mm ltac:(eapply (M_end 1 _ 0 CSpk o0)). comp. ee Stop.
  vv V_recv. vv V_got. vv V_ok. vv V_probe_yes. vv V_req_stop. comp. vv V_end_quiet.
  vv V_stop. vv V_send. vv V_sent. mm ltac:(eapply (M_begin 1 _ 0 CStop)). mm ltac:(eapply (M_end 1 _ 0 CStop o0)).
  vv V_recv. vv V_stopped. comp.
  match goal with W : exec 1 ?tr ?s |- _ => exists tr, s; split; [exact W|] end.
  split; [simpl; auto 20|]. split; [simpl; auto|reflexivity].
Qed.
