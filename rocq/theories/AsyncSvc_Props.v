(** C86: asynchronous processes answer to run, wait, pause, stop and get. *)
From Coq Require Import ZArith List Bool Arith Lia.
From Verif Require Import AsyncSvc_Model AsyncSvc_Spec AsyncSvc_Proofs AsyncSvc_Inv AsyncSvc_Live.
Import ListNotations.
Open Scope Z_scope.

(** Whatever the schedule, a history of calls never gets stuck: as long as it is not over, with
    every call having returned what it should and every process having made exactly the runs of
    the history (and being terminated, if the history stops it), something can happen. *)
Theorem async_calls_complete_partial : forall N beh value segs e n s,
  served N beh segs e -> reach N beh value (history segs e) n s ->
  (exists s', step N beh value s s') \/ (completed value segs e s /\ settled N segs e s).
Proof. intros N beh value segs e n s SV R. eapply inv_progress; eauto. eapply inv_reach; eauto. Qed.

(** ... and it does end: no execution is longer than a bound given by the history. *)
Theorem async_calls_terminate : forall N beh value segs e,
  served N beh segs e ->
  exists B, forall n s, reach N beh value (history segs e) n s -> (n <= B)%nat.
Proof.
  intros N beh value segs e SV. exists (mu N (init (history segs e))). intros n s R.
  pose proof (reach_bound _ _ _ _ _ SV n s R). lia.
Qed.

(** When a call has returned, all its effects are there: between two calls every process rests,
    having made exactly the runs so far, and no message is under way. *)
Theorem async_calls_synchronise : forall N beh value segs e done rest n s,
  served N beh segs e -> segs = done ++ rest -> rest <> [] ->
  reach N beh value (history segs e) n s ->
  rpos s = RReady -> results s = results_of value done ->
  r2s s = [] /\ s2r s = [] /\
  forall i, (i < N)%nat -> procs s i = {| inq := []; outq := []; ppos := PIdle; log := runs_of done |}.
Proof.
  intros N beh value segs e done rest n s SV E Hne R Hr Hs.
  exact (inv_between _ _ _ _ _ SV done rest s (inv_reach _ _ _ _ _ SV _ _ R) Hr E Hs Hne).
Qed.

(** ** Concrete executions *)
Inductive choice := CR | CS (b : bool) | CP (i : nat).
Definition do (N : nat) beh value (c : choice) (s : sys) : option sys :=
  match c with
  | CR => rstep s
  | CS b => sstep N b s
  | CP i => if (i <? N)%nat then
              match pstep (beh i) (value i) (procs s i) with
              | Some p => Some (set_sv s (r2s s) (s2r s) (sv s) (upd (procs s) i p)) | None => None end
            else None
  end.
Fixpoint play N beh value (cs : list choice) (s : sys) : option sys :=
  match cs with [] => Some s | c :: r =>
    match do N beh value c s with Some s' => play N beh value r s' | None => None end end.
Lemma do_step N beh value c s s' : do N beh value c s = Some s' -> step N beh value s s'.
Proof.
  destruct c; unfold do; intros H.
  - now apply St_rt.
  - eapply St_sv; eauto.
  - destruct (Nat.ltb_spec i N); [|discriminate H].
    destruct (pstep (beh i) (value i) (procs s i)) eqn:E; [|discriminate H]. injection H as <-.
    now apply St_proc.
Qed.
Lemma play_reach N beh value sc cs : forall k s s', reach N beh value sc k s ->
  play N beh value cs s = Some s' -> exists k', reach N beh value sc k' s'.
Proof.
  induction cs as [|c cs IH]; cbn; intros k s s' R H.
  - injection H as <-. eauto.
  - destruct (do N beh value c s) as [s1|] eqn:E; [|discriminate H].
    apply (IH (S k) s1); [|exact H]. econstructor; [exact R|]. eapply do_step; eauto.
Qed.
Lemma play_check N beh value sc cs (P : sys -> bool) :
  match play N beh value cs (init sc) with Some s => P s | None => false end = true ->
  exists k s, reach N beh value sc k s /\ P s = true.
Proof.
  intros H. destruct (play N beh value cs (init sc)) as [s|] eqn:E; [|discriminate H].
  destruct (play_reach _ _ _ _ _ _ _ _ (Re_init N beh value sc) E) as [k R]. eauto.
Qed.

(** nothing can happen *)
Definition none {A} (o : option A) : bool := match o with None => true | Some _ => false end.
Definition stuckb N (beh : nat -> nat -> Z -> behave) (value : nat -> list Z -> Z) (s : sys) : bool :=
  none (rstep s) && none (sstep N true s) && none (sstep N false s) &&
  forallb (fun i => none (pstep (beh i) (value i) (procs s i))) (seq 0 N).
Lemma stuckb_stuck N beh value s : stuckb N beh value s = true -> forall s', ~ step N beh value s s'.
Proof.
  unfold stuckb. intros H s' St. apply andb_prop in H. destruct H as [H H4].
  apply andb_prop in H. destruct H as [H H3]. apply andb_prop in H. destruct H as [H1 H2].
  destruct St as [s' E|b s' E|i p' Hi E].
  - rewrite E in H1. discriminate H1.
  - destruct b; rewrite E in *; [discriminate H2|discriminate H3].
  - rewrite forallb_forall in H4. specialize (H4 i). rewrite E in H4. discriminate H4. apply in_seq. lia.
Qed.

Definition plain : behave := {| until := Free; asks := AskNothing |}.
Definition nruns (_ : nat) (l : list Z) : Z := Z.of_nat (length l).

(** A history with all kinds of calls that is served: two processes, three runs. *)
Definition demo_beh (i k : nat) (n : Z) : behave :=
  match k with
  | 2%nat => {| until := UntilPause; asks := AskNothing |}
  | 3%nat => {| until := Free; asks := if (i =? 1)%nat then AskStop else AskNothing |}
  | _ => plain
  end.
Definition demo : list seg :=
  [SegRun 4; SegIdlePause; SegGet 1; SegRunWait 2; SegIdleWait; SegCont 7; SegGet 0].
Example demo_served : served 2 demo_beh demo (EndAskStop 1).
Proof.
  split; [lia|]. split.
  - cbn. unfold all_do. cbn. repeat apply conj; auto; try lia; try discriminate.
  - cbn. unfold some_ask. cbn. split; [lia|]. split.
    + intros i Hi. split; [reflexivity|]. destruct (i =? 1)%nat; auto.
    + exists 1%nat. cbn. auto.
Qed.
Example demo_results : results_of nruns demo ++ end_results (EndAskStop 1) =
  [Returned; Returned; Value [1]; Returned; Returned; Returned; Returned; Returned; Value [3]; Returned].
Proof. reflexivity. Qed.
Example demo_served_stop : served 3 (fun _ _ _ => {| until := UntilStop; asks := AskNothing |}) [] (EndContStop 9).
Proof. split; [lia|]. cbn. unfold all_do. cbn. split; [exact I|]. split; [lia|auto]. Qed.
Example demo_served_pause : served 1 (fun _ _ _ => {| until := Free; asks := AskPause |}) [] (EndAskPauseStop 9).
Proof.
  split; [lia|]. split; [exact I|]. split; [lia|]. split; [intros; cbn; auto|]. exists 0%nat. cbn. auto.
Qed.

(** ** What does not hold *)

(** stop() can hang for ever: when one process has finished its run and another one runs until
    told to stop, the service, collecting the responses in order, never passes the command on. *)
Definition mixed (i : nat) (_ : nat) (_ : Z) : behave :=
  if (i =? 0)%nat then plain else {| until := UntilStop; asks := AskNothing |}.
Theorem async_stop_hangs_refuted :
  exists k s, reach 2 mixed nruns [ORun 5 false; OStop] k s /\
    rpos s = RStop /\ results s = [Returned] /\ (forall s', ~ step 2 mixed nruns s s').
Proof.
  destruct (play_check 2 mixed nruns [ORun 5 false; OStop]
    [CR; CS false; CP 0; CP 0; CP 0; CP 1; CP 1; CS true; CR; CS false]
    (fun s => match rpos s, results s with RStop, [Returned] => stuckb 2 mixed nruns s | _, _ => false end))
    as (k & s & R & P); [vm_compute; reflexivity|].
  exists k, s. destruct (rpos s); try discriminate P. destruct (results s) as [|[| | |] [|]]; try discriminate P.
  repeat apply conj; auto. now apply stuckb_stuck.
Qed.

(** The same with pause(). *)
Definition mixed_pause (i : nat) (_ : nat) (_ : Z) : behave :=
  if (i =? 0)%nat then plain else {| until := UntilPause; asks := AskNothing |}.
Theorem async_pause_hangs_refuted :
  exists k s, reach 2 mixed_pause nruns [ORun 5 false; OPause] k s /\
    rpos s = RPause /\ results s = [Returned] /\ (forall s', ~ step 2 mixed_pause nruns s s').
Proof.
  destruct (play_check 2 mixed_pause nruns [ORun 5 false; OPause]
    [CR; CS false; CP 0; CP 0; CP 0; CP 1; CP 1; CS true; CR; CS false]
    (fun s => match rpos s, results s with RPause, [Returned] => stuckb 2 mixed_pause nruns s | _, _ => false end))
    as (k & s & R & P); [vm_compute; reflexivity|].
  exists k, s. destruct (rpos s); try discriminate P. destruct (results s) as [|[| | |] [|]]; try discriminate P.
  repeat apply conj; auto. now apply stuckb_stuck.
Qed.

(** A request to pause is repeated after every later run: get() then takes the stale request for
    the number of items and returns no data, and the next run raises. *)
Definition once_pause (_ k : nat) (_ : Z) : behave :=
  match k with O => {| until := Free; asks := AskPause |} | _ => plain end.
Theorem async_pause_request_sticks_refuted :
  exists k s, reach 1 once_pause nruns [ORun 1 true; ORun 1 true; OGet 0; ORun 1 true] k s /\
    rpos s = RRaised /\ results s = [Returned; Returned; Value []; Raised].
Proof.
  destruct (play_check 1 once_pause nruns [ORun 1 true; ORun 1 true; OGet 0; ORun 1 true]
    [CR; CS false; CP 0; CP 0; CP 0; CS true; CS false; CS false; CR; CS false; CP 0; CS false; CS false; CR;
     CR; CS false; CP 0; CP 0; CP 0; CS true; CS false; CS false; CR;
     CR; CS false; CS false; CS false; CP 0; CP 0; CS false; CS false; CR; CR; CR]
    (fun s => match rpos s, results s with RRaised, [Returned; Returned; Value []; Raised] => true | _, _ => false end))
    as (k & s & R & P); [vm_compute; reflexivity|].
  exists k, s. split; [exact R|]. destruct (rpos s); try discriminate P. split; [reflexivity|].
  destruct (results s) as [|[| | |] [|[| | |] [|[|[|]| |] [|[| | |] [|]]]]]; try discriminate P. reflexivity.
Qed.

(** stop() after a non-blocking run which has just finished may raise instead of stopping. *)
Theorem async_stop_raises_refuted :
  exists k s, reach 1 (fun _ _ _ => plain) nruns [ORun 3 false; OStop] k s /\
    rpos s = RRaised /\ ppos (procs s 0%nat) = PIdle /\ spos (sv s) = SSelect.
Proof.
  destruct (play_check 1 (fun _ _ _ => plain) nruns [ORun 3 false; OStop]
    [CR; CS false; CP 0; CP 0; CP 0; CS true; CS false; CS false; CR; CR; CR]
    (fun s => match rpos s, ppos (procs s 0%nat), spos (sv s) with RRaised, PIdle, SSelect => true | _, _, _ => false end))
    as (k & s & R & P); [vm_compute; reflexivity|].
  exists k, s. split; [exact R|].
  destruct (rpos s); try discriminate P. destruct (ppos (procs s 0%nat)); try discriminate P.
  destruct (spos (sv s)); try discriminate P. auto.
Qed.

(** Two processes, one asking to stop and the other to pause: run() may raise, with nothing
    stopped. *)
Definition both (i : nat) (_ : nat) (_ : Z) : behave :=
  {| until := Free; asks := if (i =? 0)%nat then AskStop else AskPause |}.
Theorem async_two_requests_refuted :
  exists k s, reach 2 both nruns [ORun 3 true] k s /\
    rpos s = RRaised /\ results s = [Raised] /\
    ppos (procs s 0%nat) = PIdle /\ ppos (procs s 1%nat) = PIdle.
Proof.
  destruct (play_check 2 both nruns [ORun 3 true]
    [CR; CS false; CP 0; CP 0; CP 0; CP 1; CP 1; CP 1; CS true; CS false; CS false; CS false; CR; CR; CR]
    (fun s => match rpos s, results s, ppos (procs s 0%nat), ppos (procs s 1%nat) with
              | RRaised, [Raised], PIdle, PIdle => true | _, _, _, _ => false end))
    as (k & s & R & P); [vm_compute; reflexivity|].
  exists k, s. split; [exact R|].
  destruct (rpos s); try discriminate P. destruct (results s) as [|[| | |] [|]]; try discriminate P.
  destruct (ppos (procs s 0%nat)); try discriminate P.
  destruct (ppos (procs s 1%nat)); try discriminate P. auto.
Qed.
