(** Concrete cases for C102: the hypotheses of the theorems are met, and runs that reach the results. *)
From Coq Require Import List Bool Arith Lia.
From Verif Require Import Startup_Model Startup_Spec Startup_Proofs Startup_Props Startup_Props2.
Import ListNotations.

Definition value_error := mkExc 1 true true true true.
Definition local_class := mkExc 2 false false true true.      (* an exception of a class defined in a function *)
Definition two_args := mkExc 3 true false true true.          (* __init__ takes two arguments, args holds one *)
Definition huge := mkExc 4 true true false true.              (* carries a large array *)
Definition empty_falsy := mkExc 5 true true true false.       (* defines __len__, 0 *)

Definition ok d := mkPm d BOk CFine.
Definition bad d e := mkPm d BOk (CRaise e).

Ltac all_in := intros ? H; cbn in H; repeat (destruct H as [<-|H]); try contradiction; cbn; try lia; try reflexivity.

(** two domains, everything fine *)
Definition fine : program := mkProgram [ok 0; ok 1; ok 0] 2.
Example fine_wf : WellFormed fine. Proof. split; [cbn; lia|all_in]. Qed.
Example fine_runs : RunGives fine Returned.
Proof. apply fine_run_and_stop; [exact fine_wf|all_in|all_in]. Qed.

(** one domain, the second process raises *)
Definition one_bad : program := mkProgram [ok 0; bad 0 value_error] 1.
Example one_bad_wf : WellFormed one_bad. Proof. split; [cbn; lia|all_in]. Qed.
Example one_bad_errs : forall d, d < ndom one_bad -> DomainErrs one_bad d.
Proof.
  intros d Hd. cbn in Hd. assert (d = 0) as -> by lia. split.
  - exists (bad 0 value_error), value_error. cbn. auto.
  - intros p H _. cbn in H. destruct H as [<-|[<-|[]]]; split; discriminate.
Qed.
Example one_bad_fails : RunGives one_bad (Failed 1).
Proof.
  apply (errors_reported_partial one_bad); [exact one_bad_wf|all_in| |exact one_bad_errs].
  intros p e H. cbn in H. destruct H as [<-|[<-|[]]]; cbn; intros E; [discriminate|]. injection E as <-. intros _. split; reflexivity.
Qed.

(** a run of it to the end: RuntimeError("1 Exception(s) occurred"); stop() then waits for ever *)
Example one_bad_run : exists s, reach one_bad s /\ run_result s = Some (Failed 1).
Proof.
  eexists. split.
  - eapply r_step. eapply r_step. eapply r_step. eapply r_step. eapply r_step. eapply r_step. eapply r_step. eapply r_step.
    eapply r_step. eapply r_step. eapply r_step. eapply r_step. eapply r_step. eapply r_step. eapply r_step. eapply r_step.
    apply r_init.
    + eapply (s_built _ _ 0); reflexivity.
    + eapply (s_built _ _ 1); reflexivity.
    + eapply (s_sbuilt _ _ 0); [cbn; lia|reflexivity].
    + eapply (k_none _ _ 0); [reflexivity|cbn; lia|reflexivity].
    + eapply (k_none _ _ 1); [reflexivity|cbn; lia|reflexivity].
    + eapply (k_none _ _ 2); [reflexivity|cbn; lia|reflexivity].
    + eapply k_start; reflexivity.
    + eapply (s_raise _ _ 1); reflexivity.
    + eapply (s_resp _ _ 0); [cbn; lia|reflexivity|reflexivity|reflexivity].
    + eapply (k_error _ _ 0); [cbn; lia|reflexivity|reflexivity].
    + eapply (s_exit_pm _ _ 0); reflexivity.
    + eapply (s_exit_svc _ _ 0); [cbn; lia|reflexivity|reflexivity].
    + eapply (k_join_none _ _ 0); [reflexivity|cbn; lia|reflexivity].
    + eapply (k_join_exc _ _ 1); [reflexivity|cbn; lia|reflexivity|reflexivity].
    + eapply (k_join_none _ _ 2); [reflexivity|cbn; lia|reflexivity].
    + eapply k_failed; reflexivity.
  - reflexivity.
Qed.

(** two domains, one of them is fine: run() is never over *)
Definition two_domains : program := mkProgram [bad 0 value_error; ok 1] 2.
Lemma travel_ok : Travels value_error. Proof. intros _. split; reflexivity. Qed.
Example two_domains_hang : RunHangs two_domains.
Proof.
  apply error_elsewhere_hangs.
  - split; [cbn; lia|all_in].
  - all_in.
  - intros p e H. cbn in H. destruct H as [<-|[<-|[]]]; cbn; intros E; [|discriminate]. injection E as <-. exact travel_ok.
  - exists (bad 0 value_error). split; [left; reflexivity|discriminate].
  - exists 1. split; [cbn; lia|]. intros [(p & e & H & Hd & Hc) _]. cbn in H. destruct H as [<-|[<-|[]]]; discriminate.
Qed.

(** a consumer that waits for data of the process that has raised *)
Definition producer_consumer : program := mkProgram [bad 0 value_error; mkPm 0 BOk CBlocked] 1.
Example producer_consumer_hangs : RunHangs producer_consumer.
Proof.
  apply error_elsewhere_hangs.
  - split; [cbn; lia|all_in].
  - all_in.
  - intros p e H. cbn in H. destruct H as [<-|[<-|[]]]; cbn; intros E; [|discriminate]. injection E as <-. exact travel_ok.
  - exists (bad 0 value_error). split; [left; reflexivity|discriminate].
  - exists 0. split; [cbn; lia|]. intros [_ H]. destruct (H (mkPm 0 BOk CBlocked)) as [_ X]; [right; left; reflexivity|reflexivity|now apply X].
Qed.

(** an exception that cannot be pickled is not counted: "0 Exception(s) occurred" *)
Definition silent_error : program := mkProgram [bad 0 local_class] 1.
Example silent_error_fails : RunGives silent_error (Failed 0).
Proof.
  apply (errors_reported_partial silent_error).
  - split; [cbn; lia|all_in].
  - all_in.
  - intros p e H. cbn in H. destruct H as [<-|[]]; cbn; intros E; injection E as <-. intros X. discriminate.
  - intros d Hd. cbn in Hd. assert (d = 0) as -> by lia. split.
    + exists (bad 0 local_class), local_class. cbn. auto.
    + intros p H _. cbn in H. destruct H as [<-|[]]; split; discriminate.
Qed.

Definition unreadable : program := mkProgram [bad 0 two_args; ok 0] 1.
Example unreadable_broken : RunGives unreadable JoinBroken.
Proof.
  apply (unreadable_error_replaced unreadable (bad 0 two_args) two_args); try reflexivity; [split; [cbn; lia|all_in]|all_in| | |left; reflexivity].
  - intros p e H. cbn in H. destruct H as [<-|[<-|[]]]; cbn; intros E; [|discriminate]. injection E as <-. reflexivity.
  - intros d Hd. cbn in Hd. assert (d = 0) as -> by lia. split.
    + exists (bad 0 two_args), two_args. cbn. auto.
    + intros p H _. cbn in H. destruct H as [<-|[<-|[]]]; split; discriminate.
Qed.

Example huge_hangs : RunHangs (mkProgram [bad 0 huge] 1).
Proof.
  apply (large_error_hangs _ (bad 0 huge) huge); try reflexivity; [split; [cbn; lia|all_in]|all_in| |left; reflexivity].
  intros p e H. cbn in H. destruct H as [<-|[]]; cbn; intros E; injection E as <-. reflexivity.
Qed.

(** constructors *)
Definition ctor e : program := mkProgram [ok 0; mkPm 0 (BRaise e) CFine; ok 1] 2.
Lemma ctor_before : forall e, BuiltBefore (ctor e) 1.
Proof. intros e j q Hj Hq. assert (j = 0) as -> by lia. injection Hq as <-. reflexivity. Qed.
Example ctor_reported : RunGives (ctor value_error) (StartError value_error).
Proof. eapply (constructor_error_reported (ctor value_error) 1); try reflexivity. apply ctor_before. Qed.
Example ctor_unreadable : RunGives (ctor two_args) StartBroken.
Proof. eapply (constructor_error_replaced (ctor two_args) 1 _ two_args); try reflexivity. apply ctor_before. Qed.
Example ctor_unpicklable : RunHangs (ctor local_class).
Proof. eapply (constructor_failure_hangs (ctor local_class) 1); [reflexivity|apply ctor_before|]. right. right. exists local_class. split; reflexivity. Qed.
Example ctor_exit : RunHangs (mkProgram [mkPm 0 BDies CFine] 1).
Proof. eapply (constructor_failure_hangs _ 0); [reflexivity| |now left]. intros j q Hj. lia. Qed.

(** a start that has failed is reachable, so the theorem on stop() speaks about something *)
Example ctor_run : exists s, reach (ctor value_error) s /\ run_result s = Some (StartError value_error).
Proof.
  eexists. split.
  - eapply r_step. eapply r_step. eapply r_step. eapply r_step. apply r_init.
    + eapply (s_bexc _ _ 1); reflexivity.
    + eapply (s_built _ _ 0); reflexivity.
    + eapply (k_none _ _ 0); [reflexivity|cbn; unfold nact; cbn; lia|reflexivity].
    + eapply (k_raise _ _ 1); try reflexivity. unfold nact; cbn; lia.
  - reflexivity.
Qed.
(** an exception that is false passes the check of initialize: the run starts without that process *)
Example falsy_passes : exists s, reach (ctor empty_falsy) s /\ cl s = KWait /\ act s 1 = Gone (Some empty_falsy).
Proof.
  eexists. split.
  - eapply r_step. eapply r_step. eapply r_step. eapply r_step. eapply r_step. eapply r_step. eapply r_step. eapply r_step.
    eapply r_step. eapply r_step. eapply r_step. apply r_init.
    + eapply (s_bexc _ _ 1); reflexivity.
    + eapply (s_built _ _ 0); reflexivity.
    + eapply (s_built _ _ 2); reflexivity.
    + eapply (s_sbuilt _ _ 0); [cbn; lia|reflexivity].
    + eapply (s_sbuilt _ _ 1); [cbn; lia|reflexivity].
    + eapply (k_none _ _ 0); [reflexivity|unfold nact; cbn; lia|reflexivity].
    + eapply (k_falsy _ _ 1); try reflexivity. unfold nact; cbn; lia.
    + eapply (k_none _ _ 2); [reflexivity|unfold nact; cbn; lia|reflexivity].
    + eapply (k_none _ _ 3); [reflexivity|unfold nact; cbn; lia|reflexivity].
    + eapply (k_none _ _ 4); [reflexivity|unfold nact; cbn; lia|reflexivity].
    + eapply k_start; reflexivity.
  - split; reflexivity.
Qed.
