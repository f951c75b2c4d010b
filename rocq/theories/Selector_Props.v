(** C05: CspSelector.select. *)
From Coq Require Import List Arith Lia Bool.
From Verif Require Import Base Selector_Model.
Import ListNotations.

(** Specification: the probes and results of select() itself, other events removed. *)
Fixpoint own_events (tr : list sevent) : list sevent :=
  match tr with
  | [] => []
  | (EvRecv _ | EvSent _) :: r => own_events r
  | e :: r => e :: own_events r
  end.

Lemma own_app a b : own_events (a ++ b) = own_events a ++ own_events b.
Proof. induction a as [|[] a IH]; simpl; rewrite ?IH; auto. Qed.

Definition noes (k : nat) : list sevent := map (fun j => EvProbe j false) (seq 0 k).

Lemma noes_S k : noes (S k) = noes k ++ [EvProbe k false].
Proof. unfold noes. rewrite seq_S, map_app. reflexivity. Qed.


Section P.
  Variables n size : nat.

  Definition scan_inv (tr : list sevent) (s : sst) : Prop :=
    match sel s with
    | Scan k => k <= n /\ exists p, own_events tr = p ++ noes k
    | Clear r k => r < n /\ k <= n /\ 0 < qn s r /\ exists p, own_events tr = p ++ noes r ++ [EvProbe r true]
    | SetObs k => k <= n
    | _ => True
    end.

  Lemma scan_inv_ok tr s : selexec n size tr s -> scan_inv tr s.
  Proof.
    induction 1 as [|tr s s' H IH St|tr s e s' H IH St]; [exact Logic.I| |].
    - inversion St as [i ? ? Hi T|? ? ? L|? ? ? E]; subst.
      + destruct T; unfold scan_inv in *; simpl in *; auto.
        * destruct s; auto. destruct IH as (A & B & C & D). repeat split; auto.
          destruct (Nat.eq_dec r i); [subst; rewrite fupd_same; lia|rewrite fupd_other; auto].
        * destruct H1 as [-> | [-> | ->]]; auto.
      + inversion L; subst; unfold scan_inv in *; simpl in *; auto; try lia.
        * split; [lia|]. exists (own_events tr). simpl. rewrite app_nil_r; auto.
        * split; [lia|]. exists (own_events tr). simpl. rewrite app_nil_r; auto.
        * intuition lia.
      + inversion E.
    - inversion St as [i ? ? Hi T|? ? ? L|? ? ? E]; subst.
      + inversion L; subst; unfold scan_inv in *; simpl in *; auto; try lia.
        * destruct IH as (_ & p & E). split; [lia|]. exists p.
          rewrite own_app, E, noes_S, app_assoc. reflexivity.
        * destruct IH as (_ & p & E). repeat (split; [lia|]). exists p.
          rewrite own_app, E, app_assoc. reflexivity.
      + inversion E; subst. unfold scan_inv in *; simpl in *.
        destruct s0; auto; rewrite own_app; simpl; rewrite app_nil_r; auto.
  Qed.

  (** C05, soundness and priority: when select() runs the action of channel [r], that channel
      is ready, and in its final scan every channel listed before [r] was found not ready. *)
  Theorem select_sound : forall tr s r s', selexec n size tr s ->
    selstep n size s (Some (EvSelected r)) s' ->
    r < n /\ 0 < qn s r /\ exists p, own_events tr = p ++ noes r ++ [EvProbe r true].
  Proof.
    intros tr s r s' H St. apply scan_inv_ok in H.
    inversion St as [i ? ? Hi T|? ? ? L|? ? ? E]; subst; [inversion L|inversion E]; subst.
    unfold scan_inv in H; simpl in *. tauto.
  Qed.

  (** Observers are set while the selector scans or waits. *)
  Definition obs_inv (s : sst) : Prop :=
    match sel s with
    | SetObs k => forall i, i < k -> obs s i = true
    | Scan _ | Waiting | Woken => forall i, i < n -> obs s i = true
    | _ => True
    end.

  Lemma obs_inv_ok tr s : selexec n size tr s -> obs_inv s.
  Proof.
    induction 1 as [|tr s s' H IH St|tr s e s' H IH St]; [exact Logic.I| |];
      (inversion St as [i ? ? Hi T|? ? ? L|? ? ? E]; subst;
       [ destruct T; unfold obs_inv in *; simpl in *; auto; destruct H1 as [-> | [-> | ->]]; auto
       | inversion L; subst; unfold obs_inv in *; simpl in *; auto
       | inversion E; subst; unfold obs_inv in *; simpl in *; auto ]) ||
      (inversion St as [i ? ? Hi T|? ? ? L|? ? ? E]; subst;
       [ inversion L; subst; unfold obs_inv in *; simpl in *; auto
       | inversion E; subst; unfold obs_inv in *; simpl in *; auto ]).
    - intros j Hj. destruct (Nat.eq_dec j k); [subst; apply fupd_same|].
      rewrite fupd_other by auto. apply IH. lia.
    - intros j Hj. lia.
  Qed.
End P.

(** With capacity 1, a sleeping select() never misses a ready channel. *)
Section SizeOne.
  Variable n : nat.

  Definition notifying (p : tpc) : Prop :=
    match p with TPut false | TTested | TCall => True | _ => False end.

  Record inv1 (s : sst) : Prop := {
    j_cap : forall i, i < n -> tok s i + busy (th s i) + qn s i <= 1;
    j_ne : forall i, i < n -> th s i <> TProbed true /\ th s i <> TPut true;
    j_wait : forall i, i < n -> 0 < qn s i ->
       match sel s with Scan k => i < k | Waiting => True | _ => False end ->
       notifying (th s i) }.

  Lemma inv1_ok tr s : selexec n 1 tr s -> inv1 s.
  Proof.
    induction 1 as [|tr s s' H IH St|tr s e s' H IH St].
    - constructor; simpl; intros; try lia. split; discriminate.
    - pose proof (obs_inv_ok _ _ _ _ H) as O. pose proof (scan_inv_ok _ _ _ _ H) as K.
      inversion St as [i ? ? Hi T|? ? ? L|? ? ? E]; subst; [| |inversion E].
      + destruct IH as [A B C]. inversion T; subst; simpl in *.
        * constructor; simpl; intros j Hj.
          -- destruct (Nat.eq_dec j i); [subst; rewrite !fupd_same; simpl; specialize (A i Hi); rewrite H1 in A; lia|].
             rewrite !fupd_other by auto. auto.
          -- destruct (Nat.eq_dec j i); [subst; rewrite !fupd_same; split; discriminate|rewrite !fupd_other by auto; auto].
          -- destruct (Nat.eq_dec j i); [subst|rewrite !fupd_other by auto; auto].
             intros Q _. specialize (A i Hi). rewrite H1 in A. lia.
        * constructor; simpl; intros j Hj.
          -- destruct (Nat.eq_dec j i); [subst; rewrite !fupd_same; simpl; specialize (A i Hi); rewrite H0 in A; simpl in A; lia|].
             rewrite !fupd_other by auto. auto.
          -- destruct (Nat.eq_dec j i); [subst; rewrite !fupd_same|rewrite !fupd_other by auto; auto].
             specialize (A i Hi). rewrite H0 in A. simpl in A.
             destruct (q i); [|lia]. simpl. split; discriminate.
          -- destruct (Nat.eq_dec j i); [subst|rewrite !fupd_other by auto; auto].
             specialize (A i Hi). rewrite H0 in A. simpl in A. lia.
        * destruct ne; [exfalso; destruct (B i Hi); congruence|].
          constructor; simpl; intros j Hj.
          -- destruct (Nat.eq_dec j i); [subst; rewrite !fupd_same; simpl; specialize (A i Hi); rewrite H0 in A; simpl in A; lia|].
             rewrite !fupd_other by auto. auto.
          -- destruct (Nat.eq_dec j i); [subst; rewrite !fupd_same; split; discriminate|rewrite !fupd_other by auto; auto].
          -- destruct (Nat.eq_dec j i); [subst; rewrite !fupd_same; simpl; auto|rewrite !fupd_other by auto; auto].
        * destruct ne; [exfalso; destruct (B i Hi); congruence|].
          constructor; simpl; intros j Hj.
          -- destruct (Nat.eq_dec j i); [subst; rewrite !fupd_same|rewrite !fupd_other by auto; auto].
             specialize (A i Hi). rewrite H0 in A. simpl in A. destruct (o i); simpl; lia.
          -- destruct (Nat.eq_dec j i); [subst; rewrite !fupd_same; destruct (o i); split; discriminate|rewrite !fupd_other by auto; auto].
          -- destruct (Nat.eq_dec j i); [subst; rewrite !fupd_same|rewrite !fupd_other by auto; auto].
             intros Q W. assert (o i = true) as ->; [|simpl; auto].
             unfold obs_inv in O; simpl in O. destruct s0; try contradiction; apply O; auto.
        * constructor; simpl; intros j Hj.
          -- destruct (Nat.eq_dec j i); [subst; rewrite !fupd_same|rewrite !fupd_other by auto; auto].
             specialize (A i Hi). rewrite H0 in A. simpl in A. destruct (o i); simpl; lia.
          -- destruct (Nat.eq_dec j i); [subst; rewrite !fupd_same; destruct (o i); split; discriminate|rewrite !fupd_other by auto; auto].
          -- destruct (Nat.eq_dec j i); [subst; rewrite !fupd_same|rewrite !fupd_other by auto; auto].
             intros Q W. assert (o i = true) as ->; [|simpl; auto].
             unfold obs_inv in O; simpl in O. destruct s0; try contradiction; apply O; auto.
        * constructor; simpl; intros j Hj.
          -- destruct (Nat.eq_dec j i); [subst; rewrite !fupd_same|rewrite !fupd_other by auto; auto].
             specialize (A i Hi). rewrite H0 in A. simpl in A. simpl. lia.
          -- destruct (Nat.eq_dec j i); [subst; rewrite !fupd_same; split; discriminate|rewrite !fupd_other by auto; auto].
          -- intros Q W. destruct H1 as [-> | [-> | ->]]; contradiction.
      + destruct IH as [A B C]. inversion L; subst; simpl in *; constructor; simpl; auto; intros; try tauto; try lia.
    - pose proof (scan_inv_ok _ _ _ _ H) as K. destruct IH as [A B C].
      inversion St as [i ? ? Hi T|? ? ? L|? ? ? E]; subst; [inversion L|inversion E]; subst;
        simpl in *; constructor; simpl; auto; intros j Hj; try tauto.
      + intros Q W. destruct (Nat.eq_dec j k); [subst; lia|]. apply C; auto. lia.
      + destruct (Nat.eq_dec j i); [subst; rewrite fupd_same|rewrite fupd_other by auto; auto].
        specialize (A i Hj). lia.
      + destruct (Nat.eq_dec j i); [subst; rewrite fupd_same|rewrite fupd_other by auto; auto].
        lia.
  Qed.

  (** C05 for capacity 1: if select() sleeps while a listed channel is ready, it is woken on
      every schedule of that channel's service thread. *)
  Theorem select_wakes_size1_partial : forall tr s i, selexec n 1 tr s ->
    sel s = Waiting -> i < n -> 0 < qn s i ->
    inevitable (tstep i) (fun s => sel s = Woken) s.
  Proof.
    intros tr s i H W Hi Q. pose proof (inv1_ok _ _ H) as [_ _ C].
    pose proof (obs_inv_ok _ _ _ _ H) as O.
    specialize (C i Hi Q). rewrite W in C. specialize (C Logic.I).
    unfold obs_inv in O. rewrite W in O. specialize (O i Hi). clear H.
    destruct s as [t q h o l]. simpl in *. subst l.
    assert (X : forall h, h i = TCall -> inevitable (tstep i) (fun s => sel s = Woken) (mks t q h o Waiting)).
    { intros h' E. apply inev_later.
      - eexists. apply T_notify; auto.
      - intros s' T. inversion T; subst; try congruence. apply inev_now. reflexivity. }
    assert (Y : forall h, h i = TTested -> inevitable (tstep i) (fun s => sel s = Woken) (mks t q h o Waiting)).
    { intros h' E. apply inev_later.
      - eexists. apply T_call; auto.
      - intros s' T. inversion T; subst; try congruence. rewrite O. apply X. apply fupd_same. }
    destruct (h i) as [| |ne|ne| | |] eqn:E; simpl in C; try contradiction.
    - destruct ne; try contradiction. apply inev_later.
      + eexists. eapply T_test; eauto.
      + intros s' T. inversion T; subst; try congruence. match goal with Z : h i = TPut ?b |- _ => rewrite E in Z; injection Z as <- end.
        rewrite O. simpl. apply Y. apply fupd_same.
    - auto.
    - auto.
  Qed.
End SizeOne.

(** ** Findings for larger capacities (the default capacity is 64) *)
Ltac sev H t := eapply se_event in H; [|t]; simpl in H.
Ltac ssi H t := eapply se_silent in H; [|t]; simpl in H.
Ltac tt_ := match goal with |- selstep _ _ _ _ _ => eapply ss_t with (i := 0); [lia|] end.
Ltac ll_ := apply ss_l.

(** The lost wake-up: [select] sleeps although channel 0 is ready, its service thread is idle
    and holds no pending token, so nothing already under way will ever wake it; and a further
    message arriving on that channel does not wake it either. *)
Theorem select_lost_wakeup_refuted : exists tr s,
  selexec 1 2 tr s /\ sel s = Waiting /\ 0 < qn s 0 /\ th s 0 = TIdle /\ tok s 0 = 0 /\
  (forall s', ~ tstep 0 s s') /\
  exists tr' s', selexec 1 2 (tr ++ tr') s' /\ In (EvSent 0) tr' /\ sel s' = Waiting /\
                 th s' 0 = TIdle /\ tok s' 0 = 0 /\ qn s' 0 = 2.
Proof.
  pose proof (se_init 1 2) as H.
  (* first message delivered while nobody selects *)
  sev H ltac:(apply ss_e; eapply (E_send 1 2 _ _ _ _ _ 0); cbv; lia).
  ssi H ltac:(tt_; eapply T_acquire; reflexivity).
  ssi H ltac:(tt_; eapply T_probe; reflexivity).
  ssi H ltac:(tt_; eapply T_put; reflexivity).
  ssi H ltac:(tt_; eapply T_test; reflexivity).
  (* second message: thread probes while the first is unread *)
  sev H ltac:(apply ss_e; eapply (E_send 1 2 _ _ _ _ _ 0); cbv; lia).
  ssi H ltac:(tt_; eapply T_acquire; reflexivity).
  ssi H ltac:(tt_; eapply T_probe; reflexivity).
  (* the reader takes the first message, then selects and sleeps *)
  sev H ltac:(ll_; eapply (L_recv 1 _ _ _ _ 0); [lia|reflexivity]).
  sev H ltac:(ll_; apply L_call).
  ssi H ltac:(ll_; apply L_set; lia).
  ssi H ltac:(ll_; apply L_set_end).
  sev H ltac:(ll_; apply L_probe_no; [lia|reflexivity]).
  sev H ltac:(ll_; apply L_wait).
  ssi H ltac:(tt_; eapply T_put; reflexivity).
  ssi H ltac:(tt_; eapply T_test; reflexivity).
  do 2 eexists. split; [exact H|]. simpl.
  repeat (split; [auto with arith; reflexivity|]).
  split. { intros s' T. inversion T; subst; discriminate. }
  pose proof H as G.
  sev G ltac:(apply ss_e; eapply (E_send 1 2 _ _ _ _ _ 0); cbv; lia).
  ssi G ltac:(tt_; eapply T_acquire; reflexivity).
  ssi G ltac:(tt_; eapply T_probe; reflexivity).
  ssi G ltac:(tt_; eapply T_put; reflexivity).
  ssi G ltac:(tt_; eapply T_test; reflexivity).
  eexists [EvSent 0], _. split; [exact G|]. simpl. auto 10.
Qed.

(** The service thread of a channel can be killed by select() clearing the observer between
    the thread's two reads of it (TypeError: 'NoneType' object is not callable); from then on
    the channel never becomes ready again. *)
Theorem select_kills_service_thread_refuted : exists tr s,
  selexec 1 1 tr s /\ th s 0 = TCrashed /\ sel s = Out.
Proof.
  pose proof (se_init 1 1) as H.
  sev H ltac:(ll_; apply L_call).
  ssi H ltac:(ll_; apply L_set; lia).
  ssi H ltac:(ll_; apply L_set_end).
  sev H ltac:(apply ss_e; eapply (E_send 1 1 _ _ _ _ _ 0); cbv; lia).
  ssi H ltac:(tt_; eapply T_acquire; reflexivity).
  ssi H ltac:(tt_; eapply T_probe; reflexivity).
  ssi H ltac:(tt_; eapply T_put; reflexivity).
  ssi H ltac:(tt_; eapply T_test; reflexivity).
  sev H ltac:(ll_; apply L_probe_yes; [lia|cbv; lia]).
  ssi H ltac:(ll_; apply L_clear; lia).
  ssi H ltac:(tt_; eapply T_call; reflexivity).
  sev H ltac:(ll_; apply L_ret).
  do 2 eexists. split; [exact H|]. cbv. auto.
Qed.

(** Hypotheses of the positive theorems are met. *)
Example select_sound_met : exists tr s s',
  selexec 1 1 tr s /\ selstep 1 1 s (Some (EvSelected 0)) s'.
Proof.
  pose proof (se_init 1 1) as H.
  sev H ltac:(ll_; apply L_call).
  ssi H ltac:(ll_; apply L_set; lia).
  ssi H ltac:(ll_; apply L_set_end).
  sev H ltac:(apply ss_e; eapply (E_send 1 1 _ _ _ _ _ 0); cbv; lia).
  ssi H ltac:(tt_; eapply T_acquire; reflexivity).
  ssi H ltac:(tt_; eapply T_probe; reflexivity).
  ssi H ltac:(tt_; eapply T_put; reflexivity).
  sev H ltac:(ll_; apply L_probe_yes; [lia|cbv; lia]).
  ssi H ltac:(ll_; apply L_clear; lia).
  do 3 eexists. split; [exact H|]. ll_. apply L_ret.
Qed.

Example select_wakes_met : exists tr s, selexec 1 1 tr s /\ sel s = Waiting /\ 0 < qn s 0.
Proof.
  pose proof (se_init 1 1) as H.
  sev H ltac:(ll_; apply L_call).
  ssi H ltac:(ll_; apply L_set; lia).
  ssi H ltac:(ll_; apply L_set_end).
  sev H ltac:(ll_; apply L_probe_no; [lia|reflexivity]).
  sev H ltac:(ll_; apply L_wait).
  sev H ltac:(apply ss_e; eapply (E_send 1 1 _ _ _ _ _ 0); cbv; lia).
  ssi H ltac:(tt_; eapply T_acquire; reflexivity).
  ssi H ltac:(tt_; eapply T_probe; reflexivity).
  ssi H ltac:(tt_; eapply T_put; reflexivity).
  do 2 eexists. split; [exact H|]. cbv. auto.
Qed.

Print Assumptions select_sound.
Print Assumptions select_wakes_size1_partial.
Print Assumptions select_lost_wakeup_refuted.
Print Assumptions select_kills_service_thread_refuted.
