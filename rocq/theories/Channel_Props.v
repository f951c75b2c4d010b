(** C01-C04 and C06: the shared-memory channel. *)
From Coq Require Import List Arith Lia Bool.
From Verif Require Import Channel_Model Channel_Spec Channel_Proofs.
Import ListNotations.

Section Paths.
  Variable V : Type.
  Variable shape_ok : V -> bool.
  Variable size : nat.
  Notation exec := (exec V shape_ok size).
  Notation step := (step V shape_ok size).

  (** Execution fragments. *)
  Inductive path : state V -> list (event V) -> state V -> Prop :=
  | path_nil s : path s [] s
  | path_silent s tr s1 s2 : path s tr s1 -> step s1 None s2 -> path s tr s2
  | path_event s tr s1 e s2 : path s tr s1 -> step s1 (Some e) s2 -> path s (tr ++ [e]) s2.

  Lemma app_snoc_split : forall A (l1 l2 l : list A) e, l ++ [e] = l1 ++ l2 ->
    (l2 = [] /\ l1 = l ++ [e]) \/ exists l2', l2 = l2' ++ [e] /\ l = l1 ++ l2'.
  Proof.
    intros A l1 l2 l e H. destruct l2 as [|x l2] using rev_ind.
    - left. rewrite app_nil_r in H. auto.
    - right. rewrite app_assoc in H. apply app_inj_tail in H as [-> ->]. eauto.
  Qed.

  Lemma exec_split : forall tr s, exec tr s -> forall tr1 tr2, tr = tr1 ++ tr2 ->
    exists s1, exec tr1 s1 /\ path s1 tr2 s.
  Proof.
    induction 1; intros tr1 tr2 E.
    - symmetry in E. apply app_eq_nil in E as [-> ->]. exists (init V size). split; constructor.
    - destruct (IHexec _ _ E) as (s1 & A & B). exists s1. split; auto. eapply path_silent; eauto.
    - apply app_snoc_split in E as [[-> ->]|(l2' & -> & ->)].
      + exists s'. split; [eapply exec_event; eauto|constructor].
      + destruct (IHexec _ _ eq_refl) as (s1 & A & B). exists s1. split; auto.
        eapply path_event; eauto.
  Qed.

  Lemma path_exec : forall tr s tr' s', exec tr s -> path s tr' s' -> exec (tr ++ tr') s'.
  Proof.
    intros tr s tr' s' H P. induction P; [rewrite app_nil_r; auto| |].
    - eapply exec_silent; eauto.
    - rewrite app_assoc. eapply exec_event; eauto.
  Qed.

  Lemma path_one : forall s e s', path s [e] s' ->
    exists s1 s2, path s [] s1 /\ step s1 (Some e) s2 /\ path s2 [] s'.
  Proof.
    intros s e s' P. remember [e] as l. revert e Heql. induction P; intros e0 E; [discriminate| |].
    - destruct (IHP _ E) as (a & b & X & Y & Z). exists a, b. split; auto. split; auto.
      eapply path_silent; eauto.
    - change [e0] with ([] ++ [e0]) in E. apply app_inj_tail in E as [-> ->].
      exists s1, s2. split; auto. split; auto. constructor.
  Qed.

  (** Any execution whose trace is [tr1 ++ e :: tr2] performs [e] in a state reached by [tr1]. *)
  Lemma exec_at : forall tr1 e tr2 s, exec (tr1 ++ [e] ++ tr2) s ->
    exists s1 s2, exec tr1 s1 /\ step s1 (Some e) s2 /\ path s2 tr2 s.
  Proof.
    intros. assert (E : tr1 ++ [e] ++ tr2 = (tr1 ++ [e]) ++ tr2) by (rewrite app_assoc; auto).
    destruct (exec_split _ _ H _ _ E) as (s2 & A & B).
    destruct (exec_split _ _ A tr1 [e] eq_refl) as (s1 & C & D).
    apply path_one in D as (a & b & X & Y & Z). exists a, b. split.
    - rewrite <- (app_nil_r tr1). eapply path_exec; eauto.
    - split; auto. clear - Z B. revert Z. induction B; intro Z; auto.
      + eapply path_silent; eauto.
      + eapply path_event; eauto.
  Qed.
End Paths.

Ltac cut_ltb :=
  match goal with
  | |- context [?a <? ?b] => destruct (a <? b)
  | H : context [?a <? ?b] |- _ => destruct (a <? b)
  | _ => idtac
  end.

Section Props.
  Variable V : Type.
  Variable shape_ok : V -> bool.
  Variable size : nat.
  Notation exec := (exec V shape_ok size).
  Notation step := (step V shape_ok size).
  Notation istep := (istep V size).

  (** C01.  In every execution (any interleaving of the two users and the two
      service threads) the results of recv() are a prefix of the values of the
      completed send() calls; [vs] is what was received, [rest] what is still
      outstanding. *)
  Theorem chan_fifo : 0 < size -> forall tr s, exec tr s ->
    exists vs rest, rcvd tr = map Some vs /\ sent tr = vs ++ rest.
  Proof.
    intros Hs tr s H. destruct (inv_exec _ _ _ Hs _ _ H) as (W & R & I).
    pose proof (inv_le _ _ Hs _ _ _ _ I) as (L1 & L2 & L3 & L4).
    exists (firstn R (calls tr)), (skipn R (sent tr)). split.
    - apply (i_rcvd _ _ _ _ _ _ I).
    - rewrite <- (firstn_skipn R (sent tr)) at 1. f_equal. unfold sent.
      rewrite firstn_firstn. f_equal. lia.
  Qed.

  (** C01, the n-th recv() that returns yields the n-th value sent, never garbage. *)
  Theorem chan_nth_recv : 0 < size -> forall tr v s, exec (tr ++ [EvRecvRet V v]) s ->
    exists d, v = Some d /\ nth_error (sent tr) (length (rcvd tr)) = Some d.
  Proof.
    intros Hs tr v s H.
    destruct (chan_fifo Hs _ _ H) as (vs & rest & A & B).
    rewrite rcvd_app in A. simpl in A.
    assert (E : sent (tr ++ [EvRecvRet V v]) = sent tr).
    { unfold sent. rewrite nret_app, calls_app. simpl. rewrite Nat.add_0_r, app_nil_r. auto. }
    rewrite E in B. destruct vs as [|x vs _] using rev_ind.
    { destruct (rcvd tr); discriminate. }
    rewrite map_app in A. simpl in A. apply app_inj_tail in A as [A ->].
    exists x. split; auto. rewrite B, A, map_length, <- app_assoc.
    rewrite nth_error_app2, Nat.sub_diag by lia. reflexivity.
  Qed.

  (** C01.  Only arrays of the declared shape enter the channel: send() raises for exactly the others, and then
      nothing changes; so everything received has the declared shape, too. *)
  Theorem chan_shape_checked : 0 < size -> forall tr s, exec tr s ->
    Forall (fun d => shape_ok d = true) (calls tr) /\
    (forall d, In (EvSendReject V d) tr -> shape_ok d = false) /\
    (forall d, In (Some d) (rcvd tr) -> shape_ok d = true) /\
    (forall d s', step s (Some (EvSendReject V d)) s' -> s' = s).
  Proof.
    intros Hs tr s H.
    assert (A : Forall (fun d => shape_ok d = true) (calls tr) /\
                (forall d, In (EvSendReject V d) tr -> shape_ok d = false)).
    { clear Hs. induction H as [|tr s s' H IH St|tr s e s' H IH St].
      - split; [constructor|intros d []].
      - exact IH.
      - destruct IH as [IH1 IH2]. rewrite calls_app. split.
        + apply Forall_app. split; [exact IH1|].
          destruct e; cbn [calls]; try apply Forall_nil. apply Forall_cons; [|apply Forall_nil].
          inversion St as [? ? ? X|? ? ? X|? ? X|? ? X]; subst; inversion X; subst; assumption.
        + intros d Hin. apply in_app_or in Hin. destruct Hin as [Hin|[->|[]]]; [auto|].
          inversion St as [? ? ? X|? ? ? X|? ? X|? ? X]; subst; inversion X; subst; assumption. }
    destruct A as [A1 A2]. split; [exact A1|]. split; [exact A2|]. split.
    - intros d Hd. destruct (chan_fifo Hs _ _ H) as (vs & rest & B & C). rewrite B in Hd. apply in_map_iff in Hd.
      destruct Hd as (x & E & Hx). injection E as ->. rewrite Forall_forall in A1. apply A1.
      assert (Hin : In d (sent tr)) by (rewrite C; apply in_or_app; left; exact Hx).
      unfold sent in Hin. rewrite <- (firstn_skipn (nret tr) (calls tr)). apply in_or_app. left. exact Hin.
    - intros d s' St. inversion St as [? ? ? X|? ? ? X|? ? X|? ? X]; subst; inversion X; subst; reflexivity.
  Qed.

  (** C02: neither service thread ever raises or dies unless its port is joined, and at
      most [size] messages are outstanding. *)
  Theorem chan_safe : 0 < size -> forall tr s, exec tr s ->
    crashed V s = None /\ nret tr <= length (rcvd tr) + size /\
    (qpcs V s = QDead -> In (EvRecvJoin V) tr) /\ (apcs V s = ADead -> In (EvSendJoin V) tr).
  Proof.
    intros Hs tr s H. destruct (inv_exec _ _ _ Hs _ _ H) as (W & R & I).
    pose proof (inv_le _ _ Hs _ _ _ _ I) as (L1 & L2 & L3 & L4).
    split; [apply (i_crash _ _ _ _ _ _ I)|].
    split; [rewrite (i_rlen _ _ _ _ _ _ I); lia|].
    assert (J : (rdone V s = true -> In (EvRecvJoin V) tr) /\
                (sdone V s = true -> In (EvSendJoin V) tr)).
    { clear - H. induction H; simpl; [split; discriminate| |].
      - destruct IHexec as [A B]. inversion H0 as [? ? ? X|? ? ? X|? ? X|? ? X]; subst;
          inversion X; subst; simpl in *; split; auto; cut_ltb; simpl; auto.
      - destruct IHexec as [A B].
        inversion H0 as [? ? ? X|? ? ? X|? ? X|? ? X]; subst;
          inversion X; subst; simpl in *; rewrite !in_app_iff; simpl; split; intro; auto;
          try (cut_ltb; simpl in *; auto). }
    pose proof (i_qdead _ _ _ _ _ _ I) as Q. pose proof (i_adead _ _ _ _ _ _ I) as A.
    split; intro E; rewrite E in *; simpl in *; apply J.
    - destruct (rdone V s); auto; simpl in *; lia.
    - destruct (sdone V s); auto; simpl in *; lia.
  Qed.

  (** C02: no step of any thread changes the buffer slot of a message that was sent and not
      yet received, and that slot holds the message. *)
  Theorem chan_no_overwrite : 0 < size -> forall tr s e s', exec tr s -> step s e s' ->
    forall k, length (rcvd tr) <= k < nret tr ->
      slots V s (k mod size) = nth_error (sent tr) k /\
      slots V s' (k mod size) = slots V s (k mod size).
  Proof.
    intros Hs tr s e s' H St k Hk. destruct (inv_exec _ _ _ Hs _ _ H) as (W & R & I).
    pose proof (inv_le _ _ Hs _ _ _ _ I) as (L1 & L2 & L3 & L4).
    rewrite (i_rlen _ _ _ _ _ _ I) in Hk. split.
    - rewrite (i_slots _ _ _ _ _ _ I) by lia. unfold sent.
      rewrite <- (firstn_skipn (nret tr) (calls tr)) at 1.
      rewrite nth_error_app1; auto. rewrite firstn_length. lia.
    - inversion St as [? ? ? X|? ? ? X|? ? X|? ? X]; subst; inversion X; subst; simpl in *; auto;
        try (cut_ltb; simpl; auto; fail).
      unfold upd. destruct (Nat.eqb_spec (k mod size) h) as [E|E]; auto.
      exfalso. destruct (i_sidx _ _ _ _ _ _ I) as (j & J1 & J2). simpl in *. subst h.
      eapply (mod_neq size k j); eauto; lia.
  Qed.

  (** C02: a slot is never written while the receiver is copying from the same slot
      (neither in recv() nor in peek()). *)
  Theorem chan_no_slot_conflict : 0 < size -> forall tr s d, exec tr s -> spcs V s = SAcq V d ->
    (rpcs V s = RGot V \/ rpcs V s = PGot V) -> sidx V s <> ridx V s.
  Proof.
    intros Hs tr s d H A B. destruct (inv_exec _ _ _ Hs _ _ H) as (W & R & I).
    pose proof (inv_le _ _ Hs _ _ _ _ I) as (L1 & L2 & L3 & L4).
    destruct (i_sidx _ _ _ _ _ _ I) as (j & J1 & J2).
    pose proof (i_ridx _ _ _ _ _ _ I) as J3. pose proof (i_pgot _ _ _ _ _ _ I) as J4.
    rewrite A in *. rewrite J2, J3. simpl in *. intro E. symmetry in E.
    assert (R < W). { destruct B as [B|B]; rewrite B in *; simpl in *; lia. }
    assert (r_inc V (rpcs V s) = 0). { destruct B as [B|B]; rewrite B; auto. }
    rewrite H1, Nat.add_0_r in E. apply mod_neq in E; lia.
  Qed.

  (** C03: a recv() in progress returns, on every schedule of the service threads and the
      receiver, if some message was sent and not received. *)
  Theorem chan_recv_returns : 0 < size -> forall tr s, exec tr s ->
    in_recv s -> ~ In (EvRecvJoin V) tr -> length (rcvd tr) < nret tr ->
    inevitable (fun s s' => istep s s' \/ exists e, rstep V size s e s')
               (fun s => rpcs V s = RIdle V) s.
  Proof.
    intros Hs tr s H A B C. destruct (inv_exec _ _ _ Hs _ _ H) as (W & R & I).
    eapply inev_recv; eauto.
    clear - H B. induction H; simpl; auto.
    - specialize (IHexec B). inversion H0 as [? ? ? X|? ? ? X|? ? X|? ? X]; subst; inversion X; subst; simpl in *; auto;
        cut_ltb; simpl; auto.
    - rewrite in_app_iff in B. simpl in B.
      assert (rdone V s = false) by (apply IHexec; tauto).
      inversion H0 as [? ? ? X|? ? ? X|? ? X|? ? X]; subst; inversion X; subst; simpl in *; auto;
        try (cut_ltb; simpl; auto); exfalso; tauto.
  Qed.

  (** C03: a send() in progress returns if it already owns a slot or fewer than [size]
      messages are outstanding (no help from the receiver needed). *)
  Theorem chan_send_returns : 0 < size -> forall tr s, exec tr s ->
    in_send s -> ~ In (EvSendJoin V) tr ->
    (forall d, spcs V s = SWait V d -> nret tr < size + length (rcvd tr)) ->
    inevitable (fun s s' => istep s s' \/ exists e, sstep V shape_ok size s e s')
               (fun s => spcs V s = SIdle V) s.
  Proof.
    intros Hs tr s H A B C. destruct (inv_exec _ _ _ Hs _ _ H) as (W & R & I).
    eapply inev_send; eauto.
    clear - H B. induction H; simpl; auto.
    - specialize (IHexec B). inversion H0 as [? ? ? X|? ? ? X|? ? X|? ? X]; subst; inversion X; subst; simpl in *; auto;
        cut_ltb; simpl; auto.
    - rewrite in_app_iff in B. simpl in B.
      assert (sdone V s = false) by (apply IHexec; tauto).
      inversion H0 as [? ? ? X|? ? ? X|? ? X|? ? X]; subst; inversion X; subst; simpl in *; auto;
        try (cut_ltb; simpl; auto); exfalso; tauto.
  Qed.

  (** C03: with both users blocked (send waiting for a slot, recv waiting for data) some
      thread can always move: the channel itself cannot deadlock. *)
  Theorem chan_no_deadlock : 0 < size -> forall tr s d, exec tr s ->
    spcs V s = SWait V d -> rpcs V s = RWait V -> sdone V s = false -> rdone V s = false ->
    exists e s', step s e s'.
  Proof.
    intros Hs tr s d H A B C D. destruct (inv_exec _ _ _ Hs _ _ H) as (W & R & I).
    assert (X : (exists s', istep s s') -> exists e s', step s e s').
    { intros [s' [Hq|Ha]]; [exists None, s'; apply step_q|exists None, s'; apply step_a]; auto. }
    destruct s as [c e f g h i sl sp rp q a sd rd cr]. simpl in *. subst.
    destruct c; [|exists None; eexists; apply step_s, S_acquire].
    destruct g; [|exists None; eexists; apply step_r, R_get].
    apply X. destruct I; simpl in *.
    destruct q; try (apply q_can_step; simpl; auto; [discriminate|discriminate]); [|simpl in *; lia].
    destruct e; [|apply q_can_step; simpl; auto; [lia|discriminate]].
    destruct a; try (apply a_can_step; simpl; auto; [discriminate|discriminate]); [|simpl in *; lia].
    destruct f; [|apply a_can_step; simpl; auto; [lia|discriminate]].
    simpl in *. lia.
  Qed.

  (** C04: probe() on the receiving end is True exactly when a recv() issued now finds its
      token without waiting. *)
  Theorem chan_recv_probe_exact : forall s b s',
    step s (Some (EvRecvProbe V b)) s' ->
    (b = true <-> exists s1 s2, rstep V size s' (Some (EvRecvCall V)) s1 /\
                               rpcs V s1 = RWait V /\ rstep V size s1 None s2).
  Proof.
    intros s b s' St. inversion St as [? ? ? X|? ? ? X|? ? X|? ? X]; subst; inversion X; subst.
    destruct g; simpl; split; intro E; try discriminate; auto.
    - destruct E as (s1 & s2 & A & B & C). inversion A; subst. inversion C.
    - do 2 eexists. split; [apply R_call|]. split; [reflexivity|]. apply R_get.
  Qed.

  (** C04: if probe() was True, it stays True until the reader calls recv(). *)
  Theorem chan_recv_probe_stable : forall tr tr' b s,
    exec (tr ++ [EvRecvProbe V true] ++ tr' ++ [EvRecvProbe V b]) s ->
    Forall (fun e => ~ is_recv_call e) tr' -> b = true.
  Proof.
    intros tr tr' b s H F.
    destruct (exec_at _ _ _ _ _ _ _ H) as (s1 & s2 & A & B & C).
    assert (P : forall s2, 0 < queue V s2 /\ r_got V (rpcs V s2) = 0 /\ rpcs V s2 <> RWait V ->
              forall l s3, path V shape_ok size s2 l s3 -> Forall (fun e => ~ is_recv_call e) l ->
              0 < queue V s3 /\ r_got V (rpcs V s3) = 0 /\ rpcs V s3 <> RWait V).
    { clear. intros s2 K l s3 Hp. induction Hp; intros F; auto.
      - specialize (IHHp K F).
        inversion H as [? ? ? X|? ? ? X|? ? X|? ? X]; subst; inversion X; subst; simpl in *;
          try (cut_ltb; simpl in *);
          repeat split; try tauto; try lia; try discriminate; destruct IHHp as (? & ? & ?); try lia; try discriminate; try congruence.
      - rewrite Forall_app in F. destruct F as [F1 F2]. specialize (IHHp K F1).
        inversion F2; subst.
        inversion H as [? ? ? X|? ? ? X|? ? X|? ? X]; subst; inversion X; subst; simpl in *;
          try (cut_ltb; simpl in *);
          repeat split; try tauto; try lia; try discriminate; destruct IHHp as (? & ? & ?); try lia; try discriminate; try congruence. }
    assert (Q : 0 < queue V s2 /\ r_got V (rpcs V s2) = 0 /\ rpcs V s2 <> RWait V).
    { inversion B as [? ? ? X|? ? ? X|? ? X|? ? X]; subst; inversion X; subst; simpl in *.
      symmetry in H2. destruct g; [discriminate|]. repeat split; try lia. discriminate. }
    assert (D : exec (tr ++ [EvRecvProbe V true]) s2) by (eapply exec_event; eauto).
    assert (E : path V shape_ok size s2 (tr' ++ [EvRecvProbe V b]) s) by auto.
    assert (G : exists sa sb, path V shape_ok size s2 tr' sa /\ step sa (Some (EvRecvProbe V b)) sb).
    { clear - E. remember (tr' ++ [EvRecvProbe V b]) as l. revert tr' b Heql.
      induction E; intros tr' b El.
      - destruct tr'; discriminate.
      - eapply IHE; eauto.
      - apply app_inj_tail in El as [-> ->]. eauto. }
    destruct G as (sa & sb & G1 & G2).
    destruct (P _ Q _ _ G1 F) as (R1 & _ & _).
    inversion G2 as [? ? ? X|? ? ? X|? ? X|? ? X]; subst; inversion X; subst; simpl in *.
    apply Nat.ltb_lt. auto.
  Qed.

  (** C04: probe() True means a message was sent and not yet received. *)
  Theorem chan_recv_probe_sound : 0 < size -> forall tr s s', exec tr s ->
    step s (Some (EvRecvProbe V true)) s' -> length (rcvd tr) < nret tr.
  Proof.
    intros Hs tr s s' H St. destruct (inv_exec _ _ _ Hs _ _ H) as (W & R & I).
    pose proof (inv_le _ _ Hs _ _ _ _ I) as (L1 & _). rewrite (i_rlen _ _ _ _ _ _ I).
    inversion St as [? ? ? X|? ? ? X|? ? X|? ? X]; subst; inversion X; subst; simpl in *.
    destruct g; [discriminate|lia].
  Qed.

  (** C04: peek() returns what the next recv() returns. *)
  Theorem chan_peek_next : 0 < size -> forall tr v tr' w s,
    exec (tr ++ [EvPeekRet V v] ++ tr' ++ [EvRecvRet V w]) s ->
    Forall (fun e => ~ is_recv_ret e) tr' -> v = w.
  Proof.
    intros Hs tr v tr' w s H F.
    destruct (exec_at _ _ _ _ _ _ _ H) as (s1 & s2 & A & B & C).
    destruct (inv_exec _ _ _ Hs _ _ A) as (W & R & I).
    pose proof (inv_le _ _ Hs _ _ _ _ I) as (L1 & L2 & L3 & L4).
    assert (E : v = nth_error (calls tr) (length (rcvd tr)) /\ length (rcvd tr) < length (calls tr)).
    { rewrite (i_rlen _ _ _ _ _ _ I).
      inversion B as [? ? ? X|? ? ? X|? ? X|? ? X]; subst; inversion X; subst.
      pose proof (i_ridx _ _ _ _ _ _ I) as Z1. pose proof (i_slots _ _ _ _ _ _ I) as Z2.
      pose proof (i_pgot _ _ _ _ _ _ I) as Z3.
      simpl in *. rewrite Z1, Nat.add_0_r. split; [|lia]. apply Z2. lia. }
    destruct E as [E1 E2].
    rewrite !app_assoc in H. destruct (chan_nth_recv Hs _ _ _ H) as (d & -> & Hd).
    assert (E3 : length (rcvd ((tr ++ [EvPeekRet V v]) ++ tr')) = length (rcvd tr)).
    { rewrite !rcvd_app. simpl. rewrite app_nil_r.
      assert (rcvd tr' = []) as ->. { clear - F. induction F as [|[] l]; simpl; auto. exfalso; apply H; simpl; auto. }
      rewrite app_nil_r. auto. }
    rewrite E3 in Hd. unfold sent in Hd.
    assert (E4 : nth_error (calls ((tr ++ [EvPeekRet V v]) ++ tr')) (length (rcvd tr)) = Some d).
    { set (l := calls ((tr ++ [EvPeekRet V v]) ++ tr')) in *.
      set (n := nret ((tr ++ [EvPeekRet V v]) ++ tr')) in *.
      rewrite <- (firstn_skipn n l). rewrite nth_error_app1; auto.
      apply nth_error_Some. congruence. }
    rewrite !calls_app in E4. simpl in E4. rewrite app_nil_r, nth_error_app1 in E4 by auto.
    congruence.
  Qed.

  (** C04: after probe() returned True on the sending end, the next send() returns without
      the receiver doing anything. *)
  Theorem chan_send_probe_sound : 0 < size -> forall tr tr' d s s',
    exec (tr ++ [EvSendProbe V true] ++ tr') s ->
    calls tr' = [] -> ~ In (EvSendJoin V) (tr ++ [EvSendProbe V true] ++ tr') ->
    step s (Some (EvSendCall V d)) s' ->
    inevitable (fun s s' => istep s s' \/ exists e, sstep V shape_ok size s e s')
               (fun s => spcs V s = SIdle V) s'.
  Proof.
    intros Hs tr tr' d s s' H Hc J St.
    pose proof (exec_event _ _ _ _ _ _ _ H St) as H'.
    destruct (exec_at _ _ _ _ _ _ _ H) as (s1 & s2 & A & B & C).
    assert (D : nret tr < size + length (rcvd tr) /\ length (calls tr) = nret tr).
    { destruct (inv_exec _ _ _ Hs _ _ A) as (W & R & I).
      pose proof (inv_le _ _ Hs _ _ _ _ I) as (L1 & L2 & L3 & L4).
      rewrite (i_rlen _ _ _ _ _ _ I). destruct I.
      inversion B as [? ? ? X|? ? ? X|? ? X|? ? X]; subst; inversion X; subst; simpl in *; lia. }
    eapply chan_send_returns; eauto.
    - inversion St as [? ? ? X|? ? ? X|? ? X|? ? X]; subst; inversion X; subst. exact Logic.I.
    - rewrite in_app_iff. simpl. intros [X|[X|X]]; try discriminate; auto.
    - intros d0 E. destruct (inv_exec _ _ _ Hs _ _ H') as (W & R & I).
      pose proof (i_calls _ _ _ _ _ _ I) as K1. pose proof (i_rets _ _ _ _ _ _ I) as K2.
      rewrite E in *. simpl in *.
      change (tr ++ [EvSendProbe V true] ++ tr') with (tr ++ [EvSendProbe V true] ++ tr') in *.
      rewrite !calls_app in K1. simpl in K1. rewrite calls_app, Hc in K1 || rewrite Hc in K1.
      rewrite !app_length in K1. simpl in K1.
      rewrite !rcvd_app, !app_length. simpl. lia.
  Qed.

  (** C06: after the sending port is joined everything sent is still received, in order
      ([chan_fifo] needs no assumption on joins), and blocked readers are still served. *)
  Theorem chan_join_send_keeps_data : 0 < size -> forall tr s, exec tr s ->
    In (EvSendJoin V) tr -> ~ In (EvRecvJoin V) tr ->
    (exists vs rest, rcvd tr = map Some vs /\ sent tr = vs ++ rest) /\
    (in_recv s -> length (rcvd tr) < nret tr ->
     inevitable (fun s s' => istep s s' \/ exists e, rstep V size s e s')
                (fun s => rpcs V s = RIdle V) s).
  Proof.
    intros. split; [eapply chan_fifo; eauto|intros; eapply chan_recv_returns; eauto].
  Qed.

  Lemma joined_done tr s : exec tr s ->
    (In (EvSendJoin V) tr -> sdone V s = true) /\ (In (EvRecvJoin V) tr -> rdone V s = true).
  Proof.
    induction 1 as [|? ? ? H IH St|? ? ? ? H IH St]; simpl; [tauto| |].
    - destruct IH as [A B]. inversion St as [? ? ? X|? ? ? X|? ? X|? ? X]; subst; inversion X; subst; simpl in *;
        try (cut_ltb; simpl in *); tauto.
    - destruct IH as [A B]. rewrite !in_app_iff. simpl.
      inversion St as [? ? ? X|? ? ? X|? ? X|? ? X]; subst; inversion X; subst; simpl in *;
        try (cut_ltb; simpl in *); split; intros [Y|[Y|[]]]; auto; try discriminate.
  Qed.

  (** C06: joining a port makes its service thread terminate. *)
  Theorem chan_join_terminates : 0 < size -> forall tr s, exec tr s ->
    (In (EvSendJoin V) tr -> inevitable istep (fun s => apcs V s = ADead) s) /\
    (In (EvRecvJoin V) tr -> inevitable istep (fun s => qpcs V s = QDead) s).
  Proof.
    intros Hs tr s H. destruct (joined_done _ _ H) as [A B].
    destruct (inv_exec _ _ _ Hs _ _ H) as (W & R & I).
    split; intro J; [eapply inev_adead|eapply inev_qdead]; eauto.
  Qed.

  (** C06: joining twice changes nothing. *)
  Theorem chan_join_idempotent : forall tr s s', exec tr s ->
    (In (EvSendJoin V) tr -> step s (Some (EvSendJoin V)) s' -> s' = s) /\
    (In (EvRecvJoin V) tr -> step s (Some (EvRecvJoin V)) s' -> s' = s).
  Proof.
    intros tr s s' H. destruct (joined_done _ _ H) as [A B].
    split; intros J St; inversion St as [? ? ? X|? ? ? X|? ? X|? ? X]; subst; inversion X; subst; auto.
    - specialize (A J). discriminate.
    - specialize (B J). discriminate.
  Qed.
End Props.

(** ** Concrete executions *)
  Definition chan_ex_ok (d : nat) : bool := d <? 100.
  Local Notation ex := (exec nat chan_ex_ok 2).

  Ltac ev H t := eapply exec_event in H; [|t]; simpl in H.
  Ltac si H t := eapply exec_silent in H; [|t]; simpl in H.
  Ltac s_ c := apply step_s; apply c; try reflexivity.
  Ltac r_ c := apply step_r; apply c; try reflexivity.
  Ltac q_ c := apply step_q; apply c.
  Ltac a_ c := apply step_a; apply c.
  Ltac send H v :=
    ev H ltac:(apply step_s; apply (S_call nat chan_ex_ok 2 v); reflexivity); si H ltac:(s_ S_acquire);
    si H ltac:(s_ S_write); si H ltac:(s_ S_inc); ev H ltac:(s_ S_release).
  Ltac qserve H := si H ltac:(q_ Q_acquire); si H ltac:(q_ Q_check); si H ltac:(q_ Q_probe); si H ltac:(q_ Q_put).
  Ltac recv H := ev H ltac:(r_ R_call); si H ltac:(r_ R_get); si H ltac:(r_ R_copy);
     si H ltac:(r_ R_inc); ev H ltac:(r_ R_ack).

  (** Two sends, one receive, a third send in flight: hypotheses of C01, C02, C03 met. *)
  Example chan_run : exists tr s, ex tr s /\ rcvd tr = [Some 7] /\ sent tr = [7; 8] /\
    in_recv s /\ length (rcvd tr) < nret tr /\ ~ In (EvRecvJoin nat) tr.
  Proof.
    pose proof (exec_init nat chan_ex_ok 2) as H.
    send H 7. send H 8. qserve H. recv H. ev H ltac:(r_ R_call).
    do 2 eexists. split; [exact H|]. simpl. repeat split; auto.
    intros X; repeat destruct X as [X|X]; try discriminate; auto.
  Qed.

  Example chan_run_send : exists tr s, ex tr s /\ in_send s /\ ~ In (EvSendJoin nat) tr /\
    (forall d, spcs nat s = SWait nat d -> nret tr < 2 + length (rcvd tr)).
  Proof.
    pose proof (exec_init nat chan_ex_ok 2) as H.
    send H 7. send H 8. qserve H. recv H.
    ev H ltac:(apply step_s; apply (S_call nat chan_ex_ok 2 9); reflexivity).
    do 2 eexists. split; [exact H|]. simpl. repeat split; auto.
    intros X; repeat destruct X as [X|X]; try discriminate; auto.
  Qed.

  Example chan_run_peek : exists tr s,
    ex (tr ++ [EvPeekRet nat (Some 7)] ++ [EvSendProbe nat true] ++ [EvRecvProbe nat true] ++ [EvRecvCall nat] ++ [EvRecvRet nat (Some 7)]) s.
  Proof.
    pose proof (exec_init nat chan_ex_ok 2) as H.
    send H 7. qserve H. si H ltac:(r_ P_call). si H ltac:(r_ P_get). ev H ltac:(r_ P_copy).
    si H ltac:(s_ S_probe_acq). ev H ltac:(s_ S_probe_rel). ev H ltac:(r_ R_probe). recv H.
    exists [EvSendCall nat 7; EvSendRet nat]. eexists. exact H.
  Qed.

  Example chan_run_join : exists tr s, ex tr s /\ In (EvSendJoin nat) tr /\
    ~ In (EvRecvJoin nat) tr /\ in_recv s /\ length (rcvd tr) < nret tr.
  Proof.
    pose proof (exec_init nat chan_ex_ok 2) as H.
    send H 7. send H 8. ev H ltac:(s_ S_join). si H ltac:(a_ A_acquire). si H ltac:(a_ A_check).
    ev H ltac:(r_ R_call).
    do 2 eexists. split; [exact H|]. simpl. repeat split; auto 10.
    intros X; repeat destruct X as [X|X]; try discriminate; auto.
  Qed.

  (** Both users blocked, nothing joined: hypotheses of [chan_no_deadlock]. *)
  Example chan_run_blocked : exists tr s d, ex tr s /\ spcs nat s = SWait nat d /\
    rpcs nat s = RWait nat /\ sdone nat s = false /\ rdone nat s = false.
  Proof.
    pose proof (exec_init nat chan_ex_ok 2) as H.
    send H 7. send H 8. ev H ltac:(apply step_s; apply (S_call nat chan_ex_ok 2 9); reflexivity).
    ev H ltac:(r_ R_call).
    do 3 eexists. split; [exact H|]. simpl. repeat split; auto.
  Qed.

  (** The sending end's probe() has a false negative: it was True, nothing was sent since, no
      message at all is outstanding, the capacity is 2, and yet probe() answers False because
      the port's own service thread is transiently holding the last free slot while it is
      itself probing. *)
  Theorem chan_send_probe_complete_refuted : exists tr s,
    ex (tr ++ [EvSendProbe nat true; EvRecvCall nat; EvRecvRet nat (Some 7); EvSendProbe nat false]) s /\
    nret (tr ++ [EvSendProbe nat true; EvRecvCall nat; EvRecvRet nat (Some 7)]) = 1 /\
    length (rcvd (tr ++ [EvSendProbe nat true; EvRecvCall nat; EvRecvRet nat (Some 7)])) = 1.
  Proof.
    pose proof (exec_init nat chan_ex_ok 2) as H.
    send H 7. qserve H. si H ltac:(s_ S_probe_acq). ev H ltac:(s_ S_probe_rel). recv H.
    si H ltac:(a_ A_acquire). si H ltac:(a_ A_check). si H ltac:(a_ A_probe_acq).
    ev H ltac:(s_ S_probe_fail).
    exists [EvSendCall nat 7; EvSendRet nat]. eexists. split; [exact H|]. split; reflexivity.
  Qed.

Print Assumptions chan_fifo.
Print Assumptions chan_nth_recv.
Print Assumptions chan_shape_checked.
Print Assumptions chan_safe.
Print Assumptions chan_no_overwrite.
Print Assumptions chan_no_slot_conflict.
Print Assumptions chan_recv_returns.
Print Assumptions chan_send_returns.
Print Assumptions chan_no_deadlock.
Print Assumptions chan_recv_probe_exact.
Print Assumptions chan_recv_probe_stable.
Print Assumptions chan_recv_probe_sound.
Print Assumptions chan_peek_next.
Print Assumptions chan_send_probe_sound.
Print Assumptions chan_join_send_keeps_data.
Print Assumptions chan_join_terminates.
Print Assumptions chan_join_idempotent.
Print Assumptions chan_send_probe_complete_refuted.
