(** Invariant of the channel LTS and its consequences. *)
From Coq Require Import List Arith Lia Bool.
From Verif Require Import Channel_Model Channel_Spec.
Import ListNotations.

Lemma calls_app : forall V (a b : list (event V)), calls (a ++ b) = calls a ++ calls b.
Proof. induction a as [|[] a IH]; simpl; intros; rewrite ?IH; auto. Qed.
Lemma rcvd_app : forall V (a b : list (event V)), rcvd (a ++ b) = rcvd a ++ rcvd b.
Proof. induction a as [|[] a IH]; simpl; intros; rewrite ?IH; auto. Qed.
Lemma nret_app : forall V (a b : list (event V)), nret (a ++ b) = nret a + nret b.
Proof. induction a as [|[] a IH]; simpl; intros; rewrite ?IH; auto. Qed.

Lemma mod_neq : forall n a b, 0 < n -> a < b -> b < a + n -> a mod n <> b mod n.
Proof.
  intros n a b Hn H1 H2 E.
  pose proof (Nat.div_mod a n ltac:(lia)). pose proof (Nat.div_mod b n ltac:(lia)).
  rewrite <- E in H0.
  assert (n * (b / n) = n * (a / n) + (b - a)) by lia.
  assert (b / n <= a / n \/ a / n + 1 <= b / n) by lia. nia.
Qed.

Lemma succ_mod : forall n a, 0 < n -> (a mod n + 1) mod n = (a + 1) mod n.
Proof. intros. rewrite Nat.add_mod_idemp_l by lia. reflexivity. Qed.

Lemma nth_error_snoc : forall A (l : list A) x k v,
  nth_error l k = Some v -> nth_error (l ++ [x]) k = Some v.
Proof.
  intros. rewrite nth_error_app1; auto. apply nth_error_Some. congruence.
Qed.

Lemma firstn_snoc_nth : forall A (l : list A) k v,
  nth_error l k = Some v -> firstn (S k) l = firstn k l ++ [v].
Proof.
  induction l; destruct k; intros v H; try discriminate.
  - injection H as ->. reflexivity.
  - change (a :: firstn (S k) l = a :: (firstn k l ++ [v])). f_equal. auto.
Qed.

Section Proofs.
  Variable V : Type.
  Variable shape_ok : V -> bool.
  Variable size : nat.
  Hypothesis size_pos : 0 < size.

  Notation state := (state V).
  Notation exec := (exec V shape_ok size).
  Notation step := (step V shape_ok size).
  Notation istep := (istep V size).

  Definition s_pre (p : spc V) : nat := match p with SWait _ _ | SAcq _ _ => 1 | _ => 0 end.
  Definition s_post (p : spc V) : nat := match p with SWrote _ | SInc _ => 1 | _ => 0 end.
  Definition s_wrote (p : spc V) : nat := match p with SWrote _ => 1 | _ => 0 end.
  Definition s_held (p : spc V) : nat := match p with SAcq _ _ | SProbeHeld _ => 1 | _ => 0 end.
  Definition r_got (p : rpc V) : nat :=
    match p with RGot _ | RCopied _ _ | RInced _ _ => 1 | _ => 0 end.
  Definition r_inc (p : rpc V) : nat := match p with RInced _ _ => 1 | _ => 0 end.
  Definition q_busy (p : qpc) : nat := match p with QTok | QRun | QProbed _ => 1 | _ => 0 end.
  Definition q_tok (p : qpc) : nat := match p with QTok => 1 | _ => 0 end.
  Definition q_dead (p : qpc) : nat := match p with QDead => 1 | _ => 0 end.
  Definition a_busy (p : apc) : nat :=
    match p with ATok | ARun | AHeld | AProbed _ => 1 | _ => 0 end.
  Definition a_tok (p : apc) : nat := match p with ATok => 1 | _ => 0 end.
  Definition a_held (p : apc) : nat := match p with AHeld => 1 | _ => 0 end.
  Definition a_dead (p : apc) : nat := match p with ADead => 1 | _ => 0 end.

  Record Inv (tr : list (event V)) (s : state) (W R : nat) : Prop := {
    i_calls : length (calls tr) = W + s_pre (spcs V s);
    i_rets : W = nret tr + s_post (spcs V s);
    i_pend : match spcs V s with
             | SWait _ d | SAcq _ d => nth_error (calls tr) W = Some d
             | _ => True end;
    i_sidx : exists k, W = k + s_wrote (spcs V s) /\ sidx V s = k mod size;
    i_ridx : ridx V s = (R + r_inc (rpcs V s)) mod size;
    i_rcvd : rcvd tr = map Some (firstn R (calls tr));
    i_rlen : length (rcvd tr) = R;
    i_rv : match rpcs V s with
           | RCopied _ v | RInced _ v => nth_error (calls tr) R = Some v
           | _ => True end;
    i_slots : forall k, R <= k < W -> slots V s (k mod size) = nth_error (calls tr) k;
    i_req : nret tr + Nat.b2n (rdone V s) =
            req V s + q_busy (qpcs V s) + q_dead (qpcs V s) + queue V s + R + r_got (rpcs V s);
    i_rdone : Nat.b2n (rdone V s) <= req V s + q_tok (qpcs V s) + q_dead (qpcs V s);
    i_qdead : q_dead (qpcs V s) <= Nat.b2n (rdone V s);
    i_ack : sem V s + W + s_held (spcs V s) + a_held (apcs V s) + ack V s +
            a_busy (apcs V s) + a_dead (apcs V s) = size + R + Nat.b2n (sdone V s);
    i_sdone : Nat.b2n (sdone V s) <= ack V s + a_tok (apcs V s) + a_dead (apcs V s);
    i_adead : a_dead (apcs V s) <= Nat.b2n (sdone V s);
    i_pgot : match rpcs V s with PGot _ => 0 < queue V s | _ => True end;
    i_crash : crashed V s = None }.

  Lemma inv_init : Inv [] (init V size) 0 0.
  Proof.
    constructor; simpl; try lia; auto.
    - exists 0. rewrite Nat.mod_0_l by lia. auto.
    - rewrite Nat.mod_0_l by lia. auto.
  Qed.

  Ltac cutif :=
    match goal with
    | |- context [if ?b then _ else _] =>
        let E := fresh "E" in destruct b eqn:E;
        [ try (apply Nat.ltb_lt in E) | try (apply Nat.ltb_ge in E) ]
    end.

  Definition tr_ext (tr : list (event V)) (e : option (event V)) :=
    match e with None => tr | Some e => tr ++ [e] end.

  Ltac dinv H :=
    destruct H as [Icalls Irets Ipend Isidx Iridx Ircvd Irlen Irv Islots Ireq Irdone Iqdead
                   Iack Isdone Iadead Ipgot Icrash]; simpl in *.

  Ltac fin := simpl in *; rewrite ?calls_app, ?rcvd_app, ?nret_app, ?app_length, ?map_app in *;
              simpl in *; rewrite ?app_nil_r, ?Nat.add_0_r in *; try lia; auto; try congruence.

  Lemma inv_le tr s W R : Inv tr s W R -> R + r_got (rpcs V s) + queue V s <= nret tr /\ nret tr <= W /\ W <= length (calls tr)
     /\ W + s_held (spcs V s) <= size + R.
  Proof.
    intro I. dinv I. destruct (qpcs V s), (apcs V s); simpl in *; lia.
  Qed.

  Lemma inv_sstep tr s e s' W R :
    Inv tr s W R -> sstep V shape_ok size s e s' -> exists W' R', Inv (tr_ext tr e) s' W' R'.
  Proof.
    intros I H. pose proof (inv_le _ _ _ _ I) as L. destruct H; simpl tr_ext; simpl in L.
    - exists W, R. dinv I. constructor; fin.
      + rewrite nth_error_app2 by lia. replace (W - length (calls tr)) with 0 by lia. reflexivity.
      + rewrite Ircvd, firstn_app. replace (R - length (calls tr)) with 0 by lia.
        rewrite firstn_O, app_nil_r. reflexivity.
      + destruct r; auto; apply nth_error_snoc; auto.
      + intros. rewrite Islots by auto. rewrite nth_error_app1 by lia. reflexivity.
    - exists W, R. destruct s; dinv I. subst. constructor; fin.
    - exists W, R. dinv I. constructor; fin.
    - exists (S W), R. dinv I. destruct Isidx as (k & Hk & Hs).
      assert (HW : k = W) by lia. subst k.
      constructor; fin.
      + exists W. split; [lia|auto].
      + intros k Hkr. unfold upd. destruct (Nat.eqb_spec (k mod size) h) as [E|E].
        * subst h. assert (k = W \/ k < W) as [->|Hlt] by lia; [auto|].
          exfalso. apply (mod_neq size k W) in E; auto; try lia.
        * apply Islots. assert (k = W \/ k < W) as [->|Hlt] by lia; [congruence|lia].
    - exists W, R. dinv I. destruct Isidx as (k & Hk & Hs). constructor; fin.
      exists (k + 1). split; [lia|]. subst h. apply succ_mod; auto.
    - exists W, R. dinv I. constructor; fin.
    - exists W, R. dinv I. constructor; fin.
    - exists W, R. dinv I. constructor; fin.
    - exists W, R. dinv I.
      assert (c < size).
      { assert (R <= W). { destruct q; simpl in *; lia. } 
        destruct a; simpl in *; lia. }
      cutif; [|lia]. constructor; fin.
    - exists W, R. dinv I. constructor; fin.
    - exists W, R. dinv I. constructor; fin.
  Qed.

  Lemma inv_rstep tr s e s' W R :
    Inv tr s W R -> rstep V size s e s' -> exists W' R', Inv (tr_ext tr e) s' W' R'.
  Proof.
    intros I H. pose proof (inv_le _ _ _ _ I) as L. destruct H; simpl tr_ext; simpl in L.
    - exists W, R. dinv I. constructor; fin.
    - exists W, R. dinv I. constructor; fin.
    - exists W, R. dinv I. constructor; fin.
      rewrite <- Islots by lia. congruence.
    - exfalso. dinv I. assert (nth_error (calls tr) R <> None).
      { apply nth_error_Some. lia. }
      rewrite <- Islots in H0 by lia. rewrite Nat.add_0_r in Iridx. congruence.
    - exists W, R. dinv I. constructor; fin.
      rewrite Iridx. apply succ_mod; auto.
    - exists W, (R + 1). dinv I. constructor; fin.
      + rewrite Ircvd. replace (R + 1) with (S R) by lia.
        rewrite (firstn_snoc_nth _ _ _ _ Irv), map_app. reflexivity.
      + intros. apply Islots. lia.
    - exists W, R. dinv I. constructor; fin.
    - exists W, R. dinv I. constructor; fin.
    - exists W, R. dinv I. constructor; fin.
    - exists W, R. dinv I. constructor; fin.
    - exists W, R. dinv I. constructor; fin.
    - exists W, R. dinv I. constructor; fin.
  Qed.

  Lemma inv_qstep tr s s' W R : Inv tr s W R -> qstep V size s s' -> Inv tr s' W R.
  Proof.
    intros I H. pose proof (inv_le _ _ _ _ I) as L. destruct H; simpl in L.
    - dinv I. constructor; fin.
    - dinv I. destruct rd; constructor; fin.
    - dinv I. constructor; fin.
    - assert (g < size) by (dinv I; lia).
      cutif; [|lia]. dinv I. constructor; fin. destruct r; fin.
  Qed.

  Lemma inv_astep tr s s' W R : Inv tr s W R -> astep V size s s' -> Inv tr s' W R.
  Proof.
    intros I H. pose proof (inv_le _ _ _ _ I) as L. destruct H; simpl in L.
    - dinv I. constructor; fin.
    - dinv I. destruct sd; constructor; fin.
    - dinv I. constructor; fin.
    - dinv I. constructor; fin.
    - assert (c < size) by (dinv I; lia).
      cutif; [|lia]. dinv I. constructor; fin.
    - assert (c < size) by (dinv I; lia).
      cutif; [|lia]. dinv I. constructor; fin.
  Qed.

  Lemma inv_step tr s e s' W R :
    Inv tr s W R -> step s e s' -> exists W' R', Inv (tr_ext tr e) s' W' R'.
  Proof.
    intros I H. destruct H.
    - eapply inv_sstep; eauto.
    - eapply inv_rstep; eauto.
    - exists W, R. eapply inv_qstep; eauto.
    - exists W, R. eapply inv_astep; eauto.
  Qed.

  Theorem inv_exec tr s : exec tr s -> exists W R, Inv tr s W R.
  Proof.
    induction 1.
    - exists 0, 0. apply inv_init.
    - destruct IHexec as (W & R & I). exact (inv_step _ _ _ _ _ _ I H0).
    - destruct IHexec as (W & R & I). exact (inv_step _ _ _ _ _ _ I H0).
  Qed.

  (** Inevitability by a decreasing measure. *)
  Definition mq (p : qpc) := match p with QTok => 3 | QRun => 2 | QProbed _ => 1 | _ => 0 end.
  Definition ma (p : apc) :=
    match p with ATok => 4 | ARun => 3 | AHeld => 2 | AProbed _ => 1 | _ => 0 end.
  Definition meas (s : state) : nat :=
    4 * req V s + mq (qpcs V s) + 5 * ack V s + ma (apcs V s).

  Lemma istep_dec s s' : istep s s' -> meas s' < meas s.
  Proof.
    intros [H|H]; destruct H; unfold meas; simpl; try lia;
    try (cutif; simpl; lia); try (destruct rd; simpl; lia); try (destruct sd; simpl; lia).
  Qed.

  Lemma inev_measure (P : state -> Prop) (Phi : state -> Prop) :
    (forall s, Phi s -> P s \/ ~ P s) ->
    (forall s s', Phi s -> istep s s' -> Phi s') ->
    (forall s, Phi s -> ~ P s -> exists s', istep s s') ->
    forall s, Phi s -> inevitable istep P s.
  Proof.
    intros Hd Hp Hs. assert (forall n s, meas s < n -> Phi s -> inevitable istep P s) as G.
    { induction n; intros s Hm Hphi; [lia|].
      destruct (Hd s Hphi) as [HP|HP]; [apply inev_now; auto|].
      apply inev_later; [apply Hs; auto|].
      intros s' Hi. apply IHn; [|eapply Hp; eauto]. apply istep_dec in Hi. lia. }
    intros s Hphi. apply (G (S (meas s))); auto.
  Qed.

  Lemma inv_istep tr s s' W R : Inv tr s W R -> istep s s' -> Inv tr s' W R.
  Proof. intros I [H|H]; [eapply inv_qstep|eapply inv_astep]; eauto. Qed.

  Lemma istep_user s s' : istep s s' ->
    spcs V s' = spcs V s /\ rpcs V s' = rpcs V s /\ sdone V s' = sdone V s /\ rdone V s' = rdone V s.
  Proof.
    intros [H|H]; destruct H; simpl; auto; try (cutif; simpl; auto).
  Qed.

  (** The service thread of the receive port is never stuck unless waiting for a
      send or dead. *)
  Lemma q_can_step s : (qpcs V s = QWait -> 0 < req V s) -> qpcs V s <> QDead ->
    exists s', istep s s'.
  Proof.
    destruct s as [c e f g h i sl sp rp q a sd rd cr]. simpl. intros H1 H2.
    destruct q; try congruence.
    - specialize (H1 eq_refl). destruct e; [lia|]. eexists. left. apply Q_acquire.
    - eexists. left. apply Q_check.
    - eexists. left. apply Q_probe.
    - eexists. left. apply Q_put.
  Qed.

  Lemma a_can_step s : (apcs V s = AWait -> 0 < ack V s) -> apcs V s <> ADead ->
    exists s', istep s s'.
  Proof.
    destruct s as [c e f g h i sl sp rp q a sd rd cr]. simpl. intros H1 H2.
    destruct a; try congruence.
    - specialize (H1 eq_refl). destruct f; [lia|]. eexists. right. apply A_acquire.
    - eexists. right. apply A_check.
    - destruct c; eexists; right; [apply A_probe_fail|apply A_probe_acq].
    - eexists. right. apply A_probe_rel.
    - eexists. right. apply A_release.
  Qed.

  Lemma inev_gen (next : state -> state -> Prop) (P Phi : state -> Prop) (m : state -> nat) :
    (forall s, P s \/ ~ P s) ->
    (forall s s', Phi s -> ~ P s -> next s s' -> P s' \/ (Phi s' /\ m s' < m s)) ->
    (forall s, Phi s -> ~ P s -> exists s', next s s') ->
    forall s, Phi s -> inevitable next P s.
  Proof.
    intros Hd Hp Hs. assert (forall n s, m s < n -> Phi s -> inevitable next P s) as G.
    { induction n; intros s Hm Hphi; [lia|].
      destruct (Hd s) as [HP|HP]; [apply inev_now; auto|].
      apply inev_later; [apply Hs; auto|].
      intros s' Hi. destruct (Hp _ _ Hphi HP Hi) as [|[? ?]]; [apply inev_now; auto|].
      apply IHn; auto. lia. }
    intros s Hphi. apply (G (S (m s))); auto.
  Qed.

  Definition mr (p : rpc V) :=
    match p with RWait _ => 4 | RGot _ => 3 | RCopied _ _ => 2 | RInced _ _ => 1 | _ => 0 end.
  Definition ms (p : spc V) :=
    match p with SWait _ _ => 4 | SAcq _ _ => 3 | SWrote _ => 2 | SInc _ => 1 | _ => 0 end.

  Lemma inev_recv tr s W R : Inv tr s W R -> in_recv s -> rdone V s = false ->
    length (rcvd tr) < nret tr ->
    inevitable (fun s s' => istep s s' \/ exists e, rstep V size s e s')
               (fun s => rpcs V s = RIdle V) s.
  Proof.
    intros I H1 H2 H3.
    apply (inev_gen _ _ (fun s => Inv tr s W R /\ in_recv s /\ rdone V s = false)
                    (fun s => meas s + mr (rpcs V s))).
    - intros s0. destruct (rpcs V s0); auto; right; discriminate.
    - intros s0 s' (I0 & A & B) HP [Hi|[e Hr]].
      + right. pose proof (istep_user _ _ Hi) as (_ & E & _ & F).
        unfold in_recv. rewrite E, F. split; [split; [eapply inv_istep; eauto|auto]|].
        apply istep_dec in Hi. lia.
      + destruct (inv_rstep _ _ _ _ _ _ I0 Hr) as (W' & R' & I').
        assert (W' = W \/ rpcs V s' = RIdle V).
        { left. pose proof (i_rets _ _ _ _ I'). pose proof (i_rets _ _ _ _ I0).
          destruct Hr; simpl in *; rewrite ?nret_app in *; simpl in *; lia. }
        destruct H as [->|H]; [|auto].
        pose proof (i_rlen _ _ _ _ I') as L'. pose proof (i_rlen _ _ _ _ I0) as L0.
        unfold in_recv in *.
        destruct Hr; simpl in *; try contradiction; try congruence; auto;
          right; (split; [split; [|auto]|]); unfold meas; simpl; try lia;
          try (subst R R'; assumption).
    - intros s0 (I0 & A & B) Hn.
      destruct s0 as [c e f g h i sl sp rp q a sd rd cr]. unfold in_recv in A; simpl in *.
      destruct rp; try contradiction.
      + destruct g.
        * cut (exists s', istep (mk V c e f 0 h i sl sp (RWait V) q a sd rd cr) s');
            [intros [s' Hs']; eauto|].
          subst rd. dinv I0. apply q_can_step; simpl; intros; subst; simpl in *; [lia|].
          intro; subst; simpl in *; lia.
        * eexists. right. eexists. apply R_get.
      + destruct (sl i) eqn:E; eexists; right; eexists; [apply R_copy; eauto|apply R_copy_garbage; auto].
      + eexists; right; eexists; apply R_inc.
      + eexists; right; eexists; apply R_ack.
    - auto.
  Qed.

  Lemma inev_send tr s W R : Inv tr s W R -> in_send s -> sdone V s = false ->
    (forall d, spcs V s = SWait V d -> nret tr < size + length (rcvd tr)) ->
    inevitable (fun s s' => istep s s' \/ exists e, sstep V shape_ok size s e s')
               (fun s => spcs V s = SIdle V) s.
  Proof.
    intros I H1 H2 H3.
    apply (inev_gen _ _ (fun s => exists W, Inv tr s W R /\ in_send s /\ sdone V s = false /\
                    (forall d, spcs V s = SWait V d -> nret tr < size + length (rcvd tr)))
                    (fun s => meas s + ms (spcs V s))).
    - intros s0. destruct (spcs V s0); auto; right; discriminate.
    - intros s0 s' (W0 & I0 & A & B & C) HP [Hi|[e Hr]].
      + right. pose proof (istep_user _ _ Hi) as (E & _ & F & _).
        unfold in_send. rewrite E, F. split; [exists W0; split; [eapply inv_istep; eauto|auto]|].
        apply istep_dec in Hi. lia.
      + destruct (inv_sstep _ _ _ _ _ _ I0 Hr) as (W' & R' & I').
        pose proof (i_rlen _ _ _ _ I') as L'. pose proof (i_rlen _ _ _ _ I0) as L0.
        unfold in_send in *.
        destruct Hr; simpl in *; try contradiction; try congruence; auto;
          try (right; split; [exists W'; repeat (split; [solve [subst R R'; assumption|auto]|])|]; unfold meas; simpl; try lia;
          discriminate).
    - intros s0 (W0 & I0 & A & B & C) Hn.
      destruct s0 as [c e f g h i sl sp rp q a sd rd cr]. unfold in_send in A; simpl in *.
      destruct sp; try contradiction.
      + destruct c.
        * cut (exists s', istep (mk V 0 e f g h i sl (SWait V d) rp q a sd rd cr) s');
            [intros [s' Hs']; eauto|].
          specialize (C _ eq_refl).
          subst sd. dinv I0. apply a_can_step; simpl; intros; subst; simpl in *; [lia|].
          intro; subst; simpl in *; lia.
        * eexists. right. eexists. apply S_acquire.
      + eexists; right; eexists; apply S_write.
      + eexists; right; eexists; apply S_inc.
      + eexists; right; eexists; apply S_release.
    - eauto 10.
  Qed.

  Lemma inev_qdead tr s W R : Inv tr s W R -> rdone V s = true ->
    inevitable istep (fun s => qpcs V s = QDead) s.
  Proof.
    intros I H2.
    apply (inev_measure _ (fun s => Inv tr s W R /\ rdone V s = true)).
    - intros. destruct (qpcs V s0); auto; right; discriminate.
    - intros s0 s' (I0 & B) Hi. pose proof (istep_user _ _ Hi) as (_ & E & _ & F).
      rewrite F. split; [eapply inv_istep; eauto|auto].
    - intros s0 (I0 & B) Hn. dinv I0. rewrite B in *. simpl in *.
      apply q_can_step; intros; auto.
      rewrite H in *. simpl in *. lia.
    - auto.
  Qed.

  Lemma inev_adead tr s W R : Inv tr s W R -> sdone V s = true ->
    inevitable istep (fun s => apcs V s = ADead) s.
  Proof.
    intros I H2.
    apply (inev_measure _ (fun s => Inv tr s W R /\ sdone V s = true)).
    - intros. destruct (apcs V s0); auto; right; discriminate.
    - intros s0 s' (I0 & B) Hi. pose proof (istep_user _ _ Hi) as (_ & E & F & _).
      rewrite F. split; [eapply inv_istep; eauto|auto].
    - intros s0 (I0 & B) Hn. dinv I0. rewrite B in *. simpl in *.
      apply a_can_step; intros; auto.
      rewrite H in *. simpl in *. lia.
    - auto.
  Qed.
End Proofs.
