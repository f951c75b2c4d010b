(** C46. *)
From Coq Require Import List Arith Lia Bool.
From Verif Require Import Channel_Model Channel_Spec Channel_Proofs IoPolicy_Model.
Import ListNotations.

(** ** Specification vocabulary: functions of the trace of calls and returns *)
Section Spec.
Context {V : Type}.
Fixpoint offered (tr : list (cevent V)) : list V :=
  match tr with [] => [] | Offered _ d :: r => d :: offered r | _ :: r => offered r end.
Fixpoint accepted (tr : list (cevent V)) : list V :=
  match tr with [] => [] | Accepted _ d :: r => d :: accepted r | _ :: r => accepted r end.
Fixpoint received (tr : list (cevent V)) : list V :=
  match tr with [] => [] | Received _ v :: r => v :: received r | _ :: r => received r end.
(** what the offers came to, in order *)
Inductive outcome := OAcc (d : V) | ODrop (d : V) | ORej (d : V).
Fixpoint outcomes (tr : list (cevent V)) : list outcome :=
  match tr with
  | [] => []
  | Accepted _ d :: r => OAcc d :: outcomes r
  | Dropped _ d :: r => ODrop d :: outcomes r
  | Rejected _ d :: r => ORej d :: outcomes r
  | _ :: r => outcomes r
  end.
Definition of (o : outcome) : V := match o with OAcc d | ODrop d | ORej d => d end.

(** the receive() calls that returned, each with the number of messages that were buffered when it was called;
    [w]: the number for the call in progress *)
Fixpoint waiting (w : nat) (tr : list (cevent V)) : nat :=
  match tr with [] => w | Called _ n :: r => waiting n r | _ :: r => waiting w r end.
Fixpoint receives (w : nat) (tr : list (cevent V)) : list (nat * V) :=
  match tr with
  | [] => []
  | Called _ n :: r => receives n r
  | Received _ v :: r => (w, v) :: receives w r
  | _ :: r => receives w r
  end.

(** [fetched g (n, v)]: a receive() called while [n] messages were buffered, which took the messages [g] off the
    buffer, may return [v]: zeros only if nothing was buffered; one message with FIFO, or if it had to wait; and with
    ACCUMULATE the sum of at least everything that was buffered at the time of the call *)
Inductive fetched (zero : V) (add : V -> V -> V) (pe : receive_empty) (pn : receive_not_empty) : list V -> nat * V -> Prop :=
| f_zeros : pe = EZeros -> fetched zero add pe pn [] (0, zero)
| f_one n v : pn = Fifo \/ (pe = EBlocking /\ n = 0) -> fetched zero add pe pn [v] (n, v)
| f_all n vs : pn = Accumulate -> vs <> [] -> n <= length vs -> fetched zero add pe pn vs (n, fold_left add vs zero).
End Spec.

Section Proofs.
Variable V : Type.
Variable shape_ok : V -> bool.
Variable size : nat.
Hypothesis size_pos : 0 < size.
Variable zero : V.
Variable add : V -> V -> V.
Variable ps : send_full.
Variable pe : receive_empty.
Variable pn : receive_not_empty.
Notation cexec := (cexec V shape_ok size zero add ps pe pn).
Notation cstep := (cstep V shape_ok size zero add ps pe pn).
Notation ustep := (ustep V shape_ok size ps).
Notation vstep := (vstep V size zero add pe pn).
Notation dstep := (dstep V size).
Notation exec := (exec V shape_ok size).
Notation fetched := (fetched zero add pe pn).

Lemma offered_app (a b : list (cevent V)) : offered (a ++ b) = offered a ++ offered b.
Proof. induction a as [|[] a IH]; simpl; congruence. Qed.
Lemma accepted_app (a b : list (cevent V)) : accepted (a ++ b) = accepted a ++ accepted b.
Proof. induction a as [|[] a IH]; simpl; congruence. Qed.
Lemma received_app (a b : list (cevent V)) : received (a ++ b) = received a ++ received b.
Proof. induction a as [|[] a IH]; simpl; congruence. Qed.
Lemma waiting_app (a b : list (cevent V)) : forall w, waiting w (a ++ b) = waiting (waiting w a) b.
Proof. induction a as [|[] a IH]; intro w; simpl; auto. Qed.
Lemma receives_app (a b : list (cevent V)) : forall w, receives w (a ++ b) = receives w a ++ receives (waiting w a) b.
Proof. induction a as [|[] a IH]; intro w; simpl; auto. rewrite IH. reflexivity. Qed.
Lemma outcomes_app (a b : list (cevent V)) : outcomes (a ++ b) = outcomes a ++ outcomes b.
Proof. induction a as [|[] a IH]; simpl; congruence. Qed.

(** the messages of the receive() in progress: [cur], and what it will return *)
Definition cur_ok (p : ppc V) (cur : list V) (q got w : nat) : Prop :=
  match p with
  | PIdle _ => cur = []
  | PCalled _ => cur = [] /\ w <= q
  | PNext _ k acc | PIn _ k acc =>
      (k = 1 /\ acc = None /\ cur = [] /\ (pn = Fifo \/ (pe = EBlocking /\ w = 0)) /\ (pe = EZeros -> 1 <= q + got)) \/
      (1 <= k /\ pn = Accumulate /\ acc = Some (fold_left add cur zero) /\ k <= q + got /\ w <= length cur + k)
  end.
Definition pending (u : upc V) : list V := match u with UIdle _ => [] | UProbe _ d | USend _ d | USending _ d => [d] end.
Definition rin (p : ppc V) : Prop := match p with PIn _ _ _ => True | _ => False end.

Record R (tr : list (cevent V)) (c : cst V) (ctr : list (event V)) (groups : list (list V)) (cur : list V) : Prop := {
  r_exec : exec ctr (ch V c);
  r_acc : accepted tr = sent ctr;
  r_rcvd : rcvd ctr = map Some (concat groups ++ cur);
  r_res : Forall2 fetched groups (receives 0 tr);
  r_cur : cur_ok (rp V c) cur (queue V (ch V c)) (r_got V (rpcs V (ch V c))) (waiting 0 tr);
  r_sd : sdone V (ch V c) = false;
  r_rd : rdone V (ch V c) = false;
  r_off : offered tr = map of (outcomes tr) ++ pending (up V c);
  r_pc : match up V c with
         | UIdle _ | USend _ _ => spcs V (ch V c) = SIdle V
         | UProbe _ _ => spcs V (ch V c) = SIdle V \/ spcs V (ch V c) = SProbeHeld V
         | USending _ d => in_send (ch V c) /\ nth_error (calls ctr) (nret ctr) = Some d /\ shape_ok d = true
         end;
  r_rpc : match rp V c with
          | PIn _ _ _ => in_recv (ch V c)
          | _ => rpcs V (ch V c) = RIdle V
          end;
  r_room : ps = SDrop ->
           match up V c with
           | USend _ _ => nret ctr < size + length (rcvd ctr)
           | USending _ _ => nret ctr < size + length (rcvd ctr)
           | _ => True
           end;
  r_block : ps = SBlocking -> (match up V c with UProbe _ _ => False | _ => True end) /\
            forall o, In o (outcomes tr) -> match o with ODrop _ => False | _ => True end;
  r_rej : forall o, In o (outcomes tr) -> match o with ORej d => shape_ok d = false | OAcc d => shape_ok d = true | _ => True end;
  r_accs : accepted tr = concat (map (fun o => match o with OAcc d => [d] | _ => [] end) (outcomes tr));
  r_nogarb : ~ In (Garbage V) tr }.

Lemma R_init : R [] (cinit V size) [] [] [].
Proof.
  constructor; simpl; auto; try constructor; try tauto.
Qed.

Lemma sent_snoc_other tr e : calls [e] = [] -> nret [e] = 0 -> sent (tr ++ [e]) = sent (V := V) tr.
Proof. intros H1 H2. unfold sent. rewrite calls_app, nret_app, H1, H2, app_nil_r, Nat.add_0_r. auto. Qed.

Lemma inv_nret ctr s : exec ctr s -> (spcs V s = SIdle V \/ spcs V s = SProbeHeld V -> length (calls ctr) = nret ctr) /\
  (in_send s -> length (calls ctr) = S (nret ctr)).
Proof.
  intro H. destruct (inv_exec _ _ _ size_pos _ _ H) as (W & R & I).
  pose proof (i_calls _ _ _ _ _ _ I) as A. pose proof (i_rets _ _ _ _ _ _ I) as B. split.
  - intros [E|E]; rewrite E in *; simpl in *; lia.
  - unfold in_send. destruct (spcs V s); simpl in *; try tauto; lia.
Qed.

Lemma step_R tr c e c' ctr groups cur : R tr c ctr groups cur -> cstep c e c' ->
  exists ctr' groups' cur', R (match e with None => tr | Some x => tr ++ [x] end) c' ctr' groups' cur'.
Proof.
  intros HR Hs. destruct HR. destruct Hs as [c e c' Hu|c e c' Hv|c c' Hd].
  - (* sender *)
    destruct Hu as [d s r|d s s' r Hc|d s s' r Hc|d s s' r Hc|d s s' r Hc|d s s' r Hc|d s s' r Hc|d s s' r Hc]; simpl in *.
    + (* offer *)
      exists ctr, groups, cur.
      constructor; simpl; rewrite ?accepted_app, ?receives_app, ?waiting_app, ?offered_app, ?outcomes_app; simpl; rewrite ?app_nil_r; auto.
      * rewrite r_off0. simpl. rewrite app_nil_r. destruct ps; auto.
      * destruct ps; auto.
      * intros E. rewrite E. auto.
      * intros E. rewrite E. split; auto. apply r_block0. auto.
      * rewrite in_app_iff. simpl. intros [X|[X|[]]]; [auto|discriminate].
    + (* probe go *)
      exists ctr, groups, cur.
      assert (queue V s' = queue V s /\ rpcs V s' = rpcs V s /\ sdone V s' = sdone V s /\ rdone V s' = rdone V s /\ (spcs V s' = SProbeHeld V)) as (Q1 & Q2 & Q3 & Q4 & Q5).
      { inversion Hc; subst; simpl in *; auto; destruct r_pc0; discriminate. }
      constructor; simpl; rewrite ?Q1, ?Q2, ?Q3, ?Q4; auto.
      * eapply exec_silent; [exact r_exec0|apply step_s; auto].
      * unfold in_recv in *. rewrite Q2. auto.
    + (* probe yes *)
      pose proof (exec_event _ _ _ _ _ _ _ r_exec0 (step_s _ _ _ _ _ _ Hc)) as HX.
      exists (ctr ++ [EvSendProbe V true]), groups, cur.
      assert (queue V s' = queue V s /\ rpcs V s' = rpcs V s /\ sdone V s' = sdone V s /\ rdone V s' = rdone V s /\ spcs V s' = SIdle V /\ s_held V (spcs V s) = 1) as (Q1 & Q2 & Q3 & Q4 & Q5 & Q6).
      { destruct (inv_exec _ _ _ size_pos _ _ HX) as (W & R & I). pose proof (i_crash _ _ _ _ _ _ I) as Y. clear HX I.
        inversion Hc; subst. destruct (c <? size); [simpl; auto 10|discriminate Y]. }
      constructor; simpl; rewrite ?Q1, ?Q2, ?Q3, ?Q4, ?sent_snoc_other, ?rcvd_app by auto; simpl; rewrite ?app_nil_r; auto.
      * unfold in_recv in *. rewrite Q2. auto.
      * intros _. rewrite nret_app. simpl. destruct (inv_exec _ _ _ size_pos _ _ r_exec0) as (W & R0 & I).
        pose proof (inv_le _ _ size_pos _ _ _ _ I) as (_ & L2 & _ & L4). pose proof (i_rlen _ _ _ _ _ _ I). lia.
      * intros E. specialize (r_block0 E). tauto.
    + (* probe no *)
      exists (ctr ++ [EvSendProbe V false]), groups, cur.
      assert (s' = s /\ spcs V s = SIdle V) as [-> Q5] by (inversion Hc; subst; simpl in *; auto).
      constructor; simpl; rewrite ?sent_snoc_other, ?rcvd_app, ?accepted_app, ?receives_app, ?waiting_app, ?offered_app, ?outcomes_app by auto; simpl; rewrite ?app_nil_r; auto.
      * eapply exec_event; [exact r_exec0|apply step_s; auto].
      * rewrite r_off0, map_app. simpl. auto.
      * intros E. specialize (r_block0 E). tauto.
      * intros o. rewrite in_app_iff. simpl. intros [X|[<-|[]]]; [apply r_rej0; auto|auto].
      * rewrite map_app, concat_app. simpl. rewrite app_nil_r. auto.
      * rewrite in_app_iff. simpl. intros [X|[X|[]]]; [auto|discriminate].
    + (* call *)
      pose proof (exec_event _ _ _ _ _ _ _ r_exec0 (step_s _ _ _ _ _ _ Hc)) as HX.
      exists (ctr ++ [EvSendCall V d]), groups, cur.
      destruct (inv_nret _ _ r_exec0) as [L _]. specialize (L (or_introl r_pc0)).
      assert (queue V s' = queue V s /\ rpcs V s' = rpcs V s /\ sdone V s' = sdone V s /\ rdone V s' = rdone V s /\ in_send s' /\ shape_ok d = true) as (Q1 & Q2 & Q3 & Q4 & Q5 & Q6).
      { inversion Hc; subst; unfold in_send; simpl in *; auto 10. }
      assert (sent (ctr ++ [EvSendCall V d]) = sent ctr) as Es.
      { unfold sent. rewrite calls_app, nret_app. cbn [calls nret]. rewrite Nat.add_0_r. rewrite firstn_app.
        replace (nret ctr - length (calls ctr)) with 0 by lia. cbn [firstn]. rewrite app_nil_r. auto. }
      constructor; simpl; rewrite ?Q1, ?Q2, ?Q3, ?Q4, ?Es, ?rcvd_app by auto; simpl; rewrite ?app_nil_r; auto.
      * split; auto. split; auto. rewrite calls_app, nret_app. simpl. rewrite Nat.add_0_r, nth_error_app2 by lia. rewrite L, Nat.sub_diag. auto.
      * unfold in_recv in *. rewrite Q2. auto.
      * intros E. rewrite nret_app. simpl. specialize (r_room0 E). lia.
    + (* reject *)
      exists (ctr ++ [EvSendReject V d]), groups, cur.
      assert (s' = s /\ shape_ok d = false) as [-> Q5] by (inversion Hc; subst; simpl in *; auto).
      constructor; simpl; rewrite ?sent_snoc_other, ?rcvd_app, ?accepted_app, ?receives_app, ?waiting_app, ?offered_app, ?outcomes_app by auto; simpl; rewrite ?app_nil_r; auto.
      * eapply exec_event; [exact r_exec0|apply step_s; auto].
      * rewrite r_off0, map_app. simpl. auto.
      * intros E. specialize (r_block0 E). split; auto. intros o. rewrite in_app_iff. simpl. intros [X|[<-|[]]]; [apply r_block0; auto|auto].
      * intros o. rewrite in_app_iff. simpl. intros [X|[<-|[]]]; [apply r_rej0; auto|auto].
      * rewrite map_app, concat_app. simpl. rewrite app_nil_r. auto.
      * rewrite in_app_iff. simpl. intros [X|[X|[]]]; [auto|discriminate].
    + (* go *)
      exists ctr, groups, cur. destruct r_pc0 as (P1 & P2 & P3).
      assert (queue V s' = queue V s /\ rpcs V s' = rpcs V s /\ sdone V s' = sdone V s /\ rdone V s' = rdone V s /\ in_send s') as (Q1 & Q2 & Q3 & Q4 & Q5).
      { unfold in_send in *. inversion Hc; subst; simpl in *; auto 10; contradiction. }
      constructor; simpl; rewrite ?Q1, ?Q2, ?Q3, ?Q4; auto.
      * eapply exec_silent; [exact r_exec0|apply step_s; auto].
      * unfold in_recv in *. rewrite Q2. auto.
    + (* ret *)
      pose proof (exec_event _ _ _ _ _ _ _ r_exec0 (step_s _ _ _ _ _ _ Hc)) as HX. destruct r_pc0 as (P1 & P2 & P3).
      exists (ctr ++ [EvSendRet V]), groups, cur.
      assert (queue V s' = queue V s /\ rpcs V s' = rpcs V s /\ sdone V s' = sdone V s /\ rdone V s' = rdone V s /\ spcs V s' = SIdle V) as (Q1 & Q2 & Q3 & Q4 & Q5).
      { inversion Hc; subst; simpl in *; auto 10. }
      assert (sent (ctr ++ [EvSendRet V]) = sent ctr ++ [d]) as Es.
      { unfold sent. rewrite calls_app, nret_app. simpl. rewrite app_nil_r. rewrite Nat.add_1_r.
        apply firstn_snoc_nth. auto. }
      constructor; simpl; rewrite ?Q1, ?Q2, ?Q3, ?Q4, ?Es, ?rcvd_app, ?accepted_app, ?receives_app, ?waiting_app, ?offered_app, ?outcomes_app by auto; simpl; rewrite ?app_nil_r; auto.
      * congruence.
      * rewrite r_off0, map_app. simpl. auto.
      * unfold in_recv in *. rewrite Q2. auto.
      * intros E. specialize (r_block0 E). split; auto. intros o. rewrite in_app_iff. simpl. intros [X|[<-|[]]]; [apply r_block0; auto|auto].
      * intros o. rewrite in_app_iff. simpl. intros [X|[<-|[]]]; [apply r_rej0; auto|auto].
      * rewrite map_app, concat_app. simpl. rewrite r_accs0. auto.
      * rewrite in_app_iff. simpl. intros [X|[X|[]]]; [auto|discriminate].
  - (* receiver *)
    destruct Hv as [s u|s u|s s' u k acc Hc|s s' u k acc Hc|s s' u acc v Hc|s s' u k acc v Hc|s s' u k acc Hc]; simpl in *.
    + (* called *)
      exists ctr, groups, cur.
      constructor; simpl; rewrite ?accepted_app, ?receives_app, ?waiting_app, ?offered_app, ?outcomes_app; simpl; rewrite ?app_nil_r; auto.
      rewrite in_app_iff. simpl. intros [X|[X|[]]]; [auto|discriminate].
    + (* qsize *)
      destruct r_cur0 as [-> Hw]. destruct (queue V s) as [|n] eqn:Eq.
      * unfold after_qsize. assert (pe = EBlocking \/ pe = EZeros) as [Epe|Epe] by (destruct pe; auto); rewrite Epe; simpl.
        -- exists ctr, groups, []. constructor; simpl; auto. left. repeat split; auto; [right; split; [auto|lia]|]. rewrite Epe. discriminate.
        -- exists ctr, (groups ++ [[]]), []. 
           constructor; simpl; rewrite ?accepted_app, ?receives_app, ?waiting_app, ?offered_app, ?outcomes_app; simpl; rewrite ?app_nil_r; auto.
           ++ rewrite r_rcvd0, concat_app. simpl. rewrite !app_nil_r. auto.
           ++ apply Forall2_app; auto. replace (waiting 0 tr) with 0 by lia. constructor; [apply f_zeros; auto|constructor].
           ++ rewrite in_app_iff. simpl. intros [X|[X|[]]]; [auto|discriminate].
      * assert (exists ctr' groups' cur', R tr (mkc V s u (snd (after_qsize V zero pe pn (S n)))) ctr' groups' cur') as G.
        { exists ctr, groups, []. constructor; simpl; auto.
          - assert (pn = Fifo \/ pn = Accumulate) as [Epn|Epn] by (destruct pn; auto); rewrite Epn; simpl; rewrite ?Eq, ?r_rpc0; simpl.
            + left. repeat split; auto. lia.
            + right. repeat split; auto; simpl; lia.
          - destruct pn; simpl; auto. }
        assert (fst (after_qsize V zero pe pn (S n)) = None) as -> by (unfold after_qsize; destruct pn; auto). exact G.
    + (* recv call *)
      exists (ctr ++ [EvRecvCall V]), groups, cur.
      assert (queue V s' = queue V s /\ spcs V s' = spcs V s /\ sdone V s' = sdone V s /\ rdone V s' = rdone V s /\ rpcs V s' = RWait V) as (Q1 & Q2 & Q3 & Q4 & Q5).
      { inversion Hc; subst; simpl in *; auto 10. }
      constructor; simpl; rewrite ?Q1, ?Q2, ?Q3, ?Q4, ?Q5, ?sent_snoc_other, ?rcvd_app, ?nret_app by auto; simpl; rewrite ?app_nil_r, ?Nat.add_0_r; auto.
      * eapply exec_event; [exact r_exec0|apply step_r; auto].
      * rewrite r_rpc0 in r_cur0. simpl in r_cur0. rewrite ?Nat.add_0_r in r_cur0. auto.
      * destruct u; auto. unfold in_send in *. rewrite Q2. rewrite calls_app. simpl. rewrite app_nil_r. auto.
      * unfold in_recv. rewrite Q5. auto.
    + (* recv go *)
      exists ctr, groups, cur.
      assert (queue V s' + r_got V (rpcs V s') = queue V s + r_got V (rpcs V s) /\ spcs V s' = spcs V s /\ sdone V s' = sdone V s /\ rdone V s' = rdone V s /\ in_recv s') as (Q1 & Q2 & Q3 & Q4 & Q5).
      { unfold in_recv in *. inversion Hc; subst; simpl in *; try contradiction; repeat split; auto; lia. }
      constructor; simpl; rewrite ?Q1, ?Q2, ?Q3, ?Q4; auto.
      * eapply exec_silent; [exact r_exec0|apply step_r; auto].
      * destruct u; auto. unfold in_send in *. rewrite Q2. auto.
    + (* last *)
      pose proof (exec_event _ _ _ _ _ _ _ r_exec0 (step_r _ _ _ _ _ _ Hc)) as HX.
      exists (ctr ++ [EvRecvRet V (Some v)]), (groups ++ [cur ++ [v]]), [].
      assert (queue V s' = queue V s /\ spcs V s' = spcs V s /\ sdone V s' = sdone V s /\ rdone V s' = rdone V s /\ rpcs V s' = RIdle V) as (Q1 & Q2 & Q3 & Q4 & Q5).
      { inversion Hc; subst; simpl in *; auto 10. }
      constructor; simpl; rewrite ?Q1, ?Q2, ?Q3, ?Q4, ?Q5, ?sent_snoc_other, ?rcvd_app, ?nret_app, ?accepted_app, ?receives_app, ?waiting_app, ?offered_app, ?outcomes_app by auto; simpl; rewrite ?app_nil_r, ?Nat.add_0_r; auto.
      * rewrite r_rcvd0, concat_app. simpl. rewrite !app_nil_r, !map_app, <- app_assoc. auto.
      * apply Forall2_app; auto. constructor; [|constructor].
        destruct r_cur0 as [(K1 & -> & -> & K4 & _)|(K1 & K2 & -> & K4 & K5)]; simpl.
        -- apply f_one; auto.
        -- replace (add (fold_left add cur zero) v) with (fold_left add (cur ++ [v]) zero) by (rewrite fold_left_app; auto).
           apply f_all; auto; [destruct cur; discriminate|rewrite app_length; simpl; lia].
      * destruct u; auto. unfold in_send in *. rewrite Q2. rewrite calls_app. simpl. rewrite app_nil_r. auto.
      * intros E. specialize (r_room0 E). rewrite app_length. simpl. destruct u; auto; lia.
      * rewrite in_app_iff. simpl. intros [X|[X|[]]]; [auto|discriminate].
    + (* more *)
      exists (ctr ++ [EvRecvRet V (Some v)]), groups, (cur ++ [v]).
      assert (queue V s' = queue V s /\ spcs V s' = spcs V s /\ sdone V s' = sdone V s /\ rdone V s' = rdone V s /\ rpcs V s' = RIdle V /\ r_got V (rpcs V s) = 1) as (Q1 & Q2 & Q3 & Q4 & Q5 & Q6).
      { inversion Hc; subst; simpl in *; auto 10. }
      constructor; simpl; rewrite ?Q1, ?Q2, ?Q3, ?Q4, ?Q5, ?sent_snoc_other, ?rcvd_app, ?nret_app by auto; simpl; rewrite ?app_nil_r, ?Nat.add_0_r; auto.
      * eapply exec_event; [exact r_exec0|apply step_r; auto].
      * rewrite r_rcvd0. rewrite !map_app, <- app_assoc. auto.
      * right. destruct r_cur0 as [(K1 & _)|(K1 & K2 & -> & K4 & K5)]; [discriminate|].
        repeat split; auto; try lia; [rewrite fold_left_app; auto|rewrite app_length; simpl; lia].
      * destruct u; auto. unfold in_send in *. rewrite Q2. rewrite calls_app. simpl. rewrite app_nil_r. auto.
      * intros E. specialize (r_room0 E). rewrite app_length. simpl. destruct u; auto; lia.
    + (* garbage: impossible *)
      exfalso. pose proof (exec_event _ _ _ _ _ _ _ r_exec0 (step_r _ _ _ _ _ _ Hc)) as HX.
      destruct (inv_exec _ _ _ size_pos _ _ HX) as (W & R0 & I). pose proof (i_rcvd _ _ _ _ _ _ I) as Y.
      rewrite rcvd_app in Y. simpl in Y. assert (In None (map Some (firstn R0 (calls (ctr ++ [EvRecvRet V None]))))) as Z.
      { rewrite <- Y. apply in_or_app. right. left. auto. }
      apply in_map_iff in Z. destruct Z as (x & Z & _). discriminate.
  - (* daemons *)
    destruct Hd as [s s' u r Hi]. simpl in *.
    pose proof (istep_user _ _ _ _ Hi) as (Q2 & Q5 & Q3 & Q4).
    exists ctr, groups, cur.
    assert (queue V s <= queue V s') as Q1.
    { destruct Hi as [Hi|Hi]; destruct Hi; simpl; auto; try (destruct (_ <? _); simpl; auto). }
    constructor; simpl; rewrite ?Q2, ?Q3, ?Q4, ?Q5; auto.
    * destruct Hi as [Hi|Hi]; eapply exec_silent; try exact r_exec0; [apply step_q|apply step_a]; auto.
    * unfold cur_ok in *. destruct r; auto; [split; [tauto|lia]| |]; (destruct r_cur0 as [(K1 & K2 & K3 & K4 & K5)|(K1 & K2 & K3 & K4 & K6)]; [left|right]; repeat split; auto; try lia;
      try (intro E; specialize (K5 E); lia)).
    * destruct u; auto. unfold in_send in *. rewrite Q2. auto.
    * destruct r; auto. unfold in_recv in *. rewrite Q5. auto.
Qed.

Lemma exec_R tr c : cexec tr c -> exists ctr groups cur, R tr c ctr groups cur.
Proof.
  induction 1 as [|tr c c' H IH Hs|tr c e c' H IH Hs].
  - exists [], [], []. apply R_init.
  - destruct IH as (ctr & g & cur & HR). apply (step_R _ _ _ _ _ _ _ HR Hs).
  - destruct IH as (ctr & g & cur & HR). apply (step_R _ _ _ _ _ _ _ HR Hs).
Qed.

(** ** Theorems *)
(** Nothing accepted is lost, duplicated or reordered: the receive() calls together took a prefix of what
    was accepted off the buffer, each of them what its policy says.  ([rest] is still buffered; with the
    FIFO policy each call took one message, with ACCUMULATE one or more, and returned their sum; a call that
    took none returned zeros, which only the ZEROS policy does.) *)
Theorem policy_lossless : forall tr c, cexec tr c ->
  exists groups rest, Forall2 fetched groups (receives 0 tr) /\ accepted tr = concat groups ++ rest.
Proof.
  intros tr c H. destruct (exec_R _ _ H) as (ctr & g & cur & HR). destruct HR.
  destruct (inv_exec _ _ _ size_pos _ _ r_exec0) as (W & R0 & I).
  pose proof (inv_le _ _ size_pos _ _ _ _ I) as (L1 & L2 & L3 & L4).
  pose proof (i_rcvd _ _ _ _ _ _ I) as E. rewrite r_rcvd0 in E.
  assert (concat g ++ cur = firstn R0 (calls ctr)) as E'.
  { clear - E. revert E. generalize (firstn R0 (calls ctr)). generalize (concat g ++ cur). intro l. induction l as [|x l IH]; intros [|y m] Q; simpl in Q; try discriminate; auto.
    injection Q as <- Q. f_equal. apply IH. auto. }
  exists g, (cur ++ skipn R0 (accepted tr)). split; auto. rewrite app_assoc, E', r_acc0.
  rewrite <- (firstn_skipn R0 (sent ctr)) at 1. f_equal. unfold sent. rewrite firstn_firstn. f_equal. lia.
Qed.

(** Every offer comes to exactly one outcome, in order; only ill-shaped data is rejected; under BLOCKING
    nothing is ever dropped. *)
Theorem policy_outcomes : forall tr c, cexec tr c ->
  (exists pend, offered tr = map of (outcomes tr) ++ pend /\ length pend <= 1 /\ (up V c = UIdle V -> pend = [])) /\
  accepted tr = concat (map (fun o => match o with OAcc d => [d] | _ => [] end) (outcomes tr)) /\
  (forall d, In (ORej d) (outcomes tr) -> shape_ok d = false) /\
  (ps = SBlocking -> forall d, ~ In (ODrop d) (outcomes tr)).
Proof.
  intros tr c H. destruct (exec_R _ _ H) as (ctr & g & cur & HR). destruct HR. split; [|split; [|split]].
  - exists (pending (up V c)). split; auto. split; [destruct (up V c); simpl; lia|]. intros ->. auto.
  - auto.
  - intros d Hd. apply (r_rej0 _ Hd).
  - intros E d Hd. apply (proj2 (r_block0 E) _ Hd).
Qed.
(** hence, with BLOCKING and well-shaped data, what was offered is what was accepted *)
Theorem policy_blocking_all : forall tr c, cexec tr c -> ps = SBlocking -> up V c = UIdle V ->
  (forall d, In d (offered tr) -> shape_ok d = true) -> accepted tr = offered tr.
Proof.
  intros tr c H Hb Hu Hs. destruct (policy_outcomes _ _ H) as ((pend & E & _ & P) & A & J & D).
  rewrite (P Hu), app_nil_r in E. rewrite A, E. specialize (D Hb).
  assert (forall d, In (ORej d) (outcomes tr) -> False) as J'.
  { intros d Hd. pose proof (J d Hd). rewrite E in Hs. rewrite (Hs d) in H0; [discriminate|].
    apply in_map_iff. exists (ORej d). auto. }
  clear - D J'. induction (outcomes tr) as [|o l IH]; simpl; auto.
  destruct o; simpl.
  - f_equal. apply IH; [intros x Hx; apply (D x); right; auto|intros x Hx; apply (J' x); right; auto].
  - exfalso. apply (D d). left; auto.
  - exfalso. apply (J' d). left; auto.
Qed.

(** At most [size] accepted messages are ever in the buffer. *)
Theorem policy_capacity : forall tr c, cexec tr c -> exists groups cur,
  Forall2 fetched groups (receives 0 tr) /\ (rp V c = PIdle V -> cur = []) /\
  length (accepted tr) <= size + length (concat groups ++ cur) /\ length (concat groups ++ cur) <= length (accepted tr).
Proof.
  intros tr c H. destruct (exec_R _ _ H) as (ctr & g & cur & HR). destruct HR.
  destruct (inv_exec _ _ _ size_pos _ _ r_exec0) as (W & R0 & I).
  pose proof (inv_le _ _ size_pos _ _ _ _ I) as (L1 & L2 & L3 & L4). pose proof (i_rlen _ _ _ _ _ _ I) as L.
  exists g, cur. split; auto. split; [intro E; rewrite E in r_cur0; auto|].
  rewrite r_rcvd0, map_length in L. rewrite r_acc0. unfold sent. rewrite firstn_length. lia.
Qed.

(** Under DROP data is dropped only when [size] accepted messages are in the buffer, provided no
    acknowledgement of an earlier message is just being processed by the port's service thread. *)
Theorem policy_drop_full_partial : forall tr c d c', cexec tr c -> cstep c (Some (Dropped V d)) c' ->
  apcs V (ch V c) = AWait -> ack V (ch V c) = 0 ->
  exists groups cur, Forall2 fetched groups (receives 0 tr) /\ (rp V c = PIdle V -> cur = []) /\
    length (accepted tr) = size + length (concat groups ++ cur).
Proof.
  intros tr c d c' H Hs HA HK. destruct (exec_R _ _ H) as (ctr & g & cur & HR). destruct HR.
  destruct (inv_exec _ _ _ size_pos _ _ r_exec0) as (W & R0 & I).
  pose proof (inv_le _ _ size_pos _ _ _ _ I) as (L1 & L2 & L3 & L4). pose proof (i_rlen _ _ _ _ _ _ I) as L.
  exists g, cur. split; auto. split; [intro E; rewrite E in r_cur0; auto|].
  rewrite r_rcvd0, map_length in L. rewrite r_acc0. unfold sent. rewrite firstn_length.
  pose proof (i_ack _ _ _ _ _ _ I) as K. pose proof (i_calls _ _ _ _ _ _ I) as K1. pose proof (i_rets _ _ _ _ _ _ I) as K2.
  inversion Hs as [? ? ? Hu|? ? ? Hv|]; subst.
  - inversion Hu as [| | |? s s' r Hc| | | |]; subst. inversion Hc; subst. simpl in *. subst. simpl in *. lia.
  - inversion Hv; subst. unfold after_qsize in *. destruct (queue V s), pe, pn; simpl in *; discriminate.
Qed.

Lemma dstep_R tr c c' ctr g cur : R tr c ctr g cur -> dstep c c' -> R tr c' ctr g cur.
Proof.
  intros HR Hd. destruct HR. destruct Hd as [s s' u r Hi]. simpl in *.
  pose proof (istep_user _ _ _ _ Hi) as (Q2 & Q5 & Q3 & Q4).
  assert (queue V s <= queue V s') as Q1.
  { destruct Hi as [Hi|Hi]; destruct Hi; simpl; auto; try (destruct (_ <? _); simpl; auto). }
  constructor; simpl; rewrite ?Q2, ?Q3, ?Q4, ?Q5; auto.
  * destruct Hi as [Hi|Hi]; eapply exec_silent; try exact r_exec0; [apply step_q|apply step_a]; auto.
  * unfold cur_ok in *. destruct r; auto; [split; [tauto|lia]| |]; (destruct r_cur0 as [(K1 & K2 & K3 & K4 & K5)|(K1 & K2 & K3 & K4 & K6)]; [left|right]; repeat split; auto; try lia;
    try (intro E; specialize (K5 E); lia)).
  * destruct u; auto. unfold in_send in *. rewrite Q2. auto.
  * destruct r; auto. unfold in_recv in *. rewrite Q5. auto.
Qed.

(** Non-blocking send: under DROP a send() returns whatever the receiver does or does not do. *)
Definition mu (u : upc V) : nat := match u with UIdle _ => 0 | UProbe _ _ => 20 | USend _ _ => 10 | USending _ _ => 5 end.
Definition msp (p : spc V) : nat := match p with SWait _ _ => 4 | SAcq _ _ => 3 | SWrote _ => 2 | SInc _ => 1 | SProbeHeld _ => 0 | SIdle _ => 1 end.
Theorem policy_drop_never_blocks : forall tr c, cexec tr c -> ps = SDrop ->
  inevitable (fun c c' => dstep c c' \/ exists e, ustep c e c' /\ (forall d, e <> Some (Offered V d))) (fun c => up V c = UIdle V) c.
Proof.
  intros tr c H HP.
  apply (inev_by_measure _ _ (fun c => exists tr ctr g cur, R tr c ctr g cur)
           (fun c => meas V (ch V c) + 10 * mu (up V c) + msp (spcs V (ch V c)))).
  - intros s. destruct (up V s); auto; right; discriminate.
  - intros s s' (tr0 & ctr & g & cur & HR) Hn [Hd|[e [Hu Hne]]].
    + right. split; [exists tr0, ctr, g, cur; eapply dstep_R; eauto|].
      destruct Hd as [a a' u r Hi]. simpl. pose proof (istep_user _ _ _ _ Hi) as (Q2 & _). rewrite Q2.
      apply istep_dec in Hi; [lia|auto].
    + destruct (step_R _ _ _ _ _ _ _ HR (c_u _ _ _ _ _ _ _ _ _ _ _ Hu)) as (ctr' & g' & cur' & HR').
      destruct (match up V s' with UIdle _ => true | _ => false end) eqn:Eu; [left; destruct (up V s'); congruence|].
      right. split; [eauto 10|].
      assert (forall s e s', sstep V shape_ok size s e s' -> meas V s' <= meas V s + 5) as HM.
      { clear. intros s e s' X. destruct X; try match goal with |- context [?a <? ?b] => destruct (a <? b) end; unfold meas; simpl; lia. }
      destruct HR. destruct Hu as [d a r|d a a' r Hc|d a a' r Hc|d a a' r Hc|d a a' r Hc|d a a' r Hc|d a a' r Hc|d a a' r Hc]; simpl in *;
        try discriminate; try (exfalso; eapply Hne; reflexivity).
      * inversion Hc; subst; simpl in *; try (destruct r_pc0; discriminate). unfold meas; simpl; lia.
      * pose proof (HM _ _ _ Hc). assert (msp (spcs V a') <= 4) by (destruct (spcs V a'); simpl; lia). lia.
      * pose proof (HM _ _ _ Hc). assert (msp (spcs V a') <= 4) by (destruct (spcs V a'); simpl; lia). lia.
      * destruct r_pc0 as (P1 & _). inversion Hc; subst; simpl in *; try contradiction; unfold meas; simpl; lia.
  - intros s (tr0 & ctr & g & cur & HR) Hn. destruct HR. destruct s as [a u r]. simpl in *.
    destruct (inv_exec _ _ _ size_pos _ _ r_exec0) as (W & R0 & I).
    destruct a as [c1 e f q h i sl sp rpp qp ap sd rd cr]. simpl in *. subst sd rd.
    destruct u; [congruence| | |].
    + destruct r_pc0 as [E|E]; subst sp.
      * destruct c1; [exists (mkc V (mk V 0 e f q h i sl (SIdle V) rpp qp ap false false cr) (UIdle V) r)|];
          [right; exists (Some (Dropped V d)); split; [apply u_probe_no, S_probe_fail|discriminate]|].
        eexists. right. exists None. split; [apply u_probe_go, S_probe_acq|discriminate].
      * destruct I; simpl in *. eexists. right. exists None. split; [eapply u_probe_yes, S_probe_rel|discriminate].
    + subst sp. destruct (shape_ok d) eqn:Es.
      * eexists. right. exists None. split; [apply u_call, S_call; auto|discriminate].
      * eexists. right. exists (Some (Rejected V d)). split; [apply u_reject, S_reject; auto|discriminate].
    + destruct r_pc0 as (P1 & P2 & P3). specialize (r_room0 HP). unfold in_send in P1. simpl in P1. destruct sp; try contradiction.
      * destruct c1.
        -- cut (exists s', istep V size (mk V 0 e f q h i sl (SWait V d0) rpp qp ap false false cr) s').
           { intros [s' Hs']. exists (mkc V s' (USending V d) r). left. constructor. auto. }
           pose proof (i_ack _ _ _ _ _ _ I) as K. pose proof (i_rets _ _ _ _ _ _ I) as K2. pose proof (i_rlen _ _ _ _ _ _ I) as K3.
           pose proof (i_adead _ _ _ _ _ _ I) as K4. simpl in *.
           apply a_can_step; auto; simpl; intros; subst; simpl in *; try lia. intro; subst; simpl in *; lia.
        -- eexists. right. exists None. split; [apply u_go, S_acquire|discriminate].
      * eexists. right. exists None. split; [apply u_go, S_write|discriminate].
      * eexists. right. exists None. split; [apply u_go, S_inc|discriminate].
      * eexists. right. exists (Some (Accepted V d)). split; [apply u_ret, S_release|discriminate].
  - destruct (exec_R _ _ H) as (ctr & g & cur & HR). eauto.
Qed.

(** Non-blocking receive: under ZEROS a receive() returns whatever the sender does or does not do. *)
Definition mvq (c : cst V) : nat :=
  match rp V c with
  | PIdle _ => 0
  | PCalled _ => 40 + 20 * queue V (ch V c)
  | PNext _ k _ => 20 * k + 12
  | PIn _ k _ => 20 * k + mr V (rpcs V (ch V c))
  end.
Lemma rstep_meas s e s' : rstep V size s e s' -> meas V s' <= meas V s + 5.
Proof. intro X. destruct X; unfold meas; simpl; lia. Qed.
(** a receive() in progress can go on: [k] messages are in the queue, or one is needed and [wait] holds *)
Definition served (c : cst V) : Prop :=
  match rp V c with
  | PNext _ k _ | PIn _ k _ => k <= queue V (ch V c) + r_got V (rpcs V (ch V c))
  | _ => True
  end.

(** The qsize() test is the only point where a receive() commits itself to take messages; from then on
    (and before) it needs nobody but the channel's service threads. *)
Theorem policy_zeros_never_blocks : forall tr c, cexec tr c -> pe = EZeros ->
  inevitable (fun c c' => exists e, vstep c e c' /\ (forall n, e <> Some (Called V n))) (fun c => rp V c = PIdle V) c.
Proof.
  intros tr c H HP.
  apply (inev_by_measure _ _ (fun c => exists tr ctr g cur, R tr c ctr g cur) mvq).
  - intros s. destruct (rp V s); auto; right; discriminate.
  - intros s s' (tr0 & ctr & g & cur & HR) Hn [e [Hv Hne]].
    destruct (step_R _ _ _ _ _ _ _ HR (c_v _ _ _ _ _ _ _ _ _ _ _ Hv)) as (ctr' & g' & cur' & HR').
    destruct (match rp V s' with PIdle _ => true | _ => false end) eqn:Eu; [left; destruct (rp V s'); congruence|].
    right. split; [eauto 10|]. destruct HR. unfold mvq in *.
    destruct Hv as [a u|a u|a a' u k acc Hc|a a' u k acc Hc|a a' u acc v Hc|a a' u k acc v Hc|a a' u k acc Hc]; simpl in *; try discriminate; try (exfalso; eapply Hne; reflexivity).
    + unfold after_qsize in *. destruct (queue V a); [rewrite HP in *; simpl in *; discriminate|].
      destruct pn; simpl in *; lia.
    + inversion Hc; subst; simpl in *; lia.
    + unfold in_recv in r_rpc0. inversion Hc; subst; simpl in *; try contradiction; lia.
    + lia.
  - intros s (tr0 & ctr & g & cur & HR) Hn. destruct HR. destruct s as [a u r]. simpl in *.
    destruct a as [c1 e f q h i sl sp rpp qp ap sd rd cr]. simpl in *. subst sd rd.
    destruct r as [| |k acc|k acc]; [congruence| | |].
    + eexists. eexists. split; [apply v_qsize|]. simpl. unfold after_qsize. destruct q, pe, pn; intros ?; simpl; discriminate.
    + subst rpp. eexists. exists None. split; [apply v_recv, R_call|intros ?; discriminate].
    + unfold in_recv in r_rpc0. simpl in *.
      assert (1 <= k /\ k <= q + r_got V rpp) as [K1 K2] by (destruct r_cur0 as [(K1 & _ & _ & _ & K5)|(K1 & _ & _ & K4 & _)]; [specialize (K5 HP)|]; lia).
      destruct rpp; try contradiction; simpl in *.
      * destruct q; [lia|]. eexists. exists None. split; [apply v_go, R_get|intros ?; discriminate].
      * destruct (sl i) eqn:E.
        -- eexists. exists None. split; [apply v_go, R_copy; eauto|intros ?; discriminate].
        -- eexists. exists (Some (Garbage V)). split; [apply v_garbage, R_copy_garbage; auto|intros ?; discriminate].
      * eexists. exists None. split; [apply v_go, R_inc|intros ?; discriminate].
      * destruct k as [|[|k]]; [lia| |].
        -- eexists. exists (Some (Received V (plus V add acc v))). split; [apply v_last, R_ack|intros ?; discriminate].
        -- eexists. exists None. split; [apply v_more, R_ack|intros ?; discriminate].
  - destruct (exec_R _ _ H) as (ctr & g & cur & HR). eauto.
Qed.

(** Under BLOCKING a receive() that found the buffer empty returns once some accepted message is there. *)
Theorem policy_blocking_returns : forall tr c, cexec tr c ->
  (forall groups rest, Forall2 fetched groups (receives 0 tr) -> accepted tr = concat groups ++ rest -> rest <> []) ->
  rp V c <> PIdle V -> rp V c <> PCalled V ->
  inevitable (fun c c' => dstep c c' \/ exists e, vstep c e c' /\ (forall n, e <> Some (Called V n))) (fun c => rp V c = PIdle V) c.
Proof.
  intros tr c H HW Hn1 Hn2.
  set (Phi := fun c : cst V => exists tr ctr g cur, R tr c ctr g cur /\ rp V c <> PCalled V /\
     match rp V c with PNext _ k _ | PIn _ k _ => k <= queue V (ch V c) + r_got V (rpcs V (ch V c)) \/ (k = 1 /\ length (rcvd ctr) < nret ctr) | _ => True end).
  apply (inev_by_measure _ _ Phi (fun c => meas V (ch V c) + mvq c)).
  - intros s. destruct (rp V s); auto; right; discriminate.
  - intros s s' (tr0 & ctr & g & cur & HR & Hnc & HQ) Hn [Hd|[e [Hv Hne]]].
    + right. split.
      * exists tr0, ctr, g, cur. split; [eapply dstep_R; eauto|]. destruct Hd as [a a' u r Hi]. simpl in *. split; auto.
        pose proof (istep_user _ _ _ _ Hi) as (Q2 & Q5 & _). rewrite Q5.
        assert (queue V a <= queue V a') as Q1.
        { destruct Hi as [Hi|Hi]; destruct Hi; simpl; auto; try (destruct (_ <? _); simpl; auto). }
        destruct r; auto; lia.
      * destruct Hd as [a a' u r Hi]. unfold mvq. simpl in *. pose proof (istep_user _ _ _ _ Hi) as (Q2 & Q5 & _). rewrite Q5.
        apply istep_dec in Hi; [|auto]. destruct r; try lia. congruence.
    + destruct HR as [RE RA RR RS RC RSD RRD RO RP RRP RRM RB RJ RAC RG].
      assert (HRc : R tr0 s ctr g cur) by (constructor; auto).
      destruct Hv as [a u|a u|a a' u k acc Hc|a a' u k acc Hc|a a' u acc v Hc|a a' u k acc v Hc|a a' u k acc Hc]; simpl in *; try congruence; try (exfalso; eapply Hne; reflexivity); try (left; reflexivity).
      * right. destruct (step_R _ _ _ _ _ _ _ HRc (c_v _ _ _ _ _ _ _ _ _ _ _ (v_recv _ _ _ _ _ _ _ _ u k acc Hc))) as (ctr' & g' & cur' & HR').
        split.
        -- exists tr0, (ctr ++ [EvRecvCall V]), g, cur. split.
           ++ inversion Hc; subst; simpl in *.
              constructor; simpl; rewrite ?sent_snoc_other, ?rcvd_app, ?nret_app by auto; simpl; rewrite ?app_nil_r, ?Nat.add_0_r; auto.
              ** eapply exec_event; [exact RE|apply step_r; auto].
              ** simpl in RC. rewrite ?Nat.add_0_r in RC. auto.
              ** destruct u; auto. unfold in_send in *. simpl in *. rewrite calls_app. simpl. rewrite app_nil_r. auto.
              ** exact Logic.I.
           ++ split; [discriminate|]. inversion Hc; subst; simpl in *. rewrite rcvd_app, nret_app. simpl. rewrite app_nil_r, !Nat.add_0_r in *. auto.
        -- unfold mvq. simpl. inversion Hc; subst; unfold meas; simpl in *; lia.
      * right. split.
        -- exists tr0, ctr, g, cur.
           assert (queue V a' + r_got V (rpcs V a') = queue V a + r_got V (rpcs V a) /\ spcs V a' = spcs V a /\ sdone V a' = sdone V a /\ rdone V a' = rdone V a /\ in_recv a') as (Q1 & Q2 & Q3 & Q4 & Q5).
           { unfold in_recv in *. inversion Hc; subst; simpl in *; try contradiction; repeat split; auto; lia. }
           split.
           ++ constructor; simpl; rewrite ?Q1, ?Q2, ?Q3, ?Q4; auto.
              ** eapply exec_silent; [exact RE|apply step_r; auto].
              ** destruct u; auto. unfold in_send in *. rewrite Q2. auto.
           ++ split; [discriminate|]. simpl. rewrite Q1. auto.
        -- unfold mvq. simpl. unfold in_recv in RRP. inversion Hc; subst; simpl in *; try contradiction; unfold meas; simpl; lia.
      * right. assert (r_got V (rpcs V a) = 1 /\ queue V a' = queue V a /\ rpcs V a' = RIdle V) as (G1 & G2 & G3) by (inversion Hc; subst; simpl in *; auto).
        split.
        -- destruct (step_R _ _ _ _ _ _ _ HRc (c_v _ _ _ _ _ _ _ _ _ _ _ (v_more _ _ _ _ _ _ _ _ u k acc v Hc))) as (ctr' & g' & cur' & HR').
           exists tr0, ctr', g', cur'. split; auto. split; [discriminate|]. simpl. rewrite G2, G3. simpl. left. lia.
        -- unfold mvq. simpl. pose proof (rstep_meas _ _ _ Hc). lia.
  - intros s (tr0 & ctr & g & cur & HR & Hnc & HQ) Hn. destruct HR. destruct s as [a u r]. simpl in *.
    destruct (inv_exec _ _ _ size_pos _ _ r_exec0) as (W & R0 & I).
    destruct a as [c1 e f q h i sl sp rpp qp ap sd rd cr]. simpl in *. subst sd rd.
    destruct r as [| |k acc|k acc]; [congruence|congruence| |].
    + subst rpp. eexists. right. exists None. split; [apply v_recv, R_call|intros ?; discriminate].
    + unfold in_recv in r_rpc0. simpl in *.
      assert (1 <= k) as K1 by (destruct r_cur0 as [(K1 & _)|(K1 & _)]; lia).
      destruct rpp; try contradiction; simpl in *.
      * destruct q.
        -- destruct HQ as [HQ|[-> HQ]]; [lia|].
           cut (exists s', istep V size (mk V c1 e f 0 h i sl sp (RWait V) qp ap false false cr) s').
           { intros [s' Hs']. exists (mkc V s' u (PIn V 1 acc)). left. constructor. auto. }
           pose proof (i_req _ _ _ _ _ _ I) as K. pose proof (i_rlen _ _ _ _ _ _ I) as K3.
           pose proof (i_qdead _ _ _ _ _ _ I) as K4. simpl in *.
           apply q_can_step; auto; simpl; intros; subst; simpl in *; try lia. intro; subst; simpl in *; lia.
        -- eexists. right. exists None. split; [apply v_go, R_get|intros ?; discriminate].
      * destruct (sl i) eqn:E.
        -- eexists. right. exists None. split; [apply v_go, R_copy; eauto|intros ?; discriminate].
        -- eexists. right. exists (Some (Garbage V)). split; [apply v_garbage, R_copy_garbage; auto|intros ?; discriminate].
      * eexists. right. exists None. split; [apply v_go, R_inc|intros ?; discriminate].
      * destruct k as [|[|k]]; [lia| |].
        -- eexists. right. exists (Some (Received V (plus V add acc v))). split; [apply v_last, R_ack|intros ?; discriminate].
        -- eexists. right. exists None. split; [apply v_more, R_ack|intros ?; discriminate].
  - destruct (exec_R _ _ H) as (ctr & g & cur & HR). exists tr, ctr, g, cur. split; auto. split; auto.
    assert (rp V c <> PIdle V -> True) by auto.
    destruct (rp V c) as [| |k acc|k acc] eqn:Er; auto;
    (destruct HR; rewrite Er in *; destruct r_cur0 as [(K1 & _ & -> & _)|(K1 & _ & _ & K4 & _)]; [|auto]; right; split; auto).
    all: destruct (inv_exec _ _ _ size_pos _ _ r_exec0) as (W & R0 & I);
      pose proof (inv_le _ _ size_pos _ _ _ _ I) as (L1 & L2 & L3 & L4);
      pose proof (i_rcvd _ _ _ _ _ _ I) as E; pose proof (i_rlen _ _ _ _ _ _ I) as EL.
    all: destruct (Nat.lt_ge_cases (length (rcvd ctr)) (nret ctr)) as [|Q]; auto; exfalso.
    all: apply (HW g []); auto; rewrite app_nil_r; rewrite app_nil_r in r_rcvd0; rewrite r_rcvd0 in E.
    all: assert (concat g = firstn R0 (calls ctr)) as E'
      by (clear - E; revert E; generalize (firstn R0 (calls ctr)); generalize (concat g); intro l; induction l as [|x l IH]; intros [|y m] Q; simpl in Q; try discriminate; auto;
          injection Q as <- Q; f_equal; apply IH; auto).
    all: rewrite r_acc0, E'; unfold sent; f_equal; lia.
Qed.
End Proofs.

