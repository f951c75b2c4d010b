(** Termination of the protocol and shape of its quiescent states. *)
From Coq Require Import List Arith Lia Bool.
From Verif Require Import Runtime_Spec Runtime_Proofs.
Import ListNotations.

Ltac ltbs :=
  repeat match goal with
  | |- context [?a <? ?b] => destruct (Nat.ltb_spec a b); try lia
  | H : context [?a <? ?b] |- _ => destruct (Nat.ltb_spec a b); try lia
  end.
Ltac fupds :=
  repeat match goal with
  | |- context [fupd _ ?k _ ?i] =>
      destruct (Nat.eq_dec i k); [subst; rewrite ?fupd_same | rewrite ?fupd_other by auto]
  end.

(** A terminating relation whose quiescent states satisfy Q makes Q inevitable. *)
Lemma inev_terminal {St : Type} (next : St -> St -> Prop) (Q Phi : St -> Prop) (m : St -> nat) :
  (forall s s', Phi s -> next s s' -> Phi s' /\ m s' < m s) ->
  (forall s, Phi s -> (exists s', next s s') \/ Q s) ->
  forall s, Phi s -> inevitable next Q s.
Proof.
  intros Hp Ht. assert (forall n s, m s < n -> Phi s -> inevitable next Q s) as G.
  { induction n; intros s Hm Hphi; [lia|].
    destruct (Ht s Hphi) as [He|HQ]; [|apply inev_now; auto].
    apply inev_later; auto. intros s' Hn. destruct (Hp _ _ Hphi Hn). apply IHn; auto. lia. }
  intros s Hphi. apply (G (S (m s))); auto.
Qed.

Section RL.
  Variable N : nat.
  Notation exec := (exec N).

  (** The responses to PAUSE and STOP are always the expected ones. *)
  Definition InvW (s : sys) : Prop :=
    match sv s with
    | VSend CPause _ | VSend CStop _ | VRecv CPause _ | VRecv CStop _ => bad (fl s) = false
    | VCrash => False
    | _ => True
    end.

  Lemma invW_exec tr s : exec tr s -> InvW s.
  Proof.
    induction 1 as [|tr s e s' H IH St]; [exact I|].
    pose proof (invB_exec _ _ _ H) as B.
    destruct St as [? ? ? Hv|? ? ? Hm|? ? ? He].
    - destruct Hv; unfold InvW in *; simpl;
        try match goal with Z : sv s = _ |- _ => rewrite Z in * end; simpl in *; auto;
        try (destruct c; auto; fail).
      + pose proof (b_p _ _ B k H1) as P. rewrite H0 in P. simpl in P. rewrite Nat.ltb_irrefl, H2 in P.
        apply pstat_recv in P as (_ & [o O] & _).
        destruct c; auto; simpl in O; injection O as <-; simpl; rewrite IH; auto.
      + destruct H1 as [-> | ->]; congruence.
    - destruct Hm; exact IH.
    - destruct He; exact IH.
  Qed.

  (** Dead processes. *)
  Definition InvD (s : sys) : Prop := forall i, i < N -> mp s i = MDead ->
    p2s s i <> [] \/
    (expc (sv s) (err (fl s)) i = None /\ match sv s with
                                          | VRecv CStop _ => True
                                          | VRecv _ _ | VChk _ => err (fl s) = true
                                          | _ => False end) \/
    match sv s with VErrB | VErr _ | VDead => True | _ => False end.

  Lemma invD_exec tr s : exec tr s -> InvD s.
  Proof.
    induction 1 as [|tr s e s' H IH St]; [intros ? ? ?; discriminate|].
    pose proof (invB_exec _ _ _ H) as B. pose proof (invW_exec _ _ H) as W.
    destruct St as [? ? ? Hv|? ? ? Hm|? ? ? He].
    - unfold InvW in W. destruct Hv; intros i Hi Hd; specialize (IH i Hi Hd); simpl in *;
        match goal with Z : sv s = _ |- _ => rewrite Z in * end; simpl in *;
        try tauto.
      + destruct IH as [IH|[[X IH]|[]]].
        * destruct (Nat.eq_dec i k).
          -- subst. rewrite fupd_same. pose proof (b_p _ _ B k H1) as P. rewrite H0 in P. simpl in P.
             rewrite Nat.ltb_irrefl, H2, Hd in P.
             apply pstat_recv in P as (_ & [o O] & _ & -> & M). right. left.
             ltbs. split; auto. destruct r; try discriminate; simpl; rewrite ?orb_true_r; destruct c; auto;
               simpl in O; unfold pause_or_stop in O; 
               repeat match type of O with context [if ?b then _ else _] => destruct b end; discriminate.
          -- rewrite fupd_other by auto. auto.
        * right. left. ltbs; try discriminate. split; auto. destruct c; auto; rewrite IH; auto.
      + destruct IH as [|[[_ IH]|[]]]; auto. pose proof (b_err _ _ B IH) as E. rewrite H0 in E. contradiction.
      + exfalso. destruct H1 as [-> | ->]; congruence.
      + destruct IH as [|[[_ IH]|[]]]; auto. right. left. split; auto. destruct c; auto; congruence.
      + destruct IH as [|[[_ IH]|[]]]; auto. congruence.
    - destruct Hm; intros j Hj Hd; simpl in *.
      + revert Hd. fupds; [discriminate|]. intro. apply IH; auto.
      + revert Hd. fupds; [|intro; apply IH; auto].
        destruct (handler c o) as [r|]; [|discriminate]. intros _. left. destruct (p2s s i); discriminate.
    - destruct He; exact IH.
  Qed.

  (** *** Measure *)
  Definition BB := 7 * N + 7.
  Definition rk (c : cmd) : nat :=
    match c with CSpk => 3 | CPre => 2 | CLrn => 1 | _ => 0 end.
  Definition frank (f : flags) : nat :=
    if fpre f then 3 else if flrn f then 2 else if fpost f then 1 else 0.
  Definition svwork (s : sys) : nat :=
    let ph c := match c with
                | CSpk | CPre | CLrn | CPost => BB * (rk c + 4 * (nn s - cur s) + 1)
                | _ => 0 end in
    match sv s with
    | VIdle | VDead | VCrash => 0
    | VEnd => 1
    | VErr k => 3 * (N - k) + 1
    | VErrB => 3 * N + 2
    | VNext => 2 + BB * (frank (fl s) + 4 * (nn s - cur s) + 1)
    | VProbe c => 3 + ph c
    | VChk c => 3 * N + 4 + ph c
    | VRecv c k => (N - k) + 3 * N + 5 + ph c
    | VSend c k => 3 * (N - k) + N + 3 * N + 6 + ph c
    end.
  Definition rcost (c : rcmd) : nat :=
    match c with Steps n => BB * (4 * n + 1) + 3 | _ => BB end.
  Definition pend (l : list rcmd) : nat := list_sum (map rcost l).
  Fixpoint sumto (n : nat) (f : nat -> nat) : nat :=
    match n with 0 => 0 | S k => f k + sumto k f end.
  Definition pwork (s : sys) (i : nat) : nat :=
    2 * length (s2p s i) + match mp s i with MBusy _ => 1 | _ => 0 end.
  Definition meas (s : sys) : nat := sumto N (pwork s) + svwork s + pend (r2s s).

  Lemma sumto_ext n f g : (forall i, i < n -> f i = g i) -> sumto n f = sumto n g.
  Proof. induction n; simpl; intros; auto. rewrite H, IHn; auto. Qed.
  Lemma sumto_upd n f g k : k < n -> (forall i, i <> k -> f i = g i) ->
    sumto n f + g k = sumto n g + f k.
  Proof.
    induction n; intros Hk E; [lia|]. simpl. destruct (Nat.eq_dec k n).
    - subst. assert (sumto n f = sumto n g) by (apply sumto_ext; intros; apply E; lia). lia.
    - rewrite (E n) by auto. specialize (IHn ltac:(lia) E). lia.
  Qed.

  Lemma frank_fok c f : is_phase c -> fok c f -> frank f <= rk c.
  Proof.
    unfold frank, fok, nof. destruct c; simpl; intros P F; try contradiction;
      destruct (fpre f), (flrn f), (fpost f); simpl; try lia; intuition discriminate.
  Qed.
  Lemma frank_nof f : nof f -> frank f = 0.
  Proof. unfold nof, frank. intros (-> & -> & ->). auto. Qed.
  Lemma frank_peeked d f : frank (peeked d f) = frank f.
  Proof. destruct d; auto. Qed.

  Lemma cur_le tr s : exec tr s -> in_run (sv s) -> cur s <= nn s.
  Proof.
    intros H R. pose proof (invR_exec _ _ _ H) as I. unfold InvR in I.
    destruct (since_start tr) as [[]|]; [tauto|contradiction].
  Qed.

  Lemma fok_mono c d f : fok c (peeked d f) <-> fok c f.
  Proof. destruct d, c; simpl; tauto. Qed.

  Lemma meas_v tr s e s' : exec tr s -> vstep N s e s' -> meas s' < meas s.
  Proof.
    intros H V. pose proof (invF_exec _ _ _ H) as F. pose proof (invB_exec _ _ _ H) as B.
    pose proof (cur_le _ _ H) as C. pose proof (b_ty _ _ B) as T. pose proof (a_k _ _ _ (invA_exec _ _ _ H)) as K.
    unfold InvF in F. unfold meas.
    destruct V; unfold svwork; simpl;
      match goal with Z : sv s = _ |- _ => rewrite Z in * end; simpl in *;
      try specialize (C I);
      try (rewrite (sumto_ext N (pwork _) (pwork s)) by reflexivity).
    - rewrite H1. unfold pend. simpl. unfold BB. lia.
    - rewrite H1. unfold pend. simpl. unfold BB. lia.
    - rewrite H1. unfold pend. simpl. rewrite (frank_nof (set_last false (fl s))) by auto. unfold BB. nia.
    - unfold frank. rewrite H1. unfold BB. nia.
    - unfold frank. rewrite H1, H2. unfold BB. nia.
    - unfold frank. rewrite H1, H2, H3. unfold BB. nia.
    - nia.
    - nia.
    - unfold frank. unfold BB. nia.
    - assert (cur s < nn s) by lia. replace (nn s - cur s) with (S (nn s - S (cur s))) by lia.
      unfold BB. nia.
    - pose proof (sumto_upd N
        (pwork (mkS (r2s s) (s2r s) (fupd (s2p s) k (s2p s k ++ [c])) (p2s s) (mp s) (ts s) (VSend c (S k)) (nn s) (cur s) (fl s)))
        (pwork s) k H1) as U.
      assert (U' := U ltac:(intros; unfold pwork; simpl; rewrite fupd_other by auto; auto)).
      unfold pwork at 2 4 in U'. simpl in U'. rewrite fupd_same, app_length in U'. simpl in U'. lia.
    - lia.
    - lia.
    - lia.
    - lia.
    - lia.
    - lia.
    - lia.
    - lia.
    - lia.
    - pose proof (sumto_upd N
        (pwork (mkS (r2s s) (s2r s) (fupd (s2p s) k (s2p s k ++ [CStop])) (p2s s) (mp s) (ts s) (VErr (S k)) (nn s) (cur s) (fl s)))
        (pwork s) k H1) as U.
      assert (U' := U ltac:(intros; unfold pwork; simpl; rewrite fupd_other by auto; auto)).
      unfold pwork at 2 4 in U'. simpl in U'. rewrite fupd_same, app_length in U'. simpl in U'. lia.
    - lia.
    - lia.
    - destruct T as [T|T]; [|subst; simpl; lia].
      destruct F as [_ F]; pose proof (frank_fok _ _ T F).
      destruct c; simpl in T; try contradiction; cbn [rk] in *; cbv zeta; nia.
    - rewrite frank_peeked. destruct T as [T|T]; [|subst; simpl; lia].
      destruct F as [_ F]; pose proof (frank_fok _ _ T F).
      destruct c; simpl in T; try contradiction; cbn [rk] in *; cbv zeta; rewrite ?frank_peeked; nia.
    - lia.
    - lia.
  Qed.

  Lemma meas_m s e s' : mstep N s e s' -> meas s' < meas s.
  Proof.
    intros M. unfold meas. destruct M; unfold svwork; simpl.
    - match goal with |- sumto N (pwork ?x) + _ + _ < _ =>
        pose proof (sumto_upd N (pwork x) (pwork s) i H ltac:(intros; unfold pwork, set_m; simpl; rewrite ?fupd_other by auto; auto)) as U
      end.
      unfold pwork at 2 4 in U. unfold set_m in U at 2. simpl in U. rewrite !fupd_same in U. rewrite H0, H1 in U. simpl in U.
      unfold svwork in *. simpl in *. lia.
    - match goal with |- sumto N (pwork ?x) + _ + _ < _ =>
        pose proof (sumto_upd N (pwork x) (pwork s) i H ltac:(intros; unfold pwork, set_m; simpl; rewrite ?fupd_other by auto; auto)) as U
      end.
      unfold pwork at 2 4 in U. unfold set_m in U at 2. simpl in U. rewrite !fupd_same in U. rewrite H0 in U. simpl in U.
      destruct (handler c o) as [[]|]; lia.
  Qed.

  (** *** Quiescent states *)
  Definition quiet (s : sys) : Prop := forall i, i < N ->
    mp s i = MDead \/ (mp s i = MIdle /\ s2p s i = []).

  Definition tame (o : oracle) : Prop := raises o = false /\ q_pause o = false /\ q_stop o = false.

  (** An event that is neither an exception nor a pause/stop request of a process. *)
  Definition calm (e : option event) : Prop :=
    match e with Some e => ~ self_req e /\ ~ raised e | None => True end.

  Definition o0 : oracle := mkO false false false false false false.

  Lemma m_enabled s i : i < N -> (mp s i = MDead \/ (mp s i = MIdle /\ s2p s i = [])) \/
                        exists e s', mstep N s e s' /\ calm e.
  Proof.
    intros Hi. destruct (mp s i) as [|c|] eqn:E; auto.
    - destruct (s2p s i) as [|c q] eqn:Q; auto. right.
      do 2 eexists; split; [apply (M_begin N s i c q); auto|simpl; auto].
    - right. do 2 eexists; split; [apply (M_end N s i c o0); auto|].
      destruct c; simpl; auto.
  Qed.

  Lemma quiet_or s : quiet s \/ exists e s', mstep N s e s' /\ calm e.
  Proof.
    assert (G : forall n, n <= N -> (forall i, i < n -> mp s i = MDead \/ (mp s i = MIdle /\ s2p s i = [])) \/
                          exists e s', mstep N s e s' /\ calm e).
    { induction n; intro Hn; [left; intros; lia|].
      destruct (IHn ltac:(lia)) as [L|]; auto.
      destruct (m_enabled s n ltac:(lia)) as [M|]; auto.
      left. intros i Hi. destruct (Nat.eq_dec i n); [subst; auto|apply L; lia]. }
    apply G. auto.
  Qed.

  Lemma progress tr s : exec tr s ->
    (exists e s', (vstep N s e s' \/ mstep N s e s') /\ calm e) \/
    (quiet s /\ (sv s = VDead \/ (sv s = VIdle /\ r2s s = []))).
  Proof.
    intro H. pose proof (invW_exec _ _ H) as W. pose proof (invB_exec _ _ _ H) as B.
    pose proof (invD_exec _ _ H) as D. pose proof (a_k _ _ _ (invA_exec _ _ _ H)) as K.
    destruct (quiet_or s) as [Q|(e & s' & M & C)]; [|left; exists e, s'; auto].
    destruct (sv s) eqn:V.
    - destruct (r2s s) as [|[n| |] q] eqn:R; [right; auto| left..].
      + do 2 eexists. split; [left; eapply V_start; eauto|simpl; auto].
      + do 2 eexists. split; [left; eapply V_pause; eauto|simpl; auto].
      + do 2 eexists. split; [left; eapply V_stop; eauto|simpl; auto].
    - left. destruct (fpre (fl s)) eqn:E1.
      { do 2 eexists. split; [left; eapply V_pre; eauto|simpl; auto]. }
      destruct (flrn (fl s)) eqn:E2.
      { do 2 eexists. split; [left; eapply V_lrn; eauto|simpl; auto]. }
      destruct (fpost (fl s)) eqn:E3.
      { do 2 eexists. split; [left; eapply V_post; eauto|simpl; auto]. }
      destruct (fpause (fl s)) eqn:E4.
      { do 2 eexists. split; [left; eapply V_req_pause; eauto|destruct (pausing _); simpl; auto]. }
      destruct (fstop (fl s)) eqn:E5.
      { do 2 eexists. split; [left; eapply V_req_stop; eauto|destruct (stopping _); simpl; auto]. }
      destruct (Nat.eq_dec (cur s) (nn s)).
      { do 2 eexists. split; [left; eapply V_host; eauto|simpl; auto]. }
      { do 2 eexists. split; [left; eapply V_spk; eauto|simpl; auto]. }
    - left. destruct (Nat.eq_dec k N).
      + subst k. destruct (responding c) eqn:R.
        * do 2 eexists. split; [left; eapply V_sent; eauto|simpl; auto].
        * destruct c; try discriminate. do 2 eexists. split; [left; eapply V_sent_host; eauto|simpl; auto].
      + do 2 eexists. split; [left; eapply V_send; eauto; lia|simpl; auto].
    - left. destruct (Nat.eq_dec k N).
      + subst k. unfold InvW in W. rewrite V in W.
        destruct c; try (do 2 eexists; split; [left; eapply V_got; eauto; discriminate|simpl; auto]; fail).
        * do 2 eexists. split; [left; eapply V_paused; eauto|simpl; auto].
        * do 2 eexists. split; [left; eapply V_stopped; eauto|simpl; auto].
      + assert (Hk : k < N) by lia.
        destruct (p2s s k) as [|r q] eqn:P.
        * exfalso. pose proof (b_p _ _ B k Hk) as S. rewrite V in S. simpl in S. rewrite Nat.ltb_irrefl, P in S.
          specialize (Q k Hk). specialize (D k Hk). rewrite V in D. simpl in D. rewrite Nat.ltb_irrefl, P in D.
          inversion S; subst; try discriminate.
          -- destruct Q as [Q|[_ Q]]; [|destruct h; rewrite Q in *; discriminate].
             destruct (D Q) as [|[[? _]|[]]]; [congruence|discriminate].
          -- destruct Q as [Q|[Q _]]; congruence.
        * do 2 eexists. split; [left; eapply V_recv; eauto|simpl; auto].
    - left. destruct (err (fl s)) eqn:E.
      + do 2 eexists. split; [left; eapply V_err; eauto|simpl; auto].
      + do 2 eexists. split; [left; eapply V_ok; eauto|simpl; auto].
    - left. do 2 eexists. split; [left; eapply V_err_b; eauto|simpl; auto].
    - left. destruct (Nat.eq_dec k N).
      + subst. do 2 eexists. split; [left; eapply V_err_end; eauto|simpl; auto].
      + do 2 eexists. split; [left; eapply V_err_stop; eauto; lia|simpl; auto].
    - left. do 2 eexists. split; [left; eapply V_probe_no; eauto|simpl; auto].
    - left. destruct (pausing (fl s) || stopping (fl s) || negb (last (fl s))) eqn:E.
      + do 2 eexists. split; [left; eapply V_end_quiet; eauto|simpl; auto].
      + do 2 eexists. split; [left; eapply V_end_done; eauto|simpl; auto].
    - right. auto.
    - unfold InvW in W. rewrite V in W. contradiction.
  Qed.
End RL.
