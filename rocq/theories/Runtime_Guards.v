(** C09 at the level of the user's code: which phases a time step has, and which of run_spk,
    run_pre_mgmt, run_lrn and run_post_mgmt every process executes, as a function of the guards. *)
From Coq Require Import List Arith Bool Lia.
From Verif Require Import Base Runtime_Model Runtime_Spec Runtime_Proofs Runtime_Inv2 Runtime_Props Runtime_Props2.
Import ListNotations.

(** User functions called by the command handlers of PyLoihiProcessModel
    (model.py: _spike 381-407, _pre_mgmt 409-419, _post_mgmt 421-431, _lrn 433-448). *)
Inductive ufun := RunSpk | RunPreMgmt | RunLrn | RunPostMgmt.
Definition ucalls (c : cmd) (o : oracle) : list ufun :=
  match c with
  | CSpk => [RunSpk]
  | CPre => if g_pre o then [RunPreMgmt] else []
  | CLrn => if g_lrn o then [RunLrn] else []
  | CPost => if g_post o then [RunPostMgmt] else []
  | _ => []
  end.

(** The guards of all processes: process -> time step -> bool. *)
Record guards := { lrn_guard : nat -> nat -> bool; pre_guard : nat -> nat -> bool; post_guard : nat -> nat -> bool }.
Definition outcome (G : guards) (i t : nat) : oracle :=
  mkO (lrn_guard G i t) (pre_guard G i t) (post_guard G i t) false false false.

(** The value of time_step of process i after the history [tr] (theorem time_step_counts). *)
Definition time_step (i : nat) (tr : list event) : nat := count CSpk (begun i tr).

(** Every command was executed by user code with these guards, without exception and without a
    request for pause or stop. *)
Definition obeys (G : guards) (tr : list event) : Prop :=
  forall a i c r b, tr = a ++ EvEnd i c r :: b -> r = handler c (outcome G i (time_step i a)).

(** User functions executed by process i during the events [l], given its time step t. *)
Definition executed (G : guards) (i t : nat) (l : list event) : list ufun :=
  flat_map (fun c => ucalls c (outcome G i t)) (ended i l).

Definition some_proc (N : nat) (f : nat -> bool) : bool := existsb f (seq 0 N).

(** Phases of time step t after the spiking phase, from the documentation of the guards. *)
Definition doc_phases (N : nat) (G : guards) (t : nat) : list cmd :=
  (if some_proc N (fun i => lrn_guard G i t && pre_guard G i t) then [CPre] else []) ++
  (if some_proc N (fun i => lrn_guard G i t) then [CLrn] else []) ++
  (if some_proc N (fun i => post_guard G i t) then [CPost] else []).

Lemma some_proc_iff N f : some_proc N f = true <-> exists i, i < N /\ f i = true.
Proof.
  unfold some_proc. rewrite existsb_exists. split; intros (i & A & B); exists i; rewrite in_seq in *; split; auto; lia.
Qed.

Lemma begun_app' i a b : begun i (a ++ b) = begun i a ++ begun i b.
Proof. induction a as [|e a IH]; simpl; auto. rewrite IH. destruct e; auto. destruct (_ =? i); auto. Qed.
Lemma ended_app' i a b : ended i (a ++ b) = ended i a ++ ended i b.
Proof. induction a as [|e a IH]; simpl; auto. rewrite IH. destruct e; auto. destruct (_ =? i); auto. Qed.
Lemma bcasts_app' a b : bcasts (a ++ b) = bcasts a ++ bcasts b.
Proof. induction a as [|e a IH]; simpl; auto. rewrite IH. destruct e; auto. Qed.
Lemma count_app' c a b : count c (a ++ b) = count c a + count c b.
Proof. unfold count. rewrite filter_app, app_length. auto. Qed.
Lemma count_acked l : count CSpk (acked l) = count CSpk l.
Proof. symmetry. apply count_acked_le. Qed.

(** When the service decides on a command, every earlier command has been executed everywhere. *)
Lemma bcast_quiet N tr c s : exec N (tr ++ [EvBcast c]) s -> (forall e, In e tr -> ~ raised e) ->
  forall i, i < N -> acked (ended i tr) = acked (bcasts tr).
Proof.
  intros H NR i Hi. apply exec_split in H as (s0 & s1 & X0 & St & _).
  pose proof (invA_exec _ _ _ X0) as A. pose proof (invB_exec _ _ _ X0) as B.
  assert (Q : expc (sv s0) (err (fl s0)) i = None /\ undel (sv s0) i = []).
  { inversion St as [? ? ? V|? ? ? V|? ? ? V]; subst; inversion V; subst; auto;
      try (destruct (pausing (fl s0)); discriminate); try (destruct (stopping (fl s0)); discriminate);
      match goal with Z : sv s0 = _ |- _ => rewrite Z; split; auto end. }
  destruct Q as [Q1 Q2].
  destruct (quiet_none _ _ _ B Hi Q1) as [Q3 Q4].
  rewrite (a_del _ _ _ A i Hi), (a_busy _ _ _ A i Hi), Q2, !acked_app, (busy_host _ Q4), (acked_host _ Q3).
  simpl. rewrite !app_nil_r. auto.
Qed.

Lemma no_err_obeys G tr : obeys G tr -> forall e, In e tr -> ~ raised e.
Proof.
  intros O e Hin R. destruct (in_split _ _ Hin) as (a & b & E). destruct e; try contradiction.
  specialize (O _ _ _ _ _ E). simpl in R. destruct r as [[]|]; try contradiction.
  unfold handler, outcome, pause_or_stop in O. simpl in O. destruct c; simpl in O; try discriminate;
    repeat match goal with H : context[if ?b then _ else _] |- _ => destruct b end; discriminate.
Qed.

Lemma obeys_prefix G a b : obeys G (a ++ b) -> obeys G a.
Proof. intros O x i c r y E. apply (O x i c r (y ++ b)). rewrite E, <- app_assoc. auto. Qed.

(** An error seen by the service was raised by a process. *)
Lemma err_raised N tr s : exec N tr s ->
  (err (fl s) = true \/ exists i, In RErr (p2s s i)) -> exists e, In e tr /\ raised e.
Proof.
  induction 1 as [|tr s e s' H IH St]; [intros [E|(i & [])]; discriminate|].
  assert (M : (exists x, In x tr /\ raised x) -> exists x, In x (ext tr e) /\ raised x).
  { intros (x & Hx & Hr). exists x. split; auto. destruct e; simpl; auto. apply in_or_app. auto. }
  intro E.
  destruct St as [? ? ? Hv|? ? ? Hm|? ? ? He].
  - apply M, IH. destruct Hv; simpl in E; auto; try (destruct d; simpl in E; auto; fail).
    destruct E as [E|(i & E)].
    + destruct (err (fl s)); auto. simpl in E. destruct r; try discriminate.
      right. exists k. rewrite H2. simpl; auto.
    + right. exists i. destruct (Nat.eq_dec i k) as [->|]; [rewrite fupd_same in E; rewrite H2; simpl; auto|
        rewrite fupd_other in E by auto; auto].
  - destruct Hm; simpl in E.
    + apply M, IH. destruct E as [E|(j & E)]; auto. right. exists j.
      destruct (Nat.eq_dec j i) as [->|]; [rewrite fupd_same in E|rewrite fupd_other in E by auto]; auto.
    + destruct (handler c o) as [r|] eqn:Hh.
      * destruct E as [E|(j & E)]; [apply M, IH; auto|].
        destruct (Nat.eq_dec j i) as [->|]; [rewrite fupd_same in E|rewrite fupd_other in E by auto; apply M, IH; eauto].
        apply in_app_or in E as [E|[->|[]]]; [apply M, IH; eauto|].
        exists (EvEnd i c (Some RErr)). split; [|exact I]. simpl. apply in_or_app. simpl. auto.
      * apply M, IH. destruct E as [E|(j & E)]; auto. right. exists j.
        destruct (Nat.eq_dec j i) as [->|]; [rewrite fupd_same in E|rewrite fupd_other in E by auto]; auto.
  - apply M, IH. destruct He; simpl in E; auto.
Qed.

(** requests_served also holds before a pause or stop command. *)
Lemma served N tr c s : exec N (tr ++ [EvBcast c]) s -> (forall e, In e tr -> ~ raised e) -> is_lrn c = false ->
  forall k, asked (kreq k) (kcmd k) tr = false.
Proof.
  intros H NR Hc k. apply exec_split in H as (s0 & s1 & X0 & St & _).
  pose proof (invQ_exec _ _ _ X0) as Q. pose proof (invB_exec _ _ _ X0) as B. pose proof (invF_exec _ _ _ X0) as F.
  pose proof (b_errpc _ _ B) as P.
  assert (S : (forall i, expc (sv s0) (err (fl s0)) i = None) /\ (nof (fl s0))).
  { inversion St as [? ? ? V|? ? ? V|? ? ? V]; subst; inversion V; subst;
      try (destruct (pausing (fl s0)); discriminate); try (destruct (stopping (fl s0)); discriminate);
      try discriminate; unfold InvF in F;
      match goal with Z : sv s0 = _ |- _ => rewrite Z in *; split; [auto|unfold nof; auto] end.
    exfalso. destruct (err_raised N tr s0 X0) as (e & I & R); [left|exact (NR e I R)].
    exact P. }
  destruct S as (V & N1 & N2 & N3).
  destruct (asked (kreq k) (kcmd k) tr) eqn:E; auto. apply Q in E as [E|(i & Hi & Hin)].
  - destruct k; simpl in E; congruence.
  - rewrite (quiet_p2s _ _ i B Hi (V i)) in Hin. contradiction.
Qed.

(** A request made after the command that serves it was last given is pending. *)
Lemma asked_true r c a i d b : (r = RReqPre \/ r = RReqLrn \/ r = RReqPost) ->
  ~ In c (bcasts b) -> asked r c (a ++ EvEnd i d (Some r) :: b) = true.
Proof.
  intros Hr Hb. unfold asked. rewrite fold_left_app. simpl.
  assert (E : forall x, fold_left (ask_step r c) b (x || true) = true).
  { intro x. rewrite orb_true_r. clear x. revert Hb. induction b as [|e b IH]; simpl; auto. intro Hb.
    destruct e; simpl; auto.
    - destruct (cmd_eqb c c0) eqn:E; [exfalso; apply Hb; left; destruct c, c0; try discriminate; auto|].
      apply IH. intro I; apply Hb; simpl; auto.
    - destruct r0; auto. }
  change (fold_left (ask_step r c) b
    (fold_left (ask_step r c) a false || match r, r with
             | RReqPre, RReqPre | RReqLrn, RReqLrn | RReqPost, RReqPost => true
             | _, _ => false end) = true).
  destruct Hr as [->|[->| ->]]; apply E.
Qed.

(** A pending request was made by some process after the last time it was served. *)
Lemma asked_inv r c a b : asked r c a = false -> asked r c (a ++ b) = true ->
  exists b1 i d b2, b = b1 ++ EvEnd i d (Some r) :: b2.
Proof.
  revert a. induction b as [|e b IH] using rev_ind; intros a A E; [rewrite app_nil_r in E; congruence|].
  rewrite app_assoc, asked_snoc in E.
  assert (R : asked r c (a ++ b) = true -> exists b1 i d b2, b ++ [e] = b1 ++ EvEnd i d (Some r) :: b2).
  { intro T. destruct (IH a A T) as (b1 & i & d & b2 & ->). exists b1, i, d, (b2 ++ [e]).
    rewrite <- app_assoc. auto. }
  destruct e; simpl in E; auto.
  - destruct (cmd_eqb c c0); [discriminate|auto].
  - destruct r0 as [r'|]; auto. apply orb_prop in E as [E|E]; auto.
    exists b, i, c0, []. destruct r, r'; try discriminate; auto.
Qed.

Lemma take_lrn_all l : Forall (fun d => is_lrn d = true) l -> take_lrn l = l.
Proof. induction 1 as [|d l H _ IH]; simpl; auto. rewrite H. f_equal. auto. Qed.

Section Step.
  Variables (N : nat) (G : guards) (a b : list event) (c : cmd) (s : sys).
  Hypothesis X : exec N (a ++ EvBcast CSpk :: b ++ [EvBcast c]) s.
  Hypothesis O : obeys G (a ++ EvBcast CSpk :: b).
  Hypothesis Hb : Forall (fun d => is_lrn d = true) (bcasts b).
  Hypothesis Hc : is_lrn c = false.
  Let t := S (count CSpk (bcasts a)).
  Let tr := a ++ EvBcast CSpk :: b.

  Lemma X' : exec N (tr ++ [EvBcast c]) s.
  Proof. unfold tr. rewrite <- app_assoc. exact X. Qed.
  Lemma pre_exec p q : p ++ q = tr -> exists s', exec N p s'.
  Proof.
    intro E. destruct q as [|e q].
    - rewrite app_nil_r in E. subst p. pose proof X' as Y. apply exec_split in Y as (s0 & _ & A & _). eauto.
    - pose proof X' as Y. rewrite <- E, <- app_assoc in Y. simpl in Y. apply exec_split in Y as (s0 & _ & A & _). eauto.
  Qed.
  Lemma b_phases : exists keep, bcasts b = filter keep [CPre; CLrn; CPost].
  Proof.
    destruct (pre_exec tr []) as [s' E]; [apply app_nil_r|].
    destruct (phases_of_a_step N tr s' (bcasts a) (bcasts b) E) as (keep & K).
    { unfold tr. rewrite bcasts_app'. auto. }
    exists keep. rewrite <- K. symmetry. apply take_lrn_all. exact Hb.
  Qed.
  Lemma acked_b l : Forall (fun d => is_lrn d = true) l -> acked l = l.
  Proof. induction 1 as [|d l H _ IH]; auto. destruct d; try discriminate; simpl; f_equal; auto. Qed.
  Lemma cspk_b l : Forall (fun d => is_lrn d = true) l -> count CSpk l = 0.
  Proof. induction 1 as [|d l H _ IH]; auto. destruct d; try discriminate; auto. Qed.

  Lemma ended_a i : i < N -> acked (ended i a) = acked (bcasts a).
  Proof.
    intro Hi. pose proof X' as Y. unfold tr in Y. rewrite <- app_assoc in Y. simpl in Y.
    apply exec_split in Y as (s0 & s1 & _ & _ & E).
    eapply bcast_quiet; eauto. intros e He. apply (no_err_obeys G tr O). unfold tr. apply in_or_app. auto.
  Qed.
  Lemma ended_b i : i < N -> acked (ended i b) = CSpk :: bcasts b.
  Proof.
    intro Hi. pose proof (bcast_quiet _ _ _ _ X' (no_err_obeys G tr O) i Hi) as E. unfold tr in E.
    rewrite ended_app', bcasts_app', !acked_app, (ended_a i Hi) in E. simpl in E.
    apply app_inv_head in E. rewrite E. f_equal. apply acked_b. exact Hb.
  Qed.

  (** the time step of a process when it executes a phase of this time step *)
  Lemma time_in_step i d r b1 b2 : i < N -> responding d = true -> b = b1 ++ EvEnd i d r :: b2 ->
    time_step i (a ++ EvBcast CSpk :: b1) = t.
  Proof.
    intros Hi Hd E. unfold time_step.
    set (p := a ++ EvBcast CSpk :: b1).
    destruct (pre_exec p (EvEnd i d r :: b2)) as [s1 E1].
    { unfold p, tr. rewrite E, <- app_assoc. auto. }
    destruct (pre_exec (p ++ [EvEnd i d r]) b2) as [s2 E2].
    { unfold p, tr. rewrite E, <- !app_assoc. auto. }
    destruct (bcast_begun_prefix _ _ _ _ E1 Hi) as [q Q].
    destruct (begun_ended_prefix _ _ _ _ E2 Hi) as [q2 Q2].
    assert (U : count CSpk (bcasts p) = t).
    { unfold p, t. rewrite bcasts_app', count_app'. cbn [bcasts]. change (count CSpk (CSpk :: bcasts b1)) with (S (count CSpk (bcasts b1))).
      rewrite (cspk_b (bcasts b1)); [lia|]. rewrite E, bcasts_app' in Hb. apply Forall_app in Hb. tauto. }
    rewrite Q, count_app' in U.
    assert (L : t <= count CSpk (begun i p)).
    { assert (B : begun i (p ++ [EvEnd i d r]) = begun i p) by (rewrite begun_app'; simpl; apply app_nil_r).
      rewrite B in Q2. rewrite Q2, count_app'. unfold p. rewrite <- app_assoc. rewrite ended_app'. simpl.
      rewrite count_app', <- (count_acked (ended i a)), (ended_a i Hi), count_acked.
      pose proof (ended_b i Hi) as EB. rewrite E in EB.
      replace (b1 ++ EvEnd i d r :: b2) with ((b1 ++ [EvEnd i d r]) ++ b2) in EB by (rewrite <- app_assoc; auto).
      rewrite ended_app', acked_app in EB. rewrite <- (count_acked (ended i (b1 ++ [EvEnd i d r]))).
      destruct (acked (ended i (b1 ++ [EvEnd i d r]))) as [|x l] eqn:Z.
      - rewrite ended_app', acked_app in Z. simpl in Z. rewrite Nat.eqb_refl in Z. simpl in Z. rewrite Hd in Z.
        destruct (acked (ended i b1)); discriminate.
      - simpl in EB. injection EB as -> _. change (count CSpk (CSpk :: l)) with (S (count CSpk l)). unfold t. lia. }
    lia.
  Qed.

  (** the answer of a process to a phase of this time step *)
  Lemma answer_in_step i d : i < N -> In d (CSpk :: bcasts b) ->
    exists b1 b2, b = b1 ++ EvEnd i d (handler d (outcome G i t)) :: b2.
  Proof.
    intros Hi Hin. rewrite <- (ended_b i Hi) in Hin. apply filter_In in Hin as [Hin Hd].
    assert (K : forall l, In d (ended i l) -> exists r l1 l2, l = l1 ++ EvEnd i d r :: l2).
    { induction l as [|e l IH]; simpl; [tauto|]. intro Z.
      assert (K' : In d (ended i l) -> exists r l1 l2, e :: l = l1 ++ EvEnd i d r :: l2).
      { intro I. destruct (IH I) as (r & l1 & l2 & ->). exists r, (e :: l1), l2. auto. }
      destruct e; auto. destruct (i0 =? i) eqn:Ei; auto. apply Nat.eqb_eq in Ei. subst i0.
      destruct Z as [->|Z]; auto. exists r, [], l. auto. }
    destruct (K b Hin) as (r & b1 & b2 & E). exists b1, b2.
    pose proof (time_in_step i d r b1 b2 Hi Hd E) as T.
    assert (R : r = handler d (outcome G i t)).
    { rewrite <- T. apply (O (a ++ EvBcast CSpk :: b1) i d r b2). rewrite E, <- app_assoc. auto. }
    rewrite <- R. exact E.
  Qed.
  (** conversely, what was answered in this time step *)
  Lemma answered i d r b1 b2 : b = b1 ++ EvEnd i d (Some r) :: b2 ->
    i < N /\ In d (CSpk :: bcasts b) /\ handler d (outcome G i t) = Some r.
  Proof.
    intro E.
    assert (R : Some r = handler d (outcome G i (time_step i (a ++ EvBcast CSpk :: b1)))).
    { apply (O (a ++ EvBcast CSpk :: b1) i d (Some r) b2). rewrite E, <- app_assoc. auto. }
    assert (Hd : responding d = true) by (destruct d; auto; discriminate).
    assert (Hi : i < N).
    { destruct (pre_exec ((a ++ EvBcast CSpk :: b1) ++ [EvEnd i d (Some r)]) b2) as [s2 E2].
      { unfold tr. rewrite E, <- !app_assoc. auto. }
      apply exec_split in E2 as (s0 & s1 & _ & St & _).
      inversion St as [? ? ? V|? ? ? V|? ? ? V]; subst; inversion V; subst; auto;
        try (destruct (pausing (fl s0)); discriminate); try (destruct (stopping (fl s0)); discriminate). }
    rewrite (time_in_step i d (Some r) b1 b2 Hi Hd E) in R.
    split; [exact Hi|split; [|auto]].
    rewrite <- (ended_b i Hi). apply filter_In. split; auto.
    rewrite E, ended_app'. simpl. rewrite Nat.eqb_refl. apply in_or_app. simpl. auto.
  Qed.

  Lemma a_served k : asked (kreq k) (kcmd k) a = false.
  Proof.
    pose proof X' as Y. unfold tr in Y. rewrite <- app_assoc in Y. simpl in Y.
    apply exec_split in Y as (s0 & s1 & _ & _ & E).
    eapply served; eauto. intros e He. apply (no_err_obeys G tr O). unfold tr. apply in_or_app. auto.
  Qed.

  (** a phase is held iff some process answered an earlier phase of this step with the request *)
  Lemma phase_iff k : In (kcmd k) (bcasts b) <->
    exists i d, i < N /\ In d (CSpk :: bcasts b) /\ handler d (outcome G i t) = Some (kreq k).
  Proof.
    split.
    - intro I. assert (Z : exists b1 b2, b = b1 ++ EvBcast (kcmd k) :: b2).
      { clear -I. induction b as [|e l IH]; simpl in *; [tauto|].
        assert (K' : In (kcmd k) (bcasts l) -> exists b1 b2, e :: l = b1 ++ EvBcast (kcmd k) :: b2).
        { intro J. destruct (IH J) as (b1 & b2 & ->). exists (e :: b1), b2. auto. }
        destruct e; auto. destruct I as [->|I]; auto. exists [], l. auto. }
      destruct Z as (b1 & b2 & E).
      destruct (pre_exec ((a ++ EvBcast CSpk :: b1) ++ [EvBcast (kcmd k)]) b2) as [s2 E2].
      { unfold tr. rewrite E, <- !app_assoc. auto. }
      pose proof (phase_order _ _ _ _ E2) as P.
      assert (A : asked (kreq k) (kcmd k) (a ++ EvBcast CSpk :: b1) = true) by (destruct k; simpl in *; tauto).
      replace (a ++ EvBcast CSpk :: b1) with ((a ++ [EvBcast CSpk]) ++ b1) in A by (rewrite <- app_assoc; auto).
      assert (A0 : asked (kreq k) (kcmd k) (a ++ [EvBcast CSpk]) = false).
      { rewrite asked_snoc, a_served. destruct k; reflexivity. }
      destruct (asked_inv (kreq k) (kcmd k) _ _ A0 A) as (c1 & i & d & c2 & Eb).
      exists i, d. apply (answered i d (kreq k) c1 (c2 ++ EvBcast (kcmd k) :: b2)).
      rewrite E, Eb, <- app_assoc. auto.
    - intros (i & d & Hi & Hd & Hh).
      destruct (answer_in_step i d Hi Hd) as (b1 & b2 & E). rewrite Hh in E.
      destruct (in_dec (fun x y : cmd => ltac:(decide equality) : {x = y} + {x <> y}) (kcmd k) (bcasts b2)) as [I|I].
      + rewrite E, bcasts_app'. simpl. apply in_or_app. auto.
      + exfalso. pose proof (served _ _ _ _ X' (no_err_obeys G tr O) Hc k) as Sv. unfold tr in Sv.
        rewrite E in Sv.
        replace (a ++ EvBcast CSpk :: b1 ++ EvEnd i d (Some (kreq k)) :: b2)
          with ((a ++ EvBcast CSpk :: b1) ++ EvEnd i d (Some (kreq k)) :: b2) in Sv by (rewrite <- app_assoc; auto).
        rewrite asked_true in Sv; auto; [discriminate|]. destruct k; auto.
  Qed.

  Lemma spk_pre i : handler CSpk (outcome G i t) = Some RReqPre <-> lrn_guard G i t && pre_guard G i t = true.
  Proof. simpl. destruct (lrn_guard G i t), (pre_guard G i t), (post_guard G i t); simpl; split; congruence. Qed.
  Lemma not_host d : In d (CSpk :: bcasts b) -> d = CSpk \/ d = CPre \/ d = CLrn \/ d = CPost.
  Proof.
    intros [<-|I]; auto. rewrite Forall_forall in Hb. specialize (Hb d I). destruct d; try discriminate; auto.
  Qed.

  Lemma pre_iff : In CPre (bcasts b) <-> exists i, i < N /\ lrn_guard G i t && pre_guard G i t = true.
  Proof.
    rewrite (phase_iff KPre). split.
    - intros (i & d & Hi & Hd & Hh). exists i. split; auto. apply spk_pre.
      destruct (not_host d Hd) as [->|[->|[->| ->]]]; auto; simpl in Hh; try discriminate.
      destruct (post_guard G i t); discriminate.
    - intros (i & Hi & Hg). exists i, CSpk. simpl. split; auto. split; auto. apply spk_pre in Hg. exact Hg.
  Qed.
  Lemma lrn_iff : In CLrn (bcasts b) <-> exists i, i < N /\ lrn_guard G i t = true.
  Proof.
    rewrite (phase_iff KLrn). split.
    - intros (i & d & Hi & Hd & Hh).
      destruct (not_host d Hd) as [->|[->|[->| ->]]]; simpl in Hh; try discriminate.
      + exists i. split; auto. destruct (lrn_guard G i t), (pre_guard G i t), (post_guard G i t); simpl in Hh; congruence.
      + assert (I : In CPre (bcasts b)) by (destruct Hd as [|]; [discriminate|auto]).
        apply pre_iff in I as (j & Hj & Hg). exists j. apply andb_prop in Hg as [Hg _]. auto.
      + destruct (post_guard G i t); discriminate.
    - intros (i & Hi & Hg). destruct (pre_guard G i t) eqn:Hp.
      + exists i, CPre. split; auto. split; auto. right. apply pre_iff. exists i. rewrite Hg, Hp. auto.
      + exists i, CSpk. split; auto. split; [simpl; auto|]. simpl. rewrite Hg, Hp. auto.
  Qed.
  Lemma post_iff : In CPost (bcasts b) <-> exists i, i < N /\ post_guard G i t = true.
  Proof.
    rewrite (phase_iff KPost). split.
    - intros (i & d & Hi & Hd & Hh). exists i. split; auto.
      destruct (not_host d Hd) as [->|[->|[->| ->]]]; simpl in Hh; try discriminate;
        destruct (lrn_guard G i t), (pre_guard G i t), (post_guard G i t); simpl in Hh; congruence.
    - intros (i & Hi & Hg). destruct (lrn_guard G i t) eqn:Hl.
      + exists i, CLrn. split; auto. split; [right; apply lrn_iff; eauto|]. simpl. rewrite Hg. auto.
      + exists i, CSpk. split; auto. split; [simpl; auto|]. simpl. rewrite Hl, Hg. auto.
  Qed.

  Lemma phases_doc : bcasts b = doc_phases N G t.
  Proof.
    destruct b_phases as [keep K]. rewrite K. unfold doc_phases.
    assert (Q : forall d f, In d [CPre; CLrn; CPost] -> (In d (bcasts b) <-> exists i, i < N /\ f i = true) -> keep d = some_proc N f).
    { intros d f Hd H. rewrite <- some_proc_iff in H. rewrite K, filter_In in H.
      destruct (keep d), (some_proc N f); auto; exfalso; intuition congruence. }
    pose proof (Q CPre _ ltac:(simpl; auto) pre_iff) as Q1. cbv beta in Q1.
    pose proof (Q CLrn _ ltac:(simpl; auto) lrn_iff) as Q2. cbv beta in Q2.
    pose proof (Q CPost _ ltac:(simpl; auto) post_iff) as Q3. cbv beta in Q3.
    simpl. rewrite Q1, Q2, Q3.
    destruct (some_proc N (fun i => lrn_guard G i t && pre_guard G i t)), (some_proc N (fun i => lrn_guard G i t)),
      (some_proc N (fun i => post_guard G i t)); reflexivity.
  Qed.

  Lemma executed_doc i : i < N -> executed G i t b =
    [RunSpk] ++
    (if pre_guard G i t && some_proc N (fun j => lrn_guard G j t && pre_guard G j t) then [RunPreMgmt] else []) ++
    (if lrn_guard G i t then [RunLrn] else []) ++
    (if post_guard G i t then [RunPostMgmt] else []).
  Proof.
    intro Hi. unfold executed.
    assert (H : forall l, flat_map (fun c => ucalls c (outcome G i t)) l = flat_map (fun c => ucalls c (outcome G i t)) (acked l)).
    { induction l as [|d l IH]; simpl; auto. destruct d; simpl; rewrite IH; auto. }
    rewrite H, (ended_b i Hi), phases_doc. unfold doc_phases. simpl.
    assert (E1 : lrn_guard G i t = true -> some_proc N (fun j => lrn_guard G j t) = true).
    { intro. apply some_proc_iff. eauto. }
    assert (E2 : post_guard G i t = true -> some_proc N (fun j => post_guard G j t) = true).
    { intro. apply some_proc_iff. eauto. }
    rewrite !flat_map_app. f_equal.
    destruct (lrn_guard G i t) eqn:L, (post_guard G i t) eqn:P, (pre_guard G i t) eqn:Q;
      rewrite ?(E1 eq_refl), ?(E2 eq_refl);
      destruct (some_proc N (fun j => lrn_guard G j t && pre_guard G j t)),
               (some_proc N (fun j => lrn_guard G j t)), (some_proc N (fun j => post_guard G j t));
      simpl; rewrite ?L, ?P, ?Q; reflexivity.
  Qed.
End Step.

(** In every time step (the commands between one SPK and the next command that is not a
    learning-related phase) the service holds exactly the phases that the guards ask for. *)
Theorem phases_from_guards : forall N G a b c s,
  exec N (a ++ EvBcast CSpk :: b ++ [EvBcast c]) s -> is_lrn c = false ->
  Forall (fun d => is_lrn d = true) (bcasts b) ->
  obeys G (a ++ EvBcast CSpk :: b) ->
  bcasts b = doc_phases N G (S (count CSpk (bcasts a))).
Proof. intros N G a b c s X Hc Hb O. exact (phases_doc N G a b c s X O Hb Hc). Qed.

(** In that time step every process runs run_spk, then run_pre_mgmt iff its pre_guard holds and some
    process has both lrn_guard and pre_guard, run_lrn iff its own lrn_guard holds, and run_post_mgmt
    iff its own post_guard holds, each once and in this order, and sees the right time_step. *)
Theorem functions_from_guards : forall N G a b c s i,
  exec N (a ++ EvBcast CSpk :: b ++ [EvBcast c]) s -> is_lrn c = false ->
  Forall (fun d => is_lrn d = true) (bcasts b) ->
  obeys G (a ++ EvBcast CSpk :: b) -> i < N ->
  let t := S (count CSpk (bcasts a)) in
  executed G i t b =
    [RunSpk] ++
    (if pre_guard G i t && some_proc N (fun j => lrn_guard G j t && pre_guard G j t) then [RunPreMgmt] else []) ++
    (if lrn_guard G i t then [RunLrn] else []) ++
    (if post_guard G i t then [RunPostMgmt] else []) /\
  (forall b1 d r b2, b = b1 ++ EvEnd i d r :: b2 -> responding d = true ->
     time_step i (a ++ EvBcast CSpk :: b1) = t).
Proof.
  intros N G a b c s i X Hc Hb O Hi t. split.
  - apply (executed_doc N G a b c s X O Hb Hc i Hi).
  - intros b1 d r b2 E Hd. apply (time_in_step N G a b c s X O Hb i d r b1 b2 Hi Hd E).
Qed.

(** The hypotheses are met: two processes, process 0 learns with pre-management at time step 1,
    process 1 only has post-management; then the run ends. *)
Definition demo_guards : guards :=
  {| lrn_guard := fun i t => (i =? 0) && (t =? 1); pre_guard := fun i _ => i =? 0; post_guard := fun i _ => i =? 1 |}.
Ltac fin2 := try reflexivity; try lia; try discriminate; auto.
Ltac norm2 W' := cbn [ext app psh pop set_sv set_svf say set_m r2s s2r s2p p2s mp ts sv nn cur fl note set_last clr_pre clr_lrn clr_post f0
  fpre flrn fpost fpause fstop err pausing stopping last bad orb Nat.eqb handler outcome raises q_pause q_stop g_lrn g_pre g_post andb
  lrn_guard pre_guard post_guard demo_guards fupd] in W'.
Ltac v2 c := match goal with W : exec 2 ?tr ?s |- _ =>
  let e := fresh in let s' := fresh in evar (e : option event); evar (s' : sys);
  let St := fresh in assert (St : vstep 2 s e s') by (subst e s'; eapply c; fin2);
  let W' := fresh in pose proof (ex_step 2 _ _ _ _ W (st_v _ _ _ _ St)) as W'; subst e s'; clear W St; norm2 W' end.
Ltac m2 c := match goal with W : exec 2 ?tr ?s |- _ =>
  let e := fresh in let s' := fresh in evar (e : option event); evar (s' : sys);
  let St := fresh in assert (St : mstep 2 s e s') by (subst e s'; c; fin2);
  let W' := fresh in pose proof (ex_step 2 _ _ _ _ W (st_m _ _ _ _ St)) as W'; subst e s'; clear W St; norm2 W' end.
Ltac phase2 c :=
  v2 V_send; v2 V_send; v2 V_sent;
  m2 ltac:(eapply (M_begin 2 _ 1 c)); m2 ltac:(eapply (M_end 2 _ 1 c (outcome demo_guards 1 1)));
  m2 ltac:(eapply (M_begin 2 _ 0 c)); m2 ltac:(eapply (M_end 2 _ 0 c (outcome demo_guards 0 1)));
  v2 V_recv; v2 V_recv; v2 V_got; v2 V_ok; v2 V_probe_no.

Definition demo_step : list event :=
  flat_map (fun c => (match c with CSpk => [] | _ => [EvBcast c] end) ++
                     [EvBegin 1 c; EvEnd 1 c (handler c (outcome demo_guards 1 1));
                      EvBegin 0 c; EvEnd 0 c (handler c (outcome demo_guards 0 1))]) [CSpk; CPre; CLrn; CPost].

Example guards_met : exists s,
  exec 2 ([EvPush (Steps 1); EvStart 1] ++ EvBcast CSpk :: demo_step ++ [EvBcast CHost]) s /\
  Forall (fun d => is_lrn d = true) (bcasts demo_step) /\
  obeys demo_guards ([EvPush (Steps 1); EvStart 1] ++ EvBcast CSpk :: demo_step) /\
  doc_phases 2 demo_guards 1 = [CPre; CLrn; CPost].
Proof.
  eexists. split.
  - pose proof (ex_init 2) as W. unfold sys0 in W.
    assert (H1 := ex_step 2 _ _ _ _ W (st_e _ _ _ _ (E_push _ (Steps 1)))). clear W. cbn [ext app psh] in H1.
    v2 V_start. v2 V_spk. phase2 CSpk. v2 V_pre. phase2 CPre. v2 V_lrn. phase2 CLrn. v2 V_post. phase2 CPost. v2 V_host.
    eassumption.
  - split; [repeat constructor|]. split; [|reflexivity].
    intros a i c r b E. cbn in E.
    repeat (destruct a as [|? a]; simpl in E; [try discriminate E; injection E as <- <- <- <-; reflexivity|injection E as <- E]).
    destruct a; discriminate.
Qed.

(** *** C12, starting from the exception itself: whatever the phase in which user code raises, the
    error is reported, nothing but STOP is sent any more, and every other process executes STOP. *)
Theorem exception_in_any_phase : forall N tr s i c o s',
  exec N tr s -> i < N -> mp s i = MBusy c -> is_phase c -> raises o = true ->
  step N s (Some (EvEnd i c (handler c o))) s' ->
  (forall b s'', exec N (tr ++ EvEnd i c (handler c o) :: b) s'' -> forall c', In c' (bcasts b) -> c' = CStop) /\
  inevitable (sysnext N) (fun x =>
     In ERROR (said (fst x)) /\
     forall j, j < N -> (exists c, In (EvEnd j c (Some RErr)) (fst x)) \/ In CStop (ended j (fst x)))
    (tr ++ [EvEnd i c (handler c o)], s').
Proof.
  intros N tr s i c o s' X Hi Hm Hc Ho St.
  assert (E : handler c o = Some RErr) by (destruct c; try contradiction; simpl; rewrite Ho; auto).
  rewrite E in *. split.
  - intros b s'' H. eapply error_no_more_phases; eauto.
  - apply error_reported.
    + apply (ex_step N tr s (Some (EvEnd i c (Some RErr))) s'); auto.
    + exists (EvEnd i c (Some RErr)). split; [apply in_or_app; simpl; auto|exact I].
Qed.
