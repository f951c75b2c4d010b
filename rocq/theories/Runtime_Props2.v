(** C11, C12 and the liveness half of C07 and C10. *)
From Coq Require Import List Arith Lia Bool.
From Verif Require Import Runtime_Spec Runtime_Proofs Runtime_Live Runtime_Inv2 Runtime_Props.
Import ListNotations.

(** Termination of the system between two actions of the runtime. *)
Lemma sys_inevitable N (next : list event * sys -> list event * sys -> Prop)
    (Q Phi : list event * sys -> Prop) :
  (forall x y, next x y -> sysnext N x y) ->
  (forall x e s', (vstep N (snd x) e s' \/ mstep N (snd x) e s') -> calm e -> next x (ext (fst x) e, s')) ->
  (forall x y, exec N (fst x) (snd x) -> Phi x -> next x y -> Phi y) ->
  (forall x, exec N (fst x) (snd x) -> Phi x -> quiet N (snd x) ->
             (sv (snd x) = VDead \/ (sv (snd x) = VIdle /\ r2s (snd x) = [])) -> Q x) ->
  forall x, exec N (fst x) (snd x) -> Phi x -> inevitable next Q x.
Proof.
  intros Hn Hc Hp Hq x Hx Px.
  apply (inev_terminal next Q (fun x => exec N (fst x) (snd x) /\ Phi x) (fun x => meas N (snd x))); auto.
  - intros [tr s] [tr' s'] [He HP] Hs. simpl in *. pose proof (Hp (tr, s) (tr', s') He HP Hs) as HP'.
    destruct (Hn _ _ Hs) as (e & St & Et). simpl in *. subst tr'.
    split; [split|]; auto.
    + apply (ex_step N tr s e s'); auto. destruct St; [apply st_v|apply st_m]; auto.
    + destruct St; [eapply meas_v|eapply meas_m]; eauto.
  - intros [tr s] [He HP]. simpl in *. destruct (progress N tr s He) as [(e & s' & St & C)|[Hq1 Hq2]].
    + left. exists (ext tr e, s'). apply (Hc (tr, s) e s'); auto.
    + right. apply Hq; auto.
Qed.

(** *** C11: stop *)

(** STOP is sent to the processes at most once per history, and nothing after it. *)
Theorem stop_at_most_once : forall N tr s i,
  exec N tr s -> i < N -> count CStop (begun i tr) <= 1 /\
  (forall a b, begun i tr = a ++ CStop :: b -> b = []).
Proof.
  intros N tr s i H Hi. destruct (bcast_begun_prefix _ _ _ _ H Hi) as [r E].
  destruct (invT_exec _ _ _ H) as (T1 & T2 & _).
  assert (C : count CStop (bcasts tr) <= 1 /\ (count CStop (bcasts tr) = 1 -> ends tr CStop)).
  { assert (D : stopset (sv s) \/ ~ stopset (sv s)) by (destruct (sv s) as [| |[]|[]| | | | | | |]; simpl; auto).
    destruct D as [D|D]; [destruct (T1 D) as [? Z]; rewrite Z; auto|rewrite (T2 D); split; auto; discriminate]. }
  destruct C as [C1 C2]. split.
  - rewrite E, count_app in C1. lia.
  - intros a b Eb. rewrite Eb in E. 
    assert (Z : count CStop (bcasts tr) = 1).
    { rewrite E, <- app_assoc, count_app in *. simpl in *. unfold count in *. simpl in *. lia. }
    destruct (C2 Z) as [m M]. rewrite M in E. 
    destruct b as [|y b _] using rev_ind; auto. exfalso.
    assert (X : count CStop m >= 1).
    { destruct r as [|z r _] using rev_ind.
      - rewrite app_nil_r in E. replace (a ++ CStop :: b ++ [y]) with ((a ++ CStop :: b) ++ [y]) in E by (rewrite <- app_assoc; auto).
        apply app_inj_tail in E as [-> _]. rewrite count_app. unfold count; simpl; lia.
      - rewrite app_assoc in E. apply app_inj_tail in E as [-> _].
        rewrite !count_app. unfold count; simpl; lia. }
    rewrite M, count_app in Z. unfold count in *. simpl in Z. lia.
Qed.

Lemma dead_facts N tr s : exec N tr s -> sv s = VDead -> err (fl s) = false ->
  forall i, i < N -> mp s i = MDead /\ s2p s i = [] /\ ended i tr = bcasts tr.
Proof.
  intros H V E i Hi. destruct (invT_exec _ _ _ H) as (T1 & T2 & T3). rewrite V in *.
  specialize (T3 E i Hi). destruct (T1 I) as [[m M] C].
  pose proof (invA_exec _ _ _ H) as A. pose proof (invB_exec _ _ _ H) as B.
  pose proof (a_del _ _ _ A i Hi) as D. pose proof (a_busy _ _ _ A i Hi) as Bu. rewrite V in D. simpl in D.
  rewrite app_nil_r in D. rewrite T3 in Bu. simpl in Bu. rewrite app_nil_r in Bu.
  split; auto.
  assert (Q : In CStop (ended i tr)).
  { destruct (invDead_exec _ _ _ H i Hi T3) as [[c R]|]; auto. exfalso.
    destruct (invE_exec _ _ _ H) as [X|(j & Hj & X)]; [eexists; split; [exact R|exact I]|congruence|].
    rewrite (quiet_p2s _ _ j B Hj) in X; [contradiction|]. rewrite V, E. auto. }
  destruct (quiet_none _ _ i B Hi) as [F _]; [rewrite V, E; auto|].
  assert (S : s2p s i = []).
  { destruct (s2p s i) as [|x q _] using rev_ind; auto. exfalso.
    rewrite app_assoc, M in D. apply app_inj_tail in D as [_ <-].
    apply Forall_app in F as [_ F]. inversion F. discriminate. }
  split; auto. rewrite S, app_nil_r in D. congruence.
Qed.

Lemma terminated_dead N tr s : exec N tr s -> In TERMINATED (said tr) -> sv s = VDead /\ err (fl s) = false.
Proof.
  induction 1 as [|tr s e s' H IH St]; [contradiction|]. intro Hin.
  assert (C : In TERMINATED (said tr) \/ e = Some (EvResp TERMINATED)).
  { destruct e as [e|]; simpl in Hin; auto. rewrite said_app, in_app_iff in Hin. destruct Hin as [|Hin]; auto.
    destruct e; simpl in Hin; try contradiction. destruct Hin as [->|[]]; auto. }
  destruct C as [C|C].
  - destruct (IH C) as [V E]. destruct St as [? ? ? Hv|? ? ? Hm|? ? ? He].
    + inversion Hv; congruence.
    + destruct Hm; auto.
    + destruct He; auto.
  - subst e. inversion St as [? ? ? V|? ? ? V|? ? ? V]; subst; inversion V; subst;
      try (destruct (pausing (fl s)); discriminate); try (destruct (stopping (fl s)); discriminate).
    simpl. split; auto. destruct (err (fl s)) eqn:E; auto. exfalso.
    pose proof (b_err _ _ (invB_exec _ _ _ H) E) as X.
    match goal with Z : sv s = _ |- _ => rewrite Z in X end. contradiction.
Qed.

(** When termination is reported, every process has executed STOP exactly once, as its last
    command, and has executed every command that was ever issued. *)
Theorem terminated_all_stopped : forall N tr s i,
  exec N tr s -> In TERMINATED (said tr) -> i < N ->
  (exists m, ended i tr = m ++ [CStop]) /\ count CStop (ended i tr) = 1 /\
  begun i tr = ended i tr /\ ended i tr = bcasts tr.
Proof.
  intros N tr s i H Ht Hi. destruct (terminated_dead _ _ _ H Ht) as [V E].
  destruct (dead_facts _ _ _ H V E i Hi) as (D1 & D2 & D3).
  destruct (invT_exec _ _ _ H) as (T1 & _ & _). rewrite V in T1. destruct (T1 I) as [[m M] C].
  pose proof (a_busy _ _ _ (invA_exec _ _ _ H) i Hi) as Bu. rewrite D1 in Bu. simpl in Bu. rewrite app_nil_r in Bu.
  rewrite D3. repeat split; eauto. congruence.
Qed.

(** After termination was reported nothing happens any more in the service and the processes. *)
Theorem terminated_nothing_after : forall N a b s,
  exec N (a ++ EvResp TERMINATED :: b) s ->
  forall e, In e b -> match e with EvPush _ | EvPop _ => True | _ => False end.
Proof.
  intros N a b s H e He. apply in_split in He as (b1 & b2 & ->).
  replace (a ++ EvResp TERMINATED :: b1 ++ e :: b2) with ((a ++ EvResp TERMINATED :: b1) ++ e :: b2) in H
    by (rewrite <- app_assoc; auto).
  apply exec_split in H as (s0 & s1 & X0 & St & _).
  destruct (terminated_dead _ _ _ X0) as [V E].
  { rewrite said_app, in_app_iff. simpl. auto. }
  pose proof (dead_facts _ _ _ X0 V E) as D.
  inversion St as [? ? ? Hv|? ? ? Hv|? ? ? Hv]; subst; inversion Hv; subst; auto; try congruence;
    destruct (D i) as (D1 & _); auto; congruence.
Qed.

(** A stop request is always answered: on every schedule the service eventually reports
    termination, or an error if some process raised. *)
Theorem stop_answered : forall N tr s,
  exec N tr s -> In (EvPush Stop) tr ->
  inevitable (sysnext N) (fun x => In TERMINATED (said (fst x)) \/ In ERROR (said (fst x))) (tr, s).
Proof.
  intros N tr s H Hs.
  apply (sys_inevitable N (sysnext N) _ (fun x => In (EvPush Stop) (fst x))); auto.
  - intros [t u] e s' St _. exists e. auto.
  - intros [t u] [t' u'] _ Hin (e & St & ->). simpl in *. destruct e; simpl; auto. apply in_snoc. auto.
  - intros [t u] Hx Hin Q V. simpl in *. pose proof (invE2_exec _ _ _ Hx) as E. unfold InvE2 in E.
    destruct V as [V|[V R]]; rewrite V in *.
    + destruct (err (fl u)); auto.
    + exfalso. pose proof (invB_exec _ _ _ Hx) as B.
      destruct (invStop_exec _ _ _ Hx Hin) as [X|[X|X]].
      * rewrite R in X. contradiction.
      * rewrite V in X. contradiction.
      * pose proof (b_err _ _ B X) as Z. rewrite V in Z. contradiction.
Qed.

Lemma error_raised N tr s : exec N tr s -> (In ERROR (said tr) \/ err (fl s) = true \/ exists i, i < N /\ In RErr (p2s s i)) ->
  exists e, In e tr /\ raised e.
Proof.
  induction 1 as [|tr s e s' H IH St].
  { intros [[]|[|(? & _ & [])]]; discriminate. }
  intro C.
  assert (C' : (In ERROR (said tr) \/ err (fl s) = true \/ exists i, i < N /\ In RErr (p2s s i)) \/
               exists x, e = Some x /\ raised x).
  { destruct St as [? ? ? Hv|? ? ? Hm|? ? ? He].
    - left. destruct C as [C|[C|(i & Hi & C)]].
      + destruct Hv; simpl in C; auto;
          try match type of C with context [if pausing (fl s) then None else _] => destruct (pausing (fl s)); simpl in C end;
          try match type of C with context [if stopping (fl s) then None else _] => destruct (stopping (fl s)); simpl in C end;
          auto; rewrite said_app, in_app_iff in C; simpl in C; destruct C as [|C]; auto; try contradiction;
          try (destruct C as [C|[]]; try discriminate); auto.
      + destruct Hv; simpl in C; rewrite ?err_peeked in C; auto.
        apply orb_true_iff in C as [C|C]; auto. right. right. exists k. split; auto. rewrite H2.
        destruct r; try discriminate. simpl. auto.
      + right. right. destruct Hv; simpl in C; eauto.
        exists i. split; auto. revert C. fupds; auto. rewrite H2. simpl. auto.
    - destruct C as [C|[C|(i & Hi & C)]].
      + left. left. destruct Hm; simpl in C; rewrite said_app, in_app_iff in C; simpl in C; tauto.
      + left. right. left. destruct Hm; auto.
      + destruct Hm; simpl in C.
        * left. right. right. exists i. split; auto. revert C. fupds; auto.
        * revert C. fupds; [|left; eauto]. destruct (handler c o) as [r|] eqn:Eh; [|left; eauto].
          intro C. apply in_snoc in C as [|C]; [left; eauto|]. subst r. right. eexists. split; eauto. exact I.
    - left. destruct C as [C|[C|(i & Hi & C)]]; [left|right; left|right; right; exists i; split; auto]; destruct He; simpl in C; auto;
        rewrite said_app, in_app_iff in C; simpl in C; tauto. }
  destruct C' as [C'|(x & -> & R)].
  - destruct (IH C') as (x & Hx & R). exists x. split; auto. destruct e; simpl; auto. apply in_snoc. auto.
  - exists x. split; auto. simpl. apply in_snoc. auto.
Qed.

(** If no process raises, a stop request is always answered by termination. *)
Theorem stop_terminates : forall N tr s,
  exec N tr s -> In (EvPush Stop) tr -> (forall e, In e tr -> ~ raised e) ->
  inevitable (noraise_next N) (fun x => In TERMINATED (said (fst x)) /\
     forall i, i < N -> exists m, ended i (fst x) = m ++ [CStop]) (tr, s).
Proof.
  intros N tr s H Hs Hr.
  apply (sys_inevitable N (noraise_next N) _
    (fun x => In (EvPush Stop) (fst x) /\ forall e, In e (fst x) -> ~ raised e)); auto.
  - intros x y (e & A & B & _). exists e. auto.
  - intros [t u] e s' St C. exists e. repeat split; auto. intros ev ->. apply C.
  - intros [t u] [t' u'] _ [Hin Hr'] (e & St & -> & Hn). simpl in *. destruct e as [e|]; simpl; auto. split.
    + apply in_snoc. auto.
    + intros x Hx. apply in_snoc in Hx as [Hx| <-]; auto.
  - intros [t u] Hx [Hin Hr'] Q V. simpl in *. pose proof (invE2_exec _ _ _ Hx) as E. unfold InvE2 in E.
    assert (Er : err (fl u) = false).
    { destruct (err (fl u)) eqn:Er; auto. destruct (error_raised _ _ _ Hx) as (x & X1 & X2); auto. exfalso. eapply Hr'; eauto. }
    assert (T : In TERMINATED (said t)).
    { destruct V as [V|[V R]]; rewrite V in *.
      + rewrite Er in E. auto.
      + exfalso. destruct (invStop_exec _ _ _ Hx Hin) as [X|[X|X]].
        * rewrite R in X. contradiction.
        * rewrite V in X. contradiction.
        * congruence. }
    split; auto. intros i Hi. apply (terminated_all_stopped _ _ _ i Hx T Hi).
Qed.

(** *** C12: exceptions *)

(** After an exception in any process no further command is issued, except STOP. *)
Theorem error_no_more_phases : forall N a i c b s,
  exec N (a ++ EvEnd i c (Some RErr) :: b) s -> forall c', In c' (bcasts b) -> c' = CStop.
Proof.
  intros N a i c b s H c' Hc'.
  assert (Hb : In (EvBcast c') b).
  { clear - Hc'. induction b as [|[] b IH]; simpl in *; auto. destruct Hc' as [->|]; auto. }
  apply in_split in Hb as (b1 & b2 & ->).
  replace (a ++ EvEnd i c (Some RErr) :: b1 ++ EvBcast c' :: b2)
    with ((a ++ EvEnd i c (Some RErr) :: b1) ++ EvBcast c' :: b2) in H by (rewrite <- app_assoc; auto).
  apply exec_split in H as (s0 & s1 & X0 & St & _).
  pose proof (invB_exec _ _ _ X0) as B.
  assert (R : err (fl s0) = true \/ exists j, j < N /\ In RErr (p2s s0 j)).
  { apply (invE_exec _ _ _ X0). exists (EvEnd i c (Some RErr)). split; [|exact I].
    apply in_or_app. simpl. auto. }
  assert (Q : (forall j, expc (sv s0) (err (fl s0)) j = None) -> err (fl s0) = true).
  { intro Z. destruct R as [|(j & Hj & Hin)]; auto. rewrite (quiet_p2s _ _ j B Hj) in Hin; auto. }
  inversion St as [? ? ? Hv|? ? ? Hv|? ? ? Hv]; subst; inversion Hv; subst; auto;
    try (destruct (pausing (fl s0)); discriminate); try (destruct (stopping (fl s0)); discriminate);
    match goal with Z : sv s0 = _ |- _ => rewrite Z in Q; specialize (Q (fun _ => eq_refl));
      pose proof (b_err _ _ B Q) as E; rewrite Z in E; contradiction end.
Qed.

(** An exception is always reported, and every process that did not raise itself ends by
    executing STOP. *)
Theorem error_reported : forall N tr s,
  exec N tr s -> (exists e, In e tr /\ raised e) ->
  inevitable (sysnext N) (fun x =>
     In ERROR (said (fst x)) /\
     forall j, j < N -> (exists c, In (EvEnd j c (Some RErr)) (fst x)) \/ In CStop (ended j (fst x))) (tr, s).
Proof.
  intros N tr s H Hr.
  apply (sys_inevitable N (sysnext N) _ (fun x => exists e, In e (fst x) /\ raised e)); auto.
  - intros [t u] e s' St _. exists e. auto.
  - intros [t u] [t' u'] _ (e & He & R) (o & St & ->). simpl in *. exists e. split; auto.
    destruct o; simpl; auto. apply in_snoc. auto.
  - intros [t u] Hx R Q V. simpl in *. pose proof (invE2_exec _ _ _ Hx) as E. unfold InvE2 in E.
    pose proof (invB_exec _ _ _ Hx) as B.
    assert (V' : sv u = VDead /\ err (fl u) = true).
    { destruct (invE_exec _ _ _ Hx R) as [Z|(j & Hj & Hin)].
      - destruct V as [V|[V _]]; auto. pose proof (b_err _ _ B Z) as X. rewrite V in X. contradiction.
      - destruct V as [V|[V _]].
        + destruct (err (fl u)) eqn:Z; auto. rewrite (quiet_p2s _ _ j B Hj) in Hin; [contradiction|]. rewrite V, Z. auto.
        + rewrite (quiet_p2s _ _ j B Hj) in Hin; [contradiction|]. rewrite V. auto. }
    destruct V' as [V' Z]. rewrite V', Z in E. split; auto.
    intros j Hj. apply (invDead_exec _ _ _ Hx j Hj).
    destruct (Q j Hj) as [|[M S]]; auto. exfalso.
    pose proof (b_p _ _ B j Hj) as P. rewrite V', Z, M, S in P. simpl in P. inversion P; subst; try discriminate.
    + destruct h; discriminate.
    + match goal with A : allowed CStop _ |- _ => destruct A as [o O] end. simpl in O. injection O as <-. discriminate.
Qed.
