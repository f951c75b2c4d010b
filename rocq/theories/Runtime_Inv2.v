(** Further invariants: stop, errors, requests, disciplined histories. *)
From Coq Require Import List Arith Lia Bool.
From Verif Require Import Runtime_Spec Runtime_Proofs Runtime_Live.
Import ListNotations.

Lemma in_snoc {A} (x y : A) l : In x (l ++ [y]) <-> In x l \/ y = x.
Proof. rewrite in_app_iff. simpl. tauto. Qed.
Lemma ext_some tr e : ext tr (Some e) = tr ++ [e].
Proof. reflexivity. Qed.

Lemma pushed_app a b : pushed (a ++ b) = pushed a ++ pushed b.
Proof. induction a as [|[[]| | | | | |] a IH]; simpl; rewrite ?IH; auto. Qed.
Lemma starts_app a b : starts (a ++ b) = starts a ++ starts b.
Proof. induction a as [|[] a IH]; simpl; rewrite ?IH; auto. Qed.

Section RI.
  Variable N : nat.
  Notation exec := (exec N).

  Lemma exec_split a e b s : exec (a ++ e :: b) s ->
    exists s0 s1, exec a s0 /\ step N s0 (Some e) s1 /\ exec (a ++ [e]) s1.
  Proof.
    remember (a ++ e :: b) as tr eqn:E. intro H. revert b E.
    induction H as [|tr s o s' H IH St]; intros b E.
    - destruct a; discriminate.
    - destruct o as [x|]; simpl in E; [|eauto].
      destruct b as [|y b] using rev_ind.
      + apply app_inj_tail in E as [-> ->]. exists s, s'. repeat split; auto.
        apply (ex_step N a s (Some e) s'); auto.
      + clear IHb. rewrite app_comm_cons, app_assoc in E. apply app_inj_tail in E as [E ->]. eauto.
  Qed.

  (** E: exceptions. *)
  Lemma invE_exec tr s : exec tr s -> (exists e, In e tr /\ raised e) ->
    err (fl s) = true \/ exists i, i < N /\ In RErr (p2s s i).
  Proof.
    induction 1 as [|tr s e s' H IH St]; [intros (? & [] & _)|].
    intros (x & Hin & Hr).
    assert (C : (exists e, In e tr /\ raised e) \/ e = Some x).
    { destruct e as [e|]; simpl in Hin; [|eauto]. apply in_snoc in Hin as [| ->]; eauto. }
    pose proof (invB_exec _ _ _ H) as B.
    destruct St as [? ? ? Hv|? ? ? Hm|? ? ? He].
    - assert (C' : exists e, In e tr /\ raised e).
      { destruct C as [| ->]; auto. exfalso. remember (Some x) as o. 
        destruct Hv; try discriminate; try (injection Heqo as <-; exact Hr);
          [destruct (pausing (fl s))|destruct (stopping (fl s))]; try discriminate;
          injection Heqo as <-; exact Hr. }
      destruct (IH C') as [E|(i & Hi & Hin')].
      + left. destruct Hv; simpl; rewrite ?err_peeked; auto. rewrite E; auto.
      + destruct Hv; simpl; rewrite ?err_peeked; eauto.
        destruct (Nat.eq_dec i k).
        * subst. left. pose proof (b_p _ _ B k Hi) as P. rewrite H0 in P. simpl in P.
          rewrite Nat.ltb_irrefl, H2 in P. apply pstat_recv in P as (_ & _ & _ & -> & _).
          rewrite H2 in Hin'. destruct Hin' as [->|[]]. apply orb_true_r.
        * right. exists i. rewrite fupd_other by auto. auto.
    - destruct C as [C|C].
      + destruct (IH C) as [E|(i & Hi & Hin')]; [left; destruct Hm; auto|].
        right. exists i. split; auto. destruct Hm; simpl; fupds; auto.
        destruct (handler c o); auto. apply in_or_app. auto.
      + right. destruct Hm; injection C as <-; simpl in Hr; [contradiction|].
        exists i. split; auto. simpl. rewrite fupd_same.
        destruct (handler c o) as [[]|]; try contradiction. apply in_or_app. simpl. auto.
    - destruct C as [C|C].
      + destruct (IH C) as [E|(i & Hi & Hin')]; [left; destruct He; auto|right; exists i; destruct He; auto].
      + destruct He; injection C as <-; contradiction.
  Qed.

  Definition InvE2 (tr : list event) (s : sys) : Prop :=
    match sv s with
    | VErrB | VErr _ => In ERROR (said tr)
    | VDead => if err (fl s) then In ERROR (said tr) else In TERMINATED (said tr)
    | _ => True
    end.

  Lemma said_mono tr e x : In x (said tr) -> In x (said (ext tr e)).
  Proof. destruct e; simpl; auto. rewrite said_app, in_app_iff. auto. Qed.

  Lemma invE2_exec tr s : exec tr s -> InvE2 tr s.
  Proof.
    induction 1 as [|tr s e s' H IH St]; [exact I|]. pose proof (invB_exec _ _ _ H) as B.
    unfold InvE2 in *. destruct St as [? ? ? Hv|? ? ? Hm|? ? ? He].
    - destruct Hv; simpl; try match goal with Z : sv s = _ |- _ => rewrite Z in * end; auto;
        try (destruct c; auto; fail).
      + destruct (err (fl s)) eqn:E; [|rewrite said_app; simpl; apply in_snoc; auto].
        pose proof (b_err _ _ B E) as X. rewrite H0 in X. contradiction.
      + rewrite said_app; simpl; apply in_snoc; auto.
      + rewrite said_app; simpl. rewrite app_nil_r. auto.
      + pose proof (b_errpc _ _ B) as X. rewrite H0 in X. rewrite X. auto.
    - assert (X : sv s' = sv s /\ fl s' = fl s) by (destruct Hm; auto). destruct X as [-> ->].
      destruct (sv s); auto; try (apply said_mono; auto). destruct (err (fl s)); apply said_mono; auto.
    - assert (X : sv s' = sv s /\ fl s' = fl s) by (destruct He; auto). destruct X as [-> ->].
      destruct (sv s); auto; try (apply said_mono; auto). destruct (err (fl s)); apply said_mono; auto.
  Qed.

  (** Why a process is dead. *)
  Lemma invDead_exec tr s : exec tr s -> forall i, i < N -> mp s i = MDead ->
    (exists c, In (EvEnd i c (Some RErr)) tr) \/ In CStop (ended i tr).
  Proof.
    induction 1 as [|tr s e s' H IH St]; [discriminate|]. intros j Hj Hd.
    assert (M : mp s j = MDead -> (exists c, In (EvEnd j c (Some RErr)) (ext tr e)) \/ In CStop (ended j (ext tr e))).
    { intro D. destruct (IH j Hj D) as [[c D']|D'].
      - left. exists c. destruct e; simpl; auto. apply in_snoc. auto.
      - right. destruct e; simpl; auto. rewrite ended_app, in_app_iff. auto. }
    destruct St as [? ? ? Hv|? ? ? Hm|? ? ? He].
    - apply M. destruct Hv; auto.
    - destruct Hm; simpl in Hd; revert Hd; fupds; auto; [discriminate|].
      destruct (handler c o) as [r|] eqn:Hh; [|discriminate].
      destruct r; try discriminate; intros _; simpl.
      + right. rewrite ended_app, in_app_iff. right. simpl. rewrite Nat.eqb_refl.
        destruct c; simpl in *; auto; unfold pause_or_stop in Hh;
          repeat match type of Hh with context [if ?b then _ else _] => destruct b end; discriminate.
      + left. exists c. apply in_snoc. auto.
    - apply M. destruct He; auto.
  Qed.

  (** Stop. *)
  Definition stopset (v : svpc) : Prop :=
    match v with VSend CStop _ | VRecv CStop _ | VErr _ | VDead => True | _ => False end.

  Definition InvT (tr : list event) (s : sys) : Prop :=
    (stopset (sv s) -> ends tr CStop /\ count CStop (bcasts tr) = 1) /\
    (~ stopset (sv s) -> count CStop (bcasts tr) = 0) /\
    match sv s with
    | VRecv CStop k => forall i, i < N -> i < k -> mp s i = MDead
    | VDead => err (fl s) = false -> forall i, i < N -> mp s i = MDead
    | _ => True
    end.

  Lemma invT_exec tr s : exec tr s -> InvT tr s.
  Proof.
    induction 1 as [|tr s e s' H IH St].
    { unfold InvT; simpl. tauto. }
    pose proof (invB_exec _ _ _ H) as B. pose proof (invW_exec _ _ _ H) as W. unfold InvW in W.
    destruct IH as (I1 & I2 & I3).
    destruct St as [? ? ? Hv|? ? ? Hm|? ? ? He].
    - destruct Hv; unfold InvT; simpl ext;
        try match goal with Z : sv s = _ |- _ => rewrite Z in * end; simpl in *;
        try match goal with |- context [if pausing (fl s) then None else _] => destruct (pausing (fl s)); simpl ext end;
        try match goal with |- context [if stopping (fl s) then None else _] => destruct (stopping (fl s)); simpl ext end;
        rewrite ?bcasts_app, ?count_app; simpl; rewrite ?app_nil_r, ?Nat.add_0_r;
        try (repeat split; intros; auto; try tauto; try contradiction; fail);
        try (split; [intros _; split; [apply ends_bcast|rewrite I2; auto]|split; [tauto|auto; intros; lia]]; fail).
      + destruct c; simpl in *; try (split; [tauto|]; split; auto; fail).
        split; auto. split; auto. intros; lia.
      + destruct c; simpl in *; try (split; [tauto|]; split; auto; fail).
        split; auto. split; auto. intros i Hi Hk. destruct (Nat.eq_dec i k); [|apply I3; auto; lia].
        subst. pose proof (b_p _ _ B k H1) as P. rewrite H0 in P. simpl in P.
        rewrite Nat.ltb_irrefl, H2 in P. apply pstat_recv in P as (_ & [o O] & _ & _ & M).
        simpl in O. injection O as <-. auto.
      + split; [intros _; split|].
        * apply ends_snoc; simpl; auto. apply I1. auto.
        * apply I1. auto.
        * split; [tauto|]. auto.
      + exfalso. destruct H1 as [-> | ->]; congruence.
      + destruct c; try congruence; simpl in *; tauto.
      + split; auto. split; auto. pose proof (b_errpc _ _ B) as X. rewrite H0 in X. congruence.
      + destruct c; simpl in *; tauto.
      + destruct c; simpl in *; tauto.
    - assert (X : sv s' = sv s /\ fl s' = fl s /\ bcasts (ext tr e) = bcasts tr /\
                  (forall i, mp s i = MDead -> mp s' i = MDead)).
      { destruct Hm; simpl; rewrite bcasts_app; simpl; rewrite app_nil_r; repeat split; auto;
          intros j; fupds; auto; congruence. }
      destruct X as (E1 & E2 & E3 & E4). unfold InvT, ends. rewrite E1, E2, E3.
      split; [|split]; auto. destruct (sv s); auto. destruct c; auto.
    - assert (X : sv s' = sv s /\ fl s' = fl s /\ bcasts (ext tr e) = bcasts tr /\ mp s' = mp s).
      { destruct He; simpl; rewrite bcasts_app; simpl; rewrite app_nil_r; auto. }
      destruct X as (E1 & E2 & E3 & E4). unfold InvT, ends. rewrite E1, E2, E3, E4. auto.
  Qed.

  (** Pushed stops are not lost. *)
  Lemma invStop_exec tr s : exec tr s -> In (EvPush Stop) tr -> In Stop (r2s s) \/ stopset (sv s) \/ err (fl s) = true.
  Proof.
    induction 1 as [|tr s e s' H IH St]; [contradiction|]. intro Hin.
    pose proof (invB_exec _ _ _ H) as B.
    destruct St as [? ? ? Hv|? ? ? Hm|? ? ? He].
    - assert (Hin' : In (EvPush Stop) tr).
      { destruct Hv; simpl in Hin; auto;
          try match type of Hin with context [if pausing (fl s) then None else _] => destruct (pausing (fl s)) end;
          try match type of Hin with context [if stopping (fl s) then None else _] => destruct (stopping (fl s)) end;
          auto; apply in_snoc in Hin as [|]; auto; discriminate. }
      specialize (IH Hin'). clear Hin Hin'.
      destruct Hv; simpl; try match goal with Z : sv s = _ |- _ => rewrite Z in * end;
        rewrite ?err_peeked; simpl in *; auto;
        try match goal with Z : r2s s = _ |- _ => rewrite Z in IH; try rewrite Z; simpl in IH |- * end; auto;
        try (destruct IH as [[IH|IH]|IH]; auto; try discriminate; tauto);
        try (destruct c; simpl in *; tauto).
      + destruct c; simpl in *; auto; destruct IH as [|[[]|IH]]; auto; rewrite IH; auto.
      + exfalso. pose proof (invW_exec _ _ _ H) as W. unfold InvW in W. rewrite H0 in W.
        destruct H1 as [-> | ->]; congruence.
    - assert (X : sv s' = sv s /\ fl s' = fl s /\ r2s s' = r2s s) by (destruct Hm; auto).
      destruct X as (-> & -> & ->). apply IH. destruct Hm; simpl in Hin; apply in_snoc in Hin as [|]; auto; discriminate.
    - destruct He; simpl in *.
      + apply in_snoc in Hin as [Hin|E].
        * destruct (IH Hin) as [|]; auto. left. apply in_or_app. auto.
        * injection E as ->. left. apply in_or_app. simpl. auto.
      + apply in_snoc in Hin as [Hin|E]; [auto|discriminate].
  Qed.
End RI.
