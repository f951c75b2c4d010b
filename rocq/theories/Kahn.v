(** Networks of deterministic sequential components connected by bounded FIFO channels with one
    writer and one reader each.  The channels are the ones verified in Channel_*.v (C01-C04):
    [send] appends and waits while [cap] messages are outstanding, [recv] takes the oldest message
    and waits while there is none.

    Main result [kahn_inevitable]: the outcome of such a network does not depend on the schedule.
    If one execution reaches a state in which nothing can move, then every execution terminates
    in that very state. *)
From Coq Require Import List Arith Lia.
From Verif Require Import Base.
Import ListNotations.

Fixpoint upd {A} (l : list A) (i : nat) (x : A) : list A :=
  match l, i with
  | [], _ => []
  | _ :: r, 0 => x :: r
  | a :: r, S j => a :: upd r j x
  end.

Lemma upd_length A (l : list A) i x : length (upd l i x) = length l.
Proof. revert i; induction l; destruct i; simpl; auto. Qed.
Lemma nth_upd_eq A (l : list A) i x : i < length l -> nth_error (upd l i x) i = Some x.
Proof. revert i; induction l; destruct i; simpl; intros; try lia; auto. apply IHl; lia. Qed.
Lemma nth_upd_neq A (l : list A) i j x : i <> j -> nth_error (upd l i x) j = nth_error l j.
Proof. revert i j; induction l; destruct i, j; simpl; intros; auto; try congruence. Qed.
Lemma upd_comm A (l : list A) i j x y : i <> j -> upd (upd l i x) j y = upd (upd l j y) i x.
Proof. revert i j; induction l; destruct i, j; simpl; intros; auto; try congruence. f_equal. auto. Qed.
Lemma upd_upd A (l : list A) i x y : upd (upd l i x) i y = upd l i y.
Proof. revert i; induction l; destruct i; simpl; intros; auto. f_equal. auto. Qed.
Lemma upd_same A (l : list A) i x : nth_error l i = Some x -> upd l i x = l.
Proof. revert i; induction l; destruct i; simpl; intros; try congruence. f_equal. auto. Qed.
Lemma nth_upd A (l : list A) i j x : i < length l ->
  nth_error (upd l i x) j = if Nat.eqb i j then Some x else nth_error l j.
Proof.
  intros. destruct (Nat.eqb_spec i j); subst; [apply nth_upd_eq|apply nth_upd_neq]; auto.
Qed.
Lemma map_upd A B (f : A -> B) l i x : map f (upd l i x) = upd (map f l) i (f x).
Proof. revert i; induction l; destruct i; simpl; auto. f_equal. auto. Qed.
Lemma upd_app_r A (l m : list A) i x : upd (l ++ m) (length l + i) x = l ++ upd m i x.
Proof. induction l; simpl; auto. f_equal. auto. Qed.

(** What a component does next. *)
Inductive action (V S : Type) :=
| Snd (c : nat) (v : V) (s : S)
| Rcv (c : nat) (k : V -> S)
| Tau (s : S)
| Halt.
Arguments Snd {V S}. Arguments Rcv {V S}. Arguments Tau {V S}. Arguments Halt {V S}.

Record net (V S : Type) := mkNet { comps : list S; chans : list (list V) }.
Arguments mkNet {V S}. Arguments comps {V S}. Arguments chans {V S}.

Section Kahn.
Context {V S : Type}.
Variable act : nat -> S -> action V S.
Variable cap : nat.
Variables writer reader : nat -> nat.

Inductive kstep (x : net V S) (i : nat) : net V S -> Prop :=
| KSnd s c v s' q :
    nth_error (comps x) i = Some s -> act i s = Snd c v s' ->
    nth_error (chans x) c = Some q -> length q < cap ->
    kstep x i (mkNet (upd (comps x) i s') (upd (chans x) c (q ++ [v])))
| KRcv s c k v q :
    nth_error (comps x) i = Some s -> act i s = Rcv c k ->
    nth_error (chans x) c = Some (v :: q) ->
    kstep x i (mkNet (upd (comps x) i (k v)) (upd (chans x) c q))
| KTau s s' :
    nth_error (comps x) i = Some s -> act i s = Tau s' ->
    kstep x i (mkNet (upd (comps x) i s') (chans x)).

Definition knext (x y : net V S) : Prop := exists i, kstep x i y.

Inductive ksteps : nat -> net V S -> net V S -> Prop :=
| KS0 x : ksteps 0 x x
| KS1 n x y z : knext x y -> ksteps n y z -> ksteps (Datatypes.S n) x z.

(** Executions: any number of steps. *)
Inductive kruns : net V S -> net V S -> Prop :=
| KR0 x : kruns x x
| KR1 x y z : knext x y -> kruns y z -> kruns x z.

Definition stuck (x : net V S) : Prop := forall y, ~ knext x y.

(** Channel discipline: one writer, one reader.  Only needed for reachable component states,
    hence relative to a predicate [ok]. *)
Variable ok : nat -> S -> Prop.
Hypothesis ok_snd : forall i s c v s', ok i s -> act i s = Snd c v s' -> writer c = i /\ ok i s'.
Hypothesis ok_rcv : forall i s c k, ok i s -> act i s = Rcv c k -> reader c = i /\ forall v, ok i (k v).
Hypothesis ok_tau : forall i s s', ok i s -> act i s = Tau s' -> ok i s'.

Definition allok (x : net V S) : Prop := forall i s, nth_error (comps x) i = Some s -> ok i s.

Lemma nth_lt A (l : list A) i x : nth_error l i = Some x -> i < length l.
Proof. intros H. apply nth_error_Some. congruence. Qed.

Lemma allok_step x i y : allok x -> kstep x i y -> allok y.
Proof.
  intros O St j s Hj. assert (Hi : exists s0, nth_error (comps x) i = Some s0) by (destruct St; eauto).
  destruct Hi as [s0 Hi]. pose proof (nth_lt _ _ _ _ Hi) as L. pose proof (O _ _ Hi) as Oi.
  destruct St; simpl in Hj; rewrite nth_upd in Hj by auto; rewrite H in Hi; injection Hi as <-;
    destruct (Nat.eqb_spec i j) as [->|]; eauto; injection Hj as <-.
  - eapply ok_snd; eauto.
  - eapply ok_rcv; eauto.
  - eapply ok_tau; eauto.
Qed.

Lemma kstep_det x i y z : kstep x i y -> kstep x i z -> y = z.
Proof.
  intros A B. destruct A, B; try congruence; repeat match goal with
  | H : nth_error _ _ = _, H' : nth_error _ _ = _ |- _ => rewrite H in H'; injection H' as <-
  | H : act _ _ = _, H' : act _ _ = _ |- _ => rewrite H in H'; injection H' as <-
  | H : act _ _ = _, H' : act _ _ = _ |- _ => rewrite H in H'; injection H' as <- <-
  | H : act _ _ = _, H' : act _ _ = _ |- _ => rewrite H in H'; injection H' as <- <- <-
  end; try congruence.
Qed.

(** Pointwise description of a step that is convenient for the diamond. *)
Lemma diamond x i j y z : allok x -> i <> j -> kstep x i y -> kstep x j z ->
  exists w, kstep y j w /\ kstep z i w.
Proof.
  intros O Hij A B.
  assert (Hi : exists s0, nth_error (comps x) i = Some s0) by (destruct A; eauto).
  assert (Hj : exists s0, nth_error (comps x) j = Some s0) by (destruct B; eauto).
  destruct Hi as [si Hi], Hj as [sj Hj].
  pose proof (nth_lt _ _ _ _ Hi) as Li. pose proof (nth_lt _ _ _ _ Hj) as Lj.
  pose proof (O _ _ Hi) as Oi. pose proof (O _ _ Hj) as Oj.
  assert (Cs : forall u v, nth_error (upd (comps x) i u) j = Some sj /\ nth_error (upd (comps x) j v) i = Some si).
  { intros. rewrite !nth_upd_neq by auto. auto. }
  destruct A as [s c v s' q A1 A2 A3 A4|s c k v q A1 A2 A3|s s' A1 A2];
  destruct B as [s2 c2 v2 s2' q2 B1 B2 B3 B4|s2 c2 k2 v2 q2 B1 B2 B3|s2 s2' B1 B2];
  rewrite A1 in Hi; injection Hi as <-; rewrite B1 in Hj; injection Hj as <-.
  - assert (c <> c2). { intros ->. apply Hij. destruct (ok_snd _ _ _ _ _ Oi A2), (ok_snd _ _ _ _ _ Oj B2). congruence. }
    eexists. split.
    + eapply KSnd; simpl; [apply Cs; auto|eauto| |]; [rewrite nth_upd_neq by auto; eauto|auto].
    + simpl. rewrite (upd_comm _ (comps x)) by auto. rewrite (upd_comm _ (chans x)) by auto.
      eapply (KSnd {| comps := _; chans := _ |}); simpl; [apply Cs; auto|eauto| |]; [rewrite nth_upd_neq by auto; eauto|auto].
  - destruct (Nat.eq_dec c c2) as [->|Hc].
    + rewrite A3 in B3. injection B3 as ->.
      pose proof (nth_lt _ _ _ _ A3).
      eexists. split.
      * eapply KRcv; simpl; [apply Cs; auto|eauto|]. rewrite nth_upd_eq by auto. simpl. eauto.
      * simpl. rewrite (upd_comm _ (comps x)) by auto. rewrite upd_upd.
        replace (upd (chans x) c2 (q2 ++ [v])) with (upd (upd (chans x) c2 q2) c2 (q2 ++ [v])) by apply upd_upd.
        eapply (KSnd {| comps := _; chans := _ |}); simpl; [apply Cs; auto|eauto| |];
         [rewrite nth_upd_eq by auto; eauto|simpl in A4; lia].
    + eexists. split.
      * eapply KRcv; simpl; [apply Cs; auto|eauto|]. rewrite nth_upd_neq by auto. eauto.
      * simpl. rewrite (upd_comm _ (comps x)) by auto. rewrite (upd_comm _ (chans x)) by auto.
        eapply (KSnd {| comps := _; chans := _ |}); simpl; [apply Cs; auto|eauto| |]; [rewrite nth_upd_neq by auto; eauto|auto].
  - eexists. split.
    + eapply KTau; simpl; [apply Cs; auto|eauto].
    + simpl. rewrite (upd_comm _ (comps x)) by auto.
      eapply (KSnd {| comps := _; chans := _ |}); simpl; [apply Cs; auto|eauto|eauto|auto].
  - destruct (Nat.eq_dec c c2) as [->|Hc].
    + rewrite A3 in B3. injection B3 as <-.
      pose proof (nth_lt _ _ _ _ A3).
      eexists. split.
      * eapply KSnd; simpl; [apply Cs; auto|eauto| |]. { rewrite nth_upd_eq by auto. eauto. } simpl in *. lia.
      * simpl. rewrite (upd_comm _ (comps x)) by auto. rewrite upd_upd.
        replace (upd (chans x) c2 (q ++ [v2])) with (upd (upd (chans x) c2 (v :: q ++ [v2])) c2 (q ++ [v2])) by apply upd_upd.
        eapply (KRcv {| comps := _; chans := _ |}); simpl; [apply Cs; auto|eauto|]. rewrite nth_upd_eq by auto. eauto.
    + eexists. split.
      * eapply KSnd; simpl; [apply Cs; auto|eauto| |]; [rewrite nth_upd_neq by auto; eauto|auto].
      * simpl. rewrite (upd_comm _ (comps x)) by auto. rewrite (upd_comm _ (chans x)) by auto.
        eapply (KRcv {| comps := _; chans := _ |}); simpl; [apply Cs; auto|eauto|]. rewrite nth_upd_neq by auto. eauto.
  - assert (c <> c2). { intros ->. apply Hij. destruct (ok_rcv _ _ _ _ Oi A2), (ok_rcv _ _ _ _ Oj B2). congruence. }
    eexists. split.
    + eapply KRcv; simpl; [apply Cs; auto|eauto|]. rewrite nth_upd_neq by auto; eauto.
    + simpl. rewrite (upd_comm _ (comps x)) by auto. rewrite (upd_comm _ (chans x)) by auto.
      eapply (KRcv {| comps := _; chans := _ |}); simpl; [apply Cs; auto|eauto|]. rewrite nth_upd_neq by auto; eauto.
  - eexists. split.
    + eapply KTau; simpl; [apply Cs; auto|eauto].
    + simpl. rewrite (upd_comm _ (comps x)) by auto.
      eapply (KRcv {| comps := _; chans := _ |}); simpl; [apply Cs; auto|eauto|eauto].
  - eexists. split.
    + eapply KSnd; simpl; [apply Cs; auto|eauto|eauto|auto].
    + simpl. rewrite (upd_comm _ (comps x)) by auto.
      eapply (KTau {| comps := _; chans := _ |}); simpl; [apply Cs; auto|eauto].
  - eexists. split.
    + eapply KRcv; simpl; [apply Cs; auto|eauto|eauto].
    + simpl. rewrite (upd_comm _ (comps x)) by auto.
      eapply (KTau {| comps := _; chans := _ |}); simpl; [apply Cs; auto|eauto].
  - eexists. split.
    + eapply KTau; simpl; [apply Cs; auto|eauto].
    + simpl. rewrite (upd_comm _ (comps x)) by auto.
      eapply (KTau {| comps := _; chans := _ |}); simpl; [apply Cs; auto|eauto].
Qed.

(** Random descent. *)
Lemma descent n : forall x y, allok x -> ksteps n x y -> stuck y ->
  forall x', knext x x' -> exists m, n = Datatypes.S m /\ ksteps m x' y.
Proof.
  induction n; intros x y O R St x' Hx'; inversion R; subst.
  - exfalso. eapply St; eauto.
  - exists n. split; auto. destruct H0 as [i Hi], Hx' as [j Hj].
    destruct (Nat.eq_dec i j) as [->|Hij].
    + rewrite (kstep_det _ _ _ _ Hj Hi). auto.
    + destruct (diamond _ _ _ _ _ O Hij Hi Hj) as (w & W1 & W2).
      destruct (IHn _ _ (allok_step _ _ _ O Hi) H1 St w) as (m & -> & Hm); [eexists; eauto|].
      econstructor; [eexists; eauto|auto].
Qed.

Lemma kahn_inev_n n : forall x y, allok x -> ksteps n x y -> stuck y -> inevitable knext (fun z => z = y) x.
Proof.
  induction n; intros x y O R St.
  - inversion R; subst. apply inev_now; auto.
  - pose proof (descent _ _ _ O R St) as D. inversion R; subst. apply inev_later.
    + eauto.
    + intros s' Hs. destruct (D _ Hs) as (m & E & Hm). injection E as <-.
      apply IHn; auto. destruct Hs as [i Hi]. eapply allok_step; eauto.
Qed.

Lemma kruns_ksteps x y : kruns x y -> exists n, ksteps n x y.
Proof. induction 1 as [|x y z H H0 [n Hn]]; [exists 0|exists (Datatypes.S n)]; econstructor; eauto. Qed.
Lemma kruns_trans x y z : kruns x y -> kruns y z -> kruns x z.
Proof. induction 1; intros; auto. econstructor; eauto. Qed.
Lemma kruns_one x i y : kstep x i y -> kruns x y.
Proof. intros. econstructor; [eexists; eauto|constructor]. Qed.

(** Every execution of the network ends in the state that one execution ends in. *)
Theorem kahn_inevitable x y : allok x -> kruns x y -> stuck y -> inevitable knext (fun z => z = y) x.
Proof. intros O R St. destruct (kruns_ksteps _ _ R) as [n Hn]. eapply kahn_inev_n; eauto. Qed.

(** Every partial execution can be continued to that state: nothing else is reachable for good. *)
Theorem kahn_confluent x y z : allok x -> kruns x y -> stuck y -> kruns x z -> kruns z y.
Proof.
  intros O R St Z. destruct (kruns_ksteps _ _ R) as [n Hn]. clear R. revert n Hn.
  induction Z; intros.
  - clear O. induction Hn; econstructor; eauto.
  - destruct (descent _ _ _ O Hn St _ H) as (m & -> & Hm).
    eapply IHZ; eauto. destruct H as [i Hi]. eapply allok_step; eauto.
Qed.
End Kahn.
