From Coq Require Import ZArith List Bool Lia Arith Wellfounded.
From Verif Require Import Life_Model Life_Spec.
Import ListNotations.
Open Scope Z_scope.

Definition mk p i o t : svc := {| pc := p; inq := i; outq := o; steps := t |}.
Definition quiet T s := s = mk SIdle [] [] T.
Definition executing B n s :=
  s = mk SIdle [n] [] B \/ (exists c, 0 <= c <= n /\ s = mk (SRun n c) [] [] (B + c)) \/ s = mk SIdle [] [tDONE] (B + n).
Definition dead T s := s = mk SDead [] [] T.
Definition stopping T s := s = mk SIdle [tSTOP] [] T \/ s = mk SDead [] [tTERMINATED] T.
Definition getting T s :=
  s = mk SIdle [tGET; 0; 0] [] T \/ s = mk (SGet 2) [0; 0] [] T \/ s = mk (SGet 1) [0] [] T \/ s = mk SIdle [] [1; T] T.
Definition got1 T s := s = mk SIdle [] [T] T.
Definition got (s : svc) : bool := match pc s, inq s, outq s with SIdle, [], [] => true | _, _, _ => false end.

Lemma quiet_stays T s s' : quiet T s -> sstep s s' -> False.
Proof. intros -> H. inversion H; subst; cbn in *; discriminate. Qed.
Lemma dead_stays T s s' : dead T s -> sstep s s' -> False.
Proof. intros -> H. inversion H; subst; cbn in *; discriminate. Qed.
Lemma got1_stays T s s' : got1 T s -> sstep s s' -> False.
Proof. intros -> H. inversion H; subst; cbn in *; discriminate. Qed.
Lemma executing_step B n s s' : 0 <= n -> executing B n s -> sstep s s' -> executing B n s'.
Proof.
  intros Hn [->|[(c & Hc & ->)| ->]] H; inversion H; subst; cbn in *; try discriminate.
  - injection H1 as <- <-. unfold on_cmd. unfold tSTOP, tPAUSE, tGET, tSET.
    repeat match goal with |- context [?a =? ?b] => destruct (Z.eqb_spec a b); [lia|] end.
    right. left. exists 0. split; [lia|]. cbn. rewrite Z.add_0_r. reflexivity.
  - injection H0 as <- <-. right. left. exists (c + 1). split; [lia|]. rewrite Z.add_assoc. reflexivity.
  - injection H0 as <- <-. right. right. reflexivity.
Qed.
Lemma stopping_step T s s' : stopping T s -> sstep s s' -> stopping T s'.
Proof.
  intros [->| ->] H; inversion H; subst; cbn in *; try discriminate.
  injection H1 as <- <-. right. reflexivity.
Qed.
Lemma getting_step T s s' : getting T s -> sstep s s' -> getting T s'.
Proof.
  intros [->|[->|[->| ->]]] H; inversion H; subst; cbn in *; try discriminate.
  - injection H1 as <- <-. right. left. reflexivity.
  - injection H0 as <-. injection H1 as <- <-. right. right. left. reflexivity.
  - injection H1 as <- <-. right. right. right. reflexivity.
Qed.

(** ** Lists of services *)
Lemma nth_upd {A} (l1 l2 : list A) s s' i x : nth_error (l1 ++ s' :: l2) i = Some x ->
  i = length l1 /\ x = s' \/ i <> length l1 /\ nth_error (l1 ++ s :: l2) i = Some x.
Proof.
  destruct (Nat.lt_trichotomy i (length l1)) as [H|[->|H]].
  - rewrite nth_error_app1 by exact H. right. split; [lia|]. now rewrite nth_error_app1.
  - rewrite nth_error_app2, Nat.sub_diag by lia. cbn. left. split; congruence.
  - rewrite nth_error_app2 by lia. right. split; [lia|]. rewrite nth_error_app2 by lia.
    destruct (i - length l1)%nat eqn:E; [lia|]. exact H0.
Qed.
Lemma nth_mid {A} (l1 l2 : list A) s : nth_error (l1 ++ s :: l2) (length l1) = Some s.
Proof. rewrite nth_error_app2, Nat.sub_diag by lia. reflexivity. Qed.
Lemma len_upd {A} (l1 l2 : list A) s s' : length (l1 ++ s' :: l2) = length (l1 ++ s :: l2).
Proof. rewrite !app_length. reflexivity. Qed.
Lemma nth_send_all c ss i x : nth_error (send_all c ss) i = Some x -> exists s, nth_error ss i = Some s /\ x = send [c] s.
Proof.
  unfold send_all. rewrite nth_error_map. destruct (nth_error ss i) as [s|]; [|discriminate].
  intros [= <-]. exists s. split; reflexivity.
Qed.
Definition all (P : nat -> svc -> Prop) (ss : list svc) : Prop := forall i s, nth_error ss i = Some s -> P i s.
Lemma all_upd (P Q : nat -> svc -> Prop) l1 s s' l2 :
  all P (l1 ++ s :: l2) -> (forall i x, i <> length l1 -> P i x -> Q i x) -> (P (length l1) s -> Q (length l1) s') -> all Q (l1 ++ s' :: l2).
Proof.
  intros H Ho Hn i x Hx. destruct (nth_upd _ _ s _ _ _ Hx) as [[-> ->]|[Hi Hx']]; [apply Hn, H, nth_mid|apply Ho; [exact Hi|apply H, Hx']].
Qed.
Definition count (ss : list svc) : nat := length (filter got ss).
Lemma count_app a b : count (a ++ b) = (count a + count b)%nat.
Proof. unfold count. rewrite filter_app, app_length. reflexivity. Qed.
Lemma count_upd l1 s s' l2 : got s = got s' -> count (l1 ++ s' :: l2) = count (l1 ++ s :: l2).
Proof. intros H. rewrite !count_app. unfold count. cbn [filter]. rewrite H. destruct (got s'); reflexivity. Qed.
Lemma count_more l1 s s' l2 : got s = false -> got s' = true -> count (l1 ++ s' :: l2) = S (count (l1 ++ s :: l2)).
Proof. intros H H'. rewrite !count_app. unfold count. cbn [filter]. rewrite H, H'. cbn [length]. lia. Qed.
Lemma count_all ss : count ss = length ss -> Forall (fun s => got s = true) ss.
Proof.
  unfold count. induction ss as [|s ss IH]; [constructor|]. cbn [filter length]. destruct (got s) eqn:E; cbn [length].
  - intros H. constructor; [exact E|]. apply IH. lia.
  - intros H. exfalso. assert (length (filter got ss) <= length ss)%nat; [|lia]. clear. induction ss as [|a ss IH]; cbn; [lia|]. destruct (got a); cbn; lia.
Qed.
Lemma count_some ss : (count ss < length ss)%nat -> exists l1 s l2, ss = l1 ++ s :: l2 /\ got s = false.
Proof.
  unfold count. induction ss as [|s ss IH]; cbn [filter length]; [lia|]. destruct (got s) eqn:E; cbn [length].
  - intros H. destruct IH as (l1 & x & l2 & -> & Hx); [lia|]. exists (s :: l1), x, l2. split; [reflexivity|exact Hx].
  - intros _. exists [], s, ss. split; [reflexivity|exact E].
Qed.
Lemma executing_got B n s : executing B n s -> got s = false.
Proof. intros [->|[(c & _ & ->)| ->]]; reflexivity. Qed.

(** ** The invariant *)
Definition is_busy (ph : phase) : bool := match ph with Busy => true | _ => false end.
Definition is_started (ph : phase) : bool := match ph with Idle | Busy => true | _ => false end.
Section Inv.
Variables (k : nat) (P : list call).
Inductive shape : phase -> Z -> client -> list svc -> list result -> Prop :=
| sh_new c ss : cl c = Ready -> started c = false -> running c = false -> all (fun _ => quiet 0) ss -> shape New 0 c ss []
| sh_idle T c ss : cl c = Ready -> started c = true -> running c = false -> all (fun _ => quiet T) ss -> shape Idle T c ss []
| sh_stopped T c ss : cl c = Ready -> started c = false -> running c = false -> all (fun _ => dead T) ss -> shape Stopped T c ss []
| sh_busy B n c ss : cl c = Ready -> started c = true -> running c = true -> 0 <= B /\ 0 <= n -> all (fun _ => executing B n) ss -> shape Busy (B + n) c ss []
| sh_wait B n r c ss : cl c = InWait r -> started c = true -> running c = true -> 0 <= B /\ 0 <= n ->
    all (fun _ s => executing B n s \/ quiet (B + n) s) ss -> count ss = r -> (r < k)%nat -> shape Idle (B + n) c ss [Ok]
| sh_stop T j c ss : cl c = InStop j -> started c = true -> (j <= k)%nat ->
    all (fun i s => if (i <? j)%nat then dead T s else stopping T s) ss -> shape Stopped T c ss [Ok]
| sh_get T j c ss : cl c = InGet j None -> started c = true -> running c = false -> (j < k)%nat ->
    all (fun i s => if (i =? j)%nat then getting T s else quiet T s) ss -> shape Idle T c ss [Val T]
| sh_item T j c ss : cl c = InGet j (Some 1) -> started c = true -> running c = false -> (j < k)%nat ->
    all (fun i s => if (i =? j)%nat then got1 T s else quiet T s) ss -> shape Idle T c ss [Val T].
Record Inv (st : client * list svc) : Prop := {
  i_len : length (snd st) = k;
  i_ph : exists ph T pend, shape ph T (fst st) (snd st) pend /\ documented k ph (prog (fst st)) /\ 0 <= T /\
    (ph = New \/ ph = Idle \/ ph = Busy \/ ph = Stopped) /\
    results (fst st) ++ pend ++ answers (is_busy ph) T (prog (fst st)) = answers false 0 P /\
    T + requested (prog (fst st)) = requested P /\ final_phase ph (prog (fst st)) = final_phase New P }.
Lemma inv_init : documented k New P -> Inv (fresh k P).
Proof using.
  intros D. constructor; [cbn; apply repeat_length|]. exists New, 0, []. cbn. split; [|split; [exact D|split; [lia|split; [now left|auto]]]].
  constructor; try reflexivity. intros i s H. apply nth_error_In, repeat_spec in H. subst. reflexivity.
Qed.
Lemma documented_get_stopped ph j p : documented k ph (Get j :: p) -> ph = Idle \/ ph = Busy.
Proof using. intros [[_ H] _]. exact H. Qed.

Hypothesis Hk : (0 < k)%nat.
Ltac start := match goal with H : exists ph T pend, _ |- _ => destruct H as (ph & T & pend & Sh & D & HT & _ & R & Q & F) end.
Ltac use E := rewrite E in *; cbn [fst snd cl prog started running results] in *.
Lemma inv_step a b : Inv a -> step a b -> Inv b.
Proof using Hk.
  intros [L I] St. start. destruct St as [[c ss] b St|c l1 s s' l2 Ss].
  2:{ (* a service *)
    cbn [fst snd] in *. constructor; [cbn [snd]; rewrite (len_upd l1 l2 s s'); exact L|]. exists ph, T, pend. cbn [fst snd].
    split; [|repeat (split; [assumption|]); split; [destruct ph; auto|auto]].
    pose proof (nth_mid l1 l2 s) as Hm.
    inversion Sh; subst.
    - exfalso. eapply quiet_stays; [apply (H2 _ _ Hm)|exact Ss].
    - exfalso. eapply quiet_stays; [apply (H2 _ _ Hm)|exact Ss].
    - exfalso. eapply dead_stays; [apply (H2 _ _ Hm)|exact Ss].
    - constructor; try assumption. eapply all_upd; [exact H3| |]; cbn beta; [auto|]. intros E. eapply executing_step; [apply H2|exact E|exact Ss].
    - destruct (H3 _ _ Hm) as [E|E]; [|exfalso; eapply quiet_stays; eassumption].
      pose proof (executing_step _ _ _ _ (proj2 H2) E Ss) as E'.
      assert (got s = got s') as G by (rewrite (executing_got _ _ _ E), (executing_got _ _ _ E'); reflexivity).
      eapply sh_wait; try eassumption; [|rewrite (count_upd l1 s s' l2 G); reflexivity].
      eapply all_upd; [exact H3| |]; cbn beta; [auto|]. intros _. left. exact E'.
    - eapply sh_stop; try eassumption. eapply all_upd; [exact H2| |]; cbn beta; [auto|]. specialize (H2 _ _ Hm). cbn beta in H2.
      destruct (_ <? _)%nat; [exfalso; eapply dead_stays; eassumption|]. intros _. eapply stopping_step; eassumption.
    - eapply sh_get; try eassumption. eapply all_upd; [exact H3| |]; cbn beta; [auto|]. specialize (H3 _ _ Hm). cbn beta in H3.
      destruct (_ =? _)%nat; [|exfalso; eapply quiet_stays; eassumption]. intros _. eapply getting_step; eassumption.
    - exfalso. specialize (H3 _ _ Hm). cbn beta in H3. destruct (_ =? _)%nat; [eapply got1_stays|eapply quiet_stays]; eassumption. }
  cbn [fst snd] in *. inversion St; subst; cbn [fst snd] in *;
    match goal with E : cl c = _ |- _ => rename E into Ec end;
    try match goal with E : prog c = _ |- _ => rename E into Ep; rewrite Ep in * end.
  - (* run *)
    destruct D as [[Hn Hp] D]. cbn [answers requested final_phase] in *.
    constructor; [cbn [snd]; unfold send_all; rewrite map_length; exact L|].
    exists (next ph (Run n b0)), (T + n), (if b0 then [Ok] else []). cbn [fst snd prog started running results cl].
    assert (all (fun _ => executing T n) (send_all n ss)) as A.
    { intros i x Hx. apply nth_send_all in Hx. destruct Hx as (y & Hy & ->). left.
      assert (quiet T y) as -> by (destruct Hp as [-> | ->]; inversion Sh; subst; try congruence; match goal with H : all _ _ |- _ => exact (H _ _ Hy) end). reflexivity. }
    split; [|split; [exact D|split; [lia|split; [destruct b0; cbn; tauto|split; [|split; [lia|exact F]]]]]].
    + destruct b0; cbn [next].
      * apply sh_wait with (r := 0%nat); try reflexivity; try assumption; [auto|intros i x Hx; left; exact (A i x Hx)|].
        unfold count. assert (filter got (send_all n ss) = []) as ->; [|reflexivity].
        apply List.incl_l_nil. intros x Hx. apply filter_In in Hx. destruct Hx as [Hx G]. apply In_nth_error in Hx. destruct Hx as [i Hx].
        rewrite (executing_got _ _ _ (A _ _ Hx)) in G. discriminate.
      * constructor; try reflexivity; auto.
    + rewrite <- R. destruct Hp as [-> | ->]; inversion Sh; subst; try congruence; destruct b0; cbn [is_busy next negb app answers]; rewrite <- ?app_assoc; reflexivity.
  - (* wait *)
    destruct D as [_ D]. cbn [answers requested final_phase] in *.
    constructor; [exact L|]. exists (next ph Wait), T, (if running c then [Ok] else []). cbn [fst snd prog started running results cl].
    split; [|split; [exact D|split; [exact HT|split; [destruct ph; cbn; tauto|split; [|split; [exact Q|exact F]]]]]].
    + inversion Sh as [? ? Hc Hs Hr Ha|? ? ? Hc Hs Hr Ha|? ? ? Hc Hs Hr Ha|B n ? ? Hc Hs Hr Hn Ha|? ? ? ? ? Hc|? ? ? ? Hc|? ? ? ? Hc|? ? ? ? Hc]; subst; try congruence;
        rewrite Hr; cbn [next]; try (constructor; cbn; assumption || reflexivity).
      apply sh_wait with (r := 0%nat); try reflexivity; try assumption; [intros i x Hx; left; exact (Ha i x Hx)|].
      unfold count. assert (filter got ss = []) as ->; [|reflexivity].
      apply List.incl_l_nil. intros x Hx. apply filter_In in Hx. destruct Hx as [Hx G]. apply In_nth_error in Hx. destruct Hx as [i Hx].
      rewrite (executing_got _ _ _ (Ha _ _ Hx)) in G. discriminate.
    + rewrite <- R. inversion Sh as [? ? Hc Hs Hr Ha|? ? ? Hc Hs Hr Ha|? ? ? Hc Hs Hr Ha|B n ? ? Hc Hs Hr Hn Ha|? ? ? ? ? Hc|? ? ? ? Hc|? ? ? ? Hc|? ? ? ? Hc]; subst; try congruence;
        rewrite Hr; cbn [is_busy next app]; rewrite <- ?app_assoc; reflexivity.
  - (* a response *)
    inversion Sh as [? ? Hc|? ? ? Hc|? ? ? Hc|? ? ? ? Hc|B n r' ? ? Hc Hs Hr Hn Ha Hct Hlt|? ? ? ? Hc|? ? ? ? Hc|? ? ? ? Hc]; try congruence.
    assert (r' = r) by congruence. subst.
    pose proof (nth_mid l1 l2 s) as Hm. destruct (Ha _ _ Hm) as [E|E]; [|unfold quiet in E; subst; discriminate].
    assert (took q s = mk SIdle [] [] (B + n)) as Et.
    { destruct E as [->|[(x & _ & ->)| ->]]; cbn in *; try discriminate. match goal with H : [_] = _ :: _ |- _ => injection H as <- end. reflexivity. }
    assert (all (fun _ s => executing B n s \/ quiet (B + n) s) (l1 ++ took q s :: l2)) as A.
    { eapply all_upd; [exact Ha|auto|]. intros _. right. exact Et. }
    assert (count (l1 ++ took q s :: l2) = S (count (l1 ++ s :: l2))) as C.
    { apply count_more; [eapply executing_got; exact E|rewrite Et; reflexivity]. }
    constructor; [cbn [snd]; rewrite (len_upd l1 l2 s (took q s)); exact L|].
    exists Idle, (B + n). destruct (Nat.eqb_spec (S (count (l1 ++ s :: l2))) (length (l1 ++ s :: l2))) as [Ek|Ek].
    + exists []. cbn [fst snd prog started running results cl].
      split; [|split; [exact D|split; [exact HT|split; [tauto|split; [|split; [exact Q|exact F]]]]]].
      * constructor; try assumption; try reflexivity. intros i x Hx.
        destruct (A i x Hx) as [E'|E']; [|exact E']. exfalso.
        assert (got x = true) as G; [|rewrite (executing_got _ _ _ E') in G; discriminate].
        assert (Forall (fun s => got s = true) (l1 ++ took q s :: l2)) as Fg by (apply count_all; rewrite C, Ek; apply (len_upd l1 l2 (took q s) s)).
        rewrite Forall_forall in Fg. apply Fg. eapply nth_error_In; exact Hx.
      * rewrite <- R. cbn [app]. rewrite <- app_assoc. reflexivity.
    + exists [Ok]. cbn [fst snd prog started running results cl].
      split; [|split; [exact D|split; [exact HT|split; [tauto|split; [exact R|split; [exact Q|exact F]]]]]].
      apply sh_wait with (r := S (count (l1 ++ s :: l2))); try assumption; try reflexivity. rewrite <- L in *. lia.
  - (* an unexpected response *)
    exfalso. inversion Sh as [? ? Hc|? ? ? Hc|? ? ? Hc|? ? ? ? Hc|B n r' ? ? Hc Hs Hr Hn Ha Hct Hlt|? ? ? ? Hc|? ? ? ? Hc|? ? ? ? Hc]; try congruence.
    pose proof (nth_mid l1 l2 s) as Hm. destruct (Ha _ _ Hm) as [E|E]; [|unfold quiet in E; subst; discriminate].
    destruct E as [->|[(x & _ & ->)| ->]]; cbn in *; try discriminate; congruence.
  - (* stop *)
    destruct D as [Hb D]. cbn [allowed answers requested final_phase] in *.
    inversion Sh as [? ? Hc Hs Hr Ha|? ? ? Hc Hs Hr Ha|? ? ? Hc Hs Hr Ha|B n ? ? Hc Hs Hr Hn Ha|? ? ? ? ? Hc|? ? ? ? Hc|? ? ? ? Hc|? ? ? ? Hc]; subst; try congruence; rewrite Hs.
    + constructor; [exact L|]. exists New, 0, []. cbn [fst snd prog started running results cl is_busy next app] in *.
      split; [constructor; assumption || reflexivity|]. split; [exact D|]. split; [lia|]. split; [tauto|]. split; [|auto].
      rewrite <- app_assoc. exact R.
    + constructor; [cbn [snd]; unfold send_all; rewrite map_length; exact L|]. exists Stopped, T, [Ok]. cbn [fst snd prog started running results cl is_busy next app] in *.
      split; [|repeat (split; [assumption|]); split; [tauto|auto]].
      apply sh_stop with (j := 0%nat); try reflexivity; [lia|]. intros i x Hx. cbn. apply nth_send_all in Hx. destruct Hx as (y & Hy & ->).
      left. rewrite (Ha _ _ Hy). reflexivity.
    + constructor; [exact L|]. exists Stopped, T, []. cbn [fst snd prog started running results cl is_busy next app] in *.
      split; [constructor; assumption || reflexivity|]. split; [exact D|]. split; [lia|]. split; [tauto|]. split; [|auto].
      rewrite <- app_assoc. exact R.
  - (* terminated *)
    inversion Sh as [? ? Hc|? ? ? Hc|? ? ? Hc|? ? ? ? Hc|? ? ? ? ? Hc|? j ? ? Hc Hs Hj Ha|? ? ? ? Hc|? ? ? ? Hc]; subst; try congruence.
    assert (j = length l1) by congruence. subst j.
    pose proof (nth_mid l1 l2 s) as Hm. pose proof (Ha _ _ Hm) as Hst. cbn beta in Hst. rewrite Nat.ltb_irrefl in Hst.
    constructor; [cbn [snd]; rewrite (len_upd l1 l2 s (took q s)); exact L|]. exists Stopped, T, [Ok]. cbn [fst snd prog started running results cl].
    split; [|repeat (split; [assumption|]); split; [tauto|auto]].
    apply sh_stop with (j := S (length l1)); try reflexivity; try assumption; [rewrite <- L, app_length; cbn; lia|].
    eapply all_upd; [exact Ha| |].
    + intros i x Hi. cbn beta. destruct (Nat.ltb_spec i (length l1)), (Nat.ltb_spec i (S (length l1))); try tauto; lia.
    + intros _. cbn beta. replace (length l1 <? S (length l1))%nat with true by (symmetry; apply Nat.ltb_lt; lia).
      destruct Hst as [->| ->]; cbn in *; [discriminate|]. match goal with H : [_] = _ :: _ |- _ => injection H as <- end. reflexivity.
  - exfalso. inversion Sh as [? ? Hc|? ? ? Hc|? ? ? Hc|? ? ? ? Hc|? ? ? ? ? Hc|? j ? ? Hc Hs Hj Ha|? ? ? ? Hc|? ? ? ? Hc]; subst; try congruence.
    assert (j = length l1) by congruence. subst j.
    pose proof (nth_mid l1 l2 s) as Hm. pose proof (Ha _ _ Hm) as Hst. cbn beta in Hst. rewrite Nat.ltb_irrefl in Hst.
    destruct Hst as [->| ->]; cbn in *; discriminate.
  - exfalso. inversion Sh as [? ? Hc|? ? ? Hc|? ? ? Hc|? ? ? ? Hc|? ? ? ? ? Hc|? j ? ? Hc Hs Hj Ha|? ? ? ? Hc|? ? ? ? Hc]; subst; try congruence.
    assert (j = length l1) by congruence. subst j.
    pose proof (nth_mid l1 l2 s) as Hm. pose proof (Ha _ _ Hm) as Hst. cbn beta in Hst. rewrite Nat.ltb_irrefl in Hst.
    destruct Hst as [->| ->]; cbn in *; congruence.
  - (* stopped *)
    inversion Sh as [? ? Hc|? ? ? Hc|? ? ? Hc|? ? ? ? Hc|? ? ? ? ? Hc|? j ? ? Hc Hs Hj Ha|? ? ? ? Hc|? ? ? ? Hc]; subst; try congruence.
    constructor; [exact L|]. exists Stopped, T, []. cbn [fst snd prog started running results cl app].
    split; [|repeat (split; [assumption|]); split; [tauto|split; [rewrite <- app_assoc; exact R|auto]]].
    constructor; try reflexivity. intros i x Hx. specialize (Ha i x Hx). cbn beta in Ha.
    assert (i < length ss)%nat by (apply nth_error_Some; congruence).
    replace (i <? j)%nat with true in Ha by (symmetry; apply Nat.ltb_lt; congruence). exact Ha.
  - (* get while running *)
    destruct D as [_ D]. cbn [answers requested final_phase next] in *.
    inversion Sh as [? ? Hc Hs Hr Ha|? ? ? Hc Hs Hr Ha|? ? ? Hc Hs Hr Ha|B n ? ? Hc Hs Hr Hn Ha|? ? ? ? ? Hc|? ? ? ? Hc|? ? ? ? Hc|? ? ? ? Hc]; subst; try congruence.
    constructor; [exact L|]. exists Busy, (B + n), []. cbn [fst snd prog started running results cl app].
    split; [constructor; assumption || reflexivity|]. repeat (split; [assumption|]). split; [tauto|]. split; [|auto].
    rewrite <- R. cbn [is_busy app]. rewrite <- app_assoc. reflexivity.
  - exfalso. apply documented_get_stopped in D.
    inversion Sh as [? ? Hc Hs Hr Ha|? ? ? Hc Hs Hr Ha|? ? ? Hc Hs Hr Ha|B n ? ? Hc Hs Hr Hn Ha|? ? ? ? ? Hc|? ? ? ? Hc|? ? ? ? Hc|? ? ? ? Hc]; subst; try congruence; destruct D; discriminate.
  - (* get *)
    destruct D as [[Hj _] D]. cbn [answers requested final_phase next] in *.
    inversion Sh as [? ? Hc Hs Hr Ha|? ? ? Hc Hs Hr Ha|? ? ? Hc Hs Hr Ha|B n ? ? Hc Hs Hr Hn Ha|? ? ? ? ? Hc|? ? ? ? Hc|? ? ? ? Hc|? ? ? ? Hc]; subst; try congruence.
    constructor; [cbn [snd]; rewrite <- L; apply len_upd|]. exists Idle, T, [Val T]. cbn [fst snd prog started running results cl app is_busy] in *.
    split; [|repeat (split; [assumption|]); split; [tauto|auto]].
    apply sh_get with (j := length l1); try reflexivity; try assumption. eapply all_upd; [exact Ha| |]; cbn beta.
    + intros i x Hi Hx. rewrite (proj2 (Nat.eqb_neq _ _) Hi). exact Hx.
    + rewrite Nat.eqb_refl. intros ->. left. reflexivity.
  - (* number of items *)
    inversion Sh as [? ? Hc|? ? ? Hc|? ? ? Hc|? ? ? ? Hc|? ? ? ? ? Hc|? ? ? ? Hc|? j ? ? Hc Hs Hr Hj Ha|? ? ? ? Hc]; subst; try congruence.
    assert (j = length l1) by congruence. subst j.
    pose proof (nth_mid l1 l2 s) as Hm. pose proof (Ha _ _ Hm) as Hg. cbn beta in Hg. rewrite Nat.eqb_refl in Hg.
    constructor; [cbn [snd]; rewrite <- L; apply len_upd|]. exists Idle, T, [Val T]. cbn [fst snd prog started running results cl app is_busy] in *.
    split; [|repeat (split; [assumption|]); split; [tauto|auto]].
    assert (d = 1 /\ took q s = mk SIdle [] [T] T) as [-> Et].
    { destruct Hg as [->|[->|[->| ->]]]; cbn in *; try discriminate. match goal with H : [_; _] = _ :: _ |- _ => injection H as <- <- end. split; reflexivity. }
    apply sh_item with (j := length l1); try reflexivity; try assumption. eapply all_upd; [exact Ha| |]; cbn beta.
    + intros i x Hi. rewrite (proj2 (Nat.eqb_neq _ _) Hi). auto.
    + rewrite Nat.eqb_refl. intros _. exact Et.
  - exfalso. inversion Sh as [? ? Hc|? ? ? Hc|? ? ? Hc|? ? ? ? Hc|? ? ? ? ? Hc|? ? ? ? Hc|? ? ? ? Hc|? j' ? ? Hc Hs Hr Hj Ha]; subst; try congruence.
    assert (m = 1) by congruence. lia.
  - (* the item *)
    inversion Sh as [? ? Hc|? ? ? Hc|? ? ? Hc|? ? ? ? Hc|? ? ? ? ? Hc|? ? ? ? Hc|? ? ? ? Hc|? j ? ? Hc Hs Hr Hj Ha]; subst; try congruence.
    assert (j = length l1) by congruence. subst j.
    pose proof (nth_mid l1 l2 s) as Hm. pose proof (Ha _ _ Hm) as Hg. cbn beta in Hg. rewrite Nat.eqb_refl in Hg. rewrite Hg in *.
    match goal with H : outq _ = _ :: _ |- _ => cbn in H; injection H as <- <- end.
    constructor; [cbn [snd]; rewrite <- L; apply len_upd|]. exists Idle, T, []. cbn [fst snd prog started running results cl app is_busy] in *.
    split; [|repeat (split; [assumption|]); split; [tauto|split; [rewrite <- app_assoc; exact R|auto]]].
    constructor; try assumption; try reflexivity. eapply all_upd; [exact Ha| |]; cbn beta.
    + intros i x Hi. rewrite (proj2 (Nat.eqb_neq _ _) Hi). auto.
    + intros _. reflexivity.
  - exfalso. inversion Sh as [? ? Hc|? ? ? Hc|? ? ? Hc|? ? ? ? Hc|? ? ? ? ? Hc|? ? ? ? Hc|? ? ? ? Hc|? j' ? ? Hc Hs Hr Hj Ha]; subst; try congruence.
    assert (m = 1) by congruence. lia.
Qed.
End Inv.
