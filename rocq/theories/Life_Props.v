(** C85: driving a network through any history of API calls. *)
From Coq Require Import ZArith List Bool Lia Arith Wellfounded.
From Verif Require Import Life_Model Life_Spec Life_Proofs Life_Net.
Import ListNotations.
Open Scope Z_scope.

(** ** One runtime *)
Lemma inv_reach k P st : (0 < k)%nat -> documented k New P -> steps_to (fresh k P) st -> Inv k P st.
Proof.
  intros Hk D H. remember (fresh k P) as a eqn:E. induction H as [a|a b c H IH S]; subst; [now apply inv_init|].
  eapply inv_step; [exact Hk|apply IH; reflexivity|exact S].
Qed.
Lemma requested_nonneg k ph p : documented k ph p -> 0 <= requested p.
Proof.
  revert ph. induction p as [|c p IH]; intros ph; [cbn; lia|]. intros [A D]. specialize (IH _ D).
  destruct c; cbn [requested] in *; [destruct A; lia|lia|lia|lia].
Qed.
(** For every number of services, every schedule and every documented history of calls: no call raises; the calls that have returned
    gave the documented answers; no service ever executes more time steps than requested; when all calls have returned every
    service has executed exactly the requested number of time steps (unless the last run was not waited for), and after a stop()
    every service has terminated and nothing is left in any channel. *)
Theorem lifecycle_answers_partial : forall k P c ss, (0 < k)%nat -> documented k New P -> steps_to (fresh k P) (c, ss) ->
  cl c <> Raised /\
  (exists rest, answers false 0 P = results c ++ rest) /\
  (forall s, In s ss -> 0 <= steps s <= requested P) /\
  (cl c = Ready -> prog c = [] ->
     results c = answers false 0 P /\
     (final_phase New P <> Busy -> forall s, In s ss -> steps s = requested P) /\
     (final_phase New P = Stopped -> forall s, In s ss -> pc s = SDead /\ inq s = [] /\ outq s = [])).
Proof.
  intros k P c ss Hk D H. destruct (inv_reach _ _ _ Hk D H) as [L (ph & T & pend & Sh & D' & HT & _ & R & Q & F)]. cbn [fst snd] in *.
  pose proof (requested_nonneg _ _ _ D') as N.
  split; [inversion Sh; subst; intro E; congruence|]. split; [exists (pend ++ answers (is_busy ph) T (prog c)); now rewrite R|].
  split.
  - intros s Hs. apply In_nth_error in Hs. destruct Hs as [i Hi].
    assert (0 <= steps s <= T); [|lia].
    inversion Sh as [? ? Hc Hs Hr Ha|? ? ? Hc Hs Hr Ha|? ? ? Hc Hs Hr Ha|B n ? ? Hc Hs Hr Hn Ha|B n r ? ? Hc Hs Hr Hn Ha|? ? ? ? Hc Hs Hj Ha|? ? ? ? Hc Hs Hr Hj Ha|? ? ? ? Hc Hs Hr Hj Ha]; subst;
      specialize (Ha _ _ Hi); cbn beta in Ha.
    1-3: rewrite Ha; cbn; lia.
    + destruct Ha as [->|[(x & Hx & ->)| ->]]; cbn; lia.
    + destruct Ha as [[->|[(x & Hx & ->)| ->]]| ->]; cbn; lia.
    + destruct (_ <? _)%nat; [rewrite Ha; cbn; lia|]. destruct Ha as [->| ->]; cbn; lia.
    + destruct (_ =? _)%nat; [destruct Ha as [->|[->|[->| ->]]]; cbn; lia|rewrite Ha; cbn; lia].
    + destruct (_ =? _)%nat; rewrite Ha; cbn; lia.
  - intros Ec Ep. rewrite Ep in *. cbn [answers requested final_phase] in *. rewrite Z.add_0_r in Q. rewrite app_nil_r in R.
    inversion Sh as [? ? Hc Hs Hr Ha|? ? ? Hc Hs Hr Ha|? ? ? Hc Hs Hr Ha|B n ? ? Hc Hs Hr Hn Ha|B n r ? ? Hc Hs Hr Hn Ha|? ? ? ? Hc Hs Hj Ha|? ? ? ? Hc Hs Hr Hj Ha|? ? ? ? Hc Hs Hr Hj Ha]; subst; try congruence;
      rewrite app_nil_r in R; (split; [exact R|]); (split; [|intros Ef; try congruence]).
    + intros _ s Hin. apply In_nth_error in Hin. destruct Hin as [i Hi]. rewrite (Ha _ _ Hi). cbn; lia.
    + intros _ s Hin. apply In_nth_error in Hin. destruct Hin as [i Hi]. rewrite (Ha _ _ Hi). cbn; lia.
    + intros _ s Hin. apply In_nth_error in Hin. destruct Hin as [i Hi]. rewrite (Ha _ _ Hi). cbn; lia.
    + intros s Hin. apply In_nth_error in Hin. destruct Hin as [i Hi]. rewrite (Ha _ _ Hi). cbn. auto.
    + intros Nb. congruence.
Qed.

(** ... and every call returns: every execution is finite, and it can only end with all calls answered. *)
Definition wt (c : Z) : nat := (Z.to_nat (Z.abs c) + 6)%nat.
Definition wpc (p : spc) : nat := match p with SRun n c => (Z.to_nat (n - c) + 2)%nat | SGet _ => 4%nat | _ => 0%nat end.
Definition wsvc (s : svc) : nat := (list_sum (map wt (inq s)) + wpc (pc s) + length (outq s))%nat.
Definition wcall (k : nat) (c : call) : nat :=
  match c with Run n _ => (k * wt n + 2)%nat | Wait => 2%nat | Stop => (k * 8 + 3)%nat | Get _ => 30%nat end.
Definition wcl (k : nat) (p : cpc) : nat :=
  match p with Ready | Raised => 0%nat | InWait _ => 1%nat | InStop j => (k - j + 1)%nat | InGet _ _ => 1%nat end.
Definition weight (st : client * list svc) : nat :=
  let k := length (snd st) in
  (list_sum (map (wcall k) (prog (fst st))) + wcl k (cl (fst st)) + list_sum (map wsvc (snd st)))%nat.
Lemma sum_cons a l : list_sum (a :: l) = (a + list_sum l)%nat.
Proof. reflexivity. Qed.
Lemma sum_mid l1 s l2 : list_sum (map wsvc (l1 ++ s :: l2)) = (list_sum (map wsvc l1) + wsvc s + list_sum (map wsvc l2))%nat.
Proof. rewrite map_app, list_sum_app. cbn [map]. rewrite sum_cons. lia. Qed.
Lemma sum_app l c : list_sum (map wt (l ++ c)) = (list_sum (map wt l) + list_sum (map wt c))%nat.
Proof. now rewrite map_app, list_sum_app. Qed.
Lemma sum_send_all c ss : list_sum (map wsvc (send_all c ss)) = (list_sum (map wsvc ss) + length ss * wt c)%nat.
Proof.
  induction ss as [|s ss IH]; [reflexivity|]. unfold send_all in *. cbn [map length]. rewrite !sum_cons, IH.
  unfold wsvc at 1 3. cbn [pc inq outq]. rewrite sum_app. cbn [map]. rewrite sum_cons. change (list_sum []) with 0%nat. lia.
Qed.
Definition in_order (s : svc) : Prop := match pc s with SRun n c => c <= n | _ => True end.
Lemma sstep_lighter s s' : in_order s -> (forall n c, inq s = n :: c -> pc s = SIdle -> n = tSTOP \/ n = tPAUSE \/ n = tGET \/ n = tSET \/ 0 <= n) ->
  sstep s s' -> (wsvc s' < wsvc s)%nat.
Proof.
  intros O C H. inversion H as [? c q Ep Ei|? n cur Ep Ne|? n Ep|? n cur c q Ep Ei Hc|? m c q Ep Ei|? c q Ep Ei]; subst; unfold wsvc; rewrite ?Ep.
  - specialize (C c q Ei Ep). rewrite Ei. cbn [map]. rewrite sum_cons.
    unfold on_cmd, tSTOP, tPAUSE, tGET, tSET, wt in *.
    repeat match goal with |- context [?a =? ?b] => destruct (Z.eqb_spec a b) end; cbn [pc inq outq wpc]; rewrite ?app_length; cbn [length]; lia.
  - unfold in_order in O. rewrite Ep in O. cbn [pc inq outq wpc]. lia.
  - cbn [pc inq outq wpc]. rewrite app_length. cbn [length]. lia.
  - cbn [pc inq outq wpc]. lia.
  - rewrite Ei. cbn [pc inq outq wpc map]. rewrite sum_cons. unfold wt. lia.
  - rewrite Ei. cbn [pc inq outq wpc map]. rewrite sum_cons. unfold wt. rewrite app_length. cbn [length]. lia.
Qed.
Definition fine (s : svc) : Prop :=
  in_order s /\ (forall n q, inq s = n :: q -> pc s = SIdle -> n = tSTOP \/ n = tPAUSE \/ n = tGET \/ n = tSET \/ 0 <= n).
Lemma fine_quiet T : fine (mk SIdle [] [] T).
Proof. split; cbn; [tauto|discriminate]. Qed.
Lemma fine_dead T o : fine (mk SDead [] o T).
Proof. split; cbn; [tauto|discriminate]. Qed.
Lemma fine_out T o : fine (mk SIdle [] o T).
Proof. split; cbn; [tauto|discriminate]. Qed.
Lemma fine_in T n q o : n = tSTOP \/ n = tPAUSE \/ n = tGET \/ n = tSET \/ 0 <= n -> fine (mk SIdle (n :: q) o T).
Proof. intros H. split; cbn; [tauto|]. intros ? ? [= <- <-] _. exact H. Qed.
Lemma fine_get T m q o : fine (mk (SGet m) q o T).
Proof. split; cbn; [tauto|discriminate]. Qed.
Lemma fine_executing B n s : 0 <= n -> executing B n s -> fine s.
Proof.
  intros Hn [->|[(x & Hx & ->)| ->]]; [apply fine_in; tauto| |apply fine_out]. split; cbn; [lia|discriminate].
Qed.
Lemma inv_fine k P c ss s i : Inv k P (c, ss) -> nth_error ss i = Some s -> fine s.
Proof.
  intros [_ (ph & T & pend & Sh & _)] Hi. cbn [fst snd] in *.
  inversion Sh as [? ? Hc Hs Hr Ha|? ? ? Hc Hs Hr Ha|? ? ? Hc Hs Hr Ha|B n ? ? Hc Hs Hr Hn Ha|B n r ? ? Hc Hs Hr Hn Ha|? ? ? ? Hc Hs Hj Ha|? ? ? ? Hc Hs Hr Hj Ha|? ? ? ? Hc Hs Hr Hj Ha];
    specialize (Ha _ _ Hi); cbn beta in Ha; clear Hi.
  - rewrite Ha. apply fine_quiet.
  - rewrite Ha. apply fine_quiet.
  - rewrite Ha. apply fine_dead.
  - eapply fine_executing; [apply Hn|exact Ha].
  - destruct Ha as [Ha|Ha]; [eapply fine_executing; [apply Hn|exact Ha]|rewrite Ha; apply fine_quiet].
  - destruct (_ <? _)%nat; [rewrite Ha; apply fine_dead|]. destruct Ha as [E|E]; rewrite E; [apply fine_in; tauto|apply fine_dead].
  - destruct (_ =? _)%nat; [|rewrite Ha; apply fine_quiet]. destruct Ha as [E|[E|[E|E]]]; rewrite E; [apply fine_in; tauto|apply fine_get|apply fine_get|apply fine_out].
  - destruct (_ =? _)%nat; rewrite Ha; apply fine_out.
Qed.
Lemma took_lighter s d q : outq s = d :: q -> (S (wsvc (took q s)) = wsvc s)%nat.
Proof. intros E. unfold wsvc. rewrite E. cbn [took pc inq outq length]. lia. Qed.
Lemma step_lighter k P a b : Inv k P a -> step a b -> (weight b < weight a)%nat.
Proof.
  intros I St. destruct St as [a b St|c l1 s s' l2 Ss].
  - inversion St; subst; unfold weight; cbn [fst snd];
      match goal with E : cl _ = _ |- _ => rewrite E end; try match goal with E : prog _ = _ |- _ => rewrite E end;
      cbn [map]; rewrite ?sum_cons.
    + cbn [prog cl]. rewrite sum_send_all. unfold send_all. rewrite map_length. cbn [wcall]. destruct b0; cbn [wcl]; lia.
    + cbn [prog cl wcall]. destruct (running c); cbn [wcl]; lia.
    + pose proof (took_lighter _ _ _ H0). rewrite (len_upd l1 l2 s (took q s)), !sum_mid. destruct (_ =? _)%nat; cbn [prog cl wcl]; lia.
    + pose proof (took_lighter _ _ _ H0). rewrite (len_upd l1 l2 s (took q s)), !sum_mid. cbn [prog cl wcl]; lia.
    + destruct (started c); cbn [fst snd prog cl wcl wcall]; [|lia]. rewrite sum_send_all. unfold send_all. rewrite map_length. change (wt tSTOP) with 7%nat. lia.
    + pose proof (took_lighter _ _ _ H0). rewrite (len_upd l1 l2 s (took q s)), !sum_mid. cbn [prog cl wcl]. rewrite app_length; cbn [length]. lia.
    + assert (S (S (wsvc (took q s))) = wsvc s) by (unfold wsvc; rewrite H0; cbn [took pc inq outq length]; lia).
      rewrite (len_upd l1 l2 s (took q s)), !sum_mid. cbn [prog cl wcl]. rewrite app_length; cbn [length]. lia.
    + pose proof (took_lighter _ _ _ H0). rewrite (len_upd l1 l2 s (took q s)), !sum_mid. cbn [prog cl wcl]. lia.
    + cbn [prog cl wcl]. lia.
    + cbn [prog cl wcl wcall]. lia.
    + cbn [prog cl wcl wcall]. lia.
    + rewrite (len_upd l1 l2 s (send [tGET; 0; 0] s)), !sum_mid. cbn [prog cl wcl wcall].
      assert (wsvc (send [tGET; 0%Z; 0%Z] s) = wsvc s + 21)%nat by (unfold wsvc, send; cbn [pc inq outq]; rewrite sum_app; change (list_sum (map wt [tGET; 0; 0])) with 21%nat; lia). lia.
    + pose proof (took_lighter _ _ _ H0). rewrite (len_upd l1 l2 s (took q s)), !sum_mid. cbn [prog cl wcl]. lia.
    + cbn [prog cl wcl]. lia.
    + pose proof (took_lighter _ _ _ H0). rewrite (len_upd l1 l2 s (took q s)), !sum_mid. cbn [prog cl wcl]. lia.
    + cbn [prog cl wcl]. lia.
  - unfold weight. cbn [fst snd]. rewrite (len_upd l1 l2 s s'), !sum_mid.
    destruct (inv_fine _ _ _ _ _ _ I (nth_mid l1 l2 s)) as [O C]. pose proof (sstep_lighter _ _ O C Ss). lia.
Qed.
Lemma executing_moves B n s : 0 <= n -> executing B n s -> (exists s', sstep s s') \/ outq s = [tDONE].
Proof.
  intros Hn [->|[(c & Hc & ->)| ->]]; [left|left|right; reflexivity].
  - eexists. eapply s_cmd; reflexivity.
  - destruct (Z.eq_dec c n) as [->|N]; eexists; [eapply s_done; reflexivity|eapply s_step; [reflexivity|exact N]].
Qed.
Lemma inv_moves k P c ss : (0 < k)%nat -> Inv k P (c, ss) -> (exists b, step (c, ss) b) \/ (cl c = Ready /\ prog c = []).
Proof.
  intros Hk [L (ph & T & pend & Sh & D & _)]. cbn [fst snd] in *.
  assert (forall j, (j < k)%nat -> exists l1 s l2, ss = l1 ++ s :: l2 /\ length l1 = j /\ nth_error ss j = Some s) as At.
  { intros j Hj. destruct (nth_error ss j) as [s|] eqn:E; [|apply nth_error_None in E; lia].
    destruct (nth_error_split _ _ E) as (l1 & l2 & -> & Hl). exists l1, s, l2. auto. }
  destruct (cl c) eqn:Ec.
  - destruct (prog c) as [|x p] eqn:Ep; [right; auto|left]. destruct x as [n b| | |j].
    + eexists. apply by_client. eapply c_run; eassumption.
    + eexists. apply by_client. eapply c_wait; eassumption.
    + eexists. apply by_client. eapply c_stop; eassumption.
    + destruct D as [[Hj Hp] _]. destruct (running c) eqn:Er; [eexists; apply by_client; eapply c_get_running; eassumption|].
      destruct (started c) eqn:Es; [|eexists; apply by_client; eapply c_get_not_started; eassumption].
      destruct (At j Hj) as (l1 & s & l2 & -> & <- & _). eexists. apply by_client. eapply c_get; eassumption.
  - left. inversion Sh as [? ? Hc|? ? ? Hc|? ? ? Hc|? ? ? ? Hc|B n r' ? ? Hc Hs Hr Hn Ha Hct Hlt|? ? ? ? Hc|? ? ? ? Hc|? ? ? ? Hc]; subst; try congruence.
    destruct (count_some ss Hlt) as (l1 & s & l2 & -> & G).
    destruct (Ha _ _ (nth_mid l1 l2 s)) as [E|E]; [|unfold quiet in E; subst; discriminate].
    destruct (executing_moves _ _ _ (proj2 Hn) E) as [[s' St]|O]; eexists; [apply by_service; exact St|apply by_client; eapply c_response; eassumption].
  - left. inversion Sh as [? ? Hc|? ? ? Hc|? ? ? Hc|? ? ? ? Hc|? ? ? ? ? Hc|? j' ? ? Hc Hs Hj Ha|? ? ? ? Hc|? ? ? ? Hc]; subst; try congruence.
    assert (j' = j) by congruence. subst. destruct (Nat.eq_dec j (length ss)) as [->|Nj]; [eexists; apply by_client, c_stopped; exact Ec|].
    destruct (At j ltac:(lia)) as (l1 & s & l2 & -> & <- & Hn). specialize (Ha _ _ Hn). cbn beta in Ha. rewrite Nat.ltb_irrefl in Ha.
    destruct Ha as [->| ->]; eexists; [apply by_service; eapply s_cmd; reflexivity|apply by_client; eapply c_terminated; [exact Ec|reflexivity]].
  - left. destruct num as [m|].
    + inversion Sh as [? ? Hc|? ? ? Hc|? ? ? Hc|? ? ? ? Hc|? ? ? ? ? Hc|? ? ? ? Hc|? ? ? ? Hc|? j' ? ? Hc Hs Hr Hj Ha]; subst; try congruence.
      assert (m = 1 /\ j' = j) as [-> ->] by (split; congruence). destruct (At j Hj) as (l1 & s & l2 & -> & <- & Hn). specialize (Ha _ _ Hn). cbn beta in Ha. rewrite Nat.eqb_refl in Ha.
      rewrite Ha. eexists. apply by_client. eapply c_item; [exact Ec|reflexivity].
    + inversion Sh as [? ? Hc|? ? ? Hc|? ? ? Hc|? ? ? ? Hc|? ? ? ? ? Hc|? ? ? ? Hc|? j' ? ? Hc Hs Hr Hj Ha|? ? ? ? Hc]; subst; try congruence.
      assert (j' = j) as -> by congruence. destruct (At j Hj) as (l1 & s & l2 & -> & <- & Hn). specialize (Ha _ _ Hn). cbn beta in Ha. rewrite Nat.eqb_refl in Ha.
      destruct Ha as [->|[->|[->| ->]]]; eexists; [apply by_service; eapply s_cmd; reflexivity|apply by_service; eapply s_word; reflexivity|
        apply by_service; eapply s_reply; reflexivity|apply by_client; eapply c_num; [exact Ec|reflexivity]].
  - exfalso. inversion Sh; subst; congruence.
Qed.
Theorem lifecycle_returns_partial : forall k P st, (0 < k)%nat -> documented k New P -> steps_to (fresh k P) st ->
  Acc (fun b a => step a b) st /\
  ((forall b, ~ step st b) -> cl (fst st) = Ready /\ prog (fst st) = [] /\ results (fst st) = answers false 0 P).
Proof.
  intros k P st Hk D H. pose proof (inv_reach _ _ _ Hk D H) as I. split.
  - clear H. remember (weight st) as m eqn:E. revert st E I. induction m as [m IH] using lt_wf_ind. intros st -> I. constructor.
    intros b Sb. eapply IH; [eapply step_lighter; eassumption|reflexivity|eapply inv_step; eassumption].
  - intros Hs. destruct st as [c ss]. destruct (inv_moves _ _ _ _ Hk I) as [[b Sb]|[Ec Ep]]; [exfalso; eapply Hs, Sb|].
    cbn [fst]. split; [exact Ec|]. split; [exact Ep|]. destruct (lifecycle_answers_partial _ _ _ _ Hk D H) as (_ & _ & _ & Fin).
    apply (Fin Ec Ep).
Qed.

(** an instance: two sync domains, a run that blocks, one that does not and is waited for, variables read in between, and a stop *)
Definition session : list call := [Wait; Run 3 true; Get 1; Run 4 false; Get 0; Wait; Get 0; Stop; Stop].
Example session_documented : documented 2 New session /\
  answers false 0 session = [Ok; Ok; Val 3; Ok; Nothing; Ok; Val 7; Ok; Ok] /\ requested session = 7 /\ final_phase New session = Stopped.
Proof. split; [|split; [reflexivity|split; reflexivity]]. cbn. repeat split; try lia; try tauto; try discriminate. Qed.

(** ** Undocumented histories *)
Lemma one_more a b c : steps_to a b -> step b c -> steps_to a c.
Proof. apply st_more. Qed.
Lemma steps_trans a b c : steps_to a b -> steps_to b c -> steps_to a c.
Proof. intros H K. induction K as [|a' b' c' K IH S]; [exact H|]. eapply st_more; [apply IH; exact H|exact S]. Qed.
Lemma step_then a b c : step a b -> steps_to b c -> steps_to a c.
Proof. intros H K. eapply steps_trans; [eapply st_more; [apply st_refl|exact H]|exact K]. Qed.
Lemma svc_then cl0 s s' c : sstep s s' -> steps_to (cl0, [s']) c -> steps_to (cl0, [s]) c.
Proof. intros H K. eapply step_then; [exact (by_service cl0 [] s s' [] H)|exact K]. Qed.
Ltac cli t := eapply step_then; [apply by_client; t|cbn].
Ltac sv t := eapply svc_then; [t|cbn].
(** Two runs that do not block, one after the other: wait() returns when the first is over - the second is still to run -, ... *)
Theorem wait_returns_early_refuted :
  exists c s, steps_to (fresh 1 [Run 1 false; Run 1 false; Wait]) (c, [s]) /\ cl c = Ready /\ prog c = [] /\ running c = false /\ steps s = 1.
Proof.
  eexists. eexists. split; [|split; [|split; [|split]]].
  - unfold fresh. cbn [repeat]. cli ltac:(eapply c_run; reflexivity). cli ltac:(eapply c_run; reflexivity). cli ltac:(eapply c_wait; reflexivity).
    sv ltac:(eapply s_cmd; reflexivity). sv ltac:(eapply s_step; [reflexivity|discriminate]). sv ltac:(eapply s_done; reflexivity).
    cli ltac:(eapply (c_response _ _ [] _ []); reflexivity). apply st_refl.
  - reflexivity.
  - reflexivity.
  - reflexivity.
  - reflexivity.
Qed.
(** ... and get() takes the response to the second run for the number of items: it returns 0 whatever the value of the variable is. *)
Theorem get_reads_response_refuted :
  exists c s, steps_to (fresh 1 [Run 1 false; Run 1 false; Wait; Get 0]) (c, [s]) /\ cl c = Ready /\ prog c = [] /\
    results c = [Ok; Ok; Ok; Val 0] /\ steps s = 2.
Proof.
  eexists. eexists. split; [|split; [|split; [|split]]].
  - unfold fresh. cbn [repeat]. cli ltac:(eapply c_run; reflexivity). cli ltac:(eapply c_run; reflexivity). cli ltac:(eapply c_wait; reflexivity).
    sv ltac:(eapply s_cmd; reflexivity). sv ltac:(eapply s_step; [reflexivity|discriminate]). sv ltac:(eapply s_done; reflexivity).
    sv ltac:(eapply s_cmd; reflexivity). sv ltac:(eapply s_step; [reflexivity|discriminate]). sv ltac:(eapply s_done; reflexivity).
    cli ltac:(eapply (c_response _ _ [] _ []); reflexivity).
    cli ltac:(eapply (c_get _ [] _ []); reflexivity).
    cli ltac:(eapply (c_num _ [] _ []); reflexivity).
    cli ltac:(eapply c_no_item; [reflexivity|discriminate]). apply st_refl.
  - reflexivity.
  - reflexivity.
  - reflexivity.
  - reflexivity.
Qed.
(** run() after stop(): the message goes to services that have terminated (lifecycle_answers_partial), and run() never returns. *)
Theorem run_after_stop_never_returns : forall c ss n p st, cl c = Ready -> prog c = Run n true :: p ->
  (forall s, In s ss -> pc s = SDead /\ inq s = [] /\ outq s = []) ->
  steps_to (c, ss) st -> st = (c, ss) \/ cl (fst st) = InWait 0.
Proof.
  intros c ss n p st Ec Ep Hd H.
  assert (st = (c, ss) \/ cl (fst st) = InWait 0 /\ (forall s, In s (snd st) -> pc s = SDead /\ outq s = [])) as K; [|tauto].
  remember (c, ss) as a eqn:Ea. induction H as [a|a b st H IH S]; [now left|]. subst. right. destruct (IH eq_refl) as [->|[Eb Db]]; clear IH.
  - inversion S as [a' b' Sc|? l1 s s' l2 Ss]; subst.
    + inversion Sc; subst; try congruence. assert (n0 = n /\ b = true) as [-> ->] by (split; congruence). split; [reflexivity|]. cbn [snd].
      intros s Hs. unfold send_all in Hs. apply in_map_iff in Hs. destruct Hs as (x & <- & Hx). destruct (Hd x Hx) as (? & _ & ?). auto.
    + exfalso. destruct (Hd s) as (D & _ & _); [apply in_or_app; right; now left|]. inversion Ss; congruence.
  - destruct b as [c' ss']. cbn [fst snd] in *. inversion S as [a' b' Sc|? l1 s s' l2 Ss]; subst.
    + exfalso. inversion Sc; subst; try congruence;
        match goal with E : outq ?s = _ |- _ => destruct (Db s) as (_ & O); [apply in_or_app; right; now left|]; congruence end.
    + exfalso. destruct (Db s) as (D & _); [apply in_or_app; right; now left|]. inversion Ss; congruence.
Qed.
(** A negative number of time steps is not refused: -1 is taken for the command to stop (the services terminate, run() raises); ... *)
Theorem run_minus_one_stops_refuted :
  exists c s, steps_to (fresh 1 [Run (-1) true]) (c, [s]) /\ cl c = Raised /\ pc s = SDead.
Proof.
  eexists. eexists. split; [|split].
  - unfold fresh. cbn [repeat]. cli ltac:(eapply c_run; reflexivity). sv ltac:(eapply s_cmd; reflexivity).
    cli ltac:(eapply (c_unexpected _ _ [] _ [] (-1)); [reflexivity|reflexivity|discriminate]). apply st_refl.
  - reflexivity.
  - reflexivity.
Qed.
(** ... and below -4 the services run for ever. *)
Theorem run_negative_never_ends : forall k n p st, n < -4 -> steps_to (fresh k (Run n true :: p)) st ->
  st = fresh k (Run n true :: p) \/ cl (fst st) = InWait 0 /\ forall s, In s (snd st) -> outq s = [].
Proof.
  intros k n p st Hn H.
  assert (st = fresh k (Run n true :: p) \/ cl (fst st) = InWait 0 /\
    forall s, In s (snd st) -> outq s = [] /\ (pc s = SIdle /\ inq s = [n] \/ exists m, pc s = SRun n m /\ 0 <= m /\ inq s = [])) as K.
  2:{ destruct K as [K|[K1 K2]]; [now left|]. right. split; [exact K1|]. intros s Hs. apply (K2 s Hs). }
  remember (fresh k (Run n true :: p)) as a eqn:Ea. induction H as [a|a b st H IH S]; [now left|]. subst. right. destruct (IH eq_refl) as [->|[Eb Db]]; clear IH.
  - inversion S as [a' b' Sc|? l1 s s' l2 Ss]; subst.
    + inversion Sc; subst; cbn in *; try congruence; try discriminate.
      match goal with E : Run _ _ :: _ = _ |- _ => injection E as <- <- <- end. split; [reflexivity|].
      intros s Hs. unfold send_all in Hs. apply in_map_iff in Hs. destruct Hs as (x & <- & Hx). apply repeat_spec in Hx. subst. cbn. auto.
    + exfalso. assert (In s (repeat fresh_svc k)) as Hs by (match goal with E : l1 ++ s :: l2 = _ |- _ => rewrite <- E | E : _ = l1 ++ s :: l2 |- _ => rewrite E end; apply in_or_app; right; now left). apply repeat_spec in Hs. subst. inversion Ss; subst; cbn in *; discriminate.
  - destruct b as [c' ss']. cbn [fst snd] in *. inversion S as [a' b' Sc|? l1 s s' l2 Ss]; subst.
    + exfalso. inversion Sc; subst; try congruence;
        match goal with E : outq ?s = _ |- _ => destruct (Db s) as (O & _); [apply in_or_app; right; now left|]; congruence end.
    + split; [exact Eb|]. cbn [snd]. intros x Hx. apply in_app_or in Hx.
      assert (In s (l1 ++ s :: l2)) as Hs by (apply in_or_app; right; now left).
      destruct Hx as [Hx|[<-|Hx]]; [apply Db, in_or_app; now left| |apply Db, in_or_app; right; now right].
      destruct (Db s Hs) as (O & [[D I]|(m & D & Hm & I)]).
      * inversion Ss; subst; try congruence. assert (c = n /\ q = []) as [-> ->] by (split; congruence).
        unfold on_cmd, tSTOP, tPAUSE, tGET, tSET. repeat match goal with |- context [?a =? ?b] => destruct (Z.eqb_spec a b); [lia|] end.
        cbn. split; [exact O|]. right. exists 0. repeat split; lia.
      * inversion Ss; subst; try congruence.
        -- assert (n0 = n /\ cur = m) as [-> ->] by (split; congruence). cbn. split; [exact O|]. right. exists (m + 1). repeat split; [lia|exact I].
        -- exfalso. assert (n0 = m /\ n0 = n) by (split; congruence). lia.
Qed.

(** ** Networks: calls through any process *)
Definition is_run (c : call) : bool := match c with Run _ _ => true | _ => false end.
(** the calls from the first run on *)
Fixpoint from_first_run (l : list call) : list call :=
  match l with [] => [] | c :: l' => if is_run c then l else from_first_run l' end.
Definition calls_of (net : nat -> nat -> bool) (p : nat) (h : list (nat * call)) : list call :=
  map snd (filter (fun x => net p (fst x)) h).
Record equivalence (net : nat -> nat -> bool) : Prop := {
  e_refl : forall p, net p p = true;
  e_sym : forall p q, net p q = net q p;
  e_trans : forall p q r, net p q = true -> net q r = true -> net p r = true }.
Lemma from_first_run_app l c : from_first_run (l ++ [c]) = from_first_run l ++ (if is_run c then [c] else match from_first_run l with [] => [] | _ => [c] end).
Proof.
  induction l as [|x l IH]; cbn [app from_first_run]; [destruct (is_run c); reflexivity|].
  destruct (is_run x); [cbn [app]; destruct (is_run c); reflexivity|exact IH].
Qed.
(** While the connections stay as they are, a history of calls through any processes is, for every network, the same as these calls on
    one runtime, created by the first run: calls before have no effect, networks do not interfere. *)
Theorem driven_from_any_process : forall net h, equivalence net ->
  let w := history (map (fun x => (net, fst x, snd x)) h) start_world in
  (forall p, match rt w p with
             | Some r => log w r = from_first_run (calls_of net p h) /\ log w r <> []
             | None => from_first_run (calls_of net p h) = []
             end) /\
  (forall p q r, rt w p = Some r -> (rt w q = Some r <-> net p q = true)).
Proof.
  intros net h E w.
  assert ((forall p, match rt w p with
             | Some r => log w r = from_first_run (calls_of net p h) /\ log w r <> [] /\ (r < made w)%nat
             | None => from_first_run (calls_of net p h) = []
             end) /\ (forall p q r, rt w p = Some r -> (rt w q = Some r <-> net p q = true)) /\
     (forall r, (made w <= r)%nat -> log w r = [])) as K.
  2:{ destruct K as (K1 & K2 & _). split; [|exact K2]. intros p. specialize (K1 p). destruct (rt w p); [tauto|exact K1]. }
  assert (forall h w h0, (forall p, match rt w p with
             | Some r => log w r = from_first_run (calls_of net p h0) /\ log w r <> [] /\ (r < made w)%nat
             | None => from_first_run (calls_of net p h0) = []
             end) -> (forall p q r, rt w p = Some r -> (rt w q = Some r <-> net p q = true)) -> (forall r, (made w <= r)%nat -> log w r = []) ->
     let w' := history (map (fun x => (net, fst x, snd x)) h) w in
     (forall p, match rt w' p with
             | Some r => log w' r = from_first_run (calls_of net p (h0 ++ h)) /\ log w' r <> [] /\ (r < made w')%nat
             | None => from_first_run (calls_of net p (h0 ++ h)) = []
             end) /\ (forall p q r, rt w' p = Some r -> (rt w' q = Some r <-> net p q = true)) /\
     (forall r, (made w' <= r)%nat -> log w' r = [])) as G.
  { clear w h. induction h as [|[p c] h IH]; intros w h0 H1 H2 H3; [rewrite app_nil_r; auto|].
    cbn [map history fst snd]. replace (h0 ++ (p, c) :: h) with ((h0 ++ [(p, c)]) ++ h) by (rewrite <- app_assoc; reflexivity).
    assert (forall q, calls_of net q (h0 ++ [(p, c)]) = calls_of net q h0 ++ (if net q p then [c] else [])) as CO.
    { intros q. unfold calls_of. rewrite filter_app, map_app. cbn [filter fst]. destruct (net q p); reflexivity. }
    apply IH; clear IH.
    - intros q. rewrite CO. unfold api. destruct (rt w p) as [r|] eqn:Ep.
      + cbn [runtime_call rt log made]. specialize (H1 q). pose proof (H2 p q r Ep) as H2q. rewrite (e_sym _ E p q) in H2q.
        destruct (rt w q) as [rq|] eqn:Eq.
        * destruct H1 as (L1 & L2 & L3). destruct (Nat.eqb_spec rq r) as [->|Nr].
          -- rewrite (proj1 H2q eq_refl). split; [|split; [destruct (log w r); discriminate|exact L3]].
             rewrite from_first_run_app, L1. destruct (is_run c); [reflexivity|]. rewrite L1 in L2. destruct (from_first_run _); [congruence|reflexivity].
          -- destruct (net q p) eqn:En; [exfalso; apply Nr; pose proof (proj2 H2q eq_refl); congruence|]. rewrite app_nil_r. auto.
        * destruct (net q p) eqn:En; [discriminate (proj2 H2q eq_refl)|]. rewrite app_nil_r. exact H1.
      + assert (forall x, net p x = true -> rt w x = None) as Hn.
        { intros x Hx. destruct (rt w x) as [rx|] eqn:Ex; [|reflexivity]. exfalso. rewrite (e_sym _ E) in Hx. apply (H2 x p rx Ex) in Hx. congruence. }
        destruct c as [n b| | |j].
        2-4: specialize (H1 q); destruct (net q p) eqn:En; [|rewrite app_nil_r; exact H1]; rewrite (e_sym _ E) in En; rewrite (Hn q En) in *;
             rewrite from_first_run_app, H1; reflexivity.
        cbn [runtime_call create_runtime rt log made]. rewrite (e_sym _ E q p). destruct (net p q) eqn:En.
        * rewrite Nat.eqb_refl. specialize (H1 q). rewrite (Hn q En) in H1. rewrite from_first_run_app, H1, H3 by lia. cbn. split; [reflexivity|split; [discriminate|lia]].
        * rewrite app_nil_r. specialize (H1 q). destruct (rt w q) as [rq|]; [|exact H1]. destruct H1 as (L1 & L2 & L3).
          destruct (Nat.eqb_spec rq (made w)); [lia|]. split; [exact L1|split; [exact L2|lia]].
    - unfold api. destruct (rt w p) as [r|] eqn:Ep; [exact H2|]. destruct c; try exact H2. cbn [runtime_call create_runtime rt].
      assert (forall x, rt w x <> Some (made w)) as Fr by (intros x Ex; specialize (H1 x); rewrite Ex in H1; lia).
      intros a b r. destruct (net p a) eqn:Ea.
      + intros [= <-]. destruct (net p b) eqn:Eb.
        * split; [|reflexivity]. intros _. rewrite (e_sym _ E) in Ea. eapply (e_trans _ E); eassumption.
        * split; [intros X; exfalso; exact (Fr b X)|]. intros X. exfalso. rewrite (e_trans _ E p a b Ea X) in Eb. discriminate.
      + intros Ra. destruct (net p b) eqn:Eb; [|apply H2; exact Ra].
        split; [intros [= <-]; exfalso; exact (Fr a Ra)|]. intros X. exfalso. rewrite (e_sym _ E) in X. rewrite (e_trans _ E p b a Eb X) in Ea. discriminate.
    - intros r Hr. unfold api in *. destruct (rt w p) as [rp|] eqn:Ep.
      + cbn [runtime_call made log] in *. specialize (H1 p). rewrite Ep in H1. destruct (Nat.eqb_spec r rp); [lia|]. apply H3, Hr.
      + destruct c; cbn [runtime_call create_runtime made log] in *; try (apply H3; exact Hr). destruct (Nat.eqb_spec r (made w)); [lia|]. apply H3. lia. }
  apply (G h start_world []); [intros p; reflexivity|intros p q r; discriminate|reflexivity].
Qed.
(** an instance: processes 0, 1 and 2 are connected, 3 and 4 are *)
Definition two_nets (p q : nat) : bool := Bool.eqb (p <? 3)%nat (q <? 3)%nat.
Example two_nets_equivalence : equivalence two_nets.
Proof.
  constructor; intros; unfold two_nets in *; repeat match goal with |- context [(?a <? 3)%nat] => destruct (a <? 3)%nat end;
    repeat match goal with H : context [(?a <? 3)%nat] |- _ => destruct (a <? 3)%nat end; cbn in *; congruence.
Qed.
Example two_nets_demo :
  let h := [(1, Stop); (0, Run 3 true); (3, Run 5 true); (2, Run 4 true); (4, Stop); (1, Get 0)]%nat in
  calls_of two_nets 0 h = [Stop; Run 3 true; Run 4 true; Get 0] /\ from_first_run (calls_of two_nets 0 h) = [Run 3 true; Run 4 true; Get 0].
Proof. split; reflexivity. Qed.

(** A process connected after the first run is not part of it: run() of the old process does not run the new one; and run() of the new one
    creates a second runtime, which takes the old process over from its initial state, while the first runtime can no longer be
    stopped from any process. *)
Definition apart (p q : nat) : bool := Nat.eqb p q.
Definition joined (p q : nat) : bool := true.
Theorem late_connection_refuted :
  (let w := history [(apart, 0%nat, Run 3 true); (joined, 0%nat, Run 4 true)] start_world in rt w 1%nat = None) /\
  (let w := history [(apart, 0%nat, Run 3 true); (joined, 1%nat, Run 4 true)] start_world in
     rt w 0%nat = Some 1%nat /\ log w 1%nat = [Run 4 true] /\ (forall p, rt w p <> Some 0%nat) /\ log w 0%nat = [Run 3 true]).
Proof. cbn. split; [reflexivity|]. split; [reflexivity|]. split; [reflexivity|]. split; [discriminate|reflexivity]. Qed.
