From Coq Require Import List Arith Lia Permutation.
From Verif Require Import Kahn_Model Kahn_Spec.
Import ListNotations.

(** ** Lists *)
Lemma upd_length {A} (l : list A) i x : length (upd l i x) = length l.
Proof. revert i. induction l as [|a l IH]; intros [|i]; cbn; auto. Qed.
Lemma nth_error_upd {A} (l : list A) i j x : nth_error (upd l i x) j = if i =? j then (if i <? length l then Some x else None) else nth_error l j.
Proof.
  revert i j. induction l as [|a l IH]; intros [|i] [|j]; try reflexivity.
  - cbn [upd nth_error]. destruct (S i =? S j); reflexivity.
  - cbn [upd nth_error]. rewrite IH. reflexivity.
Qed.
Lemma nth_upd {A} (l : list A) i j x d : nth j (upd l i x) d = if i =? j then (if i <? length l then x else d) else nth j l d.
Proof.
  revert i j. induction l as [|a l IH]; intros [|i] [|j]; try reflexivity.
  - cbn [upd nth]. destruct (S i =? S j); reflexivity.
  - cbn [upd nth]. rewrite IH. reflexivity.
Qed.
Lemma upd_comm {A} (l : list A) i j x y : i <> j -> upd (upd l i x) j y = upd (upd l j y) i x.
Proof. revert i j. induction l as [|a l IH]; intros [|i] [|j] H; try reflexivity; try congruence. cbn. f_equal. apply IH. congruence. Qed.
Lemma upd_upd {A} (l : list A) i x y : upd (upd l i x) i y = upd l i y.
Proof. revert i. induction l as [|a l IH]; intros [|i]; cbn; try reflexivity. f_equal. apply IH. Qed.

Section Net.
Context {V L : Type}.
Implicit Types (N : net V L) (s : st V L).

Lemma chan_nth s c q : nth_error (chan s) c = Some q -> chan_of s c = q /\ (c <? length (chan s)) = true.
Proof. intros H. split; [unfold chan_of; apply nth_error_nth; auto|]. apply Nat.ltb_lt. apply nth_error_Some. congruence. Qed.
Lemma chan_of_some s c q : chan_of s c = q -> c < length (chan s) -> nth_error (chan s) c = Some q.
Proof. intros <- H. apply nth_error_nth'. auto. Qed.

(** what an operation of process [p] touches *)
Definition legit (src dst : nat -> nat) (p : nat) (o : op V) : Prop :=
  match o with ONone => True | OPop c => dst c = p | OPush c _ => src c = p end.
Lemma fires_legit N src dst s p l l' o : wired N src dst -> fires N s p l l' o -> legit src dst p o.
Proof. intros W F. specialize (W p l). destruct F as [? ? ? ? E|? ? ? ? E|? ? ? ? E|? ? ? ? E|? ? E|? ? ? ? ? E|? E]; rewrite E in W; cbn; auto. Qed.

(** pops and pushes that can be done *)
Definition doable N s (o : op V) : Prop :=
  match o with
  | ONone => True
  | OPop c => exists v q, nth_error (chan s) c = Some (v :: q)
  | OPush c _ => exists q, nth_error (chan s) c = Some q /\ length q < cap N c
  end.
Lemma fires_doable N s p l l' o : fires N s p l l' o -> doable N s o.
Proof. intros F. destruct F; cbn; eauto. Qed.
Lemma after_chan s p l' o : chan (after s p l' o) = fst (apply_op o s).
Proof. reflexivity. Qed.

(** the channel [c] after an operation *)
Lemma chan_after N s p l' o c q : doable N s o -> nth_error (chan s) c = Some q ->
  nth_error (chan (after s p l' o)) c =
  Some match o with
       | OPop c' => if c' =? c then tl q else q
       | OPush c' v => if c' =? c then q ++ [v] else q
       | ONone => q
       end.
Proof.
  intros D E. destruct (chan_nth _ _ _ E) as [E1 E2]. rewrite after_chan. destruct o as [|c'|c' v]; cbn [apply_op fst]; [auto| |];
    rewrite nth_error_upd; destruct (Nat.eqb_spec c' c) as [->|]; auto; rewrite E2, E1; reflexivity.
Qed.

(** an operation of another process does not change what a process does next *)
Lemma fires_stable N src dst s p l l' o p' l2 l2' o' :
  wired N src dst -> p <> p' -> nth_error (loc s) p = Some l -> nth_error (loc s) p' = Some l2 ->
  (forall s', step N s p' s' -> match code N p l with AProbe c _ => ~ live N s c /\ ~ live N s' c | _ => True end) ->
  fires N s p l l' o -> fires N s p' l2 l2' o' -> fires N (after s p' l2' o') p l l' o.
Proof.
  intros W Hp El El2 HR F F'. pose proof (fires_legit _ _ _ _ _ _ _ _ W F') as G'. pose proof (fires_doable _ _ _ _ _ _ F') as D'.
  assert (step N s p' (after s p' l2' o')) as St by (econstructor; eauto). specialize (HR _ St).
  pose proof (W p l) as Wp.
  assert (forall c v q, dst c = p -> nth_error (chan s) c = Some (v :: q) -> exists q', nth_error (chan (after s p' l2' o')) c = Some (v :: q')) as Hh.
  { intros c v q Hd Hc. rewrite (chan_after N s p' l2' o' c _ D' Hc). destruct o' as [|c'|c' w]; [eauto| |].
    - cbn in G'. destruct (Nat.eqb_spec c' c) as [->|]; [congruence|eauto].
    - destruct (c' =? c); [|eauto]. exists (q ++ [w]). reflexivity. }
  destruct F as [c k v q E Hc|c k v q E Hc|c v l'' q E Hc Hl|c k v q E Hc|c k E|cs c k v q E Hin Hc|l'' E]; rewrite E in Wp, HR.
  - destruct (Hh _ _ _ Wp Hc) as (q' & Hq). eapply f_recv; eauto.
  - destruct (Hh _ _ _ Wp Hc) as (q' & Hq). eapply f_peek; eauto.
  - pose proof (chan_after N s p' l2' o' c _ D' Hc) as X. destruct o' as [|c'|c' w].
    + eapply f_send; eauto.
    + eapply f_send; eauto. destruct (c' =? c); [|auto]. destruct q; cbn in *; lia.
    + cbn in G'. destruct (Nat.eqb_spec c' c) as [->|]; [congruence|]. eapply f_send; eauto.
  - destruct HR as [HR _]. exfalso. apply HR. left. destruct (chan_nth _ _ _ Hc) as [-> _]. discriminate.
  - eapply f_probe_f; eauto.
  - destruct (Hh c _ _ (Wp _ Hin) Hc) as (q' & Hq). eapply f_select; eauto.
  - apply f_tau. auto.
Qed.

Lemma ops_comm N src dst s p p' l' l2' o o' : p <> p' -> legit src dst p o -> legit src dst p' o' -> doable N s o -> doable N s o' ->
  after (after s p l' o) p' l2' o' = after (after s p' l2' o') p l' o.
Proof.
  intros Hp G G' D D'. unfold after. cbn [loc]. f_equal.
  - apply upd_comm. auto.
  - destruct o as [|c|c v], o' as [|c'|c' v']; cbn [apply_op fst chan sent] in *; try reflexivity; cbn in G, G'.
    + assert (c <> c') by congruence. unfold chan_of; cbn [chan]. rewrite !nth_upd. destruct (Nat.eqb_spec c c'); [congruence|]. destruct (Nat.eqb_spec c' c); [congruence|]. apply upd_comm. auto.
    + cbn in D, D'. destruct D as (w & q & Hc). destruct D' as (q' & Hc' & _). unfold chan_of; cbn [chan]. rewrite !nth_upd.
      destruct (Nat.eqb_spec c c') as [->|Hn].
      * rewrite Nat.eqb_refl. rewrite !upd_upd. destruct (chan_nth _ _ _ Hc) as [E1 E2]. rewrite E2. unfold chan_of in E1. rewrite E1. reflexivity.
      * destruct (Nat.eqb_spec c' c); [congruence|]. apply upd_comm. auto.
    + cbn in D, D'. destruct D' as (w & q & Hc). destruct D as (q' & Hc' & _). unfold chan_of; cbn [chan]. rewrite !nth_upd.
      destruct (Nat.eqb_spec c c') as [->|Hn].
      * rewrite Nat.eqb_refl. rewrite !upd_upd. destruct (chan_nth _ _ _ Hc) as [E1 E2]. rewrite E2. unfold chan_of in E1. rewrite E1. reflexivity.
      * destruct (Nat.eqb_spec c' c); [congruence|]. apply upd_comm. auto.
    + assert (c <> c') by congruence. unfold chan_of; cbn [chan]. rewrite !nth_upd. destruct (Nat.eqb_spec c c'); [congruence|]. destruct (Nat.eqb_spec c' c); [congruence|]. apply upd_comm. auto.
  - destruct o as [|c|c v], o' as [|c'|c' v']; cbn [apply_op snd chan sent] in *; try reflexivity; cbn in G, G'.
    assert (c <> c') by congruence. unfold sent_of; cbn [sent]. rewrite !nth_upd. destruct (Nat.eqb_spec c c'); [congruence|]. destruct (Nat.eqb_spec c' c); [congruence|]. apply upd_comm. auto.
Qed.
End Net.

(** ** Without races *)
Section Free.
Context {V L : Type}.
Variables (N : net V L) (src dst : nat -> nat) (s0 : st V L).
Hypothesis W : wired N src dst.
Hypothesis RF : race_free N s0.
Notation reach := (reachable N s0).

Lemma exec_app a x b y c : exec N a x b -> exec N b y c -> exec N a (x ++ y) c.
Proof using. intros H. induction H; intros; [auto|]. cbn. econstructor; eauto. Qed.
Lemma exec_split a x y c : exec N a (x ++ y) c -> exists b, exec N a x b /\ exec N b y c.
Proof using.
  revert a. induction x as [|p x IH]; intros a H; [exists a; split; [constructor|auto]|].
  cbn in H. inversion H as [|? ? s1 ? ? H1 H2]; subst. destruct (IH _ H2) as (b & B1 & B2). exists b. split; [econstructor; eauto|auto].
Qed.
Lemma reach_step s p s' : reach s -> step N s p s' -> reach s'.
Proof using. intros (ps & E) St. exists (ps ++ [p]). eapply exec_app; eauto. econstructor; [eauto|constructor]. Qed.
Lemma reach_exec s ps s' : reach s -> exec N s ps s' -> reach s'.
Proof using. intros (qs & E) X. exists (qs ++ ps). eapply exec_app; eauto. Qed.

Lemma step_det s p s1 s2 : reach s -> step N s p s1 -> step N s p s2 -> s1 = s2.
Proof using RF.
  intros R H1 H2. destruct H1 as [l l1 o1 E1 F1]. destruct H2 as [l' l2 o2 E2 F2]. assert (l' = l) as -> by congruence.
  pose proof (RF s p l R E1) as Q.
  assert (l1 = l2 /\ o1 = o2) as [-> ->]; [|reflexivity].
  destruct F1 as [c k v q E Hc|c k v q E Hc|c v l'' q E Hc Hl|c k v q E Hc|c k E|cs c k v q E Hin Hc|l'' E]; rewrite E in Q;
    destruct F2 as [c2 k2 v2 q2 E' Hc2|c2 k2 v2 q2 E' Hc2|c2 v2 l''2 q2 E' Hc2 Hl2|c2 k2 v2 q2 E' Hc2|c2 k2 E'|cs2 c2 k2 v2 q2 E' Hin2 Hc2|l''2 E']; rewrite E in E'; try discriminate E'; inversion E'; subst;
    try (rewrite Hc in Hc2; inversion Hc2; subst); auto.
  - exfalso. apply Q. left. destruct (chan_nth _ _ _ Hc) as [-> _]. discriminate.
  - exfalso. apply Q. left. destruct (chan_nth _ _ _ Hc2) as [-> _]. discriminate.
  - assert (c = c2) as ->; [|auto]. apply (Q c c2 Hin Hin2); left; [destruct (chan_nth _ _ _ Hc) as [-> _]|destruct (chan_nth _ _ _ Hc2) as [-> _]]; discriminate.
Qed.

Lemma diamond s p p' s1 s2 : reach s -> p <> p' -> step N s p s1 -> step N s p' s2 -> exists t, step N s1 p' t /\ step N s2 p t.
Proof using W RF.
  intros R Hp H1 H2. pose proof (reach_step _ _ _ R H1) as R1. pose proof (reach_step _ _ _ R H2) as R2.
  destruct H1 as [l l1 o1 E1 F1]. destruct H2 as [l' l2 o2 E2 F2].
  assert (forall q lq q' s', nth_error (loc s) q = Some lq -> q <> q' -> step N s q' s' -> match code N q lq with AProbe c _ => ~ live N s c /\ ~ live N s' c | _ => True end) as HP.
  { intros q lq q' s' Eq Hq St. pose proof (RF s q lq R Eq) as Q. pose proof (reach_step _ _ _ R St) as R'.
    assert (nth_error (loc s') q = Some lq) as Eq' by (destruct St as [lx lx' ox Ex Fx]; cbn [after loc]; rewrite nth_error_upd; destruct (Nat.eqb_spec q' q); congruence).
    pose proof (RF s' q lq R' Eq') as Q'. destruct (code N q lq); auto. }
  exists (after (after s p l1 o1) p' l2 o2). split.
  - apply (step_intro _ _ _ _ _ l' l2 o2).
    + cbn [after loc]. rewrite nth_error_upd. destruct (Nat.eqb_spec p p'); [congruence|]. exact E2.
    + refine (fires_stable N src dst s p' l' l2 o2 p l l1 o1 W (not_eq_sym Hp) E2 E1 _ F2 F1). intros s' St. exact (HP p' l' p s' E2 (not_eq_sym Hp) St).
  - rewrite (ops_comm N src dst s p p' l1 l2 o1 o2); auto; try (eapply fires_legit; eauto); try (eapply fires_doable; eauto).
    apply (step_intro _ _ _ _ _ l l1 o1).
    + cbn [after loc]. rewrite nth_error_upd. destruct (Nat.eqb_spec p' p); [congruence|]. exact E1.
    + refine (fires_stable N src dst s p l l1 o1 p' l' l2 o2 W Hp E1 E2 _ F1 F2). intros s' St. exact (HP p l p' s' E1 Hp St).
Qed.

(** a process that can proceed can still do so, with the same effect, after any steps of the others *)
Lemma strip s w t : reach s -> exec N s w t -> forall p s1, step N s p s1 ->
  (exists w1 w2, w = w1 ++ p :: w2 /\ exec N s1 (w1 ++ w2) t) \/ (~ In p w /\ exists t', step N t p t' /\ exec N s1 w t').
Proof using W RF.
  intros R H. induction H as [s|s q s' w t H H' IH]; intros p s1 St.
  - right. split; [auto|]. exists s1. split; [auto|constructor].
  - destruct (Nat.eq_dec p q) as [->|Hn].
    + left. exists [], w. split; [reflexivity|]. cbn. rewrite (step_det _ _ _ _ R St H). auto.
    + destruct (diamond s p q s1 s' R Hn St H) as (x & X1 & X2).
      destruct (IH (reach_step _ _ _ R H) p x X2) as [(w1 & w2 & -> & E)|(Hni & t' & T1 & T2)].
      * left. exists (q :: w1), w2. split; [reflexivity|]. cbn. econstructor; eauto.
      * right. split; [intros [|]; auto|]. exists t'. split; [auto|]. econstructor; eauto.
Qed.

(** an execution that ends contains every other one *)
Lemma absorb a : reach a -> forall w t, exec N a w t -> stuck N t -> forall w' b, exec N a w' b -> exists rest, exec N b rest t /\ Permutation w (w' ++ rest).
Proof using W RF.
  intros R w t Ht Hs w' b Hb. revert w Ht R. induction Hb as [a|a p a1 w' b St Hb IH]; intros w Ht R.
  - exists w. split; [auto|apply Permutation_refl].
  - destruct (strip a w t R Ht p a1 St) as [(w1 & w2 & -> & E)|(_ & t' & T & _)]; [|exfalso; eapply Hs; eauto].
    destruct (IH _ E (reach_step _ _ _ R St)) as (rest & X1 & X2). exists rest. split; [auto|].
    eapply Permutation_trans; [apply Permutation_sym, Permutation_middle|]. cbn. apply perm_skip. exact X2.
Qed.

(** what is sent is never taken back *)
Lemma sent_step s p s' c : step N s p s' -> prefix (sent_of s c) (sent_of s' c).
Proof using.
  intros [l l' o E F]. unfold sent_of, after. cbn [sent]. destruct o as [|c'|c' v]; cbn [apply_op snd]; try (exists []; rewrite app_nil_r; reflexivity).
  rewrite nth_upd. destruct (Nat.eqb_spec c' c) as [->|]; [|exists []; rewrite app_nil_r; reflexivity].
  destruct (c <? length (sent s)) eqn:Q; [exists [v]; reflexivity|]. apply Nat.ltb_ge in Q. rewrite nth_overflow by auto. exists []. reflexivity.
Qed.
Lemma prefix_trans {A} (x y z : list A) : prefix x y -> prefix y z -> prefix x z.
Proof using. intros (a & ->) (b & ->). exists (a ++ b). rewrite app_assoc. reflexivity. Qed.
Lemma sent_exec s w s' c : exec N s w s' -> prefix (sent_of s c) (sent_of s' c).
Proof using. intros H. induction H as [s|s p s1 w t H H' IH]; [exists []; rewrite app_nil_r; reflexivity|]. eapply prefix_trans; [eapply sent_step; eauto|auto]. Qed.

(** ** Executions that do not end *)
Lemma endless_exec run sch : endless N s0 run sch -> forall n m, n <= m -> exec N (run n) (map sch (seq n (m - n))) (run m).
Proof using.
  intros [E0 E] n m H. remember (m - n) as d eqn:Ed. revert n m H Ed. induction d as [|d IH]; intros n m H Ed.
  - assert (n = m) as -> by lia. constructor.
  - cbn [seq map]. econstructor; [apply E|]. apply IH; lia.
Qed.
Lemma endless_reach run sch n : endless N s0 run sch -> reach (run n).
Proof using. intros H. exists (map sch (seq 0 (n - 0))). rewrite <- (en_start _ _ _ _ H). apply endless_exec; [auto|lia]. Qed.

(** a process that can proceed is scheduled at some time *)
Lemma scheduled run sch : endless N s0 run sch -> fair N run sch -> forall n p s', step N (run n) p s' -> exists m, n <= m /\ sch m = p.
Proof using W RF.
  intros HE HF n p s' St. destruct (HF n p) as (m & Hm & [E|Hd]); [eauto|].
  destruct (strip (run n) _ (run m) (endless_reach _ _ n HE) (endless_exec _ _ HE n m Hm) p s' St) as [(w1 & w2 & E & _)|(_ & t' & T & _)]; [|exfalso; eapply Hd; eauto].
  assert (In p (map sch (seq n (m - n)))) as Hi by (rewrite E; apply in_or_app; right; left; reflexivity).
  apply in_map_iff in Hi. destruct Hi as (k & Hk & Hk'). apply in_seq in Hk'. exists k. split; [lia|auto].
Qed.
(** a fair execution passes, up to the order of independent steps, everything that can be reached *)
Lemma overtakes run sch : endless N s0 run sch -> fair N run sch -> forall a w0 b, reach a -> (exists n w, exec N a w (run n)) -> exec N a w0 b -> exists m w', exec N b w' (run m).
Proof using W RF.
  intros HE HF a w0 b R Hn Hb. revert R Hn. induction Hb as [a|a p a1 w0 b St Hb IH]; intros R (n & w & Hw); [eauto|].
  apply IH; [eapply reach_step; eauto|]. clear IH Hb.
  destruct (strip a w (run n) R Hw p a1 St) as [(w1 & w2 & -> & E)|(_ & t' & T & E)]; [eauto|].
  destruct (scheduled run sch HE HF n p t' T) as (m & Hm & Ep).
  assert (exec N a (w ++ map sch (seq n (m - n)) ++ [p]) (run (S m))) as X.
  { eapply exec_app; [exact Hw|]. eapply exec_app; [apply endless_exec; auto|]. econstructor; [rewrite <- Ep; apply (en_step _ _ _ _ HE)|constructor]. }
  destruct (strip a _ _ R X p a1 St) as [(w1 & w2 & _ & E2)|(Hni & _)]; [eauto|]. exfalso. apply Hni. apply in_or_app; right; apply in_or_app; right; left; reflexivity.
Qed.
End Free.
