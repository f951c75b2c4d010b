(** C98: when RefPort accesses are served *)
From Coq Require Import List Arith ZArith Bool Relations Lia.
From Verif Require Import RefPhase_Model RefPhase_Spec RefPhase_Inv.
Import ListNotations.

Lemma exec_split b N : forall c tr s, exec b N tr s -> forall a l, tr = a ++ l :: c ->
  exists s0 s1, exec b N a s0 /\ step b N s0 l s1 /\ exec b N (a ++ [l]) s1.
Proof.
  induction c as [|x c IH] using rev_ind; intros tr s E a l ->.
  - inversion E as [H|tr0 s0 l0 s1 E0 St H]; [destruct a; discriminate|]. apply app_inj_tail in H. destruct H as [-> ->].
    exists s0, s. split; [exact E0|]. split; [exact St|exact E].
  - inversion E as [H|tr0 s0 l0 s1 E0 St H]; [destruct a; discriminate|].
    replace (a ++ l :: c ++ [x]) with ((a ++ l :: c) ++ [x]) in H by (rewrite <- app_assoc; reflexivity).
    apply app_inj_tail in H. destruct H as [-> ->]. exact (IH _ _ E0 _ _ eq_refl).
Qed.
Lemma get_pending b N a s r m l : well_built N -> exec b N a s -> seen s r = AskGet m :: l ->
  exists k, pst s (user N r) = Waiting r k /\ cur s (user N r) = m /\ svc s = m /\ reply s r = None /\ l = [] /\ fly s r = [].
Proof.
  intros W E H. destruct (reads_exec _ _ _ _ W E r) as [A B].
  assert (exists k, pst s (user N r) = Waiting r k) as [k K].
  { assert (~ no_get (seen s r ++ fly s r)) as G by (rewrite H; intros G; apply (G m); left; reflexivity).
    destruct (pst s (user N r)) as [|c|q k] eqn:P; [destruct B as [_ B]; [discriminate|contradiction]|destruct B as [_ B]; [discriminate|contradiction]|].
    destruct (Nat.eq_dec q r) as [-> |Nq]; [eauto|]. destruct B as [_ B]; [congruence|contradiction]. }
  exists k. split; [exact K|]. destruct (A k K) as [(A1 & l' & A2 & A3)|(y & R' & X)]; [|rewrite H in X; discriminate].
  rewrite H in A2. destruct l' as [|y l']; cbn [app] in A2; injection A2 as A2 A4; [|subst y; elim (A3 m); left; reflexivity].
  destruct (active N s (user N r) (shapes_exec _ _ _ _ E)) as (_ & _ & C & _); [congruence|].
  apply app_eq_nil in A4. destruct A4 as [A4 A5]. split; [congruence|]. split; [congruence|]. auto.
Qed.

(** Theorem: a read made in a management phase of a time step is answered in the same phase of the same step: the owner has finished
    its own code of that phase, no process has gone on to a later phase, and the answer is the value the Var has then *)
Theorem management_read_is_current : forall b N tr s a r m x c, well_built N -> exec b N tr s -> tr = a ++ LGet r m x :: c ->
  management (fst m) ->
  ended (owner N r) m a /\ (forall p m', In (LCmd p m') a -> ~ after m m') /\ x = value_after N (target N r) a.
Proof.
  intros b N tr s a r m x c W E Et M. destruct (exec_split _ _ _ _ _ E _ _ Et) as (s0 & s1 & E0 & St & _).
  inversion St; subst. destruct (get_pending _ _ _ _ _ _ _ W E0 H6) as (k & K1 & K2 & K3 & _).
  destruct (active N s0 (user N r) (shapes_exec _ _ _ _ E0)) as (L & _); [congruence|].
  assert (owner N r < n N) as Lo by (pose proof (codes_exec _ _ _ _ W E0 (user N r)) as C; rewrite K1 in C; apply C).
  assert (cur s0 (owner N r) = svc s0) as Cu.
  { destruct (shapes_exec _ _ _ _ E0) as [Sh _]. destruct (Sh _ Lo) as [(_ & C & _)|[(_ & _ & _ & C)|(t0 & _ & C & _)]]; [exact C| |].
    - exfalso. rewrite K3 in C. destruct M as [M|M]; rewrite M in C; inversion C as [ | | | | | | | | | | | | ]; match goal with Q : polls (fst (cur s0 (owner N r))) = true, X : _ = fst (cur s0 (owner N r)) |- _ => rewrite <- X in Q; discriminate end.
    - exfalso. rewrite <- K3, C in M. cbn in M. destruct M as [M|M]; discriminate M. }
  split; [|split].
  - rewrite <- K3, <- Cu. apply (ended_exec _ _ _ _ W E0); [exact Lo|assumption|]. rewrite Cu, K3. destruct M as [-> | ->]; unfold works_in; auto.
  - intros p m' I. rewrite <- K3. apply upto_not_after. exact (proj1 (past_exec _ _ _ _ E0) p m' I).
  - apply (values_exec _ _ _ _ E0).
Qed.

(** Theorem: read() returns the answers of the VarPort, each once and in order, in the phase in which it was called *)
Theorem reads_return_the_answers : forall b N tr s r, well_built N -> exec b N tr s ->
  exists rest, sent_back r tr = returned r tr ++ rest /\ length rest <= 1.
Proof.
  intros b N tr s r W E. eexists. split; [apply (replies_in_order _ _ _ _ W E)|]. destruct (reply s r); simpl; lia.
Qed.
(** Theorem: the requests made through a port are served in the order in which they are made, each at most once *)
Theorem served_in_order : forall b N tr s r, exec b N tr s -> exists waiting, made r tr = served r tr ++ waiting.
Proof. intros b N tr s r E. eexists. apply (requests_in_order _ _ _ _ E). Qed.

(** Theorem: when a read returns, all earlier writes through the port have been served (this is what wait() relies on) *)
Theorem read_flushes_writes : forall b N tr s a r m x c, well_built N -> exec b N tr s -> tr = a ++ LRet r m x :: c -> made r a = served r a.
Proof.
  intros b N tr s a r m x c W E Et. destruct (exec_split _ _ _ _ _ E _ _ Et) as (s0 & s1 & E0 & St & _). inversion St; subst.
  rewrite (requests_in_order _ _ _ _ E0). destruct (reads_exec _ _ _ _ W E0 r) as [A _].
  assert (user N r = p) as U by (pose proof (codes_exec _ _ _ _ W E0 p) as C; rewrite H4 in C; apply C).
  rewrite U in A. destruct (A k H4) as [[A1 _]|(y & _ & ->)]; [congruence|]. apply app_nil_r.
Qed.
Lemma served_app r a b : served r (a ++ b) = served r a ++ served r b.
Proof. unfold served. apply flat_map_app. Qed.
Lemma made_app r a b : made r (a ++ b) = made r a ++ made r b.
Proof. unfold made. apply flat_map_app. Qed.
Lemma served_set r m x l : In (AskSet m x) (served r l) -> In (LSet r m x) l.
Proof.
  unfold served. rewrite in_flat_map. intros (y & Y & I). destruct y; try (destruct I; fail); destruct (Nat.eqb_spec r0 r) as [-> |]; try (destruct I; fail);
    destruct I as [I|[]]; [discriminate|]. injection I as -> ->. exact Y.
Qed.
(** Theorem: a write followed by a read or wait() through the same port in the same phase is applied in between *)
Theorem write_and_wait_is_applied : forall b N tr s a r m x c y d, well_built N -> exec b N tr s ->
  tr = a ++ LWrite r m x :: c ++ LRet r m y :: d ->
  In (LSet r m x) c /\ (forall p m', In (LCmd p m') (a ++ LWrite r m x :: c) -> ~ after m m').
Proof.
  intros b N tr s a r m x c y d W E Et. subst tr. split.
  - pose proof (read_flushes_writes b N _ s (a ++ LWrite r m x :: c) r m y d W E ltac:(rewrite <- app_assoc; reflexivity)) as F.
    destruct (exec_split _ _ _ _ _ E a (LWrite r m x) eq_refl) as (s0 & s1 & E0 & _ & _).
    rewrite made_app, served_app, (requests_in_order _ _ _ _ E0), <- app_assoc in F. apply app_inv_head in F.
    assert (made r (LWrite r m x :: c) = AskSet m x :: made r c) as M1 by (unfold made; simpl; rewrite Nat.eqb_refl; reflexivity).
    rewrite M1 in F. change (served r (LWrite r m x :: c)) with (served r c) in F. apply served_set. rewrite <- F.
    apply in_app_iff. right. left. reflexivity.
  - destruct (exec_split b N d _ s E (a ++ LWrite r m x :: c) (LRet r m y) ltac:(rewrite <- app_assoc; reflexivity)) as (s0 & s1 & E0 & St & _).
    intros p m' I. inversion St; subst. destruct (active N s0 p0 (shapes_exec _ _ _ _ E0)) as (_ & _ & C & _); [congruence|].
    rewrite C. apply upto_not_after. exact (proj1 (past_exec _ _ _ _ E0) p m' I).
Qed.

(** Theorem: requests are only served while the owner of the Var is in a management or host phase and has finished its code: the Var
    does not change from outside while the owner's code runs, nor in the spiking and learning phases *)
Theorem served_between_code : forall b N tr s a l r m x c, well_built N -> exec b N tr s -> tr = a ++ l :: c ->
  l = LGet r m x \/ l = LSet r m x -> owner N r < n N ->
  phase_after (owner N r) a = Host \/ exists u, management (fst u) /\ phase_after (owner N r) a = fst u /\ ended (owner N r) u a.
Proof.
  intros b N tr s a l r m x c W E Et Hl Lo. destruct (exec_split _ _ _ _ _ E _ _ Et) as (s0 & s1 & E0 & St & _).
  assert (pst s0 (owner N r) = Poll /\ polls (fst (cur s0 (owner N r))) = true) as [P Q].
  { destruct Hl as [-> | ->]; inversion St; subst; auto. }
  rewrite <- (phase_exec _ _ _ _ E0). pose proof (ended_exec _ _ _ _ W E0 _ Lo P) as En.
  destruct (cur s0 (owner N r)) as [f t] eqn:C. cbn [fst] in *. destruct f; try discriminate; [right|right|left; reflexivity].
  - exists (Pre, t). split; [left; reflexivity|]. split; [reflexivity|]. apply En. unfold works_in. auto.
  - exists (Post, t). split; [right; reflexivity|]. split; [reflexivity|]. apply En. unfold works_in. auto.
Qed.

(** ** Reads in the spiking and learning phases *)
Definition deaf (N : net) (r : nat) (m : moment) (s : state) : Prop :=
  svc s = m /\ (exists k, pst s (user N r) = Waiting r k) /\ reply s r = None /\
  ((cur s (owner N r) = m /\ cmds s (owner N r) = []) \/ (polls (fst (cur s (owner N r))) = false /\ cmds s (owner N r) = [m])).
Definition harmless (N : net) (r : nat) (m : moment) (l : label) : Prop :=
  match l with LNext _ => False | LGet q _ _ => owner N q <> owner N r | LRet q _ _ => q <> r | LCmd _ m' => ~ after m m' | _ => True end.
Lemma deaf_step b N r m tr s l s' : well_built N -> polls (fst m) = false -> fst m <> Start -> exec b N tr s -> deaf N r m s -> step b N s l s' ->
  deaf N r m s' /\ harmless N r m l.
Proof.
  intros W P P2 E (D1 & (k & D2) & D3 & D4) H. pose proof (shapes_exec _ _ _ _ E) as Sh. pose proof (codes_exec _ _ _ _ W E) as Co.
  destruct (active N s (user N r) Sh ltac:(congruence)) as (L & C1 & C2 & C3 & C4).
  assert (user N r <> owner N r \/ cmds s (owner N r) = []) as D5.
  { destruct (Nat.eq_dec (user N r) (owner N r)) as [X|X]; [right; congruence|auto]. }
  assert (polls (fst (cur s (owner N r))) = false) as D6 by (destruct D4 as [[-> _]|[X _]]; assumption).
  inversion H; subst; clear H; unfold deaf; cbn [svc pst reply cur cmds harmless].
  - (* next *) exfalso. rewrite H1 in C3; [discriminate| |exact L]. destruct (fst (svc s)); try discriminate; reflexivity.
  - (* cmd *) assert (user N r <> p) as Np by congruence. rewrite (upd_ne (pst s)) by exact Np.
    split; [|apply upto_not_after; apply (proj2 (past_exec _ _ _ _ E) p); rewrite H2; left; reflexivity].
    split; [reflexivity|]. split; [eauto|]. split; [exact D3|].
    destruct (Nat.eq_dec (owner N r) p) as [X|X]; [|rewrite !upd_ne by exact X; exact D4].
    rewrite X, !upd_eq in *. destruct D4 as [[_ D4]|[_ D4]]; [congruence|]. rewrite D4 in H2. injection H2 as -> <-. left. auto.
  - split; [|exact I]. split; [reflexivity|]. split; [|auto]. rewrite upd_ne by congruence. eauto.
  - split; [|exact I]. split; [reflexivity|]. split; [|auto]. rewrite upd_ne by congruence. eauto.
  - split; [|exact I]. split; [reflexivity|]. split; [|auto]. rewrite upd_ne by congruence. eauto.
  - split; [|exact I]. split; [reflexivity|]. split; [|auto]. rewrite upd_ne by congruence. eauto.
  - split; [|exact I]. split; [reflexivity|]. split; [|auto]. eauto.
  - assert (owner N r0 <> owner N r) as X by (intros X; rewrite X in *; congruence). split; [|exact X]. split; [reflexivity|]. split; [eauto|].
    split; [|exact D4]. rewrite upd_ne; [exact D3|]. intros ->. apply X. reflexivity.
  - split; [|exact I]. split; [reflexivity|]. split; [eauto|auto].
  - assert (r0 <> r) as X by congruence. split; [|exact X]. split; [reflexivity|]. pose proof (Co p) as C. rewrite H0 in C. destruct C as [U _].
    split; [|rewrite upd_ne by auto; auto]. rewrite upd_ne; [eauto|]. intros Y. rewrite Y in D2. rewrite D2 in H0. congruence.
  - split; [|exact I]. split; [reflexivity|]. split; [|auto]. rewrite upd_ne by congruence. eauto.
Qed.
Lemma moments_positive b N tr s : exec b N tr s ->
  (forall p m, In m (cmds s p) -> 0 < snd m) /\ (fst (svc s) = Start \/ 0 < snd (svc s)).
Proof.
  induction 1 as [|tr s l s' E [A B] H]; [split; [intros p m []|left; reflexivity]|]. inversion H; subst; clear H; cbn [cmds svc]; auto.
  - assert (0 < snd m) as G.
    { subst m. destruct B as [B|B]; [rewrite B in H0; inversion H0; subst; cbn; lia|]. cbn. destruct f; cbn; lia. }
    split; [|right; exact G]. intros p m' I. destruct (p <? n N); [|eauto]. apply in_app_iff in I. destruct I as [I|[<-|[]]]; eauto.
  - split; [|exact B]. intros q m' I. updc q p; [apply (A p); rewrite H2; right; exact I|eauto].
Qed.
(** the rest of an execution *)
Inductive path (b : bool) (N : net) : state -> list label -> state -> Prop :=
| p_0 s : path b N s [] s
| p_S s l s1 c s2 : step b N s l s1 -> path b N s1 c s2 -> path b N s (l :: c) s2.
Lemma path_snoc b N s c s1 l s2 : path b N s c s1 -> step b N s1 l s2 -> path b N s (c ++ [l]) s2.
Proof. induction 1; intros St; simpl; [econstructor; [exact St|constructor]|econstructor; eauto]. Qed.
Lemma exec_path b N c : forall tr s, exec b N tr s -> forall a, tr = a ++ c -> exists s0, exec b N a s0 /\ path b N s0 c s.
Proof.
  induction c as [|x c IH] using rev_ind; intros tr s E a ->.
  - rewrite app_nil_r in E. exists s. split; [exact E|constructor].
  - inversion E as [H|tr0 s0 l0 s1 E0 St H]; [destruct a; destruct c; discriminate|]. rewrite app_assoc in H.
    apply app_inj_tail in H. destruct H as [-> ->]. destruct (IH _ _ E0 _ eq_refl) as (s2 & A & B).
    exists s2. split; [exact A|]. eapply path_snoc; eauto.
Qed.
Lemma deaf_path b N r m s c s' : well_built N -> polls (fst m) = false -> fst m <> Start -> path b N s c s' ->
  forall tr, exec b N tr s -> deaf N r m s -> forall l, In l c -> harmless N r m l.
Proof.
  intros W P1 P2. induction 1 as [s|s l0 s1 c s2 St P IH]; intros tr E D l I; [destruct I|].
  destruct (deaf_step _ _ _ _ _ _ _ _ W P1 P2 E D St) as [D' Hl]. destruct I as [<-|I]; [exact Hl|].
  apply (IH (tr ++ [l0])); [econstructor; eauto|exact D'|exact I].
Qed.
Lemma cmd_not_start b N tr s l s' p m : exec b N tr s -> step b N s l s' -> l = LCmd p m -> fst m <> Start.
Proof.
  intros E H ->. inversion H; subst. cbn.
  match goal with L : p < n N, C : cmds s p = _ |- _ => pose proof (proj1 (shapes_exec _ _ _ _ E) p L) as Sh; rename C into C0 end.
  intros ->. destruct Sh as [(C1 & _)|[(C1 & _ & _ & C4)|(t0 & C1 & _)]]; rewrite C1 in C0; try discriminate.
  injection C0 as C0 _. rewrite C0 in C4. inversion C4.
Qed.
Lemma in_phase_not_start b N tr s p m : exec b N tr s -> In (LCmd p m) tr -> fst (cur s p) <> Start.
Proof.
  intros E. rewrite (phase_exec _ _ _ _ E). induction E as [|tr s l s' E IH H]; intros I; [destruct I|].
  unfold phase_after. rewrite fold_left_app. cbn [fold_left]. apply in_app_iff in I.
  assert (forall m', l = LCmd p m' -> fst m' <> Start) as G by (intros m' ->; eapply cmd_not_start; eauto).
  destruct l; try (destruct I as [I|[I|[]]]; [exact (IH I)|discriminate]).
  destruct (Nat.eqb_spec p0 p) as [-> |Np]; [eapply G; reflexivity|]. destruct I as [I|[I|[]]]; [exact (IH I)|congruence].
Qed.
Lemma taken_commands b N tr s : exec b N tr s -> forall p, p < n N -> forall m, In (LCmd p m) tr ->
  upto m (cur s p) /\ forall u, In u (cmds s p) -> after (cur s p) u.
Proof.
  induction 1 as [|tr s l s' E IH H]; intros p L m I; [destruct I|]. apply in_app_iff in I.
  pose proof (shapes_exec _ _ _ _ E) as [Sh _]. inversion H; subst; clear H; cbn [cur cmds];
    try (destruct I as [I|[I|[]]]; [exact (IH p L m I)|discriminate]).
  - destruct I as [I|[I|[]]]; [|discriminate]. destruct (IH p L m I) as [A B]. split; [exact A|].
    destruct (Nat.ltb_spec p (n N)); [|lia]. intros u U. apply in_app_iff in U. destruct U as [U|[<-|[]]]; [auto|].
    pose proof (in_phase_not_start _ _ _ _ _ _ E I) as Ns.
    destruct (Sh p L) as [(C1 & C2 & _)|[(C1 & C2 & C3 & C4)|(t0 & C1 & C2 & C3 & C4 & C5)]].
    + rewrite (surjective_pairing (cur s p)), C2. rewrite C2 in Ns. apply follows_after; assumption.
    + apply (after_trans _ (svc s)); [apply B; rewrite C1; left; reflexivity|].
      rewrite (surjective_pairing (svc s)) at 1. apply follows_after; [assumption|]. intros X. rewrite X in C4. inversion C4.
    + apply (after_trans _ (svc s)); [apply B; rewrite C1; right; left; reflexivity|].
      rewrite (surjective_pairing (svc s)) at 1. apply follows_after; [assumption|]. rewrite C2. discriminate.
  - destruct (Nat.eq_dec p p0) as [-> |Np].
    + rewrite !upd_eq. destruct (Sh p0 L) as [(C1 & _)|[(C1 & C2 & C3 & C4)|(t0 & C1 & C2 & C3 & C4 & C5)]]; [congruence| |].
      * rewrite C1 in H2. injection H2 as Es <-. split; [|intros u []]. destruct I as [I|[I|[]]]; [|injection I as <-; left; reflexivity].
        right. destruct (IH p0 L m I) as [A B]. rewrite <- Es. destruct A as [-> |A]; [|apply (after_trans _ _ _ A)]; apply B; rewrite C1; left; reflexivity.
      * rewrite C1 in H2. injection H2 as <- <- <-. split.
        -- destruct I as [I|[I|[]]]; [|injection I as <-; left; reflexivity].
           right. destruct (IH p0 L m I) as [A B]. destruct A as [-> |A]; [|apply (after_trans _ _ _ A)]; apply B; rewrite C1; left; reflexivity.
        -- intros u [<-|[]]. rewrite C2. unfold after. cbn. lia.
    + rewrite !upd_ne by exact Np. destruct I as [I|[I|[]]]; [exact (IH p L m I)|]. injection I as <- _. congruence.
Qed.
Lemma in_the_phase b N tr s p : exec b N tr s -> p < n N -> In (LCmd p (svc s)) tr -> cur s p = svc s /\ cmds s p = [].
Proof.
  intros E L I. destruct (taken_commands _ _ _ _ E _ L _ I) as [A B].
  destruct (shapes_exec _ _ _ _ E) as [Sh _]. destruct (Sh _ L) as [(C1 & C2 & _)|[(C1 & _)|(t0 & C1 & _)]]; [auto| |].
  - exfalso. apply (upto_not_after _ _ A). apply B. rewrite C1. left. reflexivity.
  - exfalso. apply (upto_not_after _ _ A). apply B. rewrite C1. right. left. reflexivity.
Qed.
Lemma no_host_zero b N tr s p l : exec b N tr s -> cmds s p = (Host, 0) :: l -> False.
Proof. intros E C. pose proof (proj1 (moments_positive _ _ _ _ E) p (Host, 0)) as M. rewrite C in M. specialize (M (or_introl eq_refl)). cbn in M. lia. Qed.
Lemma first_step b N tr s : exec b N tr s -> svc s = (Spk, 1) -> forall p, p < n N -> cmds s p = [svc s] -> fst (cur s p) = Start.
Proof.
  induction 1 as [|tr s l s' E IH H]; intros Es p L Ec; [discriminate|]. inversion H; subst; clear H; cbn [svc cmds cur] in *; auto.
  - destruct (Nat.ltb_spec p (n N)); [|lia]. injection Es as -> Es. cbn in Es. injection Es as Es.
    destruct (moments_positive _ _ _ _ E) as [_ [M|M]]; [|lia].
    destruct (shapes_exec _ _ _ _ E) as [Sh _]. destruct (Sh p L) as [(C1 & C2 & _)|[(C1 & _ & _ & C4)|(t0 & C1 & C2 & _)]]; [congruence| |].
    + rewrite M in C4. inversion C4.
    + rewrite C2 in M. discriminate.
  - destruct (Nat.eq_dec p p0) as [-> |Np]; [|rewrite upd_ne in Ec by exact Np; rewrite upd_ne by exact Np; auto].
    rewrite upd_eq. rewrite upd_eq in Ec. destruct (shapes_exec _ _ _ _ E) as [Sh _]. destruct (Sh p0 L) as [(C1 & C2 & _)|[(C1 & _ & _ & C4)|(t0 & C1 & C2 & _)]].
    + congruence.
    + rewrite C1 in H2. injection H2 as _ X. rewrite <- X in Ec. discriminate Ec.
    + exfalso. assert (t0 = 0) as -> by congruence. exact (no_host_zero _ _ _ _ _ _ E C1).
Qed.
(** Theorem: a read made in the spiking or learning phase is never answered if the owner of the Var has already entered that phase, or
    in the first time step: read() does not return, and no process ever gets to a later phase, whatever the schedule *)
Theorem read_outside_management_blocks : forall b N tr s a r m c, well_built N -> exec b N tr s -> tr = a ++ LAsk r m :: c ->
  fst m = Spk \/ fst m = Lrn -> In (LCmd (owner N r) m) a \/ m = (Spk, 1) ->
  forall l, In l c -> (forall u x, l <> LRet r u x) /\ (forall u x, l <> LGet r u x) /\ (forall p u, l = LCmd p u -> ~ after m u) /\ (forall u, l <> LNext u).
Proof.
  intros b N tr s a r m c W E Et Hm Hc.
  destruct (exec_path b N (LAsk r m :: c) tr s E a Et) as (s0 & E0 & P). inversion P as [|s0' l0 s1 c0 s2 St P1]; subst.
  assert (deaf N r m s1) as D.
  { assert (exists k p, pst s0 p = Running (ReadRef r k) /\ cur s0 p = m /\ svc s1 = svc s0 /\ cmds s1 = cmds s0 /\ cur s1 = cur s0 /\ reply s1 = reply s0 /\ pst s1 = upd (pst s0) p (Waiting r k)) as (k & p & Q1 & Q2 & Q3 & Q4 & Q5 & Q6 & Q7).
    { inversion St; subst. eexists _, _. split; [eassumption|]. cbn. auto 8. }
    destruct (active N s0 p (shapes_exec _ _ _ _ E0) ltac:(congruence)) as (L & C1 & C2 & C3 & C4).
    pose proof (codes_exec _ _ _ _ W E0 p) as C. rewrite Q1 in C. destruct C as [C _]. destruct (C r (a_here1 r k)) as [U Lo].
    unfold deaf. rewrite Q3, Q4, Q5, Q6, Q7, U, upd_eq. split; [congruence|]. split; [eauto|]. split.
    { destruct (reads_exec _ _ _ _ W E0 r) as [_ B]. apply B. rewrite U, Q1. discriminate. }
    assert (svc s0 = m) as Sv by congruence. rewrite <- Sv in *.
    destruct Hc as [Hc|Hc]; [left; exact (in_the_phase _ _ _ _ _ E0 Lo Hc)|].
    destruct (shapes_exec _ _ _ _ E0) as [Sh _]. destruct (Sh _ Lo) as [(S1 & S2 & _)|[(S1 & S2 & S3 & S4)|(t0 & S1 & S2 & _)]].
    + left. auto.
    + right. split; [|exact S1]. rewrite (first_step _ _ _ _ E0 Hc _ Lo S1). reflexivity.
    + exfalso. assert (t0 = 0) as -> by congruence. exact (no_host_zero _ _ _ _ _ _ E0 S1). }
  intros l I. assert (harmless N r m l) as Hl.
  { apply (deaf_path b N r m s1 c s W) with (tr := a ++ [LAsk r m]); auto.
    - destruct Hm as [-> | ->]; reflexivity.
    - destruct Hm as [-> | ->]; discriminate.
    - econstructor; eauto. }
  split; [|split; [|split]].
  - intros u x ->. apply Hl. reflexivity.
  - intros u x ->. apply Hl. reflexivity.
  - intros p u ->. exact Hl.
  - intros u ->. exact Hl.
Qed.
