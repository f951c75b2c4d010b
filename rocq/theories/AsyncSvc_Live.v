(** Progress and termination of the histories of AsyncSvc_Spec. *)
From Coq Require Import ZArith List Bool Arith Lia.
From Verif Require Import AsyncSvc_Model AsyncSvc_Spec AsyncSvc_Proofs AsyncSvc_Inv.
Import ListNotations.
Open Scope Z_scope.

Fixpoint Sum (n : nat) (f : nat -> nat) : nat := match n with O => O | S m => (Sum m f + f m)%nat end.
Lemma Sum_ext n f g : (forall i, (i < n)%nat -> f i = g i) -> Sum n f = Sum n g.
Proof. induction n as [|n IH]; intros H; cbn; [reflexivity|]. rewrite IH, H; auto. Qed.
Lemma Sum_le n f g c : (forall i, (i < n)%nat -> (f i <= g i + c)%nat) -> (Sum n f <= Sum n g + c * n)%nat.
Proof.
  induction n as [|n IH]; intros H; cbn; [lia|].
  assert (Sum n f <= Sum n g + c * n)%nat by (apply IH; auto). specialize (H n ltac:(lia)). lia.
Qed.
Definition PR (N : nat) (ps : nat -> proc) : nat := Sum N (fun i => rk (ps i)).
Lemma PR_upd N ps i p : (i < N)%nat -> (PR N (upd ps i p) + rk (ps i) = PR N ps + rk p)%nat.
Proof.
  unfold PR. intros Hi. induction N as [|n IH]; [lia|]. cbn [Sum].
  destruct (Nat.eq_dec i n) as [->|Hne].
  - replace (rk (upd ps n p n)) with (rk p) by (unfold upd; now rewrite Nat.eqb_refl).
    rewrite (Sum_ext n _ (fun i => rk (ps i))); [lia|].
    intros j Hj. unfold upd. destruct (Nat.eqb_spec j n); [lia|reflexivity].
  - specialize (IH ltac:(lia)).
    replace (rk (upd ps i p n)) with (rk (ps n)); [lia|].
    unfold upd. destruct (Nat.eqb_spec n i); [lia|reflexivity].
Qed.
Lemma PR_same N ps i p : rk p = rk (ps i) -> PR N (upd ps i p) = PR N ps.
Proof.
  intros E. apply Sum_ext. intros j _. unfold upd. destruct (Nat.eqb_spec j i) as [->|]; auto.
Qed.
Lemma PR_upd_le N ps i p c : (rk p <= rk (ps i) + c)%nat -> (PR N (upd ps i p) <= PR N ps + c)%nat.
Proof.
  intros H. destruct (lt_dec i N) as [Hi|Hi].
  - pose proof (PR_upd N ps i p Hi). lia.
  - unfold PR. rewrite (Sum_ext N _ (fun i => rk (ps i))); [lia|].
    intros j Hj. unfold upd. destruct (Nat.eqb_spec j i); [lia|reflexivity].
Qed.
Lemma rk_push p c : rk (push p c) = (rk p + 2 * length c)%nat.
Proof. unfold rk, push. cbn. rewrite app_length. lia. Qed.
Lemma PR_send N ps c : (PR N (send_all ps c) <= PR N ps + (2 * length c) * N)%nat.
Proof. apply Sum_le. intros i _. unfold send_all. rewrite rk_push. lia. Qed.

Definition crp (x : rpc) : nat :=
  match x with RReady => 1 | RRun => 30 | RPause | RStop => 15 | RPause2 _ | RStop2 _ => 14
  | RGetN => 14 | RGet k _ => 10 + k | RRaised => 0 end.
Definition ckd (k : kind) : nat := match k with KResp => 6 | _ => 3 end.
Definition csv (v : svc) : nat :=
  let r := if running v then 8%nat else 0%nat in
  match spos v with
  | SSelect => r | SRecv k _ _ | SRecv2 k _ _ => ckd k
  | SGetId => r + 9 | SGetVar _ => r + 8 | SRelayN _ => r + 7 | SRelay _ k => r + 2 * k
  | SDead | SFailed => 0 end.
Definition jpos (N : nat) (x : spc) : nat :=
  match x with SRecv _ j _ => 2 * (N - j) + 1 | SRecv2 _ j _ => 2 * (N - j) | _ => 0 end.
Definition mu (N : nat) (s : sys) : nat :=
  ((6 * N + 6) * (60 * length (script s) + crp (rpos s) + 10 * length (r2s s) + length (s2r s) + csv (sv s))
   + jpos N (spos (sv s)) + PR N (procs s))%nat.

(** What the decrease needs to know of a state. *)
Definition tame (N : nat) (s : sys) : Prop :=
  match spos (sv s) with
  | SRelayN m => match outq (procs s m) with k :: _ => (Z.to_nat k <= 1)%nat | [] => True end
  | SRelay _ k => k = 1%nat
  | SRecv2 _ j _ => (j < N)%nat
  | _ => True
  end /\
  match rpos s with
  | RGetN => match s2r s with k :: _ => (Z.to_nat k <= 1)%nat | [] => True end
  | RGet k _ => k = 1%nat
  | _ => True
  end.

Ltac mucbn := unfold mu; cbn [script rpos r2s s2r sv procs results is_started is_running set_rt set_sv raise got
   crp csv at_ at_run spos running length jpos].

Lemma mulM (N a b : nat) x y : (a < b)%nat -> (x <= y + 6 * N + 5)%nat ->
  ((6 * N + 6) * a + x < (6 * N + 6) * b + y)%nat.
Proof.
  intros H1 H2. assert ((6 * N + 6) * (a + 1) <= (6 * N + 6) * b)%nat by (apply Nat.mul_le_mono_l; lia). lia.
Qed.

Lemma mu_rt N s s' : tame N s -> rstep s = Some s' -> (mu N s' < mu N s)%nat.
Proof.
  destruct s as [sc rp st rn res r t v ps]. unfold tame, rstep. cbn [script rpos is_started is_running results r2s s2r sv procs].
  intros [_ T] H.
  repeat match type of H with
  | context [match ?x with _ => _ end] => destruct x eqn:?; try discriminate H
  end; injection H as <-; unfold got in *;
  repeat match goal with |- context [match ?x with _ => _ end] => destruct x eqn:? end;
  mucbn; repeat rewrite app_length; cbn [length];
  rewrite <- !Nat.add_assoc; apply mulM; try lia;
  try (destruct t; match goal with E : (_, _) = (_, _) |- _ => injection E; intros; subst end;
       cbn [length] in *; lia).
Qed.

Lemma mu_sv N b s s' : tame N s -> sstep N b s = Some s' -> (mu N s' < mu N s)%nat.
Proof.
  destruct s as [sc rp st rn res r t v ps]. unfold tame, sstep.
  cbn [script rpos is_started is_running results r2s s2r sv procs].
  intros [T _] H. destruct v as [sp run fs fp er]. cbn [spos running] in *.
  assert (Hpop : forall j, PR N (upd ps j (pop (ps j))) = PR N ps) by (intros j; now apply PR_same).
  destruct sp as [|k j acc|k j acc| |m|m|m k| |].
  - destruct b.
    + destruct (run && any_ready ps N) eqn:E; [|discriminate H]. injection H as <-.
      apply andb_prop in E. destruct E as [-> _].
      mucbn. rewrite <- !Nat.add_assoc. apply mulM; cbn [ckd]; lia.
    + destruct r as [|c q]; [discriminate H|].
      destruct (c =? STOP).
      { injection H as <-. pose proof (PR_send N ps [STOP]). mucbn. rewrite <- !Nat.add_assoc.
        cbn [length] in *. destruct run; apply mulM; cbn [ckd]; lia. }
      destruct (c =? PAUSE).
      { injection H as <-. pose proof (PR_send N ps [PAUSE]). mucbn. rewrite <- !Nat.add_assoc.
        cbn [length] in *. destruct run; apply mulM; cbn [ckd]; lia. }
      destruct ((c =? GETD) || (c =? SETD)).
      { destruct run; injection H as <-; mucbn; rewrite <- !Nat.add_assoc; apply mulM; lia. }
      injection H as <-. pose proof (PR_send N ps [RUN; c]). mucbn. rewrite <- !Nat.add_assoc.
      cbn [length] in *. destruct run; apply mulM; lia.
  - destruct (Nat.ltb_spec j N) as [Hlt|Hge].
    + destruct (outq (ps j)) as [|m l] eqn:Eo; [discriminate H|]. injection H as <-.
      destruct (match k with KResp => false | _ => m =? DONE end); mucbn; rewrite Hpop; lia.
    + injection H as <-. unfold finish.
      destruct k; cbn [sv freq_stop freq_pause ferr].
      * mucbn. rewrite !app_length. rewrite <- !Nat.add_assoc.
        apply mulM; [|lia]. cbn [ckd].
        destruct (all_are DONE acc), (fs || has REQ_STOP acc), (fp || has REQ_PAUSE acc), (er || has ERROR acc);
          cbn [length]; lia.
      * destruct (all_are PAUSED acc); mucbn; rewrite app_length; cbn [length ckd];
          rewrite <- !Nat.add_assoc; apply mulM; lia.
      * destruct (all_are TERMINATED acc); mucbn; rewrite app_length; cbn [length ckd];
          rewrite <- !Nat.add_assoc; apply mulM; lia.
  - destruct (outq (ps j)) as [|m l] eqn:Eo; [discriminate H|]. injection H as <-.
    mucbn. rewrite Hpop. lia.
  - destruct r as [|m q]; [discriminate H|]. injection H as <-.
    mucbn. rewrite <- !Nat.add_assoc. destruct run; apply mulM; lia.
  - destruct r as [|x q]; [discriminate H|]. injection H as <-.
    assert (Hp : (PR N (upd ps m (push (ps m) [GETD; x])) <= PR N ps + 4)%nat)
      by (apply PR_upd_le; rewrite rk_push; cbn [length]; lia).
    mucbn. rewrite <- !Nat.add_assoc. destruct run; apply mulM; lia.
  - destruct (outq (ps m)) as [|k l] eqn:Eo; [discriminate H|]. injection H as <-.
    destruct (Z.to_nat k) as [|[|k']] eqn:Ek; [| |lia]; cbn [relay]; mucbn; rewrite Hpop, app_length;
      cbn [length]; destruct run; rewrite <- !Nat.add_assoc; apply mulM; lia.
  - destruct (outq (ps m)) as [|x l] eqn:Eo; [discriminate H|]. injection H as <-. rewrite T in *.
    cbn [relay pred]. mucbn. rewrite Hpop, app_length. cbn [length]. destruct run; rewrite <- !Nat.add_assoc;
      apply mulM; lia.
  - discriminate H.
  - discriminate H.
Qed.

Lemma mu_proc N beh value s i p' : (i < N)%nat -> pstep (beh i) (value i) (procs s i) = Some p' ->
  (mu N (set_sv s (r2s s) (s2r s) (sv s) (upd (procs s) i p')) < mu N s)%nat.
Proof.
  intros Hi Hp. pose proof (PR_upd N (procs s) i p' Hi) as E. apply pstep_rk in Hp.
  unfold mu. cbn [script rpos r2s s2r sv procs set_sv]. lia.
Qed.

Section Live.
Variable N : nat.
Variable beh : nat -> nat -> Z -> behave.
Variable value : nat -> list Z -> Z.
Variable segs : list seg.
Variable e : ending.
Hypothesis SV : served N beh segs e.
Notation inv := (inv N beh value segs e).
Notation step := (step N beh value).
Notation agree := (agree N beh value).

Lemma inv_tame s : inv s -> tame N s.
Proof using SV.
  intros I. destruct I as
    [done rest ps E A|K ps Hk A|K ps Hk A|K j ps Hk Hj A|K ps Hk A
    |H ps Ho Hc A|H ps Ho Hc A|H ps Ho Hc A|H ps Ho Hc A|H ps Ho Hc A
    |H j ps Ho Hj A|H j ps Ho Hc Hj A|H ps Ho A|n ps E A
    |done rest m ps E A|done rest m ps E A|done rest m ps E A|done rest m ps E A
    |done rest m rp t ps E G A|done rest m rp t ps E G A|fs fp ps Ne A];
  unfold tame; cbn [mk V spos sv rpos s2r procs].
  all: try (destruct K as [[| |] ? ? ?|?]; cbn; auto; fail).
  all: try (destruct H; cbn; auto; fail).
  all: try (cbn; auto; fail).
  - destruct (next_ok _ _ _ _ SV _ _ _ E) as [_ Hm]. split; [|exact I].
    destruct (outq (ps m)) as [|k l] eqn:Eo; [exact I|].
    destruct (agree_head _ _ _ _ _ m _ _ A Hm Eo) as [l' El]. cbn [Pst outq] in El.
    rewrite Nat.eqb_refl in El. injection El as <- _. cbn. lia.
  - inversion G; cbn; auto.
  - inversion G; cbn; auto.
  - destruct (terminated e); cbn; auto.
Qed.

Lemma inv_mu s s' : inv s -> step s s' -> (mu N s' < mu N s)%nat.
Proof using SV.
  intros I St. destruct St as [s' St|b s' St|i p' Hi Hp].
  - eapply mu_rt; eauto using inv_tame.
  - eapply mu_sv; eauto using inv_tame.
  - eapply mu_proc; eauto.
Qed.

Lemma reach_bound n s : reach N beh value (history segs e) n s ->
  (n + mu N s <= mu N (init (history segs e)))%nat.
Proof using SV.
  induction 1 as [|n s s' R IH St]; [lia|].
  pose proof (inv_mu s s' (inv_reach _ _ _ _ _ SV _ _ R) St). lia.
Qed.

Lemma by_rt s s' : rstep s = Some s' -> exists s', step s s'.
Proof. intros H. exists s'. now apply St_rt. Qed.
Lemma by_sv s b s' : sstep N b s = Some s' -> exists s', step s s'.
Proof. intros H. exists s'. eapply St_sv; eauto. Qed.
Lemma by_proc s i p' : (i < N)%nat -> pstep (beh i) (value i) (procs s i) = Some p' -> exists s', step s s'.
Proof. intros Hi H. eexists. eapply St_proc; eauto. Qed.

(** between two calls after [done] the processes are at rest *)
Lemma idle_settled ps L i : agree ps (idle L) -> (i < N)%nat -> ps i = Pst L PIdle [].
Proof. intros A Hi. apply (agree_quiet _ _ _ _ _ i A Hi); cbn; auto. Qed.

Lemma inv_progress s : inv s ->
  (exists s', step s s') \/ (completed value segs e s /\ settled N segs e s).
Proof using SV.
  pose proof (N_pos _ _ _ _ SV) as HN.
  intros I. destruct I as
    [done rest ps E A|K ps Hk A|K ps Hk A|K j ps Hk Hj A|K ps Hk A
    |H ps Ho Hc A|H ps Ho Hc A|H ps Ho Hc A|H ps Ho Hc A|H ps Ho Hc A
    |H j ps Ho Hj A|H j ps Ho Hc Hj A|H ps Ho A|n ps E A
    |done rest m ps E A|done rest m ps E A|done rest m ps E A|done rest m ps E A
    |done rest m rp t ps E G A|done rest m rp t ps E G A|fs fp ps Ne A].
  - destruct rest as [|g rest].
    + rewrite app_nil_r in E. subst done. destruct e eqn:Ee.
      * right. split.
        -- unfold completed. cbn. rewrite app_nil_r. repeat apply conj; auto. discriminate.
        -- unfold settled. cbn. repeat apply conj; auto. intros i Hi. rewrite (idle_settled ps (runs_of segs) i A Hi).
           now rewrite app_nil_r.
      * left. unfold history. cbn. destruct (started (runs_of segs)) eqn:Es; eapply by_rt; cbn; rewrite ?Es; reflexivity.
      * left. eapply by_rt. reflexivity.
      * left. eapply by_rt. reflexivity.
      * left. eapply by_rt. reflexivity.
      * left. eapply by_rt. reflexivity.
    + left. rewrite history_cons. destruct g; cbn [seg_ops app]; try (eapply by_rt; reflexivity).
      destruct (started (runs_of done)) eqn:Es; eapply by_rt; cbn; rewrite ?Es; reflexivity.
  - left. eapply (by_sv _ false). cbn.
    destruct (k_free _ _ _ _ SV K Hk) as [Hn _]. destruct (codes _ Hn) as (E1 & E2 & E3 & E4).
    rewrite E1, E2, E3, E4. reflexivity.
  - left. destruct (agree_ready _ _ _ _ _ 0 A HN) as [Hr|[p' Hp]]; [cbn; discriminate| |].
    + eapply (by_sv _ true). cbn. rewrite (any_ready_at ps 0 N HN Hr). reflexivity.
    + eapply (by_proc _ 0); [exact HN|exact Hp].
  - left. destruct (Nat.ltb_spec j N) as [Hlt|Hge].
    + destruct (agree_ready _ _ _ _ _ j A Hlt) as [Hr|[p' Hp]].
      * cbn [Pst outq]. rewrite Nat.ltb_irrefl. discriminate.
      * destruct (outq (ps j)) as [|m l] eqn:Eo; [congruence|].
        eapply (by_sv _ false). cbn [sstep mk V sv spos procs]. apply Nat.ltb_lt in Hlt. rewrite Hlt, Eo. reflexivity.
      * eapply (by_proc _ j); [exact Hlt|exact Hp].
    + eapply (by_sv _ false). cbn [sstep mk V sv spos procs]. apply Nat.ltb_ge in Hge. rewrite Hge. reflexivity.
  - left. destruct K as [[| |] d r n|n]; try (eapply by_rt; reflexivity).
    unfold kt, kfs, kfp. destruct Hk as [Ee|[Ee|Ee]]; rewrite Ee; eapply by_rt; reflexivity.
  - left. destruct H; try discriminate Hc; eapply by_rt; reflexivity.
  - left. destruct H; try discriminate Hc; eapply by_rt; reflexivity.
  - left. eapply (by_sv _ false). cbn.
    destruct (h_cont _ _ _ _ SV H Ho Hc) as [Hn _]. destruct (codes _ Hn) as (E1 & E2 & E3 & E4).
    rewrite E1, E2, E3, E4. reflexivity.
  - left. destruct H; try discriminate Hc; eapply (by_sv _ false); reflexivity.
  - left. destruct H; try discriminate Hc; eapply (by_sv _ false); reflexivity.
  - left. destruct (Nat.ltb_spec j N) as [Hlt|Hge].
    + destruct (agree_ready _ _ _ _ _ j A Hlt) as [Hr|[p' Hp]].
      * cbn [Pst outq]. rewrite Nat.ltb_irrefl. unfold hpre. destruct (hcont H); discriminate.
      * destruct (outq (ps j)) as [|m l] eqn:Eo; [congruence|].
        eapply (by_sv _ false). cbn [sstep mk V sv spos procs]. apply Nat.ltb_lt in Hlt. rewrite Hlt, Eo. reflexivity.
      * eapply (by_proc _ j); [exact Hlt|exact Hp].
    + eapply (by_sv _ false). cbn [sstep mk V sv spos procs]. apply Nat.ltb_ge in Hge. rewrite Hge. reflexivity.
  - left. destruct (agree_ready _ _ _ _ _ j A Hj) as [Hr|[p' Hp]].
    + cbn [Pst outq]. rewrite Nat.ltb_irrefl, Nat.eqb_refl. discriminate.
    + destruct (outq (ps j)) as [|m l] eqn:Eo; [congruence|].
      eapply (by_sv _ false). cbn [sstep mk V sv spos procs]. rewrite Eo. reflexivity.
    + eapply (by_proc _ j); [exact Hj|exact Hp].
  - left. destruct H; eapply by_rt; reflexivity.
  - left. eapply by_rt. reflexivity.
  - left. eapply (by_sv _ false). reflexivity.
  - left. eapply (by_sv _ false). reflexivity.
  - left. eapply (by_sv _ false). reflexivity.
  - left. destruct (next_ok _ _ _ _ SV _ _ _ E) as [_ Hm].
    destruct (agree_ready _ _ _ _ _ m A Hm) as [Hr|[p' Hp]].
    + cbn [Pst outq]. rewrite Nat.eqb_refl. discriminate.
    + destruct (outq (ps m)) as [|k l] eqn:Eo; [congruence|].
      eapply (by_sv _ false). cbn [sstep mk V sv spos procs]. rewrite Eo. reflexivity.
    + eapply (by_proc _ m); [exact Hm|exact Hp].
  - left. destruct (next_ok _ _ _ _ SV _ _ _ E) as [_ Hm].
    destruct (agree_ready _ _ _ _ _ m A Hm) as [Hr|[p' Hp]].
    + cbn [Pst outq]. rewrite Nat.eqb_refl. discriminate.
    + destruct (outq (ps m)) as [|k l] eqn:Eo; [congruence|].
      eapply (by_sv _ false). cbn [sstep mk V sv spos procs]. rewrite Eo. reflexivity.
    + eapply (by_proc _ m); [exact Hm|exact Hp].
  - left. inversion G; eapply by_rt; reflexivity.
  - right. split.
    + unfold completed. cbn. repeat apply conj; auto. intros ->. reflexivity.
    + unfold settled. cbn. repeat apply conj; auto. intros i Hi.
      apply (agree_quiet _ _ _ _ _ i A Hi); cbn; auto. destruct (terminated e); auto.
Qed.

(** *** Between two calls *)
Lemma results_len_lt a g b : (length (results_of value a) < length (results_of value (a ++ g :: b)))%nat.
Proof.
  unfold results_of. rewrite results_from_app. cbn. rewrite !app_length.
  assert (0 < length (seg_results value (runs_of a) g))%nat by (destruct g; cbn; lia). lia.
Qed.
Lemma done_unique d r d' r' : d ++ r = d' ++ r' ->
  length (results_of value d) = length (results_of value d') -> d = d'.
Proof.
  intros E L. assert (K : forall (d r d' r' : list seg), (length d <= length d')%nat -> d ++ r = d' ++ r' ->
    exists x, d' = d ++ x).
  { clear. intros d. induction d as [|a d IH]; intros r [|a' d'] r' H E; cbn in *; try (exists d'; auto; fail); try lia.
    - exists []. auto.
    - exists (a' :: d'). auto.
    - injection E as -> E. destruct (IH r d' r' ltac:(lia) E) as [x ->]. exists x. auto. }
  destruct (le_lt_dec (length d) (length d')) as [H|H].
  - destruct (K _ _ _ _ H E) as [[|g x] ->]; [now rewrite app_nil_r|].
    pose proof (results_len_lt d g x). lia.
  - destruct (K d' r' d r ltac:(lia) (eq_sym E)) as [[|g x] ->]; [now rewrite app_nil_r|].
    pose proof (results_len_lt d' g x). lia.
Qed.
Lemma done_not_half d g r d' r' : d ++ g :: r = d' ++ r' -> length (seg_results value (runs_of d) g) = 2%nat ->
  length (results_of value d') <> S (length (results_of value d)).
Proof.
  intros E L C.
  destruct (le_lt_dec (length d') (length d)) as [H|H].
  - assert (exists x, d = d' ++ x) as [[|y x] ->].
    { exists (skipn (length d') d). rewrite <- (firstn_skipn (length d') d) at 1. f_equal.
      assert (firstn (length d') (d ++ g :: r) = firstn (length d') (d' ++ r')) by now rewrite E.
      rewrite !firstn_app, Nat.sub_diag in H0. replace (length d' - length d)%nat with 0%nat in H0 by lia.
      cbn in H0. rewrite !app_nil_r, firstn_all in H0. exact H0. }
    + rewrite app_nil_r in C. lia.
    + pose proof (results_len_lt d' y x). lia.
  - assert (exists x, d' = d ++ g :: x) as [x ->].
    { exists (skipn (S (length d)) d').
      assert (F : firstn (S (length d)) (d ++ g :: r) = firstn (S (length d)) (d' ++ r')) by now rewrite E.
      rewrite !firstn_app in F. replace (S (length d) - length d')%nat with 0%nat in F by lia.
      replace (S (length d) - length d)%nat with 1%nat in F by lia.
      rewrite (firstn_all2 d) in F by lia.
      change (firstn 1 (g :: r)) with [g] in F. change (firstn 0 r') with (@nil seg) in F.
      rewrite app_nil_r in F.
      rewrite <- (firstn_skipn (S (length d)) d') at 1. rewrite <- F, <- app_assoc. reflexivity. }
    unfold results_of in C. rewrite results_from_app in C. cbn [results_from app] in C.
    rewrite !app_length in C. rewrite L in C. lia.
Qed.

Lemma inv_between done rest s : inv s -> rpos s = RReady -> segs = done ++ rest ->
  results s = results_of value done -> rest <> [] ->
  r2s s = [] /\ s2r s = [] /\
  forall i, (i < N)%nat -> procs s i = {| inq := []; outq := []; ppos := PIdle; log := runs_of done |}.
Proof using SV.
  intros I. destruct I as
    [d r ps E A|K ps Hk A|K ps Hk A|K j ps Hk Hj A|K ps Hk A
    |H ps Ho Hc A|H ps Ho Hc A|H ps Ho Hc A|H ps Ho Hc A|H ps Ho Hc A
    |H j ps Ho Hj A|H j ps Ho Hc Hj A|H ps Ho A|n ps E A
    |d r m ps E A|d r m ps E A|d r m ps E A|d r m ps E A
    |d r m rp t ps E G A|d r m rp t ps E G A|fs fp ps Ne A];
  cbn [mk rpos results r2s s2r procs]; intros Er Es Rs Hne.
  - assert (d = done).
    { eapply (done_unique d r done rest); [congruence|now rewrite Rs]. }
    subst d. repeat apply conj; auto. intros i Hi. now apply idle_settled.
  - exfalso. destruct K as [[| |] d r n|n]; try discriminate Er. cbn in Hk, Rs.
    eapply (done_not_half d _ r done rest); [rewrite <- Hk; exact Es|reflexivity|].
    rewrite <- Rs, app_length. cbn. lia.
  - exfalso. destruct K as [[| |] d r n|n]; try discriminate Er. cbn in Hk, Rs.
    eapply (done_not_half d _ r done rest); [rewrite <- Hk; exact Es|reflexivity|].
    rewrite <- Rs, app_length. cbn. lia.
  - exfalso. destruct K as [[| |] d r n|n]; try discriminate Er. cbn in Hk, Rs.
    eapply (done_not_half d _ r done rest); [rewrite <- Hk; exact Es|reflexivity|].
    rewrite <- Rs, app_length. cbn. lia.
  - exfalso. destruct K as [[| |] d r n|n]; try discriminate Er. cbn in Hk, Rs.
    eapply (done_not_half d _ r done rest); [rewrite <- Hk; exact Es|reflexivity|].
    rewrite <- Rs, app_length. cbn. lia.
  - exfalso. destruct H as [d r n|n| | | |]; try discriminate Hc; cbn in Ho, Rs.
    + eapply (done_not_half d _ r done rest); [rewrite <- Ho; exact Es|reflexivity|].
      rewrite <- Rs, app_length. cbn. lia.
    + destruct rest as [|g rest]; [congruence|]. pose proof (results_len_lt done g rest) as L.
      rewrite <- Es in L. rewrite <- Rs, app_length in L. lia.
  - exfalso. destruct H as [d r n|n| | | |]; try discriminate Hc; cbn in Ho, Rs.
    + eapply (done_not_half d _ r done rest); [rewrite <- Ho; exact Es|reflexivity|].
      rewrite <- Rs, app_length. cbn. lia.
    + destruct rest as [|g rest]; [congruence|]. pose proof (results_len_lt done g rest) as L.
      rewrite <- Es in L. rewrite <- Rs, app_length in L. lia.
  - destruct H; discriminate Er.
  - destruct H; discriminate Er.
  - destruct H; discriminate Er.
  - destruct H; discriminate Er.
  - destruct H; discriminate Er.
  - destruct H; discriminate Er.
  - exfalso. destruct rest as [|g rest]; [congruence|]. pose proof (results_len_lt done g rest) as L.
    rewrite <- Es in L. rewrite <- Rs, app_length in L. lia.
  - discriminate Er.
  - discriminate Er.
  - discriminate Er.
  - discriminate Er.
  - rewrite Er in G. inversion G.
  - rewrite Er in G. inversion G.
  - exfalso. destruct rest as [|g rest]; [congruence|]. pose proof (results_len_lt done g rest) as L.
    rewrite <- Es in L. rewrite <- Rs, app_length in L. lia.
Qed.
End Live.
