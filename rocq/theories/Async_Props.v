(** C15: models converted to async. *)
From Coq Require Import Arith List Lia.
From Verif Require Import Async_Model.
Import ListNotations.

Fixpoint iter {A} (n : nat) (f : A -> A) (x : A) : A := match n with 0 => x | S n => f (iter n f x) end.

Lemma iter_in {A} n (f : A -> A) x : iter n f (f x) = f (iter n f x).
Proof. induction n; simpl; congruence. Qed.

Lemma ts_body U s : ts (async_body U s) = ts s + 1. Proof. reflexivity. Qed.
Lemma ts_iter U k s : ts (iter k (async_body U) s) = ts s + k.
Proof. induction k; simpl; rewrite ?ts_body; try rewrite IHk; lia. Qed.

(** Exact behaviour of one run from any time step. *)
Lemma run_up U n k : forall s, ts s + k = n + 1 -> async_run U n s k (iter k (async_body U) s).
Proof.
  induction k; intros s H; simpl.
  - constructor. lia.
  - rewrite <- iter_in. apply AR_more; [lia|]. apply IHk. rewrite ts_body. lia.
Qed.
Lemma run_det U n s k s' k2 s2 : async_run U n s k s' -> async_run U n s k2 s2 -> k = k2 /\ s' = s2.
Proof.
  intros H. revert k2 s2. induction H; intros k2 s2 H2; inversion H2; subst; auto; try contradiction.
  match goal with X : async_run _ _ (async_body _ _) _ _ |- _ =>
    destruct (IHasync_run _ _ X) as [-> ->]; auto end.
Qed.
Lemma run_end_ts U n s k s' : async_run U n s k s' -> ts s' = n + 1 /\ ts s' = ts s + k.
Proof. induction 1; [lia|]. destruct IHasync_run as [A B]. rewrite ts_body in B. lia. Qed.

(** The first run(RunSteps(n)) executes exactly n steps, and no other outcome is possible. *)
Theorem async_first_run_partial U u n :
  async_run U n (async_init U u) n (iter n (async_body U) (async_init U u)) /\
  (forall k s', async_run U n (async_init U u) k s' -> k = n /\ s' = iter n (async_body U) (async_init U u)).
Proof.
  assert (H : async_run U n (async_init U u) n (iter n (async_body U) (async_init U u))) by (apply run_up; simpl; lia).
  split; auto. intros k s' H'. destruct (run_det _ _ _ _ _ _ _ H H'). auto.
Qed.

(** ... and computes the same states as the original model, if that uses neither learning nor
    pre-management. *)
Theorem async_first_run_equiv_partial U u n :
  (forall t v, lrn_guard U t v = false) -> (forall t v, pre_guard U t v = false) ->
  us (iter n (async_body U) (async_init U u)) = us (iter n (loihi_step U) (loihi_init U u)).
Proof.
  intros HL HP.
  assert (G : forall n, ts (iter n (async_body U) (async_init U u)) = ts (iter n (loihi_step U) (loihi_init U u)) + 1 /\
            us (iter n (async_body U) (async_init U u)) = us (iter n (loihi_step U) (loihi_init U u))).
  { clear n. induction n as [|n [T E]]; simpl; auto.
    remember (iter n (async_body U) (async_init U u)) as a. remember (iter n (loihi_step U) (loihi_init U u)) as b.
    split.
    - simpl. rewrite T. auto.
    - unfold async_body, loihi_step. simpl. rewrite T, E, HL, HP. simpl.
      destruct (post_guard U _ _); auto. }
  apply G.
Qed.

(** After a run of n steps: run(m) with m >= n executes m - n steps. *)
Theorem async_second_run_exact U u n s m :
  async_run U n (async_init U u) n s -> n <= m ->
  forall k s', async_run U m s k s' <-> k = m - n /\ s' = iter (m - n) (async_body U) s.
Proof.
  intros H L k s'. destruct (run_end_ts _ _ _ _ _ H) as [T _].
  assert (R : async_run U m s (m - n) (iter (m - n) (async_body U) s)) by (apply run_up; lia).
  split.
  - intros H'. destruct (run_det _ _ _ _ _ _ _ R H'). auto.
  - intros [-> ->]. auto.
Qed.

(** Finding: the same run(RunSteps(n)) issued a second time executes no step at all, for every model
    and every n > 0 ... *)
Theorem async_second_run_refuted U u n s :
  0 < n -> async_run U n (async_init U u) n s -> forall k s', async_run U n s k s' -> k = 0 /\ k <> n.
Proof.
  intros P H k s' H'. apply (async_second_run_exact U u n s n H (le_n n)) in H' as [E _]. lia.
Qed.

(** ... and a shorter second run never ends. *)
Theorem async_shorter_run_hangs_refuted U u n m s :
  m < n -> async_run U n (async_init U u) n s -> ~ exists k s', async_run U m s k s'.
Proof.
  intros L H (k & s' & H'). destruct (run_end_ts _ _ _ _ _ H) as [T _].
  destruct (run_end_ts _ _ _ _ _ H') as [T1 T2]. lia.
Qed.

(** Finding: a model with learning and pre-management behaves differently from the first step on
    (no learning phase; pre-management before the spiking phase). *)
Definition umod_learning : umodel := {|
  ust := list nat; run_spk t l := l ++ [1]; run_pre t l := l ++ [2]; run_lrn t l := l ++ [3];
  run_post t l := l ++ [4]; pre_guard t l := true; lrn_guard t l := true; post_guard t l := true |}.
Theorem async_not_equiv_refuted :
  us (async_body umod_learning (async_init umod_learning [])) = [2; 1; 4] /\
  us (loihi_step umod_learning (loihi_init umod_learning [])) = [1; 2; 3; 4].
Proof. split; reflexivity. Qed.

(** Witnesses: a counter model with a post phase every second step. *)
Definition umod_count : umodel := {|
  ust := nat; run_spk t l := l + t; run_pre t l := l; run_lrn t l := l; run_post t l := 2 * l;
  pre_guard t l := false; lrn_guard t l := false; post_guard t l := Nat.even t |}.
Example async_witness : exists s, async_run umod_count 3 (async_init umod_count 0) 3 s /\ us s = 9 /\
   us (iter 3 (loihi_step umod_count) (loihi_init umod_count 0)) = 9.
Proof.
  exists (iter 3 (async_body umod_count) (async_init umod_count 0)). split; [|split; reflexivity].
  apply async_first_run_partial.
Qed.
