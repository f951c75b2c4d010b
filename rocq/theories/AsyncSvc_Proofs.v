(** Processes in normal form, and the effect of the service's sends and receives on it. *)
From Coq Require Import ZArith List Bool Arith Lia.
From Verif Require Import AsyncSvc_Model AsyncSvc_Spec.
Import ListNotations.
Open Scope Z_scope.

Definition isrun (x : ppc) : nat := match x with PRun _ => 1%nat | _ => 0%nat end.
Definition rk (p : proc) : nat := (2 * length (inq p) + isrun (ppos p))%nat.

Section Proc.
Variable b : nat -> Z -> behave.
Variable v : list Z -> Z.
Notation pst := (pstep b v).

Ltac pcases H :=
  unfold pstep in H;
  repeat match type of H with
  | context [match ?x with _ => _ end] => destruct x eqn:?; try discriminate H
  end; injection H as <-.

Lemma pstep_rk p p' : pst p = Some p' -> (rk p' < rk p)%nat.
Proof.
  intros H. pcases H; unfold rk; cbn; repeat match goal with E : inq p = _ |- _ => rewrite E end;
    repeat match goal with E : ppos p = _ |- _ => rewrite E end; cbn; lia.
Qed.

Fixpoint iter (f : nat) (p : proc) : proc :=
  match f with O => p | S f => match pst p with Some p' => iter f p' | None => p end end.
Definition nf (p : proc) : proc := iter (rk p) p.

Lemma iter_enough f g p : (rk p <= f)%nat -> (rk p <= g)%nat -> iter f p = iter g p.
Proof.
  revert g p. induction f as [|f IH]; intros g p Hf Hg.
  - destruct g; [reflexivity|]. cbn. destruct (pst p) as [p'|] eqn:E; [|reflexivity].
    pose proof (pstep_rk _ _ E). lia.
  - destruct g as [|g]; cbn; (destruct (pst p) as [p'|] eqn:E; [|reflexivity]);
      pose proof (pstep_rk _ _ E).
    + lia.
    + apply IH; lia.
Qed.

Lemma nf_step p p' : pst p = Some p' -> nf p = nf p'.
Proof.
  intros H. pose proof (pstep_rk _ _ H) as Hr. unfold nf.
  destruct (rk p) as [|k] eqn:E; [exfalso; clear - Hr; lia|].
  change (iter (S k) p) with (match pst p with Some p' => iter k p' | None => p end).
  rewrite H. apply iter_enough; clear - Hr; lia.
Qed.

Lemma nf_stuck p : pst p = None -> nf p = p.
Proof. intros H. unfold nf. destruct (rk p); cbn; [|rewrite H]; reflexivity. Qed.

(** induction along the run of a process *)
Lemma nf_ind (P : proc -> Prop) :
  (forall p, pst p = None -> P p) ->
  (forall p p', pst p = Some p' -> P p' -> P p) -> forall p, P p.
Proof.
  intros H0 H1 p. remember (rk p) as k. revert p Heqk.
  induction k as [k IH] using lt_wf_ind. intros p ->.
  destruct (pst p) as [p'|] eqn:E; [|auto].
  apply (H1 _ _ E). apply (IH (rk p')); auto. apply pstep_rk; auto.
Qed.

Lemma may_return_app w q c : may_return w q = true -> may_return w (q ++ c) = true.
Proof. destruct w, q; cbn; auto; discriminate. Qed.

Lemma pstep_push p p' c : pst p = Some p' -> pst (push p c) = Some (push p' c).
Proof.
  intros H. pcases H; unfold pstep, push; cbn;
    repeat match goal with E : inq p = _ |- _ => rewrite E in * end;
    repeat match goal with E : ppos p = _ |- _ => rewrite E end; cbn; try reflexivity;
    repeat match goal with E : (_ =? _) = _ |- _ => rewrite E end; try reflexivity;
    match goal with E : may_return _ _ = true |- _ => apply may_return_app with (c := c) in E;
       cbn in E; rewrite ?E; reflexivity end.
Qed.

Lemma nf_push p c : nf (push p c) = nf (push (nf p) c).
Proof.
  induction p as [p H|p p' H IH] using nf_ind.
  - rewrite (nf_stuck _ H). reflexivity.
  - rewrite (nf_step _ _ H), <- IH. apply nf_step. now apply pstep_push.
Qed.

Lemma pstep_out p p' : pst p = Some p' -> exists l, outq p' = outq p ++ l.
Proof. intros H. pcases H; cbn; eauto; exists []; now rewrite app_nil_r. Qed.

Lemma nf_out p : exists l, outq (nf p) = outq p ++ l.
Proof.
  induction p as [p H|p p' H [l IH]] using nf_ind.
  - rewrite (nf_stuck _ H). exists []. now rewrite app_nil_r.
  - destruct (pstep_out _ _ H) as [l' E]. rewrite (nf_step _ _ H), IH, E, <- app_assoc. eauto.
Qed.

Lemma pstep_pop p p' : pst p = Some p' -> outq p <> [] -> pst (pop p) = Some (pop p').
Proof.
  intros H Hn. destruct (outq p) as [|a l] eqn:Eo; [congruence|].
  pcases H; unfold pstep, pop; cbn; rewrite ?Eo;
    repeat match goal with E : inq p = _ |- _ => rewrite E in * end;
    repeat match goal with E : ppos p = _ |- _ => rewrite E end; cbn; try reflexivity;
    repeat match goal with E : (_ =? _) = _ |- _ => rewrite E end; try reflexivity;
    match goal with E : may_return _ _ = true |- _ => rewrite E; reflexivity end.
Qed.

Lemma nf_pop p : outq p <> [] -> nf (pop p) = pop (nf p).
Proof.
  induction p as [p H|p p' H IH] using nf_ind; intros Hn.
  - rewrite (nf_stuck _ H). apply nf_stuck.
    unfold pstep, pop in *. cbn. destruct (ppos p), (inq p); try discriminate H; auto;
    repeat match goal with |- context [if ?x then _ else _] => destruct x; try discriminate H end; auto.
  - rewrite (nf_step _ _ H), <- IH.
    + apply nf_step. now apply pstep_pop.
    + destruct (pstep_out _ _ H) as [l E]. rewrite E. destruct (outq p); cbn; congruence.
Qed.

Lemma nf_moves p : nf p <> p -> exists p', pst p = Some p'.
Proof. intros H. destruct (pst p) eqn:E; eauto. exfalso. apply H. now apply nf_stuck. Qed.

(** A process which will come to rest without having sent anything is at rest. *)
Lemma nf_quiet p :
  outq (nf p) = [] -> (ppos (nf p) = PIdle \/ ppos (nf p) = PDead) -> p = nf p.
Proof.
  assert (K : forall p p', pst p = Some p' -> outq p' = [] -> ppos p' = PIdle \/ ppos p' = PDead -> False).
  { intros q q' H. pcases H; cbn; intros Ho [Hp|Hp]; try discriminate Hp;
      try (destruct (outq q); discriminate Ho). }
  induction p as [p H|p p' H IH] using nf_ind; intros Ho Hp.
  - symmetry. now apply nf_stuck.
  - rewrite (nf_step _ _ H) in Ho, Hp |- *. specialize (IH Ho Hp). rewrite <- IH in Ho, Hp.
    exfalso. eauto.
Qed.
End Proc.

(** ** All processes *)
Section Procs.
Variable N : nat.
Variable beh : nat -> nat -> Z -> behave.
Variable value : nat -> list Z -> Z.

Definition agree (ps f : nat -> proc) : Prop :=
  forall i, (i < N)%nat -> nf (beh i) (value i) (ps i) = f i.

Lemma agree_step ps f i p' : agree ps f -> (i < N)%nat ->
  pstep (beh i) (value i) (ps i) = Some p' -> agree (upd ps i p') f.
Proof.
  intros A Hi H j Hj. unfold upd. destruct (Nat.eqb_spec j i) as [->|]; [|now apply A].
  rewrite <- (nf_step _ _ _ _ H). now apply A.
Qed.

Lemma agree_send ps f g c : agree ps f ->
  (forall i, (i < N)%nat -> nf (beh i) (value i) (push (f i) c) = g i) -> agree (send_all ps c) g.
Proof.
  intros A H i Hi. unfold send_all. rewrite nf_push, A by easy. now apply H.
Qed.

Lemma agree_push ps f g m c : agree ps f -> (m < N)%nat ->
  (forall i, (i < N)%nat -> g i = if Nat.eqb i m then nf (beh i) (value i) (push (f i) c) else f i) ->
  agree (upd ps m (push (ps m) c)) g.
Proof.
  intros A Hm H i Hi. rewrite H by easy. unfold upd. destruct (Nat.eqb_spec i m) as [->|]; [|now apply A].
  rewrite nf_push, A by easy. reflexivity.
Qed.

Lemma agree_head ps f j m l : agree ps f -> (j < N)%nat -> outq (ps j) = m :: l ->
  exists l', outq (f j) = m :: l'.
Proof.
  intros A Hj E. destruct (nf_out (beh j) (value j) (ps j)) as [l' E']. rewrite A in E' by easy.
  rewrite E in E'. cbn in E'. eauto.
Qed.

Lemma agree_pop ps f g j m l : agree ps f -> (j < N)%nat -> outq (ps j) = m :: l ->
  (forall i, (i < N)%nat -> g i = if Nat.eqb i j then pop (f i) else f i) ->
  agree (upd ps j (pop (ps j))) g.
Proof.
  intros A Hj E H i Hi. rewrite H by easy. unfold upd. destruct (Nat.eqb_spec i j) as [->|]; [|now apply A].
  rewrite nf_pop by congruence. now rewrite A.
Qed.

Lemma agree_none ps f : agree ps f -> (forall i, (i < N)%nat -> outq (f i) = []) ->
  any_ready ps N = false.
Proof.
  intros A H. assert (K : forall n, (n <= N)%nat -> any_ready ps n = false).
  { induction n as [|n IH]; intros Hn; [reflexivity|]. cbn. rewrite IH by lia. cbn.
    destruct (outq (ps n)) eqn:E; [reflexivity|].
    destruct (agree_head _ _ n _ _ A ltac:(lia) E) as [l' E']. rewrite H in E' by lia. discriminate. }
  now apply K.
Qed.

Lemma any_ready_at ps i n : (i < n)%nat -> outq (ps i) <> [] -> any_ready ps n = true.
Proof.
  induction n as [|n IH]; intros Hi Ho; [lia|]. cbn.
  destruct (Nat.eq_dec i n) as [->|].
  - destruct (outq (ps n)); [congruence|]. now rewrite orb_true_r.
  - rewrite IH by (auto; lia). reflexivity.
Qed.

(** What the service is waiting for comes. *)
Lemma agree_ready ps f j : agree ps f -> (j < N)%nat -> outq (f j) <> [] ->
  outq (ps j) <> [] \/ exists p', pstep (beh j) (value j) (ps j) = Some p'.
Proof.
  intros A Hj H. destruct (outq (ps j)) eqn:E; [|left; congruence]. right.
  apply nf_moves. intros C. rewrite A in C by easy. rewrite C in H. congruence.
Qed.

Lemma agree_quiet ps f i : agree ps f -> (i < N)%nat -> outq (f i) = [] ->
  ppos (f i) = PIdle \/ ppos (f i) = PDead -> ps i = f i.
Proof.
  intros A Hi Ho Hp. rewrite <- (A i Hi) in *. now apply nf_quiet in Ho.
Qed.
End Procs.
