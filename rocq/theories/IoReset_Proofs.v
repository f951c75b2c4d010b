From Coq Require Import List Arith ZArith QArith Qabs Bool Lia.
From Verif Require Import Build_Model PyPorts_Model PyPorts_Props IoReset_Model IoReset_Spec.
Import ListNotations.
Open Scope nat_scope.

(** ** Guards *)
Lemma create_due c h t : create c = Some h -> post_guard h t = true <-> due c t.
Proof.
  assert (forall i o : Z, (i <> 0)%Z -> ((t - 1) mod i =? o mod i)%Z = true <-> exists k, (t - 1 = o + k * i)%Z) as A.
  { intros i o Hi. rewrite Z.eqb_eq. split.
    - intros E. exists ((t - 1) / i - o / i)%Z. pose proof (Z.div_mod (t - 1) i Hi). pose proof (Z.div_mod o i Hi). nia.
    - intros [k ->]. apply Z.mod_add. exact Hi. }
  destruct c as [r i o|i o]; simpl; destruct (Z.eqb_spec i 0); try discriminate; intros H; injection H as <-; simpl; apply A; assumption.
Qed.
Lemma trunc_whole q : whole q (trunc q).
Proof.
  unfold whole, trunc. destruct q as [a d]. simpl Qnum. simpl Qden.
  assert (Z.quot a (Z.pos d) = Z.sgn a * (Z.abs a / Z.pos d))%Z as E.
  { rewrite Z.quot_div by lia. change (Z.sgn (Z.pos d)) with 1%Z. change (Z.abs (Z.pos d)) with (Z.pos d). lia. }
  rewrite E. clear E. pose proof (Z.div_mod (Z.abs a) (Z.pos d) ltac:(lia)) as M.
  pose proof (Z.mod_pos_bound (Z.abs a) (Z.pos d) ltac:(lia)) as B.
  pose proof (Z.div_pos (Z.abs a) (Z.pos d) ltac:(lia) ltac:(lia)) as P.
  set (k := (Z.abs a / Z.pos d)%Z) in *. set (m := (Z.abs a mod Z.pos d)%Z) in *.
  assert (Z.abs (Z.sgn a * k) = k)%Z as ->.
  { destruct (Z.sgn_spec a) as [[? ->]|[[? ->]|[? ->]]]; lia. }
  unfold Qle, Qlt, Qabs, inject_Z, Qmult. simpl. split; [split; nia|].
  destruct (Z.sgn_spec a) as [[? ->]|[[? ->]|[? ->]]]; nia.
Qed.
Lemma writes_whole n r : reset_to n r (map (fun z => z + inject_Z (trunc r))%Q (repeat 0%Q n)).
Proof.
  split; [rewrite map_length, repeat_length; reflexivity|]. exists (trunc r). split; [apply trunc_whole|].
  intros q H. apply in_map_iff in H. destruct H as (z & <- & H). apply repeat_spec in H. subst. apply Qplus_0_l.
Qed.
Lemma create_all_nth cs hs j : create_all cs = Some hs ->
  match nth_error cs j, nth_error hs j with
  | Some c, Some h => create c = Some h
  | None, None => True
  | _, _ => False
  end.
Proof.
  revert hs j. induction cs as [|c cs IH]; intros hs j H; simpl in H.
  - injection H as <-. destruct j; simpl; auto.
  - destruct (create c) as [h|] eqn:E; [|discriminate]. destruct (create_all cs) as [l|]; [|discriminate]. injection H as <-.
    destruct j; simpl; [exact E|]. apply IH. reflexivity.
Qed.
Lemma create_all_length cs hs : create_all cs = Some hs -> length hs = length cs.
Proof.
  revert hs. induction cs as [|c cs IH]; intros hs H; simpl in H; [injection H as <-; reflexivity|].
  destruct (create c); [|discriminate]. destruct (create_all cs); [|discriminate]. injection H as <-. simpl. auto.
Qed.

(** ** A phase that is over has served everything *)
Lemma answers_nreads {V} j (l : list (logent V)) : length (answers V j l) = nreads V (served V j l).
Proof. induction l as [|[] l IH]; simpl; auto; destruct (_ =? j); unfold nreads in *; simpl; auto. Qed.
Lemma nreads_zero {V} (l : list (op V)) x : nreads V (l ++ [x]) = 0 -> x <> Read.
Proof. rewrite nreads_app. intros H ->. unfold nreads in H. simpl in H. lia. Qed.
Definition ends_reading (l : list (op value)) : Prop := l = [] \/ exists m, l = m ++ [Read].
Lemma requests_end n hs t j : ends_reading (requests n hs t j).
Proof.
  unfold ends_reading, requests. destruct (nth_error hs j) as [h|]; [|auto]. destruct (post_guard h t); [|auto].
  right. destruct h; simpl; [eexists [_]; reflexivity|exists []; reflexivity].
Qed.

Lemma phase_served n hs t x s : in_phase n hs t x s -> phase_over (length hs) s ->
  (forall j, served value j (log s) = requests n hs t j) /\
  (forall j, got s j = answers value j (log s)) /\
  ow s = OIdle /\ (forall j, c2v s j = [] /\ v2c s j = []).
Proof.
  intros [R _] O. pose proof (invR _ _ _ _ _ _ s R) as I.
  assert (forall j, issued s j = served value j (log s) /\ issued s j = requests n hs t j /\ v2c s j = [] /\ cl s j = CIdle) as A.
  { intro j. destruct (r_pend _ _ _ _ _ _ s I j) as (P & A & _). pose proof (r_prog _ _ _ _ _ _ s I j) as Q.
    pose proof (r_wait _ _ _ _ _ _ s I j) as W. destruct (r_ans _ _ _ _ _ _ s I j) as (raw & B1 & B2).
    assert (issued s j = requests n hs t j /\ cl s j = CIdle) as [E C].
    { destruct (Nat.lt_ge_cases j (length hs)) as [L|L].
      - destruct (O j L) as [E C]. rewrite E, app_nil_r in Q. auto.
      - destruct (r_out _ _ _ _ _ _ s I j L) as [_ C]. split; [|exact C].
        assert (requests n hs t j = []) as Z by (unfold requests; rewrite (proj2 (nth_error_None hs j) L); reflexivity).
        rewrite Z in *. destruct (issued s j); [reflexivity|discriminate]. }
    rewrite C in W. pose proof (answers_nreads j (log s)) as N. rewrite B1, app_length in N.
    rewrite B2, map_length in W. rewrite A, nreads_app in W.
    assert (v2c s j = []) as V by (destruct (v2c s j); [reflexivity|simpl in N; lia]).
    assert (nreads value P = 0) as NP by (rewrite V in N; simpl in N; lia).
    assert (P = []) as ->.
    { destruct P as [|p0 P0] eqn:EP using rev_ind; [reflexivity|]. exfalso. pose proof (requests_end n hs t j) as [Z|[m Z]].
      - rewrite <- E, A in Z. apply (f_equal (@length _)) in Z. rewrite !app_length in Z. simpl in Z. lia.
      - apply nreads_zero in NP. rewrite <- E, A, app_assoc in Z. apply app_inj_tail in Z. destruct Z as [_ Z]. congruence. }
    rewrite app_nil_r in A. auto. }
  assert (forall j, opre value (ow s) j ++ c2v s j = []) as B.
  { intro j. destruct (r_pend _ _ _ _ _ _ s I j) as (P & A1 & A2). destruct (A j) as (E & _ & _ & C). rewrite C in A2. simpl in A2.
    rewrite app_nil_r in A2. rewrite A1 in E. rewrite <- (app_nil_r (served value j (log s))) in E at 2. apply app_inv_head in E. subst P.
    exact A2. }
  split; [intro j; destruct (A j) as (E1 & E2 & _); congruence|]. split; [|split].
  - intro j. destruct (r_ans _ _ _ _ _ _ s I j) as (raw & B1 & B2). destruct (A j) as (_ & _ & V & _). rewrite B1, V, app_nil_r, B2.
    unfold same. apply map_id.
  - destruct (ow s) as [|j|j]; [reflexivity| |]; specialize (B j); simpl in B; rewrite Nat.eqb_refl in B; discriminate.
  - intro j. specialize (B j). apply app_eq_nil in B. destruct (A j) as (_ & _ & V & _). tauto.
Qed.

(** ** What the log says *)
Lemma log_write_served {V} l j (v : V) : In (LWrite j v) l -> In (Write v) (served V j l).
Proof.
  induction l as [|e l IH]; [intros []|]. intros [->|H]; simpl; [rewrite Nat.eqb_refl; simpl; auto|].
  specialize (IH H). destruct e as [i w|i w|w]; auto; destruct (i =? j); simpl; auto.
Qed.
Lemma served_log_write {V} l j (v : V) : In (Write v) (served V j l) -> In (LWrite j v) l.
Proof.
  induction l as [|e l IH]; [intros []|]. destruct e as [i w|i w|w]; simpl; auto.
  - destruct (Nat.eqb_spec i j); [|auto]. intros [E|H]; [discriminate|auto].
  - destruct (Nat.eqb_spec i j); [|auto]. intros [E|H]; [injection E as ->; subst; auto|auto].
Qed.
Lemma answers_in {V} l j (v : V) : In v (answers V j l) -> exists a b, l = a ++ LRead j v :: b.
Proof.
  induction l as [|e l IH]; [intros []|]. simpl. intros H.
  assert (v = v -> In v (answers V j l) -> exists a b, e :: l = a ++ LRead j v :: b) as N.
  { intros _ H0. destruct (IH H0) as (a & b & ->). exists (e :: a), b. reflexivity. }
  destruct e as [i w|i w|w]; auto. destruct (Nat.eqb_spec i j); auto. destruct H as [->|H]; auto. subst. exists [], l. reflexivity.
Qed.
Lemma value_in (x0 : value) l : (forall v, ~ In (LOwn v) l) ->
  (value_after value same x0 l = x0 /\ forall j v, ~ In (LWrite j v) l) \/ exists j, In (LWrite j (value_after value same x0 l)) l.
Proof.
  induction l as [|e l IH] using rev_ind; intros H; [left; split; auto|].
  assert (forall v, ~ In (LOwn v) l) as H' by (intros v I; apply (H v); apply in_or_app; auto).
  rewrite value_app. destruct e as [j v|j v|v].
  - destruct (IH H') as [[E N]|[i I]].
    + left. split; [exact E|]. intros i w I. apply in_app_iff in I. destruct I as [I|[I|[]]]; [exact (N _ _ I)|discriminate].
    + right. exists i. apply in_or_app. auto.
  - right. exists j. apply in_or_app. right. left. reflexivity.
  - exfalso. apply (H v). apply in_or_app. right. left. reflexivity.
Qed.
