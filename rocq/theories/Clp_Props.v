(** C50-C53: novelty detector, allocator, readout and spiker. *)
From Coq Require Import ZArith List Bool Arith Lia.
From Verif Require Import NpInt Clp_Model.
Import ListNotations.
Open Scope Z_scope.

(** ** C50 *)
(** [missed i o s t]: an input arrived at step s, none after it up to step t, and no output from s to t *)
Definition missed (i o : nat -> Z) (s t : nat) : Prop :=
  (s <= t)%nat /\ i s <> 0 /\ (forall u, (s < u <= t)%nat -> i u = 0) /\ (forall u, (s <= u <= t)%nat -> o u = 0).

Definition nd_inv (t_wait : Z) (i o : nat -> Z) (t : nat) (st : nd) : Prop :=
  novelty_detected st = false /\
  (waiting st = true -> exists s, t = S (s + (Z.to_nat (t_passed st) - 1))%nat /\ 1 <= t_passed st <= t_wait + 1 /\ missed i o s (t - 1)) /\
  (waiting st = false -> t_passed st = 0 /\
     forall s, (s < t)%nat -> missed i o s (t - 1) -> t_wait + 1 < Z.of_nat (t - s)).
Lemma missed_fun i o s s' t : missed i o s t -> missed i o s' t -> s = s'.
Proof.
  intros (A & B & C & D) (A' & B' & C' & D'). destruct (Nat.lt_trichotomy s s') as [H|[H|H]]; auto.
  - exfalso. apply B'. apply C. lia.
  - exfalso. apply B. apply C'. lia.
Qed.
Lemma missed_shrink i o s t : missed i o s (S t) -> (s <= t)%nat -> missed i o s t.
Proof. intros (A & B & C & D) H. repeat split; auto; intros; [apply C|apply D]; lia. Qed.
Lemma nd_step_inv t_wait i o t st : 0 <= t_wait -> nd_inv t_wait i o t st ->
  nd_inv t_wait i o (S t) (fst (nd_step t_wait st (i t) (o t))) /\
  (snd (nd_step t_wait st (i t) (o t)) = 1 <-> exists s, Z.of_nat t = Z.of_nat s + t_wait + 1 /\ missed i o s t) /\
  (snd (nd_step t_wait st (i t) (o t)) = 0 \/ snd (nd_step t_wait st (i t) (o t)) = 1).
Proof.
  intros Hw (Hn & Ht & Hf). unfold nd_step. rewrite Hn.
  destruct (Z.eqb_spec (i t) 0) as [Ei|Ei]; destruct (Z.eqb_spec (o t) 0) as [Eo|Eo]; cbn [negb].
  - (* nothing *)
    destruct (waiting st) eqn:Ew.
    + destruct (Ht eq_refl) as (s & Es & Hp & Hm). clear Ht Hf.
      assert (missed i o s t) as Hm'.
      { destruct Hm as (A & B & C & D). repeat split; auto; try lia; intros u Hu.
        - destruct (Nat.eq_dec u t) as [->|]; auto. apply C. lia.
        - destruct (Nat.eq_dec u t) as [->|]; auto. apply D. lia. }
      destruct (Z.ltb_spec t_wait (t_passed st)).
      * unfold nd_inv; cbn [waiting t_passed novelty_detected fst snd]; replace (S t - 1)%nat with t by lia; repeat split; auto; try congruence.
        -- intros s' Hs' H'. 
           replace s' with s by (eapply missed_fun; eauto). lia.
        -- intros _. exists s. split; auto. lia.
      * unfold nd_inv; cbn [waiting t_passed novelty_detected fst snd]; replace (S t - 1)%nat with t by lia; repeat split; auto; try congruence; try discriminate.
        -- intros _. exists s. repeat split; auto; lia || apply Hm'.
        -- intros (s' & E' & H'). exfalso. assert (s = s') by (eapply missed_fun; eauto). subst s'. lia.
    + destruct (Hf eq_refl) as (Hp & Hm). clear Ht Hf.
      destruct (Z.ltb_spec t_wait (t_passed st)); [lia|].
      unfold nd_inv; cbn [waiting t_passed novelty_detected fst snd]; replace (S t - 1)%nat with t by lia; repeat split; auto; try congruence; try discriminate.
      * intros s Hs H'. destruct (Nat.eq_dec s t) as [->|].
        { exfalso. apply (proj1 (proj2 H')). auto. }
        specialize (Hm s ltac:(lia)). cut (t_wait + 1 < Z.of_nat (t - s)); [lia|]. apply Hm.
        destruct t; [lia|]. simpl. rewrite Nat.sub_0_r. apply missed_shrink; auto. lia.
      * intros (s & E' & H'). exfalso. destruct (Nat.eq_dec s t) as [->|]; [lia|].
        pose proof (proj1 H') as Hle.
        assert (t_wait + 1 < Z.of_nat (t - s)); [|lia]. apply Hm; [lia|].
        destruct t; [lia|]. simpl. rewrite Nat.sub_0_r. apply missed_shrink; auto. lia.
  - (* output only *)
    unfold nd_inv; cbn [waiting t_passed novelty_detected fst snd]; replace (S t - 1)%nat with t by lia; repeat split; auto; try congruence; try discriminate.
    + intros s Hs (_ & _ & _ & H'). exfalso. apply Eo. apply H'. lia.
    + intros (s & _ & A & _ & _ & H'). exfalso. apply Eo. apply H'. lia.
  - (* input only *)
    destruct (Z.ltb_spec t_wait 0); [lia|].
    unfold nd_inv; cbn [waiting t_passed novelty_detected fst snd]; replace (S t - 1)%nat with t by lia; repeat split; auto; try congruence; try discriminate.
    + intros _. exists t. repeat split; auto; try lia; intros u Hu; try lia. replace u with t by lia. auto.
    + intros (s & E' & A & _ & H' & _). exfalso. apply Ei. apply H'. lia.
  - (* both *)
    unfold nd_inv; cbn [waiting t_passed novelty_detected fst snd]; replace (S t - 1)%nat with t by lia; repeat split; auto; try congruence; try discriminate.
    + intros s Hs (_ & _ & _ & H'). exfalso. apply Eo. apply H'. lia.
    + intros (s & _ & A & _ & _ & H'). exfalso. apply Eo. apply H'. lia.
Qed.
Lemma nd_inv_all t_wait i o t : 0 <= t_wait -> nd_inv t_wait i o t (nd_state t_wait i o t).
Proof.
  intros Hw. induction t.
  - repeat split; simpl; auto; try discriminate. intros; lia.
  - simpl. apply nd_step_inv; auto.
Qed.
(** The pulse is sent exactly t_wait + 1 steps after an input that was followed by no other input and by no
    output up to and including the step of the pulse. *)
Theorem novelty_exact t_wait i o t : 0 <= t_wait ->
  (nd_sent t_wait i o t = 1 <-> exists s, Z.of_nat t = Z.of_nat s + t_wait + 1 /\ missed i o s t) /\
  (nd_sent t_wait i o t = 0 \/ nd_sent t_wait i o t = 1).
Proof. intros Hw. apply nd_step_inv; auto. apply nd_inv_all; auto. Qed.
(** one input causes at most one pulse *)
Theorem novelty_single t_wait i o t t' : 0 <= t_wait -> (t < t')%nat ->
  nd_sent t_wait i o t = 1 -> nd_sent t_wait i o t' = 1 -> exists u, (t < u <= t')%nat /\ i u <> 0.
Proof.
  intros Hw Hlt H1 H2. apply novelty_exact in H1; auto. apply novelty_exact in H2; auto.
  destruct H1 as (s & E1 & M1), H2 as (s' & E2 & M2). exists s'.
  destruct (Nat.lt_ge_cases t s') as [H|H].
  - destruct M2 as (A & B & _). split; [lia|auto].
  - exfalso. destruct M1 as (A1 & B1 & C1 & D1), M2 as (A2 & B2 & C2 & D2).
    apply B2. apply C1. lia.
Qed.
Example novelty_demo :
  map (nd_sent 2 (fun t => if Nat.eqb t 1 || Nat.eqb t 7 then 1 else 0) (fun t => if Nat.eqb t 9 then 1 else 0)) (seq 0 14)
  = [0; 0; 0; 0; 1; 0; 0; 0; 0; 0; 0; 0; 0; 0].
Proof. reflexivity. Qed.

(** ** C51 *)
(** number of triggers before step [t] *)
Fixpoint triggers (tr : nat -> Z) (t : nat) : Z :=
  match t with O => 0 | S t' => triggers tr t' + (if tr t' =? 0 then 0 else 1) end.
Lemma triggers_nonneg tr t : 0 <= triggers tr t.
Proof. induction t; simpl; [lia|]. destruct (tr t =? 0); lia. Qed.
(** below the int32 limit the k-th trigger is answered with id first + k (k from 0), others with 0 *)
Theorem allocator_ids_partial first tr t : 1 <= first -> first + triggers tr t < 2 ^ 31 ->
  alloc_sent first tr t = if tr t =? 0 then 0 else first + triggers tr t.
Proof.
  intros Hf Hb. assert (alloc_state first tr t = first + triggers tr t) as E.
  { induction t; simpl; [lia|]. simpl in Hb. unfold alloc_step. pose proof (triggers_nonneg tr t).
    destruct (tr t =? 0); simpl; [rewrite IHt; lia|]. rewrite IHt by lia. rewrite w32_id; lia. }
  unfold alloc_sent, alloc_step. rewrite E. destruct (tr t =? 0); auto.
Qed.
(** hence every id is handed out once *)
Theorem allocator_unique first tr t t' : 1 <= first -> (t < t')%nat -> first + triggers tr t' < 2 ^ 31 ->
  tr t <> 0 -> tr t' <> 0 -> alloc_sent first tr t < alloc_sent first tr t'.
Proof.
  intros Hf Hlt Hb H1 H2. assert (triggers tr t < triggers tr t') as Hm.
  { clear Hb H2. induction Hlt; simpl; destruct (Z.eqb_spec (tr t) 0); try congruence; try lia.
    destruct (tr m =? 0); lia. }
  rewrite !allocator_ids_partial by lia.
  destruct (Z.eqb_spec (tr t) 0), (Z.eqb_spec (tr t') 0); try congruence; lia.
Qed.
(** nothing compares the id with n_protos *)
Theorem allocator_bound_refuted :
  ~ (forall n_protos tr t, 1 <= n_protos -> alloc_sent 1 tr t <= n_protos).
Proof. intros H. specialize (H 2 (fun _ => 1) 2%nat ltac:(lia)). vm_compute in H. apply H. auto. Qed.
Example allocator_demo : map (alloc_sent 1 (fun t => if Nat.even t then 1 else 0)) (seq 0 7) = [1; 0; 2; 0; 3; 0; 4].
Proof. reflexivity. Qed.

(** ** C52 *)
(** A true label is never changed, whatever the initial labels. *)
Theorem readout_keeps_labels labels vec lab t t' i : (t <= t')%nat ->
  0 < proto_labels (readout_state labels vec lab t) i ->
  proto_labels (readout_state labels vec lab t') i = proto_labels (readout_state labels vec lab t) i.
Proof.
  intros Hle Hpos. induction Hle; auto. rewrite <- IHHle. rewrite <- IHHle in Hpos. clear IHHle Hle.
  simpl. set (st := readout_state labels vec lab m) in *. unfold readout_step.
  destruct (first_active (vec m)) as [w|].
  - destruct (Z.eqb_spec (proto_labels st w) 0) as [E|E].
    + assert (i <> w) as Hne by (intros ->; lia).
      assert (upd (proto_labels st) w (-1 * (Z.of_nat w + 1)) i = proto_labels st i) as Hu.
      { unfold upd. destruct (Nat.eqb_spec i w); congruence. }
      destruct (lab m =? 0); cbn [negb]; [exact Hu|].
      assert (upd (proto_labels st) w (-1 * (Z.of_nat w + 1)) w = -1 * (Z.of_nat w + 1)) as Hw.
      { unfold upd. rewrite Nat.eqb_refl. auto. }
      rewrite Hw. destruct (Z.ltb_spec 0 (-1 * (Z.of_nat w + 1))); [lia|].
      destruct (Z.ltb_spec (-1 * (Z.of_nat w + 1)) 0); [|exact Hu].
      cbn [fst proto_labels]. unfold upd at 1. destruct (Nat.eqb_spec i w); [congruence|]. exact Hu.
    + destruct (lab m =? 0); cbn [negb]; auto.
      destruct (Z.ltb_spec 0 (proto_labels st w)); [destruct (proto_labels st w =? lab m); auto|].
      destruct (Z.ltb_spec (proto_labels st w) 0); auto. cbn. unfold upd. destruct (Nat.eqb_spec i w); auto. subst. lia.
  - destruct (lab m =? 0); cbn [negb]; auto. set (w := last_winner_id st).
    destruct (Z.ltb_spec 0 (proto_labels st w)); [destruct (proto_labels st w =? lab m); auto|].
    destruct (Z.ltb_spec (proto_labels st w) 0); auto. cbn. unfold upd. destruct (Nat.eqb_spec i w); auto. subst. lia.
Qed.

(** History view.  [winner vec t]: who won at the last inference up to and including step t. *)
Fixpoint winner (vec : nat -> list Z) (t : nat) : option nat :=
  match first_active (vec t) with
  | Some w => Some w
  | None => match t with O => None | S t' => winner vec t' end
  end.
(** What a winner is, without the model's scan: the first neuron whose entry is nonzero, at the latest step up to t at
    which any neuron was active; "has won" and "was taught" follow by the same reading. *)
Definition is_first_nonzero (v : list Z) (w : nat) : Prop :=
  (w < length v)%nat /\ nth w v 0 <> 0 /\ forall j, (j < w)%nat -> nth j v 0 = 0.
Lemma first_active_some v w : first_active v = Some w <-> is_first_nonzero v w.
Proof.
  unfold is_first_nonzero. revert w. induction v as [|x r IH]; intro w; cbn [first_active length].
  - split; [discriminate|]. intros (A & _). lia.
  - destruct (Z.eqb_spec x 0) as [->|N]; cbn [negb].
    + destruct w as [|w].
      * split; [destruct (first_active r); discriminate|]. intros (_ & A & _). cbn in A. congruence.
      * split.
        -- intro E. destruct (first_active r) as [w'|]; [|discriminate]. injection E as ->.
           destruct (proj1 (IH w) eq_refl) as (A & B & C). split; [lia|]. split; [exact B|].
           intros [|j] Hj; [reflexivity|]. apply C. lia.
        -- intros (A & B & C). cbn in B. rewrite (proj2 (IH w)); [reflexivity|].
           split; [lia|]. split; [exact B|]. intros j Hj. apply (C (S j)). lia.
    + split.
      * intro E. injection E as <-. split; [lia|]. split; [exact N|]. intros j Hj. lia.
      * intros (_ & _ & C). destruct w as [|w]; [reflexivity|]. specialize (C 0%nat ltac:(lia)). cbn in C. congruence.
Qed.
Lemma first_active_none v : first_active v = None <-> Forall (eq 0) v.
Proof.
  induction v as [|x r IH]; cbn [first_active].
  - split; [constructor|reflexivity].
  - destruct (Z.eqb_spec x 0) as [->|N]; cbn [negb].
    + split.
      * intro E. constructor; [reflexivity|]. apply IH. destruct (first_active r); [discriminate|reflexivity].
      * intro F. inversion F; subst. rewrite (proj2 IH) by assumption. reflexivity.
    + split; [discriminate|]. intro F. inversion F; subst. congruence.
Qed.
Theorem winner_is_last_first_active vec t w : winner vec t = Some w <->
  exists t0, (t0 <= t)%nat /\ is_first_nonzero (vec t0) w /\
             forall t1, (t0 < t1 <= t)%nat -> Forall (eq 0) (vec t1).
Proof.
  induction t as [|t IH].
  - cbn [winner]. destruct (first_active (vec 0%nat)) as [x|] eqn:E.
    + split.
      * intro H. injection H as ->. exists 0%nat. split; [lia|]. split; [apply first_active_some; exact E|]. intros; lia.
      * intros (t0 & A & B & _). replace t0 with 0%nat in B by lia. apply first_active_some in B. congruence.
    + split; [discriminate|]. intros (t0 & A & B & _). replace t0 with 0%nat in B by lia.
      apply first_active_some in B. congruence.
  - cbn [winner]. destruct (first_active (vec (S t))) as [x|] eqn:E.
    + split.
      * intro H. injection H as ->. exists (S t). split; [lia|]. split; [apply first_active_some; exact E|]. intros; lia.
      * intros (t0 & A & B & C). destruct (Nat.eq_dec t0 (S t)) as [->|N].
        -- apply first_active_some in B. congruence.
        -- specialize (C (S t) ltac:(lia)). apply first_active_none in C. congruence.
    + rewrite IH. split.
      * intros (t0 & A & B & C). exists t0. split; [lia|]. split; [exact B|]. intros t1 H.
        destruct (Nat.eq_dec t1 (S t)) as [->|]; [apply first_active_none; exact E|apply C; lia].
      * intros (t0 & A & B & C). exists t0. split.
        -- destruct (Nat.eq_dec t0 (S t)) as [->|]; [apply first_active_some in B; congruence|lia].
        -- split; [exact B|]. intros t1 H. apply C. lia.
Qed.
(** the user's label for prototype i given before step t: the first label given while i was the last winner *)
Fixpoint taught (vec : nat -> list Z) (lab : nat -> Z) (i t : nat) : option Z :=
  match t with
  | O => None
  | S t' => match taught vec lab i t' with
            | Some l => Some l
            | None => if negb (lab t' =? 0) && (match winner vec t' with Some w => Nat.eqb w i | None => false end)
                      then Some (lab t') else None
            end
  end.
(** prototype i has won before step t *)
Fixpoint has_won (vec : nat -> list Z) (i t : nat) : bool :=
  match t with
  | O => false
  | S t' => has_won vec i t' || match first_active (vec t') with Some w => Nat.eqb w i | None => false end
  end.
Definition label_at (vec : nat -> list Z) (lab : nat -> Z) (i t : nat) : Z :=
  match taught vec lab i t with Some l => l | None => if has_won vec i t then - (Z.of_nat i + 1) else 0 end.

Lemma winner_won vec t w : winner vec t = Some w -> has_won vec w (S t) = true.
Proof.
  revert w. induction t; intros w H; simpl in *.
  - destruct (first_active (vec 0%nat)); [|discriminate]. injection H as ->. rewrite Nat.eqb_refl. auto.
  - destruct (first_active (vec (S t))) as [w'|].
    + injection H as ->. rewrite Nat.eqb_refl. apply orb_true_r.
    + apply IHt in H. rewrite H. auto.
Qed.
Lemma taught_pos vec lab i t l : (forall u, 0 <= lab u) -> taught vec lab i t = Some l -> 0 < l.
Proof.
  intros Hl. induction t; simpl; [discriminate|]. destruct (taught vec lab i t); [auto|].
  destruct (Z.eqb_spec (lab t) 0); simpl; [discriminate|].
  destruct (winner vec t) as [w|]; [|discriminate]. destruct (w =? i)%nat; [|discriminate].
  intros H. injection H as <-. specialize (Hl t). lia.
Qed.
Definition winner_before vec t : option nat := match t with O => None | S t' => winner vec t' end.
Lemma taught_won vec lab i t l : taught vec lab i t = Some l -> has_won vec i t = true.
Proof.
  induction t; simpl; [discriminate|]. destruct (taught vec lab i t); [intros H; injection H as <-; rewrite IHt; auto|].
  destruct (negb (lab t =? 0)); simpl; [|discriminate].
  destruct (winner vec t) as [w|] eqn:Ew; [|discriminate]. destruct (Nat.eqb_spec w i) as [->|]; [|discriminate].
  intros _. apply winner_won in Ew. simpl in Ew. auto.
Qed.

Definition readout_ok vec lab t st : Prop :=
  (forall i, proto_labels st i = label_at vec lab i t) /\
  match winner_before vec t with Some w => last_winner_id st = w | None => last_winner_id st = 0%nat /\ has_won vec 0 t = false end.
Lemma no_winner_none vec t i : winner_before vec t = None -> has_won vec i t = false.
Proof.
  induction t; simpl; auto. intros H. destruct t; simpl in *.
  - destruct (first_active (vec 0%nat)); [discriminate|]. auto.
  - destruct (first_active (vec (S t))); [discriminate|]. rewrite orb_false_r. apply IHt. exact H.
Qed.
Definition winner_now vec t := match first_active (vec t) with Some w => Some w | None => winner_before vec t end.
Lemma winner_now_eq vec t : winner_now vec t = winner vec t.
Proof. unfold winner_now. destruct t; simpl; destruct (first_active _); auto. Qed.

(** what the user sees at step t, from the history alone *)
Definition expected (vec : nat -> list Z) (lab : nat -> Z) (t : nat) : rout :=
  let fb := match winner vec t with
            | Some w => match taught vec lab w t with
                        | Some l => if lab t =? 0 then 0 else if l =? lab t then 1 else -1
                        | None => 0
                        end
            | None => 0
            end in
  {| user_output :=
       match first_active (vec t), winner vec t with
       | Some w, _ => match taught vec lab w t with
                      | Some l => l
                      | None => if lab t =? 0 then - (Z.of_nat w + 1) else lab t
                      end
       | None, Some w => match taught vec lab w t with Some _ => 0 | None => lab t end
       | None, None => 0
       end;
     feedback := fb; trigger_alloc := if fb =? -1 then 1 else 0 |}.

Lemma readout_step_ok vec lab t st : (forall u, 0 <= lab u) -> readout_ok vec lab t st ->
  readout_ok vec lab (S t) (fst (readout_step st (vec t) (lab t))) /\
  snd (readout_step st (vec t) (lab t)) = expected vec lab t.
Proof.
  intros Hlab [HL HW].
  assert (forall i l, taught vec lab i t = Some l -> 0 < l) as Tp by (intros; eapply taught_pos; eauto).
  assert (forall i l, taught vec lab i t = Some l -> has_won vec i t = true) as Tw by (intros; eapply taught_won; eauto).
  pose proof (Hlab t) as Hlt.
  unfold readout_step, expected, readout_ok. cbn [winner_before].
  destruct (first_active (vec t)) as [w|] eqn:Ef.
  - (* a winner *)
    assert (winner vec t = Some w) as Ew by (destruct t; simpl; rewrite Ef; auto).
    rewrite Ew. rewrite (HL w).
    destruct (taught vec lab w t) as [l|] eqn:Et.
    + pose proof (Tp _ _ Et).
      assert (label_at vec lab w t = l) as Lw by (unfold label_at; rewrite Et; auto). rewrite Lw.
      destruct (Z.eqb_spec l 0); [lia|]. rewrite (HL w), Lw.
      destruct (Z.ltb_spec 0 l); [|lia].
      assert (forall i, proto_labels st i = label_at vec lab i (S t)) as G.
      { intros i. rewrite HL. unfold label_at. simpl. rewrite Ef, Ew.
        destruct (taught vec lab i t) eqn:Ei; auto.
        destruct (Nat.eqb_spec w i); [subst; congruence|]. rewrite andb_false_r, orb_false_r. auto. }
      destruct (lab t =? 0); cbn [negb]; [split; [split; [exact G|auto]|reflexivity]|].
      destruct (l =? lab t); (split; [split; [exact G|auto]|reflexivity]).
    + assert (forall i, (if has_won vec w t then proto_labels st else upd (proto_labels st) w (-1 * (Z.of_nat w + 1))) i
               = if Nat.eqb i w then -1 * (Z.of_nat w + 1) else label_at vec lab i t) as G0.
      { intros i. destruct (has_won vec w t) eqn:Eh; unfold upd; rewrite HL; destruct (Nat.eqb_spec i w); auto.
        subst. unfold label_at. rewrite Et, Eh. lia. }
      assert (forall i, i <> w -> label_at vec lab i (S t) = label_at vec lab i t) as G1.
      { intros i Hn. unfold label_at. simpl. rewrite Ef, Ew. destruct (taught vec lab i t); auto.
        destruct (Nat.eqb_spec w i); [congruence|]. rewrite andb_false_r, orb_false_r. auto. }
      assert (label_at vec lab w (S t) = if lab t =? 0 then - (Z.of_nat w + 1) else lab t) as G2.
      { unfold label_at. simpl. rewrite Et, Ef, Ew, Nat.eqb_refl, andb_true_r, orb_true_r.
        destruct (lab t =? 0); auto. }
      assert (exists ls, (forall i, ls i = if Nat.eqb i w then -1 * (Z.of_nat w + 1) else label_at vec lab i t) /\
               (if label_at vec lab w t =? 0
                then (upd (proto_labels st) w (-1 * (Z.of_nat w + 1)), w, -1 * (Z.of_nat w + 1))
                else (proto_labels st, w, label_at vec lab w t)) = (ls, w, -1 * (Z.of_nat w + 1))) as (ls & Hls & E).
      { destruct (has_won vec w t) eqn:Eh.
        - assert (label_at vec lab w t = - (Z.of_nat w + 1)) as Lw by (unfold label_at; rewrite Et, Eh; auto). rewrite Lw.
          destruct (Z.eqb_spec (- (Z.of_nat w + 1)) 0); [lia|]. exists (proto_labels st). split; auto; f_equal; lia.
        - assert (label_at vec lab w t = 0) as Lw by (unfold label_at; rewrite Et, Eh; auto). rewrite Lw.
          change (0 =? 0) with true. cbv iota. eexists. split; [|reflexivity]. auto. }
      rewrite E. clear E.
      rewrite (Hls w), Nat.eqb_refl.
      destruct (Z.eqb_spec (lab t) 0) as [E0|E0]; cbn [negb].
      * split; [split; cbn [fst proto_labels last_winner_id]; auto|].
        -- intros i. rewrite Hls. destruct (Nat.eqb_spec i w) as [->|Hn]; [rewrite G2; lia|rewrite G1; auto].
        -- cbn [snd]. f_equal; lia.
      * destruct (Z.ltb_spec 0 (-1 * (Z.of_nat w + 1))); [lia|]. destruct (Z.ltb_spec (-1 * (Z.of_nat w + 1)) 0); [|lia].
        cbn [fst snd proto_labels last_winner_id]. split; [split; auto|].
        -- intros i. unfold upd. destruct (Nat.eqb_spec i w) as [->|Hn]; [rewrite G2; auto|].
           rewrite Hls. destruct (Nat.eqb_spec i w); [congruence|]. rewrite G1; auto.
        -- reflexivity.
  - (* nobody *)
    assert (winner vec t = winner_before vec t) as Ew by (rewrite <- winner_now_eq; unfold winner_now; rewrite Ef; auto).
    rewrite Ew. destruct (winner_before vec t) as [w|] eqn:Eb.
    + subst w. set (w := last_winner_id st) in *. rewrite (HL w).
      assert (has_won vec w t = true) as Hwon.
      { destruct t; [discriminate|]. simpl in Eb. apply winner_won. auto. }
      destruct (taught vec lab w t) as [l|] eqn:Et.
      * pose proof (Tp _ _ Et). assert (label_at vec lab w t = l) as Lw by (unfold label_at; rewrite Et; auto). rewrite Lw.
        destruct (Z.ltb_spec 0 l); [|lia].
        assert (forall i, proto_labels st i = label_at vec lab i (S t)) as G.
        { intros i. rewrite HL. unfold label_at. simpl. rewrite Ef, Ew, orb_false_r.
          destruct (taught vec lab i t) eqn:Ei; auto.
          destruct (Nat.eqb_spec w i); [subst i; congruence|]. rewrite andb_false_r. auto. }
        destruct (lab t =? 0); cbn [negb]; [split; [split; [exact G|auto]|reflexivity]|].
      destruct (l =? lab t); (split; [split; [exact G|auto]|reflexivity]).
      * assert (label_at vec lab w t = - (Z.of_nat w + 1)) as Lw by (unfold label_at; rewrite Et, Hwon; auto). rewrite Lw.
        destruct (Z.ltb_spec 0 (- (Z.of_nat w + 1))); [lia|]. destruct (Z.ltb_spec (- (Z.of_nat w + 1)) 0); [|lia].
        assert (forall i, i <> w -> label_at vec lab i (S t) = label_at vec lab i t) as G1.
        { intros i Hn. unfold label_at. simpl. rewrite Ef, Ew, orb_false_r. destruct (taught vec lab i t); auto.
          destruct (Nat.eqb_spec w i); [congruence|]. rewrite andb_false_r. auto. }
        assert (label_at vec lab w (S t) = if lab t =? 0 then - (Z.of_nat w + 1) else lab t) as G2.
        { unfold label_at. simpl. rewrite Et, Ef, Ew, Nat.eqb_refl, andb_true_r, Hwon. simpl.
          destruct (lab t =? 0); auto. }
        destruct (Z.eqb_spec (lab t) 0) as [E0|E0]; cbn [negb].
        -- cbn. split; [split; auto|].
           ++ intros i. rewrite HL. destruct (Nat.eq_dec i w) as [->|Hn]; [|rewrite G1; auto].
              rewrite G2. unfold label_at. rewrite Et, Hwon. auto.
           ++ rewrite E0. reflexivity.
        -- cbn. split; [split; auto|reflexivity].
           intros i. unfold upd. destruct (Nat.eqb_spec i w) as [->|Hn]; [rewrite G2; auto|]. rewrite G1; auto.
    + destruct HW as [HW _].
      assert (forall i, proto_labels st i = 0) as Hz.
      { intros i. rewrite HL. unfold label_at. rewrite (no_winner_none _ _ _ Eb).
        destruct (taught vec lab i t) eqn:E; auto. apply Tw in E. rewrite (no_winner_none _ _ _ Eb) in E. discriminate. }
      rewrite Hz. change (0 <? 0) with false. cbn [fst snd].
      assert (forall i, proto_labels st i = label_at vec lab i (S t)) as G.
      { intros i. rewrite HL. unfold label_at. simpl. rewrite Ef, Ew, andb_false_r, orb_false_r.
        destruct (taught vec lab i t); auto. }
      assert (has_won vec 0 (S t) = false) as Hnw by (simpl; rewrite Ef, (no_winner_none _ _ _ Eb); auto).
      destruct (lab t =? 0); cbn [negb fst snd proto_labels last_winner_id]; auto.
Qed.
(** For a readout started without labels and user labels 1, 2, ... (0 = none): inferred label, feedback and
    allocation trigger are those of the history. *)
Theorem readout_exact_partial vec lab t : (forall u, 0 <= lab u) ->
  readout_sent (fun _ => 0) vec lab t = expected vec lab t /\
  forall i, proto_labels (readout_state (fun _ => 0) vec lab t) i = label_at vec lab i t.
Proof.
  intros Hl. assert (readout_ok vec lab t (readout_state (fun _ => 0) vec lab t)) as H.
  { induction t; [split; simpl; auto|]. simpl. apply readout_step_ok; auto. }
  split; [apply readout_step_ok; auto|]. apply H.
Qed.
(** With user-given initial labels, a user label that arrives before any inference is compared with
    prototype 0, although there was no winner. *)
Theorem readout_no_winner_refuted :
  ~ (forall labels vec lab t, (forall i, 0 <= labels i) -> (forall u, 0 <= lab u) ->
       winner vec t = None -> feedback (readout_sent labels vec lab t) = 0).
Proof.
  intros H. specialize (H (fun i => Z.of_nat i + 1) (fun _ => [0; 0]) (fun _ => 2) 0%nat).
  assert (-1 = 0); [|lia]. apply H; auto; intros; lia.
Qed.
Definition demo_vec (t : nat) : list Z := nth t [[0; 1; 0]; [0; 0; 0]; [1; 0; 0]; [0; 1; 0]; [0; 1; 0]; []] [].
Definition demo_lab (t : nat) : Z := nth t [0; 7; 0; 7; 5; 5] 0.
Example readout_demo :
  map (readout_sent (fun _ => 0) demo_vec demo_lab) (seq 0 6) =
  [{| user_output := -2; feedback := 0; trigger_alloc := 0 |};
   {| user_output := 7; feedback := 0; trigger_alloc := 0 |};
   {| user_output := -1; feedback := 0; trigger_alloc := 0 |};
   {| user_output := 7; feedback := 1; trigger_alloc := 0 |};
   {| user_output := 7; feedback := -1; trigger_alloc := 1 |};
   {| user_output := 0; feedback := -1; trigger_alloc := 1 |}].
Proof. reflexivity. Qed.

(** ** C53: the payload is sent at the steps period + 1, 2 * period + 1, ... (counted from 1), i.e. at the
    positive multiples of the period when steps are counted from 0 *)
Lemma spiker_counter rate payload t : 1 <= rate ->
  spiker_state rate payload t = if (t =? 0)%nat then 0 else (Z.of_nat t - 1) mod rate + 1.
Proof.
  intros Hr. induction t; auto. cbn [spiker_state]. rewrite IHt. clear IHt.
  replace (Z.of_nat (S t) - 1) with (Z.of_nat t) by lia. change (S t =? 0)%nat with false. cbv iota.
  unfold spiker_step. destruct (Nat.eqb_spec t 0) as [->|Hn].
  - destruct (Z.eqb_spec 0 rate); [lia|]. reflexivity.
  - pose proof (Z.div_mod (Z.of_nat t - 1) rate ltac:(lia)) as D.
    pose proof (Z.mod_pos_bound (Z.of_nat t - 1) rate ltac:(lia)) as B.
    destruct (Z.eqb_spec ((Z.of_nat t - 1) mod rate + 1) rate) as [E|E]; simpl.
    + rewrite <- (Z.mod_unique (Z.of_nat t) rate ((Z.of_nat t - 1) / rate + 1) 0); [auto|lia|nia].
    + rewrite <- (Z.mod_unique (Z.of_nat t) rate ((Z.of_nat t - 1) / rate) ((Z.of_nat t - 1) mod rate + 1)); [auto|lia|nia].
Qed.
Theorem spiker_exact rate payload t : 1 <= rate ->
  spiker_sent rate payload t = if (Nat.eqb t 0) || negb (Z.of_nat t mod rate =? 0) then 0 else payload.
Proof.
  intros Hr. unfold spiker_sent, spiker_step. rewrite spiker_counter by auto.
  destruct (Nat.eqb_spec t 0) as [->|Hn]; cbn [orb].
  - destruct rate; try lia; reflexivity.
  - pose proof (Z.div_mod (Z.of_nat t - 1) rate ltac:(lia)) as D.
    pose proof (Z.mod_pos_bound (Z.of_nat t - 1) rate ltac:(lia)) as B.
    assert (Z.of_nat t mod rate = ((Z.of_nat t - 1) mod rate + 1) mod rate) as E.
    { rewrite Zplus_mod_idemp_l. f_equal. lia. }
    rewrite E. destruct (Z.eqb_spec ((Z.of_nat t - 1) mod rate + 1) rate) as [E1|E1]; simpl.
    + rewrite E1, Z.mod_same by lia. auto.
    + rewrite Z.mod_small by lia. destruct (Z.eqb_spec ((Z.of_nat t - 1) mod rate + 1) 0); [lia|]. auto.
Qed.
Example spiker_demo : map (spiker_sent 3 9) (seq 0 11) = [0; 0; 0; 9; 0; 0; 9; 0; 0; 9; 0].
Proof. reflexivity. Qed.

Print Assumptions novelty_exact.
Print Assumptions novelty_single.
Print Assumptions allocator_ids_partial.
Print Assumptions allocator_unique.
Print Assumptions allocator_bound_refuted.
Print Assumptions readout_keeps_labels.
Print Assumptions readout_exact_partial.
Print Assumptions readout_no_winner_refuted.
Print Assumptions spiker_exact.
Print Assumptions winner_is_last_first_active.
