(** C87: one-shot learning with continually learning prototypes. *)
From Coq Require Import ZArith QArith List Bool Arith Lia String.
From Verif Require Import NpInt Bits_Model Learning_Model Learning_Props Factor3_Props Rule_Model ClpNet_Spec ClpNet_Model ClpNet_Proofs ClpNet_Step ClpNet_Window.
From Verif Require Lif_Model Conn_Model Clp_Model.
Import ListNotations.
Open Scope Z_scope.

(** the product of the model is the compiled form of the rule of the test *)
Theorem clp_rule_text : exists q, compile "2^-3*y1*x1*y0" = Some ([q], None) /\
  rp_dep q = p_dep clp_product /\ rp_mant q = p_mant clp_product /\ rp_exp q = p_exp clp_product /\ rp_decimate q = None /\
  List.map (fun f => (rf_var f, rf_const f, rf_sgn f)) (rp_factors q) = List.map (fun f => (f_var f, None, f_sgn f)) (p_factors clp_product).
Proof. eexists. split; [vm_compute; reflexivity|]. repeat apply conj; reflexivity. Qed.

(** how the network is set up: [w0] are the weights given by the user for the prototypes that are already in use, and the first free prototype is number [first] *)
Record setup (C : clp_cfg) (inp : nat -> nat -> Z) (r : nat -> rnd) (w0 : nat -> nat -> Z) (first : Z) : Prop := {
  su_sane : sane C;
  su_rnd : forall n, rnd_ok (r n);
  su_in : eight_bit (n_features C) inp;
  su_spaced : spaced (wait_steps C + 4) (n_features C) inp;
  su_w : forall m k, (m < n_protos C)%nat -> (k < n_features C)%nat -> hw_range (sign_mode_of C) SWeights (w0 m k);
  su_first : 1 <= first <= Z.of_nat (n_protos C) + 1;
  su_free : forall m k, (m < n_protos C)%nat -> (k < n_features C)%nat -> first - 1 <= Z.of_nat m -> w0 m k = 0
}.
(** in step [n] the network sends [o] with the given property *)
Definition sends (out : nat -> option clp_out) (n : nat) (P : clp_out -> Prop) : Prop := exists o, out n = Some o /\ P o.
(** before step [n] the weights are [w] and the next prototype is number [N] *)
Definition memory (C : clp_cfg) (run : nat -> option clp) (n : nat) (w : nat -> nat -> Z) (N : Z) : Prop :=
  exists s, run n = Some s /\ (forall m k, (m < n_protos C)%nat -> (k < n_features C)%nat -> W s m k = w m k) /\ c_next s = N.

Section Run.
Variables (C : clp_cfg) (inp : nat -> nat -> Z) (r : nat -> rnd) (w0 : nat -> nat -> Z) (first : Z).
Hypothesis SU : setup C inp r w0 first.
Notation nf := (n_features C).
Notation np := (n_protos C).
Notation s0 := (clp_init C w0 first).
Notation run := (net_run C inp r s0).
Notation out := (net_out C inp r s0).
Notation tw := (wait_steps C).
Notation settled := (settled C inp r s0).

Lemma init_settled : settled 0 w0 first 0 s0.
Proof using SU.
  destruct SU as [S1 S2 S3 S4 S5 S6 S7]. pose proof (some_protos C S1) as SP.
  assert (waiting_id s0 = 0) as E by (unfold waiting_id, first_buf; cbn [clp_init d_third fresh Conn_Model.a_buff]; destruct np; reflexivity).
  constructor; auto.
  - split; [reflexivity|]. split; [|intros k Hk; reflexivity].
    constructor; try reflexivity.
    + intros m k Hm Hk. apply S5; auto.
    + intros k Hk. cbn [clp_init c_conn x1]. lia.
    + cbn. lia.
    + cbn. lia.
  - intros m k Hm Hk. reflexivity.
  - intros m Hm. reflexivity.
  - intros m Hm. cbn [clp_init c_proto pv level]. pose proof (vth_range C S1). lia.
Qed.
Lemma blank_or n : blank C inp n \/ presented nf inp n.
Proof using.
  destruct (nobody_dec (fun k => negb (inp n k =? 0)) nf) as [H|(k & Hk & H)].
  - left. intros k Hk. specialize (H k Hk). cbn in H. apply negb_false_iff, Z.eqb_eq in H. exact H.
  - right. exists k. split; [auto|]. apply negb_true_iff, Z.eqb_neq in H. exact H.
Qed.
Lemma window_blank t j : presented nf inp t -> (1 <= j < tw + 4)%nat -> blank C inp (t + j).
Proof using SU.
  intros Hp Hj. destruct (blank_or (t + j)) as [H|H]; [auto|]. pose proof (su_spaced _ _ _ _ _ SU t (t + j)%nat Hp H ltac:(lia)). lia.
Qed.
Definition someone (w : nat -> nat -> Z) (p : nat -> Z) : Prop := exists m, (m < np)%nat /\ responds C (w m) p = true.
Lemma memory_settled l w N n s : settled l w N n s -> memory C run n w N.
Proof using. intros H. exists s. split; [apply H|]. split; [apply H|apply H]. Qed.
Lemma memory_pending j w N n s : pending C inp r s0 j w N n s -> memory C run n w N.
Proof using. intros H. exists s. split; [apply H|]. split; [apply H|apply H]. Qed.

(** the steps in which the novelty detector waits *)
Lemma waiting_steps n s w N : pending C inp r s0 1 w N n s -> first_buf (d_out s) = 0 -> forall j, (j <= tw)%nat -> (forall i, (i < j)%nat -> blank C inp (n + i)) ->
  (exists s', pending C inp r s0 (S j) w N (n + j) s' /\ first_buf (d_out s') = 0) /\ forall i, (i < j)%nat -> sends out (n + i) (silent C).
Proof using SU.
  intros HP Hd. pose proof (wait_pos C (su_sane _ _ _ _ _ SU)) as WP. induction j as [|j IH]; intros Hj Hb.
  - rewrite Nat.add_0_r. split; [eauto|intros i H; lia].
  - destruct (IH ltac:(lia) ltac:(intros; apply Hb; lia)) as ((s1 & P1 & D1) & O1).
    destruct (waits C inp r s0 (su_sane _ _ _ _ _ SU) (su_rnd _ _ _ _ _ SU) (su_in _ _ _ _ _ SU) _ _ _ _ _ P1 D1 (Hb j ltac:(lia)) ltac:(unfold wait_steps in *; lia)) as (s2 & o & P2 & D2 & O2 & O3).
    rewrite Nat.add_succ_r. split; [eauto|]. intros i Hi. destruct (Nat.eq_dec i j) as [->|]; [exists o; auto|]. apply O1. lia.
Qed.

Lemma window t s w N : settled 0 w N t s -> presented nf inp t ->
  sends out t (silent C) /\
  sends out (t + 1) (fun o => (forall m, (m < np)%nat -> o_spk o m = responds C (w m) (inp t)) /\ nobody (o_bap o) np /\ o_nov o = 0 /\ o_id o = 0) /\
  (someone w (inp t) ->
     (forall j, (2 <= j <= tw + 3)%nat -> sends out (t + j) (silent C)) /\
     (forall j, (j <= tw + 4)%nat -> memory C run (t + j) w N) /\ exists s', settled 0 w N (t + (tw + 4)) s') /\
  (~ someone w (inp t) ->
     (forall j, (2 <= j <= tw + 1)%nat -> sends out (t + j) (silent C)) /\
     sends out (t + (tw + 2)) (fun o => nobody (o_spk o) np /\ nobody (o_bap o) np /\ o_nov o = 1 /\ o_id o = N) /\
     (forall j, (j <= tw + 2)%nat -> memory C run (t + j) w N) /\ memory C run (t + (tw + 3)) w (N + 1) /\
     (N = Z.of_nat np + 1 -> run (t + (tw + 4)) = None) /\
     (N <= Z.of_nat np ->
        sends out (t + (tw + 3)) (fun o => only (Z.to_nat (N - 1)) (o_spk o) np /\ only (Z.to_nat (N - 1)) (o_bap o) np /\ o_nov o = 0 /\ o_id o = 0) /\
        exists w' s', settled 0 w' (N + 1) (t + (tw + 4)) s' /\ 
          (forall m k, (m < np)%nat -> (k < nf)%nat -> m <> Z.to_nat (N - 1) -> w' m k = w m k) /\
          (forall k, (k < nf)%nat -> stored_for (latest inp k (t + (tw + 3))) (t + (tw + 3)) (w' (Z.to_nat (N - 1)) k)))).
Proof using SU.
  intros Hs Hp. pose proof (su_sane _ _ _ _ _ SU) as HC. pose proof (su_rnd _ _ _ _ _ SU) as Hr. pose proof (su_in _ _ _ _ _ SU) as Hi. pose proof (wait_pos C HC) as WP.
  pose proof (window_blank t) as Hb. specialize (fun j => Hb j Hp) as Hb.
  destruct (presentation C inp r s0 HC Hr Hi t s w N Hs Hp ltac:(rewrite <- Nat.add_1_r; apply Hb; lia)) as ((o0 & O1 & O2) & (s1 & A1 & A2 & A3) & s2 & o2 & P & O3 & O4 & O5 & O6 & O7 & D).
  replace (S (S t)) with (t + 2)%nat in P by lia. replace (S t) with (t + 1)%nat in * by lia.
  split; [exists o0; auto|]. split; [exists o2; auto|]. split.
  - intros (m & Hm & Hf).
    assert (first_buf (d_out s2) <> 0) as Hd by (rewrite D; apply count_some with (m := m); [auto|rewrite O4; auto]).
    destruct (answered C inp r s0 HC Hr Hi _ _ _ _ _ P Hd (Hb 2%nat ltac:(lia))) as (s3 & o3 & S3 & O8 & O9). cbn [Nat.sub pred] in S3. replace (S (t + 2)) with (t + 3)%nat in S3 by lia.
    assert (forall j, exists s', (3 <= 3 + j <= tw + 4)%nat -> settled (1 - j) w N (t + (3 + j)) s' /\ forall i, (i < j)%nat -> sends out (t + (3 + i)) (silent C)) as Hj.
    { intros j. destruct (le_lt_dec (3 + j) (tw + 4)) as [L|]; [|exists s; intros; lia].
      destruct (idles C inp r s0 HC Hr Hi (t + 3) j s3 1 w N S3 ltac:(intros i H; rewrite <- Nat.add_assoc; apply Hb; lia)) as (s4 & S4 & O10). exists s4. intros _.
      rewrite Nat.add_assoc. split; [auto|]. intros i H. rewrite Nat.add_assoc. exact (O10 i H). }
    split; [|split].
    + intros j H. destruct (Nat.eq_dec j 2) as [->|]; [exists o3; auto|]. destruct (Hj (j - 2)%nat) as (s4 & H4). destruct (H4 ltac:(lia)) as [_ H5]. specialize (H5 (j - 3)%nat ltac:(lia)).
      replace (3 + (j - 3))%nat with j in H5 by lia. exact H5.
    + intros j H. destruct j as [|[|[|j]]].
      * rewrite Nat.add_0_r. apply memory_settled in Hs. exact Hs.
      * exists s1. split; [apply A1|]. split; [exact A2|exact A3].
      * apply memory_pending in P. exact P.
      * destruct (Hj j) as (s4 & H4). destruct (H4 ltac:(lia)) as [H5 _]. apply memory_settled in H5. exact H5.
    + destruct (Hj (tw + 1)%nat) as (s4 & H4). destruct (H4 ltac:(lia)) as [H5 _]. exists s4. replace (1 - (tw + 1))%nat with 0%nat in H5 by lia. replace (3 + (tw + 1))%nat with (tw + 4)%nat in H5 by lia. exact H5.
  - intros Hno.
    assert (nobody (o_spk o2) np) as Hn. { intros m Hm. rewrite O4 by auto. destruct (responds C (w m) (inp t)) eqn:E; [|reflexivity]. exfalso. apply Hno. exists m. auto. }
    assert (first_buf (d_out s2) = 0) as Hd by (rewrite D; apply count_none; auto).
    assert (forall j, (j <= tw)%nat -> (exists s', pending C inp r s0 (S j) w N (t + 2 + j) s' /\ first_buf (d_out s') = 0) /\ forall i, (i < j)%nat -> sends out (t + 2 + i) (silent C)) as Hw.
    { intros j H. apply (waiting_steps _ _ _ _ P Hd j H). intros i H'. rewrite <- Nat.add_assoc. apply Hb. lia. }
    destruct (Hw tw (Nat.le_refl _)) as ((s3 & P3 & D3) & O8).
    destruct (gives_up C inp r s0 HC Hr Hi _ _ _ _ _ P3 D3 ltac:(rewrite <- Nat.add_assoc; apply Hb; lia) ltac:(unfold wait_steps; lia)) as (s4 & o4 & A4 & O9 & O10 & O11 & O12 & O13).
    replace (S (t + 2 + tw)) with (t + (tw + 3))%nat in A4 by lia. replace (t + 2 + tw)%nat with (t + (tw + 2))%nat in * by lia.
    split; [|split; [|split; [|split; [|split]]]].
    + intros j H. specialize (O8 (j - 2)%nat ltac:(lia)). replace (t + 2 + (j - 2))%nat with (t + j)%nat in O8 by lia. exact O8.
    + exists o4. auto.
    + intros j H. destruct j as [|[|j]].
      * rewrite Nat.add_0_r. apply memory_settled in Hs. exact Hs.
      * exists s1. split; [apply A1|]. split; [exact A2|exact A3].
      * destruct (Hw j ltac:(lia)) as ((s5 & P5 & _) & _). apply memory_pending in P5. replace (t + S (S j))%nat with (t + 2 + j)%nat by lia. exact P5.
    + exists s4. split; [apply A4|]. split; [apply A4|apply A4].
    + intros HN. pose proof (raises C inp r s0 HC _ _ _ _ A4 HN) as R. replace (t + (tw + 4))%nat with (S (t + (tw + 3))) by lia. exact R.
    + intros HN. destruct (stores C inp r s0 HC Hr Hi _ _ _ _ A4 HN (Hb (tw + 3)%nat ltac:(lia))) as (s5 & o5 & w' & S5 & O14 & O15 & O16 & O17 & O18 & O19 & O20).
      split; [exists o5; auto|]. exists w', s5. replace (t + (tw + 4))%nat with (S (t + (tw + 3))) by lia. auto.
Qed.
Lemma someone_dec w p : someone w p \/ ~ someone w p.
Proof using.
  destruct (nobody_dec (fun m => responds C (w m) p) np) as [H|H]; [|left; exact H]. right. intros (m & Hm & E). specialize (H m Hm). cbn in H. congruence.
Qed.
Lemma settled_unique l w N n s : settled l w N n s -> forall l' w' N' s', settled l' w' N' n s' -> s = s' /\ N = N' /\ forall m k, (m < np)%nat -> (k < nf)%nat -> w m k = w' m k.
Proof using.
  intros H l' w' N' s' H'. assert (s = s') as <-. { destruct H as [(R & _) _ _ _ _ _ _ _ _ _], H' as [(R' & _) _ _ _ _ _ _ _ _ _]. congruence. }
  split; [reflexivity|]. split; [rewrite <- (se_next _ _ _ _ _ _ _ _ _ H); apply (se_next _ _ _ _ _ _ _ _ _ H')|].
  intros m k Hm Hk. rewrite <- (se_w _ _ _ _ _ _ _ _ _ H m k Hm Hk). apply (se_w _ _ _ _ _ _ _ _ _ H'); auto.
Qed.
(** later resting states keep the prototypes that are in use *)
Definition extends (w : nat -> nat -> Z) (N : Z) (w' : nat -> nat -> Z) (N' : Z) : Prop :=
  N <= N' /\ forall m k, (m < np)%nat -> (k < nf)%nat -> Z.of_nat m < N - 1 -> w' m k = w m k.
Lemma cycle n0 w N st : settled 0 w N n0 st -> forall n sn, (n0 <= n)%nat -> run n = Some sn ->
  exists t w' N' s, (n0 <= t <= n)%nat /\ settled 0 w' N' t s /\ extends w N w' N' /\ (t = n \/ presented nf inp t /\ (n < t + (tw + 4))%nat).
Proof using SU.
  intros H0 n. pose proof (su_sane _ _ _ _ _ SU) as HC. pose proof (su_rnd _ _ _ _ _ SU) as Hr. pose proof (su_in _ _ _ _ _ SU) as Hi.
  induction n as [|n IH]; intros sn Hn R.
  - assert (n0 = 0%nat) as -> by lia. exists 0%nat, w, N, st. split; [lia|]. split; [auto|]. split; [split; [lia|auto]|auto].
  - destruct (Nat.eq_dec n0 (S n)) as [->|]. { exists (S n), w, N, st. split; [lia|]. split; [auto|]. split; [split; [lia|auto]|auto]. }
    assert (exists s1, run n = Some s1) as (s1 & R1). { cbn [net_run] in R. destruct (run n); [eauto|discriminate R]. }
    destruct (IH s1 ltac:(lia) R1) as (t & w' & N' & s & Ht & S & E & [->|(Hp & Hlt)]).
    + destruct (blank_or n) as [Hb|Hp].
      * destruct (idle C inp r s0 HC Hr Hi _ _ _ _ _ S Hb) as (s' & o & S' & _). cbn [pred] in S'. exists (Datatypes.S n), w', N', s'. split; [lia|]. auto.
      * exists n, w', N', s. split; [lia|]. split; [auto|]. split; [auto|]. right. split; [auto|lia].
    + destruct (Nat.eq_dec (Datatypes.S n) (t + (tw + 4))) as [Eq|Ne].
      * destruct (window t s w' N' S Hp) as (_ & _ & Wa & Wb). rewrite Eq in *. destruct (someone_dec w' (inp t)) as [Y|No].
        -- destruct (Wa Y) as (_ & _ & s' & S'). exists (t + (tw + 4))%nat, w', N', s'. split; [lia|]. auto.
        -- destruct (Wb No) as (_ & _ & _ & _ & Wf & Wg). pose proof (se_range _ _ _ _ _ _ _ _ _ S) as Rg.
           assert (N' <= Z.of_nat np) as HN by (destruct (Z.eq_dec N' (Z.of_nat np + 1)) as [X|]; [rewrite (Wf X) in R; discriminate R|lia]).
           destruct (Wg HN) as (_ & w'' & s' & S' & Q1 & Q2). exists (t + (tw + 4))%nat, w'', (N' + 1), s'. split; [lia|]. split; [auto|]. split; [|auto].
           destruct E as [E1 E2]. split; [lia|]. intros m k Hm Hk Hlow. rewrite Q1 by (auto; lia). apply E2; auto.
      * exists t, w', N', s. split; [lia|]. split; [auto|]. split; [auto|]. right. split; [auto|lia].
Qed.
(** at every presentation the network is at rest *)
Lemma at_rest t st : run t = Some st -> presented nf inp t -> settled 0 (W st) (c_next st) t st.
Proof using SU.
  intros R Hp. destruct (cycle 0 w0 first s0 init_settled t st ltac:(lia) R) as (t' & w' & N' & s & Ht & S & _ & [->|(Hp' & Hlt)]).
  - assert (s = st) as -> by (destruct S as [(R' & _) _ _ _ _ _ _ _ _ _]; congruence).
    destruct S as [A1 A2 A3 A4 A5 A6 A7 A8 A9 A10]. constructor; auto; [intros m k _ _; reflexivity|lia|].
    rewrite A3. intros m k Hm Hk Hf. rewrite A2 by auto. apply A5; auto.
  - destruct (Nat.eq_dec t' t) as [->|Ne].
    + assert (s = st) as -> by (destruct S as [(R' & _) _ _ _ _ _ _ _ _ _]; congruence).
      destruct S as [A1 A2 A3 A4 A5 A6 A7 A8 A9 A10]. constructor; auto; [intros m k _ _; reflexivity|lia|].
      rewrite A3. intros m k Hm Hk Hf. rewrite A2 by auto. apply A5; auto.
    + pose proof (su_spaced _ _ _ _ _ SU t' t Hp' Hp ltac:(lia)). lia.
Qed.
End Run.

(** ** Theorems *)
(** the overlaps fit the 24-bit membrane: below 2^17 in magnitude *)
Definition representable (C : clp_cfg) (s : clp) (p : nat -> Z) : Prop := forall m, (m < n_protos C)%nat -> Z.abs (overlap (n_features C) (W s m) p) < 131072.
Definition recognised (C : clp_cfg) (s : clp) (p : nat -> Z) : Prop := exists m, (m < n_protos C)%nat /\ vth C < overlap (n_features C) (W s m) p.

Theorem clp_presentation_partial : forall C inp r w0 first t s, setup C inp r w0 first ->
  let run := net_run C inp r (clp_init C w0 first) in let out := net_out C inp r (clp_init C w0 first) in
  let tw := wait_steps C in let nf := n_features C in let np := n_protos C in
  run t = Some s -> presented nf inp t -> representable C s (inp t) ->
  (* in the step after the presentation exactly the prototypes spike whose overlap exceeds the threshold *)
  sends out t (silent C) /\
  sends out (t + 1) (fun o => (forall m, (m < np)%nat -> o_spk o m = (vth C <? overlap nf (W s m) (inp t))) /\ nobody (o_bap o) np /\ o_nov o = 0 /\ o_id o = 0) /\
  (* if there is one, nothing else happens *)
  (recognised C s (inp t) ->
     (forall j, (2 <= j <= tw + 3)%nat -> sends out (t + j) (silent C)) /\
     (forall j, (j <= tw + 4)%nat -> memory C run (t + j) (W s) (c_next s))) /\
  (* otherwise novelty is signalled once and the next prototype learns the pattern, if there is one left *)
  (~ recognised C s (inp t) ->
     (forall j, (2 <= j <= tw + 1)%nat -> sends out (t + j) (silent C)) /\
     sends out (t + (tw + 2)) (fun o => nobody (o_spk o) np /\ nobody (o_bap o) np /\ o_nov o = 1 /\ o_id o = c_next s) /\
     (forall j, (j <= tw + 2)%nat -> memory C run (t + j) (W s) (c_next s)) /\ memory C run (t + (tw + 3)) (W s) (c_next s + 1) /\
     (c_next s = Z.of_nat np + 1 -> run (t + (tw + 4))%nat = None) /\
     (c_next s <= Z.of_nat np ->
        let me := Z.to_nat (c_next s - 1) in
        sends out (t + (tw + 3)) (fun o => only me (o_spk o) np /\ only me (o_bap o) np /\ o_nov o = 0 /\ o_id o = 0) /\
        exists w', memory C run (t + (tw + 4)) w' (c_next s + 1) /\
          (forall m k, (m < np)%nat -> (k < nf)%nat -> m <> me -> w' m k = W s m k) /\
          (forall k, (k < nf)%nat -> stored_for (latest inp k (t + (tw + 3))) (t + (tw + 3)) (w' me k)))).
Proof.
  intros C inp r w0 first t s SU run out tw nf np R Hp Hrep.
  pose proof (at_rest C inp r w0 first SU t s R Hp) as S. destruct (window C inp r w0 first SU t s _ _ S Hp) as (Wa & Wb & Wc & Wd).
  assert (forall m, (m < np)%nat -> responds C (W s m) (inp t) = (vth C <? overlap nf (W s m) (inp t))) as Er by (intros m Hm; apply responds_exact, Hrep, Hm).
  assert (recognised C s (inp t) <-> someone C (W s) (inp t)) as Ers.
  { split; intros (m & Hm & H); exists m; (split; [auto|]).
    - rewrite Er by auto. apply Z.ltb_lt. exact H.
    - rewrite Er in H by auto. apply Z.ltb_lt. exact H. }
  split; [exact Wa|]. split.
  { destruct Wb as (o & O1 & O2 & O3). exists o. split; [exact O1|]. split; [|exact O3]. intros m Hm. rewrite O2 by auto. apply Er. auto. }
  split.
  - intros Hy. destruct (Wc (proj1 Ers Hy)) as (H1 & H2 & _). auto.
  - intros Hno. destruct (Wd (fun H => Hno (proj2 Ers H))) as (H1 & H2 & H3 & H4 & H5 & H6). split; [auto|]. split; [auto|]. split; [auto|]. split; [auto|]. split; [auto|].
    intros HN. destruct (H6 HN) as (G1 & w' & s' & G2 & G3 & G4). split; [exact G1|]. exists w'. split; [eapply memory_settled, G2|]. split; [exact G3|exact G4].
Qed.

(** outside of these windows nothing is sent and nothing changes *)
Theorem clp_idle_between : forall C inp r w0 first n s, setup C inp r w0 first ->
  let run := net_run C inp r (clp_init C w0 first) in let out := net_out C inp r (clp_init C w0 first) in
  run n = Some s -> (forall t, presented (n_features C) inp t -> (t <= n)%nat -> (t + wait_steps C + 4 <= n)%nat) ->
  sends out n (silent C) /\ memory C run (S n) (W s) (c_next s).
Proof.
  intros C inp r w0 first n s SU run out R Hno. pose proof (su_sane _ _ _ _ _ SU) as HC. pose proof (su_rnd _ _ _ _ _ SU) as Hr. pose proof (su_in _ _ _ _ _ SU) as Hi.
  destruct (cycle C inp r w0 first SU 0 w0 first _ (init_settled C inp r w0 first SU) n s ltac:(lia) R) as (t' & w' & N' & s' & Ht & S & _ & [->|(Hp' & Hlt)]).
  - assert (s' = s) as -> by (destruct S as [(R' & _) _ _ _ _ _ _ _ _ _]; unfold run in R; congruence).
    assert (blank C inp n) as Hb by (destruct (blank_or C inp n) as [|Hp]; [auto|specialize (Hno n Hp (Nat.le_refl n)); lia]).
    destruct (idle C inp r _ HC Hr Hi _ _ _ _ _ S Hb) as (s2 & o & S2 & O1 & O2). split; [exists o; auto|].
    apply memory_settled in S2. destruct S2 as (s3 & Q1 & Q2 & Q3). exists s3. split; [exact Q1|].
    split; [intros m k Hm Hk; rewrite Q2 by auto; symmetry; apply (se_w _ _ _ _ _ _ _ _ _ S); auto|rewrite Q3; symmetry; apply (se_next _ _ _ _ _ _ _ _ _ S)].
  - specialize (Hno t' Hp' ltac:(lia)). lia.
Qed.

(** the only exception is the one for too few prototypes *)
Theorem clp_raises_only_when_full : forall C inp r w0 first n, setup C inp r w0 first ->
  let run := net_run C inp r (clp_init C w0 first) in
  run (S n) = None -> run n <> None ->
  exists t s, run t = Some s /\ presented (n_features C) inp t /\ n = (t + (wait_steps C + 3))%nat /\ c_next s = Z.of_nat (n_protos C) + 1 /\
    (representable C s (inp t) -> ~ recognised C s (inp t)).
Proof.
  intros C inp r w0 first n SU run R1 R0. pose proof (su_sane _ _ _ _ _ SU) as HC. pose proof (su_rnd _ _ _ _ _ SU) as Hr. pose proof (su_in _ _ _ _ _ SU) as Hi.
  destruct (run n) as [s|] eqn:R; [clear R0|congruence].
  destruct (cycle C inp r w0 first SU 0 w0 first _ (init_settled C inp r w0 first SU) n s ltac:(lia) R) as (t & w' & N' & s' & Ht & Sx & _ & Hor).
  assert (presented (n_features C) inp t /\ (n < t + (wait_steps C + 4))%nat) as (Hp & Hlt).
  { destruct Hor as [->|H]; [|exact H]. destruct (blank_or C inp n) as [Hb|Hp]; [|split; [exact Hp|lia]]. exfalso.
    destruct (idle C inp r _ HC Hr Hi _ _ _ _ _ Sx Hb) as (s2 & o & S2 & _). apply memory_settled in S2. destruct S2 as (s3 & Q1 & _). unfold run in R1. congruence. }
  destruct (window C inp r w0 first SU t s' _ _ Sx Hp) as (_ & _ & Wc & Wd).
  assert (forall w N j, memory C run (t + j) w N -> S n <> t + j)%nat as Hm by (intros w N j (s3 & Q1 & _) E; rewrite <- E in Q1; congruence).
  destruct (someone_dec C w' (inp t)) as [Y|No].
  - exfalso. destruct (Wc Y) as (_ & H & _). apply (Hm _ _ (S n - t)%nat (H (S n - t)%nat ltac:(lia))). lia.
  - destruct (Wd No) as (_ & _ & H3 & H4 & H5 & H6). exists t, s'.
    assert (n = t + (wait_steps C + 3))%nat as En.
    { destruct (Nat.eq_dec n (t + (wait_steps C + 3))) as [|Ne]; [auto|exfalso]. destruct (Nat.eq_dec n (t + (wait_steps C + 2))) as [->|].
      - apply (Hm _ _ _ H4). lia.
      - apply (Hm _ _ (S n - t)%nat (H3 (S n - t)%nat ltac:(lia))). lia. }
    pose proof (se_range _ _ _ _ _ _ _ _ _ Sx) as Rg. pose proof (se_next _ _ _ _ _ _ _ _ _ Sx) as EN.
    split; [apply Sx|]. split; [auto|]. split; [auto|]. split.
    + rewrite EN. destruct (Z.eq_dec N' (Z.of_nat (n_protos C) + 1)) as [|Ne]; [auto|]. exfalso. destruct (H6 ltac:(lia)) as (_ & w'' & s2 & S2 & _). apply memory_settled in S2. apply (Hm _ _ _ S2). lia.
    + intros Hrep (m & Hmm & Ho). apply No. exists m. split; [auto|].
      rewrite (responds_ext C (w' m) (W s' m)) by (intros k Hk; symmetry; apply (se_w _ _ _ _ _ _ _ _ _ Sx); auto).
      rewrite responds_exact by (apply Hrep; auto). apply Z.ltb_lt. exact Ho.
Qed.

Lemma run_none C inp r s0 n j : net_run C inp r s0 n = None -> net_run C inp r s0 (n + j) = None.
Proof. intros H. induction j as [|j IH]; [rewrite Nat.add_0_r; auto|]. rewrite Nat.add_succ_r. cbn [net_run]. rewrite IH. reflexivity. Qed.
Lemma run_some C inp r s0 n j s : net_run C inp r s0 (n + j) = Some s -> exists s', net_run C inp r s0 n = Some s'.
Proof. intros H. destruct (net_run C inp r s0 n) eqn:E; [eauto|]. rewrite run_none in H by auto. discriminate H. Qed.
Lemma latest_window inp k t j : inp t k <> 0 -> (forall i, (1 <= i <= j)%nat -> inp (t + i)%nat k = 0) -> latest inp k (t + j) = Some (t, inp t k).
Proof.
  intros Hn. induction j as [|j IH]; intros H.
  - rewrite Nat.add_0_r. apply latest_now. apply negb_true_iff, Z.eqb_neq. exact Hn.
  - rewrite Nat.add_succ_r. rewrite latest_before by (apply negb_false_iff, Z.eqb_eq; rewrite <- Nat.add_succ_r; apply H; lia). apply IH. intros; apply H; lia.
Qed.

(** the same pattern is presented at [t] and at [t'] *)
Definition same_pattern (nf : nat) (inp : nat -> nat -> Z) (t t' : nat) : Prop := forall k, (k < nf)%nat -> inp t k = inp t' k.
Lemma answer_lasts C inp r w0 first t t' s' w N st m : setup C inp r w0 first ->
  let run := net_run C inp r (clp_init C w0 first) in let out := net_out C inp r (clp_init C w0 first) in
  (t <= t')%nat -> run t' = Some s' -> presented (n_features C) inp t' -> settled C inp r (clp_init C w0 first) 0 w N t st ->
  (m < n_protos C)%nat -> Z.of_nat m < N - 1 -> responds C (w m) (inp t') = true ->
  sends out (t' + 1) (fun o => o_spk o m = true) /\ (forall j, (2 <= j <= wait_steps C + 3)%nat -> sends out (t' + j) (silent C)) /\
  (forall j, (j <= wait_steps C + 4)%nat -> memory C run (t' + j) (W s') (c_next s')).
Proof.
  intros SU run out Ht R Hp HS Hm HN Hresp. pose proof (at_rest C inp r w0 first SU t' s' R Hp) as S'.
  destruct (cycle C inp r w0 first SU t w N st HS t' s' Ht R) as (u & w' & N' & s2 & Hu & S2 & (_ & E2) & Hor).
  assert (u = t') as ->. { destruct Hor as [|(Hpu & Hlt)]; [auto|]. destruct (Nat.eq_dec u t'); [auto|]. pose proof (su_spaced _ _ _ _ _ SU u t' Hpu Hp ltac:(lia)). lia. }
  destruct (settled_unique C inp r w0 first _ _ _ _ _ S2 _ _ _ _ S') as (_ & _ & Ew).
  assert (responds C (W s' m) (inp t') = true) as Hr2.
  { rewrite (responds_ext C (W s' m) (w m)); [exact Hresp|]. intros k Hk. rewrite <- Ew by auto. apply E2; auto. }
  destruct (window C inp r w0 first SU t' s' _ _ S' Hp) as (_ & Wb & Wc & _).
  destruct (Wc (ex_intro _ m (conj Hm Hr2))) as (H1 & H2 & _).
  split; [|split; [exact H1|exact H2]]. destruct Wb as (o & O1 & O2 & _). exists o. split; [exact O1|]. rewrite O2 by auto. exact Hr2.
Qed.

(** a pattern that was recognised when it was presented is recognised whenever it is presented again, and changes nothing *)
Theorem clp_recognition_is_permanent : forall C inp r w0 first t t' s s', setup C inp r w0 first ->
  let run := net_run C inp r (clp_init C w0 first) in let out := net_out C inp r (clp_init C w0 first) in
  (t < t')%nat -> run t = Some s -> run t' = Some s' -> presented (n_features C) inp t -> same_pattern (n_features C) inp t t' ->
  representable C s (inp t) -> recognised C s (inp t) ->
  sends out (t' + 1) (fun o => exists m, (m < n_protos C)%nat /\ o_spk o m = true) /\ (forall j, (2 <= j <= wait_steps C + 3)%nat -> sends out (t' + j) (silent C)) /\
  (forall j, (j <= wait_steps C + 4)%nat -> memory C run (t' + j) (W s') (c_next s')).
Proof.
  intros C inp r w0 first t t' s s' SU run out Ht R R' Hp Hsame Hrep (m & Hm & Ho).
  assert (presented (n_features C) inp t') as Hp' by (destruct Hp as (k & Hk & Hn); exists k; split; [auto|rewrite <- Hsame; auto]).
  pose proof (at_rest C inp r w0 first SU t s R Hp) as S.
  assert (Z.of_nat m < c_next s - 1) as HN.
  { destruct (Z.lt_ge_cases (Z.of_nat m) (c_next s - 1)) as [|G]; [auto|exfalso].
    rewrite overlap_zero in Ho by (intros k Hk; rewrite (se_free _ _ _ _ _ _ _ _ _ S m k Hm Hk) by lia; lia). pose proof (vth_range C (su_sane _ _ _ _ _ SU)). lia. }
  assert (responds C (W s m) (inp t') = true) as Hresp.
  { assert (overlap (n_features C) (W s m) (inp t) = overlap (n_features C) (W s m) (inp t')) as Eo by (apply overlap_ext; intros k Hk; split; [reflexivity|apply Hsame; auto]).
    rewrite responds_exact by (rewrite <- Eo; apply Hrep; auto). apply Z.ltb_lt. rewrite <- Eo. exact Ho. }
  destruct (answer_lasts C inp r w0 first t t' s' _ _ _ m SU ltac:(lia) R' Hp' S Hm HN Hresp) as (H1 & H2 & H3).
  split; [|split; [exact H2|exact H3]]. destruct H1 as (o & O1 & O2). exists o. split; [exact O1|]. exists m. auto.
Qed.

(** one shot: after a pattern without zero features was presented once, it is recognised whenever it is presented again, provided that its
    squared length, less what the learning loses, exceeds the threshold *)
Theorem clp_learns_in_one_shot_partial : forall C inp r w0 first t t' s', setup C inp r w0 first ->
  let run := net_run C inp r (clp_init C w0 first) in let out := net_out C inp r (clp_init C w0 first) in
  let loss := 2 * (Z.of_nat (wait_steps C) + 3) + 8 in
  (t < t')%nat -> run t' = Some s' -> (0 < n_features C)%nat -> (forall k, (k < n_features C)%nat -> 0 < inp t k) -> same_pattern (n_features C) inp t t' ->
  vth C < overlap (n_features C) (fun k => inp t k - loss) (inp t) -> overlap (n_features C) (fun k => inp t k + 1) (inp t) < 131072 ->
  sends out (t' + 1) (fun o => exists m, (m < n_protos C)%nat /\ o_spk o m = true) /\ (forall j, (2 <= j <= wait_steps C + 3)%nat -> sends out (t' + j) (silent C)) /\
  (forall j, (j <= wait_steps C + 4)%nat -> memory C run (t' + j) (W s') (c_next s')).
Proof.
  intros C inp r w0 first t t' s' SU run out loss Ht R' Hnf Hpos Hsame Hlow Hhigh.
  assert (presented (n_features C) inp t) as Hp by (exists 0%nat; split; [auto|specialize (Hpos 0%nat Hnf); lia]).
  assert (presented (n_features C) inp t') as Hp' by (destruct Hp as (k & Hk & Hn); exists k; split; [auto|rewrite <- Hsame; auto]).
  pose proof (su_spaced _ _ _ _ _ SU t t' Hp Hp' Ht) as Hgap.
  destruct (run_some C inp r (clp_init C w0 first) t (t' - t) s') as (s & R); [replace (t + (t' - t))%nat with t' by lia; exact R'|].
  pose proof (at_rest C inp r w0 first SU t s R Hp) as S.
  assert (forall w, overlap (n_features C) w (inp t) = overlap (n_features C) w (inp t')) as Eo by (intros w; apply overlap_ext; intros k Hk; split; [reflexivity|apply Hsame; auto]).
  assert (forall w, responds C w (inp t') = responds C w (inp t)) as Er by (intros w; unfold responds; rewrite Eo; reflexivity).
  destruct (window C inp r w0 first SU t s _ _ S Hp) as (_ & _ & Wc & Wd).
  destruct (someone_dec C (W s) (inp t)) as [(m & Hm & Hy)|No].
  - assert (Z.of_nat m < c_next s - 1) as HN.
    { destruct (Z.lt_ge_cases (Z.of_nat m) (c_next s - 1)) as [|G]; [auto|exfalso].
      rewrite (responds_zero C (su_sane _ _ _ _ _ SU)) in Hy by (intros k Hk; apply (se_free _ _ _ _ _ _ _ _ _ S m k Hm Hk); lia). discriminate Hy. }
    destruct (answer_lasts C inp r w0 first t t' s' _ _ _ m SU ltac:(lia) R' Hp' S Hm HN ltac:(rewrite Er; exact Hy)) as (H1 & H2 & H3).
    split; [|split; [exact H2|exact H3]]. destruct H1 as (o & O1 & O2). exists o. split; [exact O1|]. exists m. auto.
  - destruct (Wd No) as (_ & _ & _ & _ & H5 & H6). pose proof (se_range _ _ _ _ _ _ _ _ _ S) as Rg.
    assert (c_next s <= Z.of_nat (n_protos C)) as HN.
    { destruct (Z.eq_dec (c_next s) (Z.of_nat (n_protos C) + 1)) as [E|]; [|lia]. exfalso. specialize (H5 E).
      pose proof (run_none C inp r _ _ (t' - (t + (wait_steps C + 4))) H5) as X. replace (t + (wait_steps C + 4) + (t' - (t + (wait_steps C + 4))))%nat with t' in X by lia. unfold run in R'. congruence. }
    destruct (H6 HN) as (_ & w' & s2 & S2 & Q1 & Q2). set (me := Z.to_nat (c_next s - 1)) in *. assert (me < n_protos C)%nat as Hm by (unfold me; lia).
    assert (forall k, (k < n_features C)%nat -> 0 <= w' me k /\ inp t k - loss <= w' me k <= inp t k + 1) as Bw.
    { intros k Hk. specialize (Q2 k Hk). rewrite latest_window in Q2.
      - unfold stored_for in Q2. replace (t + (wait_steps C + 3) - t)%nat with (wait_steps C + 3)%nat in Q2 by lia. unfold loss. lia.
      - specialize (Hpos k Hk). lia.
      - intros i Hi. apply (window_blank C inp r w0 first SU t i Hp ltac:(lia)). auto. }
    assert (responds C (w' me) (inp t') = true) as Hresp.
    { rewrite Er. rewrite responds_exact.
      - apply Z.ltb_lt. eapply Z.lt_le_trans; [exact Hlow|]. apply overlap_mono. intros k Hk. specialize (Bw k Hk). specialize (Hpos k Hk). nia.
      - assert (0 <= overlap (n_features C) (w' me) (inp t)).
        { rewrite <- (overlap_zero (n_features C) (fun _ => 0) (inp t)) by (intros; lia). apply overlap_mono. intros k Hk. specialize (Bw k Hk). specialize (Hpos k Hk). nia. }
        assert (overlap (n_features C) (w' me) (inp t) <= overlap (n_features C) (fun k => inp t k + 1) (inp t)).
        { apply overlap_mono. intros k Hk. specialize (Bw k Hk). specialize (Hpos k Hk). nia. }
        lia. }
    destruct (answer_lasts C inp r w0 first (t + (wait_steps C + 4)) t' s' _ _ _ me SU ltac:(lia) R' Hp' S2 Hm ltac:(unfold me; lia) Hresp) as (H1 & H2 & H3).
    split; [|split; [exact H2|exact H3]]. destruct H1 as (o & O1 & O2). exists o. split; [exact O1|]. exists me. auto.
Qed.

(** ** PrototypeLIF alone *)
Theorem prototype_lif_step : forall P n vth s a id reset,
  let y := fun m => if 0 <? reset m then 0 else Lif_Model.voltage P (pv s m) (Lif_Model.current P (pu s m) (a m)) in
  (* without third factor: the neurons above threshold spike and are reset *)
  (id = 0 -> exists s' spk bap, proto_step P n vth s a id reset = Some (s', spk, bap) /\
     forall m, (m < n)%nat -> spk m = (vth * 64 <? y m) /\ bap m = false /\ py1 s' m = py1 s m /\ pv s' m = if spk m then 0 else y m) /\
  (* the id of a neuron: this neuron alone spikes, back-propagates and gets y1 = 127; the others keep their voltage even above threshold *)
  (1 <= id <= Z.of_nat n -> exists s' spk bap, proto_step P n vth s a id reset = Some (s', spk, bap) /\
     forall m, (m < n)%nat -> let me := Z.of_nat m + 1 =? id in
       spk m = me /\ bap m = me /\ py1 s' m = (if me then 127 else 0) /\ pv s' m = if me then 0 else y m) /\
  (* there is no such neuron *)
  (Z.of_nat n < id -> proto_step P n vth s a id reset = None).
Proof.
  intros P n vth s a id reset y. split; [|split]; intros H; unfold proto_step, bap_of.
  - subst id. change (0 =? 0) with true. cbn iota. rewrite none_existsb. do 3 eexists. split; [reflexivity|].
    intros m Hm. cbn [pv py1]. rewrite !vecb_in by auto. rewrite !vec_in by auto. fold (y m). auto.
  - replace (id =? 0) with false by (symmetry; apply Z.eqb_neq; lia). replace (0 <=? id - 1) with true by (symmetry; apply Z.leb_le; lia).
    replace (id - 1 <? Z.of_nat n) with true by (symmetry; apply Z.ltb_lt; lia). cbn [andb]. rewrite bap_existsb by lia. do 3 eexists. split; [reflexivity|].
    intros m Hm. set (me := Z.of_nat m + 1 =? id). cbn [pv py1]. rewrite !vecb_in by auto. rewrite !vec_in by auto. fold (y m).
    assert ((Z.of_nat m =? id - 1) = me) as -> by (unfold me; destruct (Z.of_nat m + 1 =? id) eqn:E; [apply Z.eqb_eq in E; apply Z.eqb_eq; lia|apply Z.eqb_neq in E; apply Z.eqb_neq; lia]).
    auto.
  - replace (id =? 0) with false by (symmetry; apply Z.eqb_neq; lia). replace (id - 1 <? Z.of_nat n) with false by (symmetry; apply Z.ltb_ge; lia).
    replace (id - 1 <? 0) with false by (symmetry; apply Z.ltb_ge; lia). rewrite andb_false_r. reflexivity.
Qed.

(** ** Cases *)
Definition stream (l : list (nat * list Z)) (t k : nat) : Z :=
  match find (fun e => Nat.eqb (fst e) t) l with Some e => nth k (snd e) 0 | None => 0 end.
Definition half_rnd (_ : nat) : rnd := {| q_post := 0; q_xd := 1 # 2; q_yd := 1 # 2; q_xi := 0; q_yi := 0; q_syn := 1 # 2 |}.
Definition demo_cfg (nf np : nat) (tw th : Z) : clp_cfg :=
  {| n_features := nf; n_protos := np; t_wait := tw; vth := th; sign_mode_of := Mixed; decay := fun v => (inject_Z v * (1 - (1 # 65536)))%Q |}.
Definition zeros (_ _ : nat) : Z := 0.
Definition weights_after (C : clp_cfg) (inp : nat -> nat -> Z) (n : nat) : option (list (list Z)) :=
  option_map (fun s => vals (n_protos C) (fun m => vals (n_features C) (W s m))) (net_run C inp half_rnd (clp_init C zeros 1) n).
Definition spikes_at (C : clp_cfg) (inp : nat -> nat -> Z) (n : nat) : option (list bool) :=
  option_map (fun o => vals (n_protos C) (o_spk o)) (net_out C inp half_rnd (clp_init C zeros 1) n).
Definition novelties (C : clp_cfg) (inp : nat -> nat -> Z) (n : nat) : list (option Z) :=
  List.map (fun t => option_map o_nov (net_out C inp half_rnd (clp_init C zeros 1) t)) (seq 0 n).
Lemma demo_setup nf np tw th l :
  (0 < np)%nat -> Z.of_nat np < 2147483645 -> Z.of_nat nf < 2147483648 -> 0 <= tw -> 0 <= th <= 131071 ->
  eight_bit nf (stream l) -> spaced (Z.to_nat tw + 4) nf (stream l) -> setup (demo_cfg nf np tw th) (stream l) half_rnd zeros 1.
Proof.
  intros H1 H2 H3 H4 H5 H6 H7. constructor; auto.
  - constructor; auto; [discriminate|]. intros v. split; intros Hv; split; unfold demo_cfg, decay, Qle, inject_Z, Qmult, Qminus, Qplus, Qopp; cbn [Qnum Qden]; lia.
  - intros n. unfold rnd_ok. cbn [half_rnd q_xd q_yd q_xi q_yi q_syn]. repeat apply conj; try lia; discriminate.
  - intros m k _ _. unfold zeros, hw_range, demo_cfg; cbn [sign_mode_of]. lia.
  - lia.
Qed.
(** a stream given by a list of presentations has the properties that can be checked on the list *)
Lemma stream_in l t k : stream l t k <> 0 -> exists p, In (t, p) l /\ stream l t k = nth k p 0.
Proof.
  unfold stream. destruct (find _ l) as [[t' p]|] eqn:E; [|congruence]. apply find_some in E. cbn [fst snd] in *. destruct E as [E1 E2]. apply Nat.eqb_eq in E2. subst. eauto.
Qed.
Lemma stream_bits l nf : forallb (fun e => forallb (fun x => (0 <=? x) && (x <=? 254)) (snd e)) l = true -> eight_bit nf (stream l).
Proof.
  intros H t k _. destruct (Z.eq_dec (stream l t k) 0) as [->|Hn]; [lia|]. destruct (stream_in l t k Hn) as (p & Hi & Ep). rewrite Ep in *.
  rewrite forallb_forall in H. specialize (H _ Hi). cbn [snd] in H. rewrite forallb_forall in H.
  destruct (nth_in_or_default k p 0) as [Hx|]; [|lia]. specialize (H _ Hx). apply andb_prop in H. destruct H as [A B]. apply Z.leb_le in A, B. lia.
Qed.
Lemma stream_spaced l nf gap : forallb (fun e => forallb (fun e' => negb (fst e <? fst e')%nat || (fst e + gap <=? fst e')%nat) l) l = true -> spaced gap nf (stream l).
Proof.
  intros H t t' (k & _ & Hk) (k' & _ & Hk') Ht. destruct (stream_in l t k Hk) as (p & Hi & _). destruct (stream_in l t' k' Hk') as (p' & Hi' & _).
  rewrite forallb_forall in H. specialize (H _ Hi). rewrite forallb_forall in H. specialize (H _ Hi'). cbn [fst] in H.
  apply orb_prop in H. destruct H as [H|H]; [apply negb_true_iff, Nat.ltb_ge in H; lia|apply Nat.leb_le in H; lia].
Qed.

(** two patterns, each presented twice: both are novel once, get one prototype each and are recognised by it the second time *)
Definition two_patterns : list (nat * list Z) := [(3%nat, [120; 20]); (13%nat, [20; 120]); (23%nat, [120; 20]); (33%nat, [20; 120])].
Definition demo := demo_cfg 2 3 4 10000.
Example clp_demo : setup demo (stream two_patterns) half_rnd zeros 1 /\
  weights_after demo (stream two_patterns) 11 = Some [[119; 20]; [0; 0]; [0; 0]] /\ weights_after demo (stream two_patterns) 45 = Some [[119; 20]; [20; 119]; [0; 0]] /\
  spikes_at demo (stream two_patterns) 24 = Some [true; false; false] /\ spikes_at demo (stream two_patterns) 34 = Some [false; true; false] /\
  (* the hypotheses of the theorem on learning in one shot *)
  vth demo < overlap 2 (fun k => stream two_patterns 3 k - (2 * (4 + 3) + 8)) (stream two_patterns 3) /\
  overlap 2 (fun k => stream two_patterns 3 k + 1) (stream two_patterns 3) < 131072.
Proof.
  split; [apply demo_setup; try lia; [apply stream_bits; reflexivity|apply stream_spaced; reflexivity]|].
  repeat apply conj; vm_compute; reflexivity.
Qed.

(** ** What does not hold *)
(** a feature that is zero in a novel pattern is learned with the value it had in an earlier pattern: the presynaptic trace is only
    overwritten by a spike *)
Theorem clp_zero_features_are_not_learned : exists C l, setup C (stream l) half_rnd zeros 1 /\
  In (10%nat, [100; 0]) l /\ (forall t, presented (n_features C) (stream l) t -> (t <= 10)%nat) /\
  weights_after C (stream l) 18 = Some [[59; 79]; [99; 79]; [0; 0]].
Proof.
  exists (demo_cfg 2 3 4 7000), [(0%nat, [60; 80]); (10%nat, [100; 0])].
  split; [apply demo_setup; try lia; [apply stream_bits; reflexivity|apply stream_spaced; reflexivity]|].
  split; [right; left; reflexivity|]. split; [|vm_compute; reflexivity].
  intros t (k & _ & Hk). destruct (stream_in _ _ _ Hk) as (p & [E|[E|[]]] & _); injection E as E _; lia.
Qed.
(** without [representable] a pattern is not recognised by its own prototype, and is stored twice *)
Theorem clp_large_overlaps_are_not_recognised : exists C p, setup C (stream [(0%nat, p); (10%nat, p)]) half_rnd zeros 1 /\
  weights_after C (stream [(0%nat, p); (10%nat, p)]) 8 = Some [[252; 252; 252]; [0; 0; 0]; [0; 0; 0]] /\
  vth C < overlap 3 (fun k => nth k [252; 252; 252] 0) (fun k => nth k p 0) /\
  spikes_at C (stream [(0%nat, p); (10%nat, p)]) 11 = Some [false; false; false] /\
  weights_after C (stream [(0%nat, p); (10%nat, p)]) 18 = Some [[252; 252; 252]; [252; 252; 252]; [0; 0; 0]].
Proof.
  exists (demo_cfg 3 3 4 60000), [254; 254; 254].
  split; [apply demo_setup; try lia; [apply stream_bits; reflexivity|apply stream_spaced; reflexivity]|].
  repeat apply conj; vm_compute; reflexivity.
Qed.
(** one step less between the presentations: the prototype of the first pattern stores the second one, and neither of them is
    recognised or signalled as novel when the second is presented *)
Theorem clp_spacing_is_needed : let C := demo_cfg 2 3 4 7000 in let l := [(0%nat, [100; 20]); (7%nat, [20; 100])] in
  spaced (wait_steps C + 3) 2 (stream l) /\ eight_bit 2 (stream l) /\
  weights_after C (stream l) 25 = Some [[20; 99]; [0; 0]; [0; 0]] /\
  spikes_at C (stream l) 8 = Some [false; false; false] /\
  novelties C (stream l) 25 = List.map (fun t => Some (if Nat.eqb t 6 then 1 else 0)) (seq 0 25).
Proof.
  split; [apply stream_spaced; reflexivity|]. split; [apply stream_bits; reflexivity|].
  repeat apply conj; vm_compute; reflexivity.
Qed.
(** a novel pattern without a free prototype ends the run *)
Theorem clp_full_raises : let C := demo_cfg 2 1 4 7000 in let l := [(0%nat, [100; 20]); (10%nat, [20; 100])] in
  setup C (stream l) half_rnd zeros 1 /\ weights_after C (stream l) 17 = Some [[99; 20]] /\ weights_after C (stream l) 18 = None.
Proof.
  split; [apply demo_setup; try lia; [apply stream_bits; reflexivity|apply stream_spaced; reflexivity]|].
  repeat apply conj; vm_compute; reflexivity.
Qed.
