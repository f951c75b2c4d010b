(** What happens in the steps that follow a presentation, and between presentations. *)
From Coq Require Import ZArith QArith List Bool Arith Lia.
From Verif Require Import NpInt Bits_Model Learning_Model Learning_Props ClpNet_Spec ClpNet_Model ClpNet_Proofs ClpNet_Step.
From Verif Require Lif_Model Conn_Model Clp_Model.
Import ListNotations.
Open Scope Z_scope.

(** nothing is sent but zeros *)
Definition silent (C : clp_cfg) (o : clp_out) : Prop :=
  nobody (o_spk o) (n_protos C) /\ nobody (o_bap o) (n_protos C) /\ o_nov o = 0 /\ o_id o = 0.
Definition wait_steps (C : clp_cfg) : nat := Z.to_nat (t_wait C).

Lemma count_none n (b : nat -> bool) : nobody b n -> count (vals n (fun m => if b m then 1 else 0)) = 0.
Proof. intros H. apply count_zero, Forall_forall. intros x Hx. apply in_map_iff in Hx. destruct Hx as (m & <- & Hm). apply in_seq in Hm. rewrite H by lia. reflexivity. Qed.
Lemma count_some n (b : nat -> bool) m : (m < n)%nat -> b m = true -> count (vals n (fun m => if b m then 1 else 0)) <> 0.
Proof.
  intros Hm Hb H. apply count_zero in H. rewrite Forall_forall in H. specialize (H 1). assert (1 = 0); [|lia]. apply H. apply in_map_iff. exists m. rewrite Hb. split; [reflexivity|apply in_seq; lia].
Qed.
Lemma count_zeros n (p : nat -> Z) : (forall k, (k < n)%nat -> p k = 0) <-> count (vals n p) = 0.
Proof.
  rewrite count_zero, Forall_forall. unfold vals. split.
  - intros H x Hx. apply in_map_iff in Hx. destruct Hx as (k & <- & Hk). apply in_seq in Hk. apply H. lia.
  - intros H k Hk. apply H. apply in_map. apply in_seq. lia.
Qed.
Lemma nobody_dec (b : nat -> bool) n : nobody b n \/ exists m, (m < n)%nat /\ b m = true.
Proof.
  destruct (existsb b (seq 0 n)) eqn:E.
  - right. apply existsb_exists in E. destruct E as (m & Hm & Hb). apply in_seq in Hm. exists m. split; [lia|auto].
  - left. intros m Hm. destruct (b m) eqn:Eb; [|reflexivity]. exfalso. assert (existsb b (seq 0 n) = true); [|congruence]. apply existsb_exists. exists m. split; [apply in_seq; lia|auto].
Qed.
Lemma w32_w32 x : w32 (w32 x) = w32 x.
Proof. apply w32_id. pose proof (wrap_range 32 x ltac:(lia)). change (2 ^ (32 - 1)) with 2147483648 in H. exact H. Qed.

Section Run.
Variables (C : clp_cfg) (inp : nat -> nat -> Z) (r : nat -> rnd) (s0 : clp).
Hypothesis HC : sane C.
Hypothesis Hr : forall n, rnd_ok (r n).
Hypothesis Hi : eight_bit (n_features C) inp.
Notation nf := (n_features C).
Notation np := (n_protos C).
Notation run := (net_run C inp r s0).
Notation out := (net_out C inp r s0).

(** the trace of feature [k] before step [n] *)
Definition traced (n k : nat) (v : Z) : Prop :=
  match (match n with O => None | S n' => latest inp k n' end) with
  | None => v = 0
  | Some (t, a) => half_even a - Z.of_nat (n - t) <= v <= half_even a /\ 0 <= v
  end.
Definition at_ (n : nat) (s : clp) : Prop := run n = Some s /\ struct C s /\ forall k, (k < nf)%nat -> traced n k (x1 (c_conn s) k).
Lemma latest_le k t t' a : latest inp k t = Some (t', a) -> (t' <= t)%nat /\ a = inp t' k /\ a <> 0.
Proof using.
  induction t as [|t IH]; cbn [latest]; destruct (negb (inp _ k =? 0)) eqn:E; intros H.
  - injection H as <- <-. apply negb_true_iff, Z.eqb_neq in E. auto.
  - discriminate H.
  - injection H as <- <-. apply negb_true_iff, Z.eqb_neq in E. auto.
  - destruct (IH H) as (? & ? & ?). auto.
Qed.
Lemma latest_now k n : negb (inp n k =? 0) = true -> latest inp k n = Some (n, inp n k).
Proof using. intros H. destruct n; cbn [latest]; rewrite H; reflexivity. Qed.
Lemma latest_before k n : negb (inp n k =? 0) = false -> latest inp k n = match n with O => None | S n' => latest inp k n' end.
Proof using. intros H. destruct n; cbn [latest]; rewrite H; reflexivity. Qed.
Lemma traced_step n k v : (k < nf)%nat -> 0 <= v <= 127 -> traced n k v -> traced (S n) k (kept C (r n) (if negb (inp n k =? 0) then half_even (inp n k) else v)).
Proof using HC Hr Hi.
  intros Hk Bv Hv. unfold traced. destruct (negb (inp n k =? 0)) eqn:E.
  - rewrite latest_now by auto. destruct (half_range (inp n k) (Hi n k Hk)) as [B _]. destruct (kept_bounds C (r n) _ HC (Hr n) B) as [K0 K1].
    pose proof (kept_range C (r n) _ HC (Hr n) B). lia.
  - rewrite latest_before by auto. unfold traced in Hv. destruct (kept_bounds C (r n) v HC (Hr n) Bv) as [K0 K1]. pose proof (kept_range C (r n) v HC (Hr n) Bv).
    destruct n as [|n']; [auto|]. destruct (latest inp k n') as [[t a]|] eqn:El; [|auto].
    apply latest_le in El. lia.
Qed.
Lemma at_step n s : at_ n s -> 0 <= waiting_id s <= Z.of_nat np ->
  exists s' o, at_ (S n) s' /\ out n = Some o /\ effect C (inp n) (r n) s s' o.
Proof using HC Hr Hi.
  intros (R & St & T) Hid. destruct (step_effect C (Z.of_nat (S n)) (inp n) (r n) s HC (Hr n) (fun k Hk => Hi n k Hk) St Hid) as (s' & o & E & F).
  exists s', o. unfold at_, net_out. cbn [net_run]. rewrite R, E. cbn [option_map fst snd]. split; [|auto]. split; [reflexivity|]. split; [apply F|].
  intros k Hk. rewrite (ef_x1 _ _ _ _ _ _ F k Hk). apply traced_step; [auto| |apply T; auto]. apply (st_x1 C s St k Hk).
Qed.
Lemma learned_stored n k x w : (k < nf)%nat -> traced (S n) k x -> 2 * x - 5 <= w <= 2 * x /\ 0 <= w -> stored_for (latest inp k n) n w.
Proof using Hi.
  intros Hk Hx Hw. unfold traced in Hx. unfold stored_for. destruct (latest inp k n) as [[t a]|] eqn:E; [|lia].
  apply latest_le in E. destruct E as (Ht & -> & _). destruct (half_even_bounds (inp t k) ltac:(pose proof (Hi t k Hk); lia)) as [B _].
  replace (Z.of_nat (S n - t)) with (Z.of_nat (n - t) + 1) in Hx by lia. lia.
Qed.

(** ** Phases *)
Definition membranes (l : nat) (s : clp) : Prop := forall m, (m < np)%nat -> level l (pv (c_proto s) m) /\ pv (c_proto s) m <= vth C * 64.
Definition rows (w : nat -> nat -> Z) (s : clp) : Prop := forall m k, (m < np)%nat -> (k < nf)%nat -> W s m k = w m k.
Definition free (n : Z) (w : nat -> nat -> Z) : Prop := forall m k, (m < np)%nat -> (k < nf)%nat -> n - 1 <= Z.of_nat m -> w m k = 0.
Definition no_drive (s : clp) : Prop := forall m, (m < np)%nat -> a_proto s m = 0.
Record settled (l : nat) (w : nat -> nat -> Z) (N : Z) (n : nat) (s : clp) : Prop := {
  se_at : at_ n s; se_w : rows w s; se_next : c_next s = N; se_range : 1 <= N <= Z.of_nat np + 1; se_free : free N w;
  se_id : waiting_id s = 0; se_in : first_buf (d_in s) = 0; se_a : no_drive s; se_v : membranes l s; se_nov : c_nov s = Clp_Model.nd_init }.
Definition blank (n : nat) : Prop := forall k, (k < nf)%nat -> inp n k = 0.

Lemma no_spikes s l : membranes l s -> no_drive s -> forall m, (m < np)%nat ->
  (vth C * 64 <? membrane (pv (c_proto s) m) (drive (w32 (a_proto s m)))) = false /\
  level (pred l) (membrane (pv (c_proto s) m) (drive (w32 (a_proto s m)))) /\ membrane (pv (c_proto s) m) (drive (w32 (a_proto s m))) <= vth C * 64.
Proof using HC.
  intros Hv Ha m Hm. rewrite (Ha m Hm). change (w32 0) with 0. rewrite drive_0. destruct (Hv m Hm) as [Hl Hb].
  destruct (level_decay l (pv (c_proto s) m) (vth C * 64) ltac:(pose proof (vth_range C HC); lia) Hl Hb) as [H1 H2].
  split; [apply Z.ltb_ge; lia|auto].
Qed.
(** a step without allocation signal and without drive: no spikes, no learning *)
Lemma calm_step n s s' o l w : effect C (inp n) (r n) s s' o -> waiting_id s = 0 -> membranes l s -> no_drive s -> rows w s ->
  nobody (o_spk o) np /\ nobody (o_bap o) np /\ membranes (pred l) s' /\ rows w s' /\ first_buf (d_out s') = 0.
Proof using HC.
  intros F H0 Hv Ha Hw.
  assert (nobody (o_spk o) np) as N1. { intros m Hm. destruct (ef_spk _ _ _ _ _ _ F m Hm) as (-> & _). rewrite H0. apply (no_spikes s l Hv Ha m Hm). }
  assert (nobody (o_bap o) np) as N2. { intros m Hm. destruct (ef_spk _ _ _ _ _ _ F m Hm) as (_ & -> & _). rewrite H0. reflexivity. }
  split; [auto|]. split; [auto|]. split; [|split].
  - intros m Hm. destruct (ef_spk _ _ _ _ _ _ F m Hm) as (_ & _ & ->). rewrite (N1 m Hm). destruct (no_spikes s l Hv Ha m Hm) as (_ & H1). exact H1.
  - intros m k Hm Hk. rewrite (ef_w _ _ _ _ _ _ F m k Hm Hk (N2 m Hm)). apply Hw; auto.
  - rewrite (ef_out _ _ _ _ _ _ F). apply count_none, N1.
Qed.
Lemma blank_a n s s' o : effect C (inp n) (r n) s s' o -> blank n -> no_drive s' /\ first_buf (d_in s') = 0.
Proof using.
  intros F Hb. split.
  - intros m Hm. rewrite (ef_a _ _ _ _ _ _ F m Hm). rewrite overlap_zero by (intros k Hk; rewrite (Hb k Hk); lia). reflexivity.
  - rewrite (ef_in _ _ _ _ _ _ F). apply count_zeros, Hb.
Qed.
Lemma nov_idle a : Clp_Model.nd_step (t_wait C) Clp_Model.nd_init 0 a = (Clp_Model.nd_init, 0).
Proof using HC.
  unfold Clp_Model.nd_step, Clp_Model.nd_init. cbn [Clp_Model.waiting Clp_Model.t_passed Clp_Model.novelty_detected]. change (negb (0 =? 0)) with false. cbn iota.
  destruct (negb (a =? 0)); [reflexivity|]. replace (t_wait C <? 0) with false by (symmetry; apply Z.ltb_ge; apply (wait_pos C HC)). reflexivity.
Qed.
Lemma idle n s l w N : settled l w N n s -> blank n -> exists s' o, settled (pred l) w N (S n) s' /\ out n = Some o /\ silent C o.
Proof using HC Hr Hi.
  intros [A1 A2 A3 A4 A5 A6 A7 A8 A9 A10] Hb. destruct (at_step n s A1 ltac:(lia)) as (s' & o & B1 & B2 & F). exists s', o.
  pose proof (ef_nov _ _ _ _ _ _ F) as E1. rewrite A10, A7, nov_idle in E1. injection E1 as E1 E2.
  pose proof (ef_next _ _ _ _ _ _ F) as E3. rewrite E2 in E3. cbn [Clp_Model.alloc_step Z.eqb] in E3. injection E3 as E3 E4.
  destruct (calm_step n s s' o l w F A6 A9 A8 A2) as (D1 & D2 & D3 & D4 & _). destruct (blank_a n s s' o F Hb) as [D5 D6].
  split; [|split; [auto|repeat apply conj; auto]].
  constructor; auto; [congruence|]. rewrite (ef_third _ _ _ _ _ _ F), E4. reflexivity.
Qed.
Lemma idles n j s l w N : settled l w N n s -> (forall i, (i < j)%nat -> blank (n + i)) ->
  exists s', settled (l - j) w N (n + j) s' /\ forall i, (i < j)%nat -> exists o, out (n + i) = Some o /\ silent C o.
Proof using HC Hr Hi.
  induction j as [|j IH]; intros Hs Hb.
  - exists s. rewrite Nat.sub_0_r, Nat.add_0_r. split; [auto|]. intros i Hij. lia.
  - destruct (IH Hs ltac:(intros; apply Hb; lia)) as (s1 & S1 & O1). destruct (idle _ _ _ _ _ S1 (Hb j ltac:(lia))) as (s2 & o & S2 & O2 & O3).
    exists s2. rewrite Nat.add_succ_r. replace (l - S j)%nat with (pred (l - j)) by lia. split; [auto|]. intros i Hij. destruct (Nat.eq_dec i j) as [->|]; [eauto|]. apply O1. lia.
Qed.

(** does a prototype at rest with weights [w] spike when [p] arrives *)
Definition responds (w p : nat -> Z) : bool := vth C * 64 <? membrane 0 (drive (w32 (overlap nf w p))).
Lemma responds_exact w p : Z.abs (overlap nf w p) < 131072 -> responds w p = (vth C <? overlap nf w p).
Proof using.
  intros H. unfold responds. rewrite (w32_id (overlap nf w p)) by lia. rewrite drive_exact by auto. rewrite membrane_rest by lia.
  destruct (vth C <? overlap nf w p) eqn:E; [apply Z.ltb_lt in E; apply Z.ltb_lt; lia|apply Z.ltb_ge in E; apply Z.ltb_ge; lia].
Qed.
Lemma responds_zero w p : (forall k, (k < nf)%nat -> w k = 0) -> responds w p = false.
Proof using HC.
  intros H. assert (overlap nf w p = 0) as E by (apply overlap_zero; intros k Hk; rewrite (H k Hk); lia).
  rewrite responds_exact by (rewrite E; lia). rewrite E. apply Z.ltb_ge. apply (vth_range C HC).
Qed.
Lemma responds_ext w w' p : (forall k, (k < nf)%nat -> w k = w' k) -> responds w p = responds w' p.
Proof using. intros H. unfold responds. rewrite (overlap_ext nf w w' p p); [reflexivity|]. auto. Qed.

(** waiting for an answer of the prototypes; [j] steps have passed *)
Record pending (j : nat) (w : nat -> nat -> Z) (N : Z) (n : nat) (s : clp) : Prop := {
  pe_at : at_ n s; pe_w : rows w s; pe_next : c_next s = N; pe_range : 1 <= N <= Z.of_nat np + 1; pe_free : free N w;
  pe_id : waiting_id s = 0; pe_in : first_buf (d_in s) = 0; pe_a : no_drive s; pe_v : membranes (3 - j) s;
  pe_nov : c_nov s = {| Clp_Model.waiting := true; Clp_Model.t_passed := Z.of_nat j; Clp_Model.novelty_detected := false |} }.

(** the two steps of a presentation *)
Lemma presentation n s w N : settled 0 w N n s -> presented nf inp n -> blank (S n) ->
  (exists o, out n = Some o /\ silent C o) /\ (exists s1, at_ (S n) s1 /\ rows w s1 /\ c_next s1 = N) /\
  exists s2 o, pending 1 w N (S (S n)) s2 /\ out (S n) = Some o /\ (forall m, (m < np)%nat -> o_spk o m = responds (w m) (inp n)) /\
    nobody (o_bap o) np /\ o_nov o = 0 /\ o_id o = 0 /\ first_buf (d_out s2) = count (vals np (fun m => if o_spk o m then 1 else 0)).
Proof using HC Hr Hi.
  intros [A1 A2 A3 A4 A5 A6 A7 A8 A9 A10] Hp Hb. destruct (at_step n s A1 ltac:(lia)) as (s1 & o1 & B1 & B2 & F).
  pose proof (ef_nov _ _ _ _ _ _ F) as E1. rewrite A10, A7, nov_idle in E1. injection E1 as E1 E2.
  pose proof (ef_next _ _ _ _ _ _ F) as E3. rewrite E2 in E3. cbn [Clp_Model.alloc_step Z.eqb] in E3. injection E3 as E3 E4.
  destruct (calm_step n s s1 o1 0 w F A6 A9 A8 A2) as (D1 & D2 & D3 & D4 & D5).
  split; [exists o1; split; [auto|repeat apply conj; auto]|].
  split; [exists s1; split; [auto|split; [auto|congruence]]|].
  assert (waiting_id s1 = 0) as I1 by (rewrite (ef_third _ _ _ _ _ _ F), E4; reflexivity).
  destruct (at_step (S n) s1 B1 ltac:(lia)) as (s2 & o2 & B3 & B4 & G). exists s2, o2.
  assert (first_buf (d_in s1) <> 0) as Nz.
  { rewrite (ef_in _ _ _ _ _ _ F). intros E. destruct (count_zeros nf (inp n)) as [_ H]. destruct Hp as (k & Hk & Hn). apply Hn, (H E k Hk). }
  pose proof (ef_nov _ _ _ _ _ _ G) as E5. rewrite E1, D5 in E5. unfold Clp_Model.nd_step, Clp_Model.nd_init in E5.
  cbn [Clp_Model.waiting Clp_Model.t_passed Clp_Model.novelty_detected] in E5. replace (first_buf (d_in s1) =? 0) with false in E5 by (symmetry; apply Z.eqb_neq; auto).
  change (negb (0 =? 0)) with false in E5. cbn [negb] in E5. replace (t_wait C <? 0) with false in E5 by (symmetry; apply Z.ltb_ge; apply (wait_pos C HC)). cbn iota in E5. injection E5 as E5 E6.
  pose proof (ef_next _ _ _ _ _ _ G) as E7. rewrite E6 in E7. cbn [Clp_Model.alloc_step Z.eqb] in E7. injection E7 as E7 E8.
  assert (forall m, (m < np)%nat -> membrane (pv (c_proto s1) m) (drive (w32 (a_proto s1 m))) = membrane 0 (drive (w32 (overlap nf (w m) (inp n))))) as Em.
  { intros m Hm. destruct (D3 m Hm) as [L0 _]. cbn [level pred] in L0. rewrite L0. rewrite (ef_a _ _ _ _ _ _ F m Hm), w32_w32. rewrite (overlap_ext nf (W s m) (w m) (inp n) (inp n)); [reflexivity|]. intros k Hk. split; [apply A2; auto|reflexivity]. }
  assert (nobody (o_bap o2) np) as N2. { intros m Hm. destruct (ef_spk _ _ _ _ _ _ G m Hm) as (_ & -> & _). rewrite I1. reflexivity. }
  assert (forall m, (m < np)%nat -> o_spk o2 m = responds (w m) (inp n)) as N1.
  { intros m Hm. destruct (ef_spk _ _ _ _ _ _ G m Hm) as (-> & _ & _). rewrite I1, Em by auto. reflexivity. }
  destruct (blank_a (S n) s1 s2 o2 G Hb) as [D6 D7].
  split; [|split; [auto|split; [auto|split; [auto|split; [auto|split; [auto|apply G]]]]]].
  constructor; auto.
  - intros m k Hm Hk. rewrite (ef_w _ _ _ _ _ _ G m k Hm Hk (N2 m Hm)). apply D4; auto.
  - congruence.
  - rewrite (ef_third _ _ _ _ _ _ G), E8. reflexivity.
  - intros m Hm. destruct (ef_spk _ _ _ _ _ _ G m Hm) as (_ & _ & ->). rewrite N1, Em by auto. unfold responds.
    pose proof (membrane_range 0 (drive (w32 (overlap nf (w m) (inp n))))). pose proof (vth_range C HC).
    destruct (vth C * 64 <? membrane 0 (drive (w32 (overlap nf (w m) (inp n))))) eqn:Ef; [cbn [level Nat.sub]; lia|apply Z.ltb_ge in Ef; cbn [level Nat.sub]; lia].
Qed.
(** some prototype answered: back to rest *)
Lemma answered n s w N j : pending j w N n s -> first_buf (d_out s) <> 0 -> blank n -> exists s' o, settled (pred (3 - j)) w N (S n) s' /\ out n = Some o /\ silent C o.
Proof using HC Hr Hi.
  intros [A1 A2 A3 A4 A5 A6 A7 A8 A9 A10] Hd Hb. destruct (at_step n s A1 ltac:(lia)) as (s' & o & B1 & B2 & F). exists s', o.
  pose proof (ef_nov _ _ _ _ _ _ F) as E1. rewrite A10, A7 in E1. unfold Clp_Model.nd_step in E1. cbn [Clp_Model.waiting Clp_Model.t_passed Clp_Model.novelty_detected] in E1.
  change (negb (0 =? 0)) with false in E1. replace (first_buf (d_out s) =? 0) with false in E1 by (symmetry; apply Z.eqb_neq; auto). cbn [negb] in E1. cbn iota in E1. injection E1 as E1 E2.
  pose proof (ef_next _ _ _ _ _ _ F) as E3. rewrite E2 in E3. cbn [Clp_Model.alloc_step Z.eqb] in E3. injection E3 as E3 E4.
  destruct (calm_step n s s' o _ w F A6 A9 A8 A2) as (D1 & D2 & D3 & D4 & _). destruct (blank_a n s s' o F Hb) as [D5 D6].
  split; [|split; [auto|repeat apply conj; auto]].
  constructor; auto; [congruence|]. rewrite (ef_third _ _ _ _ _ _ F), E4. reflexivity.
Qed.
(** no answer yet *)
Lemma waits n s w N j : pending j w N n s -> first_buf (d_out s) = 0 -> blank n -> Z.of_nat j <= t_wait C ->
  exists s' o, pending (S j) w N (S n) s' /\ first_buf (d_out s') = 0 /\ out n = Some o /\ silent C o.
Proof using HC Hr Hi.
  intros [A1 A2 A3 A4 A5 A6 A7 A8 A9 A10] Hd Hb Hj. destruct (at_step n s A1 ltac:(lia)) as (s' & o & B1 & B2 & F). exists s', o.
  pose proof (ef_nov _ _ _ _ _ _ F) as E1. rewrite A10, A7, Hd in E1. unfold Clp_Model.nd_step in E1. cbn [Clp_Model.waiting Clp_Model.t_passed Clp_Model.novelty_detected] in E1.
  change (negb (0 =? 0)) with false in E1. cbn iota in E1. replace (t_wait C <? Z.of_nat j) with false in E1 by (symmetry; apply Z.ltb_ge; auto). injection E1 as E1 E2.
  pose proof (ef_next _ _ _ _ _ _ F) as E3. rewrite E2 in E3. cbn [Clp_Model.alloc_step Z.eqb] in E3. injection E3 as E3 E4.
  destruct (calm_step n s s' o _ w F A6 A9 A8 A2) as (D1 & D2 & D3 & D4 & D7). destruct (blank_a n s s' o F Hb) as [D5 D6].
  split; [|split; [auto|split; [auto|repeat apply conj; auto]]].
  constructor; auto; [congruence| | |].
  - rewrite (ef_third _ _ _ _ _ _ F), E4. reflexivity.
  - intros m Hm. destruct (D3 m Hm) as [L1 L2]. split; [|auto]. eapply level_le; [|exact L1]. lia.
  - rewrite E1. f_equal. lia.
Qed.
(** the allocation signal is on its way *)
Record allocating (w : nat -> nat -> Z) (N : Z) (n : nat) (s : clp) : Prop := {
  al_at : at_ n s; al_w : rows w s; al_next : c_next s = N + 1; al_range : 1 <= N <= Z.of_nat np + 1; al_free : free N w;
  al_id : waiting_id s = N; al_in : first_buf (d_in s) = 0; al_a : no_drive s; al_v : membranes 1 s; al_nov : c_nov s = Clp_Model.nd_init }.
Lemma gives_up n s w N j : pending j w N n s -> first_buf (d_out s) = 0 -> blank n -> t_wait C < Z.of_nat j ->
  exists s' o, allocating w N (S n) s' /\ out n = Some o /\ nobody (o_spk o) np /\ nobody (o_bap o) np /\ o_nov o = 1 /\ o_id o = N.
Proof using HC Hr Hi.
  intros [A1 A2 A3 A4 A5 A6 A7 A8 A9 A10] Hd Hb Hj. pose proof (few_protos C HC). pose proof (wait_pos C HC).
  destruct (at_step n s A1 ltac:(lia)) as (s' & o & B1 & B2 & F). exists s', o.
  pose proof (ef_nov _ _ _ _ _ _ F) as E1. rewrite A10, A7, Hd in E1. unfold Clp_Model.nd_step in E1. cbn [Clp_Model.waiting Clp_Model.t_passed Clp_Model.novelty_detected] in E1.
  change (negb (0 =? 0)) with false in E1. cbn iota in E1. replace (t_wait C <? Z.of_nat j) with true in E1 by (symmetry; apply Z.ltb_lt; auto). injection E1 as E1 E2.
  pose proof (ef_next _ _ _ _ _ _ F) as E3. rewrite E2, A3 in E3. cbn [Clp_Model.alloc_step Z.eqb] in E3. injection E3 as E3 E4.
  rewrite (w32_id (N + 1)) in E3 by lia.
  destruct (calm_step n s s' o _ w F A6 A9 A8 A2) as (D1 & D2 & D3 & D4 & D7). destruct (blank_a n s s' o F Hb) as [D5 D6].
  split; [|repeat apply conj; auto].
  constructor; auto.
  - rewrite (ef_third _ _ _ _ _ _ F), E4. apply w32_id. lia.
  - intros m Hm. destruct (D3 m Hm) as [L1 L2]. split; [|auto]. eapply level_le; [|exact L1]. lia.
Qed.
Lemma raises n s w N : allocating w N n s -> N = Z.of_nat np + 1 -> run (S n) = None.
Proof using HC.
  intros [A1 A2 A3 A4 A5 A6 A7 A8 A9 A10] HN. pose proof (few_protos C HC). destruct A1 as (R & _). cbn [net_run]. rewrite R.
  rewrite step_raises by (rewrite A6; lia). reflexivity.
Qed.
Lemma stores n s w N : allocating w N n s -> N <= Z.of_nat np -> blank n ->
  exists s' o w', settled 0 w' (N + 1) (S n) s' /\ out n = Some o /\ only (Z.to_nat (N - 1)) (o_spk o) np /\ only (Z.to_nat (N - 1)) (o_bap o) np /\ o_nov o = 0 /\ o_id o = 0 /\
    (forall m k, (m < np)%nat -> (k < nf)%nat -> m <> Z.to_nat (N - 1) -> w' m k = w m k) /\
    (forall k, (k < nf)%nat -> stored_for (latest inp k n) n (w' (Z.to_nat (N - 1)) k)).
Proof using HC Hr Hi.
  intros [A1 A2 A3 A4 A5 A6 A7 A8 A9 A10] HN Hb. destruct (at_step n s A1 ltac:(lia)) as (s' & o & B1 & B2 & F).
  exists s', o, (W s').
  pose proof (ef_nov _ _ _ _ _ _ F) as E1. rewrite A10, A7, nov_idle in E1. injection E1 as E1 E2.
  pose proof (ef_next _ _ _ _ _ _ F) as E3. rewrite E2 in E3. cbn [Clp_Model.alloc_step Z.eqb] in E3. injection E3 as E3 E4.
  assert (waiting_id s =? 0 = false) as I0 by (rewrite A6; apply Z.eqb_neq; lia).
  assert (forall m, (Z.of_nat m =? waiting_id s - 1) = Nat.eqb m (Z.to_nat (N - 1))) as Ei.
  { intros m. rewrite A6. destruct (Nat.eqb m (Z.to_nat (N - 1))) eqn:E; [apply Nat.eqb_eq in E; apply Z.eqb_eq; lia|apply Nat.eqb_neq in E; apply Z.eqb_neq; lia]. }
  assert (only (Z.to_nat (N - 1)) (o_spk o) np) as N1. { intros m Hm. destruct (ef_spk _ _ _ _ _ _ F m Hm) as (-> & _). rewrite I0. apply Ei. }
  assert (only (Z.to_nat (N - 1)) (o_bap o) np) as N2. { intros m Hm. destruct (ef_spk _ _ _ _ _ _ F m Hm) as (_ & -> & _). rewrite I0. apply Ei. }
  destruct (blank_a n s s' o F Hb) as [D5 D6].
  assert (forall m k, (m < np)%nat -> (k < nf)%nat -> m <> Z.to_nat (N - 1) -> W s' m k = w m k) as Same.
  { intros m k Hm Hk Hne. rewrite (ef_w _ _ _ _ _ _ F m k Hm Hk); [apply A2; auto|]. rewrite (N2 m Hm). apply Nat.eqb_neq. auto. }
  split; [|split; [auto|split; [auto|split; [auto|split; [auto|split; [auto|split; [auto|]]]]]]].
  - constructor; auto; [intros m k _ _; reflexivity|congruence|lia| | |].
    + intros m k Hm Hk Hf. rewrite Same by (auto; lia). apply A5; [auto|auto|lia].
    + rewrite (ef_third _ _ _ _ _ _ F), E4. reflexivity.
    + intros m Hm. destruct (ef_spk _ _ _ _ _ _ F m Hm) as (_ & _ & ->). destruct (no_spikes s 1 A9 A8 m Hm) as (_ & L1 & L2).
      destruct (o_spk o m); [cbn [level]; pose proof (vth_range C HC); lia|]. auto.
  - intros k Hk. assert (Z.to_nat (N - 1) < np)%nat as Hm by lia. apply (learned_stored n k (x1 (c_conn s') k)); [auto|apply B1; auto|].
    apply (ef_learn _ _ _ _ _ _ F); auto; [rewrite (N2 _ Hm); apply Nat.eqb_refl|]. rewrite A2 by auto. apply A5; auto. lia.
Qed.
End Run.
