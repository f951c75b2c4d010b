(** C35, C36, C58: sigma-delta coding. *)
From Coq Require Import ZArith List Bool Lia.
From Verif Require Import NpInt Sdn_Model.
Import ListNotations.
Open Scope Z_scope.

Lemma pow_pos k : 0 <= k -> 0 < 2 ^ k.
Proof. intros. apply Z.pow_pos_nonneg; lia. Qed.
Lemma pow_split a b : 0 <= a -> 0 <= b -> 2 ^ (a + b) = 2 ^ a * 2 ^ b.
Proof. intros. apply Z.pow_add_r; auto. Qed.

(** ** C35 *)
(** the invariant of the pair: decoded value * 2^state_exp + residue = activation, all multiples of 2^state_exp *)
Definition chain_inv (st : Z) (q : delta_st * Z) : Prop :=
  snd q * 2 ^ st + residue (fst q) = act (fst q) /\ (2 ^ st | residue (fst q)) /\ (2 ^ st | act (fst q)).

Lemma chain_step_inv cum vth se st q a : 0 <= se -> 0 <= st -> chain_inv st q -> chain_inv st (chain_step cum vth se st q a) /\
  act (fst (chain_step cum vth se st q a)) = a * 2 ^ (se + st).
Proof.
  intros Hse Hst [H1 [[r Hr] [c Hc]]]. pose proof (pow_pos st Hst) as Hp.
  unfold chain_step, delta_step, delta_dynamics. rewrite Z.shiftl_mul_pow2 by lia.
  set (X := a * 2 ^ (se + st)). assert (X = a * 2 ^ se * 2 ^ st) as HX by (unfold X; rewrite pow_split by lia; lia).
  set (d := X - act (fst q) + residue (fst q)).
  assert (d = (a * 2 ^ se - c + r) * 2 ^ st) as Hd by (unfold d; rewrite HX, Hr, Hc; lia).
  set (k := a * 2 ^ se - c + r) in *.
  assert (forall o, o = d \/ o = 0 -> chain_inv st ({| act := X; residue := d - o; error := 0 |}, sigma_step (snd q) (Z.shiftr o st))) as G.
  { intros o Ho. unfold chain_inv, sigma_step. cbn [fst snd act residue]. rewrite Z.shiftr_div_pow2 by lia.
    split; [|split].
    - destruct Ho as [->| ->].
      + rewrite Hd, Z.div_mul by lia. rewrite Hc, Hr in H1. rewrite HX. unfold k. nia.
      + rewrite Z.div_0_l by lia. rewrite Hd. unfold k. rewrite Hr, Hc in H1. rewrite HX. nia.
    - destruct Ho as [->| ->]; [exists 0; lia|exists k; lia].
    - exists (a * 2 ^ se). auto. }
  destruct cum.
  - destruct (_ <=? _); split; try reflexivity; apply (G d) || apply (G 0); auto.
  - destruct (_ <=? _); split; try reflexivity; apply (G d) || apply (G 0); auto.
Qed.

Lemma chain_inv_run cum vth se st as_ : 0 <= se -> 0 <= st -> chain_inv st (chain cum vth se st as_).
Proof.
  intros. unfold chain.
  assert (forall l q, chain_inv st q -> chain_inv st (fold_left (chain_step cum vth se st) l q)) as G.
  { induction l; simpl; auto. intros q Hq. apply IHl. apply chain_step_inv; auto. }
  apply G. unfold chain_inv. simpl. split; [lia|]. split; apply Z.divide_0_r.
Qed.

(** Without cumulative error: after every input the decoded value, in units of 2^state_exp, is within
    the (scaled) threshold of the scaled input, and exact for threshold 0 (or less). *)
Theorem delta_sigma_tracks : forall vth se st as_ a, 0 <= se -> 0 <= st ->
  let sigma := snd (chain false vth se st (as_ ++ [a])) in
  let err := a * 2 ^ (se + st) - sigma * 2 ^ st in
  Z.abs err <= Z.max 0 (vth * 2 ^ (se + st)) /\ (vth <= 0 -> err = 0).
Proof.
  intros vth se st as_ a Hse Hst. unfold chain. rewrite fold_left_app. cbn [fold_left].
  fold (chain false vth se st as_). pose proof (chain_inv_run false vth se st as_ Hse Hst) as I.
  destruct (chain_step_inv false vth se st _ a Hse Hst I) as [[A _] E].
  assert (0 < 2 ^ (se + st)) as Hp by (apply pow_pos; lia).
  assert (Z.abs (residue (fst (chain_step false vth se st (chain false vth se st as_) a))) <= Z.max 0 (vth * 2 ^ (se + st)) /\
          (vth <= 0 -> residue (fst (chain_step false vth se st (chain false vth se st as_) a)) = 0)) as [R1 R2].
  { unfold chain_step, delta_step, delta_dynamics.
    destruct (Z.leb_spec (vth * 2 ^ (se + st)) (Z.abs (Z.shiftl a (se + st) - act (fst (chain false vth se st as_)) + residue (fst (chain false vth se st as_))))); cbn [fst residue].
    - split; [rewrite Z.sub_diag; simpl; lia|intro; lia].
    - split; [lia|]. intro. nia. }
  split; [|intro Hv; specialize (R2 Hv)]; lia.
Qed.

(** "the threshold" in the units of the receiver *)
Theorem delta_sigma_tracks_units : forall vth se as_ a, 0 <= se -> 0 <= vth ->
  Z.abs (a * 2 ^ se - snd (chain false vth se 0 (as_ ++ [a]))) <= vth * 2 ^ se.
Proof.
  intros. pose proof (delta_sigma_tracks vth se 0 as_ a ltac:(auto) ltac:(lia)) as [R _]. rewrite Z.add_0_r, Z.mul_1_r in R.
  assert (0 <= vth * 2 ^ se) by (apply Z.mul_nonneg_nonneg; [lia|apply Z.pow_nonneg; lia]). lia.
Qed.

(** With cumulative error the bound is twice the threshold, and it is not the threshold. *)
Theorem delta_sigma_cum_error_partial : forall vth se st as_ a, 0 <= se -> 0 <= st -> 0 <= vth ->
  let sigma := snd (chain true vth se st (as_ ++ [a])) in
  Z.abs (a * 2 ^ (se + st) - sigma * 2 ^ st) <= 2 * vth * 2 ^ (se + st).
Proof.
  intros vth se st as_ a Hse Hst Hv.
  set (T := vth * 2 ^ (se + st)). assert (0 <= T) as HT by (apply Z.mul_nonneg_nonneg; [lia|apply Z.pow_nonneg; lia]).
  assert (forall q a, Z.abs (error (fst q)) <= T ->
    Z.abs (error (fst (chain_step true vth se st q a))) <= T /\ Z.abs (residue (fst (chain_step true vth se st q a))) <= 2 * T) as G.
  { intros q b Hq. unfold chain_step, delta_step, delta_dynamics. fold T.
    set (d := Z.shiftl b (se + st) - act (fst q) + residue (fst q)).
    destruct (Z.leb_spec T (Z.abs (error (fst q) + d))); cbn [fst error residue].
    - rewrite Z.sub_diag. split; [|change (Z.abs 0) with 0; lia]. destruct (Z.ltb_spec 0 (Z.abs d)); [replace (1 - 1) with 0 by lia; rewrite Z.mul_0_r; change (Z.abs 0) with 0; lia|].
      assert (d = 0) as -> by lia. rewrite Z.mul_1_r. lia.
    - change (0 <? Z.abs 0) with false. cbv iota. split; lia. }
  assert (forall l q, Z.abs (error (fst q)) <= T -> Z.abs (error (fst (fold_left (chain_step true vth se st) l q))) <= T) as E.
  { induction l; simpl; auto. intros q Hq. apply IHl. apply G; auto. }
  unfold chain. rewrite fold_left_app. cbn [fold_left]. fold (chain true vth se st as_).
  pose proof (chain_inv_run true vth se st as_ Hse Hst) as I.
  destruct (chain_step_inv true vth se st _ a Hse Hst I) as [[A _] B].
  destruct (G (chain true vth se st as_) a) as [_ R]; [unfold chain; apply E; simpl; lia|].
  unfold T in R. lia.
Qed.
Theorem delta_sigma_cum_error_refuted : exists vth as_ a, 0 < vth /\
  vth < Z.abs (a - snd (chain true vth 0 0 (as_ ++ [a]))).
Proof. exists 10, [-9], 18. vm_compute. auto. Qed.

Example delta_sigma_demo : map (fun n => snd (chain false 3 1 2 (firstn n [1; 2; 5; 7; 6; -4]))) (seq 1 6) = [0; 0; 10; 10; 10; -8].
Proof. vm_compute. reflexivity. Qed.

(** ** C58: SigmaDelta *)
(** the plain fixed-point model with state_exp > 0 loses the low bits of every spike: the error of the
    decoded output grows without bound *)
Theorem sigma_delta_fixed_drift_refuted : forall n, 
  let '((g, s), total) := run_sum (sd_step Unit 0 false 1 0 1) (0, delta0) 0 (repeat 3 n) in
  act s = 3 * Z.of_nat n /\ act s - total * 2 ^ 1 = Z.of_nat n.
Proof.
  intro n.
  assert (forall n g acc, let '((g', s), total) := run_sum (sd_step Unit 0 false 1 0 1) (g, {| act := g; residue := 0; error := 0 |}) acc (repeat 3 n) in
     g' = g + 3 * Z.of_nat n /\ act s = g' /\ residue s = 0 /\ total = acc + Z.of_nat n) as G.
  { clear n. induction n as [|n IH]; intros g acc; [simpl; lia|].
    change (repeat 3 (S n)) with (3 :: repeat 3 n). cbn [run_sum].
    assert (sd_step Unit 0 false 1 0 1 (g, {| act := g; residue := 0; error := 0 |}) 3 = ((3 + g, {| act := 3 + g; residue := 0; error := 0 |}), 1)) as ->.
    { unfold sd_step, delta_dynamics, activation, sigma_step. cbn [fst snd act residue error].
      replace (3 + g + 0 * 2 ^ (0 + 1) - g + 0) with 3 by lia. cbn. repeat f_equal; lia. }
    specialize (IH (3 + g) (acc + 1)). destruct (run_sum _ _ _ _) as [[g' s] total]. lia. }
  specialize (G n 0 0). change {| act := 0; residue := 0; error := 0 |} with delta0 in G.
  destruct (run_sum _ _ _ _) as [[g s] total]. change (2 ^ 1) with 2. lia.
Qed.

(** With state_exp = 0 it tracks its activation within the threshold; so does the corrected model for
    every state_exp, up to one unit of the state exponent. *)
Theorem sigma_delta_fixed_partial : forall m bias vth se as_ a, 0 <= se -> 0 <= vth ->
  let '((g, s), total) := run_sum (sd_step m bias false vth se 0) (0, delta0) 0 (as_ ++ [a]) in
  act s = activation m bias se 0 g /\ Z.abs (act s - total) <= vth * 2 ^ se.
Proof.
  intros m bias vth se as_ a Hse Hv.
  assert (0 <= vth * 2 ^ (se + 0)) as HT by (apply Z.mul_nonneg_nonneg; [lia|apply Z.pow_nonneg; lia]).
  assert (forall q b acc, acc + residue (snd q) = act (snd q) ->
    let '(q', o) := sd_step m bias false vth se 0 q b in (acc + o) + residue (snd q') = act (snd q') /\
      act (snd q') = activation m bias se 0 (fst q') /\ Z.abs (residue (snd q')) <= vth * 2 ^ (se + 0)) as G.
  { intros q b acc H. unfold sd_step, delta_dynamics.
    destruct (Z.leb_spec (vth * 2 ^ (se + 0)) (Z.abs (activation m bias se 0 (sigma_step (fst q) b) - act (snd q) + residue (snd q)))); cbn [fst snd act residue];
      rewrite Z.shiftr_0_r; split; try lia; split; auto; lia. }
  assert (forall l q acc, acc + residue (snd q) = act (snd q) ->
     let '(q', total) := run_sum (sd_step m bias false vth se 0) q acc (l ++ [a]) in
     total + residue (snd q') = act (snd q') /\ act (snd q') = activation m bias se 0 (fst q') /\ Z.abs (residue (snd q')) <= vth * 2 ^ (se + 0)) as R.
  { induction l as [|b l IH]; intros q acc H; cbn [app run_sum].
    - specialize (G q a acc H). destruct (sd_step _ _ _ _ _ _ _ _) as [q' o]. auto.
    - specialize (G q b acc H). destruct (sd_step _ _ _ _ _ _ _ _) as [q' o]. apply IH. apply G. }
  specialize (R as_ (0, delta0) 0 eq_refl). destruct (run_sum _ _ _ _) as [[g s] total]. cbn [fst snd] in R.
  rewrite Z.add_0_r in R. destruct R as [R1 [R2 R3]]. split; [auto|lia].
Qed.
Theorem sigma_delta_corrected : forall m bias vth se st as_ a, 0 <= se -> 0 <= st -> 0 <= vth ->
  let '((g, x), total) := run_sum (sdc_step m bias vth se st) (0, 0) 0 (as_ ++ [a]) in
  x = total * 2 ^ st /\ Z.abs (activation m bias se st g - total * 2 ^ st) < Z.max (vth * 2 ^ (se + st)) (2 ^ st).
Proof.
  intros m bias vth se st as_ a Hse Hst Hv. pose proof (pow_pos st Hst) as Hp.
  set (T := vth * 2 ^ (se + st)).
  assert (forall q b acc, snd q = acc * 2 ^ st ->
    let '(q', o) := sdc_step m bias vth se st q b in snd q' = (acc + o) * 2 ^ st /\
      Z.abs (activation m bias se st (fst q') - snd q') < Z.max T (2 ^ st)) as G.
  { intros q b acc H. unfold sdc_step. fold T. cbn [fst snd].
    set (x := activation m bias se st (sigma_step (fst q) b)).
    rewrite Z.shiftl_mul_pow2, Z.shiftr_div_pow2 by lia.
    destruct (Z.leb_spec T (Z.abs (x - snd q))).
    - split; [rewrite H; lia|]. pose proof (Z.div_mod (x - snd q) (2 ^ st) ltac:(lia)).
      pose proof (Z.mod_pos_bound (x - snd q) (2 ^ st) ltac:(lia)). lia.
    - rewrite Z.div_0_l by lia. split; [rewrite H; lia|]. lia. }
  assert (forall l q acc, snd q = acc * 2 ^ st ->
     let '(q', total) := run_sum (sdc_step m bias vth se st) q acc (l ++ [a]) in
     snd q' = total * 2 ^ st /\ Z.abs (activation m bias se st (fst q') - snd q') < Z.max T (2 ^ st)) as R.
  { induction l as [|b l IH]; intros q acc H; cbn [app run_sum].
    - specialize (G q a acc H). destruct (sdc_step _ _ _ _ _ _ _) as [q' o]. auto.
    - specialize (G q b acc H). destruct (sdc_step _ _ _ _ _ _ _) as [q' o]. apply IH. apply G. }
  specialize (R as_ (0, 0) 0 eq_refl). destruct (run_sum _ _ _ _) as [[g x] total]. cbn [fst snd] in R.
  destruct R as [R1 R2]. rewrite R1 in R2. auto.
Qed.

(** The same against the inputs: the value a receiver decodes follows f(sum of all inputs + scaled bias). *)
Definition target (m : act_mode) (bias e : Z) (inputs : list Z) : Z :=
  let x := fold_right Z.add 0 inputs + bias * 2 ^ e in
  match m with Unit => x | Relu => if x <? 0 then 0 else x end.
Lemma target_activation m bias se st as_ : activation m bias se st (fold_right Z.add 0 as_) = target m bias (se + st) as_.
Proof. unfold activation, target. destruct m; auto. destruct (Z.ltb_spec (fold_right Z.add 0 as_ + bias * 2 ^ (se + st)) 0); lia. Qed.
Lemma run_sum_sigma {S} (f : S -> Z -> S * Z) (sg : S -> Z) : (forall s a, sg (fst (f s a)) = a + sg s) ->
  forall l s acc, sg (fst (run_sum f s acc l)) = fold_right Z.add 0 l + sg s.
Proof.
  intros H. induction l as [|a l IH]; intros s acc; cbn [run_sum fold_right fst]; [lia|].
  specialize (H s a). destruct (f s a) as [s' o]. cbn [fst] in H. rewrite IH. lia.
Qed.
Theorem sigma_delta_fixed_tracks_inputs_partial : forall m bias vth se as_, as_ <> [] -> 0 <= se -> 0 <= vth ->
  Z.abs (target m bias se as_ - snd (run_sum (sd_step m bias false vth se 0) (0, delta0) 0 as_)) <= vth * 2 ^ se.
Proof.
  intros m bias vth se as_ H Hs Hv. destruct (exists_last H) as [l [a ->]].
  pose proof (sigma_delta_fixed_partial m bias vth se l a Hs Hv) as T.
  assert (forall (s : Z * delta_st) a, fst (fst (sd_step m bias false vth se 0 s a)) = a + fst s) as St.
  { intros s b. unfold sd_step. destruct (delta_dynamics _ _ _ _) as [s' o]. reflexivity. }
  pose proof (run_sum_sigma (sd_step m bias false vth se 0) fst St (l ++ [a]) (0, delta0) 0) as G.
  destruct (run_sum _ _ _ _) as [[g s] total]. cbn [fst snd] in *. rewrite Z.add_0_r in G. destruct T as [T1 T2].
  rewrite <- (Z.add_0_r se) at 1. rewrite <- target_activation, <- G, <- T1. exact T2.
Qed.
Theorem sigma_delta_corrected_tracks_inputs : forall m bias vth se st as_, as_ <> [] -> 0 <= se -> 0 <= st -> 0 <= vth ->
  Z.abs (target m bias (se + st) as_ - snd (run_sum (sdc_step m bias vth se st) (0, 0) 0 as_) * 2 ^ st)
  < Z.max (vth * 2 ^ (se + st)) (2 ^ st).
Proof.
  intros m bias vth se st as_ H Hs Hst Hv. destruct (exists_last H) as [l [a ->]].
  pose proof (sigma_delta_corrected m bias vth se st l a Hs Hst Hv) as T.
  assert (forall (s : Z * Z) a, fst (fst (sdc_step m bias vth se st s a)) = a + fst s) as St by reflexivity.
  pose proof (run_sum_sigma (sdc_step m bias vth se st) fst St (l ++ [a]) (0, 0) 0) as G.
  destruct (run_sum _ _ _ _) as [[g s] total]. cbn [fst snd] in *. rewrite Z.add_0_r in G. destruct T as [T1 T2].
  rewrite <- target_activation, <- G. exact T2.
Qed.

(** ** C36 *)
(** what has been sent, plus what is in the buffer, plus the residue, is the scaled input *)
Lemma enc_run vth bits se : forall as_ q acc,
  acc + snd q + snd (fst q) = fst (fst q) ->
  let q' := fold_left (fun q a => fst (enc_step vth bits se q a)) as_ q in
  acc + fold_right Z.add 0 (enc_outputs vth bits se q as_) + snd q' + snd (fst q') = fst (fst q').
Proof.
  induction as_ as [|a r IH]; intros q acc H; simpl; [lia|].
  specialize (IH (fst (enc_step vth bits se q a)) (acc + snd q)). simpl in IH.
  rewrite <- Z.add_assoc in IH. rewrite Z.add_assoc. rewrite <- IH; clear IH; [simpl; lia|].
  simpl. destruct (0 <? a_max bits se); destruct (_ <=? _); lia.
Qed.

Definition enc_state vth bits se as_ := fold_left (fun q a => fst (enc_step vth bits se q a)) as_ enc0.

(** Nothing is lost, with or without clipping: the values sent at the steps of [as_ ++ [a]] and at the
    step after, plus the residue kept, make up the scaled input [a]. *)
Theorem encoder_conserves : forall vth bits se as_ a b, 0 <= se ->
  fold_right Z.add 0 (enc_outputs vth bits se enc0 (as_ ++ [a; b])) + snd (fst (enc_state vth bits se (as_ ++ [a]))) = a * 2 ^ se.
Proof.
  intros vth bits se as_ a b Hse.
  assert (forall as_ q b, enc_outputs vth bits se q (as_ ++ [b]) = enc_outputs vth bits se q as_ ++ [snd (fold_left (fun q a => fst (enc_step vth bits se q a)) as_ q)]) as E.
  { clear. induction as_ as [|x r IH]; intros q b; [reflexivity|]. cbn [app enc_outputs fold_left].
    destruct (enc_step vth bits se q x) as [q' o] eqn:Es. cbn [fst]. rewrite IH. reflexivity. }
  replace (as_ ++ [a; b]) with ((as_ ++ [a]) ++ [b]) by (rewrite <- app_assoc; auto). rewrite E.
  assert (forall l x, fold_right Z.add 0 (l ++ [x]) = fold_right Z.add 0 l + x) as S.
  { clear. induction l; intro x; simpl; [lia|]. rewrite IHl. lia. }
  rewrite S. pose proof (enc_run vth bits se (as_ ++ [a]) enc0 0 eq_refl) as R. cbv zeta in R. fold (enc_state vth bits se (as_ ++ [a])) in R.
  assert (fst (fst (enc_state vth bits se (as_ ++ [a]))) = a * 2 ^ se) as F.
  { unfold enc_state. rewrite fold_left_app. simpl. apply Z.shiftl_mul_pow2. auto. }
  fold (enc_state vth bits se (as_ ++ [a])). lia.
Qed.

(** Without clipping the residue is below the threshold: the accumulated output tracks the input. *)
Theorem encoder_tracks : forall vth se as_ a b, 0 <= se ->
  let err := a * 2 ^ se - fold_right Z.add 0 (enc_outputs vth None se enc0 (as_ ++ [a; b])) in
  Z.abs err <= Z.max 0 (vth * 2 ^ se) /\ (0 < vth -> Z.abs err < vth * 2 ^ se) /\ (vth <= 0 -> err = 0).
Proof.
  intros vth se as_ a b Hse. intro err.
  assert (err = snd (fst (enc_state vth None se (as_ ++ [a])))) as E.
  { unfold err. pose proof (encoder_conserves vth None se as_ a b Hse). lia. }
  clearbody err. subst err. unfold enc_state. rewrite fold_left_app. cbn [fold_left].
  fold (enc_state vth None se as_). pose proof (pow_pos se Hse).
  unfold enc_step, encode_delta. cbn [fst snd a_max Z.ltb]. change (0 <? -1) with false. cbv iota.
  destruct (Z.leb_spec (vth * 2 ^ se) (Z.abs (Z.shiftl a se - fst (fst (enc_state vth None se as_)) + snd (fst (enc_state vth None se as_))))); cbn [fst snd].
  - rewrite Z.sub_diag. split; [simpl; lia|]. split; [intro; simpl; nia|auto].
  - split; [lia|]. split; [lia|]. intro. nia.
Qed.

Lemma in_outputs_range vth n se : 2 <= n -> 0 <= se -> forall as_ q o, a_min (Some n) se <= snd q <= a_max (Some n) se ->
  In o (enc_outputs vth (Some n) se q as_) -> a_min (Some n) se <= o <= a_max (Some n) se.
Proof.
  intros Hn Hse. assert (2 <= 2 ^ (n - 1)) as Hp.
  { change 2 with (2 ^ 1) at 1. apply Z.pow_le_mono_r; lia. }
  pose proof (pow_pos se Hse) as Hs.
  assert (0 < a_max (Some n) se) as HM by (unfold a_max; rewrite Z.shiftl_mul_pow2 by lia; nia).
  assert (a_min (Some n) se <= 0) as Hm by (unfold a_min; rewrite Z.shiftl_mul_pow2 by lia; nia).
  induction as_ as [|a r IH]; intros q o Hq Ho; [destruct Ho|].
  cbn [enc_outputs] in Ho. unfold enc_step in Ho. destruct Ho as [<-|Ho]; [auto|].
  revert Ho. apply IH. unfold encode_delta. assert (0 <? a_max (Some n) se = true) as -> by (apply Z.ltb_lt; auto).
  cbn [snd]. apply clip_range. lia.
Qed.

(** With [n >= 2] bits every value sent is in the n-bit range scaled by 2^spike_exp ... *)
Theorem encoder_clipped_partial : forall vth n se as_ o, 2 <= n -> 0 <= se ->
  In o (enc_outputs vth (Some n) se enc0 as_) -> - 2 ^ (n - 1) * 2 ^ se <= o <= (2 ^ (n - 1) - 1) * 2 ^ se.
Proof.
  intros vth n se as_ o Hn Hse Ho. assert (2 <= 2 ^ (n - 1)) as Hp.
  { change 2 with (2 ^ 1) at 1. apply Z.pow_le_mono_r; lia. }
  pose proof (pow_pos se Hse) as Hs.
  assert (a_min (Some n) se <= o <= a_max (Some n) se) as R.
  { eapply in_outputs_range; eauto. simpl. rewrite !Z.shiftl_mul_pow2 by lia. nia. }
  unfold a_min, a_max in R. rewrite !Z.shiftl_mul_pow2 in R by lia. lia.
Qed.
(** ... but one bit (range -1..0) is not clipped at all. *)
Theorem encoder_one_bit_refuted : exists as_ o, In o (enc_outputs 1 (Some 1) 0 enc0 as_) /\ ~ (-1 <= o <= 0).
Proof. exists [100; 0], 100. split; [vm_compute; auto|lia]. Qed.

(** With clipping a constant input is caught up with: after enough repetitions the residue is below the
    threshold and stays there. *)
Theorem encoder_catches_up : forall vth n se as_ a, 2 <= n -> 0 <= se -> 0 < vth ->
  exists N, forall k, (N <= k)%nat ->
    Z.abs (snd (fst (enc_state vth (Some n) se (as_ ++ repeat a k)))) < vth * 2 ^ se.
Proof.
  intros vth n se as_ a Hn Hse Hv. assert (2 <= 2 ^ (n - 1)) as Hp.
  { change 2 with (2 ^ 1) at 1. apply Z.pow_le_mono_r; lia. }
  pose proof (pow_pos se Hse) as Hs. set (T := vth * 2 ^ se). assert (0 < T) as HT by (unfold T; nia).
  assert (0 < a_max (Some n) se) as HM by (unfold a_max; rewrite Z.shiftl_mul_pow2 by lia; nia).
  assert (a_min (Some n) se < 0) as Hm by (unfold a_min; rewrite Z.shiftl_mul_pow2 by lia; nia).
  set (st k := enc_state vth (Some n) se (as_ ++ repeat a k)).
  assert (forall k, st (S k) = fst (enc_step vth (Some n) se (st k) a)) as HS.
  { intro k. unfold st, enc_state. change (repeat a (S k)) with (a :: repeat a k). rewrite repeat_cons, app_assoc, fold_left_app. reflexivity. }
  assert (forall k, (1 <= k)%nat -> fst (fst (st k)) = Z.shiftl a se) as HA.
  { intros [|k] Hk; [lia|]. rewrite HS. reflexivity. }
  assert (forall k, (1 <= k)%nat -> let r := snd (fst (st k)) in let r' := snd (fst (st (S k))) in
     (Z.abs r < T -> r' = r) /\ (T <= Z.abs r -> Z.abs r' < Z.abs r)) as HR.
  { intros k Hk r r'. unfold r'. rewrite HS. unfold enc_step, encode_delta. fold T. rewrite (HA k Hk). fold r.
    replace (Z.shiftl a se - Z.shiftl a se + r) with r by lia.
    assert (0 <? a_max (Some n) se = true) as -> by (apply Z.ltb_lt; auto). cbn [fst snd].
    destruct (Z.leb_spec T (Z.abs r)); split; intros; try lia; unfold clip; lia. }
  assert (forall m k, (1 <= k)%nat -> Z.abs (snd (fst (st k))) <= Z.of_nat m -> exists N, (1 <= N)%nat /\ forall j, (N <= j)%nat -> Z.abs (snd (fst (st j))) < T) as G.
  { assert (forall k, (1 <= k)%nat -> Z.abs (snd (fst (st k))) < T -> forall d, Z.abs (snd (fst (st (k + d)%nat))) < T) as Stay.
    { intros k Hk H d. induction d; [rewrite Nat.add_0_r; auto|]. rewrite Nat.add_succ_r.
      rewrite (proj1 (HR (k + d)%nat ltac:(lia)) IHd). auto. }
    induction m as [|m IH]; intros k Hk Hb.
    - exists k. split; auto. intros j Hj. replace j with (k + (j - k))%nat by lia. apply Stay; auto. lia.
    - destruct (Z_lt_le_dec (Z.abs (snd (fst (st k)))) T) as [L|L].
      + exists k. split; auto. intros j Hj. replace j with (k + (j - k))%nat by lia. apply Stay; auto.
      + apply (IH (S k)); [lia|]. pose proof (proj2 (HR k Hk) L). lia. }
  destruct (G (Z.to_nat (Z.abs (snd (fst (st 1%nat))))) 1%nat ltac:(lia) ltac:(lia)) as [N [_ HN]]. exists N. exact HN.
Qed.

Example encoder_demo : enc_outputs 2 (Some 3) 0 enc0 [1; 9; 9; 9; 9] = [0; 0; 3; 3; 3].
Proof. vm_compute. reflexivity. Qed.
Print Assumptions encoder_catches_up.
