(** C105: a Conv process sends the convolution of what it received in the step before. *)
From Coq Require Import ZArith List Bool Lia.
From Verif Require Import Conn_Spec Conv_Model Conv_Props Bits_Model Bits_Props ConvProc_Model ConvProc_Spec.
Import ListNotations.
Open Scope Z_scope.

Lemma to_int8_small : forall z, -128 <= z < 128 -> to_int8 z = z.
Proof. intros z H. unfold to_int8. rewrite Z.mod_small by lia. lia. Qed.
Lemma to_int8_range : forall z, -128 <= to_int8 z < 128.
Proof. intros z. unfold to_int8. pose proof (Z.mod_pos_bound (z + 128) 256 ltac:(lia)). lia. Qed.

(** ** the constructor *)
(** a Conv can be constructed exactly if groups divides both numbers of channels, the strides are not 0 and the dilated kernel
    fits the padded input; the output has an entry for each position *)
Theorem conv_constructed_iff : forall c, (exists s, out_shape c = Some s) <->
  let p := sc c in
  (0 < groups p /\ nc p mod groups p = 0 /\ nk p mod groups p = 0 /\ 0 < sx p /\ 0 < sy p)%nat /\
  Z.of_nat (dx p) * (Z.of_nat (kx p) - 1) < Z.of_nat (nx p) + 2 * Z.of_nat (px p) /\
  Z.of_nat (dy p) * (Z.of_nat (ky p) - 1) < Z.of_nat (ny p) + 2 * Z.of_nat (py p).
Proof.
  intros c. cbv zeta. unfold out_shape.
  assert (forall n k s q d, 0 < s -> ((exists v, out_dim n k s q d = Some v) <-> d * (k - 1) < n + 2 * q)) as HD.
  { intros n k s q d Hs. destruct (out_dim n k s q d) as [v|] eqn:E.
    - apply output_shape_counts in E; [|exact Hs]. destruct E as [V W]. specialize (W 0 ltac:(lia)).
      split; [intros _; apply proj1 in W; specialize (W ltac:(lia)); lia|intros _; eauto].
    - split; [intros (v & X); discriminate|]. intros X. exfalso. apply (output_shape_none _ _ _ _ _ Hs E). exists 0. split; lia. }
  destruct (Nat.eqb_spec (groups (sc c)) 0); [split; [intros (? & ?); discriminate|lia]|].
  destruct (Nat.eqb_spec (nc (sc c) mod groups (sc c)) 0); [|split; [intros (? & ?); discriminate|lia]].
  destruct (Nat.eqb_spec (nk (sc c) mod groups (sc c)) 0); [|split; [intros (? & ?); discriminate|lia]]. cbn [negb].
  destruct (Nat.eqb_spec (sx (sc c)) 0); [split; [intros (? & ?); discriminate|lia]|].
  destruct (Nat.eqb_spec (sy (sc c)) 0); [split; [intros (? & ?); discriminate|lia]|]. cbn [orb].
  rewrite <- (HD _ _ (Z.of_nat (sx (sc c)))), <- (HD _ _ (Z.of_nat (sy (sc c)))) by lia.
  destruct (out_dim (Z.of_nat (nx (sc c))) _ _ _ _) as [x|]; [|split; [intros (? & ?); discriminate|intros (_ & (? & ?) & _); discriminate]].
  destruct (out_dim (Z.of_nat (ny (sc c))) _ _ _ _) as [y|]; [|split; [intros (? & ?); discriminate|intros (_ & _ & (? & ?)); discriminate]].
  split; [intros _|intros _; eauto]. split; [lia|]. split; eauto.
Qed.

Theorem conv_output_shape : forall c X Y K, out_shape c = Some (X, Y, K) -> let p := sc c in
  K = nk p /\
  (forall x, (x < X)%nat <-> Z.of_nat x * Z.of_nat (sx p) + Z.of_nat (dx p) * (Z.of_nat (kx p) - 1) < Z.of_nat (nx p) + 2 * Z.of_nat (px p)) /\
  (forall y, (y < Y)%nat <-> Z.of_nat y * Z.of_nat (sy p) + Z.of_nat (dy p) * (Z.of_nat (ky p) - 1) < Z.of_nat (ny p) + 2 * Z.of_nat (py p)).
Proof.
  intros c X Y K H. cbv zeta. unfold out_shape in H.
  destruct (Nat.eqb _ 0); [discriminate|]. destruct (negb _); [discriminate|]. destruct (negb _); [discriminate|].
  destruct (Nat.eqb_spec (sx (sc c)) 0); [discriminate|]. destruct (Nat.eqb_spec (sy (sc c)) 0); [discriminate|]. cbn [orb] in H.
  destruct (out_dim (Z.of_nat (nx (sc c))) _ _ _ _) as [vx|] eqn:E1; [|discriminate].
  destruct (out_dim (Z.of_nat (ny (sc c))) _ _ _ _) as [vy|] eqn:E2; [|discriminate]. injection H as <- <- <-.
  apply output_shape_counts in E1; [|lia]. apply output_shape_counts in E2; [|lia]. destruct E1 as [V1 W1]. destruct E2 as [V2 W2].
  split; [reflexivity|]. split.
  - intros x. rewrite <- W1 by lia. lia.
  - intros y. rewrite <- W2 by lia. lia.
Qed.

(** ** steps *)
Lemma run_conv_spec : forall c, (forall i, exists o, conv_step c i = Some o) -> forall ins buf,
  snd (run_conv c buf ins) = false /\ List.length (fst (run_conv c buf ins)) = List.length ins /\
  forall t, (t < List.length ins)%nat ->
    match t with
    | O => nth t (fst (run_conv c buf ins)) (fun _ _ _ => 0) = buf
    | S t' => exists o, conv_step c (received c (nth t' ins (fun _ _ _ => 0))) = Some o /\
              forall x y ch, nth t (fst (run_conv c buf ins)) (fun _ _ _ => 0) x y ch = precision c (o x y ch)
    end.
Proof.
  intros c H ins. induction ins as [|i ins IH]; intros buf; [split; [reflexivity|split; [reflexivity|cbn; lia]]|].
  cbn [run_conv]. destruct (H (received c i)) as (o & E). rewrite E.
  destruct (IH (fun x y ch => precision c (o x y ch))) as (A & B & C).
  destruct (run_conv c (fun x y ch => precision c (o x y ch)) ins) as [l e] eqn:R. cbn [fst snd] in *.
  split; [exact A|]. split; [cbn; now rewrite B|]. intros [|t] Ht; [reflexivity|]. cbn [nth List.length] in *.
  specialize (C t ltac:(lia)). destruct t as [|t].
  - exists o. split; [exact E|]. intros x y ch. now rewrite C.
  - destruct C as (o' & E' & C). exists o'. split; [exact E'|exact C].
Qed.

Lemma run_conv_raises : forall c, (forall i, conv_step c i = None) -> forall ins, ins <> [] ->
  snd (run_proc c ins) = true /\ List.length (fst (run_proc c ins)) = 1%nat.
Proof. intros c H [|i ins] N; [congruence|]. unfold run_proc. cbn [run_conv]. rewrite H. split; reflexivity. Qed.

Lemma with_same : forall p, with_groups p (groups p) = p.
Proof. intros []. reflexivity. Qed.

Lemma received_carried : forall c ins t, received c (nth t ins (fun _ _ _ => 0)) = carried c ins t.
Proof. intros. reflexivity. Qed.

Lemma conv_step_good : forall c s, out_shape c = Some s -> Proper c -> Channels c -> (groups (sc c) <= 127)%nat ->
  forall i, exists o, conv_step c i = Some o /\ forall x y ch, (ch < nk (sc c))%nat -> o x y ch = convolution (sc c) (wgt c) i x y ch.
Proof.
  intros c s H (Hk & Hk' & Hd & Hd' & Hn) HC HG i.
  assert (exists s, out_shape c = Some s) as H0 by eauto. apply conv_constructed_iff in H0. cbv zeta in H0.
  destruct H0 as ((G & A & B & _ & _) & _). unfold Channels in HC.
  assert (groups8 c = Z.of_nat (groups (sc c))) as E8 by (apply to_int8_small; lia).
  unfold conv_step. rewrite E8, Nat2Z.id.
  destruct (Nat.eqb_spec (dx (sc c)) 0); [lia|]. destruct (Nat.eqb_spec (dy (sc c)) 0); [lia|]. cbn [orb].
  assert (forall n, (n mod groups (sc c) = 0)%nat -> divides (Z.of_nat (groups (sc c))) (Z.of_nat n) = true) as D.
  { intros q Hq. unfold divides. destruct (Z.eqb_spec (Z.of_nat (groups (sc c))) 0); [reflexivity|].
    rewrite <- Nat2Z.inj_mod, Hq. reflexivity. }
  rewrite !D by assumption. cbn [negb]. destruct (Z.leb_spec (Z.of_nat (groups (sc c))) 0); [lia|].
  assert (nc (sc c) / groups (sc c) = wc c)%nat as -> by (rewrite <- HC; apply Nat.div_mul; lia).
  rewrite Nat.ltb_irrefl. cbn [andb]. eexists. split; [reflexivity|]. intros x y ch Hch. cbv beta. rewrite with_same.
  apply conv_scipy_is_convolution; [|exact Hch]. repeat split; assumption.
Qed.

Lemma precision_signed : forall c z, fixed c = true -> - 2 ^ 31 <= z < 2 ^ 31 -> Signed24 z (precision c z).
Proof.
  intros c z F H. unfold precision, to_int32. rewrite F.
  destruct (Z.leb_spec (- 2 ^ 31) z); [|lia]. destruct (Z.ltb_spec z (2 ^ 31)); [|lia]. cbn [andb].
  destruct (signed_clamp_wraps z 24 ltac:(lia)) as (A & B & _). split; [exact A|]. unfold in_bits in B. cbn in B |- *. lia.
Qed.

(** ** a Conv with up to 127 groups: nothing in the first step, then the convolution of the step before *)
Theorem conv_process_convolves_partial : forall c s ins, out_shape c = Some s -> Proper c -> Channels c -> (groups (sc c) <= 127)%nat ->
  snd (run_proc c ins) = false /\ List.length (fst (run_proc c ins)) = List.length ins /\
  (forall x y ch, sent c ins 0 x y ch = 0) /\
  forall t x y ch, (S t < List.length ins)%nat -> (ch < nk (sc c))%nat ->
    (fixed c = false -> sent c ins (S t) x y ch = Conv_of c ins t x y ch) /\
    (fixed c = true -> - 2 ^ 31 <= Conv_of c ins t x y ch < 2 ^ 31 -> Signed24 (Conv_of c ins t x y ch) (sent c ins (S t) x y ch)).
Proof.
  intros c s ins H P C G. pose proof (conv_step_good c s H P C G) as ST.
  destruct (run_conv_spec c (fun i => let (o, X) := ST i in ex_intro _ o (proj1 X)) ins (fun _ _ _ => 0)) as (A & B & D).
  split; [exact A|]. split; [exact B|]. split.
  - intros x y ch. unfold sent, run_proc. destruct ins as [|i ins]; [reflexivity|]. now rewrite (D 0%nat ltac:(cbn; lia)).
  - intros t x y ch Ht Hch. destruct (D (S t) Ht) as (o & E & V). rewrite received_carried in E.
    destruct (ST (carried c ins t)) as (o' & E' & V'). rewrite E in E'. injection E' as <-.
    unfold sent, run_proc. rewrite V, V' by exact Hch. fold (Conv_of c ins t x y ch). split.
    + intros F. unfold precision. now rewrite F.
    + intros F R. now apply precision_signed.
Qed.

(** ... exactly, if it fits 24 bits *)
Theorem conv_fits : forall z r, Signed24 z r -> - 2 ^ 23 <= z < 2 ^ 23 -> r = z.
Proof.
  intros z r [[q D] R] H. change (2 ^ 24) with (2 * 2 ^ 23) in D. set (B := 2 ^ 23) in *.
  assert (0 < B) by (unfold B; lia). assert (q = 0) as -> by nia. lia.
Qed.

(** the other parameters of the weights make no difference *)
Theorem weight_parameters_ignored : forall sc wc wgt fixed bits e n e' n' ins,
  run_proc (mkConv sc wc wgt fixed bits e n) ins = run_proc (mkConv sc wc wgt fixed bits e' n') ins.
Proof.
  intros. unfold run_proc. generalize (fun _ _ _ : nat => 0) as buf. induction ins as [|i ins IH]; intros buf; [reflexivity|].
  cbn [run_conv]. change (conv_step (mkConv sc wc wgt fixed bits e n)) with (conv_step (mkConv sc wc wgt fixed bits e' n')).
  change (received (mkConv sc wc wgt fixed bits e n) i) with (received (mkConv sc wc wgt fixed bits e' n') i).
  destruct (conv_step (mkConv sc wc wgt fixed bits e' n') (received (mkConv sc wc wgt fixed bits e' n') i)) as [o|]; [|reflexivity].
  change (fun x y ch => precision (mkConv sc wc wgt fixed bits e n) (o x y ch)) with (fun x y ch => precision (mkConv sc wc wgt fixed bits e' n') (o x y ch)).
  now rewrite IH.
Qed.

(** ** more groups: the Var holds another number *)
(** 128 to 256 groups: the process sends zeros for ever, without an error, or raises in its first step *)
Theorem many_groups : forall c s ins, out_shape c = Some s -> Proper c -> (128 <= groups (sc c) <= 256)%nat -> ins <> [] ->
  let g := 256 - Z.of_nat (groups (sc c)) in
  (g = 0 \/ (g | Z.of_nat (nc (sc c))) /\ (g | Z.of_nat (nk (sc c))) ->
    snd (run_proc c ins) = false /\ forall t x y ch, sent c ins t x y ch = 0) /\
  (~ (g = 0 \/ (g | Z.of_nat (nc (sc c))) /\ (g | Z.of_nat (nk (sc c)))) ->
    snd (run_proc c ins) = true /\ List.length (fst (run_proc c ins)) = 1%nat).
Proof.
  intros c s ins H (_ & _ & Hd & Hd' & _) HG Hne. cbv zeta. set (g := 256 - Z.of_nat (groups (sc c))).
  assert (groups8 c = - g) as E8.
  { unfold groups8, to_int8, g. replace (Z.of_nat (groups (sc c)) + 128) with (Z.of_nat (groups (sc c)) - 128 + 1 * 256) by lia.
    rewrite Z.mod_add by lia. rewrite Z.mod_small by lia. lia. }
  assert (forall n, divides (- g) n = true <-> g = 0 \/ (g | n)) as DV.
  { intros n. unfold divides. destruct (Z.eqb_spec (- g) 0) as [E|E]; [split; [intros _; left; lia|reflexivity]|].
    rewrite Z.eqb_eq. rewrite Z.mod_divide by exact E. rewrite Z.divide_opp_l. split; [auto|intros [X|X]; [lia|exact X]]. }
  assert (0 <= g) by (unfold g; lia).
  assert (forall i, conv_step c i = if divides (- g) (Z.of_nat (nc (sc c))) && divides (- g) (Z.of_nat (nk (sc c))) then Some (fun _ _ _ => 0) else None) as ST.
  { intros i. unfold conv_step. rewrite E8. destruct (Nat.eqb_spec (dx (sc c)) 0); [lia|]. destruct (Nat.eqb_spec (dy (sc c)) 0); [lia|]. cbn [orb].
    destruct (divides (- g) (Z.of_nat (nc (sc c)))), (divides (- g) (Z.of_nat (nk (sc c)))); cbn [negb andb]; try reflexivity.
    destruct (Z.leb_spec (- g) 0); [reflexivity|lia]. }
  split; intros X.
  - assert (divides (- g) (Z.of_nat (nc (sc c))) && divides (- g) (Z.of_nat (nk (sc c))) = true) as Y by (apply andb_true_iff; rewrite !DV; tauto).
    rewrite Y in ST. destruct (run_conv_spec c (fun i => ex_intro _ _ (ST i)) ins (fun _ _ _ => 0)) as (A & B & D).
    split; [exact A|]. intros t x y ch. unfold sent, run_proc. destruct (Nat.lt_ge_cases t (List.length ins)) as [Ht|Ht].
    + specialize (D t Ht). destruct t as [|t]; [now rewrite D|]. destruct D as (o & E & V). rewrite ST in E. injection E as <-. rewrite V.
      unfold precision. destruct (fixed c); reflexivity.
    + rewrite nth_overflow by (rewrite B; exact Ht). reflexivity.
  - apply run_conv_raises; [|exact Hne]. intros i. rewrite ST.
    destruct (divides (- g) (Z.of_nat (nc (sc c)))) eqn:E1; [|reflexivity]. destruct (divides (- g) (Z.of_nat (nk (sc c)))) eqn:E2; [|reflexivity].
    exfalso. apply X. apply DV in E1. apply DV in E2. tauto.
Qed.

(** a depthwise convolution of 128 channels *)
Theorem groups_128_silent : forall c s ins, out_shape c = Some s -> Proper c -> groups (sc c) = 128%nat ->
  snd (run_proc c ins) = false /\ forall t x y ch, sent c ins t x y ch = 0.
Proof.
  intros c s ins H P E. destruct ins as [|i ins]; [split; [reflexivity|intros [|t] x y ch; reflexivity]|].
  destruct (many_groups c s (i :: ins) H P) as [X _]; [lia|discriminate|]. apply X. right. rewrite E.
  assert (exists s, out_shape c = Some s) as H0 by eauto. apply conv_constructed_iff in H0. cbv zeta in H0.
  destruct H0 as ((G & A & B & _) & _). rewrite E in A, B.
  split; [exists (Z.of_nat (nc (sc c) / 128))|exists (Z.of_nat (nk (sc c) / 128))].
  - pose proof (Nat.div_mod (nc (sc c)) 128 ltac:(lia)). lia.
  - pose proof (Nat.div_mod (nk (sc c)) 128 ltac:(lia)). lia.
Qed.

(** ** weights with another number of channels are accepted *)
Theorem too_few_channels_raise : forall c s ins, out_shape c = Some s -> Proper c -> (groups (sc c) <= 127)%nat ->
  (wc c * groups (sc c) < nc (sc c))%nat -> ins <> [] -> snd (run_proc c ins) = true /\ List.length (fst (run_proc c ins)) = 1%nat.
Proof.
  intros c s ins H (_ & _ & Hd & Hd' & Hn) HG HC Hne. apply run_conv_raises; [|exact Hne]. intros i.
  assert (exists s, out_shape c = Some s) as H0 by eauto. apply conv_constructed_iff in H0. cbv zeta in H0. destruct H0 as ((G & A & B & _) & _).
  assert (groups8 c = Z.of_nat (groups (sc c))) as E8 by (apply to_int8_small; lia).
  unfold conv_step. rewrite E8, Nat2Z.id.
  destruct (Nat.eqb_spec (dx (sc c)) 0); [lia|]. destruct (Nat.eqb_spec (dy (sc c)) 0); [lia|]. cbn [orb].
  destruct (negb _); [reflexivity|]. destruct (negb _); [reflexivity|]. destruct (Z.leb_spec (Z.of_nat (groups (sc c))) 0); [lia|].
  pose proof (Nat.div_mod (nc (sc c)) (groups (sc c)) ltac:(lia)). pose proof (Nat.div_mod (nk (sc c)) (groups (sc c)) ltac:(lia)).
  destruct (Nat.ltb_spec (wc c) (nc (sc c) / groups (sc c))); [|nia].
  destruct (Nat.ltb_spec 0 (nk (sc c) / groups (sc c))); [reflexivity|nia].
Qed.
(** ... the channels too many are ignored *)
Theorem more_channels_ignored : forall c s n ins, out_shape c = Some s -> Proper c -> Channels c -> (groups (sc c) <= 127)%nat -> (wc c <= n)%nat ->
  run_proc (mkConv (sc c) n (wgt c) (fixed c) (num_message_bits c) (exp_of_weights c) (num_weight_bits c)) ins = run_proc c ins.
Proof.
  intros c s n ins H (Hk & Hk' & Hd & Hd' & Hn) HC HG Hwc. unfold run_proc. generalize (fun _ _ _ : nat => 0) as buf.
  set (c' := mkConv (sc c) n (wgt c) (fixed c) (num_message_bits c) (exp_of_weights c) (num_weight_bits c)).
  assert (exists s, out_shape c = Some s) as H0 by eauto. apply conv_constructed_iff in H0. cbv zeta in H0. destruct H0 as ((G & A & B & _) & _).
  assert (forall i, conv_step c' i = conv_step c i) as ST.
  { intros i. assert (groups8 c = Z.of_nat (groups (sc c))) as E8 by (apply to_int8_small; lia).
    unfold conv_step. change (groups8 c') with (groups8 c). cbn [sc wc wgt c']. rewrite E8, Nat2Z.id. unfold Channels in HC.
    assert (nc (sc c) / groups (sc c) = wc c)%nat as -> by (rewrite <- HC; apply Nat.div_mul; lia).
    rewrite Nat.ltb_irrefl. destruct (Nat.ltb_spec n (wc c)); [lia|]. reflexivity. }
  induction ins as [|i ins IH]; intros buf; [reflexivity|]. cbn [run_conv]. change (received c' i) with (received c i). rewrite ST.
  destruct (conv_step c (received c i)) as [o|]; [|reflexivity].
  change (fun x y ch => precision c' (o x y ch)) with (fun x y ch => precision c (o x y ch)). now rewrite IH.
Qed.
