(** C38, C39, C42, C59. *)
From Coq Require Import ZArith List Bool Lia.
From Verif Require Import NpInt Bits_Model.
Import ListNotations.
Open Scope Z_scope.

(** ** C38 *)
Definition in_bits (bits v : Z) : Prop := - 2 ^ (bits - 1) <= v < 2 ^ (bits - 1).

Lemma fits_iff bits v : 1 <= bits <= 31 -> - 2147483648 <= v < 2147483648 -> (fits bits v = true <-> in_bits bits v).
Proof.
  intros Hb Hv. unfold fits, in_bits. rewrite (w32_id v) by lia. rewrite Z.eqb_eq.
  rewrite Z.shiftr_div_pow2, Z.shiftl_mul_pow2 by lia.
  assert (2 ^ 32 = 2 ^ bits * 2 ^ (32 - bits)) as E32 by (rewrite <- Z.pow_add_r by lia; f_equal; lia).
  assert (2 ^ 31 = 2 ^ (bits - 1) * 2 ^ (32 - bits)) as E31 by (rewrite <- Z.pow_add_r by lia; f_equal; lia).
  assert (2 ^ bits = 2 * 2 ^ (bits - 1)) as Eb by (rewrite <- Z.pow_succ_r by lia; f_equal; lia).
  assert (0 < 2 ^ (32 - bits)) by (apply Z.pow_pos_nonneg; lia).
  assert (0 < 2 ^ (bits - 1)) by (apply Z.pow_pos_nonneg; lia).
  unfold w32, wrap. change (32 - 1) with 31. rewrite E32, E31.
  set (S := 2 ^ (32 - bits)) in *. set (H2 := 2 ^ (bits - 1)) in *. rewrite Eb.
  rewrite <- Z.mul_add_distr_r. rewrite Z.mul_mod_distr_r by lia.
  rewrite <- Z.mul_sub_distr_r, Z.div_mul by lia.
  pose proof (Z.mod_pos_bound (v + H2) (2 * H2) ltac:(lia)). split.
  - intro E. lia.
  - intro E. rewrite Z.mod_small; lia.
Qed.

(** The flag of BitCheck after any number of steps: 1 iff some value read so far was out of range. *)
Theorem bitcheck_flag_exact : forall bits reads, 1 <= bits <= 31 ->
  (forall vs v, In vs reads -> In v vs -> - 2 ^ 31 <= v < 2 ^ 31) ->
  (fold_left (bit_check bits) reads 0 = 1 <-> exists vs v, In vs reads /\ In v vs /\ ~ in_bits bits v) /\
  (fold_left (bit_check bits) reads 0 = 0 <-> forall vs v, In vs reads -> In v vs -> in_bits bits v).
Proof.
  intros bits reads Hb Hv. change (2 ^ 31) with 2147483648 in Hv.
  assert (forall vs, In vs reads -> (check_bit_overflow bits vs = true <-> exists v, In v vs /\ ~ in_bits bits v)) as HC.
  { intros vs Hvs. unfold check_bit_overflow. rewrite negb_true_iff. split.
    - intro H. assert (exists v, In v vs /\ fits bits v = false) as [v [A B]].
      { clear - H. induction vs as [|x vs IH]; [discriminate|]. simpl in H. destruct (fits bits x) eqn:E.
        - destruct IH as [v [A B]]; auto. exists v. simpl; auto.
        - exists x. simpl; auto. }
      exists v. split; auto. intro C. apply fits_iff in C; [congruence|auto|]. apply (Hv vs v); auto.
    - intros [v [A B]]. destruct (forallb (fits bits) vs) eqn:E; auto. rewrite forallb_forall in E.
      exfalso. apply B. apply fits_iff; auto. apply (Hv vs v); auto. }
  assert (forall l, incl l reads -> forall o, o = 0 \/ o = 1 ->
     (fold_left (bit_check bits) l o = 1 /\ (o = 1 \/ exists vs v, In vs l /\ In v vs /\ ~ in_bits bits v)) \/
     (fold_left (bit_check bits) l o = 0 /\ o = 0 /\ forall vs v, In vs l -> In v vs -> in_bits bits v)) as G.
  { induction l as [|vs l IH]; intros Hi o Ho; simpl.
    - destruct Ho as [->| ->]; [right|left]; auto. split; auto. split; auto. intros vs v [].
    - assert (incl l reads) as Hi' by (intros x Hx; apply Hi; right; auto).
      unfold bit_check at 2 4. destruct (check_bit_overflow bits vs) eqn:E.
      + destruct (IH Hi' 1 (or_intror eq_refl)) as [[A B]|[A [B C]]]; [|discriminate].
        left. split; auto. right. apply HC in E; [|apply Hi; left; auto]. destruct E as [v [V1 V2]]. exists vs, v. auto.
      + destruct (IH Hi' o Ho) as [[A B]|[A [B C]]].
        * left. split; auto. destruct B as [|[vs' [v [V1 V2]]]]; auto. right. exists vs', v. auto.
        * right. split; auto. split; auto. intros vs' v [<-|Hvs] Hin; eauto.
          destruct (Z_le_dec (- 2 ^ (bits - 1)) v), (Z_lt_dec v (2 ^ (bits - 1))); unfold in_bits; try lia;
          exfalso; assert (check_bit_overflow bits vs = true) as E' by (apply HC; [apply Hi; left; auto|exists v; split; [auto|unfold in_bits; lia]]); congruence. }
  destruct (G reads (incl_refl _) 0 (or_introl eq_refl)) as [[A B]|[A [_ C]]]; rewrite A; split; split; intro H; auto; try discriminate.
  - destruct B as [|B]; [discriminate|auto].
  - exfalso. destruct B as [|[vs [v [V1 [V2 V3]]]]]; [discriminate|]. apply V3. eauto.
  - exfalso. destruct H as [vs [v [V1 [V2 V3]]]]. apply V3. eauto.
Qed.
(** 64-bit values are cast first: 2^32 is reported as fitting *)
Theorem bitcheck_int64_refuted : exists v, ~ in_bits 8 v /\ check_bit_overflow 8 [v] = false.
Proof. exists (2 ^ 32). split; [unfold in_bits; simpl; lia|reflexivity]. Qed.
Example bitcheck_demo : fold_left (bit_check 8) [[127; -128]; [128]; [0]] 0 = 1 /\ fold_left (bit_check 8) [[127; -128]; [5]] 0 = 0.
Proof. split; reflexivity. Qed.

(** ** C42 *)
Theorem signed_clamp_wraps : forall x bits, 1 <= bits ->
  (2 ^ bits | signed_clamp x bits - x) /\ in_bits bits (signed_clamp x bits) /\ (in_bits bits x -> signed_clamp x bits = x).
Proof.
  intros x bits Hb. unfold signed_clamp, in_bits. rewrite Z.shiftl_1_l.
  assert (2 ^ bits = 2 * 2 ^ (bits - 1)) as Eb by (rewrite <- Z.pow_succ_r by lia; f_equal; lia).
  assert (0 < 2 ^ (bits - 1)) by (apply Z.pow_pos_nonneg; lia).
  rewrite Eb. set (H2 := 2 ^ (bits - 1)) in *. replace (2 * H2 / 2) with H2 by (rewrite Z.mul_comm, Z.div_mul; lia).
  pose proof (Z.mod_pos_bound (x + H2) (2 * H2) ltac:(lia)). pose proof (Z.div_mod (x + H2) (2 * H2) ltac:(lia)).
  split; [|split].
  - exists (- ((x + H2) / (2 * H2))). lia.
  - lia.
  - intro Hx. rewrite Z.mod_small; lia.
Qed.
(** hence the unique value with these properties *)
Theorem signed_clamp_unique : forall x bits y, 1 <= bits -> (2 ^ bits | y - x) -> in_bits bits y -> y = signed_clamp x bits.
Proof.
  intros x bits y Hb [k Hk] Hy. destruct (signed_clamp_wraps x bits Hb) as [[j Hj] [R _]].
  assert (2 ^ bits = 2 * 2 ^ (bits - 1)) as Eb by (rewrite <- Z.pow_succ_r by lia; f_equal; lia).
  unfold in_bits in *. assert (0 < 2 ^ (bits - 1)) by (apply Z.pow_pos_nonneg; lia).
  rewrite Eb in *. remember (2 ^ (bits - 1)) as M. remember (signed_clamp x bits) as z.
  assert (y - z = (k - j) * (2 * M)) as E by lia. assert (k - j = 0) as E0 by nia. rewrite E0 in E. lia.
Qed.
(** with 0 bits the only value is 0: base/2 = 0 and x mod 1 = 0 *)
Example signed_clamp_demo : signed_clamp 128 8 = -128 /\ signed_clamp (-129) 8 = 127 /\ signed_clamp 300 8 = 44 /\ signed_clamp 5 0 = 0.
Proof. repeat split. Qed.

(** ** C39 *)
(** the range of a sign mode with [n] magnitude bits *)
Definition in_mode (m : sign_mode) (n : Z) (w : Z) : Prop :=
  match m with
  | Mixed => - 2 ^ n <= w <= 2 ^ n - 1
  | Excitatory => 0 <= w <= 2 ^ n - 1
  | Inhibitory => - (2 ^ n - 1) <= w <= 0
  end.

Theorem clip_weights_range : forall m n w, 0 <= n ->
  in_mode m n (clip_weight m n false w) /\ (in_mode m n w -> clip_weight m n false w = w).
Proof.
  intros m n w Hn. assert (0 < 2 ^ n) by (apply Z.pow_pos_nonneg; lia).
  unfold clip_weight, in_mode, clip. destruct m; cbn [is_mixed negate]; lia.
Qed.
(** in learning simulation mixed weights are kept below 2^n - 1 as well *)
Theorem clip_weights_learning_range : forall m n w, 1 <= n ->
  in_mode m n (clip_weight m n true w) /\ (m = Mixed -> clip_weight m n true w <= 2 ^ n - 2) /\
  (in_mode m n w -> (m = Mixed -> w <> 2 ^ n - 1) -> clip_weight m n true w = w).
Proof.
  intros m n w Hn. assert (2 <= 2 ^ n) by (change 2 with (2 ^ 1) at 1; apply Z.pow_le_mono_r; lia).
  unfold clip_weight, in_mode, clip.
  destruct m; cbn [is_mixed negate]; (split; [lia|]); split; intros; try discriminate; try lia.
  specialize (H1 eq_refl). lia.
Qed.

Definition step (m : sign_mode) (nb mb : Z) : Z := 2 ^ (mb - nb + is_mixed m).

Lemma truncate_div m nb mb w : 0 <= mb - nb + is_mixed m ->
  truncate m nb mb w = negate m (negate m w / step m nb mb * step m nb mb).
Proof. intros. unfold truncate, step. rewrite Z.shiftl_mul_pow2, Z.shiftr_div_pow2 by auto. auto. Qed.

(** Truncation gives multiples of the step, changes a weight by less than a step, does nothing to
    multiples of the step (so truncating twice is truncating once), keeps the mode's range. *)
Theorem truncate_weights_precision : forall m nb mb w, 0 <= mb - nb + is_mixed m ->
  let s := step m nb mb in let t := truncate m nb mb w in
  (s | t) /\ Z.abs (t - w) < s /\ ((s | w) -> t = w) /\ truncate m nb mb t = t.
Proof.
  intros m nb mb w H s t. assert (0 < s) as Hs by (apply Z.pow_pos_nonneg; lia).
  assert (forall w, (s | truncate m nb mb w) /\ Z.abs (truncate m nb mb w - w) < s /\ ((s | w) -> truncate m nb mb w = w)) as G.
  { clear w t. intro w. rewrite truncate_div by auto. fold s.
    pose proof (Z.div_mod (negate m w) s ltac:(lia)) as D. pose proof (Z.mod_pos_bound (negate m w) s ltac:(lia)) as B.
    split; [|split].
    - destruct m; cbn [negate] in *; try (exists (w / s); lia). exists (- (- w / s)). lia.
    - destruct m; cbn [negate] in *; lia.
    - intros [k ->]. destruct m; cbn [negate].
      + rewrite Z.div_mul by lia. auto.
      + rewrite Z.div_mul by lia. auto.
      + replace (- (k * s)) with ((- k) * s) by lia. rewrite Z.div_mul by lia. lia. }
  destruct (G w) as [A [B C]]. split; auto. split; auto. split; auto. apply G. exact A.
Qed.
(** Magnitude and sign: for weights of the mode's sign, truncation moves towards zero and keeps the sign
    in the excitatory and inhibitory modes. *)
Theorem truncate_weights_towards_zero_partial : forall m nb mb w, 0 <= mb - nb + is_mixed m -> m <> Mixed ->
  (match m with Inhibitory => w <= 0 | _ => 0 <= w end) ->
  Z.abs (truncate m nb mb w) <= Z.abs w /\ 0 <= truncate m nb mb w * w.
Proof.
  intros m nb mb w H Hm Hw. rewrite truncate_div by auto. assert (0 < step m nb mb) as Hs by (apply Z.pow_pos_nonneg; lia).
  pose proof (Z.div_mod (negate m w) (step m nb mb) ltac:(lia)) as D. pose proof (Z.mod_pos_bound (negate m w) (step m nb mb) ltac:(lia)) as B.
  assert (0 <= negate m w / step m nb mb) by (apply Z.div_pos; [destruct m; cbn; lia|lia]).
  destruct m; [congruence| |]; cbn [negate] in *; split; nia.
Qed.
(** Mixed weights are rounded down: positive ones towards zero, negative ones away from it. *)
Theorem truncate_weights_mixed : forall nb mb w, 0 <= mb - nb + 1 ->
  truncate Mixed nb mb w <= w /\ (0 <= w -> 0 <= truncate Mixed nb mb w) /\ (w < 0 -> truncate Mixed nb mb w < 0).
Proof.
  intros nb mb w H. rewrite truncate_div by auto. assert (0 < step Mixed nb mb) as Hs by (apply Z.pow_pos_nonneg; cbn [is_mixed]; lia).
  cbn [negate]. pose proof (Z.div_mod w (step Mixed nb mb) ltac:(lia)) as D. pose proof (Z.mod_pos_bound w (step Mixed nb mb) ltac:(lia)) as B.
  split; [lia|]. split; intro Hw; [|lia]. assert (0 <= w / step Mixed nb mb) by (apply Z.div_pos; lia). nia.
Qed.
Theorem truncate_weights_mixed_magnitude_refuted : exists nb w, Z.abs w < Z.abs (truncate Mixed nb 8 w).
Proof. exists 8, (-1). reflexivity. Qed.
(** truncation after clipping stays in the clipped range *)
Theorem truncate_keeps_range : forall m nb n w, 0 <= n - nb + is_mixed m <= n -> 0 <= n ->
  in_mode m n w -> in_mode m n (truncate m nb n w).
Proof.
  intros m nb n w H Hn Hw. rewrite truncate_div by lia.
  assert (0 < step m nb n) as Hs by (apply Z.pow_pos_nonneg; lia).
  assert (exists q, 2 ^ n = q * step m nb n) as [q Hq].
  { exists (2 ^ (n - (n - nb + is_mixed m))). unfold step. rewrite <- Z.pow_add_r by lia. f_equal. lia. }
  pose proof (Z.div_mod (negate m w) (step m nb n) ltac:(lia)) as D. pose proof (Z.mod_pos_bound (negate m w) (step m nb n) ltac:(lia)) as B.
  unfold in_mode in *. destruct m; cbn [negate] in *.
  - split; [|lia]. assert (- q <= w / step Mixed nb n) by (apply Z.div_le_lower_bound; lia). nia.
  - assert (0 <= w / step Excitatory nb n) by (apply Z.div_pos; lia). split; nia.
  - assert (0 <= - w / step Inhibitory nb n) by (apply Z.div_pos; lia). split; nia.
Qed.
Example truncate_demo : truncate Excitatory 6 8 107 = 104 /\ truncate Inhibitory 6 8 (-107) = -104 /\ truncate Mixed 6 8 (-107) = -112 /\ clip_weight Mixed 8 false (-300) = -256.
Proof. repeat split. Qed.

(** ** C59: optimize_weight_bits *)
Lemma lmax_spec : forall l x, (forall y, In y (x :: l) -> y <= lmax x l) /\ In (lmax x l) (x :: l).
Proof.
  induction l as [|z l IH]; intro x; simpl.
  - split; [intros y [<-|[]]; lia|auto].
  - destruct (IH (Z.max x z)) as [A B]. split.
    + intros y Hy. assert (Z.max x z <= lmax (Z.max x z) l) by (apply A; left; auto).
      destruct Hy as [<-|[<-|Hy]]; try lia. apply A. right; auto.
    + destruct B as [B|B]; auto. rewrite <- B. destruct (Z.max_spec x z) as [[_ ->]|[_ ->]]; auto.
Qed.
Lemma lmin_spec : forall l x, (forall y, In y (x :: l) -> lmin x l <= y) /\ In (lmin x l) (x :: l).
Proof.
  induction l as [|z l IH]; intro x; simpl.
  - split; [intros y [<-|[]]; lia|auto].
  - destruct (IH (Z.min x z)) as [A B]. split.
    + intros y Hy. assert (lmin (Z.min x z) l <= Z.min x z) by (apply A; left; auto).
      destruct Hy as [<-|[<-|Hy]]; try lia. apply A. right; auto.
    + destruct B as [B|B]; auto. rewrite <- B. destruct (Z.min_spec x z) as [[_ ->]|[_ ->]]; auto.
Qed.
Lemma np_bounds ws w : In w ws -> np_min ws <= w <= np_max ws.
Proof. destruct ws as [|x l]; [intros []|]. intro H. simpl. split; [apply lmin_spec|apply lmax_spec]; auto. Qed.

Theorem determine_sign_mode_correct : forall ws, ws <> [] ->
  match determine_sign_mode ws with
  | Excitatory => forall w, In w ws -> 0 <= w
  | Inhibitory => (forall w, In w ws -> w <= 0) /\ exists w, In w ws /\ w < 0
  | Mixed => (exists w, In w ws /\ w < 0) /\ exists w, In w ws /\ 0 < w
  end.
Proof.
  intros ws Hne. unfold determine_sign_mode.
  assert (In (np_min ws) ws /\ In (np_max ws) ws) as [A B].
  { destruct ws as [|x l]; [congruence|]. split; [apply lmin_spec|apply lmax_spec]. }
  destruct (Z.leb_spec 0 (np_min ws)).
  - intros w Hw. apply np_bounds in Hw. lia.
  - destruct (Z.leb_spec (np_max ws) 0).
    + split; [intros w Hw; apply np_bounds in Hw; lia|]. eauto.
    + split; eauto.
Qed.

Lemma flog2_spec p q : 0 < q -> q <= p -> 0 <= flog2 p q /\ q * 2 ^ flog2 p q <= p.
Proof.
  intros Hq Hp. unfold flog2. destruct (Z.leb_spec q p); [|lia].
  assert (0 < p / q) as Hd by (apply Z.div_str_pos; lia).
  split; [apply Z.log2_nonneg|]. pose proof (Z.log2_spec (p / q) Hd) as [L _]. pose proof (Z.mul_div_le p q Hq). nia.
Qed.
Lemma flog2_ge p q : 0 < p -> 0 < q <= 2 * p -> -1 <= flog2 p q /\ q * 2 ^ (flog2 p q + 1) <= 2 * p.
Proof.
  intros Hp Hq. destruct (Z_le_dec q p) as [L|L].
  - destruct (flog2_spec p q) as [A B]; [lia|lia|]. split; [lia|]. rewrite Z.pow_add_r by lia. lia.
  - unfold flog2. destruct (Z.leb_spec q p); [lia|].
    assert ((q + p - 1) / p = 2) as ->.
    { assert (2 <= (q + p - 1) / p) by (apply Z.div_le_lower_bound; lia).
      assert ((q + p - 1) / p < 3) by (apply Z.div_lt_upper_bound; lia). lia. }
    change (- Z.log2_up 2) with (-1). change (2 ^ (-1 + 1)) with 1. lia.
Qed.

Lemma precision_spec : forall n ws, 0 <= precision n ws <= Z.of_nat n /\ (forall w, In w ws -> (2 ^ precision n ws | w)).
Proof.
  induction n as [|n IH]; intro ws; cbn [precision].
  - split; [lia|]. intros w _. exists w. simpl. lia.
  - destruct (forallb _ ws) eqn:E.
    + split; [lia|]. intros w Hw. rewrite forallb_forall in E. specialize (E w Hw). apply Z.eqb_eq in E.
      apply Z.mod_divide in E; [auto|]. apply Z.pow_nonzero; lia.
    + destruct (IH ws) as [A B]. split; [lia|auto].
Qed.

(** Weights in 8-bit range whose mixed maximum is not 255 are represented without loss: the optimized
    weights stand for the original ones, fit the hardware range, and need only [num_weight_bits] bits. *)
Theorem optimize_weights_lossless_partial : forall m ws, ws <> [] -> validate m ws = true -> (m = Mixed -> ~ In 255 ws) ->
  exists ws' nb we, optimize m ws = Some (ws', nb, we) /\ we <= 0 /\
    map (fun w => w * 2 ^ (- we)) ws = ws' /\
    (forall w, In w ws' -> in_mode m 8 w) /\
    (forall w, In w ws' -> truncate m nb 8 w = w).
Proof.
  intros m ws Hne Hval H255. unfold optimize. rewrite Hval. do 3 eexists. split; [reflexivity|].
  unfold validate in Hval. apply negb_true_iff, orb_false_iff in Hval. destruct Hval as [V1 V2].
  apply Z.ltb_ge in V1, V2.
  assert (In (np_min ws) ws /\ In (np_max ws) ws) as [Imin Imax].
  { destruct ws as [|x l]; [congruence|]. split; [apply lmin_spec|apply lmax_spec]. }
  assert (np_min ws <= np_max ws) as Hle by (apply np_bounds; auto).
  set (we := weight_exp m ws).
  assert (we <= 0 /\ (- we <= 8) /\ (forall w, In w ws -> in_mode m 8 (w * 2 ^ (- we)))) as [W1 [W2 W3]].
  { assert (forall q p k, 0 <= k -> 0 < q -> q * 2 ^ k <= p -> p < 512 -> k <= 8) as Hk.
    { intros q p k Hk Hq Hqk Hp. destruct (Z_le_dec k 8); auto. assert (2 ^ 9 <= 2 ^ k) by (apply Z.pow_le_mono_r; lia).
      change (2 ^ 9) with 512 in *. nia. }
    unfold we, weight_exp. destruct ((np_max ws =? 0) && (np_min ws =? 0)) eqn:E0.
    - apply andb_true_iff in E0. destruct E0 as [E1 E2]. apply Z.eqb_eq in E1, E2. split; [lia|]. split; [lia|].
      intros w Hw. apply np_bounds in Hw. assert (w = 0) as -> by lia. unfold in_mode. destruct m; simpl; lia.
    - assert (~ (np_max ws = 0 /\ np_min ws = 0)) as E0'.
      { intros [A B]. rewrite A, B in E0. discriminate. }
      destruct m; cbn [is_mixed] in V1, V2.
      + (* mixed *)
        assert (np_max ws <= 254) as Hm by (destruct (Z.eq_dec (np_max ws) 255) as [E|]; [exfalso; apply (H255 eq_refl); congruence|lia]).
        set (s := if 0 <? np_max ws then _ else _).
        assert (-1 <= s /\ (0 < np_max ws -> np_max ws * 2 ^ (s + 1) <= 254) /\ (np_min ws < 0 -> - np_min ws * 2 ^ (s + 1) <= 256)) as [S1 [S2 S3]].
        { assert (forall k k' q b, k <= k' -> 0 <= k + 1 -> 0 < q -> q * 2 ^ (k' + 1) <= b -> q * 2 ^ (k + 1) <= b) as Mono.
          { intros k k' q b K1 K2 K3 K4. assert (2 ^ (k + 1) <= 2 ^ (k' + 1)) by (apply Z.pow_le_mono_r; lia). nia. }
          unfold s. destruct (Z.ltb_spec 0 (np_max ws)).
          - destruct (flog2_ge 127 (np_max ws)) as [A B]; [lia|lia|]. destruct (Z.ltb_spec (np_min ws) 0).
            + destruct (flog2_ge 128 (- np_min ws)) as [C D]; [lia|lia|].
              split; [lia|]. split; intros _; [apply (Mono _ (flog2 127 (np_max ws))); lia|apply (Mono _ (flog2 128 (- np_min ws))); lia].
            + split; [lia|]. split; intro; [lia|lia].
          - destruct (flog2_ge 128 (- np_min ws)) as [C D]; [lia|lia|]. split; [lia|]. split; intro; lia. }
        split; [lia|]. replace (- - (s + 1)) with (s + 1) by lia.
        assert (0 < 2 ^ (s + 1)) as Hp by (apply Z.pow_pos_nonneg; lia).
        split.
        * destruct (Z_lt_dec 0 (np_max ws)); [apply (Hk (np_max ws) 254); auto; lia|].
          apply (Hk (- np_min ws) 256); auto; lia.
        * intros w Hw. apply np_bounds in Hw. unfold in_mode. change (2 ^ 8) with 256.
          destruct (Z_lt_dec 0 (np_max ws)); destruct (Z_lt_dec (np_min ws) 0); split; nia.
      + (* excitatory *)
        assert (0 < np_max ws) as Hm by lia.
        destruct (flog2_spec 255 (np_max ws)) as [A B]; [lia|lia|]. set (k := flog2 255 (np_max ws)) in *.
        split; [lia|]. replace (- - k) with k by lia. split; [apply (Hk (np_max ws) 255); auto; lia|].
        assert (0 < 2 ^ k) as Hp by (apply Z.pow_pos_nonneg; lia).
        intros w Hw. apply np_bounds in Hw. unfold in_mode. change (2 ^ 8) with 256. split; nia.
      + (* inhibitory *)
        assert (np_min ws < 0) as Hm by lia.
        destruct (flog2_spec 255 (- np_min ws)) as [A B]; [lia|lia|]. set (k := flog2 255 (- np_min ws)) in *.
        split; [lia|]. replace (- - k) with k by lia. split; [apply (Hk (- np_min ws) 255); auto; lia|].
        assert (0 < 2 ^ k) as Hp by (apply Z.pow_pos_nonneg; lia).
        intros w Hw. apply np_bounds in Hw. unfold in_mode. change (2 ^ 8) with 256. split; nia. }
  assert (forall w, In w ws -> np_shl w (- we) = w * 2 ^ (- we)) as HS.
  { intros w Hw. unfold np_shl. assert ((0 <=? - we) && (- we <? 32) = true) as ->.
    { apply andb_true_iff. split; [apply Z.leb_le; lia|apply Z.ltb_lt; lia]. }
    rewrite Z.shiftl_mul_pow2 by lia. apply w32_id. specialize (W3 w Hw). unfold in_mode in W3. change (2 ^ 8) with 256 in W3.
    destruct m; lia. }
  split; [exact W1|].
  assert (map (fun w => np_shl w (- we)) ws = map (fun w => w * 2 ^ (- we)) ws) as HM by (apply map_ext_in; auto).
  rewrite HM. split; [auto|]. split.
  - intros w Hw. apply in_map_iff in Hw. destruct Hw as [x [<- Hx]]. auto.
  - intros w Hw. apply in_map_iff in Hw. destruct Hw as [x [<- Hx]].
    destruct (precision_spec 8 ws) as [P1 P2]. unfold num_weight_bits. fold we.
    assert (8 - (8 + we - (precision 8 ws - is_mixed m)) + is_mixed m = precision 8 ws - we) as Et by lia.
    apply truncate_weights_precision; [rewrite Et; lia|]. unfold step. rewrite Et.
    destruct (P2 x Hx) as [k ->]. exists k. replace (precision 8 ws - we) with (precision 8 ws + (- we)) by lia.
    rewrite Z.pow_add_r by lia. lia.
Qed.
(** a mixed matrix with the legal maximum 255 is turned into zeros *)
Theorem optimize_weights_255_refuted : exists ws, validate Mixed ws = true /\ optimize Mixed ws = Some ([0; 0], 9 + 1, 1).
Proof. exists [255; -3]. split; reflexivity. Qed.
(** and an odd mixed matrix needs more than the 8 bits there are *)
Theorem optimize_weights_9_bits_refuted : exists ws, ~ In 255 ws /\ exists ws' we, optimize Mixed ws = Some (ws', 9, we).
Proof. exists [253; -3]. split; [simpl; lia|]. eexists _, _. reflexivity. Qed.
Example optimize_demo : optimize Mixed [4; -12; 20] = Some ([32; -96; 160], 4, -3) /\ optimize Excitatory [3; 0; 7] = Some ([96; 0; 224], 3, -5).
Proof. split; reflexivity. Qed.
Print Assumptions optimize_weights_lossless_partial.
Print Assumptions bitcheck_flag_exact.
