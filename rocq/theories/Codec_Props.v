(** C37: the compressed encodings decode to what was encoded. *)
From Coq Require Import ZArith List Bool Lia.
From Verif Require Import NpInt Codec_Model.
Import ListNotations.
Open Scope Z_scope.

(** ** Specification *)
Definition byte (x : Z) : Prop := 0 <= x <= 255.
Definition signed8 (x : Z) : Prop := -128 <= x <= 127.
(** the signed value of a byte *)
Definition to_signed (b : Z) : Z := if b <? 128 then b else b - 256.
(** the four bytes of a 32-bit word, low byte first *)
Definition bytes (w : Z) : list Z := [w mod 256; w / 256 mod 256; w / 65536 mod 256; w / 16777216 mod 256].
Fixpoint interleave {A} (a b : list A) : list A :=
  match a, b with x :: a', y :: b' => x :: y :: interleave a' b' | _, _ => [] end.
(** value at position [i] described by a list of (index, value) pairs: 0 unless listed *)
Definition scatter (l : list (Z * Z)) (i : Z) : Z := fold_right (fun e acc => if fst e =? i then snd e else acc) 0 l.

(** ** Sparse *)
Lemma nonzero_from_scatter : forall v k i, (forall e, In e (nonzero_from k v) -> k <= fst e < k + Z.of_nat (length v) /\ snd e <> 0) /\
  (k <= i < k + Z.of_nat (length v) -> scatter (nonzero_from k v) i = nth (Z.to_nat (i - k)) v 0).
Proof.
  induction v as [|x v IH]; intros k i; [simpl; split; [tauto|lia]|].
  destruct (IH (k + 1) i) as [A B]. cbn [nonzero_from length] in *. split.
  - intros e He. destruct (Z.eqb_spec x 0); [|destruct He as [<-|He]; [simpl; lia|]]; specialize (A e He); lia.
  - intro Hi. destruct (Z.eq_dec i k) as [->|Ne].
    + rewrite Z.sub_diag. cbn [Z.to_nat nth]. destruct (Z.eqb_spec x 0) as [->|].
      * assert (forall l, (forall e, In e l -> k + 1 <= fst e) -> scatter l k = 0) as G.
        { clear. induction l as [|e l IH]; intro H; [reflexivity|]. cbn [scatter fold_right]. fold (scatter l k).
          destruct (Z.eqb_spec (fst e) k); [specialize (H e (or_introl eq_refl)); lia|]. apply IH. intros; apply H; right; auto. }
        apply G. intros e He. apply A in He. lia.
      * cbn. rewrite Z.eqb_refl. auto.
    + replace (Z.to_nat (i - k)) with (S (Z.to_nat (i - (k + 1)))) by lia. cbn [nth]. rewrite <- B by lia.
      destruct (Z.eqb_spec x 0); auto. cbn. destruct (Z.eqb_spec k i); [lia|reflexivity].
Qed.

(** The (data, idx) pair of encode_sparse describes the vector. *)
Theorem sparse_roundtrip : forall v i, 0 <= i < Z.of_nat (length v) ->
  let '(data, idx) := encode_sparse v in
  length data = length idx /\ scatter (combine idx data) i = nth (Z.to_nat i) v 0.
Proof.
  intros v i Hi. unfold encode_sparse. pose proof (proj2 (nonzero_from_scatter v 0 i) ltac:(lia)) as H. fold (nonzero v) in H.
  rewrite Z.sub_0_r in H. destruct (nonzero v) as [|e l] eqn:E.
  - split; auto. rewrite <- H. destruct i; reflexivity.
  - split; [rewrite !map_length; auto|]. rewrite <- H. f_equal.
    clear. generalize (e :: l). clear. induction l as [|[a b] l IH]; simpl; auto. rewrite IH. auto.
Qed.
(** ... and every index is one of the vector *)
Theorem sparse_indices_in_range : forall v i, v <> [] -> In i (snd (encode_sparse v)) -> 0 <= i < Z.of_nat (length v).
Proof.
  intros v i Hv Hi. unfold encode_sparse in Hi. pose proof (proj1 (nonzero_from_scatter v 0 0)) as H. fold (nonzero v) in H.
  destruct (nonzero v) as [|e l] eqn:E.
  - simpl in Hi. destruct Hi as [<-|[]]. destruct v; [congruence|cbn [length]; lia].
  - cbn [snd] in Hi. apply in_map_iff in Hi. destruct Hi as [e' [<- He]]. specialize (H e' He). lia.
Qed.

(** ** Packing *)
Lemma land255 x : Z.land x 255 = x mod 256.
Proof. change 255 with (Z.ones 8). rewrite Z.land_ones by lia. reflexivity. Qed.
Lemma shiftr8 x : Z.shiftr x 8 = x / 256.
Proof. rewrite Z.shiftr_div_pow2 by lia. reflexivity. Qed.

Lemma word_value p0 p1 p2 p3 : byte p0 -> byte p1 -> byte p2 -> byte p3 ->
  word p0 p1 p2 p3 = p0 + 256 * p1 + 65536 * p2 + 16777216 * to_signed p3.
Proof.
  unfold byte. intros H0 H1 H2 H3. unfold word. rewrite !Z.shiftl_mul_pow2 by lia.
  change (2 ^ 24) with 16777216. change (2 ^ 16) with 65536. change (2 ^ 8) with 256.
  assert (w32 (p3 * 16777216) = 16777216 * to_signed p3) as ->.
  { unfold to_signed. destruct (Z.ltb_spec p3 128); [rewrite w32_id; lia|].
    unfold w32, wrap. change (2 ^ (32 - 1)) with 2147483648. change (2 ^ 32) with 4294967296.
    replace (p3 * 16777216 + 2147483648) with ((p3 - 256) * 16777216 + 2147483648 + 1 * 4294967296) by lia.
    rewrite Z.mod_add by lia. rewrite Z.mod_small; lia. }
  assert (-128 <= to_signed p3 <= 127) by (unfold to_signed; destruct (Z.ltb_spec p3 128); lia).
  rewrite (w32_id (p2 * 65536)), (w32_id (p1 * 256)) by lia.
  rewrite (w32_id (16777216 * to_signed p3 + _)) by lia. rewrite (w32_id (16777216 * to_signed p3 + p2 * 65536 + _)) by lia. rewrite w32_id by lia. lia.
Qed.
Lemma word_bytes p0 p1 p2 p3 : byte p0 -> byte p1 -> byte p2 -> byte p3 -> bytes (word p0 p1 p2 p3) = [p0; p1; p2; p3].
Proof.
  intros H0 H1 H2 H3. rewrite word_value by auto. unfold bytes, byte, to_signed in *.
  assert (forall a b c d a' b' c' d' : Z, a = a' -> b = b' -> c = c' -> d = d' -> [a; b; c; d] = [a'; b'; c'; d']) as L by congruence.
  destruct (Z.ltb_spec p3 128); apply L; Z.to_euclidean_division_equations; lia.
Qed.

Lemma pack_bytes : forall n l, length l = (4 * n)%nat -> Forall byte l -> flat_map bytes (pack l) = l /\ length (pack l) = n.
Proof.
  induction n as [|n IH]; intros l Hl Hb.
  - destruct l; [auto|discriminate].
  - destruct l as [|a [|b [|c [|d l]]]]; try (simpl in Hl; lia).
    inversion Hb as [|? ? Ha Hb1]; subst. inversion Hb1 as [|? ? Hb' Hb2]; subst. inversion Hb2 as [|? ? Hc Hb3]; subst. inversion Hb3 as [|? ? Hd Hb4]; subst.
    destruct (IH l) as [A B]; [simpl in Hl; lia|auto|].
    cbn [pack flat_map length]. rewrite word_bytes by auto. rewrite A, B. auto.
Qed.
Lemma pad_length k l : (0 < k)%nat -> exists m, (length (pad k l) = k * m)%nat /\ pad k l = l ++ repeat 0 (length (pad k l) - length l).
Proof.
  intro Hk. exists ((length l + (k - 1)) / k)%nat. unfold pad.
  assert (length l <= k * ((length l + (k - 1)) / k))%nat.
  { pose proof (Nat.div_mod (length l + (k - 1)) k ltac:(lia)). pose proof (Nat.mod_upper_bound (length l + (k - 1)) k ltac:(lia)). lia. }
  rewrite app_length, repeat_length. split; [lia|]. f_equal. f_equal. lia.
Qed.
Lemma land_byte x : byte (Z.land x 255).
Proof. rewrite land255. unfold byte. pose proof (Z.mod_pos_bound x 256 ltac:(lia)). lia. Qed.
Lemma pad_byte k l : Forall byte l -> Forall byte (pad k l).
Proof. intro. unfold pad. apply Forall_app. split; auto. apply Forall_forall. intros x Hx. apply repeat_spec in Hx. subst. unfold byte; lia. Qed.

Lemma interleave_eo : forall (n : nat) {A} (l : list A), length l = (2 * n)%nat -> interleave (evens l) (odds l) = l.
Proof.
  induction n as [|n IH]; intros A l Hl; [destruct l; [auto|discriminate]|].
  destruct l as [|x [|y l]]; try (simpl in Hl; lia).
  assert (odds (x :: y :: l) = y :: odds l) as -> by (destruct l as [|z [|w l]]; reflexivity).
  change (evens (x :: y :: l)) with (x :: evens l).
  cbn [interleave]. rewrite IH; [auto|simpl in Hl; lia].
Qed.

Lemma to_signed_land x : signed8 x -> to_signed (Z.land x 255) = x.
Proof.
  unfold signed8, to_signed. intro H. rewrite land255.
  destruct (Z.ltb_spec (x mod 256) 128); Z.to_euclidean_division_equations; lia.
Qed.

(** Reading the bytes of the two packed streams alternately and as signed numbers gives the vector,
    followed by zero padding. *)
Theorem packed_4_roundtrip : forall v, Forall signed8 v ->
  let '(a, b) := encode_packed_4 v in
  exists m, map to_signed (flat_map bytes (interleave a b)) = v ++ repeat 0 m.
Proof.
  intros v Hv. unfold encode_packed_4. set (l := map (fun x => Z.land x 255) v).
  destruct (pad_length 8 l ltac:(lia)) as [m [L E]].
  assert (Forall byte (pad 8 l)) as HB.
  { apply pad_byte. unfold l. clear. induction v; simpl; constructor; auto. apply land_byte. }
  destruct (pack_bytes (2 * m) (pad 8 l) ltac:(lia) HB) as [P1 P2].
  rewrite (interleave_eo m) by auto. rewrite P1, E. exists (length (pad 8 l) - length l)%nat.
  rewrite map_app. f_equal.
  - unfold l. rewrite map_map. clear - Hv. induction Hv; simpl; auto. rewrite to_signed_land by auto. congruence.
  - clear. induction (length (pad 8 l) - length l)%nat; simpl; auto. f_equal; auto.
Qed.

(** ** Delta-sparse *)
Definition tok (one_dim : bool) (e : Z * Z) : list (Z * Z) :=
  if 255 <=? fst e then marker one_dim (fst e) ++ [modg e] else [e].

Lemma emit_step od (L : list (Z * Z)) pos k x : nth_error L k = Some x -> (forall i, In i pos -> (S k <= i)%nat) ->
  0 <= fst x < 255 -> emit od L pos k = x :: emit od L pos (S k).
Proof.
  intros Hx Hp Hg. assert (skipn k L = x :: skipn (S k) L) as ES.
  { clear - Hx. revert k Hx. induction L as [|y L IH]; intros [|k] H; try discriminate.
    - simpl in H. injection H as ->. reflexivity.
    - simpl in H. apply IH in H. exact H. }
  destruct pos as [|i r]; [exact ES|]. cbn [emit]. unfold slice. rewrite ES.
  specialize (Hp i (or_introl eq_refl)). replace (i - k)%nat with (S (i - S k)) by lia.
  cbn [firstn map app]. f_equal. unfold modg. destruct x as [g d]. simpl in *. rewrite Z.mod_small by lia. auto.
Qed.

Lemma big_ge : forall l k i, In i (big_from k l) -> (k <= i)%nat.
Proof.
  induction l as [|[g d] l IH]; simpl; intros k i H; [destruct H|].
  destruct (255 <=? g); [destruct H as [<-|H]; auto|]; apply IH in H; lia.
Qed.

Lemma emit_tok od : forall l pre, Forall (fun e => 0 <= fst e) l ->
  emit od (pre ++ l) (big_from (length pre) l) (length pre) = flat_map (tok od) l.
Proof.
  induction l as [|[g d] l IH]; intros pre HF.
  - simpl. rewrite app_nil_r, skipn_all. auto.
  - inversion HF as [|? ? Hg HF']; subst. simpl in Hg. specialize (IH (pre ++ [(g, d)]) HF').
    rewrite <- app_assoc in IH. simpl in IH. rewrite app_length in IH. simpl in IH. rewrite Nat.add_1_r in IH.
    assert (nth_error (pre ++ (g, d) :: l) (length pre) = Some (g, d)) as Hn.
    { rewrite nth_error_app2, Nat.sub_diag by lia. auto. }
    cbn [big_from flat_map]. unfold tok at 1. cbn [fst]. destruct (Z.leb_spec 255 g).
    + cbn [emit]. unfold slice at 1. rewrite Nat.sub_diag. cbn [firstn map app].
      rewrite (nth_error_nth _ _ _ Hn). cbn [fst]. rewrite <- app_assoc. f_equal.
      unfold slice. replace (length pre + 1 - length pre)%nat with 1%nat by lia.
      rewrite skipn_app, skipn_all, Nat.sub_diag. cbn [skipn app firstn map]. f_equal. rewrite Nat.add_1_r. exact IH.
    + rewrite (emit_step od _ _ _ _ Hn); [|intros i Hi; apply big_ge in Hi; auto|simpl; lia].
      cbn [app]. f_equal. exact IH.
Qed.

(** decoding of a list of (idx, data) bytes *)
Fixpoint decode_toks (started : bool) (idx : Z) (ts : list (Z * Z)) : list (Z * Z) :=
  match ts with
  | [] => []
  | (i, d) :: r => let '(idx', o) := decode_byte started idx d i in o ++ decode_toks true idx' r
  end.
Fixpoint end_idx (started : bool) (idx : Z) (ts : list (Z * Z)) : Z :=
  match ts with [] => idx | (i, d) :: r => end_idx true (fst (decode_byte started idx d i)) r end.

Lemma decode_toks_app : forall a started idx b, decode_toks started idx (a ++ b) =
  decode_toks started idx a ++ decode_toks (match a with [] => started | _ => true end) (end_idx started idx a) b.
Proof.
  induction a as [|[i d] a IH]; intros st idx b; [reflexivity|].
  simpl. destruct (decode_byte st idx d i) as [idx' o]. rewrite IH, <- app_assoc. simpl. destruct a; reflexivity.
Qed.
Lemma end_idx_app : forall a started idx b, end_idx started idx (a ++ b) =
  end_idx (match a with [] => started | _ => true end) (end_idx started idx a) b.
Proof.
  induction a as [|[i d] a IH]; intros st idx b; [reflexivity|]. simpl. rewrite IH. destruct a; reflexivity.
Qed.
Fixpoint bytesn (n : nat) (w : Z) : list Z := match n with O => [] | S m => w mod 256 :: bytesn m (w / 256) end.
Lemma bytesn4 w : bytesn 4 w = bytes w.
Proof.
  unfold bytes. cbn [bytesn]. rewrite !Z.div_div by lia. reflexivity.
Qed.
Lemma decode_word_toksn : forall n started idx pd pi,
  decode_word n started idx pd pi =
  (end_idx started idx (combine (bytesn n pi) (bytesn n pd)), decode_toks started idx (combine (bytesn n pi) (bytesn n pd))).
Proof.
  induction n as [|n IH]; intros; [reflexivity|]. cbn [decode_word bytesn combine end_idx decode_toks].
  rewrite !land255, !shiftr8. destruct (decode_byte started idx (pd mod 256) (pi mod 256)) as [i1 o1]. rewrite IH. reflexivity.
Qed.
Lemma decode_word_toks started idx pd pi : 
  decode_word 4 started idx pd pi =
  (end_idx started idx (combine (bytes pi) (bytes pd)), decode_toks started idx (combine (bytes pi) (bytes pd))).
Proof. rewrite <- !bytesn4. apply decode_word_toksn. Qed.
Lemma decode_words_toks : forall pd pi started idx, length pd = length pi ->
  decode_words started idx pd pi = decode_toks started idx (combine (flat_map bytes pi) (flat_map bytes pd)).
Proof.
  induction pd as [|d pd IH]; intros [|i pi] st idx H; try discriminate; [reflexivity|].
  cbn [decode_words]. rewrite decode_word_toks. cbn [flat_map].
  assert (forall A B (a a' : list A) (b b' : list B), length a = length b -> combine (a ++ a') (b ++ b') = combine a b ++ combine a' b') as C.
  { clear. induction a; intros a' [|y b] b' H; try discriminate; auto. simpl. f_equal. apply IHa. auto. }
  rewrite C by reflexivity. rewrite decode_toks_app. f_equal. rewrite IH by (simpl in H; lia). reflexivity.
Qed.

(** trailing zero bytes decode to nothing *)
Lemma decode_zeros : forall n started idx, decode_toks started idx (repeat (0, 0) n) = [].
Proof. induction n; intros; simpl; auto. Qed.
Lemma combine_repeat {A B} (a : A) (b : B) n : combine (repeat a n) (repeat b n) = repeat (a, b) n.
Proof. induction n; simpl; congruence. Qed.

Definition bmask (t : Z * Z) : Z * Z := (Z.land (fst t) 255, Z.land (snd t) 255).

Lemma decode_encoded ts : 
  decode_delta_sparse_8 (pack (pad 4 (map (fun t => Z.land (snd t) 255) ts))) (pack (pad 4 (map (fun t => Z.land (fst t) 255) ts)))
  = decode_toks false 0 (map bmask ts).
Proof.
  unfold decode_delta_sparse_8.
  set (D := map (fun t => Z.land (snd t) 255) ts). set (I := map (fun t => Z.land (fst t) 255) ts).
  assert (length D = length I) as EL by (unfold D, I; rewrite !map_length; auto).
  assert (forall f, Forall byte (map (fun t : Z * Z => Z.land (f t) 255) ts)) as HB.
  { intro f. clear. induction ts; simpl; constructor; auto. apply land_byte. }
  destruct (pad_length 4 D ltac:(lia)) as [m [LD ED]]. destruct (pad_length 4 I ltac:(lia)) as [m' [LI EI]].
  assert (length (pad 4 D) = length (pad 4 I)) as EP by (unfold pad; rewrite !app_length, !repeat_length, EL; auto).
  destruct (pack_bytes m (pad 4 D) LD (pad_byte _ _ (HB snd))) as [A B].
  destruct (pack_bytes m' (pad 4 I) LI (pad_byte _ _ (HB fst))) as [A' B'].
  rewrite decode_words_toks by (rewrite B, B'; lia). rewrite A, A', ED, EI.
  assert (forall A B (a a' : list A) (b b' : list B), length a = length b -> combine (a ++ a') (b ++ b') = combine a b ++ combine a' b') as C.
  { clear. induction a; intros a' [|y b] b' H; try discriminate; auto. simpl. f_equal. apply IHa. auto. }
  rewrite C by auto. replace (length (pad 4 I) - length I)%nat with (length (pad 4 D) - length D)%nat by lia.
  rewrite combine_repeat, decode_toks_app, decode_zeros, app_nil_r.
  f_equal. unfold I, D. clear. induction ts as [|t ts IH]; simpl; auto. f_equal; auto.
Qed.

(** the repeat markers advance the index by 255 * (g / 255) *)
Lemma marker_decode od g started idx : 255 <= g -> (od = true \/ g < 65025) ->
  decode_toks started idx (map bmask (marker od g)) = [] /\
  end_idx started idx (map bmask (marker od g)) = idx + 255 * (g / 255) /\ marker od g <> [].
Proof.
  intros Hg Hod. assert (1 <= g / 255) as Hq by (apply Z.div_le_lower_bound; lia).
  assert (forall n started idx tail, decode_toks started idx (repeat (255, 255) n ++ tail) = decode_toks (match n with O => started | _ => true end) (idx + 65025 * Z.of_nat n) tail /\
     end_idx started idx (repeat (255, 255) n ++ tail) = end_idx (match n with O => started | _ => true end) (idx + 65025 * Z.of_nat n) tail) as R.
  { clear. induction n as [|n IH]; intros st idx tail.
    - simpl. rewrite Z.add_0_r. auto.
    - cbn [repeat app decode_toks end_idx]. unfold decode_byte at 1 2. cbn [Z.eqb Pos.eqb fst app].
      destruct (IH true (idx + 255 * 255) tail) as [A B]. rewrite A, B.
      replace (idx + 255 * 255 + 65025 * Z.of_nat n) with (idx + 65025 * Z.of_nat (S n)) by lia.
      destruct n; auto. }
  pose proof (Z.mod_pos_bound (g / 255) 255 ltac:(lia)) as Hm. pose proof (Z.div_mod (g / 255) 255 ltac:(lia)) as Hd.
  unfold marker. destruct od.
  - assert (map bmask (repeat (255, 255) (Z.to_nat (g / 255 / 255)) ++ [(255, (g / 255) mod 255)]) =
            repeat (255, 255) (Z.to_nat (g / 255 / 255)) ++ [(255, (g / 255) mod 255)]) as ->.
    { rewrite map_app. f_equal.
      - generalize (Z.to_nat (g / 255 / 255)). intro k. induction k as [|k IHk]; simpl; auto. f_equal. exact IHk.
      - simpl. unfold bmask. cbn [fst snd]. rewrite !land255. rewrite (Z.mod_small ((g / 255) mod 255)) by lia. reflexivity. }
    destruct (R (Z.to_nat (g / 255 / 255)) started idx [(255, (g / 255) mod 255)]) as [A B]. rewrite A, B.
    assert (0 <= g / 255 / 255) by (apply Z.div_pos; lia).
    split; [reflexivity|]. split; [|destruct (repeat _ _); discriminate]. cbn [end_idx]. unfold decode_byte. cbn [Z.eqb Pos.eqb fst]. lia.
  - destruct Hod as [Hod|Hod]; [discriminate|].
    assert (g / 255 < 255) as Hs by (apply Z.div_lt_upper_bound; lia).
    assert (g / 255 / 255 = 0) as -> by (apply Z.div_small; lia).
    assert ((g / 255) mod 255 = g / 255) as -> by (apply Z.mod_small; lia).
    cbn [map]. unfold bmask. cbn [fst snd]. rewrite !land255. change (255 * (0 + 1)) with 255. change (255 mod 256) with 255.
    rewrite (Z.mod_small (255 * 0 + g / 255)) by lia. split; [reflexivity|]. split; [|discriminate]. cbn [end_idx]. unfold decode_byte. cbn [Z.eqb Pos.eqb fst]. lia.
Qed.

(** entries with increasing indices behind [p]: every pair comes back *)
Lemma decode_entries od : forall l p, (forall e, In e l -> p < fst e) ->
  (forall pre a b post, l = pre ++ a :: b :: post -> fst a < fst b) ->
  (od = true \/ (forall i x, nth_error (gaps_after p l) i = Some x -> fst x < 65025)) ->
  decode_toks true p (map bmask (flat_map (tok od) (gaps_after p l))) =
  flat_map (fun e => if snd e mod 256 =? 0 then [] else [(fst e, snd e mod 256)]) l.
Proof.
  assert (forall l : list (Z * Z), match l with [] => true | _ :: _ => true end = true) as MT by (intros [|? ?]; reflexivity).
  induction l as [|[i d] l IH]; intros p Hp Hs Hg; [reflexivity|].
  assert (p < i) as Hi by (apply (Hp (i, d)); left; auto).
  cbn [gaps_after flat_map]. rewrite map_app, decode_toks_app.
  assert (decode_toks true i (map bmask (flat_map (tok od) (gaps_after i l))) = flat_map (fun e => if snd e mod 256 =? 0 then [] else [(fst e, snd e mod 256)]) l) as IH'.
  { apply IH.
    - intros e He. destruct l as [|e0 l]; [destruct He|]. assert (i < fst e0) as H0 by (apply (Hs [] (i, d) e0 l eq_refl)).
      clear - He H0 Hs. assert (forall pre a b post, e0 :: l = pre ++ a :: b :: post -> fst a < fst b) as Hs'.
      { intros pre a b post E. apply (Hs ((i, d) :: pre) a b post). rewrite E. reflexivity. }
      clear Hs. revert e0 i H0 He Hs'. induction l as [|e1 l IHl]; intros e0 i H0 [<-|He] Hs'; auto; [destruct He|].
      apply (IHl e1 i); auto.
      + specialize (Hs' [] e0 e1 l eq_refl). lia.
      + intros pre a b post E. apply (Hs' (e0 :: pre) a b post). rewrite E. reflexivity.
    - intros pre a b post E. apply (Hs ((i, d) :: pre) a b post). rewrite E. reflexivity.
    - destruct Hg as [|Hg]; [left; auto|right]. intros j x Hx. apply (Hg (S j) x). exact Hx. }
  assert (decode_toks true p (map bmask (tok od (i - p - 1, d))) = (if d mod 256 =? 0 then [] else [(i, d mod 256)]) /\
          end_idx true p (map bmask (tok od (i - p - 1, d))) = i /\ tok od (i - p - 1, d) <> []) as [T1 [T2 T3]].
  { unfold tok. cbn [fst]. destruct (Z.leb_spec 255 (i - p - 1)).
    - destruct (marker_decode od (i - p - 1) true p ltac:(lia)) as [M1 [M2 M3]].
      { destruct Hg as [|Hg]; [left; auto|right]. apply (Hg O (i - p - 1, d)). reflexivity. }
      assert (0 <= (i - p - 1) mod 255 < 255) as Hm by (apply Z.mod_pos_bound; lia).
      pose proof (Z.div_mod (i - p - 1) 255 ltac:(lia)) as Hd.
      rewrite map_app, decode_toks_app, end_idx_app, M1, M2. cbn [map app].
      rewrite MT.
      unfold modg, bmask. cbn [fst snd decode_toks end_idx].
      rewrite !land255. rewrite (Z.mod_small ((i - p - 1) mod 255) 256) by lia. unfold decode_byte.
      destruct (Z.eqb_spec ((i - p - 1) mod 255) 255); [lia|]. cbn [fst].
      replace (p + 255 * ((i - p - 1) / 255) + (i - p - 1) mod 255 + 1) with i by lia.
      split; [rewrite app_nil_r; auto|]. split; [auto|]. intro E. apply app_eq_nil in E. destruct E; discriminate.
    - cbn [map]. unfold bmask. cbn [fst snd decode_toks end_idx]. rewrite !land255. rewrite (Z.mod_small (i - p - 1)) by lia.
      unfold decode_byte. destruct (Z.eqb_spec (i - p - 1) 255); [lia|]. cbn [fst].
      replace (p + (i - p - 1) + 1) with i by lia. split; [rewrite app_nil_r; auto|]. split; [auto|discriminate]. }
  rewrite T1, T2. cbn [snd fst]. f_equal.
  rewrite MT.
  exact IH'.
Qed.

(** ** Properties of the list of non-zero entries *)
Lemma nonzero_sorted : forall v k pre a b post, nonzero_from k v = pre ++ a :: b :: post -> fst a < fst b.
Proof.
  induction v as [|x v IH]; intros k pre a b post H; cbn [nonzero_from] in H.
  - destruct pre; discriminate.
  - destruct (x =? 0); [eauto|]. destruct pre as [|e pre].
    + cbn [app] in H. injection H as <- H. pose proof (proj1 (nonzero_from_scatter v (k + 1) 0) b) as R.
      rewrite H in R. specialize (R (or_introl eq_refl)). cbn [fst]. lia.
    + cbn [app] in H. injection H as _ H. eauto.
Qed.

(** ** Specification of a faithful decoding: the non-zero entries with their index, values as bytes *)
Definition decoded (v : list Z) : list (Z * Z) := map (fun e => (fst e, snd e mod 256)) (nonzero v).
(** the distances between consecutive non-zero entries *)
Definition gap_ok (v : list Z) : Prop :=
  forall pre a b post, nonzero v = pre ++ a :: b :: post -> fst b - fst a - 1 < 65025.
Definition first_ok (v : list Z) : Prop := forall e l, nonzero v = e :: l -> fst e <> 255.

Lemma gaps_after_spec : forall l p i x, nth_error (gaps_after p l) i = Some x ->
  exists pre a b post, (p, 0) :: l = pre ++ a :: b :: post /\ fst x = fst b - fst a - 1.
Proof.
  assert (forall l p d i x, nth_error (gaps_after p l) i = Some x ->
    exists pre a b post, (p, d) :: l = pre ++ a :: b :: post /\ fst x = fst b - fst a - 1) as G.
  { induction l as [|[j d'] l IH]; intros p d i x H; [destruct i; discriminate|]. destruct i as [|i].
    - simpl in H. injection H as <-. exists [], (p, d), (j, d'), l. auto.
    - simpl in H. destruct (IH j d' i x H) as [pre [a [b [post [E1 E2]]]]]. exists ((p, d) :: pre), a, b, post.
      rewrite E1. auto. }
  intros. eapply G; eauto.
Qed.

Lemma byte_values (l : list (Z * Z)) : (forall e, In e l -> signed8 (snd e) /\ snd e <> 0) ->
  flat_map (fun e => if snd e mod 256 =? 0 then [] else [(fst e, snd e mod 256)]) l = map (fun e => (fst e, snd e mod 256)) l.
Proof.
  induction l as [|e l IH]; intro H; auto. cbn [flat_map map]. rewrite IH by (intros; apply H; right; auto).
  destruct (H e (or_introl eq_refl)) as [A B]. unfold signed8 in A.
  destruct (Z.eqb_spec (snd e mod 256) 0) as [E|]; auto. exfalso. Z.to_euclidean_division_equations; lia.
Qed.

Lemma nonzero_in : forall v k e, In e (nonzero_from k v) -> In (snd e) v.
Proof.
  induction v as [|x v IH]; simpl; intros k e H; auto. destruct (x =? 0); [right; eauto|].
  destruct H as [<-|H]; [left; auto|right; eauto].
Qed.

(** For 8-bit vectors whose first non-zero entry is not at index 255 and which have no gap of 65025 or
    more zeros between two non-zero entries (unless the first one is behind index 255), decoding gives
    exactly the non-zero entries: every index, and every value as an unsigned byte. *)
Theorem delta_sparse_8_roundtrip_partial : forall v, Forall signed8 v -> first_ok v ->
  (gap_ok v \/ exists e l, nonzero v = e :: l /\ 255 < fst e) ->
  let '(d, i) := encode_delta_sparse_8 v in decode_delta_sparse_8 d i = decoded v.
Proof.
  intros v Hv Hf Hg. unfold encode_delta_sparse_8, entries, decoded.
  assert (forall e, In e (nonzero v) -> signed8 (snd e) /\ snd e <> 0 /\ 0 <= fst e) as HE.
  { intros e He. split; [|split].
    - apply nonzero_in in He. rewrite Forall_forall in Hv. auto.
    - apply (proj1 (nonzero_from_scatter v 0 0)) in He. lia.
    - apply (proj1 (nonzero_from_scatter v 0 0)) in He. lia. }
  assert (forall pre a b post, nonzero v = pre ++ a :: b :: post -> fst a < fst b) as HS by (intros; eapply (nonzero_sorted v 0); eauto).
  destruct (nonzero v) as [|[i x] r] eqn:En.
  - cbn [gaps gaps_after]. rewrite decode_encoded. reflexivity.
  - assert (0 <= i) as Hi0 by (apply (HE (i, x)); left; auto).
    assert (forall p, p < i -> forall e, In e ((i, x) :: r) -> p < fst e) as Hgt.
    { intros p Hp. clear - Hp HS. revert i x Hp HS. induction r as [|[j y] r IH]; intros i x Hp HS e [<-|He]; simpl; auto; [destruct He|].
      apply (IH j y); auto.
      - specialize (HS [] (i, x) (j, y) r eq_refl). simpl in HS. lia.
      - intros pre a b post E. apply (HS ((i, x) :: pre) a b post). rewrite E. reflexivity. }
    assert (forall l p, (forall e, In e l -> p < fst e) -> (forall pre a b post, l = pre ++ a :: b :: post -> fst a < fst b) -> Forall (fun e => 0 <= fst e) (gaps_after p l)) as GP.
    { clear. induction l as [|[j y] l IH]; intros p H1 H2; simpl; constructor.
      - simpl. specialize (H1 (j, y) (or_introl eq_refl)). simpl in H1. lia.
      - apply IH; [|intros pre a b post E; apply (H2 ((j, y) :: pre) a b post); rewrite E; reflexivity].
        clear - H2. intros e He. revert j y H2 He. induction l as [|[j' y'] l IH]; intros j y H2 He; [destruct He|].
        assert (j < j') as Hjj by (apply (H2 [] (j, y) (j', y') l eq_refl)).
        destruct He as [<-|He]; auto. assert (j' < fst e); [|lia]. apply (IH j' y'); auto.
        intros pre a b post E. apply (H2 ((j, y) :: pre) a b post). rewrite E. reflexivity. }
    destruct (Z.ltb_spec 255 i) as [Hbig|Hsmall].
    + rewrite decode_encoded. cbn [gaps].
      assert (HSr : forall pre a b post, (i, x) :: r = pre ++ a :: b :: post -> fst a < fst b) by auto.
      pose proof (emit_tok true ((0, 0) :: gaps_after 0 ((i, x) :: r)) []) as ET. cbn [app length] in ET. rewrite ET; clear ET.
      2:{ constructor; [simpl; lia|]. apply GP; auto. apply Hgt. lia. }
      cbn [flat_map]. unfold tok at 1. cbn [fst]. change (255 <=? 0) with false. cbv iota. cbn [app map].
      unfold bmask at 1. cbn [fst snd]. change (Z.land 0 255) with 0. cbn [decode_toks]. unfold decode_byte at 1. cbn [Z.eqb app Z.add].
      rewrite decode_entries; auto; [|apply Hgt; lia]. apply byte_values. intros e He. destruct (HE e He) as [A [B _]]. auto.
    + assert (i <> 255) as Hne by (apply (Hf (i, x) r En)).
      assert (gap_ok v) as HG.
      { destruct Hg as [|[e [l [E1 E2]]]]; auto. injection E1 as <- <-. simpl in E2. lia. }
      rewrite decode_encoded. cbn [gaps].
      assert (forall e, In e r -> i < fst e) as Hr.
      { destruct r as [|[j y] r]; [intros e []|]. intros e He. assert (i < j) by (apply (HS [] (i, x) (j, y) r eq_refl)).
        clear - He HS H. assert (forall e, In e ((j, y) :: r) -> i < fst e) as G; [|auto].
        assert (forall pre a b post, (j, y) :: r = pre ++ a :: b :: post -> fst a < fst b) as H2
          by (intros pre a b post E; apply (HS ((i, x) :: pre) a b post); rewrite E; reflexivity).
        clear HS He e. revert j y H H2. induction r as [|[k z] r IH]; intros j y H H2 e [<-|He]; auto; [destruct He|].
        apply (IH k z); auto.
        - assert (j < k) by (apply (H2 [] (j, y) (k, z) r eq_refl)). lia.
        - intros pre a b post E. apply (H2 ((j, y) :: pre) a b post). rewrite E. reflexivity. }
      assert (HSr : forall pre a b post, r = pre ++ a :: b :: post -> fst a < fst b)
        by (intros pre a b post E; apply (HS ((i, x) :: pre) a b post); rewrite E; reflexivity).
      pose proof (emit_tok false ((i, x) :: gaps_after i r) []) as ET. cbn [app length] in ET. rewrite ET; clear ET.
      2:{ constructor; [simpl; lia|]. apply GP; auto. }
      cbn [flat_map]. unfold tok at 1. cbn [fst]. assert (255 <=? i = false) as -> by (apply Z.leb_gt; lia).
      cbn [app map]. unfold bmask at 1. cbn [fst snd]. rewrite !land255. rewrite (Z.mod_small i) by lia.
      cbn [decode_toks]. unfold decode_byte at 1. destruct (Z.eqb_spec i 255); [lia|].
      replace (0 + i + 0) with i by lia. rewrite decode_entries; auto.
      * rewrite byte_values by (intros e He; destruct (HE e (or_intror He)) as [A [B _]]; auto).
        destruct (HE (i, x) (or_introl eq_refl)) as [A [B _]]. unfold signed8 in A. simpl in A, B.
        destruct (Z.eqb_spec (x mod 256) 0) as [E|]; [exfalso; Z.to_euclidean_division_equations; lia|]. reflexivity.
      * right. intros j y Hy.
        assert (exists pre a b post, (i, x) :: r = pre ++ a :: b :: post /\ fst y = fst b - fst a - 1) as [pre [a [b [post [E1 E2]]]]].
        { destruct (gaps_after_spec _ _ _ _ Hy) as [pre [a [b [post [E1 E2]]]]]. destruct pre as [|c pre].
          - cbn [app] in E1. injection E1 as <- E1. exists [], (i, x), b, post. rewrite E1. auto.
          - cbn [app] in E1. injection E1 as _ E1. exists ((i, x) :: pre), a, b, post. rewrite E1. auto. }
        rewrite E2. apply (HG pre a b post). rewrite En. auto.
Qed.

(** Signed values are recovered from the bytes. *)
Theorem decoded_signed : forall v, Forall signed8 v -> map (fun e => (fst e, to_signed (snd e))) (decoded v) = nonzero v.
Proof.
  intros v Hv. unfold decoded. rewrite map_map. rewrite <- (map_id (nonzero v)) at 2. apply map_ext_in.
  intros [i x] He. cbn [fst snd]. apply nonzero_in in He. rewrite Forall_forall in Hv. specialize (Hv _ He). cbn [snd] in Hv.
  rewrite <- land255, to_signed_land; auto.
Qed.

(** ** What does not come back *)
(** a first non-zero entry at index 255 is decoded at 256 *)
Theorem delta_sparse_8_first_255_refuted : exists v, Forall signed8 v /\
  (let '(d, i) := encode_delta_sparse_8 v in decode_delta_sparse_8 d i) = [(256, 1)] /\ nonzero v = [(255, 1)].
Proof.
  exists (repeat 0 255 ++ [1]). split; [|split; vm_compute; reflexivity].
  apply Forall_app. split; [apply Forall_forall; intros x Hx; apply repeat_spec in Hx; subst|constructor; auto]; unfold signed8; lia.
Qed.
(** negative values come back as unsigned bytes *)
Theorem delta_sparse_8_negative_refuted : exists v, Forall signed8 v /\
  (let '(d, i) := encode_delta_sparse_8 v in decode_delta_sparse_8 d i) <> nonzero v.
Proof. exists [-1]. split; [repeat constructor; lia|vm_compute; discriminate]. Qed.

(** Lists of entries given directly, to avoid writing down vectors with 65026 zeros: *)
Lemma nonzero_repeat : forall n k v, nonzero_from k (repeat 0 n ++ v) = nonzero_from (k + Z.of_nat n) v.
Proof.
  induction n as [|n IH]; intros k v; [simpl; rewrite Z.add_0_r; auto|]. cbn [repeat app nonzero_from Z.eqb]. rewrite IH. f_equal. lia.
Qed.
(** a gap of 65025 zeros after a first entry below index 255 is lost *)
Theorem delta_sparse_8_long_gap_refuted : exists v, Forall signed8 v /\ first_ok v /\
  (let '(d, i) := encode_delta_sparse_8 v in decode_delta_sparse_8 d i) <> decoded v.
Proof.
  assert (exists n, Z.of_nat n = 65025) as [n Hn] by (exists (Z.to_nat 65025); apply Z2Nat.id; lia).
  exists (1 :: repeat 0 n ++ [1]).
  assert (nonzero (1 :: repeat 0 n ++ [1]) = [(0, 1); (65026, 1)]) as E.
  { unfold nonzero. cbn [nonzero_from Z.eqb]. rewrite nonzero_repeat, Hn. reflexivity. }
  split; [|split].
  - constructor; [unfold signed8; lia|]. apply Forall_app. split; [apply Forall_forall; intros x Hx; apply repeat_spec in Hx; subst|constructor; auto]; unfold signed8; lia.
  - intros e l H. rewrite E in H. injection H as <- _. simpl. lia.
  - unfold encode_delta_sparse_8, entries, decoded. rewrite E. vm_compute. discriminate.
Qed.

(** instances of the hypotheses: gaps around the limits *)
Example delta_sparse_8_demo :
  let v := [0; 0; 5; -7] ++ repeat 0 254 ++ [9] ++ repeat 0 255 ++ [-3] ++ repeat 0 600 ++ [1] in
  (let '(d, i) := encode_delta_sparse_8 v in decode_delta_sparse_8 d i) = decoded v /\ length (decoded v) = 5%nat.
Proof. vm_compute. auto. Qed.
Example packed_demo : encode_packed_4 [1; -1; 127; -128; 5] = ([-2139095295], [5]).
Proof. vm_compute. reflexivity. Qed.

Print Assumptions delta_sparse_8_roundtrip_partial.
Print Assumptions packed_4_roundtrip.
