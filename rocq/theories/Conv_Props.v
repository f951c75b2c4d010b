(** C41: conv_to_sparse and conv_scipy compute the convolution. *)
From Coq Require Import ZArith List Bool Arith Lia.
From Verif Require Import Conn_Model Conn_Spec Conn_Proofs Conv_Model.
Import ListNotations.
Open Scope Z_scope.

(** ** Specification *)
(** the input, zero outside the image *)
Definition pix (X Y : nat) (inp : nat -> nat -> nat -> Z) (x y : Z) (c : nat) : Z :=
  if (0 <=? x) && (x <? Z.of_nat X) && (0 <=? y) && (y <? Z.of_nat Y) then inp (Z.to_nat x) (Z.to_nat y) c else 0.
Notation zz := Z.of_nat.
(** grouped, strided, dilated, padded 2-d convolution (kernel flipped): output (x, y), channel ch.
    Channel ch belongs to group ch / (nk/groups) and sees that group's nc/groups input channels. *)
Definition convolution (p : shape_conv) (w : nat -> nat -> nat -> nat -> Z) (inp : nat -> nat -> nat -> Z)
           (x y ch : nat) : Z :=
  let cg := (nc p / groups p)%nat in
  let g := (ch / (nk p / groups p))%nat in
  sum_upto cg (fun c => sum_upto (kx p) (fun a => sum_upto (ky p) (fun b =>
    w ch a b c * pix (nx p) (ny p) inp
      (zz x * zz (sx p) + (zz (kx p) - 1 - zz a) * zz (dx p) - zz (px p))
      (zz y * zz (sy p) + (zz (ky p) - 1 - zz b) * zz (dy p) - zz (py p)) (c + g * cg)))).
(** the same without flipping the kernel *)
Definition correlation (p : shape_conv) (w : nat -> nat -> nat -> nat -> Z) (inp : nat -> nat -> nat -> Z)
           (x y ch : nat) : Z :=
  let cg := (nc p / groups p)%nat in
  let g := (ch / (nk p / groups p))%nat in
  sum_upto cg (fun c => sum_upto (kx p) (fun a => sum_upto (ky p) (fun b =>
    w ch a b c * pix (nx p) (ny p) inp
      (zz x * zz (sx p) + zz a * zz (dx p) - zz (px p))
      (zz y * zz (sy p) + zz b * zz (dy p) - zz (py p)) (c + g * cg)))).
Definition well_formed (p : shape_conv) : Prop :=
  (0 < groups p /\ nk p mod groups p = 0 /\ nc p mod groups p = 0 /\ 0 < kx p /\ 0 < ky p /\ 0 < dx p /\ 0 < dy p)%nat.

(** ** output_shape: the number of positions at which the dilated kernel fits the padded input *)
Theorem output_shape_counts n k s p d v : 0 < s ->
  out_dim n k s p d = Some v ->
  1 <= v /\ forall x, 0 <= x -> (x < v <-> x * s + d * (k - 1) < n + 2 * p).
Proof.
  intros Hs H. unfold out_dim in H. set (m := n + 2 * p - d * (k - 1) - 1) in *.
  destruct (Z.ltb_spec (m / s + 1) 1); [discriminate|]. injection H as <-. split; [lia|].
  intros x Hx. pose proof (Z.div_mod m s ltac:(lia)). pose proof (Z.mod_pos_bound m s Hs).
  split; intros; [nia|]. assert (x <= m / s) by (apply Z.div_le_lower_bound; lia). lia.
Qed.
Theorem output_shape_none n k s p d : 0 < s ->
  out_dim n k s p d = None -> ~ exists x, 0 <= x /\ x * s + d * (k - 1) < n + 2 * p.
Proof.
  intros Hs H [x [Hx Hf]]. unfold out_dim in H. set (m := n + 2 * p - d * (k - 1) - 1) in *.
  destruct (Z.ltb_spec (m / s + 1) 1); [|discriminate].
  assert (0 <= m) by nia. assert (0 <= m / s) by (apply Z.div_pos; lia). lia.
Qed.

(** ** sums *)
Lemma sum_upto_single m f k : (k < m)%nat -> (forall d, (d < m)%nat -> d <> k -> f d = 0) -> sum_upto m f = f k.
Proof. intros. rewrite (sum_upto_point m f (fun _ => 0) k (f k)); auto. rewrite sum_upto_0; auto. Qed.
Lemma group_collapse G kg ch (F : nat -> nat -> Z) : (ch < G * kg)%nat ->
  sum_upto G (fun g => sum_upto kg (fun k => if Nat.eqb ch (k + g * kg) then F g k else 0))
  = F (ch / kg)%nat (ch mod kg)%nat.
Proof.
  intros H. assert (kg <> 0)%nat as Hk by nia.
  pose proof (Nat.div_mod ch kg Hk) as D. pose proof (Nat.mod_upper_bound ch kg Hk) as B.
  assert (ch / kg < G)%nat as Hg by (apply Nat.div_lt_upper_bound; lia).
  rewrite (sum_upto_single _ _ (ch / kg)%nat Hg).
  - rewrite (sum_upto_single _ _ (ch mod kg)%nat B).
    + destruct (Nat.eqb_spec ch (ch mod kg + ch / kg * kg)); [auto|lia].
    + intros k Hk1 Hk2. destruct (Nat.eqb_spec ch (k + ch / kg * kg)); auto. lia.
  - intros g Hg1 Hg2. apply sum_upto_0. intros k Hk1. destruct (Nat.eqb_spec ch (k + g * kg)); auto.
    exfalso. apply Hg2. subst ch. rewrite Nat.div_add, Nat.div_small by lia. lia.
Qed.
Lemma sum_upto_app m n f : sum_upto (m + n) f = sum_upto m f + sum_upto n (fun i => f (m + i)%nat).
Proof. induction n; [rewrite Nat.add_0_r; simpl; lia|]. rewrite Nat.add_succ_r. simpl. rewrite IHn. lia. Qed.
Lemma sum_dilate d n f : (0 < d)%nat -> (0 < n)%nat -> (forall a, (a mod d <> 0)%nat -> f a = 0) ->
  sum_upto (d * (n - 1) + 1) f = sum_upto n (fun a => f (d * a)%nat).
Proof.
  intros Hd Hn Hf. destruct n; [lia|]. clear Hn. replace (S n - 1)%nat with n by lia.
  induction n.
  - rewrite Nat.mul_0_r. simpl. rewrite Nat.mul_0_r. auto.
  - replace (d * S n + 1)%nat with ((d * n + 1) + d)%nat by lia. rewrite sum_upto_app, IHn.
    change (sum_upto (S (S n)) (fun a => f (d * a)%nat)) with (sum_upto (S n) (fun a => f (d * a)%nat) + f (d * S n)%nat).
    f_equal. rewrite (sum_upto_single _ _ (d - 1)%nat) by (try lia; intros i Hi Hn; apply Hf;
      replace (d * n + 1 + i)%nat with (1 + i + n * d)%nat by lia; rewrite Nat.mod_add, Nat.mod_small by lia; lia).
    f_equal. lia.
Qed.

(** ** conv_scipy *)
Theorem conv_scipy_is_convolution p w inp x y ch :
  well_formed p -> (ch < nk p)%nat -> conv_scipy p w inp x y ch = convolution p w inp x y ch.
Proof.
  intros (Hg & Hk & Hc & Hkx & Hky & Hdx & Hdy) Hch. unfold conv_scipy, convolution.
  set (kg := (nk p / groups p)%nat) in *. set (cg := (nc p / groups p)%nat) in *.
  assert (nk p = groups p * kg)%nat as En.
  { unfold kg. pose proof (Nat.div_mod (nk p) (groups p) ltac:(lia)). lia. }
  rewrite (sum_upto_ext _ _ (fun g => sum_upto kg (fun k => if Nat.eqb ch (k + g * kg) then
     sum_upto cg (fun c => convolve2d (dx p * (kx p - 1) + 1) (dy p * (ky p - 1) + 1)
        (fun a b => padded (nx p) (ny p) (px p) (py p) inp a b (c + g * cg))
        (dilated (dx p) (dy p) (fun a b => w (k + g * kg)%nat a b c)) (x * sx p) (y * sy p)) else 0))).
  2:{ intros g _. apply sum_upto_ext. intros k _. destruct (Nat.eqb ch (k + g * kg)); auto. apply sum_upto_0. auto. }
  rewrite (group_collapse (groups p) kg ch (fun g k => sum_upto cg (fun c => convolve2d (dx p * (kx p - 1) + 1) (dy p * (ky p - 1) + 1)
        (fun a b => padded (nx p) (ny p) (px p) (py p) inp a b (c + g * cg))
        (dilated (dx p) (dy p) (fun a b => w (k + g * kg)%nat a b c)) (x * sx p) (y * sy p)))) by lia.
  apply sum_upto_ext. intros c Hc'. unfold convolve2d.
  assert (kg <> 0)%nat as Hkg by nia.
  replace (ch mod kg + ch / kg * kg)%nat with ch by (pose proof (Nat.div_mod ch kg Hkg); lia).
  rewrite sum_dilate; auto.
  2:{ intros a Ha. apply sum_upto_0. intros. unfold dilated. destruct (Nat.eqb_spec (a mod dx p) 0); [congruence|]. simpl. lia. }
  apply sum_upto_ext. intros a Ha. rewrite sum_dilate; auto.
  2:{ intros b Hb. unfold dilated. destruct (Nat.eqb_spec (b mod dy p) 0); [congruence|]. rewrite andb_false_r. lia. }
  apply sum_upto_ext. intros b Hb. unfold dilated.
  rewrite !(Nat.mul_comm _ a), !(Nat.mul_comm _ b), !Nat.mod_mul, !Nat.div_mul, Nat.eqb_refl by lia. cbn [andb].
  rewrite Z.mul_comm. f_equal. unfold padded, pix.
  set (ax := (x * sx p + (dx p * (kx p - 1) + 1 - 1 - a * dx p))%nat).
  set (ay := (y * sy p + (dy p * (ky p - 1) + 1 - 1 - b * dy p))%nat).
  replace (zz x * zz (sx p) + (zz (kx p) - 1 - zz a) * zz (dx p) - zz (px p)) with (zz ax - zz (px p)).
  2:{ unfold ax. rewrite Nat2Z.inj_add, Nat2Z.inj_sub by nia. nia. }
  replace (zz y * zz (sy p) + (zz (ky p) - 1 - zz b) * zz (dy p) - zz (py p)) with (zz ay - zz (py p)).
  2:{ unfold ay. rewrite Nat2Z.inj_add, Nat2Z.inj_sub by nia. nia. }
  clearbody ax ay.
  destruct (Nat.leb_spec (px p) ax), (Nat.ltb_spec ax (px p + nx p)), (Nat.leb_spec (py p) ay), (Nat.ltb_spec ay (py p + ny p));
  destruct (Z.leb_spec 0 (zz ax - zz (px p))), (Z.ltb_spec (zz ax - zz (px p)) (zz (nx p))),
           (Z.leb_spec 0 (zz ay - zz (py p))), (Z.ltb_spec (zz ay - zz (py p)) (zz (ny p))); try lia; auto.
  cbn [andb]. f_equal; lia.
Qed.

(** ** conv_to_sparse, any tensor order *)
Lemma zsum_app a b : zsum (a ++ b) = zsum a + zsum b.
Proof. induction a; simpl; auto. rewrite IHa. lia. Qed.
Lemma zsum_flat_map A B (f : B -> Z) (g : A -> list B) l :
  zsum (map f (flat_map g l)) = zsum (map (fun x => zsum (map f (g x))) l).
Proof. induction l; simpl; auto. rewrite map_app, zsum_app, IHl. auto. Qed.
Lemma combine_app A B (l1 l2 : list A) (m1 m2 : list B) : length l1 = length m1 ->
  combine (l1 ++ l2) (m1 ++ m2) = combine l1 m1 ++ combine l2 m2.
Proof. revert m1. induction l1; intros [|b m1] H; simpl in *; try lia; auto. f_equal. apply IHl1. lia. Qed.
Lemma combine_flat_map A B C (f : A -> list B) (g : A -> list C) l :
  (forall x, length (f x) = length (g x)) ->
  combine (flat_map f l) (flat_map g l) = flat_map (fun x => combine (f x) (g x)) l.
Proof. intros H. induction l; simpl; auto. rewrite combine_app, IHl; auto. Qed.
Lemma flat_map_length2 A B C (f : A -> list B) (g : A -> list C) l :
  (forall x, length (f x) = length (g x)) -> length (flat_map f l) = length (flat_map g l).
Proof. intros H. induction l; simpl; auto. rewrite !app_length, H, IHl. auto. Qed.
Lemma combine_map A B C (f : A -> B) (g : A -> C) l : combine (map f l) (map g l) = map (fun x => (f x, g x)) l.
Proof. induction l; simpl; congruence. Qed.
Lemma zsum_mesh n m f : zsum (map f (mesh n m)) = sum_upto m (fun y => sum_upto n (fun x => f (x, y))).
Proof.
  unfold mesh. rewrite zsum_flat_map, zsum_map_seq. apply sum_upto_ext. intros y _.
  rewrite map_map, zsum_map_seq. auto.
Qed.
Lemma zsum_channels n group grp f :
  zsum (map f (channels n group grp)) = sum_upto (n / group) (fun k => f (k + grp * (n / group))%nat).
Proof. unfold channels. rewrite map_map, zsum_map_seq. auto. Qed.
Lemma loop_combine A B g group (f : nat -> nat -> nat -> nat -> nat -> list A) (h : nat -> nat -> nat -> nat -> nat -> list B) :
  (forall a b c d e, length (f a b c d e) = length (h a b c d e)) ->
  combine (loop g group f) (loop g group h) = loop g group (fun a b c d e => combine (f a b c d e) (h a b c d e)) /\
  length (loop g group f) = length (loop g group h).
Proof.
  intros H. unfold loop.
  assert (forall (grp : nat) (loc tap : nat * nat),
    length (if valid g (fst loc) (snd loc) (fst tap) (snd tap) then f grp (fst loc) (snd loc) (fst tap) (snd tap) else []) =
    length (if valid g (fst loc) (snd loc) (fst tap) (snd tap) then h grp (fst loc) (snd loc) (fst tap) (snd tap) else [])) as H0.
  { intros. destruct (valid g (fst loc) (snd loc) (fst tap) (snd tap)); auto. }
  split.
  - rewrite combine_flat_map by (intros; apply flat_map_length2; intros; apply flat_map_length2; intros; apply H0).
    apply flat_map_ext. intros grp. rewrite combine_flat_map by (intros; apply flat_map_length2; intros; apply H0).
    apply flat_map_ext. intros loc. rewrite combine_flat_map by apply H0.
    apply flat_map_ext. intros tap. destruct (valid g (fst loc) (snd loc) (fst tap) (snd tap)); auto.
  - apply flat_map_length2. intros. apply flat_map_length2. intros. apply flat_map_length2. intros. apply H0.
Qed.
Lemma zsum_loop A g group (piece : nat -> nat -> nat -> nat -> nat -> list A) f :
  zsum (map f (loop g group piece)) =
  sum_upto group (fun grp => sum_upto (yout g) (fun y => sum_upto (xout g) (fun x =>
    sum_upto (cy g) (fun b => sum_upto (cx g) (fun a =>
      if valid g x y a b then zsum (map f (piece grp x y a b)) else 0))))).
Proof.
  unfold loop. rewrite zsum_flat_map, zsum_map_seq. apply sum_upto_ext. intros grp _.
  rewrite zsum_flat_map, zsum_mesh. apply sum_upto_ext. intros y _. apply sum_upto_ext. intros x _. cbn [fst snd].
  rewrite zsum_flat_map, zsum_mesh. apply sum_upto_ext. intros b _. apply sum_upto_ext. intros a _. cbn [fst snd].
  destruct (valid g x y a b); auto.
Qed.

Definition injective_ids (g : geom) : Prop :=
  forall x y c x' y' c', (x < xout g -> y < yout g -> c < cout g -> x' < xout g -> y' < yout g -> c' < cout g ->
    dst_id g x y c = dst_id g x' y' c' -> x = x' /\ y = y' /\ c = c')%nat.

Lemma sparse_general g group v X Y K :
  (0 < group)%nat -> (cin g mod group = 0)%nat -> (cout g mod group = 0)%nat ->
  kd3 (kern g) = (cin g / group)%nat -> injective_ids g ->
  (X < xout g)%nat -> (Y < yout g)%nat -> (K < cout g)%nat ->
  sparse_dot (dsts g group, srcs g group, wgts g group) v (dst_id g X Y K) =
  sum_upto (cin g / group) (fun c => sum_upto (cx g) (fun a => sum_upto (cy g) (fun b =>
     if valid g X Y a b then
       kval (kern g) K (cx g - a - 1) (cy g - b - 1) c
       * nth (src_id g (Z.to_nat (tap_x g X a)) (Z.to_nat (tap_y g Y b)) (c + K / (cout g / group) * (cin g / group))) v 0
     else 0))).
Proof.
  intros Hg Hci Hco Hk3 Hinj HX HY HK. set (cg := (cin g / group)%nat) in *. set (kg := (cout g / group)%nat) in *.
  assert (cout g = group * kg)%nat as En.
  { unfold kg. pose proof (Nat.div_mod (cout g) group ltac:(lia)). lia. }
  unfold sparse_dot, dsts, srcs, wgts.
  assert (forall n grp, length (channels n group grp) = (n / group)%nat) as Lc by (intros; unfold channels; rewrite map_length, seq_length; auto).
  set (fd := fun grp x y (a b : nat) => flat_map (fun d => map (fun _ => dst_id g x y d) (channels (cin g) group grp)) (channels (cout g) group grp)).
  set (fs := fun grp x y a b => flat_map (fun _ => map (fun c => src_id g (Z.to_nat (tap_x g x a)) (Z.to_nat (tap_y g y b)) c) (channels (cin g) group grp)) (channels (cout g) group grp)).
  set (fw := fun grp (x y : nat) a b => flat_map (fun d => map (fun l => kval (kern g) d (cx g - a - 1)%nat (cy g - b - 1)%nat l) (seq 0 (kd3 (kern g)))) (channels (cout g) group grp)).
  change (zsum (map (fun t : nat * nat * Z => if Nat.eqb (fst (fst t)) (dst_id g X Y K) then snd t * nth (snd (fst t)) v 0 else 0)
    (combine (combine (loop g group fd) (loop g group fs)) (loop g group fw))) =
    sum_upto cg (fun c => sum_upto (cx g) (fun a => sum_upto (cy g) (fun b =>
     if valid g X Y a b then kval (kern g) K (cx g - a - 1) (cy g - b - 1) c
       * nth (src_id g (Z.to_nat (tap_x g X a)) (Z.to_nat (tap_y g Y b)) (c + K / kg * cg)) v 0 else 0)))).
  destruct (loop_combine _ _ g group fd fs) as [E1 L1].
  { intros. unfold fd, fs. apply flat_map_length2. intros. rewrite !map_length. auto. }
  rewrite E1.
  destruct (loop_combine _ _ g group (fun a b c d e => combine (fd a b c d e) (fs a b c d e)) fw) as [E2 L2].
  { intros. unfold fd, fs, fw. rewrite combine_flat_map by (intros; rewrite !map_length; auto).
    apply flat_map_length2. intros. rewrite combine_map, !map_length, seq_length, Lc. auto. }
  rewrite E2, zsum_loop.
  assert (forall grp x y a b, combine (combine (fd grp x y a b) (fs grp x y a b)) (fw grp x y a b) =
    flat_map (fun d => map (fun l => ((dst_id g x y d, src_id g (Z.to_nat (tap_x g x a)) (Z.to_nat (tap_y g y b)) (l + grp * cg)%nat), kval (kern g) d (cx g - a - 1)%nat (cy g - b - 1)%nat l)) (seq 0 cg)) (channels (cout g) group grp)) as Hp.
  { intros. unfold fd, fs, fw. rewrite combine_flat_map by (intros; rewrite !map_length; auto).
    rewrite combine_flat_map by (intros; rewrite combine_length, !map_length, Lc, seq_length, Hk3; unfold cg; lia).
    apply flat_map_ext. intros d. rewrite combine_map, Hk3. unfold channels. fold cg. rewrite map_map, combine_map. auto. }
  (* each location contributes only if it is (X, Y) *)
  rewrite (sum_upto_ext _ _ (fun grp => sum_upto kg (fun k => if Nat.eqb K (k + grp * kg) then
      sum_upto (cy g) (fun b => sum_upto (cx g) (fun a => if valid g X Y a b then
         sum_upto cg (fun l => kval (kern g) K (cx g - a - 1) (cy g - b - 1) l * nth (src_id g (Z.to_nat (tap_x g X a)) (Z.to_nat (tap_y g Y b)) (l + grp * cg)) v 0) else 0)) else 0))).
  2:{ intros grp Hgrp.
      assert (forall x y a b, (x < xout g)%nat -> (y < yout g)%nat ->
         zsum (map (fun t : nat * nat * Z => if Nat.eqb (fst (fst t)) (dst_id g X Y K) then snd t * nth (snd (fst t)) v 0 else 0)
           (combine (combine (fd grp x y a b) (fs grp x y a b)) (fw grp x y a b))) =
         sum_upto kg (fun k => if (Nat.eqb x X && Nat.eqb y Y && Nat.eqb K (k + grp * kg))%bool then
            sum_upto cg (fun l => kval (kern g) K (cx g - a - 1) (cy g - b - 1) l * nth (src_id g (Z.to_nat (tap_x g X a)) (Z.to_nat (tap_y g Y b)) (l + grp * cg)) v 0) else 0)) as Hz.
      { intros x y a b Hx Hy. rewrite Hp, zsum_flat_map, zsum_channels. fold kg. apply sum_upto_ext. intros k Hk.
        rewrite map_map, zsum_map_seq. cbn [fst snd].
        assert (k + grp * kg < cout g)%nat as Hlt by nia.
        destruct (Nat.eqb_spec (dst_id g x y (k + grp * kg)) (dst_id g X Y K)) as [E|E].
        - apply Hinj in E; auto. destruct E as (-> & -> & E). rewrite !Nat.eqb_refl, <- E, Nat.eqb_refl. auto.
        - destruct (Nat.eqb_spec x X), (Nat.eqb_spec y Y), (Nat.eqb_spec K (k + grp * kg)); subst; try congruence;
          cbn [andb]; apply sum_upto_0; auto. }
      rewrite (sum_upto_single _ _ Y HY).
      2:{ intros y Hy Hn. apply sum_upto_0. intros x Hx. apply sum_upto_0. intros b _. apply sum_upto_0. intros a _.
          destruct (valid g x y a b); auto. rewrite Hz by auto. apply sum_upto_0. intros.
          destruct (Nat.eqb_spec y Y); [congruence|]. rewrite andb_false_r. auto. }
      rewrite (sum_upto_single _ _ X HX).
      2:{ intros x Hx Hn. apply sum_upto_0. intros b _. apply sum_upto_0. intros a _.
          destruct (valid g x Y a b); auto. rewrite Hz by auto. apply sum_upto_0. intros.
          destruct (Nat.eqb_spec x X); [congruence|]. auto. }
      rewrite (sum_upto_ext (cy g) _ (fun b => sum_upto kg (fun k => sum_upto (cx g) (fun a => if Nat.eqb K (k + grp * kg) then if valid g X Y a b then
           sum_upto cg (fun l => kval (kern g) K (cx g - a - 1) (cy g - b - 1) l * nth (src_id g (Z.to_nat (tap_x g X a)) (Z.to_nat (tap_y g Y b)) (l + grp * cg)) v 0) else 0 else 0)))).
      2:{ intros b _. rewrite sum_upto_swap. apply sum_upto_ext. intros a _.
          destruct (valid g X Y a b).
          - rewrite Hz by auto. apply sum_upto_ext. intros k _. rewrite !Nat.eqb_refl. cbn [andb]. auto.
          - symmetry. apply sum_upto_0. intros. destruct (Nat.eqb K (j + grp * kg)); auto. }
      rewrite sum_upto_swap. apply sum_upto_ext. intros k _. destruct (Nat.eqb K (k + grp * kg)).
      - auto.
      - apply sum_upto_0. intros. apply sum_upto_0. auto. }
  rewrite (group_collapse group kg K (fun grp _ => sum_upto (cy g) (fun b => sum_upto (cx g) (fun a => if valid g X Y a b then
         sum_upto cg (fun l => kval (kern g) K (cx g - a - 1) (cy g - b - 1) l * nth (src_id g (Z.to_nat (tap_x g X a)) (Z.to_nat (tap_y g Y b)) (l + grp * cg)) v 0) else 0)))) by lia.
  rewrite (sum_upto_ext cg _ (fun c => sum_upto (cy g) (fun b => sum_upto (cx g) (fun a => if valid g X Y a b then
       kval (kern g) K (cx g - a - 1) (cy g - b - 1) c
       * nth (src_id g (Z.to_nat (tap_x g X a)) (Z.to_nat (tap_y g Y b)) (c + K / kg * cg)) v 0 else 0)))).
  2:{ intros c _. apply sum_upto_swap. }
  symmetry. rewrite sum_upto_swap. apply sum_upto_ext. intros b _. rewrite sum_upto_swap. apply sum_upto_ext. intros a _.
  destruct (valid g X Y a b); auto. apply sum_upto_0. auto.
Qed.

(** ** The default order *)
(** position of (x, y, c) in the flattened array of shape (_, Y, C) *)
Definition flat3 (Y C x y c : nat) : nat := ((x * Y + y) * C + c)%nat.
Definition image (Y C : nat) (v : list Z) (x y c : nat) : Z := nth (flat3 Y C x y c) v 0.
Lemma flat3_inj Y C x y c x' y' c' : (y < Y -> c < C -> y' < Y -> c' < C ->
  flat3 Y C x y c = flat3 Y C x' y' c' -> x = x' /\ y = y' /\ c = c')%nat.
Proof.
  unfold flat3. intros Hy Hc Hy' Hc' E.
  assert (x * Y + y = x' * Y + y')%nat as E1 by nia. assert (c = c') by nia.
  assert (x = x')%nat by nia. nia.
Qed.
Definition as_array (k0 k1 k2 k3 : nat) (w : nat -> nat -> nat -> nat -> Z) : karray :=
  {| kd0 := k0; kd1 := k1; kd2 := k2; kd3 := k3; kval := w |}.

Lemma sum_upto_rev n f : sum_upto n f = sum_upto n (fun a => f (n - a - 1)%nat).
Proof.
  induction n; auto. rewrite (sum_upto_front n (fun a => f (S n - a - 1)%nat)).
  rewrite (sum_upto_ext n (fun j => f (S n - S j - 1)%nat) (fun j => f (n - j - 1)%nat)) by (intros; f_equal; lia).
  cbn [sum_upto]. rewrite <- IHn. replace (S n - 0 - 1)%nat with n by lia. lia.
Qed.

(** WHC tensors, NWHC kernels: the sparse matrix applied to the flattened input is the flattened
    convolution of the input. *)
Theorem conv_to_sparse_is_convolution p w v xo yo m x y ch :
  well_formed p ->
  conv_to_sparse NWHC (nx p, ny p, nc p) (xo, yo, nk p) (as_array (nk p) (kx p) (ky p) (nc p / groups p) w)
    (sx p, sy p) (px p, py p) (dx p, dy p) (groups p) = Some m ->
  (x < xo)%nat -> (y < yo)%nat -> (ch < nk p)%nat ->
  sparse_dot m v (flat3 yo (nk p) x y ch) = convolution p w (image (ny p) (nc p) v) x y ch.
Proof.
  intros (Hg & Hk & Hc & Hkx & Hky & Hdx & Hdy) Hm Hx Hy Hch. unfold conv_to_sparse in Hm.
  set (g := branch _ _ _ _ _ _ _) in Hm. cbn [cin cout g branch] in Hm. rewrite Hk, Hc in Hm. cbn in Hm.
  injection Hm as <-.
  replace (flat3 yo (nk p) x y ch) with (dst_id g x y ch) by (unfold flat3; simpl; nia).
  rewrite sparse_general; auto.
  2:{ intros x1 y1 c1 x2 y2 c2 H1 H2 H3 H4 H5 H6 E. simpl in *. apply (flat3_inj yo (nk p)); auto. unfold flat3. nia. }
  unfold convolution. cbn [cin cout cx cy kern g branch as_array kd1 kd2 kd3 kval].
  apply sum_upto_ext. intros c Hc1. rewrite sum_upto_rev. apply sum_upto_ext. intros a Ha.
  rewrite sum_upto_rev. apply sum_upto_ext. intros b Hb.
  unfold valid, pix, tap_x, tap_y. cbn [xin yin stx sty dilx dily padx pady g branch fst snd src_id].
  replace (kx p - (kx p - a - 1) - 1)%nat with a by lia. replace (ky p - (ky p - b - 1) - 1)%nat with b by lia.
  rewrite !Nat2Z.inj_mul, !Nat2Z.inj_sub by lia.
  replace (zz x * zz (sx p) + (zz (kx p) - zz a - zz 1) * zz (dx p) - zz (px p))
    with (zz x * zz (sx p) + (zz (kx p) - 1 - zz a) * zz (dx p) - zz (px p)) by lia.
  replace (zz y * zz (sy p) + (zz (ky p) - zz b - zz 1) * zz (dy p) - zz (py p))
    with (zz y * zz (sy p) + (zz (ky p) - 1 - zz b) * zz (dy p) - zz (py p)) by lia.
  match goal with |- (if ?cond then _ else _) = _ => destruct cond; [|lia] end.
  f_equal. unfold image, flat3. f_equal. nia.
Qed.
(** in particular it agrees with the convolution the Conv process computes *)
Theorem conv_to_sparse_agrees_with_conv p w v xo yo m x y ch :
  well_formed p ->
  conv_to_sparse NWHC (nx p, ny p, nc p) (xo, yo, nk p) (as_array (nk p) (kx p) (ky p) (nc p / groups p) w)
    (sx p, sy p) (px p, py p) (dx p, dy p) (groups p) = Some m ->
  (x < xo)%nat -> (y < yo)%nat -> (ch < nk p)%nat ->
  sparse_dot m v (flat3 yo (nk p) x y ch) = conv_scipy p w (image (ny p) (nc p) v) x y ch.
Proof. intros. rewrite conv_scipy_is_convolution by auto. eapply conv_to_sparse_is_convolution; eauto. Qed.

(** every listed index is in range, and the three lists have the same length *)
Lemma flat_lt X Y C x y c : (x < X -> y < Y -> c < C -> x * Y * C + y * C + c < X * Y * C)%nat.
Proof.
  intros. assert (x * Y + y + 1 <= X * Y)%nat by nia. assert ((x * Y + y + 1) * C <= X * Y * C)%nat by (apply Nat.mul_le_mono_r; auto). lia.
Qed.
Lemma in_loop A g group (piece : nat -> nat -> nat -> nat -> nat -> list A) z :
  In z (loop g group piece) -> exists grp x y a b,
    (grp < group /\ x < xout g /\ y < yout g /\ a < cx g /\ b < cy g)%nat /\ valid g x y a b = true /\ In z (piece grp x y a b).
Proof.
  unfold loop, mesh. intros H. apply in_flat_map in H. destruct H as (grp & Hg & H).
  apply in_flat_map in H. destruct H as ([x y] & Hl & H). apply in_flat_map in H. destruct H as ([a b] & Ht & H).
  cbn [fst snd] in H. apply in_seq in Hg.
  apply in_flat_map in Hl. destruct Hl as (y' & Hy & Hl). apply in_map_iff in Hl. destruct Hl as (x' & E & Hx). injection E as -> ->.
  apply in_flat_map in Ht. destruct Ht as (b' & Hb & Ht). apply in_map_iff in Ht. destruct Ht as (a' & E & Ha). injection E as -> ->.
  apply in_seq in Hy, Hx, Hb, Ha. destruct (valid g x y a b) eqn:Ev; [|destruct H].
  exists grp, x, y, a, b. split; [lia|auto].
Qed.
Lemma in_channels n group grp c : (0 < group)%nat -> (grp < group)%nat -> In c (channels n group grp) -> (c < n)%nat.
Proof.
  intros Hg Hgrp H. unfold channels in H. apply in_map_iff in H. destruct H as (k & <- & Hk). apply in_seq in Hk.
  pose proof (Nat.mul_div_le n group ltac:(lia)). nia.
Qed.
Lemma valid_range g x y a b : valid g x y a b = true ->
  (Z.to_nat (tap_x g x a) < xin g /\ Z.to_nat (tap_y g y b) < yin g)%nat.
Proof. unfold valid. intros H. apply andb_true_iff in H. destruct H as [H H4]. apply andb_true_iff in H. destruct H as [H H3].
  apply andb_true_iff in H. destruct H as [H1 H2]. lia. Qed.
Theorem conv_to_sparse_in_range p w xo yo ds ss ws : (0 < groups p)%nat ->
  conv_to_sparse NWHC (nx p, ny p, nc p) (xo, yo, nk p) (as_array (nk p) (kx p) (ky p) (nc p / groups p) w)
    (sx p, sy p) (px p, py p) (dx p, dy p) (groups p) = Some (ds, ss, ws) ->
  (forall d, In d ds -> d < xo * yo * nk p)%nat /\ (forall s, In s ss -> s < nx p * ny p * nc p)%nat /\
  length ds = length ss /\ length ss = length ws.
Proof.
  intros Hg Hm. unfold conv_to_sparse in Hm. set (g := branch _ _ _ _ _ _ _) in Hm.
  destruct ((cin g mod groups p =? 0)%nat && (cout g mod groups p =? 0)%nat); [|discriminate].
  injection Hm as <- <- <-. split; [|split; [|split]].
  - intros d H. unfold dsts in H. apply in_loop in H. destruct H as (grp & x & y & a & b & Hr & _ & H).
    apply in_flat_map in H. destruct H as (c & Hc & H). apply in_map_iff in H. destruct H as (_ & <- & _).
    apply in_channels in Hc; try lia. cbn [dst_id xout yout cout g branch] in *. apply flat_lt; lia.
  - intros d H. unfold srcs in H. apply in_loop in H. destruct H as (grp & x & y & a & b & Hr & Hv & H).
    apply in_flat_map in H. destruct H as (_ & _ & H). apply in_map_iff in H. destruct H as (c & <- & Hc).
    apply in_channels in Hc; try lia. apply valid_range in Hv.
    set (X := Z.to_nat _) in *. set (Y := Z.to_nat _) in *. cbn [src_id xin yin cin g branch] in *. apply flat_lt; lia.
  - unfold dsts, srcs. apply loop_combine. intros. apply flat_map_length2. intros. rewrite !map_length. auto.
  - unfold wgts, srcs. apply loop_combine. intros. apply flat_map_length2. intros. rewrite !map_length, seq_length.
    unfold channels. rewrite map_length, seq_length. auto.
Qed.

(** ** The TensorFlow order: right only if the number of output rows equals the number of output
    channels (dst_id multiplies x by size_yout where size_cout is meant) *)
Theorem conv_to_sparse_hwcn_partial p w v xo m x y ch :
  well_formed p ->
  conv_to_sparse HWCN (ny p, nx p, nc p) (nk p, xo, nk p) (as_array (ky p) (kx p) (nc p / groups p) (nk p) w)
    (sy p, sx p) (py p, px p) (dy p, dx p) (groups p) = Some m ->
  (x < xo)%nat -> (y < nk p)%nat -> (ch < nk p)%nat ->
  sparse_dot m v (flat3 xo (nk p) y x ch)
  = correlation p (fun k a b c => w b a c k) (fun x y c => image (nx p) (nc p) v y x c) x y ch.
Proof.
  intros (Hg & Hk & Hc & Hkx & Hky & Hdx & Hdy) Hm Hx Hy Hch. unfold conv_to_sparse in Hm.
  set (g := branch _ _ _ _ _ _ _) in Hm. cbn [cin cout g branch] in Hm. rewrite Hk, Hc in Hm. cbn in Hm.
  injection Hm as <-.
  replace (flat3 xo (nk p) y x ch) with (dst_id g x y ch) by (unfold flat3; simpl; nia).
  rewrite sparse_general; auto.
  2:{ intros x1 y1 c1 x2 y2 c2 H1 H2 H3 H4 H5 H6 E. simpl in *.
      destruct (flat3_inj xo (nk p) y1 x1 c1 y2 x2 c2) as (-> & -> & ->); auto. unfold flat3. nia. }
  unfold correlation. cbn [cin cout cx cy kern g branch as_array kd0 kd1 kd2 kd3 kval].
  apply sum_upto_ext. intros c Hc1. apply sum_upto_ext. intros a Ha. apply sum_upto_ext. intros b Hb.
  unfold valid, pix, tap_x, tap_y. cbn [xin yin stx sty dilx dily padx pady g branch fst snd src_id].
  replace (kx p - 1 - (kx p - a - 1))%nat with a by lia. replace (ky p - 1 - (ky p - b - 1))%nat with b by lia.
  rewrite !Nat2Z.inj_mul.
  match goal with |- (if ?cond then _ else _) = _ => destruct cond; [|lia] end.
  f_equal. unfold image, flat3. f_equal. nia.
Qed.
(** a 2 x 1 kernel-less (1 x 1) layer with 2 x 2 output and 3 channels: two outputs share an index *)
Definition tf_example : shape_conv :=
  {| nx := 2; ny := 2; nc := 1; kx := 1; ky := 1; nk := 3; sx := 1; sy := 1; px := 0; py := 0; dx := 1; dy := 1; groups := 1 |}.
Theorem conv_to_sparse_hwcn_refuted :
  ~ (forall p w v xo yo m x y ch, well_formed p ->
      conv_to_sparse HWCN (ny p, nx p, nc p) (yo, xo, nk p) (as_array (ky p) (kx p) (nc p / groups p) (nk p) w)
        (sy p, sx p) (py p, px p) (dy p, dx p) (groups p) = Some m ->
      (x < xo)%nat -> (y < yo)%nat -> (ch < nk p)%nat ->
      sparse_dot m v (flat3 xo (nk p) y x ch)
      = correlation p (fun k a b c => w b a c k) (fun x y c => image (nx p) (nc p) v y x c) x y ch).
Proof.
  intros H.
  specialize (H tf_example (fun _ _ _ _ => 1) [1; 10; 100; 1000] 2%nat 2%nat).
  specialize (H _ 0%nat 0%nat 2%nat ltac:(unfold well_formed; simpl; lia) eq_refl ltac:(lia) ltac:(lia) ltac:(simpl; lia)).
  vm_compute in H. discriminate.
Qed.
(** ** The PyTorch order: the kernel axes are permuted wrongly *)
Definition torch_example : shape_conv :=
  {| nx := 2; ny := 2; nc := 2; kx := 2; ky := 2; nk := 1; sx := 1; sy := 1; px := 0; py := 0; dx := 1; dy := 1; groups := 1 |}.
Theorem conv_to_sparse_nchw_refuted :
  ~ (forall p w v xo yo m x y ch, well_formed p ->
      conv_to_sparse NCHW (nc p, ny p, nx p) (nk p, yo, xo) (as_array (nk p) (nc p / groups p) (ky p) (kx p) w)
        (sy p, sx p) (py p, px p) (dy p, dx p) (groups p) = Some m ->
      (x < xo)%nat -> (y < yo)%nat -> (ch < nk p)%nat ->
      sparse_dot m v (flat3 yo xo ch y x)
      = correlation p (fun k a b c => w k c b a) (fun x y c => image (ny p) (nx p) v c y x) x y ch).
Proof.
  intros H.
  specialize (H torch_example (fun _ c b a => Z.of_nat (4 * c + 2 * b + a)) [1; 10; 100; 1000; 10000; 100000; 1000000; 10000000] 1%nat 1%nat).
  specialize (H _ 0%nat 0%nat 0%nat ltac:(unfold well_formed; simpl; lia) eq_refl ltac:(lia) ltac:(lia) ltac:(simpl; lia)).
  vm_compute in H. discriminate.
Qed.

(** a non-trivial instance of the theorem: groups, stride, padding and dilation *)
Definition conv_example : shape_conv :=
  {| nx := 5; ny := 4; nc := 2; kx := 2; ky := 2; nk := 4; sx := 2; sy := 1; px := 1; py := 0; dx := 2; dy := 1; groups := 2 |}.
Example conv_example_ok : well_formed conv_example /\
  out_dim 5 2 2 1 2 = Some 3 /\ out_dim 4 2 1 0 1 = Some 3 /\
  conv_to_sparse NWHC (5, 4, 2)%nat (3, 3, 4)%nat (as_array 4 2 2 1 (fun k a b c => Z.of_nat (k + 2 * a + b))) (2, 1)%nat (1, 0)%nat (2, 1)%nat 2 <> None /\
  convolution conv_example (fun k a b c => Z.of_nat (k + 2 * a + b)) (fun x y c => Z.of_nat (x + 10 * y + 100 * c)) 1 2 3 = 2272.
Proof.
  split; [unfold well_formed; simpl; lia|]. split; [reflexivity|]. split; [reflexivity|]. split; [discriminate|]. vm_compute. reflexivity.
Qed.

Print Assumptions output_shape_counts.
Print Assumptions conv_scipy_is_convolution.
Print Assumptions conv_to_sparse_is_convolution.
Print Assumptions conv_to_sparse_in_range.
Print Assumptions conv_to_sparse_hwcn_partial.
Print Assumptions conv_to_sparse_hwcn_refuted.
Print Assumptions conv_to_sparse_nchw_refuted.
