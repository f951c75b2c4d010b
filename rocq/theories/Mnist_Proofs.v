(** Lemmas for C104. *)
From Coq Require Import List Bool Arith String ZArith Lia.
From Verif Require Import Mnist_Model Mnist_Spec.
Import ListNotations.

Lemma eqb_same : forall p, String.eqb p p = true. Proof. exact String.eqb_refl. Qed.

(** ** names *)
Lemma ends_with_iff : forall suf s, ends_with suf s = true <-> exists q, s = (q ++ suf)%string.
Proof.
  intros suf s. induction s as [|c s IH]; cbn [ends_with]; rewrite orb_true_iff, String.eqb_eq.
  - split.
    + intros [<-|H]; [exists EmptyString; reflexivity|discriminate].
    + intros ([|c q] & H); [left; exact H|discriminate].
  - split.
    + intros [<-|H]; [exists EmptyString; reflexivity|]. apply IH in H. destruct H as (q & ->). exists (String c q). reflexivity.
    + intros ([|c' q] & H); [left; exact H|]. injection H as _ H. right. apply IH. exists q. exact H.
Qed.
Lemma npy_name_id : forall p, npy_name p = p <-> IsNpy p.
Proof.
  intros p. unfold npy_name, IsNpy. destruct (ends_with ".npy" p) eqn:E.
  - apply ends_with_iff in E. tauto.
  - split.
    + intros H. exfalso. apply (f_equal String.length) in H.
      assert (forall a b, String.length (a ++ b)%string = String.length a + String.length b) as L
        by (induction a as [|x a IH]; intros b; cbn; [reflexivity|now rewrite IH]).
      rewrite L in H. cbn in H. lia.
    + intros H. apply ends_with_iff in H. congruence.
Qed.

(** ** what a program does to the disk *)
Lemma bind_cases : forall A B (m : M A) (f : A -> M B) k s,
  (exists a k' s', m k s = (Done a, k', s') /\ bind m f k s = f a k' s') \/
  (exists e k' s', m k s = (Raised e, k', s') /\ bind m f k s = (Raised e, k', s')) \/
  (exists k' s', m k s = (Crashed, k', s') /\ bind m f k s = (Crashed, k', s')).
Proof. intros A B m f k s. unfold bind. destruct (m k s) as [[[a|e|] k'] s']; eauto 10. Qed.

(** [m] keeps the files outside the temp directory *)
Definition KeepsDisk {A} (m : M A) : Prop := forall k s, disk (snd (m k s)) = disk s.
(** [m] changes nothing *)
Definition Pure {A} (m : M A) : Prop := forall k s, snd (m k s) = s.

Lemma pure_keeps : forall A (m : M A), Pure m -> KeepsDisk m.
Proof. intros A m H k s. now rewrite H. Qed.
Lemma bind_keeps : forall A B (m : M A) (f : A -> M B), KeepsDisk m -> (forall a, KeepsDisk (f a)) -> KeepsDisk (bind m f).
Proof.
  intros A B m f Hm Hf k s. pose proof (Hm k s) as X. destruct (bind_cases A B m f k s) as [(a & k' & s' & E & ->)|[(e & k' & s' & E & ->)|(k' & s' & E & ->)]];
    rewrite E in X; cbn in *; [rewrite Hf|..]; exact X.
Qed.
Lemma raise_pure : forall A e, Pure (@raise A e). Proof. intros A e k s. reflexivity. Qed.
Lemma ret_pure : forall A a, Pure (@ret A a). Proof. intros A a k s. reflexivity. Qed.
Lemma change_temp_keeps : forall i c, KeepsDisk (change (set_temp i c)).
Proof. intros i c [[|k]|] s; reflexivity. Qed.
Lemma write_temp_keeps : forall i c, KeepsDisk (write_temp i c).
Proof. intros. apply bind_keeps; [apply change_temp_keeps|intros _; apply change_temp_keeps]. Qed.
Lemma try_keeps : forall i rs, KeepsDisk (try_mirrors i rs).
Proof.
  intros i rs. induction rs as [|[| | |b] rs IH]; cbn [try_mirrors].
  - apply pure_keeps, raise_pure.
  - exact IH.
  - apply pure_keeps, raise_pure.
  - apply bind_keeps; [apply change_temp_keeps|intros _; apply pure_keeps, raise_pure].
  - apply write_temp_keeps.
Qed.
Lemma download_keeps : forall net, KeepsDisk (download net).
Proof. intros net. unfold download. repeat (apply bind_keeps; [apply try_keeps|intros _]). apply try_keeps. Qed.
Lemma read_pure : forall g i p, Pure (read_array g i p).
Proof. intros g i p k s. unfold read_array. destruct (temp s i) as [[b|d|]|]; try reflexivity. destruct (g b) as [c|]; [destruct (p c)|]; reflexivity. Qed.
Lemma stack_pure : forall a b c d, Pure (stack a b c d).
Proof. intros a b c d k s. unfold stack. destruct (_ && _); reflexivity. Qed.
Lemma load_pure : forall p, Pure (load p).
Proof. intros p k s. unfold load. destruct (disk s p) as [[b|d|]|]; reflexivity. Qed.

(** nothing but the network and the temp files decides what is read *)
Lemma read_done : forall g i p k s a k' s', read_array g i p k s = (Done a, k', s') ->
  k' = k /\ s' = s /\ exists b c, temp s i = Some (Raw b) /\ g b = Some c /\ p c = Some a.
Proof.
  intros g i p k s a k' s' H. unfold read_array in H. destruct (temp s i) as [[b|d|]|] eqn:T; try discriminate.
  destruct (g b) as [c|] eqn:G; [|discriminate]. destruct (p c) as [l|] eqn:P; [|discriminate]. injection H as <- <- <-. eauto 8.
Qed.
Lemma read_not_crashed : forall g i p k s k' s', read_array g i p k s <> (Crashed, k', s').
Proof. intros g i p k s k' s' H. unfold read_array in H. destruct (temp s i) as [[b|d|]|]; try discriminate. destruct (g b) as [c|]; [destruct (p c)|]; discriminate. Qed.

(** ** a download that ends normally *)
Lemma set_temp_same : forall i c s, temp (set_temp i c s) i = Some c.
Proof. intros. cbn. now rewrite Nat.eqb_refl. Qed.
Lemma set_temp_other : forall i j c s, i <> j -> temp (set_temp i c s) j = temp s j.
Proof. intros i j c s H. cbn. destruct (Nat.eqb_spec j i); congruence. Qed.

Lemma change_done : forall f k s x k' s', change f k s = (Done x, k', s') -> s' = f s.
Proof. intros f [[|k]|] s x k' s' H; cbn in H; congruence. Qed.

Lemma write_temp_done : forall i c k s x k' s', write_temp i c k s = (Done x, k', s') -> s' = set_temp i c (set_temp i Part s).
Proof.
  intros i c k s x k' s' H. unfold write_temp in H.
  destruct (bind_cases _ _ (change (set_temp i Part)) (fun _ => change (set_temp i c)) k s) as [(a & k1 & s1 & E & X)|[(e & k1 & s1 & E & X)|(k1 & s1 & E & X)]];
    rewrite X in H; try discriminate. apply change_done in E. subst s1. now apply change_done in H.
Qed.

Lemma try_done : forall i rs k s x k' s', try_mirrors i rs k s = (Done x, k', s') ->
  exists b, In (Bytes b) rs /\ s' = set_temp i (Raw b) (set_temp i Part s) /\
    exists before rest, rs = before ++ Bytes b :: rest /\ forall r, In r before -> r = NoUrl.
Proof.
  intros i rs. induction rs as [|[| | |b] rs IH]; intros k s x k' s' H; cbn [try_mirrors] in H.
  - discriminate.
  - destruct (IH _ _ _ _ _ H) as (b & Hb & E & before & rest & -> & Hn). exists b. split; [now right|]. split; [exact E|].
    exists (NoUrl :: before), rest. split; [reflexivity|]. intros r [<-|Hr]; auto.
  - discriminate.
  - destruct (bind_cases _ _ (change (set_temp i Part)) (fun _ : unit => @raise unit OtherNetError) k s) as [(a & k1 & s1 & E & X)|[(e & k1 & s1 & E & X)|(k1 & s1 & E & X)]];
      rewrite X in H; discriminate.
  - apply write_temp_done in H. exists b. split; [now left|]. split; [exact H|]. exists [], rs. split; [reflexivity|intros r []].
Qed.

Lemma download_done : forall net k s x k' s', download net k s = (Done x, k', s') ->
  disk s' = disk s /\ forall i, i < 4 -> exists b, In (Bytes b) (net i) /\ temp s' i = Some (Raw b).
Proof.
  intros net k s x k' s' H. split; [pose proof (download_keeps net k s) as X; rewrite H in X; exact X|].
  unfold download in H.
  destruct (bind_cases _ _ (try_mirrors 0 (net 0)) (fun _ => bind (try_mirrors 1 (net 1)) (fun _ => bind (try_mirrors 2 (net 2)) (fun _ => try_mirrors 3 (net 3)))) k s)
    as [(a0 & k0 & s0 & E0 & X)|[(e & k1 & s1 & E & X)|(k1 & s1 & E & X)]]; rewrite X in H; try discriminate; clear X.
  destruct (bind_cases _ _ (try_mirrors 1 (net 1)) (fun _ => bind (try_mirrors 2 (net 2)) (fun _ => try_mirrors 3 (net 3))) k0 s0)
    as [(a1 & k1 & s1 & E1 & X)|[(e & k1 & s1 & E & X)|(k1 & s1 & E & X)]]; rewrite X in H; try discriminate; clear X.
  destruct (bind_cases _ _ (try_mirrors 2 (net 2)) (fun _ => try_mirrors 3 (net 3)) k1 s1)
    as [(a2 & k2 & s2 & E2 & X)|[(e & k2 & s2 & E & X)|(k2 & s2 & E & X)]]; rewrite X in H; try discriminate; clear X.
  apply try_done in E0. apply try_done in E1. apply try_done in E2. apply try_done in H.
  destruct E0 as (b0 & B0 & -> & _). destruct E1 as (b1 & B1 & -> & _). destruct E2 as (b2 & B2 & -> & _). destruct H as (b3 & B3 & -> & _).
  intros i Hi. destruct i as [|[|[|[|i]]]]; [exists b0|exists b1|exists b2|exists b3|lia]; (split; [assumption|reflexivity]).
Qed.

Lemma try_available : forall i before b rest s, (forall r, In r before -> r = NoUrl) ->
  try_mirrors i (before ++ Bytes b :: rest) None s = (Done tt, None, set_temp i (Raw b) (set_temp i Part s)).
Proof.
  intros i before b rest s H. induction before as [|r before IH]; [reflexivity|]. cbn [List.app try_mirrors].
  rewrite (H r (or_introl eq_refl)). apply IH. intros x Hx. apply H. now right.
Qed.

(** ** the arrays of the published files *)
Lemma wf_parse : forall m, WellFormed m ->
  parse_images (images0 m) = Some (skipn 16 (images0 m)) /\ parse_labels (labels0 m) = Some (skipn 8 (labels0 m)) /\
  parse_images (images1 m) = Some (skipn 16 (images1 m)) /\ parse_labels (labels1 m) = Some (skipn 8 (labels1 m)) /\
  (forall k s, stack (skipn 16 (images0 m)) (skipn 8 (labels0 m)) (skipn 16 (images1 m)) (skipn 8 (labels1 m)) k s =
    (Done (mkData (skipn 16 (images0 m)) (skipn 8 (labels0 m)) (skipn 16 (images1 m)) (skipn 8 (labels1 m))), k, s)).
Proof.
  intros m [A B C D].
  assert (forall n b, (Z.of_nat (List.length b) = 16 + Z.of_nat n * 784)%Z -> parse_images b = Some (skipn 16 b)) as PI.
  { intros n b H. assert (List.length b = 16 + n * 784) as E by lia. unfold parse_images, frombuffer.
    assert (List.length b <? 16 = false) as -> by (apply Nat.ltb_ge; rewrite E; apply Nat.le_add_r).
    rewrite skipn_length, E. replace (16 + n * 784 - 16) with (n * 784) by (rewrite Nat.add_comm, Nat.add_sub; reflexivity).
    rewrite Nat.mod_mul by discriminate. reflexivity. }
  assert (forall b, (8 <= Z.of_nat (List.length b))%Z -> parse_labels b = Some (skipn 8 b)) as PL.
  { intros b H. unfold parse_labels, frombuffer. assert (List.length b <? 8 = false) as -> by (apply Nat.ltb_ge; lia). reflexivity. }
  split; [apply (PI (Z.to_nat 60000)); rewrite Z2Nat.id; lia|]. split; [apply PL; lia|].
  split; [apply (PI (Z.to_nat 10000)); rewrite Z2Nat.id; lia|]. split; [apply PL; lia|].
  intros k s. unfold stack. rewrite !skipn_length.
  match goal with |- context [if ?b then _ else _] => assert (b = false) as ->; [|reflexivity] end.
  apply andb_false_iff. right. apply Nat.eqb_neq. intros X.
  assert (Z.of_nat ((List.length (images0 m) - 16) / 784) = 60000)%Z as Y.
  { rewrite Nat2Z.inj_div, Nat2Z.inj_sub by lia. rewrite A. reflexivity. }
  rewrite X in Y. rewrite Nat2Z.inj_sub in Y by lia. rewrite D in Y. discriminate.
Qed.

(** ** the conversion in one piece *)
Definition rd (g : bytes -> option bytes) (s : fs) (i : nat) (parse : bytes -> option bytes) : exn + bytes :=
  match temp s i with
  | Some (Raw b) => match g b with
                    | Some c => match parse c with Some l => inr l | None => inl ParseError end
                    | None => inl BadGzip
                    end
  | Some _ => inl BadGzip
  | None => inl NotFound
  end.
Definition parsed (g : bytes -> option bytes) (s : fs) : exn + data :=
  match rd g s 0 parse_images with inl e => inl e | inr a =>
  match rd g s 1 parse_labels with inl e => inl e | inr b =>
  match rd g s 2 parse_images with inl e => inl e | inr c =>
  match rd g s 3 parse_labels with inl e => inl e | inr d =>
  if Nat.eqb (List.length a / 784) (List.length b) && Nat.eqb (List.length a / 784) (List.length c / 784) && Nat.eqb (List.length a / 784) (List.length d)
  then inl StackError else inr (mkData a b c d) end end end end.

Lemma read_rd : forall g i q k s, read_array g i q k s = match rd g s i q with inl e => (Raised e, k, s) | inr a => (Done a, k, s) end.
Proof. intros. unfold read_array, rd. destruct (temp s i) as [[b|d|]|]; try reflexivity. destruct (g b) as [c|]; [destruct (q c)|]; reflexivity. Qed.

Lemma convert_eq : forall g ok p k s, decompress_convert_save g ok p k s =
  match parsed g s with inl e => (Raised e, k, s) | inr d => save ok p d k s end.
Proof.
  intros g ok p k s. unfold decompress_convert_save, parsed, bind. rewrite read_rd.
  destruct (rd g s 0 parse_images) as [e|a]; [reflexivity|]. rewrite read_rd.
  destruct (rd g s 1 parse_labels) as [e|b]; [reflexivity|]. rewrite read_rd.
  destruct (rd g s 2 parse_images) as [e|c]; [reflexivity|]. rewrite read_rd.
  destruct (rd g s 3 parse_labels) as [e|d]; [reflexivity|]. unfold stack. destruct (_ && _); reflexivity.
Qed.

Lemma save_eq : forall ok p d k s, save ok p d k s =
  if ok (npy_name p) then
    match k with
    | None => (Done tt, None, set_disk (npy_name p) (Npy d) (set_disk (npy_name p) Part s))
    | Some 0 => (Crashed, Some 0, s)
    | Some 1 => (Crashed, Some 0, set_disk (npy_name p) Part s)
    | Some (S (S k')) => (Done tt, Some k', set_disk (npy_name p) (Npy d) (set_disk (npy_name p) Part s))
    end
  else (Raised NotFound, k, s).
Proof. intros. unfold save, write_disk, bind, change, raise. destruct (ok (npy_name p)); [|reflexivity]. destruct k as [[|[|k]]|]; reflexivity. Qed.

Lemma construct_eq : forall g ok p net k s, construct g ok p net k s =
  match disk s p with
  | Some (Npy d) => (Done d, k, s)
  | Some _ => (Raised BadFile, k, s)
  | None =>
    match download net k s with
    | (Done _, k', s') =>
      match parsed g s' with
      | inl e => (Raised e, k', s')
      | inr d =>
        match save ok p d k' s' with
        | (Done _, k'', s'') => load p k'' s''
        | (Raised e, k'', s'') => (Raised e, k'', s'')
        | (Crashed, k'', s'') => (Crashed, k'', s'')
        end
      end
    | (Raised e, k', s') => (Raised e, k', s')
    | (Crashed, k', s') => (Crashed, k', s')
    end
  end.
Proof.
  intros. unfold construct, bind, exists_file. destruct (disk s p) as [c|] eqn:D.
  - unfold load. rewrite D. destruct c; reflexivity.
  - destruct (download net k s) as [[[a|e|] k'] s']; try reflexivity. rewrite convert_eq. destruct (parsed g s') as [e|d]; reflexivity.
Qed.

Lemma set_disk_same : forall q c s, disk (set_disk q c s) q = Some c.
Proof. intros. cbn. now rewrite String.eqb_refl. Qed.
Lemma set_disk_other : forall q r c s, q <> r -> disk (set_disk q c s) r = disk s r.
Proof. intros q r c s H. cbn. destruct (String.eqb_spec r q); congruence. Qed.

(** what is parsed from honest files *)
Lemma parsed_done : forall g s d, parsed g s = inr d ->
  exists b0 b1 b2 b3 c0 c1 c2 c3, temp s 0 = Some (Raw b0) /\ temp s 1 = Some (Raw b1) /\ temp s 2 = Some (Raw b2) /\ temp s 3 = Some (Raw b3) /\
    g b0 = Some c0 /\ g b1 = Some c1 /\ g b2 = Some c2 /\ g b3 = Some c3 /\
    parse_images c0 = Some (d00 d) /\ parse_labels c1 = Some (d01 d) /\ parse_images c2 = Some (d10 d) /\ parse_labels c3 = Some (d11 d).
Proof.
  intros g s d H. unfold parsed in H.
  assert (forall i q a, rd g s i q = inr a -> exists b c, temp s i = Some (Raw b) /\ g b = Some c /\ q c = Some a) as R.
  { intros i q a E. unfold rd in E. destruct (temp s i) as [[b|x|]|]; try discriminate. destruct (g b) as [c|] eqn:G; [|discriminate].
    destruct (q c) as [l|] eqn:Q; [|discriminate]. injection E as <-. eauto. }
  destruct (rd g s 0 parse_images) as [e|a0] eqn:E0; [discriminate|].
  destruct (rd g s 1 parse_labels) as [e|a1] eqn:E1; [discriminate|].
  destruct (rd g s 2 parse_images) as [e|a2] eqn:E2; [discriminate|].
  destruct (rd g s 3 parse_labels) as [e|a3] eqn:E3; [discriminate|].
  apply R in E0, E1, E2, E3. destruct E0 as (b0 & c0 & ? & ? & ?). destruct E1 as (b1 & c1 & ? & ? & ?).
  destruct E2 as (b2 & c2 & ? & ? & ?). destruct E3 as (b3 & c3 & ? & ? & ?).
  assert (d = mkData a0 a1 a2 a3) as -> by (destruct (_ && _) in H; congruence).
  exists b0, b1, b2, b3, c0, c1, c2, c3. cbn. repeat split; assumption.
Qed.

Lemma parsed_honest : forall g m s, WellFormed m ->
  (forall i, i < 4 -> exists b, temp s i = Some (Raw b) /\ g b = Some (file_of m i)) ->
  parsed g s = inr (mkData (skipn 16 (images0 m)) (skipn 8 (labels0 m)) (skipn 16 (images1 m)) (skipn 8 (labels1 m))).
Proof.
  intros g m s W H. destruct (wf_parse m W) as (P0 & P1 & P2 & P3 & P4). unfold parsed, rd.
  destruct (H 0) as (b0 & -> & G0); [lia|]. destruct (H 1) as (b1 & -> & G1); [lia|].
  destruct (H 2) as (b2 & -> & G2); [lia|]. destruct (H 3) as (b3 & -> & G3); [lia|].
  cbn [file_of] in *. rewrite G0, P0, G1, P1, G2, P2, G3, P3.
  specialize (P4 None s). unfold stack in P4. destruct (_ && _); [discriminate|reflexivity].
Qed.

(** ** a download with every file available: eight changes of the file system *)
Lemma try_available_crash : forall i before b rest s k, (forall r, In r before -> r = NoUrl) ->
  try_mirrors i (before ++ Bytes b :: rest) (Some k) s =
  match k with
  | 0 => (Crashed, Some 0, s)
  | 1 => (Crashed, Some 0, set_temp i Part s)
  | S (S k') => (Done tt, Some k', set_temp i (Raw b) (set_temp i Part s))
  end.
Proof.
  intros i before b rest s k H. induction before as [|r before IH]; [destruct k as [|[|k]]; reflexivity|]. cbn [List.app try_mirrors].
  rewrite (H r (or_introl eq_refl)). apply IH. intros x Hx. apply H. now right.
Qed.

Lemma download_available : forall g m net s, Available g m net ->
  exists s', download net None s = (Done tt, None, s') /\ disk s' = disk s /\
    (forall i, i < 4 -> exists b, temp s' i = Some (Raw b) /\ g b = Some (file_of m i)) /\
    (forall k, download net (Some (8 + k)) s = (Done tt, Some k, s')).
Proof.
  intros g m net s H. destruct (H 0) as (p0 & b0 & r0 & N0 & H0 & G0); [lia|]. destruct (H 1) as (p1 & b1 & r1 & N1 & H1 & G1); [lia|].
  destruct (H 2) as (p2 & b2 & r2 & N2 & H2 & G2); [lia|]. destruct (H 3) as (p3 & b3 & r3 & N3 & H3 & G3); [lia|].
  unfold download, bind. rewrite N0, N1, N2, N3. eexists. rewrite !try_available by assumption. split; [reflexivity|].
  split; [reflexivity|]. split.
  - intros i Hi. destruct i as [|[|[|[|i]]]]; [exists b0|exists b1|exists b2|exists b3|lia]; (split; [reflexivity|assumption]).
  - intros k. cbn [Nat.add]. repeat (rewrite try_available_crash by assumption; cbv iota beta). reflexivity.
Qed.

Lemma download_early : forall g m net s k, Available g m net -> k < 8 ->
  exists k' s', download net (Some k) s = (Crashed, k', s').
Proof.
  intros g m net s k H Hk. destruct (H 0) as (p0 & b0 & r0 & N0 & H0 & _); [lia|]. destruct (H 1) as (p1 & b1 & r1 & N1 & H1 & _); [lia|].
  destruct (H 2) as (p2 & b2 & r2 & N2 & H2 & _); [lia|]. destruct (H 3) as (p3 & b3 & r3 & N3 & H3 & _); [lia|].
  unfold download, bind. rewrite N0, N1, N2, N3.
  do 8 (destruct k as [|k]; [repeat (rewrite try_available_crash by assumption; cbv iota beta); eauto|]). lia.
Qed.

(** ** the download ends with URLError *)
Lemma try_answers : forall i rs k s,
  (exists e k' s', try_mirrors i rs k s = (Raised e, k', s') /\ (e = UrlError <-> forall r, In r rs -> r = NoUrl)) \/
  (exists k' s', try_mirrors i rs k s = (Crashed, k', s')) \/
  (exists s', try_mirrors i rs k s = (Done tt, match k with Some n => Some (n - 2) | None => None end, s')).
Proof.
  intros i rs k s. induction rs as [|[| | |b] rs IH]; cbn [try_mirrors].
  - left. exists UrlError, k, s. split; [reflexivity|]. split; [intros _ r []|reflexivity].
  - destruct IH as [(e & k' & s' & E & I)|[X|X]]; [left|auto|auto]. exists e, k', s'. split; [exact E|]. rewrite I.
    split; [intros H r [<-|Hr]; auto|intros H r Hr; apply H; now right].
  - left. exists OtherNetError, k, s. split; [reflexivity|]. split; [discriminate|]. intros H. specialize (H NoAnswer (or_introl eq_refl)). discriminate.
  - unfold bind. destruct k as [[|k]|]; [right; left; do 2 eexists; reflexivity| |]; left; do 3 eexists; (split; [reflexivity|]); (split; [discriminate|]);
      intros H; specialize (H NoRead (or_introl eq_refl)); discriminate.
  - unfold write_temp, bind. destruct k as [[|[|k]]|]; [right; left; do 2 eexists; reflexivity|right; left; do 2 eexists; reflexivity| |]; right; right; eexists; cbn; rewrite ?Nat.sub_0_r; reflexivity.
Qed.

Lemma try_none : forall i rs s r k s', try_mirrors i rs None s = (r, k, s') -> k = None /\ r <> Crashed.
Proof.
  intros i rs. induction rs as [|[| | |b] rs IH]; intros s r k s' H; cbn in H.
  - injection H as <- <- _. split; [reflexivity|discriminate].
  - eapply IH; eauto.
  - injection H as <- <- _. split; [reflexivity|discriminate].
  - injection H as <- <- _. split; [reflexivity|discriminate].
  - injection H as <- <- _. split; [reflexivity|discriminate].
Qed.

Lemma parsed_not_url : forall g s, parsed g s <> inl UrlError.
Proof.
  intros g s. assert (forall i q, rd g s i q <> inl UrlError) as R.
  { intros i q. unfold rd. destruct (temp s i) as [[b|x|]|]; try discriminate. destruct (g b) as [c|]; [destruct (q c)|]; discriminate. }
  unfold parsed.
  destruct (rd g s 0 parse_images) as [e|a] eqn:E0; [intros X; apply (R 0 parse_images); congruence|].
  destruct (rd g s 1 parse_labels) as [e|b] eqn:E1; [intros X; apply (R 1 parse_labels); congruence|].
  destruct (rd g s 2 parse_images) as [e|c] eqn:E2; [intros X; apply (R 2 parse_images); congruence|].
  destruct (rd g s 3 parse_labels) as [e|d] eqn:E3; [intros X; apply (R 3 parse_labels); congruence|destruct (_ && _); discriminate].
Qed.
