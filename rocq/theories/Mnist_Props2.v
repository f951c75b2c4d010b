(** C104 continued: the pixels and labels; when the data set is broken for good. *)
From Coq Require Import List Bool Arith String ZArith Lia.
From Verif Require Import Mnist_Model Mnist_Spec Mnist_Proofs Mnist_Props.
Import ListNotations.

Lemma nth_skipn : forall n (l : bytes) i, nth i (skipn n l) 0 = nth (n + i) l 0.
Proof. induction n as [|n IH]; intros [|x l] i; cbn; auto. destruct i; reflexivity. Qed.

(** pixel j of image i, and label i, of the training set first, then of the test set *)
Theorem pixels_and_labels : forall m d, WellFormed m -> Published m d ->
  (exists l, images d = Some l /\ (Z.of_nat (List.length l) = 70000 * 784)%Z /\
    (forall i j, (Z.of_nat i < 60000)%Z -> j < 784 -> nth (784 * i + j) l 0 = nth (16 + (784 * i + j)) (images0 m) 0) /\
    (forall i j, (Z.of_nat i < 10000)%Z -> j < 784 ->
       nth (784 * (Z.to_nat 60000 + i) + j) l 0 = nth (16 + (784 * i + j)) (images1 m) 0)) /\
  (Z.of_nat (List.length (labels d)) = 70000)%Z /\
  (forall i, (Z.of_nat i < 60000)%Z -> nth i (labels d) 0 = nth (8 + i) (labels0 m) 0) /\
  (forall i, (Z.of_nat i < 10000)%Z -> nth (Z.to_nat 60000 + i) (labels d) 0 = nth (8 + i) (labels1 m) 0).
Proof.
  intros m d [A B C D] (E1 & E2 & E3 & E4).
  assert (Z.of_nat (List.length (d00 d)) = 60000 * 784)%Z as L0 by (rewrite E1, skipn_length; lia).
  assert (Z.of_nat (List.length (d10 d)) = 10000 * 784)%Z as L1 by (rewrite E3, skipn_length; lia).
  assert (Z.of_nat (List.length (d01 d)) = 60000)%Z as L2 by (rewrite E2, skipn_length; lia).
  assert (Z.of_nat (List.length (d11 d)) = 10000)%Z as L3 by (rewrite E4, skipn_length; lia).
  split; [|split; [|split]].
  - exists (d00 d ++ d10 d). unfold images, train_images, test_images. rewrite L0, L1. split; [reflexivity|].
    split; [rewrite app_length; lia|]. split.
    + intros i j Hi Hj. rewrite app_nth1 by lia. rewrite E1. apply nth_skipn.
    + intros i j Hi Hj. assert (784 * (Z.to_nat 60000 + i) + j = List.length (d00 d) + (784 * i + j)) as -> by lia.
      rewrite app_nth2 by lia. rewrite E3. rewrite nth_skipn. f_equal. lia.
  - unfold labels, train_labels, test_labels. rewrite app_length. lia.
  - intros i Hi. unfold labels, train_labels. rewrite app_nth1 by lia. rewrite E2. apply nth_skipn.
  - intros i Hi. unfold labels, train_labels, test_labels. assert (Z.to_nat 60000 = List.length (d01 d)) as -> by lia.
    rewrite app_nth2 by lia. rewrite E4, nth_skipn. f_equal. lia.
Qed.

(** a process that is killed while the data file is written leaves a file that can never be loaded *)
Theorem killed_while_saving : forall g ok p m net s k, WellFormed m -> IsNpy p -> ok p = true -> Available g m net -> disk s p = None ->
  (disk (snd (construct g ok p net (Some k) s)) p = Some Part <-> k = 9) /\
  (k < 9 -> disk (snd (construct g ok p net (Some k) s)) p = None) /\
  (10 <= k -> exists d, outcome (construct g ok p net (Some k) s) = Done d /\ Published m d /\
     disk (snd (construct g ok p net (Some k) s)) p = Some (Npy d)).
Proof.
  intros g ok p m net s k W N O A D. apply npy_name_id in N. rewrite construct_eq, D.
  destruct (download_available g m net s A) as (s' & _ & K & T & E).
  destruct (Nat.lt_ge_cases k 8) as [Hk|Hk].
  - destruct (download_early g m net s k A Hk) as (k' & s1 & E1). pose proof (download_keeps net (Some k) s) as X. rewrite E1 in X |- *.
    cbn in X |- *. rewrite X, D. split; [|split; [auto|intros; lia]]. split; [discriminate|intros ->; lia].
  - replace k with (8 + (k - 8)) by lia. rewrite E, (parsed_honest g m s' W T), save_eq, N, O. unfold load.
    destruct (k - 8) as [|[|n]] eqn:Ek.
    + cbn. rewrite K, D. split; [split; [discriminate|intros; lia]|split; [auto|intros; lia]].
    + cbn [snd outcome fst]. rewrite set_disk_same. split; [split; [intros; lia|reflexivity]|split; intros; lia].
    + rewrite set_disk_same. cbn [snd outcome fst]. rewrite set_disk_same. split; [split; [discriminate|intros; lia]|split; [intros; lia|]]. intros _.
      eexists. split; [reflexivity|]. split; [now apply published_eq|reflexivity].
Qed.

Theorem broken_for_good : forall g ok p l s, disk s p = Some Part ->
  disk (history g ok p l s) p = Some Part /\ forall net k, outcome (construct g ok p net k (history g ok p l s)) = Raised BadFile.
Proof.
  intros g ok p l. induction l as [|[net k] l IH]; intros s D.
  - split; [exact D|]. intros net k. cbn [history fold_left]. now rewrite construct_eq, D.
  - apply (IH (after g ok p s (net, k))). unfold after. cbn [fst snd]. now rewrite construct_eq, D.
Qed.

(** a data path that does not end in .npy: never constructed, downloaded every time *)
Theorem other_suffix_never : forall g ok p l s, ~ IsNpy p -> disk s p = None ->
  disk (history g ok p l s) p = None /\ forall net k d, outcome (construct g ok p net k (history g ok p l s)) <> Done d.
Proof.
  intros g ok p l s N D.
  assert (npy_name p <> p) as NE by (intros X; apply N; now apply npy_name_id).
  assert (forall s net k, disk s p = None -> disk (snd (construct g ok p net k s)) p = None /\ forall d, outcome (construct g ok p net k s) <> Done d) as ONE.
  { clear l s D. intros s net k D. rewrite construct_eq, D. unfold outcome.
    pose proof (download_keeps net k s) as K. destruct (download net k s) as [[[x|e|] k'] s']; cbn in K.
    2,3: cbn; rewrite K; (split; [exact D|discriminate]).
    destruct (parsed g s') as [e|d]; [cbn; rewrite K; split; [exact D|discriminate]|]. rewrite save_eq.
    destruct (ok (npy_name p)); [|cbn; rewrite K; split; [exact D|discriminate]].
    destruct k' as [[|[|n]]|]; unfold load; cbn [fst snd]; rewrite ?(set_disk_other _ _ _ _ NE), ?K, ?D; cbn [fst snd];
      rewrite ?(set_disk_other _ _ _ _ NE), ?K, ?D; (split; [reflexivity|discriminate]). }
  assert (disk (history g ok p l s) p = None) as H.
  { revert s D. induction l as [|[net k] l IH]; intros s D; [exact D|]. apply (IH (after g ok p s (net, k))). apply ONE, D. }
  split; [exact H|]. intros net k. now apply ONE.
Qed.
(** ... although the data is there, under another name *)
Theorem other_suffix_saved_elsewhere : forall g ok p m net s, WellFormed m -> ~ IsNpy p -> ok (npy_name p) = true -> Available g m net -> disk s p = None ->
  outcome (construct g ok p net None s) = Raised NotFound /\
  exists d, disk (snd (construct g ok p net None s)) (npy_name p) = Some (Npy d) /\ Published m d.
Proof.
  intros g ok p m net s W N O A D. assert (npy_name p <> p) as NE by (intros X; apply N; now apply npy_name_id).
  rewrite construct_eq, D. destruct (download_available g m net s A) as (s' & -> & K & T & _).
  rewrite (parsed_honest g m s' W T), save_eq, O. unfold load, outcome. rewrite !(set_disk_other _ _ _ _ NE), K, D. split; [reflexivity|].
  eexists. cbn [snd]. rewrite set_disk_same. split; [reflexivity|now apply published_eq].
Qed.

(** only the first mirror that answers counts *)
Theorem bad_first_answer : forall g ok p net s before b rest, disk s p = None ->
  net 0 = before ++ Bytes b :: rest -> (forall r, In r before -> r = NoUrl) -> g b = None ->
  (forall i, 0 < i < 4 -> exists x y r, net i = y ++ Bytes x :: r /\ forall z, In z y -> z = NoUrl) ->
  outcome (construct g ok p net None s) = Raised BadGzip.
Proof.
  intros g ok p net s before b rest D N0 B0 G R.
  destruct (R 1) as (x1 & y1 & r1 & N1 & B1); [lia|]. destruct (R 2) as (x2 & y2 & r2 & N2 & B2); [lia|]. destruct (R 3) as (x3 & y3 & r3 & N3 & B3); [lia|].
  rewrite construct_eq, D. unfold download, bind. rewrite N0, N1, N2, N3, !try_available by assumption.
  unfold parsed, rd. rewrite !set_temp_other, set_temp_same by discriminate. rewrite G. reflexivity.
Qed.

Lemma killed_once : forall g ok p m net net2 k s, WellFormed m -> IsNpy p -> ok p = true -> Available g m net -> disk s p = None ->
  outcome (construct g ok p net2 k (history g ok p [(net, Some 9)] s)) = Raised BadFile.
Proof.
  intros g ok p m net net2 k s W N O A D. cbn [history fold_left]. unfold after. cbn [fst snd].
  destruct (broken_for_good g ok p [] (snd (construct g ok p net (Some 9) s))) as [_ B]; [|apply B].
  now apply (killed_while_saving g ok p m net s 9 W N O A D).
Qed.
