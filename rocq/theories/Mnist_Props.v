(** C104: the MNIST data set is the published one, whatever happens during the download. *)
From Coq Require Import List Bool Arith String ZArith Lia.
From Verif Require Import Mnist_Model Mnist_Spec Mnist_Proofs.
Import ListNotations.

(** ** what a MnistDataset holds *)
Lemma published_eq : forall m d, Published m d <->
  d = mkData (skipn 16 (images0 m)) (skipn 8 (labels0 m)) (skipn 16 (images1 m)) (skipn 8 (labels1 m)).
Proof.
  intros m [a b c d]. unfold Published. cbn. split; [intros (-> & -> & -> & ->); reflexivity|intros H; injection H; auto].
Qed.

Lemma honest_parsed : forall g m net s k x k' s' d, WellFormed m -> Honest g m net ->
  download net k s = (Done x, k', s') -> parsed g s' = inr d -> Published m d.
Proof.
  intros g m net s k x k' s' d W H E P. apply download_done in E. destruct E as [_ E]. apply published_eq.
  rewrite (parsed_honest g m s' W) in P; [injection P; auto|].
  intros i Hi. destruct (E i Hi) as (b & Hb & T). exists b. split; [exact T|]. exact (H i (Bytes b) Hi Hb).
Qed.

(** what there may be at the place of the data file *)
Definition Sane (m : mnist) (p : string) (s : fs) : Prop :=
  disk s p = None \/ disk s p = Some Part \/ exists d, disk s p = Some (Npy d) /\ Published m d.

Lemma construct_sane : forall g ok p m net k s, WellFormed m -> Honest g m net -> Sane m p s ->
  Sane m p (snd (construct g ok p net k s)) /\
  (k = None -> disk s p <> Some Part -> disk (snd (construct g ok p net k s)) p <> Some Part) /\
  forall d, outcome (construct g ok p net k s) = Done d -> Published m d.
Proof.
  intros g ok p m net k s W H HS. rewrite construct_eq. unfold outcome.
  destruct (disk s p) as [[b|d|]|] eqn:D.
  - destruct HS as [X|[X|(d & X & _)]]; congruence.
  - destruct HS as [X|[X|(d' & X & Y)]]; try congruence. cbn. split; [right; right; exists d'; split; congruence|].
    split; [congruence|]. intros d0 E. injection E as <-. congruence.
  - cbn. split; [right; left; exact D|]. split; [congruence|discriminate].
  - destruct (download net k s) as [[[x|e|] k'] s'] eqn:E.
    2,3: pose proof (download_keeps net k s) as K; rewrite E in K; cbn in K |- *; rewrite K; (split; [left; cbn; now rewrite K|split; [congruence|discriminate]]).
    pose proof (download_done _ _ _ _ _ _ E) as [K _].
    destruct (parsed g s') as [e|d] eqn:P; [cbn; rewrite K, D; split; [left; cbn; now rewrite K|split; [congruence|discriminate]]|].
    pose proof (honest_parsed _ _ _ _ _ _ _ _ _ W H E P) as HP. rewrite save_eq.
    destruct (ok (npy_name p)); [|cbn; rewrite K, D; split; [left; cbn; now rewrite K|split; [congruence|discriminate]]].
    assert (forall c k2 s2, s2 = set_disk (npy_name p) (Npy d) (set_disk (npy_name p) Part s') ->
      Sane m p (snd (load p k2 s2)) /\ (c = @None nat -> @None file <> Some Part -> disk (snd (load p k2 s2)) p <> Some Part) /\
      forall d0, fst (fst (load p k2 s2)) = Done d0 -> Published m d0) as L.
    { intros c k2 s2 ->. rewrite load_pure. unfold load. destruct (string_dec (npy_name p) p) as [Ep|Np].
      - rewrite Ep, set_disk_same. split; [right; right; exists d; split; [rewrite set_disk_same; reflexivity|exact HP]|].
        split; [congruence|]. cbn. intros d0 X. injection X as <-. exact HP.
      - rewrite !set_disk_other by exact Np. rewrite K, D. split; [left; rewrite !set_disk_other by exact Np; congruence|].
        split; [congruence|discriminate]. }
    destruct k' as [[|[|n]]|].
    + cbn. rewrite K, D. split; [left; cbn; now rewrite K|split; [congruence|discriminate]].
    + split; [|split; [|discriminate]].
      * cbn [snd]. unfold Sane. destruct (string_dec (npy_name p) p) as [Ep|Np]; [rewrite Ep, set_disk_same; auto|].
        rewrite set_disk_other by exact Np. left. congruence.
      * intros ->. exfalso. unfold download, bind in E. clear - E.
        assert (forall i rs s x k' s', try_mirrors i rs None s = (Done x, k', s') -> k' = None) as T.
        { intros i rs s0 x0 k0 s0' X. destruct (try_answers i rs None s0) as [(e & ? & ? & Y & _)|[(? & ? & Y)|(? & Y)]]; congruence. }
        destruct (try_mirrors 0 (net 0) None s) as [[[?|?|] ?] ?] eqn:E0; try discriminate. apply T in E0. subst.
        destruct (try_mirrors 1 (net 1) None f) as [[[?|?|] ?] ?] eqn:E1; try discriminate. apply T in E1. subst.
        destruct (try_mirrors 2 (net 2) None f0) as [[[?|?|] ?] ?] eqn:E2; try discriminate. apply T in E2. subst.
        apply T in E. discriminate.
    + now apply L.
    + now apply L.
Qed.

Lemma history_sane : forall g ok p m l s, WellFormed m -> (forall a, In a l -> Honest g m (fst a)) -> Sane m p s ->
  Sane m p (history g ok p l s) /\
  ((forall a, In a l -> snd a = None) -> disk s p <> Some Part -> disk (history g ok p l s) p <> Some Part).
Proof.
  intros g ok p m l. induction l as [|[net k] l IH]; intros s W H HS; [split; auto|].
  destruct (construct_sane g ok p m net k s W (H (net, k) (or_introl eq_refl)) HS) as (A & B & _).
  destruct (IH (snd (construct g ok p net k s)) W (fun a Ha => H a (or_intror Ha)) A) as [C D].
  split; [exact C|]. intros HN HP. apply D; [intros a Ha; apply HN; now right|]. apply B; [exact (HN (net, k) (or_introl eq_refl))|exact HP].
Qed.

(** with honest mirrors a MnistDataset that is constructed holds the published data, after any history of attempts, failed,
    killed or not *)
Theorem dataset_is_published : forall g ok p m l s net k d, WellFormed m -> disk s p = None ->
  (forall a, In a l -> Honest g m (fst a)) -> Honest g m net ->
  outcome (construct g ok p net k (history g ok p l s)) = Done d -> Published m d.
Proof.
  intros g ok p m l s net k d W D HL HN E.
  destruct (history_sane g ok p m l s W HL (or_introl D)) as [A _].
  destruct (construct_sane g ok p m net k _ W HN A) as (_ & _ & B). now apply B.
Qed.

(** ** when it can be constructed *)
Lemma construct_fresh : forall g ok p m net s, WellFormed m -> IsNpy p -> ok p = true -> Available g m net -> disk s p = None ->
  exists d s', construct g ok p net None s = (Done d, None, s') /\ Published m d /\ disk s' p = Some (Npy d).
Proof.
  intros g ok p m net s W N O A D. apply npy_name_id in N. rewrite construct_eq, D.
  destruct (download_available g m net s A) as (s' & -> & _ & T & _). rewrite (parsed_honest g m s' W T), save_eq, N, O.
  do 2 eexists. unfold load. rewrite set_disk_same. split; [reflexivity|]. split; [now apply published_eq|apply set_disk_same].
Qed.

(** after any history in which no process was killed, an attempt with an available file each succeeds *)
Theorem retry_succeeds_partial : forall g ok p m l s net, WellFormed m -> IsNpy p -> ok p = true -> disk s p = None ->
  (forall a, In a l -> Honest g m (fst a) /\ snd a = None) -> Available g m net ->
  exists d, outcome (construct g ok p net None (history g ok p l s)) = Done d /\ Published m d.
Proof.
  intros g ok p m l s net W N O D HL A.
  destruct (history_sane g ok p m l s W (fun a Ha => proj1 (HL a Ha)) (or_introl D)) as [X Y].
  specialize (Y (fun a Ha => proj2 (HL a Ha))). rewrite D in Y. specialize (Y (fun E => eq_ind (@None file) (fun o => match o with None => True | _ => False end) I _ E)).
  destruct X as [X|[X|(d & X & Z)]]; [|contradiction|].
  - destruct (construct_fresh g ok p m net _ W N O A X) as (d & s' & E & P & _). exists d. rewrite E. split; [reflexivity|exact P].
  - exists d. rewrite construct_eq, X. split; [reflexivity|exact Z].
Qed.

(** once it has been constructed, the network is not needed any more *)
Theorem offline_afterwards : forall g ok p net k s d k' s', construct g ok p net k s = (Done d, k', s') ->
  forall net2 k2, construct g ok p net2 k2 s' = (Done d, k2, s').
Proof.
  intros g ok p net k s d k' s' H net2 k2.
  assert (disk s' p = Some (Npy d)) as D.
  { rewrite construct_eq in H. destruct (disk s p) as [[b|x|]|] eqn:D; try discriminate; [injection H as <- _ <-; exact D|].
    destruct (download net k s) as [[[x|e|] k1] s1]; try discriminate. destruct (parsed g s1) as [e|x1]; [discriminate|].
    destruct (save ok p x1 k1 s1) as [[[y|e|] k3] s3]; try discriminate. unfold load in H.
    destruct (disk s3 p) as [[b|z|]|] eqn:D3; try discriminate. injection H as <- _ <-. exact D3. }
  rewrite construct_eq, D. reflexivity.
Qed.

(** what was left in the temp directory does not matter *)
Theorem leftovers_irrelevant : forall g ok p net s t, outcome (construct g ok p net None s) = outcome (construct g ok p net None (mkFs t (disk s))).
Proof.
  intros g ok p net s t.
  (* two states that differ only in the temp files [i ..] *)
  assert (forall i rs a b, disk a = disk b -> 
    exists r a' b', try_mirrors i rs None a = (r, None, a') /\ try_mirrors i rs None b = (r, None, b') /\ disk a' = disk b' /\
      (r = Done tt -> temp a' i = temp b' i) /\ (forall j, j <> i -> temp a' j = temp a j /\ temp b' j = temp b j)) as T.
  { intros i rs. induction rs as [|[| | |x] rs IH]; intros a b D; cbn [try_mirrors].
    - exists (Raised UrlError), a, b. repeat split; auto. discriminate.
    - now apply IH.
    - exists (Raised OtherNetError), a, b. repeat split; auto. discriminate.
    - exists (Raised OtherNetError), (set_temp i Part a), (set_temp i Part b). repeat split; auto; [discriminate| |]; now apply set_temp_other; apply not_eq_sym.
    - exists (Done tt), (set_temp i (Raw x) (set_temp i Part a)), (set_temp i (Raw x) (set_temp i Part b)). repeat split; auto.
      + intros _. now rewrite !set_temp_same.
      + rewrite !set_temp_other by now apply not_eq_sym. reflexivity.
      + rewrite !set_temp_other by now apply not_eq_sym. reflexivity. }
  set (s2 := mkFs t (disk s)).
  assert (exists r a b, download net None s = (r, None, a) /\ download net None s2 = (r, None, b) /\ disk a = disk b /\
    (r = Done tt -> forall i, i < 4 -> temp a i = temp b i)) as DL.
  { unfold download, bind. destruct (T 0 (net 0) s s2 eq_refl) as (r0 & a0 & b0 & -> & -> & D0 & S0 & O0).
    destruct r0 as [[]|e|]; [|exists (Raised e), a0, b0; repeat split; auto; discriminate|exists Crashed, a0, b0; repeat split; auto; discriminate].
    destruct (T 1 (net 1) a0 b0 D0) as (r1 & a1 & b1 & -> & -> & D1 & S1 & O1).
    destruct r1 as [[]|e|]; [|exists (Raised e), a1, b1; repeat split; auto; discriminate|exists Crashed, a1, b1; repeat split; auto; discriminate].
    destruct (T 2 (net 2) a1 b1 D1) as (r2 & a2 & b2 & -> & -> & D2 & S2 & O2).
    destruct r2 as [[]|e|]; [|exists (Raised e), a2, b2; repeat split; auto; discriminate|exists Crashed, a2, b2; repeat split; auto; discriminate].
    destruct (T 3 (net 3) a2 b2 D2) as (r3 & a3 & b3 & -> & -> & D3 & S3 & O3).
    exists r3, a3, b3. repeat split; auto. intros ->. specialize (S0 eq_refl). specialize (S1 eq_refl). specialize (S2 eq_refl). specialize (S3 eq_refl).
    intros i Hi. assert (i = 0 \/ i = 1 \/ i = 2 \/ i = 3) as [->|[->|[->| ->]]] by lia.
    - destruct (O3 0) as [-> ->]; [lia|]. destruct (O2 0) as [-> ->]; [lia|]. destruct (O1 0) as [-> ->]; [lia|]. exact S0.
    - destruct (O3 1) as [-> ->]; [lia|]. destruct (O2 1) as [-> ->]; [lia|]. exact S1.
    - destruct (O3 2) as [-> ->]; [lia|]. exact S2.
    - exact S3. }
  rewrite !construct_eq. change (disk s2 p) with (disk s p). unfold outcome.
  destruct (disk s p) as [[b|d|]|]; try reflexivity. destruct DL as (r & a & b & -> & -> & Dab & Tab).
  destruct r as [[]|e|]; try reflexivity. specialize (Tab eq_refl).
  assert (parsed g a = parsed g b) as ->.
  { unfold parsed, rd. rewrite !Tab by lia. reflexivity. }
  destruct (parsed g b) as [e|d]; [reflexivity|]. rewrite !save_eq. destruct (ok (npy_name p)); [|reflexivity].
  unfold load. cbn [disk set_disk]. rewrite Dab.
  destruct (String.eqb p (npy_name p)); [reflexivity|]. destruct (disk b p) as [[x|x|]|]; reflexivity.
Qed.

(** the constructor ends with URLError exactly if there is no data file, and some file is not to be had from any mirror while the
    files before it were *)
Theorem url_error_iff : forall g ok p net s, outcome (construct g ok p net None s) = Raised UrlError <->
  disk s p = None /\ exists i, i < 4 /\ (forall r, In r (net i) -> r = NoUrl) /\
    forall j, j < i -> exists before b rest, net j = before ++ Bytes b :: rest /\ forall r, In r before -> r = NoUrl.
Proof.
  intros g ok p net s. rewrite construct_eq. unfold outcome.
  assert (forall i s, exists r s', try_mirrors i (net i) None s = (r, None, s') /\
    (r = Raised UrlError <-> (forall x, In x (net i) -> x = NoUrl)) /\
    (r = Done tt <-> exists before b rest, net i = before ++ Bytes b :: rest /\ forall x, In x before -> x = NoUrl) /\
    r <> Crashed) as T.
  { intros i s0. destruct (try_mirrors i (net i) None s0) as [[r k] s'] eqn:E. exists r, s'.
    destruct (try_none _ _ _ _ _ _ E) as [-> NC].
    split; [reflexivity|]. split; [|split].
    - destruct (try_answers i (net i) None s0) as [(e & ? & ? & Y & I)|[(? & ? & Y)|(? & Y)]]; rewrite E in Y; cbn in Y;
        [assert (r = Raised e) as -> by congruence|exfalso; congruence|assert (r = Done tt) as -> by congruence].
      + split; [intros X; apply I; congruence|intros X; f_equal; now apply I].
      + split; [discriminate|]. intros X. exfalso. apply try_done in E. destruct E as (b & Hb & _). specialize (X _ Hb). discriminate.
    - split.
      + intros ->. apply try_done in E. destruct E as (b & _ & _ & before & rest & X & Y). eauto.
      + intros (before & b & rest & X & Y). rewrite X, try_available in E by exact Y. congruence.
    - exact NC. }
  destruct (disk s p) as [[b|d|]|] eqn:D; cbn [fst].
  1-3: split; [discriminate|intros [X _]; discriminate].
  assert (forall s' , fst (fst (match parsed g s' with inl e => (Raised e, @None nat, s') | inr d =>
     match save ok p d None s' with (Done _, k'', s'') => load p k'' s'' | (Raised e, k'', s'') => (Raised e, k'', s'') | (Crashed, k'', s'') => (Crashed, k'', s'') end end)) <> Raised UrlError) as NU.
  { intros s'. destruct (parsed g s') as [e|d] eqn:P.
    - cbn. intros X. injection X as ->. exact (parsed_not_url _ _ P).
    - rewrite save_eq. destruct (ok (npy_name p)); [|cbn; discriminate]. unfold load.
      match goal with |- context [disk ?a p] => destruct (disk a p) as [[?|?|]|] end; cbn; discriminate. }
  unfold download, bind. destruct (T 0 s) as (r0 & a0 & -> & U0 & V0 & C0).
  destruct r0 as [[]|e|]; [|cbn [fst]|contradiction].
  2:{ split.
      - intros X. injection X as ->. split; [reflexivity|]. exists 0. split; [lia|]. split; [now apply U0|intros j Hj; lia].
      - intros (_ & i & Hi & Hn & Hb). destruct i as [|i]; [apply U0 in Hn; congruence|]. exfalso. assert (@Raised unit e = Done tt) by (apply V0, Hb; lia). discriminate. }
  destruct (T 1 a0) as (r1 & a1 & -> & U1 & V1 & C1).
  destruct r1 as [[]|e|]; [|cbn [fst]|contradiction].
  2:{ split.
      - intros X. injection X as ->. split; [reflexivity|]. exists 1. split; [lia|]. split; [now apply U1|intros j Hj]. assert (j = 0) as -> by lia. now apply V0.
      - intros (_ & i & Hi & Hn & Hb). destruct i as [|[|i]]; [apply U0 in Hn; discriminate|apply U1 in Hn; congruence|].
        exfalso. assert (@Raised unit e = Done tt) by (apply V1, Hb; lia). discriminate. }
  destruct (T 2 a1) as (r2 & a2 & -> & U2 & V2 & C2).
  destruct r2 as [[]|e|]; [|cbn [fst]|contradiction].
  2:{ split.
      - intros X. injection X as ->. split; [reflexivity|]. exists 2. split; [lia|]. split; [now apply U2|intros j Hj].
        assert (j = 0 \/ j = 1) as [->| ->] by lia; [now apply V0|now apply V1].
      - intros (_ & i & Hi & Hn & Hb). destruct i as [|[|[|i]]]; [apply U0 in Hn; discriminate|apply U1 in Hn; discriminate|apply U2 in Hn; congruence|].
        exfalso. assert (@Raised unit e = Done tt) by (apply V2, Hb; lia). discriminate. }
  destruct (T 3 a2) as (r3 & a3 & -> & U3 & V3 & C3).
  destruct r3 as [[]|e|]; [|cbn [fst]|contradiction].
  - split; [intros X; exfalso; revert X; apply NU|]. intros (_ & i & Hi & Hn & _). exfalso.
    assert (i = 0 \/ i = 1 \/ i = 2 \/ i = 3) as [->|[->|[->| ->]]] by lia; [apply U0 in Hn|apply U1 in Hn|apply U2 in Hn|apply U3 in Hn]; discriminate.
  - split.
    + intros X. injection X as ->. split; [reflexivity|]. exists 3. split; [lia|]. split; [now apply U3|intros j Hj].
      assert (j = 0 \/ j = 1 \/ j = 2) as [->|[->| ->]] by lia; [now apply V0|now apply V1|now apply V2].
    + intros (_ & i & Hi & Hn & Hb). assert (i = 0 \/ i = 1 \/ i = 2 \/ i = 3) as [->|[->|[->| ->]]] by lia;
        [apply U0 in Hn; discriminate|apply U1 in Hn; discriminate|apply U2 in Hn; discriminate|apply U3 in Hn; congruence].
Qed.
