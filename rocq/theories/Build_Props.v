(** C89: a process model starts with the initial values of its process. *)
From Coq Require Import List Arith Bool ZArith QArith Qabs String Lia.
From Verif Require Import VPorts_Model VPorts_Props Build_Model Build_Spec Build_Proofs.
Import ListNotations.
Open Scope nat_scope.

Lemma io_iff C p m : NoDup (map fst C) -> (exists m', build_io C p m = Some m') <-> exists t, declared C (pname p) t /\ (cls t = CPyIn \/ cls t = CPyOut).
Proof.
  intros HN. unfold build_io, declared. pose proof (lookup_in (pname p) C HN) as L. destruct (lookup (pname p) C) as [[t|]|].
  - assert (In (pname p, MType t) C) as Ht by (apply L; reflexivity). split.
    + intros [m' H]. exists t. split; [auto|]. destruct (cls t); try discriminate H; auto.
    + intros (t' & H & Hc). apply L in H. injection H as <-. destruct Hc as [-> | ->]; eauto.
  - split; [intros [m' H]; discriminate H|]. intros (t & H & _). apply L in H. discriminate H.
  - split; [intros [m' H]; discriminate H|]. intros (t & H & _). apply L in H. discriminate H.
Qed.
Lemma ref_iff C p m : NoDup (map fst C) -> (exists m', build_ref C p m = Some m') <-> exists t, declared C (pname p) t /\ cls t = CPyRef.
Proof.
  intros HN. unfold build_ref, declared. pose proof (lookup_in (pname p) C HN) as L. destruct (lookup (pname p) C) as [[t|]|].
  - assert (In (pname p, MType t) C) as Ht by (apply L; reflexivity). split.
    + intros [m' H]. exists t. split; [auto|]. destruct (cls t); try discriminate H; auto.
    + intros (t' & H & Hc). apply L in H. injection H as <-. rewrite Hc. eauto.
  - split; [intros [m' H]; discriminate H|]. intros (t & H & _). apply L in H. discriminate H.
  - split; [intros [m' H]; discriminate H|]. intros (t & H & _). apply L in H. discriminate H.
Qed.
Lemma var_iff C v m : NoDup (map fst C) -> (exists m', build_var C v m = Some m') <-> exists t, declared C (vname v) t /\ initialisable t v.
Proof.
  intros HN. unfold build_var, declared. pose proof (lookup_in (vname v) C HN) as L. destruct (lookup (vname v) C) as [[t|]|].
  - assert (In (vname v, MType t) C) as Ht by (apply L; reflexivity). pose proof (var_value_iff t v) as VI. split.
    + intros [m' H]. exists t. split; [auto|]. apply VI. destruct (var_value t v); [eauto|discriminate H].
    + intros (t' & H & Hc). apply L in H. injection H as <-. apply VI in Hc. destruct Hc as [x ->]. eauto.
  - split; [intros [m' H]; discriminate H|]. intros (t & H & _). apply L in H. discriminate H.
  - split; [intros [m' H]; discriminate H|]. intros (t & H & _). apply L in H. discriminate H.
Qed.
Lemma varport_iff p m : (exists m', build_varport p m = Some m') <-> True.
Proof. split; [auto|]. intros _. unfold build_varport. destruct (kind p) as [| | |[|]]; eauto. Qed.
Lemma configs_iff ps k : (exists oc, out_configs k ps = Some oc) <-> forall i p, nth_error ps i = Some p -> configs p = [] \/ k + i < List.length (configs p).
Proof.
  revert k. induction ps as [|p ps IH]; intros k; cbn [out_configs].
  - split; [intros _ i p H; destruct i; discriminate H|eauto].
  - specialize (IH (S k)). destruct (configs p) as [|c0 cs] eqn:E.
    + destruct (out_configs (S k) ps) as [rest|].
      * split; [intros _|eauto]. intros [|i] q H; cbn in H; [injection H as <-; auto|]. replace (k + S i) with (S k + i) by lia. apply IH; eauto.
      * split; [intros [oc H]; discriminate H|]. intros H. assert (exists oc : list (string * option nat), None = Some oc) as [oc H'] by (apply IH; intros i q Hq; specialize (H (S i) q Hq); replace (S k + i) with (k + S i) by lia; auto). discriminate H'.
    + destruct (nth_error (c0 :: cs) k) as [c|] eqn:N.
      * assert (k < List.length (c0 :: cs)) as Hk by (apply nth_error_Some; congruence). destruct (out_configs (S k) ps) as [rest|].
        -- split; [intros _|eauto]. intros [|i] q H; cbn in H; [injection H as <-; rewrite E, Nat.add_0_r; auto|]. replace (k + S i) with (S k + i) by lia. apply IH; eauto.
        -- split; [intros [oc H]; discriminate H|]. intros H. assert (exists oc : list (string * option nat), None = Some oc) as [oc H'] by (apply IH; intros i q Hq; specialize (H (S i) q Hq); replace (S k + i) with (k + S i) by lia; auto). discriminate H'.
      * split; [intros [oc H]; discriminate H|]. intros H. specialize (H 0 p eq_refl). rewrite E, Nat.add_0_r in H. apply nth_error_None in N. destruct H; [discriminate|lia].
Qed.

(** ** When a process model is accepted *)
Theorem construct_iff : forall C P base, sane C P -> (exists m, construct C P base = Some m) <-> acceptable C P.
Proof.
  intros C P base SA. pose proof (sane_class _ _ SA) as HN. unfold construct, create_builder, build.
  pose proof (configs_iff (out_ports P) 0) as HC.
  pose proof (build_all_iff (build_io C) _ (in_ports P ++ out_ports P) (fun p m => io_iff C p m HN) {| attrs := base; id_map := [] |}) as B1.
  pose proof (build_all_iff (build_ref C) _ (ref_ports P) (fun p m => ref_iff C p m HN)) as B2.
  pose proof (build_all_iff build_varport _ (var_ports P) varport_iff) as B3.
  pose proof (build_all_iff (build_var C) _ (pvars P) (fun p m => var_iff C p m HN)) as B4.
  split.
  - intros [m H]. destruct (out_configs 0 (out_ports P)) as [oc|] eqn:EO; [|discriminate H].
    destruct (forallb _ _ && forallb _ _) eqn:F; [|discriminate H]. apply andb_true_iff in F. destruct F as [F1 F2]. rewrite forallb_forall in F2.
    destruct (build_all (build_io C) _ _) as [m1|] eqn:E1; [|discriminate H]. destruct (build_all (build_ref C) _ _) as [m2|] eqn:E2; [|discriminate H].
    destruct (build_all build_varport _ _) as [m3|] eqn:E3; [|discriminate H].
    assert (forall x, In x (in_ports P ++ out_ports P) -> _) as B1' by (apply B1; eauto).
    assert (forall x, In x (ref_ports P) -> _) as B2' by (apply (B2 m1); eauto).
    assert (forall x, In x (pvars P) -> _) as B4' by (apply (B4 m3); eauto).
    split; [exact B4'|]. split; [intros p Hp; apply B1'; apply in_app_iff; auto|]. split; [exact B2'|]. split; [|intros k p Hp; apply HC; eauto].
    intros n t Hn. specialize (F2 (n, MType t) Hn). cbn [snd fst] in F2. apply existsb_exists in F2. destruct F2 as (n' & Hn' & E). apply String.eqb_eq in E. subst n'.
    unfold member_names. rewrite map_app in Hn'. rewrite !in_app_iff in *. tauto.
  - intros (A1 & A2 & A3 & A4 & A5). assert (exists oc, out_configs 0 (out_ports P) = Some oc) as [oc ->] by (apply HC; auto).
    assert (forallb (fun n => has n C) (map vname (pvars P) ++ map pname (in_ports P ++ out_ports P) ++ map pname (ref_ports P)) = true) as ->.
    { apply forallb_forall. intros n Hn. apply has_in. rewrite !in_app_iff, !in_map_iff in Hn. destruct Hn as [(v & <- & Hv)|[(p & <- & Hp)|(p & <- & Hp)]].
      - destruct (A1 v Hv) as (t & Ht & _). exists (MType t). apply lookup_in; auto.
      - apply in_app_iff in Hp. destruct (A2 p Hp) as (t & Ht & _). exists (MType t). apply lookup_in; auto.
      - destruct (A3 p Hp) as (t & Ht & _). exists (MType t). apply lookup_in; auto. }
    match goal with |- context[true && ?b] => assert (b = true) as -> end.
    { apply forallb_forall. intros [n [t|]] Hn; cbn [snd fst]; [|reflexivity]. apply existsb_exists. exists n. split; [|apply String.eqb_refl].
      specialize (A4 n t Hn). unfold member_names in A4. rewrite map_app. rewrite !in_app_iff in *. tauto. }
    cbn [andb]. assert (exists m1, build_all (build_io C) (in_ports P ++ out_ports P) {| attrs := base; id_map := [] |} = Some m1) as [m1 ->].
    { apply B1. intros p Hp. apply A2. apply in_app_iff. auto. }
    assert (exists m2, build_all (build_ref C) (ref_ports P) m1 = Some m2) as [m2 ->] by (apply B2; auto).
    assert (exists m3, build_all build_varport (var_ports P) m2 = Some m3) as [m3 ->] by (apply B3; auto).
    apply B4. auto.
Qed.

(** ** What it starts with *)
Lemma io_step C p m m' : NoDup (map fst C) -> build_io C p m = Some m' -> exists t, declared C (pname p) t /\ m' = setattr (pname p) (APort (cls t) p) m.
Proof.
  intros HN. unfold build_io. destruct (lookup (pname p) C) as [[t|]|] eqn:E; try discriminate. intros H. exists t. split; [apply lookup_in in E; auto|].
  destruct (cls t); try discriminate H; injection H as <-; reflexivity.
Qed.
Lemma ref_step C p m m' : NoDup (map fst C) -> build_ref C p m = Some m' -> m' = setattr (pname p) (APort CPyRef p) m.
Proof. intros HN. unfold build_ref. destruct (lookup (pname p) C) as [[t|]|] eqn:E; try discriminate. intros H. destruct (cls t); try discriminate H; injection H as <-; reflexivity. Qed.
Lemma var_step C v m m' : NoDup (map fst C) -> build_var C v m = Some m' -> exists t x, declared C (vname v) t /\ var_value t v = Some x /\
  m' = {| attrs := (prec_name (vname v), APrec (precision t)) :: (vname v, x) :: attrs m; id_map := (vid v, vname v) :: id_map m |}.
Proof.
  intros HN. unfold build_var. destruct (lookup (vname v) C) as [[t|]|] eqn:E; try discriminate. destruct (var_value t v) as [x|] eqn:V; [|discriminate].
  intros H. injection H as <-. exists t, x. split; [apply lookup_in in E; auto|]. split; [auto|reflexivity].
Qed.
Lemma id_map_vars C l m m' : NoDup (map fst C) -> build_all (build_var C) l m = Some m' -> id_map m' = rev (map (fun v => (vid v, vname v)) l) ++ id_map m.
Proof.
  intros HN. revert m. induction l as [|v l IH]; intros m H; cbn [build_all] in H; [injection H as ->; reflexivity|].
  destruct (build_var C v m) as [m1|] eqn:E; [|discriminate H]. rewrite (IH m1 H). destruct (var_step C v m m1 HN E) as (t & x & _ & _ & ->).
  cbn [id_map map rev]. rewrite <- app_assoc. reflexivity.
Qed.
Lemma id_map_same {A} (f : A -> pm -> option pm) l m m' : (forall x a b, f x a = Some b -> id_map b = id_map a) -> build_all f l m = Some m' -> id_map m' = id_map m.
Proof.
  intros HF. revert m. induction l as [|x l IH]; intros m H; cbn [build_all] in H; [injection H as ->; reflexivity|].
  destruct (f x m) as [m1|] eqn:E; [|discriminate H]. rewrite (IH m1 H). eauto.
Qed.
Lemma find_id l id n : NoDup (map fst l) -> In (id, n) l -> find (fun x : Z * string => (fst x =? id)%Z) l = Some (id, n).
Proof.
  induction l as [|[i k] l IH]; intros HN Hin; [contradiction|]. cbn [find map fst] in *. inversion HN as [|? ? Hn HN']; subst. destruct (Z.eqb_spec i id) as [->|Hne].
  - destruct Hin as [H|H]; [congruence|]. exfalso. apply Hn. apply (in_map fst) in H. exact H.
  - destruct Hin as [H|H]; [congruence|auto].
Qed.
Lemma nodup_mid {A B} (f : A -> B) l l1 x l2 : NoDup (map f l) -> l = l1 ++ x :: l2 -> ~ In (f x) (map f l2).
Proof. intros H ->. rewrite map_app in H. cbn in H. apply NoDup_remove_2 in H. rewrite in_app_iff in H. tauto. Qed.
Lemma nodup_parts {A} (a b : list A) : NoDup (a ++ b) -> NoDup a /\ NoDup b /\ forall x, In x a -> ~ In x b.
Proof.
  induction a as [|x a IH]; cbn; intros H; [repeat split; auto; constructor|]. inversion H as [|? ? Hn H']; subst. destruct (IH H') as (I1 & I2 & I3). rewrite in_app_iff in Hn.
  split; [constructor; tauto|]. split; [auto|]. intros y [<-|Hy]; [tauto|auto].
Qed.

(** every Var has its initial value, broadcast and converted, under its name and its id; its precision is kept; every port is there;
    nothing else is changed *)
Theorem construct_starts_partial : forall C P base m, sane C P -> construct C P base = Some m ->
  (forall v, In v (pvars P) -> exists t x, declared C (vname v) t /\ getattr (vname v) m = Some x /\ starts_as t v x /\
     var_get v (Some m) = Some x /\ getattr (prec_name (vname v)) m = Some (APrec (precision t))) /\
  (forall p, In p (in_ports P) \/ In p (out_ports P) -> exists t, declared C (pname p) t /\ getattr (pname p) m = Some (APort (cls t) p)) /\
  (forall p, In p (ref_ports P) -> getattr (pname p) m = Some (APort CPyRef p)) /\
  (forall p, In p (var_ports P) -> kind p <> KVar false -> getattr (pname p) m = Some (AVarPort p)) /\
  (forall n, ~ In n (member_names P) -> (forall v, In v (pvars P) -> n <> prec_name (vname v)) -> getattr n m = lookup n base).
Proof.
  intros C P base m SA H. pose proof (sane_class _ _ SA) as HN. unfold construct in H. destruct (create_builder C P); [|discriminate H]. unfold build in H.
  destruct (build_all (build_io C) _ _) as [m1|] eqn:E1; [|discriminate H]. destruct (build_all (build_ref C) _ _) as [m2|] eqn:E2; [|discriminate H].
  destruct (build_all build_varport _ _) as [m3|] eqn:E3; [|discriminate H].
  pose proof (sane_names _ _ SA) as ND. unfold member_names in ND.
  rewrite (app_assoc (map pname (in_ports P))) in ND. rewrite <- (map_app pname (in_ports P)) in ND.
  destruct (nodup_parts _ _ ND) as (NV & ND1 & DV). destruct (nodup_parts _ _ ND1) as (NI & ND2 & DI). destruct (nodup_parts _ _ ND2) as (NR & NP & DR).
  assert (forall n, In n (member_names P) <-> In n (map vname (pvars P)) \/ In n (map pname (in_ports P ++ out_ports P)) \/ In n (map pname (ref_ports P)) \/ In n (map pname (var_ports P))) as HM.
  { intros n. unfold member_names. rewrite map_app, !in_app_iff. tauto. }
  pose (tp := fun p : port => [pname p]). pose (tv := fun v : var => [vname v; prec_name (vname v)]).
  assert (forall l, flat_map tp l = map pname l) as FT by (induction l; cbn; [auto|f_equal; auto]).
  assert (forall n, In n (flat_map tv (pvars P)) -> In n (map vname (pvars P)) \/ exists v, In v (pvars P) /\ n = prec_name (vname v)) as FV.
  { intros n Hn. apply in_flat_map in Hn. destruct Hn as (v & Hv & [<-|[<-|[]]]); [left; apply in_map; auto|right; eauto]. }
  (* what the parts touch *)
  assert (forall (val : port -> option attr) x a b, build_io C x a = Some b -> forall k, ~ In k (tp x) -> getattr k b = getattr k a) as T1.
  { intros val x a b Hb k Hk. destruct (io_step C x a b HN Hb) as (t & _ & ->). rewrite getattr_set. destruct (String.eqb_spec k (pname x)) as [->|]; [exfalso; apply Hk; left; auto|auto]. }
  assert (forall x a b, build_ref C x a = Some b -> (forall k, ~ In k (tp x) -> getattr k b = getattr k a) /\ (forall y, Some (APort CPyRef x) = Some y -> getattr (pname x) b = Some y)) as T2.
  { intros x a b Hb. rewrite (ref_step C x a b HN Hb). split.
    - intros k Hk. rewrite getattr_set. destruct (String.eqb_spec k (pname x)) as [->|]; [exfalso; apply Hk; left; auto|auto].
    - intros y Hy. rewrite getattr_set, String.eqb_refl. auto. }
  assert (forall x a b, build_varport x a = Some b -> (forall k, ~ In k (tp x) -> getattr k b = getattr k a) /\ (forall y, (match kind x with KVar false => None | _ => Some (AVarPort x) end) = Some y -> getattr (pname x) b = Some y)) as T3.
  { intros x a b Hb. unfold build_varport in Hb. split.
    - intros k Hk. destruct (kind x) as [| | |[|]]; injection Hb as <-; try reflexivity; rewrite getattr_set; destruct (String.eqb_spec k (pname x)) as [->|]; auto; exfalso; apply Hk; left; auto.
    - intros y Hy. destruct (kind x) as [| | |[|]]; try discriminate Hy; injection Hb as <-; rewrite getattr_set, String.eqb_refl; auto. }
  assert (forall x a b, build_io C x a = Some b -> (forall k, ~ In k (tp x) -> getattr k b = getattr k a) /\
    (forall y, (match lookup (pname x) C with Some (MType t) => Some (APort (cls t) x) | _ => None end) = Some y -> getattr (pname x) b = Some y)) as T1'.
  { intros x a b Hb. split; [apply (T1 (fun _ => None)); auto|]. destruct (io_step C x a b HN Hb) as (t & Ht & ->). apply (lookup_in _ _ HN) in Ht. rewrite Ht. intros y Hy. rewrite getattr_set, String.eqb_refl. auto. }
  assert (forall x a b, build_var C x a = Some b -> (forall k, ~ In k (tv x) -> getattr k b = getattr k a) /\
    (forall y, (match lookup (vname x) C with Some (MType t) => var_value t x | _ => None end) = Some y -> getattr (vname x) b = Some y)) as T4.
  { intros x a b Hb. destruct (var_step C x a b HN Hb) as (t & x0 & Ht & Hv & ->). apply (lookup_in _ _ HN) in Ht. rewrite Ht, Hv.
    assert (vname x <> prec_name (vname x)) as Hne. { intros E. apply (f_equal String.length) in E. unfold prec_name in E. cbn in E. assert (forall s, String.length (s ++ "_p") = String.length s + 2) as X by (induction s as [|ch s IHs]; cbn; [auto|rewrite IHs; auto]). rewrite X in E. lia. }
    split.
    - intros k Hk. unfold getattr. cbn [attrs lookup]. destruct (String.eqb_spec k (prec_name (vname x))) as [->|]; [exfalso; apply Hk; right; left; auto|].
      destruct (String.eqb_spec k (vname x)) as [->|]; [exfalso; apply Hk; left; auto|auto].
    - intros y Hy. unfold getattr. cbn [attrs lookup]. destruct (String.eqb_spec (vname x) (prec_name (vname x))); [contradiction|]. rewrite String.eqb_refl. auto. }
  assert (forall x a b, build_var C x a = Some b -> (forall k, ~ In k (tv x) -> getattr k b = getattr k a) /\
    (forall y, (match lookup (vname x) C with Some (MType t) => Some (APrec (precision t)) | _ => None end) = Some y -> getattr (prec_name (vname x)) b = Some y)) as T5.
  { intros x a b Hb. split; [apply (T4 x a b Hb)|]. destruct (var_step C x a b HN Hb) as (t & x0 & Ht & Hv & ->). apply (lookup_in _ _ HN) in Ht. rewrite Ht.
    intros y Hy. unfold getattr. cbn [attrs lookup]. rewrite String.eqb_refl. auto. }
  assert (forall n, In n (member_names P) -> ~ In n (map vname (pvars P)) -> getattr n m = getattr n m3) as KV.
  { intros n Hn Hnv. apply (all_other _ vname tv _ T4 (pvars P) m3 m n H). intros HI. apply FV in HI. destruct HI as [HI|(v & Hv & ->)]; [contradiction|]. exact (sane_prec _ _ SA v Hv Hn). }
  assert (forall n, ~ In n (map pname (var_ports P)) -> getattr n m3 = getattr n m2) as K3 by (intros n Hn; apply (all_other _ pname tp _ T3 _ _ _ n E3); rewrite FT; auto).
  assert (forall n, ~ In n (map pname (ref_ports P)) -> getattr n m2 = getattr n m1) as K2 by (intros n Hn; apply (all_other _ pname tp _ T2 _ _ _ n E2); rewrite FT; auto).
  split; [|split; [|split; [|split]]].
  - intros v Hv.
    assert (exists t x, declared C (vname v) t /\ var_value t v = Some x) as (t & x & Ht & Hx).
    { assert (exists mm, build_all (build_var C) (pvars P) m3 = Some mm) as HA by eauto. apply (build_all_iff (build_var C) _ _ (fun p q => var_iff C p q HN)) with (x := v) in HA; [|auto].
      destruct HA as (t & Ht & Hi). apply var_value_iff in Hi. destruct Hi as [x Hx]. eauto. }
    assert (getattr (vname v) m = Some x) as HG.
    { apply (all_val _ vname tv _ T4 (pvars P) m3 m v x H Hv).
      - apply (lookup_in _ _ HN) in Ht. rewrite Ht. auto.
      - intros l1 l2 El HI. apply in_flat_map in HI. destruct HI as (w & Hw & [Ew|[Ew|[]]]).
        + apply (nodup_mid vname (pvars P) l1 v l2 NV El). rewrite <- Ew. apply in_map. auto.
        + apply (sane_prec _ _ SA w); [rewrite El; apply in_app_iff; right; right; auto|]. rewrite Ew. apply HM. left. apply in_map. auto. }
    exists t, x. split; [auto|]. split; [auto|]. split; [apply var_value_starts; [intros b Hb; apply (sane_types _ _ SA _ t b Ht Hb)|auto]|]. split.
    + unfold var_get, read. assert (id_map m3 = []) as E0.
      { rewrite (id_map_same build_varport (var_ports P) m2 m3) by (auto; intros q a b Hb; unfold build_varport in Hb; destruct (kind q) as [| | |[|]]; injection Hb as <-; reflexivity).
        rewrite (id_map_same (build_ref C) (ref_ports P) m1 m2) by (auto; intros q a b Hb; rewrite (ref_step C q a b HN Hb); reflexivity).
        rewrite (id_map_same (build_io C) (in_ports P ++ out_ports P) {| attrs := base; id_map := [] |} m1); [reflexivity| |auto]. intros q a b Hb. destruct (io_step C q a b HN Hb) as (t' & _ & ->). reflexivity. }
      rewrite (id_map_vars C (pvars P) m3 m HN H), E0, app_nil_r. rewrite (find_id _ (vid v) (vname v)); [exact HG| |].
      * rewrite map_rev, map_map. cbn [fst]. apply NoDup_rev. exact (sane_ids _ _ SA).
      * apply -> in_rev. apply (in_map (fun v => (vid v, vname v))) in Hv. exact Hv.
    + apply (all_val _ (fun v => prec_name (vname v)) tv _ T5 (pvars P) m3 m v _ H Hv).
      * apply (lookup_in _ _ HN) in Ht. rewrite Ht. auto.
      * intros l1 l2 El HI. apply in_flat_map in HI. destruct HI as (w & Hw & [Ew|[Ew|[]]]).
        -- apply (sane_prec _ _ SA v Hv). rewrite <- Ew. apply HM. left. apply in_map. rewrite El. apply in_app_iff. right. right. auto.
        -- apply prec_inj in Ew. apply (nodup_mid vname (pvars P) l1 v l2 NV El). rewrite <- Ew. apply in_map. auto.
  - intros p Hp. assert (In p (in_ports P ++ out_ports P)) as Hp' by (apply in_app_iff; auto). assert (In (pname p) (map pname (in_ports P ++ out_ports P))) as Hpn by (apply in_map; auto).
    assert (exists t, declared C (pname p) t /\ (cls t = CPyIn \/ cls t = CPyOut)) as (t & Ht & _).
    { assert (exists mm, build_all (build_io C) (in_ports P ++ out_ports P) {| attrs := base; id_map := [] |} = Some mm) as HA by eauto.
      apply (build_all_iff (build_io C) _ _ (fun p q => io_iff C p q HN)) with (x := p) in HA; auto. }
    exists t. split; [auto|]. rewrite KV, K3, K2.
    + apply (all_val _ pname tp _ T1' _ _ m1 p _ E1 Hp'); [apply (lookup_in _ _ HN) in Ht; rewrite Ht; auto|]. intros l1 l2 El. rewrite FT. apply (nodup_mid pname _ l1 p l2 NI El).
    + intros Hr. apply (DI (pname p) Hpn). apply in_app_iff. auto.
    + intros Hr. apply (DI (pname p) Hpn). apply in_app_iff. auto.
    + apply HM. auto.
    + intros Hv. apply (DV _ Hv). apply in_app_iff. auto.
  - intros p Hp. assert (In (pname p) (map pname (ref_ports P))) as Hpn by (apply in_map; auto). rewrite KV, K3.
    + apply (all_val _ pname tp _ T2 _ _ m2 p _ E2 Hp eq_refl). intros l1 l2 El. rewrite FT. apply (nodup_mid pname _ l1 p l2 NR El).
    + apply (DR (pname p) Hpn).
    + apply HM. auto.
    + intros Hv. apply (DV _ Hv). rewrite !in_app_iff. auto.
  - intros p Hp Hk. assert (In (pname p) (map pname (var_ports P))) as Hpn by (apply in_map; auto). rewrite KV.
    + apply (all_val _ pname tp _ T3 _ _ m3 p _ E3 Hp); [destruct (kind p) as [| | |[|]]; congruence|]. intros l1 l2 El. rewrite FT. apply (nodup_mid pname _ l1 p l2 NP El).
    + apply HM. auto.
    + intros Hv. apply (DV _ Hv). rewrite !in_app_iff. auto.
  - intros n Hn Hp. rewrite HM in Hn.
    assert (getattr n m = getattr n m3) as ->. { apply (all_other _ vname tv _ T4 (pvars P) m3 m n H). intros HI. apply FV in HI. destruct HI as [HI|(v & Hv & ->)]; [tauto|]. exact (Hp v Hv eq_refl). }
    rewrite K3, K2 by tauto. rewrite (all_other _ pname tp _ T1' _ _ m1 n E1) by (rewrite FT; tauto). reflexivity.
Qed.

(** ** A case *)
Open Scope string_scope.
Definition arrt (d : dtype) : ltype := {| cls := CArray; d_type := d; precision := Some 24%Z |}.
(** weights of shape (2, 3), one row of which is given as a list of fractions; a bias of shape (1, 1) for a Var of shape (3,), 16 bit *)
Definition demo : process :=
  {| pvars := [{| vname := "weights"; vshape := [2; 3]; vinit := IArr {| ash := [3]; adat := [real (5 # 2); real (-5 # 2); int 7] |}; vid := 4 |};
               {| vname := "bias"; vshape := [3]; vinit := IArr {| ash := [1; 1]; adat := [int 40000] |}; vid := 5 |};
               {| vname := "label"; vshape := [1]; vinit := IStr "abc"; vid := 6 |}];
     in_ports := [{| pname := "a_in"; kind := KIn; configs := [] |}];
     out_ports := [{| pname := "s_out"; kind := KOut; configs := [] |}]; ref_ports := []; var_ports := [] |}.
Definition demo_class : pmclass :=
  [("weights", MType (arrt (DInt 32))); ("bias", MType (arrt (DInt 16))); ("label", MType {| cls := CStr; d_type := DFloat; precision := None |});
   ("a_in", MType {| cls := CPyIn; d_type := DFloat; precision := None |}); ("s_out", MType {| cls := CPyOut; d_type := DFloat; precision := None |}); ("run_spk", MOther)].
Example demo_case : sane demo_class demo /\ acceptable demo_class demo /\ exists m, construct demo_class demo [("time_step", ABase 1)] = Some m /\
  getattr "weights" m = Some (AArr (DInt 32) {| ash := [2; 3]; adat := [int 2; int (-2); int 7; int 2; int (-2); int 7] |}) /\
  getattr "bias" m = Some (AArr (DInt 16) {| ash := [3]; adat := [int (-25536); int (-25536); int (-25536)] |}) /\
  getattr "label" m = Some (AInit (IStr "abc")) /\ getattr "time_step" m = Some (ABase 1) /\ getattr "_bias_p" m = Some (APrec (Some 24%Z)).
Proof.
  assert (sane demo_class demo) as SA.
  { split.
    - cbn. repeat (constructor; [cbn; intuition discriminate|]). constructor.
    - cbn. repeat (constructor; [cbn; intuition discriminate|]). constructor.
    - cbn. repeat (constructor; [cbn; intuition discriminate|]). constructor.
    - intros v [<-|[<-|[<-|[]]]]; cbn; intuition discriminate.
    - intros v a [<-|[<-|[<-|[]]]] E; try discriminate E; injection E as <-; reflexivity.
    - intros n t b H [E|E]; cbn in H; destruct H as [H|[H|[H|[H|[H|[H|[]]]]]]]; try discriminate H; injection H as <- <-; try discriminate E; injection E as <-; lia. }
  assert (exists m, construct demo_class demo [("time_step", ABase 1)] = Some m) as HC by (vm_compute; eauto).
  split; [exact SA|]. split; [apply (construct_iff _ _ [("time_step", ABase 1)] SA); exact HC|]. eexists. split; [vm_compute; reflexivity|]. repeat apply conj; vm_compute; reflexivity.
Qed.

(** ** What goes wrong *)
Definition one_var (sh : list nat) (i : init) : process := {| pvars := [{| vname := "x"; vshape := sh; vinit := i; vid := 0 |}]; in_ports := []; out_ports := []; ref_ports := []; var_ports := [] |}.
(** a Var without dimensions cannot be an array *)
Theorem scalar_arrays_are_refused : forall C i base t, NoDup (map fst C) -> declared C "x" t -> cls t = CArray -> construct C (one_var [] i) base = None.
Proof.
  intros C i base t HN Ht Hc. unfold construct. destruct (create_builder _ _); [|reflexivity]. unfold build. cbn [build_all one_var in_ports out_ports ref_ports var_ports pvars app].
  unfold build_var. cbn [vname]. apply (lookup_in _ _ HN) in Ht. rewrite Ht. unfold var_value. rewrite Hc. cbn [vinit vshape assign]. destruct i; reflexivity.
Qed.
(** a Var of type int or float is not converted, whatever its shape says *)
Theorem numbers_are_not_converted : forall sh i base d, exists m, construct [("x", MType {| cls := CNumber; d_type := d; precision := None |})] (one_var sh i) base = Some m /\ getattr "x" m = Some (AInit i).
Proof. intros sh i base d. eexists. split; [reflexivity|reflexivity]. Qed.
(** the precision of a Var x replaces the value of a Var _x_p that was defined before *)
Theorem precision_replaces_var : exists C P m, NoDup (member_names P) /\ construct C P [] = Some m /\ In {| vname := "_x_p"; vshape := [1]; vinit := IInt 3; vid := 0 |} (pvars P) /\ getattr "_x_p" m = Some (APrec (Some 24%Z)).
Proof.
  exists [("x", MType (arrt (DInt 32))); ("_x_p", MType (arrt (DInt 32)))],
    {| pvars := [{| vname := "_x_p"; vshape := [1]; vinit := IInt 3; vid := 0 |}; {| vname := "x"; vshape := [1]; vinit := IInt 5; vid := 1 |}]; in_ports := []; out_ports := []; ref_ports := []; var_ports := [] |}.
  eexists. split; [cbn; repeat (constructor; [cbn; intuition discriminate|]); constructor|]. split; [vm_compute; reflexivity|]. split; [left; reflexivity|reflexivity].
Qed.
(** an OutPort may be declared as PyInPort and the other way round: the check of these declarations (check_lava_py_types) is
    never called *)
Theorem direction_is_not_checked : exists C P m p, In p (out_ports P) /\ construct C P [] = Some m /\ getattr (pname p) m = Some (APort CPyIn p).
Proof.
  exists [("y", MType {| cls := CPyIn; d_type := DFloat; precision := None |})], {| pvars := []; in_ports := []; out_ports := [{| pname := "y"; kind := KOut; configs := [] |}]; ref_ports := []; var_ports := [] |}.
  eexists. exists {| pname := "y"; kind := KOut; configs := [] |}. split; [left; reflexivity|]. split; vm_compute; reflexivity.
Qed.
(** a connection config for one connection of the second OutPort is refused *)
Theorem config_of_second_port_is_refused : forall C P base p q c, out_ports P = [p; q] -> configs q = [c] -> construct C P base = None.
Proof.
  intros C P base p q c E1 E2. unfold construct, create_builder. rewrite E1. cbn [out_configs]. rewrite E2. cbn [nth_error]. destruct (configs p) as [|c0 l]; [reflexivity|]. reflexivity.
Qed.
(** before the first run, Var.get() returns the initial value as it was given, neither broadcast nor converted *)
Theorem get_before_run_is_not_broadcast : exists C P v m x, In v (pvars P) /\ construct C P [] = Some m /\
  var_get v None = Some (AInit (IInt 3)) /\ var_get v (Some m) = Some x /\ x = AArr DFloat {| ash := [2; 2]; adat := [int 3; int 3; int 3; int 3] |}.
Proof.
  exists [("x", MType (arrt DFloat))], (one_var [2; 2] (IInt 3)). eexists. eexists. eexists. split; [left; reflexivity|]. split; [vm_compute; reflexivity|]. split; [reflexivity|]. split; vm_compute; reflexivity.
Qed.
