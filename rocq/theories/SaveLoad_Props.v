(** C97: saving, loading, and ids across sessions *)
From Coq Require Import List Arith ZArith Ascii String Bool Lia.
From Verif Require Import SaveLoad_Model SaveLoad_Spec.
Import ListNotations.
Open Scope nat_scope.

(** ** Ids *)
Record key := Key { k_pid : nat; k_vars : list nat; k_epoch : nat; k_orig : nat }.
Definition key_of (o : obj) : key := Key (o_pid o) (o_vars o) (o_epoch o) (o_orig o).
Definition known (w : world) (k : key) : Prop :=
  In k (map key_of (live w)) \/ exists n l, files w n = Some (Saved l) /\ In k (map key_of l).
Definition unrelated_or_same (x y : key) : Prop :=
  (k_epoch x = k_epoch y -> (k_pid x = k_pid y -> k_orig x = k_orig y) /\ (forall v, In v (k_vars x) -> In v (k_vars y) -> k_orig x = k_orig y)) /\
  (k_orig x = k_orig y -> k_epoch x = k_epoch y /\ k_pid x = k_pid y /\ k_vars x = k_vars y).
Record inv (w : world) : Prop := {
  i_old : forall x, known w x -> k_orig x < born w /\ k_epoch x <= epoch w /\ NoDup (k_vars x) /\
            (k_epoch x = epoch w -> k_pid x < nextp w /\ forall v, In v (k_vars x) -> v < nextv w);
  i_rel : forall x y, known w x -> known w y -> unrelated_or_same x y }.

Lemma put_nth_map {A B} (f : A -> B) : forall l k x y, nth_error l k = Some y -> f x = f y -> map f (put_nth l k x) = map f l.
Proof. induction l as [|a l IH]; intros [|k] x y H E; simpl in *; try discriminate; [injection H as ->; congruence|f_equal; eauto]. Qed.
Lemma set_value_keys os i k z : map key_of (set_value os i k z) = map key_of os.
Proof. unfold set_value. destruct (nth_error os i) as [o|] eqn:E; [|reflexivity]. eapply put_nth_map; [exact E|reflexivity]. Qed.
Lemma pick_incl l : forall os m x, pick l os = Some m -> In x m -> In x os.
Proof.
  induction l as [|i l IH]; intros os m x H I; simpl in H; [injection H as <-; destruct I|].
  destruct (nth_error os i) as [o|] eqn:E; [|discriminate]. destruct (pick l os) as [m'|] eqn:E2; [|discriminate].
  injection H as <-. destruct I as [<-|I]; [eapply nth_error_In; eauto|eauto].
Qed.
(** an action that only makes keys disappear or move *)
Lemma inv_less w w' : inv w -> (forall x, known w' x -> known w x) -> born w' = born w -> epoch w' = epoch w ->
  nextp w' = nextp w -> nextv w' = nextv w -> inv w'.
Proof. intros [A B] K E1 E2 E3 E4. constructor; [intros x H; rewrite E1, E2, E3, E4; auto|auto]. Qed.
Lemma inv_epoch w w' : inv w -> (forall x, known w' x -> known w x) -> born w' = born w -> epoch w' = S (epoch w) -> inv w'.
Proof.
  intros [A B] K E1 E2. constructor; [|auto]. intros x H. destruct (A x (K x H)) as (P & Q & R & _). rewrite E1, E2.
  split; [exact P|]. split; [lia|]. split; [exact R|]. lia.
Qed.
Lemma write_known (w : world) (p v e b : nat) (name : string) (f : file) x :
  known (World p v e b (live w) (write (files w) name f)) x ->
  known w x \/ (exists l, f = Saved l /\ In x (map key_of l)).
Proof.
  intros [H|(n & l & H & I)]; [left; left; exact H|]. cbn [files] in H. unfold write in H. destruct (String.eqb n name).
  - injection H as ->. right. exists l. auto.
  - left. right. exists n, l. auto.
Qed.
Lemma act_inv w a : inv w -> inv (act w a).
Proof.
  intros I. destruct a as [values|i k z|p v| |l name|name|name]; cbn [act].
  - destruct I as [A B]. unfold create.
    set (n := Key (nextp w) (seq (nextv w) (List.length values)) (epoch w) (born w)).
    assert (forall x, known (World (S (nextp w)) (nextv w + List.length values) (epoch w) (S (born w))
       (live w ++ [Obj (nextp w) (seq (nextv w) (List.length values)) values (epoch w) (born w)]) (files w)) x -> known w x \/ x = n) as K.
    { intros x [H|H]; [|left; right; exact H]. cbn [live] in H. rewrite map_app, in_app_iff in H. destruct H as [H|[H|[]]]; [left; left; exact H|right; symmetry; exact H]. }
    assert (forall x, known w x -> k_epoch x = epoch w -> k_pid x <> nextp w /\ (forall v, In v (k_vars x) -> ~ In v (k_vars n))) as F.
    { intros x H E. destruct (A x H) as (_ & _ & _ & D). destruct (D E) as [D1 D2]. split; [lia|]. intros v V I.
      simpl in I. apply in_seq in I. specialize (D2 v V). lia. }
    constructor.
    + intros x H. cbn [born epoch nextp nextv]. destruct (K x H) as [H'| ->].
      * destruct (A x H') as (P & Q & R & D). split; [lia|]. split; [exact Q|]. split; [exact R|]. intros E. destruct (D E) as [D1 D2].
        split; [lia|]. intros v V. specialize (D2 v V). lia.
      * simpl. split; [lia|]. split; [lia|]. split; [apply seq_NoDup|]. intros _. split; [lia|]. intros v V. apply in_seq in V. lia.
    + intros x y Hx Hy. destruct (K x Hx) as [Hx'| ->], (K y Hy) as [Hy'| ->].
      * apply B; assumption.
      * destruct (A x Hx') as (P & _). split.
        -- intros E. simpl in E. destruct (F x Hx' E) as [F1 F2]. split; [intros; contradiction|]. intros v V1 V2. elim (F2 v V1 V2).
        -- simpl. intros E. lia.
      * destruct (A y Hy') as (P & _). split.
        -- intros E. simpl in E. symmetry in E. destruct (F y Hy' E) as [F1 F2]. split; [simpl; intros; congruence|].
           intros v V1 V2. elim (F2 v V2 V1).
        -- simpl. intros E. lia.
      * split; auto.
  - apply (inv_less w); auto. intros x [H|H]; [left|right; exact H]. cbn [live] in H. rewrite set_value_keys in H. exact H.
  - apply (inv_epoch w); auto.
  - apply (inv_epoch w); auto. intros x [H|H]; [destruct H|right; exact H].
  - destruct (pick l (live w)) as [os|] eqn:E; [|exact I]. apply (inv_less w); auto. intros x H.
    destruct (write_known w _ _ _ _ _ _ x H) as [H'|(m & Em & H')]; [exact H'|]. injection Em as <-.
    left. apply in_map_iff in H'. destruct H' as (o & <- & H'). apply in_map. eapply pick_incl; eauto.
  - apply (inv_less w); auto. intros x H. destruct (write_known w _ _ _ _ _ _ x H) as [H'|(m & Em & H')]; [exact H'|discriminate].
  - unfold load_answer. destruct (files w name) as [[os|]|] eqn:E; try exact I. apply (inv_less w); auto. intros x [H|H]; [|right; exact H].
    cbn [live] in H. rewrite map_app, in_app_iff in H. destruct H as [H|H]; [left; exact H|]. right. exists name, os. auto.
Qed.
Lemma life_app h g : life (h ++ g) = fold_left act g (life h).
Proof. unfold life. apply fold_left_app. Qed.
Lemma life_inv h : inv (life h).
Proof.
  unfold life. assert (inv world0) as I by (constructor; [intros x [[]|(n & l & H & _)]; discriminate H|intros x y [[]|(n & l & H & _)]; discriminate H]).
  revert I. generalize world0. induction h as [|a h IH]; intros w I; simpl; [exact I|]. apply IH. apply act_inv. exact I.
Qed.
Lemma live_known w o : In o (live w) -> known w (key_of o).
Proof. intros H. left. apply in_map. exact H. Qed.

(** Theorem: through any history of creating, saving, loading, resetting and restarting, two process objects created in the same
    session have the same process id only if they are copies of one process, and share a Var id only then *)
Theorem ids_survive_save_and_load : forall h x y, In x (live (life h)) -> In y (live (life h)) -> same_numbering x y ->
  (o_pid x = o_pid y <-> copies x y) /\ (forall v, In v (o_vars x) -> In v (o_vars y) -> copies x y) /\ NoDup (o_vars x).
Proof.
  intros h x y Hx Hy E. pose proof (life_inv h) as I.
  destruct (i_rel _ I _ _ (live_known _ _ Hx) (live_known _ _ Hy)) as [A B]. specialize (A E).
  split; [|split].
  - split; [apply A|]. intros C. apply (B C).
  - apply A.
  - apply (i_old _ I _ (live_known _ _ Hx)).
Qed.

(** ** A network with distinct ids works *)
Lemma dict_put_new {A} (d : list (nat * A)) k v : ~ In k (map fst d) -> dict_put d k v = d ++ [(k, v)].
Proof.
  induction d as [|[j w] d IH]; simpl; intros N; [reflexivity|]. destruct (Nat.eqb_spec j k); [exfalso; auto|].
  rewrite IH by auto. reflexivity.
Qed.
Lemma dict_get_app {A} (d e : list (nat * A)) k : dict_get (d ++ e) k = match dict_get d k with Some v => Some v | None => dict_get e k end.
Proof. induction d as [|[j w] d IH]; simpl; [reflexivity|]. destruct (j =? k); auto. Qed.
Lemma dict_get_none {A} (d : list (nat * A)) k : ~ In k (map fst d) -> dict_get d k = None.
Proof. induction d as [|[j w] d IH]; simpl; intros N; [reflexivity|]. destruct (Nat.eqb_spec j k); [exfalso; auto|auto]. Qed.

Lemma numbered_nth net p : nth_error (numbered net) p = match nth_error net p with Some o => Some (p, o) | None => None end.
Proof.
  unfold numbered. assert (forall s, nth_error (combine (seq s (List.length net)) net) p = match nth_error net p with Some o => Some (s + p, o) | None => None end) as G.
  { revert p. induction net as [|a net IH]; intros [|p] s; simpl; auto; [rewrite Nat.add_0_r; reflexivity|].
    rewrite IH. destruct (nth_error net p); [|reflexivity]. do 2 f_equal. lia. }
  apply (G 0).
Qed.
Lemma service_ports_distinct net : NoDup (map o_pid net) ->
  service_ports net = map (fun io => (o_pid (snd io), fst io)) (numbered net).
Proof.
  intros N. unfold service_ports.
  assert (forall l d, NoDup (map fst d ++ map (fun io : nat * obj => o_pid (snd io)) l) ->
    fold_left (fun d (io : nat * obj) => dict_put d (o_pid (snd io)) (fst io)) l d = d ++ map (fun io => (o_pid (snd io), fst io)) l) as G.
  { induction l as [|io l IH]; intros d D; cbn [fold_left map]; [rewrite app_nil_r; reflexivity|].
    assert (~ In (o_pid (snd io)) (map fst d)) as F.
    { intros F. cbn [map] in D. apply NoDup_remove_2 in D. apply D. apply in_or_app. auto. }
    rewrite dict_put_new by exact F. rewrite IH.
    - rewrite <- app_assoc. reflexivity.
    - rewrite map_app. cbn [map fst] in *. rewrite <- app_assoc. exact D. }
  rewrite G; [reflexivity|]. cbn [map app].
  assert (map (fun io : nat * obj => o_pid (snd io)) (numbered net) = map o_pid net) as ->; [|exact N].
  unfold numbered. generalize 0. induction net as [|a net IH]; intros s; simpl; [reflexivity|]. inversion N. rewrite IH; auto.
Qed.
Lemma var_models_inner (o : obj) : forall vs d, NoDup vs -> (forall v, In v vs -> ~ In v (map fst d)) ->
  fold_left (fun d v => dict_put d v (o_pid o)) vs d = d ++ map (fun v => (v, o_pid o)) vs.
Proof.
  induction vs as [|v vs IH]; intros d N F; cbn [fold_left map]; [rewrite app_nil_r; reflexivity|].
  inversion N as [|? ? N1 N2]; subst. rewrite dict_put_new by (apply F; simpl; auto). rewrite IH; auto.
  - rewrite <- app_assoc. reflexivity.
  - intros x X. rewrite map_app, in_app_iff. intros [H|[H|[]]]; [apply (F x); simpl; auto|]. simpl in H. subst. contradiction.
Qed.
Lemma var_models_distinct : forall net d, NoDup (map fst d ++ flat_map o_vars net) ->
  fold_left (fun d o => fold_left (fun d v => dict_put d v (o_pid o)) (o_vars o) d) net d =
  d ++ flat_map (fun o => map (fun v => (v, o_pid o)) (o_vars o)) net.
Proof.
  induction net as [|o net IH]; intros d N; cbn [fold_left flat_map]; [rewrite app_nil_r; reflexivity|].
  cbn [flat_map] in N. assert (NoDup (o_vars o) /\ forall v, In v (o_vars o) -> ~ In v (map fst d)) as [N1 N2].
  { clear - N. revert N. generalize (map fst d). induction l as [|a l IH]; simpl; intros N.
    - split; [|auto]. revert N. generalize (flat_map o_vars net). induction (o_vars o) as [|x xs IH]; intros m N; [constructor|].
      inversion N; subst. constructor; [intros I; apply H1; apply in_or_app; auto|eapply IH; eauto].
    - inversion N; subst. destruct (IH H2) as [A B]. split; [exact A|]. intros v V [-> |I]; [|exact (B v V I)].
      apply H1. apply in_or_app. right. apply in_or_app. auto. }
  rewrite var_models_inner by auto. rewrite IH.
  - rewrite <- app_assoc. reflexivity.
  - rewrite map_app, map_map. cbn [fst]. rewrite map_id, <- app_assoc. exact N.
Qed.
Lemma index_of_nth l k : NoDup l -> forall p, nth_error l p = Some k -> index_of l k = Some p.
Proof.
  induction l as [|j l IH]; intros N p H; [destruct p; discriminate|]. inversion N; subst. destruct p as [|p]; simpl in *.
  - injection H as ->. rewrite Nat.eqb_refl. reflexivity.
  - destruct (Nat.eqb_spec j k); [subst; apply nth_error_In in H; contradiction|]. rewrite (IH H3 p H). reflexivity.
Qed.
Lemma dict_get_in (d : list (nat * nat)) k v : NoDup (map fst d) -> In (k, v) d -> dict_get d k = Some v.
Proof.
  induction d as [|[j w] d IH]; simpl; intros N I; [destruct I|]. inversion N; subst. destruct I as [E|I].
  - injection E as -> ->. rewrite Nat.eqb_refl. reflexivity.
  - destruct (Nat.eqb_spec j k); [|auto]. subst. elim H1. apply (in_map fst) in I. exact I.
Qed.
Lemma distinct_works net : NoDup (map o_pid net) -> NoDup (flat_map o_vars net) -> works net.
Proof.
  intros N1 N2. pose proof (service_ports_distinct net N1) as S1. split.
  - intros p L. unfold commanded. rewrite S1, map_map. cbn [snd]. destruct (nth_error net p) as [o|] eqn:E; [|apply nth_error_None in E; lia].
    apply in_map_iff. exists (p, o). split; [reflexivity|]. apply nth_error_In with p. rewrite numbered_nth, E. reflexivity.
  - intros p o k v Ho Hk. unfold route, var_models.
    rewrite (var_models_distinct net []) by exact N2. cbn [app].
    assert (map fst (flat_map (fun o => map (fun v => (v, o_pid o)) (o_vars o)) net) = flat_map o_vars net) as M.
    { clear. induction net as [|a net IH]; simpl; [reflexivity|]. rewrite map_app, map_map, IH. cbn [fst]. rewrite map_id. reflexivity. }
    rewrite (dict_get_in _ v (o_pid o)).
    + unfold model_ids. rewrite (index_of_nth (map o_pid net) (o_pid o) N1 p) by (rewrite nth_error_map, Ho; reflexivity).
      rewrite S1, nth_error_map, numbered_nth, Ho. cbn [option_map fst snd]. rewrite Ho.
      rewrite (index_of_nth (o_vars o) v) with (p := k); [reflexivity| |exact Hk].
      clear - N2 Ho. revert p Ho N2. induction net as [|a net IH]; intros [|p] H N; try discriminate; simpl in *.
      * injection H as ->. clear IH. revert N. generalize (flat_map o_vars net). induction (o_vars o) as [|x xs IHx]; intros m N; [constructor|].
        inversion N; subst. constructor; [intros I; apply H1; apply in_or_app; auto|eapply IHx; eauto].
      * apply (IH p H). clear - N. induction (o_vars a) as [|x xs IHx]; [exact N|]. inversion N; subst. auto.
    + rewrite M. exact N2.
    + apply in_flat_map. exists o. split; [eapply nth_error_In; eauto|]. apply in_map_iff. exists v. split; [reflexivity|]. eapply nth_error_In; eauto.
Qed.

Lemma nodup_by_nth {A} (l : list A) : (forall p q x, nth_error l p = Some x -> nth_error l q = Some x -> p = q) -> NoDup l.
Proof.
  intros H. apply NoDup_nth_error. intros i j L E. destruct (nth_error l i) as [x|] eqn:Ei; [|apply nth_error_None in Ei; lia].
  apply (H i j x); [exact Ei|congruence].
Qed.
(** Theorem: a network of processes that were all created in one session - whether they are the originals or were saved and
    loaded, any number of times, in the same or in later sessions - runs all its processes, and get and set reach the Var
    they are called on; provided it does not contain two copies of one process *)
Theorem loaded_network_works : forall h net, (forall o, In o net -> In o (live (life h))) -> one_session net -> works net.
Proof.
  intros h net L O. apply distinct_works.
  - apply nodup_by_nth. intros p q i Hp Hq. rewrite nth_error_map in Hp, Hq.
    destruct (nth_error net p) as [x|] eqn:Ex; [|discriminate]. destruct (nth_error net q) as [y|] eqn:Ey; [|discriminate].
    simpl in Hp, Hq. injection Hp as Hp. injection Hq as Hq. destruct (O p q x y Ex Ey) as [E C]. apply C.
    apply (ids_survive_save_and_load h x y); auto; [apply L; eapply nth_error_In; eauto|apply L; eapply nth_error_In; eauto|congruence].
  - assert (forall m, (forall o, In o m -> In o (live (life h))) -> one_session m -> NoDup (flat_map o_vars m)) as G; [|auto].
    induction m as [|o m IH]; intros Lm Om; cbn [flat_map]; [constructor|].
    assert (NoDup (o_vars o)) as No.
    { apply (ids_survive_save_and_load h o o); [apply Lm; simpl; auto|apply Lm; simpl; auto|reflexivity]. }
    assert (NoDup (flat_map o_vars m)) as Nm.
    { apply IH; [intros x X; apply Lm; simpl; auto|]. intros p q x y Hp Hq. destruct (Om (S p) (S q) x y Hp Hq) as [A B].
      split; [exact A|]. intros C. specialize (B C). lia. }
    assert (forall v, In v (o_vars o) -> ~ In v (flat_map o_vars m)) as D.
    { intros v V I. apply in_flat_map in I. destruct I as (y & Y & V2). destruct (In_nth_error _ _ Y) as [q Q].
      destruct (Om 0 (S q) o y eq_refl Q) as [E C]. specialize (C (proj1 (proj2 (ids_survive_save_and_load h o y (Lm o (or_introl eq_refl)) (Lm y (or_intror Y)) E)) v V V2)).
      discriminate. }
    clear - No Nm D. induction (o_vars o) as [|x xs IH]; [exact Nm|]. inversion No; subst. cbn [app]. constructor.
    + intros I. apply in_app_iff in I. destruct I as [I|I]; [contradiction|]. apply (D x); [simpl; auto|exact I].
    + apply IH; [assumption|]. intros v V. apply D. simpl. auto.
Qed.

(** ** Files *)
Lemma has_dot_spec s : has_dot s = true <-> dotted s.
Proof.
  induction s as [|c s IH]; simpl.
  - split; [discriminate|]. intros (a & b & H). destruct a; discriminate.
  - rewrite orb_true_iff, IH, Ascii.eqb_eq. split.
    + intros [-> |(a & b & ->)]; [exists EmptyString, s; reflexivity|exists (String c a), b; reflexivity].
    + intros (a & b & H). destruct a as [|x a]; simpl in H; injection H as -> H; [left; reflexivity|right; exists a, b; exact H].
Qed.
Lemma with_extension_spec name f : with_extension name = f <-> stored_as name f.
Proof.
  unfold with_extension, stored_as. rewrite <- has_dot_spec. destruct (has_dot name); split.
  - intros <-. auto.
  - intros [[_ H]|[H _]]; [congruence|elim H; reflexivity].
  - intros <-. right. split; [discriminate|reflexivity].
  - intros [[H _]|[_ H]]; [discriminate|congruence].
Qed.
Lemma act_keeps_file w a f : ~ writes a f -> files (act w a) f = files w f.
Proof.
  destruct a; cbn [act writes]; intros N; try reflexivity.
  - destruct (pick l (live w)); [|reflexivity]. cbn [files]. unfold write. destruct (String.eqb_spec f (with_extension name)); [|reflexivity].
    elim N. apply with_extension_spec. auto.
  - cbn [files]. unfold write. destruct (String.eqb_spec f name); [|reflexivity]. subst. elim N. reflexivity.
  - destruct (load_answer (files w) name); reflexivity.
Qed.
Lemma acts_keep_file l : forall w f, (forall a, In a l -> ~ writes a f) -> files (fold_left act l w) f = files w f.
Proof.
  induction l as [|a l IH]; intros w f N; cbn [fold_left]; [reflexivity|]. rewrite IH by (intros b B; apply N; simpl; auto).
  apply act_keeps_file. apply N. simpl. auto.
Qed.
(** Theorem: save() writes the file (with the extension .pickle added if there is no dot in the name), and load() of that file gives
    copies of what was saved as it was then, whatever happens in between - also in later sessions - unless the file is
    written again *)
Theorem load_returns_what_was_saved : forall h l name f os g,
  pick l (live (life h)) = Some os -> stored_as name f -> (forall a, In a g -> ~ writes a f) ->
  load_answer (files (life (h ++ Save l name :: g))) f = Loaded os /\
  live (life (h ++ Save l name :: g ++ [LoadFile f])) = live (life (h ++ Save l name :: g)) ++ os.
Proof.
  intros h l name f os g P E N. assert (files (life (h ++ Save l name :: g)) f = Some (Saved os)) as F.
  { rewrite life_app. cbn [fold_left]. rewrite acts_keep_file by exact N. cbn [act]. rewrite P. cbn [files]. unfold write.
    apply with_extension_spec in E. rewrite E, String.eqb_refl. reflexivity. }
  split; [unfold load_answer; rewrite F; reflexivity|]. rewrite app_comm_cons, app_assoc, life_app. cbn [fold_left act].
  unfold load_answer. rewrite F. reflexivity.
Qed.
(** Theorem: the same name works for load() only if it has a dot: otherwise load(name) does not see what save(name) has written *)
Theorem load_same_name : forall h l name os, pick l (live (life h)) = Some os ->
  (dotted name -> load_answer (files (life (h ++ [Save l name]))) name = Loaded os) /\
  (~ dotted name -> load_answer (files (life (h ++ [Save l name]))) name = load_answer (files (life h)) name).
Proof.
  intros h l name os P. split.
  - intros D. apply (load_returns_what_was_saved h l name name os []); [exact P|left; auto|intros a []].
  - intros D. unfold load_answer. rewrite life_app. cbn [fold_left]. rewrite act_keeps_file; [reflexivity|].
    cbn [writes]. intros [[H _]|[_ H]]; [contradiction|]. apply (f_equal String.length) in H.
    clear - H. induction name; simpl in *; [discriminate|]. injection H as H. auto.
Qed.

(** ** Copies are independent *)
Lemma put_nth_nth {A} : forall (l : list A) k x m y, nth_error l m = Some y ->
  nth_error (put_nth l k x) m = Some (if k =? m then x else y).
Proof. induction l as [|a l IH]; intros [|k] x [|m] y H; simpl in *; try discriminate; auto. Qed.
Lemma put_nth_length {A} : forall (l : list A) k x, List.length (put_nth l k x) = List.length l.
Proof. induction l as [|a l IH]; intros [|k] x; simpl; auto. Qed.
(** Theorem: assigning to a Var of an object changes that Var and nothing else: no other object - also not the original of a loaded
    copy or the copy of an original -, no id and no file *)
Theorem assigning_changes_one_var : forall h i k z j o, nth_error (live (life h)) j = Some o ->
  exists o', nth_error (live (life (h ++ [Assign i k z]))) j = Some o' /\
    o_pid o' = o_pid o /\ o_vars o' = o_vars o /\ same_numbering o' o /\ copies o' o /\
    List.length (o_data o') = List.length (o_data o) /\
    (forall m old, nth_error (o_data o) m = Some old -> nth_error (o_data o') m = Some (if (i =? j) && (k =? m) then z else old)) /\
    (forall f, load_answer (files (life (h ++ [Assign i k z]))) f = load_answer (files (life h)) f) /\
    List.length (live (life (h ++ [Assign i k z]))) = List.length (live (life h)).
Proof.
  intros h i k z j o H. rewrite life_app. cbn [fold_left act live files]. unfold set_value.
  destruct (nth_error (live (life h)) i) as [x|] eqn:E.
  - rewrite (put_nth_nth _ _ _ _ _ H). rewrite put_nth_length. destruct (Nat.eqb_spec i j) as [-> |N].
    + rewrite H in E. injection E as <-. eexists. split; [reflexivity|]. cbn [o_pid o_vars o_data]. unfold same_numbering, copies. cbn [o_epoch o_orig].
      rewrite put_nth_length. do 5 (split; [reflexivity|]). split; [|split; reflexivity]. intros m old Hm. cbn [andb]. apply put_nth_nth. exact Hm.
    + exists o. unfold same_numbering, copies. do 6 (split; [reflexivity|]). split; [|split; reflexivity]. intros m old Hm. exact Hm.
  - exists o. unfold same_numbering, copies. split; [exact H|]. do 5 (split; [reflexivity|]). split; [|split; reflexivity].
    intros m old Hm. destruct (Nat.eqb_spec i j) as [-> |N]; [congruence|exact Hm].
Qed.
(** Theorem: a process object never changes its ids, and only assignments to it change its values *)
Definition assigns (a : action) (j : nat) : Prop := match a with Assign i _ _ => i = j | _ => False end.
Theorem objects_stay : forall g h j o, nth_error (live (life h)) j = Some o -> (forall a, In a g -> ~ assigns a j /\ a <> Exit) ->
  nth_error (live (life (h ++ g))) j = Some o.
Proof.
  induction g as [|a g IH]; intros h j o H N; [rewrite app_nil_r; exact H|].
  replace (h ++ a :: g) with ((h ++ [a]) ++ g) by (rewrite <- app_assoc; reflexivity).
  apply IH; [|intros b B; apply N; simpl; auto]. destruct (N a (or_introl eq_refl)) as [N1 N2].
  rewrite life_app. cbn [fold_left]. destruct a as [values|i k z|p v| |l name|name|name]; cbn [act]; auto.
  - cbn [create live]. rewrite nth_error_app1; [exact H|]. apply nth_error_Some. congruence.
  - cbn [live]. unfold set_value. destruct (nth_error (live (life h)) i); [|exact H].
    rewrite (put_nth_nth _ _ _ _ _ H). destruct (Nat.eqb_spec i j); [|reflexivity]. elim N1. assumption.
  - elim N2. reflexivity.
  - destruct (pick l (live (life h))); exact H.
  - unfold load_answer. destruct (files (life h) name) as [[os|]|]; try exact H. cbn [live]. rewrite nth_error_app1; [exact H|].
    apply nth_error_Some. congruence.
Qed.
(** Theorem: load() refuses a file nobody has written and a file somebody else has written, and then changes nothing *)
Theorem load_refuses_other_files : forall h f,
  ((forall a, In a h -> ~ writes a f) -> load_answer (files (life h)) f = NoSuchFile) /\
  (forall h1 g, h = h1 ++ Put f :: g -> (forall a, In a g -> ~ writes a f) -> load_answer (files (life h)) f = Incompatible) /\
  ((forall l, load_answer (files (life h)) f <> Loaded l) -> life (h ++ [LoadFile f]) = life h).
Proof.
  intros h f. split; [|split].
  - intros N. unfold load_answer, life. rewrite acts_keep_file by exact N. reflexivity.
  - intros h1 g -> N. unfold load_answer. rewrite life_app. cbn [fold_left]. rewrite acts_keep_file by exact N. cbn [act files]. unfold write.
    rewrite String.eqb_refl. reflexivity.
  - intros N. rewrite life_app. cbn [fold_left act]. destruct (load_answer (files (life h)) f) as [l| |]; [elim (N l); reflexivity|reflexivity|reflexivity].
Qed.
