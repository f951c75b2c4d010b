(** Lemmas about compiling with a cache. *)
From Coq Require Import List Arith ZArith Bool String Lia.
From Verif Require Import VPorts_Model Wire_Model Cache_Model Cache_Spec.
Import ListNotations.
Open Scope nat_scope.

Lemma prefix_app : forall s t, prefix s t = true <-> exists b, t = (s ++ b)%string.
Proof.
  induction s as [|c s IH]; intros t; simpl.
  - split; intros H; [exists t; reflexivity | destruct t; reflexivity].
  - destruct t as [|d t]; simpl.
    + split; [discriminate | intros [b H]; discriminate].
    + destruct (Ascii.ascii_dec c d) as [-> |Hn].
      * rewrite IH. split; intros [b H]; exists b; [rewrite H; reflexivity | injection H as H; exact H].
      * split; [discriminate |]. intros [b H]. injection H as H _. congruence.
Qed.
Lemma contains_occurs : forall s t, contains s t = true <-> occurs s t.
Proof.
  intros s t; revert s. induction t as [|c t IH]; intros s.
  - change (contains s "") with (prefix s "" || false). rewrite orb_false_r, (prefix_app s EmptyString). split.
    + intros [b H]. exists EmptyString, b. exact H.
    + intros [a [b H]]. destruct a; [exists b; exact H | discriminate].
  - change (contains s (String c t)) with (prefix s (String c t) || contains s t). rewrite orb_true_iff, (prefix_app s (String c t)), IH. split.
    + intros [[b H] | [a [b H]]]; [exists EmptyString, b; exact H | exists (String c a), b; rewrite H; reflexivity].
    + intros [a [b H]]. destruct a as [|d a]; [left; exists b; exact H | right]. injection H as -> H. exists a, b. exact H.
Qed.
Lemma prefix_contains : forall s t, prefix s t = true -> contains s t = true.
Proof. intros s [|c t] H; cbn [contains]; rewrite H; reflexivity. Qed.
Lemma smemb_In : forall s l, smemb s l = true <-> In s l.
Proof.
  induction l as [|x l IH]; simpl; [split; [discriminate | contradiction] |].
  rewrite orb_true_iff, IH, String.eqb_eq. split; intros [H|H]; auto.
Qed.

Lemma indexed_nth : forall A (l : list A) i k, nth_error (indexed i l) k = match nth_error l k with Some x => Some (i + k, x) | None => None end.
Proof.
  induction l as [|x l IH]; intros i k; destruct k; simpl; try reflexivity; [rewrite Nat.add_0_r; reflexivity |].
  rewrite IH. replace (S i + k) with (i + S k) by lia. reflexivity.
Qed.
Lemma indexed_In : forall A (l : list A) i j x, In (j, x) (indexed i l) <-> i <= j /\ nth_error l (j - i) = Some x.
Proof.
  intros A l i j x. split.
  - intros H. apply In_nth_error in H. destruct H as [k H]. rewrite indexed_nth in H.
    destruct (nth_error l k) as [y|] eqn:E; [|discriminate]. injection H as <- <-. split; [lia |]. replace (i + k - i) with k by lia. exact E.
  - intros [H1 H2]. apply nth_error_In with (n := j - i). rewrite indexed_nth, H2. f_equal. f_equal. lia.
Qed.

(** ** The cache of a program *)
Lemma name_builders_ok : forall P l pre seen, procs P = (pre ++ l)%list ->
  NoDup (map c_name l) -> (forall n, In n (map c_name l) -> ~ In n seen /\ contains "Process_" n = false) ->
  name_builders P seen (map (fun ip => (fst ip, make_builder (snd ip))) (indexed (List.length pre) l))
  = Some (map (fun p => (c_name p, with_params None (make_builder p))) l).
Proof.
  intros P. induction l as [|p l IH]; intros pre seen HP HN Hok; [reflexivity |].
  cbn [indexed map name_builders fst snd].
  assert (Hname : name_at P (List.length pre) = c_name p) by (unfold name_at; rewrite HP, nth_error_app2, Nat.sub_diag by lia; reflexivity).
  rewrite Hname. destruct (Hok (c_name p) (or_introl eq_refl)) as [H1 H2].
  destruct (smemb (c_name p) seen) eqn:E; [apply smemb_In in E; contradiction |]. rewrite H2. cbn [orb].
  inversion HN as [|? ? Hp HN']; subst.
  assert (Hrec : name_builders P (c_name p :: seen) (map (fun ip => (fst ip, make_builder (snd ip))) (indexed (List.length (pre ++ [p])) l))
    = Some (map (fun p => (c_name p, with_params None (make_builder p))) l)).
  { apply IH; [rewrite HP, <- app_assoc; reflexivity | exact HN' |].
    intros n Hn. destruct (Hok n (or_intror Hn)) as [H3 H4]. split; [|exact H4]. intros [<- |H5]; [apply Hp, Hn | apply H3, H5]. }
  rewrite app_length, Nat.add_1_r in Hrec. rewrite Hrec. reflexivity.
Qed.
Lemma name_builders_inv : forall P l pre seen r, procs P = (pre ++ l)%list ->
  name_builders P seen (map (fun ip => (fst ip, make_builder (snd ip))) (indexed (List.length pre) l)) = Some r ->
  NoDup (map c_name l) /\ (forall n, In n (map c_name l) -> ~ In n seen /\ contains "Process_" n = false).
Proof.
  intros P. induction l as [|p l IH]; intros pre seen r HP H; [split; [constructor | intros n []] |].
  cbn [indexed map name_builders fst snd] in H.
  assert (Hname : name_at P (List.length pre) = c_name p) by (unfold name_at; rewrite HP, nth_error_app2, Nat.sub_diag by lia; reflexivity).
  rewrite Hname in H. destruct (smemb (c_name p) seen) eqn:E1; [discriminate |]. destruct (contains "Process_" (c_name p)) eqn:E2; [discriminate |].
  cbn [orb] in H.
  match type of H with context [name_builders P (c_name p :: seen) ?x] => destruct (name_builders P (c_name p :: seen) x) as [t|] eqn:E3; [|discriminate] end.
  replace (S (List.length pre)) with (List.length (pre ++ [p])) in E3 by (rewrite app_length; simpl; lia).
  apply IH in E3; [|rewrite HP, <- app_assoc; reflexivity]. destruct E3 as [H1 H2].
  assert (Hns : ~ In (c_name p) seen) by (intros Hc; apply smemb_In in Hc; congruence).
  split.
  - cbn [map]. constructor; [|exact H1]. intros Hc. apply (proj1 (H2 _ Hc)). left; reflexivity.
  - intros n [<- |Hn]; [split; [exact Hns | exact E2] |]. destruct (H2 n Hn) as [H3 H4]. split; [|exact H4]. intros Hc. apply H3. right; exact Hc.
Qed.
Lemma cacheable_bool : forall P, cacheable P <-> NoDup (names P) /\ (forall n, In n (names P) -> ~ In n [] /\ contains "Process_" n = false).
Proof.
  intros P. split; intros [H1 H2]; split; try exact H1; intros n Hn.
  - split; [intros [] |]. destruct (contains "Process_" n) eqn:E; [apply contains_occurs in E; destruct (H2 n Hn E) | reflexivity].
  - intros Ho. apply contains_occurs in Ho. destruct (H2 n Hn) as [_ H3]. congruence.
Qed.
Lemma name_at_In : forall P i p, nth_error (procs P) i = Some p -> name_at P i = c_name p.
Proof. intros P i p H. unfold name_at. rewrite H. reflexivity. Qed.
Lemma fresh_inits_In : forall P a x, In (a, x) (fresh_inits P) <-> exists p q, nth_error (procs P) (fst a) = Some p /\ In q (c_ports p) /\ snd a = p_name q /\ x = make_port_init q.
Proof.
  intros P [i n] x. unfold fresh_inits. rewrite in_flat_map. split.
  - intros [[j p] [H1 H2]]. apply indexed_In in H1. destruct H1 as [_ H1]. rewrite Nat.sub_0_r in H1. apply in_map_iff in H2. destruct H2 as [q [H2 H3]].
    simpl in H2. injection H2 as -> <- <-. exists p, q. auto.
  - intros [p [q [H1 [H2 [H3 ->]]]]]. simpl in *. exists (i, p). split; [apply indexed_In; split; [lia | rewrite Nat.sub_0_r; exact H1] |].
    apply in_map_iff. exists q. subst n. auto.
Qed.
Lemma write_to_cache_ok : forall P, wf P -> cacheable P -> exists ki kc, write_to_cache P (fresh_inits P) = Some (ki, kc).
Proof.
  intros P HW HC. apply cacheable_bool in HC. destruct HC as [_ HC].
  assert (Hok : forall i p, nth_error (procs P) i = Some p -> starts_badly (name_at P i) = false).
  { intros i p Hi. rewrite (name_at_In P i p Hi). unfold starts_badly. destruct (prefix "Process_" (c_name p)) eqn:E; [|reflexivity].
    apply prefix_contains in E. destruct (HC (c_name p)) as [_ H]; [|congruence]. apply in_map. apply nth_error_In with i. exact Hi. }
  unfold write_to_cache.
  match goal with |- context [existsb ?f (fresh_inits P)] => destruct (existsb f (fresh_inits P)) eqn:E1 end.
  - apply existsb_exists in E1. destruct E1 as [[a x] [H1 H2]]. apply fresh_inits_In in H1. destruct H1 as [p [q [H1 _]]].
    cbn [fst snd] in H2. rewrite (Hok _ _ H1) in H2. discriminate.
  - match goal with |- context [existsb ?f (conns P)] => destruct (existsb f (conns P)) eqn:E2 end.
    + apply existsb_exists in E2. destruct E2 as [[s d] [H1 H2]].
      destruct (wf_conns P HW s d s H1 (or_introl eq_refl)) as [p [q [Hp _]]]. destruct (wf_conns P HW s d d H1 (or_intror eq_refl)) as [p' [q' [Hp' _]]].
      cbn [fst snd] in H2. rewrite (Hok _ _ Hp), (Hok _ _ Hp') in H2. discriminate.
    + cbn [orb]. eauto.
Qed.
Lemma make_cache_iff : forall P, wf P -> (exists c, make_cache P = Some c) <-> cacheable P.
Proof.
  intros P HW. split.
  - intros [c H]. unfold make_cache in H. destruct (name_builders P [] (fresh_builders P)) as [kb|] eqn:E; [|discriminate].
    apply (name_builders_inv P (procs P) [] []) in E; [|reflexivity]. apply cacheable_bool. exact E.
  - intros HC. destruct (write_to_cache_ok P HW HC) as [ki [kc Hw]]. apply cacheable_bool in HC. destruct HC as [H1 H2].
    unfold make_cache. pose proof (name_builders_ok P (procs P) [] [] eq_refl H1 H2) as Hn. cbn [List.length] in Hn.
    unfold fresh_builders. rewrite Hn, Hw. eauto.
Qed.
Lemma make_cache_shape : forall P c, make_cache P = Some c ->
  k_builders c = map (fun p => (c_name p, with_params None (make_builder p))) (procs P)
  /\ k_inits c = map (fun x => ((name_at P (fst (fst x)), snd (fst x)), snd x)) (fresh_inits P)
  /\ k_conns c = map (fun sd => ((name_at P (fst (fst sd)), snd (fst sd)), (name_at P (fst (snd sd)), snd (snd sd)))) (conns P)
  /\ NoDup (names P).
Proof.
  intros P c H. unfold make_cache in H. destruct (name_builders P [] (fresh_builders P)) as [kb|] eqn:E; [|discriminate].
  destruct (write_to_cache P (fresh_inits P)) as [[ki kc]|] eqn:Ew; [|discriminate]. injection H as <-. cbn [k_builders k_inits k_conns].
  pose proof E as E'. apply (name_builders_inv P (procs P) [] []) in E'; [|reflexivity]. destruct E' as [H1 H2].
  pose proof (name_builders_ok P (procs P) [] [] eq_refl H1 H2) as Hn. cbn [List.length] in Hn.
  unfold fresh_builders in E. rewrite Hn in E. injection E as <-.
  unfold write_to_cache in Ew. match type of Ew with (if ?b then _ else _) = _ => destruct b; [discriminate |] end. injection Ew as <- <-. auto.
Qed.

(** ** Looking processes up by name *)
Lemma last_named_sound : forall n l i j p, last_named n i l = Some (j, p) -> i <= j /\ nth_error l (j - i) = Some p /\ c_name p = n.
Proof.
  intros n. induction l as [|q l IH]; intros i j p H; [discriminate |]. cbn [last_named] in H.
  destruct (last_named n (S i) l) as [[j' p']|] eqn:E.
  - injection H as -> ->. apply IH in E. destruct E as [H1 [H2 H3]]. split; [lia |]. split; [|exact H3].
    replace (j - i) with (S (j - S i)) by lia. exact H2.
  - destruct (String.eqb (c_name q) n) eqn:En; [|discriminate]. injection H as <- <-. apply String.eqb_eq in En.
    split; [lia |]. rewrite Nat.sub_diag. auto.
Qed.
Lemma last_named_complete : forall n l i, In n (map c_name l) -> exists j p, last_named n i l = Some (j, p).
Proof.
  intros n. induction l as [|q l IH]; intros i H; [contradiction |]. cbn [last_named].
  destruct (last_named n (S i) l) as [[j p]|] eqn:E; [eauto |].
  destruct H as [H|H]; [rewrite H, String.eqb_refl; eauto |]. destruct (IH (S i) H) as [j [p Hl]]. congruence.
Qed.
Lemma find_proc_sound : forall P n i p, find_proc P n = Some (i, p) -> nth_error (procs P) i = Some p /\ c_name p = n.
Proof. intros P n i p H. apply last_named_sound in H. rewrite Nat.sub_0_r in H. tauto. Qed.
Lemma NoDup_nth_inj : forall A B (f : A -> B) (l : list A) i j x y, NoDup (map f l) -> nth_error l i = Some x -> nth_error l j = Some y -> f x = f y -> i = j.
Proof.
  intros A B f l i j x y HN Hi Hj Hf.
  apply (proj1 (NoDup_nth_error (map f l)) HN); [rewrite map_length; apply nth_error_Some; rewrite Hi; discriminate |].
  rewrite (map_nth_error f i l Hi), (map_nth_error f j l Hj), Hf. reflexivity.
Qed.
Lemma find_proc_unique : forall P i p, NoDup (names P) -> nth_error (procs P) i = Some p -> find_proc P (c_name p) = Some (i, p).
Proof.
  intros P i p HN Hi. destruct (last_named_complete (c_name p) (procs P) 0) as [j [q Hq]]; [apply in_map, nth_error_In with i, Hi |].
  unfold find_proc. rewrite Hq. apply last_named_sound in Hq. rewrite Nat.sub_0_r in Hq. destruct Hq as [_ [Hq Hn]].
  assert (j = i) by (apply (NoDup_nth_inj _ _ c_name (procs P) j i q p HN Hq Hi Hn)). subst j. congruence.
Qed.

Lemma map_opt_In : forall A B (f : A -> option B) l r, map_opt f l = Some r -> forall y, In y r -> exists x, In x l /\ f x = Some y.
Proof.
  intros A B f. induction l as [|x l IH]; intros r H y Hy; cbn [map_opt] in H.
  - injection H as <-. contradiction.
  - destruct (f x) as [z|] eqn:E; [|discriminate]. destruct (map_opt f l) as [t|] eqn:Et; [|discriminate]. injection H as <-.
    destruct Hy as [<- |Hy]; [exists x; simpl; auto |]. destruct (IH t eq_refl y Hy) as [x' [H1 H2]]. exists x'. simpl; auto.
Qed.
Lemma map_opt_all : forall A B (f : A -> option B) l r, map_opt f l = Some r -> forall x, In x l -> exists y, f x = Some y /\ In y r.
Proof.
  intros A B f. induction l as [|x l IH]; intros r H y Hy; cbn [map_opt] in H; [contradiction |].
  destruct (f x) as [z|] eqn:E; [|discriminate]. destruct (map_opt f l) as [t|] eqn:Et; [|discriminate]. injection H as <-.
  destruct Hy as [<- |Hy]; [exists z; simpl; auto |]. destruct (IH t eq_refl y Hy) as [x' [H1 H2]]. exists x'. simpl; auto.
Qed.
Lemma map_opt_nth : forall A B (f : A -> option B) l r, map_opt f l = Some r -> forall k, nth_error r k = match nth_error l k with Some x => f x | None => None end.
Proof.
  intros A B f. induction l as [|x l IH]; intros r H k; cbn [map_opt] in H.
  - injection H as <-. destruct k; reflexivity.
  - destruct (f x) as [z|] eqn:E; [|discriminate]. destruct (map_opt f l) as [t|] eqn:Et; [|discriminate]. injection H as <-.
    destruct k as [|k]; simpl; [symmetry; exact E |]. apply IH. reflexivity.
Qed.
Lemma map_opt_map : forall A B C (g : A -> B) (f : B -> option C) l, map_opt f (map g l) = map_opt (fun x => f (g x)) l.
Proof. intros A B C g f. induction l as [|x l IH]; simpl; [reflexivity |]. rewrite IH. reflexivity. Qed.
Lemma map_opt_total : forall A B (f : A -> option B) (g : A -> B) l, (forall x, In x l -> f x = Some (g x)) -> map_opt f l = Some (map g l).
Proof.
  intros A B f g. induction l as [|x l IH]; intros H; [reflexivity |]. cbn [map_opt map]. rewrite (H x (or_introl eq_refl)).
  rewrite IH; [reflexivity |]. intros y Hy. apply H. right; exact Hy.
Qed.
Lemma map_opt_some : forall A B (f : A -> option B) l, (forall x, In x l -> exists y, f x = Some y) -> exists r, map_opt f l = Some r.
Proof.
  intros A B f. induction l as [|x l IH]; intros H; [exists []; reflexivity |]. cbn [map_opt]. destruct (H x (or_introl eq_refl)) as [y ->].
  destruct IH as [r ->]; [intros z Hz; apply H; right; exact Hz | eauto].
Qed.

(** ** Builders taken from the cache *)
Lemma with_params_twice : forall x y b, with_params x (with_params y b) = with_params x b.
Proof. reflexivity. Qed.
Lemma builder_of_In : forall i l b, builder_of i l = Some b -> In (i, b) l.
Proof.
  intros i. induction l as [|[j c] l IH]; intros b H; [discriminate |]. cbn [builder_of] in H.
  destruct (i =? j) eqn:E; [injection H as ->; apply Nat.eqb_eq in E; left; congruence | right; apply IH, H].
Qed.
Lemma builder_of_unique : forall i l b, NoDup (map fst l) -> In (i, b) l -> builder_of i l = Some b.
Proof.
  intros i. induction l as [|[j c] l IH]; intros b HN H; [contradiction |]. cbn [builder_of]. inversion HN as [|? ? Hj HN']; subst.
  destruct H as [H|H].
  - injection H as -> ->. rewrite Nat.eqb_refl. reflexivity.
  - destruct (i =? j) eqn:E; [|apply IH; assumption]. apply Nat.eqb_eq in E. subst j. destruct Hj. change i with (fst (i, b)). apply in_map, H.
Qed.
Definition cached_from (P P' : program) (i : nat) (b : builder) : Prop :=
  exists p p', In p (procs P) /\ nth_error (procs P') i = Some p' /\ find_proc P' (c_name p) = Some (i, p') /\ c_name p' = c_name p
               /\ b = with_params (Some (c_params p')) (make_builder p).
Lemma cached_builders : forall P P' c bs, make_cache P = Some c -> map_opt (assign_builder P') (k_builders c) = Some bs ->
  (forall i b, In (i, b) bs -> cached_from P P' i b)
  /\ NoDup (map fst bs)
  /\ (forall p, In p (procs P) -> exists i p', find_proc P' (c_name p) = Some (i, p') /\ In (i, with_params (Some (c_params p')) (make_builder p)) bs).
Proof.
  intros P P' c bs Hc Hb. destruct (make_cache_shape P c Hc) as [Hk [_ [_ HN]]]. rewrite Hk, map_opt_map in Hb. clear Hk Hc.
  split; [|split].
  - intros i b Hi. destruct (map_opt_In _ _ _ _ _ Hb _ Hi) as [p [Hp Ha]]. unfold assign_builder in Ha. cbn [fst snd] in Ha.
    destruct (find_proc P' (c_name p)) as [[j p']|] eqn:E; [|discriminate]. injection Ha as -> <-.
    destruct (find_proc_sound _ _ _ _ E) as [H1 H2]. exists p, p'. rewrite with_params_twice. auto.
  - unfold names in HN. revert bs Hb. induction (procs P) as [|p l IH]; intros bs Hb; cbn [map_opt] in Hb.
    + injection Hb as <-. constructor.
    + inversion HN as [|? ? Hp HN']; subst. match type of Hb with context [assign_builder P' ?x] => destruct (assign_builder P' x) as [[i b]|] eqn:E; [|discriminate] end.
      match type of Hb with context [map_opt ?f l] => destruct (map_opt f l) as [t|] eqn:Et; [|discriminate] end. injection Hb as <-. cbn [map fst]. constructor; [|apply IH; auto].
      intros Hi. apply in_map_iff in Hi. destruct Hi as [[j b'] [Hj Hi]]. cbn [fst] in Hj. subst j.
      destruct (map_opt_In _ _ _ _ _ Et _ Hi) as [q [Hq Hq']]. unfold assign_builder in E, Hq'. cbn [fst snd] in E, Hq'.
      destruct (find_proc P' (c_name p)) as [[j1 p1]|] eqn:E1; [|discriminate]. destruct (find_proc P' (c_name q)) as [[j2 p2]|] eqn:E2; [|discriminate].
      injection E as -> _. injection Hq' as -> _.
      apply find_proc_sound in E1. apply find_proc_sound in E2. destruct E1 as [E1 N1], E2 as [E2 N2]. rewrite E1 in E2. injection E2 as ->.
      apply Hp. rewrite <- N1, N2. apply in_map, Hq.
  - intros p Hp. destruct (map_opt_all _ _ _ _ _ Hb p Hp) as [[i b] [H1 H2]]. unfold assign_builder in H1. cbn [fst snd] in H1.
    destruct (find_proc P' (c_name p)) as [[j p']|] eqn:E; [|discriminate]. injection H1 as -> <-. exists i, p'. split; [reflexivity | exact H2].
Qed.
