(** C95: changing the parameters of a learning connection between two runs. *)
From Coq Require Import ZArith QArith Qround List Bool Ascii String Lia Lqa.
From Verif Require Import Bits_Model Learning_Model Learning_Props Rule_Model Rule_Spec Rule_Proofs Rule_Props Rule_Props2 FloatLearn_Model
  FloatLearn_Props RuleApply_Props Retune_Model Retune_Spec Retune_Proofs.
Import ListNotations.
Open Scope Z_scope.

(** the values of the impulses and taus are representable in the Vars *)
Definition fits_vars (cast : Q -> Q) (p : params) : Prop :=
  forall tr, cast (get_trace (p_imp p) tr) = get_trace (p_imp p) tr /\ cast (get_trace (p_tau p) tr) = get_trace (p_tau p) tr.
(** the Vars of a connection created with [p] *)
Definition stored (cast : Q -> Q) (p : params) : params :=
  {| p_text := p_text p; p_imp := cast_all cast (p_imp p); p_tau := cast_all cast (p_tau p) |}.
Lemma fits_stored cast p : fits_vars cast p -> stored cast p = p.
Proof.
  intros H. destruct p as [x [i1 i2 i3 i4 i5] [u1 u2 u3 u4 u5]]. unfold stored, cast_all. cbn [p_text p_imp p_tau at_x1 at_x2 at_y1 at_y2 at_y3].
  pose proof (H TX1) as A1. pose proof (H TX2) as A2. pose proof (H TY1) as A3. pose proof (H TY2) as A4. pose proof (H TY3) as A5.
  cbn [get_trace p_imp p_tau at_x1 at_x2 at_y1 at_y2 at_y3] in *.
  destruct A1 as (-> & ->), A2 as (-> & ->), A3 as (-> & ->), A4 as (-> & ->), A5 as (-> & ->). reflexivity.
Qed.

Section Props.
Variables (cast : Q -> Q) (applier_ok : list rproduct -> bool) (ST STIM : Type) (step : settings -> Z -> STIM -> ST -> ST).
Notation start := (start cast applier_ok ST).
Notation exec := (exec cast applier_ok ST STIM step).
Notation exec_all := (exec_all cast applier_ok ST STIM step).
Notation lives := (lives applier_ok cast ST STIM step).
Notation proper := (proper applier_ok).

(** A connection is created exactly if its parameters are proper, and then has the proper settings. *)
Theorem connection_created_iff : forall e p s,
  (start e p s <> None <-> exists c, proper e p c) /\ (forall m, start e p s = Some m -> proper e p (reads m)).
Proof.
  intros e p s. split.
  - split.
    + intros H. destruct (start e p s) as [m|] eqn:E; [|congruence]. destruct (start_spec cast applier_ok ST e p s m E) as (_ & F & _).
      exists (reads m). now apply fresh_proper.
    + intros (c & H) E. apply fresh_proper in H. apply start_fresh in E. congruence.
  - intros m E. destruct (start_spec cast applier_ok ST e p s m E) as (_ & F & _). now apply fresh_proper.
Qed.

(** Whatever time steps and changes follow, in any order: the connection goes through exactly the life of the ideal
    connection, in which every step follows the settings of a connection created with the present values; it ends with an
    error exactly where that life ends. *)
Theorem retuned_connection_follows_its_parameters : forall e p s m, fits_vars cast p -> start e p s = Some m ->
  forall l w,
  (exists m', exec_all m l = Some m' /\ m_vars m' = i_params w /\ m_time m' = i_time w /\ m_state m' = i_state w) <->
  lives e {| i_params := p; i_time := 0; i_state := s |} l w.
Proof.
  intros e p s m Hf E l w. destruct (start_spec cast applier_ok ST e p s m E) as (C & F & S1 & S2 & S3).
  fold (stored cast p) in S3. rewrite (fits_stored cast p Hf) in S3.
  assert (T : tuned applier_ok ST e m) by (split; [exact C|now rewrite S3]).
  assert (V : {| i_params := p; i_time := 0; i_state := s |} = view ST m) by (unfold view; now rewrite S1, S2, S3).
  rewrite V. split.
  - intros (m' & E' & V1 & V2 & V3). destruct (exec_lives cast applier_ok ST STIM step e l m m' T E') as (L & _).
    assert (view ST m' = w) as <- by (unfold view; rewrite V1, V2, V3; now destruct w). exact L.
  - intros L. destruct (lives_exec cast applier_ok ST STIM step e l m w T L) as (m' & E' & <-). exists m'. auto.
Qed.

(** If the values given to the learning rule are not representable in the Vars, the connection follows them only until the
    first change of any Var; then it follows the values in the Vars. *)
Theorem first_set_falls_back_to_stored_values : forall e p s m, start e p s = Some m ->
  forall steps c, proper e p c -> forall h l w, is_set h = true ->
  let state := fold_left (fun st ti => step c (fst ti) (snd ti) st) (combine (map Z.of_nat (seq 1 (List.length steps))) steps) s in
  (exists m', exec_all m (map Step steps ++ h :: l) = Some m' /\ m_vars m' = i_params w /\ m_time m' = i_time w /\ m_state m' = i_state w) <->
  match change cast (stored cast p) h with
  | Some q => (exists c', proper e q c') /\
      lives e {| i_params := q; i_time := Z.of_nat (List.length steps); i_state := match h with SetState f => f state | _ => state end |} l w
  | None => False
  end.
Proof.
  intros e p s m E steps c Hc h l w Hh state.
  destruct (start_spec cast applier_ok ST e p s m E) as (C & F & S1 & S2 & S3). fold (stored cast p) in S3.
  apply fresh_proper in Hc. assert (c = reads m) as -> by congruence. clear Hc.
  assert (G : forall st n m0, coherent ST e m0 -> reads m0 = reads m -> m_vars m0 = stored cast p -> m_time m0 = Z.of_nat n ->
     exists m1, (forall r, exec_all m0 (map Step st ++ r) = exec_all m1 r) /\ coherent ST e m1 /\ m_vars m1 = stored cast p /\
       m_time m1 = Z.of_nat (n + List.length st) /\
       m_state m1 = fold_left (fun x ti => step (reads m) (fst ti) (snd ti) x) (combine (map Z.of_nat (seq (S n) (List.length st))) st) (m_state m0)).
  { induction st as [|i st IH]; intros n m0 A1 A2 A3 A4.
    - exists m0. cbn [map app List.length seq combine fold_left]. repeat apply conj; try exact A3; try exact A1; try (rewrite Nat.add_0_r; exact A4); try reflexivity; apply A1.
    - destruct (IH (S n) (with_state ST (m_time m0 + 1) (step (reads m0) (m_time m0 + 1) i (m_state m0)) m0)) as (m1 & B1 & B2 & B3 & B4 & B5).
      + exact A1.
      + exact A2.
      + exact A3.
      + cbn [with_state m_time]. rewrite A4. lia.
      + exists m1. split; [|split; [exact B2|split; [exact B3|split]]].
        * intros r. cbn [map app Retune_Model.exec_all Retune_Model.exec obind]. apply B1.
        * rewrite B4. f_equal. cbn [List.length]. lia.
        * rewrite B5. cbn [with_state m_state List.length seq map combine fold_left fst snd]. rewrite A2, A4.
          replace (Z.of_nat n + 1) with (Z.of_nat (S n)) by lia. reflexivity. }
  destruct (G steps 0%nat m C eq_refl S3 S2) as (m1 & B1 & B2 & B3 & B4 & B5). clear G. rewrite S1 in B5. fold state in B5. cbn [Nat.add] in B4.
  rewrite B1. cbn [Retune_Model.exec_all]. pose proof (set_spec cast applier_ok ST STIM step e m1 h B2 Hh) as K. rewrite B3 in K.
  destruct (exec m1 h) as [m2|].
  - destruct K as (q & K1 & K2 & K3 & K4 & K5 & K6). rewrite K1. cbn [obind].
    assert (T : tuned applier_ok ST e m2) by (split; [exact K2|now rewrite K4]).
    assert (V : view ST m2 = {| i_params := q; i_time := Z.of_nat (List.length steps); i_state := match h with SetState f => f state | _ => state end |}).
    { unfold view. rewrite K4, K5, K6, B4, B5. reflexivity. }
    rewrite <- V. split.
    + intros (m' & E' & V1 & V2 & V3). split; [exists (reads m2); now apply fresh_proper|].
      destruct (exec_lives cast applier_ok ST STIM step e l m2 m' T E') as (L & _).
      assert (view ST m' = w) as <- by (unfold view; rewrite V1, V2, V3; now destruct w). exact L.
    + intros (_ & L). destruct (lives_exec cast applier_ok ST STIM step e l m2 w T L) as (m' & E' & <-). exists m'. auto.
  - cbn [obind]. split; [intros (m' & E' & _); discriminate E'|]. destruct (change cast (stored cast p) h) as [q|]; [|tauto].
    intros ((c' & P) & _). apply fresh_proper in P. congruence.
Qed.

(** the state a connection can be in *)
Definition reachable (e : Z) (m : pm ST) : Prop := exists p s m0 l, start e p s = Some m0 /\ exec_all m0 l = Some m.
Lemma exec_coherent e m h m' : coherent ST e m -> exec m h = Some m' -> coherent ST e m'.
Proof.
  intros C E. destruct (is_set h) eqn:Eh.
  - pose proof (set_spec cast applier_ok ST STIM step e m h C Eh) as K. rewrite E in K. destruct K as (p & _ & K & _). exact K.
  - destruct h; try discriminate Eh. cbn [Retune_Model.exec] in E. injection E as <-. exact C.
Qed.
Lemma exec_all_coherent e l : forall m m', coherent ST e m -> exec_all m l = Some m' -> coherent ST e m'.
Proof.
  induction l as [|h l IH]; intros m m' C E; cbn [Retune_Model.exec_all] in E; [injection E as <-; exact C|].
  destruct (exec m h) as [m1|] eqn:E1; [|discriminate E]. cbn [obind] in E. exact (IH m1 m' (exec_coherent e m h m1 C E1) E).
Qed.
(** the values in the Vars are never negative *)
Definition vars_fine (e : Z) (m : pm ST) : Prop := fresh applier_ok e (m_vars m) <> None.
Hypothesis cast_positive : forall q, (0 <= q)%Q -> (0 <= cast q)%Q.
Lemma stored_fine e p : fresh applier_ok e p <> None -> fresh applier_ok e (stored cast p) <> None.
Proof using cast_positive.
  unfold fresh, stored. cbn [p_text p_imp p_tau]. destruct (checked (p_imp p) (p_tau p)) eqn:K; [|cbn [andb]; congruence].
  assert (checked (cast_all cast (p_imp p)) (cast_all cast (p_tau p)) = true) as ->.
  { apply checked_spec. intros tr. destruct (proj1 (checked_spec _ _) K tr) as (A & B).
    destruct tr; cbn [get_trace cast_all at_x1 at_x2 at_y1 at_y2 at_y3] in *; auto. }
  destruct (0 <? e); cbn [andb]; [|congruence]. destruct (core (p_text p)) as [r|]; [|cbn [obind]; congruence]. cbn [obind].
  destruct (appliers applier_ok (snd r)); cbn [omap]; congruence.
Qed.
Lemma exec_fine e l : forall m m', coherent ST e m -> vars_fine e m -> exec_all m l = Some m' -> vars_fine e m'.
Proof using.
  induction l as [|h l IH]; intros m m' C P E; cbn [Retune_Model.exec_all] in E; [injection E as <-; exact P|].
  destruct (exec m h) as [m1|] eqn:E1; [|discriminate E]. cbn [obind] in E.
  refine (IH m1 m' (exec_coherent e m h m1 C E1) _ E). unfold vars_fine. destruct (is_set h) eqn:Eh.
  - pose proof (set_spec cast applier_ok ST STIM step e m h C Eh) as K. rewrite E1 in K. destruct K as (p & _ & _ & K & K' & _). rewrite K'. congruence.
  - destruct h; try discriminate Eh. cbn [Retune_Model.exec] in E1. injection E1 as <-. exact P.
Qed.
Lemma reachable_spec e m : reachable e m -> coherent ST e m /\ vars_fine e m.
Proof using cast_positive.
  intros (p & s & m0 & l & E & R). destruct (start_spec cast applier_ok ST e p s m0 E) as (C & F & _ & _ & V).
  split; [exact (exec_all_coherent e l m0 m C R)|]. apply (exec_fine e l m0 m C); [|exact R].
  unfold vars_fine. rewrite V. apply stored_fine. congruence.
Qed.
Lemma fresh_parts e p : fresh applier_ok e p <> None <->
  0 < e /\ (forall tr, 0 <= get_trace (p_imp p) tr /\ 0 <= get_trace (p_tau p) tr)%Q /\
  (exists y s, get_target (p_text p) y = Some s) /\ validate_uk (texts p) <> None /\
  (forall y s, get_target (p_text p) y = Some s -> exists ps k, compile s = Some (ps, k) /\ applier_ok ps = true).
Proof using.
  split.
  - intro H. destruct (fresh applier_ok e p) as [c|] eqn:E; [|congruence]. apply fresh_proper in E.
    destruct E as (E1 & _ & E2 & E3 & E4 & _ & _ & E5). repeat apply conj; try assumption; [congruence|].
    intros y s Hy. specialize (E5 y). rewrite Hy in E5. destruct E5 as (ps & k & A & B & _). exists ps, k. auto.
  - intros (H1 & H2 & H3 & H4 & H5) F.
    destruct (validate_uk (texts p)) as [k|] eqn:V; [|congruence].
    assert (X : forall y, exists r, match get_target (p_text p) y with None => r = None
                | Some s => exists ps k, compile s = Some (ps, k) /\ applier_ok ps = true /\ r = Some ps end).
    { intros y. destruct (get_target (p_text p) y) as [s|] eqn:E; [|exists None; reflexivity].
      destruct (H5 y s E) as (ps & j & A & B). exists (Some ps), ps, j. auto. }
    destruct (X SWeights) as (w & W). destruct (X STag2) as (d & D). destruct (X STag1) as (t & T).
    assert (proper e p {| st_epoch := e; st_dec := k; st_imp := p_imp p; st_tau := p_tau p; st_rules := {| at_w := w; at_d := d; at_t := t |} |}) as P.
    { unfold Retune_Spec.proper. cbn [st_epoch st_dec st_imp st_tau st_rules]. rewrite V.
      split; [exact H1|]. split; [reflexivity|]. split; [exact H3|]. split; [reflexivity|]. split; [exact H2|]. split; [reflexivity|]. split; [reflexivity|].
      intros []; [exact W|exact D|exact T]. }
    apply fresh_proper in P. congruence.
Qed.
(** Setting a number is refused exactly if the value stored is negative. *)
Theorem number_refused_iff_negative : forall e m, reachable e m -> forall tr v,
  (exec m (SetImpulse tr v) = None <-> ~ (0 <= cast v)%Q) /\ (exec m (SetTau tr v) = None <-> ~ (0 <= cast v)%Q).
Proof using cast_positive.
  intros e m R tr v. destruct (reachable_spec e m R) as (C & P). unfold vars_fine in P. pose proof P as P0. apply fresh_parts in P.
  destruct P as (P1 & P2 & P3 & P4 & P5). split.
  - pose proof (set_spec cast applier_ok ST STIM step e m (SetImpulse tr v) C eq_refl) as K. cbn [change] in K.
    destruct (exec m (SetImpulse tr v)) as [m'|].
    + split; [discriminate|]. intros N. exfalso. apply N. destruct K as (p & K1 & _ & K2 & _). injection K1 as <-.
      assert (fresh applier_ok e {| p_text := p_text (m_vars m); p_imp := put_trace tr (cast v) (p_imp (m_vars m)); p_tau := p_tau (m_vars m) |} <> None) as F by congruence.
      apply fresh_parts in F. destruct F as (_ & F & _). destruct (F tr) as (F1 & _). cbn [p_imp] in F1. destruct tr; exact F1.
    + split; [|reflexivity]. intros _ N. revert K. apply fresh_parts. repeat apply conj; try assumption. cbn [p_imp p_tau]. intros tr'.
      destruct (P2 tr') as (A & B). split; [|exact B]. destruct tr, tr'; cbn [put_trace get_trace at_x1 at_x2 at_y1 at_y2 at_y3] in *; assumption.
  - pose proof (set_spec cast applier_ok ST STIM step e m (SetTau tr v) C eq_refl) as K. cbn [change] in K.
    destruct (exec m (SetTau tr v)) as [m'|].
    + split; [discriminate|]. intros N. exfalso. apply N. destruct K as (p & K1 & _ & K2 & _). injection K1 as <-.
      assert (fresh applier_ok e {| p_text := p_text (m_vars m); p_imp := p_imp (m_vars m); p_tau := put_trace tr (cast v) (p_tau (m_vars m)) |} <> None) as F by congruence.
      apply fresh_parts in F. destruct F as (_ & F & _). destruct (F tr) as (_ & F1). cbn [p_tau] in F1. destruct tr; exact F1.
    + split; [|reflexivity]. intros _ N. revert K. apply fresh_parts. repeat apply conj; try assumption. cbn [p_imp p_tau]. intros tr'.
      destruct (P2 tr') as (A & B). split; [exact A|]. destruct tr, tr'; cbn [put_trace get_trace at_x1 at_x2 at_y1 at_y2 at_y3] in *; assumption.
Qed.
(** Setting any other Var (weights, traces, tags, ...) is never refused. *)
Theorem state_never_refused : forall e m, reachable e m -> forall f, exists m', exec m (SetState f) = Some m' /\ m_state m' = f (m_state m).
Proof using cast_positive.
  intros e m R f. destruct (reachable_spec e m R) as (C & P).
  pose proof (set_spec cast applier_ok ST STIM step e m (SetState f) C eq_refl) as K. destruct (exec m (SetState f)) as [m'|].
  - destruct K as (p & _ & _ & _ & _ & _ & K). exists m'. auto.
  - cbn [change] in K. contradiction.
Qed.
(** A new text is refused exactly if there was no rule for this variable, the text is no rule, or the periods u<k> of all
    rules no longer agree. *)
Theorem rule_refused_iff : forall e m, reachable e m -> forall y s,
  exec m (SetRule y s) = None <->
  get_target (p_text (m_vars m)) y = None \/
  (forall ps k, compile s = Some (ps, k) -> applier_ok ps = false) \/
  validate_uk (flat_map (fun z => match get_target (put_target y (Some s) (p_text (m_vars m))) z with Some x => [x] | None => [] end)
                 [SWeights; STag2; STag1]) = None.
Proof using cast_positive.
  intros e m R y s. destruct (reachable_spec e m R) as (C & P). unfold vars_fine in P. apply fresh_parts in P.
  destruct P as (P1 & P2 & P3 & P4 & P5).
  pose proof (set_spec cast applier_ok ST STIM step e m (SetRule y s) C eq_refl) as K. cbn [change] in K.
  assert (G1 : get_target (put_target y (Some s) (p_text (m_vars m))) y = Some s) by (destruct y; reflexivity).
  destruct (exec m (SetRule y s)) as [m'|].
  - split; [discriminate|]. destruct K as (p & K1 & _ & K2 & _).
    destruct (get_target (p_text (m_vars m)) y) as [s0|]; [|discriminate K1]. injection K1 as <-.
    match type of K2 with fresh _ _ ?q = _ => assert (F : fresh applier_ok e q <> None) by congruence end.
    apply fresh_parts in F. destruct F as (_ & _ & _ & F1 & F2). unfold texts in F1. cbn [p_text] in F1, F2.
    destruct (F2 y s G1) as (ps & k & A & B). intros [H|[H|H]]; [discriminate H|specialize (H ps k A); congruence|congruence].
  - split; [intros _|reflexivity]. destruct (get_target (p_text (m_vars m)) y) as [s0|] eqn:Ey; [|left; reflexivity]. right.
    destruct (compile s) as [[ps k]|] eqn:Es; [|left; intros; discriminate].
    destruct (applier_ok ps) eqn:Ea; [|left; intros q j H; injection H as <- <-; exact Ea]. right.
    match goal with |- ?x = None => destruct x eqn:V; [|reflexivity] end. exfalso. revert K. apply fresh_parts. cbn [p_text p_imp p_tau].
    split; [exact P1|]. split; [exact P2|]. split; [exists y, s; exact G1|]. split; [unfold texts; cbn [p_text]; congruence|].
    intros z x Hz. destruct y, z; cbn [get_target put_target at_w at_d at_t] in Hz; try (injection Hz as <-; exists ps, k; auto);
      match goal with |- _ => idtac end; solve [apply (P5 SWeights x Hz)|apply (P5 STag2 x Hz)|apply (P5 STag1 x Hz)].
Qed.
End Props.

(** ** Two rules with a period cannot get another period one after the other *)
Lemma validate_same ss d1 d2 : validate_uk ss <> None ->
  In d1 (flat_map (fun s => let c := list_ascii_of_string s in find_uks (List.length c) c) ss) ->
  In d2 (flat_map (fun s => let c := list_ascii_of_string s in find_uks (List.length c) c) ss) -> d1 = d2.
Proof.
  unfold validate_uk. destruct (flat_map _ ss) as [|d r]; [intros _ []|]. destruct (forallb (same_digits d) r) eqn:F; [|congruence]. intros _.
  assert (A : forall x, In x (d :: r) -> x = d).
  { intros x [<-|H]; [reflexivity|]. rewrite forallb_forall in F. specialize (F x H). unfold same_digits in F.
    destruct (list_eq_dec ascii_dec d x); [congruence|discriminate F]. }
  intros H1 H2. rewrite (A d1 H1), (A d2 H2). reflexivity.
Qed.
Lemma period_found s r k : wf_rule r -> list_ascii_of_string s = show_rule r -> In k (all_periods r) ->
  In [kchar k] (let c := list_ascii_of_string s in find_uks (List.length c) c) /\ (k < 10)%nat.
Proof.
  intros (_ & Hw & Hs) E H. cbn zeta. rewrite E, (find_uks_rule r Hw Hs _ (le_n _)). split; [apply in_map_iff; exists k; auto|].
  unfold all_periods in H. apply in_flat_map in H. destruct H as (t & Ht & H). rewrite Forall_forall in Hw. destruct (Hw t Ht) as (_ & A).
  exact (period_range _ A k H).
Qed.
(** A rule whose period differs from the period of another rule of the connection is refused - so two rules with a period
    cannot be moved to another period directly, in whatever order. *)
Theorem other_period_refused : forall cast applier_ok ST STIM step, (forall q, (0 <= q)%Q -> (0 <= cast q)%Q) ->
  forall e m, reachable cast applier_ok ST STIM step e m ->
  forall y z s s' r r' k k', y <> z -> get_target (p_text (m_vars m)) z = Some s' ->
  wf_rule r -> list_ascii_of_string s = show_rule r -> In k (all_periods r) ->
  wf_rule r' -> list_ascii_of_string s' = show_rule r' -> In k' (all_periods r') -> k <> k' ->
  exec cast applier_ok ST STIM step m (SetRule y s) = None.
Proof.
  intros cast aok ST STIM step Hc e m R y z s s' r r' k k' Hyz Hz Hr Es Hk Hr' Es' Hk' Hkk.
  apply (rule_refused_iff cast aok ST STIM step Hc e m R y s). right. right.
  match goal with |- validate_uk ?l = None => destruct (validate_uk l) eqn:V; [|reflexivity]; exfalso; set (ss := l) in * end.
  destruct (period_found s r k Hr Es Hk) as (A & A'). destruct (period_found s' r' k' Hr' Es' Hk') as (B & B').
  assert (I1 : In s ss). { unfold ss. apply in_flat_map. exists y. split; [destruct y; cbn; tauto|]. destruct y; left; reflexivity. }
  assert (I2 : In s' ss). { unfold ss. apply in_flat_map. exists z. split; [destruct z; cbn; tauto|].
    destruct y, z; try congruence; cbn [get_target put_target at_w at_d at_t] in Hz |- *; rewrite Hz; left; reflexivity. }
  apply Hkk. apply (kchar_inj k k' A' B').
  assert ([kchar k] = [kchar k']) as Q by (apply (validate_same ss); [congruence|apply in_flat_map; exists s; auto|apply in_flat_map; exists s'; auto]).
  now injection Q.
Qed.

(** ** Floating-point connections *)
Lemma float_positive : forall q, (0 <= q)%Q -> (0 <= float_cast q)%Q.
Proof. intros q H. exact H. Qed.
Lemma fixed_positive : forall q, (0 <= q)%Q -> (0 <= fixed_cast q)%Q.
Proof.
  intros [n d] H. unfold fixed_cast. cbn [Qnum Qden]. unfold Qle in *. cbn [Qnum Qden inject_Z] in *.
  assert (0 <= n) by lia. pose proof (Z.quot_pos n (Zpos d) H0 (Pos2Z.is_pos d)). lia.
Qed.
(** every floating-point value is representable: no restriction on the parameters *)
Theorem float_follows_its_parameters : forall decay sm g e p s m,
  start float_cast applier_builds fconn e p s = Some m ->
  forall l w,
  (exists m', exec_all float_cast applier_builds fconn fstim (float_step decay sm g) m l = Some m' /\
     m_vars m' = i_params w /\ m_time m' = i_time w /\ m_state m' = i_state w) <->
  lives applier_builds float_cast fconn fstim (float_step decay sm g) e {| i_params := p; i_time := 0; i_state := s |} l w.
Proof.
  intros decay sm g e p s m E. apply retuned_connection_follows_its_parameters; [|exact E]. intro tr. split; reflexivity.
Qed.
(** the number given for a trace *)
Definition value_of (f : traces Q) (tr : trace) : Q :=
  let '{| at_x1 := a; at_x2 := b; at_y1 := c; at_y2 := d; at_y3 := e |} := f in
  match tr with TX1 => a | TX2 => b | TY1 => c | TY2 => d | TY3 => e end.
(** the settings of a step are those of the connection of C83 built with the present values *)
Theorem float_settings_are_built : forall decay sm g e p c, proper applier_builds e p c ->
  build e sm g (float_traces decay (p_imp p) (p_tau p)) (get_target (p_text p)) = Some (float_cfg decay sm g c) /\
  (forall tr, f_impulse (fc_trace (float_cfg decay sm g c) tr) = value_of (p_imp p) tr) /\
  (forall tr, f_decay (fc_trace (float_cfg decay sm g c) tr) = None <-> value_of (p_tau p) tr == 0)%Q /\
  (forall tr, ~ value_of (p_tau p) tr == 0 -> f_decay (fc_trace (float_cfg decay sm g c) tr) = Some (decay (value_of (p_tau p) tr)))%Q.
Proof.
  intros decay sm g e p c P. pose proof P as (P1 & P2 & P3 & P4 & P5 & P6 & P7 & P8).
  assert (forall tr, get_trace (st_imp c) tr = value_of (p_imp p) tr /\ get_trace (st_tau c) tr = value_of (p_tau p) tr) as G.
  { rewrite P6, P7. intros []; split; reflexivity. }
  split; [|split; [intro tr; cbn; apply G|]];
  [|split; intro tr; cbn; rewrite (proj2 (G tr)); destruct (Qeq_bool (value_of (p_tau p) tr) 0) eqn:Z0;
    [apply Qeq_bool_iff in Z0; tauto|apply Qeq_bool_neq in Z0; split; [discriminate|contradiction]
    |apply Qeq_bool_iff in Z0; contradiction|reflexivity]].
  unfold build, float_cfg. rewrite P2, P6, P7.
  change (flat_map (fun y => match get_target (p_text p) y with Some s => [s] | None => [] end) [SWeights; STag2; STag1]) with (texts p).
  assert (Nat.eqb (List.length (texts p)) 0 = false) as -> by (rewrite texts_active; now apply no_texts).
  rewrite P4. pose proof (P8 SWeights) as W. pose proof (P8 STag2) as D. pose proof (P8 STag1) as T. unfold build_rule.
  cbn [get_target] in *. destruct c as [ce ck ci cu [w d t]]. cbn [st_rules at_w at_d at_t st_epoch st_dec st_imp st_tau] in *.
  destruct (at_w (p_text p)) as [sw|]; [destruct W as (? & ? & -> & -> & ->)|subst w];
  (destruct (at_d (p_text p)) as [sd|]; [destruct D as (? & ? & -> & -> & ->)|subst d]);
  (destruct (at_t (p_text p)) as [st|]; [destruct T as (? & ? & -> & -> & ->)|subst t]); reflexivity.
Qed.

(** on a fixed-point connection an impulse is split into its whole part and 128ths, rounded to the nearest (halves to even) *)
Theorem fixed_settings_are_built : forall decay sm g e p c tr, proper applier_builds e p c ->
  let k := cfg_trace (fixed_cfg decay sm g c) tr in let imp := value_of (p_imp p) tr in let tau := value_of (p_tau p) tr in
  (inject_Z (imp_int k) <= imp < inject_Z (imp_int k) + 1)%Q /\
  (let d := (imp - inject_Z (imp_int k)) * 128 - inject_Z (imp_frac k) in
   - (1 # 2) <= d <= 1 # 2 /\ (d == 1 # 2 \/ d == - (1 # 2) -> Z.even (imp_frac k) = true))%Q /\
  (decay_fn k = None <-> tau == 0)%Q /\ (~ tau == 0 -> decay_fn k = Some (decay tau))%Q.
Proof.
  intros decay sm g e p c tr P k imp tau. pose proof P as (P1 & P2 & P3 & P4 & P5 & P6 & P7 & P8).
  assert (get_trace (st_imp c) tr = imp /\ get_trace (st_tau c) tr = tau) as [G1 G2] by (rewrite P6, P7; unfold imp, tau; destruct tr; split; reflexivity).
  unfold k. cbn [fixed_cfg cfg_trace]. rewrite G1, G2. cbn [fixed_trace imp_int imp_frac decay_fn].
  split; [split; [apply Qfloor_le|]|split].
  - pose proof (Qlt_floor imp) as F. rewrite inject_Z_plus in F. exact F.
  - set (q := ((imp - inject_Z (Qfloor imp)) * 128)%Q). unfold np_round.
    pose proof (Qfloor_le q) as F1. pose proof (Qlt_floor q) as F2. rewrite inject_Z_plus in F2. change (inject_Z 1) with 1%Q in F2.
    destruct (Qcompare_spec (q - inject_Z (Qfloor q)) (1 # 2)) as [E|E|E].
    + destruct (Z.even (Qfloor q)) eqn:V.
      * split; [split; lra|]. intros _. exact V.
      * rewrite inject_Z_plus. change (inject_Z 1) with 1%Q. split; [split; lra|]. intros _. rewrite Z.even_add, V. reflexivity.
    + split; [split; lra|]. intros [D|D]; lra.
    + rewrite inject_Z_plus. change (inject_Z 1) with 1%Q. split; [split; lra|]. intros [D|D]; lra.
  - destruct (Qeq_bool tau 0) eqn:Z0; [apply Qeq_bool_iff in Z0; tauto|apply Qeq_bool_neq in Z0].
    split; [split; [discriminate|contradiction]|reflexivity].
Qed.

(** ** A change in the middle of an epoch acts on the whole epoch *)
Definition retunes_late {ST STIM} (h : happening ST STIM) : Prop := match h with SetRule _ _ | SetTau _ _ => True | _ => False end.
Section Epoch.
Variables (cast : Q -> Q) (applier_ok : list rproduct -> bool) (ST STIM : Type) (step : settings -> Z -> STIM -> ST -> ST).
Hypothesis spiking : forall c c' t i s, st_epoch c' = st_epoch c -> st_imp c' = st_imp c -> t mod st_epoch c <> 0 -> step c' t i s = step c t i s.
Lemma late_one e m h i : tuned applier_ok ST e m -> retunes_late h -> (m_time m + 1) mod e <> 0 ->
  omap (view ST) (exec_all cast applier_ok ST STIM step m [Step i; h]) = omap (view ST) (exec_all cast applier_ok ST STIM step m [h; Step i]).
Proof using spiking.
  intros (C & F) Hh Ht.
  assert (Hs : is_set h = true) by (destruct h; try contradiction; reflexivity).
  cbn [exec_all exec obind]. set (m1 := with_state ST (m_time m + 1) (step (reads m) (m_time m + 1) i (m_state m)) m).
  pose proof (set_spec cast applier_ok ST STIM step e m1 h C Hs) as K1. pose proof (set_spec cast applier_ok ST STIM step e m h C Hs) as K2.
  change (m_vars m1) with (m_vars m) in K1.
  destruct (exec cast applier_ok ST STIM step m1 h) as [a|], (exec cast applier_ok ST STIM step m h) as [b|]; cbn [obind omap].
  - destruct K1 as (p & A1 & A2 & A3 & A4 & A5 & A6). destruct K2 as (p' & B1 & B2 & B3 & B4 & B5 & B6).
    assert (p' = p) as -> by congruence. unfold view. cbn [m_vars m_time m_state with_state]. rewrite A4, A5, A6, B4, B5, B6.
    assert (reads b = reads a) as R by congruence.
    assert (st_epoch (reads b) = st_epoch (reads m) /\ st_imp (reads b) = st_imp (reads m)) as (R1 & R2).
    { split.
      - destruct B2 as (_ & _ & B2 & _). destruct C as (_ & _ & C & _). cbn [reads st_epoch]. congruence.
      - apply fresh_proper in B3. apply fresh_proper in F. destruct B3 as (_ & _ & _ & _ & _ & B3 & _). destruct F as (_ & _ & _ & _ & _ & F & _).
        rewrite B3, F. destruct h; try contradiction; cbn [change] in B1; [|injection B1 as <-; reflexivity].
        destruct (get_target _ y); [injection B1 as <-; reflexivity|discriminate B1]. }
    assert (st_epoch (reads m) = e) as R3 by (destruct C as (_ & _ & C & _); exact C).
    destruct h; try contradiction; unfold m1; cbn [m_time m_state with_state]; rewrite (spiking (reads m) (reads b)); try assumption; try reflexivity; now rewrite R3.
  - destruct K1 as (p & A1 & _ & A3 & _). rewrite A1 in K2. congruence.
  - destruct K2 as (p & A1 & _ & A3 & _). rewrite A1 in K1. congruence.
  - reflexivity.
Qed.
Lemma view_exec e l : forall a b, tuned applier_ok ST e a -> tuned applier_ok ST e b -> view ST a = view ST b ->
  omap (view ST) (exec_all cast applier_ok ST STIM step a l) = omap (view ST) (exec_all cast applier_ok ST STIM step b l).
Proof using.
  intros a b Ta Tb V.
  destruct (exec_all cast applier_ok ST STIM step a l) as [a'|] eqn:Ea.
  - destruct (exec_lives cast applier_ok ST STIM step e l a a' Ta Ea) as (L & _). rewrite V in L.
    destruct (lives_exec cast applier_ok ST STIM step e l b _ Tb L) as (b' & -> & Vb). cbn [omap]. now rewrite Vb.
  - destruct (exec_all cast applier_ok ST STIM step b l) as [b'|] eqn:Eb; [|reflexivity].
    destruct (exec_lives cast applier_ok ST STIM step e l b b' Tb Eb) as (L & _). rewrite <- V in L.
    destruct (lives_exec cast applier_ok ST STIM step e l a _ Ta L) as (a' & Ea' & _). congruence.
Qed.
Lemma late_all e h is : forall m, tuned applier_ok ST e m -> retunes_late h ->
  (forall n, (n < List.length is)%nat -> (m_time m + 1 + Z.of_nat n) mod e <> 0) ->
  omap (view ST) (exec_all cast applier_ok ST STIM step m (map Step is ++ [h])) =
  omap (view ST) (exec_all cast applier_ok ST STIM step m (h :: map Step is)).
Proof using spiking.
  induction is as [|i is IH]; intros m T Hh Ht; [reflexivity|].
  cbn [map app]. destruct (tuned_step cast applier_ok ST STIM step e m i T) as (m1 & E1 & T1 & V1 & R1).
  assert (m_time m1 = m_time m + 1) as M1 by (cbn [exec] in E1; injection E1 as <-; reflexivity).
  assert (exec_all cast applier_ok ST STIM step m (Step i :: map Step is ++ [h]) = exec_all cast applier_ok ST STIM step m1 (map Step is ++ [h])) as ->.
  { cbn [exec_all]. rewrite E1. reflexivity. }
  rewrite (IH m1 T1 Hh).
  2: { intros n Hn. rewrite M1. replace (m_time m + 1 + 1 + Z.of_nat n) with (m_time m + 1 + Z.of_nat (S n)) by lia. apply Ht. cbn [List.length]. lia. }
  pose proof (late_one e m h i T Hh) as K. specialize (Ht 0%nat ltac:(cbn [List.length]; lia)). rewrite Z.add_0_r in Ht. specialize (K Ht).
  cbn [exec_all] in K |- *. rewrite E1 in K. cbn [obind] in K.
  assert (Hs : is_set h = true) by (destruct h; try contradiction; reflexivity).
  destruct (exec cast applier_ok ST STIM step m1 h) as [a|] eqn:Ea; destruct (exec cast applier_ok ST STIM step m h) as [b|] eqn:Eb; cbn [obind omap] in K |- *;
    [|discriminate K|destruct (exec cast applier_ok ST STIM step b (Step i)); [cbn [obind omap] in K; discriminate K|reflexivity]|reflexivity].
  destruct (exec cast applier_ok ST STIM step b (Step i)) as [b1|] eqn:Eb1; [|discriminate K]. cbn [obind omap] in K |- *. injection K as K1 K2 K3.
  assert (Tb : tuned applier_ok ST e b).
  { pose proof (set_spec cast applier_ok ST STIM step e m h (proj1 T) Hs) as K. rewrite Eb in K. destruct K as (p & _ & C & F & V & _). split; [exact C|now rewrite V]. }
  assert (Ta : tuned applier_ok ST e a).
  { pose proof (set_spec cast applier_ok ST STIM step e m1 h (proj1 T1) Hs) as K. rewrite Ea in K. destruct K as (p & _ & C & F & V & _). split; [exact C|now rewrite V]. }
  destruct (tuned_step cast applier_ok ST STIM step e b i Tb) as (b1' & Eq & Tb1 & _). rewrite Eb1 in Eq. injection Eq as <-.
  apply (view_exec e); [exact Ta|exact Tb1|]. unfold view. now rewrite K1, K2, K3.
Qed.
Theorem late_change_section : forall e p s m0 l m, fits_vars cast p -> start cast applier_ok ST e p s = Some m0 ->
  exec_all cast applier_ok ST STIM step m0 l = Some m ->
  forall h is, retunes_late h -> (forall n, (n < List.length is)%nat -> (m_time m + 1 + Z.of_nat n) mod e <> 0) ->
  omap (view ST) (exec_all cast applier_ok ST STIM step m (map Step is ++ [h])) =
  omap (view ST) (exec_all cast applier_ok ST STIM step m (h :: map Step is)).
Proof using spiking.
  intros e p s m0 l m Hf E L h is Hh Ht. apply (late_all e); [|exact Hh|exact Ht].
  destruct (start_spec cast applier_ok ST e p s m0 E) as (C & F & S1 & S2 & S3). fold (stored cast p) in S3. rewrite (fits_stored cast p Hf) in S3.
  apply (exec_lives cast applier_ok ST STIM step e l m0 m); [split; [exact C|now rewrite S3]|exact L].
Qed.
End Epoch.
Lemma float_spiking decay sm g : forall c c' t i s, st_epoch c' = st_epoch c -> st_imp c' = st_imp c -> t mod st_epoch c <> 0 ->
  float_step decay sm g c' t i s = float_step decay sm g c t i s.
Proof.
  intros c c' t i s E I H. unfold float_step, fstep. cbn [fc_epoch float_cfg]. rewrite E. unfold lrn_guard.
  destruct (Z.eqb_spec (t mod st_epoch c) 0); [contradiction|]. unfold fspike_phase, float_cfg, float_traces. cbn [fc_epoch fc_graded fc_trace f_impulse].
  rewrite E, I. reflexivity.
Qed.
Lemma fixed_spiking decay sm g : forall c c' t i s, st_epoch c' = st_epoch c -> st_imp c' = st_imp c -> t mod st_epoch c <> 0 ->
  fixed_step decay sm g c' t i s = fixed_step decay sm g c t i s.
Proof.
  intros c c' t i s E I H. unfold fixed_step, conn_step. cbn [t_epoch fixed_cfg]. rewrite E. unfold lrn_guard.
  destruct (Z.eqb_spec (t mod st_epoch c) 0); [contradiction|].
  unfold spike_phase, fixed_cfg, fixed_trace, pre_spike, post_spike, add_impulse. cbn [t_epoch cfg_graded cfg_trace imp_int imp_frac].
  rewrite E, I. reflexivity.
Qed.
(** Setting a rule or a time constant before or after any time steps of the same epoch makes no difference: at the end of
    the epoch the new rule is applied to the whole epoch and the traces decay with the new constants since its beginning. *)
Theorem float_late_change_acts_on_whole_epoch : forall decay sm g e p s m0 l m,
  start float_cast applier_builds fconn e p s = Some m0 ->
  exec_all float_cast applier_builds fconn fstim (float_step decay sm g) m0 l = Some m ->
  forall h is, retunes_late h -> (forall n, (n < List.length is)%nat -> (m_time m + 1 + Z.of_nat n) mod e <> 0) ->
  omap (view fconn) (exec_all float_cast applier_builds fconn fstim (float_step decay sm g) m (map Step is ++ [h])) =
  omap (view fconn) (exec_all float_cast applier_builds fconn fstim (float_step decay sm g) m (h :: map Step is)).
Proof.
  intros decay sm g e p s m0 l m E. eapply late_change_section; [apply float_spiking| |exact E]. intro tr. split; reflexivity.
Qed.
Theorem fixed_late_change_acts_on_whole_epoch : forall decay sm g e p s m0 l m,
  fits_vars fixed_cast p -> start fixed_cast fixed_applier_ok conn e p s = Some m0 ->
  exec_all fixed_cast fixed_applier_ok conn stimulus (fixed_step decay sm g) m0 l = Some m ->
  forall h is, retunes_late h -> (forall n, (n < List.length is)%nat -> (m_time m + 1 + Z.of_nat n) mod e <> 0) ->
  omap (view conn) (exec_all fixed_cast fixed_applier_ok conn stimulus (fixed_step decay sm g) m (map Step is ++ [h])) =
  omap (view conn) (exec_all fixed_cast fixed_applier_ok conn stimulus (fixed_step decay sm g) m (h :: map Step is)).
Proof. intros decay sm g e p s m0 l m F E. eapply late_change_section; [apply fixed_spiking|exact F|exact E]. Qed.
