(** C65: spaces in learning rules.  They are harmless except between u and its number. *)
From Coq Require Import ZArith QArith List Bool Ascii String Lia.
From Verif Require Import Learning_Model Rule_Model Rule_Spec Rule_Proofs Rule_Props Rule_Props2.
Import ListNotations.
Open Scope Z_scope.

(** every u of the text is directly followed by a digit *)
Fixpoint tight (s : list ascii) : Prop :=
  match s with
  | [] => True
  | c :: r => (c = "u"%char -> match r with d :: _ => In d (list_ascii_of_string "0123456789") | [] => False end) /\ tight r
  end.

Lemma digit_in c : In c digit_chars <-> is_digit c = true.
Proof.
  split.
  - intros H. cbn in H. repeat (destruct H as [<-|H]; [reflexivity|]). destruct H.
  - intros H. destruct c as [[] [] [] [] [] [] [] []]; try discriminate H; cbn; tauto.
Qed.
(** in the text of a rule every u is followed by exactly one digit *)
Fixpoint single (s : chars) : Prop :=
  match s with
  | [] => True
  | c :: r => (c = "u"%char -> match r with d :: r' => is_digit d = true /\ not_digit_first r' | [] => False end) /\ single r
  end.
Lemma single_skip w : no_u w -> forall rest, single rest -> single (w ++ rest).
Proof. induction 1 as [|c w Hc Hw IH]; intros rest Hr; [exact Hr|]. cbn [List.app single]. split; [congruence|]. apply IH, Hr. Qed.
Lemma single_atom a rest : wf_atom a -> not_digit_first rest -> single rest -> single (show_atom a ++ rest).
Proof.
  intros Hw Hr Hs. destruct (aperiod a) as [k|] eqn:E.
  - destruct a as [e|v|l|i|i]; try discriminate E. destruct e as [| |k']; try discriminate E. injection E as ->.
    cbn [wf_atom] in Hw. change (show_atom (AEvent (Periodic k)) ++ rest) with ("u"%char :: kchar k :: rest). cbn [single].
    assert (In (kchar k) digit_chars) as Hk by (apply nth_In; exact Hw). split; [intros _; split; [now apply digit_in|exact Hr]|]. split; [|exact Hs].
    intros Hu. rewrite Hu in Hk. cbn in Hk. repeat (destruct Hk as [Hk|Hk]; [discriminate Hk|]). destruct Hk.
  - apply single_skip; [now apply nu_atom|exact Hs].
Qed.
Lemma single_atoms l : l <> [] -> Forall wf_atom l -> forall rest, not_digit_first rest -> single rest -> single (show_atoms l ++ rest).
Proof.
  induction l as [|a l IH]; intros Hne Hw rest Hr Hs; [congruence|]. inversion Hw; subst. destruct l as [|b l].
  - cbn [show_atoms]. now apply single_atom.
  - rewrite show_atoms_cons by discriminate. rewrite <- app_assoc. cbn [List.app]. apply single_atom; [assumption|reflexivity|].
    cbn [single]. split; [discriminate|]. apply IH; try assumption. discriminate.
Qed.
Lemma single_rule r : Forall wf_term r -> Forall (fun t => t_sign t <> NoSign) (tl r) -> single (show_rule r).
Proof.
  induction 1 as [|t r [Hne Ht] Hw IH]; intros Hs; [exact I|]. cbn [tl] in Hs.
  assert (Hs' : Forall (fun t => t_sign t <> NoSign) (tl r)) by (destruct r; [constructor|now inversion Hs]).
  change (show_rule (t :: r)) with (show_term t ++ show_rule r). unfold show_term. rewrite <- app_assoc.
  apply single_skip; [apply nu_sign|]. apply single_atoms; [exact Hne|exact Ht| |exact (IH Hs')].
  pose proof (sep_rule r Hs) as S. rewrite texts_rule in S. destruct (show_rule r) as [|c x]; [exact I|]. destruct S as [->| ->]; reflexivity.
Qed.
Definition nsp (c : ascii) : bool := negb (Ascii.eqb " " c).
Lemma digits_none s : not_digit_first s -> digits s = ([], s).
Proof. destruct s as [|c r]; [reflexivity|]. cbn. intros ->. reflexivity. Qed.
Lemma strip_not_digit s : not_digit_first (filter nsp s) -> match s with " "%char :: _ => True | _ => not_digit_first s end.
Proof.
  destruct s as [|c r]; [trivial|]. cbn [filter]. unfold nsp at 1. destruct (Ascii.eqb_spec " " c) as [<-|N]; [trivial|]. cbn [negb].
  intros H. destruct c as [[] [] [] [] [] [] [] []]; exact H || exact I.
Qed.
Lemma find_uks_spaces : forall k l n m, (List.length l <= k)%nat -> (List.length l <= n)%nat -> (List.length (filter nsp l) <= m)%nat ->
  tight l -> single (filter nsp l) -> find_uks n l = find_uks m (filter nsp l).
Proof.
  induction k as [|k IH]; intros l n m Hk Hn Hm Ht Hs.
  - destruct l; [|cbn in Hk; lia]. destruct n, m; reflexivity.
  - destruct l as [|c r]; [destruct n, m; reflexivity|]. cbn [List.length] in Hk, Hn. destruct n as [|n]; [lia|]. cbn [tight] in Ht. destruct Ht as [Hu Ht].
    cbn [find_uks]. cbn [filter] in *. unfold nsp at 1 in Hm. unfold nsp at 1 in Hs. unfold nsp at 1.
    destruct (Ascii.eqb_spec " " c) as [<-|Nsp]; cbn [negb] in *.
    + change (is_char "u" " ") with false. cbv iota. apply IH; try assumption; lia.
    + cbn [List.length] in Hm. destruct m as [|m]; [lia|]. cbn [single] in Hs. destruct Hs as [Hsu Hs]. cbn [find_uks]. unfold is_char.
      destruct (Ascii.eqb_spec "u" c) as [<-|Nu]; [|apply IH; try assumption; lia].
      specialize (Hu eq_refl). specialize (Hsu eq_refl). destruct r as [|d r]; [contradiction|]. apply digit_in in Hu.
      assert (nsp d = true) as Ed. { unfold nsp. destruct (Ascii.eqb_spec " " d) as [<-|_]; [discriminate Hu|reflexivity]. }
      cbn [filter] in *. rewrite Ed in *. destruct Hsu as [_ Hnd].
      assert (digits (d :: filter nsp r) = ([d], filter nsp r)) as ->. { cbn [digits]. rewrite Hu, (digits_none _ Hnd). reflexivity. }
      assert (digits (d :: r) = ([d], r)) as ->.
      { cbn [digits]. rewrite Hu. pose proof (strip_not_digit r Hnd) as A. destruct r as [|x r']; [reflexivity|].
        assert (not_digit_first (x :: r')) as B by (destruct x as [[] [] [] [] [] [] [] []]; try exact A; reflexivity).
        now rewrite (digits_none _ B). }
      f_equal. cbn [List.length] in *. cbn [single] in Hs. destruct Hs as [_ Hs]. cbn [tight] in Ht. destruct Ht as [_ Ht]. apply IH; try assumption; lia.
Qed.
(** The LearningRule finds the period of rules whose texts have spaces, if no space is between u and its number. *)
Theorem learning_rule_period_spaces : forall rs ss, Forall wf_rule rs -> Forall2 writes ss rs -> Forall (fun s => tight (list_ascii_of_string s)) ss ->
  let ks := flat_map (fun r => flat_map (fun t => periods (t_atoms t)) r) rs in
  (validate_uk ss = None <-> exists k k', In k ks /\ In k' ks /\ k <> k') /\
  (validate_uk ss = Some None <-> ks = []) /\
  (forall k, validate_uk ss = Some (Some (Z.of_nat k)) <-> In k ks /\ forall k', In k' ks -> k' = k).
Proof.
  intros rs ss Hw H2 Ht.
  assert (validate_uk ss = validate_uk (map (fun r => string_of_list_ascii (show_rule r)) rs)) as ->.
  { unfold validate_uk.
    match goal with |- match ?x with _ => _ end = match ?y with _ => _ end => assert (x = y) as ->; [|reflexivity] end.
    induction H2 as [|s r ss rs Hwr H2 IH]; [reflexivity|]. inversion Hw as [|? ? (W0 & W1 & W2) Hw']; subst. inversion Ht as [|? ? T1 T2]; subst.
    cbn [flat_map map]. cbv zeta. rewrite (IH Hw' T2). f_equal. rewrite list_ascii_of_string_of_list_ascii. unfold writes in Hwr.
    change (filter nsp (list_ascii_of_string s) = show_rule r) in Hwr.
    pose proof (single_rule r W1 W2) as Hs. revert Hs. generalize dependent (show_rule r). intros l <- Hs.
    apply (find_uks_spaces (List.length (list_ascii_of_string s))); try lia; [exact T1|exact Hs]. }
  apply (learning_rule_period rs Hw). rewrite map_map. apply map_ext. intros r. apply list_ascii_of_string_of_list_ascii.
Qed.
Example spaces_demo : tight (list_ascii_of_string "u1 * w - x0 * (2 + y1)") /\ ~ tight (list_ascii_of_string "u 1 * w").
Proof.
  split.
  - cbn. repeat split; try discriminate. intros _. tauto.
  - cbn. intros [H _]. specialize (H eq_refl). repeat (destruct H as [H|H]; [discriminate H|]). destruct H.
Qed.
