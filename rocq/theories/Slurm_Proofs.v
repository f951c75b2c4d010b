(** Lemmas for C101. *)
From Coq Require Import List String Ascii Bool Arith Lia.
From Verif Require Import Slurm_Model Slurm_Spec.
Import ListNotations.
Open Scope string_scope.

Lemma append_nil_r : forall s, s ++ "" = s.
Proof. induction s as [|c s IH]; simpl; [reflexivity|now rewrite IH]. Qed.

Lemma append_assoc : forall a b c : string, (a ++ b) ++ c = a ++ (b ++ c).
Proof. induction a as [|x a IH]; intros b c; simpl; [reflexivity|now rewrite IH]. Qed.

Lemma Occurs_app : forall c a b, Occurs c (a ++ b) <-> Occurs c a \/ Occurs c b.
Proof. intros c a b; induction a as [|x a IH]; simpl; [tauto|rewrite IH; tauto]. Qed.

(** ** lines *)
Lemma split_newline_nonempty : forall t, split_newline t <> [].
Proof.
  destruct t as [|c t]; simpl; [discriminate|].
  destruct (Ascii.eqb c newline); [discriminate|].
  destruct (split_newline t); discriminate.
Qed.

Lemma concat_cons : forall sep x y ys, String.concat sep (x :: y :: ys) = x ++ sep ++ String.concat sep (y :: ys).
Proof. reflexivity. Qed.

Lemma split_newline_lines : forall t, Lines t (split_newline t).
Proof.
  induction t as [|c t IH]; simpl.
  - split; [discriminate|split; [reflexivity|]]. repeat constructor. intros [].
  - destruct IH as (Hne & Hc & Hf).
    destruct (Ascii.eqb c newline) eqn:E.
    + apply Ascii.eqb_eq in E. subst c.
      split; [discriminate|split].
      * destruct (split_newline t) as [|w ws]; [congruence|].
        rewrite concat_cons, <- Hc. reflexivity.
      * constructor; [intros []|exact Hf].
    + destruct (split_newline t) as [|w ws]; [congruence|].
      split; [discriminate|split].
      * destruct ws as [|w' ws'].
        -- simpl in *. now rewrite Hc.
        -- rewrite concat_cons in *. rewrite Hc. reflexivity.
      * inversion Hf as [|? ? Hw Hws]; subst. constructor; [|exact Hws].
        simpl. intros [H|H]; [|now apply Hw].
        apply Ascii.eqb_neq in E. apply E. unfold newline. now symmetry.
Qed.

Lemma split_newline_join : forall x rest, ~ Occurs (ascii_of_nat 10) x ->
  split_newline (x ++ nl ++ rest) = x :: split_newline rest.
Proof.
  induction x as [|c x IH]; intros rest Hx.
  - reflexivity.
  - cbn [append split_newline Occurs] in *. destruct (Ascii.eqb c newline) eqn:E.
    + apply Ascii.eqb_eq in E. subst c. exfalso. apply Hx. now left.
    + rewrite IH; [reflexivity|tauto].
Qed.

Lemma split_newline_single : forall x, ~ Occurs (ascii_of_nat 10) x -> split_newline x = [x].
Proof.
  induction x as [|c x IH]; intros Hx; [reflexivity|]. cbn [split_newline Occurs] in *.
  destruct (Ascii.eqb c newline) eqn:E.
  - apply Ascii.eqb_eq in E. subst c. exfalso. apply Hx. now left.
  - rewrite IH; [reflexivity|tauto].
Qed.

Lemma Lines_unique : forall ls t, Lines t ls -> split_newline t = ls.
Proof.
  induction ls as [|x ls IH]; intros t (Hne & Hc & Hf); [congruence|].
  inversion Hf as [|? ? Hx Hls]; subst.
  destruct ls as [|y ls].
  - simpl. now apply split_newline_single.
  - rewrite concat_cons, split_newline_join by exact Hx.
    f_equal. apply IH. split; [discriminate|split; [reflexivity|exact Hls]].
Qed.

Lemma Lines_iff : forall t ls, Lines t ls <-> split_newline t = ls.
Proof. intros t ls. split; [apply Lines_unique|]. intros <-. apply split_newline_lines. Qed.

(** ** fields *)
Lemma White_iff : forall c, White c <-> is_space c = true.
Proof.
  intros c. unfold White, is_space. rewrite orb_true_iff, !andb_true_iff, !Nat.leb_le. simpl. lia.
Qed.

Lemma split_fields_white : forall w t, AllWhite w -> split_fields (w ++ t) = split_fields t.
Proof.
  induction w as [|c w IH]; intros t Hw; [reflexivity|].
  cbn [append split_fields].
  assert (White c) as Hc by (apply Hw; now left). apply White_iff in Hc. rewrite Hc.
  apply IH. intros d Hd. apply Hw. now right.
Qed.

Lemma not_white : forall c, ~ White c -> is_space c = false.
Proof. intros c H. rewrite White_iff in H. destruct (is_space c); [congruence|reflexivity]. Qed.

Lemma split_fields_word : forall f rest, Word f ->
  (rest = "" \/ exists c r, rest = String c r /\ White c) ->
  split_fields (f ++ rest) = f :: split_fields rest.
Proof.
  induction f as [|c f IH]; intros rest [Hne Hf] Hr; [congruence|].
  assert (is_space c = false) as Hc by (apply not_white, Hf; now left).
  cbn [append split_fields]. rewrite Hc.
  destruct f as [|d f].
  - cbn [append]. destruct Hr as [-> | (d & r & -> & Hd)]; [reflexivity|].
    apply White_iff in Hd. rewrite Hd. reflexivity.
  - assert (is_space d = false) as Hd by (apply not_white, Hf; right; now left).
    assert (Word (String d f)) as HW by (split; [discriminate|intros x Hx; apply Hf; now right]).
    specialize (IH rest HW Hr). cbn [append] in *. rewrite Hd. rewrite IH. reflexivity.
Qed.

Lemma Fields_unique : forall l fs, Fields l fs -> split_fields l = fs.
Proof.
  intros l fs H. induction H as [w Hw | w f Hw Hf | w f c rest fs Hw Hf Hc _ IH].
  - rewrite <- (append_nil_r w). now rewrite split_fields_white.
  - rewrite split_fields_white by exact Hw.
    rewrite <- (append_nil_r f) at 1. rewrite split_fields_word; auto.
  - rewrite split_fields_white by exact Hw.
    rewrite split_fields_word; [now rewrite IH|exact Hf|right; eauto].
Qed.

Lemma AllWhite_cons : forall c w, is_space c = true -> AllWhite w -> AllWhite (String c w).
Proof. intros c w Hc Hw d [-> | H]; [now apply White_iff|now apply Hw]. Qed.

Lemma Fields_space : forall c l fs, is_space c = true -> Fields l fs -> Fields (String c l) fs.
Proof.
  intros c l fs Hc H. inversion H as [w Hw|w f Hw Hf|w f d rest fs' Hw Hf Hd HF]; subst.
  - constructor. now apply AllWhite_cons.
  - apply (Fields_last (String c w) f); [now apply AllWhite_cons|exact Hf].
  - apply (Fields_more (String c w) f d rest fs'); auto. now apply AllWhite_cons.
Qed.

Lemma Word_one : forall c, is_space c = false -> Word (String c "").
Proof. intros c H. split; [discriminate|]. intros d [-> | []] HW. apply White_iff in HW. congruence. Qed.

Lemma Word_cons : forall c f, is_space c = false -> Word f -> Word (String c f).
Proof.
  intros c f H [Hne Hf]. split; [discriminate|]. intros d [-> | Hd] HW.
  - apply White_iff in HW. congruence.
  - now apply (Hf d).
Qed.

Lemma split_fields_fields : forall l, Fields l (split_fields l).
Proof.
  induction l as [|c l IH]; [constructor; intros c []|].
  cbn [split_fields]. destruct (is_space c) eqn:Hc; [now apply Fields_space|].
  destruct l as [|d l].
  - apply (Fields_last "" (String c "")); [intros x []|now apply Word_one].
  - destruct (is_space d) eqn:Hd.
    + apply (Fields_more "" (String c "") d l _); [intros x []|now apply Word_one|now apply White_iff|exact IH].
    + revert IH. generalize (split_fields (String d l)). intros fs0 IH.
      remember (String d l) as l' eqn:E.
      destruct IH as [w Hw|w f Hw Hf|w f e rest fs Hw Hf He HF].
      * exfalso. subst w. assert (White d) as X by (apply Hw; now left). apply White_iff in X. congruence.
      * destruct w as [|x w].
        -- cbn [append] in *.
           apply (Fields_last "" (String c f)); [intros x []|now apply Word_cons].
        -- injection E as -> _. assert (White d) as X by (apply Hw; now left). apply White_iff in X. congruence.
      * destruct w as [|x w].
        -- cbn [append] in *.
           apply (Fields_more "" (String c f) e rest fs); [intros x []|now apply Word_cons|exact He|exact HF].
        -- injection E as -> _. assert (White d) as X by (apply Hw; now left). apply White_iff in X. congruence.
Qed.

Lemma Fields_iff : forall l fs, Fields l fs <-> split_fields l = fs.
Proof. intros l fs. split; [apply Fields_unique|]. intros <-. apply split_fields_fields. Qed.

Lemma Fields_all : forall ls rows, Forall2 Fields ls rows <-> map split_fields ls = rows.
Proof.
  induction ls as [|l ls IH]; intros rows; simpl; split; intros H.
  - now inversion H.
  - subst. constructor.
  - inversion H as [|? r ? rs H1 H2]; subst. f_equal; [now apply Fields_iff|now apply IH].
  - subst. constructor; [now apply Fields_iff|now apply IH].
Qed.

Lemma Table_iff : forall t rows, Table t rows <->
  exists header ls, split_newline t = header :: ls /\ map split_fields ls = rows.
Proof.
  intros t rows. split; intros (h & ls & H1 & H2); exists h, ls; split.
  - now apply Lines_iff.
  - now apply Fields_all.
  - now apply Lines_iff.
  - now apply Fields_all.
Qed.

(** ** substring *)
Lemma prefix_iff : forall s t, String.prefix s t = true <-> exists c, t = s ++ c.
Proof.
  induction s as [|a s IH]; intros t.
  - split; [intros _; now exists t|]. now destruct t.
  - destruct t as [|b t]; simpl.
    + split; [discriminate|intros (c & H); discriminate].
    + destruct (ascii_dec a b) as [-> |Hn].
      * rewrite IH. split; intros (c & H); exists c; [now rewrite H|now injection H].
      * split; [discriminate|]. intros (c & H). now injection H as ->.
Qed.

Lemma is_in_iff : forall sub t, is_in sub t = true <-> Contains sub t.
Proof.
  intros sub t. induction t as [|x t IH]; cbn [is_in]; rewrite orb_true_iff, prefix_iff.
  - split.
    + intros [(c & H)|H]; [exists "", c; exact H|discriminate].
    + intros (a & c & H). left. destruct a; [now exists c|discriminate].
  - rewrite IH. split.
    + intros [(c & H)|(a & c & H)]; [exists "", c; exact H|exists (String x a), c; now rewrite H].
    + intros (a & c & H). destruct a as [|y a]; [left; now exists c|].
      right. injection H as _ H. now exists a, c.
Qed.

Lemma is_in_false : forall sub t, is_in sub t = false <-> ~ Contains sub t.
Proof. intros sub t. rewrite <- is_in_iff. destruct (is_in sub t); intuition congruence. Qed.

(** ** parsing *)
Lemma parse_all_ok : forall A (f : string -> res A) ls r,
  parse_all f ls = Ok r <-> Forall2 (fun l a => f l = Ok a) ls r.
Proof.
  intros A f ls. induction ls as [|l ls IH]; intros r; simpl; split; intros H.
  - injection H as <-. constructor.
  - now inversion H.
  - destruct (f l) as [a|e] eqn:E; [|discriminate].
    destruct (parse_all f ls) as [r'|e]; [|discriminate]. injection H as <-.
    constructor; [exact E|]. now apply IH.
  - inversion H as [|? a ? r' H1 H2]; subst. rewrite H1.
    apply IH in H2. now rewrite H2.
Qed.

(** ** time *)
Lemma try_run_st : forall m c s r s', try_run_command m c s = (r, s') ->
  st_env s' = st_env s /\ st_host s' = st_host s /\ st_time s' = S (st_time s).
Proof.
  intros m c s r s' H. unfold try_run_command in H.
  destruct (run_cmd m (st_time s) c); injection H as <- <-; repeat split.
Qed.

Lemma is_available_st : forall m s r s', is_available m s = (r, s') ->
  st_env s' = st_env s /\ st_host s' = st_host s /\ st_time s' = S (st_time s).
Proof.
  intros m s r s' H. unfold is_available in H.
  destruct (try_run_command m ["sinfo"] s) as [[[|x l]|e] s1] eqn:E; injection H as <- <-;
    eapply try_run_st; exact E.
Qed.

Lemma is_available_true : forall m s s', is_available m s = (Ok true, s') <->
  (exists t, run_cmd m (st_time s) ["sinfo"] = Printed t) /\ s' = mkState (st_env s) (st_host s) (S (st_time s)).
Proof.
  intros m s s'. unfold is_available, try_run_command.
  destruct (run_cmd m (st_time s) ["sinfo"]) as [| |t].
  - split; [discriminate|intros [[t H] _]; discriminate].
  - split; [discriminate|intros [[t H] _]; discriminate].
  - pose proof (split_newline_nonempty t) as Hn. destruct (split_newline t) as [|x l]; [congruence|].
    split; [intros H; injection H as <-; eauto|intros [_ ->]; reflexivity].
Qed.

Lemma get_table_st : forall A m c (f : string -> res A) s r s', get_table m c f s = (r, s') ->
  st_env s' = st_env s /\ st_host s' = st_host s.
Proof.
  intros A m c f s r s' H. unfold get_table in H.
  destruct (is_available m s) as [[[|]|e] s1] eqn:E; pose proof (is_available_st _ _ _ _ E) as (E1 & E2 & _).
  - destruct (try_run_command m c s1) as [[[|x l]|e] s2] eqn:E'; pose proof (try_run_st _ _ _ _ _ E') as (E3 & E4 & _);
      injection H as <- <-; split; congruence.
  - injection H as <- <-. now split.
  - injection H as <- <-. now split.
Qed.

(** the two commands of a table: exactly when the rows come back *)
Lemma get_table_ok : forall A m c (f : string -> res A) s r s',
  (exists t, run_cmd m (st_time s) ["sinfo"] = Printed t) ->
  (get_table m c f s = (Ok r, s') <->
   (exists t h ls, run_cmd m (S (st_time s)) c = Printed t /\ split_newline t = h :: ls /\
      parse_all f ls = Ok r) /\ s' = mkState (st_env s) (st_host s) (S (S (st_time s)))).
Proof.
  intros A m c f s r s' Hav. unfold get_table.
  assert (is_available m s = (Ok true, mkState (st_env s) (st_host s) (S (st_time s)))) as ->
    by (apply is_available_true; split; [exact Hav|reflexivity]).
  unfold try_run_command. cbn [st_time st_env st_host].
  destruct (run_cmd m (S (st_time s)) c) as [| |t].
  - split; [discriminate|intros [(t & h & ls & H & _) _]; discriminate].
  - split; [discriminate|intros [(t & h & ls & H & _) _]; discriminate].
  - pose proof (split_newline_nonempty t) as Hn. destruct (split_newline t) as [|x l] eqn:E; [congruence|].
    split.
    + intros H. injection H as H <-. split; [|reflexivity]. exists t, x, l. auto.
    + intros [(t' & h & ls & H1 & H2 & H3) ->]. injection H1 as <-. rewrite E in H2.
      injection H2 as <- <-. now rewrite H3.
Qed.

Lemma get_table_unavailable : forall A m c (f : string -> res A) s r s',
  ~ (exists t, run_cmd m (st_time s) ["sinfo"] = Printed t) ->
  get_table m c f s = (Ok r, s') -> r = [].
Proof.
  intros A m c f s r s' Hn H. unfold get_table in H.
  destruct (is_available m s) as [[[|]|e] s1] eqn:E.
  - exfalso. apply Hn. apply is_available_true in E. tauto.
  - now injection H as <- _.
  - discriminate.
Qed.
