(** C101: choosing the host a program runs on. *)
From Coq Require Import List String Ascii Bool Arith Lia.
From Verif Require Import Slurm_Model Slurm_Spec Slurm_Proofs.
Import ListNotations.
Open Scope string_scope.

(** ** is_available *)
Theorem available_iff : forall m s,
  (fst (is_available m s) = Ok true <-> exists t, Prints m (st_time s) ["sinfo"] t) /\
  (fst (is_available m s) = Ok false <-> run_cmd m (st_time s) ["sinfo"] = Failed) /\
  (fst (is_available m s) = Raise FileNotFoundError <-> run_cmd m (st_time s) ["sinfo"] = NotFound) /\
  st_env (snd (is_available m s)) = st_env s /\ st_host (snd (is_available m s)) = st_host s.
Proof.
  intros m s. unfold is_available, try_run_command, Prints.
  destruct (run_cmd m (st_time s) ["sinfo"]) as [| |t]; cbn [fst snd].
  - repeat split; try discriminate. intros [t H]; discriminate.
  - repeat split; try discriminate. intros [t H]; discriminate.
  - pose proof (split_newline_nonempty t) as Hn. destruct (split_newline t) as [|x l]; [congruence|].
    cbn [fst snd]. repeat split; try discriminate. eauto.
Qed.

(** ** the tables *)
Lemma parse_board_ok : forall l b, parse_board l = Ok b <-> IsBoard (split_fields l) b.
Proof.
  intros l b. unfold parse_board, IsBoard.
  destruct (nth_error (split_fields l) 0) as [n|], (nth_error (split_fields l) 2) as [p|],
    (nth_error (split_fields l) 3) as [st|]; split; try discriminate;
    try (intros (H1 & H2 & H3); discriminate).
  - intros H. injection H as <-. auto.
  - intros (H1 & H2 & H3). destruct b as [bn bp bs]; cbn in *. congruence.
Qed.

Lemma parse_partition_ok : forall l p, parse_partition l = Ok p <-> IsPartition (split_fields l) p.
Proof.
  intros l p. unfold parse_partition, IsPartition.
  destruct (split_fields l) as [|x fs].
  - split; [discriminate|intros (H & _); congruence].
  - split.
    + intros H. injection H as <-. cbn. repeat split. discriminate.
    + intros (_ & H1 & H2 & H3 & H4 & H5 & H6). destruct p; cbn in *. now subst.
Qed.

Lemma Forall2_parse : forall A (f : string -> res A) (R : list string -> A -> Prop),
  (forall l a, f l = Ok a <-> R (split_fields l) a) ->
  forall ls r, parse_all f ls = Ok r <-> Forall2 R (map split_fields ls) r.
Proof.
  intros A f R HR ls r. rewrite parse_all_ok. revert r.
  induction ls as [|l ls IH]; intros r; simpl; split; intros H; inversion H; subst; constructor;
    try (now apply HR); now apply IH.
Qed.

Lemma table_listed : forall A m c (f : string -> res A) (R : list string -> A -> Prop) s r,
  (forall l a, f l = Ok a <-> R (split_fields l) a) ->
  (exists t, Prints m (st_time s) ["sinfo"] t) ->
  ((exists s', get_table m c f s = (Ok r, s')) <->
   exists t rows, Prints m (S (st_time s)) c t /\ Table t rows /\ Forall2 R rows r).
Proof.
  intros A m c f R s r HR Hav. split.
  - intros [s' H]. apply get_table_ok in H; [|exact Hav].
    destruct H as [(t & h & ls & H1 & H2 & H3) _].
    exists t, (map split_fields ls). split; [exact H1|split].
    + apply Table_iff. eauto.
    + now apply (Forall2_parse _ _ _ HR).
  - intros (t & rows & H1 & H2 & H3). apply Table_iff in H2. destruct H2 as (h & ls & H4 & <-).
    eexists. apply get_table_ok; [exact Hav|]. split; [|reflexivity].
    exists t, h, ls. repeat split; auto. now apply (Forall2_parse _ _ _ HR).
Qed.

(** get_boards gives one board per row of the table, in order, and succeeds exactly if every row has the columns *)
Theorem boards_listed : forall m s bs, (exists t, Prints m (st_time s) ["sinfo"] t) ->
  ((exists s', get_boards m s = (Ok bs, s')) <->
   exists t rows, Prints m (S (st_time s)) ["sinfo"; "-N"] t /\ Table t rows /\ Forall2 IsBoard rows bs).
Proof. intros m s bs H. apply table_listed; [apply parse_board_ok|exact H]. Qed.

Theorem partitions_listed : forall m s ps, (exists t, Prints m (st_time s) ["sinfo"] t) ->
  ((exists s', get_partitions m s = (Ok ps, s')) <->
   exists t rows, Prints m (S (st_time s)) ["sinfo"] t /\ Table t rows /\ Forall2 IsPartition rows ps).
Proof. intros m s ps H. apply table_listed; [apply parse_partition_ok|exact H]. Qed.

(** without a controller both lists are empty *)
Theorem no_controller_no_lists : forall m s, run_cmd m (st_time s) ["sinfo"] = Failed ->
  fst (get_boards m s) = Ok [] /\ fst (get_partitions m s) = Ok [].
Proof.
  intros m s H. unfold get_boards, get_partitions, get_table, is_available, try_run_command.
  now rewrite H.
Qed.

(** ** looking up *)
Lemma first_match : forall A (R : list string -> A -> Prop) (name : A -> string),
  (forall r a, R r a -> nth_error r 0 = Some (name a)) ->
  forall rows l n, Forall2 R rows l -> forall a,
  hd_error (filter (fun x => String.eqb (name x) n) l) = Some a <->
  exists before row after l1 l2,
    rows = (before ++ row :: after)%list /\ l = (l1 ++ a :: l2)%list /\ List.length before = List.length l1 /\
    R row a /\ nth_error row 0 = Some n /\ Forall (fun r => nth_error r 0 <> Some n) before.
Proof.
  intros A R name HR rows l n H. induction H as [|r x rows l Hrx H IH]; intros a; cbn [filter].
  - split; [discriminate|]. intros (b & ? & ? & ? & ? & E & _). destruct b; discriminate.
  - pose proof (HR _ _ Hrx) as Hn.
    destruct (String.eqb (name x) n) eqn:E.
    + apply String.eqb_eq in E. split.
      * intros Ha. injection Ha as <-. exists [], r, rows, [], l. rewrite <- E. repeat split; auto.
      * intros (b & row & af & l1 & l2 & E1 & E2 & E3 & HR' & E4 & HF).
        destruct b as [|b0 b].
        -- destruct l1; [|discriminate]. now injection E2 as -> _.
        -- injection E1 as -> _. inversion HF; subst. congruence.
    + apply String.eqb_neq in E. rewrite IH. split.
      * intros (b & row & af & l1 & l2 & E1 & E2 & E3 & HR' & E4 & HF).
        exists (r :: b)%list, row, af, (x :: l1)%list, l2. subst. repeat split; auto.
        -- simpl. now rewrite E3.
        -- constructor; [congruence|exact HF].
      * intros (b & row & af & l1 & l2 & E1 & E2 & E3 & HR' & E4 & HF).
        destruct b as [|b0 b].
        -- injection E1 as -> _. congruence.
        -- destruct l1 as [|x0 l1]; [discriminate|]. injection E1 as -> ->. injection E2 as -> ->.
           inversion HF; subst. exists b, row, af, l1, l2. repeat split; auto.
Qed.

Lemma IsBoard_total : forall row, 4 <= List.length row -> exists b, IsBoard row b.
Proof.
  intros row H. destruct row as [|a [|b [|c [|d row]]]]; simpl in H; try lia.
  exists (mkBoard a c d). repeat split.
Qed.

Lemma IsBoard_length : forall row b, IsBoard row b -> 4 <= List.length row.
Proof.
  intros row b (_ & _ & H). assert (nth_error row 3 <> None) as Hn by congruence.
  apply nth_error_Some in Hn. lia.
Qed.

Lemma IsPartition_total : forall row, row <> [] -> exists p, IsPartition row p.
Proof.
  intros row H.
  exists (mkPartition (nth 0 row "") (nth 1 row "") (nth 2 row "") (nth 3 row "") (nth 4 row "") (nth 5 row "")).
  repeat split. exact H.
Qed.

Lemma total_all : forall A (R : list string -> A -> Prop) (P : list string -> Prop),
  (forall r, P r -> exists a, R r a) -> forall rows, Forall P rows -> exists l, Forall2 R rows l.
Proof.
  intros A R P HP rows H. induction H as [|r rows Hr _ [l Hl]].
  - exists []. constructor.
  - destruct (HP r Hr) as [a Ha]. exists (a :: l). now constructor.
Qed.

Lemma rows_of : forall A (R : list string -> A -> Prop) (P : list string -> Prop),
  (forall r a, R r a -> P r) -> forall rows l, Forall2 R rows l -> Forall P rows.
Proof. intros A R P HP rows l H. induction H; constructor; eauto. Qed.

Lemma split_at : forall A B (R : A -> B -> Prop) b x c l, Forall2 R (b ++ x :: c)%list l ->
  exists l1 y l2, l = (l1 ++ y :: l2)%list /\ List.length b = List.length l1 /\ R x y.
Proof.
  intros A B R b. induction b as [|b0 b IH]; intros x c l H; inversion H; subst.
  - exists [], y, l'. auto.
  - destruct (IH _ _ _ H4) as (l1 & y0 & l2 & -> & E & HR). exists (y :: l1)%list, y0, l2.
    simpl. now rewrite E.
Qed.

Lemma other_partition_false : forall p q, other_partition p q = false <-> (p = None \/ p = Some "" \/ p = Some q).
Proof.
  intros [p|] q; simpl; [|intuition].
  destruct (String.eqb p "") eqn:E1; simpl.
  - apply String.eqb_eq in E1. subst. intuition.
  - apply String.eqb_neq in E1. destruct (String.eqb p q) eqn:E2; simpl.
    + apply String.eqb_eq in E2. subst. intuition.
    + apply String.eqb_neq in E2. intuition congruence.
Qed.

(** ** set_board *)
Lemma board_answer : forall m b s r s', get_board_info m b s = (r, s') -> st_env s' = st_env s /\ st_host s' = st_host s.
Proof.
  intros m b s r s' H. unfold get_board_info in H.
  destruct (get_boards m s) as [[bs|e] s1] eqn:E; injection H as <- <-; eapply get_table_st; exact E.
Qed.

Lemma partition_answer : forall m b s r s', get_partition_info m b s = (r, s') -> st_env s' = st_env s /\ st_host s' = st_host s.
Proof.
  intros m b s r s' H. unfold get_partition_info in H.
  destruct (get_partitions m s) as [[bs|e] s1] eqn:E; injection H as <- <-; eapply get_table_st; exact E.
Qed.

(** set_board(b, p) succeeds exactly if the controller lists b first as a board that is not down, in p if p is given *)
Theorem set_board_ok_iff : forall m b p s,
  fst (set_board m (Some b) p s) = Ok tt <-> BoardAccepted m (st_time s) b p.
Proof.
  intros m b p s. unfold set_board, get_board_info. split.
  - destruct (get_boards m s) as [[bs|e] s1] eqn:E; [|discriminate].
    destruct (hd_error (filter (fun x => String.eqb (b_nodename x) b) bs)) as [i|] eqn:Ei; [|discriminate].
    destruct (is_in "down" (b_state i)) eqn:Ed; [discriminate|].
    destruct (other_partition p (b_partition i)) eqn:Ep; [discriminate|]. intros _.
    assert (exists t, Prints m (st_time s) ["sinfo"] t) as Hav.
    { unfold Prints. destruct (run_cmd m (st_time s) ["sinfo"]) as [| |t] eqn:Er; [| |eauto]; exfalso;
        (assert (bs = []) as -> by (eapply get_table_unavailable; [|exact E]; rewrite Er; intros [t H]; discriminate);
         discriminate). }
    split; [exact Hav|].
    destruct (proj1 (boards_listed m s bs Hav) (ex_intro _ s1 E)) as (t & rows & H1 & H2 & H3).
    apply (first_match _ IsBoard b_nodename (fun r a H => proj1 H) rows bs b H3) in Ei.
    destruct Ei as (bf & row & af & l1 & l2 & E1 & E2 & E3 & (HR0 & HR2 & HR3) & E4 & HF).
    exists t, rows, row, (b_partition i), (b_state i). repeat split; auto.
    + eapply rows_of; [apply IsBoard_length|exact H3].
    + exists bf, af. auto.
    + now apply is_in_false.
    + now apply other_partition_false.
  - intros (Hav & t & rows & row & q & st & H1 & H2 & H4 & (bf & af & E1 & E2 & HF) & Hq & Hst & Hd & Hp).
    destruct (total_all _ IsBoard _ IsBoard_total rows H4) as [bs Hbs].
    destruct (proj2 (boards_listed m s bs Hav)) as [s1 ->]; [eauto|].
    pose proof Hbs as Hbs'. rewrite E1 in Hbs'.
    destruct (split_at _ _ _ _ _ _ _ Hbs') as (l1 & i & l2 & El & Elen & HR).
    assert (hd_error (filter (fun x => String.eqb (b_nodename x) b) bs) = Some i) as ->.
    { apply (first_match _ IsBoard b_nodename (fun r a H => proj1 H) rows bs b Hbs).
      exists bf, row, af, l1, l2. auto 10. }
    destruct HR as (_ & HR2 & HR3).
    assert (b_state i = st) as -> by congruence. assert (b_partition i = q) as -> by congruence.
    apply is_in_false in Hd. rewrite Hd. apply other_partition_false in Hp. now rewrite Hp.
Qed.

(** its effect: BOARD is set and nothing else; after a failure nothing has changed *)
Theorem set_board_effect : forall m board p s r s', set_board m board p s = (r, s') ->
  st_host s' = st_host s /\ OnlyChanges ["BOARD"] (st_env s) (st_env s') /\
  (r = Ok tt -> st_env s' "BOARD" = board) /\ (r <> Ok tt -> st_env s' = st_env s).
Proof.
  intros m board p s r s' H. unfold set_board in H.
  assert (forall x, ~ In x ["BOARD"] -> String.eqb x "BOARD" = false) as Hx
    by (intros x Hn; apply String.eqb_neq; intros ->; apply Hn; now left).
  destruct board as [b|].
  - destruct (get_board_info m b s) as [[[i|]|e] s1] eqn:E; pose proof (board_answer _ _ _ _ _ E) as [E1 E2].
    + destruct (is_in "down" (b_state i)); [|destruct (other_partition p (b_partition i))];
        injection H as <- <-; cbn; repeat split; try congruence; try (intros k Hk; congruence).
      intros k Hk. unfold env_set. rewrite (Hx k Hk). congruence.
    + injection H as <- <-. repeat split; try congruence; try (intros k Hk; congruence).
    + injection H as <- <-. repeat split; try congruence; try (intros k Hk; congruence).
  - injection H as <- <-. cbn. repeat split; try congruence.
    intros k Hk. unfold env_pop. now rewrite (Hx k Hk).
Qed.

(** ** set_partition *)
Theorem set_partition_ok_iff : forall m p s,
  fst (set_partition m (Some p) s) = Ok tt <-> PartitionAccepted m (st_time s) p.
Proof.
  intros m p s. unfold set_partition, get_partition_info. split.
  - destruct (get_partitions m s) as [[bs|e] s1] eqn:E; [|discriminate].
    destruct (hd_error (filter (fun x => String.eqb (p_name x) p) bs)) as [i|] eqn:Ei; [|discriminate].
    destruct (is_in "down" (p_state i)) eqn:Ed; [discriminate|]. intros _.
    assert (exists t, Prints m (st_time s) ["sinfo"] t) as Hav.
    { unfold Prints. destruct (run_cmd m (st_time s) ["sinfo"]) as [| |t] eqn:Er; [| |eauto]; exfalso;
        (assert (bs = []) as -> by (eapply get_table_unavailable; [|exact E]; rewrite Er; intros [t H]; discriminate);
         discriminate). }
    split; [exact Hav|].
    destruct (proj1 (partitions_listed m s bs Hav) (ex_intro _ s1 E)) as (t & rows & H1 & H2 & H3).
    assert (forall r a, IsPartition r a -> nth_error r 0 = Some (p_name a)) as HN.
    { intros r a (Hr & Hn & _). destruct r as [|x r]; [congruence|]. cbn in *. now rewrite Hn. }
    apply (first_match _ IsPartition p_name HN rows bs p H3) in Ei.
    destruct Ei as (bf & row & af & l1 & l2 & E1 & E2 & E3 & HR & E4 & HF).
    exists t, rows, row. repeat split; auto.
    + eapply rows_of; [|exact H3]. intros r a Hra. apply Hra.
    + exists bf, af. auto.
    + destruct HR as (_ & _ & _ & _ & _ & Hs & _). rewrite <- Hs. now apply is_in_false.
  - intros (Hav & t & rows & row & H1 & H2 & H4 & (bf & af & E1 & E2 & HF) & Hd).
    destruct (total_all _ IsPartition _ IsPartition_total rows H4) as [bs Hbs].
    destruct (proj2 (partitions_listed m s bs Hav)) as [s1 ->]; [eauto|].
    pose proof Hbs as Hbs'. rewrite E1 in Hbs'.
    destruct (split_at _ _ _ _ _ _ _ Hbs') as (l1 & i & l2 & El & Elen & HR).
    assert (forall r a, IsPartition r a -> nth_error r 0 = Some (p_name a)) as HN.
    { intros r a (Hr & Hn & _). destruct r as [|x r]; [congruence|]. cbn in *. now rewrite Hn. }
    assert (hd_error (filter (fun x => String.eqb (p_name x) p) bs) = Some i) as ->.
    { apply (first_match _ IsPartition p_name HN rows bs p Hbs).
      exists bf, row, af, l1, l2. auto 10. }
    destruct HR as (_ & _ & _ & _ & _ & Hs & _). rewrite Hs.
    apply is_in_false in Hd. now rewrite Hd.
Qed.

Theorem set_partition_effect : forall m part s r s', set_partition m part s = (r, s') ->
  st_host s' = st_host s /\ OnlyChanges ["PARTITION"] (st_env s) (st_env s') /\
  (r = Ok tt -> st_env s' "PARTITION" = part) /\ (r <> Ok tt -> st_env s' = st_env s).
Proof.
  intros m part s r s' H. unfold set_partition in H.
  assert (forall x, ~ In x ["PARTITION"] -> String.eqb x "PARTITION" = false) as Hx
    by (intros x Hn; apply String.eqb_neq; intros ->; apply Hn; now left).
  destruct part as [b|].
  - destruct (get_partition_info m b s) as [[[i|]|e] s1] eqn:E; pose proof (partition_answer _ _ _ _ _ E) as [E1 E2].
    + destruct (is_in "down" (p_state i));
        injection H as <- <-; cbn; repeat split; try congruence; try (intros k Hk; congruence).
      intros k Hk. unfold env_set. rewrite (Hx k Hk). congruence.
    + injection H as <- <-. repeat split; try congruence; try (intros k Hk; congruence).
    + injection H as <- <-. repeat split; try congruence; try (intros k Hk; congruence).
  - injection H as <- <-. cbn. repeat split; try congruence.
    intros k Hk. unfold env_pop. now rewrite (Hx k Hk).
Qed.

(** clearing never fails and asks nobody *)
Theorem clearing_succeeds : forall m p s,
  fst (set_board m None p s) = Ok tt /\ fst (set_partition m None s) = Ok tt /\
  st_time (snd (set_board m None p s)) = st_time s /\ st_time (snd (set_partition m None s)) = st_time s.
Proof. intros m p s. repeat split. Qed.
