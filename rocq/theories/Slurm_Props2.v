(** C101, second part: hosts, histories of calls, and what real command output does. *)
From Coq Require Import List String Ascii Bool Arith Lia.
From Verif Require Import Slurm_Model Slurm_Spec Slurm_Proofs Slurm_Props.
Import ListNotations.
Open Scope string_scope.

(** ** enable and disable *)
Theorem enable_exact : forall m s,
  (fst (enable m s) = Ok tt <-> exists t, Prints m (st_time s) ["sinfo"] t) /\
  st_host (snd (enable m s)) = st_host s /\
  OnlyChanges ["SLURM"; "NOSLURM"] (st_env s) (st_env (snd (enable m s))) /\
  (fst (enable m s) = Ok tt -> st_env (snd (enable m s)) "SLURM" = Some "1" /\ st_env (snd (enable m s)) "NOSLURM" = None) /\
  (fst (enable m s) <> Ok tt -> st_env (snd (enable m s)) = st_env s).
Proof.
  intros m s. destruct (available_iff m s) as (H1 & H2 & H3 & H4 & H5). unfold enable.
  destruct (is_available m s) as [[[|]|e] s1]; cbn [fst snd with_env st_env st_host] in *.
  - rewrite <- H1. split; [tauto|]. split; [exact H5|]. split; [|split; [|congruence]].
    + intros k Hk. unfold env_set, env_pop. simpl in Hk.
      destruct (String.eqb k "NOSLURM") eqn:E; [apply String.eqb_eq in E; subst; tauto|].
      destruct (String.eqb k "SLURM") eqn:E'; [apply String.eqb_eq in E'; subst; tauto|]. now rewrite H4.
    + intros _. split; reflexivity.
  - rewrite <- H1. split; [split; discriminate|]. repeat split; try congruence; intros k Hk; congruence.
  - rewrite <- H1. split; [split; discriminate|]. repeat split; try congruence; intros k Hk; congruence.
Qed.

Theorem disable_exact : forall s,
  st_env (disable s) "SLURM" = None /\ st_env (disable s) "NOSLURM" = Some "1" /\
  st_host (disable s) = st_host s /\ OnlyChanges ["SLURM"; "NOSLURM"] (st_env s) (st_env (disable s)).
Proof.
  intros s. repeat split. intros k Hk. simpl in Hk. unfold disable, with_env, env_set, env_pop. cbn [st_env].
  destruct (String.eqb k "NOSLURM") eqn:E; [apply String.eqb_eq in E; subst; tauto|].
  destruct (String.eqb k "SLURM") eqn:E'; [apply String.eqb_eq in E'; subst; tauto|]. reflexivity.
Qed.

(** ** times *)
Lemma set_board_time : forall m b p s, fst (set_board m (Some b) p s) = Ok tt ->
  st_time (snd (set_board m (Some b) p s)) = S (S (st_time s)).
Proof.
  intros m b p s H. pose proof (proj1 (set_board_ok_iff m b p s) H) as (Hav & _). revert H.
  unfold set_board, get_board_info. destruct (get_boards m s) as [[bs|e] s1] eqn:E; [|discriminate].
  apply get_table_ok in E; [|exact Hav]. destruct E as [_ ->].
  destruct (hd_error _) as [i|]; [|discriminate].
  destruct (is_in "down" (b_state i)); [discriminate|].
  destruct (other_partition p (b_partition i)); [discriminate|]. reflexivity.
Qed.

(** ** use_slurm_host *)
Lemma enable_state : forall m s t, Prints m (st_time s) ["sinfo"] t ->
  enable m s = (Ok tt, mkState (env_pop (env_set (st_env s) "SLURM" "1") "NOSLURM") (st_host s) (S (st_time s))).
Proof.
  intros m s t H. unfold enable.
  assert (is_available m s = (Ok true, mkState (st_env s) (st_host s) (S (st_time s)))) as ->
    by (apply is_available_true; split; [exists t; exact H|reflexivity]).
  reflexivity.
Qed.

Lemma enable_fails : forall m s, ~ (exists t, Prints m (st_time s) ["sinfo"] t) ->
  exists e s1, enable m s = (Raise e, s1) /\ st_env s1 = st_env s /\ st_host s1 = st_host s.
Proof.
  intros m s H. destruct (enable_exact m s) as (H1 & H2 & _ & _ & H5).
  destruct (enable m s) as [[[]|e] s1]; cbn [fst snd] in *.
  - exfalso. apply H. now apply H1.
  - exists e, s1. repeat split; auto. apply H5. discriminate.
Qed.

Definition gen_value (g : option chip) : option string := option_map chip_value g.

(** exactly when it succeeds: lava-loihi is there, a chip generation is given, the controller
    answers, the board (if any) and the partition (if any) are accepted at their turn *)
Theorem slurm_host_iff : forall m part board gen s,
  fst (use_slurm_host m part board gen s) = Ok tt <->
  has_loihi m (st_time s) = true /\ gen <> None /\ (exists t, Prints m (st_time s) ["sinfo"] t) /\
  match board with
  | None => True
  | Some b => BoardAccepted m (1 + st_time s) b part
  end /\
  match part with
  | None => True
  | Some p => PartitionAccepted m (match board with None => 1 + st_time s | Some _ => 3 + st_time s end) p
  end.
Proof.
  intros m part board gen s. unfold use_slurm_host, is_installed.
  destruct (has_loihi m (st_time s)) eqn:Hl; cbn [negb]; [|split; [discriminate|intros (H & _); discriminate]].
  assert ((exists t, Prints m (st_time s) ["sinfo"] t) \/ ~ (exists t, Prints m (st_time s) ["sinfo"] t)) as [[t Ht]|Hn].
  { unfold Prints. destruct (run_cmd m (st_time s) ["sinfo"]); [right|right|left; eauto]; intros [t H]; discriminate. }
  2:{ destruct (enable_fails m s Hn) as (e & s1 & -> & _). split; [discriminate|intros (_ & _ & H & _); contradiction]. }
  rewrite (enable_state m s t Ht).
  destruct gen as [g|]; [|split; [discriminate|intros (_ & H & _); congruence]].
  set (s2 := with_env _ _).
  assert (st_time s2 = 1 + st_time s) as Hs2 by reflexivity.
  assert ((fst (match set_board m board part s2 with
    | (Ok _, s3) => match set_partition m part s3 with (Ok _, s4) => (Ok tt, with_host s4 "SLURM") | (Raise e, s4) => (Raise e, s4) end
    | (Raise e, s3) => (Raise e, s3) end) = Ok tt) <->
    (fst (set_board m board part s2) = Ok tt /\ fst (set_partition m part (snd (set_board m board part s2))) = Ok tt)) as ->.
  { destruct (set_board m board part s2) as [[[]|e] s3]; cbn [fst snd].
    - destruct (set_partition m part s3) as [[[]|e] s4]; cbn [fst snd]; intuition congruence.
    - intuition congruence. }
  assert (match board with None => True | Some b => BoardAccepted m (1 + st_time s) b part end <->
    fst (set_board m board part s2) = Ok tt) as HB.
  { destruct board as [b|]; [|cbn; tauto]. rewrite set_board_ok_iff, Hs2. reflexivity. }
  rewrite HB.
  assert (fst (set_board m board part s2) = Ok tt ->
    (match part with None => True | Some p => PartitionAccepted m (match board with None => 1 + st_time s | Some _ => 3 + st_time s end) p end <->
     fst (set_partition m part (snd (set_board m board part s2))) = Ok tt)) as HP.
  { intros H. destruct part as [p|]; [|cbn; tauto]. rewrite set_partition_ok_iff.
    destruct board as [b|]; [|cbn [set_board snd with_env st_time]; now rewrite Hs2].
    rewrite (set_board_time m b _ s2 H), Hs2. reflexivity. }
  split.
  - intros [H1 H2]. repeat split; try congruence; eauto. now apply HP.
  - intros (_ & _ & _ & H1 & H2). split; [exact H1|]. now apply HP.
Qed.

(** what it has done when it succeeds *)
Theorem slurm_host_success : forall m part board gen s s',
  use_slurm_host m part board gen s = (Ok tt, s') ->
  st_host s' = Some "SLURM" /\
  st_env s' "SLURM" = Some "1" /\ st_env s' "NOSLURM" = None /\ st_env s' "LOIHI_GEN" = gen_value gen /\
  st_env s' "BOARD" = board /\ st_env s' "PARTITION" = part /\
  OnlyChanges ["SLURM"; "NOSLURM"; "LOIHI_GEN"; "BOARD"; "PARTITION"] (st_env s) (st_env s').
Proof.
  intros m part board gen s s' H. unfold use_slurm_host, is_installed in H.
  destruct (has_loihi m (st_time s)); cbn [negb] in H; [|discriminate].
  destruct (enable_exact m s) as (_ & He1 & He2 & He3 & _).
  destruct (enable m s) as [[[]|e] s1]; cbn [fst snd] in *; [|discriminate].
  destruct (He3 eq_refl) as [Hs Hns].
  destruct gen as [g|]; [|discriminate].
  set (s2 := with_env s1 (env_set (st_env s1) "LOIHI_GEN" (chip_value g))) in *.
  destruct (set_board m board part s2) as [[[]|e] s3] eqn:EB; [|discriminate].
  destruct (set_board_effect _ _ _ _ _ _ EB) as (HB1 & HB2 & HB3 & _).
  destruct (set_partition m part s3) as [[[]|e] s4] eqn:EP; [|discriminate].
  destruct (set_partition_effect _ _ _ _ _ EP) as (HP1 & HP2 & HP3 & _).
  injection H as <-. cbn [st_env st_host with_host]. split; [reflexivity|].
  assert (forall k, ~ In k ["LOIHI_GEN"; "BOARD"; "PARTITION"] -> st_env s4 k = st_env s1 k) as HK.
  { intros k Hk. rewrite HP2, HB2 by (intros [X|[]]; apply Hk; rewrite <- X; simpl; tauto).
    unfold s2, with_env, env_set. cbn [st_env].
    destruct (String.eqb k "LOIHI_GEN") eqn:E; [|reflexivity].
    apply String.eqb_eq in E. subst. exfalso. apply Hk. simpl. tauto. }
  repeat split.
  - rewrite HK; [exact Hs|simpl; intuition discriminate].
  - rewrite HK; [exact Hns|simpl; intuition discriminate].
  - rewrite HP2, HB2 by (simpl; intuition discriminate). reflexivity.
  - rewrite HP2 by (simpl; intuition discriminate). now apply HB3.
  - now apply HP3.
  - intros k Hk. rewrite HK by (simpl in *; tauto). apply He2. simpl in *. tauto.
Qed.

(** what may have changed when it raises: never the host, never PARTITION; and nothing at all
    if lava-loihi or the controller is missing *)
Theorem slurm_host_failure : forall m part board gen s e s',
  use_slurm_host m part board gen s = (Raise e, s') ->
  st_host s' = st_host s /\
  OnlyChanges ["SLURM"; "NOSLURM"; "LOIHI_GEN"; "BOARD"] (st_env s) (st_env s') /\
  (st_env s' "SLURM" <> st_env s "SLURM" \/ st_env s' "NOSLURM" <> st_env s "NOSLURM" ->
   st_env s' "SLURM" = Some "1" /\ st_env s' "NOSLURM" = None) /\
  (has_loihi m (st_time s) = false \/ ~ (exists t, Prints m (st_time s) ["sinfo"] t) -> st_env s' = st_env s).
Proof.
  intros m part board gen s e s' H. unfold use_slurm_host, is_installed in H.
  destruct (has_loihi m (st_time s)) eqn:Hl; cbn [negb] in H.
  2:{ injection H as <- <-. repeat split; try tauto. }
  destruct (enable_exact m s) as (He0 & He1 & He2 & He3 & He4).
  destruct (enable m s) as [[[]|e1] s1]; cbn [fst snd] in *.
  2:{ injection H as <- <-. rewrite He4 by discriminate. repeat split; try tauto. }
  destruct (He3 eq_refl) as [Hs Hns].
  assert (has_loihi m (st_time s) = false \/ ~ (exists t, Prints m (st_time s) ["sinfo"] t) -> st_env s' = st_env s) as HN.
  { rewrite Hl. intros [X|X]; [discriminate|]. exfalso. apply X. now apply He0. }
  rewrite Hl in HN.
  cut (st_host s' = st_host s1 /\ forall k, ~ In k ["LOIHI_GEN"; "BOARD"] -> st_env s' k = st_env s1 k).
  { intros [C1 C2]. repeat split; try congruence.
    - intros k Hk. rewrite C2 by (simpl in *; tauto). apply He2. simpl in *. tauto.
    - rewrite C2; [exact Hs|simpl; intuition discriminate].
    - rewrite C2; [exact Hns|simpl; intuition discriminate].
    - exact HN. }
  destruct gen as [g|]; [|injection H as <- <-; auto].
  set (s2 := with_env s1 (env_set (st_env s1) "LOIHI_GEN" (chip_value g))) in *.
  assert (forall k, ~ In k ["LOIHI_GEN"; "BOARD"] -> st_env s2 k = st_env s1 k) as H2.
  { intros k Hk. unfold s2, with_env, env_set. cbn [st_env].
    destruct (String.eqb k "LOIHI_GEN") eqn:E; [|reflexivity].
    apply String.eqb_eq in E. subst. exfalso. apply Hk. simpl. tauto. }
  assert (st_host s2 = st_host s1) as Hh2 by reflexivity.
  destruct (set_board m board part s2) as [[[]|e2] s3] eqn:EB;
    destruct (set_board_effect _ _ _ _ _ _ EB) as (HB1 & HB2 & _ & _).
  - destruct (set_partition m part s3) as [[[]|e3] s4] eqn:EP; [discriminate|].
    destruct (set_partition_effect _ _ _ _ _ EP) as (HP1 & _ & _ & HP4).
    injection H as <- <-. rewrite HP4 by discriminate. split; [congruence|].
    intros k Hk. rewrite HB2 by (simpl in *; tauto). now apply H2.
  - injection H as <- <-. split; [congruence|].
    intros k Hk. rewrite HB2 by (simpl in *; tauto). now apply H2.
Qed.

(** ** use_ethernet_host *)
Theorem ethernet_host_iff : forall m addr bin gen s,
  fst (use_ethernet_host m addr bin gen s) = Ok tt <->
  has_loihi m (st_time s) = true /\ (exists t, Prints m (st_time s) ["ping"; addr; "-c 1"] t) /\ bin <> None /\ gen <> None.
Proof.
  intros m addr bin gen s. unfold use_ethernet_host, is_installed, try_run_command, Prints.
  destruct (has_loihi m (st_time s)); cbn [negb]; [|split; [discriminate|intros (H & _); discriminate]].
  destruct (run_cmd m (st_time s) ["ping"; addr; "-c 1"]) as [| |t].
  - split; [discriminate|intros (_ & [t H] & _); discriminate].
  - split; [discriminate|intros (_ & [t H] & _); discriminate].
  - pose proof (split_newline_nonempty t) as Hn. destruct (split_newline t) as [|x l]; [congruence|].
    destruct bin as [b|]; [|split; [discriminate|intros (_ & _ & H & _); congruence]].
    destruct gen as [g|]; [|split; [discriminate|intros (_ & _ & _ & H); congruence]].
    split; [|reflexivity]. intros _. repeat split; try discriminate. eauto.
Qed.

Definition ethernet_vars := ["SLURM"; "NOSLURM"; "NXSDKHOST"; "HOST_BINARY"; "LOIHI_GEN"].

Lemma env_set_other : forall e x v k, k <> x -> env_set e x v k = e k.
Proof. intros e x v k H. unfold env_set. apply String.eqb_neq in H. now rewrite H. Qed.
Lemma env_pop_other : forall e x k, k <> x -> env_pop e x k = e k.
Proof. intros e x k H. unfold env_pop. apply String.eqb_neq in H. now rewrite H. Qed.

Ltac others := repeat first [rewrite env_set_other by (intros ->; simpl in *; tauto) | rewrite env_pop_other by (intros ->; simpl in *; tauto)].

Theorem ethernet_host_effect : forall m addr bin gen s r s',
  use_ethernet_host m addr bin gen s = (r, s') ->
  OnlyChanges ethernet_vars (st_env s) (st_env s') /\
  (r = Ok tt -> st_host s' = Some "ETHERNET" /\ st_env s' "SLURM" = None /\ st_env s' "NOSLURM" = Some "1" /\
     st_env s' "NXSDKHOST" = Some addr /\ st_env s' "HOST_BINARY" = bin /\ st_env s' "LOIHI_GEN" = gen_value gen) /\
  (r <> Ok tt -> st_host s' = st_host s) /\
  (has_loihi m (st_time s) = false \/ ~ (exists t, Prints m (st_time s) ["ping"; addr; "-c 1"] t) -> st_env s' = st_env s) /\
  (st_env s' "SLURM" <> st_env s "SLURM" \/ st_env s' "NOSLURM" <> st_env s "NOSLURM" ->
   st_env s' "SLURM" = None /\ st_env s' "NOSLURM" = Some "1").
Proof.
  intros m addr bin gen s r s' H. unfold use_ethernet_host, is_installed, try_run_command, Prints in *.
  destruct (has_loihi m (st_time s)) eqn:Hl; cbn [negb] in H.
  2:{ injection H as <- <-. repeat split; intros; try congruence; try tauto. }
  destruct (run_cmd m (st_time s) ["ping"; addr; "-c 1"]) as [| |t].
  - injection H as <- <-. cbn [st_env st_host]. repeat split; intros; try congruence; try tauto.
  - injection H as <- <-. cbn [st_env st_host]. repeat split; intros; try congruence; try tauto.
  - pose proof (split_newline_nonempty t) as Hn. destruct (split_newline t) as [|x l]; [congruence|].
    assert (true = false \/ ~ (exists t0, Printed t = Printed t0) -> False) as HF
      by (intros [X|X]; [discriminate|apply X; eauto]).
    destruct bin as [b|]; [destruct gen as [g|]|]; injection H as <- <-;
      unfold disable, with_env, with_host; cbn [st_env st_host].
    + split; [intros k Hk; unfold ethernet_vars in Hk; others; reflexivity|].
      split; [intros _; repeat split|]. split; [congruence|]. split; [intros X; destruct (HF X)|]. repeat split.
    + split; [intros k Hk; unfold ethernet_vars in Hk; others; reflexivity|].
      split; [congruence|]. split; [reflexivity|]. split; [intros X; destruct (HF X)|]. repeat split.
    + split; [intros k Hk; unfold ethernet_vars in Hk; others; reflexivity|].
      split; [congruence|]. split; [reflexivity|]. split; [intros X; destruct (HF X)|]. repeat split.
Qed.

(** ** every history of calls *)
Lemma drop_query : forall A (r : res A * state) s, st_env (snd r) = st_env s -> st_host (snd r) = st_host s ->
  st_env (snd (drop r)) = st_env s /\ st_host (snd (drop r)) = st_host s.
Proof. intros A r s H1 H2. split; assumption. Qed.

Definition is_query (c : call) : bool :=
  match c with CAvailable | CPartitions | CBoards | CPartitionInfo _ | CBoardInfo _ => true | _ => false end.

Theorem query_changes_nothing : forall m c s, is_query c = true ->
  st_env (snd (exec m c s)) = st_env s /\ st_host (snd (exec m c s)) = st_host s.
Proof.
  intros m c s H. destruct c; try discriminate; cbn [exec drop snd].
  - destruct (available_iff m s) as (_ & _ & _ & H1 & H2). now split.
  - unfold get_partitions. destruct (get_table m ["sinfo"] parse_partition s) as [r s'] eqn:E. eapply get_table_st; exact E.
  - unfold get_boards. destruct (get_table m ["sinfo"; "-N"] parse_board s) as [r s'] eqn:E. eapply get_table_st; exact E.
  - destruct (get_partition_info m name s) as [r s'] eqn:E. eapply partition_answer; exact E.
  - destruct (get_board_info m name s) as [r s'] eqn:E. eapply board_answer; exact E.
Qed.

Lemma exec_exclusive : forall m c s, Exclusive s -> Exclusive (snd (exec m c s)).
Proof.
  intros m c s HE. destruct (is_query c) eqn:Q.
  { destruct (query_changes_nothing m c s Q) as [H _]. unfold Exclusive. now rewrite H. }
  unfold Exclusive in *. destruct c; try discriminate; cbn [exec].
  - destruct (enable_exact m s) as (_ & _ & _ & H1 & H2). destruct (enable m s) as [[[]|e] s1]; cbn [fst snd] in *.
    + right. now apply H1.
    + rewrite H2 by discriminate. exact HE.
  - left. reflexivity.
  - destruct (set_board m board partition s) as [r s'] eqn:E. destruct (set_board_effect _ _ _ _ _ _ E) as (_ & H & _).
    cbn [snd]. rewrite !H by (simpl; intuition discriminate). exact HE.
  - destruct (set_partition m partition s) as [r s'] eqn:E. destruct (set_partition_effect _ _ _ _ _ E) as (_ & H & _).
    cbn [snd]. rewrite !H by (simpl; intuition discriminate). exact HE.
  - destruct (use_slurm_host m partition board gen s) as [[[]|e] s'] eqn:E; cbn [snd].
    + right. apply (slurm_host_success _ _ _ _ _ _ E).
    + destruct (slurm_host_failure _ _ _ _ _ _ _ E) as (_ & _ & H & _).
      destruct (st_env s' "NOSLURM") eqn:E1; [|now right]. left.
      destruct (st_env s' "SLURM") eqn:E2; [|reflexivity]. exfalso.
      destruct HE as [HE|HE]; [destruct H as [_ H]; [left; congruence|congruence]|destruct H as [_ H]; [right; congruence|congruence]].
  - destruct (use_ethernet_host m addr binary gen s) as [r s'] eqn:E; cbn [snd].
    destruct (ethernet_host_effect _ _ _ _ _ _ _ E) as (_ & _ & _ & _ & H).
    destruct (st_env s' "SLURM") eqn:E1; [|now left]. right.
    destruct (st_env s' "NOSLURM") eqn:E2; [|reflexivity]. exfalso.
    destruct HE as [HE|HE]; [destruct H as [H _]; [left; congruence|congruence]|destruct H as [H _]; [right; congruence|congruence]].
Qed.

(** in every history, whatever fails in it, SLURM and NOSLURM are never both set *)
Theorem switch_exclusive : forall m cs s, Exclusive s -> Exclusive (snd (history m cs s)).
Proof.
  intros m cs. induction cs as [|c cs IH]; intros s HE; cbn [history]; [exact HE|].
  pose proof (exec_exclusive m c s HE) as H1. destruct (exec m c s) as [r s1]. cbn [snd] in H1.
  specialize (IH s1 H1). destruct (history m cs s1) as [rs s2]. exact IH.
Qed.

Lemma history_cons : forall m c cs s,
  history m (c :: cs) s =
  ((c, fst (exec m c s)) :: fst (history m cs (snd (exec m c s))), snd (history m cs (snd (exec m c s)))).
Proof.
  intros m c cs s. cbn [history]. destruct (exec m c s) as [r s1]. cbn [fst snd].
  now destruct (history m cs s1).
Qed.

(** partition() is the argument of the last successful choice of a partition in the history *)
Theorem last_partition_wins : forall m cs s,
  partition (snd (history m cs s)) =
  match last_partition (st_env s "PARTITION") (fst (history m cs s)) with Some p => p | None => "Unspecified" end.
Proof.
  intros m cs. induction cs as [|c cs IH]; intros s; [reflexivity|].
  rewrite history_cons. cbn [fst snd]. rewrite IH. f_equal.
  clear IH. set (h := fst (history m cs (snd (exec m c s)))). clearbody h.
  destruct (is_query c) eqn:Q.
  { destruct (query_changes_nothing m c s Q) as [H _]. rewrite H.
    destruct c; try discriminate; reflexivity. }
  destruct c; try discriminate; cbn [exec].
  - destruct (enable_exact m s) as (_ & _ & H & _). cbn [last_partition].
    rewrite H by (simpl; intuition discriminate). reflexivity.
  - reflexivity.
  - destruct (set_board m board partition s) as [r s'] eqn:E. destruct (set_board_effect _ _ _ _ _ _ E) as (_ & H & _).
    cbn [fst snd last_partition]. rewrite H by (simpl; intuition discriminate). reflexivity.
  - destruct (set_partition m partition s) as [[[]|e] s'] eqn:E; destruct (set_partition_effect _ _ _ _ _ E) as (_ & _ & H1 & H2);
      cbn [fst snd last_partition].
    + now rewrite H1.
    + now rewrite H2 by discriminate.
  - destruct (use_slurm_host m partition board gen s) as [[[]|e] s'] eqn:E; cbn [fst snd last_partition].
    + destruct (slurm_host_success _ _ _ _ _ _ E) as (_ & _ & _ & _ & _ & H & _). now rewrite H.
    + destruct (slurm_host_failure _ _ _ _ _ _ _ E) as (_ & H & _). rewrite H by (simpl; intuition discriminate). reflexivity.
  - destruct (use_ethernet_host m addr binary gen s) as [r s'] eqn:E.
    destruct (ethernet_host_effect _ _ _ _ _ _ _ E) as (H & _). cbn [fst snd last_partition].
    rewrite H by (simpl; intuition discriminate). reflexivity.
Qed.

(** loihi.host is that of the last successful choice of a host *)
Theorem last_host_wins : forall m cs s,
  st_host (snd (history m cs s)) = last_host (st_host s) (fst (history m cs s)).
Proof.
  intros m cs. induction cs as [|c cs IH]; intros s; [reflexivity|].
  rewrite history_cons. cbn [fst snd]. rewrite IH.
  clear IH. set (h := fst (history m cs (snd (exec m c s)))). clearbody h.
  destruct (is_query c) eqn:Q.
  { destruct (query_changes_nothing m c s Q) as [_ H]. rewrite H.
    destruct c; try discriminate; reflexivity. }
  destruct c; try discriminate; cbn [exec].
  - destruct (enable_exact m s) as (_ & H & _). cbn [last_host]. now rewrite H.
  - reflexivity.
  - destruct (set_board m board partition s) as [r s'] eqn:E. destruct (set_board_effect _ _ _ _ _ _ E) as (H & _).
    cbn [fst snd last_host]. now rewrite H.
  - destruct (set_partition m partition s) as [r s'] eqn:E. destruct (set_partition_effect _ _ _ _ _ E) as (H & _).
    cbn [fst snd last_host]. now rewrite H.
  - destruct (use_slurm_host m partition board gen s) as [[[]|e] s'] eqn:E; cbn [fst snd last_host].
    + destruct (slurm_host_success _ _ _ _ _ _ E) as (H & _). now rewrite H.
    + destruct (slurm_host_failure _ _ _ _ _ _ _ E) as (H & _). now rewrite H.
  - destruct (use_ethernet_host m addr binary gen s) as [[[]|e] s'] eqn:E;
      destruct (ethernet_host_effect _ _ _ _ _ _ _ E) as (_ & H1 & H2 & _); cbn [fst snd last_host].
    + destruct (H1 eq_refl) as [H _]. now rewrite H.
    + now rewrite H2 by discriminate.
Qed.

(** the recorded host is the one the environment stands for, as long as no choice of a host
    fails and slurm.enable/disable are not called directly *)
Theorem host_matches_partial : forall m cs s, Consistent s ->
  Forall (fun cr => fst cr <> CEnable /\ fst cr <> CDisable /\
                    (is_host_call (fst cr) = true -> snd cr = Ok tt)) (fst (history m cs s)) ->
  Consistent (snd (history m cs s)).
Proof.
  intros m cs. induction cs as [|c cs IH]; intros s HC HF; [exact HC|].
  rewrite history_cons in *. cbn [fst snd] in *. inversion HF as [|x y (Hx1 & Hx2 & Hx3) Hy]; subst.
  cbn [fst snd] in *. apply IH; [|exact Hy]. clear IH HF Hy.
  destruct (is_query c) eqn:Q.
  { destruct (query_changes_nothing m c s Q) as [H1 H2]. unfold Consistent in *. now rewrite H1, H2. }
  destruct c; try discriminate; try congruence; cbn [exec is_host_call] in *.
  - destruct (set_board m board partition s) as [r s'] eqn:E. destruct (set_board_effect _ _ _ _ _ _ E) as (H1 & H & _).
    cbn [snd]. unfold Consistent in *. rewrite !H, H1 by (simpl; intuition discriminate). exact HC.
  - destruct (set_partition m partition s) as [r s'] eqn:E. destruct (set_partition_effect _ _ _ _ _ E) as (H1 & H & _).
    cbn [snd]. unfold Consistent in *. rewrite !H, H1 by (simpl; intuition discriminate). exact HC.
  - destruct (use_slurm_host m partition board gen s) as [[[]|e] s'] eqn:E; [|specialize (Hx3 eq_refl); discriminate].
    destruct (slurm_host_success _ _ _ _ _ _ E) as (H1 & H2 & H3 & _). cbn [snd].
    split; rewrite H1; [auto|discriminate].
  - destruct (use_ethernet_host m addr binary gen s) as [[[]|e] s'] eqn:E; [|specialize (Hx3 eq_refl); discriminate].
    destruct (ethernet_host_effect _ _ _ _ _ _ _ E) as (_ & H & _). destruct (H eq_refl) as (H1 & H2 & H3 & _).
    cbn [snd]. split; rewrite H1; [discriminate|auto].
Qed.

(** ** output that ends in a newline *)
Lemma split_newline_terminated : forall t, exists l, split_newline (t ++ nl) = (l ++ [""])%list /\ l <> [].
Proof.
  induction t as [|c t (l & IH & Hl)]; [exists [""]; split; [reflexivity|discriminate]|].
  cbn [append split_newline]. destruct (Ascii.eqb c newline).
  - rewrite IH. exists ("" :: l)%list. split; [reflexivity|discriminate].
  - rewrite IH. destruct l as [|w l]; [congruence|]. exists (String c w :: l)%list. split; [reflexivity|discriminate].
Qed.

Lemma parse_all_bad : forall A (f : string -> res A) ls, (forall l e, f l = Raise e -> e = IndexError) ->
  f "" = Raise IndexError -> parse_all f (ls ++ [""])%list = Raise IndexError.
Proof.
  intros A f ls Hf H0. induction ls as [|l ls IH]; simpl; [now rewrite H0|].
  destruct (f l) as [a|e] eqn:E; [now rewrite IH|]. now rewrite (Hf _ _ E).
Qed.

Lemma table_terminated : forall A m c (f : string -> res A) s t0 t,
  (forall l e, f l = Raise e -> e = IndexError) -> f "" = Raise IndexError ->
  Prints m (st_time s) ["sinfo"] t0 -> Prints m (S (st_time s)) c t -> Terminated t ->
  get_table m c f s = (Raise IndexError, mkState (st_env s) (st_host s) (S (S (st_time s)))).
Proof.
  intros A m c f s t0 t Hf H0 H1 H2 [t' ->]. unfold get_table.
  assert (is_available m s = (Ok true, mkState (st_env s) (st_host s) (S (st_time s)))) as ->
    by (apply is_available_true; split; [exists t0; exact H1|reflexivity]).
  unfold try_run_command. cbn [st_time st_env st_host]. unfold Prints in H2. rewrite H2.
  destruct (split_newline_terminated t') as (l & -> & Hl). destruct l as [|x l]; [congruence|].
  cbn [app]. now rewrite parse_all_bad.
Qed.

(** whatever the table says: if the output ends in a newline, neither list can be read *)
Theorem newline_no_lists : forall m s t0 t,
  Prints m (st_time s) ["sinfo"] t0 -> Terminated t ->
  (Prints m (S (st_time s)) ["sinfo"; "-N"] t -> fst (get_boards m s) = Raise IndexError) /\
  (Prints m (S (st_time s)) ["sinfo"] t -> fst (get_partitions m s) = Raise IndexError).
Proof.
  intros m s t0 t H0 HT. split; intros H.
  - unfold get_boards. erewrite table_terminated; eauto.
    intros l e. unfold parse_board. destruct (nth_error (split_fields l) 0), (nth_error (split_fields l) 2), (nth_error (split_fields l) 3); congruence.
  - unfold get_partitions. erewrite table_terminated; eauto.
    intros l e. unfold parse_partition. destruct (split_fields l); congruence.
Qed.

(** so on a machine whose sinfo prints newline-terminated text, no board and no partition can ever be
    chosen, though the docstrings promise it for every listed one *)
Theorem newline_no_choice : forall m,
  (forall n c t, (c = ["sinfo"] \/ c = ["sinfo"; "-N"]) -> Prints m n c t -> Terminated t) ->
  (forall b p s, fst (set_board m (Some b) p s) <> Ok tt) /\
  (forall p s, fst (set_partition m (Some p) s) <> Ok tt) /\
  (forall p b g s, fst (use_slurm_host m p b g s) = Ok tt -> p = None /\ b = None).
Proof.
  intros m HT.
  assert (forall b p s, fst (set_board m (Some b) p s) <> Ok tt) as HB.
  { intros b p s H. pose proof (proj1 (set_board_ok_iff _ _ _ _) H) as ((t0 & H0) & t & rows & row & q & st & H1 & _).
    destruct (newline_no_lists m s t0 t H0 (HT _ _ _ (or_intror eq_refl) H1)) as [X _]. specialize (X H1).
    unfold set_board, get_board_info in H. destruct (get_boards m s) as [[bs|e] s1]; discriminate. }
  assert (forall p s, fst (set_partition m (Some p) s) <> Ok tt) as HP.
  { intros p s H. pose proof (proj1 (set_partition_ok_iff _ _ _) H) as ((t0 & H0) & t & rows & row & H1 & _).
    destruct (newline_no_lists m s t0 t H0 (HT _ _ _ (or_introl eq_refl) H1)) as [_ X]. specialize (X H1).
    unfold set_partition, get_partition_info in H. destruct (get_partitions m s) as [[bs|e] s1]; discriminate. }
  split; [exact HB|split; [exact HP|]].
  intros p b g s H. apply slurm_host_iff in H. destruct H as (_ & _ & _ & H1 & H2).
  destruct b as [b|].
  { exfalso. apply (HB b p (mkState (st_env s) None (1 + st_time s))). now apply set_board_ok_iff. }
  destruct p as [p|]; [|auto].
  exfalso. apply (HP p (mkState (st_env s) None (1 + st_time s))). now apply set_partition_ok_iff.
Qed.
