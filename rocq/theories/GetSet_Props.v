(** C13, C14: Var.get / Var.set.

    Specification vocabulary. *)
From Coq Require Import List Arith ZArith Bool Lia.
From Verif Require Import Base Kahn GetSet_Model GetSet_Proofs.
Import ListNotations.
Open Scope Z_scope.

(** Variable [vid] is declared (in the executable) as a variable of process [g], which is reached
    through service [k], with [size] elements. *)
Definition located (cfgs : nat -> rscfg) (T : vtable) (vid : Z) (g size : nat) : Prop :=
  exists vm i, T vid = Some vm /\ v_size vm = size /\
    nth_error (mids (cfgs (v_srv vm))) i = Some (v_mid vm) /\ nth_error (mprocs (cfgs (v_srv vm))) i = Some g.

(** Process [g] currently stores [v] for variable [vid]. *)
Definition stored (ms : list mem) (g : nat) (vid : Z) (v : value) : Prop :=
  exists m, nth_error ms g = Some m /\ find_var vid m = Some v.

(** A well-formed system: every service manages its own processes, each with its own id, and the
    variable table mentions existing services only. *)
Record wf (K : nat) (cfgs : nat -> rscfg) (T : vtable) : Prop := {
  wf_nodup : forall k, (k < K)%nat -> NoDup (mids (cfgs k));
  wf_disj : forall k k' g, (k < K)%nat -> (k' < K)%nat -> In g (mprocs (cfgs k)) -> In g (mprocs (cfgs k')) -> k = k';
  wf_srv : forall vid v, T vid = Some v -> (v_srv v < K)%nat }.

(** What the value of a variable looks like to the user (in C order). *)
Definition contents (v : value) (xs : list Z) : Prop :=
  match v with
  | VInt z => xs = [z]
  | VArr data _ => xs = data
  | VCsr es => xs = map snd es
  | VStr cs => xs = cs
  | VFloat _ => False
  end.

(** [accepts v xs w]: a set of [xs] on a variable holding [v] is well-formed and leaves [w]:
    an int takes one item; an array takes up to as many items as it has elements, the k-th item
    goes to the k-th element in memory order; a sparse matrix takes one item
    per stored element that is not zero, and keeps just these positions; a string any ASCII characters. *)
Definition accepts (v : value) (xs : list Z) (w : value) : Prop :=
  match v with
  | VInt _ => exists x, xs = [x] /\ w = VInt x
  | VArr data perm => NoDup perm /\ (forall p, In p perm -> (p < length data)%nat) /\ (length xs <= length perm)%nat /\
      exists data', w = VArr data' perm /\ length data' = length data /\
       (forall k p x, nth_error perm k = Some p -> nth_error xs k = Some x -> nth_error data' p = Some x) /\
       (forall j, (forall k, nth_error perm k = Some j -> nth_error xs k = None) -> nth_error data' j = nth_error data j)
  | VCsr es => let nz := filter (fun e => negb (snd e =? 0)) es in
      length xs = length nz /\ exists es', w = VCsr es' /\ map fst es' = map fst nz /\ map snd es' = xs
  | VStr _ => (forall x, In x xs -> 0 <= x < 128) /\ w = VStr xs
  | VFloat _ => False
  end.

(** what a get returns: an array of the size of the variable, which starts with its items *)
Definition padded (size : nat) (xs : list Z) : list Z := xs ++ repeat 0 (size - length xs).
(** Sequential meaning of a list of requests on the memories of the processes. *)
Inductive serves (cfgs : nat -> rscfg) (T : vtable) : list mem -> list req -> list result -> list mem -> Prop :=
| SV_nil ms : serves cfgs T ms [] [] ms
| SV_get ms vid g size v xs rs res ms' :
    located cfgs T vid g size -> stored ms g vid v -> contents v xs -> (length xs <= size)%nat ->
    serves cfgs T ms rs res ms' ->
    serves cfgs T ms (RGet vid :: rs) (GotArray (padded size xs) :: res) ms'
| SV_set ms vid g size v xs w m1 ms1 rs res ms' :
    located cfgs T vid g size -> stored ms g vid v -> accepts v xs w ->
    (* only process g changes, and in it only variable vid *)
    ms1 = upd ms g m1 -> length ms1 = length ms ->
    (exists m, nth_error ms g = Some m /\ m1 = put_var vid w m) ->
    serves cfgs T ms1 rs res ms' ->
    serves cfgs T ms (RSet vid xs :: rs) (SetOk :: res) ms'.

Lemma index_nodup l i x : NoDup l -> nth_error l i = Some x -> index x l = Some i.
Proof.
  revert i; induction l as [|y l IH]; destruct i; simpl; intros ND H; try discriminate.
  - injection H as ->. rewrite Z.eqb_refl. auto.
  - inversion ND; subst. destruct (Z.eqb_spec y x) as [->|].
    + exfalso. apply H2. eapply nth_error_In; eauto.
    + rewrite (IH i); auto.
Qed.

Lemma contents_get v xs : contents v xs -> get_items v = Some xs.
Proof. destruct v; simpl; intros; subst; auto. contradiction. Qed.

Lemma nonzero_all es : (forall e, In e es -> snd e <> 0) -> nonzero es = es.
Proof.
  unfold nonzero. induction es as [|e es IH]; simpl; intros H; auto.
  assert (snd e <> 0) by auto. destruct (Z.eqb_spec (snd e) 0); [contradiction|]. simpl. f_equal. auto.
Qed.
Lemma combine_fst_snd A B (l l' : list (A * B)) xs : map fst l' = map fst l -> map snd l' = xs ->
  combine (map fst l) xs = l'.
Proof. intros <- <-. induction l' as [|[]]; simpl; auto. f_equal; auto. Qed.

Lemma write_at_length perm : forall data xs, length (write_at data perm xs) = length data.
Proof.
  induction perm as [|p perm IH]; destruct xs; simpl; intros; auto. rewrite IH, upd_length. auto.
Qed.
Lemma write_at_other perm : forall data xs j, (forall k, nth_error perm k = Some j -> nth_error xs k = None) ->
  nth_error (write_at data perm xs) j = nth_error data j.
Proof.
  induction perm as [|p perm IH]; destruct xs as [|x xs]; simpl; intros j H; auto.
  assert (p <> j). { intros ->. specialize (H 0%nat eq_refl). discriminate. }
  rewrite IH. - apply nth_upd_neq; auto. - intros k Hk. apply (H (S k)). auto.
Qed.
Lemma write_at_spec perm : forall data xs k p x, NoDup perm -> (forall p, In p perm -> (p < length data)%nat) ->
  nth_error perm k = Some p -> nth_error xs k = Some x -> nth_error (write_at data perm xs) p = Some x.
Proof.
  induction perm as [|q perm IH]; intros data xs k p x ND B Hp Hx; [destruct k; discriminate|].
  destruct xs as [|y xs]; [destruct k; discriminate|]. inversion ND; subst. destruct k; simpl in *.
  - injection Hp as ->. injection Hx as ->. rewrite write_at_other.
    + apply nth_upd_eq. auto.
    + intros k Hk. exfalso. apply H1. eapply nth_error_In; eauto.
  - eapply IH; eauto. intros; rewrite upd_length; auto.
Qed.

Lemma nth_ext_eq2 A (l m : list A) : (forall i, nth_error l i = nth_error m i) -> l = m.
Proof. apply nth_ext_eq. Qed.
Lemma in_dec_pos (perm : list nat) (xs : list Z) j :
  (exists k x, nth_error perm k = Some j /\ nth_error xs k = Some x) \/
  (forall k, nth_error perm k = Some j -> nth_error xs k = None).
Proof.
  revert xs; induction perm as [|p perm IH]; intros xs; [right; intros k H; destruct k; discriminate|].
  destruct xs as [|x xs]; [right; intros [|k] _; auto|].
  destruct (Nat.eq_dec p j) as [->|N].
  - left. exists 0%nat, x. auto.
  - destruct (IH xs) as [(k & y & H1 & H2)|H].
    + left. exists (S k), y. auto.
    + right. intros [|k] Hk; simpl in *; [congruence|auto].
Qed.
Lemma write_at_unique data perm xs data' : NoDup perm -> (forall p, In p perm -> (p < length data)%nat) ->
  (forall k p x, nth_error perm k = Some p -> nth_error xs k = Some x -> nth_error data' p = Some x) ->
  (forall j, (forall k, nth_error perm k = Some j -> nth_error xs k = None) -> nth_error data' j = nth_error data j) ->
  data' = write_at data perm xs.
Proof.
  intros ND B H1 H2. apply nth_ext_eq. intros j. destruct (in_dec_pos perm xs j) as [(k & x & P1 & P2)|P].
  - rewrite (H1 k j x), (write_at_spec perm data xs k j x); auto.
  - rewrite H2, write_at_other; auto.
Qed.

Lemma accepts_store v xs w : accepts v xs w -> takes v (Z.of_nat (length xs)) = length xs /\ store v xs = Some w.
Proof.
  destruct v; simpl; intros H.
  - destruct H as (x & -> & ->). auto.
  - destruct H as (ND & Bd & L & d' & -> & Ld & H1 & H2). rewrite <- (write_at_unique data perm xs d') by auto.
    destruct (Z.ltb_spec (Z.of_nat (length xs)) 0); [lia|].
    rewrite Nat2Z.id. split; auto. lia.
  - destruct H as (L & es' & -> & E1 & E2). rewrite Nat2Z.id. split; auto.
    unfold csr_store, nonzero. rewrite L, Nat.eqb_refl.
    rewrite (combine_fst_snd _ _ (filter (fun e => negb (snd e =? 0)) es) es' xs); auto.
  - destruct H as [H ->]. rewrite Nat2Z.id. split; auto.
    assert (forallb is_ascii xs = true) as ->; auto. apply forallb_forall. intros x Hx.
    specialize (H x Hx). unfold is_ascii. apply andb_true_iff. split; [apply Z.leb_le|apply Z.ltb_lt]; lia.
  - contradiction.
Qed.

Section Exact.
Variables (K cap : nat) (cfgs : nat -> rscfg) (T : vtable).
Hypothesis Hwf : wf K cfgs T.
Hypothesis Hcap : (1 <= cap)%nat.

Lemma located_route vid g size : located cfgs T vid g size -> exists vm, T vid = Some vm /\ v_size vm = size /\
  (v_srv vm < K)%nat /\ route (cfgs (v_srv vm)) (v_mid vm) = Some g.
Proof.
  intros (vm & i & H1 & H2 & H3 & H4). exists vm. repeat split; auto.
  - eapply wf_srv; eauto.
  - unfold route. rewrite (index_nodup _ i); auto. eapply wf_nodup; eauto. eapply wf_srv; eauto.
Qed.

Lemma serves_runs ms rs res ms' : serves cfgs T ms rs res ms' -> forall acc,
  kruns (nact K cfgs T) cap (at_rest K (CNext rs acc) ms) (at_rest K (CEnd (acc ++ res)) ms').
Proof.
  induction 1; intros acc.
  - rewrite app_nil_r. eapply kruns_one with (i := 0%nat).
    change (at_rest K (CEnd acc) ms) with
      (mkNet (upd (comps (at_rest K (CNext [] acc) ms)) 0 (Cl (CEnd acc))) (chans (at_rest K (CNext [] acc) ms))).
    eapply KTau; reflexivity.
  - destruct (located_route _ _ _ H) as (vm & L1 & <- & L3 & L4). destruct H0 as (m & M1 & M2).
    eapply kruns_trans; [eapply (rest_get K (length ms) cap cfgs T Hcap); eauto using contents_get|].
    rewrite <- app_assoc in IHserves || idtac.
    specialize (IHserves (acc ++ [GotArray (pad (v_size vm) xs)])). rewrite <- app_assoc in IHserves. exact IHserves.
  - destruct (located_route _ _ _ H) as (vm & L1 & <- & L3 & L4). destruct H0 as (m & M1 & M2).
    destruct H4 as (m' & M1' & ->). rewrite M1 in M1'. injection M1' as <-. subst ms1.
    destruct (accepts_store _ _ _ H1) as [A1 A2].
    eapply kruns_trans; [eapply (rest_set K (length ms) cap cfgs T Hcap); eauto|].
    specialize (IHserves (acc ++ [SetOk])). rewrite <- app_assoc in IHserves. exact IHserves.
Qed.

(** C13: whatever the schedule of client, services and processes and whatever the channel capacity,
    a program of well-formed get and set requests always terminates, with exactly the results of
    the sequential meaning; afterwards the memories are exactly the specified ones, all channels are
    empty and every service and process waits for its next command. *)
Theorem getset_exact_partial ms rs res ms' : serves cfgs T ms rs res ms' ->
  inevitable (knext (nact K cfgs T) cap) (fun x => x = finished K res ms') (rest K rs ms).
Proof.
  intros H.
  pose (own := fun g => match find (fun k => existsb (Nat.eqb g) (mprocs (cfgs k))) (seq 0 K) with Some k => k | None => 0%nat end).
  assert (Hown : forall k g, (k < K)%nat -> In g (mprocs (cfgs k)) -> own g = k).
  { intros k g Hk Hg. unfold own. destruct (find _ _) eqn:F.
    - apply find_some in F as [F1 F2]. apply in_seq in F1. apply existsb_exists in F2 as (y & F2 & F3).
      apply Nat.eqb_eq in F3 as <-. eapply wf_disj; eauto. lia.
    - eapply find_none with (x := k) in F; [|apply in_seq; lia].
      exfalso. assert (existsb (Nat.eqb g) (mprocs (cfgs k)) = true); [|congruence].
      apply existsb_exists. exists g. split; auto. apply Nat.eqb_refl. }
  apply (kahn_inevitable (nact K cfgs T) cap (wr K own) (rd K own) (okk K cfgs)).
  - intros. eapply (ok_snd_ K cap cfgs T Hcap own Hown); eauto.
  - intros. eapply (ok_rcv_ K cap cfgs T Hcap own Hown); eauto.
  - intros. eapply (ok_tau_ K cfgs T); eauto. apply Hwf.
  - apply (rest_allok K cap cfgs Hcap). simpl. auto.
  - apply (serves_runs _ _ _ _ H []).
  - apply (rest_stuck K cap cfgs T Hcap).
Qed.

(** Everything that can happen on the way can still be completed to that outcome. *)
Theorem getset_never_stuck_partial ms rs res ms' x : serves cfgs T ms rs res ms' ->
  kruns (nact K cfgs T) cap (rest K rs ms) x -> kruns (nact K cfgs T) cap x (finished K res ms').
Proof.
  intros H R.
  pose (own := fun g => match find (fun k => existsb (Nat.eqb g) (mprocs (cfgs k))) (seq 0 K) with Some k => k | None => 0%nat end).
  assert (Hown : forall k g, (k < K)%nat -> In g (mprocs (cfgs k)) -> own g = k).
  { intros k g Hk Hg. unfold own. destruct (find _ _) eqn:F.
    - apply find_some in F as [F1 F2]. apply in_seq in F1. apply existsb_exists in F2 as (y & F2 & F3).
      apply Nat.eqb_eq in F3 as <-. eapply wf_disj; eauto. lia.
    - eapply find_none with (x := k) in F; [|apply in_seq; lia].
      exfalso. assert (existsb (Nat.eqb g) (mprocs (cfgs k)) = true); [|congruence].
      apply existsb_exists. exists g. split; auto. apply Nat.eqb_refl. }
  eapply (kahn_confluent (nact K cfgs T) cap (wr K own) (rd K own) (okk K cfgs)); [| | | | | |exact R].
  - intros. eapply (ok_snd_ K cap cfgs T Hcap own Hown); eauto.
  - intros. eapply (ok_rcv_ K cap cfgs T Hcap own Hown); eauto.
  - intros. eapply (ok_tau_ K cfgs T); eauto. apply Hwf.
  - apply (rest_allok K cap cfgs Hcap). simpl. auto.
  - apply (serves_runs _ _ _ _ H []).
  - apply (rest_stuck K cap cfgs T Hcap).
Qed.
End Exact.

(** What a set leaves alone: other variables of the process and all other processes. *)
Lemma put_other vid vid' v m : vid <> vid' -> find_var vid' (put_var vid v m) = find_var vid' m.
Proof.
  intros H. induction m as [|[i w] m IH]; simpl; auto. destruct (Z.eqb_spec i vid) as [->|]; simpl.
  - destruct (Z.eqb_spec vid vid'); [contradiction|auto].
  - destruct (i =? vid'); auto.
Qed.
Lemma put_same vid v w m : find_var vid m = Some w -> find_var vid (put_var vid v m) = Some v.
Proof.
  induction m as [|[i u] m IH]; simpl; [discriminate|]. destruct (Z.eqb_spec i vid) as [->|]; simpl.
  - rewrite Z.eqb_refl. auto.
  - destruct (Z.eqb_spec i vid); [contradiction|auto].
Qed.

Lemma serves_touches K cfgs T (Hwf : wf K cfgs T) ms rs res ms' : serves cfgs T ms rs res ms' ->
  forall g vid, (forall size xs, In (RSet vid xs) rs -> ~ located cfgs T vid g size) ->
  forall v, stored ms' g vid v <-> stored ms g vid v.
Proof.
  induction 1; intros g' vid' N v'; [tauto| |].
  - apply IHserves. intros size0 ys Hy. apply (N size0 ys). right. auto.
  - rewrite (IHserves g' vid').
    2:{ intros size0 ys Hy. apply (N size0 ys). right. auto. }
    destruct H4 as (m & M1 & ->). subst ms1. unfold stored.
    pose proof (nth_lt _ _ _ _ M1) as L.
    destruct (Nat.eq_dec g g') as [<-|Hg].
    + assert (vid <> vid'). { intros <-. apply (N size xs (or_introl eq_refl) H). }
      rewrite nth_upd_eq by auto. split; intros (m0 & A & B).
      * injection A as <-. rewrite put_other in B by auto. eauto.
      * rewrite M1 in A. injection A as <-. eexists. split; eauto. rewrite put_other by auto. auto.
    + rewrite nth_upd_neq by auto. tauto.
Qed.

(** C13 (frame): a variable that is not the target of a set in the program keeps its value. *)
Theorem set_touches_only_target K cfgs T ms rs res ms' g vid v :
  wf K cfgs T -> serves cfgs T ms rs res ms' ->
  (forall size xs, In (RSet vid xs) rs -> ~ located cfgs T vid g size) ->
  (stored ms' g vid v <-> stored ms g vid v).
Proof. intros. eapply serves_touches; eauto. Qed.

(** ** C14 *)

(** Well-formed sets are accepted. *)
Lemma accepts_arr data perm xs : NoDup perm -> (forall p, In p perm -> (p < length data)%nat) -> (length xs <= length perm)%nat ->
  accepts (VArr data perm) xs (VArr (write_at data perm xs) perm).
Proof.
  intros. repeat (split; auto). exists (write_at data perm xs). repeat split; auto.
  - apply write_at_length.
  - intros. eapply write_at_spec; eauto.
  - intros. apply write_at_other; auto.
Qed.

(** The memory order of a C-contiguous array is the C order. *)
Lemma write_seq : forall xs data a, (a + length xs = a + length data)%nat ->
  forall pre, length pre = a -> write_at (pre ++ data) (seq a (length data)) xs = pre ++ xs.
Proof.
  induction xs as [|x xs IH]; intros data a L pre Hp; destruct data as [|d data]; simpl in *; try lia; auto.
  replace (upd (pre ++ d :: data) a x) with ((pre ++ [x]) ++ data).
  2:{ subst a. rewrite <- (Nat.add_0_r (length pre)), upd_app_r. rewrite <- app_assoc. auto. }
  replace (pre ++ x :: xs) with ((pre ++ [x]) ++ xs) by (rewrite <- app_assoc; auto).
  apply IH; [lia|]. rewrite app_length. simpl. lia.
Qed.
Lemma write_c_order data xs : length xs = length data -> write_at data (seq 0 (length data)) xs = xs.
Proof. intros. apply (write_seq xs data 0 ltac:(lia) [] eq_refl). Qed.

(** Which variables give back what was written: ints; arrays stored in C order; strings that fill
    the declared size; sparse matrices without stored zeros. *)
Inductive faithful (size : nat) : value -> list Z -> Prop :=
| F_int z x : size = 1%nat -> faithful size (VInt z) [x]
| F_arr data xs : length data = size -> length xs = size -> faithful size (VArr data (seq 0 size)) xs
| F_csr es xs : (forall e, In e es -> snd e <> 0) -> length es = size -> length xs = size -> faithful size (VCsr es) xs
| F_str cs xs : length xs = size -> (forall x, In x xs -> 0 <= x < 128) -> faithful size (VStr cs) xs.

(** C14: get after set returns what was set, on every schedule. *)
Theorem get_after_set_partial K cap cfgs T ms vid g size v xs :
  wf K cfgs T -> (1 <= cap)%nat -> located cfgs T vid g size -> stored ms g vid v -> faithful size v xs ->
  exists ms', inevitable (knext (nact K cfgs T) cap)
     (fun x => x = finished K [SetOk; GotArray xs] ms') (rest K [RSet vid xs; RGet vid] ms).
Proof.
  intros W C L S F. pose proof S as (m & M1 & M2).
  assert (A : exists w, accepts v xs w /\ contents w xs /\ length xs = size).
  { destruct F.
    - exists (VInt x). simpl. split; [|split]; eauto.
    - exists (VArr (write_at data (seq 0 size) xs) (seq 0 size)). split; [apply accepts_arr; [apply seq_NoDup|intros p Hp; apply in_seq in Hp; lia|rewrite seq_length; lia]|].
      split; auto. simpl. rewrite <- H. symmetry. apply write_c_order. lia.
    - exists (VCsr (combine (map fst es) xs)). split; [|split]; auto.
      + cbn [accepts]. change (filter (fun e => negb (snd e =? 0)) es) with (nonzero es). rewrite nonzero_all by auto.
        split; [lia|]. eexists. split; [reflexivity|]. clear -H0 H1. revert xs size H0 H1.
        induction es as [|e es IH]; destruct xs; simpl; intros; auto; try lia.
        destruct (IH xs (length es)); auto; [lia|]. split; f_equal; auto.
      + simpl. clear -H0 H1. revert xs size H0 H1. induction es as [|e es IH]; destruct xs; simpl; intros; auto; try lia.
        f_equal. apply (IH xs (length es)); auto. lia.
    - exists (VStr xs). simpl. auto. }
  destruct A as (w & A1 & A2 & A3).
  exists (upd ms g (put_var vid w m)).
  apply getset_exact_partial; auto.
  assert (P : padded size xs = xs). { unfold padded. rewrite A3, Nat.sub_diag. simpl. apply app_nil_r. }
  eapply SV_set; eauto using upd_length.
  rewrite <- P. eapply SV_get; eauto.
  - exists (put_var vid w m). split. + apply nth_upd_eq. eapply nth_lt; eauto. + eapply put_same; eauto.
  - lia.
  - constructor.
Qed.

(** ** Concrete system used below: two services, three processes. *)
Definition cfg0 (k : nat) : rscfg :=
  match k with
  | 0%nat => {| mids := [10; 11]; mprocs := [0; 1]%nat |}
  | _ => {| mids := [12]; mprocs := [2]%nat |}
  end.
Definition T0 (vid : Z) : option varmodel :=
  if vid =? 100 then Some {| v_srv := 0; v_mid := 11; v_size := 4 |}
  else if vid =? 101 then Some {| v_srv := 1; v_mid := 12; v_size := 1 |}
  else if vid =? 102 then Some {| v_srv := 0; v_mid := 10; v_size := 3 |}
  else if vid =? 103 then Some {| v_srv := 0; v_mid := 10; v_size := 2 |}
  else if vid =? 104 then Some {| v_srv := 0; v_mid := 10; v_size := 1 |}
  else None.

Lemma wf0 : wf 2 cfg0 T0.
Proof.
  split.
  - intros [|[|k]] H; try lia; simpl; repeat constructor; simpl; intuition lia.
  - intros [|[|k]] [|[|k']] g Hk Hk'; simpl; try lia; intros; intuition lia.
  - intros vid v. unfold T0.
    repeat match goal with |- context[if ?b then _ else _] => destruct b end; intros E; try discriminate;
      injection E as <-; simpl; lia.
Qed.

(** Witness: interleaved gets and sets on different processes and services. *)
Example getset_witness : inevitable (knext (nact 2 cfg0 T0) 1)
  (fun x => x = finished 2 [SetOk; GotArray [5]; GotArray [1; 2; 3; 4]; SetOk; GotArray [-1]]
                   [[(103, VInt 0)]; [(99, VInt 7); (100, VArr [1; 2; 3; 4] [0; 1; 2; 3]%nat)]; [(101, VInt (-1))]])
  (rest 2 [RSet 100 [1; 2; 3; 4]; RGet 101; RGet 100; RSet 101 [-1]; RGet 101]
          [[(103, VInt 0)]; [(99, VInt 7); (100, VArr [0; 0; 0; 0] [0; 1; 2; 3]%nat)]; [(101, VInt 5)]]).
Proof.
  apply getset_exact_partial; [apply wf0|lia|].
  assert (L0 : located cfg0 T0 100 1 4).
  { exists {| v_srv := 0; v_mid := 11; v_size := 4 |}, 1%nat. simpl. auto. }
  assert (L1 : located cfg0 T0 101 2 1).
  { exists {| v_srv := 1; v_mid := 12; v_size := 1 |}, 0%nat. simpl. auto. }
  eapply SV_set; [apply L0|eexists; split; reflexivity|apply accepts_arr; [repeat constructor; simpl; intuition lia|simpl; intuition lia|simpl; auto]|reflexivity|apply upd_length|eexists; split; reflexivity|].
  simpl.
  apply (SV_get cfg0 T0 _ 101 2 1 (VInt 5) [5]); [apply L1|eexists; split; reflexivity|reflexivity|simpl; auto|].
  apply (SV_get cfg0 T0 _ 100 1 4 (VArr [1;2;3;4] [0;1;2;3]%nat) [1;2;3;4]); [apply L0|eexists; split; reflexivity|reflexivity|simpl; auto|].
  eapply SV_set; [apply L1|eexists; split; reflexivity|exists (-1); split; reflexivity|reflexivity|apply upd_length|eexists; split; reflexivity|].
  simpl.
  apply (SV_get cfg0 T0 _ 101 2 1 (VInt (-1)) [-1]); [apply L1|eexists; split; reflexivity|reflexivity|simpl; auto|].
  constructor.
Qed.

(** ** Refutations.  An executable scheduler: repeatedly let the first component move that can. *)
Section Sim.
Variables (K cap : nat) (cfgs : nat -> rscfg) (T : vtable).
Hypothesis Hcap : (1 <= cap)%nat.
Definition try_step (x : net Z comp) (i : nat) : option (net Z comp) :=
  match nth_error (comps x) i with
  | None => None
  | Some s =>
      match nact K cfgs T i s with
      | Snd c v s' => match nth_error (chans x) c with
                      | Some q => if (length q <? cap)%nat then Some (mkNet (upd (comps x) i s') (upd (chans x) c (q ++ [v]))) else None
                      | None => None end
      | Rcv c k => match nth_error (chans x) c with
                   | Some (v :: q) => Some (mkNet (upd (comps x) i (k v)) (upd (chans x) c q))
                   | _ => None end
      | Tau s' => Some (mkNet (upd (comps x) i s') (chans x))
      | Halt => None
      end
  end.
Fixpoint first_step (x : net Z comp) (is : list nat) : option (net Z comp) :=
  match is with
  | [] => None
  | i :: r => match try_step x i with Some y => Some y | None => first_step x r end
  end.
Fixpoint sim (n : nat) (x : net Z comp) : net Z comp :=
  match n with
  | 0%nat => x
  | S n => match first_step x (seq 0 (length (comps x))) with Some y => sim n y | None => x end
  end.

Lemma try_step_ok x i y : try_step x i = Some y -> kstep (nact K cfgs T) cap x i y.
Proof.
  unfold try_step. destruct (nth_error (comps x) i) eqn:E; [|discriminate].
  destruct (nact K cfgs T i c) eqn:A; intros H.
  - destruct (nth_error (chans x) c0) eqn:Q; [|discriminate].
    destruct (Nat.ltb_spec (length l) cap); [|discriminate]. injection H as <-. eapply KSnd; eauto.
  - destruct (nth_error (chans x) c0) as [[|]|] eqn:Q; try discriminate. injection H as <-. eapply KRcv; eauto.
  - injection H as <-. eapply KTau; eauto.
  - discriminate.
Qed.
Lemma try_step_none x i y : try_step x i = None -> ~ kstep (nact K cfgs T) cap x i y.
Proof.
  unfold try_step. intros H St. inversion St as [s c v s' q A1 A2 A3 A4|s c k v q A1 A2 A3|s s' A1 A2]; subst;
    rewrite A1, A2 in H; try discriminate; rewrite A3 in H; try discriminate.
  destruct (Nat.ltb_spec (length q) cap); [discriminate|lia].
Qed.
Lemma first_step_ok is : forall x y, first_step x is = Some y -> knext (nact K cfgs T) cap x y.
Proof.
  induction is; simpl; intros; [discriminate|]. destruct (try_step x a) eqn:E; auto.
  injection H as <-. exists a. apply try_step_ok. auto.
Qed.
Lemma sim_runs n : forall x, kruns (nact K cfgs T) cap x (sim n x).
Proof.
  induction n; simpl; intros; [constructor|]. destruct (first_step _ _) eqn:E; [|constructor].
  econstructor; [eapply first_step_ok; eauto|auto].
Qed.
Lemma sim_stuck x : forallb (fun i => match try_step x i with None => true | _ => false end) (seq 0 (length (comps x))) = true ->
  stuck (nact K cfgs T) cap x.
Proof.
  intros H y [i Hi]. eapply try_step_none; [|exact Hi].
  assert (Li : (i < length (comps x))%nat) by (destruct Hi; eapply nth_lt; eauto).
  rewrite forallb_forall in H. specialize (H i). destruct (try_step x i); auto.
  discriminate H. apply in_seq. lia.
Qed.

Lemma sim_all n rs ms : wf K cfgs T ->
  (forallb (fun i => match try_step (sim n (rest K rs ms)) i with None => true | _ => false end)
     (seq 0 (length (comps (sim n (rest K rs ms))))) = true) ->
  inevitable (knext (nact K cfgs T) cap) (fun x => x = sim n (rest K rs ms)) (rest K rs ms).
Proof.
  intros W H.
  pose (own := fun g => match find (fun k => existsb (Nat.eqb g) (mprocs (cfgs k))) (seq 0 K) with Some k => k | None => 0%nat end).
  assert (Hown : forall k g, (k < K)%nat -> In g (mprocs (cfgs k)) -> own g = k).
  { intros k g Hk Hg. unfold own. destruct (find _ _) eqn:F.
    - apply find_some in F as [F1 F2]. apply in_seq in F1. apply existsb_exists in F2 as (y & F2 & F3).
      apply Nat.eqb_eq in F3 as <-. eapply wf_disj; eauto. lia.
    - eapply find_none with (x := k) in F; [|apply in_seq; lia].
      exfalso. assert (existsb (Nat.eqb g) (mprocs (cfgs k)) = true); [|congruence].
      apply existsb_exists. exists g. split; auto. apply Nat.eqb_refl. }
  apply (kahn_inevitable (nact K cfgs T) cap (wr K own) (rd K own) (okk K cfgs)).
  - intros. eapply (ok_snd_ K cap cfgs T Hcap own Hown); eauto.
  - intros. eapply (ok_rcv_ K cap cfgs T Hcap own Hown); eauto.
  - intros. eapply (ok_tau_ K cfgs T); eauto. apply W.
  - apply (rest_allok K cap cfgs Hcap). simpl. auto.
  - apply sim_runs.
  - apply sim_stuck; auto.
Qed.
End Sim.

Definition client (x : net Z comp) : option comp := nth_error (comps x) 0.
Definition proc (K : nat) (g : nat) (x : net Z comp) : option comp := nth_error (comps x) (1 + K + g).

Lemma inev_weaken {St} (nx : St -> St -> Prop) (P Q : St -> Prop) s :
  (forall x, P x -> Q x) -> inevitable nx P s -> inevitable nx Q s.
Proof. intros PQ H. induction H; [apply inev_now; auto|apply inev_later; auto]. Qed.

(** Finding: setting more items than the array has elements is not rejected: set() reports success,
    but the surplus items stay in the channel and are then taken for commands.  With a surplus -1 the
    process stops, on every schedule. *)
Theorem set_oversized_stops_process_refuted :
  inevitable (knext (nact 2 cfg0 T0) 8)
    (fun x => client x = Some (Cl (CEnd [SetOk])) /\ proc 2 1 x = Some (Pr PEnd))
    (rest 2 [RSet 100 [1; 2; 3; 4; -1]]
        [[(102, VInt 0)]; [(100, VArr [0; 0; 0; 0] [0; 1; 2; 3]%nat)]; [(101, VInt 5)]]).
Proof.
  eapply inev_weaken; [|apply (sim_all 2 8 cfg0 T0 ltac:(lia) 100%nat); [apply wf0|vm_compute; reflexivity]].
  intros x ->. vm_compute. auto.
Qed.

(** Finding: reading a variable that the process model holds as a Python float never returns: the
    process sends nothing, and client and service wait for ever. *)
Theorem get_float_hangs_refuted :
  inevitable (knext (nact 2 cfg0 T0) 8)
    (fun x => stuck (nact 2 cfg0 T0) 8 x /\ client x = Some (Cl (CNum 1 1 [] [])))
    (rest 2 [RGet 101] [[]; []; [(101, VFloat 3)]]).
Proof.
  eapply inev_weaken; [|apply (sim_all 2 8 cfg0 T0 ltac:(lia) 100%nat); [apply wf0|vm_compute; reflexivity]].
  intros x ->. split; [apply (sim_stuck 2 8 cfg0 T0 ltac:(lia))|]; vm_compute; reflexivity.
Qed.

(** Finding (C14): a 2x2 array in Fortran order (memory order of its elements: 0, 2, 1, 3) returns
    its transpose after a set. *)
Theorem get_after_set_fortran_refuted :
  inevitable (knext (nact 2 cfg0 T0) 8)
    (fun x => client x = Some (Cl (CEnd [SetOk; GotArray [1; 3; 2; 4]])))
    (rest 2 [RSet 100 [1; 2; 3; 4]; RGet 100]
        [[]; [(100, VArr [0; 0; 0; 0] [0; 2; 1; 3]%nat)]; []]).
Proof.
  eapply inev_weaken; [|apply (sim_all 2 8 cfg0 T0 ltac:(lia) 100%nat); [apply wf0|vm_compute; reflexivity]].
  intros x ->. vm_compute. auto.
Qed.

(** Finding (C14): a string shorter than the declared size comes back padded with NUL characters
    ("ab" on a Var of shape (3,)). *)
Theorem get_after_set_string_refuted :
  inevitable (knext (nact 2 cfg0 T0) 8)
    (fun x => client x = Some (Cl (CEnd [SetOk; GotArray [97; 98; 0]])))
    (rest 2 [RSet 102 [97; 98]; RGet 102] [[(102, VStr [99; 99; 99])]; []; []]).
Proof.
  eapply inev_weaken; [|apply (sim_all 2 8 cfg0 T0 ltac:(lia) 100%nat); [apply wf0|vm_compute; reflexivity]].
  intros x ->. vm_compute. auto.
Qed.

(** Finding (C14): after a zero was written to a stored element of a sparse matrix, the next set
    fails and ends the process. *)
Theorem set_after_zero_fails_refuted :
  inevitable (knext (nact 2 cfg0 T0) 8)
    (fun x => client x = Some (Cl (CFail [SetOk])) /\ proc 2 0 x = Some (Pr PEnd))
    (rest 2 [RSet 103 [0; 5]; RSet 103 [1; 2]] [[(103, VCsr [(0%nat, 0%nat, 4); (1%nat, 1%nat, 6)])]; []; []]).
Proof.
  eapply inev_weaken; [|apply (sim_all 2 8 cfg0 T0 ltac:(lia) 200%nat); [apply wf0|vm_compute; reflexivity]].
  intros x ->. vm_compute. auto.
Qed.
