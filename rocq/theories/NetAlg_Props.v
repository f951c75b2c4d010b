(** C77: the algebraic syntax of networks creates the connections it writes. *)
From Coq Require Import List Arith Bool Lia Permutation.
From Verif Require Import NetAlg_Model.
Import ListNotations.

(** ** Specification *)
(** a term is a network, or a matrix applied to a vector; [n]: the network that delivers its value, [p]: the connections it
    stands for *)
Inductive term (kd : kinds) : expr -> nat -> list (nat * nat) -> Prop :=
| t_net n : term kd (ENet n) n []
| t_mul w x : kd w = Matrix -> kd x = Vector -> term kd (EMul (ENet w) (ENet x)) w [(x, w)].
(** sums to which one term is added after the other, from the left or the right; [l]: the summands *)
Inductive sum (kd : kinds) : expr -> list nat -> list (nat * nat) -> Prop :=
| s_term e n p : term kd e n p -> sum kd e [n] p
| s_right e l p t n q : sum kd e l p -> term kd t n q -> sum kd (EAdd e t) (l ++ [n]) (p ++ q)
| s_left t n q e l p : term kd t n q -> sum kd e l p -> sum kd (EAdd t e) (n :: l) (q ++ p).
(** each summand is connected to [y] exactly once; two vectors through an identity connection of their own, the networks
    created for this being f, f + 1, ... *)
Definition through_identity (kd : kinds) (y n : nat) : bool :=
  match kd y, kd n with Vector, Vector => true | _, _ => false end.
Fixpoint links (kd : kinds) (y f : nat) (l : list nat) : list (nat * nat) :=
  match l with
  | [] => []
  | n :: r => if through_identity kd y n then (n, f) :: (f, y) :: links kd y (S f) r else (n, y) :: links kd y f r
  end.
Definition direct (kd : kinds) (y : nat) (l : list nat) : list (nat * nat) :=
  map (fun n => (n, y)) (filter (fun n => negb (through_identity kd y n)) l).
(** all networks that exist have numbers below [fresh] *)
Definition old (s : store) (l : list nat) : Prop := forall n, In n l -> n < fresh s.
Definition sane (s : store) : Prop := forall a b, In (a, b) (conns s) -> a < fresh s /\ b < fresh s.

(** ** Proofs *)
Lemma pair_eqb_eq p q : pair_eqb p q = true <-> p = q.
Proof.
  destruct p as [a b], q as [c d]. unfold pair_eqb. simpl. rewrite andb_true_iff, !Nat.eqb_eq.
  split; [intros [-> ->]; reflexivity|intro H; injection H; auto].
Qed.
Lemma connect_ok s a b : ~ In (a, b) (conns s) -> connect s a b = Done (mkStore (conns s ++ [(a, b)]) (lists s) (fresh s)).
Proof.
  intro H. unfold connect. destruct (existsb _ _) eqn:E; [|reflexivity]. apply existsb_exists in E.
  destruct E as (q & Q & E). apply pair_eqb_eq in E. subst. contradiction.
Qed.
Lemma connect_dup s a b : In (a, b) (conns s) -> connect s a b = Raised.
Proof.
  intro H. unfold connect. replace (existsb (pair_eqb (a, b)) (conns s)) with true; [reflexivity|].
  symmetry. apply existsb_exists. exists (a, b). split; [exact H|]. apply pair_eqb_eq. reflexivity.
Qed.
Lemma update_app {A} (l m : list A) i x : length l <= i -> update (l ++ m) i x = l ++ update m (i - length l) x.
Proof.
  revert i. induction l as [|y l IH]; intros i H; [rewrite Nat.sub_0_r; reflexivity|]. destruct i; simpl in H; [lia|].
  simpl. f_equal. apply IH. lia.
Qed.
Lemma update_nth {A} (l : list A) i x y : nth_error l i = Some y -> nth_error (update l i x) i = Some x.
Proof. revert i. induction l as [|z l IH]; intros [|i] H; simpl in *; try discriminate; auto. Qed.
Lemma nodup_cut {A} (l m : list A) x : NoDup (l ++ x :: m) -> ~ In x l.
Proof. intro H. apply NoDup_remove_2 in H. intro I. apply H, in_or_app. auto. Qed.
Lemma nodup_l {A} (l m : list A) : NoDup (l ++ m) -> NoDup l.
Proof. induction m as [|x m IH] using rev_ind; [rewrite app_nil_r; auto|]. rewrite app_assoc. intro H. apply IH. apply NoDup_remove_1 in H. rewrite app_nil_r in H. exact H. Qed.

Lemma perm_two {A} (a b : A) u v : Permutation (a :: b :: u ++ v) (u ++ a :: b :: v).
Proof.
  change (Permutation ([a; b] ++ (u ++ v)) (u ++ [a; b] ++ v)). rewrite !app_assoc.
  apply Permutation_app_tail, Permutation_app_comm.
Qed.

Section Eval.
Variables (kd : kinds) (en : env).
Lemma eval_term s e n p : term kd e n p -> NoDup (conns s ++ p) ->
  eval kd en s e = Done (mkStore (conns s ++ p) (lists s) (fresh s), VNet n).
Proof.
  intros [m|w x Hw Hx] N; cbn [eval].
  - rewrite app_nil_r. destruct s; reflexivity.
  - cbn [matmul]. rewrite Hw, Hx, connect_ok by (eapply nodup_cut; exact N). reflexivity.
Qed.
Lemma eval_sum e l p : sum kd e l p -> forall s, NoDup (conns s ++ p) ->
  exists new v, eval kd en s e = Done (mkStore (conns s ++ p) (lists s ++ new) (fresh s), v) /\
    ((exists n, l = [n] /\ v = VNet n) \/
     (exists r l', v = VList r /\ length (lists s) <= r /\ nth_error (lists s ++ new) r = Some l' /\ Permutation l l')).
Proof.
  induction 1 as [e n p T|e l p t n q S IH T|t n q e l p T S IH]; intros s N.
  - exists [], (VNet n). rewrite app_nil_r. split; [apply eval_term; auto|]. left. eauto.
  - rewrite app_assoc in N. destruct (IH s (nodup_l _ _ N)) as (new & v & E & C). cbn [eval]. rewrite E.
    rewrite (eval_term (mkStore (conns s ++ p) (lists s ++ new) (fresh s)) _ _ _ T N). cbn [conns lists fresh].
    rewrite <- app_assoc. destruct C as [(m & -> & ->)|(r & l' & -> & Lr & Er & P)]; cbn [add].
    + cbn [conns lists fresh]. exists (new ++ [[m; n]]). eexists. rewrite (app_assoc (lists s)). split; [reflexivity|]. right.
      exists (length (lists s ++ new)), [m; n]. split; [reflexivity|]. split; [rewrite app_length; lia|]. split; [|reflexivity].
      rewrite nth_error_app2, Nat.sub_diag by auto. reflexivity.
    + unfold append. cbn [conns lists fresh]. rewrite Er. exists (update new (r - length (lists s)) (l' ++ [n])). eexists.
      rewrite update_app by exact Lr. split; [reflexivity|]. right. exists r, (l' ++ [n]). split; [reflexivity|]. split; [exact Lr|].
      split; [rewrite <- update_app by exact Lr; eapply update_nth; exact Er|]. apply Permutation_app_tail. exact P.
  - rewrite app_assoc in N. cbn [eval]. rewrite (eval_term s _ _ _ T (nodup_l _ _ N)).
    destruct (IH (mkStore (conns s ++ q) (lists s) (fresh s)) N) as (new & v & E & C). rewrite E. cbn [conns lists fresh] in *.
    rewrite <- app_assoc. destruct C as [(m & -> & ->)|(r & l' & -> & Lr & Er & P)]; cbn [add].
    + cbn [conns lists fresh]. exists (new ++ [[n; m]]). eexists. rewrite (app_assoc (lists s)). split; [reflexivity|]. right.
      exists (length (lists s ++ new)), [n; m]. split; [reflexivity|]. split; [rewrite app_length; lia|]. split; [|reflexivity].
      rewrite nth_error_app2, Nat.sub_diag by auto. reflexivity.
    + unfold append. cbn [conns lists fresh]. rewrite Er. exists (update new (r - length (lists s)) (l' ++ [n])). eexists.
      rewrite update_app by exact Lr. split; [reflexivity|]. right. exists r, (l' ++ [n]). split; [reflexivity|]. split; [exact Lr|].
      split; [rewrite <- update_app by exact Lr; eapply update_nth; exact Er|].
      apply Permutation_cons_app. rewrite app_nil_r. exact P.
Qed.
End Eval.

Lemma shift_all_links kd y : forall l s, sane s -> old s (y :: l) -> NoDup (conns s ++ direct kd y l) ->
  exists f, shift_all kd s y l = Done (mkStore (conns s ++ links kd y (fresh s) l) (lists s) f).
Proof.
  induction l as [|n l IH]; intros s Hs Ho N; cbn [shift_all links].
  - exists (fresh s). rewrite app_nil_r. destruct s; reflexivity.
  - unfold direct in N. cbn [filter] in N. unfold shift_net. unfold through_identity in *.
    assert (y < fresh s) as Hy by (apply Ho; left; reflexivity). assert (n < fresh s) as Hn by (apply Ho; right; left; reflexivity).
    destruct (kd y) eqn:Ey; [destruct (kd n) eqn:En|].
    + rewrite connect_ok by (cbn [conns]; intro I; apply Hs in I; lia). cbn [conns lists fresh].
      rewrite connect_ok.
      2:{ cbn [conns]. intro I. apply in_app_iff in I. destruct I as [I|[I|[]]]; [apply Hs in I; lia|injection I; lia]. }
      cbn [conns lists fresh]. destruct (IH (mkStore ((conns s ++ [(n, fresh s)]) ++ [(fresh s, y)]) (lists s) (S (fresh s)))) as [f E].
      * intros a b I. cbn [conns fresh] in *. rewrite <- app_assoc in I. apply in_app_iff in I.
        destruct I as [I|[I|[I|[]]]]; [apply Hs in I; lia|injection I; lia|injection I; lia].
      * intros m I. cbn [fresh]. assert (m < fresh s); [|lia]. destruct I as [<-|I]; [exact Hy|]. apply Ho. right. right. exact I.
      * cbn [conns]. cbn [negb] in N. unfold direct. unfold through_identity. rewrite Ey. rewrite <- app_assoc. cbn [app].
        assert (forall x, In x (conns s ++ map (fun m => (m, y)) (filter (fun m => negb (match kd m with Vector => true | Matrix => false end)) l)) ->
                 fst x < fresh s /\ snd x < fresh s) as B.
        { intros [a b] I. apply in_app_iff in I. destruct I as [I|I]; [apply Hs in I; exact I|].
          apply in_map_iff in I. destruct I as (m & I & M). injection I as <- <-. apply filter_In in M. simpl. split; [|exact Hy].
          apply Ho. right. right. apply M. }
        apply (Permutation_NoDup (l := (n, fresh s) :: (fresh s, y) :: conns s ++ map (fun m => (m, y)) (filter (fun m => negb (match kd m with Vector => true | Matrix => false end)) l))).
        { rewrite <- ?app_assoc. cbn [app]. apply perm_two. }
        constructor; [|constructor; [|exact N]].
        -- intros [I|I]; [injection I; lia|]. apply B in I. simpl in I. lia.
        -- intro I. apply B in I. simpl in I. lia.
      * exists f. rewrite E. cbn [conns lists fresh]. do 2 f_equal. rewrite <- !app_assoc. reflexivity.
    + cbn [negb] in N. cbn [map] in N. rewrite connect_ok by (eapply nodup_cut; exact N). cbn [conns lists fresh].
      destruct (IH (mkStore (conns s ++ [(n, y)]) (lists s) (fresh s))) as [f E].
      * intros a b I. cbn [conns fresh] in *. apply in_app_iff in I. destruct I as [I|[I|[]]]; [apply Hs in I; lia|injection I; lia].
      * intros m I. cbn [fresh]. destruct I as [<-|I]; [exact Hy|]. apply Ho. right. right. exact I.
      * cbn [conns]. unfold direct, through_identity. rewrite Ey. rewrite <- app_assoc. exact N.
      * exists f. rewrite E. cbn [conns lists fresh]. do 2 f_equal. rewrite <- !app_assoc. reflexivity.
    + cbn [negb] in N. cbn [map] in N. rewrite connect_ok by (eapply nodup_cut; exact N). cbn [conns lists fresh].
      destruct (IH (mkStore (conns s ++ [(n, y)]) (lists s) (fresh s))) as [f E].
      * intros a b I. cbn [conns fresh] in *. apply in_app_iff in I. destruct I as [I|[I|[]]]; [apply Hs in I; lia|injection I; lia].
      * intros m I. cbn [fresh]. destruct I as [<-|I]; [exact Hy|]. apply Ho. right. right. exact I.
      * cbn [conns]. unfold direct, through_identity. rewrite Ey. rewrite <- app_assoc. exact N.
      * exists f. rewrite E. cbn [conns lists fresh]. do 2 f_equal. rewrite <- !app_assoc. reflexivity.
Qed.
Lemma direct_perm kd y l l' : Permutation l l' -> Permutation (direct kd y l) (direct kd y l').
Proof.
  intro P. unfold direct. apply Permutation_map. induction P; simpl; auto.
  - destruct (negb _); auto.
  - destruct (negb (through_identity kd y x)), (negb (through_identity kd y y0)); auto. apply perm_swap.
  - etransitivity; eauto.
Qed.

(** ** Theorems *)
(** [y << sum]: exactly the connections of the products in the sum are made, and every summand is connected to y exactly
    once (in some order), provided that none of these connections is written twice or exists already. *)
Theorem network_sum_connects_partial kd en s y e l p : sum kd e l p -> sane s -> old s (y :: l) ->
  (forall a b, In (a, b) p -> a < fresh s /\ b < fresh s) -> NoDup (conns s ++ p ++ direct kd y l) ->
  exists l' s', Permutation l l' /\ exec1 kd (en, s) (SConnect y e) = Done (en, s') /\
    conns s' = conns s ++ p ++ links kd y (fresh s) l'.
Proof.
  intros S Hs Ho Hp N. rewrite app_assoc in N. destruct (eval_sum kd en _ _ _ S s (nodup_l _ _ N)) as (new & v & E & C).
  assert (forall a b, In (a, b) (conns s ++ p) -> a < fresh s /\ b < fresh s) as Hs'
    by (intros a b I; apply in_app_iff in I; destruct I as [I|I]; [apply Hs, I|apply Hp, I]).
  cbn [exec1 fst snd]. rewrite E. destruct C as [(n & -> & ->)|(r & l' & -> & Lr & Er & P)]; cbn [shift].
  - destruct (shift_all_links kd y [n] (mkStore (conns s ++ p) (lists s ++ new) (fresh s)) Hs' Ho N) as [f F].
    cbn [shift_all] in F. destruct (shift_net kd _ y n) as [s1|]; [|discriminate]. exists [n], s1. split; [reflexivity|].
    split; [reflexivity|]. injection F as ->. cbn [conns fresh]. rewrite <- app_assoc. reflexivity.
  - cbn [lists]. rewrite Er. destruct (shift_all_links kd y l' (mkStore (conns s ++ p) (lists s ++ new) (fresh s))) as [f F].
    + exact Hs'.
    + intros m I. apply Ho. destruct I as [<-|I]; [left; reflexivity|right]. eapply Permutation_in; [apply Permutation_sym, P|exact I].
    + eapply Permutation_NoDup; [|exact N]. apply Permutation_app_head. apply direct_perm. exact P.
    + rewrite F. exists l'. eexists. split; [exact P|]. split; [reflexivity|]. cbn [conns fresh]. rewrite <- app_assoc. reflexivity.
Qed.
(** No statement ever makes a connection twice. *)
Lemma connect_nodup s a b s' : NoDup (conns s) -> connect s a b = Done s' -> NoDup (conns s').
Proof.
  unfold connect. destruct (existsb _ _) eqn:E; [discriminate|]. intros N H. injection H as <-. cbn [conns].
  eapply Permutation_NoDup; [apply Permutation_cons_append|]. constructor; [|exact N].
  intro I. assert (existsb (pair_eqb (a, b)) (conns s) = true); [|congruence].
  apply existsb_exists. exists (a, b). split; [exact I|]. apply pair_eqb_eq. reflexivity.
Qed.
Lemma shift_net_nodup kd s y n s' : NoDup (conns s) -> shift_net kd s y n = Done s' -> NoDup (conns s').
Proof.
  unfold shift_net. intros N. destruct (kd y); [destruct (kd n)|]; try apply connect_nodup; auto.
  destruct (connect _ n (fresh s)) as [s1|] eqn:E; [|discriminate]. intro H.
  eapply connect_nodup; [|exact H]. eapply connect_nodup; [|exact E]. exact N.
Qed.
Lemma shift_all_nodup kd y : forall l s s', NoDup (conns s) -> shift_all kd s y l = Done s' -> NoDup (conns s').
Proof.
  induction l as [|n l IH]; intros s s' N H; cbn [shift_all] in H; [injection H as <-; exact N|].
  destruct (shift_net kd s y n) as [s1|] eqn:E; [|discriminate]. eapply IH; [|exact H]. eapply shift_net_nodup; eauto.
Qed.
Lemma add_conns s a b s' v : add s a b = Done (s', v) -> conns s' = conns s.
Proof.
  unfold add, append. destruct a, b; try discriminate; intro H; repeat match type of H with
    | match ?x with _ => _ end = _ => destruct x; try discriminate end; injection H as <- _; reflexivity.
Qed.
Lemma eval_nodup kd en : forall e s s' v, NoDup (conns s) -> eval kd en s e = Done (s', v) -> NoDup (conns s').
Proof.
  induction e as [n|x|a IHa b IHb|a IHa b IHb]; intros s s' v N H; cbn [eval] in H.
  - injection H as <- _. exact N.
  - destruct (en x); [|discriminate]. injection H as <- _. exact N.
  - destruct (eval kd en s a) as [[s1 va]|] eqn:Ea; [|discriminate]. destruct (eval kd en s1 b) as [[s2 vb]|] eqn:Eb; [|discriminate].
    rewrite (add_conns _ _ _ _ _ H). eauto.
  - destruct (eval kd en s a) as [[s1 va]|] eqn:Ea; [|discriminate]. destruct (eval kd en s1 b) as [[s2 vb]|] eqn:Eb; [|discriminate].
    unfold matmul in H. destruct va as [w| |]; try discriminate. destruct vb as [x| |]; try discriminate.
    destruct (kd w); [discriminate|]. destruct (kd x); [|discriminate].
    destruct (connect s2 x w) as [s3|] eqn:Ec; [|discriminate]. injection H as <- _. eapply connect_nodup; [|exact Ec]. eauto.
Qed.
Theorem networks_connected_once kd : forall l en s en' s', NoDup (conns s) -> exec kd (en, s) l = Done (en', s') -> NoDup (conns s').
Proof.
  induction l as [|t l IH]; intros en s en' s' N H; cbn [exec] in H; [injection H as _ <-; exact N|].
  destruct (exec1 kd (en, s) t) as [[en1 s1]|] eqn:E; [|discriminate]. eapply IH; [|exact H].
  destruct t as [x e|y e]; cbn [exec1 fst snd] in E; destruct (eval kd en s e) as [[s2 v]|] eqn:Ev; try discriminate.
  - injection E as _ <-. eapply eval_nodup; eauto.
  - destruct (shift kd s2 y v) as [s3|] eqn:Es; [|discriminate]. injection E as _ <-.
    assert (NoDup (conns s2)) as N2 by (eapply eval_nodup; eauto). destruct v as [o|r|m]; cbn [shift] in Es; [|destruct (nth_error _ r); [|discriminate]|discriminate].
    + eapply shift_net_nodup; eauto.
    + eapply shift_all_nodup; eauto.
Qed.

(** ** Findings: sums are mutable.  Networks: 0, 1, 2, 3 vectors, 4, 5 matrices *)
Definition kd0 : kinds := fun n => if n <? 4 then Vector else Matrix.
Definition start : env * store := ((fun _ => None), mkStore [] [] 10).
(** s = W4 @ x0 + W5 @ x1; t = s + x2; y3 << s also connects x2 to y3 *)
Theorem network_shared_sum_refuted : exists en s, exec kd0 start
    [SLet 0 (EAdd (EMul (ENet 4) (ENet 0)) (EMul (ENet 5) (ENet 1))); SLet 1 (EAdd (EName 0) (ENet 2)); SConnect 3 (EName 0)] = Done (en, s) /\
  In (2, 10) (conns s) /\ In (10, 3) (conns s).
Proof. eexists. eexists. split; [vm_compute; reflexivity|]. vm_compute. auto 10. Qed.
(** (x0 + x1) + (x2 + W4 @ x0) is a plain list, which << refuses *)
Theorem network_sum_of_sums_refuted :
  exec kd0 start [SConnect 3 (EAdd (EAdd (ENet 0) (ENet 1)) (EAdd (ENet 2) (EMul (ENet 4) (ENet 0))))] = Raised.
Proof. reflexivity. Qed.
(** non-trivial instance of [network_sum_connects_partial]: y3 << W4 @ x0 + (x1 + W5 @ x1) + x1 *)
Definition demo_sum : expr := EAdd (EAdd (EMul (ENet 4) (ENet 0)) (EAdd (ENet 1) (EMul (ENet 5) (ENet 1)))) (ENet 1).
Example network_demo : sum kd0 demo_sum [4; 1; 5; 1] [(0, 4); (1, 5)] /\ NoDup ([(0, 4); (1, 5)] ++ direct kd0 3 [4; 1; 5; 1]) /\
  exists en s, exec kd0 start [SConnect 3 demo_sum] = Done (en, s) /\
    conns s = [(0, 4); (1, 5); (1, 10); (10, 3); (5, 3); (4, 3); (1, 11); (11, 3)].
Proof.
  split; [|split].
  - apply (s_right _ _ [4; 1; 5] [(0, 4); (1, 5)] _ 1 []); [|constructor].
    apply (s_left _ _ 4 [(0, 4)] _ [1; 5] [(1, 5)]); [constructor; reflexivity|].
    apply (s_left _ _ 1 [] _ [5] [(1, 5)]); [constructor|]. constructor. constructor; reflexivity.
  - vm_compute. repeat constructor; simpl; intuition discriminate.
  - eexists. eexists. split; [vm_compute; reflexivity|]. reflexivity.
Qed.
