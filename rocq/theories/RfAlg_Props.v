(** C107: what << connects to a ResFireVec. *)
From Coq Require Import List Arith Bool Lia Permutation.
From Verif Require Import NetAlg_Model NetAlg_Props RfAlg_Model.
Import ListNotations.

Lemma connect_cases : forall s a b, (~ In (a, b) (conns s) /\ connect s a b = Done (mkStore (conns s ++ [(a, b)]) (lists s) (fresh s))) \/
  (In (a, b) (conns s) /\ connect s a b = Raised).
Proof.
  intros s a b. destruct (in_dec (fun p q : nat * nat => ltac:(decide equality; apply Nat.eq_dec)) (a, b) (conns s)) as [I|I].
  - right. split; [exact I|]. now apply connect_dup.
  - left. split; [exact I|]. now apply connect_ok.
Qed.

(** ** y << (a, b): a to the first InPort, b to the second *)
Theorem rf_pair_connects_partial : forall kd in2 s y a b, in2 y <> y -> ~ In (a, y) (conns s) -> ~ In (b, in2 y) (conns s) ->
  rf_shift kd in2 s y (VPlain [a; b]) = (mkStore (conns s ++ [(a, y); (b, in2 y)]) (lists s) (fresh s), Val None).
Proof.
  intros kd in2 s y a b D A B. cbn [rf_shift rf_list]. rewrite connect_ok by exact A. rewrite connect_ok.
  - cbn [conns lists fresh]. now rewrite <- app_assoc.
  - cbn [conns]. intros I. apply in_app_iff in I. destruct I as [I|[I|[]]]; [contradiction|]. injection I. congruence.
Qed.

(** when it raises, and what it has then connected *)
Theorem rf_pair_raises : forall kd in2 s y l, in2 y <> y ->
  match l with
  | a :: b :: _ =>
    (snd (rf_shift kd in2 s y (VPlain l)) = Exc <-> In (a, y) (conns s) \/ In (b, in2 y) (conns s)) /\
    (In (a, y) (conns s) -> conns (fst (rf_shift kd in2 s y (VPlain l))) = conns s) /\
    (~ In (a, y) (conns s) -> In (b, in2 y) (conns s) -> conns (fst (rf_shift kd in2 s y (VPlain l))) = conns s ++ [(a, y)])
  | [a] => snd (rf_shift kd in2 s y (VPlain l)) = Exc /\
    (~ In (a, y) (conns s) -> conns (fst (rf_shift kd in2 s y (VPlain l))) = conns s ++ [(a, y)])
  | [] => rf_shift kd in2 s y (VPlain l) = (s, Exc)
  end.
Proof.
  intros kd in2 s y [|a [|b r]] D; cbn [rf_shift rf_list]; [reflexivity| |].
  - destruct (connect_cases s a y) as [[A E]|[A E]]; rewrite E; split; try reflexivity. intros X. contradiction.
  - destruct (connect_cases s a y) as [[A E]|[A E]]; rewrite E.
    + destruct (connect_cases (mkStore (conns s ++ [(a, y)]) (lists s) (fresh s)) b (in2 y)) as [[B E']|[B E']]; rewrite E'; cbn [conns] in B.
      * split; [|split]; [|intros X; contradiction|].
        -- split; [discriminate|]. intros [X|X]; [contradiction|]. exfalso. apply B, in_app_iff. now left.
        -- intros _ X. exfalso. apply B, in_app_iff. now left.
      * split; [|split]; [|intros X; contradiction|reflexivity].
        split; [|reflexivity]. intros _. right. apply in_app_iff in B. destruct B as [B|[B|[]]]; [exact B|]. injection B. congruence.
    + split; [|split]; [|reflexivity|intros X; contradiction]. split; [intros _; now left|reflexivity].
Qed.

(** further elements are ignored *)
Theorem rf_further_elements_ignored : forall kd in2 s y a b r,
  rf_shift kd in2 s y (VPlain (a :: b :: r)) = rf_shift kd in2 s y (VPlain [a; b]).
Proof. reflexivity. Qed.

(** ** y << x for a network x: connected as to any vector, to the first InPort only *)
Theorem rf_one_network : forall kd in2 s y x, sane s -> y < fresh s -> x < fresh s -> ~ In (x, y) (conns s) ->
  exists f, rf_shift kd in2 s y (VNet x) = (mkStore (conns s ++ links kd y (fresh s) [x]) (lists s) f, Val None).
Proof.
  intros kd in2 s y x Hs Hy Hx N. cbn [rf_shift links]. unfold shift_net, through_identity.
  assert (connect s x y = Done (mkStore (conns s ++ [(x, y)]) (lists s) (fresh s))) as C by now apply connect_ok.
  destruct (kd y); [destruct (kd x)|].
  - rewrite connect_ok by (cbn [conns]; intro I; apply Hs in I; lia). cbn [conns lists fresh]. rewrite connect_ok.
    + cbn [conns lists fresh]. eexists. rewrite <- app_assoc. reflexivity.
    + cbn [conns]. intro I. apply in_app_iff in I. destruct I as [I|[I|[]]]; [apply Hs in I; lia|injection I; lia].
  - rewrite C. eexists. reflexivity.
  - rewrite C. eexists. reflexivity.
Qed.

(** ** no statement y << v disconnects anything or connects to another network (but an identity it creates) *)
Theorem rf_only_its_ports : forall kd in2 s y v a b, In (a, b) (conns (fst (rf_shift kd in2 s y v))) ->
  In (a, b) (conns s) \/ b = y \/ b = in2 y \/ b = fresh s.
Proof.
  intros kd in2 s y v a b. assert (forall l, In (a, b) (conns (fst (rf_list in2 s y l))) -> In (a, b) (conns s) \/ b = y \/ b = in2 y \/ b = fresh s) as L.
  { intros [|x [|z r]]; cbn [rf_list]; [now left| |].
    - destruct (connect_cases s x y) as [[_ ->]|[_ ->]]; cbn [fst conns]; [|now left]. intros I. apply in_app_iff in I.
      destruct I as [I|[I|[]]]; [now left|]. injection I as _ <-. tauto.
    - destruct (connect_cases s x y) as [[_ ->]|[_ ->]]; cbn [fst conns]; [|now left].
      destruct (connect_cases (mkStore (conns s ++ [(x, y)]) (lists s) (fresh s)) z (in2 y)) as [[_ ->]|[_ ->]]; cbn [fst conns].
      + intros I. apply in_app_iff in I. destruct I as [I|[I|[]]]; [|injection I as _ <-; tauto]. apply in_app_iff in I.
        destruct I as [I|[I|[]]]; [now left|]. injection I as _ <-. tauto.
      + intros I. apply in_app_iff in I. destruct I as [I|[I|[]]]; [now left|]. injection I as _ <-. tauto. }
  destruct v as [x|r|l]; cbn [rf_shift].
  - unfold shift_net. destruct (kd y); [destruct (kd x)|].
    + destruct (connect_cases (mkStore (conns s) (lists s) (S (fresh s))) x (fresh s)) as [[_ ->]|[_ ->]]; cbn [fst conns lists fresh]; [|now left].
      destruct (connect_cases (mkStore (conns s ++ [(x, fresh s)]) (lists s) (S (fresh s))) (fresh s) y) as [[_ ->]|[_ ->]]; cbn [fst conns]; [|now left].
      intros I. apply in_app_iff in I. destruct I as [I|[I|[]]]; [|injection I as _ <-; tauto]. apply in_app_iff in I.
      destruct I as [I|[I|[]]]; [now left|]. injection I as _ <-. tauto.
    + destruct (connect_cases s x y) as [[_ ->]|[_ ->]]; cbn [fst conns]; [|now left]. intros I. apply in_app_iff in I.
      destruct I as [I|[I|[]]]; [now left|]. injection I as _ <-. tauto.
    + destruct (connect_cases s x y) as [[_ ->]|[_ ->]]; cbn [fst conns]; [|now left]. intros I. apply in_app_iff in I.
      destruct I as [I|[I|[]]]; [now left|]. injection I as _ <-. tauto.
  - destruct (nth_error (lists s) r); [apply L|now left].
  - apply L.
Qed.

(** ** y << sum: not the sum *)
(** two of its summands are connected, each to another InPort; the others are not connected at all *)
Theorem rf_sum_is_split : forall kd in2 en s y e l p, sum kd e l p -> (2 <= length l)%nat -> in2 y <> y ->
  NoDup (conns s ++ p) -> (forall n, In n l -> ~ In (n, y) (conns s ++ p) /\ ~ In (n, in2 y) (conns s ++ p)) ->
  exists a b r s', Permutation l (a :: b :: r) /\ rf_statement kd in2 en s y e = (s', Val None) /\
    conns s' = conns s ++ p ++ [(a, y); (b, in2 y)].
Proof.
  intros kd in2 en s y e l p S L D N F. destruct (eval_sum kd en _ _ _ S s N) as (new & v & E & C). unfold rf_statement. rewrite E.
  destruct C as [(n & -> & _)|(r & l' & -> & _ & Er & P)]; [cbn in L; lia|].
  assert (length l' = length l) as Ll by (symmetry; now apply Permutation_length).
  destruct l' as [|a [|b r']]; [cbn in Ll; lia..|]. cbn [rf_shift lists]. rewrite Er. 
  assert (In a l) as Ia by (apply (Permutation_in a (Permutation_sym P)); now left).
  assert (In b l) as Ib by (apply (Permutation_in b (Permutation_sym P)); right; now left).
  change (rf_list in2 ?s' y (a :: b :: r')) with (rf_shift kd in2 s' y (VPlain [a; b])).
  rewrite rf_pair_connects_partial; [|exact D|cbn [conns]; now apply F|cbn [conns]; now apply F].
  exists a, b, r'. eexists. split; [exact P|]. split; [reflexivity|]. cbn [conns]. now rewrite <- app_assoc.
Qed.

(** ** y << v << v' never works, and keeps the connections of y << v *)
Theorem rf_chain_raises : forall kd in2 s y v v', rf_chain kd in2 s y v v' = (fst (rf_shift kd in2 s y v), Exc).
Proof.
  intros kd in2 s y v v'. unfold rf_chain. assert (forall z, snd (rf_shift kd in2 s y v) <> Val (Some z)) as H.
  { intros z. assert (forall l, snd (rf_list in2 s y l) <> Val (Some z)) as L.
    { intros [|a [|b r]]; cbn [rf_list]; [discriminate| |]; destruct (connect s a y) as [s1|]; cbn [snd]; try discriminate.
      destruct (connect s1 b (in2 y)); cbn [snd]; discriminate. }
    destruct v as [x|r|l]; cbn [rf_shift]; [destruct (shift_net _ _ _ _); discriminate|destruct (nth_error _ _); [apply L|discriminate]|apply L]. }
  destruct (rf_shift kd in2 s y v) as [s1 [|[z|]]]; cbn [fst snd] in *; try reflexivity. now destruct (H z).
Qed.

(** ** examples: networks 0, 1, 2 are matrices, the others vectors; 4 is the ResFireVec, its second InPort 5 *)
Definition kd0 : kinds := fun n => if n <=? 2 then Matrix else Vector.
Definition port2 : nat -> nat := S.
Definition start : store := mkStore [] [] 8.
Definition prod_term (w x : nat) : expr := EMul (ENet w) (ENet x).
Example pair : rf_shift kd0 port2 start 4 (VPlain [0; 1]) = (mkStore [(0, 4); (1, 5)] [] 8, Val None).
Proof. reflexivity. Qed.
Example one_vector : rf_shift kd0 port2 start 4 (VNet 3) = (mkStore [(3, 8); (8, 4)] [] 9, Val None).
Proof. reflexivity. Qed.
Example three_products : let e := EAdd (EAdd (prod_term 0 3) (prod_term 1 6)) (prod_term 2 7) in
  sum kd0 e [0; 1; 2] [(3, 0); (6, 1); (7, 2)] /\
  rf_statement kd0 port2 (fun _ => None) start 4 e = (mkStore [(3, 0); (6, 1); (7, 2); (0, 4); (1, 5)] [[0; 1; 2]] 8, Val None).
Proof.
  split; [|reflexivity]. change [0; 1; 2] with (([0] ++ [1]) ++ [2]). change [(3, 0); (6, 1); (7, 2)] with (([(3, 0)] ++ [(6, 1)]) ++ [(7, 2)]).
  repeat constructor.
Qed.
(** every summand is connected to y: false *)
Theorem rf_sum_connects_refuted : ~ forall kd in2 en s y e l p, sum kd e l p -> in2 y <> y -> NoDup (conns s ++ p) ->
  (forall n, In n l -> kd n = Matrix) -> snd (rf_statement kd in2 en s y e) = Val None ->
  forall n, In n l -> In (n, y) (conns (fst (rf_statement kd in2 en s y e))).
Proof.
  intros H. destruct three_products as [S E]. specialize (H kd0 port2 (fun _ => None) start 4 _ _ _ S ltac:(discriminate)).
  rewrite E in H. cbn [fst snd conns] in H. specialize (H ltac:(cbn; repeat constructor; cbn; intuition discriminate)
    ltac:(intros n [<-|[<-|[<-|[]]]]; reflexivity) eq_refl 2 ltac:(cbn; tauto)).
  cbn in H. intuition discriminate.
Qed.
(** nor to one of its InPorts *)
Theorem rf_sum_reaches_refuted : ~ forall kd in2 en s y e l p, sum kd e l p -> in2 y <> y -> NoDup (conns s ++ p) ->
  (forall n, In n l -> kd n = Matrix) -> snd (rf_statement kd in2 en s y e) = Val None ->
  forall n, In n l -> exists b, In (n, b) (conns (fst (rf_statement kd in2 en s y e))).
Proof.
  intros H. destruct three_products as [S E]. specialize (H kd0 port2 (fun _ => None) start 4 _ _ _ S ltac:(discriminate)).
  rewrite E in H. cbn [fst snd conns] in H. destruct (H ltac:(cbn; repeat constructor; cbn; intuition discriminate)
    ltac:(intros n [<-|[<-|[<-|[]]]]; reflexivity) eq_refl 2 ltac:(cbn; tauto)) as (b & I).
  cbn in I. intuition discriminate.
Qed.
(** a statement that raises has connected nothing: false *)
Theorem rf_all_or_nothing_refuted : ~ forall kd in2 s y v, snd (rf_shift kd in2 s y v) = Exc -> conns (fst (rf_shift kd in2 s y v)) = conns s.
Proof. intros H. specialize (H kd0 port2 start 4 (VPlain [0]) eq_refl). discriminate H. Qed.
