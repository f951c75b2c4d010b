(** C99: the theorems apply to a network with several kinds of ways, and what their conditions rule out *)
From Coq Require Import List Arith ZArith Bool String Lia.
From Verif Require Import VPorts_Model VPorts_Props Connect_Model Connect_Props Connect_Typed Network_Model Wire_Model Wire_Spec Wire_Inv Wire_Props Wire_Refs Wire_Total.
Import ListNotations.
Open Scope nat_scope.
Open Scope list_scope.

(** all ways to d, by length *)
Fixpoint ways_back (n : nat) (g : graph) (d : nat) : list (nat * list nat) :=
  match n with
  | 0 => [(d, [])]
  | S n => flat_map (fun sl => map (fun a => (a, fst sl :: snd sl)) (ins_of g (fst sl))) (ways_back n g d)
  end.
Lemma ways_back_has g d (HC : consistent g) : forall l s, path g s l d -> In (s, l) (ways_back (List.length l) g d).
Proof.
  induction l as [|b l IH]; intros s P; inversion P; subst; [left; reflexivity|]. cbn [List.length ways_back].
  apply in_flat_map. exists (b, l). split; [apply IH; assumption|]. apply in_map_iff. exists s. split; [reflexivity|].
  apply (ins_outs g HC). assumption.
Qed.
Lemma ways_back_end g d n : ways_back n g d = [] -> forall k, ways_back (n + k) g d = [].
Proof.
  intro H. induction k as [|k IH]; [rewrite Nat.add_0_r; exact H|]. rewrite Nat.add_succ_r. cbn [ways_back]. rewrite IH. reflexivity.
Qed.
Lemma all_ways g d n (HC : consistent g) : ways_back n g d = [] ->
  forall s l, path g s l d -> In (s, l) (flat_map (fun k => ways_back k g d) (seq 0 n)).
Proof.
  intros H s l P. apply (ways_back_has g d HC) in P as Q. apply in_flat_map. exists (List.length l). split; [|exact Q].
  apply in_seq. split; [lia|]. destruct (Nat.lt_ge_cases (List.length l) n) as [L|L]; [exact L|].
  replace (List.length l) with (n + (List.length l - n)) in Q by lia. rewrite (ways_back_end _ _ _ H) in Q. destruct Q.
Qed.
Fixpoint ways_ahead (n : nat) (g : graph) (d : nat) : list nat :=
  match n with 0 => [d] | S n => flat_map (outs_of g) (ways_ahead n g d) end.
Lemma ahead_has g r : forall l m, path g r l m -> In m (ways_ahead (List.length l) g r).
Proof.
  intro l. induction l as [|x l IH] using rev_ind; intros m P.
  - inversion P; subst. left. reflexivity.
  - apply path_last in P. destruct P as [[Z _]|(l' & b & Z & P & H)]; [destruct l; discriminate|].
    apply app_inj_tail in Z. destruct Z as [<- <-]. rewrite app_length, Nat.add_1_r. cbn [ways_ahead]. apply in_flat_map. exists b. auto.
Qed.
Lemma ahead_end g d n : ways_ahead n g d = [] -> forall k, ways_ahead (n + k) g d = [].
Proof.
  intro H. induction k as [|k IH]; [rewrite Nat.add_0_r; exact H|]. rewrite Nat.add_succ_r. cbn [ways_ahead]. rewrite IH. reflexivity.
Qed.
Lemma all_ahead g d n : ways_ahead n g d = [] -> forall u l, path g d l u -> In u (flat_map (fun k => ways_ahead k g d) (seq 0 n)).
Proof.
  intros H u l P. apply ahead_has in P as Q. apply in_flat_map. exists (List.length l). split; [|exact Q].
  apply in_seq. split; [lia|]. destruct (Nat.lt_ge_cases (List.length l) n) as [L|L]; [exact L|].
  replace (List.length l) with (n + (List.length l - n)) in Q by lia. rewrite (ahead_end _ _ _ H) in Q. destruct Q.
Qed.
Lemma names_distinct g N : (forall a b, a < List.length g -> b < List.length g -> pname N a = pname N b -> a = b) -> ids_distinct g N.
Proof. intros H a b pa pb p q Ea Eb _ _ _ _ _ E. apply H; [| |exact E]; apply nth_error_Some; congruence. Qed.

(** 0: OutPort [2,2] of process 0, reshaped; 1: OutPort [2,2] of process 1, transposed and flattened; 2: OutPort [4] of process 1,
    connected directly to 3: InPort [4] of process 2 and to 4: InPort [4] of process 3; 5: RefPort [2,2] of process 0, transposed and
    flattened, to 6: VarPort [4] of process 2.  Ports 7 to 11 are virtual.  12: InPort of the process around process 2, which passes
    on to 3 what comes from 13 and 14: OutPorts [4] of processes 0 and 3. *)
Definition net : list call :=
  [CNew OutPort [2;2] (Some 0); CNew OutPort [2;2] (Some 1); CNew OutPort [4] (Some 1); CNew InPort [4] (Some 2); CNew InPort [4] (Some 3);
   CNew RefPort [2;2] (Some 0); CNew VarPort [4] (Some 2);
   CDerive 0 (OpReshape [4]); CConnect 7 (One 3) [None];
   CDerive 1 (OpTranspose None); CDerive 8 OpFlatten; CConnect 9 (One 3) [None];
   CConnect 2 (Many [3;4]) [None];
   CDerive 5 (OpTranspose None); CDerive 10 OpFlatten; CConnect 11 (One 6) [None];
   CNew InPort [4] (Some 4); CNew OutPort [4] (Some 0); CNew OutPort [4] (Some 3);
   CConnect 13 (One 12) [None]; CConnect 12 (One 3) [None]; CConnectFrom 12 (One 14) [None]].
Definition names : naming :=
  {| pid := fun p => Z.of_nat (10 + p);
     pname := fun a => nth a ["x"; "y"; "z"; "in"; "in2"; "r"; "v"; ""; ""; ""; ""; ""; "outer"; "p"; "q"]%string "none"%string |}.
Definition net_groups : list (list nat) := [[0; 2]; [1; 3]].
Definition bx (f : list Z) (sh : list nat) : nd := mkNd sh f.
Definition round (s : nat) : nd :=
  match s with 0 => bx [1;2;3;4]%Z [2;2] | 1 => bx [10;20;30;40]%Z [2;2] | 13 => bx [1000;0;0;0]%Z [4] | 14 => bx [0;1000;0;0]%Z [4] | _ => bx [100;200;300;400]%Z [4] end.
Lemma net_proper : Forall proper net.
Proof. repeat constructor; simpl; unfold cfg_ok; simpl; auto; intuition congruence. Qed.
Lemma net_ids : ids_distinct (run_calls 50 net) names.
Proof.
  intros a b pa pb p q Ea Eb Va Vb Pa Pb _ E.
  assert (a < 15 /\ b < 15) as [La Lb] by (split; [assert (nth_error (run_calls 50 net) a <> None) as X by congruence|assert (nth_error (run_calls 50 net) b <> None) as X by congruence]; apply nth_error_Some in X; vm_compute in X; lia).
  do 15 (destruct a as [|a]; [do 15 (destruct b as [|b]; [first [reflexivity | discriminate E | vm_compute in Ea; injection Ea as <-; discriminate Va | vm_compute in Eb; injection Eb as <-; discriminate Vb]|]); lia|]). lia.
Qed.
Definition net_builders : builders := match wire 50 (run_calls 50 net) names net_groups with Some B => B | None => no_builders end.
Lemma net_wired : wire 50 (run_calls 50 net) names net_groups = Some net_builders.
Proof.
  unfold net_builders. destruct (wire 50 (run_calls 50 net) names net_groups) eqn:E; [reflexivity|].
  assert (match wire 50 (run_calls 50 net) names net_groups with Some _ => true | None => false end = true) as X by (vm_compute; reflexivity).
  rewrite E in X. discriminate.
Qed.
Ltac cases_in H := cbn [In] in H; repeat (match type of H with _ \/ _ => destruct H as [H|H] | False => destruct H end).
Example inport_applies : let g := run_calls 50 net in exists B p,
  wire 50 g names net_groups = Some B /\ build_in 50 g names (user_vports 50 net) B 3 = Some p /\
  joined_at_end g (user_vports 50 net) 3 /\ one_way g 3 /\ starts g (List.concat net_groups) 3 /\
  recv p (sends g names B (List.concat net_groups) round) = Some (bx [1111; 1232; 323; 444]%Z [4]).
Proof.
  intro g. pose proof (connections_consistent_partial 50 net net_proper) as HC. fold g in HC.
  assert (ways_back 4 g 3 = []) as W by (vm_compute; reflexivity).
  pose proof (all_ways g 3 4 HC W) as A.
  assert (flat_map (fun k => ways_back k g 3) (seq 0 4) = [(3, []); (7, [3]); (9, [3]); (2, [3]); (12, [3]); (0, [7; 3]); (8, [9; 3]); (13, [12; 3]); (14, [12; 3]); (1, [8; 9; 3])]) as EW by (vm_compute; reflexivity).
  rewrite EW in A.
  exists net_builders. eexists. split; [exact net_wired|]. split; [vm_compute; reflexivity|]. split; [|split; [|split]].
  - intros c Hc. change (In c [7; 9; 2; 12]) in Hc.
    assert (forall c ws, ways_back 4 g c = [] -> flat_map (fun k => ways_back k g c) (seq 0 4) = ws -> forall v l, path g v l c -> In (v, l) ws) as T
      by (intros c' ws W0 <-; exact (all_ways g c' 4 HC W0)).
    cases_in Hc; subst c.
    + left. intros v l P. eapply T in P; [|vm_compute; reflexivity|vm_compute; reflexivity]. cases_in P; injection P as <- <-; vm_compute; lia.
    + left. intros v l P. eapply T in P; [|vm_compute; reflexivity|vm_compute; reflexivity]. cases_in P; injection P as <- <-; vm_compute; lia.
    + left. intros v l P. eapply T in P; [|vm_compute; reflexivity|vm_compute; reflexivity]. cases_in P; injection P as <- <-; vm_compute; lia.
    + right. intros v l P. eapply T in P; [|vm_compute; reflexivity|vm_compute; reflexivity]. cases_in P; injection P as <- <-; vm_compute; reflexivity.
  - intros s l l' P P'. apply A in P. apply A in P'. cases_in P; injection P as <- <-; cases_in P'; congruence.
  - intros s l (ps & p & E & C & _) P. apply A in P. cases_in P; injection P as <- <-; first [reflexivity | vm_compute in E; injection E as <-; discriminate C].
  - vm_compute. reflexivity.
Qed.
(** ... and the further conditions of inport_value_partial and wire_succeeds *)
Example inport_value_applies : let g := run_calls 50 net in
  Forall legal_axes net /\ usual_ports g (user_vports 50 net) 3 /\ (forall v l, path g v l 3 -> List.length l <= 50) /\
  (exists s l, out_port g (List.concat net_groups) s /\ path g s l 3) /\ fits g round /\
  (forall v pv, nth_error g v = Some pv -> is_virtual (cls pv) = true -> outs pv <> []).
Proof.
  intro g. pose proof (connections_consistent_partial 50 net net_proper) as HC. fold g in HC.
  assert (ways_back 4 g 3 = []) as W by (vm_compute; reflexivity).
  pose proof (all_ways g 3 4 HC W) as A.
  assert (flat_map (fun k => ways_back k g 3) (seq 0 4) = [(3, []); (7, [3]); (9, [3]); (2, [3]); (12, [3]); (0, [7; 3]); (8, [9; 3]); (13, [12; 3]); (14, [12; 3]); (1, [8; 9; 3])]) as EW by (vm_compute; reflexivity).
  rewrite EW in A. split; [repeat constructor|]. split.
  { intros v l pv P E. apply A in P. cases_in P; injection P as <- <-; vm_compute in E; injection E as <-; vm_compute; discriminate. }
  split; [intros v l P; apply A in P; cases_in P; injection P as <- <-; cbn; lia|]. split.
  { exists 2, [3]. split; [|econstructor; [vm_compute; auto|constructor]]. do 2 eexists. split; [vm_compute; reflexivity|]. repeat split. cbn. auto. }
  split.
  - intros s ps E C. assert (s < 15) as L by (assert (nth_error g s <> None) as X by congruence; apply nth_error_Some in X; vm_compute in X; lia).
    do 15 (destruct s as [|s]; [vm_compute in E; injection E as <-; first [discriminate C | split; vm_compute; reflexivity]|]). lia.
  - intros s ps E C. assert (s < 15) as L by (assert (nth_error g s <> None) as X by congruence; apply nth_error_Some in X; vm_compute in X; lia).
    do 15 (destruct s as [|s]; [vm_compute in E; injection E as <-; first [discriminate C | discriminate]|]). lia.
Qed.
Example refport_applies : let g := run_calls 50 net in exists B R V pr pv,
  wire 50 g names net_groups = Some B /\ path g 5 [10; 11; 6] 6 /\
  nth_error g 5 = Some pr /\ nth_error g 6 = Some pv /\ ins pr = [] /\ outs pv = [] /\
  (forall u l, path g 5 l u -> List.length (outs_of g u) <= 1) /\ (forall u l, path g u l 6 -> List.length (ins_of g u) <= 1) /\
  (forall s l ps p, path g s l 6 -> nth_error g s = Some ps -> cls ps = RefPort -> proc ps = Some p -> In p (List.concat net_groups) -> ins ps = []) /\
  build_refport 50 g names (user_vports 50 net) B true 5 = Some R /\ build_refport 50 g names (user_vports 50 net) B false 6 = Some V /\
  transform fwd (r_tr V) 2 (bx [1;2;3;4]%Z [2;2]) = Some (bx [1;3;2;4]%Z [4]) /\
  transform bwd (r_tr R) 3 (bx [1;2;3;4]%Z [4]) = Some (bx [1;3;2;4]%Z [2;2]).
Proof.
  intro g. pose proof (connections_consistent_partial 50 net net_proper) as HC. fold g in HC.
  assert (ways_back 4 g 6 = []) as W by (vm_compute; reflexivity). assert (ways_ahead 4 g 5 = []) as W' by (vm_compute; reflexivity).
  pose proof (all_ways g 6 4 HC W) as A. pose proof (all_ahead g 5 4 W') as A'.
  assert (flat_map (fun k => ways_back k g 6) (seq 0 4) = [(6, []); (11, [6]); (10, [11; 6]); (5, [10; 11; 6])]) as EW by (vm_compute; reflexivity).
  assert (flat_map (fun k => ways_ahead k g 5) (seq 0 4) = [5; 10; 11; 6]) as EW' by (vm_compute; reflexivity).
  rewrite EW in A. rewrite EW' in A'.
  exists net_builders. do 4 eexists. split; [exact net_wired|]. split; [repeat (econstructor; [vm_compute; auto|]); constructor|].
  do 4 (split; [vm_compute; reflexivity|]).
  split; [intros u l P; apply A' in P; cases_in P; subst; vm_compute; lia|].
  split; [intros u l P; apply A in P; cases_in P; injection P as <- <-; vm_compute; lia|].
  split; [|do 3 (split; [vm_compute; reflexivity|]); vm_compute; reflexivity].
  intros s l ps p P E C _ _. apply A in P. cases_in P; injection P as <- <-; vm_compute in E; injection E as <-; first [reflexivity|discriminate C].
Qed.

(** ** What the conditions rule out: networks that are built without an error and receive something else *)
(** all calls succeed *)
Definition accepted (lim : nat) (calls : list call) : bool :=
  snd (fold_left (fun st c => let r := do_call lim (fst st) c in (fst r, snd st && match snd r with None => true | Some _ => false end)) calls ([], true)).
(** what arrives at d; the outer None: the network cannot be built *)
Definition arrives (calls : list call) (N : naming) (processes : list nat) (d : nat) (x : nat -> nd) : option (option nd) :=
  let g := run_calls 50 calls in
  match wire 50 g N [processes] with
  | Some B => match build_in 50 g N (user_vports 50 calls) B d with
              | Some p => Some (recv p (sends g N B processes x))
              | None => None
              end
  | None => None
  end.
Definition abc : naming := {| pid := fun p => Z.of_nat p; pname := fun a => nth a ["a"; "b"; "c"; "d"]%string "none"%string |}.
Definition square (s : nat) : nd := match s with 0 => bx [1;2;3;4]%Z [2;2] | _ => bx [10;20;30;40]%Z [2;2] end.

(** Ways joined on the way (condition joined_at_end): an OutPort that is transposed and one that is not, to an InPort of a process
    with sub-processes, and from there to an InPort of a sub-process.  The data of the second is transposed, not that of the first. *)
Definition joined : list call :=
  [CNew OutPort [2;2] (Some 0); CNew OutPort [2;2] (Some 1); CNew InPort [2;2] (Some 5); CNew InPort [2;2] (Some 2);
   CDerive 0 (OpTranspose None); CConnect 4 (One 2) [None]; CConnect 1 (One 2) [None]; CConnect 2 (One 3) [None]].
Theorem joined_on_the_way_refuted : accepted 50 joined = true /\
  arrives joined abc [0; 1; 2] 3 square = Some (Some (bx [11;32;23;44]%Z [2;2])) /\
  path (run_calls 50 joined) 0 [4; 2; 3] 3 /\ path (run_calls 50 joined) 1 [2; 3] 3 /\
  travel (user_vports 50 joined) [4; 2; 3] (square 0) = Some (bx [1;3;2;4]%Z [2;2]) /\
  travel (user_vports 50 joined) [2; 3] (square 1) = Some (bx [10;20;30;40]%Z [2;2]).
Proof.
  split; [vm_compute; reflexivity|]. split; [vm_compute; reflexivity|].
  split; [repeat (econstructor; [vm_compute; auto|]); constructor|]. split; [repeat (econstructor; [vm_compute; auto|]); constructor|].
  split; vm_compute; reflexivity.
Qed.
(** The reshape may as well come after the join: recv raises, since only the data of the second OutPort is reshaped. *)
Theorem joined_before_reshape_refuted :
  let calls := [CNew OutPort [4] (Some 0); CNew OutPort [4] (Some 1); CNew InPort [4] (Some 5); CNew InPort [2;2] (Some 2);
                CConnect 0 (One 2) [None]; CConnect 1 (One 2) [None]; CDerive 2 (OpReshape [2;2]); CConnect 4 (One 3) [None]] in
  accepted 50 calls = true /\ arrives calls abc [0; 1; 2] 3 (fun _ => bx [1;2;3;4]%Z [4]) = Some None.
Proof. split; vm_compute; reflexivity. Qed.
(** Two ways from one OutPort to one InPort (condition one_way): only the transposed data arrives. *)
Definition parallel : list call :=
  [CNew OutPort [2;2] (Some 0); CNew InPort [2;2] (Some 1); CConnect 0 (One 1) [None]; CDerive 0 (OpTranspose None); CConnect 2 (One 1) [None]].
Theorem two_ways_refuted : accepted 50 parallel = true /\
  arrives parallel abc [0; 1] 1 square = Some (Some (bx [1;3;2;4]%Z [2;2])) /\
  path (run_calls 50 parallel) 0 [1] 1 /\ path (run_calls 50 parallel) 0 [2; 1] 1.
Proof.
  split; [vm_compute; reflexivity|]. split; [vm_compute; reflexivity|].
  split; repeat (econstructor; [vm_compute; auto|]); constructor.
Qed.
(** An InPort of a sub-process behind an unconnected InPort receives zeros, but with a reshape in between the network cannot be
    built (condition build_in = Some). *)
Theorem unconnected_reshaped_refuted :
  arrives [CNew InPort [2;2] (Some 5); CNew InPort [2;2] (Some 1); CConnect 0 (One 1) [None]] abc [1] 1 square = Some (Some (zeros [2;2])) /\
  let calls := [CNew InPort [4] (Some 5); CNew InPort [2;2] (Some 1); CDerive 0 (OpReshape [2;2]); CConnect 2 (One 1) [None]] in
  accepted 50 calls = true /\ arrives calls abc [1] 1 square = None.
Proof. repeat split; vm_compute; reflexivity. Qed.
(** A virtual port that was made but not connected: the network cannot be built (condition wire = Some). *)
Theorem dangling_virtual_refuted :
  let calls := [CNew OutPort [2;2] (Some 0); CNew InPort [2;2] (Some 1); CConnect 0 (One 1) [None]; CDerive 0 OpFlatten] in
  accepted 50 calls = true /\ wire 50 (run_calls 50 calls) abc [[0; 1]] = None.
Proof. repeat split; vm_compute; reflexivity. Qed.
(** Equal ids and names (condition ids_distinct; loaded processes, C24): receiving fails. *)
Theorem equal_ids_refuted :
  let calls := [CNew OutPort [2;2] (Some 0); CNew OutPort [2;2] (Some 1); CNew InPort [2;2] (Some 2); CDerive 0 (OpTranspose None);
                CConnect 3 (One 2) [None]; CConnect 1 (One 2) [None]] in
  accepted 50 calls = true /\
  arrives calls {| pid := fun _ => 0%Z; pname := fun a => nth a ["out"; "out"; "in"]%string "none"%string |} [0; 1; 2] 2 square = Some None.
Proof. repeat split; vm_compute; reflexivity. Qed.
(** Two RefPorts connected to one VarPort (condition on ins_of): nobody serves the requests of the second. *)
Theorem second_refport_refuted :
  let calls := [CNew RefPort [2] (Some 0); CNew RefPort [2] (Some 1); CNew VarPort [2] (Some 2); CConnect 0 (One 2) [None]; CConnect 1 (One 2) [None]] in
  let g := run_calls 50 calls in
  accepted 50 calls = true /\ exists B R V i, wire 50 g abc [[0; 1; 2]] = Some B /\
    build_refport 50 g abc (user_vports 50 calls) B true 1 = Some R /\ build_refport 50 g abc (user_vports 50 calls) B false 2 = Some V /\
    r_send R = Some i /\ In (CspRecv i) (csp_ports B 2 "c"%string) /\ r_recv V <> Some i.
Proof.
  split; [vm_compute; reflexivity|].
  set (calls := [CNew RefPort [2] (Some 0); CNew RefPort [2] (Some 1); CNew VarPort [2] (Some 2); CConnect 0 (One 2) [None]; CConnect 1 (One 2) [None]]).
  destruct (wire 50 (run_calls 50 calls) abc [[0; 1; 2]]) as [B|] eqn:E.
  - exists B.
    assert (forall A (f : builders -> A) (y : option A), match wire 50 (run_calls 50 calls) abc [[0; 1; 2]] with Some B => Some (f B) | None => None end = y -> Some (f B) = y) as T by (rewrite E; auto).
    assert (build_refport 50 (run_calls 50 calls) abc (user_vports 50 calls) B true 1 = Some {| r_send := Some 2; r_recv := Some 3; r_tr := Virtual [(3, [])] |}) as E1
      by (enough (forall x y : option pyref, Some x = Some y -> x = y) as I by (apply I, (T _ (fun B => build_refport 50 (run_calls 50 calls) abc (user_vports 50 calls) B true 1)); vm_compute; reflexivity); congruence).
    assert (build_refport 50 (run_calls 50 calls) abc (user_vports 50 calls) B false 2 = Some {| r_send := Some 1; r_recv := Some 0; r_tr := Identity |}) as E2
      by (enough (forall x y : option pyref, Some x = Some y -> x = y) as I by (apply I, (T _ (fun B => build_refport 50 (run_calls 50 calls) abc (user_vports 50 calls) B false 2)); vm_compute; reflexivity); congruence).
    assert (csp_ports B 2 "c"%string = [CspRecv 0; CspSend 1; CspRecv 2; CspSend 3]) as E3
      by (enough (forall x y : list csp, Some x = Some y -> x = y) as I by (apply I, (T _ (fun B => csp_ports B 2 "c"%string)); vm_compute; reflexivity); congruence).
    do 2 eexists. exists 2. split; [reflexivity|]. split; [exact E1|]. split; [exact E2|]. split; [reflexivity|]. split; [rewrite E3; simpl; auto|discriminate].
  - exfalso. assert (match wire 50 (run_calls 50 calls) abc [[0; 1; 2]] with Some _ => true | None => false end = true) as X by (vm_compute; reflexivity).
    rewrite E in X. discriminate.
Qed.
