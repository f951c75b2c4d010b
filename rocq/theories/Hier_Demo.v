(** Concrete cases for C103, and claims that are false of the code. *)
From Coq Require Import List Bool Arith String Lia.
From Verif Require Import Hier_Model Hier_Spec Hier_Proofs Hier_Props Hier_Props2.
Import ListNotations.
Open Scope string_scope.

(** ** a network of two processes: 0 contains 1 (an attribute) and 2 (a field of a dataclass); 1 contains 3 and 4; 5 is a leaf *)
Definition w1 : world := mkWorld
  (fun p => match p with 0 => "Layer" | 1 => "Layer" | 2 => "Dense" | 3 => "LIF" | 4 => "LIF" | _ => "Sink" end)
  (fun _ => [])
  (fun p => match p with 0 => Some (Sub 10) | 1 => Some (Sub 10) | 2 => Some (Leaf 20) | 3 => Some (Leaf 30) | 4 => Some (Leaf 30) | _ => Some (Leaf 50) end)
  (fun p => match p with 0 => [("cfg", AOther); ("mid", AProc 1); ("net", AData [Some 2; None])]
                       | 1 => [("a", AProc 3); ("b", AProc 4)] | _ => [] end)
  (fun p => match p with 4 => [5] | 3 => [2] | _ => [] end).

Lemma w1_found : forall p q, Found w1 p q <-> (p = 0 /\ (q = 1 \/ q = 2)) \/ (p = 1 /\ (q = 3 \/ q = 4)).
Proof.
  intros p q. unfold Found, Hierarchical. split.
  - intros [[m Hm] (k & H)]. destruct p as [|[|[|[|[|p]]]]]; try discriminate Hm; cbn in H.
    + destruct H as [H|[H|[]]]; injection H as <- <-; auto 6.
    + destruct H as [H|[H|[]]]; injection H as <- <-; auto 6.
  - intros [[-> H]|[-> H]]; (split; [exists 10; reflexivity|]).
    + destruct H as [-> | ->]; [exists "mid"|exists "Dense"]; cbn; auto.
    + destruct H as [-> | ->]; [exists "a"|exists "b"]; cbn; auto.
Qed.

Lemma w1_trees : Trees w1 [0; 5].
Proof.
  split; [|split; [|split]].
  - constructor; [intros [X|[]]; discriminate|constructor; [intros []|constructor]].
  - intros p. destruct p as [|[|p]]; cbn; repeat constructor; cbn; intuition discriminate.
  - intros p p' q H1 H2. apply w1_found in H1. apply w1_found in H2. lia.
  - intros p q [<-|[<-|[]]] H; apply w1_found in H; lia.
Qed.

Theorem w1_plain : PlainModel w1 0 /\ PlainModel w1 1 /\ Hierarchical w1 0.
Proof.
  split; [|split; [|exists 10; reflexivity]]; (split; [intros n l H; cbn in H; repeat (destruct H as [H|H]; [discriminate|]); exact H|]);
    cbn; repeat constructor; intros H; repeat (destruct H as [H|H]; [discriminate|]); exact H.
Qed.

Definition s1 : state := match elaborate 3 w1 [0; 5] with Some (_, s) => s | None => init w1 end.
Theorem w1_elaborates : elaborate 3 w1 [0; 5] = Some ([(3, 30); (4, 30); (2, 20); (5, 50)], s1) /\
  elab s1 = [3; 4; 1; 2; 0; 5] /\ builds s1 = [0; 1] /\ map snd (procs s1 0) = [1; 2] /\ map snd (procs s1 1) = [3; 4] /\
  parent s1 4 = Some 1 /\ parent s1 1 = Some 0 /\ is_sub_proc_of 3 s1 4 0 = Some true /\ is_sub_proc_of 3 s1 4 2 = Some false /\
  resolve w1 [(3, 30); (4, 30); (2, 20); (5, 50)] s1 = Resolved [3; 4; 2; 5; 2; 5].
Proof. repeat split; reflexivity. Qed.
(** one level less is not enough *)
Theorem w1_limit : elaborate 2 w1 [0; 5] = None.
Proof. reflexivity. Qed.

Lemma w1_member : forall p q, Member s1 p q <-> (p = 0 /\ (q = 1 \/ q = 2)) \/ (p = 1 /\ (q = 3 \/ q = 4)).
Proof.
  intros p q. rewrite <- w1_found. rewrite (members_exact 3 w1 [0; 5] _ s1 (fun _ => eq_refl) eq_refl).
  split; [tauto|]. intros H. split; [|exact H]. apply w1_found in H.
  exists 0. split; [now left|]. destruct H as [[-> _]|[-> _]]; [constructor|].
  apply in_step with 1; [apply w1_found; auto|constructor].
Qed.
Lemma w1_under_shape : forall p q, Under s1 p q -> (p = 0 /\ 1 <= q <= 4) \/ (p = 1 /\ 3 <= q <= 4).
Proof.
  intros p q H. induction H as [p q H|p q r H _ IH]; apply w1_member in H; lia.
Qed.

(** the outer and the inner process are both of a class to be folded: everything inside gets the outer one *)
Lemma w1_oneparent : OneParent s1.
Proof. intros p p' q H1 H2. apply w1_member in H1. apply w1_member in H2. lia. Qed.
Lemma w1_order : IsOrder w1 s1 ["Layer"] [1; 0].
Proof.
  intros p. unfold Folds. cbn. split.
  - intros [<-|[<-|[]]]; cbn; auto 10.
  - intros [H [X|[]]]. repeat (destruct H as [<-|H]; [solve [discriminate X|auto]|]). contradiction.
Qed.
Definition show (o : option views) : option (list (option (string * nat))) := option_map (fun v => map v [0; 1; 2; 3; 4; 5]) o.
Theorem w1_folds :
  OneParent s1 /\ IsOrder w1 s1 ["Layer"] [1; 0] /\ IsOrder w1 s1 ["Layer"] [0; 1] /\
  show (annotate 3 w1 s1 ["Layer"] [1; 0]) = Some [Some ("Layer", 1); Some ("Layer", 1); Some ("Layer", 1); Some ("Layer", 1); Some ("Layer", 1); None] /\
  show (annotate 3 w1 s1 ["Layer"] [0; 1]) = Some [Some ("Layer", 1); Some ("Layer", 1); Some ("Layer", 1); Some ("Layer", 1); Some ("Layer", 1); None] /\
  Outermost w1 s1 ["Layer"] 0 4 /\ ~ Outermost w1 s1 ["Layer"] 1 4.
Proof.
  split; [exact w1_oneparent|]. split; [exact w1_order|]. split.
  { intros p. rewrite <- (w1_order p). cbn. tauto. }
  split; [reflexivity|]. split; [reflexivity|].
  assert (Folds w1 s1 ["Layer"] 0) as F0 by (apply w1_order; cbn; auto).
  assert (Under s1 0 1) as U by (apply un_one; apply w1_member; auto).
  split.
  - split; [right; apply un_more with 1; [apply w1_member; auto|apply un_one; apply w1_member; auto]|]. split; [exact F0|].
    intros b H. apply w1_under_shape in H. lia.
  - intros (_ & _ & H). apply (H 0 U F0).
Qed.

(** ** processes held in a list are not found, and silently not compiled *)
Definition w2 : world := mkWorld (fun _ => "LIF") (fun _ => [])
  (fun p => match p with 0 => Some (Sub 10) | _ => Some (Leaf 30) end)
  (fun p => match p with 0 => [("inp", AProc 1); ("layers", AColl [2; 3])] | _ => [] end) (fun _ => []).
Theorem held_is_found_refuted : ~ (forall w p q, Hierarchical w p -> Holds w p q -> Found w p q).
Proof.
  intros H. destruct (H w2 0 2) as [_ (k & X)]; [exists 10; reflexivity|exists "layers", (AColl [2; 3]); cbn; auto|].
  cbn in X. destruct X as [X|[]]; discriminate.
Qed.
Theorem list_not_compiled : exists s, elaborate 5 w2 [0] = Some ([(1, 30)], s) /\ resolve w2 [(1, 30)] s = Resolved [1] /\ model_class s 2 = None.
Proof. eexists. split; [reflexivity|split; reflexivity]. Qed.

(** ... and a TypeError if one that was found is connected to it *)
Definition w2' : world := mkWorld (cls w2) (own w2) (choose w2) (build w2) (fun p => match p with 1 => [2] | _ => [] end).
Theorem list_connected_type_error : exists s, elaborate 5 w2' [0] = Some ([(1, 30)], s) /\ resolve w2' [(1, 30)] s = TypeError.
Proof. eexists. split; reflexivity. Qed.

(** ** two processes of one class in dataclass objects: only the last is found *)
Definition w3 : world := mkWorld (fun p => match p with 0 => "Net" | 3 => "Dense" | _ => "LIF" end) (fun _ => [])
  (fun p => match p with 0 => Some (Sub 10) | _ => Some (Leaf 30) end)
  (fun p => match p with 0 => [("parts", AData [Some 1; Some 3; Some 2])] | _ => [] end) (fun _ => []).
Theorem dataclass_field_found_refuted :
  ~ (forall w p q n fs, Hierarchical w p -> In (n, AData fs) (build w p) -> In (Some q) fs -> Found w p q).
Proof.
  intros H. destruct (H w3 0 1 "parts" [Some 1; Some 3; Some 2]) as [_ (k & X)]; [exists 10; reflexivity|cbn; auto|cbn; auto|].
  cbn in X. destruct X as [X|[X|[]]]; discriminate.
Qed.
Theorem dataclass_last_of_class : find_sub_procs w3 0 = [("LIF", 2); ("Dense", 3)].
Proof. reflexivity. Qed.

(** ... also if the class has the name of an attribute *)
Definition w4 : world := mkWorld (fun p => match p with 2 => "LIF" | _ => "Net" end) (fun _ => [])
  (fun p => match p with 0 => Some (Sub 10) | _ => Some (Leaf 30) end)
  (fun p => match p with 0 => [("LIF", AProc 1); ("parts", AData [Some 2])] | _ => [] end) (fun _ => []).
Theorem attribute_found_refuted : ~ (forall w p q n, Hierarchical w p -> In (n, AProc q) (build w p) -> Found w p q).
Proof.
  intros H. destruct (H w4 0 1 "LIF") as [_ (k & X)]; [exists 10; reflexivity|cbn; auto|].
  cbn in X. destruct X as [X|[]]; discriminate.
Qed.

(** ** a model that stores the process it implements: RecursionError, however high the limit *)
Definition w5 : world := mkWorld (fun _ => "Net") (fun _ => [])
  (fun p => match p with 0 => Some (Sub 10) | _ => Some (Leaf 30) end)
  (fun p => match p with 0 => [("lif", AProc 1); ("proc", AProc 0)] | _ => [] end) (fun _ => []).
Theorem own_process_ignored_refuted : ~ (forall w p n, Hierarchical w p -> In (n, AProc p) (build w p) -> ~ Found w p p).
Proof.
  intros H. apply (H w5 0 "proc"); [exists 10; reflexivity|cbn; auto|]. split; [exists 10; reflexivity|exists "proc"; cbn; auto].
Qed.
Theorem storing_own_process_fails : forall limit, elaborate limit w5 [0] = None.
Proof.
  apply self_holding_never_compiles with 0; [now left|]. exists 0. split; [|constructor].
  split; [exists 10; reflexivity|exists "proc"; cbn; auto].
Qed.

(** ** a process under two attribute names is elaborated, and its model built, twice; it is compiled once *)
Definition w6 : world := mkWorld (fun _ => "Net") (fun _ => [])
  (fun p => match p with 0 => Some (Sub 10) | 1 => Some (Sub 10) | _ => Some (Leaf 30) end)
  (fun p => match p with 0 => [("first", AProc 1); ("last", AProc 1)] | 1 => [("lif", AProc 2)] | _ => [] end) (fun _ => []).
Theorem built_once_refuted : ~ (forall limit w l pm st, NoDup l -> elaborate limit w l = Some (pm, st) -> NoDup (builds st)).
Proof.
  intros H. specialize (H 5 w6 [0] _ _ (NoDup_cons 0 (@in_nil nat 0) (NoDup_nil nat)) eq_refl). cbn in H.
  inversion H as [|? ? _ H']. inversion H' as [|? ? X _]. apply X. now left.
Qed.
Theorem twice_named : exists s, elaborate 5 w6 [0] = Some ([(2, 30)], s) /\ builds s = [0; 1; 1] /\ elab s = [2; 1; 2; 1; 0].
Proof. eexists. split; [reflexivity|split; reflexivity]. Qed.
(** ... and, if it is folded, the instance number counts both: the numbers are not 0, 1, 2, ... *)
Theorem twice_named_instance :
  match elaborate 5 w6 [0] with
  | Some (_, s) => option_map (fun v => map v [0; 1; 2]) (annotate 5 w6 s ["Net"] [0; 1; 2]) =
                   Some [Some ("Net", 4); Some ("Net", 4); Some ("Net", 4)]
  | None => False
  end.
Proof. vm_compute. reflexivity. Qed.

(** ** exception_proc_model_map that gives None: the process is left out without a word *)
Definition w7 : world := mkWorld (fun _ => "LIF") (fun _ => []) (fun p => match p with 1 => None | _ => Some (Leaf 30) end)
  (fun _ => []) (fun _ => []).
Theorem every_process_compiled_refuted : ~ (forall limit w l pm st ns, elaborate limit w l = Some (pm, st) ->
  resolve w pm st = Resolved ns -> forall p, In p l -> ~ Hierarchical w p -> In p ns).
Proof.
  intros H. specialize (H 5 w7 [0; 1] _ _ _ eq_refl eq_refl 1). cbn in H. destruct H as [X|[]]; [auto| |discriminate].
  intros [m X]. discriminate.
Qed.

(** ** a process of the list may also be inside another of the list: it is elaborated twice *)
Theorem elaborated_once_refuted : ~ (forall limit w l pm st, NoDup l -> elaborate limit w l = Some (pm, st) -> NoDup (elab st)).
Proof.
  intros H. assert (NoDup [0; 5; 2]) as N by (repeat constructor; cbn; intuition discriminate).
  specialize (H 5 w1 [0; 5; 2] _ _ N eq_refl). cbn in H.
  repeat match goal with H : NoDup (_ :: _) |- _ => inversion H; clear H; subst end. cbn in *. intuition.
Qed.
