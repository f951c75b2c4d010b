(** C97: the limits, and cases that meet the hypotheses *)
From Coq Require Import List Arith ZArith Ascii String Bool Lia.
From Verif Require Import SaveLoad_Model SaveLoad_Spec SaveLoad_Props.
Import ListNotations.
Open Scope nat_scope.

(** Two processes are created and saved, one of them is changed and saved again under another name, a third is created; the next
    session loads both files.  A network of the two loaded originals is a network of one session: it works. *)
Definition story : list action :=
  [New [1; 2]%Z; New [3]%Z; Save [0; 1] "net"; Assign 0 1 7%Z; Save [0] "./changed.dat"; New [9]%Z; Exit;
   New [5; 5; 5]%Z; LoadFile "net.pickle"; LoadFile "./changed.dat"].
Example story_live : live (life story) =
  [Obj 0 [0; 1; 2] [5; 5; 5]%Z 1 3; Obj 0 [0; 1] [1; 2]%Z 0 0; Obj 1 [2] [3]%Z 0 1; Obj 0 [0; 1] [1; 7]%Z 0 0].
Proof. reflexivity. Qed.
Definition loaded_net : list obj := [Obj 1 [2] [3]%Z 0 1; Obj 0 [0; 1] [1; 7]%Z 0 0].
Example loaded_net_one_session : (forall o, In o loaded_net -> In o (live (life story))) /\ one_session loaded_net.
Proof.
  split.
  - rewrite story_live. simpl. tauto.
  - intros [|[|p]] [|[|q]] x y Hx Hy; simpl in *; try (destruct p; discriminate); try (destruct q; discriminate);
      injection Hx as <-; injection Hy as <-; (split; [reflexivity|]); unfold copies; simpl; congruence.
Qed.
Example loaded_net_works : works loaded_net /\ route loaded_net 1 = Some (1, 1).
Proof.
  split; [apply (loaded_network_works story); apply loaded_net_one_session|reflexivity].
Qed.
Example story_file : load_answer (files (life story)) "net.pickle" = Loaded [Obj 0 [0; 1] [1; 2]%Z 0 0; Obj 1 [2] [3]%Z 0 1].
Proof. reflexivity. Qed.

(** Theorem (refuted): a loaded process can be used together with a process created in the session that loads it.  The ids clash: a
    process of the network never gets a command - run() waits for it for ever - and get() on its Var answers with the other's. *)
Theorem loaded_with_new_refuted : exists h x y,
  In x (live (life h)) /\ In y (live (life h)) /\ ~ copies x y /\ o_pid x = o_pid y /\
  ~ commanded [x; y] 0 /\ (exists v, nth_error (o_vars x) 0 = Some v /\ route [x; y] v <> Some (0, 0)) /\ ~ works [x; y].
Proof.
  exists [New [1%Z]; Save [0] "net"; Exit; LoadFile "net.pickle"; New [2%Z]], (Obj 0 [0] [1%Z] 0 0), (Obj 0 [0] [2%Z] 1 1).
  assert (~ commanded [Obj 0 [0] [1%Z] 0 0; Obj 0 [0] [2%Z] 1 1] 0) as N by (unfold commanded; cbv; intros [H|[]]; discriminate).
  split; [simpl; auto|]. split; [simpl; auto|]. split; [unfold copies; simpl; discriminate|]. split; [reflexivity|].
  split; [exact N|]. split; [exists 0; split; [reflexivity|]; cbv; discriminate|]. intros [W _]. apply N. apply W. simpl. lia.
Qed.
(** Theorem (refuted): a process and its loaded copy can be used in one network (even in one session) *)
Theorem original_with_copy_refuted : exists h x y,
  nth_error (live (life h)) 0 = Some x /\ nth_error (live (life h)) 1 = Some y /\ same_numbering x y /\ copies x y /\ ~ works [x; y].
Proof.
  exists [New [1%Z]; Save [0] "net"; LoadFile "net.pickle"; Assign 1 0 2%Z], (Obj 0 [0] [1%Z] 0 0), (Obj 0 [0] [2%Z] 0 0).
  split; [reflexivity|]. split; [reflexivity|]. split; [reflexivity|]. split; [reflexivity|].
  intros [W _]. specialize (W 0 ltac:(simpl; lia)). revert W. unfold commanded. cbv. intros [H|[]]; discriminate.
Qed.
(** Theorem (refuted): load(name) reads what save(name) has written ("If no file extension is given, '.pickle' will be added
    automatically", docstring of load) *)
Theorem load_adds_extension_refuted : exists h l name os,
  pick l (live (life h)) = Some os /\ load_answer (files (life (h ++ [Save l name]))) name = NoSuchFile.
Proof. exists [New [1%Z]], [0], "net"%string, [Obj 0 [0] [1%Z] 0 0]. split; reflexivity. Qed.
(** and a dot anywhere in the path counts as an extension *)
Example dot_in_directory : stored_as "./net" "./net".
Proof. left. split; [exists EmptyString, "/net"%string; reflexivity|reflexivity]. Qed.
