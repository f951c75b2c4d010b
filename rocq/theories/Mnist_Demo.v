(** Concrete cases for C104, and claims that are false of the code. *)
From Coq Require Import List Bool Arith String ZArith Lia.
From Verif Require Import Mnist_Model Mnist_Spec Mnist_Proofs Mnist_Props Mnist_Props2.
Import ListNotations.

(** files of the published sizes *)
Definition zeros (n : Z) (x : nat) : bytes := repeat x (Z.to_nat n).
Definition m0 : mnist := mkMnist (zeros (16 + 60000 * 784) 1) (zeros (8 + 60000) 2) (zeros (16 + 10000 * 784) 3) (zeros (8 + 10000) 4).
Lemma zeros_length : forall n x, (0 <= n)%Z -> Z.of_nat (List.length (zeros n x)) = n.
Proof. intros. unfold zeros. rewrite repeat_length. lia. Qed.
Theorem m0_wf : WellFormed m0.
Proof. split; unfold m0; cbn [images0 labels0 images1 labels1]; rewrite zeros_length; lia. Qed.

(** the compressed file [i] is the one byte [i] *)
Definition gz (b : bytes) : option bytes :=
  match b with [0] => Some (images0 m0) | [1] => Some (labels0 m0) | [2] => Some (images1 m0) | [3] => Some (labels1 m0) | _ => None end.
Lemma gz_file : forall i, i < 4 -> gz [i] = Some (file_of m0 i).
Proof. intros i Hi. destruct i as [|[|[|[|i]]]]; [reflexivity..|lia]. Qed.

Definition empty : fs := mkFs (fun _ => None) (fun _ => None).
Definition anywhere (_ : string) : bool := true.
Open Scope string_scope.
Definition path : string := "mnist.npy".
Lemma path_npy : IsNpy path. Proof. exists "mnist". reflexivity. Qed.

(** the first mirror is down *)
Definition second (i : nat) : list resp := [NoUrl; Bytes [i]; NoUrl].
Lemma second_available : Available gz m0 second.
Proof.
  intros i Hi. exists [NoUrl], [i], [NoUrl]. split; [reflexivity|]. split; [intros r [<-|[]]; reflexivity|now apply gz_file].
Qed.
Lemma second_honest : Honest gz m0 second.
Proof. intros i r Hi [<-|[<-|[<-|[]]]]; [exact I|exact (gz_file i Hi)|exact I]. Qed.
(** the network is gone *)
Definition gone (_ : nat) : list resp := [NoUrl; NoUrl; NoUrl].
(** the connection to the first mirror is lost *)
Definition lost (i : nat) : list resp := [if Nat.eqb i 2 then NoRead else Bytes [i]; Bytes [i]; Bytes [i]].
Lemma lost_honest : Honest gz m0 lost.
Proof.
  intros i r Hi H. unfold lost in H. destruct (Nat.eqb i 2); destruct H as [<-|[<-|[<-|[]]]]; try exact I; exact (gz_file i Hi).
Qed.

(** three failed attempts, then a good one, then one without network *)
Theorem story : exists d s, construct gz anywhere path second None (history gz anywhere path [(gone, None); (lost, None); (second, Some 6)] empty) = (Done d, None, s) /\
  Published m0 d /\ construct gz anywhere path gone None s = (Done d, None, s).
Proof.
  set (h := history gz anywhere path [(gone, None); (lost, None); (second, Some 6)] empty).
  assert (disk h path = None) as D.
  { unfold h, history. cbn [fold_left]. unfold after at 1. cbn [fst snd].
    apply (killed_while_saving gz anywhere path m0 second _ 6 m0_wf path_npy eq_refl second_available); [|lia].
    unfold after. cbn [fst snd]. rewrite construct_eq. reflexivity. }
  destruct (construct_fresh gz anywhere path m0 second h m0_wf path_npy eq_refl second_available D) as (d & s & E & P & _).
  exists d, s. split; [exact E|]. split; [exact P|]. exact (offline_afterwards _ _ _ _ _ _ _ _ _ E gone None).
Qed.
Theorem gone_url_error : outcome (construct gz anywhere path gone None empty) = Raised UrlError.
Proof. reflexivity. Qed.

(** ** killed while the file is saved: never again, even with a perfect network *)
Theorem retry_succeeds_refuted :
  ~ (forall g ok p m l s net, WellFormed m -> IsNpy p -> ok p = true -> disk s p = None ->
     (forall a, In a l -> Honest g m (fst a)) -> Available g m net ->
     exists d, outcome (construct g ok p net None (history g ok p l s)) = Done d).
Proof.
  intros H. destruct (H gz anywhere path m0 [(second, Some 9)] empty second m0_wf path_npy eq_refl eq_refl) as (d & E).
  - intros a [<-|[]]. exact second_honest.
  - exact second_available.
  - rewrite (killed_once gz anywhere path m0 second second None empty m0_wf path_npy eq_refl second_available eq_refl) in E. discriminate E.
Qed.

(** ** one good mirror for each file does not suffice, even if no mirror lies *)
Theorem any_mirror_suffices_refuted :
  ~ (forall g ok p m s net, WellFormed m -> IsNpy p -> ok p = true -> disk s p = None -> Honest g m net ->
     (forall i, i < 4 -> exists b, In (Bytes b) (net i)) -> exists d, outcome (construct g ok p net None s) = Done d).
Proof.
  intros H. destruct (H gz anywhere path m0 empty lost m0_wf path_npy eq_refl eq_refl lost_honest) as (d & E).
  - intros i _. exists [i]. unfold lost. cbn. auto.
  - discriminate E.
Qed.
Theorem lost_other_error : outcome (construct gz anywhere path lost None empty) = Raised OtherNetError.
Proof. reflexivity. Qed.

(** a mirror that answers with something else, for example a web page: the other mirrors are not tried *)
Definition page (i : nat) : list resp := [Bytes [60; 104]; Bytes [i]; Bytes [i]].
Theorem web_page : outcome (construct gz anywhere path page None empty) = Raised BadGzip.
Proof. reflexivity. Qed.

(** ** a data path without suffix *)
Theorem any_path_refuted :
  ~ (forall g ok p m s net, WellFormed m -> ok p = true -> disk s p = None -> Available g m net ->
     exists d, outcome (construct g ok p net None s) = Done d).
Proof.
  intros H. destruct (H gz anywhere "mnist" m0 empty second m0_wf eq_refl eq_refl second_available) as (d & E).
  assert (~ IsNpy "mnist") as N by (intros X; apply npy_name_id in X; discriminate X).
  destruct (other_suffix_saved_elsewhere gz anywhere "mnist" m0 second empty m0_wf N eq_refl second_available eq_refl) as [X _]. congruence.
Qed.

(** other IDX files: as many training images as test images, all with labels *)
Definition small (b : bytes) : option bytes := match b with [0] | [2] => Some (repeat 0 (16 + 784)) | [1] | [3] => Some (repeat 0 9) | _ => None end.
Theorem equal_sizes_fail : outcome (construct small anywhere path second None empty) = Raised StackError.
Proof. vm_compute. reflexivity. Qed.
