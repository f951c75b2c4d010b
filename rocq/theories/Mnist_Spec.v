(** Specification vocabulary for C104. *)
From Coq Require Import List Bool Arith String ZArith.
From Verif Require Import Mnist_Model.
Import ListNotations.

(** the four published files, decompressed: a header, then one byte for each pixel or label *)
Record mnist := mkMnist { images0 : bytes; labels0 : bytes; images1 : bytes; labels1 : bytes }.
Definition file_of (m : mnist) (i : nat) : bytes :=
  match i with 0 => images0 m | 1 => labels0 m | 2 => images1 m | _ => labels1 m end.
Record WellFormed (m : mnist) : Prop := mkWF {
  wf_train : (Z.of_nat (List.length (images0 m)) = 16 + 60000 * 784)%Z;
  wf_train_l : (Z.of_nat (List.length (labels0 m)) = 8 + 60000)%Z;
  wf_test : (Z.of_nat (List.length (images1 m)) = 16 + 10000 * 784)%Z;
  wf_test_l : (Z.of_nat (List.length (labels1 m)) = 8 + 10000)%Z }.

(** [d] is the published data *)
Definition Published (m : mnist) (d : data) : Prop :=
  d00 d = skipn 16 (images0 m) /\ d01 d = skipn 8 (labels0 m) /\ d10 d = skipn 16 (images1 m) /\ d11 d = skipn 8 (labels1 m).

(** a mirror that is honest: it fails, or gives file [i] *)
Definition HonestResp (gunzip : bytes -> option bytes) (m : mnist) (i : nat) (r : resp) : Prop :=
  match r with Bytes b => gunzip b = Some (file_of m i) | _ => True end.
Definition Honest (gunzip : bytes -> option bytes) (m : mnist) (net : nat -> list resp) : Prop :=
  forall i r, i < 4 -> In r (net i) -> HonestResp gunzip m i r.
(** all mirrors before the first one that answers cannot be reached, and it gives file [i] *)
Definition Available (gunzip : bytes -> option bytes) (m : mnist) (net : nat -> list resp) : Prop :=
  forall i, i < 4 -> exists before b rest, net i = before ++ Bytes b :: rest /\ (forall r, In r before -> r = NoUrl) /\
    gunzip b = Some (file_of m i).

Definition IsNpy (p : string) : Prop := exists q, p = (q ++ ".npy")%string.
(** how MnistDataset(p) ends, and what is on the disk then *)
Definition outcome {A} (x : res A * option nat * fs) : res A := fst (fst x).
Definition disk_after {A} (x : res A * option nat * fs) : fs := snd x.
