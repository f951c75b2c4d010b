(** Model of the MNIST data set and its download.
    /repo/src/lava/utils/dataloader/mnist.py MnistDataset.__init__ 22-39, download_mnist 41-67, decompress_convert_save 69-98,
    the properties 100-124.
    Simplifications: decompression is a parameter ([gunzip]; [None]: it raises).  A file is what np.load and gzip.open make of
    it; a file of which only a part is written is [Part], which both refuse.  The temp directory and the data file are separate
    places.  The URLs are the constants of the class, which start with http (line 51).  An array is the list of its bytes, in
    C order; np.array of the four arrays (line 94) fails if all four have the same length, otherwise it is a 2x2 array.
    A process that dies (or loses its disk) does so after any number of changes of the file system ([Some k]), or not ([None]). *)
From Coq Require Import List Bool Arith String ZArith.
Import ListNotations.

Definition bytes := list nat.
(** data[0][0], data[0][1], data[1][0], data[1][1] *)
Record data := mkData { d00 : bytes; d01 : bytes; d10 : bytes; d11 : bytes }.

Inductive file := Raw (b : bytes) | Npy (d : data) | Part.
Record fs := mkFs { temp : nat -> option file; disk : string -> option file }.

Inductive exn := UrlError | OtherNetError | BadGzip | ParseError | StackError | NotFound | BadFile.
Inductive res (A : Type) := Done (a : A) | Raised (e : exn) | Crashed.
Arguments Done {A}. Arguments Raised {A}. Arguments Crashed {A}.

(** a program that changes the file system, and may be killed *)
Definition M (A : Type) := option nat -> fs -> res A * option nat * fs.
Definition ret {A} (a : A) : M A := fun k s => (Done a, k, s).
Definition raise {A} (e : exn) : M A := fun k s => (Raised e, k, s).
Definition bind {A B} (m : M A) (f : A -> M B) : M B := fun k s =>
  match m k s with
  | (Done a, k', s') => f a k' s'
  | (Raised e, k', s') => (Raised e, k', s')
  | (Crashed, k', s') => (Crashed, k', s')
  end.
(** one change of the file system *)
Definition change (f : fs -> fs) : M unit := fun k s =>
  match k with
  | Some 0 => (Crashed, k, s)
  | Some (S k') => (Done tt, Some k', f s)
  | None => (Done tt, None, f s)
  end.
Definition set_temp (i : nat) (c : file) (s : fs) : fs := mkFs (fun j => if Nat.eqb j i then Some c else temp s j) (disk s).
Definition set_disk (p : string) (c : file) (s : fs) : fs := mkFs (temp s) (fun q => if String.eqb q p then Some c else disk s q).
(** open for writing, write *)
Definition write_temp (i : nat) (c : file) : M unit := bind (change (set_temp i Part)) (fun _ => change (set_temp i c)).
Definition write_disk (p : string) (c : file) : M unit := bind (change (set_disk p Part)) (fun _ => change (set_disk p c)).

(** what a mirror does when it is asked for a file *)
Inductive resp :=
| NoUrl          (* urlopen raises URLError *)
| NoAnswer       (* urlopen raises something else: the connection is lost before the answer *)
| NoRead         (* the connection is lost while the answer is read *)
| Bytes (b : bytes).

(** lines 46-67, one file: the mirrors in their order *)
Fixpoint try_mirrors (i : nat) (rs : list resp) : M unit :=
  match rs with
  | [] => raise UrlError
  | r :: rs' =>
    match r with
    | NoUrl => try_mirrors i rs'
    | NoAnswer => raise OtherNetError
    | NoRead => bind (change (set_temp i Part)) (fun _ => raise OtherNetError)
    | Bytes b => write_temp i (Raw b)
    end
  end.

(** [net i]: what the mirrors do when asked for file [i] *)
Definition download (net : nat -> list resp) : M unit :=
  bind (try_mirrors 0 (net 0)) (fun _ => bind (try_mirrors 1 (net 1)) (fun _ =>
  bind (try_mirrors 2 (net 2)) (fun _ => try_mirrors 3 (net 3)))).

(** np.frombuffer with an offset 89, 92; reshape(-1, 28, 28) 90 *)
Definition frombuffer (offset : nat) (b : bytes) : option bytes :=
  if List.length b <? offset then None else Some (skipn offset b).
Definition parse_images (b : bytes) : option bytes :=
  match frombuffer 16 b with
  | Some l => if Nat.eqb (List.length l mod 784) 0 then Some l else None
  | None => None
  end.
Definition parse_labels (b : bytes) : option bytes := frombuffer 8 b.

(** lines 86-93, one file *)
Definition read_array (gunzip : bytes -> option bytes) (i : nat) (parse : bytes -> option bytes) : M bytes := fun k s =>
  match temp s i with
  | Some (Raw b) => match gunzip b with
                    | Some c => match parse c with Some l => (Done l, k, s) | None => (Raised ParseError, k, s) end
                    | None => (Raised BadGzip, k, s)
                    end
  | Some _ => (Raised BadGzip, k, s)
  | None => (Raised NotFound, k, s)
  end.

(** np.array([[a, b], [c, d]], dtype="object") 94-97 *)
Definition stack (a b c d : bytes) : M data :=
  let n := List.length a / 784 in
  if Nat.eqb n (List.length b) && Nat.eqb n (List.length c / 784) && Nat.eqb n (List.length d) then raise StackError
  else ret (mkData a b c d).

(** numpy.save adds the suffix if it is not there *)
Fixpoint ends_with (suf s : string) : bool :=
  String.eqb s suf || match s with EmptyString => false | String _ s' => ends_with suf s' end.
Definition npy_name (p : string) : string := if ends_with ".npy" p then p else (p ++ ".npy")%string.
(** [dir_ok]: the directory of the file exists *)
Definition save (dir_ok : string -> bool) (p : string) (d : data) : M unit :=
  if dir_ok (npy_name p) then write_disk (npy_name p) (Npy d) else raise NotFound.
Definition load (p : string) : M data := fun k s =>
  match disk s p with
  | Some (Npy d) => (Done d, k, s)
  | Some _ => (Raised BadFile, k, s)
  | None => (Raised NotFound, k, s)
  end.

Definition decompress_convert_save (gunzip : bytes -> option bytes) (dir_ok : string -> bool) (p : string) : M unit :=
  bind (read_array gunzip 0 parse_images) (fun a =>
  bind (read_array gunzip 1 parse_labels) (fun b =>
  bind (read_array gunzip 2 parse_images) (fun c =>
  bind (read_array gunzip 3 parse_labels) (fun d =>
  bind (stack a b c d) (fun x => save dir_ok p x))))).

(** MnistDataset(data_path) 22-39 *)
Definition exists_file (p : string) : M bool := fun k s => (Done (match disk s p with Some _ => true | None => false end), k, s).
Definition construct (gunzip : bytes -> option bytes) (dir_ok : string -> bool) (p : string) (net : nat -> list resp) : M data :=
  bind (exists_file p) (fun e =>
  if e then load p
  else bind (download net) (fun _ => bind (decompress_convert_save gunzip dir_ok p) (fun _ => load p))).

(** the properties; [None]: reshape raises ValueError *)
Definition train_images (d : data) : option bytes :=
  if Z.eqb (Z.of_nat (List.length (d00 d))) (60000 * 784) then Some (d00 d) else None.
Definition test_images (d : data) : option bytes :=
  if Z.eqb (Z.of_nat (List.length (d10 d))) (10000 * 784) then Some (d10 d) else None.
Definition images (d : data) : option bytes :=
  match train_images d with
  | Some a => match test_images d with Some b => Some (a ++ b) | None => None end
  | None => None
  end.
Definition train_labels (d : data) : bytes := d01 d.
Definition test_labels (d : data) : bytes := d11 d.
Definition labels (d : data) : bytes := train_labels d ++ test_labels d.

(** a history: one process after the other, each with its network and its crash point *)
Definition attempt : Type := (nat -> list resp) * option nat.
Definition after (gunzip : bytes -> option bytes) (dir_ok : string -> bool) (p : string) (s : fs) (a : attempt) : fs :=
  snd (construct gunzip dir_ok p (fst a) (snd a) s).
Definition history (gunzip : bytes -> option bytes) (dir_ok : string -> bool) (p : string) (l : list attempt) (s : fs) : fs :=
  fold_left (after gunzip dir_ok p) l s.
