(** Model of the compressed encodings of the delta encoder
    (/repo/src/lava/proc/io/encoder.py 181-282), on the flattened output vector. *)
From Coq Require Import ZArith List Bool.
From Verif Require Import NpInt.
Import ListNotations.
Open Scope Z_scope.

(** np.argwhere(s != 0) and s[idx]: pairs (index, value) of the non-zero entries *)
Fixpoint nonzero_from (k : Z) (v : list Z) : list (Z * Z) :=
  match v with
  | [] => []
  | x :: r => if x =? 0 then nonzero_from (k + 1) r else (k, x) :: nonzero_from (k + 1) r
  end.
Definition nonzero (v : list Z) : list (Z * Z) := nonzero_from 0 v.

(** encode_sparse 181-188: (data, idx) *)
Definition encode_sparse (v : list Z) : list Z * list Z :=
  match nonzero v with
  | [] => ([0], [0])
  | l => (map snd l, map fst l)
  end.

(** packing of four bytes into an int32 (195-198, 247-254) *)
Definition word (p0 p1 p2 p3 : Z) : Z := w32 (w32 (w32 (w32 (Z.shiftl p3 24) + w32 (Z.shiftl p2 16)) + w32 (Z.shiftl p1 8)) + p0).
Fixpoint pack (l : list Z) : list Z :=
  match l with p0 :: p1 :: p2 :: p3 :: r => word p0 p1 p2 p3 :: pack r | _ => [] end.
(** np.zeros(int(np.ceil(n / k) * k)) with the first n entries overwritten *)
Definition pad (k : nat) (l : list Z) : list Z := l ++ repeat 0 (k * ((length l + (k - 1)) / k) - length l)%nat.
Fixpoint evens {A} (l : list A) : list A := match l with x :: _ :: r => x :: evens r | [x] => [x] | [] => [] end.
Definition odds {A} (l : list A) : list A := match l with [] => [] | _ :: r => evens r end.

(** encode_packed_4 190-200 *)
Definition encode_packed_4 (v : list Z) : list Z * list Z :=
  let packed := pack (pad 8 (map (fun x => Z.land x 255) v)) in (evens packed, odds packed).

(** encode_delta_sparse_8 202-255.  [fst]: index entry, [snd]: data entry *)
(** 204-214: the pairs, and whether idx and data are 1-dimensional arrays (after the concatenation at
    211, or the substitution at 207) or (k,1)-arrays as argwhere returns them *)
Definition entries (v : list Z) : bool * list (Z * Z) :=
  match nonzero v with
  | [] => (true, [(0, 0)])
  | (i, x) :: r => if 255 <? i then (true, (0, 0) :: (i, x) :: r) else (false, (i, x) :: r)
  end.
(** 217: idx[1:] = idx[1:] - idx[:-1] - 1 *)
Fixpoint gaps_after (p : Z) (l : list (Z * Z)) : list (Z * Z) :=
  match l with [] => [] | (i, x) :: r => (i - p - 1, x) :: gaps_after i r end.
Definition gaps (l : list (Z * Z)) : list (Z * Z) :=
  match l with [] => [] | (i, x) :: r => (i, x) :: gaps_after i r end.
(** 224-228: the repeat markers before an entry with index distance [g].  For a 1-dimensional array
    idx[i] is a scalar and the products are list repetitions; for a (k,1)-array idx[i] is an array, and
    numpy multiplies and adds numerically. *)
Definition marker (one_dim : bool) (g : Z) : list (Z * Z) :=
  let repeat_data := g / 255 in
  let num_repeats := repeat_data / 255 in
  if one_dim then repeat (255, 255) (Z.to_nat num_repeats) ++ [(255, repeat_data mod 255)]
  else [(255 * (num_repeats + 1), 255 * num_repeats + repeat_data mod 255)].
(** np.argwhere(idx >= max_idx)[:, 0] *)
Fixpoint big_from (k : nat) (l : list (Z * Z)) : list nat :=
  match l with [] => [] | (g, _) :: r => if 255 <=? g then k :: big_from (S k) r else big_from (S k) r end.
Definition slice {A} (a b : nat) (l : list A) : list A := firstn (b - a) (skipn a l).
Definition modg (e : Z * Z) : Z * Z := (fst e mod 255, snd e).
(** 221-234 *)
Fixpoint emit (one_dim : bool) (l : list (Z * Z)) (pos : list nat) (start : nat) : list (Z * Z) :=
  match pos with
  | [] => skipn start l
  | i :: r =>
      map modg (slice start i l) ++
      marker one_dim (fst (nth i l (0, 0))) ++
      map modg (slice i (i + 1) l) ++
      emit one_dim l r (i + 1)
  end.
(** 219-255: (packed_data, packed_idx) *)
Definition encode_delta_sparse_8 (v : list Z) : list Z * list Z :=
  let '(one_dim, es) := entries v in
  let g := gaps es in
  let ts := emit one_dim g (big_from 0 g) 0 in
  (pack (pad 4 (map (fun t => Z.land (snd t) 255) ts)), pack (pad 4 (map (fun t => Z.land (fst t) 255) ts))).

(** decode_encode_delta_sparse_8 257-282: state (count > 0, idx) *)
Definition decode_byte (started : bool) (idx : Z) (d i : Z) : Z * list (Z * Z) :=
  if i =? 255 then (idx + d * 255, [])
  else let idx' := idx + i + (if started then 1 else 0) in
       (idx', if d =? 0 then [] else [(idx', d)]).
Fixpoint decode_word (n : nat) (started : bool) (idx : Z) (pd pi : Z) : Z * list (Z * Z) :=
  match n with
  | O => (idx, [])
  | S m => let '(idx1, o1) := decode_byte started idx (Z.land pd 255) (Z.land pi 255) in
           let '(idx2, o2) := decode_word m true idx1 (Z.shiftr pd 8) (Z.shiftr pi 8) in (idx2, o1 ++ o2)
  end.
Fixpoint decode_words (started : bool) (idx : Z) (pd pi : list Z) : list (Z * Z) :=
  match pd, pi with
  | d :: ds, i :: is_ => let '(idx1, o1) := decode_word 4 started idx d i in o1 ++ decode_words true idx1 ds is_
  | _, _ => []
  end.
(** the decoded (index, value) pairs *)
Definition decode_delta_sparse_8 (packed_data packed_idx : list Z) : list (Z * Z) := decode_words false 0 packed_data packed_idx.
