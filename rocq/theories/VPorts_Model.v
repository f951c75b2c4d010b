(** Model of the virtual ports (ReshapePort, TransposePort, ConcatPort),
    magma/core/process/ports/ports.py, and of the numpy functions they hand out.
    An array is its shape and its elements in C order. *)
From Coq Require Import List Arith ZArith Bool.
Import ListNotations.

Definition prod (sh : list nat) : nat := fold_right Nat.mul 1 sh.

Record nd := mkNd { shape : list nat; elems : list Z }.

(** row-major position of a multi-index *)
Fixpoint ravel (sh idx : list nat) : nat :=
  match sh, idx with
  | _ :: sh, i :: idx => i * prod sh + ravel sh idx
  | _, _ => 0
  end.

(** all multi-indices of a shape in C order *)
Fixpoint indices (sh : list nat) : list (list nat) :=
  match sh with
  | [] => [[]]
  | n :: sh => flat_map (fun i => map (cons i) (indices sh)) (seq 0 n)
  end.

(** a[idx] *)
Definition get (a : nd) (idx : list nat) : Z := nth (ravel (shape a) idx) (elems a) 0%Z.

(** np.reshape(a, newshape): same elements in C order; ValueError ([None]) if the sizes differ.
    Simplification: newshape has no -1 entry (port shapes are the shapes of real arrays). *)
Definition np_reshape (new : list nat) (a : nd) : option nd :=
  if prod new =? prod (shape a) then Some (mkNd new (elems a)) else None.

(** Python/numpy index normalisation: -n <= i < n *)
Definition norm_axis (n : nat) (i : Z) : option nat :=
  if (i <? 0)%Z then (if (Z.of_nat n + i <? 0)%Z then None else Some (Z.to_nat (Z.of_nat n + i)))
  else (if (Z.of_nat n <=? i)%Z then None else Some (Z.to_nat i)).

Fixpoint norm_axes (n : nat) (axes : list Z) : option (list nat) :=
  match axes with
  | [] => Some []
  | i :: r => match norm_axis n i, norm_axes n r with
              | Some k, Some ks => Some (k :: ks)
              | _, _ => None
              end
  end.

Fixpoint nodupb (l : list nat) : bool :=
  match l with [] => true | x :: r => negb (existsb (Nat.eqb x) r) && nodupb r end.

Fixpoint index_of (k : nat) (l : list nat) : nat :=
  match l with [] => 0 | x :: r => if x =? k then 0 else S (index_of k r) end.

(** source index of the element that np.transpose puts at [idx]: numpy permutes the strides, so axis
    [k] of the input is traversed by the axis of the result at which [k] occurs in [perm] *)
Definition scatter (perm idx : list nat) : list nat :=
  map (fun k => nth (index_of k perm) idx 0) (seq 0 (length perm)).

(** np.transpose(a, axes): "axes don't match array" / "repeated axis" / out of bounds are ValueErrors *)
Definition np_transpose (axes : list Z) (a : nd) : option nd :=
  if length axes =? length (shape a) then
    match norm_axes (length (shape a)) axes with
    | Some perm =>
        if nodupb perm then
          let sh := map (fun k => nth k (shape a) 0) perm in
          Some (mkNd sh (map (fun idx => get a (scatter perm idx)) (indices sh)))
        else None
    | None => None
    end
  else None.

(** np.argsort: indices in the order that sorts the values (insertion sort; for values without
    repetitions, the only ones np.transpose accepts, every sorting algorithm gives this result) *)
Fixpoint insert_key (x : Z * nat) (l : list (Z * nat)) : list (Z * nat) :=
  match l with
  | [] => [x]
  | y :: r => if (fst x <=? fst y)%Z then x :: l else y :: insert_key x r
  end.
Definition sort_keys (l : list (Z * nat)) : list (Z * nat) := fold_right insert_key [] l.
Definition np_argsort (l : list Z) : list nat :=
  map snd (sort_keys (combine l (seq 0 (length l)))).

(** ** The virtual ports *)
Inductive vport :=
| ReshapeP (new_shape old_shape : list nat)        (* ports.py 890-924 *)
| TransposeP (new_shape : list nat) (axes : list Z). (* ports.py 983-1026 *)

Definition vshape (v : vport) := match v with ReshapeP n _ => n | TransposeP n _ => n end.

(** get_transform_func_fwd (ports.py 903-912, 1001-1012) *)
Definition fwd (v : vport) (a : nd) : option nd :=
  match v with
  | ReshapeP new _ => np_reshape new a
  | TransposeP _ axes => np_transpose axes a
  end.

(** get_transform_func_bwd (ports.py 914-924, 1014-1026) *)
Definition bwd (v : vport) (a : nd) : option nd :=
  match v with
  | ReshapeP _ old => np_reshape old a
  | TransposeP _ axes => np_transpose (map Z.of_nat (np_argsort axes)) a
  end.

(** AbstractPort.reshape (308-325); [None] = ReshapeError *)
Definition port_reshape (sh new : list nat) : option vport :=
  if prod sh =? prod new then Some (ReshapeP new sh) else None.
(** AbstractPort.flatten (327-331) *)
Definition port_flatten (sh : list nat) : option vport := port_reshape sh [prod sh].

(** AbstractPort.transpose (356-392); [axes = None]: reversed(range(len(shape))).
    [None] = TransposeShapeError or TransposeIndexError.  Python's self.shape[i] accepts the same
    negative indices as the bounds check. *)
Definition port_transpose (sh : list nat) (axes : option (list Z)) : option vport :=
  let n := length sh in
  match axes with
  | None => let ax := rev (seq 0 n) in
            Some (TransposeP (map (fun k => nth k sh 0) ax) (map Z.of_nat ax))
  | Some ax =>
      if length ax =? n then
        match norm_axes n ax with
        | Some ks => Some (TransposeP (map (fun k => nth k sh 0) ks) ax)
        | None => None
        end
      else None
  end.

(** A user derives virtual ports one from the other: p.reshape(..).transpose(..).flatten() *)
Inductive vop := OpReshape (new : list nat) | OpFlatten | OpTranspose (axes : option (list Z)).

Definition derive1 (sh : list nat) (o : vop) : option vport :=
  match o with
  | OpReshape new => port_reshape sh new
  | OpFlatten => port_flatten sh
  | OpTranspose axes => port_transpose sh axes
  end.

(** the chain of virtual ports from the user's port on, source first *)
Fixpoint derive (sh : list nat) (ops : list vop) : option (list vport) :=
  match ops with
  | [] => Some []
  | o :: r => match derive1 sh o with
              | Some v => match derive (vshape v) r with
                          | Some vs => Some (v :: vs)
                          | None => None
                          end
              | None => None
              end
  end.

(** get_incoming_virtual_ports (205-237) walks from the destination to the source and appends itself
    after the ports before it; get_outgoing_virtual_ports (259-291) walks from the source to the
    destination and appends itself after the ports behind it.  For a chain without branching: *)
Fixpoint incoming (from_dst : list vport) : list vport :=
  match from_dst with [] => [] | v :: r => incoming r ++ [v] end.
Fixpoint outgoing (from_src : list vport) : list vport :=
  match from_src with [] => [] | v :: r => outgoing r ++ [v] end.

(** VirtualPortTransformer (model/py/ports.py 170-207): apply the functions of the list in order *)
Definition run_funcs (fs : list (nd -> option nd)) (a : nd) : option nd :=
  fold_left (fun x f => match x with Some y => f y | None => None end) fs (Some a).

(** data written at a source port arrives as (get_incoming_transform_funcs, 185-203) *)
Definition deliver_fwd (chain : list vport) : nd -> option nd :=
  run_funcs (map fwd (incoming (rev chain))).
(** data read through a RefPort arrives as (get_outgoing_transform_funcs, 239-257) *)
Definition deliver_bwd (chain : list vport) : nd -> option nd :=
  run_funcs (map bwd (outgoing chain)).

(** ** ConcatPort._get_new_shape (ports.py 950-973) *)
Inductive concat_result := ConcatShape (sh : list nat) | ConcatIndexError | ConcatShapeError | PyIndexError.

(** Python slices l[:a], l[a:] with possibly negative a *)
Definition slice_pos (n : nat) (a : Z) : nat :=
  if (a <? 0)%Z then Z.to_nat (Z.of_nat n + a) else Z.to_nat a.
Definition take_to (l : list nat) (a : Z) := firstn (slice_pos (length l) a) l.
Definition drop_from (l : list nat) (a : Z) := skipn (slice_pos (length l) a) l.

Definition list_eqb (a b : list nat) : bool := if list_eq_dec Nat.eq_dec a b then true else false.

Fixpoint concat_loop (axis : Z) (shapes : list (list nat)) (total : nat) (prev : option (list nat))
    (incompatible : bool) : concat_result + (nat * bool) :=
  match shapes with
  | [] => inr (total, incompatible)
  | sh :: r =>
      if (Z.of_nat (length sh) <=? axis)%Z then inl ConcatIndexError
      else match norm_axis (length sh) axis with
           | None => inl PyIndexError        (* shape[axis] with axis < -len(shape) *)
           | Some k =>
               let ex := take_to sh axis ++ drop_from sh (axis + 1) in
               let inc := match prev with
                          | Some p => negb (list_eqb p ex)
                          | None => incompatible
                          end in
               concat_loop axis r (total + nth k sh 0) (Some ex) inc
           end
  end.

Definition concat_shape (axis : Z) (shapes : list (list nat)) : concat_result :=
  match concat_loop axis shapes 0 None false with
  | inl e => e
  | inr (total, inc) =>
      if inc then ConcatShapeError
      else match shapes with
           | [] => PyIndexError
           | sh :: _ =>
               let new := take_to sh axis ++ drop_from sh (axis + 1) in
               ConcatShape (take_to new axis ++ [total] ++ drop_from new axis)
           end
  end.
