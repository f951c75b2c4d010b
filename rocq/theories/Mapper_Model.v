(** Model of Mapper.map_cores for neuro-core builders
    (/repo/src/lava/magma/compiler/mapper.py 33-116; the address map of C builders, 118-170, is not modelled). *)
From Coq Require Import List Arith Bool.
Import ListNotations.

(** NUM_VIRTUAL_CORES_L2/L3: subcompilers/constants.py 9-10 *)
Definition num_cores (n3 : bool) : nat := if n3 then 120 else 128.

(** A neuro-core builder: whether its first compiled resource is an N3LogicalNeuroCore (84-88), the
    logical core ids of its compiled resources (each resource has its own address object), those of its
    io ports ([None]: no var_model, skipped at 107), of its var models and of its var ports.
    get_logical() returns fresh copies of the addresses (var_model.py 100-109, utils.py 59-72), so the
    mutation of l_addr at 55-61 is not seen by anybody else. *)
Record builder := { n3 : bool; resources : list nat; io_ports : list (option (list nat));
                    var_models : list (list nat); var_ports : list (list nat) }.

(** state of the mapper: mapper_core_offset and mapper_core_dict *)
Definition mstate := (nat * list (nat * nat))%type.
Fixpoint find (d : list (nat * nat)) (l : nat) : option nat :=
  match d with [] => None | (k, v) :: r => if k =? l then Some v else find r l end.
Definition addr := (nat * nat)%type.   (* NcVirtualAddress(chip_id, core_id) *)

(** 54-65 and 92-103: the same loop in both places *)
Definition assign1 (n : nat) (s : mstate) (l : nat) : mstate * addr :=
  let '(off, d) := s in
  match find d l with
  | None => ((S off, (l, off) :: d), (off / n, off mod n))
  | Some v => (s, (v / n, v mod n))
  end.
Fixpoint assign (n : nat) (s : mstate) (ls : list nat) : mstate * list addr :=
  match ls with
  | [] => (s, [])
  | l :: r => let '(s1, a) := assign1 n s l in let '(s2, as_) := assign n s1 r in (s2, a :: as_)
  end.
(** 106-115: one _set_virtual_address_nc call per mappable *)
Fixpoint assign_all (n : nat) (s : mstate) (ms : list (list nat)) : mstate * list (list addr) :=
  match ms with
  | [] => (s, [])
  | m :: r => let '(s1, a) := assign n s m in let '(s2, as_) := assign_all n s1 r in (s2, a :: as_)
  end.
Fixpoint some_list {A} (l : list (option A)) : list A :=
  match l with [] => [] | Some x :: r => x :: some_list r | None :: r => some_list r end.
Definition mappables (b : builder) : list (list nat) := some_list (io_ports b) ++ var_models b ++ var_ports b.

(** what one builder gets: the addresses passed to map_to_virtual, and those of its mappables *)
Definition output := (list addr * list (list addr))%type.
Definition map_builder (off : nat) (b : builder) : nat * output :=
  let n := num_cores (n3 b) in
  let '(s1, rs) := assign n (off, []) (resources b) in
  let '(s2, ms) := assign_all n s1 (mappables b) in
  (fst s2, (rs, ms)).      (* 116: mapper_core_dict.clear() *)
(** [None]: IndexError at 84 for a builder without compiled resources *)
Fixpoint map_cores_from (off : nat) (bs : list builder) : option (list output) :=
  match bs with
  | [] => Some []
  | b :: r =>
      match resources b with
      | [] => None
      | _ => let '(off', o) := map_builder off b in
             match map_cores_from off' r with Some os => Some (o :: os) | None => None end
      end
  end.
Definition map_cores (bs : list builder) : option (list output) := map_cores_from 0 bs.
