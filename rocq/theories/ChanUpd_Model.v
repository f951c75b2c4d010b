(** Model of ChannelMapUpdater and its use.
    /repo/src/lava/magma/compiler/subcompilers/channel_map_updater.py 11-62; subcompilers/py/pyproc_compiler.py
    _update_channel_map 96-106; channel_map.py ChannelMap.__setitem__ 37-42 and from_proc_groups 68-94 (Network_Model, C28).
    The channel map is a dictionary from pairs of ports to Payload objects, given by their identity.  Simplifications: the keys are
    pairs of ports and the values Payloads (_validate_item); [None] is an exception. *)
From Coq Require Import List Arith Bool.
From Verif Require Import VPorts_Model Connect_Model Network_Model.
Import ListNotations.

Definition dict := list ((nat * nat) * nat).
Definition keys (d : dict) : list (nat * nat) := map fst d.
(** d[k] = v *)
Fixpoint set_item (d : dict) (k : nat * nat) (v : nat) : dict :=
  match d with
  | [] => [(k, v)]
  | (k', v') :: r => if pair_eqb k' k then (k', v) :: r else (k', v') :: set_item r k v
  end.
Definition class_of (g : graph) (a : nat) : option pclass := match nth_error g a with Some p => Some (cls p) | None => None end.
Definition is_a (g : graph) (a : nat) (t : ptype) : bool := match class_of g a with Some c => isinstance c t | None => false end.

Section Upd.
Variables (lim : nat) (g : graph) (pl : nat).             (* pl: self._payload *)
Definition add_port_pair (d : dict) (s t : nat) : dict := set_item d (s, t) pl.
(** 39-44 *)
Definition add_src_port (d : dict) (s : nat) : option dict :=
  match dst_ports lim g false s with
  | Some l => Some (fold_left (fun d t => if is_a g t TAbstractSrcPort then d else add_port_pair d s t) l d)
  | None => None
  end.
(** 50-55 *)
Definition add_dst_port (d : dict) (t : nat) : option dict :=
  match src_ports lim g false t with
  | Some l => Some (fold_left (fun d s => if is_a g s TAbstractDstPort then d else add_port_pair d s t) l d)
  | None => None
  end.
Definition each (f : dict -> nat -> option dict) (l : list nat) (d : option dict) : option dict :=
  fold_left (fun o x => match o with Some d => f d x | None => None end) l d.
Definition add_src_ports := each add_src_port.
Definition add_dst_ports := each add_dst_port.
(** 61-62: fromkeys is a class method: it makes another map *)
Definition add_port_pairs (d : dict) (l : list (nat * nat)) : dict := d.
(** PyProcCompiler._update_channel_map 99-106 *)
Definition update_process (o : option dict) (p : nat) : option dict :=
  add_dst_ports (owned g p (fun c => isinstance c (TExact VarPort)))
    (add_dst_ports (owned g p (fun c => pclass_eqb c InPort))
      (add_src_ports (owned g p (fun c => pclass_eqb c RefPort))
        (add_src_ports (owned g p (fun c => pclass_eqb c OutPort)) o))).
Definition update_group (group : list nat) (o : option dict) : option dict := fold_left update_process group o.
End Upd.
