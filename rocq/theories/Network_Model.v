(** Model of find_processes (magma/compiler/compiler_graphs.py 106-161) and of
    ChannelMap.from_proc_groups (magma/compiler/channel_map.py 68-116), on the port graphs of
    Connect_Model. *)
From Coq Require Import List Arith Bool.
From Verif Require Import VPorts_Model Connect_Model.
Import ListNotations.

Definition is_virtual (c : pclass) : bool :=
  match c with ReshapePort | TransposePort | ConcatPort => true | _ => false end.

(** port.process: assigned when the owner is constructed; for virtual ports the process of
    get_src_ports()[0] (ports.py 821-830).  [None]: no process / AttributeError / IndexError. *)
Definition process_of (lim : nat) (g : graph) (a : nat) : option nat :=
  match nth_error g a with
  | None => None
  | Some p =>
      if is_virtual (cls p) then
        match src_ports lim g false a with
        | Some (s :: _) => match nth_error g s with Some q => proc q | None => None end
        | _ => None
        end
      else proc p
  end.

(** proc.in_ports.members + proc.var_ports.members etc.: the ports of a class owned by the process *)
Definition owned (g : graph) (p : nat) (f : pclass -> bool) : list nat :=
  filter (fun a => match nth_error g a with
                   | Some q => f (cls q) && (match proc q with Some r => r =? p | None => false end)
                   | None => false
                   end) (seq 0 (length g)).

Definition recv_class (c : pclass) := match c with InPort | VarPort | ImplicitVarPort => true | _ => false end.
Definition send_class (c : pclass) := match c with OutPort | RefPort => true | _ => false end.

Fixpoint map_opt {A B} (f : A -> option B) (l : list A) : option (list B) :=
  match l with
  | [] => Some []
  | x :: r => match f x, map_opt f r with Some y, Some ys => Some (y :: ys) | _, _ => None end
  end.

(** compiler_graphs.py 139-152: the processes at the far ends of all ports; [None] if some call raises *)
Definition neighbours (lim : nat) (g : graph) (p : nat) : option (list nat) :=
  match map_opt (fun a => match src_ports lim g false a, dst_ports lim g false a with
                          | Some s, Some d => Some (s ++ d)
                          | _, _ => None
                          end) (owned g p recv_class ++ owned g p send_class) with
  | Some ends => map_opt (process_of lim g) (concat ends)
  | None => None
  end.

Definition memb (x : nat) (l : list nat) : bool := existsb (Nat.eqb x) l.

(** find_processes (106-161).  [adj]: the neighbours of a process.  [seen] is the list object shared by
    all recursive calls (append and extend mutate it; the rebinding in the last line is local).
    [setorder] is Python's iteration order of set(...).  Result: the returned list and the shared
    list afterwards; [None] = an exception (RecursionError when [fuel] is used up). *)
Fixpoint find_rec (setorder : list nat -> list nat) (adj : nat -> option (list nat)) (fuel : nat)
    (p : nat) (seen : list nat) : option (list nat * list nat) :=
  match fuel with
  | 0 => None
  | S f =>
      let seen := seen ++ [p] in
      match adj p with
      | None => None
      | Some new_list =>
          match fold_left (fun st q =>
                  match st with
                  | None => None
                  | Some (nl, sn) =>
                      if memb q sn then Some (nl, sn)
                      else match find_rec setorder adj f q sn with
                           | Some (ret, sn') => Some (nl ++ ret, sn')
                           | None => None
                           end
                  end) (setorder new_list) (Some (new_list, seen)) with
          | None => None
          | Some (nl, sn) => Some (setorder (sn ++ nl), sn ++ nl)
          end
      end
  end.

Definition find_processes (setorder : list nat -> list nat) (lim : nat) (g : graph) (p : nat) : option (list nat) :=
  match find_rec setorder (neighbours lim g) lim p [] with
  | Some (ret, _) => Some ret
  | None => None
  end.

(** ChannelMap.from_proc_groups (68-95) and _get_port_pairs_from_proc_groups (96-116): the keys of the
    dictionary, in order of first insertion *)
Definition port_pairs (lim : nat) (g : graph) (processes : list nat) : option (list (nat * nat)) :=
  match map_opt (fun s => match dst_ports lim g false s with
                          | Some ds => match map_opt (process_of lim g) ds with
                                       | Some ps => Some (map (fun dp => (s, fst dp))
                                                            (filter (fun dp => memb (snd dp) processes) (combine ds ps)))
                                       | None => None
                                       end
                          | None => None
                          end)
                (flat_map (fun p => owned g p (fun c => pclass_eqb c OutPort) ++ owned g p (fun c => pclass_eqb c RefPort)) processes) with
  | Some l => Some (concat l)
  | None => None
  end.

Definition pair_eqb (a b : nat * nat) : bool := (fst a =? fst b) && (snd a =? snd b).
(** channel_map[port_pair] = Payload(...) for each pair: a dictionary keeps one entry per key *)
Definition dict_keys (l : list (nat * nat)) : list (nat * nat) :=
  fold_left (fun d k => if existsb (pair_eqb k) d then d else d ++ [k]) l [].

Definition channel_map (lim : nat) (g : graph) (proc_groups : list (list nat)) : option (list (nat * nat)) :=
  match port_pairs lim g (concat proc_groups) with
  | Some l => Some (dict_keys l)
  | None => None
  end.
