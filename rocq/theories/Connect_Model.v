(** Model of the port graph built by connect()/connect_from()/reshape()/transpose()/concat_with()/
    connect_var(), magma/core/process/ports/ports.py 59-1026. *)
From Coq Require Import List Arith ZArith Bool.
From Verif Require Import Kahn VPorts_Model.
Import ListNotations.

(** class hierarchy (ports.py 58, 395-430, 482, 550, 720, 810, 816, 890, 926, 983) *)
Inductive pclass := OutPort | InPort | RefPort | VarPort | ImplicitVarPort
                  | ReshapePort | TransposePort | ConcatPort.
Inductive ptype := TAbstractPort | TAbstractIOPort | TAbstractRVPort | TAbstractSrcPort | TAbstractDstPort
                 | TExact (c : pclass).

Definition pclass_eqb (a b : pclass) : bool :=
  match a, b with
  | OutPort, OutPort | InPort, InPort | RefPort, RefPort | VarPort, VarPort
  | ImplicitVarPort, ImplicitVarPort | ReshapePort, ReshapePort | TransposePort, TransposePort
  | ConcatPort, ConcatPort => true
  | _, _ => false
  end.

Definition isinstance (c : pclass) (t : ptype) : bool :=
  match t with
  | TAbstractPort => true
  | TAbstractIOPort => match c with OutPort | InPort => true | _ => false end
  | TAbstractRVPort => match c with RefPort | VarPort | ImplicitVarPort => true | _ => false end
  | TAbstractSrcPort => match c with OutPort | RefPort => true | _ => false end
  | TAbstractDstPort => match c with InPort | VarPort | ImplicitVarPort => true | _ => false end
  | TExact d => pclass_eqb c d || (pclass_eqb c ImplicitVarPort && pclass_eqb d VarPort)
  end.

(** AbstractPort.__init__ (75-79).  [proc]: the owning process (None = not assigned yet). *)
Record port := mkPort {
  cls : pclass; pshape : list nat; proc : option nat;
  ins : list nat; outs : list nat; cfgs : list (nat * nat) }.

(** all ports that exist, by identity *)
Definition graph := list port.

Inductive error := EAssert | EType | EIndex | EDuplicate | EReshape | ETranspose | EConcat | ERecursion | EVar.
Inductive res (A : Type) := Ok (a : A) | Err (e : error).
Arguments Ok {A}. Arguments Err {A}.

Definition set_ins (p : port) l := mkPort (cls p) (pshape p) (proc p) l (outs p) (cfgs p).
Definition set_outs (p : port) l := mkPort (cls p) (pshape p) (proc p) (ins p) l (cfgs p).
Definition add_cfg (p : port) q c := mkPort (cls p) (pshape p) (proc p) (ins p) (outs p) ((q, c) :: cfgs p).

(** is_disjoint (28-30) *)
Definition is_disjoint (a b : list nat) : bool := forallb (fun x => negb (existsb (Nat.eqb x) b)) a.

(** _add_inputs / _add_outputs (108-120); [None] = DuplicateConnectionError, nothing changed *)
Definition add_inputs (g : graph) (a : nat) (l : list nat) : option graph :=
  match nth_error g a with
  | Some p => if is_disjoint (ins p) l then Some (upd g a (set_ins p (ins p ++ l))) else None
  | None => None
  end.
Definition add_outputs (g : graph) (a : nat) (l : list nat) : option graph :=
  match nth_error g a with
  | Some p => if is_disjoint (outs p) l then Some (upd g a (set_outs p (outs p ++ l))) else None
  | None => None
  end.

(** _validate_ports (81-106): first failing port raises AssertionError; ports[0] of [] raises IndexError *)
Definition validate (g : graph) (self : nat) (ports : list nat) (t : ptype) (same_shape same_type : bool) : option error :=
  match ports with
  | [] => Some EIndex
  | p0 :: _ =>
      match nth_error g self, nth_error g p0 with
      | Some sp, Some fp =>
          if forallb (fun q => match nth_error g q with
                               | Some p => isinstance (cls p) t
                                           && (if same_type then isinstance (cls p) (TExact (cls fp)) else true)
                                           && (if same_shape then list_eqb (pshape sp) (pshape p) else true)
                               | None => false
                               end) ports
          then None else Some EAssert
      | _, _ => Some EAssert
      end
  end.

(** the loop of _connect_forward (141-145) and _connect_backward (167-171): zip truncates; an exception
    leaves the graph as it is at that point.  Simplification: connection configurations are small
    numbers; in the code the dictionaries are keyed by port. *)
Definition store_cfg (g : graph) (a b : nat) (c : option nat) : graph :=
  match c with
  | None => g
  | Some v =>
      let g1 := match nth_error g a with Some p => upd g a (add_cfg p b v) | None => g end in
      match nth_error g1 b with Some p => upd g1 b (add_cfg p a v) | None => g1 end
  end.

Fixpoint fwd_loop (g : graph) (self : nat) (zipped : list (nat * option nat)) : graph * option error :=
  match zipped with
  | [] => (g, None)
  | (p, c) :: r =>
      match add_inputs g p [self] with
      | Some g' => fwd_loop (store_cfg g' self p c) self r
      | None => (g, Some EDuplicate)
      end
  end.
Fixpoint bwd_loop (g : graph) (self : nat) (zipped : list (nat * option nat)) : graph * option error :=
  match zipped with
  | [] => (g, None)
  | (p, c) :: r =>
      match add_outputs g p [self] with
      | Some g' => bwd_loop (store_cfg g' p self c) self r
      | None => (g, Some EDuplicate)
      end
  end.

(** "if len(connection_configs) == 1 and len(ports) > 1: connection_configs * len(ports)" *)
Definition spread (configs : list (option nat)) (n : nat) : list (option nat) :=
  match configs with
  | [c] => if 1 <? n then repeat c n else configs
  | _ => configs
  end.

(** _connect_forward (122-145) *)
Definition connect_forward (g : graph) (self : nat) (ports : list nat) (t : ptype) (configs : list (option nat))
    (same_shape same_type : bool) : graph * option error :=
  match validate g self ports t same_shape same_type with
  | Some e => (g, Some e)
  | None =>
      match add_outputs g self ports with
      | None => (g, Some EDuplicate)
      | Some g1 => fwd_loop g1 self (combine ports (spread configs (length ports)))
      end
  end.

(** _connect_backward (147-171) *)
Definition connect_backward (g : graph) (self : nat) (ports : list nat) (t : ptype) (configs : list (option nat))
    (same_shape same_type : bool) : graph * option error :=
  match validate g self ports t same_shape same_type with
  | Some e => (g, Some e)
  | None =>
      match add_inputs g self ports with
      | None => (g, Some EDuplicate)
      | Some g1 => bwd_loop g1 self (combine ports (spread configs (length ports)))
      end
  end.

(** get_src_ports / get_dst_ports (173-184, 293-304); [None] = RecursionError after [fuel] nested calls *)
Fixpoint all_some {A} (l : list (option (list A))) : option (list A) :=
  match l with
  | [] => Some []
  | Some x :: r => match all_some r with Some y => Some (x ++ y) | None => None end
  | None :: _ => None
  end.
Fixpoint src_ports (fuel : nat) (g : graph) (incl : bool) (a : nat) : option (list nat) :=
  match fuel with
  | 0 => None
  | S f => match nth_error g a with
           | Some p => match ins p with
                       | [] => Some (if incl then [a] else [])
                       | l => all_some (map (src_ports f g true) l)
                       end
           | None => None
           end
  end.
Fixpoint dst_ports (fuel : nat) (g : graph) (incl : bool) (a : nat) : option (list nat) :=
  match fuel with
  | 0 => None
  | S f => match nth_error g a with
           | Some p => match outs p with
                       | [] => Some (if incl then [a] else [])
                       | l => all_some (map (dst_ports f g true) l)
                       end
           | None => None
           end
  end.

(** the argument of connect(): a port or a list of ports *)
Inductive parg := One (p : nat) | Many (l : list nat).
Definition to_list (a : parg) : list nat := match a with One p => [p] | Many l => l end.
Definition arg_isinstance (g : graph) (a : parg) (t : ptype) : bool :=
  match a with
  | One p => match nth_error g p with Some q => isinstance (cls q) t | None => false end
  | Many _ => false
  end.

(** the 1:1 check of RefPorts and VarPorts (580-589, 622-631, 761-769, 790-798) *)
Definition rv_check (lim : nat) (g : graph) (self : nat) (a : parg) : option error :=
  if 1 <? length (to_list a) then Some EAssert else
  match dst_ports lim g false self with
  | None => Some ERecursion
  | Some ds =>
      if (0 <? length ds) && negb (arg_isinstance g a TAbstractSrcPort) then Some EAssert else
      match src_ports lim g false self with
      | None => Some ERecursion
      | Some ss => if (0 <? length ss) && negb (arg_isinstance g a TAbstractDstPort) then Some EAssert else None
      end
  end.

Definition all_of (g : graph) (l : list nat) (f : pclass -> bool) : bool :=
  forallb (fun q => match nth_error g q with Some p => f (cls p) | None => false end) l.

(** connect() of each class (444-461, 514-530, 569-600, 748-780, 838-871) *)
Definition do_connect (lim : nat) (g : graph) (self : nat) (a : parg) (configs : list (option nat)) : graph * option error :=
  match nth_error g self with
  | None => (g, Some EType)
  | Some sp =>
      match cls sp with
      | OutPort => connect_forward g self (to_list a) TAbstractIOPort configs true true
      | InPort => connect_forward g self (to_list a) (TExact InPort) configs true true
      | RefPort =>
          match rv_check lim g self a with
          | Some e => (g, Some e)
          | None => if all_of g (to_list a) (fun c => isinstance c (TExact RefPort) || isinstance c (TExact VarPort))
                    then connect_forward g self (to_list a) TAbstractRVPort configs true true
                    else (g, Some EType)
          end
      | VarPort | ImplicitVarPort =>
          match rv_check lim g self a with
          | Some e => (g, Some e)
          | None => if all_of g (to_list a) (fun c => isinstance c (TExact VarPort))
                    then connect_forward g self (to_list a) (TExact VarPort) configs true true
                    else (g, Some EType)
          end
      | ReshapePort | TransposePort | ConcatPort =>
          match src_ports lim g false self with
          | None => (g, Some ERecursion)
          | Some [] => (g, Some EIndex)
          | Some (s :: _) =>
              match nth_error g s with
              | None => (g, Some EType)
              | Some q =>
                  match cls q with
                  | OutPort => connect_forward g self (to_list a) TAbstractIOPort configs true true
                  | InPort => connect_forward g self (to_list a) (TExact InPort) configs true true
                  | RefPort => connect_forward g self (to_list a) TAbstractRVPort configs true true
                  | VarPort | ImplicitVarPort => connect_forward g self (to_list a) (TExact VarPort) configs true true
                  | _ => (g, Some EType)
                  end
              end
          end
      end
  end.

(** connect_from() of each class (463-480, 532-547, 602-632, 782-807); virtual ports have none *)
Definition do_connect_from (lim : nat) (g : graph) (self : nat) (a : parg) (configs : list (option nat)) : graph * option error :=
  match nth_error g self with
  | None => (g, Some EType)
  | Some sp =>
      match cls sp with
      | OutPort => connect_backward g self (to_list a) (TExact OutPort) configs true true
      | InPort => connect_backward g self (to_list a) TAbstractIOPort configs true true
      | RefPort =>
          match rv_check lim g self a with
          | Some e => (g, Some e)
          | None => if all_of g (to_list a) (fun c => isinstance c (TExact RefPort))
                    then connect_backward g self (to_list a) (TExact RefPort) configs true true
                    else (g, Some EType)
          end
      | VarPort | ImplicitVarPort =>
          match rv_check lim g self a with
          | Some e => (g, Some e)
          | None => if all_of g (to_list a) (fun c => isinstance c (TExact RefPort) || isinstance c (TExact VarPort))
                    then connect_backward g self (to_list a) TAbstractRVPort configs true true
                    else (g, Some EType)
          end
      | _ => (g, Some EType)
      end
  end.

Definition new_port (c : pclass) (sh : list nat) (pr : option nat) : port := mkPort c sh pr [] [] [].

(** reshape (308-325) and transpose (356-392): validation, a new port, a forward connection *)
Definition do_derive (g : graph) (self : nat) (o : vop) : graph * option error :=
  match nth_error g self with
  | None => (g, Some EType)
  | Some sp =>
      match derive1 (pshape sp) o with
      | None => (g, Some (match o with OpTranspose _ => ETranspose | _ => EReshape end))
      | Some v =>
          let c := match v with ReshapeP _ _ => ReshapePort | TransposeP _ _ => TransposePort end in
          connect_forward (g ++ [new_port c (vshape v) None]) self [length g] TAbstractPort [None] false true
      end
  end.

(** concat_with (333-354), ConcatPort.__init__ (935-943) *)
Definition do_concat (g : graph) (self : nat) (others : list nat) (axis : Z) : graph * option error :=
  match nth_error g self with
  | None => (g, Some EType)
  | Some sp =>
      let ports := self :: others in
      let t := if isinstance (cls sp) TAbstractIOPort then TAbstractIOPort else TAbstractRVPort in
      match validate g self ports t false false with
      | Some e => (g, Some e)
      | None =>
          match concat_shape axis (map (fun q => match nth_error g q with Some p => pshape p | None => [] end) ports) with
          | ConcatShape sh =>
              connect_backward (g ++ [new_port ConcatPort sh None]) (length g) ports TAbstractPort [None] false true
          | _ => (g, Some EConcat)
          end
      end
  end.

(** connect_var (634-682); a Var: its shape, its process and whether it is shareable *)
Record var := mkVar { v_shape : list nat; v_proc : option nat; v_shareable : bool }.

Fixpoint implicit_ports (vs : list var) (sh0 : list nat) (g : graph) (acc : list nat) : graph * (list nat * option error) :=
  match vs with
  | [] => (g, (acc, None))
  | v :: r =>
      if list_eqb sh0 (v_shape v) then
        if v_shareable v then
          implicit_ports r sh0 (g ++ [new_port ImplicitVarPort (v_shape v) (v_proc v)]) (acc ++ [length g])
        else (g, (acc, Some EVar))
      else (g, (acc, Some EAssert))
  end.

Definition do_connect_var (lim : nat) (g : graph) (self : nat) (vs : list var) (configs : list (option nat)) : graph * option error :=
  match nth_error g self with
  | None => (g, Some EType)
  | Some sp =>
      if negb (pclass_eqb (cls sp) RefPort) then (g, Some EType) else
      if 1 <? length vs then (g, Some EAssert) else
      match dst_ports lim g false self, src_ports lim g false self with
      | Some [], Some [] =>
          if existsb (fun v => match proc sp, v_proc v with Some a, Some b => a =? b | _, _ => false end) vs
          then (g, Some EAssert)
          else match vs with
               | [] => (g, Some EIndex)
               | v0 :: _ =>
                   match implicit_ports vs (v_shape v0) g [] with
                   | (g', (ps, None)) => do_connect lim g' self (Many ps) configs
                   | (g', (_, Some e)) => (g', Some e)
                   end
               end
      | Some _, Some _ => (g, Some EAssert)
      | _, _ => (g, Some ERecursion)
      end
  end.

(** A user program: any sequence of these calls. *)
Inductive call :=
| CNew (c : pclass) (sh : list nat) (pr : option nat)
| CConnect (self : nat) (a : parg) (configs : list (option nat))
| CConnectFrom (self : nat) (a : parg) (configs : list (option nat))
| CDerive (self : nat) (o : vop)
| CConcat (self : nat) (others : list nat) (axis : Z)
| CConnectVar (self : nat) (vs : list var) (configs : list (option nat)).

(** [lim]: Python's recursion limit *)
Definition do_call (lim : nat) (g : graph) (c : call) : graph * option error :=
  match c with
  | CNew c sh pr => (g ++ [new_port c sh pr], None)
  | CConnect s a cf => do_connect lim g s a cf
  | CConnectFrom s a cf => do_connect_from lim g s a cf
  | CDerive s o => do_derive g s o
  | CConcat s l ax => do_concat g s l ax
  | CConnectVar s vs cf => do_connect_var lim g s vs cf
  end.

Definition run_calls (lim : nat) (cs : list call) : graph :=
  fold_left (fun g c => fst (do_call lim g c)) cs [].
