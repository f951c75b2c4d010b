(** Model of the wiring of a compiled network: from the connections made by the user to the channels and the transformation
    functions that the ports of the process models use.
    /repo/src/lava/magma/core/process/ports/ports.py create_port_id 33-48, get_incoming_transform_funcs 187-206,
    get_incoming_virtual_ports 208-238, get_outgoing_transform_funcs 240-257, get_outgoing_virtual_ports 259-289;
    compiler/subcompilers/channel_builders_factory.py from_channel_map 54-181; compiler/subcompilers/py/pyproc_compiler.py 153-271;
    runtime/runtime.py _build_channels 209-238; compiler/builders/py_builder.py set_csp_ports 165-203, add_csp_port_mapping
    205-222, build 276-385; core/model/py/ports.py VirtualPortTransformer 125-205, PyInPortVectorDense.recv 334-351,
    PyOutPortVectorDense.send.
    The graph of ports is that of Connect_Model, the channel map that of Network_Model, the virtual ports are those of
    VPorts_Model.  Simplifications: all process models are Python models with dense vector ports (channel type PyPy); each name
    exists in the process model (C89); a channel hands over each message once, in order (C01), so that only one round of messages
    is looked at; no conversion between d_types; numpy broadcasting of unequal shapes is not followed (counts as failure); the
    string str(id) + "_" + name is the pair of id and name (an id has no underscore, so the strings are equal iff the pairs
    are). *)
From Coq Require Import List Arith ZArith Bool String.
From Verif Require Import VPorts_Model Connect_Model Network_Model.
Import ListNotations.
Open Scope nat_scope.
Open Scope list_scope.

(** the virtual port objects of a program of calls: ReshapePort(new_shape, old_shape) (ports.py 305-322, 905-909),
    TransposePort(new_shape, axes) (356-392, 995-999), by the identity of the port *)
Definition remember (lim : nat) (st : graph * list (nat * vport)) (c : call) : graph * list (nat * vport) :=
  let (g, vs) := st in
  (fst (do_call lim g c),
   match c with
   | CDerive self o => match nth_error g self with
                       | Some sp => match derive1 (pshape sp) o with Some v => (List.length g, v) :: vs | None => vs end
                       | None => vs
                       end
   | _ => vs
   end).
Definition derived (lim : nat) (calls : list call) : list (nat * vport) := snd (fold_left (remember lim) calls ([], [])).
Fixpoint assoc {A} (k : nat) (l : list (nat * A)) : option A :=
  match l with [] => None | (j, x) :: r => if k =? j then Some x else assoc k r end.

(** ids of processes (AbstractProcess.id) and names of ports, by identity *)
Record naming := { pid : nat -> Z; pname : nat -> string }.
Definition key := (Z * string)%type.
Definition key_eqb (a b : key) : bool := Z.eqb (fst a) (fst b) && String.eqb (snd a) (snd b).
(** create_port_id 33-48; None: the port has no process (AttributeError) *)
Definition port_key (lim : nat) (g : graph) (N : naming) (a : nat) : option key :=
  match process_of lim g a with Some p => Some (pid N p, pname N a) | None => None end.

(** Python dictionaries with such keys: an entry keeps its place when it is assigned again *)
Fixpoint kget {A} (k : key) (l : list (key * A)) : option A :=
  match l with [] => None | (j, x) :: r => if key_eqb k j then Some x else kget k r end.
Fixpoint kset {A} (k : key) (x : A) (l : list (key * A)) : list (key * A) :=
  match l with
  | [] => [(k, x)]
  | (j, y) :: r => if key_eqb k j then (j, x) :: r else (j, y) :: kset k x r
  end.

(** isinstance(self, AbstractVirtualPort): append itself, 231-236 and 282-287 *)
Definition with_self (vp : nat -> option vport) (a : nat) (p : port) (r : key * list vport) : option (key * list vport) :=
  match cls p with
  | ConcatPort => None                                   (* NotImplementedError *)
  | ReshapePort | TransposePort => match vp a with Some v => Some (fst r, snd r ++ [v]) | None => None end
  | _ => Some r
  end.
(** get_incoming_virtual_ports 208-238: the id of the last source found, and the virtual ports of all branches *)
Fixpoint incoming_vports (fuel lim : nat) (g : graph) (N : naming) (vp : nat -> option vport) (a : nat) : option (key * list vport) :=
  match fuel with
  | 0 => None
  | S f =>
      match nth_error g a with
      | None => None
      | Some p =>
          match ins p with
          | [] => match port_key lim g N a with Some k => Some (k, []) | None => None end
          | l => match map_opt (incoming_vports f lim g N vp) l with
                 | Some (r :: rs) => with_self vp a p (fst (last rs r), List.concat (map snd (r :: rs)))
                 | _ => None
                 end
          end
      end
  end.
(** get_incoming_transform_funcs 187-206: no entry without virtual ports *)
Definition incoming_funcs (lim : nat) (g : graph) (N : naming) (vp : nat -> option vport) (a : nat) : option (list (key * list vport)) :=
  match nth_error g a with
  | None => None
  | Some p =>
      match map_opt (incoming_vports lim lim g N vp) (ins p) with
      | Some rs => Some (fold_left (fun d r => match snd r with [] => d | vs => kset (fst r) vs d end) rs [])
      | None => None
      end
  end.
(** get_outgoing_virtual_ports 259-289 *)
Fixpoint outgoing_vports (fuel lim : nat) (g : graph) (N : naming) (vp : nat -> option vport) (a : nat) : option (key * list vport) :=
  match fuel with
  | 0 => None
  | S f =>
      match nth_error g a with
      | None => None
      | Some p =>
          match outs p with
          | [] => match port_key lim g N a with Some k => Some (k, []) | None => None end
          | l => match map_opt (outgoing_vports f lim g N vp) l with
                 | Some (r :: rs) => with_self vp a p (fst (last rs r), List.concat (map snd (r :: rs)))
                 | _ => None
                 end
          end
      end
  end.
(** get_outgoing_transform_funcs 240-257: an entry for each connection *)
Definition outgoing_funcs (lim : nat) (g : graph) (N : naming) (vp : nat -> option vport) (a : nat) : option (list (key * list vport)) :=
  match nth_error g a with
  | None => None
  | Some p =>
      match map_opt (outgoing_vports lim lim g N vp) (outs p) with
      | Some rs => Some (fold_left (fun d r => kset (fst r) (snd r) d) rs [])
      | None => None
      end
  end.

(** ** Channel builders *)
Definition class_of (g : graph) (a : nat) : option pclass := match nth_error g a with Some p => Some (cls p) | None => None end.
Definition is_var_port (c : option pclass) : bool := match c with Some VarPort | Some ImplicitVarPort => true | _ => false end.
(** initializers are made for the ports of the processes only, not for virtual ports (pyproc_compiler.py 153-271); KeyError *)
Definition has_initializer (g : graph) (processes : list nat) (a : nat) : bool :=
  match nth_error g a with
  | Some p => negb (is_virtual (cls p)) && match proc p with Some q => memb q processes | None => false end
  | None => false
  end.
(** from_channel_map 54-181: one builder per entry, and one in the other direction for a VarPort *)
Definition channel_builders (lim : nat) (g : graph) (groups : list (list nat)) : option (list (nat * nat)) :=
  match channel_map lim g groups with
  | Some keys =>
      if forallb (fun sd => has_initializer g (List.concat groups) (snd sd)) keys
      then Some (flat_map (fun sd => sd :: (if is_var_port (class_of g (snd sd)) then [(snd sd, fst sd)] else [])) keys)
      else None
  | None => None
  end.

(** ** The runtime builds the channels and hands their ends to the builders of the processes *)
(** the two ends of a channel, channels by number *)
Inductive csp := CspSend (ch : nat) | CspRecv (ch : nat).
(** builder.csp_ports and builder._csp_port_map of each process, by name of the port *)
Record builders := { csp_ports : nat -> string -> list csp; csp_port_map : nat -> string -> list (key * nat) }.
Definition upd2 {A} (f : nat -> string -> A) (p : nat) (n : string) (x : A) : nat -> string -> A :=
  fun q m => if (q =? p) && String.eqb m n then x else f q m.
(** set_csp_ports 165-203 with one port *)
Definition set_csp_port (p : nat) (n : string) (c : csp) (B : builders) : builders :=
  {| csp_ports := upd2 (csp_ports B) p n (csp_ports B p n ++ [c]); csp_port_map := csp_port_map B |}.
(** add_csp_port_mapping 205-222 *)
Definition add_mapping (p : nat) (n : string) (k : key) (ch : nat) (B : builders) : builders :=
  {| csp_ports := csp_ports B; csp_port_map := upd2 (csp_port_map B) p n (kset k ch (csp_port_map B p n)) |}.
(** one pass of the loop of _build_channels 213-238 *)
Definition build_channel (g : graph) (N : naming) (B : builders) (ch : nat) (sd : nat * nat) : option builders :=
  match nth_error g (fst sd), nth_error g (snd sd) with
  | Some ps, Some pd =>
      match proc ps, proc pd with
      | Some p, Some q =>
          Some (add_mapping q (pname N (snd sd)) (pid N p, pname N (fst sd)) ch
                  (set_csp_port q (pname N (snd sd)) (CspRecv ch)
                     (set_csp_port p (pname N (fst sd)) (CspSend ch) B)))
      | _, _ => None
      end
  | _, _ => None
  end.
Fixpoint build_channels (g : graph) (N : naming) (B : builders) (ch : nat) (l : list (nat * nat)) : option builders :=
  match l with
  | [] => Some B
  | sd :: r => match build_channel g N B ch sd with Some B' => build_channels g N B' (S ch) r | None => None end
  end.
Definition no_builders : builders := {| csp_ports := fun _ _ => []; csp_port_map := fun _ _ => [] |}.
Definition wire (lim : nat) (g : graph) (N : naming) (groups : list (list nat)) : option builders :=
  match channel_builders lim g groups with Some l => build_channels g N no_builders 0 l | None => None end.

(** ** The ports of the process models *)
(** IdentityTransformer or VirtualPortTransformer: functions by channel *)
Inductive transformer := Identity | Virtual (fs : list (nat * list vport)).
(** VirtualPortTransformer.__init__ 125-150 and the choice in build 284-290: KeyError for a port without channels *)
Definition make_transformer (m : list (key * nat)) (funcs : list (key * list vport)) : option transformer :=
  match funcs with
  | [] => Some Identity
  | _ => match m with
         | [] => None
         | _ => Some (Virtual (map (fun kc => (snd kc, match kget (fst kc) funcs with Some vs => vs | None => [] end)) m))
         end
  end.
(** transform 152-205; None: an exception *)
Definition transform (f : vport -> nd -> option nd) (t : transformer) (ch : nat) (x : nd) : option nd :=
  match t with
  | Identity => Some x
  | Virtual fs => match assoc ch fs with Some vs => run_funcs (map f vs) x | None => None end
  end.
Record pyin := { in_csp : list csp; in_shape : list nat; in_tr : transformer }.
(** PyInPort, build 276-292 *)
Definition build_in (lim : nat) (g : graph) (N : naming) (vp : nat -> option vport) (B : builders) (d : nat) : option pyin :=
  match nth_error g d with
  | Some pd =>
      match proc pd, incoming_funcs lim g N vp d with
      | Some q, Some funcs =>
          match make_transformer (csp_port_map B q (pname N d)) funcs with
          | Some t => Some {| in_csp := csp_ports B q (pname N d); in_shape := pshape pd; in_tr := t |}
          | None => None
          end
      | _, _ => None
      end
  | None => None
  end.
(** PyRefPort and PyVarPort, build 309-385: the first two CSP ports *)
Record pyref := { r_send : option nat; r_recv : option nat; r_tr : transformer }.
Definition first_recv (l : list csp) : option nat :=
  match l with CspRecv i :: _ => Some i | CspSend _ :: CspRecv i :: _ => Some i | _ => None end.
Definition first_send (l : list csp) : option nat :=
  match l with CspSend i :: _ => Some i | CspRecv _ :: CspSend i :: _ => Some i | _ => None end.
Definition build_refport (lim : nat) (g : graph) (N : naming) (vp : nat -> option vport) (B : builders) (is_ref : bool) (a : nat) : option pyref :=
  match nth_error g a with
  | Some pa =>
      match proc pa, (if is_ref then outgoing_funcs lim g N vp a else incoming_funcs lim g N vp a) with
      | Some q, Some funcs =>
          match make_transformer (csp_port_map B q (pname N a)) funcs with
          | Some t => Some {| r_send := first_send (csp_ports B q (pname N a)); r_recv := first_recv (csp_ports B q (pname N a)); r_tr := t |}
          | None => None
          end
      | _, _ => None
      end
  | None => None
  end.

(** ** One round of messages *)
(** PyOutPortVectorDense.send: the value [x s] of each OutPort s goes to each of its channels *)
Definition out_ports (g : graph) (processes : list nat) : list nat :=
  flat_map (fun p => owned g p (fun c => pclass_eqb c OutPort)) processes.
Definition sends (g : graph) (N : naming) (B : builders) (processes : list nat) (x : nat -> nd) : list (nat * nd) :=
  flat_map (fun s => match nth_error g s with
                     | Some ps => match proc ps with
                                  | Some p => flat_map (fun c => match c with CspSend i => [(i, x s)] | CspRecv _ => [] end)
                                                       (csp_ports B p (pname N s))
                                  | None => []
                                  end
                     | None => []
                     end) (out_ports g processes).
(** np.zeros and + *)
Definition zeros (sh : list nat) : nd := mkNd sh (repeat 0%Z (prod sh)).
Definition plus (a b : nd) : option nd :=
  if list_eqb (shape a) (shape b) && (List.length (elems a) =? List.length (elems b))
  then Some (mkNd (shape a) (map (fun p => (fst p + snd p)%Z) (combine (elems a) (elems b)))) else None.
(** PyInPortVectorDense.recv 334-351; None: an exception, or no message (blocked for ever) *)
Fixpoint recv_loop (t : transformer) (msgs : list (nat * nd)) (l : list csp) (acc : nd) : option nd :=
  match l with
  | [] => Some acc
  | CspSend _ :: _ => None
  | CspRecv i :: r =>
      match assoc i msgs with
      | Some m => match transform fwd t i m with
                  | Some y => match plus acc y with Some acc' => recv_loop t msgs r acc' | None => None end
                  | None => None
                  end
      | None => None
      end
  end.
Definition recv (p : pyin) (msgs : list (nat * nd)) : option nd := recv_loop (in_tr p) msgs (in_csp p) (zeros (in_shape p)).
