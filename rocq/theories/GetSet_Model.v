(** Model of Var.get / Var.set: the client (Runtime.get_var/set_var), the runtime services that relay
    the request, and the process models that own the variables.  Three kinds of components of a
    [Kahn] network (bounded FIFO channels, any schedule).

    Simplifications: every message is one number (float64 holding an exactly represented integer, so
    dtype conversions are the identity); [idx] is not used; only the host phase is modelled, i.e. the
    services wait for commands and the processes wait for commands; LoihiSynapseVarModel (hardware)
    reshape order 'F' is not modelled. *)
From Coq Require Import List Arith ZArith Bool.
From Verif Require Import Base Kahn.
Import ListNotations.
Open Scope Z_scope.

(** mgmt_token_enums.py 44-53 and 60-73 *)
Definition STOP := -1.
Definition GET_DATA := -3.
Definition SET_DATA := -4.
Definition TERMINATED := -1.
Definition ERROR := -2.
Definition SET_COMPLETE := -6.

(** Values of the attributes of a process model, by the case distinction of
    _get_var/_set_var (model.py 109-201).
    [VArr data perm]: [data] are the elements in C order, [perm] lists, in the order in which
    np.nditer(var) with its default order 'K' visits the elements, their C-order positions
    (identity for a C-contiguous array).
    [VCsr es]: the stored entries (row, column, value), in the order of scipy's find.
    [VFloat]: anything else, e.g. a Python float. *)
Inductive value :=
| VInt (z : Z)
| VArr (data : list Z) (perm : list nat)
| VCsr (es : list (nat * nat * Z))
| VStr (chars : list Z)
| VFloat (z : Z).

(** What _get_var sends (model.py 116-140): [num_items; item; item; ...]; nothing for a float. *)
Definition get_items (v : value) : option (list Z) :=
  match v with
  | VInt z => Some [z]
  | VArr data _ => Some data
  | VCsr es => Some (map snd es)
  | VStr cs => Some cs
  | VFloat _ => None
  end.

(** How _set_var (model.py 142-197) takes the number of items and then stores the items. *)
Inductive pmode :=
| MInt                        (* recv; recv *)
| MArr (perm : list nat)      (* positions still to visit *)
| MCsr
| MStr.

(** State of a process model between channel operations.  [mem] is the list of
    (var id, value): var_id_to_var_map and the attributes. *)
Definition mem := list (Z * value).

Inductive pstate :=
| PIdle (m : mem)                                      (* model.py 217: cmd = recv() *)
| PGetId (m : mem)                                     (* 112: var_id *)
| PSending (l : list Z) (m : mem)                      (* 120-140 *)
| PSetId (m : mem)                                     (* 145 *)
| PSetN (vid : Z) (v : value) (m : mem)                (* 153/163/173/188: number of items *)
| PSetI (vid : Z) (v : value) (n : Z) (got : list Z) (m : mem)   (* items; [got] in order *)
| PDone (m : mem)                                      (* send SET_COMPLETE *)
| PFail (k : nat)                                      (* send ERROR k more times, then end *)
| PStop                                                (* send TERMINATED, then end *)
| PEnd
| POther (cmd : Z).                                    (* a phase command: not in this model *)

Fixpoint find_var (vid : Z) (m : mem) : option value :=
  match m with
  | [] => None
  | (i, v) :: r => if i =? vid then Some v else find_var vid r
  end.
Fixpoint put_var (vid : Z) (v : value) (m : mem) : mem :=
  match m with
  | [] => []
  | (i, w) :: r => if i =? vid then (i, v) :: r else (i, w) :: put_var vid v r
  end.

(** setting element [perm k] for the k-th item (model.py 164-170) *)
Fixpoint write_at (data : list Z) (perm : list nat) (xs : list Z) : list Z :=
  match perm, xs with
  | p :: ps, x :: r => write_at (upd data p x) ps r
  | _, _ => data
  end.

Definition is_ascii (c : Z) : bool := (0 <=? c) && (c <? 128).

(** csr_matrix((buffer, (dst, src)), shape) with dst, src = find(var), which skips entries whose
    current value is zero; raises when the lengths differ (model.py 180-182). *)
Definition nonzero (es : list (nat * nat * Z)) := filter (fun e => negb (snd e =? 0)) es.
Definition csr_store (es : list (nat * nat * Z)) (xs : list Z) : option value :=
  if (length xs =? length (nonzero es))%nat
  then Some (VCsr (combine (map fst (nonzero es)) xs)) else None.

(** How many items does the handler read, given the announced number? *)
Definition takes (v : value) (n : Z) : nat :=
  match v with
  | VInt _ => 1
  | VArr _ perm => if n <? 0 then length perm else Nat.min (Z.to_nat n) (length perm)
  | VCsr _ | VStr _ => Z.to_nat n
  | VFloat _ => 0
  end.

(** The value stored when the items [xs] have been read; None: an exception. *)
Definition store (v : value) (xs : list Z) : option value :=
  match v with
  | VInt _ => match xs with x :: _ => Some (VInt x) | [] => None end
  | VArr data perm => Some (VArr (write_at data perm xs) perm)
  | VCsr es => csr_store es xs
  | VStr _ => if forallb is_ascii xs then Some (VStr xs) else None
  | VFloat _ => None
  end.

(** after the last item: store and acknowledge *)
Definition pfinish (vid : Z) (v : value) (xs : list Z) (m : mem) : pstate :=
  match store v xs with
  | Some w => PDone (put_var vid w m)
  | None => PFail 1
  end.
Definition pitems (vid : Z) (v : value) (n : Z) (got : list Z) (m : mem) : pstate :=
  if (length got <? takes v n)%nat then PSetI vid v n got m else pfinish vid v got m.

(** AbstractPyProcessModel.run, _get_var, _set_var, _stop (model.py 96-102, 109-201, 217-243);
    [i] input channel (service_to_process), [o] output channel (process_to_service). *)
Definition pact (i o : nat) (s : pstate) : action Z pstate :=
  match s with
  | PIdle m => Rcv i (fun c =>
      if c =? GET_DATA then PGetId m
      else if c =? SET_DATA then PSetId m
      else if c =? STOP then PStop
      else if (1 <=? c) && (c <=? 5) then POther c
      else PFail 1)
  | PGetId m => Rcv i (fun vid =>
      match find_var vid m with
      | Some v => match get_items v with
                  | Some xs => PSending (Z.of_nat (length xs) :: xs) m
                  | None => PIdle m
                  end
      | None => PFail 1
      end)
  | PSending [] m => Tau (PIdle m)
  | PSending (x :: r) m => Snd o x (PSending r m)
  | PSetId m => Rcv i (fun vid =>
      match find_var vid m with
      | Some (VFloat _) => PFail 2
      | Some v => PSetN vid v m
      | None => PFail 1
      end)
  | PSetN vid v m => Rcv i (fun n => pitems vid v n [] m)
  | PSetI vid v n got m => Rcv i (fun x => pitems vid v n (got ++ [x]) m)
  | PDone m => Snd o SET_COMPLETE (PIdle m)
  | PFail (S k) => Snd o ERROR (PFail k)
  | PFail 0 => Tau PEnd
  | PStop => Snd o TERMINATED PEnd
  | PEnd => Halt
  | POther _ => Halt
  end.

(** Static configuration of a runtime service: its model ids and the positions of the processes
    (in the network) its ports lead to (runtime_service.py 50-65). *)
Record rscfg := { mids : list Z; mprocs : list nat }.

(** list.index *)
Fixpoint index (x : Z) (l : list Z) : option nat :=
  match l with
  | [] => None
  | y :: r => if y =? x then Some 0%nat else option_map S (index x r)
  end.

(** model id -> process: self.model_ids.index(model_id), self.service_to_process[idx] *)
Definition route (c : rscfg) (mid : Z) : option nat :=
  match index mid (mids c) with Some i => nth_error (mprocs c) i | None => None end.

Inductive sstate :=
| SIdle                                          (* runtime_service.py 306-307 *)
| SMid (cmd : Z)                                 (* 128/136: model_id *)
| SVid (cmd : Z) (g : nat)                       (* 130/138: var_id *)
| SFwd (cmd : Z) (g : nat) (l : list Z)          (* 119-125: requests still to forward *)
| SGetN (g : nat)                                (* 98 *)
| SGetS (g : nat) (k : nat) (x : Z)              (* relay x, then k more items *)
| SGetR (g : nat) (k : nat)
| SSetN (g : nat)                                (* 112 *)
| SSetS (g : nat) (k : nat) (x : Z)
| SSetR (g : nat) (k : nat)
| SRsp (g : nat)                                 (* 117 *)
| SRspS (x : Z)                                  (* 142 *)
| SCrash                                         (* ValueError / IndexError *)
| SOther (cmd : Z).                              (* run, pause, stop: not in this model *)

(** PyRuntimeService._handle_get_set and the relays (runtime_service.py 92-146).
    [ri ro]: channels from/to the runtime; [pi po]: channels to/from a process. *)
Definition sact (ri ro : nat) (po pi : nat -> nat) (c : rscfg) (s : sstate) : action Z sstate :=
  match s with
  | SIdle => Rcv ri (fun cmd => if (cmd =? GET_DATA) || (cmd =? SET_DATA) then SMid cmd else SOther cmd)
  | SMid cmd => Rcv ri (fun mid => match route c mid with Some g => SVid cmd g | None => SCrash end)
  | SVid cmd g => Rcv ri (fun vid => SFwd cmd g [cmd; vid])
  | SFwd cmd g (x :: r) => Snd (po g) x (SFwd cmd g r)
  | SFwd cmd g [] => Tau (if cmd =? GET_DATA then SGetN g else SSetN g)
  | SGetN g => Rcv (pi g) (fun n => SGetS g (Z.to_nat n) n)
  | SGetS g k x => Snd ro x (SGetR g k)
  | SGetR g 0 => Tau SIdle
  | SGetR g (S k) => Rcv (pi g) (fun x => SGetS g k x)
  | SSetN g => Rcv ri (fun n => SSetS g (Z.to_nat n) n)
  | SSetS g k x => Snd (po g) x (SSetR g k)
  | SSetR g 0 => Tau (SRsp g)
  | SSetR g (S k) => Rcv ri (fun x => SSetS g k x)
  | SRsp g => Rcv (pi g) (fun x => SRspS x)
  | SRspS x => Snd ro x SIdle
  | SCrash => Halt
  | SOther _ => Halt
  end.

(** The client: a user program that issues get/set requests one after the other. *)
Inductive req := RGet (vid : Z) | RSet (vid : Z) (xs : list Z).
Inductive result := GotArray (xs : list Z) | SetOk.

(** var_models: var id -> runtime service, process (model) id, number of elements prod(shape) *)
Record varmodel := { v_srv : nat; v_mid : Z; v_size : nat }.
Definition vtable := Z -> option varmodel.

Inductive cstate :=
| CNext (rs : list req) (res : list result)
| CSend (k : nat) (l : list Z) (then_ : option nat) (rs : list req) (res : list result)
     (* still to send on channel of service k; then_: Some size for get, None for set *)
| CNum (k : nat) (size : nat) (rs : list req) (res : list result)
| CItem (k : nat) (size : nat) (n : nat) (got : list Z) (rs : list req) (res : list result)
| CAck (k : nat) (rs : list req) (res : list result)
| CEnd (res : list result)
| CFail (res : list result).                     (* an exception is raised in the user program *)

(** buffer = np.zeros(size); buffer[i] = item *)
Definition pad (size : nat) (xs : list Z) : list Z := xs ++ repeat 0 (size - length xs).

Definition cgot (k size n : nat) (got : list Z) (rs : list req) (res : list result) : cstate :=
  if (length got <? n)%nat then CItem k size n got rs res
  else CNext rs (res ++ [GotArray (pad size got)]).

(** Runtime.set_var (runtime.py 516-571) and get_var (573-627); an unknown variable stops the
    runtime and raises.  [out k]/[inp k]: channels to/from runtime service k. *)
Definition cact (out inp : nat -> nat) (T : vtable) (s : cstate) : action Z cstate :=
  match s with
  | CNext [] res => Tau (CEnd res)
  | CNext (RGet vid :: rs) res => Tau
      match T vid with
      | Some v => CSend (v_srv v) [GET_DATA; v_mid v; vid] (Some (v_size v)) rs res
      | None => CFail res
      end
  | CNext (RSet vid xs :: rs) res => Tau
      match T vid with
      | Some v => CSend (v_srv v) ([SET_DATA; v_mid v; vid; Z.of_nat (length xs)] ++ xs) None rs res
      | None => CFail res
      end
  | CSend k (x :: l) t rs res => Snd (out k) x (CSend k l t rs res)
  | CSend k [] (Some size) rs res => Tau (CNum k size rs res)
  | CSend k [] None rs res => Tau (CAck k rs res)
  | CNum k size rs res => Rcv (inp k) (fun n => cgot k size (Z.to_nat n) [] rs res)
  | CItem k size n got rs res => Rcv (inp k) (fun x =>
      if (length got <? size)%nat then cgot k size n (got ++ [x]) rs res
      else CFail res)                              (* IndexError *)
  | CAck k rs res => Rcv (inp k) (fun r => if r =? SET_COMPLETE then CNext rs (res ++ [SetOk]) else CFail res)
  | CEnd _ => Halt
  | CFail _ => Halt
  end.

(** The whole network: component 0 is the client, 1..K the services, K+1.. the processes. *)
Inductive comp := Cl (s : cstate) | Sv (s : sstate) | Pr (s : pstate).

Section Net.
Variable K : nat.
Variable cfgs : nat -> rscfg.
Variable T : vtable.

Definition ch_rs (k : nat) : nat := (2 * k)%nat.                (* runtime -> service k *)
Definition ch_sr (k : nat) : nat := (2 * k + 1)%nat.            (* service k -> runtime *)
Definition ch_sp (g : nat) : nat := (2 * K + 2 * g)%nat.        (* service -> process g *)
Definition ch_ps (g : nat) : nat := (2 * K + 2 * g + 1)%nat.    (* process g -> service *)

Definition amap {A B} (f : A -> B) (a : action Z A) : action Z B :=
  match a with
  | Snd c v s => Snd c v (f s)
  | Rcv c k => Rcv c (fun v => f (k v))
  | Tau s => Tau (f s)
  | Halt => Halt
  end.

Definition nact (i : nat) (s : comp) : action Z comp :=
  match s with
  | Cl s => amap Cl (cact ch_rs ch_sr T s)
  | Sv s => amap Sv (sact (ch_rs (i - 1)) (ch_sr (i - 1)) ch_sp ch_ps (cfgs (i - 1)) s)
  | Pr s => amap Pr (pact (ch_sp (i - 1 - K)) (ch_ps (i - 1 - K)) s)
  end.

(** The network at rest, the client about to run program [rs]. *)
Definition rest (rs : list req) (ms : list mem) : net Z comp :=
  mkNet (Cl (CNext rs []) :: repeat (Sv SIdle) K ++ map (fun m => Pr (PIdle m)) ms)
        (repeat [] (2 * K + 2 * length ms)).
(** The network at rest again, the client finished with results [res]. *)
Definition finished (res : list result) (ms : list mem) : net Z comp :=
  mkNet (Cl (CEnd res) :: repeat (Sv SIdle) K ++ map (fun m => Pr (PIdle m)) ms)
        (repeat [] (2 * K + 2 * length ms)).
End Net.
