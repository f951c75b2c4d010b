(** Model of the Monitor process (/repo/src/lava/proc/monitor/process.py, models.py) and of probing a network
    with it, as processes of Exec_Model. *)
From Coq Require Import List Arith ZArith Bool.
From Verif Require Import PyPorts_Model Exec_Model.
Import ListNotations.

(** *** The process model.  out_read_0 / var_read_0: an array of num_steps rows; None: the process died with an
    IndexError (models.py 46-47, 60-61: [self.time_step - 1, ...] out of range). *)
Record mon := mkMon { m_step : nat; m_rows : list vec }.       (* steps done; data *)

Fixpoint set_row (k : nat) (x : vec) (l : list vec) : list vec :=
  match l, k with
  | [], _ => []
  | _ :: r, O => x :: r
  | y :: r, S j => y :: set_row j x r
  end.
(** models.py 58-61 (an OutPort) and 43-47 (a Var), in time step m_step + 1 *)
Definition record (m : mon) (x : vec) : option mon :=
  if m_step m <? length (m_rows m) then Some (mkMon (S (m_step m)) (set_row (m_step m) x (m_rows m))) else None.

(** probe(): Var(shape=(num_steps,) + target.shape, init=0), process.py 142-148 *)
Definition fresh_mon (num_steps size : nat) : mon := mkMon 0 (repeat (repeat 0%Z size) num_steps).

(** *** Probing a network.  The variables of a process of the extended network: those of a process of the
    network, or a monitor. *)
Definition ext (St : Type) : Type := St + option mon.

(** a monitor: one InPort, recv in every spiking phase *)
Definition mon_proc {St} (size : nat) : pmodel (ext St) :=
  mkModel [] (fun _ => []) [size] []
    (fun s xs => match s, xs with
                 | inr (Some m), [x] => (inr (record m x), [])
                 | _, _ => (s, [])
                 end).

(** a process of the network in the extended network *)
Definition lift {St} (m : pmodel St) : pmodel (ext St) :=
  mkModel (early m) (fun s => match s with inl s => early_vals m s | inr _ => map (fun _ => []) (early m) end)
          (ins m) (late m)
          (fun s xs => match s with
                       | inl s => let (s', vs) := body m s xs in (inl s', vs)
                       | inr _ => (s, map (fun _ => []) (late m))
                       end).

(** connect_var(target), process.py 170: the monitored Var is read through a RefPort in the post management
    phase of every step, after run_spk of all processes of the domain (C08, C19).  Modelled as a further value
    that the target hands over at the end of its step, under the port number [q]. *)
Definition expose {St} (q : nat) (var : St -> vec) (m : pmodel St) : pmodel St :=
  mkModel (early m) (early_vals m) (ins m) (late m ++ [q])
          (fun s xs => let (s', vs) := body m s xs in (s', vs ++ [var s'])).

(** A probed port: (process, port, size, num_steps). *)
Record probe := mkProbe { p_proc : nat; p_port : nat; p_size : nat; p_steps : nat }.
Definition mon_wires (base : nat) (ps : list probe) : list wire :=
  map (fun jp => mkWire (p_proc (snd jp), p_port (snd jp)) (base + fst jp, 0) []) (combine (seq 0 (length ps)) ps).
Definition probed {St} (models : list (pmodel St)) (ps : list probe) : list (pmodel (ext St)) :=
  map lift models ++ map (fun p => mon_proc (p_size p)) ps.
Definition probed_wires {St} (models : list (pmodel St)) (wires : list wire) (ps : list probe) : list wire :=
  wires ++ mon_wires (length models) ps.

(** *** probe() on the process: which members exist, and which of them the recordings use *)
Inductive mem := RefPortN (k : nat) | VarReadN (k : nat) | InPortN (k : nat) | OutReadN (k : nat).
Record monitor := mkMonitor {
  members : list mem;                     (* ports and Vars of the process *)
  n_ref : nat; n_in : nat;
  lref : list mem; lv1 : list mem; lin : list mem; lv2 : list mem }.
(** __init__ and post_init, process.py 54-110 *)
Definition new_monitor : monitor := mkMonitor [RefPortN 0; VarReadN 0; InPortN 0; OutReadN 0] 0 0 [] [] [] [].
Inductive target := TVar | TOut | TOther.
(** probe(), process.py 112-212; the lists are extended by self.new_..._name, the names made in post_init
    (151-157).  false: TypeError. *)
Definition do_probe (m : monitor) (t : target) : monitor * bool :=
  let ms := RefPortN (n_ref m) :: VarReadN (n_ref m) :: InPortN (n_in m) :: OutReadN (n_in m) :: members m in
  let m' a b := mkMonitor ms a b (lref m ++ [RefPortN 0]) (lv1 m ++ [VarReadN 0]) (lin m ++ [InPortN 0]) (lv2 m ++ [OutReadN 0]) in
  match t with
  | TVar => (m' (S (n_ref m)) (n_in m), true)
  | TOut => (m' (n_ref m) (S (n_in m)), true)
  | TOther => (m' (n_ref m) (n_in m), false)
  end.
Definition probes (ts : list target) : monitor := fold_left (fun m t => fst (do_probe m t)) ts new_monitor.

(** PyMonitorModel declares ref_port_0, var_read_0, in_port_0, out_read_0 (models.py 23-30); every member of
    the process needs a declaration in the model (py_builder.py 241-242: getattr fails otherwise). *)
Definition declared (x : mem) : bool :=
  match x with RefPortN k | VarReadN k | InPortN k | OutReadN k => k =? 0 end.
Definition builds (m : monitor) : bool := forallb declared (members m).
(** what run_post_mgmt and run_spk record: for i in range(n): port lref[i] into lv1[i] *)
Definition recorded (m : monitor) : list (mem * mem) :=
  firstn (n_ref m) (combine (lref m) (lv1 m)) ++ firstn (n_in m) (combine (lin m) (lv2 m)).
