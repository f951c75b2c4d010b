(** Model of when RefPort accesses are served: the phases of the Loihi protocol (runtime_service.py 191-214, 291-385), the command
    loop of the process models and their VarPorts (model.py 193-232, 330-511, ports.py 650-742, 866-925), with the delays of
    the channels (pypychannel.py 120-130, 255-300).
    Values are integers here (they are only handed around).  The messages of one write (header, data) are taken as one; that
    they cannot be torn apart is C19.  pause/stop requested by processes, get/set from the host and errors are not modelled. *)
From Coq Require Import List Arith ZArith Bool.
Import ListNotations.

(** [Start]: before the first command (phase is SPK then, model.py 302, but nothing has been run) *)
Inductive phase := Start | Spk | Pre | Lrn | Post | Host.
(** a phase of a time step *)
Definition moment := (phase * nat)%type.

(** the user's code of a phase (run_spk, run_pre_mgmt, run_lrn, run_post_mgmt): any terminating sequence of accesses to own Vars
    and through RefPorts, depending on what was read *)
Inductive code :=
| Done
| GetOwn (v : nat) (k : Z -> code)
| PutOwn (v : nat) (x : Z) (k : code)
| ReadRef (r : nat) (k : Z -> code)
| WriteRef (r : nat) (x : Z) (k : code).

Inductive request := AskGet (m : moment) | AskSet (m : moment) (x : Z).
(** what a process model does: waits in select (model.py 230), runs user code, waits in RefPort.read for the reply (ports.py 717) *)
Inductive pstate := Poll | Running (c : code) | Waiting (r : nat) (k : Z -> code).

Record state := State {
  svc : moment;                    (* the phase the service has announced last *)
  cmds : nat -> list moment;       (* commands sent to a process and not taken yet *)
  answered : nat -> bool;          (* the process has answered the announced phase *)
  cur : nat -> moment;             (* the phase a process is in *)
  pst : nat -> pstate;
  vars : nat -> Z;
  fly : nat -> list request;       (* RefPort r: sent, not yet visible to probe() of the VarPort *)
  seen : nat -> list request;      (* visible *)
  reply : nat -> option Z }.       (* sent back by the VarPort *)

(** a network: [n] processes; RefPort r belongs to process [user r] and refers to Var [target r]; Var v belongs to process
    [home v]; [body p f t]: the code process p runs in phase f of step t (nothing if the guard is False, model.py 407-448);
    [cap]: the size of the channels; [init]: initial values *)
Record net := Net { n : nat; user : nat -> nat; target : nat -> nat; home : nat -> nat; body : nat -> phase -> nat -> code; cap : nat; init : nat -> Z }.
Definition owner (N : net) (r : nat) : nat := home N (target N r).

Definition upd {A} (f : nat -> A) (i : nat) (x : A) : nat -> A := fun j => if j =? i then x else f j.

(** the events of a run *)
Inductive label :=
| LNext (m : moment)
| LCmd (p : nat) (m : moment)             (* the process takes the command *)
| LOwn (p v : nat) (x : Z)                (* own code writes the Var *)
| LLook (p v : nat) (x : Z)               (* own code reads the Var *)
| LAsk (r : nat) (m : moment)             (* read() is called in m *)
| LWrite (r : nat) (m : moment) (x : Z)   (* write() is called in m *)
| LArrive (r : nat)
| LGet (r : nat) (m : moment) (x : Z)     (* the VarPort serves the read called in m *)
| LSet (r : nat) (m : moment) (x : Z)     (* the VarPort serves the write called in m *)
| LRet (r : nat) (m : moment) (x : Z)     (* read() returns; the process is in m *)
| LEnd (p : nat) (m : moment).            (* the code of the phase has ended *)

(** _next_phase (runtime_service.py 191-214): which phase follows depends on the answers (C09); after Pre every process asks for
    learning (model.py 419) *)
Inductive follows : phase -> phase -> Prop :=
| f_start : follows Start Spk
| f_pre : follows Spk Pre
| f_lrn1 : follows Spk Lrn
| f_lrn2 : follows Pre Lrn
| f_post1 : follows Spk Post
| f_post2 : follows Lrn Post
| f_spk1 : follows Spk Spk
| f_spk2 : follows Lrn Spk
| f_spk3 : follows Post Spk
| f_host1 : follows Spk Host
| f_host2 : follows Lrn Host
| f_host3 : follows Post Host
| f_run : follows Host Spk.
Definition step_of (f : phase) (t : nat) : nat := match f with Spk => S t | _ => t end.

(** add_ports_for_polling (model.py 493-511) *)
Definition polls (f : phase) : bool := match f with Pre | Post | Host => true | _ => false end.
(** the service does not wait for answers to the HOST command (runtime_service.py 353-358) *)
Definition needs_answer (f : phase) : bool := match f with Host => false | _ => true end.

(** select tries the VarPorts first (model.py 504-511, pypychannel.py 355-362): [strict] - no request is visible when the command is
    chosen.  As the ports are probed one after the other, a request may also become visible too late: [strict = false]. *)
Definition none_visible (N : net) (s : state) (p : nat) : Prop := forall r, owner N r = p -> seen s r = [].
Definition room (N : net) (s : state) (r : nat) : Prop := List.length (fly s r) + List.length (seen s r) < cap N.

Inductive step (strict : bool) (N : net) : state -> label -> state -> Prop :=
| s_next s f : follows (fst (svc s)) f -> (needs_answer (fst (svc s)) = true -> forall p, p < n N -> answered s p = true) ->
    let m := (f, step_of f (snd (svc s))) in
    step strict N s (LNext m)
      (State m (fun p => if p <? n N then cmds s p ++ [m] else cmds s p) (fun _ => false) (cur s) (pst s) (vars s) (fly s) (seen s) (reply s))
| s_cmd s p f t l : p < n N -> pst s p = Poll -> cmds s p = (f, t) :: l ->
    (strict = true -> polls (fst (cur s p)) = true -> none_visible N s p) ->
    step strict N s (LCmd p (f, t))
      (State (svc s) (upd (cmds s) p l) (answered s) (upd (cur s) p (f, t))
         (upd (pst s) p (match f with Host => Poll | _ => Running (body N p f t) end)) (vars s) (fly s) (seen s) (reply s))
| s_look s p v k : pst s p = Running (GetOwn v k) ->
    step strict N s (LLook p v (vars s v))
      (State (svc s) (cmds s) (answered s) (cur s) (upd (pst s) p (Running (k (vars s v)))) (vars s) (fly s) (seen s) (reply s))
| s_own s p v x k : pst s p = Running (PutOwn v x k) ->
    step strict N s (LOwn p v x)
      (State (svc s) (cmds s) (answered s) (cur s) (upd (pst s) p (Running k)) (upd (vars s) v x) (fly s) (seen s) (reply s))
| s_ask s p r k : pst s p = Running (ReadRef r k) -> room N s r ->
    step strict N s (LAsk r (cur s p))
      (State (svc s) (cmds s) (answered s) (cur s) (upd (pst s) p (Waiting r k)) (vars s) (upd (fly s) r (fly s r ++ [AskGet (cur s p)])) (seen s) (reply s))
| s_write s p r x k : pst s p = Running (WriteRef r x k) -> room N s r ->
    step strict N s (LWrite r (cur s p) x)
      (State (svc s) (cmds s) (answered s) (cur s) (upd (pst s) p (Running k)) (vars s) (upd (fly s) r (fly s r ++ [AskSet (cur s p) x])) (seen s) (reply s))
| s_arrive s r q l : fly s r = q :: l ->
    step strict N s (LArrive r)
      (State (svc s) (cmds s) (answered s) (cur s) (pst s) (vars s) (upd (fly s) r l) (upd (seen s) r (seen s r ++ [q])) (reply s))
| s_get s r m l : pst s (owner N r) = Poll -> polls (fst (cur s (owner N r))) = true -> seen s r = AskGet m :: l ->
    step strict N s (LGet r m (vars s (target N r)))
      (State (svc s) (cmds s) (answered s) (cur s) (pst s) (vars s) (fly s) (upd (seen s) r l) (upd (reply s) r (Some (vars s (target N r)))))
| s_set s r m x l : pst s (owner N r) = Poll -> polls (fst (cur s (owner N r))) = true -> seen s r = AskSet m x :: l ->
    step strict N s (LSet r m x)
      (State (svc s) (cmds s) (answered s) (cur s) (pst s) (upd (vars s) (target N r) x) (fly s) (upd (seen s) r l) (reply s))
| s_ret s p r k x : pst s p = Waiting r k -> reply s r = Some x ->
    step strict N s (LRet r (cur s p) x)
      (State (svc s) (cmds s) (answered s) (cur s) (upd (pst s) p (Running (k x))) (vars s) (fly s) (seen s) (upd (reply s) r None))
| s_end s p : pst s p = Running Done ->
    step strict N s (LEnd p (cur s p))
      (State (svc s) (cmds s) (upd (answered s) p true) (cur s) (upd (pst s) p Poll) (vars s) (fly s) (seen s) (reply s)).

(** the processes have been started and wait for the first command *)
Definition state0 (N : net) : state :=
  State (Start, 0) (fun _ => []) (fun _ => true) (fun _ => (Start, 0)) (fun _ => Poll) (init N) (fun _ => []) (fun _ => []) (fun _ => None).
(** executions: the events so far and the state reached *)
Inductive exec (strict : bool) (N : net) : list label -> state -> Prop :=
| e_0 : exec strict N [] (state0 N)
| e_S tr s l s' : exec strict N tr s -> step strict N s l s' -> exec strict N (tr ++ [l]) s'.
