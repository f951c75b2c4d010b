(** Model of saving and loading processes (utils/serialization.py), of the ids of processes and Vars across Python sessions
    (process.py 169-173, 533-567, variable.py 66, 197-231) and of what a compiled network does with the ids
    (compiler.py 770, 835-857, 871-890, runtimeservice_builder.py 79-127, runtime.py 516-600, runtime_service.py 89-150,
    model.py 109-146, py_builder.py 425). *)
From Coq Require Import List Arith ZArith Ascii String Bool.
Import ListNotations.
Open Scope nat_scope.

(** A process object: its id, the ids and values of its Vars (Var.init).  [o_epoch] and [o_orig] are ghosts: in which numbering
    period it was created and which creation (of all) it is or is a copy of.  Simplification: ports, sub processes and other
    attributes are not modelled (pickle copies them with the object). *)
Record obj := Obj { o_pid : nat; o_vars : list nat; o_data : list Z; o_epoch : nat; o_orig : nat }.
Inductive file := Saved (l : list obj) | Foreign.
(** [nextp], [nextv]: the counters of ProcessServer and VarServer (that the servers issue the numbers in order is C24) *)
Record world := World { nextp : nat; nextv : nat; epoch : nat; born : nat; live : list obj; files : string -> option file }.
Definition world0 : world := World 0 0 0 0 [] (fun _ => None).

(** what a user does *)
Inductive action :=
| New (values : list Z)                  (* create a process with that many Vars *)
| Assign (i k : nat) (z : Z)             (* change the k-th Var of object i *)
| ResetServers (p v : bool)              (* ProcessServer().reset_server(), VarServer().reset_server() *)
| Exit                                   (* end of the Python session, start of the next *)
| Save (l : list nat) (name : string)
| Put (name : string)                    (* somebody else writes a file *)
| LoadFile (name : string).

(** "if '.' not in filename: filename + '.pickle'" (serialization.py 73-75) *)
Fixpoint has_dot (s : string) : bool :=
  match s with EmptyString => false | String c r => Ascii.eqb c "."%char || has_dot r end.
Definition with_extension (name : string) : string := if has_dot name then name else (name ++ ".pickle")%string.

Definition write (fs : string -> option file) (name : string) (f : file) : string -> option file :=
  fun n => if String.eqb n name then Some f else fs n.

Fixpoint pick (l : list nat) (os : list obj) : option (list obj) :=
  match l with
  | [] => Some []
  | i :: r => match nth_error os i, pick r os with Some o, Some m => Some (o :: m) | _, _ => None end
  end.

Fixpoint put_nth {A} (l : list A) (k : nat) (x : A) : list A :=
  match l, k with
  | [], _ => []
  | _ :: r, 0 => x :: r
  | y :: r, S j => y :: put_nth r j x
  end.
Definition set_value (os : list obj) (i k : nat) (z : Z) : list obj :=
  match nth_error os i with
  | Some o => put_nth os i (Obj (o_pid o) (o_vars o) (put_nth (o_data o) k z) (o_epoch o) (o_orig o))
  | None => os
  end.

(** AbstractProcess.__init__ registers the process, each Var() registers itself *)
Definition create (w : world) (values : list Z) : world :=
  World (S (nextp w)) (nextv w + List.length values) (epoch w) (S (born w))
    (live w ++ [Obj (nextp w) (seq (nextv w) (List.length values)) values (epoch w) (born w)]) (files w).

(** the answer of load (serialization.py 109-130) *)
Inductive answer := Loaded (l : list obj) | NoSuchFile | Incompatible.
Definition load_answer (fs : string -> option file) (name : string) : answer :=
  match fs name with Some (Saved l) => Loaded l | Some Foreign => Incompatible | None => NoSuchFile end.

(** Unpickling creates copies without calling __init__: nothing is registered, the counters stay as they are. *)
Definition act (w : world) (a : action) : world :=
  match a with
  | New values => create w values
  | Assign i k z => World (nextp w) (nextv w) (epoch w) (born w) (set_value (live w) i k z) (files w)
  | ResetServers p v => World (if p then 0 else nextp w) (if v then 0 else nextv w) (S (epoch w)) (born w) (live w) (files w)
  | Exit => World 0 0 (S (epoch w)) (born w) [] (files w)
  | Save l name => match pick l (live w) with
                   | Some os => World (nextp w) (nextv w) (epoch w) (born w) (live w) (write (files w) (with_extension name) (Saved os))
                   | None => w
                   end
  | Put name => World (nextp w) (nextv w) (epoch w) (born w) (live w) (write (files w) name Foreign)
  | LoadFile name => match load_answer (files w) name with
                     | Loaded os => World (nextp w) (nextv w) (epoch w) (born w) (live w ++ os) (files w)
                     | _ => w
                     end
  end.
Definition life (h : list action) : world := fold_left act h world0.

(** ** A compiled network: the objects in the order of the compiler; one runtime service *)
(** a Python dictionary: a key keeps its place when its value is replaced *)
Fixpoint dict_put {A} (d : list (nat * A)) (k : nat) (v : A) : list (nat * A) :=
  match d with
  | [] => [(k, v)]
  | (j, w) :: r => if j =? k then (k, v) :: r else (j, w) :: dict_put r k v
  end.
Fixpoint dict_get {A} (d : list (nat * A)) (k : nat) : option A :=
  match d with [] => None | (j, w) :: r => if j =? k then Some w else dict_get r k end.
Fixpoint index_of (l : list nat) (k : nat) : option nat :=
  match l with [] => None | j :: r => if j =? k then Some 0 else option_map S (index_of r k) end.

Definition numbered (net : list obj) : list (nat * obj) := combine (seq 0 (List.length net)) net.
(** model_ids (compiler.py 770) *)
Definition model_ids (net : list obj) : list nat := map o_pid net.
(** the ports of the service: dictionaries keyed by the port name "service_to_process_<id>" (compiler.py 838-852,
    runtimeservice_builder.py 87-91), then the lists of their values (121-127) *)
Definition service_ports (net : list obj) : list (nat * nat) :=
  fold_left (fun d io => dict_put d (o_pid (snd io)) (fst io)) (numbered net) [].
(** var_models of the node: var id -> VarModel (with its process id), updated process by process (compiler.py 871-890) *)
Definition var_models (net : list obj) : list (nat * nat) :=
  fold_left (fun d o => fold_left (fun d v => dict_put d v (o_pid o)) (o_vars o) d) net [].
(** Where Var.get / Var.set with this var id ends up: (position of the process in the network, number of the Var there).
    [None]: an exception (unknown var id, port index out of range, or the process model does not know the var id). *)
Definition route (net : list obj) (vid : nat) : option (nat * nat) :=
  match dict_get (var_models net) vid with
  | None => None
  | Some pid =>
      match index_of (model_ids net) pid with
      | None => None
      | Some idx =>
          match nth_error (service_ports net) idx with
          | None => None
          | Some (_, p) =>
              match nth_error net p with
              | None => None
              | Some o => match index_of (o_vars o) vid with Some k => Some (p, k) | None => None end
              end
          end
      end
  end.
(** the processes that get commands (run, pause, stop, get, set) from the service *)
Definition commanded (net : list obj) (p : nat) : Prop := In p (map snd (service_ports net)).
