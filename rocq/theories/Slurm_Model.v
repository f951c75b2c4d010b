(** Model of lava.utils.slurm and lava.utils.loihi: choosing the host a program will run on.
    /repo/src/lava/utils/slurm.py 1-239, /repo/src/lava/utils/loihi.py 1-123.
    The functions read the output of commands ([sinfo], [sinfo -N], [ping]) and keep their result in
    environment variables and in one module global.
    Simplifications: strings are sequences of 8-bit characters (no unicode white space), no
    string contains NUL; the text of a command is the one after the newline translation of
    [text=True]; no other thread writes os.environ during a call. *)
From Coq Require Import List String Ascii Bool Arith.
Import ListNotations.
Open Scope string_scope.

(** the exceptions the calls can raise *)
Inductive exn := ValueError | ImportError | IndexError | AttributeError | TypeError | FileNotFoundError.
Inductive res (A : Type) := Ok (a : A) | Raise (e : exn).
Arguments Ok {A} a.
Arguments Raise {A} e.

(** what happens when a command is run (subprocess.run with check=True, timeout=1, slurm.py 234-235):
    the program does not exist (FileNotFoundError, which is no SubprocessError), it fails or
    takes too long (CalledProcessError, TimeoutExpired: SubprocessErrors), or prints a text *)
Inductive outcome := NotFound | Failed | Printed (text : string).

(** the machine: the outcome of the n-th command run, and whether the module
    lava.utils.loihi2_profiler can be found after n commands (loihi.py 121) *)
Record machine := mkMachine { run_cmd : nat -> list string -> outcome; has_loihi : nat -> bool }.

(** os.environ *)
Definition env := string -> option string.
(** os.environ[k] = v *)
Definition env_set (e : env) (k v : string) : env := fun x => if String.eqb x k then Some v else e x.
(** os.environ.pop(k, None) *)
Definition env_pop (e : env) (k : string) : env := fun x => if String.eqb x k then None else e x.

(** os.environ, the global [host] of loihi.py 13, and the number of commands run so far *)
Record state := mkState { st_env : env; st_host : option string; st_time : nat }.
Definition with_env (s : state) (e : env) : state := mkState e (st_host s) (st_time s).
Definition with_host (s : state) (h : string) : state := mkState (st_env s) (Some h) (st_time s).

(** str.split("\n"), slurm.py 236 *)
Definition newline : ascii := ascii_of_nat 10.
Fixpoint split_newline (t : string) : list string :=
  match t with
  | EmptyString => [EmptyString]
  | String c t' =>
      if Ascii.eqb c newline then EmptyString :: split_newline t'
      else match split_newline t' with
           | w :: ws => String c w :: ws
           | [] => [String c EmptyString]
           end
  end.

(** ASCII white space of str.split(): tab, newline, vertical tab, form feed, return, 0x1c-0x1f, space *)
Definition is_space (c : ascii) : bool :=
  let n := nat_of_ascii c in
  (Nat.leb 9 n && Nat.leb n 13) || (Nat.leb 28 n && Nat.leb n 32).

(** str.split(): the maximal runs of non-white characters *)
Fixpoint split_fields (t : string) : list string :=
  match t with
  | EmptyString => []
  | String c t' =>
      if is_space c then split_fields t'
      else match t' with
           | EmptyString => [String c EmptyString]
           | String d _ =>
               if is_space d then String c EmptyString :: split_fields t'
               else match split_fields t' with
                    | w :: ws => String c w :: ws
                    | [] => [String c EmptyString]
                    end
           end
  end.

(** Python's [sub in s] *)
Fixpoint is_in (sub s : string) : bool :=
  String.prefix sub s ||
  match s with EmptyString => false | String _ s' => is_in sub s' end.

(** slurm.py 218-239 *)
Definition try_run_command (m : machine) (cmd : list string) (s : state) : res (list string) * state :=
  let s' := mkState (st_env s) (st_host s) (S (st_time s)) in
  match run_cmd m (st_time s) cmd with
  | NotFound => (Raise FileNotFoundError, s')
  | Failed => (Ok [], s')
  | Printed text => (Ok (split_newline text), s')
  end.

(** slurm.py 12-16 *)
Definition is_available (m : machine) (s : state) : res bool * state :=
  match try_run_command m ["sinfo"] s with
  | (Raise e, s') => (Raise e, s')
  | (Ok [], s') => (Ok false, s')
  | (Ok (_ :: _), s') => (Ok true, s')
  end.

(** slurm.py 19-26 *)
Definition enable (m : machine) (s : state) : res unit * state :=
  match is_available m s with
  | (Raise e, s') => (Raise e, s')
  | (Ok false, s') => (Raise ValueError, s')
  | (Ok true, s') => (Ok tt, with_env s' (env_pop (env_set (st_env s') "SLURM" "1") "NOSLURM"))
  end.

(** slurm.py 29-32 *)
Definition disable (s : state) : state :=
  with_env s (env_set (env_pop (st_env s) "SLURM") "NOSLURM" "1").

(** slurm.py 156-163 and 211-215 *)
Record partition_info := mkPartition
  { p_name : string; p_available : string; p_timelimit : string; p_nodes : string; p_state : string; p_nodelist : string }.
Record board_info := mkBoard { b_nodename : string; b_partition : string; b_state : string }.

(** [f(line) for line in lines]: the first exception ends it *)
Fixpoint parse_all {A} (f : string -> res A) (lines : list string) : res (list A) :=
  match lines with
  | [] => Ok []
  | l :: ls =>
      match f l with
      | Raise e => Raise e
      | Ok a => match parse_all f ls with Raise e => Raise e | Ok r => Ok (a :: r) end
      end
  end.

(** slurm.py 119-132; [nth i fields ""] is [fields[i] if len(fields) > i else ''] *)
Definition parse_partition (line : string) : res partition_info :=
  let fields := split_fields line in
  match fields with
  | [] => Raise IndexError
  | name :: _ =>
      Ok (mkPartition name (nth 1 fields "") (nth 2 fields "") (nth 3 fields "") (nth 4 fields "") (nth 5 fields ""))
  end.

(** slurm.py 181-186 *)
Definition parse_board (line : string) : res board_info :=
  let fields := split_fields line in
  match nth_error fields 0, nth_error fields 2, nth_error fields 3 with
  | Some n, Some p, Some st => Ok (mkBoard n p st)
  | _, _, _ => Raise IndexError
  end.

(** the common shape of slurm.py 113-133 and 175-188: ask twice, drop the header, parse *)
Definition get_table {A} (m : machine) (cmd : list string) (parse : string -> res A) (s : state) : res (list A) * state :=
  match is_available m s with
  | (Raise e, s1) => (Raise e, s1)
  | (Ok false, s1) => (Ok [], s1)
  | (Ok true, s1) =>
      match try_run_command m cmd s1 with
      | (Raise e, s2) => (Raise e, s2)
      | (Ok [], s2) => (Raise IndexError, s2)            (* del lines[0] *)
      | (Ok (_ :: lines), s2) => (parse_all parse lines, s2)
      end
  end.

(** slurm.py 104-133 *)
Definition get_partitions (m : machine) (s : state) : res (list partition_info) * state :=
  get_table m ["sinfo"] parse_partition s.

(** slurm.py 166-188 *)
Definition get_boards (m : machine) (s : state) : res (list board_info) * state :=
  get_table m ["sinfo"; "-N"] parse_board s.

(** slurm.py 136-153 *)
Definition get_partition_info (m : machine) (name : string) (s : state) : res (option partition_info) * state :=
  match get_partitions m s with
  | (Raise e, s') => (Raise e, s')
  | (Ok ps, s') => (Ok (hd_error (filter (fun p => String.eqb (p_name p) name) ps)), s')
  end.

(** slurm.py 191-208 *)
Definition get_board_info (m : machine) (name : string) (s : state) : res (option board_info) * state :=
  match get_boards m s with
  | (Raise e, s') => (Raise e, s')
  | (Ok bs, s') => (Ok (hd_error (filter (fun b => String.eqb (b_nodename b) name) bs)), s')
  end.

(** slurm.py 63: [partition and partition != board_info.partition] *)
Definition other_partition (partition : option string) (p : string) : bool :=
  match partition with
  | None => false
  | Some q => negb (String.eqb q "") && negb (String.eqb q p)
  end.

(** slurm.py 35-69 *)
Definition set_board (m : machine) (board partition : option string) (s : state) : res unit * state :=
  match board with
  | None => (Ok tt, with_env s (env_pop (st_env s) "BOARD"))
  | Some b =>
      match get_board_info m b s with
      | (Raise e, s') => (Raise e, s')
      | (Ok None, s') => (Raise ValueError, s')
      | (Ok (Some i), s') =>
          if is_in "down" (b_state i) then (Raise ValueError, s')
          else if other_partition partition (b_partition i) then (Raise ValueError, s')
          else (Ok tt, with_env s' (env_set (st_env s') "BOARD" b))
      end
  end.

(** slurm.py 72-93 *)
Definition set_partition (m : machine) (partition : option string) (s : state) : res unit * state :=
  match partition with
  | None => (Ok tt, with_env s (env_pop (st_env s) "PARTITION"))
  | Some p =>
      match get_partition_info m p s with
      | (Raise e, s') => (Raise e, s')
      | (Ok None, s') => (Raise ValueError, s')
      | (Ok (Some i), s') =>
          if is_in "down" (p_state i) then (Raise ValueError, s')
          else (Ok tt, with_env s' (env_set (st_env s') "PARTITION" p))
      end
  end.

(** slurm.py 96-101 *)
Definition partition (s : state) : string :=
  match st_env s "PARTITION" with Some p => p | None => "Unspecified" end.

(** loihi.py 16-22, the values of the members *)
Inductive chip := N2A2 | N3B2 | N3B3 | N3C1 | N3D1.
Definition chip_value (c : chip) : string :=
  match c with N2A2 => "N2A2" | N3B2 => "N3B2" | N3B3 => "N3B3" | N3C1 => "N3C1" | N3D1 => "N3D1" end.

(** loihi.py 108-123 *)
Definition is_installed (m : machine) (s : state) : bool := has_loihi m (st_time s).

(** loihi.py 25-60; loihi_gen may be None ([None.value] is an AttributeError) *)
Definition use_slurm_host (m : machine) (part board : option string) (gen : option chip) (s : state) : res unit * state :=
  if negb (is_installed m s) then (Raise ImportError, s) else
  match enable m s with
  | (Raise e, s1) => (Raise e, s1)
  | (Ok _, s1) =>
      match gen with
      | None => (Raise AttributeError, s1)
      | Some g =>
          let s2 := with_env s1 (env_set (st_env s1) "LOIHI_GEN" (chip_value g)) in
          match set_board m board part s2 with
          | (Raise e, s3) => (Raise e, s3)
          | (Ok _, s3) =>
              match set_partition m part s3 with
              | (Raise e, s4) => (Raise e, s4)
              | (Ok _, s4) => (Ok tt, with_host s4 "SLURM")
              end
          end
      end
  end.

(** loihi.py 63-105; host_binary_path may be None (os.environ takes only strings: TypeError) *)
Definition use_ethernet_host (m : machine) (addr : string) (binary : option string) (gen : option chip) (s : state) : res unit * state :=
  if negb (is_installed m s) then (Raise ImportError, s) else
  match try_run_command m ["ping"; addr; "-c 1"] s with
  | (Raise e, s1) => (Raise e, s1)
  | (Ok [], s1) => (Raise ValueError, s1)
  | (Ok (_ :: _), s1) =>
      let s2 := disable s1 in
      let s3 := with_env s2 (env_set (st_env s2) "NXSDKHOST" addr) in
      match binary with
      | None => (Raise TypeError, s3)
      | Some b =>
          let s4 := with_env s3 (env_set (st_env s3) "HOST_BINARY" b) in
          match gen with
          | None => (Raise AttributeError, s4)
          | Some g => (Ok tt, with_host (with_env s4 (env_set (st_env s4) "LOIHI_GEN" (chip_value g))) "ETHERNET")
          end
      end
  end.

(** the calls that may change something, for histories *)
Inductive call :=
| CEnable | CDisable
| CSetBoard (board partition : option string)
| CSetPartition (partition : option string)
| CAvailable | CPartitions | CBoards | CPartitionInfo (name : string) | CBoardInfo (name : string)
| CSlurmHost (partition board : option string) (gen : option chip)
| CEthernetHost (addr : string) (binary : option string) (gen : option chip).

Definition drop {A} (r : res A * state) : res unit * state :=
  (match fst r with Ok _ => Ok tt | Raise e => Raise e end, snd r).

Definition exec (m : machine) (c : call) (s : state) : res unit * state :=
  match c with
  | CEnable => enable m s
  | CDisable => (Ok tt, disable s)
  | CSetBoard b p => set_board m b p s
  | CSetPartition p => set_partition m p s
  | CAvailable => drop (is_available m s)
  | CPartitions => drop (get_partitions m s)
  | CBoards => drop (get_boards m s)
  | CPartitionInfo n => drop (get_partition_info m n s)
  | CBoardInfo n => drop (get_board_info m n s)
  | CSlurmHost p b g => use_slurm_host m p b g s
  | CEthernetHost a b g => use_ethernet_host m a b g s
  end.

(** a history of calls, with what each returned *)
Fixpoint history (m : machine) (cs : list call) (s : state) : list (call * res unit) * state :=
  match cs with
  | [] => ([], s)
  | c :: cs' =>
      let '(r, s1) := exec m c s in
      let '(rs, s2) := history m cs' s1 in
      ((c, r) :: rs, s2)
  end.
