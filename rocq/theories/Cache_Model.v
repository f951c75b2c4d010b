(** Model of compiling with a cache: compile_config = {"cache": True, "cache_dir": dir}.
    /repo/src/lava/magma/compiler/compiler.py compile 108-195, _compile_proc_groups 197-305, _assign_nodecfg_rtservice_to_var_models
    854-889, model_ids 770; compiler/channel_map.py from_proc_groups 69-98, write_to_cache 142-187, read_from_cache 189-222;
    compiler/subcompilers/py/pyproc_compiler.py _create_builder_for_process 118-153 and the initializers of ports;
    compiler/subcompilers/channel_builders_factory.py from_channel_map 54-181 (initializers are looked up by port);
    runtime/runtime.py _get_process_builder_for_process 204-207, _build_channels 209-238, _build_sync_channels 256-294,
    get_var 573-627; runtime/runtime_services/runtime_service.py _send_pm_req_given_model_id 120-125;
    compiler/builders/py_builder.py build 273-427; core/model/py/model.py _get_var 109-113.
    Simplifications: Python process models only; one runtime service (sync domain); an initial value is a list of numbers, already
    of the shape of its Var (C89 is about the conversion); connections are those from OutPorts to InPorts, given as the keys of
    the channel map (C81); the transformation functions of a port are those that C99's get_incoming_transform_funcs returns; the
    multiplicity and tiling of a channel, and the allocation of Loihi resources, are not modelled (no effect on Python
    processes); pickling gives back an equal object, or fails. *)
From Coq Require Import List Arith ZArith Bool String.
From Verif Require Import VPorts_Model Wire_Model.
Import ListNotations.
Open Scope nat_scope.
Open Scope list_scope.

(** ** Programs: the processes found by the compiler, in order, and the channels between their ports *)
Record cvar := { v_name : string; v_shape : list nat; v_init : list Z; v_id : Z }.
Record cport := { p_name : string; p_shape : list nat; p_funcs : list (key * list vport) }.
Record cproc := { c_name : string; c_id : Z; c_model : nat; c_params : nat; c_vars : list cvar; c_ports : list cport }.
(** a port: the position of its process in the program, and its name *)
Definition portref := (nat * string)%type.
Record program := { procs : list cproc; conns : list (portref * portref) }.
Definition portref_eqb (a b : portref) : bool := (fst a =? fst b) && String.eqb (snd a) (snd b).

(** ** Builders *)
Record var_init := { vi_name : string; vi_shape : list nat; vi_value : list Z; vi_id : Z }.    (* utils.py 18-23 *)
Record port_init := { pi_name : string; pi_shape : list nat; pi_funcs : list (key * list vport) }. (* utils.py 26-33 *)
Record var_model := { vm_proc_id : Z; vm_shape : list nat }.                                    (* var_model.py 60-74 *)
Record builder := { b_model : nat; b_model_id : Z; b_params : option nat; b_vars : list var_init; b_ports : list port_init;
                    b_var_models : list (Z * var_model) }.
Definition with_params (x : option nat) (b : builder) : builder :=
  {| b_model := b_model b; b_model_id := b_model_id b; b_params := x; b_vars := b_vars b; b_ports := b_ports b;
     b_var_models := b_var_models b |}.
Definition make_var_init (v : cvar) : var_init := {| vi_name := v_name v; vi_shape := v_shape v; vi_value := v_init v; vi_id := v_id v |}.
Definition make_port_init (q : cport) : port_init := {| pi_name := p_name q; pi_shape := p_shape q; pi_funcs := p_funcs q |}.
(** _create_builder_for_process 118-153 *)
Definition make_builder (p : cproc) : builder :=
  {| b_model := c_model p; b_model_id := c_id p; b_params := Some (c_params p); b_vars := map make_var_init (c_vars p);
     b_ports := map make_port_init (c_ports p);
     b_var_models := map (fun v => (v_id v, {| vm_proc_id := c_id p; vm_shape := v_shape v |})) (c_vars p) |}.

(** ** Executable: builders by process, initializers by port, channels, and the ids the runtime service knows its processes by *)
Record executable := { e_builders : list (nat * builder); e_inits : list (portref * port_init);
                       e_conns : list (portref * portref); e_ids : list Z }.
Fixpoint indexed {A} (i : nat) (l : list A) : list (nat * A) :=
  match l with [] => [] | x :: r => (i, x) :: indexed (S i) r end.
(** _extract_proc_builders, set_port_initializer *)
Definition fresh_builders (P : program) : list (nat * builder) := map (fun ip => (fst ip, make_builder (snd ip))) (indexed 0 (procs P)).
Definition fresh_inits (P : program) : list (portref * port_init) :=
  flat_map (fun ip => map (fun q => ((fst ip, p_name q), make_port_init q)) (c_ports (snd ip))) (indexed 0 (procs P)).
Fixpoint init_of (a : portref) (l : list (portref * port_init)) : option port_init :=
  match l with [] => None | (b, x) :: r => if portref_eqb a b then Some x else init_of a r end.
(** compile 136-195: the channels and ids come from the program at hand; from_channel_map needs an initializer for each port *)
Definition package (P : program) (bs : list (nat * builder)) (inits : list (portref * port_init)) : option executable :=
  if forallb (fun sd => match init_of (fst sd) inits, init_of (snd sd) inits with Some _, Some _ => true | _, _ => false end) (conns P)
  then Some {| e_builders := bs; e_inits := inits; e_conns := conns P; e_ids := map c_id (procs P) |}
  else None.
Definition compile_fresh (P : program) : option executable := package P (fresh_builders P) (fresh_inits P).

(** ** The cache file *)
Record cache := { k_builders : list (string * builder); k_inits : list ((string * string) * port_init);
                  k_conns : list ((string * string) * (string * string)) }.
Inductive disk := NoFile | Broken | Stored (c : cache).
(** "Process_" in name *)
Fixpoint contains (s t : string) : bool :=
  prefix s t || match t with EmptyString => false | String _ r => contains s r end.
Fixpoint smemb (s : string) (l : list string) : bool := match l with [] => false | x :: r => String.eqb s x || smemb s r end.
Definition name_at (P : program) (i : nat) : string := match nth_error (procs P) i with Some p => c_name p | None => EmptyString end.
(** 282-295: the loop over the builders *)
Fixpoint name_builders (P : program) (seen : list string) (l : list (nat * builder)) : option (list (string * builder)) :=
  match l with
  | [] => Some []
  | (i, b) :: r =>
      let n := name_at P i in
      if smemb n seen || contains "Process_" n then None
      else match name_builders P (n :: seen) r with Some t => Some ((n, with_params None b) :: t) | None => None end
  end.
(** write_to_cache 142-187; proc_to_procname_map 226-229 *)
Definition starts_badly (n : string) : bool := prefix "Process_" n.
Definition write_to_cache (P : program) (inits : list (portref * port_init)) : option (list ((string * string) * port_init) * list ((string * string) * (string * string))) :=
  if existsb (fun x => starts_badly (name_at P (fst (fst x)))) inits
     || existsb (fun sd => starts_badly (name_at P (fst (fst sd))) || starts_badly (name_at P (fst (snd sd)))) (conns P)
  then None
  else Some (map (fun x => ((name_at P (fst (fst x)), snd (fst x)), snd x)) inits,
             map (fun sd => ((name_at P (fst (fst sd)), snd (fst sd)), (name_at P (fst (snd sd)), snd (snd sd)))) (conns P)).
Definition make_cache (P : program) : option cache :=
  match name_builders P [] (fresh_builders P) with
  | Some kb => match write_to_cache P (fresh_inits P) with
               | Some (ki, kc) => Some {| k_builders := kb; k_inits := ki; k_conns := kc |}
               | None => None
               end
  | None => None
  end.

(** procname_to_proc_map 225-229: the last process with the name *)
Fixpoint last_named (n : string) (i : nat) (l : list cproc) : option (nat * cproc) :=
  match l with
  | [] => None
  | p :: r => match last_named n (S i) r with
              | Some x => Some x
              | None => if String.eqb (c_name p) n then Some (i, p) else None
              end
  end.
Definition find_proc (P : program) (n : string) : option (nat * cproc) := last_named n 0 (procs P).
Fixpoint map_opt {A B} (f : A -> option B) (l : list A) : option (list B) :=
  match l with
  | [] => Some []
  | x :: r => match f x with Some y => match map_opt f r with Some t => Some (y :: t) | None => None end | None => None end
  end.
(** 238-247: KeyError if no process has the name; the parameters are those of the process at hand *)
Definition assign_builder (P : program) (nb : string * builder) : option (nat * builder) :=
  match find_proc P (fst nb) with Some (i, p) => Some (i, with_params (Some (c_params p)) (snd nb)) | None => None end.
(** getattr(process, port_name): AttributeError *)
Definition has_port (p : cproc) (n : string) : bool := existsb (fun q => String.eqb (p_name q) n) (c_ports p).
Definition locate (P : program) (a : string * string) : option portref :=
  match find_proc P (fst a) with Some (i, p) => if has_port p (snd a) then Some (i, snd a) else None | None => None end.
(** read_from_cache 189-222; the second loop only restores the payloads (None for Python processes), but looks all ports up *)
Definition read_init (P : program) (x : (string * string) * port_init) : option (portref * port_init) :=
  match locate P (fst x) with Some a => Some (a, snd x) | None => None end.
Definition compile_cached (c : cache) (P : program) : option executable :=
  match map_opt (assign_builder P) (k_builders c) with
  | Some bs =>
      match map_opt (read_init P) (k_inits c) with
      | Some inits =>
          if forallb (fun sd => match locate P (fst sd), locate P (snd sd) with Some _, Some _ => true | _, _ => false end) (k_conns c)
          then package P bs inits else None
      | None => None
      end
  | None => None
  end.
(** _compile_proc_groups 230-305.  [dump_ok]: pickle.dump ran to its end; false: it raised, or the program died, after
    open(.., "wb") had made the file *)
Definition compile (use_cache dump_ok : bool) (d : disk) (P : program) : disk * option executable :=
  if use_cache then
    match d with
    | Stored c => (d, compile_cached c P)
    | Broken => (d, None)                                   (* pickle.load: EOFError, UnpicklingError *)
    | NoFile => match make_cache P with
                | Some c => if dump_ok then (Stored c, compile_fresh P) else (Broken, None)
                | None => (NoFile, None)
                end
    end
  else (d, compile_fresh P).
(** a history of compilations with the same cache_dir *)
Definition compilation := (bool * bool * program)%type.
Definition history (d : disk) (l : list compilation) : disk :=
  fold_left (fun d c => fst (compile (fst (fst c)) (snd (fst c)) d (snd c))) l d.

(** ** Starting the executable *)
Record model := { m_class : nat; m_params : option nat; m_id : Z; m_attrs : list (string * list Z); m_ids : list (Z * string);
                  m_ports : list (string * transformer) }.
Fixpoint builder_of (i : nat) (l : list (nat * builder)) : option builder :=
  match l with [] => None | (j, b) :: r => if i =? j then Some b else builder_of i r end.
(** _csp_port_map of process q and port n: the keys are made of the ids at hand (runtime.py 231-236) *)
Fixpoint csp_map (ids : list Z) (ch : nat) (q : nat) (n : string) (l : list (portref * portref)) (m : list (key * nat)) : list (key * nat) :=
  match l with
  | [] => m
  | (s, d) :: r =>
      csp_map ids (S ch) q n r
        (if portref_eqb d (q, n) then kset (nth (fst s) ids 0%Z, snd s) ch m else m)
  end.
(** build 276-307: None: KeyError, AssertionError *)
Definition build_port (e : executable) (q : nat) (x : port_init) : option (string * transformer) :=
  match make_transformer (csp_map (e_ids e) 0 q (pi_name x) (e_conns e) []) (pi_funcs x) with
  | Some t => Some (pi_name x, t)
  | None => None
  end.
(** build 273-427; no builder: KeyError in _build_channels or _build_sync_channels *)
Definition build_model (e : executable) (q : nat) : option model :=
  match builder_of q (e_builders e) with
  | Some b =>
      match map_opt (build_port e q) (b_ports b) with
      | Some ts => Some {| m_class := b_model b; m_params := b_params b; m_id := b_model_id b;
                           m_attrs := rev (map (fun v => (vi_name v, vi_value v)) (b_vars b));
                           m_ids := rev (map (fun v => (vi_id v, vi_name v)) (b_vars b)); m_ports := ts |}
      | None => None
      end
  | None => None
  end.
Definition start (e : executable) : option (list model) := map_opt (build_model e) (seq 0 (List.length (e_ids e))).

(** ** Var.get() after the start *)
(** GAssert: the runtime stops and raises AssertionError; GHang: the service or the process model dies of an exception while the
    caller waits for the answer *)
Inductive answer := GVal (sh : list nat) (x : list Z) | GAssert | GHang.
Fixpoint zget {A} (k : Z) (l : list (Z * A)) : option A := match l with [] => None | (j, x) :: r => if Z.eqb k j then Some x else zget k r end.
Fixpoint sget {A} (k : string) (l : list (string * A)) : option A := match l with [] => None | (j, x) :: r => if String.eqb k j then Some x else sget k r end.
Fixpoint position (i : nat) (k : Z) (l : list Z) : option nat := match l with [] => None | x :: r => if Z.eqb k x then Some i else position (S i) k r end.
(** var_models.update(..) for all builders in order: the last entry counts *)
Definition var_models (e : executable) : list (Z * var_model) := rev (flat_map (fun ib => b_var_models (snd ib)) (e_builders e)).
Definition get (e : executable) (ms : list model) (id : Z) : answer :=
  match zget id (var_models e) with
  | None => GAssert                                          (* runtime.py 581-586 *)
  | Some vm =>
      match position 0 (vm_proc_id vm) (e_ids e) with
      | None => GHang                                        (* ValueError of model_ids.index *)
      | Some i =>
          match nth_error ms i with
          | Some m => match zget id (m_ids m) with
                      | Some n => match sget n (m_attrs m) with Some x => GVal (vm_shape vm) x | None => GHang end
                      | None => GHang                        (* KeyError of var_id_to_var_map *)
                      end
          | None => GHang
          end
      end
  end.
