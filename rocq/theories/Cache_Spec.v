(** What a user expects of compiling with a cache, in terms of programs and of what Var.get() answers after the start. *)
From Coq Require Import List Arith ZArith Bool String.
From Verif Require Import VPorts_Model Wire_Model Cache_Model.
Import ListNotations.
Open Scope nat_scope.

Definition names (P : program) : list string := map c_name (procs P).
Definition has_var (P : program) (id : Z) : Prop := exists p v, In p (procs P) /\ In v (c_vars p) /\ v_id v = id.
(** what every lava program has: distinct ids of processes and of Vars, distinct names of the members of a process, and
    connections between ports that exist *)
Record wf (P : program) : Prop := {
  wf_ids : NoDup (map c_id (procs P));
  wf_vars : NoDup (map v_id (flat_map c_vars (procs P)));
  wf_vnames : forall p, In p (procs P) -> NoDup (map v_name (c_vars p));
  wf_pnames : forall p, In p (procs P) -> NoDup (map p_name (c_ports p));
  wf_conns : forall s d a, In (s, d) (conns P) -> a = s \/ a = d ->
             exists p q, nth_error (procs P) (fst a) = Some p /\ In q (c_ports p) /\ p_name q = snd a }.
(** the names that can be cached *)
Definition occurs (s t : string) : Prop := exists a b : string, t = (a ++ s ++ b)%string.
Definition cacheable (P : program) : Prop := NoDup (names P) /\ forall n, In n (names P) -> ~ occurs "Process_" n.
(** the same process, but for the parameters its process model is built with *)
Definition same_process (p q : cproc) : Prop :=
  c_name p = c_name q /\ c_id p = c_id q /\ c_model p = c_model q /\ c_vars p = c_vars q /\ c_ports p = c_ports q.
(** the program of processes and Vars that a user reads in the script: each Var has its own initial value *)
Definition reads_right (P : program) (e : executable) (ms : list model) : Prop :=
  forall p v, In p (procs P) -> In v (c_vars p) -> get e ms (v_id v) = GVal (v_shape v) (v_init v).
