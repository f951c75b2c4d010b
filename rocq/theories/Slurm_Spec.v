(** Specification vocabulary for C101: texts, tables, environments; independent of the model's functions. *)
From Coq Require Import List String Ascii Bool Arith.
From Verif Require Import Slurm_Model.
Import ListNotations.
Open Scope string_scope.

(** [c] occurs in [t] *)
Fixpoint Occurs (c : ascii) (t : string) : Prop :=
  match t with EmptyString => False | String d t' => c = d \/ Occurs c t' end.

(** [sub] occurs in [t] *)
Definition Contains (sub t : string) : Prop := exists a c, t = a ++ sub ++ c.

Definition nl : string := String (ascii_of_nat 10) EmptyString.

(** [ls] are the lines of [t]: joined by newlines they are [t], and none contains a newline *)
Definition Lines (t : string) (ls : list string) : Prop :=
  ls <> [] /\ t = String.concat nl ls /\ Forall (fun l => ~ Occurs (ascii_of_nat 10) l) ls.

(** white space: tab, newline, vertical tab, form feed, return, the four ASCII separators, blank *)
Definition White (c : ascii) : Prop := In (nat_of_ascii c) [9; 10; 11; 12; 13; 28; 29; 30; 31; 32].
Definition AllWhite (t : string) : Prop := forall c, Occurs c t -> White c.
Definition Word (t : string) : Prop := t <> "" /\ forall c, Occurs c t -> ~ White c.

(** [fs] are the words of the line [l] *)
Inductive Fields : string -> list string -> Prop :=
| Fields_none w : AllWhite w -> Fields w []
| Fields_last w f : AllWhite w -> Word f -> Fields (w ++ f) [f]
| Fields_more w f c rest fs :
    AllWhite w -> Word f -> White c -> Fields (String c rest) fs ->
    Fields (w ++ f ++ String c rest) (f :: fs).

(** a table as sinfo prints it: a header line, then one row per line *)
Definition Table (t : string) (rows : list (list string)) : Prop :=
  exists header ls, Lines t (header :: ls) /\ Forall2 Fields ls rows.

(** [row] is the first of [rows] whose first field is [name] *)
Definition FirstRow (name : string) (rows : list (list string)) (row : list string) : Prop :=
  exists before after,
    rows = (before ++ row :: after)%list /\ nth_error row 0 = Some name /\
    Forall (fun r => nth_error r 0 <> Some name) before.

(** [e'] differs from [e] at most in the variables [ks] *)
Definition OnlyChanges (ks : list string) (e e' : env) : Prop := forall k, ~ In k ks -> e' k = e k.

(** the arguments of the last successful partition choice in a history (None: cleared),
    or [dflt] if there was none *)
Fixpoint last_partition (dflt : option string) (h : list (call * res unit)) : option string :=
  match h with
  | [] => dflt
  | (CSetPartition p, Ok _) :: h' => last_partition p h'
  | (CSlurmHost p _ _, Ok _) :: h' => last_partition p h'
  | _ :: h' => last_partition dflt h'
  end.

(** the host of the last successful choice of a host *)
Fixpoint last_host (dflt : option string) (h : list (call * res unit)) : option string :=
  match h with
  | [] => dflt
  | (CSlurmHost _ _ _, Ok _) :: h' => last_host (Some "SLURM") h'
  | (CEthernetHost _ _ _, Ok _) :: h' => last_host (Some "ETHERNET") h'
  | _ :: h' => last_host dflt h'
  end.

Definition is_host_call (c : call) : bool :=
  match c with CSlurmHost _ _ _ | CEthernetHost _ _ _ => true | _ => false end.

(** what one row of [sinfo -N] says about a board: columns 1, 3 and 4 *)
Definition IsBoard (row : list string) (b : board_info) : Prop :=
  nth_error row 0 = Some (b_nodename b) /\ nth_error row 2 = Some (b_partition b) /\ nth_error row 3 = Some (b_state b).

(** what one row of [sinfo] says about a partition: missing columns are empty *)
Definition IsPartition (row : list string) (p : partition_info) : Prop :=
  row <> [] /\ p_name p = nth 0 row "" /\ p_available p = nth 1 row "" /\ p_timelimit p = nth 2 row "" /\
  p_nodes p = nth 3 row "" /\ p_state p = nth 4 row "" /\ p_nodelist p = nth 5 row "".

(** the n-th command run, [cmd], prints [t] *)
Definition Prints (m : machine) (n : nat) (cmd : list string) (t : string) : Prop := run_cmd m n cmd = Printed t.

(** the controller answers at n, and at n+1 lists [b] first as a board that is not down, in partition [p] *)
Definition BoardAccepted (m : machine) (n : nat) (b : string) (p : option string) : Prop :=
  (exists t, Prints m n ["sinfo"] t) /\
  exists t rows row q st,
    Prints m (S n) ["sinfo"; "-N"] t /\ Table t rows /\ Forall (fun r => 4 <= List.length r) rows /\
    FirstRow b rows row /\ nth_error row 2 = Some q /\ nth_error row 3 = Some st /\
    ~ Contains "down" st /\ (p = None \/ p = Some "" \/ p = Some q).

(** the controller answers at n, and at n+1 lists [p] first with a state (column 5) that is not down *)
Definition PartitionAccepted (m : machine) (n : nat) (p : string) : Prop :=
  (exists t, Prints m n ["sinfo"] t) /\
  exists t rows row,
    Prints m (S n) ["sinfo"] t /\ Table t rows /\ Forall (fun r => r <> []) rows /\
    FirstRow p rows row /\ ~ Contains "down" (nth 4 row "").

(** SLURM and NOSLURM are not both set *)
Definition Exclusive (s : state) : Prop := st_env s "SLURM" = None \/ st_env s "NOSLURM" = None.

(** the host recorded is the one the environment stands for *)
Definition Consistent (s : state) : Prop :=
  (st_host s = Some "SLURM" -> st_env s "SLURM" = Some "1" /\ st_env s "NOSLURM" = None) /\
  (st_host s = Some "ETHERNET" -> st_env s "SLURM" = None /\ st_env s "NOSLURM" = Some "1").

(** a text that ends in a newline, as the output of a command usually does *)
Definition Terminated (t : string) : Prop := exists t', t = t' ++ nl.
