(** C101: concrete machines. *)
From Coq Require Import List String Ascii Bool Arith.
From Verif Require Import Slurm_Model Slurm_Spec Slurm_Proofs Slurm_Props Slurm_Props2.
Import ListNotations.
Open Scope string_scope.

(** a machine that answers the same at every time *)
Definition answers (sinfo sinfo_n ping : outcome) : machine :=
  mkMachine (fun _ c => match c with
                        | ["sinfo"] => sinfo
                        | ["sinfo"; "-N"] => sinfo_n
                        | _ => ping
                        end) (fun _ => true).
Definition start : state := mkState (fun _ => None) None 0.

Definition parts := "PARTITION AVAIL TIMELIMIT NODES STATE NODELIST" ++ nl ++
  "oheo*  up 30:00 1 idle n1" ++ nl ++ "kp up 30:00 2 down n2" ++ nl ++ "kp up 30:00 2 idle n3" ++ nl ++
  "np down 30:00 2 idle n4".
Definition boards := "NODELIST NODES PARTITION STATE" ++ nl ++
  "n1 1 oheo* idle" ++ nl ++ "  n4   1  np  idle" ++ nl ++ "n1 1 kp idle" ++ nl ++ "n2 1 kp down*".
Definition lab : machine := answers (Printed parts) (Printed boards) (Printed "1 packets").

(** a listed board is accepted, and the whole choice succeeds *)
Theorem choice_demo :
  fst (history lab [CSlurmHost (Some "np") (Some "n4") (Some N3B3)] start) =
    [(CSlurmHost (Some "np") (Some "n4") (Some N3B3), Ok tt)] /\
  let s := snd (history lab [CSlurmHost (Some "np") (Some "n4") (Some N3B3)] start) in
  st_env s "BOARD" = Some "n4" /\ st_env s "PARTITION" = Some "np" /\ st_env s "SLURM" = Some "1" /\ partition s = "np".
Proof. vm_compute. repeat split. Qed.

Theorem table_demo : Table boards [["n1";"1";"oheo*";"idle"]; ["n4";"1";"np";"idle"]; ["n1";"1";"kp";"idle"]; ["n2";"1";"kp";"down*"]].
Proof. apply Table_iff. eexists _, _. vm_compute. split; reflexivity. Qed.

Theorem accepted_demo : BoardAccepted lab 0 "n4" (Some "np") /\ PartitionAccepted lab 0 "np".
Proof.
  split.
  - apply (set_board_ok_iff lab "n4" (Some "np") start). vm_compute. reflexivity.
  - apply (set_partition_ok_iff lab "np" start). vm_compute. reflexivity.
Qed.

(** a board that serves two partitions is refused for the second *)
Theorem second_partition_refused_refuted :
  (exists t rows, Prints lab 1 ["sinfo"; "-N"] t /\ Table t rows /\ In ["n1";"1";"kp";"idle"] rows) /\
  fst (set_board lab (Some "n1") (Some "kp") start) = Raise ValueError.
Proof.
  split.
  - exists boards. eexists. split; [reflexivity|]. split; [exact table_demo|]. simpl. tauto.
  - vm_compute. reflexivity.
Qed.

(** a partition with idle nodes is refused when its first line is of nodes that are down, the default
    partition is found only with its star, and a partition whose AVAIL column says down is accepted *)
Theorem partition_states_refuted :
  fst (set_partition lab (Some "kp") start) = Raise ValueError /\
  fst (set_partition lab (Some "oheo") start) = Raise ValueError /\
  fst (set_partition lab (Some "oheo*") start) = Ok tt /\
  fst (set_partition lab (Some "np") start) = Ok tt.
Proof. vm_compute. repeat split. Qed.

(** after a failed choice the environment stands for another host than the one recorded *)
Theorem host_matches_refuted :
  let s := snd (history lab [CEthernetHost "10.0.0.1" (Some "nx") (Some N3B3); CSlurmHost None (Some "absent") (Some N3C1)] start) in
  map snd (fst (history lab [CEthernetHost "10.0.0.1" (Some "nx") (Some N3B3); CSlurmHost None (Some "absent") (Some N3C1)] start))
    = [Ok tt; Raise ValueError] /\
  st_host s = Some "ETHERNET" /\ st_env s "SLURM" = Some "1" /\ st_env s "NOSLURM" = None /\
  st_env s "LOIHI_GEN" = Some "N3C1" /\ ~ Consistent s.
Proof.
  vm_compute. repeat split. intros [_ H]. destruct (H eq_refl) as [H1 _]. discriminate.
Qed.

(** the optional arguments may not be None: the call fails half way *)
Theorem optional_none_refuted :
  let s := snd (use_ethernet_host lab "10.0.0.1" None (Some N3B3) start) in
  fst (use_ethernet_host lab "10.0.0.1" None (Some N3B3) start) = Raise TypeError /\
  st_env s "NOSLURM" = Some "1" /\ st_env s "NXSDKHOST" = Some "10.0.0.1" /\ st_host s = None /\
  fst (use_slurm_host lab None None None start) = Raise AttributeError.
Proof. vm_compute. repeat split. Qed.

(** without sinfo on the machine is_available raises instead of answering False, and
    set_board raises FileNotFoundError instead of ValueError *)
Theorem no_sinfo_refuted :
  let m := answers NotFound NotFound NotFound in
  fst (is_available m start) = Raise FileNotFoundError /\
  fst (get_boards m start) = Raise FileNotFoundError /\
  fst (set_board m (Some "n1") None start) = Raise FileNotFoundError.
Proof. vm_compute. repeat split. Qed.

(** output as sinfo really prints it, with a newline after the last line: no listed board can be chosen *)
Definition real_lab : machine := answers (Printed (parts ++ nl)) (Printed (boards ++ nl)) (Printed "1 packets").
Theorem newline_demo_refuted :
  fst (get_boards real_lab start) = Raise IndexError /\
  fst (set_board real_lab (Some "n4") None start) = Raise IndexError /\
  fst (use_slurm_host real_lab (Some "np") None (Some N3B3) start) = Raise IndexError /\
  st_env (snd (use_slurm_host real_lab (Some "np") None (Some N3B3) start)) "SLURM" = Some "1" /\
  st_host (snd (use_slurm_host real_lab (Some "np") None (Some N3B3) start)) = None.
Proof. vm_compute. repeat split. Qed.

Theorem newline_demo_applies : forall n c t, (c = ["sinfo"] \/ c = ["sinfo"; "-N"]) -> Prints real_lab n c t -> Terminated t.
Proof.
  intros n c t [-> | ->] H; unfold Prints, real_lab, answers in H; cbn [run_cmd] in H; (assert (H2 : forall a b, Printed a = Printed b -> a = b) by congruence); apply H2 in H; subst t; [exists parts | exists boards]; reflexivity.
Qed.

(** the controller may go away between the two questions: IndexError from an empty answer *)
Theorem second_answer_fails_refuted :
  fst (get_boards (answers (Printed parts) Failed Failed) start) = Raise IndexError.
Proof. vm_compute. reflexivity. Qed.

(** a choice of the board survives a later choice of an ethernet host *)
Theorem board_stays_refuted :
  let s := snd (history lab [CSlurmHost None (Some "n4") (Some N3B3); CEthernetHost "10.0.0.1" (Some "nx") (Some N3B3)] start) in
  st_host s = Some "ETHERNET" /\ st_env s "BOARD" = Some "n4".
Proof. vm_compute. repeat split. Qed.

Theorem matches_demo : Consistent start /\ Exclusive start /\
  Forall (fun cr => fst cr <> CEnable /\ fst cr <> CDisable /\ (is_host_call (fst cr) = true -> snd cr = Ok tt))
    (fst (history lab [CEthernetHost "10.0.0.1" (Some "nx") (Some N3B3); CSetBoard (Some "zz") None; CSlurmHost None (Some "n4") (Some N3B3)] start)).
Proof.
  split; [split; discriminate|]. split; [now left|].
  vm_compute. repeat constructor; try discriminate.
Qed.

Theorem unavailable_demo : run_cmd (answers Failed Failed Failed) (st_time start) ["sinfo"] = Failed /\
  fst (enable (answers Failed Failed Failed) start) = Raise ValueError.
Proof. vm_compute. repeat split. Qed.
