(** Model of LearningSparse (/repo/src/lava/proc/sparse/process.py 93-200, sparse/models.py 113-200) on top of the models of
    learning connections (Learning_Model, FloatLearn_Model).
    A csr_matrix is a set of stored positions with values; a position that is not stored counts as 0.  Modelled: rules in which
    csr matrices meet arrays only in the final sum (no factor w, d or t, or u * w with numbers); the code multiplies csr matrices
    with arrays as matrices, which is not modelled; sign mode MIXED (np.maximum and np.minimum are not defined for csr). *)
From Coq Require Import ZArith QArith List Bool.
From Verif Require Import Bits_Model Learning_Model Rule_Model FloatLearn_Model.
Import ListNotations.
Open Scope Z_scope.

Definition stored := syn -> nat -> nat -> bool.
(** Sparse._create_csr_matrix (sparse/process.py 83-90) of an array: what is not zero is stored; the synaptic variables that are not
    given are arrays of zeros (161-168) *)
Definition of_array (w : nat -> nat -> Z) (post pre : nat) : bool := negb (w post pre =? 0).
(** which positions LearningSparse stores for an initial weight matrix and tags given as arrays, or not given *)
Definition stored_init (weights : nat -> nat -> Z) (tags : syn -> option (nat -> nat -> Z)) : stored := fun y =>
  match y with
  | SWeights => of_array weights
  | _ => match tags y with Some m => of_array m | None => of_array (fun _ _ => 0) end
  end.

(** ** Fixed point *)
(** truncate_weights (weightutils.py 206-250) in the first time step (sparse/models.py 163-170): weights that become 0 are no longer
    stored (eliminate_zeros, line 245) *)
Definition truncated (m : sign_mode) (bits : Z) (s : conn) : conn :=
  {| tx := tx s; x1 := x1 s; x2 := x2 s; ty := ty s; y1 := y1 s; y2 := y2 s; y3 := y3 s;
     syn_val := fun y post pre => match y with SWeights => truncate m bits 8 (syn_val s y post pre) | _ => syn_val s y post pre end |}.
Definition eliminated (s : conn) (st : stored) : stored := fun y post pre =>
  match y with SWeights => st y post pre && negb (syn_val s y post pre =? 0) | _ => st y post pre end.
(** _apply_learning_rules (connection.py 936-973): only stored positions (find with explicit zeros) are assigned *)
Definition sp_learned (c : conn_cfg) (t : Z) (i : stimulus) (st : stored) (s : conn) (y : syn) (post pre : nat) : Z :=
  if st y post pre then learned c t i s y post pre else syn_val s y post pre.
Definition sp_learn_phase (c : conn_cfg) (t : Z) (i : stimulus) (st : stored) (s : conn) : conn :=
  let l := learn_phase c t i s in
  {| tx := tx l; x1 := x1 l; x2 := x2 l; ty := ty l; y1 := y1 l; y2 := y2 l; y3 := y3 l; syn_val := sp_learned c t i st s |}.
Definition sp_step (c : conn_cfg) (t : Z) (i : stimulus) (st : stored) (s : conn) : conn :=
  let s' := spike_phase c t i s in
  if lrn_guard (t_epoch c) t then sp_learn_phase c t i st s' else s'.
Fixpoint sp_run (c : conn_cfg) (i : nat -> stimulus) (st : stored) (s0 : conn) (n : nat) : conn :=
  match n with
  | O => s0
  | S k => sp_step c (Z.of_nat n) (i n) st (sp_run c i st s0 k)
  end.
(** the whole life: truncation, then the time steps *)
Definition learning_sparse (c : conn_cfg) (bits : Z) (i : nat -> stimulus) (st : stored) (s0 : conn) (n : nat) : conn :=
  let s1 := truncated (cfg_sign c) bits s0 in sp_run c i (eliminated s1 st) s1 n.
(** the same for LearningDense (dense/models.py 158-200) *)
Definition learning_dense (c : conn_cfg) (bits : Z) (i : nat -> stimulus) (s0 : conn) (n : nat) : conn :=
  run c i (truncated (cfg_sign c) bits s0) n.

(** ** Floating point *)
(** connection.py 1450-1471 *)
Definition fsp_learned (c : fcfg) (t : Z) (st : stored) (s : fconn) (y : syn) (post pre : nat) : num :=
  if st y post pre then flearned c t s y post pre else f_syn s y post pre.
Definition fsp_learn_phase (c : fcfg) (t : Z) (st : stored) (s : fconn) : fconn :=
  let l := flearn_phase c t s in
  {| f_tx := f_tx l; f_ty := f_ty l; f_tr := f_tr l; f_syn := fsp_learned c t st s |}.
Definition fsp_step (c : fcfg) (t : Z) (i : fstim) (st : stored) (s : fconn) : fconn :=
  let s' := fspike_phase c t i s in
  if lrn_guard (fc_epoch c) t then fsp_learn_phase c t st s' else s'.
Fixpoint fsp_run (c : fcfg) (i : nat -> fstim) (st : stored) (s0 : fconn) (n : nat) : fconn :=
  match n with
  | O => s0
  | S k => fsp_step c (Z.of_nat n) (i n) st (fsp_run c i st s0 k)
  end.
