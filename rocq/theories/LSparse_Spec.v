(** Which synaptic variables a learning rule reads, and for which rules LearningSparse is modelled. *)
From Coq Require Import ZArith QArith List Bool.
From Verif Require Import Bits_Model Learning_Model Rule_Model FloatLearn_Model LSparse_Model.
Import ListNotations.

(** the rule reads synaptic variable [y] *)
Definition reads_f (ps : list rproduct) (y : syn) : Prop := exists p f, In p ps /\ In f (rp_factors p) /\ rf_var f = VSyn y.
(** rules without synaptic variables *)
Definition no_syn (ps : list product) : Prop := forall p f y, In p ps -> In f (p_factors p) -> f_var f <> VSyn y.
(** products in floating point: no synaptic variable, or u times one synaptic variable and numbers *)
Definition plain (p : rproduct) : Prop :=
  (forall f y, In f (rp_factors p) -> rf_var f <> VSyn y) \/
  (rp_dep p = DU /\ exists l1 f l2, rp_factors p = l1 ++ f :: l2 /\ rf_const f = None /\ rf_sgn f = false /\
     forall g, In g (l1 ++ l2) -> rf_var g = VC).
(** the matrices are consistent: what is not stored is 0 *)
Definition zero_outside (st : stored) (v : syn -> nat -> nat -> Z) : Prop := forall y i j, st y i j = false -> v y i j = 0%Z.
