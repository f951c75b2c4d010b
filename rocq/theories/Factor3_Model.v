(** Model of learning connections with three-factor rules (Loihi3FLearningRule, RewardModulatedSTDP), in addition to
    Learning_Model.v (fixed point) and FloatLearn_Model.v (floating point):
    /repo/src/lava/magma/core/model/py/connection.py recv_traces 384-414, _update_traces 451-468,
    /repo/src/lava/magma/core/learning/learning_rule.py Loihi3FLearningRule 665-759.
    The post-synaptic neuron sends y1, y2 and y3 in every time step. *)
From Coq Require Import ZArith QArith List Bool String.
From Verif Require Import Bits_Model Learning_Model Rule_Model FloatLearn_Model.
Import ListNotations.
Open Scope Z_scope.

(** ** Floating point *)
(** spikes, and the values of y1, y2, y3 sent by every post-synaptic neuron *)
Record f3stim := { g_spk : fstim; g_y : trace -> nat -> Q }.
(** Loihi3FLearningRule.__init__ 732-759: y_impulse = 0, y_tau = 65535; [dy] is np.exp(-1 / 65535) *)
Definition three_factor_traces (dy : Q) (x : trace -> ftrace) (tr : trace) : ftrace :=
  match tr with TX1 | TX2 => x tr | _ => {| f_decay := Some dy; f_impulse := 0 |} end.
Definition build3 (e : Z) (m : sign_mode) (g : graded_cfg) (dy : Q) (x : trace -> ftrace) (text : syn -> option string) : option fcfg :=
  build e m g (three_factor_traces dy x) text.
(** recv_traces 400-412: the spikes are processed, then y1, y2 and y3 are overwritten by the received values *)
Definition f3spike_phase (c : fcfg) (t : Z) (i : f3stim) (s : fconn) : fconn :=
  let s' := fspike_phase c t (g_spk i) s in
  {| f_tx := f_tx s'; f_ty := f_ty s';
     f_tr := fun tr n => match tr with TX1 | TX2 => f_tr s' tr n | _ => Some (g_y i tr n) end;
     f_syn := f_syn s' |}.
(** run_lrn 431-437 with _update_traces 466-468: the histories of y are computed and used, but not stored *)
Definition f3learn_phase (c : fcfg) (t : Z) (s : fconn) : fconn :=
  let s' := flearn_phase c t s in
  {| f_tx := f_tx s'; f_ty := f_ty s';
     f_tr := fun tr n => match tr with TX1 | TX2 => f_tr s' tr n | _ => f_tr s tr n end;
     f_syn := f_syn s' |}.
Definition f3step (c : fcfg) (t : Z) (i : f3stim) (s : fconn) : fconn :=
  let s' := f3spike_phase c t i s in
  if lrn_guard (fc_epoch c) t then f3learn_phase c t s' else s'.
Fixpoint f3run (c : fcfg) (i : nat -> f3stim) (s0 : fconn) (n : nat) : fconn :=
  match n with
  | O => s0
  | S k => f3step c (Z.of_nat n) (i n) (f3run c i s0 k)
  end.

(** ** Fixed point *)
Record stim3 := { h_stim : stimulus; h_y : trace -> nat -> Z }.
(** the impulse 0 decomposes into 0 and 0 (_decompose_impulses 650-672); [f] is v -> np.exp(-1 / 65535) * v *)
Definition three_factor_cfg (f : Z -> Q) (x : trace -> trace_cfg) (tr : trace) : trace_cfg :=
  match tr with TX1 | TX2 => x tr | _ => {| imp_int := 0; imp_frac := 0; decay_fn := Some f |} end.
Definition spike_phase3 (c : conn_cfg) (t : Z) (i : stim3) (s : conn) : conn :=
  let s' := spike_phase c t (h_stim i) s in
  {| tx := tx s'; x1 := x1 s'; x2 := x2 s'; ty := ty s'; y1 := h_y i TY1; y2 := h_y i TY2; y3 := h_y i TY3; syn_val := syn_val s' |}.
Definition learn_phase3 (c : conn_cfg) (t : Z) (i : stim3) (s : conn) : conn :=
  let s' := learn_phase c t (h_stim i) s in
  {| tx := tx s'; x1 := x1 s'; x2 := x2 s'; ty := ty s'; y1 := y1 s; y2 := y2 s; y3 := y3 s; syn_val := syn_val s' |}.
Definition conn_step3 (c : conn_cfg) (t : Z) (i : stim3) (s : conn) : conn :=
  let s' := spike_phase3 c t i s in
  if lrn_guard (t_epoch c) t then learn_phase3 c t i s' else s'.
Fixpoint run3 (c : conn_cfg) (i : nat -> stim3) (s0 : conn) (n : nat) : conn :=
  match n with
  | O => s0
  | S k => conn_step3 c (Z.of_nat n) (i n) (run3 c i s0 k)
  end.
