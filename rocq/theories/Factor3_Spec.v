(** What a connection with a three-factor rule is meant to compute: as in FloatLearn_Spec.v, but y1, y2 and y3 are signals
    that the post-synaptic neuron provides. *)
From Coq Require Import ZArith QArith List Bool.
From Verif Require Import Bits_Model Learning_Model Rule_Spec FloatLearn_Spec.
Import ListNotations.
Open Scope Z_scope.

(** [y tr m t]: the value of y1, y2 or y3 of post-synaptic neuron [m] at step [t] of the epoch *)
Definition facts3 (p : params) (n : nat) (spk_pre spk_post : nat -> nat -> bool) (y : trace -> nat -> nat -> Q) (s : istate) (post pre : nat) : env :=
  {| occurs := fun ev => match ev with
       | Pre => if spiked (spk_pre pre) (epoch p) then 1%Q else 0%Q
       | Post => if spiked (spk_post post) (epoch p) then 1%Q else 0%Q
       | Periodic k => if (Z.of_nat n) mod 2 ^ Z.of_nat k =? 0 then 1%Q else 0%Q end;
     at_event := fun ev v =>
       let t := match ev with Pre => last_spike (spk_pre pre) (epoch p) | Post => last_spike (spk_post post) (epoch p)
                            | Periodic _ => epoch p end in
       let x tr := trace_at (decay_of p tr) (impulse_of p tr) (spk_pre pre) (i_trace s tr pre) t in
       match v with
       | X1 => x TX1 | X2 => x TX2 | Y1 => y TY1 post t | Y2 => y TY2 post t | Y3 => y TY3 post t
       | W => i_syn s SWeights post pre | D => i_syn s STag2 post pre | T => i_syn s STag1 post pre
       end |}.
Definition ideal3_epoch (p : params) (n : nat) (spk_pre spk_post : nat -> nat -> bool) (y : trace -> nat -> nat -> Q) (s : istate) : istate :=
  {| i_trace := fun tr m => trace_at (decay_of p tr) (impulse_of p tr) (spk_pre m) (i_trace s tr m) (epoch p);   (* x1 and x2 only *)
     i_syn := fun z post pre => match rule_of p z with
       | None => i_syn s z post pre
       | Some r => keep_sign (signs p) z (i_syn s z post pre + rule_value (facts3 p n spk_pre spk_post y s post pre) r)
       end |}.
(** [y k tr m t]: in epoch k = 1, 2, ... *)
Fixpoint ideal3_run (p : params) (spk_pre spk_post : nat -> nat -> nat -> bool) (y : nat -> trace -> nat -> nat -> Q) (s0 : istate) (n : nat) : istate :=
  match n with
  | O => s0
  | S k => ideal3_epoch p n (spk_pre n) (spk_post n) (y n) (ideal3_run p spk_pre spk_post y s0 k)
  end.
(** d^t *)
Fixpoint power (d : Q) (t : nat) : Q := match t with O => 1%Q | S k => (d * power d k)%Q end.
