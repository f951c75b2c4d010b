(** What a learning connection is meant to compute, in exact arithmetic and without reference to the implementation. *)
From Coq Require Import ZArith QArith Qminmax List Bool.
From Verif Require Import Bits_Model Learning_Model Rule_Spec.
Import ListNotations.
Open Scope Z_scope.

(** A trace decays by a factor at every step and jumps by its impulse at every spike of its neuron. *)
Fixpoint trace_at (decay impulse : Q) (spike : nat -> bool) (start : Q) (t : nat) : Q :=
  match t with
  | O => start
  | S k => (decay * trace_at decay impulse spike start k + if spike t then impulse else 0)%Q
  end.
(** the step of the last spike up to step [t], 0 if there is none *)
Fixpoint last_spike (spike : nat -> bool) (t : nat) : nat :=
  match t with O => O | S k => if spike t then t else last_spike spike k end.
Definition spiked (spike : nat -> bool) (e : nat) : bool := existsb spike (seq 1 e).
(** how often it spikes in steps 1..t *)
Fixpoint spike_count (spike : nat -> bool) (t : nat) : nat :=
  match t with O => O | S k => (if spike t then 1 else 0) + spike_count spike k end.

Record istate := { i_trace : trace -> nat -> Q; i_syn : syn -> nat -> nat -> Q }.
Record params := {
  epoch : nat; signs : sign_mode;
  decay_of : trace -> Q; impulse_of : trace -> Q;
  rule_of : syn -> option rule
}.
Definition presynaptic (tr : trace) : bool := match tr with TX1 | TX2 => true | _ => false end.
(** weights have the sign of the connection, tag_2 (a delay) is not negative *)
Definition keep_sign (m : sign_mode) (y : syn) (q : Q) : Q :=
  match y, m with
  | SWeights, Excitatory => Qmax 0 q
  | SWeights, Inhibitory => Qmin 0 q
  | SWeights, Mixed => q
  | STag2, _ => Qmax 0 q
  | STag1, _ => q
  end.
(** What a rule refers to in epoch number [n] (1, 2, ...) of the synapse from [pre] to [post]: x0 and y0 happen if the
    neuron spikes in the epoch, u<k> in every 2^k-th epoch; a variable is read at the time of the event, that is at the
    (last) spike, and at the end of the epoch for u<k>. *)
Definition epoch_facts (p : params) (n : nat) (spk_pre spk_post : nat -> nat -> bool) (s : istate) (post pre : nat) : env :=
  {| occurs := fun ev => match ev with
       | Pre => if spiked (spk_pre pre) (epoch p) then 1%Q else 0%Q
       | Post => if spiked (spk_post post) (epoch p) then 1%Q else 0%Q
       | Periodic k => if (Z.of_nat n) mod 2 ^ Z.of_nat k =? 0 then 1%Q else 0%Q end;
     at_event := fun ev v =>
       let t := match ev with Pre => last_spike (spk_pre pre) (epoch p) | Post => last_spike (spk_post post) (epoch p)
                            | Periodic _ => epoch p end in
       let x tr := trace_at (decay_of p tr) (impulse_of p tr) (spk_pre pre) (i_trace s tr pre) t in
       let y tr := trace_at (decay_of p tr) (impulse_of p tr) (spk_post post) (i_trace s tr post) t in
       match v with
       | X1 => x TX1 | X2 => x TX2 | Y1 => y TY1 | Y2 => y TY2 | Y3 => y TY3
       | W => i_syn s SWeights post pre | D => i_syn s STag2 post pre | T => i_syn s STag1 post pre
       end |}.
(** one epoch: every synaptic variable changes by the value of its rule *)
Definition ideal_epoch (p : params) (n : nat) (spk_pre spk_post : nat -> nat -> bool) (s : istate) : istate :=
  {| i_trace := fun tr m => trace_at (decay_of p tr) (impulse_of p tr) ((if presynaptic tr then spk_pre else spk_post) m)
                  (i_trace s tr m) (epoch p);
     i_syn := fun y post pre => match rule_of p y with
       | None => i_syn s y post pre
       | Some r => keep_sign (signs p) y (i_syn s y post pre + rule_value (epoch_facts p n spk_pre spk_post s post pre) r)
       end |}.
(** [n] epochs; [spk k m j]: neuron m spikes in step j (1..epoch) of epoch k (1, 2, ...) *)
Fixpoint ideal_run (p : params) (spk_pre spk_post : nat -> nat -> nat -> bool) (s0 : istate) (n : nat) : istate :=
  match n with
  | O => s0
  | S k => ideal_epoch p n (spk_pre n) (spk_post n) (ideal_run p spk_pre spk_post s0 k)
  end.

(** x0 or y0 is written in a product after its first event, or in a bracket *)
Definition inside_event (i : inside) : bool :=
  match i with VarLit _ b _ _ | LitVar _ _ _ b => match b with BVar _ => false | _ => true end | _ => false end.
Fixpoint extra_event (seen : bool) (l : list atom) : bool :=
  match l with
  | [] => false
  | AEvent (Periodic _) :: r => extra_event true r
  | AEvent _ :: r => seen || extra_event true r
  | ABracket i :: r => inside_event i || extra_event seen r
  | _ :: r => extra_event seen r
  end.
Definition reads_event (r : rule) : bool := existsb (fun t => extra_event false (t_atoms t)) r.
(** the rule refers to the trace *)
Definition refers (r : rule) (v : var) : Prop := exists t, In t r /\ mentions t v.
