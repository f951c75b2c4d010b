(** Specification of C95: what a user expects from changing the parameters of a learning connection between two runs. *)
From Coq Require Import ZArith QArith List Bool String.
From Verif Require Import Learning_Model Rule_Model Retune_Model.
Import ListNotations.
Open Scope Z_scope.

(** ** The settings a connection has when it is created with a learning rule *)
Section Spec.
Variable applier_ok : list rproduct -> bool.
Definition texts (p : params) : list string :=
  flat_map (fun y => match get_target (p_text p) y with Some s => [s] | None => [] end) [SWeights; STag2; STag1].
Definition proper (epoch : Z) (p : params) (c : settings) : Prop :=
  0 < epoch /\ st_epoch c = epoch /\
  (exists y s, get_target (p_text p) y = Some s) /\                          (* at least one rule *)
  validate_uk (texts p) = Some (st_dec c) /\                                  (* no two periods; the period *)
  (forall tr, 0 <= get_trace (p_imp p) tr /\ 0 <= get_trace (p_tau p) tr)%Q /\
  st_imp c = p_imp p /\ st_tau c = p_tau p /\
  (forall y, match get_target (p_text p) y with
             | None => get_target (st_rules c) y = None
             | Some s => exists ps k, compile s = Some (ps, k) /\ applier_ok ps = true /\ get_target (st_rules c) y = Some ps
             end).

(** ** The life of an ideal connection: parameters, the number of the last time step, the state.  Every time step follows
    the settings of a connection created with the present parameters. *)
Variable cast : Q -> Q.
Variables (ST STIM : Type) (step : settings -> Z -> STIM -> ST -> ST).
Record ideal := { i_params : params; i_time : Z; i_state : ST }.
(** the change of the parameters; [None]: there is no such rule to change *)
Definition change (p : params) (h : happening ST STIM) : option params :=
  match h with
  | Step _ | SetState _ => Some p
  | SetRule y s => match get_target (p_text p) y with
                   | None => None
                   | Some _ => Some {| p_text := put_target y (Some s) (p_text p); p_imp := p_imp p; p_tau := p_tau p |}
                   end
  | SetImpulse tr v => Some {| p_text := p_text p; p_imp := put_trace tr (cast v) (p_imp p); p_tau := p_tau p |}
  | SetTau tr v => Some {| p_text := p_text p; p_imp := p_imp p; p_tau := put_trace tr (cast v) (p_tau p) |}
  end.
Inductive lives (epoch : Z) : ideal -> list (happening ST STIM) -> ideal -> Prop :=
| L_nil w : lives epoch w [] w
| L_step w i l w' c :
    proper epoch (i_params w) c ->
    lives epoch {| i_params := i_params w; i_time := i_time w + 1; i_state := step c (i_time w + 1) i (i_state w) |} l w' ->
    lives epoch w (Step i :: l) w'
| L_state w f l w' :
    lives epoch {| i_params := i_params w; i_time := i_time w; i_state := f (i_state w) |} l w' ->
    lives epoch w (SetState f :: l) w'
| L_change w h p c l w' :
    match h with SetRule _ _ | SetImpulse _ _ | SetTau _ _ => True | _ => False end ->
    change (i_params w) h = Some p -> proper epoch p c ->
    lives epoch {| i_params := p; i_time := i_time w; i_state := i_state w |} l w' ->
    lives epoch w (h :: l) w'.
End Spec.
Arguments i_params {ST}. Arguments i_time {ST}. Arguments i_state {ST}.
Arguments change cast {ST STIM}.
Definition is_set {ST STIM} (h : happening ST STIM) : bool := match h with Step _ => false | _ => true end.
