(** Model of AbstractLoihiRunCfg.select (/repo/src/lava/magma/core/run_configs.py 166-330) with the
    preference orders of Loihi1SimCfg/Loihi2SimCfg (357-364) and Loihi1HwCfg/Loihi2HwCfg (399-425, 455-483). *)
From Coq Require Import List Arith Bool.
Import ListNotations.

(** A ProcessModel class: what issubclass(...) and required_resources tell about it.
    [nc]: an NcProcessModel whose required resources include a neuro core of this hardware. *)
Record pm := { is_sub : bool; is_py : bool; is_c : bool; nc : bool; tags : list nat }.

Inductive config := SimCfg | HwCfg.
Inductive result := Chosen (m : pm) | Raised.

Definition has_tag (t : nat) (m : pm) : bool := existsb (Nat.eqb t) (tags m).

(** [idx for idx, pm in enumerate(proc_models) if f(pm)] *)
Fixpoint idxs_from (i : nat) (f : pm -> bool) (l : list pm) : list nat :=
  match l with [] => [] | m :: r => if f m then i :: idxs_from (S i) f r else idxs_from (S i) f r end.
Definition idxs := idxs_from 0.

(** _order_according_to_resources and _is_hw_supported *)
Definition order (c : config) (l : list pm) : list nat :=
  match c with
  | SimCfg => idxs is_py l
  | HwCfg => idxs nc l ++ idxs is_c l ++ idxs is_py l
  end.
Definition hw_supported (c : config) (m : pm) : bool :=
  match c with SimCfg => is_py m | HwCfg => is_py m || is_c m || nc m end.

Definition at_idx (l : list pm) (i : nat) : result := match nth_error l i with Some m => Chosen m | None => Raised end.

(** the comprehension of lines 273-275 with its double indexing; [None] = IndexError *)
Fixpoint tagged_subs (t : nat) (l : list pm) (sub_idxs todo : list nat) : option (list nat) :=
  match todo with
  | [] => Some []
  | i :: r =>
      match nth_error sub_idxs i with
      | None => None
      | Some j => match nth_error l j, tagged_subs t l sub_idxs r with
                  | Some m, Some r' => Some (if has_tag t m then i :: r' else r')
                  | _, _ => None
                  end
      end
  end.

(** select (166-330).  [exc]: the entry of exception_proc_model_map for the process's class, if any. *)
Definition select (c : config) (exc : option pm) (tag : option nat) (want_sub : bool) (l : list pm) : result :=
  match l with
  | [] => Raised                                                       (* case 0 *)
  | m0 :: rest =>
      match exc with
      | Some m => Chosen m                                             (* case 1 *)
      | None =>
          match rest with
          | [] =>                                                      (* case 2 *)
              if is_sub m0 || hw_supported c m0 then
                match tag with
                | None => Chosen m0
                | Some t => if (length (tags m0) =? 0) || has_tag t m0 then Chosen m0 else Raised
                end
              else Raised
          | _ =>                                                       (* case 3 *)
              let subs := idxs is_sub l in
              let leafs := order c l in
              if want_sub && negb (length subs =? 0) then
                match subs, tag with
                | [i], _ => at_idx l i
                | i :: _, None => at_idx l i
                | _, Some t => match tagged_subs t l subs subs with
                               | Some (i :: _) => at_idx l i
                               | _ => Raised
                               end
                | [], None => Raised
                end
              else
                match leafs with
                | [] => Raised
                | i :: _ =>
                    match tag with
                    | None => at_idx l i
                    | Some t =>
                        match filter (fun i => match nth_error l i with Some m => has_tag t m | None => false end) leafs with
                        | [] => Raised
                        | j :: _ => at_idx l j
                        end
                    end
                end
          end
      end
  end.
