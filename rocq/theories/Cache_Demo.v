(** C100: concrete programs, and the cases in which the cache gives wrong results. *)
From Coq Require Import List Arith ZArith Bool String Lia.
From Verif Require Import VPorts_Model Wire_Model Cache_Model Cache_Spec Cache_Proofs Cache_Props Cache_Props2.
Import ListNotations.
Open Scope nat_scope.
Open Scope string_scope.

(** two processes "src" and "dst"; the output of src goes through reshape((2,)) to dst; process ids and Var ids start at [k] and
    [v]; [x]: initial value of src.u; [extra]: src has a further Var w *)
Definition demo (k v : Z) (x : Z) (extra : bool) (par : nat) : program :=
  let ex := if extra then [{| v_name := "w"; v_shape := [1]; v_init := [100%Z]; v_id := (v + 1)%Z |}] else [] in
  let o := if extra then 1%Z else 0%Z in
  {| procs := [ {| c_name := "src"; c_id := k; c_model := 1; c_params := par;
                   c_vars := {| v_name := "u"; v_shape := [1]; v_init := [x]; v_id := v |} :: ex;
                   c_ports := [ {| p_name := "s_out"; p_shape := [2; 1]; p_funcs := [] |} ] |};
                {| c_name := "dst"; c_id := (k + 1)%Z; c_model := 2; c_params := par;
                   c_vars := [ {| v_name := "a"; v_shape := [1]; v_init := [7%Z]; v_id := (v + o + 1)%Z |};
                               {| v_name := "b"; v_shape := [1]; v_init := [8%Z]; v_id := (v + o + 2)%Z |} ];
                   c_ports := [ {| p_name := "a_in"; p_shape := [2]; p_funcs := [((k, "s_out"), [ReshapeP [2] [2; 1]])] |} ] |} ];
     conns := [((0, "s_out"), (1, "a_in"))] |}.

Lemma demo_wf : forall k v x extra par, wf (demo k v x extra par).
Proof.
  intros k v x extra par. constructor.
  - cbn. constructor; [intros [H|[]]; lia | constructor; [intros [] | constructor]].
  - destruct extra; cbn; repeat (constructor; [cbn [In]; intuition lia |]); constructor.
  - intros p [<- |[<- |[]]]; destruct extra; cbn; repeat (constructor; [cbn [In]; intuition discriminate |]); constructor.
  - intros p [<- |[<- |[]]]; cbn; repeat (constructor; [intros [] |]); constructor.
  - intros s d a [H|[]] Ha. injection H as <- <-. destruct Ha as [-> | ->]; cbn [fst snd nth_error procs demo];
      do 2 eexists; (split; [reflexivity |]); cbn; auto.
Qed.
Definition the_cache (P : program) : cache := match make_cache P with Some c => c | None => Build_cache [] [] [] end.
Definition the_exe (P P' : program) : executable := match compile_cached (the_cache P) P' with Some e => e | None => Build_executable [] [] [] [] end.
Definition the_models (P P' : program) : list model := match start (the_exe P P') with Some l => l | None => [] end.
Definition runs (P P' : program) : Prop :=
  make_cache P = Some (the_cache P) /\ compile_cached (the_cache P) P' = Some (the_exe P P') /\ start (the_exe P P') = Some (the_models P P').

Lemma demo_cacheable : forall k v x extra par, cacheable (demo k v x extra par).
Proof.
  intros k v x extra par. split.
  - cbn. constructor; [intros [H|[]]; discriminate | constructor; [intros [] | constructor]].
  - intros n Hn Ho. apply contains_occurs in Ho. destruct Hn as [<- |[<- |[]]]; vm_compute in Ho; discriminate.
Qed.
(** the hypotheses of cache_transparent_partial are met with other parameters, and those of the theorems about other programs *)
Example transparent_demo : snd (compile true true (fst (compile true true NoFile (demo 0 0 5 false 3))) (demo 0 0 5 false 4)) = compile_fresh (demo 0 0 5 false 4)
  /\ compile_fresh (demo 0 0 5 false 4) <> None.
Proof.
  split; [|vm_compute; discriminate].
  rewrite (cache_transparent_partial (demo 0 0 5 false 3) (demo 0 0 5 false 4) true true _ (demo_wf _ _ _ _ _) (demo_cacheable _ _ _ _ _)); [reflexivity | | reflexivity].
  repeat constructor.
Qed.
Example runs_demo : runs (demo 0 0 5 false 3) (demo 0 0 6 true 4).
Proof. repeat split; vm_compute; reflexivity. Qed.

(** a changed initial value (weights, thresholds) is not used: the run starts with the old one *)
Theorem changed_value_ignored_refuted : ~ (forall P P' c e ms, wf P -> wf P' -> make_cache P = Some c -> compile_cached c P' = Some e -> start e = Some ms -> reads_right P' e ms).
Proof.
  intros H. assert (R : runs (demo 0 0 5 false 3) (demo 0 0 6 false 3)) by (repeat split; vm_compute; reflexivity). destruct R as [R1 [R2 R3]].
  specialize (H _ _ _ _ _ (demo_wf _ _ _ _ _) (demo_wf _ _ _ _ _) R1 R2 R3 _ _ (or_introl eq_refl) (or_introl eq_refl)).
  vm_compute in H. discriminate.
Qed.
(** ... it is the old value, for every pair of values *)
Theorem old_value_is_read : forall x y par, exists c e ms, make_cache (demo 0 0 x false par) = Some c /\ compile_cached c (demo 0 0 y false par) = Some e
  /\ start e = Some ms /\ get e ms 0%Z = GVal [1] [x].
Proof.
  intros x y par. do 3 eexists. split; [reflexivity |]. split; [reflexivity |]. split; [reflexivity |]. reflexivity.
Qed.
(** with one more Var in src, asking for it gives the value of a variable of dst, and asking for dst.a gives that of dst.b;
    asking for dst.b fails *)
Theorem other_variable_is_read : forall x y par, exists c e ms, make_cache (demo 0 0 x false par) = Some c /\ compile_cached c (demo 0 0 y true par) = Some e
  /\ start e = Some ms /\ get e ms 1%Z = GVal [1] [7%Z] /\ get e ms 2%Z = GVal [1] [8%Z] /\ get e ms 3%Z = GAssert.
Proof.
  intros x y par. do 3 eexists. split; [reflexivity |]. split; [reflexivity |]. split; [reflexivity |]. repeat split; reflexivity.
Qed.
(** one process more, created before: its ids are used up, and no request reaches its process any more *)
Theorem shifted_process_ids_hang : forall x par, exists c e ms, make_cache (demo 0 0 x false par) = Some c /\ compile_cached c (demo 1 0 x false par) = Some e
  /\ start e = Some ms /\ get e ms 0%Z = GHang /\ get e ms 1%Z = GHang /\ get e ms 2%Z = GHang.
Proof.
  intros x par. do 3 eexists. split; [reflexivity |]. split; [reflexivity |]. split; [reflexivity |]. repeat split; reflexivity.
Qed.
(** the program created again in the same session: its Vars cannot be read, and what dst receives is not reshaped *)
Theorem same_session_refuted : forall x par, exists c e ms m t, make_cache (demo 0 0 x false par) = Some c /\ compile_cached c (demo 2 3 x false par) = Some e
  /\ start e = Some ms /\ get e ms 3%Z = GAssert /\ nth_error ms 1 = Some m /\ m_ports m = [("a_in", t)]
  /\ transform fwd t 0 (mkNd [2; 1] [1%Z; 2%Z]) = Some (mkNd [2; 1] [1%Z; 2%Z]).
Proof.
  intros x par. do 5 eexists. split; [reflexivity |]. split; [reflexivity |]. split; [reflexivity |]. split; [reflexivity |]. split; [reflexivity |]. split; [reflexivity |]. reflexivity.
Qed.
(** without the cache it is *)
Example fresh_reshapes : forall x par, exists e ms m t, compile_fresh (demo 2 3 x false par) = Some e /\ start e = Some ms /\ nth_error ms 1 = Some m
  /\ m_ports m = [("a_in", t)] /\ transform fwd t 0 (mkNd [2; 1] [1%Z; 2%Z]) = Some (mkNd [2] [1%Z; 2%Z]).
Proof.
  intros x par. do 4 eexists. split; [reflexivity |]. split; [reflexivity |]. split; [reflexivity |]. split; [reflexivity |]. reflexivity.
Qed.
(** a process added to the program: it compiles, but does not start; a process removed: it does not compile *)
Definition plus_one (P : program) : program :=
  {| procs := procs P ++ [ {| c_name := "new"; c_id := 99%Z; c_model := 3; c_params := 0; c_vars := []; c_ports := [] |} ]; conns := conns P |}.
Theorem added_process_refuted : exists c e, make_cache (demo 0 0 5 false 3) = Some c /\ compile_cached c (plus_one (demo 0 0 5 false 3)) = Some e /\ start e = None
  /\ (exists c2, make_cache (plus_one (demo 0 0 5 false 3)) = Some c2 /\ compile_cached c2 (demo 0 0 5 false 3) = None).
Proof.
  do 2 eexists. split; [vm_compute; reflexivity |]. split; [vm_compute; reflexivity |]. split; [vm_compute; reflexivity |].
  eexists. split; [vm_compute; reflexivity |]. vm_compute; reflexivity.
Qed.
(** default names ("Process_3") and names like "MyProcess_A" are refused, as are two processes of one name *)
Definition named (a b : string) : program :=
  {| procs := [ {| c_name := a; c_id := 0; c_model := 0; c_params := 0; c_vars := []; c_ports := [] |};
                {| c_name := b; c_id := 1; c_model := 0; c_params := 0; c_vars := []; c_ports := [] |} ]; conns := [] |}.
Example refused_names : make_cache (named "a" "Process_3") = None /\ make_cache (named "MyProcess_A" "b") = None /\ make_cache (named "a" "a") = None /\ make_cache (named "a" "b") <> None.
Proof. repeat split; vm_compute; congruence. Qed.
