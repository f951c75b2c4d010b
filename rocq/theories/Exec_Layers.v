(** C81 for the processes of the library: ring buffers, Dense and LIF as process models of Exec_Model. *)
From Coq Require Import List Arith ZArith Bool Lia.
From Verif Require Import Base Kahn PyPorts_Model Exec_Model Exec_Spec Exec_Proofs Exec_Props.
From Verif Require Lif_Model Conn_Model Io_Model.
Import ListNotations.

(** The variables of the processes.  [t]: the time step, counted from 1. *)
Inductive vars :=
| VSource (t : nat) (data : list vec)
| VSink (t : nat) (data : list vec)
| VLif (P : Lif_Model.params) (l : list Lif_Model.lif)
| VDense (bits : Z) (w : list (list Z)) (a_buff : vec).

(** A layer of LIF neurons, lif/models.py 198-220 (one neuron: Lif_Model.run_spk) *)
Definition lif_layer (P : Lif_Model.params) (l : list Lif_Model.lif) (a : vec) : list Lif_Model.lif * vec :=
  (map (fun x => fst (Lif_Model.run_spk P (fst x) (snd x))) (combine l a),
   map (fun x => if snd (Lif_Model.run_spk P (fst x) (snd x)) then 1%Z else 0%Z) (combine l a)).

(** RingBuffer (source), io/source.py 41-43: no InPort, one OutPort *)
Definition source_proc : pmodel vars :=
  mkModel [] (fun _ => []) [] [0]
    (fun s _ => match s with VSource t data => (VSource (S t) data, [Io_Model.source_send [] data t]) | _ => (s, [[]]) end).
(** RingBuffer (sink), io/sink.py 48-52 *)
Definition sink_proc (size : nat) : pmodel vars :=
  mkModel [] (fun _ => []) [size] []
    (fun s xs => match s, xs with VSink t data, [x] => (VSink (S t) (Io_Model.sink_recv t data x), []) | _, _ => (s, []) end).
(** LIF, lif/models.py 64-69: receive, then send *)
Definition lif_proc (size : nat) : pmodel vars :=
  mkModel [] (fun _ => []) [size] [0]
    (fun s xs => match s, xs with VLif P l, [a] => (VLif P (fst (lif_layer P l a)), [snd (lif_layer P l a)]) | _, _ => (s, [[]]) end).
(** Dense, dense/models.py 37-47: a_buff is sent before s_in is received *)
Definition dense_proc (size : nat) : pmodel vars :=
  mkModel [0] (fun s => match s with VDense _ _ b => [b] | _ => [[]] end) [size] []
    (fun s xs => match s, xs with VDense bits w b, [x] => (VDense bits w (snd (Conn_Model.dense_step bits w b x)), []) | _, _ => (s, []) end).

(** *** Networks of neurons and connections *)

(** If processes that send after receiving (neurons) are only connected to processes that send before
    receiving (connections) or do not send at all, nothing ever waits in a circle. *)
Theorem alternating_network_no_feedback : forall (St : Type) (models : list (pmodel St)) wires,
  (forall w m, In w wires -> late_wire models w -> nth_error models (fst (w_dst w)) = Some m -> late m = []) ->
  ~ (exists C, feedback models wires C).
Proof.
  intros St models wires H (C & (i & Ci) & F).
  destruct (F i Ci) as (w & Hw & E & Cs & (m & Hm & Hl)).
  destruct (F _ Cs) as (w' & Hw' & E' & Cs' & L').
  assert (late m = []) as Z. { apply (H w' m Hw' L'). rewrite E'. auto. }
  rewrite Z in Hl. destruct Hl.
Qed.

(** Two layers connected in both directions through Dense: it runs, for any number of steps, any weights,
    thresholds and channel sizes, and computes its equations. *)
Definition recurrent_models (a b : nat) : list (pmodel vars) := [lif_proc a; dense_proc a; lif_proc b; dense_proc b].
Definition recurrent_wires : list wire :=
  [mkWire (0, 0) (1, 0) []; mkWire (1, 0) (2, 0) []; mkWire (2, 0) (3, 0) []; mkWire (3, 0) (0, 0) []].

Lemma recurrent_wf a b : wf (recurrent_models a b) recurrent_wires.
Proof.
  split.
  - intros w [<-|[<-|[<-|[<-|[]]]]]; cbn; (eexists; split; [reflexivity|cbn; auto]).
  - intros w [<-|[<-|[<-|[<-|[]]]]]; cbn; (eexists; split; [reflexivity|cbn; auto]).
  - intros m [<-|[<-|[<-|[<-|[]]]]]; cbn; constructor; auto; constructor.
  - intros m s [<-|[<-|[<-|[<-|[]]]]]; cbn; auto; destruct s; auto.
  - intros m s xs [<-|[<-|[<-|[<-|[]]]]]; cbn; destruct s; auto; destruct xs as [|x [|y r]]; auto.
Qed.

Theorem recurrent_network_runs : forall a b dom cap n ss,
  0 < cap -> length ss = 4 ->
  exists ss', sync_run (recurrent_models a b) recurrent_wires n ss ss' /\
    inevitable (enext (recurrent_models a b) recurrent_wires dom cap n)
               (fun y => y = idle recurrent_wires n ss') (idle recurrent_wires 0 ss).
Proof.
  intros a b dom cap n ss Hc L. apply network_computes_equations; auto.
  - apply recurrent_wf.
  - apply alternating_network_no_feedback. intros w m [<-|[<-|[<-|[<-|[]]]]] (m' & Hm' & HL) Hm; cbn in *;
      injection Hm as <-; auto; injection Hm' as <-; destruct HL.
Qed.

(** Two layers connected in both directions without a connection process in between: neither of them ever
    completes a time step. *)
Definition direct_wires : list wire := [mkWire (0, 0) (1, 0) []; mkWire (1, 0) (0, 0) []].
Theorem direct_recurrence_deadlocks : forall a dom cap n ss x,
  length ss = 2 -> eruns [lif_proc a; lif_proc a] direct_wires dom cap n (idle direct_wires 0 ss) x ->
  forall i y, nth_error (comps x) i = Some y -> finished y = 0.
Proof.
  intros a dom cap n ss x L R i y Hy.
  assert (wf [lif_proc a; lif_proc a] direct_wires) as WF.
  { split.
    - intros w [<-|[<-|[]]]; cbn; (eexists; split; [reflexivity|cbn; auto]).
    - intros w [<-|[<-|[]]]; cbn; (eexists; split; [reflexivity|cbn; auto]).
    - intros m [<-|[<-|[]]]; cbn; constructor; auto; constructor.
    - intros m s [<-|[<-|[]]]; cbn; auto.
    - intros m s xs [<-|[<-|[]]]; cbn; destruct s; auto; destruct xs as [|z [|z' r]]; auto. }
  assert (length (comps x) = 2) as L2.
  { assert (forall x z, eruns [lif_proc a; lif_proc a] direct_wires dom cap n x z -> length (comps x) = 2 -> length (comps z) = 2) as G.
    { induction 1; auto. intros Lx. apply IHeruns. destruct H as [j Hj]. inversion Hj; subst; cbn; rewrite upd_length; auto. }
    eapply G; eauto. cbn. rewrite map_length. auto. }
  assert (i < 2) as Hi. { rewrite <- L2. apply nth_error_Some. congruence. }
  eapply (feedback_deadlocks vars _ direct_wires dom cap n ss (fun i => i < 2) WF); eauto.
  split; [exists 0; lia|].
  intros j Hj. destruct j as [|[|j]]; [| |lia].
  - exists (mkWire (1, 0) (0, 0) []). cbn. split; auto. split; auto. split; auto.
    exists (lif_proc a). cbn. auto.
  - exists (mkWire (0, 0) (1, 0) []). cbn. split; auto. split; auto. split; auto.
    exists (lif_proc a). cbn. auto.
Qed.

(** *** source -> Dense -> LIF -> sink, end to end *)
Section Pipeline.
Variables (P : Lif_Model.params) (bits : Z) (w : list (list Z)) (data : list vec) (k m : nat).
(** k inputs, m neurons *)
Definition pipeline : list (pmodel vars) := [source_proc; dense_proc k; lif_proc m; sink_proc m].
Definition pipeline_wires : list wire := [mkWire (0, 0) (1, 0) []; mkWire (1, 0) (2, 0) []; mkWire (2, 0) (3, 0) []].

(** The input of the neurons in the n-th step (n = 0, 1, ...): the weighted input of the step before. *)
Definition input_at (b0 : vec) (n : nat) : vec :=
  match n with O => b0 | S n' => Conn_Model.accumulate bits w (nth (n' mod length data) data []) end.
(** Neurons and spikes after n steps *)
Fixpoint neurons (l0 : list Lif_Model.lif) (b0 : vec) (n : nat) : list Lif_Model.lif :=
  match n with O => l0 | S n' => fst (lif_layer P (neurons l0 b0 n') (input_at b0 n')) end.
Definition spikes_at (l0 : list Lif_Model.lif) (b0 : vec) (n : nat) : vec :=
  snd (lif_layer P (neurons l0 b0 n) (input_at b0 n)).

Definition pipeline_state (l0 : list Lif_Model.lif) (b0 : vec) (buf : list vec) (n : nat) : list vars :=
  [VSource (S n) data;
   VDense bits w (input_at b0 n);
   VLif P (neurons l0 b0 n);
   VSink (S n) (Io_Model.sink_run 1 buf (map (spikes_at l0 b0) (seq 0 n)))].

Lemma vadd_zero s : vadd (repeat 0%Z (length s)) s = s.
Proof. unfold vadd. induction s; cbn; auto. f_equal; auto. Qed.
Lemma vadd_zero' n s : length s = n -> vadd (repeat 0%Z n) s = s.
Proof. intros <-. apply vadd_zero. Qed.
Lemma sink_run_snoc (t : nat) (buf xs : list vec) (x : vec) : Io_Model.sink_run t buf (xs ++ [x]) =
  Io_Model.sink_recv (t + length xs) (Io_Model.sink_run t buf xs) x.
Proof.
  revert t buf. induction xs; intros t buf; cbn; [f_equal; lia|]. rewrite IHxs. f_equal. lia.
Qed.

Hypothesis Hdata : data <> [] /\ Forall (fun x => length x = k) data.
Hypothesis Hw : length w = m.

Lemma accumulate_length s : length (Conn_Model.accumulate bits w s) = m.
Proof. unfold Conn_Model.accumulate, Conn_Model.mat_dot, Conn_Model.mat_cols. destruct (0 <? bits)%Z; rewrite map_length; auto. Qed.
Lemma input_length b0 n : length b0 = m -> length (input_at b0 n) = m.
Proof. destruct n; cbn; auto. intros _. apply accumulate_length. Qed.
Lemma neurons_length l0 b0 n : length l0 = m -> length b0 = m -> length (neurons l0 b0 n) = m.
Proof.
  intros L B. induction n; cbn; auto. rewrite map_length, combine_length, IHn, input_length; auto. lia.
Qed.

Lemma pipeline_step l0 b0 buf n : length l0 = m -> length b0 = m ->
  exists o, sync_step pipeline pipeline_wires (pipeline_state l0 b0 buf n) o (pipeline_state l0 b0 buf (S n)).
Proof.
  intros L B.
  pose (src := nth (n mod length data) data []).
  assert (length src = k) as Hs.
  { destruct Hdata as [D1 D2]. rewrite Forall_forall in D2. apply D2. apply nth_In. apply Nat.mod_upper_bound.
    destruct data; [congruence|discriminate]. }
  assert (length (spikes_at l0 b0 n) = m) as Hsp.
  { unfold spikes_at, lif_layer. cbn. rewrite map_length, combine_length, neurons_length, input_length; auto. lia. }
  exists (fun i p => match i with 0 => src | 1 => input_at b0 n | 2 => spikes_at l0 b0 n | _ => [] end).
  split.
  - cbn. auto.
  - intros i mm s Hm Hs'. destruct i as [|[|[|[|i]]]]; cbn in *; try (destruct i; discriminate);
      injection Hm as <-; injection Hs' as <-; cbn; auto.
  - intros i mm s Hm Hs'. destruct i as [|[|[|[|i]]]]; cbn in *; try (destruct i; discriminate);
      injection Hm as <-; injection Hs' as <-; cbn; auto.
    + unfold Io_Model.source_send. do 2 f_equal. cbn. rewrite Nat.sub_0_r. auto.
    + change (map _ (combine (repeat 0%Z m) (input_at b0 n))) with (vadd (repeat 0%Z m) (input_at b0 n)). rewrite vadd_zero' by (rewrite input_length; auto). auto.
  - intros i mm s Hm Hs'. destruct i as [|[|[|[|i]]]]; cbn [pipeline pipeline_state nth_error] in *; try (destruct i; discriminate);
      injection Hm as <-; injection Hs' as <-; cbn [fst body source_proc dense_proc lif_proc sink_proc]; auto.
    + cbn -[vadd Conn_Model.accumulate]. rewrite vadd_zero' by auto. auto.
    + cbn -[lif_layer vadd]. rewrite vadd_zero' by (rewrite input_length; auto). auto.
    + match goal with |- context[in_values ?a ?b ?c ?d] => change (in_values a b c d) with [vadd (repeat 0%Z m) (spikes_at l0 b0 n)] end. cbv iota. rewrite vadd_zero' by auto.
      rewrite seq_S, map_app. cbn [map]. rewrite sink_run_snoc, map_length, seq_length. auto.
Qed.

Lemma pipeline_wf : wf pipeline pipeline_wires.
Proof.
  split.
  - intros x [<-|[<-|[<-|[]]]]; cbn; (eexists; split; [reflexivity|cbn; auto]).
  - intros x [<-|[<-|[<-|[]]]]; cbn; (eexists; split; [reflexivity|cbn; auto]).
  - intros x [<-|[<-|[<-|[<-|[]]]]]; cbn; repeat (constructor; auto).
  - intros x s [<-|[<-|[<-|[<-|[]]]]]; cbn; auto; destruct s; auto.
  - intros x s xs [<-|[<-|[<-|[<-|[]]]]]; cbn; destruct s; auto; destruct xs as [|z [|z' r]]; auto.
Qed.
Lemma pipeline_feeds_forward : ~ (exists C, feedback pipeline pipeline_wires C).
Proof.
  apply alternating_network_no_feedback. intros x mm [<-|[<-|[<-|[]]]] (m' & Hm' & HL) Hm; cbn in *;
    injection Hm as <-; auto; injection Hm' as <-; destruct HL.
Qed.
Lemma pipeline_sync l0 b0 buf n j : length l0 = m -> length b0 = m ->
  sync_run pipeline pipeline_wires n (pipeline_state l0 b0 buf j) (pipeline_state l0 b0 buf (j + n)).
Proof.
  intros L B. revert j. induction n; intros j.
  - rewrite Nat.add_0_r. constructor.
  - destruct (pipeline_step l0 b0 buf j L B) as [o S]. econstructor; eauto. replace (j + Datatypes.S n) with (Datatypes.S j + n) by lia. auto.
Qed.
End Pipeline.

(** Data [data] from a ring buffer through a Dense with weights [w] to [m] LIF neurons and into a ring buffer:
    after [n] steps, under every schedule, the sink holds in column (t-1) mod length the spikes of step t,
    where the neurons got in step 1 the initial buffer of the Dense and in step t > 1 the weighted data of
    step t-1. *)
Theorem pipeline_end_to_end : forall P bits w data k m l0 b0 buf dom cap n,
  data <> [] /\ Forall (fun x => length x = k) data -> length w = m -> length l0 = m -> length b0 = m -> 0 < cap ->
  inevitable (enext (pipeline k m) pipeline_wires dom cap n)
    (fun y => y = idle pipeline_wires n
       [VSource (S n) data;
        VDense bits w (input_at bits w data b0 n);
        VLif P (neurons P bits w data l0 b0 n);
        VSink (S n) (Io_Model.sink_run 1 buf (map (spikes_at P bits w data l0 b0) (seq 0 n)))])
    (idle pipeline_wires 0 [VSource 1 data; VDense bits w b0; VLif P l0; VSink 1 buf]).
Proof.
  intros P bits w data k m l0 b0 buf dom cap n Hd Hw L B Hc.
  destruct (network_computes_equations vars (pipeline k m) pipeline_wires dom cap n
    (pipeline_state P bits w data l0 b0 buf 0) (pipeline_wf k m) Hc (pipeline_feeds_forward k m) eq_refl) as (ss' & R & I).
  pose proof (pipeline_sync P bits w data k m Hd Hw l0 b0 buf n 0 L B) as R'.
  assert (ss' = pipeline_state P bits w data l0 b0 buf n) as ->.
  { eapply equations_deterministic; [apply (pipeline_wf k m)|apply pipeline_feeds_forward| |exact R|exact R']. auto. }
  exact I.
Qed.

Lemma nth_map_combine A C D (f : A * C -> D) j : forall (l : list A) (a : list C) x y,
  nth_error l j = Some x -> nth_error a j = Some y -> nth_error (map f (combine l a)) j = Some (f (x, y)).
Proof.
  induction j; intros [|x' l] [|y' a] x y H1 H2; try discriminate; cbn in *.
  - injection H1 as ->. injection H2 as ->. auto.
  - auto.
Qed.
(** The spikes, neuron by neuron: neuron j runs on its own inputs (C33). *)
Theorem pipeline_spikes : forall P bits w data m l0 b0 n j s0,
  length w = m -> length l0 = m -> length b0 = m -> nth_error l0 j = Some s0 ->
  let inp i := nth j (input_at bits w data b0 i) 0%Z in
  nth_error (spikes_at P bits w data l0 b0 n) j =
    Some (if snd (Lif_Model.run_spk P (Lif_Model.history P s0 (map (fun i => Lif_Model.Step (inp i)) (seq 0 n))) (inp n))
          then 1%Z else 0%Z).
Proof.
  intros P bits w data m l0 b0 n j s0 Hw L B Hj inp.
  assert (forall i, nth_error (input_at bits w data b0 i) j = Some (inp i)) as HI.
  { intros i. apply nth_error_nth'. rewrite (input_length bits w data m Hw b0 i B), <- L. apply nth_error_Some. congruence. }
  assert (forall n, nth_error (neurons P bits w data l0 b0 n) j =
    Some (Lif_Model.history P s0 (map (fun i => Lif_Model.Step (inp i)) (seq 0 n)))) as HN.
  { induction n0; cbn [neurons]; [auto|]. unfold lif_layer. cbn [fst]. rewrite (nth_map_combine _ _ _ _ _ _ _ _ _ IHn0 (HI n0)).
    rewrite seq_S, map_app. unfold Lif_Model.history. rewrite fold_left_app. auto. }
  unfold spikes_at, lif_layer. cbn [snd]. rewrite (nth_map_combine _ _ _ _ _ _ _ _ _ (HN n) (HI n)). auto.
Qed.

(** Non-trivial instance: two inputs, one neuron with threshold 1 * 64 and full decay, three steps. *)
Example pipeline_instance :
  let P := {| Lif_Model.du := 4096; Lif_Model.dv := 4096; Lif_Model.bias_mant := 0; Lif_Model.bias_exp := 0; Lif_Model.adt := 16 |} in
  let n0 := {| Lif_Model.u := 0; Lif_Model.v := 0; Lif_Model.vth := 2; Lif_Model.eff := None |}%Z in
  map (spikes_at P 0 [[1; 2]]%Z [[1; 0]; [1; 1]; [0; 1]]%Z [n0] [0%Z]) (seq 0 4) = [[0]; [0]; [1]; [0]]%Z.
Proof. vm_compute. reflexivity. Qed.
