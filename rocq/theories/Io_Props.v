(** C43, C44, C45. *)
From Coq Require Import Arith List Lia.
From Verif Require Import Io_Model.
Import ListNotations.

Section Buf.
Variable A : Type.
Implicit Types (x : A) (l buf xs vs : list A).

Lemma put_length l : forall i x, length (put i x l) = length l.
Proof. induction l as [|y l IH]; intros [|i] x; simpl; auto. Qed.
Lemma put_same l : forall i x, i < length l -> nth_error (put i x l) i = Some x.
Proof. induction l as [|y l IH]; intros [|i] x H; simpl in *; try lia; auto. apply IH. lia. Qed.
Lemma put_other l : forall i j x, i <> j -> nth_error (put i x l) j = nth_error l j.
Proof. induction l as [|y l IH]; intros [|i] [|j] x H; simpl in *; try lia; auto. Qed.

Lemma nth_error_ext' l1 : forall l2, (forall i, nth_error l1 i = nth_error l2 i) -> l1 = l2.
Proof.
  induction l1 as [|x l1 IH]; intros [|y l2] H; auto.
  - specialize (H 0). discriminate.
  - specialize (H 0). discriminate.
  - pose proof (H 0) as E. injection E as ->. f_equal. apply IH. intro i. apply (H (S i)).
Qed.

Lemma sink_run_snoc xs : forall t buf x, sink_run t buf (xs ++ [x]) = sink_recv (t + length xs) (sink_run t buf xs) x.
Proof.
  induction xs as [|y xs IH]; intros t buf x; simpl.
  - rewrite Nat.add_0_r. auto.
  - rewrite IH. f_equal. lia.
Qed.
Lemma sink_run_length xs : forall t buf, length (sink_run t buf xs) = length buf.
Proof. induction xs as [|y xs IH]; intros; simpl; auto. rewrite IH. unfold sink_recv. apply put_length. Qed.

Lemma mod_eq_close N a b : 0 < N -> a mod N = b mod N -> a < b -> a + N <= b.
Proof.
  intros HN E L. pose proof (Nat.div_mod a N ltac:(lia)). pose proof (Nat.div_mod b N ltac:(lia)).
  rewrite E in *. assert (a / N < b / N) by nia. nia.
Qed.

(** A sink RingBuffer of length N that has received xs: the last N vectors are at their time step modulo N
    (in particular nothing older is left), positions not yet written hold what they held initially. *)
Theorem ring_sink_holds : forall init xs, 0 < length init ->
  length (sink_run 1 init xs) = length init /\
  (forall s, s < length xs -> length xs <= s + length init ->
     nth_error (sink_run 1 init xs) (s mod length init) = nth_error xs s) /\
  (forall i, length xs <= i -> nth_error (sink_run 1 init xs) i = nth_error init i).
Proof.
  intros init xs HN. split; [apply sink_run_length|]. set (N := length init) in *.
  induction xs as [|x xs IH] using rev_ind.
  - split; [simpl; lia|]. intros; auto.
  - destruct IH as [IH1 IH2]. rewrite sink_run_snoc, app_length. simpl length. unfold sink_recv.
    rewrite sink_run_length. fold N. replace (1 + length xs - 1) with (length xs) by lia. split.
    + intros s Hs HsN. destruct (Nat.eq_dec s (length xs)) as [->|Hne].
      * rewrite put_same by (rewrite sink_run_length; apply Nat.mod_upper_bound; lia).
        rewrite nth_error_app2 by lia. rewrite Nat.sub_diag. auto.
      * rewrite put_other. { rewrite IH1 by lia. rewrite nth_error_app1 by lia. auto. }
        intro E. symmetry in E. apply mod_eq_close in E; lia.
    + intros i Hi. destruct (Nat.lt_ge_cases i N) as [L|L].
      * rewrite put_other by (rewrite Nat.mod_small; lia). apply IH2. lia.
      * transitivity (@None A); [|symmetry; apply nth_error_None; auto].
        apply nth_error_None. rewrite put_length, sink_run_length. auto.
Qed.

Theorem ring_source_sends : forall (d : A) data t, data <> [] -> 1 <= t ->
  nth_error data ((t - 1) mod length data) = Some (source_send d data t) /\
  (t <= length data -> nth_error data (t - 1) = Some (source_send d data t)) /\
  source_send d data (t + length data) = source_send d data t.
Proof.
  intros d data t Hne Ht. assert (length data <> 0) by (destruct data; simpl; congruence).
  assert (nth_error data ((t - 1) mod length data) = Some (source_send d data t)) as E.
  { unfold source_send. apply nth_error_nth'. apply Nat.mod_upper_bound; auto. }
  split; auto. split.
  - intro L. rewrite Nat.mod_small in E by lia. auto.
  - unfold source_send. replace (t + length data - 1) with (t - 1 + 1 * length data) by lia. rewrite Nat.mod_add; auto.
Qed.

(** A source connected to a sink of the same length: after one period the sink holds the data. *)
Theorem ring_source_to_sink : forall (d : A) data init T, data <> [] -> length init = length data -> length data <= T ->
  sink_run 1 init (map (source_send d data) (seq 1 T)) = data.
Proof.
  intros d data init T Hne Hl HT. assert (length data <> 0) by (destruct data; simpl; congruence).
  destruct (ring_sink_holds init (map (source_send d data) (seq 1 T))) as [L [R _]]; [lia|].
  rewrite map_length, seq_length in R. rewrite Hl in *.
  apply nth_error_ext'. intro i. destruct (Nat.lt_ge_cases i (length data)) as [Hi|Hi].
  2: { rewrite (proj2 (nth_error_None _ _)) by lia. symmetry. apply nth_error_None. lia. }
  (* the last time slot s < T with s mod N = i *)
  set (N := length data) in *.
  assert (exists s, s < T /\ T <= s + N /\ s mod N = i) as [s [S1 [S2 S3]]].
  { pose proof (Nat.div_mod T N ltac:(lia)) as D. pose proof (Nat.mod_upper_bound T N ltac:(lia)) as B.
    destruct (Nat.lt_ge_cases i (T mod N)) as [C|C].
    - exists (i + (T / N) * N). split; [nia|]. split; [nia|]. rewrite Nat.mod_add by lia. apply Nat.mod_small; lia.
    - assert (T / N >= 1) by nia. exists (i + (T / N - 1) * N).
      split; [nia|]. split; [nia|]. rewrite Nat.mod_add by lia. apply Nat.mod_small; lia. }
  rewrite <- S3, R by auto. rewrite nth_error_map.
  rewrite (nth_error_nth' (seq 1 T) 0) by (rewrite seq_length; auto). rewrite seq_nth by auto. cbn [option_map].
  destruct (ring_source_sends d data (1 + s)) as [E _]; auto; [lia|].
  replace (1 + s - 1) with s in E by lia. fold N in E. rewrite <- E. auto.
Qed.

(** ** C44 *)
(** the steps in which Read samples: offset+1, offset+1+interval, ... *)
Definition sample_step (interval offset k : nat) : nat := offset mod interval + 1 + k * interval.

Lemma sel_iff I o T K : 0 < I -> o < I -> (forall k, o + k * I < T <-> k < K) ->
  (T mod I = o <-> T = o + K * I).
Proof.
  intros HI Ho HK. split.
  - intro E. pose proof (Nat.div_mod T I ltac:(lia)) as D. rewrite E in D.
    assert (~ (T / I < K)) by (intro L; apply HK in L; lia).
    destruct (Nat.lt_ge_cases K (T / I)) as [L|L]; [|nia].
    assert (o + K * I < T) by nia. apply HK in H0. lia.
  - intros ->. rewrite Nat.mod_add by lia. apply Nat.mod_small; auto.
Qed.
Lemma sel_next I o T K : 0 < I -> (forall k, o + k * I < T <-> k < K) ->
  (T = o + K * I -> forall k, o + k * I < S T <-> k < S K) /\ (T <> o + K * I -> forall k, o + k * I < S T <-> k < K).
Proof.
  intros HI HK. split.
  - intros -> k. specialize (HK k). nia.
  - intros Hne k. specialize (HK k) as Hk. destruct (Nat.eq_dec (o + k * I) T) as [E|]; [|lia].
    split; [intros _|lia]. destruct (Nat.lt_ge_cases k K) as [|L]; auto. exfalso.
    assert (k <> K) by (intros ->; lia). assert (o + K * I < T) as Q by nia. apply HK in Q. lia.
Qed.

Lemma read_run_snoc i o vs : forall t s v, read_run i o t s (vs ++ [v]) = read_step i o (t + length vs) (read_run i o t s vs) v.
Proof.
  induction vs as [|y vs IH]; intros t s v; simpl.
  - rewrite Nat.add_0_r. auto.
  - rewrite IH. f_equal. lia.
Qed.

(** After T steps in which the variable had the values vs: [K] samples were taken, the k-th at
    sample_step k, and the last (up to) B of them are in the buffer, each at its number modulo B; the
    rest of the buffer is as it was. *)
Theorem read_samples : forall interval offset init vs, 0 < interval -> 0 < length init ->
  exists K, (forall k, sample_step interval offset k <= length vs <-> k < K) /\
    let s := read_run interval offset 1 (mkRead init 0) vs in
    length (rd_data s) = length init /\
    (forall k, k < K -> K <= k + length init ->
       nth_error (rd_data s) (k mod length init) = nth_error vs (sample_step interval offset k - 1)) /\
    (forall i, K <= i -> nth_error (rd_data s) i = nth_error init i).
Proof.
  intros interval offset init vs HI HN. set (N := length init) in *. set (o := offset mod interval).
  assert (o < interval) as Ho by (apply Nat.mod_upper_bound; lia).
  assert (let s := read_run interval offset 1 (mkRead init 0) vs in
    (forall k, o + k * interval < length vs <-> k < rd_counter s) /\
    length (rd_data s) = N /\
    (forall k, k < rd_counter s -> rd_counter s <= k + N ->
       nth_error (rd_data s) (k mod N) = nth_error vs (o + k * interval)) /\
    (forall i, rd_counter s <= i -> nth_error (rd_data s) i = nth_error init i)) as G.
  { induction vs as [|v vs IH] using rev_ind.
    - cbn. split; [intro k; lia|]. split; auto. split; [lia|auto].
    - cbn zeta in *. rewrite read_run_snoc, app_length. set (s := read_run interval offset 1 (mkRead init 0) vs) in *.
      destruct IH as [I1 [I2 [I3 I4]]]. replace (length vs + length [v]) with (S (length vs)) by (simpl; lia).
      destruct (sel_next interval o (length vs) (rd_counter s) HI I1) as [N1 N2].
      pose proof (sel_iff interval o (length vs) (rd_counter s) HI Ho I1) as SI.
      unfold read_step. replace (1 + length vs - 1) with (length vs) by lia. fold o.
      destruct (Nat.eqb_spec (length vs mod interval) o) as [E|E].
      + apply SI in E. cbn [rd_counter rd_data]. split; [apply N1; auto|]. split; [rewrite put_length; auto|]. rewrite I2. split.
        * intros k Hk HkN. destruct (Nat.eq_dec k (rd_counter s)) as [->|Hne].
          -- rewrite put_same by (rewrite I2; apply Nat.mod_upper_bound; lia). rewrite <- E.
             rewrite nth_error_app2 by lia. rewrite Nat.sub_diag. auto.
          -- rewrite put_other.
             { rewrite I3 by lia. rewrite nth_error_app1; auto. apply I1. lia. }
             intro Q. symmetry in Q. apply mod_eq_close in Q; lia.
        * intros i Hi. destruct (Nat.lt_ge_cases i N) as [L|L].
          -- rewrite put_other by (rewrite Nat.mod_small; lia). apply I4. lia.
          -- transitivity (@None A); [|symmetry; apply nth_error_None; auto].
             apply nth_error_None. rewrite put_length, I2. auto.
      + assert (length vs <> o + rd_counter s * interval) as Hne by (intro Q; apply E, SI; auto).
        split; [apply N2; auto|]. split; auto. split; auto.
        intros k Hk HkN. rewrite I3 by auto. rewrite nth_error_app1; auto. apply I1. auto. }
  cbn zeta in G. set (s := read_run interval offset 1 (mkRead init 0) vs) in *. destruct G as [G1 [G2 [G3 G4]]].
  exists (rd_counter s). unfold sample_step. fold o. split.
  - intro k. rewrite <- G1. lia.
  - cbn zeta. split; auto. split; auto. intros k K1 K2. rewrite G3 by auto. f_equal. lia.
Qed.
End Buf.

Example ring_demo : sink_run 1 [0;0;0] [10;20;30;40] = [40;20;30] /\ sink_run 1 [0;0;0] (map (source_send 0 [7;8;9]) (seq 1 5)) = [7;8;9].
Proof. split; reflexivity. Qed.
Example read_demo : rd_data (read_run 2 3 1 (mkRead [0;0;0] 0) [1;2;3;4;5;6;7;8;9]) = [8;4;6].
Proof. reflexivity. Qed.

(** ** C45 *)
Section Load.
Variables A G C : Type.

Lemma wrap_id D K i : 0 < D -> i = K mod D -> (if S i =? D then 0 else S i) = S K mod D.
Proof.
  intros HD ->. pose proof (Nat.div_mod K D ltac:(lia)) as E. pose proof (Nat.mod_upper_bound K D ltac:(lia)) as B.
  set (r := K mod D) in *. set (q := K / D) in *.
  replace (S K) with (S r + q * D) by nia. rewrite Nat.mod_add by lia.
  destruct (Nat.eqb_spec (S r) D) as [->|]; [rewrite Nat.mod_same; lia|rewrite Nat.mod_small; lia].
Qed.

Lemma sload_inv (ds : list (A * G)) interval offset v0 g0 n : 0 < interval -> ds <> [] ->
  let o := offset mod interval in
  let s := sload_at ds interval offset (mkSload 0 g0 v0) n in
  exists K, (forall k, o + k * interval < n <-> k < K) /\ sl_id s = K mod length ds /\
    match K with O => sl_gt s = g0 /\ sl_var s = v0 | S k => nth_error ds (k mod length ds) = Some (sl_var s, sl_gt s) end.
Proof.
  intros HI Hne o. assert (0 < length ds) as HD by (destruct ds; simpl; [congruence|lia]).
  assert (o < interval) as Ho by (apply Nat.mod_upper_bound; lia).
  induction n as [|n IH].
  - exists 0. cbn. split; [intro; lia|]. split; [rewrite Nat.mod_small; lia|auto].
  - cbn zeta in *. destruct IH as [K [I1 [I2 I3]]]. cbn [sload_at]. set (s := sload_at ds interval offset (mkSload 0 g0 v0) n) in *.
    destruct (sel_next interval o n K HI I1) as [N1 N2]. pose proof (sel_iff interval o n K HI Ho I1) as SI.
    unfold sload_step. cbn [snd]. replace (S n - 1) with n by lia. fold o.
    destruct (Nat.eqb_spec (n mod interval) o) as [E|E].
    + apply SI in E. exists (S K). split; [apply N1; auto|].
      destruct (nth_error ds (sl_id s)) as [[x g]|] eqn:Ed.
      * cbn [sl_id sl_gt sl_var]. split; [apply wrap_id; auto|]. rewrite <- I2. auto.
      * exfalso. apply nth_error_None in Ed. rewrite I2 in Ed. pose proof (Nat.mod_upper_bound K (length ds) ltac:(lia)). lia.
    + exists K. split; [apply N2; intro Q; apply E, SI; auto|]. auto.
Qed.

(** StateDataloader: during the spiking phase of step t the connected variable holds, and the ground-truth
    port sends, sample number k (wrapping around the data set) for exactly [interval] steps, starting right
    after step offset+1+k*interval; before that the initial values. *)
Theorem state_loader_presents : forall (ds : list (A * G)) interval offset v0 g0 t, 0 < interval -> ds <> [] -> 1 <= t ->
  let s := sload_at ds interval offset (mkSload 0 g0 v0) (t - 1) in
  let sent := fst (sload_step ds interval offset t s) in
  let load := fun k => offset mod interval + 1 + k * interval in
  (t <= load 0 -> sl_var s = v0 /\ sent = g0) /\
  (forall k, load k < t <= load (S k) -> nth_error ds (k mod length ds) = Some (sl_var s, sent)).
Proof.
  intros ds interval offset v0 g0 t HI Hne Ht. cbn zeta. unfold sload_step. cbn [fst].
  destruct (sload_inv ds interval offset v0 g0 (t - 1) HI Hne) as [K [I1 [_ I3]]]. cbn zeta in *.
  set (s := sload_at _ _ _ _ _) in *. split.
  - intro L. destruct K as [|K]; [tauto|]. assert (0 < S K) as Q by lia. apply I1 in Q. lia.
  - intros k L. assert (k < K) by (apply I1; lia). assert (~ S k < K) by (intro Q; apply I1 in Q; lia).
    assert (K = S k) as -> by lia. auto.
Qed.

Lemma nth_pad (zero : C) I x j : j < I -> nth j (pad zero I x) zero = nth j x zero.
Proof.
  intro H. unfold pad. destruct (Nat.leb_spec I (length x)).
  - rewrite <- (firstn_skipn I x) at 2. rewrite app_nth1; auto. rewrite firstn_length. lia.
  - destruct (Nat.lt_ge_cases j (length x)).
    + apply app_nth1; auto.
    + rewrite app_nth2 by auto. rewrite (nth_overflow x) by auto. apply nth_repeat.
Qed.

Lemma pload_inv (zero : C) (ds : list (list C * G)) interval offset g0 d0 n : 0 < interval -> ds <> [] ->
  (forall j, nth j d0 zero = zero) ->
  let o := offset mod interval in
  let s := pload_at zero ds interval offset (mkPload 0 g0 d0 0) n in
  exists K, (forall k, o + k * interval < n <-> k < K) /\ pl_id s = K mod length ds /\
    match K with
    | O => pl_gt s = g0 /\ pl_data s = d0
    | S k => exists x, nth_error ds (k mod length ds) = Some (x, pl_gt s) /\ pl_data s = pad zero interval x /\
               pl_time s = n - 1 - (o + k * interval)
    end.
Proof.
  intros HI Hne Hz o. assert (0 < length ds) as HD by (destruct ds; simpl; [congruence|lia]).
  assert (o < interval) as Ho by (apply Nat.mod_upper_bound; lia).
  induction n as [|n IH].
  - exists 0. cbn. split; [intro; lia|]. split; [rewrite Nat.mod_small; lia|auto].
  - cbn zeta in *. destruct IH as [K [I1 [I2 I3]]]. cbn [pload_at]. set (s := pload_at zero ds interval offset (mkPload 0 g0 d0 0) n) in *.
    destruct (sel_next interval o n K HI I1) as [N1 N2]. pose proof (sel_iff interval o n K HI Ho I1) as SI.
    unfold pload_step. cbn [snd pl_id]. replace (S n - 1) with n by lia. fold o.
    destruct (Nat.eqb_spec (n mod interval) o) as [E|E].
    + apply SI in E. exists (S K). split; [apply N1; auto|].
      destruct (nth_error ds (pl_id s)) as [[x g]|] eqn:Ed.
      * cbn [pl_id pl_gt pl_data pl_time]. split; [apply wrap_id; auto|]. rewrite <- I2. exists x. split; auto. split; auto. lia.
      * exfalso. apply nth_error_None in Ed. rewrite I2 in Ed. pose proof (Nat.mod_upper_bound K (length ds) ltac:(lia)). lia.
    + exists K. split; [apply N2; intro Q; apply E, SI; auto|]. cbn [pl_id pl_gt pl_data pl_time]. split; auto.
      destruct K as [|k]; auto. destruct I3 as [x [X1 [X2 X3]]]. exists x. split; auto. split; auto. rewrite X3.
      assert (o + k * interval < n) by (apply I1; lia). lia.
Qed.

(** SpikeDataloader: sample number k is sent column by column, column j in step offset+2+k*interval+j
    (zero when the sample is shorter than the interval; a longer sample is cut), with its ground truth. *)
Theorem spike_loader_presents : forall (zero : C) (ds : list (list C * G)) interval offset g0 t, 0 < interval -> ds <> [] -> 1 <= t ->
  let s := pload_at zero ds interval offset (mkPload 0 g0 (repeat zero interval) 0) (t - 1) in
  let sent := fst (pload_step zero ds interval offset t s) in
  (t <= offset mod interval + 1 -> sent = (zero, g0)) /\
  (forall k j, j < interval -> t = offset mod interval + 2 + k * interval + j ->
     exists x g, nth_error ds (k mod length ds) = Some (x, g) /\ sent = (nth j x zero, g)).
Proof.
  intros zero ds interval offset g0 t HI Hne Ht. cbn zeta. unfold pload_step. cbn [fst].
  assert (forall j, nth j (repeat zero interval) zero = zero) as Hz by (intro; apply nth_repeat).
  destruct (pload_inv zero ds interval offset g0 (repeat zero interval) (t - 1) HI Hne Hz) as [K [I1 [_ I3]]]. cbn zeta in *.
  set (s := pload_at _ _ _ _ _ _) in *. split.
  - intro L. destruct K as [|K]; [|assert (0 < S K) as Q by lia; apply I1 in Q; lia].
    destruct I3 as [-> ->]. rewrite Hz. auto.
  - intros k j Hj ->. assert (k < K) by (apply I1; lia). assert (~ S k < K) by (intro Q; apply I1 in Q; lia).
    assert (K = S k) as -> by lia. destruct I3 as [x [X1 [X2 X3]]]. exists x, (pl_gt s). split; auto.
    rewrite X2, X3. f_equal. replace (offset mod interval + 2 + k * interval + j - 1 - 1 - (offset mod interval + k * interval)) with j by lia.
    rewrite Nat.mod_small by auto. apply nth_pad; auto.
Qed.
End Load.

Example state_loader_demo : map (fun t => sl_var (sload_at [(5, 1); (6, 2)] 3 1 (mkSload 0 0 0) (t - 1))) (seq 1 12) = [0;0;5;5;5;6;6;6;5;5;5;6].
Proof. reflexivity. Qed.
Example spike_loader_demo : map (fun t => fst (fst (pload_step 0 [([5;7], 1); ([1;2;3;4], 2)] 3 1 t (pload_at 0 [([5;7], 1); ([1;2;3;4], 2)] 3 1 (mkPload 0 0 [0;0;0] 0) (t - 1))))) (seq 1 9) = [0;0;5;7;0;1;2;3;5].
Proof. reflexivity. Qed.
Print Assumptions read_samples.
Print Assumptions spike_loader_presents.
