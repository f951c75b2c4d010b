(** C96: runs that show what the theorems of IoReset_Props.v leave open is really open *)
From Coq Require Import List Arith ZArith QArith Bool Lia.
From Verif Require Import Build_Model PyPorts_Model PyPorts_Props IoReset_Model IoReset_Spec IoReset_Proofs IoReset_Props.
Import ListNotations.
Open Scope nat_scope.

Definition leaves (x : value) (t : Z) (v w : value) : Prop := w = x.
Definition both (r : Q) : list client := [Resetter r 1 0; Reader 1 0].
Definition held_both (r : Q) : list held := [HReset (trunc r) 1 0; HRead 1 0].
Definition written (r : Q) : value := [0 + inject_Z (trunc r)]%Q.
Lemma both_created r : create_all (both r) = Some (held_both r).
Proof. reflexivity. Qed.

Ltac act c j H := eapply RRS in H; [|eapply (c value 2 same same _ j); first [reflexivity|cbn; lia]]; cbn [prog issued cl c2v v2c got ow var log] in H.
Ltac over := intros [|[|j]] L; [split; reflexivity|split; reflexivity|cbn in L; lia].
Ltac noown := cbn [log]; intros v V; repeat (destruct V as [V|V]; [discriminate V|]); destruct V.

(** a Reset and a Read of the same Var, due in the same step, race: in two runs from the same state, doing the same, the
    Read samples the value before and the value after the Reset *)
Lemma read_before_reset r x : exists v ts, run 1 (held_both r) (leaves x) x 1 v ts /\
  map (fun tk => obs tk 1) ts = [[x]] /\ v = written r.
Proof.
  pose proof (RR0 value 2 same same (requests 1 (held_both r) 1) x) as H0. unfold rinit in H0.
  act RRead 1 H0. act OCmdGet 1 H0. act OSend 1 H0.
  act RReadEnd 1 H0. act RWrite 0 H0. act OCmdSet 0 H0.
  act RData 0 H0. act OStore 0 H0. act RRead 0 H0.
  act OCmdGet 0 H0. act OSend 0 H0. act RReadEnd 0 H0.
  match type of H0 with rreach _ _ _ _ _ _ ?z => set (s := z) in H0 end.
  exists (var s), ([] ++ [Tick x (var s) (got s)]). split; [|split; reflexivity].
  apply (run_S 1 (held_both r) (leaves x) x 0 x [] x s); [apply run_0|reflexivity|split; [exact H0|noown]|over].
Qed.
Lemma read_after_reset r x : exists v ts, run 1 (held_both r) (leaves x) x 1 v ts /\
  map (fun tk => obs tk 1) ts = [[written r]] /\ v = written r.
Proof.
  pose proof (RR0 value 2 same same (requests 1 (held_both r) 1) x) as H0. unfold rinit in H0.
  act RWrite 0 H0. act OCmdSet 0 H0.
  act RData 0 H0. act OStore 0 H0. act RRead 0 H0.
  act OCmdGet 0 H0. act OSend 0 H0. act RReadEnd 0 H0.
  act RRead 1 H0. act OCmdGet 1 H0. act OSend 1 H0.
  act RReadEnd 1 H0.
  match type of H0 with rreach _ _ _ _ _ _ ?z => set (s := z) in H0 end.
  exists (var s), ([] ++ [Tick x (var s) (got s)]). split; [|split; reflexivity].
  apply (run_S 1 (held_both r) (leaves x) x 0 x [] x s); [apply run_0|reflexivity|split; [exact H0|noown]|over].
Qed.
Theorem reset_and_read_race_refuted : exists cs hs spk v0 ts1 ts2 v1 v2, create_all cs = Some hs /\
  run 1 hs spk v0 1 v1 ts1 /\ run 1 hs spk v0 1 v2 ts2 /\
  map before ts1 = map before ts2 /\ v1 = v2 /\ map (fun tk => obs tk 1) ts1 = [[[5%Q]]] /\ map (fun tk => obs tk 1) ts2 = [[[0%Q]]].
Proof.
  destruct (read_before_reset 0%Q [5%Q]) as (v1 & ts1 & A1 & A2 & A3). destruct (read_after_reset 0%Q [5%Q]) as (v2 & ts2 & B1 & B2 & B3).
  exists (both 0), (held_both 0), (leaves [5%Q]), [5%Q], ts1, ts2, v1, v2.
  split; [reflexivity|]. split; [exact A1|]. split; [exact B1|]. split; [|split; [congruence|split; [exact A2|exact B2]]].
  assert (forall v ts, run 1 (held_both 0) (leaves [5%Q]) [5%Q] 1 v ts -> map before ts = [[5%Q]]) as U.
  { intros v ts R. destruct (run_ticks _ _ _ _ _ _ _ R) as (L & _ & T). destruct ts as [|tk [|? ?]]; try discriminate L.
    destruct (T 0 tk eq_refl) as (E & _). unfold leaves in E. simpl. rewrite E. reflexivity. }
  rewrite (U _ _ A1), (U _ _ B1). reflexivity.
Qed.
(** Reset(reset_value=0.5) is accepted but resets to 0 *)
Theorem reset_fraction_refuted : exists hs v ts, create_all (both (1 # 2)) = Some hs /\
  run 1 hs (leaves [5%Q]) [5%Q] 1 v ts /\ resets_at (both (1 # 2)) 1 0 /\ v = [0%Q].
Proof.
  destruct (read_before_reset (1 # 2) [5%Q]) as (v & ts & A & B & E). exists (held_both (1 # 2)), v, ts.
  split; [reflexivity|]. split; [exact A|]. split; [|exact E].
  exists (Resetter (1 # 2) 1 0). split; [reflexivity|]. split; [exact I|]. exists 0%Z. reflexivity.
Qed.
(** The guards: Reset(interval=3, offset=7) is due in steps 2, 5, 8 ... *)
Example reset_demo : filter (fun t => post_guard (HReset 0 3 (7 mod 3)) t) [1; 2; 3; 4; 5; 6; 7; 8]%Z = [2; 5; 8]%Z /\
  due (Resetter 0 3 7) 2 /\ ~ due (Resetter 0 3 7) 3 /\ reset_to 2 (-(5 # 2)) [-2 # 1; -4 # 2].
Proof.
  split; [reflexivity|]. split; [exists (-2)%Z; reflexivity|]. split; [intros [k K]; lia|].
  split; [reflexivity|]. exists (-2)%Z. split; [split; [split|]; vm_compute; congruence|].
  intros q [<-|[<-|[]]]; reflexivity.
Qed.
