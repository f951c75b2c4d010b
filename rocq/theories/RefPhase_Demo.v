(** C98: cases that meet the hypotheses, and the limits *)
From Coq Require Import List Arith ZArith Bool Relations Lia.
From Verif Require Import RefPhase_Model RefPhase_Spec RefPhase_Inv RefPhase_Props RefPhase_Live.
Import ListNotations.

(** Process 0 owns Var 0 and notes its value in Var 1 in every spiking phase; process 1 refers to Var 0 through RefPort 0. *)
Definition note : code := GetOwn 0 (fun x => PutOwn 1 x Done).
Definition two (post1 : code) (spk2 : code) : net :=
  Net 2 (fun _ => 1) (fun _ => 0) (fun _ => 0)
    (fun p f t => match p, f with
                  | 0, Spk => note
                  | 1, Post => if t =? 1 then post1 else Done
                  | 1, Spk => if t =? 2 then spk2 else Done
                  | _, _ => Done
                  end) 64 (fun _ => 0%Z).
Definition write_only : code := WriteRef 0 7 Done.
Definition write_and_wait : code := WriteRef 0 7 (ReadRef 0 (fun _ => Done)).

Ltac inv_code := repeat match goal with H : accesses _ _ |- _ => inversion H; clear H; subst | H : touches _ _ |- _ => inversion H; clear H; subst end.
Lemma acc_note r : ~ accesses note r.
Proof. intros H. unfold note in H. inv_code. Qed.
Lemma two_well_built post1 spk2 : (forall r, accesses post1 r -> True) -> (forall v, ~ touches post1 v) -> (forall v, ~ touches spk2 v) ->
  well_built (two post1 spk2).
Proof.
  intros _ T1 T2. split; [cbn; lia|]. split.
  - intros p f t r H. cbn. split; [|unfold owner; cbn; lia]. destruct p as [|[|p]]; cbn in H; [|reflexivity|inversion H].
    destruct f; try (inversion H; fail). elim (acc_note _ H).
  - intros p f t v H. cbn. destruct p as [|[|p]]; cbn in H; [reflexivity| |inversion H].
    destruct f; try (inversion H; fail); [destruct (t =? 2)|destruct (t =? 1)]; try (inversion H; fail); [elim (T2 _ H)|elim (T1 _ H)].
Qed.

(** building executions: a scheduler that follows instructions *)
Inductive instr := INext (f : phase) | ICmd (p : nat) | ICode (p : nat) | IArrive (r : nat) | IServe (r : nat).
Definition follows_b (f g : phase) : bool :=
  match f, g with
  | Start, Spk | Spk, Pre | Spk, Lrn | Pre, Lrn | Spk, Post | Lrn, Post | Spk, Spk | Lrn, Spk | Post, Spk | Spk, Host | Lrn, Host | Post, Host | Host, Spk => true
  | _, _ => false
  end.
Lemma follows_b_ok f g : follows_b f g = true -> follows f g.
Proof. destruct f, g; intros H; try discriminate H; constructor. Qed.
Definition is_nil {A} (l : list A) : bool := match l with [] => true | _ => false end.
Definition obey (N : net) (K : nat) (s : state) (i : instr) : option (label * state) :=
  match i with
  | INext f =>
      let m := (f, step_of f (snd (svc s))) in
      if follows_b (fst (svc s)) f && (negb (needs_answer (fst (svc s))) || forallb (answered s) (seq 0 (n N))) then
        Some (LNext m, State m (fun p => if p <? n N then cmds s p ++ [m] else cmds s p) (fun _ => false) (cur s) (pst s) (vars s) (fly s) (seen s) (reply s))
      else None
  | ICmd p =>
      match pst s p, cmds s p with
      | Poll, (f, t) :: l =>
          if (p <? n N) && (negb (polls (fst (cur s p))) || forallb (fun r => negb (owner N r =? p) || is_nil (seen s r)) (seq 0 K)) then
            Some (LCmd p (f, t), State (svc s) (upd (cmds s) p l) (answered s) (upd (cur s) p (f, t))
                    (upd (pst s) p (match f with Host => Poll | _ => Running (body N p f t) end)) (vars s) (fly s) (seen s) (reply s))
          else None
      | _, _ => None
      end
  | ICode p =>
      match pst s p with
      | Poll => None
      | Running Done => Some (LEnd p (cur s p), State (svc s) (cmds s) (upd (answered s) p true) (cur s) (upd (pst s) p Poll) (vars s) (fly s) (seen s) (reply s))
      | Running (GetOwn v k) => Some (LLook p v (vars s v), State (svc s) (cmds s) (answered s) (cur s) (upd (pst s) p (Running (k (vars s v)))) (vars s) (fly s) (seen s) (reply s))
      | Running (PutOwn v x k) => Some (LOwn p v x, State (svc s) (cmds s) (answered s) (cur s) (upd (pst s) p (Running k)) (upd (vars s) v x) (fly s) (seen s) (reply s))
      | Running (ReadRef r k) =>
          if length (fly s r) + length (seen s r) <? cap N then
            Some (LAsk r (cur s p), State (svc s) (cmds s) (answered s) (cur s) (upd (pst s) p (Waiting r k)) (vars s) (upd (fly s) r (fly s r ++ [AskGet (cur s p)])) (seen s) (reply s))
          else None
      | Running (WriteRef r x k) =>
          if length (fly s r) + length (seen s r) <? cap N then
            Some (LWrite r (cur s p) x, State (svc s) (cmds s) (answered s) (cur s) (upd (pst s) p (Running k)) (vars s) (upd (fly s) r (fly s r ++ [AskSet (cur s p) x])) (seen s) (reply s))
          else None
      | Waiting r k =>
          match reply s r with
          | Some x => Some (LRet r (cur s p) x, State (svc s) (cmds s) (answered s) (cur s) (upd (pst s) p (Running (k x))) (vars s) (fly s) (seen s) (upd (reply s) r None))
          | None => None
          end
      end
  | IArrive r =>
      match fly s r with
      | q :: l => Some (LArrive r, State (svc s) (cmds s) (answered s) (cur s) (pst s) (vars s) (upd (fly s) r l) (upd (seen s) r (seen s r ++ [q])) (reply s))
      | [] => None
      end
  | IServe r =>
      match pst s (owner N r), polls (fst (cur s (owner N r))), seen s r with
      | Poll, true, AskGet m :: l => Some (LGet r m (vars s (target N r)), State (svc s) (cmds s) (answered s) (cur s) (pst s) (vars s) (fly s) (upd (seen s) r l) (upd (reply s) r (Some (vars s (target N r)))))
      | Poll, true, AskSet m x :: l => Some (LSet r m x, State (svc s) (cmds s) (answered s) (cur s) (pst s) (upd (vars s) (target N r) x) (fly s) (upd (seen s) r l) (reply s))
      | _, _, _ => None
      end
  end.
Lemma obey_ok N K tr s i l s' : well_built N -> (forall p f t r, accesses (body N p f t) r -> r < K) -> exec true N tr s ->
  obey N K s i = Some (l, s') -> step true N s l s'.
Proof.
  intros W B E. destruct i as [f|p|p|r|r]; cbn [obey].
  - destruct (follows_b (fst (svc s)) f && _) eqn:C; [|discriminate]. intros H. injection H as <- <-. apply andb_true_iff in C. destruct C as [C1 C2].
    apply s_next; [apply follows_b_ok; exact C1|]. intros Na p L. rewrite Na in C2. cbn in C2. rewrite forallb_forall in C2. apply C2. apply in_seq. lia.
  - destruct (pst s p) eqn:P; try discriminate. destruct (cmds s p) as [|[f t] l0] eqn:C; [discriminate|].
    destruct ((p <? n N) && _) eqn:D; [|discriminate]. intros H. injection H as <- <-. apply andb_true_iff in D. destruct D as [D1 D2]. apply Nat.ltb_lt in D1.
    apply s_cmd; auto. intros _ Q r O. rewrite Q in D2. cbn in D2. rewrite forallb_forall in D2.
    destruct (le_lt_dec K r) as [X|X]; [apply (ports_exec _ _ _ _ K W B E r X)|]. specialize (D2 r ltac:(apply in_seq; lia)). rewrite O, Nat.eqb_refl in D2. cbn in D2.
    destruct (seen s r); [reflexivity|discriminate].
  - destruct (pst s p) as [|[|v k|v x k|r k|r x k]|r k] eqn:P; try discriminate.
    + intros H. injection H as <- <-. apply s_end. exact P.
    + intros H. injection H as <- <-. apply (s_look true N s p v k). exact P.
    + intros H. injection H as <- <-. apply (s_own true N s p v x k). exact P.
    + destruct (_ <? cap N) eqn:C; [|discriminate]. apply Nat.ltb_lt in C. intros H. injection H as <- <-. apply (s_ask true N s p r k); assumption.
    + destruct (_ <? cap N) eqn:C; [|discriminate]. apply Nat.ltb_lt in C. intros H. injection H as <- <-. apply (s_write true N s p r x k); assumption.
    + destruct (reply s r) as [x|] eqn:R; [|discriminate]. intros H. injection H as <- <-. apply (s_ret true N s p r k x); assumption.
  - destruct (fly s r) as [|q l0] eqn:F; [discriminate|]. intros H. injection H as <- <-. apply s_arrive. exact F.
  - destruct (pst s (owner N r)) eqn:P; try discriminate. destruct (polls (fst (cur s (owner N r)))) eqn:Q; [|discriminate].
    destruct (seen s r) as [|[m|m x] l0] eqn:Sn; [discriminate| |]; intros H; injection H as <- <-; [apply s_get|apply s_set]; assumption.
Qed.
Fixpoint schedule (N : net) (K : nat) (tr : list label) (s : state) (is : list instr) : option (list label * state) :=
  match is with
  | [] => Some (tr, s)
  | i :: r => match obey N K s i with Some (l, s') => schedule N K (tr ++ [l]) s' r | None => None end
  end.
Lemma schedule_ok N K : well_built N -> (forall p f t r, accesses (body N p f t) r -> r < K) ->
  forall is tr s tr' s', exec true N tr s -> schedule N K tr s is = Some (tr', s') -> exec true N tr' s'.
Proof.
  intros W B. induction is as [|i is IH]; intros tr s tr' s' E H; cbn in H; [injection H as <- <-; exact E|].
  destruct (obey N K s i) as [[l s1]|] eqn:O; [|discriminate]. apply (IH _ _ _ _ (e_S _ _ _ _ _ _ E (obey_ok _ _ _ _ _ _ _ W B E O)) H).
Qed.
Definition events (N : net) (K : nat) (is : list instr) : option (list label) := option_map fst (schedule N K [] (state0 N) is).
Lemma events_ok N K is tr : well_built N -> (forall p f t r, accesses (body N p f t) r -> r < K) -> events N K is = Some tr -> exists s, exec true N tr s.
Proof.
  intros W B H. unfold events in H. destruct (schedule N K [] (state0 N) is) as [[tr' s]|] eqn:E; [|discriminate]. injection H as <-.
  exists s. eapply schedule_ok; eauto. constructor.
Qed.

(** Theorem (refuted): a write in the post-management phase is visible to the owner in the next time step.  Without wait() it may
    come too late: the owner's run_spk of step 2 still sees the old value (and in another run it sees the new one). *)
Theorem write_without_wait_refuted : well_built (two write_only Done) /\
  (exists tr s a, exec true (two write_only Done) tr s /\ tr = a ++ [LLook 0 0 0%Z] /\ In (LWrite 0 (Post, 1) 7%Z) a /\ In (LCmd 0 (Spk, 2)) a) /\
  (exists tr s a, exec true (two write_only Done) tr s /\ tr = a ++ [LLook 0 0 7%Z] /\ In (LWrite 0 (Post, 1) 7%Z) a /\ In (LCmd 0 (Spk, 2)) a).
Proof.
  assert (well_built (two write_only Done)) as W by (apply two_well_built; auto; intros v H; unfold write_only in H; inv_code).
  assert (forall p f t r, accesses (body (two write_only Done) p f t) r -> r < 1) as B.
  { intros p f t r H. destruct p as [|[|p]], f; cbn in H; try (inversion H; fail); [elim (acc_note _ H)| |].
    - destruct t as [|[|[|t]]]; cbn in H; inv_code.
    - destruct t as [|[|t]]; cbn in H; unfold write_only in H; inv_code; lia. }
  split; [exact W|]. split.
  - destruct (events_ok _ 1 [INext Spk; ICmd 0; ICode 0; ICode 0; ICode 0; ICmd 1; ICode 1; INext Post; ICmd 1; ICode 1; ICode 1; ICmd 0; ICode 0;
      INext Spk; ICmd 0; ICode 0] _ W B ltac:(vm_compute; reflexivity)) as [s E].
    match type of E with exec _ _ ?tr _ => exists tr, s, (removelast tr) end. split; [exact E|]. split; [reflexivity|]. split; simpl; tauto.
  - destruct (events_ok _ 1 [INext Spk; ICmd 0; ICode 0; ICode 0; ICode 0; ICmd 1; ICode 1; INext Post; ICmd 1; ICode 1; ICode 1; ICmd 0; ICode 0;
      IArrive 0; IServe 0; INext Spk; ICmd 0; ICode 0] _ W B ltac:(vm_compute; reflexivity)) as [s E].
    match type of E with exec _ _ ?tr _ => exists tr, s, (removelast tr) end. split; [exact E|]. split; [reflexivity|]. split; simpl; tauto.
Qed.

Lemma bound1 post1 spk2 : (forall r, accesses post1 r -> r < 1) -> (forall r, accesses spk2 r -> r < 1) ->
  forall p f t r, accesses (body (two post1 spk2) p f t) r -> r < 1.
Proof.
  intros B1 B2 p f t r H. destruct p as [|[|p]], f; cbn in H; try (inversion H; fail); [elim (acc_note _ H)| |].
  - destruct (t =? 2); [auto|inversion H].
  - destruct (t =? 1); [auto|inversion H].
Qed.
(** With wait() the owner sees the new value in every run (write_and_wait_is_applied); here is one. *)
Example write_and_wait_ex : well_built (two write_and_wait Done) /\
  exists tr s a c d, exec true (two write_and_wait Done) tr s /\ tr = a ++ LWrite 0 (Post, 1) 7%Z :: c ++ LRet 0 (Post, 1) 7%Z :: d /\
    last tr (LArrive 0) = LLook 0 0 7%Z.
Proof.
  assert (well_built (two write_and_wait Done)) as W by (apply two_well_built; auto; intros v H; unfold write_and_wait in H; inv_code).
  assert (forall p f t r, accesses (body (two write_and_wait Done) p f t) r -> r < 1) as B.
  { apply bound1; intros r H; unfold write_and_wait in H; inv_code; lia. }
  split; [exact W|].
  destruct (events_ok _ 1 [INext Spk; ICmd 0; ICode 0; ICode 0; ICode 0; ICmd 1; ICode 1; INext Post; ICmd 1; ICode 1; ICode 1; IArrive 0; ICmd 0; ICode 0;
      IServe 0; IArrive 0; IServe 0; ICode 1; ICode 1; INext Spk; ICmd 0; ICode 0] _ W B ltac:(vm_compute; reflexivity)) as [s E].
  match type of E with exec _ _ ?tr _ => exists tr, s, (firstn 9 tr), (firstn 7 (skipn 10 tr)), (skipn 18 tr) end.
  split; [exact E|]. split; reflexivity.
Qed.
(** Theorem (refuted): a read in the spiking phase always blocks / is always answered: it depends on the schedule whether the owner is
    still in the management phase of the previous step when the request arrives *)
Definition read_in_spk : code := ReadRef 0 (fun _ => Done).
Theorem read_in_spiking_phase_refuted : well_built (two Done read_in_spk) /\
  (exists tr s x, exec true (two Done read_in_spk) tr s /\ In (LRet 0 (Spk, 2) x) tr) /\
  (exists a s, exec true (two Done read_in_spk) (a ++ [LAsk 0 (Spk, 2)]) s /\ In (LCmd 0 (Spk, 2)) a).
Proof.
  assert (well_built (two Done read_in_spk)) as W by (apply two_well_built; auto; intros v H; unfold read_in_spk in H; inv_code).
  assert (forall p f t r, accesses (body (two Done read_in_spk) p f t) r -> r < 1) as B.
  { apply bound1; intros r H; unfold read_in_spk in H; inv_code; lia. }
  split; [exact W|]. split.
  - destruct (events_ok _ 1 [INext Spk; ICmd 0; ICode 0; ICode 0; ICode 0; ICmd 1; ICode 1; INext Post; ICmd 1; ICode 1; ICmd 0; ICode 0;
      INext Spk; ICmd 1; ICode 1; IArrive 0; IServe 0; ICode 1] _ W B ltac:(vm_compute; reflexivity)) as [s E].
    match type of E with exec _ _ ?tr _ => exists tr, s, 0%Z end. split; [exact E|]. simpl. tauto.
  - destruct (events_ok _ 1 [INext Spk; ICmd 0; ICode 0; ICode 0; ICode 0; ICmd 1; ICode 1; INext Post; ICmd 1; ICode 1; ICmd 0; ICode 0;
      INext Spk; ICmd 0; ICmd 1; ICode 1] _ W B ltac:(vm_compute; reflexivity)) as [s E].
    match type of E with exec _ _ ?tr _ => exists (removelast tr), s end. split; [exact E|]. simpl. tauto.
Qed.

(** Theorem (refuted): RefPorts used in the management phases only never block.  Two processes that read each other's Var in the same
    phase wait for each other for ever. *)
Definition mutual : net :=
  Net 2 (fun r => r) (fun r => 1 - r) (fun v => v) (fun p f t => match f with Post => if p <? 2 then ReadRef p (fun _ => Done) else Done | _ => Done end) 64 (fun _ => 0%Z).
Lemma mutual_well_built : well_built mutual.
Proof.
  split; [cbn; lia|]. split.
  - intros p f t r H. destruct f; cbn [body mutual] in H; try (inversion H; fail). destruct (Nat.ltb_spec p 2); [|inversion H]. inv_code. split; [reflexivity|unfold owner, mutual; cbn [home target n]; lia].
  - intros p f t v H. destruct f; cbn [body mutual] in H; try (inversion H; fail). destruct (Nat.ltb_spec p 2); inv_code.
Qed.
Theorem management_reads_never_block_refuted : well_built mutual /\ exists tr s, exec true mutual tr s /\ stuck true mutual s /\ circular_wait mutual s.
Proof.
  split; [exact mutual_well_built|].
  assert (forall p f t r, accesses (body mutual p f t) r -> r < 2) as B.
  { intros p f t r H. destruct f; cbn [body mutual] in H; try (inversion H; fail). destruct (Nat.ltb_spec p 2); [|inversion H]. inv_code. assumption. }
  set (is := [INext Spk; ICmd 0; ICode 0; ICmd 1; ICode 1; INext Post; ICmd 0; ICode 0; ICmd 1; ICode 1; IArrive 0; IArrive 1]).
  destruct (schedule mutual 2 [] (state0 mutual) is) as [[tr s]|] eqn:Sc; [|vm_compute in Sc; discriminate].
  pose proof (schedule_ok _ _ mutual_well_built B _ _ _ _ _ (e_0 _ _) Sc) as E. exists tr, s. split; [exact E|].
  assert (forall A (f : state -> A) x, option_map (fun q => f (snd q)) (schedule mutual 2 [] (state0 mutual) is) = Some x -> f s = x) as G.
  { intros A f x H. rewrite Sc in H. injection H as H. exact H. }
  pose proof (G _ svc (Post, 1) ltac:(vm_compute; reflexivity)) as F1.
  pose proof (G _ (fun s => pst s 0) (Waiting 0 (fun _ => Done)) ltac:(vm_compute; reflexivity)) as F2.
  pose proof (G _ (fun s => pst s 1) (Waiting 1 (fun _ => Done)) ltac:(vm_compute; reflexivity)) as F3.
  pose proof (G _ (fun s => reply s 0) None ltac:(vm_compute; reflexivity)) as F4.
  pose proof (G _ (fun s => reply s 1) None ltac:(vm_compute; reflexivity)) as F5.
  pose proof (G _ (fun s => answered s 0) false ltac:(vm_compute; reflexivity)) as F6.
  pose proof (G _ (fun s => fly s 0) [] ltac:(vm_compute; reflexivity)) as F7.
  pose proof (G _ (fun s => fly s 1) [] ltac:(vm_compute; reflexivity)) as F8.
  cbv beta in *. clear G Sc.
  assert (forall p, p < 2 -> exists k, pst s p = Waiting p k /\ reply s p = None) as Wa.
  { intros [|[|p]] L; [eauto|eauto|lia]. }
  assert (forall p, pst s p <> Poll -> p < 2) as Lt by (intros p P; apply (active mutual s p (shapes_exec _ _ _ _ E) P)).
  assert (forall p, pst s p = Poll -> 2 <= p) as Ge.
  { intros p P. destruct (le_lt_dec 2 p) as [X|X]; [exact X|]. destruct (Wa p X) as (k & Q & _). congruence. }
  split.
  - intros l s' St. inversion St; subst;
      try match goal with P : pst s ?p = Running _ |- _ => destruct (Wa p (Lt p ltac:(congruence))) as (k' & Q & _); congruence end.
    + rewrite F1 in *. cbn [needs_answer fst] in *. match goal with H : true = true -> _ |- _ => specialize (H eq_refl 0 ltac:(cbn; lia)); congruence end.
    + match goal with P : pst s p = Poll, L : p < n mutual |- _ => specialize (Ge p P); cbn in L; lia end.
    + destruct (le_lt_dec 2 r) as [X|X]; [destruct (ports_exec _ _ _ _ 2 mutual_well_built B E r X); congruence|]. destruct r as [|[|r]]; [congruence|congruence|lia].
    + match goal with P : pst s (owner mutual r) = Poll |- _ => specialize (Ge _ P) end. unfold owner, mutual in Ge. cbn [home target] in Ge. lia.
    + match goal with P : pst s (owner mutual r) = Poll |- _ => specialize (Ge _ P) end. unfold owner, mutual in Ge. cbn [home target] in Ge. lia.
    + match goal with P : pst s p = Waiting r k |- _ => destruct (Wa p (Lt p ltac:(congruence))) as (k' & Q & R); rewrite Q in P; injection P as -> _; congruence end.
  - exists 0. eapply t_trans with 1; apply t_step.
    + exists 0. split; [left; eauto|reflexivity].
    + exists 1. split; [left; eauto|reflexivity].
Qed.

(** an order of the processes: a chain of three, each reading the Var of the one before in the post-management phase *)
Definition chain3 : net :=
  Net 3 (fun r => S r) (fun r => r) (fun v => v)
    (fun p f t => match p, f with S q, Post => if q <? 2 then ReadRef q (fun x => PutOwn p x Done) else Done | _, _ => Done end) 64 (fun _ => 0%Z).
Example chain3_never_stuck : forall tr s, exec true chain3 tr s -> ~ stuck true chain3 s.
Proof.
  apply (ordered_accesses_never_deadlock true chain3 (fun p => p)).
  - split; [cbn; lia|]. split.
    + intros p f t r H. destruct p as [|q], f; cbn [body chain3] in H; try (inversion H; fail). destruct (Nat.ltb_spec q 2); [|inversion H].
      inv_code. split; [reflexivity|unfold owner; cbn; lia].
    + intros p f t v H. destruct p as [|q], f; cbn [body chain3] in H; try (inversion H; fail). destruct (Nat.ltb_spec q 2); [|inversion H].
      inv_code. reflexivity.
  - intros p f t r H. destruct p as [|q], f; cbn [body chain3] in H; try (inversion H; fail). destruct (Nat.ltb_spec q 2); [|inversion H].
    inv_code. split; [right; reflexivity|unfold owner; cbn; lia].
Qed.
