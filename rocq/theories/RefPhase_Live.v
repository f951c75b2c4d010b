(** C98: deadlocks, and the end of the phases *)
From Coq Require Import List Arith ZArith Bool Relations Lia Wf_nat.
From Verif Require Import RefPhase_Model RefPhase_Spec RefPhase_Inv RefPhase_Props.
Import ListNotations.

(** ** Circles *)
Lemma total_cycle (R : nat -> nat -> Prop) (P : nat -> Prop) (k : nat) :
  (forall p, P p -> p < k) -> (forall p, P p -> exists q, P q /\ R p q) -> forall p, P p -> exists c, clos_trans nat R c c.
Proof.
  intros B T.
  assert (forall d vs p, P p -> NoDup (p :: vs) -> (forall v, In v vs -> v < k /\ clos_trans nat R v p) -> k <= length vs + d -> exists c, clos_trans nat R c c) as G.
  { induction d as [|d IH]; intros vs p Hp N V L.
    - exfalso. assert (length (p :: vs) <= length (seq 0 k)) as C.
      { apply NoDup_incl_length; [exact N|]. intros x [<-|X]; apply in_seq; [specialize (B p Hp)|destruct (V x X)]; lia. }
      rewrite seq_length in C. simpl in C. lia.
    - destruct (T p Hp) as (q & Hq & Rq). destruct (in_dec Nat.eq_dec q (p :: vs)) as [I|I].
      + exists q. destruct I as [<-|I]; [apply t_step; exact Rq|]. destruct (V q I) as [_ C]. eapply t_trans; [exact C|apply t_step; exact Rq].
      + apply (IH (p :: vs) q Hq); [constructor; assumption| |simpl; lia].
        intros v [<-|X]; [split; [auto|apply t_step; exact Rq]|]. destruct (V v X) as [V1 V2]. split; [exact V1|].
        eapply t_trans; [exact V2|apply t_step; exact Rq]. }
  intros p Hp. apply (G k [] p Hp); [constructor; [intros []|constructor]|intros v []|lia].
Qed.

(** ** Deadlocks *)
Lemma stuck_takes b N s p m l : stuck b N s -> p < n N -> pst s p = Poll -> cmds s p = m :: l -> False.
Proof.
  intros K L P C. destruct m as [f t]. eapply (K (LCmd p (f, t))). eapply s_cmd; eauto. intros _ Q r O. subst p.
  destruct (seen s r) as [|[m|m x] l'] eqn:Sn; [reflexivity| |]; exfalso; [eapply (K (LGet _ _ _)); eapply s_get; eauto|eapply (K (LSet _ _ _)); eapply s_set; eauto].
Qed.
Lemma stuck_active_blocked b N tr s p : well_built N -> exec b N tr s -> stuck b N s -> pst s p <> Poll -> exists r, blocked_on N s p r /\ user N r = p /\ owner N r < n N.
Proof.
  intros W E K P. pose proof (codes_exec _ _ _ _ W E p) as C. destruct (pst s p) as [|c|r k] eqn:Ep; [elim P; reflexivity| |].
  - destruct c as [|v k|v x k|r k|r x k].
    + exfalso. eapply (K (LEnd _ _)). eapply s_end. exact Ep.
    + exfalso. eapply (K (LLook _ _ _)). eapply s_look. exact Ep.
    + exfalso. eapply (K (LOwn _ _ _)). eapply s_own. exact Ep.
    + exists r. destruct C as [C _]. destruct (C r (a_here1 r k)). split; [|auto]. right. split; [eauto|]. intros R. eapply (K (LAsk _ _)). eapply s_ask; eauto.
    + exists r. destruct C as [C _]. destruct (C r (a_here2 r x k)). split; [|auto]. right. split; [eauto|]. intros R. eapply (K (LWrite _ _ _)). eapply s_write; eauto.
  - exists r. destruct C as (C1 & C2 & _). split; [|auto]. left. exists k. split; [exact Ep|].
    destruct (reply s r) as [x|] eqn:R; [|reflexivity]. exfalso. eapply (K (LRet _ _ _)). eapply s_ret; eauto.
Qed.
Lemma stuck_owner b N tr s p r : well_built N -> exec b N tr s -> stuck b N s -> blocked_on N s p r -> user N r = p -> owner N r < n N ->
  fst (svc s) = Spk \/ fst (svc s) = Lrn \/ pst s (owner N r) <> Poll.
Proof.
  intros W E K Bl U Lo. assert (pst s p <> Poll) as Pp by (destruct Bl as [(k & -> & _)|[[(k & ->)|(x & k & ->)] _]]; discriminate).
  destruct (active N s p (shapes_exec _ _ _ _ E) Pp) as (L & C1 & C2 & C3 & C4).
  assert (seen s r ++ fly s r <> []) as Ne.
  { destruct Bl as [(k & P & R)|[_ R]].
    - destruct (reads_exec _ _ _ _ W E r) as [A _]. rewrite U in A. destruct (A k P) as [(_ & l & Q & _)|(x & Q & _)]; [|congruence].
      rewrite Q. destruct l; discriminate.
    - intros Q. apply app_eq_nil in Q. destruct Q as [Q1 Q2]. apply R. unfold room. rewrite Q1, Q2. simpl. apply W. }
  assert (fly s r = []) as Fl.
  { destruct (fly s r) as [|q l] eqn:F; [reflexivity|]. exfalso. eapply (K (LArrive r)). eapply s_arrive. exact F. }
  rewrite Fl, app_nil_r in Ne. destruct (pst s (owner N r)) as [| |] eqn:Po; [|right; right; discriminate|right; right; discriminate].
  assert (polls (fst (cur s (owner N r))) = false) as Np.
  { destruct (polls (fst (cur s (owner N r)))) eqn:Q; [|reflexivity]. exfalso. destruct (seen s r) as [|[m|m x] l'] eqn:Sn; [apply Ne; reflexivity| |].
    - eapply (K (LGet _ _ _)); eapply s_get; eauto.
    - eapply (K (LSet _ _ _)); eapply s_set; eauto. }
  destruct (shapes_exec _ _ _ _ E) as [Sh _]. destruct (Sh _ Lo) as [(D1 & D2 & _)|[(D1 & _)|(t0 & D1 & _)]].
  - rewrite D2 in Np. destruct C4 as [X|[X|[X|X]]]; [auto|rewrite X in Np; discriminate Np|auto|rewrite X in Np; discriminate Np].
  - exfalso. exact (stuck_takes _ _ _ _ _ _ K Lo Po D1).
  - exfalso. exact (stuck_takes _ _ _ _ _ _ K Lo Po D1).
Qed.
Lemma not_all k (f : nat -> bool) : (forall p, p < k -> f p = true) \/ exists p, p < k /\ f p = false.
Proof.
  induction k as [|k [IH|(p & L & H)]]; [left; lia| |right; exists p; split; [lia|exact H]].
  destruct (f k) eqn:E; [left; intros p L; destruct (Nat.eq_dec p k) as [-> |]; [exact E|apply IH; lia]|right; exists k; split; [lia|exact E]].
Qed.
(** Theorem: a run gets stuck only if a process accesses a RefPort in the spiking or learning phase, or if in a management phase there
    is a circle of processes each waiting for a Var of the next *)
Theorem deadlock_needs_a_reason : forall b N tr s, well_built N -> exec b N tr s -> stuck b N s ->
  ((fst (svc s) = Spk \/ fst (svc s) = Lrn) /\ exists p r, blocked_on N s p r) \/
  (management (fst (svc s)) /\ circular_wait N s).
Proof.
  intros b N tr s W E K. pose proof (shapes_exec _ _ _ _ E) as Sh.
  assert (exists p, p < n N /\ pst s p <> Poll) as (p & L & P).
  { destruct (not_all (n N) (answered s)) as [A|(p & L & A)].
    - exfalso. assert (exists f, follows (fst (svc s)) f) as [f F] by (destruct (fst (svc s)); eexists; constructor).
      eapply (K (LNext _)). eapply (s_next b N s f F). intros _ p L. auto.
    - exists p. split; [exact L|]. intros P. destruct Sh as [Sh _]. destruct (Sh p L) as [(D1 & D2 & D3 & _)|[(D1 & _)|(t0 & D1 & _)]].
      + destruct (needs_answer (fst (svc s))) eqn:Na; [rewrite (D3 P eq_refl) in A; discriminate|].
        eapply (K (LNext _)). eapply (s_next b N s Spk); [|rewrite Na; discriminate]. destruct (fst (svc s)); try discriminate. constructor.
      + eapply stuck_takes; eauto.
      + eapply stuck_takes; eauto. }
  destruct (active N s p Sh P) as (_ & _ & _ & _ & Wk). destruct (stuck_active_blocked _ _ _ _ _ W E K P) as (r & Bl & U & Lo).
  assert (fst (svc s) = Spk \/ fst (svc s) = Lrn \/ management (fst (svc s))) as [X|[X|M]].
  { unfold management. destruct Wk as [X|[X|[X|X]]]; auto. }
  - left. split; [left; exact X|]. eauto.
  - left. split; [right; exact X|]. eauto.
  - right. split; [exact M|]. unfold circular_wait. apply (total_cycle (waits_for N s) (fun q => q < n N /\ pst s q <> Poll) (n N)) with (p := p); [tauto| |auto].
    intros q [Lq Pq]. destruct (stuck_active_blocked _ _ _ _ _ W E K Pq) as (r' & Bl' & U' & Lo'). exists (owner N r').
    split; [|exists r'; auto]. split; [exact Lo'|].
    destruct (stuck_owner _ _ _ _ _ _ W E K Bl' U' Lo') as [X|[X|X]]; [destruct M as [M|M]; congruence|destruct M as [M|M]; congruence|exact X].
Qed.

(** ** Networks without circles *)
Definition subcodes (N : net) (s : state) : Prop := forall p,
  match pst s p with
  | Poll => True
  | Running c => forall r, accesses c r -> accesses (body N p (fst (cur s p)) (snd (cur s p))) r
  | Waiting r k => accesses (body N p (fst (cur s p)) (snd (cur s p))) r /\
      forall z q, accesses (k z) q -> accesses (body N p (fst (cur s p)) (snd (cur s p))) q
  end.
Lemma subcodes_exec b N tr s : exec b N tr s -> subcodes N s.
Proof.
  induction 1 as [|tr s l s' E IH H]; [intros p; exact I|]. inversion H; subst; clear H; try (intros j; apply IH); intros j; cbn [pst cur];
    (destruct (Nat.eq_dec j p) as [-> |Nj]; [rewrite ?upd_eq; specialize (IH p); rewrite ?H0, ?H1 in IH|rewrite ?(upd_ne (pst s)), ?(upd_ne (cur s)) by exact Nj; apply IH]).
  - destruct f; cbn; auto.
  - intros r A. apply IH. econstructor; eauto.
  - intros r A. apply IH. econstructor; eauto.
  - split; [apply IH; constructor|]. intros z q A. apply IH. econstructor; eauto.
  - intros q A. apply IH. econstructor; eauto.
  - intros q A. destruct IH as [_ IH]. eauto.
  - exact I.
Qed.
Lemma blocked_accesses N s p r : subcodes N s -> blocked_on N s p r -> accesses (body N p (fst (cur s p)) (snd (cur s p))) r.
Proof.
  intros Sc Bl. specialize (Sc p). destruct Bl as [(k & P & _)|[[(k & P)|(x & k & P)] _]]; rewrite P in Sc.
  - apply Sc.
  - apply Sc. constructor.
  - apply Sc. constructor.
Qed.
(** Theorem: if RefPorts are only used in the management phases, and in an order of the processes (no circles), no run gets stuck *)
Theorem ordered_accesses_never_deadlock : forall b N (rank : nat -> nat), well_built N ->
  (forall p f t r, accesses (body N p f t) r -> management f /\ rank (owner N r) < rank p) ->
  forall tr s, exec b N tr s -> ~ stuck b N s.
Proof.
  intros b N rank W Ac tr s E K. pose proof (subcodes_exec _ _ _ _ E) as Sc. pose proof (shapes_exec _ _ _ _ E) as Sh.
  destruct (deadlock_needs_a_reason _ _ _ _ W E K) as [[Ph (p & r & Bl)]|[_ (p & Ci)]].
  - destruct (Ac _ _ _ _ (blocked_accesses _ _ _ _ Sc Bl)) as [M _].
    destruct (active N s p Sh) as (_ & _ & C & _); [destruct Bl as [(k & -> & _)|[[(k & ->)|(x & k & ->)] _]]; discriminate|].
    rewrite C in M. destruct M as [M|M], Ph as [Ph|Ph]; congruence.
  - assert (forall x y, clos_trans nat (waits_for N s) x y -> rank y < rank x) as G.
    { induction 1 as [x y (r & Bl & <-)|]; [|lia]. apply (Ac x (fst (cur s x)) (snd (cur s x))). apply blocked_accesses; assumption. }
    specialize (G p p Ci). lia.
Qed.

(** ** Every phase takes finitely many steps *)
Inductive code_lt : pstate -> pstate -> Prop :=
| cl_look v k z : code_lt (Running (k z)) (Running (GetOwn v k))
| cl_own v x k : code_lt (Running k) (Running (PutOwn v x k))
| cl_ask r k : code_lt (Waiting r k) (Running (ReadRef r k))
| cl_write r x k : code_lt (Running k) (Running (WriteRef r x k))
| cl_ret r k x : code_lt (Running (k x)) (Waiting r k)
| cl_end : code_lt Poll (Running Done).
Lemma poll_acc : Acc code_lt Poll.
Proof. constructor. intros y H. inversion H. Qed.
Lemma code_acc c : Acc code_lt (Running c).
Proof.
  induction c as [|v k IH|v x k IH|r k IH|r x k IH]; constructor; intros y H; inversion H; subst; auto using poll_acc.
  constructor. intros y H1. inversion H1; subst. apply IH.
Qed.
Lemma pst_acc q : Acc code_lt q.
Proof. destruct q; [exact poll_acc|apply code_acc|]. constructor. intros y H. inversion H; subst. apply code_acc. Qed.
Inductive proc_lt : list moment * pstate -> list moment * pstate -> Prop :=
| pl_cmd m l q q' : proc_lt (l, q') (m :: l, q)
| pl_code l q q' : code_lt q' q -> proc_lt (l, q') (l, q).
Lemma proc_acc l : forall q, Acc proc_lt (l, q).
Proof.
  induction l as [|m l IH]; intros q; induction (pst_acc q) as [q _ IHq]; constructor; intros [l' q'] H; inversion H; subst; auto.
Qed.
Definition vec_lt (k : nat) (f' f : nat -> list moment * pstate) : Prop := exists p, p < k /\ proc_lt (f' p) (f p) /\ forall j, j <> p -> f' j = f j.
Lemma vec_acc k : forall f, Acc (vec_lt k) f.
Proof.
  induction k as [|k IH]; intros f; [constructor; intros y (p & L & _); lia|].
  assert (forall x, Acc proc_lt x -> forall f, f k = x -> Acc (vec_lt (S k)) f) as G.
  { induction 1 as [x _ IHx]. intros g Eg. induction (IH g) as [g _ IHg]. constructor. intros h (p & L & D & O).
    destruct (Nat.eq_dec p k) as [-> |Np].
    - apply (IHx (h k)); [rewrite <- Eg; exact D|reflexivity].
    - apply IHg; [exists p; split; [lia|split; assumption]|]. rewrite O by auto. exact Eg. }
  apply (G (f k)); [|reflexivity]. destruct (f k). apply proc_acc.
Qed.
Definition proj (s : state) : nat -> list moment * pstate := fun p => (cmds s p, pst s p).
Fixpoint messages (s : state) (k : nat) : nat :=
  match k with 0 => 0 | S j => messages s j + 2 * length (fly s j) + length (seen s j) end.
Lemma messages_less s s' r k : r < k -> (forall j, j <> r -> fly s' j = fly s j /\ seen s' j = seen s j) ->
  2 * length (fly s' r) + length (seen s' r) < 2 * length (fly s r) + length (seen s r) -> messages s' k < messages s k.
Proof.
  intros L O D. assert (forall j, j <= r -> messages s' j = messages s j) as Eq.
  { induction j as [|j IH]; intros Lj; [reflexivity|]. cbn [messages]. destruct (O j) as [-> ->]; [lia|]. rewrite IH by lia. reflexivity. }
  induction k as [|k IH]; [lia|]. cbn [messages]. destruct (Nat.eq_dec r k) as [<-|Nr].
  - rewrite Eq by lia. lia.
  - destruct (O k) as [-> ->]; [auto|]. specialize (IH ltac:(lia)). lia.
Qed.
Definition moves (b : bool) (N : net) (s' s : state) : Prop := exists l, step b N s l s' /\ forall m, l <> LNext m.
Lemma ports_exec b N tr s K : well_built N -> (forall p f t r, accesses (body N p f t) r -> r < K) -> exec b N tr s ->
  forall r, K <= r -> fly s r = [] /\ seen s r = [].
Proof.
  intros W B. induction 1 as [|tr s l s' E IH H]; intros r L; [auto|].
  pose proof (subcodes_exec _ _ _ _ E) as Sc. destruct (IH r L) as [F S1].
  inversion H; subst; clear H; cbn [fly seen]; auto.
  - specialize (Sc p). rewrite H0 in Sc. specialize (B _ _ _ _ (Sc r0 (a_here1 _ _))). rewrite upd_ne by lia. auto.
  - specialize (Sc p). rewrite H0 in Sc. specialize (B _ _ _ _ (Sc r0 (a_here2 _ _ _))). rewrite upd_ne by lia. auto.
  - rewrite !upd_ne by congruence. auto.
  - rewrite !upd_ne by congruence. auto.
  - rewrite !upd_ne by congruence. auto.
Qed.
(** Theorem: between two announcements of the service there are only finitely many steps, under every schedule (in a network with
    finitely many RefPorts) *)
Theorem phases_take_finitely_many_steps : forall b N K, well_built N -> (forall p f t r, accesses (body N p f t) r -> r < K) ->
  forall tr s, exec b N tr s -> Acc (moves b N) s.
Proof.
  intros b N K W B.
  assert (forall f, Acc (vec_lt (n N)) f -> forall c s0 tr, proj s0 = f -> messages s0 K <= c -> exec b N tr s0 -> Acc (moves b N) s0) as G.
  { intros f Af. induction Af as [f _ IHf]. intros c. induction (lt_wf c) as [c _ IHc]. intros s tr Ef Lc E.
    constructor. intros s' (l & St & Nx). assert (exec b N (tr ++ [l]) s') as E' by (econstructor; eauto).
    pose proof (shapes_exec _ _ _ _ E) as Sh. pose proof (fun r => ports_exec b N tr s K W B E r) as Po.
    assert ((vec_lt (n N) (proj s') (proj s)) \/ (proj s' = proj s /\ messages s' K < messages s K)) as [D|[D1 D2]].
    - inversion St; subst; unfold proj, vec_lt; cbn [cmds pst fly seen]; try (elim (Nx _ eq_refl));
        try (left; exists p; split; [eapply active; [exact Sh|congruence]|];
             split; [rewrite upd_eq; apply pl_code; match goal with P : pst _ ?y = _ |- _ => rewrite P end; constructor|intros j Nj; rewrite upd_ne by exact Nj; reflexivity]);
        try (left; exists p; split; [assumption|]; rewrite !upd_eq; split; [match goal with P : cmds _ ?y = _ |- _ => rewrite P end; apply pl_cmd|intros j Nj; rewrite !upd_ne by exact Nj; reflexivity]);
        right; (split; [reflexivity|]);
        (assert (r < K) as Lr by (destruct (le_lt_dec K r) as [X|X]; [destruct (Po r X); congruence|exact X]));
        apply (messages_less _ _ r); auto; cbn [fly seen];
        try (intros j Nj; rewrite ?upd_ne by exact Nj; auto); rewrite ?upd_eq;
        match goal with P : fly _ ?y = _ |- _ => rewrite P, app_length; simpl; lia | P : seen _ ?y = _ |- _ => rewrite P; simpl; lia end.
    - apply (IHf (proj s')) with (c := messages s' K) (tr := tr ++ [l]); [rewrite <- Ef; exact D|reflexivity|lia|exact E'].
    - apply (IHc (messages s' K)) with (tr := tr ++ [l]); [lia|congruence|lia|exact E']. }
  intros tr s E. apply (G (proj s) (vec_acc _ _) (messages s K) s tr); auto.
Qed.
