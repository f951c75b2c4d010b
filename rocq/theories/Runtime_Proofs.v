(** Invariants of the execution protocol. *)
From Coq Require Import List Arith Lia Bool.
From Verif Require Import Runtime_Spec.
Import ListNotations.

Lemma begun_app i a b : begun i (a ++ b) = begun i a ++ begun i b.
Proof. induction a as [|[] a IH]; simpl; rewrite ?IH; auto. destruct (_ =? _); simpl; auto. Qed.
Lemma ended_app i a b : ended i (a ++ b) = ended i a ++ ended i b.
Proof. induction a as [|[] a IH]; simpl; rewrite ?IH; auto. destruct (_ =? _); simpl; auto. Qed.
Lemma bcasts_app a b : bcasts (a ++ b) = bcasts a ++ bcasts b.
Proof. induction a as [|[] a IH]; simpl; rewrite ?IH; auto. Qed.
Lemma said_app a b : said (a ++ b) = said a ++ said b.
Proof. induction a as [|[] a IH]; simpl; rewrite ?IH; auto. Qed.
Lemma count_app c a b : count c (a ++ b) = count c a + count c b.
Proof. unfold count. rewrite filter_app, app_length. auto. Qed.
Lemma acked_app a b : acked (a ++ b) = acked a ++ acked b.
Proof. unfold acked. apply filter_app. Qed.

Section RP.
  Variable N : nat.
  Notation exec := (exec N).
  Notation step := (step N).

  (** A: delivery. *)
  Definition undel (v : svpc) (i : nat) : list cmd :=
    match v with
    | VSend c k => if i <? k then [] else [c]
    | VErr k => if i <? k then [] else [CStop]
    | _ => []
    end.
  Definition busyl (m : mpc) : list cmd := match m with MBusy c => [c] | _ => [] end.

  Record InvA (tr : list event) (s : sys) : Prop := {
    a_del : forall i, i < N -> bcasts tr = begun i tr ++ s2p s i ++ undel (sv s) i;
    a_busy : forall i, i < N -> begun i tr = ended i tr ++ busyl (mp s i);
    a_ts : forall i, i < N -> ts s i = count CSpk (begun i tr);
    a_k : match sv s with VSend _ k | VErr k => k <= N
                        | VRecv c k => k <= N /\ responding c = true | _ => True end }.

  Ltac inv_vstep H := inversion H; subst; clear H.

  Ltac crush_i i0 i :=
    destruct (Nat.eq_dec i0 i) as [->|];
    [rewrite ?fupd_same in *|rewrite ?fupd_other in * by auto].

  Ltac evsimp := simpl in *; rewrite ?begun_app, ?ended_app, ?bcasts_app, ?count_app; simpl;
                 rewrite ?app_nil_r, ?Nat.add_0_r; auto.

  Ltac ltbs :=
    repeat match goal with
    | |- context [?a <? ?b] => destruct (Nat.ltb_spec a b); try lia
    | H : context [?a <? ?b] |- _ => destruct (Nat.ltb_spec a b); try lia
    end.
  Ltac fupds :=
    repeat match goal with
    | |- context [fupd _ ?k _ ?i] =>
        destruct (Nat.eq_dec i k); [subst; rewrite ?fupd_same | rewrite ?fupd_other by auto]
    end.

  Lemma invA_v tr s e s' : InvA tr s -> vstep N s e s' -> InvA (ext tr e) s'.
  Proof.
    intros [D B T K] H. destruct H; constructor; intros;
      try (destruct (pausing (fl s))); try (destruct (stopping (fl s)));
      try match goal with
      | E : sv _ = _ |- _ => rewrite E in *
      end; evsimp; try (destruct c; auto; fail);
      try (rewrite (D i) by auto; simpl; fupds; ltbs; rewrite ?app_nil_r, <- ?app_assoc; auto; fail);
      try lia; try (split; auto; lia); try (destruct K; split; auto; lia).
  Qed.

  Lemma invA_m tr s e s' : InvA tr s -> mstep N s e s' -> InvA (ext tr e) s'.
  Proof.
    intros [D B T K] H. destruct H; constructor; intros; evsimp; fupds;
      rewrite ?Nat.eqb_refl;
      try (match goal with Hn : ?a <> ?b |- _ =>
             replace (b =? a) with false by (symmetry; apply Nat.eqb_neq; auto) end;
           rewrite ?app_nil_r; auto; rewrite T by auto; unfold count; simpl; lia);
      auto.
    - rewrite (D i) by auto. rewrite H1. rewrite <- app_assoc. auto.
    - rewrite (B i) by auto. rewrite H0. simpl. rewrite ?app_nil_r. auto.
    - rewrite (T i) by auto. destruct c; simpl; unfold count; simpl; lia.
    - rewrite (B i) by auto. rewrite H0. simpl. rewrite <- app_assoc. f_equal.
      destruct (handler c o) as [[]|]; auto.
  Qed.

  Lemma invA_e tr s e s' : InvA tr s -> estep s e s' -> InvA (ext tr e) s'.
  Proof.
    intros [D B T K] H. destruct H; constructor; intros; evsimp.
  Qed.

  Lemma invA_exec tr s : exec tr s -> InvA tr s.
  Proof.
    induction 1 as [|tr s e s' H IH St].
    - constructor; intros; simpl; auto.
    - destruct St; [eapply invA_v|eapply invA_m|eapply invA_e]; eauto.
  Qed.

  (** B: what is outstanding at each process. *)
  Definition allowed (c : cmd) (r : resp) : Prop := exists o, handler c o = Some r.

  Definition expc (v : svpc) (e : bool) (i : nat) : option cmd :=
    match v with
    | VSend c k => if responding c && (i <? k) then Some c else None
    | VRecv c k => if i <? k then None else Some c
    | VErr k => if i <? k then Some CStop else None
    | VDead => if e then Some CStop else None
    | _ => None
    end.

  Inductive pstat (q : list cmd) (m : mpc) (p : list resp) : option cmd -> Prop :=
  | ps_none : Forall (eq CHost) q -> p = [] -> (forall c, m = MBusy c -> c = CHost) ->
              pstat q m p None
  | ps_queued c h : q = h ++ [c] -> Forall (eq CHost) h -> p = [] -> responding c = true ->
              (forall c, m = MBusy c -> c = CHost) -> pstat q m p (Some c)
  | ps_busy c : q = [] -> m = MBusy c -> p = [] -> responding c = true -> pstat q m p (Some c)
  | ps_answered c r : q = [] -> p = [r] -> allowed c r -> responding c = true ->
              m = (match r with RErr | RTerm => MDead | _ => MIdle end) ->
              pstat q m p (Some c).

  Record InvB (s : sys) : Prop := {
    b_p : forall i, i < N -> pstat (s2p s i) (mp s i) (p2s s i) (expc (sv s) (err (fl s)) i);
    b_err : err (fl s) = true ->
            match sv s with VRecv c _ | VChk c => is_phase c | VErrB | VErr _ | VDead => True
                          | _ => False end;
    b_ty : match sv s with
           | VChk c => is_phase c
           | VProbe c => is_phase c \/ c = CHost
           | VRecv c _ => responding c = true
           | _ => True end;
    b_errpc : match sv s with VErrB | VErr _ => err (fl s) = true | _ => True end }.

  Lemma pstat_snoc_host q m p c : pstat q m p None -> responding c = false -> pstat (q ++ [c]) m p None.
  Proof.
    intros H Hc. inversion H; subst. constructor; auto. apply Forall_app. split; auto.
    destruct c; try discriminate. auto.
  Qed.
  Lemma pstat_snoc q m p c : pstat q m p None -> responding c = true -> pstat (q ++ [c]) m p (Some c).
  Proof. intros H Hc. inversion H; subst. eapply ps_queued; eauto. Qed.

  Lemma phase_resp c : is_phase c -> responding c = true.
  Proof. destruct c; simpl; tauto. Qed.
  Lemma nphase c : responding c = true -> c <> CPause -> c <> CStop -> is_phase c.
  Proof. destruct c; simpl; auto; congruence. Qed.

  Lemma pstat_recv q m r p c : pstat q m (r :: p) (Some c) ->
    pstat q m p None /\ allowed c r /\ q = [] /\ p = [] /\
    m = (match r with RErr | RTerm => MDead | _ => MIdle end).
  Proof.
    intro H. inversion H; subst; try discriminate.
    match goal with Z : _ :: _ = _ |- _ => injection Z as -> -> end.
    split; auto. constructor; auto. intros c0. destruct r0; discriminate.
  Qed.
  Lemma allowed_err c : allowed c RErr -> is_phase c.
  Proof. intros [o H]. destruct c; simpl in *; auto; discriminate. Qed.
  Lemma err_peeked d f : err (peeked d f) = err f.
  Proof. destruct d; auto. Qed.

  Lemma invB_v tr s e s' : InvA tr s -> InvB s -> vstep N s e s' -> InvB s'.
  Proof.
    intros A [P E T X] H. pose proof (a_k _ _ A) as K.
    destruct H;
      match goal with Z : sv s = _ |- _ => rewrite Z in * end; simpl in *;
      constructor; simpl; try (intros i Hi; specialize (P i Hi)); intros; auto; try congruence;
      try (destruct (err (fl s)) eqn:Er; [exfalso; auto; fail|]);
      try (specialize (E eq_refl); contradiction);
      try (rewrite ?Bool.andb_false_r in *; simpl in *; auto; fail);
      try tauto.
    - fupds; ltbs; destruct (responding c) eqn:R; simpl in *; auto.
      + apply pstat_snoc; auto.
      + apply pstat_snoc_host; auto.
    - ltbs. rewrite H0 in P. auto.
    - fupds; ltbs; auto.
      rewrite H1 in P. apply pstat_recv in P. tauto.
    - apply orb_true_iff in H2 as [H2|H2]; auto.
      destruct r; try discriminate. apply allowed_err.
      specialize (P k H0). rewrite Nat.ltb_irrefl, H1 in P. apply pstat_recv in P. tauto.
    - ltbs. auto.
    - ltbs. destruct (err (fl s)); auto. 
    - ltbs. auto.
    - destruct H0 as [-> | ->]; apply E; auto.
    - ltbs. auto.
    - apply nphase; auto.
    - fupds; ltbs; auto. apply pstat_snoc; auto.
    - rewrite X. ltbs. auto.
    - destruct c; auto.
    - destruct c; auto.
    - destruct c; auto.
    - rewrite err_peeked. destruct c; auto.
    - rewrite err_peeked in H1. congruence.
    - destruct c; auto.
    - rewrite err_peeked. destruct c; auto.
  Qed.

  Lemma invB_m tr s e s' : InvA tr s -> InvB s -> mstep N s e s' -> InvB s'.
  Proof.
    intros A [P E T X] H.
    destruct H; constructor; simpl; auto; intros j Hj; specialize (P j Hj); fupds; auto.
    - rewrite H0, H1 in P. inversion P; subst; try discriminate.
      + match goal with Z : Forall _ (_ :: _) |- _ => inversion Z; subst end.
        constructor; auto. intros c0 Z. injection Z. auto.
      + destruct h as [|y h]; simpl in *.
        * match goal with Z : _ :: _ = _ |- _ => injection Z as -> -> end.
          apply ps_busy; auto.
        * match goal with Z : _ :: _ = _ |- _ => injection Z as -> -> end.
          match goal with Z : Forall _ (_ :: _) |- _ => inversion Z; subst end.
          eapply ps_queued; eauto. intros c1 Z. injection Z. auto.
    - rewrite H0 in P. inversion P; subst.
      + assert (c = CHost) by auto. subst. simpl. constructor; auto. intros; discriminate.
      + assert (c = CHost) by auto. subst. simpl. eapply ps_queued; eauto. intros; discriminate.
      + match goal with Z : MBusy _ = MBusy _ |- _ => injection Z as -> end.
        destruct (handler c0 o) as [r|] eqn:Hh; [|destruct c0; discriminate].
        rewrite H4. simpl. apply (ps_answered _ _ _ _ r); auto. exists o; auto.
      + destruct r; discriminate.
  Qed.

  Lemma invB_exec tr s : exec tr s -> InvB s.
  Proof.
    induction 1 as [|tr s e s' H IH St].
    - constructor; simpl; auto; try discriminate. intros. constructor; auto. discriminate.
    - pose proof (invA_exec _ _ H) as A.
      destruct St; [eapply invB_v|eapply invB_m|]; eauto.
      destruct IH. destruct H0; constructor; auto.
  Qed.

  (** F: order of phases and requests. *)
  Definition nof (f : flags) : Prop := fpre f = false /\ flrn f = false /\ fpost f = false.
  Definition fok (c : cmd) (f : flags) : Prop :=
    match c with
    | CSpk => True
    | CPre => fpre f = false
    | CLrn => fpre f = false /\ flrn f = false
    | _ => nof f
    end.
  Definition ends (tr : list event) (c : cmd) : Prop := exists l, bcasts tr = l ++ [c].

  Definition InvF (tr : list event) (s : sys) : Prop :=
    match sv s with
    | VIdle | VEnd => nof (fl s)
    | VNext => nof (fl s) \/ exists c, is_phase c /\ ends tr c /\ fok c (fl s)
    | VSend c _ | VRecv c _ | VChk c | VProbe c => ends tr c /\ fok c (fl s)
    | _ => True
    end.

  Lemma ends_snoc tr e c : (match e with EvBcast _ => False | _ => True end) -> ends tr c ->
    ends (tr ++ [e]) c.
  Proof.
    intros H [l E]. exists l. rewrite bcasts_app, E. destruct e; simpl; try contradiction; apply app_nil_r.
  Qed.
  Lemma ends_bcast tr c : ends (tr ++ [EvBcast c]) c.
  Proof. exists (bcasts tr). rewrite bcasts_app. auto. Qed.

  Lemma invF_v tr s e s' : InvB s -> InvF tr s -> vstep N s e s' -> InvF (ext tr e) s'.
  Proof.
    intros B F H. pose proof (b_ty _ B) as T. pose proof (b_p _ B) as P.
    destruct H; unfold InvF in *;
      match goal with Z : sv s = _ |- _ => rewrite Z in * end; simpl in *;
      try (split; [apply ends_bcast|]); auto.
    all: try (destruct F as [F|(c0 & C1 & C2 & C3)]; [destruct F as (F1 & F2 & F3); congruence|];
              destruct c0; simpl in *; unfold nof in *; try tauto; try intuition congruence).
    - destruct (pausing (fl s)); unfold nof; simpl; auto.
    - destruct (stopping (fl s)); unfold nof; simpl; auto.
    - unfold nof; simpl; auto.
    - destruct F as [F1 F2]. split; auto.
      specialize (P k H0). rewrite Nat.ltb_irrefl, H1 in P. apply pstat_recv in P as (_ & [o O] & _).
      destruct c; simpl in *; auto; try discriminate; unfold nof in *; simpl;
        injection O as <-; unfold pause_or_stop;
        destruct (raises o), (q_pause o), (q_stop o), (g_lrn o), (g_pre o), (g_post o); simpl;
        rewrite ?orb_false_r; tauto.
    - tauto.
    - destruct T as [T|T]; [|subst; simpl in *; tauto].
      destruct c; simpl in *; try tauto; right; eexists; repeat split; try apply F; simpl; auto.
    - destruct T as [T|T]; [|subst; simpl in *; destruct d; tauto].
      destruct c; simpl in *; try tauto; right; eexists; repeat split; try apply F; simpl; auto;
        destruct d; simpl; apply F.
  Qed.

  Lemma invF_exec tr s : exec tr s -> InvF tr s.
  Proof.
    induction 1 as [|tr s e s' H IH St].
    - unfold InvF, nof; simpl; auto.
    - destruct St as [? ? ? Hv|? ? ? Hm|? ? ? He].
      + eapply invF_v; eauto. eapply invB_exec; eauto.
      + destruct Hm; unfold InvF in *; simpl in *; destruct (sv s); auto; try (split; [|apply IH]);
          try (apply ends_snoc; simpl; auto; tauto);
          (destruct IH as [IH|(c0 & C1 & C2 & C3)]; [auto|]; right; exists c0; repeat split; auto;
           apply ends_snoc; simpl; auto).
      + destruct He; unfold InvF in *; simpl in *; destruct (sv s); auto; try (split; [|apply IH]);
          try (apply ends_snoc; simpl; auto; tauto);
          (destruct IH as [IH|(c0 & C1 & C2 & C3)]; [auto|]; right; exists c0; repeat split; auto;
           apply ends_snoc; simpl; auto).
  Qed.

  (** Requests. *)
  Inductive kind := KPre | KLrn | KPost.
  Definition kreq k := match k with KPre => RReqPre | KLrn => RReqLrn | KPost => RReqPost end.
  Definition kcmd k := match k with KPre => CPre | KLrn => CLrn | KPost => CPost end.
  Definition kflag k := match k with KPre => fpre | KLrn => flrn | KPost => fpost end.

  Definition InvQ (tr : list event) (s : sys) : Prop := forall k,
    asked (kreq k) (kcmd k) tr = true <->
    (kflag k (fl s) = true \/ exists i, i < N /\ In (kreq k) (p2s s i)).

  Definition ask_step (r : resp) (c : cmd) (b : bool) (e : event) : bool :=
    match e with
    | EvEnd _ _ (Some r') =>
        b || match r, r' with
             | RReqPre, RReqPre | RReqLrn, RReqLrn | RReqPost, RReqPost => true
             | _, _ => false end
    | EvBcast c' => if cmd_eqb c c' then false else b
    | _ => b
    end.
  Lemma asked_snoc r c tr e : asked r c (tr ++ [e]) = ask_step r c (asked r c tr) e.
  Proof. unfold asked. rewrite fold_left_app. reflexivity. Qed.

  Lemma quiet_p2s s i : InvB s -> i < N -> expc (sv s) (err (fl s)) i = None -> p2s s i = [].
  Proof. intros B Hi E. pose proof (b_p _ B i Hi) as P. rewrite E in P. inversion P; auto. Qed.

  Lemma kflag_peeked k d f : kflag k (peeked d f) = kflag k f.
  Proof. destruct k, d; auto. Qed.

  Lemma invQ_v tr s e s' : InvB s -> InvF tr s -> InvQ tr s -> vstep N s e s' -> InvQ (ext tr e) s'.
  Proof.
    intros B F Q H k. specialize (Q k).
    assert (X : forall v, sv s = v -> (forall i, expc v (err (fl s)) i = None) ->
                ~ exists i, i < N /\ In (kreq k) (p2s s i)).
    { intros v E Ev (i & Hi & Hin). rewrite (quiet_p2s s i) in Hin; auto. rewrite E. auto. }
    destruct H; simpl ext; unfold InvF in F;
      try match goal with Z : sv s = VNext |- _ => specialize (X _ Z ltac:(reflexivity)) end;
      try match goal with Z : sv s = VIdle |- _ => specialize (X _ Z ltac:(reflexivity)) end;
      rewrite ?asked_snoc; simpl; rewrite ?kflag_peeked; auto.
    - destruct k; simpl in *; auto.
    - destruct k; simpl in *; auto.
    - destruct k; simpl in *; auto.
    - destruct k; simpl in *; auto. split; [discriminate|]. intros [|?]; [discriminate|tauto].
    - destruct k; simpl in *; auto. split; [discriminate|]. intros [|?]; [discriminate|tauto].
    - destruct k; simpl in *; auto. split; [discriminate|]. intros [|?]; [discriminate|tauto].
    - destruct (pausing (fl s)); simpl; rewrite ?asked_snoc; destruct k; simpl in *; auto.
    - destruct (stopping (fl s)); simpl; rewrite ?asked_snoc; destruct k; simpl in *; auto.
    - destruct k; simpl in *; auto.
    - destruct k; simpl in *; auto.
    - (* recv *) pose proof (b_p _ B k0 H0) as P. rewrite H in P. simpl in P.
      rewrite Nat.ltb_irrefl, H1 in P. apply pstat_recv in P as (_ & _ & _ & -> & _).
      rewrite Q. split.
      + intros [Hf|(i & Hi & Hin)].
        * left. destruct k; simpl in *; rewrite Hf; auto.
        * destruct (Nat.eq_dec i k0).
          -- subst. rewrite H1 in Hin. destruct Hin as [->|[]]. left. destruct k; simpl; apply orb_true_r.
          -- right. exists i. rewrite fupd_other by auto. auto.
      + intros [Hf|(i & Hi & Hin)].
        * destruct (kflag k (fl s)) eqn:Ek; auto. right. exists k0. split; auto. rewrite H1.
          destruct k; simpl in *; rewrite Ek in Hf; destruct r; try discriminate; simpl; auto.
        * destruct (Nat.eq_dec i k0).
          -- subst. rewrite fupd_same in Hin. contradiction.
          -- rewrite fupd_other in Hin by auto. eauto.
    - destruct k; simpl in *; auto.
  Qed.

  Lemma invQ_m tr s e s' : InvB s -> InvQ tr s -> mstep N s e s' -> InvQ (ext tr e) s'.
  Proof.
    intros B Q H k. specialize (Q k). destruct H; simpl ext; rewrite asked_snoc; simpl.
    - rewrite Q. split; intros [|(j & Hj & Hin)]; auto; right; exists j; split; auto.
      + fupds; auto.
      + revert Hin. fupds; auto.
    - destruct (handler c o) as [r|] eqn:Hh.
      + rewrite orb_true_iff, Q. split.
        * intros [[|(j & Hj & Hin)]|Hr]; auto.
          -- right. exists j. split; auto. fupds; auto. apply in_or_app. auto.
          -- right. exists i. split; auto. rewrite fupd_same. apply in_or_app. right.
             destruct k, r; try discriminate; simpl; auto.
        * intros [|(j & Hj & Hin)]; auto. revert Hin. fupds.
          -- rewrite in_app_iff. intros [|[->|[]]]; eauto. right. destruct k; auto.
          -- eauto.
      + rewrite Q. split; intros [|(j & Hj & Hin)]; auto; right; exists j; split; auto.
        * fupds; auto.
        * revert Hin. fupds; auto.
  Qed.

  Lemma invQ_exec tr s : exec tr s -> InvQ tr s.
  Proof.
    induction 1 as [|tr s e s' H IH St].
    - intro k. unfold asked; simpl. split; [discriminate|]. intros [|(? & ? & [])]. destruct k; discriminate.
    - pose proof (invB_exec _ _ H). pose proof (invF_exec _ _ H).
      destruct St as [? ? ? Hv|? ? ? Hm|? ? ? He].
      + eapply invQ_v; eauto.
      + eapply invQ_m; eauto.
      + intro k. specialize (IH k). destruct He; simpl ext; rewrite asked_snoc; simpl; auto.
  Qed.

  (** R: counting time steps of the current run. *)
  Lemma since_snoc tr e : since_start (tr ++ [e]) =
    match e with
    | EvStart n => Some (n, [])
    | _ => match since_start tr with Some (n, l) => Some (n, l ++ [e]) | None => None end
    end.
  Proof.
    induction tr as [|x tr IH]; simpl.
    - destruct e; auto.
    - rewrite IH. destruct e; auto; destruct (since_start tr) as [[]|]; auto; destruct x; auto.
  Qed.

  Definition in_run (v : svpc) : Prop :=
    match v with
    | VNext | VChk _ | VProbe _ | VEnd => True
    | VSend c _ | VRecv c _ => match c with CPause | CStop => False | _ => True end
    | _ => False
    end.

  Definition InvR (tr : list event) (s : sys) : Prop :=
    match since_start tr with
    | None => ~ in_run (sv s)
    | Some (n, l) =>
        (forall i, i < N -> count CSpk (begun i l ++ s2p s i ++ undel (sv s) i) = cur s) /\
        nn s = n /\ (last (fl s) = true -> cur s = nn s) /\ cur s <= nn s /\
        times DONE (said l) <= 1 /\ (in_run (sv s) -> times DONE (said l) = 0) /\
        (times DONE (said l) = 1 -> cur s = nn s)
    end.

  Lemma times_app r a b : times r (a ++ b) = times r a + times r b.
  Proof. unfold times. rewrite filter_app, app_length. auto. Qed.

  Lemma last_peeked d f : last (peeked d f) = last f.
  Proof. destruct d; auto. Qed.

  Lemma count_host l : Forall (eq CHost) l -> count CSpk l = 0.
  Proof. induction 1; auto. subst. simpl. auto. Qed.

  Lemma invR_v tr s e s' : InvB s -> InvR tr s -> vstep N s e s' -> InvR (ext tr e) s'.
  Proof.
    intros B R H. pose proof (b_ty _ B) as T. unfold InvR in *.
    destruct H; simpl ext;
      match goal with Z : sv s = _ |- _ => rewrite Z in * end;
      try match goal with |- context [if pausing (fl s) then None else _] => destruct (pausing (fl s)); simpl ext end;
      try match goal with |- context [if stopping (fl s) then None else _] => destruct (stopping (fl s)); simpl ext end;
      rewrite ?since_snoc; simpl in *;
      try (destruct (since_start tr) as [[m l]|];
         [destruct R as (R1 & R2 & R3 & R4 & R5 & R6 & R7)| try tauto];
         rewrite ?begun_app, ?said_app, ?times_app; simpl; rewrite ?app_nil_r, ?Nat.add_0_r, ?last_peeked;
         repeat split; auto; try discriminate; try tauto; try lia).
    all: try (intros i Hi; specialize (R1 i Hi); rewrite ?begun_app, ?app_nil_r, ?count_app in *; simpl in *;
              rewrite ?app_nil_r, ?Nat.add_0_r; simpl; auto; fail).
    all: try (intro X; apply Nat.eqb_eq in X; auto; fail).
    all: try (destruct c; simpl in *; try tauto; try discriminate; fail).
    all: try (destruct c; simpl in *; intros i Hi; specialize (R1 i Hi); rewrite ?begun_app, ?app_nil_r, ?count_app in *; simpl in *;
              rewrite ?app_nil_r, ?Nat.add_0_r; simpl; auto; fail).
    all: try (intros i Hi; pose proof (b_p _ B i Hi) as P; rewrite H in P; simpl in P; inversion P; subst;
              rewrite app_nil_r; apply count_host; auto; fail).
    all: try (intros i Hi; specialize (R1 i Hi); rewrite ?begun_app, ?app_nil_r, ?count_app in *; simpl in *;
      revert R1; fupds; ltbs; simpl; rewrite ?count_app; simpl; unfold count in *; simpl; lia).
    - specialize (R6 I). unfold times in *. simpl. lia.
    - intros _. apply R3. destruct (last (fl s)); auto. rewrite !orb_true_r in H0. discriminate.
  Qed.

  Lemma invR_m tr s e s' : InvA tr s -> InvR tr s -> mstep N s e s' -> InvR (ext tr e) s'.
  Proof.
    intros A R H. unfold InvR in *. destruct H; simpl ext; rewrite since_snoc; simpl.
    all: destruct (since_start tr) as [[m l]|]; auto.
    all: destruct R as (R1 & R2 & R3 & R4 & R5 & R6 & R7); rewrite said_app, times_app; simpl;
      rewrite Nat.add_0_r; repeat split; auto; intros j Hj; specialize (R1 j Hj);
      rewrite begun_app; simpl; fupds; rewrite ?Nat.eqb_refl.
    - rewrite H1 in R1. rewrite <- R1, !app_assoc. f_equal. f_equal. rewrite <- app_assoc. auto.
    - replace (i =? j) with false by (symmetry; apply Nat.eqb_neq; auto). rewrite app_nil_r. auto.
    - rewrite app_nil_r. auto.
    - rewrite app_nil_r. auto.
  Qed.

  Lemma invR_exec tr s : exec tr s -> InvR tr s.
  Proof.
    induction 1 as [|tr s e s' H IH St].
    - unfold InvR. simpl. auto.
    - destruct St as [? ? ? Hv|? ? ? Hm|? ? ? He].
      + eapply invR_v; eauto. eapply invB_exec; eauto.
      + eapply invR_m; eauto. eapply invA_exec; eauto.
      + unfold InvR in *. destruct He; simpl ext; rewrite since_snoc; simpl;
          destruct (since_start tr) as [[m l]|]; auto;
          destruct IH as (R1 & R2 & R3 & R4 & R5 & R6 & R7); rewrite said_app, times_app; simpl;
          rewrite Nat.add_0_r; repeat split; auto; intros j Hj; specialize (R1 j Hj);
          rewrite begun_app; simpl; rewrite app_nil_r; auto.
  Qed.
End RP.
