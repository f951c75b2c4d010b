(** C07 (liveness) and C10 (positive part): disciplined histories. *)
From Coq Require Import List Arith Lia Bool.
From Verif Require Import Runtime_Spec Runtime_Proofs Runtime_Live Runtime_Inv2 Runtime_Props Runtime_Props2.
Import ListNotations.

Definition steps_of (l : list rcmd) : list nat :=
  flat_map (fun c => match c with Steps n => [n] | _ => [] end) l.

Lemma steps_of_app a b : steps_of (a ++ b) = steps_of a ++ steps_of b.
Proof. apply flat_map_app. Qed.
Lemma steps_of_map q : steps_of (map Steps q) = q.
Proof. induction q; simpl; auto. unfold steps_of in *. congruence. Qed.
Lemma steps_of_pauses k : steps_of (repeat Pause k) = [].
Proof. induction k; simpl; auto. Qed.

Section Disc.
  Variable N : nat.
  Notation exec := (exec N).

  Lemma fifo_exec tr s : exec tr s -> pushed tr = starts tr ++ steps_of (r2s s).
  Proof.
    induction 1 as [|tr s e s' H IH St]; auto.
    destruct St as [? ? ? Hv|? ? ? Hm|? ? ? He].
    - destruct Hv; simpl ext;
        try match goal with |- context [if pausing (fl s) then None else _] => destruct (pausing (fl s)); simpl ext end;
        try match goal with |- context [if stopping (fl s) then None else _] => destruct (stopping (fl s)); simpl ext end;
        rewrite ?pushed_app, ?starts_app; simpl; rewrite ?app_nil_r; auto;
        rewrite IH, H1; simpl; auto. rewrite <- app_assoc. auto.
    - destruct Hm; simpl ext; rewrite pushed_app, starts_app; simpl; rewrite !app_nil_r; auto.
    - destruct He; simpl ext; rewrite pushed_app, starts_app; simpl; rewrite ?app_nil_r; auto.
      rewrite steps_of_app, app_assoc, <- IH. destruct c; simpl; rewrite ?app_nil_r; auto.
  Qed.

  Lemma disc_pre tr e : disciplined (ext tr e) -> disciplined tr.
  Proof.
    destruct e as [e|]; simpl; auto. intros (D1 & D2 & D3 & D4). split; [|split; [|split]].
    - intros a b ->. apply (D1 a (b ++ [e])). rewrite <- app_assoc. auto.
    - intro. apply D2. apply in_snoc; auto.
    - intros x Hx. apply D3. apply in_snoc; auto.
    - intros i c Hx. apply (D4 i c). apply in_snoc; auto.
  Qed.

  Definition calmset (v : svpc) : Prop :=
    match v with VEnd | VIdle | VSend CPause _ | VRecv CPause _ => True | _ => False end.
  Definition nopause_pc (v : svpc) : Prop :=
    match v with VEnd | VIdle | VSend CPause _ | VRecv CPause _ | VSend CHost _ | VProbe CHost => True | _ => False end.
  Definition hostpc (v : svpc) : Prop :=
    match v with VEnd | VSend CHost _ | VProbe CHost => True | _ => False end.
  Definition overpc (v : svpc) : Prop :=
    match v with VIdle | VSend CPause _ | VRecv CPause _ => True | _ => False end.
  Definition badpc (v : svpc) : Prop :=
    match v with VErrB | VErr _ | VDead | VCrash | VSend CStop _ | VRecv CStop _ => True | _ => False end.

  Record InvL (tr : list event) (s : sys) : Prop := {
    l_fl : pausing (fl s) = false /\ stopping (fl s) = false /\ fstop (fl s) = false;
    l_p2s : forall i, i < N -> ~ In RReqStop (p2s s i);
    l_sv : ~ badpc (sv s);
    l_r2s : exists k q, r2s s = repeat Pause k ++ map Steps q /\ (k <> 0 -> calmset (sv s));
    l_pause : nopause_pc (sv s) -> fpause (fl s) = false;
    l_run : match since_start tr with
            | None => calmset (sv s)
            | Some (n, l) =>
                (In DONE (said l) \/ In REQ_PAUSE (said l) -> calmset (sv s)) /\
                (Forall (fun e => ~ self_req e) l ->
                   fpause (fl s) = false /\ (forall i, i < N -> ~ In RReqPause (p2s s i)) /\
                   (hostpc (sv s) -> last (fl s) = true) /\
                   (overpc (sv s) -> In DONE (said l)))
            end }.

  Lemma disc_err tr s : exec tr s -> disciplined tr ->
    err (fl s) = false /\ forall i, i < N -> ~ In RErr (p2s s i).
  Proof.
    intros H (_ & _ & D & _). split.
    - destruct (err (fl s)) eqn:E; auto. destruct (error_raised _ _ _ H) as (e & He & R); auto. exfalso. eapply D; eauto.
    - intros i Hi Hin. destruct (error_raised _ _ _ H) as (e & He & R); eauto. eapply D; eauto.
  Qed.

  Lemma quiet_all s : InvB N s -> (forall i, expc (sv s) (err (fl s)) i = None) -> forall i r, i < N -> ~ In r (p2s s i).
  Proof. intros B E i r Hi. rewrite (quiet_p2s _ _ i B Hi); auto. Qed.

  Lemma Forall_snoc {A} (P : A -> Prop) l x : Forall P (l ++ [x]) <-> Forall P l /\ P x.
  Proof. rewrite Forall_app. split; intros [H1 H2]; split; auto. inversion H2; auto. Qed.

  Lemma shape_stop k q r : repeat Pause k ++ map Steps q <> Stop :: r.
  Proof. destruct k; simpl; [destruct q; discriminate|discriminate]. Qed.
  Lemma shape_pause k q r : repeat Pause k ++ map Steps q = Pause :: r -> exists k', k = S k' /\ r = repeat Pause k' ++ map Steps q.
  Proof. destruct k; simpl; [destruct q; discriminate|]. intro E. injection E as <-. eauto. Qed.
  Lemma shape_steps k q n r : repeat Pause k ++ map Steps q = Steps n :: r -> k = 0 /\ exists q', r = map Steps q'.
  Proof. destruct k; simpl; [|discriminate]. destruct q; simpl; [discriminate|]. intro E. injection E as _ <-. eauto. Qed.

  Ltac runtac L :=
    match type of L with
    | match since_start ?tr with _ => _ end =>
        let L1 := fresh "L1" in let L2 := fresh "L2" in
        destruct (since_start tr) as [[? ?]|]; simpl in *; [|tauto];
        destruct L as [L1 L2];
        (split;
        [ rewrite ?said_app; simpl; rewrite ?app_nil_r; auto; try (intros [|]; auto; fail)
        | rewrite ?Forall_snoc; let Z := fresh "Z" in intro Z;
          let Z' := match type of Z with _ /\ _ => constr:(proj1 Z) | _ => constr:(Z) end in
          destruct (L2 Z') as (? & ? & ? & ?);
          repeat split; auto; rewrite ?said_app, ?in_app_iff; auto ])
    end.

  Lemma invL_v tr s e s' : exec tr s -> disciplined tr -> InvL tr s -> vstep N s e s' -> InvL (ext tr e) s'.
  Proof.
    intros H D [F P S R U L] V.
    pose proof (invB_exec _ _ _ H) as B. destruct (disc_err _ _ H D) as [Er Ep].
    pose proof (invW_exec _ _ _ H) as W. unfold InvW in W.
    destruct F as (F1 & F2 & F3). destruct R as (k0 & q0 & R1 & R2).
    assert (Q := quiet_all s B).
    destruct V; try congruence;
      try (match goal with Z : r2s s = _ :: _ |- _ => rewrite Z in R1; symmetry in R1 end);
      try (exfalso; eapply shape_stop; eauto; fail);
      try (exfalso; match goal with Z : _ \/ _ |- _ => destruct Z; subst end; congruence);
      try (apply shape_pause in R1 as (k1 & -> & ->));
      try (match goal with d : rcmd, Z : sv s = VProbe _ |- _ =>
             pose proof R2 as R2'; rewrite Z in R2'; destruct d;
             [apply shape_steps in R1 as (-> & q1 & ->)
             |apply shape_pause in R1 as (k1 & -> & ->); exfalso; apply R2'; auto
             |exfalso; eapply shape_stop; eauto] end);
      try (match goal with Z : sv s = VIdle |- _ => apply shape_steps in R1 as (-> & q1 & ->) end);
      repeat match goal with Z : sv s = _ |- _ => rewrite Z in S, R2, U, L, W, Q; revert Z end; intros;
      rewrite ?F1, ?F2 in *; simpl in S, W; try (exfalso; apply S; exact I);
      try (simpl in *; congruence).
    all: constructor; simpl; auto.
    all: simpl ext; rewrite ?since_snoc.
    all: try (runtac L; fail).
    all: try (exists k0, q0; split; auto; intro Z; simpl in *; tauto).
    all: try (exists k1, q0; split; auto; intro Z; simpl in *; tauto).
    all: try (exists 0, q1; split; auto; intro Z; simpl in *; tauto).
    all: try (simpl in *; tauto).
    all: try (destruct c; simpl in *; tauto).
    all: try (destruct c; simpl in *; runtac L; fail).
    - split; [tauto|]. intros _. split; [apply U; exact I|]. split; [|tauto].
      intros i Hi. apply Q; auto.
    - destruct (since_start tr) as [[m l]|]; simpl in *; try tauto. split; auto.
      rewrite Forall_snoc. intros [Z _]. destruct (proj2 L Z) as (X & _). congruence.
    - split; auto. split; auto. rewrite F3. destruct r; auto. exfalso. eapply (P k); eauto. rewrite H2. simpl; auto.
    - intros i Hi. fupds; [|apply P; auto]. intro Z. apply (P k Hi). rewrite H2. simpl; auto.
    - destruct c; try tauto. intros _. rewrite (U I). destruct r; auto. exfalso.
      pose proof (b_p _ _ B k H1) as X. rewrite H0 in X. simpl in X. rewrite Nat.ltb_irrefl, H2 in X.
      apply pstat_recv in X as (_ & [o O] & _). discriminate.
    - destruct (since_start tr) as [[m l]|]; simpl in *; [|destruct c; tauto].
      destruct L as [L1 L2]. split; [destruct c; auto|]. intro Z. destruct (L2 Z) as (X1 & X2 & X3 & X4).
      split; [|split; [|split; [tauto|destruct c; simpl in *; tauto]]].
      + rewrite X1. destruct r; auto. exfalso. eapply (X2 k); eauto. rewrite H2. simpl; auto.
      + intros i Hi. fupds; [|apply X2; auto]. intro Y. apply (X2 k Hi). rewrite H2. simpl; auto.
    - destruct H1; subst; congruence.
    - exfalso. destruct H1; subst; congruence.
    - exfalso. destruct H1; subst; congruence.
    - exists k0, q0. split; auto. intro Z. specialize (R2 Z). destruct c; simpl in *; try tauto; congruence.
    - pose proof (b_ty _ _ B) as T. rewrite H0 in T. destruct c; simpl in *; tauto.
    - pose proof (b_ty _ _ B) as T. rewrite H0 in T. destruct c; simpl in *; try tauto; runtac L.
    - match goal with Z : r2s s = Steps ?n :: _ |- _ => exists 0, (n :: q1) end. split; auto. tauto.
    - destruct (since_start tr) as [[m l]|]; simpl in *; auto. split; auto.
      intro Z. destruct (proj2 L Z) as (X1 & X2 & X3 & X4). rewrite (X3 I) in H1. discriminate.
    - destruct (since_start tr) as [[m l]|]; simpl in *; auto. split; auto.
      rewrite Forall_snoc. intros [Z _]. destruct (proj2 L Z) as (X1 & X2 & X3 & X4).
      rewrite said_app. repeat split; auto. intros _. apply in_or_app. simpl; auto.
  Qed.

  Lemma calm_no_spk tr u : exec tr u -> calmset (sv u) -> forall e v, step N u (Some e) v ->
    (forall i, e <> EvBegin i CSpk) /\ (forall i r, e <> EvEnd i CSpk r) /\ e <> EvBcast CSpk.
  Proof.
    intros H C e v St. pose proof (invB_exec _ _ _ H) as B.
    assert (Er : err (fl u) = true -> False).
    { intro E. pose proof (b_err _ _ B E) as X. destruct (sv u) as [| |[]|[]| | | | | | |]; simpl in *; auto. }
    assert (P : forall i, i < N -> pstat (s2p u i) (mp u i) (p2s u i) None \/ pstat (s2p u i) (mp u i) (p2s u i) (Some CPause)).
    { intros i Hi. pose proof (b_p _ _ B i Hi) as X.
      destruct (sv u) as [| |[]|[]| | | | | | |]; simpl in *; try contradiction; auto; destruct (_ <? _); auto. }
    remember (Some e) as o eqn:Ho.
    destruct St as [? ? ? Hv|? ? ? Hm|? ? ? He].
    - destruct Hv; try discriminate;
        try (match goal with Z : sv s = _ |- _ => rewrite Z in C; simpl in C; contradiction end);
        injection Ho as <-; (split; [|split]); intros; discriminate.
    - destruct Hm; injection Ho as <-; (split; [|split]); try discriminate; intros j.
      + intro E. injection E as -> ->. destruct (P j ltac:(auto)) as [X|X]; rewrite H2 in X; inversion X; subst; try discriminate.
        * match goal with Z : Forall _ (_ :: _) |- _ => inversion Z; discriminate end.
        * destruct h as [|y h]; [discriminate|]. match goal with Z : _ :: _ = _ |- _ => injection Z as <- _ end.
          match goal with Z : Forall _ (_ :: _) |- _ => inversion Z; discriminate end.
      + intros r E. injection E as -> -> _. destruct (P j ltac:(auto)) as [X|X]; rewrite H1 in X; inversion X; subst;
          try discriminate; try (match goal with Z : forall c, MBusy _ = MBusy c -> _ |- _ => specialize (Z CSpk eq_refl); discriminate end).
        destruct r0; discriminate.
    - destruct He; injection Ho as <-; (split; [|split]); intros; discriminate.
  Qed.

  Lemma invL_exec tr s : exec tr s -> disciplined tr -> InvL tr s.
  Proof.
    induction 1 as [|tr s e s' H IH St]; intro D.
    - constructor; simpl; auto. exists 0, []. simpl. auto.
    - pose proof (disc_pre _ _ D) as D'. specialize (IH D').
      destruct St as [? ? ? Hv|? ? ? Hm|? ? ? He].
      + apply invL_v with s; auto.
      + destruct IH as [F P S R U L].
        assert (X : sv s' = sv s /\ fl s' = fl s /\ r2s s' = r2s s) by (destruct Hm; auto). destruct X as (X1 & X2 & X3).
        assert (Y : exists ev, e = Some ev /\ (match ev with EvStart _ | EvResp _ => False | _ => True end) /\
                    forall i r, i < N -> In r (p2s s' i) -> In r (p2s s i) \/ exists c, ev = EvEnd i c (Some r)).
        { destruct Hm; eexists; split; eauto; split; simpl; auto; intros j r Hj; fupds; auto.
          destruct (handler c o) as [r0|]; auto. rewrite in_snoc. intros [|<-]; eauto. }
        destruct Y as (ev & -> & Y1 & Y2).
        constructor; rewrite ?X1, ?X2, ?X3; auto.
        * intros i Hi Hin. destruct (Y2 _ _ Hi Hin) as [Z|[c ->]]; [eapply P; eauto|].
          destruct D as (_ & _ & _ & D4). apply (D4 i c). simpl. apply in_snoc. auto.
        * simpl ext. rewrite since_snoc. 
          assert (E : match ev with EvStart n => Some (n, []) | _ => match since_start tr with Some (n,l) => Some (n, l ++ [ev]) | None => None end end
                    = match since_start tr with Some (n,l) => Some (n, l ++ [ev]) | None => None end) by (destruct ev; auto; contradiction).
          rewrite E. destruct (since_start tr) as [[m l]|]; auto.
          assert (Es : said (l ++ [ev]) = said l) by (rewrite said_app; destruct ev; simpl; try apply app_nil_r; contradiction).
          rewrite Es, Forall_snoc. destruct L as [L1 L2]. split; auto.
          intros [Z1 Z2]. destruct (L2 Z1) as (W1 & W2 & W3 & W4). repeat split; auto.
          intros i Hi Hin. destruct (Y2 _ _ Hi Hin) as [Z|[c ->]]; [eapply W2; eauto|]. apply Z2. exact I.
      + destruct IH as [F P S R U L]. destruct He.
        * destruct R as (k & q & R1 & R2).
          assert (Lr : match since_start (tr ++ [EvPush c]) with
                 | Some (_, l) => (In DONE (said l) \/ In REQ_PAUSE (said l) -> calmset (sv s)) /\
                     (Forall (fun e => ~ self_req e) l -> fpause (fl s) = false /\ (forall i, i < N -> ~ In RReqPause (p2s s i)) /\
                     (hostpc (sv s) -> last (fl s) = true) /\ (overpc (sv s) -> In DONE (said l)))
                 | None => calmset (sv s) end).
          { rewrite since_snoc. destruct (since_start tr) as [[m l]|]; auto. rewrite said_app, Forall_snoc. simpl. rewrite app_nil_r.
            destruct L as [L1 L2]. split; auto. intros [Z _]. auto. }
          constructor; simpl; auto. destruct c.
          -- exists k, (q ++ [n]). rewrite R1, map_app, app_assoc. auto.
          -- destruct D as (D1 & _). destruct (D1 tr [] eq_refl) as [I1 I2].
             rewrite (fifo_exec _ _ H) in I1. rewrite R1, steps_of_app, steps_of_pauses, steps_of_map in I1. simpl in I1.
             assert (q = []). { destruct q; auto. exfalso. apply (f_equal (@length _)) in I1. rewrite app_length in I1. simpl in I1. lia. }
             subst. exists (k + 1), []. rewrite R1, repeat_app. simpl. rewrite !app_nil_r. split; auto.
             intros _. destruct (since_start tr) as [[m l]|]; auto. apply L. auto.
          -- exfalso. destruct D as (_ & D2 & _). apply D2. simpl. apply in_snoc. auto.
        * constructor; simpl; auto.
          rewrite since_snoc. destruct (since_start tr) as [[m l]|]; auto. rewrite said_app, Forall_snoc. simpl. rewrite app_nil_r.
          destruct L as [L1 L2]. split; auto. intros [Z _]. auto.
  Qed.
End Disc.

Lemma benign_disc tr : benign tr -> disciplined tr.
Proof.
  intros (B1 & B2 & B3). split; [|split; [|split]]; auto.
  - intros a b ->. exfalso. apply B1. apply in_or_app. simpl; auto.
  - intros e He. apply B3. auto.
  - intros i c Hin. destruct (B3 _ Hin) as [_ Z]. apply Z. exact I.
Qed.
Lemma benign_pre tr e : benign (ext tr e) -> benign tr.
Proof.
  destruct e as [e|]; simpl; auto. intros (B1 & B2 & B3). split; [|split].
  - intro. apply B1, in_snoc; auto.
  - intro. apply B2, in_snoc; auto.
  - intros x Hx. apply B3, in_snoc; auto.
Qed.

Lemma since_suffix tr n l : since_start tr = Some (n, l) -> exists a, tr = a ++ EvStart n :: l /\ Forall (fun e => ~ is_start e) l.
Proof.
  revert n l. induction tr as [|e tr IH]; simpl; [discriminate|]. intros n l.
  destruct (since_start tr) as [[m k]|] eqn:E.
  - intro X. injection X as -> ->. destruct (IH _ _ eq_refl) as (a & -> & F). exists (e :: a). auto.
  - destruct e; try discriminate. intro X. injection X as -> ->. exists []. split; auto.
    clear IH. induction l as [|e l IHl]; auto. simpl in E.
    destruct (since_start l) as [[]|] eqn:El; [discriminate|]. destruct e; try discriminate; constructor; auto.
Qed.

(** In a history without pause, stop, request or exception each started run but the current
    one has reported DONE. *)
Lemma count_done N tr s : exec N tr s -> benign tr ->
  times DONE (said tr) + (if match sv s with VIdle => true | _ => false end then 0 else 1) = length (starts tr).
Proof.
  induction 1 as [|tr s e s' H IH St]; intro B; auto.
  pose proof (benign_pre _ _ B) as B'. specialize (IH B').
  pose proof (invL_exec _ _ _ H (benign_disc _ B')) as [F P S R U L].
  assert (NP : ~ In Pause (r2s s) /\ ~ In (EvPush Pause) tr).
  { split; [|apply B']. clear - H B'. induction H as [|tr s e s' H IH St]; [intros []|].
    pose proof (benign_pre _ _ B') as B''. specialize (IH B'').
    destruct St as [? ? ? Hv|? ? ? Hm|? ? ? He].
    - destruct Hv; simpl; auto; rewrite H1 in IH; simpl in IH; tauto.
    - destruct Hm; simpl; auto.
    - destruct He; simpl; auto. rewrite in_snoc. intros [|X]; auto. subst c.
      destruct B' as (B1 & _). apply B1. simpl. apply in_snoc; auto. }
  assert (Ncp : match sv s with VSend CPause _ | VRecv CPause _ => False | _ => True end).
  { clear - H B'. assert (G : forall tr s, exec N tr s -> benign tr -> ~ In Pause (r2s s) /\
       match sv s with VSend CPause _ | VRecv CPause _ => False | _ => True end).
    { clear. induction 1 as [|tr s e s' H IH St]; intro B; [simpl; auto|].
      pose proof (benign_pre _ _ B) as B''. destruct (IH B'') as [I1 I2].
      destruct St as [? ? ? Hv|? ? ? Hm|? ? ? He].
      - destruct Hv; simpl; repeat match goal with Z : sv s = _ |- _ => rewrite Z in I2; revert Z end; intros; auto;
          try (rewrite H1 in I1; simpl in I1; tauto); split; auto; destruct c; auto.
      - destruct Hm; simpl; auto.
      - destruct He; simpl; auto. split; auto. rewrite in_snoc. intros [|X]; auto. subst c.
        destruct B as (B1 & _). apply B1. simpl. apply in_snoc; auto. }
    apply (G tr s H B'). }
  destruct F as (F1 & F2 & F3).
  assert (Lr : forall n l, since_start tr = Some (n, l) -> Forall (fun e => ~ self_req e) l).
  { intros n l E. apply since_suffix in E as (a & -> & _). rewrite Forall_forall. intros x Hx.
    apply B'. apply in_or_app. simpl; auto. }
  destruct St as [? ? ? Hv|? ? ? Hm|? ? ? He].
  - destruct Hv; simpl ext; repeat match goal with Z : sv s = _ |- _ => rewrite Z in IH, S, U, L, Ncp; revert Z end; intros;
      rewrite ?F1, ?F2 in *; simpl in *; try (exfalso; tauto);
      rewrite ?said_app, ?starts_app, ?times_app, ?app_length; simpl; try (rewrite ?Nat.add_0_r; auto; fail);
      try (unfold times in *; simpl; lia).
    + destruct R as (k0 & q0 & R1 & _). rewrite H1 in R1. symmetry in R1. exfalso. eapply shape_stop; eauto.
    + rewrite H1 in NP. simpl in NP. tauto.
    + destruct c; auto.
    + destruct c; auto.
    + exfalso. pose proof (invR_exec _ _ _ H) as Rr. unfold InvR in Rr. rewrite H0 in Rr.
      destruct (since_start tr) as [[m l]|] eqn:E; [|simpl in Rr; tauto].
      destruct L as [_ L]. destruct (L (Lr _ _ eq_refl)) as (_ & _ & X & _). rewrite (X I) in H1. discriminate.
  - destruct Hm; simpl in *; rewrite ?said_app, ?starts_app, ?times_app, ?app_length; simpl; rewrite ?Nat.add_0_r; auto; unfold times in *; simpl; lia.
  - destruct He; simpl in *; rewrite ?said_app, ?starts_app, ?times_app, ?app_length; simpl; rewrite ?Nat.add_0_r; auto; unfold times in *; simpl; lia.
Qed.

Lemma calm_not_push N x o y : vstep N x o y \/ mstep N x o y -> forall c, o <> Some (EvPush c).
Proof.
  intros [V|M] c E; [destruct V; try discriminate; [destruct (pausing (fl s))|destruct (stopping (fl s))]; discriminate|destruct M; discriminate].
Qed.

(** C07, liveness: if nobody pauses, stops, requests or raises, then on every schedule every
    requested run eventually reports DONE (exactly once: the counts are equal). *)
Theorem run_completes : forall N tr s,
  exec N tr s -> benign tr ->
  inevitable (calm_next N) (fun x => times DONE (said (fst x)) = length (pushed (fst x))) (tr, s).
Proof.
  intros N tr s H B.
  apply (sys_inevitable N (calm_next N) _ (fun x => benign (fst x))); auto.
  - intros x y (e & A1 & A2 & _). exists e. auto.
  - intros [t u] e s' St C. exists e. repeat split; auto; intros; subst; apply C.
  - intros [t u] [t' u'] Hx (B1 & B2 & B3) (e & St & -> & Hn). simpl in *. destruct e as [e|]; simpl; [|split; auto].
    pose proof (calm_not_push _ _ _ _ St) as Np.
    split; [|split].
    + rewrite in_snoc. intros [|X]; auto. subst. eapply Np; eauto.
    + rewrite in_snoc. intros [|X]; auto. subst. eapply Np; eauto.
    + intros x Hx'. apply in_snoc in Hx' as [|<-]; auto. split; apply (Hn e); auto.
  - intros [t u] Hx Bx Q V. simpl in *.
    pose proof (invL_exec _ _ _ Hx (benign_disc _ Bx)) as L. pose proof (l_sv _ _ _ L) as S.
    destruct V as [V|[V R]]; [rewrite V in S; exfalso; apply S; exact I|].
    pose proof (count_done _ _ _ Hx Bx) as C. rewrite V in C.
    pose proof (fifo_exec _ _ _ Hx) as F. rewrite R in F. simpl in F. rewrite app_nil_r in F. rewrite F. lia.
Qed.

(** C10, positive part.  If the runtime sends PAUSE only between runs (in particular after
    the network requested the pause), then a later run of n steps always completes: on every
    schedule the service starts it, every process executes exactly n more spiking phases
    after the time at which the command was given, and DONE is reported. *)
Theorem resume_completes_partial : forall N tr s n,
  exec N tr s -> disciplined tr -> idle tr ->
  inevitable (calm_next N) (fun x => exists l,
     fst x = tr ++ EvPush (Steps n) :: l /\ In DONE (said l) /\
     forall i, i < N -> count CSpk (begun i (fst x)) = count CSpk (begun i tr) + n /\
                        count CSpk (ended i (fst x)) = count CSpk (ended i tr) + n)
    (tr ++ [EvPush (Steps n)], psh s (Steps n)).
Proof.
  intros N tr s n H D Idl.
  assert (H' : exec N (tr ++ [EvPush (Steps n)]) (psh s (Steps n))).
  { apply (ex_step N tr s (Some (EvPush (Steps n)))); auto. apply st_e. constructor. }
  set (Phi := fun x : list event * sys => exists l, fst x = tr ++ EvPush (Steps n) :: l /\
        Forall (fun e => ~ self_req e /\ ~ raised e /\ forall c, e <> EvPush c) l).
  apply (sys_inevitable N (calm_next N) _ Phi); auto.
  - intros x y (e & A1 & A2 & _). exists e. auto.
  - intros [t u] e s' St C. exists e. repeat split; auto; intros; subst; apply C.
  - intros [t u] [t' u'] Hx (l & E & F) (e & St & E2 & Hn). simpl in *. unfold Phi. simpl. subst t t'.
    destruct e as [e|]; simpl; [|exists l; auto]. exists (l ++ [e]). split; [rewrite <- app_assoc; auto|].
    apply Forall_app. split; auto. constructor; auto. destruct (Hn e eq_refl). repeat split; auto.
    intros c ->. eapply calm_not_push; eauto.
  - intros [t u] Hx (l & E & F) Q V. simpl in *. subst t.
    assert (Dp : forall b, (exists b', l = b ++ b') -> disciplined (tr ++ EvPush (Steps n) :: b)).
    { intros b [b' ->]. apply Forall_app in F as [F _]. rewrite Forall_forall in F.
      destruct D as (D1 & D2 & D3 & D4). split; [|split; [|split]].
      - intros a c Ec. 
        assert (In (EvPush Pause) b -> False). { intro Z. apply F in Z as (_ & _ & Z). eapply Z; eauto. }
        assert (G : exists c', tr = a ++ EvPush Pause :: c').
        { clear - Ec H0. revert a Ec. induction tr as [|y t IH]; intros a Ec; simpl in *.
          - destruct a; simpl in Ec; [discriminate|]. injection Ec as _ Ec. exfalso. apply H0. rewrite Ec. apply in_or_app. simpl; auto.
          - destruct a; simpl in Ec; injection Ec as -> Ec; [exists t; auto|]. destruct (IH _ Ec) as [c' ->]. exists c'. auto. }
        destruct G as [c' G]. eapply D1; eauto.
      - intro Z. apply in_app_or in Z as [Z|[Z|Z]]; auto; [discriminate|]. apply F in Z as (_ & _ & Z). eapply Z; eauto.
      - intros x Z. apply in_app_or in Z as [Z|[Z|Z]]; auto; [subst; simpl; auto|]. apply F in Z. apply Z.
      - intros i c Z. apply in_app_or in Z as [Z|[Z|Z]]; [eapply D4; eauto|discriminate|]. apply F in Z as (Z & _ & _). apply Z. exact I. }
    pose proof (invL_exec _ _ _ Hx (Dp l (ex_intro _ [] (eq_sym (app_nil_r l))))) as L.
    pose proof (l_sv _ _ _ L) as S. destruct V as [V|[V R]]; [rewrite V in S; exfalso; apply S; exact I|].
    pose proof (fifo_exec _ _ _ Hx) as Ff. rewrite R, pushed_app, starts_app in Ff. simpl in Ff. rewrite app_nil_r in Ff.
    destruct Idl as [I1 I2]. rewrite I1 in Ff. apply app_inv_head in Ff.
    assert (Pl : pushed l = []).
    { clear - F. induction F as [|e l (_ & _ & Z) F IH]; auto. destruct e as [[]| | | | | |]; simpl; auto. exfalso. eapply Z; eauto. }
    rewrite Pl in Ff.
    assert (Sp : exists l1 l2, l = l1 ++ EvStart n :: l2 /\ starts l1 = [] /\ starts l2 = []).
    { clear - Ff. revert Ff. induction l as [|e l IH]; simpl; [discriminate|]. intro Ff.
      destruct e; try (destruct (IH Ff) as (l1 & l2 & -> & S1 & S2);
        match goal with |- context [?e :: (_ ++ _)] => exists (e :: l1), l2; auto end).
      injection Ff as -> Ff. exists [], l. auto. }
    destruct Sp as (l1 & l2 & -> & S1 & S2).
    assert (NS : forall k, starts k = [] -> Forall (fun e => ~ is_start e) k).
    { clear. induction k as [|e k IH]; auto. destruct e; simpl; intro; try discriminate; constructor; auto. }
    assert (Hs : since_start (tr ++ EvPush (Steps n) :: l1 ++ EvStart n :: l2) = Some (n, l2)).
    { replace (tr ++ EvPush (Steps n) :: l1 ++ EvStart n :: l2) with ((tr ++ EvPush (Steps n) :: l1) ++ EvStart n :: l2)
        by (rewrite <- app_assoc; auto). apply since_of. auto. }
    pose proof (l_run _ _ _ L) as Lr. rewrite Hs in Lr. destruct Lr as [_ Lr].
    destruct Lr as (_ & _ & _ & Lr).
    { apply Forall_app in F as [_ F]. inversion F; subst. eapply Forall_impl; [|eassumption]. simpl. tauto. }
    rewrite V in Lr. specialize (Lr I).
    exists (l1 ++ EvStart n :: l2). split; auto.
    split; [rewrite said_app, in_app_iff; simpl; auto|].
    (* counting *)
    pose proof (invR_exec _ _ _ Hx) as Rr. unfold InvR in Rr. rewrite Hs in Rr.
    destruct Rr as (R1 & R2 & R3 & R4 & R5 & R6 & R7).
    assert (T1 : times DONE (said l2) = 1).
    { apply in_split in Lr as (p & q & Ep). rewrite Ep in R5 |- *. rewrite times_app in *. unfold times in *. simpl in *. lia. }
    specialize (R7 T1). intros i Hi. pose proof (invB_exec _ _ _ Hx) as B.
    destruct (quiet_none _ _ i B Hi) as [Q1 Q2]; [rewrite V; auto|].
    specialize (R1 i Hi). rewrite V in R1. simpl in R1. rewrite app_nil_r, count_app, (count_host _ Q1), Nat.add_0_r, R7, R2 in R1.
    assert (C1 : count CSpk (begun i l1) = 0 /\ count CSpk (ended i l1) = 0).
    { assert (G : forall k, (exists k', l1 = k ++ k') -> count CSpk (begun i k) = 0 /\ count CSpk (ended i k) = 0).
      { induction k as [|e k IH] using rev_ind; intros [k' Ek]; auto.
        destruct IH as [A1 A2]; [exists (e :: k'); rewrite Ek, <- app_assoc; auto|].
        assert (Hx2 : exec N ((tr ++ EvPush (Steps n) :: k) ++ e :: (k' ++ EvStart n :: l2)) u).
        { rewrite <- app_assoc. simpl. rewrite Ek in Hx. rewrite <- !app_assoc in Hx. simpl in Hx. exact Hx. }
        apply exec_split in Hx2 as (u0 & u1 & X0 & St & _).
        assert (C : calmset (sv u0)).
        { assert (Dk : disciplined (tr ++ EvPush (Steps n) :: k)).
          { apply Dp. exists (e :: k' ++ EvStart n :: l2). rewrite Ek, <- !app_assoc. auto. }
          pose proof (l_run _ _ _ (invL_exec _ _ _ X0 Dk)) as Z.
          assert (Sk : starts k = []).
          { rewrite Ek, starts_app, starts_app in S1. destruct (starts k); auto. discriminate. }
          assert (Es : since_start (tr ++ EvPush (Steps n) :: k) =
                   match since_start tr with Some (m, l) => Some (m, l ++ EvPush (Steps n) :: k) | None => None end).
          { clear - Sk NS. induction tr as [|y t IH]; simpl.
            - rewrite since_none; auto.
            - rewrite IH. destruct (since_start t) as [[]|]; auto. destruct y; auto. }
          rewrite Es in Z. destruct (since_start tr) as [[m l0]|]; auto. destruct Z as [Z _]. apply Z.
          rewrite said_app, !in_app_iff. tauto. }
        destruct (calm_no_spk _ _ _ X0 C _ _ St) as (Z1 & Z2 & Z3).
        rewrite begun_app, ended_app, !count_app, A1, A2. 
        destruct e; simpl; auto; destruct (Nat.eqb_spec i0 i); auto; subst; destruct c; auto; exfalso; [eapply Z1|eapply Z2]; eauto. }
      apply G. exists []. rewrite app_nil_r. auto. }
    destruct C1 as [C1 C2].
    assert (Eb : count CSpk (begun i (tr ++ EvPush (Steps n) :: l1 ++ EvStart n :: l2)) = count CSpk (begun i tr) + n).
    { rewrite begun_app. simpl. rewrite begun_app. simpl. rewrite !count_app. lia. }
    split; auto.
    pose proof (a_busy _ _ _ (invA_exec _ _ _ Hx) i Hi) as Bu. apply (f_equal (count CSpk)) in Bu.
    rewrite count_app, (count_busy_host _ Q2), Nat.add_0_r in Bu. rewrite <- Bu, Eb. f_equal.
    (* at the time of the command nothing was outstanding *)
    assert (C : calmset (sv s)).
    { pose proof (l_run _ _ _ (invL_exec _ _ _ H D)) as Z. destruct (since_start tr) as [[]|]; auto. apply Z. auto. }
    pose proof (a_busy _ _ _ (invA_exec _ _ _ H) i Hi) as Bs. rewrite Bs, count_app.
    assert (count CSpk (busyl (mp s i)) = 0); [|lia].
    destruct (mp s i) as [|c|] eqn:M; auto. destruct c; auto. exfalso.
    destruct (calm_no_spk _ _ _ H C (EvEnd i CSpk (handler CSpk o0)) _ (st_m _ _ _ _ (M_end N s i CSpk o0 Hi M))) as (_ & Z & _).
    eapply Z; eauto.
  - exists []. split; auto.
Qed.
