From Coq Require Import List Arith ZArith Bool Lia.
From Verif Require Import Base Kahn GetSet_Model.
Import ListNotations.
Open Scope Z_scope.

Lemma nth_ext_eq A (l m : list A) : (forall i, nth_error l i = nth_error m i) -> l = m.
Proof.
  revert m; induction l as [|x l IH]; destruct m as [|y m]; intros H; auto.
  - specialize (H 0%nat); discriminate.
  - specialize (H 0%nat); discriminate.
  - f_equal. + specialize (H 0%nat). simpl in H. congruence. + apply IH. intros i. apply (H (S i)).
Qed.

Section Run.
Variables (K N cap : nat) (cfgs : nat -> rscfg) (T : vtable).
Hypothesis Hcap : (1 <= cap)%nat.
Notation run := (kruns (nact K cfgs T) cap).

Section Shape.
Variables (B : list comp) (Q : list (list Z)) (k g : nat).
Hypothesis (LB : length B = (1 + K + N)%nat) (LQ : length Q = (2 * K + 2 * N)%nat).
Hypothesis (Lk : (k < K)%nat) (Lg : (g < N)%nat).

Definition st (c : cstate) (s : sstate) (p : pstate) (a b d e : list Z) : net Z comp :=
  mkNet (upd (upd (upd B 0 (Cl c)) (1 + k) (Sv s)) (1 + K + g) (Pr p))
        (upd (upd (upd (upd Q (ch_rs k) a) (ch_sr k) b) (ch_sp K g) d) (ch_ps K g) e).

Ltac look := unfold st, ch_rs, ch_sr, ch_sp, ch_ps; cbn [comps chans];
  repeat rewrite nth_upd by (rewrite ?upd_length; lia);
  repeat match goal with
  | |- context[Nat.eqb ?x ?y] =>
      first [ replace (Nat.eqb x y) with false by (symmetry; apply Nat.eqb_neq; lia)
            | replace (Nat.eqb x y) with true by (symmetry; apply Nat.eqb_eq; lia) ]
  end; auto.
Ltac same := unfold st, ch_rs, ch_sr, ch_sp, ch_ps; cbn [comps chans]; f_equal; apply nth_ext_eq; intro;
  repeat rewrite nth_upd by (rewrite ?upd_length; lia);
  repeat match goal with |- context[Nat.eqb ?x ?y] => destruct (Nat.eqb_spec x y) end; try lia; auto.

Lemma i_sv : (1 + k - 1)%nat = k. Proof. lia. Qed.
Lemma i_pr : (1 + K + g - 1 - K)%nat = g. Proof. lia. Qed.

Lemma c_snd c c' s p a b d e x : cact ch_rs ch_sr T c = Snd (ch_rs k) x c' -> (length a < cap)%nat ->
  run (st c s p a b d e) (st c' s p (a ++ [x]) b d e).
Proof.
  intros H L. econstructor; [|apply KR0]. exists 0%nat.
  replace (st c' s p (a ++ [x]) b d e) with
    (mkNet (upd (comps (st c s p a b d e)) 0 (Cl c')) (upd (chans (st c s p a b d e)) (ch_rs k) (a ++ [x]))) by same.
  eapply (KSnd _ _ _ _ (Cl c)); [look|simpl; rewrite H; reflexivity|look|auto].
Qed.
Lemma c_rcv c kk s p a b d e x : cact ch_rs ch_sr T c = Rcv (ch_sr k) kk ->
  run (st c s p a (x :: b) d e) (st (kk x) s p a b d e).
Proof.
  intros H. econstructor; [|apply KR0]. exists 0%nat.
  replace (st (kk x) s p a b d e) with
    (mkNet (upd (comps (st c s p a (x :: b) d e)) 0 (Cl (kk x))) (upd (chans (st c s p a (x :: b) d e)) (ch_sr k) b)) by same.
  eapply (KRcv _ _ _ _ (Cl c) _ (fun v => Cl (kk v))); [look|simpl; rewrite H; reflexivity|look].
Qed.
Lemma c_tau c c' s p a b d e : cact ch_rs ch_sr T c = Tau c' ->
  run (st c s p a b d e) (st c' s p a b d e).
Proof.
  intros H. econstructor; [|apply KR0]. exists 0%nat.
  replace (st c' s p a b d e) with
    (mkNet (upd (comps (st c s p a b d e)) 0 (Cl c')) (chans (st c s p a b d e))) by same.
  eapply (KTau _ _ _ _ (Cl c)); [look|simpl; rewrite H; reflexivity].
Qed.

Notation sact_ := (sact (ch_rs k) (ch_sr k) (ch_sp K) (ch_ps K) (cfgs k)).
Lemma s_tau c s s' p a b d e : sact_ s = Tau s' -> run (st c s p a b d e) (st c s' p a b d e).
Proof.
  intros H. econstructor; [|apply KR0]. exists (1 + k)%nat.
  replace (st c s' p a b d e) with
    (mkNet (upd (comps (st c s p a b d e)) (1 + k) (Sv s')) (chans (st c s p a b d e))) by same.
  eapply (KTau _ _ _ _ (Sv s)); [look|]. unfold nact. rewrite i_sv, H; reflexivity.
Qed.
Lemma s_snd_r c s s' p a b d e x : sact_ s = Snd (ch_sr k) x s' -> (length b < cap)%nat ->
  run (st c s p a b d e) (st c s' p a (b ++ [x]) d e).
Proof.
  intros H L. econstructor; [|apply KR0]. exists (1 + k)%nat.
  replace (st c s' p a (b ++ [x]) d e) with
    (mkNet (upd (comps (st c s p a b d e)) (1 + k) (Sv s')) (upd (chans (st c s p a b d e)) (ch_sr k) (b ++ [x]))) by same.
  eapply (KSnd _ _ _ _ (Sv s)); [look|unfold nact; rewrite i_sv, H; reflexivity|look|auto].
Qed.
Lemma s_snd_p c s s' p a b d e x : sact_ s = Snd (ch_sp K g) x s' -> (length d < cap)%nat ->
  run (st c s p a b d e) (st c s' p a b (d ++ [x]) e).
Proof.
  intros H L. econstructor; [|apply KR0]. exists (1 + k)%nat.
  replace (st c s' p a b (d ++ [x]) e) with
    (mkNet (upd (comps (st c s p a b d e)) (1 + k) (Sv s')) (upd (chans (st c s p a b d e)) (ch_sp K g) (d ++ [x]))) by same.
  eapply (KSnd _ _ _ _ (Sv s)); [look|unfold nact; rewrite i_sv, H; reflexivity|look|auto].
Qed.
Lemma s_rcv_r c s kk p a b d e x : sact_ s = Rcv (ch_rs k) kk ->
  run (st c s p (x :: a) b d e) (st c (kk x) p a b d e).
Proof.
  intros H. econstructor; [|apply KR0]. exists (1 + k)%nat.
  replace (st c (kk x) p a b d e) with
    (mkNet (upd (comps (st c s p (x :: a) b d e)) (1 + k) (Sv (kk x))) (upd (chans (st c s p (x :: a) b d e)) (ch_rs k) a)) by same.
  eapply (KRcv _ _ _ _ (Sv s) _ (fun v => Sv (kk v))); [look|unfold nact; rewrite i_sv, H; reflexivity|look].
Qed.
Lemma s_rcv_p c s kk p a b d e x : sact_ s = Rcv (ch_ps K g) kk ->
  run (st c s p a b d (x :: e)) (st c (kk x) p a b d e).
Proof.
  intros H. econstructor; [|apply KR0]. exists (1 + k)%nat.
  replace (st c (kk x) p a b d e) with
    (mkNet (upd (comps (st c s p a b d (x :: e))) (1 + k) (Sv (kk x))) (upd (chans (st c s p a b d (x :: e))) (ch_ps K g) e)) by same.
  eapply (KRcv _ _ _ _ (Sv s) _ (fun v => Sv (kk v))); [look|unfold nact; rewrite i_sv, H; reflexivity|look].
Qed.

Notation pact_ := (pact (ch_sp K g) (ch_ps K g)).
Lemma p_tau c s p p' a b d e : pact_ p = Tau p' -> run (st c s p a b d e) (st c s p' a b d e).
Proof.
  intros H. econstructor; [|apply KR0]. exists (1 + K + g)%nat.
  replace (st c s p' a b d e) with
    (mkNet (upd (comps (st c s p a b d e)) (1 + K + g) (Pr p')) (chans (st c s p a b d e))) by same.
  eapply (KTau _ _ _ _ (Pr p)); [look|]. unfold nact. rewrite i_pr, H; reflexivity.
Qed.
Lemma p_snd c s p p' a b d e x : pact_ p = Snd (ch_ps K g) x p' -> (length e < cap)%nat ->
  run (st c s p a b d e) (st c s p' a b d (e ++ [x])).
Proof.
  intros H L. econstructor; [|apply KR0]. exists (1 + K + g)%nat.
  replace (st c s p' a b d (e ++ [x])) with
    (mkNet (upd (comps (st c s p a b d e)) (1 + K + g) (Pr p')) (upd (chans (st c s p a b d e)) (ch_ps K g) (e ++ [x]))) by same.
  eapply (KSnd _ _ _ _ (Pr p)); [look|unfold nact; rewrite i_pr, H; reflexivity|look|auto].
Qed.
Lemma p_rcv c s p kk a b d e x : pact_ p = Rcv (ch_sp K g) kk ->
  run (st c s p a b (x :: d) e) (st c s (kk x) a b d e).
Proof.
  intros H. econstructor; [|apply KR0]. exists (1 + K + g)%nat.
  replace (st c s (kk x) a b d e) with
    (mkNet (upd (comps (st c s p a b (x :: d) e)) (1 + K + g) (Pr (kk x))) (upd (chans (st c s p a b (x :: d) e)) (ch_sp K g) d)) by same.
  eapply (KRcv _ _ _ _ (Pr p) _ (fun v => Pr (kk v))); [look|unfold nact; rewrite i_pr, H; reflexivity|look].
Qed.

Ltac go L := eapply kruns_trans; [eapply L; [reflexivity|simpl; lia]|]; simpl app.
Ltac go0 L := eapply kruns_trans; [eapply L; reflexivity|]; cbv beta.

(** client sends x, service receives it *)
Lemma cs_pass c c' s kk p x : cact ch_rs ch_sr T c = Snd (ch_rs k) x c' -> sact_ s = Rcv (ch_rs k) kk ->
  run (st c s p [] [] [] []) (st c' (kk x) p [] [] [] []).
Proof.
  intros H H'. eapply kruns_trans; [eapply c_snd; eauto; simpl; lia|]. simpl. eapply s_rcv_r; eauto.
Qed.
Lemma sp_pass c s s' p kk x : sact_ s = Snd (ch_sp K g) x s' -> pact_ p = Rcv (ch_sp K g) kk ->
  run (st c s p [] [] [] []) (st c s' (kk x) [] [] [] []).
Proof.
  intros H H'. eapply kruns_trans; [eapply s_snd_p; eauto; simpl; lia|]. simpl. eapply p_rcv; eauto.
Qed.
Lemma ps_pass c s kk p p' x : pact_ p = Snd (ch_ps K g) x p' -> sact_ s = Rcv (ch_ps K g) kk ->
  run (st c s p [] [] [] []) (st c (kk x) p' [] [] [] []).
Proof.
  intros H H'. eapply kruns_trans; [eapply p_snd; eauto; simpl; lia|]. simpl. eapply s_rcv_p; eauto.
Qed.
Lemma sc_pass c kk s s' p x : sact_ s = Snd (ch_sr k) x s' -> cact ch_rs ch_sr T c = Rcv (ch_sr k) kk ->
  run (st c s p [] [] [] []) (st (kk x) s' p [] [] [] []).
Proof.
  intros H H'. eapply kruns_trans; [eapply s_snd_r; eauto; simpl; lia|]. simpl. eapply c_rcv; eauto.
Qed.

Ltac pass L := eapply kruns_trans; [eapply L; reflexivity|]; cbv beta.

(** Relaying the items of a get. *)
Lemma relay_get m size rs res : forall xs got n, (n = length got + length xs)%nat -> (n <= size)%nat ->
  run (st (cgot k size n got rs res) (SGetR g (length xs)) (PSending xs m) [] [] [] [])
      (st (CNext rs (res ++ [GotArray (pad size (got ++ xs))])) SIdle (PIdle m) [] [] [] []).
Proof.
  induction xs as [|x xs IH]; intros got n En Hn; simpl in *.
  - unfold cgot. destruct (Nat.ltb_spec (length got) n); [lia|]. rewrite app_nil_r.
    eapply kruns_trans; [eapply s_tau; reflexivity|]. eapply p_tau. reflexivity.
  - unfold cgot. destruct (Nat.ltb_spec (length got) n); [|lia].
    eapply kruns_trans; [eapply ps_pass; reflexivity|]. cbv beta.
    eapply kruns_trans; [eapply sc_pass; reflexivity|]. cbv beta.
    destruct (Nat.ltb_spec (length got) size); [|lia].
    replace (got ++ x :: xs) with ((got ++ [x]) ++ xs) by (rewrite <- app_assoc; auto).
    apply IH; auto. rewrite app_length. simpl. lia.
Qed.

Lemma pitems_all v n xs vid m : takes v n = length xs -> pitems vid v n xs m = pfinish vid v xs m.
Proof. intros H. unfold pitems. rewrite H, Nat.ltb_irrefl. auto. Qed.

(** Relaying the items of a set. *)
Lemma relay_set vid v n m rs res : forall xs got, takes v n = (length got + length xs)%nat ->
  run (st (CSend k xs None rs res) (SSetR g (length xs)) (pitems vid v n got m) [] [] [] [])
      (st (CSend k [] None rs res) (SSetR g 0) (pfinish vid v (got ++ xs) m) [] [] [] []).
Proof.
  induction xs as [|x xs IH]; intros got E; simpl in *.
  - rewrite pitems_all by lia. rewrite app_nil_r. constructor.
  - unfold pitems. destruct (Nat.ltb_spec (length got) (takes v n)); [|lia].
    eapply kruns_trans; [eapply cs_pass; reflexivity|]. cbv beta.
    eapply kruns_trans; [eapply sp_pass; reflexivity|]. cbv beta.
    replace (got ++ x :: xs) with ((got ++ [x]) ++ xs) by (rewrite <- app_assoc; auto).
    apply IH. rewrite app_length. simpl. lia.
Qed.

Variables (vid : Z) (vm : varmodel).
Hypothesis (Tv : T vid = Some vm) (Ek : v_srv vm = k) (Rt : route (cfgs k) (v_mid vm) = Some g).

Lemma do_get m v xs rs res : find_var vid m = Some v -> get_items v = Some xs ->
  (length xs <= v_size vm)%nat ->
  run (st (CNext (RGet vid :: rs) res) SIdle (PIdle m) [] [] [] [])
      (st (CNext rs (res ++ [GotArray (pad (v_size vm) xs)])) SIdle (PIdle m) [] [] [] []).
Proof.
  intros F G L.
  eapply kruns_trans; [eapply c_tau; simpl; rewrite Tv, Ek; reflexivity|].
  pass cs_pass. simpl.
  pass cs_pass. rewrite Rt.
  pass cs_pass.
  pass c_tau.
  pass sp_pass. simpl.
  pass sp_pass. rewrite F, G.
  pass s_tau. simpl.
  pass ps_pass.
  pass sc_pass. rewrite !Nat2Z.id.
  apply relay_get; auto.
Qed.

Lemma do_set m v xs w rs res : find_var vid m = Some v -> takes v (Z.of_nat (length xs)) = length xs ->
  store v xs = Some w ->
  run (st (CNext (RSet vid xs :: rs) res) SIdle (PIdle m) [] [] [] [])
      (st (CNext rs (res ++ [SetOk])) SIdle (PIdle (put_var vid w m)) [] [] [] []).
Proof.
  intros F G L.
  eapply kruns_trans; [eapply c_tau; simpl; rewrite Tv, Ek; reflexivity|].
  pass cs_pass. simpl.
  pass cs_pass. rewrite Rt.
  pass cs_pass.
  pass sp_pass. simpl.
  pass sp_pass. rewrite F.
  pass s_tau. simpl.
  replace (match v with VFloat _ => PFail 2 | _ => PSetN vid v m end) with (PSetN vid v m)
    by (destruct v; auto; discriminate).
  pass cs_pass.
  pass sp_pass. rewrite Nat2Z.id.
  eapply kruns_trans; [eapply relay_set; rewrite G; reflexivity|]. simpl app.
  unfold pfinish. rewrite L.
  pass s_tau.
  pass c_tau.
  pass ps_pass.
  pass sc_pass. simpl. apply KR0.
Qed.
End Shape.

(** Back to the network at rest. *)
Lemma nth_repeat_some A (x : A) n i : (i < n)%nat -> nth_error (repeat x n) i = Some x.
Proof. revert i; induction n; destruct i; simpl; intros; auto; try lia. apply IHn; lia. Qed.

Definition at_rest (c : cstate) (ms : list mem) : net Z comp :=
  mkNet (Cl c :: repeat (Sv SIdle) K ++ map (fun m => Pr (PIdle m)) ms)
        (repeat [] (2 * K + 2 * length ms)).

Lemma rest_st c c' ms k g m m' : (k < K)%nat -> nth_error ms g = Some m ->
  at_rest c' (upd ms g m') = st (comps (at_rest c ms)) (chans (at_rest c ms)) k g c' SIdle (PIdle m') [] [] [] [].
Proof.
  intros Hk Hg. unfold at_rest, st. rewrite upd_length. simpl comps. simpl chans. f_equal.
  - simpl. f_equal. rewrite (upd_same _ _ k).
    + rewrite map_upd. replace (K + g)%nat with (length (repeat (Sv SIdle) K) + g)%nat by (rewrite repeat_length; auto).
      rewrite upd_app_r. auto.
    + rewrite nth_error_app1 by (rewrite repeat_length; auto). apply nth_repeat_some; auto.
  - pose proof (nth_lt _ _ _ _ Hg).
    assert (L : forall i, (i < 2 * K + 2 * length ms)%nat -> nth_error (repeat (@nil Z) (2 * K + 2 * length ms)) i = Some [])
      by (intros; apply nth_repeat_some; auto).
    unfold ch_rs, ch_sr, ch_sp, ch_ps.
    rewrite (upd_same _ _ (2 * k)) by (apply L; lia).
    rewrite (upd_same _ _ (2 * k + 1)) by (apply L; lia).
    rewrite (upd_same _ _ (2 * K + 2 * g)) by (apply L; lia).
    rewrite (upd_same _ _ (2 * K + 2 * g + 1)) by (apply L; lia). auto.
Qed.

Lemma len_comps c ms : length ms = N -> length (comps (at_rest c ms)) = (1 + K + N)%nat.
Proof. intros <-. simpl. rewrite app_length, repeat_length, map_length. lia. Qed.
Lemma len_chans c ms : length ms = N -> length (chans (at_rest c ms)) = (2 * K + 2 * N)%nat.
Proof. intros <-. simpl. rewrite repeat_length. lia. Qed.

Lemma rest_get ms k g vid vm m v xs rs res :
  length ms = N -> T vid = Some vm -> v_srv vm = k -> (k < K)%nat -> route (cfgs k) (v_mid vm) = Some g ->
  nth_error ms g = Some m -> find_var vid m = Some v -> get_items v = Some xs -> (length xs <= v_size vm)%nat ->
  run (at_rest (CNext (RGet vid :: rs) res) ms) (at_rest (CNext rs (res ++ [GotArray (pad (v_size vm) xs)])) ms).
Proof.
  intros L Tv Ek Hk Rt Hg F G Sz.
  rewrite <- (upd_same _ ms g m Hg) at 1 2.
  rewrite !(rest_st (CNext rs res) _ ms k g m m Hk Hg).
  eapply do_get; eauto using len_comps, len_chans. rewrite <- L. eapply nth_lt; eauto.
Qed.
Lemma rest_set ms k g vid vm m v xs w rs res :
  length ms = N -> T vid = Some vm -> v_srv vm = k -> (k < K)%nat -> route (cfgs k) (v_mid vm) = Some g ->
  nth_error ms g = Some m -> find_var vid m = Some v ->
  takes v (Z.of_nat (length xs)) = length xs -> store v xs = Some w ->
  run (at_rest (CNext (RSet vid xs :: rs) res) ms) (at_rest (CNext rs (res ++ [SetOk])) (upd ms g (put_var vid w m))).
Proof.
  intros L Tv Ek Hk Rt Hg F G Sz.
  rewrite <- (upd_same _ ms g m Hg) at 1.
  rewrite !(rest_st (CNext rs res) _ ms k g m _ Hk Hg).
  eapply do_set; eauto using len_comps, len_chans. rewrite <- L. eapply nth_lt; eauto.
Qed.

(** Channel discipline. *)
Hypothesis own : nat -> nat.
Hypothesis Hown : forall k g, (k < K)%nat -> In g (mprocs (cfgs k)) -> own g = k.
Hypothesis HT : forall vid v, T vid = Some v -> (v_srv v < K)%nat.

Definition wr (c : nat) : nat :=
  if (c <? 2 * K)%nat then (if Nat.even c then 0%nat else S (c / 2))
  else if Nat.even c then S (own ((c - 2 * K) / 2)) else (1 + K + (c - 2 * K) / 2)%nat.
Definition rd (c : nat) : nat :=
  if (c <? 2 * K)%nat then (if Nat.even c then S (c / 2) else 0%nat)
  else if Nat.even c then (1 + K + (c - 2 * K) / 2)%nat else S (own ((c - 2 * K) / 2)).

Definition okc (s : cstate) : Prop :=
  match s with
  | CSend k _ _ _ _ | CNum k _ _ _ | CItem k _ _ _ _ _ | CAck k _ _ => (k < K)%nat
  | _ => True
  end.
Definition oks (k : nat) (s : sstate) : Prop :=
  match s with
  | SVid _ g | SFwd _ g _ | SGetN g | SGetS g _ _ | SGetR g _ | SSetN g | SSetS g _ _ | SSetR g _ | SRsp g =>
      In g (mprocs (cfgs k))
  | _ => True
  end.
Definition okk (i : nat) (s : comp) : Prop :=
  match s with
  | Cl s => i = 0%nat /\ okc s
  | Sv s => (1 <= i <= K)%nat /\ oks (i - 1) s
  | Pr s => (K < i)%nat
  end.

Lemma half_even n : (2 * n / 2 = n)%nat. Proof. rewrite Nat.mul_comm. apply Nat.div_mul. lia. Qed.
Lemma half_odd n : ((2 * n + 1) / 2 = n)%nat.
Proof. rewrite Nat.mul_comm, Nat.div_add_l by lia. change (1/2)%nat with 0%nat. lia. Qed.
Lemma ev n : Nat.even (2 * n) = true. Proof. rewrite Nat.even_mul. auto. Qed.
Lemma od n : Nat.even (2 * n + 1) = false. Proof. rewrite Nat.even_add, Nat.even_mul. auto. Qed.
Lemma ev2 m n : Nat.even (2 * m + 2 * n) = true. Proof. rewrite Nat.even_add, !Nat.even_mul. auto. Qed.
Lemma od2 m n : Nat.even (2 * m + 2 * n + 1) = false. Proof. rewrite !Nat.even_add, !Nat.even_mul. auto. Qed.

Lemma wr_rs k : (k < K)%nat -> wr (ch_rs k) = 0%nat /\ rd (ch_rs k) = S k.
Proof. intros. unfold wr, rd, ch_rs. rewrite ev, half_even. destruct (Nat.ltb_spec (2 * k) (2 * K)); [auto|lia]. Qed.
Lemma wr_sr k : (k < K)%nat -> wr (ch_sr k) = S k /\ rd (ch_sr k) = 0%nat.
Proof. intros. unfold wr, rd, ch_sr. rewrite od, half_odd. destruct (Nat.ltb_spec (2 * k + 1) (2 * K)); [auto|lia]. Qed.
Lemma wr_sp g : wr (ch_sp K g) = S (own g) /\ rd (ch_sp K g) = (1 + K + g)%nat.
Proof.
  unfold wr, rd, ch_sp. rewrite ev2. destruct (Nat.ltb_spec (2 * K + 2 * g) (2 * K)); [lia|].
  replace (2 * K + 2 * g - 2 * K)%nat with (2 * g)%nat by lia. rewrite half_even. auto.
Qed.
Lemma wr_ps g : wr (ch_ps K g) = (1 + K + g)%nat /\ rd (ch_ps K g) = S (own g).
Proof.
  unfold wr, rd, ch_ps. rewrite od2. destruct (Nat.ltb_spec (2 * K + 2 * g + 1) (2 * K)); [lia|].
  replace (2 * K + 2 * g + 1 - 2 * K)%nat with (2 * g + 1)%nat by lia. rewrite half_odd. auto.
Qed.

Lemma route_in c mid g : route c mid = Some g -> In g (mprocs c).
Proof. unfold route. destruct (index mid (mids c)); [|discriminate]. apply nth_error_In. Qed.

Ltac chs := repeat match goal with
  | H : (?k < K)%nat |- context[ch_rs ?k] => destruct (wr_rs k H) as [-> ->] || (rewrite (proj1 (wr_rs k H)) || rewrite (proj2 (wr_rs k H)))
  end.

Lemma ok_snd_ i s c v s' : okk i s -> nact K cfgs T i s = Snd c v s' -> wr c = i /\ okk i s'.
Proof.
  intros O E. destruct s as [s|s|s]; simpl in *.
  - destruct O as [-> O]. destruct s as [[|[] rs] res|k [|x l] [] rs res| | | | |]; try discriminate;
     simpl in *; try (injection E as <- <- <-); (split; [apply wr_rs; auto|simpl; auto]).
  - destruct O as [Oi O].
    assert (Hk : (i - 1 < K)%nat) by lia. assert (Hi : S (i - 1) = i) by lia.
    destruct s; simpl in *; try discriminate;
      repeat match goal with H : amap Sv (match ?l with _ => _ end) = _ |- _ => destruct l; try discriminate end;
      simpl in *; injection E as <- <- <-; split; simpl; auto;
      try (rewrite (proj1 (wr_sr _ Hk)); auto);
      try (rewrite (proj1 (wr_sp _)); rewrite (Hown (i - 1)); auto).
  - destruct s as [| |[]| | | | |[]| | |]; simpl in *; try discriminate; injection E as <- <- <-;
      (split; [rewrite (proj1 (wr_ps _)); lia|simpl; auto]).
Qed.

Lemma ok_rcv_ i s c kk : okk i s -> nact K cfgs T i s = Rcv c kk -> rd c = i /\ forall v, okk i (kk v).
Proof.
  intros O E. destruct s as [s|s|s]; simpl in *.
  - destruct O as [-> O].
    destruct s as [[|[] rs] res|k [|x l] [] rs res| | | | |]; try discriminate;
     simpl in *; injection E as <- <-; (split; [apply wr_sr; auto|]); intros v; simpl; split; auto;
     unfold cgot; repeat match goal with |- okc (if ?b then _ else _) => destruct b end; simpl; auto.
  - destruct O as [Oi O].
    assert (Hk : (i - 1 < K)%nat) by lia. assert (Hi : S (i - 1) = i) by lia.
    destruct s; simpl in *; try discriminate;
      repeat match goal with H : amap Sv (match ?l with _ => _ end) = _ |- _ => destruct l; try discriminate end;
      simpl in *; injection E as <- <-; split; simpl; auto;
      try (rewrite (proj2 (wr_rs _ Hk)); auto);
      try (rewrite (proj2 (wr_ps _)); rewrite (Hown (i - 1)); auto).
    + intros v; split; auto. destruct ((v =? GET_DATA) || (v =? SET_DATA)); simpl; auto.
    + intros v; split; auto. destruct (route (cfgs (i - 1)) v) eqn:R; simpl; auto. eapply route_in; eauto.
  - destruct s as [| |[]| | | | |[]| | |]; simpl in *; try discriminate; injection E as <- <-;
      (split; [rewrite (proj2 (wr_sp _)); lia|simpl; auto]).
Qed.

Lemma ok_tau_ i s s' : okk i s -> nact K cfgs T i s = Tau s' -> okk i s'.
Proof.
  intros O E. destruct s as [s|s|s]; simpl in *.
  - destruct O as [-> O]. destruct s as [[|[] rs] res|k [|x l] [] rs res| | | | |]; try discriminate;
     simpl in *; injection E as <-; simpl; split; auto;
     destruct (T vid) eqn:E; simpl; auto; eapply HT; eauto.
  - destruct O as [Oi O]. destruct s; simpl in *; try discriminate;
      repeat match goal with H : amap Sv (match ?l with _ => _ end) = _ |- _ => destruct l; try discriminate end;
      simpl in *; injection E as <-; simpl; split; auto. destruct (cmd =? GET_DATA); simpl; auto.
  - destruct s as [| |[]| | | | |[]| | |]; simpl in *; try discriminate; injection E as <-; simpl; auto.
Qed.

Lemma nth_map_some A B (f : A -> B) l i y : nth_error (map f l) i = Some y -> exists x, y = f x.
Proof. revert i; induction l; destruct i; simpl; intros; try discriminate; eauto. injection H as <-. eauto. Qed.

Lemma rest_comp c ms i s : nth_error (comps (at_rest c ms)) i = Some s ->
  (i = 0%nat /\ s = Cl c) \/ ((1 <= i <= K)%nat /\ s = Sv SIdle) \/ ((K < i)%nat /\ exists m, s = Pr (PIdle m)).
Proof.
  destruct i; simpl; intros H.
  - injection H as <-. auto.
  - right. destruct (Nat.lt_ge_cases i K).
    + left. rewrite nth_error_app1 in H by (rewrite repeat_length; auto).
      rewrite nth_repeat_some in H by auto. injection H as <-. split; [lia|auto].
    + right. rewrite nth_error_app2 in H by (rewrite repeat_length; auto). split; [lia|].
      apply nth_map_some in H. auto.
Qed.

Lemma rest_allok c ms : okc c -> allok okk (at_rest c ms).
Proof.
  intros O i s H. apply rest_comp in H as [[-> ->]|[[Hi ->]|[Hi [m ->]]]]; simpl; auto.
Qed.

Lemma nth_repeat_val A (x y : A) n i : nth_error (repeat x n) i = Some y -> y = x.
Proof. revert i; induction n; destruct i; simpl; intros; try discriminate; eauto. congruence. Qed.

Lemma rest_stuck res ms : stuck (nact K cfgs T) cap (at_rest (CEnd res) ms).
Proof.
  intros y [i Hs]. inversion Hs as [s c v s' q A1 A2 A3 A4|s c kk v q A1 A2 A3|s s' A1 A2]; subst;
  apply rest_comp in A1 as [[-> ->]|[[Hi ->]|[Hi [m ->]]]]; simpl in A2; try discriminate;
  simpl in A3; apply nth_repeat_val in A3; discriminate.
Qed.
End Run.
