(** The invariant of the histories of AsyncSvc_Spec, and that every step keeps it. *)
From Coq Require Import ZArith List Bool Arith Lia.
From Verif Require Import AsyncSvc_Model AsyncSvc_Spec AsyncSvc_Proofs.
Import ListNotations.
Open Scope Z_scope.

Definition started (L : list Z) : bool := match L with [] => false | _ => true end.
Definition V (x : spc) (b fs fp : bool) : svc :=
  {| spos := x; running := b; freq_stop := fs; freq_pause := fp; ferr := false |}.
Definition mk (sc : list op) (x : rpc) (st run : bool) (res : list result) (r t : list Z) (v : svc)
    (ps : nat -> proc) : sys :=
  {| script := sc; rpos := x; is_started := st; is_running := run; results := res; r2s := r; s2r := t;
     sv := v; procs := ps |}.
Definition Pst (L : list Z) (x : ppc) (o : list Z) : proc :=
  {| inq := []; outq := o; ppos := x; log := L |}.

Lemma runs_app a b : runs_of (a ++ b) = runs_of a ++ runs_of b.
Proof. unfold runs_of. apply flat_map_app. Qed.
Lemma started_snoc L n : started (L ++ [n]) = true.
Proof. destruct L; reflexivity. Qed.
Lemma history_cons g r e : history (g :: r) e = seg_ops g ++ history r e.
Proof. unfold history. cbn. now rewrite app_assoc. Qed.

Section Inv.
Variable N : nat.
Variable beh : nat -> nat -> Z -> behave.
Variable value : nat -> list Z -> Z.
Variable segs : list seg.
Variable e : ending.
Hypothesis SV : served N beh segs e.

Notation agree := (agree N beh value).
Notation results_of := (results_of value).
Notation LT := (runs_of segs).

Lemma results_from_app L a b :
  results_from value L (a ++ b) = results_from value L a ++ results_from value (L ++ runs_of a) b.
Proof.
  revert L. induction a as [|g a IH]; intros L; cbn.
  - now rewrite app_nil_r.
  - rewrite IH, !app_assoc. reflexivity.
Qed.
Lemma results_snoc done g :
  results_of (done ++ [g]) = results_of done ++ seg_results value (runs_of done) g.
Proof.
  unfold AsyncSvc_Spec.results_of. rewrite results_from_app. cbn. now rewrite app_nil_r.
Qed.

Lemma segs_ok_app L a b : segs_ok N beh L (a ++ b) -> segs_ok N beh (L ++ runs_of a) b.
Proof.
  revert L. induction a as [|g a IH]; intros L; cbn.
  - now rewrite app_nil_r.
  - intros [_ H]. apply IH in H. now rewrite <- app_assoc in H.
Qed.
Lemma next_ok done g rest : segs = done ++ g :: rest -> seg_ok N beh (runs_of done) g.
Proof using SV. intros E. destruct SV as (_ & H & _). rewrite E in H. apply segs_ok_app in H. apply H. Qed.
Lemma N_pos : (0 < N)%nat.
Proof using SV. apply SV. Qed.

(** *** Runs that the processes leave by themselves *)
Inductive form := FBlock | FBefore | FWait.
Inductive runk := RK (f : form) (done rest : list seg) (n : Z) | RKask (n : Z).
Definition kok (K : runk) : Prop :=
  match K with
  | RK FBlock d r n => segs = d ++ SegRun n :: r
  | RK _ d r n => segs = d ++ SegRunWait n :: r
  | RKask n => e = EndAskStop n \/ e = EndAskPause n \/ e = EndAskPauseStop n
  end.
Definition kn (K : runk) : Z := match K with RK _ _ _ n | RKask n => n end.
Definition kL (K : runk) : list Z := match K with RK _ d _ _ => runs_of d | RKask _ => LT end.
Definition kscript (K : runk) : list op :=
  match K with
  | RK FBefore _ r _ => OWait :: history r e
  | RK _ _ r _ => history r e
  | RKask _ => tl (end_ops e)
  end.
Definition krp (K : runk) : rpc := match K with RK FBefore _ _ _ => RReady | _ => RRun end.
Definition kres (K : runk) : list result :=
  match K with
  | RK FBlock d _ _ => results_of d
  | RK _ d _ _ => results_of d ++ [Returned]
  | RKask _ => results_of segs
  end.
Definition kfs (K : runk) : bool :=
  match K with RK _ _ _ _ => false | RKask _ => match e with EndAskStop _ => true | _ => false end end.
Definition kfp (K : runk) : bool :=
  match K with RK _ _ _ _ => false | RKask _ => match e with EndAskStop _ => false | _ => true end end.
Definition kt (K : runk) : Z := if kfs K then REQ_STOP else if kfp K then REQ_PAUSE else DONE.
Definition rsp (K : runk) (i : nat) : Z := response (asks (beh i (length (kL K)) (kn K))).

(** *** Handlers of pause and stop *)
Inductive hk :=
| HPause (done rest : list seg) (n : Z) | HContStop (n : Z)     (* interrupting a run *)
| HStop | HAskStop (n : Z) | HAskPause (n : Z) | HAskPauseStop (n : Z).
Definition hok (H : hk) : Prop :=
  match H with
  | HPause d r n => segs = d ++ SegCont n :: r
  | HContStop n => e = EndContStop n
  | HStop => e = EndStop
  | HAskStop n => e = EndAskStop n
  | HAskPause n => e = EndAskPause n \/ e = EndAskPauseStop n
  | HAskPauseStop n => e = EndAskPauseStop n
  end.
Definition hcont (H : hk) : bool := match H with HPause _ _ _ | HContStop _ => true | _ => false end.
Definition hpause (H : hk) : bool := match H with HPause _ _ _ | HAskPause _ => true | _ => false end.
Definition hkind (H : hk) : kind := if hpause H then KPause else KStop.
Definition hT (H : hk) : Z := if hpause H then PAUSED else TERMINATED.
Definition hcmd (H : hk) : Z := if hpause H then PAUSE else STOP.
Definition hop (H : hk) : op := if hpause H then OPause else OStop.
Definition hrp (H : hk) : rpc := if hpause H then RPause else RStop.
Definition hpc (H : hk) : ppc := if hpause H then PIdle else PDead.
Definition hpre (H : hk) : list Z := if hcont H then [DONE] else [].
Definition hbase (H : hk) : list Z := match H with HPause d _ _ => runs_of d | _ => LT end.
Definition hn (H : hk) : Z := match H with HPause _ _ n | HContStop n => n | _ => 0 end.
Definition hL (H : hk) : list Z :=
  match H with
  | HPause d _ n => runs_of d ++ [n]
  | HContStop n | HAskStop n | HAskPause n | HAskPauseStop n => LT ++ [n]
  | HStop => LT
  end.
Definition hisrun (H : hk) : bool := match H with HStop | HAskPauseStop _ => false | _ => true end.
Definition hfs (H : hk) : bool := match H with HAskStop _ => true | _ => false end.
Definition hfp (H : hk) : bool := match H with HAskPause _ | HAskPauseStop _ => true | _ => false end.
Definition hscript (H : hk) : list op :=
  match H with HPause _ r _ => history r e | HAskPause _ => tl (end_ops e) | _ => [] end.
Definition hres (H : hk) : list result :=
  match H with
  | HPause d _ _ => results_of d ++ [Returned]
  | HContStop _ | HAskPauseStop _ => results_of segs ++ [Returned]
  | _ => results_of segs
  end.
Definition hend (H : hk) : spc := if hpause H then SSelect else SDead.

(** *** Reading a variable: where the runtime is and what is on its way to it *)
Inductive gview (val : Z) : list Z -> rpc -> list Z -> Prop :=   (* relayed, runtime, channel *)
| gv1 : gview val [1] RGetN [1]
| gv2 : gview val [1] (RGet 1 []) []
| gv3 : gview val [1; val] RGetN [1; val]
| gv4 : gview val [1; val] (RGet 1 []) [val].

Definition idle (L : list Z) : nat -> proc := fun _ => Pst L PIdle [].

Inductive inv : sys -> Prop :=
| I_ready done rest ps : segs = done ++ rest -> agree ps (idle (runs_of done)) ->
    inv (mk (history rest e) RReady (started (runs_of done)) false (results_of done) [] []
            (V SSelect false false false) ps)
| I_run1 K ps : kok K -> agree ps (idle (kL K)) ->
    inv (mk (kscript K) (krp K) true true (kres K) [kn K] [] (V SSelect false false false) ps)
| I_run2 K ps : kok K -> agree ps (fun i => Pst (kL K ++ [kn K]) PIdle [rsp K i]) ->
    inv (mk (kscript K) (krp K) true true (kres K) [] [] (V SSelect true false false) ps)
| I_run3 K j ps : kok K -> (j <= N)%nat ->
    agree ps (fun i => Pst (kL K ++ [kn K]) PIdle (if (i <? j)%nat then [] else [rsp K i])) ->
    inv (mk (kscript K) (krp K) true true (kres K) [] []
            (V (SRecv KResp j (map (rsp K) (seq 0 j))) true false false) ps)
| I_run4 K ps : kok K -> agree ps (idle (kL K ++ [kn K])) ->
    inv (mk (kscript K) (krp K) true true (kres K) [] [kt K] (V SSelect false (kfs K) (kfp K)) ps)
| I_c1 H ps : hok H -> hcont H = true -> agree ps (idle (hbase H)) ->
    inv (mk (hop H :: hscript H) RReady true true (hres H) [hn H] [] (V SSelect false false false) ps)
| I_c2 H ps : hok H -> hcont H = true -> agree ps (fun _ => Pst (hbase H) (PRun (hn H)) []) ->
    inv (mk (hop H :: hscript H) RReady true true (hres H) [] [] (V SSelect true false false) ps)
| I_h1 H ps : hok H -> hcont H = true -> agree ps (idle (hbase H)) ->
    inv (mk (hscript H) (hrp H) true true (hres H) [hn H; hcmd H] [] (V SSelect false false false) ps)
| I_h2 H ps : hok H -> hcont H = true -> agree ps (fun _ => Pst (hbase H) (PRun (hn H)) []) ->
    inv (mk (hscript H) (hrp H) true true (hres H) [hcmd H] [] (V SSelect true false false) ps)
| I_h0 H ps : hok H -> hcont H = false -> agree ps (idle (hL H)) ->
    inv (mk (hscript H) (hrp H) true (hisrun H) (hres H) [hcmd H] [] (V SSelect false (hfs H) (hfp H)) ps)
| I_h3 H j ps : hok H -> (j <= N)%nat ->
    agree ps (fun i => Pst (hL H) (hpc H) (if (i <? j)%nat then [] else hpre H ++ [hT H])) ->
    inv (mk (hscript H) (hrp H) true (hisrun H) (hres H) [] []
            (V (SRecv (hkind H) j (repeat (hT H) j)) (hcont H) (hfs H) (hfp H)) ps)
| I_h3b H j ps : hok H -> hcont H = true -> (j < N)%nat ->
    agree ps (fun i => Pst (hL H) (hpc H) (if (i <? j)%nat then [] else
                                             if (i =? j)%nat then [hT H] else hpre H ++ [hT H])) ->
    inv (mk (hscript H) (hrp H) true (hisrun H) (hres H) [] []
            (V (SRecv2 (hkind H) j (repeat (hT H) j)) (hcont H) (hfs H) (hfp H)) ps)
| I_h4 H ps : hok H -> agree ps (fun _ => Pst (hL H) (hpc H) []) ->
    inv (mk (hscript H) (hrp H) true (hisrun H) (hres H) [] [hT H]
            (V (hend H) false (hfs H) (hfp H)) ps)
| I_askready n ps : e = EndAskPauseStop n -> agree ps (idle (LT ++ [n])) ->
    inv (mk [OStop] RReady true false (results_of segs ++ [Returned]) [] []
            (V SSelect false false true) ps)
| I_g1 done rest m ps : segs = done ++ SegGet m :: rest -> agree ps (idle (runs_of done)) ->
    inv (mk (history rest e) RGetN true false (results_of done) [GETD; Z.of_nat m; 0] []
            (V SSelect false false false) ps)
| I_g2 done rest m ps : segs = done ++ SegGet m :: rest -> agree ps (idle (runs_of done)) ->
    inv (mk (history rest e) RGetN true false (results_of done) [Z.of_nat m; 0] []
            (V SGetId false false false) ps)
| I_g3 done rest m ps : segs = done ++ SegGet m :: rest -> agree ps (idle (runs_of done)) ->
    inv (mk (history rest e) RGetN true false (results_of done) [0] []
            (V (SGetVar m) false false false) ps)
| I_g4 done rest m ps : segs = done ++ SegGet m :: rest ->
    agree ps (fun i => Pst (runs_of done) PIdle
                (if (i =? m)%nat then [1; value m (runs_of done)] else [])) ->
    inv (mk (history rest e) RGetN true false (results_of done) [] []
            (V (SRelayN m) false false false) ps)
| I_g5 done rest m rp t ps : segs = done ++ SegGet m :: rest ->
    gview (value m (runs_of done)) [1] rp t ->
    agree ps (fun i => Pst (runs_of done) PIdle (if (i =? m)%nat then [value m (runs_of done)] else [])) ->
    inv (mk (history rest e) rp true false (results_of done) [] t
            (V (SRelay m 1) false false false) ps)
| I_g6 done rest m rp t ps : segs = done ++ SegGet m :: rest ->
    gview (value m (runs_of done)) [1; value m (runs_of done)] rp t ->
    agree ps (idle (runs_of done)) ->
    inv (mk (history rest e) rp true false (results_of done) [] t
            (V SSelect false false false) ps)
| I_final fs fp ps : e <> EndNone ->
    agree ps (fun _ => Pst (LT ++ end_runs e) (if terminated e then PDead else PIdle) []) ->
    inv (mk [] RReady (negb (terminated e)) false (results_of segs ++ end_results e) [] []
            (V (if terminated e then SDead else SSelect) false fs fp) ps).

(** *** Facts about the runs *)
Lemma k_free K : kok K -> 0 <= kn K /\
  forall i, (i < N)%nat -> until (beh i (length (kL K)) (kn K)) = Free.
Proof using SV.
  destruct K as [f d r n|n].
  - intros Hk. assert (A : all_do N beh (runs_of d) n Free).
    { destruct f; apply next_ok in Hk; exact Hk. }
    destruct A as [A0 A]. split; [exact A0|]. intros i Hi. cbn. now rewrite A.
  - intros Hk. destruct SV as (_ & _ & Ho). unfold kok in Hk.
    assert (A : exists a, some_ask N beh LT n a).
    { destruct Hk as [E|[E|E]]; rewrite E in Ho; eauto. }
    destruct A as (a & A0 & A & _). split; [exact A0|]. intros i Hi. now apply A.
Qed.

Lemma has_false x l : (forall y, In y l -> y <> x) -> has x l = false.
Proof.
  unfold has. induction l as [|y l IH]; intros H; [reflexivity|]. cbn.
  rewrite IH by (intros z Hz; apply H; now right).
  destruct (Z.eqb_spec x y) as [E|]; [|reflexivity]. exfalso. apply (H y); [now left|congruence].
Qed.
Lemma has_true x l : In x l -> has x l = true.
Proof. intros H. apply existsb_exists. exists x. split; [easy|]. apply Z.eqb_refl. Qed.
Lemma all_are_true x l : (forall y, In y l -> y = x) -> all_are x l = true.
Proof. intros H. apply forallb_forall. intros y Hy. apply Z.eqb_eq. symmetry. auto. Qed.
Lemma all_are_false x y l : In y l -> y <> x -> all_are x l = false.
Proof.
  intros Hy Hn. destruct (all_are x l) eqn:E; [|reflexivity]. exfalso.
  unfold all_are in E. rewrite forallb_forall in E. apply E, Z.eqb_eq in Hy. congruence.
Qed.
Lemma in_rsp K y : In y (map (rsp K) (seq 0 N)) <-> exists i, (i < N)%nat /\ rsp K i = y.
Proof.
  rewrite in_map_iff. split; intros (i & A & B); exists i.
  - apply in_seq in B. split; [lia|easy].
  - split; [easy|]. apply in_seq. lia.
Qed.

Definition kacc (K : runk) := map (rsp K) (seq 0 N).
Lemma k_finish K : kok K ->
  has REQ_PAUSE (kacc K) = kfp K /\ has REQ_STOP (kacc K) = kfs K /\ has ERROR (kacc K) = false /\
  all_are DONE (kacc K) = negb (kfs K || kfp K).
Proof using SV.
  intros Hk. unfold kacc. destruct K as [f d r n|n].
  - assert (A : all_do N beh (runs_of d) n Free).
    { destruct f; apply next_ok in Hk; exact Hk. }
    assert (D : forall y, In y (map (rsp (RK f d r n)) (seq 0 N)) -> y = DONE).
    { intros y Hy. apply in_rsp in Hy. destruct Hy as (i & Hi & <-). unfold rsp. cbn [kL kn].
      destruct A as [_ A]. rewrite A by easy. reflexivity. }
    cbn [kfp kfs]. repeat apply conj.
    + apply has_false. intros y Hy. apply D in Hy. rewrite Hy. discriminate.
    + apply has_false. intros y Hy. apply D in Hy. rewrite Hy. discriminate.
    + apply has_false. intros y Hy. apply D in Hy. rewrite Hy. discriminate.
    + cbn. now apply all_are_true.
  - destruct SV as (_ & _ & Ho). unfold kok in Hk.
    assert (A : exists a, some_ask N beh LT n a /\
       ((a = AskStop /\ kfs (RKask n) = true /\ kfp (RKask n) = false) \/
        (a = AskPause /\ kfs (RKask n) = false /\ kfp (RKask n) = true))).
    { unfold kfs, kfp. destruct Hk as [E|[E|E]]; rewrite E in Ho |- *; cbn in Ho; eexists; (split; [exact Ho|]); auto. }
    destruct A as (a & (_ & A & i0 & Hi0 & A0) & C).
    assert (D : forall y, In y (map (rsp (RKask n)) (seq 0 N)) -> y = DONE \/ y = response a).
    { intros y Hy. apply in_rsp in Hy. destruct Hy as (i & Hi & <-). unfold rsp. cbn [kL kn].
      destruct (A i Hi) as [_ [->| ->]]; auto. }
    assert (D0 : In (response a) (map (rsp (RKask n)) (seq 0 N))).
    { apply in_rsp. exists i0. split; [easy|]. unfold rsp. cbn [kL kn]. now rewrite A0. }
    destruct C as [(-> & -> & ->)|(-> & -> & ->)]; cbn [response] in *; repeat apply conj.
    + apply has_false. intros y Hy. destruct (D y Hy) as [->| ->]; discriminate.
    + now apply has_true.
    + apply has_false. intros y Hy. destruct (D y Hy) as [->| ->]; discriminate.
    + apply all_are_false with (1 := D0). discriminate.
    + now apply has_true.
    + apply has_false. intros y Hy. destruct (D y Hy) as [->| ->]; discriminate.
    + apply has_false. intros y Hy. destruct (D y Hy) as [->| ->]; discriminate.
    + apply all_are_false with (1 := D0). discriminate.
Qed.

Lemma h_cont H : hok H -> hcont H = true -> 0 <= hn H /\
  forall i, (i < N)%nat -> beh i (length (hbase H)) (hn H) =
    {| until := if hpause H then UntilPause else UntilStop; asks := AskNothing |}.
Proof using SV.
  destruct H as [d r n|n| | | |]; cbn; intros Ho Hc; try discriminate.
  - apply next_ok in Ho. exact Ho.
  - destruct SV as (_ & _ & H). rewrite Ho in H. exact H.
Qed.

Lemma not_code n c : 0 <= n -> c < 0 -> (n =? c) = false.
Proof. intros. apply Z.eqb_neq. lia. Qed.
Lemma codes n : 0 <= n -> (n =? STOP) = false /\ (n =? PAUSE) = false /\ (n =? GETD) = false /\ (n =? SETD) = false.
Proof. intros. repeat apply conj; apply not_code; auto; reflexivity. Qed.

(** *** What the processes do with the commands *)
Lemma nf_run i L n : until (beh i (length L) n) = Free ->
  nf (beh i) (value i) (push (Pst L PIdle []) [RUN; n]) =
  Pst (L ++ [n]) PIdle [response (asks (beh i (length L) n))].
Proof. intros E. unfold nf, push, Pst, pstep. cbn. unfold pstep. cbn. rewrite E. reflexivity. Qed.

Lemma nf_cont i L n w : beh i (length L) n = {| until := w; asks := AskNothing |} -> w <> Free ->
  nf (beh i) (value i) (push (Pst L PIdle []) [RUN; n]) = Pst L (PRun n) [].
Proof.
  intros E Hw. unfold nf, push, Pst, pstep. cbn. unfold pstep. cbn. rewrite E. destruct w; [congruence| |]; reflexivity.
Qed.
Lemma nf_cont_pause i L n : beh i (length L) n = {| until := UntilPause; asks := AskNothing |} ->
  nf (beh i) (value i) (push (Pst L (PRun n) []) [PAUSE]) = Pst (L ++ [n]) PIdle [DONE; PAUSED].
Proof. intros E. unfold nf, push, Pst, pstep. cbn. unfold pstep. cbn. rewrite E. reflexivity. Qed.
Lemma nf_cont_stop i L n : beh i (length L) n = {| until := UntilStop; asks := AskNothing |} ->
  nf (beh i) (value i) (push (Pst L (PRun n) []) [STOP]) = Pst (L ++ [n]) PDead [DONE; TERMINATED].
Proof. intros E. unfold nf, push, Pst, pstep. cbn. unfold pstep. cbn. rewrite E. reflexivity. Qed.
Lemma nf_pause i L : nf (beh i) (value i) (push (Pst L PIdle []) [PAUSE]) = Pst L PIdle [PAUSED].
Proof. reflexivity. Qed.
Lemma nf_stop i L : nf (beh i) (value i) (push (Pst L PIdle []) [STOP]) = Pst L PDead [TERMINATED].
Proof. reflexivity. Qed.
Lemma nf_get i L x : nf (beh i) (value i) (push (Pst L PIdle []) [GETD; x]) = Pst L PIdle [1; value i L].
Proof. reflexivity. Qed.

(** *** Every step keeps the invariant *)
Lemma h3_start H ps f : hok H -> agree ps f ->
  (forall i, (i < N)%nat -> nf (beh i) (value i) (push (f i) [hcmd H]) = Pst (hL H) (hpc H) (hpre H ++ [hT H])) ->
  agree (send_all ps [hcmd H]) (fun i => Pst (hL H) (hpc H) (if (i <? 0)%nat then [] else hpre H ++ [hT H])).
Proof.
  intros Hk A B. eapply agree_send; [exact A|]. intros i Hi. rewrite B by easy. reflexivity.
Qed.

Lemma cont_to_handler H i : hok H -> hcont H = true -> (i < N)%nat ->
  nf (beh i) (value i) (push (Pst (hbase H) (PRun (hn H)) []) [hcmd H]) = Pst (hL H) (hpc H) (hpre H ++ [hT H]).
Proof using SV.
  intros Hk Hc Hi. destruct (h_cont H Hk Hc) as [_ Hb]. specialize (Hb i Hi).
  destruct H; try discriminate Hc; cbn in *.
  - now apply nf_cont_pause.
  - now apply nf_cont_stop.
Qed.
Lemma idle_to_handler H i : hok H -> hcont H = false -> (i < N)%nat ->
  nf (beh i) (value i) (push (Pst (hL H) PIdle []) [hcmd H]) = Pst (hL H) (hpc H) (hpre H ++ [hT H]).
Proof. destruct H; cbn; try discriminate; intros; reflexivity. Qed.


Lemma step_rt s s' : inv s -> rstep s = Some s' -> inv s'.
Proof using SV.
  intros I St. destruct I as
    [done rest ps E A|K ps Hk A|K ps Hk A|K j ps Hk Hj A|K ps Hk A
    |H ps Ho Hc A|H ps Ho Hc A|H ps Ho Hc A|H ps Ho Hc A|H ps Ho Hc A
    |H j ps Ho Hj A|H j ps Ho Hc Hj A|H ps Ho A|n ps E A
    |done rest m ps E A|done rest m ps E A|done rest m ps E A|done rest m ps E A
    |done rest m rp t ps E G A|done rest m rp t ps E G A|fs fp ps Ne A].
  - (* ready *)
    destruct rest as [|g rest].
    + rewrite app_nil_r in E. subst done. unfold history in St. cbn [flat_map app] in St.
      destruct e eqn:Ee; cbn in St; try discriminate St.
      * (* stop *)
        assert (Hst : started LT = true).
        { destruct SV as (_ & _ & Hne). cbn in Hne. destruct LT; [congruence|reflexivity]. }
        rewrite Hst in St. injection St as <-.
        exact (I_h0 HStop ps Ee eq_refl A).
      * injection St as <-. exact (I_c1 (HContStop n) ps Ee eq_refl A).
      * injection St as <-.
        assert (Hk : kok (RKask n)) by (cbn; auto).
        pose proof (I_run1 (RKask n) ps Hk A) as I. unfold kscript in I. rewrite Ee in I. exact I.
      * injection St as <-.
        assert (Hk : kok (RKask n)) by (cbn; auto).
        pose proof (I_run1 (RKask n) ps Hk A) as I. unfold kscript in I. rewrite Ee in I. exact I.
      * injection St as <-.
        assert (Hk : kok (RKask n)) by (cbn; auto).
        pose proof (I_run1 (RKask n) ps Hk A) as I. unfold kscript in I. rewrite Ee in I. exact I.
    + rewrite history_cons in St.
      destruct g; cbn in St.
      * injection St as <-. exact (I_run1 (RK FBlock done rest n) ps E A).
      * injection St as <-. exact (I_run1 (RK FBefore done rest n) ps E A).
      * injection St as <-. exact (I_c1 (HPause done rest n) ps E eq_refl A).
      * destruct (next_ok _ _ _ E) as [Hne Hm].
        destruct (runs_of done) eqn:Er; [congruence|]. cbn in St. injection St as <-.
        pose proof (I_g1 done rest m ps E) as I. rewrite Er in I. exact (I A).
      * injection St as <-.
        pose proof (I_ready (done ++ [SegIdleWait]) rest ps) as I. rewrite <- app_assoc in I.
        rewrite results_snoc, runs_app in I. cbn in I. rewrite app_nil_r in I. exact (I E A).
      * injection St as <-.
        pose proof (I_ready (done ++ [SegIdlePause]) rest ps) as I. rewrite <- app_assoc in I.
        rewrite results_snoc, runs_app in I. cbn in I. rewrite app_nil_r in I. exact (I E A).
  - destruct K as [[| |] d r n|n]; cbn in St; try discriminate St. injection St as <-.
    exact (I_run1 (RK FWait d r n) ps Hk A).
  - destruct K as [[| |] d r n|n]; cbn in St; try discriminate St. injection St as <-.
    exact (I_run2 (RK FWait d r n) ps Hk A).
  - destruct K as [[| |] d r n|n]; cbn in St; try discriminate St. injection St as <-.
    exact (I_run3 (RK FWait d r n) j ps Hk Hj A).
  - destruct K as [[| |] d r n|n].
    + cbn in St. injection St as <-.
      pose proof (I_ready (d ++ [SegRun n]) r ps) as I. rewrite <- app_assoc in I.
      rewrite results_snoc, runs_app in I. cbn in I. rewrite started_snoc in I. exact (I Hk A).
    + cbn in St. injection St as <-. exact (I_run4 (RK FWait d r n) ps Hk A).
    + cbn in St. injection St as <-.
      pose proof (I_ready (d ++ [SegRunWait n]) r ps) as I. rewrite <- app_assoc in I.
      rewrite results_snoc, runs_app in I. cbn in I. rewrite started_snoc in I.
      rewrite <- app_assoc. exact (I Hk A).
    + unfold kt, kfs, kfp, kscript, kres, krp in St. cbn [kok] in Hk. destruct Hk as [Ee|[Ee|Ee]]; rewrite Ee in St; cbn in St;
        injection St as <-.
      * pose proof (I_h0 (HAskStop n) ps Ee eq_refl A) as I. exact I.
      * pose proof (I_h0 (HAskPause n) ps (or_introl Ee) eq_refl A) as I. unfold kfs, kfp.
        unfold hscript in I. rewrite Ee in I at 1. exact I.
      * pose proof (I_h0 (HAskPause n) ps (or_intror Ee) eq_refl A) as I. unfold kfs, kfp.
        unfold hscript in I. rewrite Ee in I at 1. exact I.
  - destruct H as [d r n|n| | | |]; try discriminate Hc; cbn in St; injection St as <-.
    + exact (I_h1 (HPause d r n) ps Ho eq_refl A).
    + exact (I_h1 (HContStop n) ps Ho eq_refl A).
  - destruct H as [d r n|n| | | |]; try discriminate Hc; cbn in St; injection St as <-.
    + exact (I_h2 (HPause d r n) ps Ho eq_refl A).
    + exact (I_h2 (HContStop n) ps Ho eq_refl A).
  - destruct H; cbn in St; discriminate St.
  - destruct H; cbn in St; discriminate St.
  - destruct H; cbn in St; discriminate St.
  - destruct H; cbn in St; discriminate St.
  - destruct H; cbn in St; discriminate St.
  - destruct H as [d r n|n| |n|n|n]; cbn in Ho.
    + cbn in St. injection St as <-.
      pose proof (I_ready (d ++ [SegCont n]) r ps) as I. rewrite <- app_assoc in I.
      rewrite results_snoc, runs_app in I. cbn in I. rewrite started_snoc in I.
      rewrite <- app_assoc. exact (I Ho A).
    + cbn in St. injection St as <-. pose proof (I_final false false ps) as I. rewrite Ho in I.
      cbn in I. rewrite <- app_assoc. apply I; [discriminate|exact A].
    + cbn in St. injection St as <-. pose proof (I_final false false ps) as I. rewrite Ho in I.
      cbn in I. apply I; [discriminate|]. rewrite app_nil_r. exact A.
    + cbn in St. injection St as <-. pose proof (I_final true false ps) as I. rewrite Ho in I.
      cbn in I. apply I; [discriminate|]. exact A.
    + unfold hscript in St. destruct Ho as [Ho|Ho].
      * pose proof (I_final false true ps) as I. rewrite Ho in I. cbn in St. rewrite Ho in St. cbn in St.
        injection St as <-. cbn in I. apply I; [discriminate|]. exact A.
      * cbn in St. rewrite Ho in St. cbn in St. injection St as <-. exact (I_askready n ps Ho A).
    + cbn in St. injection St as <-. pose proof (I_final false true ps) as I. rewrite Ho in I.
      cbn in I. rewrite <- app_assoc. apply I; [discriminate|exact A].
  - cbn in St. injection St as <-. exact (I_h0 (HAskPauseStop n) ps E eq_refl A).
  - cbn in St. discriminate St.
  - cbn in St. discriminate St.
  - cbn in St. discriminate St.
  - cbn in St. discriminate St.
  - inversion G; subst; cbn in St; try discriminate St.
    injection St as <-. exact (I_g5 done rest m (RGet 1 []) [] ps E (gv2 _) A).
  - inversion G; subst rp t; cbn in St.
    + injection St as <-. exact (I_g6 done rest m (RGet 1 []) _ ps E (gv4 _) A).
    + injection St as <-.
      pose proof (I_ready (done ++ [SegGet m]) rest ps) as I. rewrite <- app_assoc in I.
      rewrite results_snoc, runs_app in I. cbn in I. rewrite app_nil_r in I.
      destruct (next_ok _ _ _ E) as [Hne Hm].
      destruct (runs_of done) eqn:Er; [congruence|]. exact (I E A).
  - cbn in St. discriminate St.
Qed.

Lemma nf_of_idle_run K ps : kok K -> agree ps (idle (kL K)) ->
  agree (send_all ps [RUN; kn K]) (fun i => Pst (kL K ++ [kn K]) PIdle [rsp K i]).
Proof using SV.
  intros Hk A. eapply agree_send; [exact A|]. intros i Hi. apply nf_run. now apply k_free.
Qed.

Lemma nf_of_idle_cont H ps : hok H -> hcont H = true -> agree ps (idle (hbase H)) ->
  agree (send_all ps [RUN; hn H]) (fun _ => Pst (hbase H) (PRun (hn H)) []).
Proof using SV.
  intros Ho Hc A. eapply agree_send; [exact A|]. intros i Hi.
  eapply nf_cont; [now apply h_cont|]. destruct (hpause H); discriminate.
Qed.

Lemma agree_ext ps f g : agree ps f -> (forall i, (i < N)%nat -> f i = g i) -> agree ps g.
Proof. intros A E i Hi. rewrite <- E by easy. now apply A. Qed.

Lemma ltb_S i j : (i <? S j)%nat = (i <? j)%nat || (i =? j)%nat.
Proof.
  destruct (Nat.ltb_spec i (S j)), (Nat.ltb_spec i j), (Nat.eqb_spec i j); cbn; try reflexivity; lia.
Qed.
Lemma repeat_snoc (x : Z) j : repeat x j ++ [x] = repeat x (S j).
Proof. induction j as [|j IH]; [reflexivity|]. cbn in *. now rewrite IH. Qed.
Lemma all_are_repeat x j : all_are x (repeat x j) = true.
Proof. apply all_are_true. intros y Hy. now apply repeat_spec in Hy. Qed.

Lemma step_sv b s s' : inv s -> sstep N b s = Some s' -> inv s'.
Proof using SV.
  intros I St. destruct I as
    [done rest ps E A|K ps Hk A|K ps Hk A|K j ps Hk Hj A|K ps Hk A
    |H ps Ho Hc A|H ps Ho Hc A|H ps Ho Hc A|H ps Ho Hc A|H ps Ho Hc A
    |H j ps Ho Hj A|H j ps Ho Hc Hj A|H ps Ho A|n ps E A
    |done rest m ps E A|done rest m ps E A|done rest m ps E A|done rest m ps E A
    |done rest m rp t ps E G A|done rest m rp t ps E G A|fs fp ps Ne A].
  - destruct b; cbn in St; discriminate St.
  - (* run command *)
    destruct b; cbn in St; [discriminate St|].
    destruct (k_free K Hk) as [Hn _]. destruct (codes _ Hn) as (E1 & E2 & E3 & E4).
    rewrite E1, E2, E3, E4 in St. cbn in St. injection St as <-.
    exact (I_run2 K _ Hk (nf_of_idle_run K ps Hk A)).
  - destruct b; cbn in St; [|discriminate St].
    destruct (any_ready ps N); [|discriminate St]. injection St as <-.
    apply (I_run3 K 0 ps Hk (Nat.le_0_l N)).
    eapply agree_ext; [exact A|]. reflexivity.
  - cbn [sstep mk V sv spos] in St. destruct (Nat.ltb_spec j N) as [Hlt|Hge].
    + cbn [mk procs] in St. destruct (outq (ps j)) as [|m l] eqn:Eo; [discriminate St|].
      injection St as <-.
      destruct (agree_head _ _ _ _ _ j _ _ A Hlt Eo) as [l' El]. cbn [Pst outq] in El.
      rewrite Nat.ltb_irrefl in El. injection El as <- <-.
      replace (map (rsp K) (seq 0 j) ++ [rsp K j]) with (map (rsp K) (seq 0 (S j)))
        by (rewrite seq_S, map_app; reflexivity).
      apply (I_run3 K (S j)); [easy|lia|].
      eapply agree_pop; [exact A|exact Hlt|exact Eo|].
      intros i Hi. cbn beta. rewrite ltb_S. destruct (Nat.eqb_spec i j) as [->|].
      * rewrite orb_true_r, Nat.ltb_irrefl. reflexivity.
      * now rewrite orb_false_r.
    + assert (j = N) by lia. subst j. injection St as <-.
      destruct (k_finish K Hk) as (F1 & F2 & F3 & F4). unfold kacc in *.
      pose proof (I_run4 K ps Hk) as I.
      unfold finish. cbn [mk V sv freq_pause freq_stop ferr s2r r2s procs orb app]. rewrite F1, F2, F3, F4.
      assert (Et : ((if negb (kfs K || kfp K) then [DONE] else []) ++ (if kfs K then [REQ_STOP] else []) ++
                    (if kfp K then [REQ_PAUSE] else []) ++ []) = [kt K]).
      { clear. unfold kt, kfs, kfp. destruct K; [reflexivity|]. destruct e; reflexivity. }
      rewrite Et. apply I. eapply agree_ext; [exact A|]. intros i Hi. cbn beta.
      destruct (Nat.ltb_spec i N); [reflexivity|lia].
  - destruct b; cbn in St; discriminate St.
  - destruct b; cbn in St; [discriminate St|].
    destruct (h_cont H Ho Hc) as [Hn _]. destruct (codes _ Hn) as (E1 & E2 & E3 & E4).
    rewrite E1, E2, E3, E4 in St. cbn in St. injection St as <-.
    exact (I_c2 H _ Ho Hc (nf_of_idle_cont H ps Ho Hc A)).
  - destruct b; cbn in St; [|discriminate St].
    rewrite (agree_none _ _ _ _ _ A) in St by reflexivity. discriminate St.
  - destruct b; cbn in St; [discriminate St|].
    destruct (h_cont H Ho Hc) as [Hn _]. destruct (codes _ Hn) as (E1 & E2 & E3 & E4).
    rewrite E1, E2, E3, E4 in St. cbn in St. injection St as <-.
    exact (I_h2 H _ Ho Hc (nf_of_idle_cont H ps Ho Hc A)).
  - destruct b; cbn [sstep mk V sv spos] in St.
    + cbn in St. rewrite (agree_none _ _ _ _ _ A) in St by reflexivity. discriminate St.
    + assert (B := h3_start H ps _ Ho A (fun i Hi => cont_to_handler H i Ho Hc Hi)).
      pose proof (I_h3 H 0 _ Ho (Nat.le_0_l N) B) as I.
      destruct H; try discriminate Hc; cbn in St; injection St as <-; exact I.
  - destruct b; cbn in St; [discriminate St|].
    assert (B := h3_start H ps _ Ho A (fun i Hi => idle_to_handler H i Ho Hc Hi)).
    pose proof (I_h3 H 0 _ Ho (Nat.le_0_l N) B) as I.
    destruct H; try discriminate Hc; cbn in St; injection St as <-; exact I.
  - cbn [sstep mk V sv spos] in St. destruct (Nat.ltb_spec j N) as [Hlt|Hge].
    + cbn [mk procs] in St. destruct (outq (ps j)) as [|m l] eqn:Eo; [discriminate St|].
      injection St as <-.
      destruct (agree_head _ _ _ _ _ j _ _ A Hlt Eo) as [l' El]. cbn [Pst outq] in El.
      rewrite Nat.ltb_irrefl in El.
      destruct (hcont H) eqn:Hc.
      * (* the answer to the run comes first *)
        unfold hpre in El. rewrite Hc in El. cbn [app] in El. injection El as <- <-.
        assert (Ek : match hkind H with KResp => false | _ => DONE =? DONE end = true)
          by (unfold hkind; destruct (hpause H); reflexivity).
        rewrite Ek.
        pose proof (I_h3b H j (upd ps j (pop (ps j))) Ho Hc Hlt) as I. rewrite Hc in I. apply I.
        eapply agree_pop; [exact A|exact Hlt|exact Eo|].
        intros i Hi. cbn beta. unfold hpre. rewrite Hc. destruct (Nat.eqb_spec i j) as [->|]; [|reflexivity].
        rewrite Nat.ltb_irrefl. reflexivity.
      * unfold hpre in El. rewrite Hc in El. cbn [app] in El. injection El as <- <-.
        assert (Ek : match hkind H with KResp => false | _ => hT H =? DONE end = false)
          by (unfold hkind, hT; destruct (hpause H); reflexivity).
        rewrite Ek, repeat_snoc.
        pose proof (I_h3 H (S j) (upd ps j (pop (ps j))) Ho Hlt) as I. rewrite Hc in I. apply I.
        eapply agree_pop; [exact A|exact Hlt|exact Eo|].
        intros i Hi. cbn beta. unfold hpre. rewrite Hc, ltb_S. destruct (Nat.eqb_spec i j) as [->|].
        -- rewrite orb_true_r, Nat.ltb_irrefl. reflexivity.
        -- now rewrite orb_false_r.
    + assert (j = N) by lia. subst j. injection St as <-.
      pose proof (I_h4 H ps Ho) as I.
      unfold finish, hkind. unfold hT, hend, hrp, hcont, hpc in *.
      destruct (hpause H); cbn [mk V sv s2r r2s procs app]; rewrite all_are_repeat; apply I;
        (eapply agree_ext; [exact A|]; intros i Hi; cbn beta; destruct (Nat.ltb_spec i N); [reflexivity|lia]).
  - cbn [sstep mk V sv spos procs] in St. destruct (outq (ps j)) as [|m l] eqn:Eo; [discriminate St|].
    injection St as <-.
    destruct (agree_head _ _ _ _ _ j _ _ A Hj Eo) as [l' El]. cbn [Pst outq] in El.
    rewrite Nat.ltb_irrefl, Nat.eqb_refl in El. injection El as <- <-. rewrite repeat_snoc.
    apply (I_h3 H (S j)); [easy|easy|].
    eapply agree_pop; [exact A|exact Hj|exact Eo|].
    intros i Hi. cbn beta. rewrite ltb_S. destruct (Nat.eqb_spec i j) as [->|].
    + rewrite orb_true_r, Nat.ltb_irrefl. reflexivity.
    + now rewrite orb_false_r.
  - unfold hend in St. destruct (hpause H); [destruct b|]; cbn in St; discriminate St.
  - destruct b; cbn in St; discriminate St.
  - destruct b; cbn in St; [discriminate St|]. injection St as <-.
    exact (I_g2 done rest m ps E A).
  - cbn in St. injection St as <-. rewrite Nat2Z.id. exact (I_g3 done rest m ps E A).
  - cbn in St. injection St as <-. destruct (next_ok _ _ _ E) as [_ Hm].
    apply (I_g4 done rest m); [easy|].
    eapply agree_push; [exact A|exact Hm|]. intros i Hi.
    destruct (Nat.eqb_spec i m) as [->|]; [|reflexivity]. symmetry. apply nf_get.
  - cbn [sstep mk V sv spos procs] in St. destruct (outq (ps m)) as [|k l] eqn:Eo; [discriminate St|].
    injection St as <-. destruct (next_ok _ _ _ E) as [_ Hm].
    destruct (agree_head _ _ _ _ _ m _ _ A Hm Eo) as [l' El]. cbn [Pst outq] in El. rewrite Nat.eqb_refl in El.
    injection El as <- <-. apply (I_g5 done rest m RGetN [1]); [easy|constructor|].
    eapply agree_pop; [exact A|exact Hm|exact Eo|]. intros i Hi. cbn beta.
    destruct (Nat.eqb_spec i m); reflexivity.
  - cbn [sstep mk V sv spos procs] in St. destruct (outq (ps m)) as [|k l] eqn:Eo; [discriminate St|].
    injection St as <-. destruct (next_ok _ _ _ E) as [_ Hm].
    destruct (agree_head _ _ _ _ _ m _ _ A Hm Eo) as [l' El]. cbn [Pst outq] in El. rewrite Nat.eqb_refl in El.
    injection El as <- <-.
    apply (I_g6 done rest m); [easy| |].
    + inversion G; constructor.
    + eapply agree_pop; [exact A|exact Hm|exact Eo|]. intros i Hi. cbn beta.
      destruct (Nat.eqb_spec i m); reflexivity.
  - inversion G; subst; destruct b; cbn in St; discriminate St.
  - destruct (terminated e), b; cbn in St; discriminate St.
Qed.

Lemma step_proc s i p' : inv s -> (i < N)%nat -> pstep (beh i) (value i) (procs s i) = Some p' ->
  inv (set_sv s (r2s s) (s2r s) (sv s) (upd (procs s) i p')).
Proof.
  intros I Hi Hp. destruct I; cbn in Hp |- *;
    match goal with A : agree ?ps _ |- _ => eapply agree_step in A; [|exact Hi|exact Hp] end;
    econstructor; eassumption.
Qed.

Lemma inv_step s s' : inv s -> step N beh value s s' -> inv s'.
Proof using SV.
  intros I St. destruct St as [s' St|b s' St|i p' Hi Hp].
  - eapply step_rt; eauto.
  - eapply step_sv; eauto.
  - now apply step_proc.
Qed.

Lemma inv_init : inv (init (history segs e)).
Proof. apply (I_ready [] segs); [easy|]. intros i Hi. reflexivity. Qed.

Lemma inv_reach n s : reach N beh value (history segs e) n s -> inv s.
Proof using SV. induction 1; [apply inv_init|]. eapply inv_step; eauto. Qed.
End Inv.
