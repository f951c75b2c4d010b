(** Broadcasting and the attributes of a built process model. *)
From Coq Require Import List Arith Bool ZArith QArith Qabs String Lia.
From Verif Require Import VPorts_Model VPorts_Props Build_Model Build_Spec.
Import ListNotations.
Open Scope nat_scope.
Notation len := List.length.

(** ** Indices counted from the last *)
Lemma back_nth l k : k < len l -> back l k = nth (len l - S k) l 0.
Proof. intros H. unfold back. rewrite rev_nth by auto. reflexivity. Qed.
Lemma back_cons a l k : k < len l -> back (a :: l) k = back l k.
Proof. intros H. unfold back. cbn [rev]. rewrite app_nth1; [reflexivity|rewrite rev_length; auto]. Qed.
Lemma back_last a l : back (a :: l) (len l) = a.
Proof. unfold back. cbn [rev]. rewrite app_nth2; rewrite rev_length; [rewrite Nat.sub_diag; reflexivity|lia]. Qed.
Lemma back_skipn m l k : k < len l - m -> back (skipn m l) k = back l k.
Proof.
  revert l k. induction m as [|m IH]; intros [|a l] k H; cbn [skipn]; auto. cbn [List.length] in H.
  rewrite IH by lia. rewrite back_cons by lia. reflexivity.
Qed.
Lemma valid_cons n sh i idx : valid (n :: sh) (i :: idx) <-> i < n /\ valid sh idx.
Proof.
  unfold valid. cbn [List.length]. split.
  - intros [Hl H]. assert (len idx = len sh) as Hl' by lia. split.
    + specialize (H (len sh) ltac:(lia)). rewrite <- Hl' in H at 1. rewrite !back_last in H. auto.
    + split; [auto|]. intros k Hk. specialize (H k ltac:(lia)). rewrite !back_cons in H by lia. auto.
  - intros [H0 [Hl H]]. split; [lia|]. intros k Hk. destruct (Nat.eq_dec k (len sh)) as [->|Hn].
    + rewrite <- Hl at 1. rewrite !back_last. auto.
    + rewrite !back_cons by lia. apply H. lia.
Qed.
Lemma valid_inside sh idx : valid sh idx <-> inside sh idx.
Proof.
  revert idx. induction sh as [|n sh IH]; intros idx.
  - split; [intros [H _]; destruct idx; [constructor|discriminate H]|intros H; inversion H; split; [reflexivity|cbn; lia]].
  - destruct idx as [|i idx]; [split; [intros [H _]; discriminate H|intros H; inversion H]|]. rewrite valid_cons, inside_cons, IH. reflexivity.
Qed.

(** ** Broadcasting *)
Lemma fits_iff v sh : fits v sh = true <-> len v <= len sh /\ forall k, k < len v -> nth k v 0 = 1 \/ nth k v 0 = nth k sh 0.
Proof.
  revert sh. induction v as [|a v IH]; intros sh; cbn [fits].
  - split; [intros _; cbn; split; [lia|intros; lia]|reflexivity].
  - destruct sh as [|b sh]; [split; [discriminate|intros [H _]; cbn in H; lia]|].
    rewrite andb_true_iff, orb_true_iff, !Nat.eqb_eq, IH. cbn [List.length]. split.
    + intros [H [Hl Hk]]. split; [lia|]. intros [|k] Hk'; cbn [nth]; [tauto|apply Hk; lia].
    + intros [Hl Hk]. split; [specialize (Hk 0 ltac:(lia)); cbn in Hk; tauto|]. split; [lia|]. intros k Hk'. apply (Hk (S k)). lia.
Qed.
Lemma fits_back v sh : fits (rev v) (rev sh) = true <-> len v <= len sh /\ forall k, k < len v -> back v k = 1 \/ back v k = back sh k.
Proof. rewrite fits_iff, !rev_length. reflexivity. Qed.
Lemma strip_cases n ish : match ish with
  | 1 :: r => if n <? len ish then strip n ish = strip n r else strip n ish = ish
  | _ => strip n ish = ish
  end.
Proof. destruct ish as [|[|[|a]] r]; try reflexivity. cbn [strip]. destruct (n <? len (1 :: r)); reflexivity. Qed.
Lemma broadcast_fits ish sh : broadcastable ish sh <-> fits (rev (strip (len sh) ish)) (rev sh) = true.
Proof.
  induction ish as [|a r IH].
  - cbn. split; [reflexivity|intros _ k Hk; cbn in Hk; lia].
  - assert (len sh < len (a :: r) /\ a = 1 /\ strip (len sh) (a :: r) = strip (len sh) r \/
            (len (a :: r) <= len sh \/ a <> 1) /\ strip (len sh) (a :: r) = a :: r) as [(Hl & -> & ->)|[Hc ->]].
    { pose proof (strip_cases (len sh) (a :: r)) as H. destruct a as [|[|a]]; [right; auto| |right; auto].
      destruct (Nat.ltb_spec (len sh) (len (1 :: r))); [left; auto|right; auto]. }
    + rewrite <- IH. cbn [List.length] in Hl. unfold broadcastable. split; intros H k Hk.
      * specialize (H k ltac:(cbn; lia)). rewrite back_cons in H by auto. auto.
      * destruct (Nat.eq_dec k (len r)) as [->|Hn]; [rewrite back_last; auto|]. cbn [List.length] in Hk. rewrite back_cons by lia. apply H. lia.
    + rewrite fits_back. unfold broadcastable. split.
      * intros H. assert (len (a :: r) <= len sh) as Hl.
        { destruct Hc as [|Hc]; [auto|]. specialize (H (len r) ltac:(cbn; lia)). rewrite back_last in H. cbn. destruct H as [|[H _]]; [contradiction|lia]. }
        split; [auto|]. intros k Hk. specialize (H k Hk). tauto.
      * intros [Hl H] k Hk. specialize (H k Hk). destruct H; [auto|]. right. split; [lia|auto].
Qed.
Lemma pick_len v s : len s = len v -> len (pick v s) = len v.
Proof. revert s. induction v as [|d v IH]; intros [|i s] H; cbn in *; try discriminate; auto. Qed.
Lemma pick_back v s : len s = len v -> forall k, k < len v -> back (pick v s) k = if back v k =? 1 then 0 else back s k.
Proof.
  revert s. induction v as [|d v IH]; intros [|i s] H k Hk; cbn [List.length] in *; try discriminate; try lia. cbn [pick].
  assert (len s = len v) as H' by lia. destruct (Nat.eq_dec k (len v)) as [->|Hn].
  - rewrite <- (pick_len v s H') at 1. rewrite !back_last. rewrite <- H' at 1. rewrite back_last. reflexivity.
  - rewrite !back_cons by (try rewrite pick_len by auto; lia). apply IH; [auto|lia].
Qed.
Lemma bindex_back v idx : len v <= len idx -> len (bindex v idx) = len v /\ forall k, k < len v -> back (bindex v idx) k = if back v k =? 1 then 0 else back idx k.
Proof.
  intros H. unfold bindex. assert (len (skipn (len idx - len v) idx) = len v) as Hs by (rewrite skipn_length; lia).
  split; [apply pick_len; auto|]. intros k Hk. rewrite pick_back by auto. rewrite back_skipn by lia. reflexivity.
Qed.
Lemma strip_index ish sh idx : valid sh idx -> broadcastable ish sh ->
  exists jdx, valid ish jdx /\ belongs ish idx jdx /\ ravel ish jdx = ravel (strip (len sh) ish) (bindex (strip (len sh) ish) idx).
Proof.
  intros HV. induction ish as [|a r IH]; intros HB.
  - exists []. cbn. split; [split; [reflexivity|cbn; lia]|]. split; [split; [reflexivity|cbn; lia]|reflexivity].
  - assert (len sh < len (a :: r) /\ a = 1 /\ strip (len sh) (a :: r) = strip (len sh) r \/
            (len (a :: r) <= len sh \/ a <> 1) /\ strip (len sh) (a :: r) = a :: r) as [(Hl & -> & ->)|[Hc E]].
    { pose proof (strip_cases (len sh) (a :: r)) as H. destruct a as [|[|a]]; [right; auto| |right; auto].
      destruct (Nat.ltb_spec (len sh) (len (1 :: r))); [left; auto|right; auto]. }
    + destruct IH as (jdx & J1 & J2 & J3).
      { intros k Hk. specialize (HB k ltac:(cbn; lia)). rewrite back_cons in HB by auto. auto. }
      exists (0 :: jdx). split; [apply valid_cons; split; [lia|auto]|]. destruct J2 as [L J2]. split.
      * split; [cbn; lia|]. intros k Hk. cbn [List.length] in Hk. destruct (Nat.eq_dec k (len r)) as [->|Hn].
        -- rewrite back_last. cbn. rewrite <- L. apply back_last.
        -- rewrite !back_cons by lia. apply J2. lia.
      * rewrite <- J3. cbn. reflexivity.
    + pose proof HB as HF. apply broadcast_fits in HF. rewrite E in *. apply fits_back in HF. destruct HF as [HL HF]. destruct HV as [HV1 HV2].
      destruct (bindex_back (a :: r) idx ltac:(lia)) as [B1 B2]. exists (bindex (a :: r) idx). split; [|split; [|reflexivity]].
      * split; [auto|]. intros k Hk. rewrite B2 by auto. destruct (Nat.eqb_spec (back (a :: r) k) 1) as [->|Hn]; [lia|].
        destruct (HF k Hk) as [|H]; [contradiction|]. rewrite H. apply HV2. lia.
      * split; auto.
Qed.

(** ** Conversion *)
Open Scope Z_scope.
Lemma trunc_spec q : (inject_Z (Z.abs (trunc q)) <= Qabs q)%Q /\ (Qabs q < inject_Z (Z.abs (trunc q) + 1))%Q /\ (0 <= inject_Z (trunc q) * q)%Q.
Proof.
  destruct q as [n d]. unfold trunc. cbn [Qnum Qden]. rewrite <- Z.quot_abs by lia. rewrite (Z.abs_eq (Z.pos d)) by lia.
  assert (0 <= Z.abs n) by lia. rewrite Z.quot_div_nonneg by lia.
  pose proof (Z.div_mod (Z.abs n) (Z.pos d) ltac:(lia)). pose proof (Z.mod_pos_bound (Z.abs n) (Z.pos d) ltac:(lia)).
  unfold Qle, Qlt, Qmult, inject_Z. cbn [Qabs Qnum Qden]. split; [nia|]. split; [nia|].
  assert (0 <= Z.quot n (Z.pos d) * n) as HH.
  { destruct (Z.le_ge_cases 0 n).
    - apply Z.mul_nonneg_nonneg; [apply Z.quot_pos; lia|auto].
    - rewrite <- (Z.opp_involutive n), Z.quot_opp_l by lia. rewrite Z.mul_opp_opp. apply Z.mul_nonneg_nonneg; [apply Z.quot_pos; lia|lia]. }
  cbn [Qnum Qden]. rewrite Z.mul_1_r. exact HH.
Qed.
Lemma cast_converts d x : (forall b, d = DInt b \/ d = DUInt b -> 0 < b) -> converts d x (cast d x).
Proof.
  intros Hd. destruct d as [|b|b| |]; cbn [cast]; try (constructor; reflexivity).
  - specialize (Hd b (or_introl eq_refl)). destruct (trunc_spec (re x)) as (T1 & T2 & T3).
    assert (2 ^ b = 2 * 2 ^ (b - 1)) as E by (rewrite <- Z.pow_succ_r by lia; f_equal; lia).
    assert (0 < 2 ^ (b - 1)) by (apply Z.pow_pos_nonneg; lia).
    apply (c_int b x (trunc (re x))); auto.
    + pose proof (Z.mod_pos_bound (trunc (re x) + 2 ^ (b - 1)) (2 ^ b) ltac:(lia)). lia.
    + exists (- ((trunc (re x) + 2 ^ (b - 1)) / 2 ^ b)). pose proof (Z.div_mod (trunc (re x) + 2 ^ (b - 1)) (2 ^ b) ltac:(lia)). lia.
  - specialize (Hd b (or_intror eq_refl)). destruct (trunc_spec (re x)) as (T1 & T2 & T3). assert (0 < 2 ^ b) by (apply Z.pow_pos_nonneg; lia).
    apply (c_uint b x (trunc (re x))); auto; [lia|apply Z.mod_pos_bound; lia|].
    exists (- (trunc (re x) / 2 ^ b)). pose proof (Z.div_mod (trunc (re x)) (2 ^ b) ltac:(lia)). lia.
Qed.
Close Scope Z_scope.

(** ** Assignment *)
Lemma assign_iff sh d a : (exists b, assign sh d a = Some b) <-> sh <> [] /\ broadcastable (ash a) sh.
Proof.
  unfold assign. rewrite broadcast_fits. destruct sh as [|n sh]; [split; [intros [b H]; discriminate H|tauto]|].
  destruct (fits _ _); split; intros H; [split; [discriminate|auto]|eauto|destruct H; discriminate|destruct H; discriminate].
Qed.
Lemma assign_spec sh d a b : (forall bits, d = DInt bits \/ d = DUInt bits -> (0 < bits)%Z) -> assign sh d a = Some b ->
  ash b = sh /\ well_formed b /\ forall idx, valid sh idx -> exists jdx, valid (ash a) jdx /\ belongs (ash a) idx jdx /\ converts d (elem a jdx) (elem b idx).
Proof.
  intros Hd H. assert (broadcastable (ash a) sh) as HB by (apply (assign_iff sh d a); eauto).
  assert (b = {| ash := sh; adat := map (fun i => cast d (elem {| ash := strip (len sh) (ash a); adat := adat a |} (bindex (strip (len sh) (ash a)) i))) (indices sh) |}) as ->.
  { unfold assign in H. destruct sh as [|n sh']; [discriminate H|]. destruct (fits _ _); [|discriminate H]. injection H as <-. reflexivity. }
  clear H. cbn [ash]. split; [reflexivity|]. split.
  - unfold well_formed. cbn [adat ash]. rewrite map_length. apply indices_length.
  - intros idx HV. destruct (strip_index (ash a) sh idx HV HB) as (jdx & J1 & J2 & J3). exists jdx. split; [auto|]. split; [auto|].
    assert (elem {| ash := sh; adat := map (fun i => cast d (elem {| ash := strip (len sh) (ash a); adat := adat a |} (bindex (strip (len sh) (ash a)) i))) (indices sh) |} idx = cast d (elem a jdx)) as ->.
    { unfold elem at 1. cbn [ash adat]. apply valid_inside in HV. rewrite (VPorts_Props.nth_map _ _ _ []) by (rewrite indices_length; apply ravel_lt; auto).
      rewrite nth_indices by auto. unfold elem. cbn [ash adat]. rewrite J3. reflexivity. }
    apply cast_converts. auto.
Qed.

(** ** Values of Vars *)
Lemma var_value_iff t v : (exists x, var_value t v = Some x) <-> initialisable t v.
Proof.
  unfold var_value, initialisable. destruct (cls t); try (split; [eauto|intros; eauto]; fail); try (split; [intros [x H]; discriminate H|contradiction]).
  - destruct (vinit v) as [z|a|s|a]; cbn [array_of].
    + pose proof (assign_iff (vshape v) (d_type t) {| ash := []; adat := [int z] |}) as A. destruct (assign _ _ _) as [b|].
      * split; [intros _|eauto]. eexists. split; [reflexivity|]. apply A. eauto.
      * split; [intros [x H]; discriminate H|]. intros (a0 & H & H'). injection H as <-. apply A in H'. destruct H' as [x H]. discriminate H.
    + pose proof (assign_iff (vshape v) (d_type t) a) as A. destruct (assign _ _ _) as [b|].
      * split; [intros _|eauto]. eexists. split; [reflexivity|]. apply A. eauto.
      * split; [intros [x H]; discriminate H|]. intros (a0 & H & H'). injection H as <-. apply A in H'. destruct H' as [x H]. discriminate H.
    + split; [intros [x H]; discriminate H|intros (a0 & H & _); discriminate H].
    + split; [intros [x H]; discriminate H|intros (a0 & H & _); discriminate H].
  - destruct (vinit v) as [z|a|s|a]; try (split; eauto).
    + intros [x H]. destruct (vshape v) as [|n1 [|n2 [|n3 l]]]; try discriminate H. reflexivity.
    + intros H. destruct (vshape v) as [|n1 [|n2 [|n3 l]]]; try discriminate H. eauto.
Qed.
Lemma var_value_starts t v x : (forall b, d_type t = DInt b \/ d_type t = DUInt b -> (0 < b)%Z) -> var_value t v = Some x -> starts_as t v x.
Proof.
  intros Hd. unfold var_value, starts_as. destruct (cls t); try discriminate; try (intros H; injection H as <-; reflexivity).
  - destruct (vinit v) as [z|a|s|a]; cbn [array_of]; try discriminate.
    + destruct (assign _ _ _) as [b|] eqn:A; [|discriminate]. intros H. injection H as <-. destruct (assign_spec _ _ _ _ Hd A) as (A1 & A2 & A3).
      eexists. exists b. repeat (split; [eauto|]). eauto.
    + destruct (assign _ _ _) as [b|] eqn:A; [|discriminate]. intros H. injection H as <-. destruct (assign_spec _ _ _ _ Hd A) as (A1 & A2 & A3).
      eexists. exists b. repeat (split; [eauto|]). eauto.
  - destruct (vinit v); try (intros H; injection H as <-; reflexivity). destruct (vshape v) as [|n1 [|n2 [|n3 l]]]; try discriminate. intros H. injection H as <-. reflexivity.
Qed.

(** ** Attributes *)
Lemma lookup_in {A} n (l : list (string * A)) : NoDup (map fst l) -> forall a, lookup n l = Some a <-> In (n, a) l.
Proof.
  induction l as [|[m b] l IH]; intros HN a; cbn [lookup map fst] in *; [split; [discriminate|intros []]|].
  inversion HN as [|? ? Hn HN']; subst. destruct (String.eqb_spec n m) as [->|Hne].
  - split; [intros H; injection H as ->; left; reflexivity|]. intros [H|H]; [injection H as ->; reflexivity|]. exfalso. apply Hn. apply (in_map fst) in H. exact H.
  - rewrite IH by auto. split; [right; auto|]. intros [H|H]; [injection H as -> ->; contradiction|auto].
Qed.
Lemma has_in {A} n (l : list (string * A)) : has n l = true <-> exists a, lookup n l = Some a.
Proof. unfold has. destruct (lookup n l); split; eauto; [discriminate|intros [a H]; discriminate H]. Qed.
Lemma getattr_set n a m k : getattr k (setattr n a m) = if String.eqb k n then Some a else getattr k m.
Proof. reflexivity. Qed.

Section All.
Context {A : Type} (f : A -> pm -> option pm) (name : A -> string) (touch : A -> list string).
(** each step defines the attribute of its item, and only names that belong to the item *)
Variable val : A -> option attr.
Hypothesis HF : forall x m m', f x m = Some m' -> (forall k, ~ In k (touch x) -> getattr k m' = getattr k m) /\ (forall a, val x = Some a -> getattr (name x) m' = Some a).
Lemma all_other l m m' k : build_all f l m = Some m' -> ~ In k (flat_map touch l) -> getattr k m' = getattr k m.
Proof using HF.
  revert m. induction l as [|x l IH]; intros m H Hk; cbn in *; [injection H as ->; reflexivity|].
  destruct (f x m) as [m1|] eqn:E; [|discriminate H]. destruct (HF _ _ _ E) as [H1 _]. rewrite in_app_iff in Hk.
  rewrite (IH m1) by tauto. apply H1. tauto.
Qed.
Lemma all_val l m m' x a : build_all f l m = Some m' -> In x l -> val x = Some a ->
  (forall l1 l2, l = l1 ++ x :: l2 -> ~ In (name x) (flat_map touch l2)) -> getattr (name x) m' = Some a.
Proof using HF.
  revert m. induction l as [|y l IH]; intros m H Hin Hv HD; [contradiction|]. cbn in H. destruct (f y m) as [m1|] eqn:E; [|discriminate H].
  destruct Hin as [->|Hin].
  - rewrite (all_other l m1 m' (name x) H) by (apply (HD [] l); reflexivity). apply (HF _ _ _ E). auto.
  - apply (IH m1 H Hin Hv). intros l1 l2 ->. apply (HD (y :: l1) l2). reflexivity.
Qed.
End All.
Lemma build_all_iff {A} (f : A -> pm -> option pm) (P : A -> Prop) l : (forall x m, (exists m', f x m = Some m') <-> P x) ->
  forall m, (exists m', build_all f l m = Some m') <-> forall x, In x l -> P x.
Proof.
  intros HF. induction l as [|x l IH]; intros m; cbn [build_all].
  - split; [intros _ x []|eauto].
  - destruct (f x m) as [m1|] eqn:E.
    + rewrite IH. split; [intros H y [<-|Hy]; [apply (HF x m); eauto|auto]|intros H y Hy; apply H; right; auto].
    + split; [intros [m' H]; discriminate H|]. intros H. assert (exists m', f x m = Some m') as [m' H'] by (apply HF; apply H; left; reflexivity). congruence.
Qed.
Lemma prec_inj n m : prec_name n = prec_name m -> n = m.
Proof.
  unfold prec_name. cbn. intros H. injection H as H. revert m H. induction n as [|c n IH]; intros m H; destruct m as [|e m]; auto; cbn in H; injection H as H1 H2.
  - exfalso. subst. destruct m as [|? [|? m]]; cbn in H2; discriminate H2.
  - exfalso. subst. destruct n as [|? [|? n]]; cbn in H2; discriminate H2.
  - subst. f_equal. auto.
Qed.
