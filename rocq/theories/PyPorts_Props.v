(** C16-C19: ports of Python process models. *)
From Coq Require Import List Arith ZArith Bool Lia.
From Verif Require Import Base PyPorts_Model.
Import ListNotations.

(** * C16 *)

(** Sum over the sources 0..k-1. *)
Fixpoint sum_sources (k : nat) (f : nat -> Z) : Z :=
  match k with 0 => 0%Z | S i => (sum_sources i f + f i)%Z end.
Definition elem (v : vec) (j : nat) : Z := nth j v 0%Z.
(** a message after the transformations of its connection, the first of which is applied first *)
Fixpoint through (fs : list (vec -> vec)) (d : vec) : vec := match fs with [] => d | f :: r => through r (f d) end.
Lemma compose_through fs : forall d, compose fs d = through fs d.
Proof. unfold compose. induction fs as [|f r IH]; intro d; simpl; auto. Qed.
(** the messages have, after the transformations of their connection, the size of the port *)
Definition fitting (k size : nat) (fs : nat -> list (vec -> vec)) (s : instate) : Prop :=
  forall i d, i < k -> In d (hist s i) -> length (through (fs i) d) = size.

Lemma vadd_elem a b j : j < length a -> j < length b -> elem (vadd a b) j = (elem a j + elem b j)%Z.
Proof.
  revert b j; induction a as [|x a IH]; intros [|y b] j; simpl; intros; try lia.
  destruct j; auto. unfold elem in *. simpl. apply IH; lia.
Qed.
Lemma vadd_length a b : length a = length b -> length (vadd a b) = length a.
Proof. intros H. unfold vadd. rewrite map_length, combine_length. lia. Qed.

Definition done (s : instate) (i : nat) : nat :=   (* messages taken from source i so far *)
  length (results s) + match pc s with Some (p, _) => if i <? p then 1 else 0 | None => 0 end.

Definition sum_at (k : nat) (fs : nat -> list (vec -> vec)) (s : instate) (r j : nat) : Z :=
  sum_sources k (fun i => elem (through (fs i) (nth r (hist s i) [])) j).

Record InvI (k size : nat) (fs : nat -> list (vec -> vec)) (s : instate) : Prop := {
  i_queue : forall i, i < k -> queue s i = skipn (done s i) (hist s i) /\ done s i <= length (hist s i);
  i_pc : forall p acc, pc s = Some (p, acc) -> p <= k /\ (fitting k size fs s -> length acc = size /\
           forall j, j < size -> elem acc j = sum_at p fs s (length (results s)) j);
  i_res : fitting k size fs s -> forall r res, nth_error (results s) r = Some res ->
           length res = size /\ forall j, j < size -> elem res j = sum_at k fs s r j }.

Lemma sum_ext k f g : (forall i, i < k -> f i = g i) -> sum_sources k f = sum_sources k g.
Proof. induction k; simpl; intros; auto. rewrite IHk, H; auto. Qed.
Lemma skipn_cons A (l : list A) n d q : skipn n l = d :: q -> nth_error l n = Some d /\ skipn (S n) l = q /\ n < length l.
Proof.
  revert n; induction l as [|a l IH]; intros [|n] H; simpl in *; try discriminate.
  - injection H as -> ->. repeat split. lia.
  - destruct (IH n H) as (A1 & A2 & A3). repeat split; auto. lia.
Qed.
Lemma elem_zero n j : elem (repeat 0%Z n) j = 0%Z.
Proof. unfold elem. revert j; induction n; destruct j; simpl; auto. Qed.

Lemma invI k size fs s : inreach k size fs s -> InvI k size fs s.
Proof.
  induction 1.
  - split; simpl; intros; try discriminate; auto. destruct r; discriminate.
  - destruct H0.
    + (* send *) split; simpl.
      * intros i0 Hi0. destruct (i_queue _ _ _ _ IHinreach i0 Hi0) as [Q L]. unfold done in *. simpl.
        destruct (Nat.eq_dec i0 i) as [->|N].
        -- rewrite !fupd_same, app_length. split; [|lia]. rewrite Q, skipn_app.
           replace (_ - length (hist s i)) with 0 by lia. auto.
        -- rewrite !fupd_other by auto. auto.
      * intros p acc E. destruct (i_pc _ _ _ _ IHinreach p acc E) as [P1 P2]. split; auto.
        intros F. destruct P2 as [P2 P3].
        { intros i1 d1 Hi1 Hd1. apply F; auto. simpl. destruct (Nat.eq_dec i1 i) as [->|N];
            [rewrite fupd_same; apply in_or_app; auto|rewrite fupd_other; auto]. }
        split; auto. intros j Hj. rewrite P3 by auto. apply sum_ext. intros i1 Hi1. simpl.
        destruct (Nat.eq_dec i1 i) as [->|N]; [rewrite fupd_same|rewrite fupd_other; auto].
        rewrite app_nth1; auto. destruct (i_queue _ _ _ _ IHinreach i ltac:(lia)) as [_ L].
        unfold done in L. rewrite E in L. destruct (Nat.ltb_spec i p); lia.
      * intros F r res E.
        assert (F' : fitting k size fs s).
        { intros i1 d1 Hi1 Hd1. apply F; auto. simpl. destruct (Nat.eq_dec i1 i) as [->|N];
            [rewrite fupd_same; apply in_or_app; auto|rewrite fupd_other; auto]. }
        destruct (i_res _ _ _ _ IHinreach F' r res E) as [R1 R2]. split; auto.
        intros j Hj. rewrite R2 by auto. apply sum_ext. intros i1 Hi1. simpl.
        destruct (Nat.eq_dec i1 i) as [->|N]; [rewrite fupd_same|rewrite fupd_other; auto].
        rewrite app_nth1; auto. destruct (i_queue _ _ _ _ IHinreach i ltac:(lia)) as [_ L].
        assert (r < length (results s)) by (apply nth_error_Some; congruence). unfold done in L. lia.
    + (* begin *) split; simpl.
      * intros i Hi. destruct (i_queue _ _ _ _ IHinreach i Hi) as [Q L]. unfold done in *. simpl. rewrite H0 in *. auto.
      * intros p acc E. injection E as <- <-. split; [lia|]. intros F. split; [apply repeat_length|].
        intros j Hj. rewrite elem_zero. reflexivity.
      * apply (i_res _ _ _ _ IHinreach).
    + (* take *) destruct (i_pc _ _ _ _ IHinreach _ _ H0) as [P1 P2]. split; simpl.
      * intros i0 Hi0. destruct (i_queue _ _ _ _ IHinreach i0 Hi0) as [Q L]. unfold done in *. simpl. rewrite H0 in *.
        destruct (Nat.eq_dec i0 i) as [->|N].
        -- rewrite fupd_same. rewrite H2 in Q. symmetry in Q. apply skipn_cons in Q as (A1 & A2 & A3).
           destruct (Nat.ltb_spec i i); [lia|]. destruct (Nat.ltb_spec i (S i)); [|lia].
           rewrite Nat.add_1_r, <- A2. replace (length (results s) + 0) with (length (results s)) in * by lia. split; [auto|lia].
        -- rewrite fupd_other by auto. destruct (Nat.ltb_spec i0 i), (Nat.ltb_spec i0 (S i)); try lia; auto.
      * intros p acc0 E. injection E as <- <-. split; [lia|]. intros F. destruct (P2 F) as [P3 P4].
        destruct (i_queue _ _ _ _ IHinreach i H1) as [Q L]. rewrite H2 in Q. symmetry in Q.
        apply skipn_cons in Q as (A1 & A2 & A3). unfold done in A1. rewrite H0 in A1.
        destruct (Nat.ltb_spec i i); [lia|]. rewrite Nat.add_0_r in A1.
        rewrite compose_through. assert (Lc : length (through (fs i) d) = size) by (apply F; auto; eapply nth_error_In; eauto).
        split; [rewrite vadd_length; congruence|]. intros j Hj.
        rewrite vadd_elem by lia. rewrite P4 by auto. unfold sum_at. simpl. f_equal.
        rewrite (nth_error_nth _ _ _ A1). auto.
      * intros F. apply (i_res _ _ _ _ IHinreach F).
    + (* end *) destruct (i_pc _ _ _ _ IHinreach _ _ H0) as [P1 P2]. split; simpl.
      * intros i Hi. destruct (i_queue _ _ _ _ IHinreach i Hi) as [Q L]. unfold done in *. simpl. rewrite H0 in *.
        rewrite app_length. simpl. destruct (Nat.ltb_spec i k); [|lia].
        replace (length (results s) + 1 + 0) with (length (results s) + 1) by lia. auto.
      * discriminate.
      * intros F r res E. destruct (Nat.lt_ge_cases r (length (results s))).
        -- rewrite nth_error_app1 in E by auto. apply (i_res _ _ _ _ IHinreach F r res E).
        -- rewrite nth_error_app2 in E by auto. destruct (r - length (results s)) eqn:D; [|destruct n; discriminate].
           simpl in E. injection E as <-. replace r with (length (results s)) by lia. apply P2. exact F.
Qed.

(** C16: for every schedule of the sources and the receiver, the r-th recv() returns the
    element-wise sum, over all sources, of the r-th message of each source passed through the
    transformations of its connection. *)
Theorem inport_recv_sum k size fs s r res :
  inreach k size fs s -> fitting k size fs s -> nth_error (results s) r = Some res ->
  length res = size /\
  (forall j, j < size -> elem res j = sum_sources k (fun i => elem (through (fs i) (nth r (hist s i) [])) j)).
Proof. intros R F E. apply (i_res _ _ _ _ (invI _ _ _ _ R) F _ _ E). Qed.

(** Exactly one message per source is consumed by each recv(), the others stay queued in order. *)
Theorem inport_recv_consumes_one k size fs s i :
  inreach k size fs s -> pc s = None -> i < k ->
  length (results s) <= length (hist s i) /\ queue s i = skipn (length (results s)) (hist s i).
Proof.
  intros R E Hi. destruct (i_queue _ _ _ _ (invI _ _ _ _ R) i Hi) as [Q L]. unfold done in *. rewrite E, Nat.add_0_r in *. auto.
Qed.

(** recv() waits only for a source that has not sent its message for this call. *)
Theorem inport_recv_waits_only_for_missing k size fs s i acc :
  inreach k size fs s -> pc s = Some (i, acc) ->
  (exists s', instep k size fs s s' /\ hist s' = hist s) \/
  (i < k /\ length (hist s i) = length (results s)).
Proof.
  intros R E. destruct (i_pc _ _ _ _ (invI _ _ _ _ R) _ _ E) as [P _].
  destruct (Nat.eq_dec i k) as [->|N].
  - left. eexists. split; [eapply IEnd; eauto|auto].
  - destruct (i_queue _ _ _ _ (invI _ _ _ _ R) i ltac:(lia)) as [Q L]. unfold done in *. rewrite E in *.
    destruct (Nat.ltb_spec i i); [lia|]. rewrite Nat.add_0_r in *.
    destruct (queue s i) as [|d q] eqn:Eq.
    + right. split; [lia|]. assert (Z : length (skipn (length (results s)) (hist s i)) = 0) by (rewrite <- Q; auto).
      rewrite skipn_length in Z. lia.
    + left. eexists. split; [eapply ITake; eauto; lia|auto].
Qed.

(** An unconnected InPort receives zeros. *)
Theorem inport_unconnected_zeros size fs s r res :
  inreach 0 size fs s -> nth_error (results s) r = Some res -> res = repeat 0%Z size.
Proof.
  intros R E. destruct (inport_recv_sum 0 size fs s r res R) as [L S]; auto.
  { intros i d Hi. lia. }
  clear E R. revert size L S. induction res as [|x res IH]; intros size L S; simpl in *; subst; auto.
  simpl. f_equal.
  - apply (S 0). lia.
  - apply IH; auto. intros j Hj. apply (S (Datatypes.S j)). lia.
Qed.

(** Witness: two sources, the second one reversed by a virtual port; two receives. *)
Definition fs_ex (i : nat) : list (vec -> vec) := if i =? 1 then [@rev Z] else [].
Example inport_witness : exists s, inreach 2 2 fs_ex s /\ fitting 2 2 fs_ex s /\
  results s = [[41; 32]%Z; [7; 9]%Z].
Proof.
  assert (A : exists s, inreach 2 2 fs_ex s /\ (forall i, i < 2 -> hist s i = nth i [[[1; 2]; [3; 4]]; [[30; 40]; [5; 4]]]%Z []) /\
     results s = [[41; 32]%Z; [7; 9]%Z]).
  { pose proof (IR0 2 2 fs_ex) as H0.
    eapply IRS in H0; [|eapply (ISend 2 2 fs_ex _ 0 [1; 2]%Z); first [reflexivity|auto]]. cbn [queue hist pc results] in H0.
    eapply IRS in H0; [|eapply (ISend 2 2 fs_ex _ 0 [3; 4]%Z); first [reflexivity|auto]]. cbn [queue hist pc results] in H0.
    eapply IRS in H0; [|eapply (IBegin 2 2 fs_ex _); first [reflexivity|auto]]. cbn [queue hist pc results] in H0.
    eapply IRS in H0; [|eapply (ITake 2 2 fs_ex _ 0 _ _ _); first [reflexivity|auto]]. cbn [queue hist pc results] in H0.
    eapply IRS in H0; [|eapply (ISend 2 2 fs_ex _ 1 [30; 40]%Z); first [reflexivity|auto]]. cbn [queue hist pc results] in H0.
    eapply IRS in H0; [|eapply (ITake 2 2 fs_ex _ 1 _ _ _); first [reflexivity|auto]]. cbn [queue hist pc results] in H0.
    eapply IRS in H0; [|eapply (IEnd 2 2 fs_ex _ _); first [reflexivity|auto]]. cbn [queue hist pc results] in H0.
    eapply IRS in H0; [|eapply (ISend 2 2 fs_ex _ 1 [5; 4]%Z); first [reflexivity|auto]]. cbn [queue hist pc results] in H0.
    eapply IRS in H0; [|eapply (IBegin 2 2 fs_ex _); first [reflexivity|auto]]. cbn [queue hist pc results] in H0.
    eapply IRS in H0; [|eapply (ITake 2 2 fs_ex _ 0 _ _ _); first [reflexivity|auto]]. cbn [queue hist pc results] in H0.
    eapply IRS in H0; [|eapply (ITake 2 2 fs_ex _ 1 _ _ _); first [reflexivity|auto]]. cbn [queue hist pc results] in H0.
    eapply IRS in H0; [|eapply (IEnd 2 2 fs_ex _ _); first [reflexivity|auto]]. cbn [queue hist pc results] in H0.
    eexists. split; [exact H0|split].
    - intros [|[|i]] Hi; try lia; reflexivity.
    - reflexivity. }
  destruct A as (s & R & H & E). exists s. split; [auto|split; auto].
  intros i d Hi Hd. rewrite H in Hd by auto. destruct i as [|[|i]]; try lia; simpl in Hd; intuition (subst; reflexivity).
Qed.

(** * C17: peek() *)

(** Finding: peek() on a vector-dense InPort is recv(): the data are gone afterwards, so the next
    recv() returns the following message. *)
Theorem inport_peek_consumes_refuted :
  exists r qs', in_peek 1 [[]] [[[7%Z]; [9%Z]]] = Some (r, qs') /\ qs' <> [[[7%Z]; [9%Z]]] /\
    forall r2 qs2, in_recv 1 [[]] qs' = Some (r2, qs2) -> r2 <> r.
Proof.
  exists [7%Z], [[[9%Z]]]. repeat split; try discriminate. intros r2 qs2 E. injection E as <- <-. discriminate.
Qed.
(** In general: peek() consumes a message from every channel, always. *)
Theorem inport_peek_is_recv_refuted size fs qs r qs' :
  length fs = length qs -> fs <> [] -> in_peek size fs qs = Some (r, qs') -> qs' = map (@tl vec) qs /\ qs' <> qs.
Proof.
  intros L N H. unfold in_peek in H.
  assert (G : forall fs qs acc r qs', length fs = length qs -> take_all fs qs acc = Some (r, qs') ->
     qs' = map (@tl vec) qs /\ (fs <> [] -> length (hd [] qs') < length (hd [] qs))).
  { clear. induction fs as [|f fs IH]; intros qs acc r qs' L H; destruct qs as [|[|d q] qs]; simpl in *; try discriminate.
    - injection H as <- <-. split; auto. intros; congruence.
    - destruct (take_all fs qs _) as [[r' q']|] eqn:E; [|discriminate]. injection H as <- <-.
      assert (L2 : length fs = length qs) by lia. destruct (IH _ _ _ _ L2 E) as [-> _]. simpl. split; auto. }
  destruct (G _ _ _ _ _ L H) as [A B]. split; auto. intros E. specialize (B N). rewrite E in B. lia.
Qed.
(** What is true (partial): the value peek() returns is the one recv() would have returned. *)
Theorem inport_peek_value_partial size fs qs r qs' :
  in_peek size fs qs = Some (r, qs') -> in_recv size fs qs = Some (r, qs').
Proof. auto. Qed.

(** probe(): True exactly when recv() would not wait. *)
Theorem inport_probe_exact size fs qs : length fs = length qs ->
  in_probe qs = true <-> exists r, in_recv size fs qs = Some r.
Proof.
  intros L. unfold in_recv, in_probe.
  assert (G : forall fs qs acc b, length fs = length qs ->
     (fold_left (fun acc q => acc && match q with [] => false | _ :: _ => true end) qs b = true <->
      b = true /\ exists r, take_all fs qs acc = Some r)).
  { clear. induction fs as [|f fs IH]; intros qs acc b L; destruct qs as [|[|d q] qs]; simpl in *; try discriminate.
    - split; [intros; split; eauto|intros []; auto].
    - assert (fold_left (fun acc q => acc && match q with [] => false | _ :: _ => true end) qs (b && false) = false) as ->.
      { rewrite andb_false_r. clear. induction qs; simpl; auto. }
      split; [discriminate|intros [_ [r H]]; discriminate].
    - rewrite andb_true_r, (IH qs (vadd acc (compose f d)) b ltac:(lia)). split; intros [H1 [r H2]]; split; auto.
      + rewrite H2. destruct r. eauto.
      + destruct (take_all fs qs (vadd acc (compose f d))); [eauto|discriminate]. }
  rewrite (G fs qs (repeat 0%Z size) true L). split; [intros []; auto|auto].
Qed.

(** * C18 *)

Lemma resize_length n l : length (resize n l) = n.
Proof. unfold resize. rewrite app_length, firstn_length, repeat_length. lia. Qed.
Lemma firstn_resize m n l : m <= n -> m <= length l -> firstn m (resize n l) = firstn m l.
Proof.
  intros A B. unfold resize. rewrite firstn_app, firstn_firstn, firstn_length.
  replace (Nat.min m n) with m by lia. replace (m - Nat.min n (length l)) with 0 by lia. simpl. apply app_nil_r.
Qed.
Lemma resize_hd n x l : n <> 0 -> hd 0%Z (resize n (x :: l)) = x.
Proof. destruct n; simpl; [lia|auto]. Qed.

(** C18, for destination number i: it receives the first n_i entries of data and indices (all of
    them if they fit), provided no earlier destination has a buffer too small for that. *)
Theorem sparse_delivery_partial sizes data idx i n :
  length idx = length data -> (forall m, In m sizes -> m <> 0) ->
  nth_error sizes i = Some n ->
  (forall j m, j < i -> nth_error sizes j = Some m -> Nat.min (length data) n <= m) ->
  exists msg, nth_error (sparse_send sizes data idx) i = Some msg /\
              sparse_recv msg = Some (firstn n data, firstn n idx).
Proof.
  intros L NZ Hi Hb. unfold sparse_send.
  assert (G : forall i sizes len d x, (forall m, In m sizes -> m <> 0) -> nth_error sizes i = Some n ->
     len <> [] -> hd 0%Z len = Z.of_nat (length data) ->
     Nat.min (length data) n <= length d -> Nat.min (length data) n <= length x ->
     firstn (Nat.min (length data) n) d = firstn (Nat.min (length data) n) data ->
     firstn (Nat.min (length data) n) x = firstn (Nat.min (length data) n) idx ->
     (forall j m, j < i -> nth_error sizes j = Some m -> Nat.min (length data) n <= m) ->
     exists msg, nth_error (sparse_loop sizes len d x) i = Some msg /\
       sparse_recv msg = Some (firstn n data, firstn n idx)).
  { clear sizes i NZ Hi Hb. induction i as [|i IH]; intros sizes len d x NZ Hi Ln Lv Ld Lx Ed Ex Hb;
      destruct sizes as [|m sizes]; try discriminate; simpl in *.
    - injection Hi as ->. eexists. split; [reflexivity|].
      assert (n <> 0) by auto. destruct len as [|v len]; [congruence|]. simpl in Lv. subst v.
      unfold sparse_recv. pose proof (resize_hd n (Z.of_nat (length data)) len H) as Hh.
      destruct (resize n (Z.of_nat (length data) :: len)) eqn:Er.
      { apply (f_equal (@length Z)) in Er. rewrite resize_length in Er. simpl in Er. congruence. }
      simpl in Hh. subst z. unfold upto. rewrite Nat2Z.id.
      assert (Gen : forall y z, length z = length data -> Nat.min (length data) n <= length y ->
         firstn (Nat.min (length data) n) y = firstn (Nat.min (length data) n) z ->
         firstn (length data) (resize n y) = firstn n z).
      { intros y z Lz Ly E. destruct (Nat.le_ge_cases (length data) n).
        - rewrite Nat.min_l in * by auto. rewrite firstn_resize by auto. rewrite E.
          rewrite !firstn_all2; auto; lia.
        - rewrite Nat.min_r in * by auto. rewrite firstn_all2 by (rewrite resize_length; auto).
          rewrite <- E. unfold resize. replace (n - length y) with 0 by lia. apply app_nil_r. }
      rewrite (Gen d data), (Gen x idx); auto.
    - assert (Bm : Nat.min (length data) n <= m) by (apply (Hb 0 m); auto; lia).
      apply IH; auto.
      + intro. apply (f_equal (@length Z)) in H. rewrite resize_length in H. simpl in H. apply (NZ m); auto.
      + destruct len as [|v len]; [congruence|]. simpl in Lv. subst. apply resize_hd. auto.
      + rewrite resize_length; auto.
      + rewrite resize_length; auto.
      + rewrite firstn_resize; auto.
      + rewrite firstn_resize; auto.
      + intros j m' Hj E. apply (Hb (S j) m'); auto. lia. }
  apply (G i sizes); auto; try discriminate; try lia.
Qed.

(** If all destinations have buffers of at least the length of the data, everyone gets everything. *)
Theorem sparse_delivery_all_large sizes data idx i n :
  length idx = length data -> (forall m, In m sizes -> m <> 0 /\ length data <= m) ->
  nth_error sizes i = Some n ->
  exists msg, nth_error (sparse_send sizes data idx) i = Some msg /\ sparse_recv msg = Some (data, idx).
Proof.
  intros L H Hi. destruct (sparse_delivery_partial sizes data idx i n L) as (msg & A & B); auto.
  - intros m Hm. apply H; auto.
  - intros j m _ Hm. apply nth_error_In in Hm. apply H in Hm. lia.
  - exists msg. split; auto. rewrite B. apply nth_error_In, H in Hi.
    rewrite !firstn_all2 by lia. auto.
Qed.
Example sparse_witness : exists msg, nth_error (sparse_send [4; 3; 5] [10; 20; 30]%Z [1; 5; 7]%Z) 1 = Some msg /\
  sparse_recv msg = Some ([10; 20; 30], [1; 5; 7])%Z.
Proof.
  apply (sparse_delivery_all_large [4;3;5] _ _ 1 3); auto. simpl. intuition lia.
Qed.

(** Finding: a small destination truncates what all later destinations receive (and they see zeros
    instead). *)
Theorem sparse_small_destination_refuted :
  nth_error (map sparse_recv (sparse_send [1; 3] [10; 20; 30]%Z [4; 5; 6]%Z)) 1
  = Some (Some ([10; 0; 0], [4; 0; 0])%Z) /\
  nth_error (map sparse_recv (sparse_send [3; 1] [10; 20; 30]%Z [4; 5; 6]%Z)) 0
  = Some (Some ([10; 20; 30], [4; 5; 6])%Z).
Proof. split; reflexivity. Qed.

(** * C19 *)
Section RefProps.
Variable V : Type.
Variable K : nat.
Variables fwd bwd : nat -> V -> V.
Variable ps : nat -> list (op V).
Variable v0 : V.

(** Requests of client j that the owner has served, in its order; answers it has given to j. *)
Fixpoint served (j : nat) (l : list (logent V)) : list (op V) :=
  match l with
  | [] => []
  | LRead i _ :: r => if i =? j then Read :: served j r else served j r
  | LWrite i v :: r => if i =? j then Write v :: served j r else served j r
  | LOwn _ :: r => served j r
  end.
Fixpoint answers (j : nat) (l : list (logent V)) : list V :=
  match l with
  | [] => []
  | LRead i v :: r => if i =? j then v :: answers j r else answers j r
  | _ :: r => answers j r
  end.
(** Value of the variable after the actions [l]. *)
Definition value_after (l : list (logent V)) : V :=
  fold_left (fun x e => match e with LRead _ _ => x | LWrite j v => fwd j v | LOwn v => v end) l v0.

Lemma served_app j a b : served j (a ++ b) = served j a ++ served j b.
Proof. induction a as [|[]]; simpl; auto; destruct (_ =? j); simpl; congruence. Qed.
Lemma answers_app j a b : answers j (a ++ b) = answers j a ++ answers j b.
Proof. induction a as [|[]]; simpl; auto; destruct (_ =? j); simpl; congruence. Qed.
Lemma value_app a e : value_after (a ++ [e]) =
  match e with LRead _ _ => value_after a | LWrite j v => fwd j v | LOwn v => v end.
Proof. unfold value_after. rewrite fold_left_app. reflexivity. Qed.

Definition enc (o : op V) : list (msg V) := match o with Read => [MGet] | Write v => [MSet; MData v] end.
Definition opre (o : opc) (j : nat) : list (msg V) :=
  match o with OIdle => [] | OGet i => if i =? j then [MGet] else [] | OSet i => if i =? j then [MSet] else [] end.
Definition csuf (c : cpc V) : list (msg V) := match c with CData v => [MData v] | _ => [] end.

Definition nreads (l : list (op V)) : nat := length (filter (fun o => match o with Read => true | _ => false end) l).

Record InvR (s : rstate V) : Prop := {
  r_prog : forall j, issued s j ++ prog s j = ps j;
  r_pend : forall j, exists P, issued s j = served j (log s) ++ P /\
             opre (ow s) j ++ c2v s j ++ csuf (cl s j) = flat_map enc P;
  r_ans : forall j, exists raw, answers j (log s) = raw ++ v2c s j /\ got s j = map (bwd j) raw;
  r_wait : forall j, nreads (issued s j) = length (got s j) + match cl s j with CRead => 1 | _ => 0 end;
  r_var : var s = value_after (log s);
  r_log : forall a j v b, log s = a ++ LRead j v :: b -> v = value_after a;
  r_ow : match ow s with OIdle => True | OGet j | OSet j => j < K end;
  r_out : forall j, K <= j -> c2v s j = [] /\ cl s j = CIdle }.


Lemma opre_other o j i : match o with OIdle => True | OGet a | OSet a => a = i end -> i <> j -> opre o j = [].
Proof. destruct o; simpl; auto; intros -> N; destruct (Nat.eqb_spec i j); congruence. Qed.
Lemma nreads_app a b : nreads (a ++ b) = nreads a + nreads b.
Proof. unfold nreads. rewrite filter_app, app_length. auto. Qed.
Lemma flat_app (a : list (op V)) b : flat_map enc (a ++ b) = flat_map enc a ++ flat_map enc b.
Proof. apply flat_map_app. Qed.

Ltac fu j i := destruct (Nat.eq_dec j i) as [->|?]; [rewrite ?fupd_same in *|rewrite ?(fupd_other _ _ i j) in * by auto].

Lemma invR s : rreach V K fwd bwd ps v0 s -> InvR s.
Proof.
  induction 1 as [|s s' R I St].
  - split; simpl; auto.
    + intros j. exists []. auto.
    + intros j. exists []. auto.
    + intros a j v b E. destruct a; discriminate.
  - destruct St; destruct I as [I1 I2 I3 I4 I5 I6 I7 I8].
    + (* RRead *) split; simpl; auto.
      * intros i. specialize (I1 i). fu i j; auto. rewrite <- app_assoc. simpl. congruence.
      * intros i. destruct (I2 i) as (P & A & B). fu i j; eauto. exists (P ++ [Read]). rewrite A, app_assoc. split; auto.
        rewrite flat_app, <- B, H0. simpl. rewrite !app_nil_r. rewrite app_assoc. auto.
      * intros i. specialize (I4 i). fu i j; auto. rewrite nreads_app, I4, H0. simpl. unfold nreads. simpl. lia.
      * intros i Hi. fu i j; [lia|auto].
    + (* RReadEnd *) split; simpl; auto.
      * intros i. destruct (I2 i) as (P & A & B). exists P. split; auto. fu i j; auto. rewrite H0 in B. auto.
      * intros i. destruct (I3 i) as (raw & A & B). fu i j; eauto. exists (raw ++ [v]). rewrite A, H1, <- app_assoc. split; auto.
        rewrite map_app, B. auto.
      * intros i. specialize (I4 i). fu i j; auto. rewrite I4, H0, app_length. simpl. lia.
      * intros i Hi. fu i j; [lia|auto].
    + (* RWrite *) split; simpl; auto.
      * intros i. specialize (I1 i). fu i j; auto. rewrite <- app_assoc. simpl. congruence.
      * intros i. destruct (I2 i) as (P & A & B). fu i j; eauto. exists (P ++ [Write v]). rewrite A, app_assoc. split; auto.
        rewrite flat_app, <- B, H0. simpl. rewrite !app_nil_r. rewrite <- !app_assoc. auto.
      * intros i. specialize (I4 i). fu i j; auto. rewrite nreads_app, I4, H0. simpl. unfold nreads. simpl. lia.
      * intros i Hi. fu i j; [lia|auto].
    + (* RData *) split; simpl; auto.
      * intros i. destruct (I2 i) as (P & A & B). exists P. split; auto. fu i j; auto. rewrite H0 in B. simpl in *.
        rewrite app_nil_r. auto.
      * intros i. specialize (I4 i). fu i j; auto. rewrite I4, H0. auto.
      * intros i Hi. fu i j; [lia|auto].
    + (* OCmdGet *) split; simpl; auto.
      * intros i. destruct (I2 i) as (P & A & B). exists P. split; auto. rewrite H0 in B. simpl in B.
        fu i j; rewrite ?Nat.eqb_refl; auto. -- rewrite H1 in B. auto.
        -- destruct (Nat.eqb_spec j i); [congruence|]. auto.
      * intros i Hi. fu i j; [lia|auto].
    + (* OCmdSet *) split; simpl; auto.
      * intros i. destruct (I2 i) as (P & A & B). exists P. split; auto. rewrite H0 in B. simpl in B.
        fu i j; rewrite ?Nat.eqb_refl; auto. -- rewrite H1 in B. auto.
        -- destruct (Nat.eqb_spec j i); [congruence|]. auto.
      * intros i Hi. fu i j; [lia|auto].
    + (* OSend *) split; simpl; auto.
      * intros i. destruct (I2 i) as (P & A & B). rewrite H0 in B. rewrite served_app. simpl.
        destruct (Nat.eqb_spec j i) as [->|N].
        -- simpl in B. rewrite Nat.eqb_refl in B. destruct P as [|[|w] P]; try discriminate. simpl in B. injection B as B.
           exists P. rewrite A, <- app_assoc. auto.
        -- exists P. rewrite app_nil_r. split; auto. rewrite (opre_other (OGet j) i j) in B; simpl; auto.
      * intros i. destruct (I3 i) as (raw & A & B). rewrite answers_app. simpl. exists raw. fu i j.
        -- rewrite Nat.eqb_refl, A, <- app_assoc. auto.
        -- destruct (Nat.eqb_spec j i); [congruence|]. rewrite app_nil_r. auto.
      * rewrite value_app. auto.
      * intros a i v b E. destruct b as [|e b] using rev_ind.
        -- apply app_inj_tail in E as [<- E]. injection E as <- <-. auto.
        -- clear IHb. rewrite app_comm_cons, app_assoc in E. apply app_inj_tail in E as [E _]. eapply I6; eauto.
    + (* OStore *) split; simpl; auto.
      * intros i. destruct (I2 i) as (P & A & B). rewrite H0 in B. rewrite served_app. simpl.
        fu i j.
        -- simpl in B. rewrite Nat.eqb_refl in *. rewrite H1 in B. destruct P as [|[|w] P]; try discriminate. simpl in B.
           injection B as -> B. exists P. rewrite A, <- app_assoc. auto.
        -- destruct (Nat.eqb_spec j i); [congruence|]. exists P. rewrite app_nil_r. split; auto.
           rewrite (opre_other (OSet j) i j) in B; simpl; auto.
      * intros i. destruct (I3 i) as (raw & A & B). rewrite answers_app. simpl. exists raw. rewrite app_nil_r. auto.
      * rewrite value_app. auto.
      * intros a i w b E. destruct b as [|e b] using rev_ind.
        -- apply app_inj_tail in E as [_ E]. discriminate.
        -- clear IHb. rewrite app_comm_cons, app_assoc in E. apply app_inj_tail in E as [E _]. eapply I6; eauto.
      * intros i Hi. fu i j; [lia|auto].
    + (* OOwn *) rewrite H in *. split; simpl; auto.
      * intros i. destruct (I2 i) as (P & A & B). exists P. rewrite served_app. simpl. rewrite app_nil_r. auto.
      * intros i. destruct (I3 i) as (raw & A & B). rewrite answers_app. simpl. exists raw. rewrite app_nil_r. auto.
      * rewrite value_app. auto.
      * intros a i w b E. destruct b as [|e b] using rev_ind.
        -- apply app_inj_tail in E as [_ E]. discriminate.
        -- clear IHb. rewrite app_comm_cons, app_assoc in E. apply app_inj_tail in E as [E _]. eapply I6; eauto.
Qed.

(** C19a: the owner serves the requests of each RefPort in program order, each at most once, nothing
    else: what it has served is a prefix of what the program issued, which is a prefix of the
    program. *)
Theorem refport_program_order s j : rreach V K fwd bwd ps v0 s ->
  (exists rest, ps j = issued s j ++ rest) /\ (exists pending, issued s j = served j (log s) ++ pending).
Proof.
  intros R. pose proof (invR s R) as I. split.
  - exists (prog s j). symmetry. apply I.
  - destruct (r_pend s I j) as (P & A & _). eauto.
Qed.

(** C19b: the results of read() are, in order, the values the variable had when the request was
    served (through the transformation of the port). *)
Theorem refport_read_value s j : rreach V K fwd bwd ps v0 s ->
  (exists raw rest, answers j (log s) = raw ++ rest /\ got s j = map (bwd j) raw) /\
  (forall before v after, log s = before ++ LRead j v :: after -> v = value_after before).
Proof.
  intros R. pose proof (invR s R) as I. split.
  - destruct (r_ans s I j) as (raw & A & B). eauto.
  - intros. eapply (r_log s I); eauto.
Qed.

(** C19c: a read served after a write of the same RefPort, with no write by anybody else between,
    returns the written value. *)
Theorem refport_read_your_write s j v w a b c : rreach V K fwd bwd ps v0 s ->
  log s = a ++ LWrite j v :: b ++ LRead j w :: c ->
  (forall e, In e b -> exists i x, e = LRead i x) -> w = fwd j v.
Proof.
  intros R E Hb. pose proof (r_log s (invR s R) (a ++ LWrite j v :: b) j w c) as H.
  rewrite <- app_assoc in H. rewrite (H E). clear - Hb.
  induction b as [|e b IH] using rev_ind.
  - apply value_app.
  - rewrite app_comm_cons, app_assoc, value_app. destruct (Hb e) as (i & x & ->); [apply in_or_app; simpl; auto|].
    apply IH. intros e' He. apply Hb. apply in_or_app. auto.
Qed.

(** C19d: the owner never finds data where it expects a command ("Wrong Command Info Received"),
    and never a command where it expects data. *)
Theorem refport_commands_aligned s j : rreach V K fwd bwd ps v0 s ->
  (ow s = OIdle -> forall m q, c2v s j = m :: q -> m = MGet \/ m = MSet) /\
  (ow s = OSet j -> forall m q, c2v s j = m :: q -> exists v, m = MData v).
Proof.
  intros R. destruct (r_pend s (invR s R) j) as (P & A & B). split; intros O m q E; rewrite O, E in B; simpl in B.
  - destruct P as [|[|v] P]; simpl in B; try discriminate; injection B as -> _; auto.
  - rewrite Nat.eqb_refl in B. destruct P as [|[|v] P]; simpl in B; try discriminate. injection B as -> _. eauto.
Qed.

(** C19e: nothing gets stuck: if no step of any client and no service step is possible, then every
    client has finished its program, every request was served and every read got its answer. *)
Theorem refport_no_deadlock s : rreach V K fwd bwd ps v0 s ->
  (forall s', rstep V K fwd bwd s s' -> length (log s') = S (length (log s)) /\ exists v, log s' = log s ++ [LOwn v]) ->
  forall j, j < K -> prog s j = [] /\ issued s j = ps j /\ served j (log s) = ps j /\ length (got s j) = nreads (ps j).
Proof.
  intros R H j Hj. pose proof (invR s R) as I.
  assert (Ns : forall s', rstep V K fwd bwd s s' -> log s' = log s -> False).
  { intros s' St E. destruct (H s' St) as [L _]. rewrite E in L. lia. }
  assert (Ow : ow s = OIdle).
  { pose proof (r_ow s I) as O. destruct (ow s) as [|i|i] eqn:Eo; auto; exfalso.
    - destruct (H _ (OSend V K fwd bwd s i O Eo)) as [_ [v E]]. simpl in E. apply app_inv_head in E. discriminate.
    - destruct (r_pend s I i) as (P & A & B). rewrite Eo in B. simpl in B. rewrite Nat.eqb_refl in B.
      destruct P as [|[|v] P]; try discriminate. simpl in B. injection B as B.
      destruct (c2v s i) as [|m q] eqn:Ec; simpl in B.
      + destruct (cl s i) eqn:Ecl; try discriminate. eapply Ns; [eapply (RData V K fwd bwd s i); eauto|]. auto.
      + injection B as -> B. destruct (H _ (OStore V K fwd bwd s i v q O Eo Ec)) as [_ [u E]]. simpl in E.
        apply app_inv_head in E. discriminate. }
  destruct (r_pend s I j) as (P & A & B). rewrite Ow in B. simpl in B.
  assert (C : c2v s j = []).
  { destruct (c2v s j) as [|m q] eqn:Ec; auto. exfalso.
    destruct (proj1 (refport_commands_aligned s j R) Ow m q Ec) as [-> | ->].
    - eapply Ns; [eapply (OCmdGet V K fwd bwd s j); eauto|]. auto.
    - eapply Ns; [eapply (OCmdSet V K fwd bwd s j); eauto|]. auto. }
  rewrite C in B. simpl in B.
  destruct (cl s j) as [|v|] eqn:Ecl.
  - assert (P = []). { destruct P as [|[|v] P]; auto; discriminate. } subst P. rewrite app_nil_r in A.
    assert (Pj : prog s j = []).
    { destruct (prog s j) as [|[|v] r] eqn:Ep; auto; exfalso.
      - eapply Ns; [eapply (RRead V K fwd bwd s j); eauto|]. auto.
      - eapply Ns; [eapply (RWrite V K fwd bwd s j); eauto|]. auto. }
    pose proof (r_prog s I j) as Q. rewrite Pj, app_nil_r in Q. pose proof (r_wait s I j) as W. rewrite Ecl in W.
    repeat split; auto; try congruence. rewrite <- Q. lia.
  - exfalso. eapply Ns; [eapply (RData V K fwd bwd s j); eauto|]. auto.
  - exfalso. assert (P = []). { destruct P as [|[|v] P]; auto; discriminate. } subst P. rewrite app_nil_r in A.
    destruct (r_ans s I j) as (raw & A1 & A2). pose proof (r_wait s I j) as W. rewrite Ecl in W.
    assert (L : length (answers j (log s)) = nreads (served j (log s))).
    { clear. induction (log s) as [|[] l IH]; simpl; auto; destruct (_ =? j); unfold nreads in *; simpl; auto. }
    rewrite <- A, W, A1, app_length in L. rewrite A2, map_length in L.
    destruct (v2c s j) as [|x q] eqn:Ev; simpl in L; [lia|].
    eapply Ns; [eapply (RReadEnd V K fwd bwd s j); eauto|]. auto.
Qed.
End RefProps.

(** Witness: two RefPorts on one variable; RefPort 0 (through a transformation undone on the way
    back) writes 5 and reads it back, RefPort 1 reads the transformed value. *)
Example refport_witness : exists s,
  rreach Z 2 (fun j v => if j =? 0 then Z.opp v else v) (fun j v => if j =? 0 then Z.opp v else v)
    (fun j => if j =? 0 then [Write 5%Z; Read] else if j =? 1 then [Read] else []) 7%Z s /\
  got s 0 = [5%Z] /\ got s 1 = [(-5)%Z] /\ prog s 0 = [] /\ prog s 1 = [].
Proof.
  pose (F := fun (j : nat) (v : Z) => if j =? 0 then Z.opp v else v). pose (B := F).
  pose proof (RR0 Z 2 F B (fun j => if j =? 0 then [Write 5%Z; Read] else if j =? 1 then [Read] else []) 7%Z) as H0.
  eapply RRS in H0; [|eapply (RWrite Z 2 F B _ 0 _ _); first [reflexivity|auto]]. cbn [prog issued cl c2v v2c got ow var log] in H0.
  eapply RRS in H0; [|eapply (OCmdSet Z 2 F B _ 0 _); first [reflexivity|auto]]. cbn [prog issued cl c2v v2c got ow var log] in H0.
  eapply RRS in H0; [|eapply (RData Z 2 F B _ 0 _); first [reflexivity|auto]]. cbn [prog issued cl c2v v2c got ow var log] in H0.
  eapply RRS in H0; [|eapply (RRead Z 2 F B _ 1 _); first [reflexivity|auto]]. cbn [prog issued cl c2v v2c got ow var log] in H0.
  eapply RRS in H0; [|eapply (RRead Z 2 F B _ 0 _); first [reflexivity|auto]]. cbn [prog issued cl c2v v2c got ow var log] in H0.
  eapply RRS in H0; [|eapply (OStore Z 2 F B _ 0 _ _); first [reflexivity|auto]]. cbn [prog issued cl c2v v2c got ow var log] in H0.
  eapply RRS in H0; [|eapply (OCmdGet Z 2 F B _ 1 _); first [reflexivity|auto]]. cbn [prog issued cl c2v v2c got ow var log] in H0.
  eapply RRS in H0; [|eapply (OSend Z 2 F B _ 1); first [reflexivity|auto]]. cbn [prog issued cl c2v v2c got ow var log] in H0.
  eapply RRS in H0; [|eapply (RReadEnd Z 2 F B _ 1 _ _); first [reflexivity|auto]]. cbn [prog issued cl c2v v2c got ow var log] in H0.
  eapply RRS in H0; [|eapply (OCmdGet Z 2 F B _ 0 _); first [reflexivity|auto]]. cbn [prog issued cl c2v v2c got ow var log] in H0.
  eapply RRS in H0; [|eapply (OSend Z 2 F B _ 0); first [reflexivity|auto]]. cbn [prog issued cl c2v v2c got ow var log] in H0.
  eapply RRS in H0; [|eapply (RReadEnd Z 2 F B _ 0 _ _); first [reflexivity|auto]]. cbn [prog issued cl c2v v2c got ow var log] in H0.
  eexists. split; [exact H0|].
  repeat split; reflexivity.
Qed.
