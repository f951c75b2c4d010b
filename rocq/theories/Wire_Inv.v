(** Lemmas for C99 *)
From Coq Require Import List Arith ZArith Bool String Lia.
From Verif Require Import VPorts_Model Connect_Model Connect_Props Connect_Props2 Connect_Typed Network_Model Network_Props Wire_Model Wire_Spec.
Import ListNotations.
Open Scope nat_scope.
Open Scope list_scope.

(** ** Paths *)
Lemma path_app g a l b m c : path g a l b -> path g b m c -> path g a (l ++ m) c.
Proof. induction 1; intro; [assumption|]. cbn [app]. econstructor; eauto. Qed.
Lemma path_snoc g a l b c : path g a l b -> In c (outs_of g b) -> path g a (l ++ [c]) c.
Proof. intros P H. eapply path_app; [exact P|]. econstructor; [exact H|constructor]. Qed.
Lemma path_last g a l c : path g a l c -> (l = [] /\ a = c) \/ exists l' b, l = l' ++ [c] /\ path g a l' b /\ In c (outs_of g b).
Proof.
  induction 1 as [a|a b l c H P IH]; [left; auto|]. right. destruct IH as [[-> ->]|(l' & b' & -> & P' & H')].
  - exists [], a. split; [reflexivity|]. split; [constructor|exact H].
  - exists (b :: l'), b'. split; [reflexivity|]. split; [econstructor; eauto|exact H'].
Qed.
Lemma path_leads g a l c : path g a l c -> leads_to g a c.
Proof. induction 1; [constructor|]. econstructor; eauto. Qed.
Lemma leads_path g a c : leads_to g a c -> exists l, path g a l c.
Proof. induction 1 as [a|a b c H _ [l P]]; [exists []; constructor|]. exists (b :: l). econstructor; eauto. Qed.

(** ** Virtual ports *)
Definition vports_of (vp : nat -> option vport) (l : list nat) : list vport :=
  flat_map (fun b => match vp b with Some v => [v] | None => [] end) l.
Lemma vports_app vp l m : vports_of vp (l ++ m) = vports_of vp l ++ vports_of vp m.
Proof. unfold vports_of. apply flat_map_app. Qed.
Lemma run_funcs_none fs : fold_left (fun (acc : option nd) f => match acc with Some x => f x | None => None end) fs None = None.
Proof. induction fs; simpl; auto. Qed.

(** ** Dictionaries *)
Lemma key_eqb_eq a b : key_eqb a b = true <-> a = b.
Proof.
  unfold key_eqb. destruct a as [i m], b as [j n]. cbn. rewrite andb_true_iff, Z.eqb_eq, String.eqb_eq. split; [intros [-> ->]; auto|].
  intro H. injection H as -> ->. auto.
Qed.
Lemma key_eqb_refl a : key_eqb a a = true.
Proof. apply key_eqb_eq. reflexivity. Qed.
Lemma kget_kset {A} k j (x : A) l : kget k (kset j x l) = if key_eqb k j then Some x else kget k l.
Proof.
  induction l as [|[i y] r IH]; cbn [kset kget]; [destruct (key_eqb k j); reflexivity|].
  destruct (key_eqb j i) eqn:E; cbn [kget].
  - apply key_eqb_eq in E. subst i. destruct (key_eqb k j); reflexivity.
  - rewrite IH. destruct (key_eqb k i) eqn:E1; [|reflexivity]. apply key_eqb_eq in E1. subst i.
    destruct (key_eqb k j) eqn:E2; [|reflexivity]. apply key_eqb_eq in E2. subst j. rewrite key_eqb_refl in E. discriminate.
Qed.
Lemma kset_new {A} k (x : A) l : ~ In k (map fst l) -> kset k x l = l ++ [(k, x)].
Proof.
  induction l as [|[i y] r IH]; intro H; cbn [kset app]; [reflexivity|]. destruct (key_eqb k i) eqn:E.
  - apply key_eqb_eq in E. subst. exfalso. apply H. left. reflexivity.
  - rewrite IH; [reflexivity|]. intro. apply H. right. assumption.
Qed.
Lemma assoc_in {A} k (l : list (nat * A)) x : assoc k l = Some x -> In (k, x) l.
Proof.
  induction l as [|[j y] r IH]; cbn [assoc]; [discriminate|]. destruct (Nat.eqb_spec k j) as [-> |]; [intro H; injection H as <-; left; auto|right; auto].
Qed.
Lemma assoc_some {A} k (l : list (nat * A)) x : In (k, x) l -> (forall y, In (k, y) l -> y = x) -> assoc k l = Some x.
Proof.
  induction l as [|[j y] r IH]; cbn [assoc]; [intros []|]. intros [H|H] U.
  - injection H as -> ->. rewrite Nat.eqb_refl. reflexivity.
  - destruct (Nat.eqb_spec k j) as [-> |N]; [rewrite (U y); [reflexivity|left; reflexivity]|]. apply IH; [exact H|]. intros z Hz. apply U. right. exact Hz.
Qed.

(** the dictionary of functions: the entry of a key, if all lists given for that key are the same *)
Lemma funcs_get (rs : list (key * list vport)) k vs : vs <> [] -> In (k, vs) rs ->
  (forall ws, In (k, ws) rs -> ws <> [] -> ws = vs) ->
  kget k (fold_left (fun d r => match snd r with [] => d | ws => kset (fst r) ws d end) rs []) = Some vs.
Proof.
  intros Hv HI HU.
  assert (forall (rs : list (key * list vport)) d, (forall ws, In (k, ws) rs -> ws <> [] -> ws = vs) -> (In (k, vs) rs \/ kget k d = Some vs) ->
            kget k (fold_left (fun d r => match snd r with [] => d | ws => kset (fst r) ws d end) rs d) = Some vs) as G.
  { clear HI HU rs. induction rs as [|[j ws] rs IH]; intros d U D; cbn [fold_left fst snd].
    - destruct D as [[]|D]; exact D.
    - apply IH; [intros; apply U; [right; assumption|assumption]|]. destruct D as [[D|D]|D].
      + injection D as -> ->. right. destruct vs as [|v r]; [congruence|]. rewrite kget_kset, key_eqb_refl. reflexivity.
      + left. exact D.
      + right. destruct ws as [|w r]; [exact D|]. rewrite kget_kset. destruct (key_eqb k j) eqn:E; [|exact D].
        apply key_eqb_eq in E. subst j. f_equal. apply U; [left; reflexivity|discriminate]. }
  apply G; auto.
Qed.
Lemma funcs_none (rs : list (key * list vport)) k : (forall ws, In (k, ws) rs -> ws = []) ->
  kget k (fold_left (fun d r => match snd r with [] => d | ws => kset (fst r) ws d end) rs []) = None.
Proof.
  intro HU. assert (forall (rs : list (key * list vport)) d, (forall ws, In (k, ws) rs -> ws = []) -> kget k d = None ->
            kget k (fold_left (fun d r => match snd r with [] => d | ws => kset (fst r) ws d end) rs d) = None) as G.
  { clear HU rs. induction rs as [|[j ws] rs IH]; intros d U D; cbn [fold_left fst snd]; [exact D|].
    apply IH; [intros; apply U; right; assumption|]. destruct ws as [|w r]; [exact D|]. rewrite kget_kset. destruct (key_eqb k j) eqn:E; [|exact D].
    apply key_eqb_eq in E. subst j. specialize (U (w :: r) (or_introl eq_refl)). discriminate. }
  apply G; auto.
Qed.
Lemma map_opt_forall2 {A B} (f : A -> option B) l r : map_opt f l = Some r -> Forall2 (fun x y => f x = Some y) l r.
Proof.
  revert r. induction l as [|x l IH]; cbn [map_opt]; intros r H; [injection H as <-; constructor|].
  destruct (f x) as [y|] eqn:E; [|discriminate]. destruct (map_opt f l) as [ys|]; [|discriminate]. injection H as <-. constructor; auto.
Qed.

(** ** The classes of ports never change *)
Definition grows (g g' : graph) : Prop := List.length g <= List.length g' /\ forall x, x < List.length g -> attrs g' x = attrs g x.
Lemma grows_keeps g g' : keeps g g' -> grows g g'.
Proof. intros [L A]. split; [lia|]. intros x _. apply A. Qed.
Lemma grows_refl g : grows g g.
Proof. split; auto. Qed.
Lemma grows_trans g h k : grows g h -> grows h k -> grows g k.
Proof. intros [A B] [C D]. split; [lia|]. intros x Hx. rewrite D by lia. auto. Qed.
Lemma grows_app g p : grows g (g ++ [p]).
Proof. split; [rewrite app_length; lia|]. intros x Hx. rewrite attrs_app. destruct (Nat.eqb_spec x (List.length g)); [lia|reflexivity]. Qed.
Lemma do_connect_grows lim g self a cf : grows g (fst (do_connect lim g self a cf)).
Proof.
  unfold do_connect. destruct (nth_error g self) as [sp|]; [|apply grows_refl].
  destruct (cls sp); repeat (match goal with |- context [match ?x with _ => _ end] => destruct x end);
    try apply grows_refl; apply grows_keeps, connect_forward_adds.
Qed.
Lemma do_connect_from_grows lim g self a cf : grows g (fst (do_connect_from lim g self a cf)).
Proof.
  unfold do_connect_from. destruct (nth_error g self) as [sp|]; [|apply grows_refl].
  destruct (cls sp); repeat (match goal with |- context [match ?x with _ => _ end] => destruct x end);
    try apply grows_refl; apply grows_keeps, connect_backward_adds.
Qed.
Lemma implicit_grows vs : forall sh g acc, grows g (fst (implicit_ports vs sh g acc)).
Proof.
  induction vs as [|v r IH]; intros sh g acc; cbn [implicit_ports]; [apply grows_refl|].
  destruct (list_eqb _ _); [|apply grows_refl]. destruct (v_shareable v); [|apply grows_refl].
  eapply grows_trans; [apply grows_app|apply IH].
Qed.
Lemma do_call_grows lim g c : grows g (fst (do_call lim g c)).
Proof.
  destruct c as [c sh pr|self a cf|self a cf|self o|self l ax|self vs cf]; cbn [do_call].
  - apply grows_app.
  - apply do_connect_grows.
  - apply do_connect_from_grows.
  - unfold do_derive. destruct (nth_error g self) as [sp|]; [|apply grows_refl]. destruct (derive1 _ _) as [v|]; [|apply grows_refl].
    eapply grows_trans; [apply grows_app|apply grows_keeps, connect_forward_adds].
  - unfold do_concat. destruct (nth_error g self) as [sp|]; [|apply grows_refl]. destruct (validate _ _ _ _ _ _); [apply grows_refl|].
    destruct (concat_shape _ _); try apply grows_refl. eapply grows_trans; [apply grows_app|apply grows_keeps, connect_backward_adds].
  - unfold do_connect_var. destruct (nth_error g self) as [sp|]; [|apply grows_refl].
    repeat (match goal with |- grows _ (fst (if ?b then _ else _)) => destruct b; [apply grows_refl|] end).
    destruct (dst_ports lim g false self) as [[|? ?]|]; destruct (src_ports lim g false self) as [[|? ?]|]; try apply grows_refl.
    destruct (existsb _ _); [apply grows_refl|]. destruct vs as [|v0 r]; [apply grows_refl|].
    pose proof (implicit_grows (v0 :: r) (v_shape v0) g []) as G. destruct (implicit_ports _ _ _ _) as [g' [ps [e|]]]; [exact G|].
    eapply grows_trans; [exact G|apply do_connect_grows].
Qed.
Definition recorded (g : graph) (vs : list (nat * vport)) : Prop := forall a v, In (a, v) vs ->
  exists pa, nth_error g a = Some pa /\ (cls pa = match v with ReshapeP _ _ => ReshapePort | TransposeP _ _ => TransposePort end) /\ pshape pa = vshape v.
Lemma attrs_inv g a c sh : attrs g a = Some (c, sh) -> exists pa, nth_error g a = Some pa /\ cls pa = c /\ pshape pa = sh.
Proof. unfold attrs. destruct (nth_error g a) as [pa|]; [|discriminate]. intro H. injection H as <- <-. eauto. Qed.
Lemma remember_run lim calls : forall g vs, recorded g vs ->
  let st := fold_left (remember lim) calls (g, vs) in fst st = fold_left (fun g c => fst (do_call lim g c)) calls g /\ recorded (fst st) (snd st).
Proof.
  induction calls as [|c r IH]; intros g vs R; cbn [fold_left]; [split; auto|].
  set (vs' := snd (remember lim (g, vs) c)). change (remember lim (g, vs) c) with (fst (do_call lim g c), vs').
  apply IH. intros a v H. destruct (do_call_grows lim g c) as [GL GA].
  assert (In (a, v) vs \/ exists self sp o, c = CDerive self o /\ a = List.length g /\ nth_error g self = Some sp /\ derive1 (pshape sp) o = Some v) as [O|O].
  { unfold vs', remember in H. cbn [snd] in H. destruct c as [| | |self o| |]; auto. destruct (nth_error g self) as [sp|] eqn:E; auto.
    destruct (derive1 (pshape sp) o) as [w|] eqn:E2; auto. destruct H as [H|H]; auto. injection H as <- <-. right. exists self, sp, o. auto. }
  - destruct (R _ _ O) as (pa & A & B & C). apply attrs_inv. rewrite GA by (apply nth_error_Some; congruence). unfold attrs. rewrite A. congruence.
  - destruct O as (self & sp & o & -> & -> & E & E2). apply attrs_inv. cbn [do_call]. unfold do_derive. rewrite E, E2. cbv zeta.
    destruct (connect_forward_adds (g ++ [new_port (match v with ReshapeP _ _ => ReshapePort | TransposeP _ _ => TransposePort end) (vshape v) None])
      self [List.length g] TAbstractPort [None] false true) as [[_ K] _]. rewrite K, attrs_app, Nat.eqb_refl. destruct v; reflexivity.
Qed.
Lemma user_vports_class lim calls a v pa : user_vports lim calls a = Some v -> nth_error (run_calls lim calls) a = Some pa -> is_virtual (cls pa) = true.
Proof.
  unfold user_vports, derived. intros H E. destruct (remember_run lim calls [] []) as [A B]; [intros ? ? []|]. cbv zeta in A, B.
  destruct (B _ _ (assoc_in _ _ _ H)) as (p & P & C & _). rewrite A in P. unfold run_calls in E. rewrite E in P. injection P as <-. rewrite C. destruct v; reflexivity.
Qed.
