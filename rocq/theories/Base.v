(** Shared definitions: function update and the inevitability modality. *)
From Coq Require Import Arith List Lia.
Import ListNotations.

Definition fupd {A} (f : nat -> A) (i : nat) (x : A) : nat -> A :=
  fun j => if j =? i then x else f j.

Lemma fupd_same A (f : nat -> A) i x : fupd f i x i = x.
Proof. unfold fupd. rewrite Nat.eqb_refl. auto. Qed.
Lemma fupd_other A (f : nat -> A) i j x : j <> i -> fupd f i x j = f j.
Proof. unfold fupd. intro. destruct (Nat.eqb_spec j i); congruence. Qed.

(** [inevitable next P s]: every maximal sequence of [next] steps from [s] is
    finite up to the point where it meets [P]. *)
Inductive inevitable {St : Type} (next : St -> St -> Prop) (P : St -> Prop) : St -> Prop :=
| inev_now s : P s -> inevitable next P s
| inev_later s : (exists s', next s s') ->
                 (forall s', next s s' -> inevitable next P s') ->
                 inevitable next P s.

Lemma inev_by_measure {St : Type} (next : St -> St -> Prop) (P Phi : St -> Prop) (m : St -> nat) :
  (forall s, P s \/ ~ P s) ->
  (forall s s', Phi s -> ~ P s -> next s s' -> P s' \/ (Phi s' /\ m s' < m s)) ->
  (forall s, Phi s -> ~ P s -> exists s', next s s') ->
  forall s, Phi s -> inevitable next P s.
Proof.
  intros Hd Hp Hs. assert (forall n s, m s < n -> Phi s -> inevitable next P s) as G.
  { induction n; intros s Hm Hphi; [lia|].
    destruct (Hd s) as [HP|HP]; [apply inev_now; auto|].
    apply inev_later; [apply Hs; auto|].
    intros s' Hi. destruct (Hp _ _ Hphi HP Hi) as [|[? ?]]; [apply inev_now; auto|].
    apply IHn; auto. lia. }
  intros s Hphi. apply (G (S (m s))); auto.
Qed.
