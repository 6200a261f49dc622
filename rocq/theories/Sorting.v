(** Stable insertion sort, used to model qsort (which of several equal elements comes first
    is not specified by C; glibc's qsort is stable). *)
From Coq Require Import List Bool Arith Lia Permutation Sorted.
Import ListNotations.

Section Sort.
Context {A : Type} (le : A -> A -> bool).

Fixpoint sinsert (x : A) (l : list A) : list A :=
  match l with
  | [] => [x]
  | y :: l' => if le x y then x :: l else y :: sinsert x l'
  end.
Fixpoint isort (l : list A) : list A :=
  match l with [] => [] | x :: l' => sinsert x (isort l') end.

Lemma sinsert_perm : forall x l, Permutation (sinsert x l) (x :: l).
Proof.
  induction l as [|y l IH]; cbn [sinsert]; auto. destruct (le x y); auto.
  etransitivity; [apply perm_skip, IH|apply perm_swap].
Qed.
Lemma isort_perm : forall l, Permutation (isort l) l.
Proof.
  induction l as [|x l IH]; cbn [isort]; auto. etransitivity; [apply sinsert_perm|]. auto.
Qed.
Lemma isort_length : forall l, length (isort l) = length l.
Proof. intros. apply Permutation_length, isort_perm. Qed.

Definition lep (x y : A) : Prop := le x y = true.

Section Total.
Hypothesis total : forall x y, le x y = false -> le y x = true.
Hypothesis trans : forall x y z, le x y = true -> le y z = true -> le x z = true.

Lemma sinsert_sorted : forall x l, StronglySorted lep l -> StronglySorted lep (sinsert x l).
Proof.
  intros x l S. induction S as [|y l S IH F]; cbn [sinsert]; [repeat constructor|].
  destruct (le x y) eqn:E.
  - constructor; [constructor; auto|]. constructor; auto.
    eapply Forall_impl; [|exact F]. intros z Hz. unfold lep in *. eauto.
  - constructor; auto. apply Forall_forall. intros z Hz.
    apply (Permutation_in _ (sinsert_perm x l)) in Hz. destruct Hz as [->|Hz].
    + unfold lep. auto.
    + rewrite Forall_forall in F. auto.
Qed.
Lemma isort_sorted : forall l, StronglySorted lep (isort l).
Proof. induction l; cbn [isort]; [constructor|]. apply sinsert_sorted; auto. Qed.

(** sorting a sorted list does nothing *)
Lemma isort_id : forall l, StronglySorted lep l -> isort l = l.
Proof.
  intros l S. induction S as [|y l S IH F]; cbn [isort]; auto. rewrite IH.
  destruct l as [|z l]; cbn [sinsert]; auto. inversion F; subst. unfold lep in H1. rewrite H1. auto.
Qed.

(** a sorted list is determined by its elements when the order is antisymmetric *)
Hypothesis antisym : forall x y, le x y = true -> le y x = true -> x = y.
Lemma sorted_unique : forall l l', StronglySorted lep l -> StronglySorted lep l' -> Permutation l l' -> l = l'.
Proof.
  induction l as [|x l IH]; intros l' S S' P.
  - apply Permutation_nil in P. auto.
  - destruct l' as [|y l']; [apply Permutation_sym, Permutation_nil in P; discriminate|].
    inversion S as [|? ? S1 F1]; subst. inversion S' as [|? ? S2 F2]; subst.
    assert (E : x = y).
    { assert (I1 : In x (y :: l')) by (eapply Permutation_in; [exact P|cbn; auto]).
      assert (I2 : In y (x :: l)) by (eapply Permutation_in; [symmetry; exact P|cbn; auto]).
      destruct I1 as [->|I1]; auto. destruct I2 as [->|I2]; auto.
      rewrite Forall_forall in F1, F2. apply antisym; [apply F1|apply F2]; auto. }
    subst y. f_equal. apply IH; auto. apply Permutation_cons_inv in P. auto.
Qed.
End Total.
End Sort.
