(** General facts about lists. *)
From Coq Require Import List Lia Bool Arith Permutation.
Import ListNotations.
Open Scope nat_scope.

Lemma nth_error_ext : forall A (l m : list A), (forall i, nth_error l i = nth_error m i) -> l = m.
Proof.
  induction l as [|x l IH]; intros [|y m] H; auto.
  - specialize (H 0). discriminate.
  - specialize (H 0). discriminate.
  - f_equal; [specialize (H 0); cbn in H; congruence|]. apply IH. intros i. apply (H (S i)).
Qed.
Lemma nth_error_firstn : forall A n (l : list A) i,
  nth_error (firstn n l) i = if i <? n then nth_error l i else None.
Proof.
  induction n as [|n IH]; intros l i.
  - cbn. destruct i; auto.
  - destruct l as [|x l].
    + cbn [firstn]. destruct (i <? S n); destruct i; auto.
    + destruct i as [|i]; cbn [firstn nth_error]; auto.
      rewrite IH. reflexivity.
Qed.
Lemma nth_error_skipn : forall A n (l : list A) i, nth_error (skipn n l) i = nth_error l (n + i).
Proof.
  induction n as [|n IH]; intros l i; auto. destruct l as [|x l]; cbn; auto. destruct i; auto.
Qed.
Lemma in_firstn : forall A n (l : list A) x, In x (firstn n l) -> In x l.
Proof. intros A n l x H. rewrite <- (firstn_skipn n l). apply in_app_iff. auto. Qed.
Lemma in_skipn : forall A n (l : list A) x, In x (skipn n l) -> In x l.
Proof. intros A n l x H. rewrite <- (firstn_skipn n l). apply in_app_iff. auto. Qed.
