(** Shared vocabulary of the model: outcomes of C calls. *)
From Coq Require Import List ZArith Lia Bool Arith.
Import ListNotations.

(** Outcome of a call into the library.
    [Ok v]  : the call returned normally with value/effect [v];
    [Fail]  : the process stopped in a failed [assert] or in [exit(1)];
    [UB]    : undefined behaviour (out-of-bounds access, use of an unset index...);
    [Fuel]  : artefact of the model: the bound given to a loop was too small
              (theorems show it is never returned). *)
Inductive res (A : Type) : Type :=
| Ok (a : A)
| Fail
| UB
| Fuel.
Arguments Ok {A} a.
Arguments Fail {A}.
Arguments UB {A}.
Arguments Fuel {A}.

Definition bind {A B} (x : res A) (f : A -> res B) : res B :=
  match x with
  | Ok a => f a
  | Fail => Fail
  | UB => UB
  | Fuel => Fuel
  end.

Declare Scope res_scope.
Notation "'do' x <- e ; f" := (bind e (fun x => f))
  (at level 200, x pattern, e at level 100, f at level 200) : res_scope.
Notation "'assert' b ; f" := (if b then f else Fail)
  (at level 200, b at level 100, f at level 200) : res_scope.

Lemma bind_ok : forall A B (x : res A) (f : A -> res B) b,
  bind x f = Ok b <-> exists a, x = Ok a /\ f a = Ok b.
Proof.
  intros A B x f b; destruct x; simpl; split; intro H;
    try discriminate; try (destruct H as [a' [H1 H2]]; congruence).
  exists a; auto.
Qed.

(** Generic iteration of a state transformer. *)
Fixpoint iter {A} (n : nat) (f : A -> A) (x : A) : A :=
  match n with
  | O => x
  | S n' => f (iter n' f x)
  end.

Lemma iter_succ_r : forall A n (f : A -> A) x, iter (S n) f x = iter n f (f x).
Proof.
  induction n; intros; simpl in *; auto. rewrite <- IHn. reflexivity.
Qed.

Lemma iter_add : forall A n m (f : A -> A) x, iter (n + m) f x = iter n f (iter m f x).
Proof. induction n; intros; simpl; auto. rewrite IHn; auto. Qed.

(** Replace the [i]-th element of a list (a buffer write [b[i] = v]);
    out-of-range writes leave the list alone, so models check the bound first. *)
Fixpoint upd {A} (i : nat) (v : A) (l : list A) : list A :=
  match l, i with
  | [], _ => []
  | _ :: l', O => v :: l'
  | x :: l', S i' => x :: upd i' v l'
  end.

Lemma upd_length : forall A (l : list A) i v, length (upd i v l) = length l.
Proof. induction l; destruct i; simpl; intros; auto. Qed.

Lemma nth_error_upd : forall A (l : list A) i j v,
  nth_error (upd i v l) j =
  if Nat.eqb i j then (if i <? length l then Some v else None) else nth_error l j.
Proof.
  induction l; intros i j v.
  - destruct i; destruct j; simpl; auto; destruct (Nat.eqb i j); auto.
  - destruct i; destruct j; simpl; auto.
    rewrite IHl. change (S i <? S (length l)) with (i <? length l). reflexivity.
Qed.

Lemma nth_upd_eq : forall A (l : list A) i v d, i < length l -> nth i (upd i v l) d = v.
Proof. induction l; destruct i; simpl; intros; auto; try lia. apply IHl; lia. Qed.

Lemma nth_upd_neq : forall A (l : list A) i j v d, i <> j -> nth j (upd i v l) d = nth j l d.
Proof. induction l; destruct i, j; simpl; intros; auto; try congruence. Qed.
