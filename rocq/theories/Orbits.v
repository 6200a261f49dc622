(** Cycles of an injective map on a finite set. *)
From Coq Require Import List Lia Bool Arith Permutation.
From Verif Require Import Base.
Import ListNotations.
Open Scope nat_scope.

Section Orbits.
Context {A : Type} (f : A -> A) (D : list A).
Hypothesis dec : forall x y : A, {x = y} + {x <> y}.
Hypothesis closed : forall x, In x D -> In (f x) D.
Hypothesis inj : forall x y, In x D -> In y D -> f x = f y -> x = y.

Lemma iter_in : forall n x, In x D -> In (iter n f x) D.
Proof. induction n; cbn; auto. Qed.
Lemma iter_inj : forall n x y, In x D -> In y D -> iter n f x = iter n f y -> x = y.
Proof.
  induction n; cbn; auto. intros x y Hx Hy H. apply inj in H; auto using iter_in.
Qed.

(** the first k points of the orbit of x *)
Definition cyc (k : nat) (x : A) : list A := map (fun i => iter i f x) (seq 0 k).
Lemma cyc_length : forall k x, length (cyc k x) = k.
Proof. intros. unfold cyc. rewrite map_length, seq_length. auto. Qed.
Lemma cyc_nth : forall k x i, i < k -> nth_error (cyc k x) i = Some (iter i f x).
Proof.
  intros k x i H. unfold cyc. rewrite nth_error_map. rewrite nth_error_nth' with (d := 0) by (rewrite seq_length; auto).
  rewrite seq_nth by auto. reflexivity.
Qed.
Lemma cyc_succ : forall k x, cyc (S k) x = cyc k x ++ [iter k f x].
Proof. intros. unfold cyc. rewrite seq_S, map_app. reflexivity. Qed.
Lemma cyc_cons : forall k x, cyc (S k) x = x :: cyc k (f x).
Proof.
  intros. unfold cyc. cbn [seq map]. f_equal. rewrite <- seq_shift, map_map.
  apply map_ext. intros i. apply iter_succ_r.
Qed.
Lemma in_cyc : forall k x y, In y (cyc k x) <-> exists i, i < k /\ y = iter i f x.
Proof.
  intros. unfold cyc. rewrite in_map_iff. split.
  - intros (i & H1 & H2). apply in_seq in H2. exists i. split; [lia|auto].
  - intros (i & H1 & H2). exists i. split; auto. apply in_seq. lia.
Qed.

(** minimal period *)
Definition period (k : nat) (x : A) : Prop := 0 < k /\ iter k f x = x /\ NoDup (cyc k x).

Lemma period_dichotomy : forall x, In x D -> forall n,
  (exists k, k <= n /\ period k x) \/ NoDup (cyc (S n) x).
Proof.
  intros x Hx. induction n as [|n IH].
  - right. cbn. repeat constructor. auto.
  - destruct IH as [(k & H1 & H2)|N]; [left; exists k; split; [lia|auto]|].
    destruct (in_dec dec (iter (S n) f x) (cyc (S n) x)) as [I|I].
    + left. apply in_cyc in I as (i & Hi & E). exists (S n). split; [lia|].
      split; [lia|]. split; auto. destruct i as [|i]; auto. exfalso.
      assert (E2 : iter (S n - S i) f x = x).
      { apply (iter_inj (S i)); auto using iter_in. rewrite <- iter_add.
        replace (S i + (S n - S i)) with (S n) by lia. auto. }
      assert (NN : nth_error (cyc (S n) x) (S n - S i) = nth_error (cyc (S n) x) 0).
      { rewrite !cyc_nth by lia. rewrite E2. reflexivity. }
      rewrite NoDup_nth_error in N. apply N in NN; [lia|]. rewrite cyc_length. lia.
    + right. rewrite cyc_succ. apply (Permutation_NoDup (Permutation_cons_append _ _)). constructor; auto.
Qed.
Lemma period_exists : forall x, In x D -> exists k, k <= length D /\ period k x.
Proof.
  intros x Hx. destruct (period_dichotomy x Hx (length D)) as [H|N]; auto.
  exfalso. apply (NoDup_incl_length) with (l' := D) in N.
  - rewrite cyc_length in N. lia.
  - intros y Hy. apply in_cyc in Hy as (i & _ & ->). apply iter_in; auto.
Qed.
Lemma period_unique : forall x k k', period k x -> period k' x -> k = k'.
Proof.
  assert (W : forall x k k', period k x -> period k' x -> k <= k').
  { intros x k k' (P1 & P2 & P3) (Q1 & Q2 & Q3). destruct (le_lt_dec k k'); auto. exfalso.
    assert (NN : nth_error (cyc k x) k' = nth_error (cyc k x) 0).
    { rewrite !cyc_nth by lia. rewrite Q2. reflexivity. }
    rewrite NoDup_nth_error in P3. apply P3 in NN; [lia|]. rewrite cyc_length. lia. }
  intros. apply Nat.le_antisymm; eapply W; eauto.
Qed.

(** going round *)
Lemma iter_period : forall k x m, iter k f x = x -> iter (m * k) f x = x.
Proof.
  intros k x m H. induction m; cbn [Nat.mul]; auto. rewrite iter_add, IHm. auto.
Qed.
Lemma iter_mod : forall k x i, 0 < k -> iter k f x = x -> iter (i mod k) f x = iter i f x.
Proof.
  intros k x i Hk H. rewrite (Nat.div_mod i k) at 2 by lia.
  rewrite Nat.add_comm, iter_add. rewrite Nat.mul_comm, iter_period; auto.
Qed.
Lemma cyc_cyclic : forall k x i y, period k x -> nth_error (cyc k x) i = Some y ->
  nth_error (cyc k x) ((i + 1) mod k) = Some (f y).
Proof.
  intros k x i y (H1 & H2 & _) H. assert (Hi : i < k).
  { rewrite <- (cyc_length k x). apply nth_error_Some. congruence. }
  rewrite cyc_nth in H by auto. inversion H; subst.
  rewrite cyc_nth by (apply Nat.mod_upper_bound; lia). f_equal.
  rewrite iter_mod by auto. rewrite Nat.add_1_r. reflexivity.
Qed.
Lemma cyc_closed : forall k x y, period k x -> In y (cyc k x) -> In (f y) (cyc k x).
Proof.
  intros k x y P H. apply In_nth_error in H as (i & Hi). eapply nth_error_In, cyc_cyclic; eauto.
Qed.
Lemma closed_iter : forall (S : list A) n x, (forall y, In y S -> In (f y) S) -> In x S -> In (iter n f x) S.
Proof. induction n; cbn; auto. Qed.
(** a closed set that meets a cycle contains its start *)
Lemma cyc_meets : forall (S : list A) k x y, (forall y, In y S -> In (f y) S) -> period k x ->
  In y (cyc k x) -> In y S -> In x S.
Proof.
  intros S k x y C (H1 & H2 & _) Hy HS. apply in_cyc in Hy as (i & Hi & ->).
  rewrite <- H2. replace k with ((k - i) + i) by lia. rewrite iter_add. apply closed_iter; auto.
Qed.
Lemma period_in_cyc : forall k x i, In x D -> period k x -> period k (iter i f x).
Proof.
  intros k x i Hx (H1 & H2 & H3). split; auto. split.
  - rewrite <- iter_add, Nat.add_comm, iter_add, H2. auto.
  - apply NoDup_nth_error. rewrite cyc_length. intros a b Ha Hab.
    destruct (le_lt_dec k b) as [Hb|Hb].
    { rewrite (proj2 (nth_error_None _ b)) in Hab by (rewrite cyc_length; auto). rewrite cyc_nth in Hab by auto. discriminate. }
    rewrite !cyc_nth in Hab by auto. inversion Hab as [E]. rewrite <- !iter_add, (Nat.add_comm a), (Nat.add_comm b), !iter_add in E.
    apply iter_inj in E; auto using iter_in.
    rewrite NoDup_nth_error in H3. apply H3; [rewrite cyc_length; auto|]. rewrite !cyc_nth by auto. congruence.
Qed.

(** a cyclic list of distinct points, each the image of the one before, is a cycle *)
Lemma cyclic_list : forall b, NoDup b ->
  (forall i x y, nth_error b i = Some x -> nth_error b ((i + 1) mod length b) = Some y -> y = f x) ->
  forall x, In x b -> period (length b) x /\ Permutation (cyc (length b) x) b.
Proof.
  intros b N C x Hx.
  assert (L : 0 < length b) by (destruct b; [destruct Hx|cbn; lia]).
  apply In_nth_error in Hx as (i & Hi).
  assert (Il : i < length b) by (apply nth_error_Some; congruence).
  assert (K : forall j, nth_error b ((i + j) mod length b) = Some (iter j f x)).
  { induction j as [|j IH].
    - rewrite Nat.add_0_r, Nat.mod_small by auto. auto.
    - destruct (nth_error b ((i + S j) mod length b)) as [y|] eqn:E.
      + f_equal. cbn [iter]. apply (C ((i + j) mod length b)); auto.
        rewrite Nat.add_mod_idemp_l by lia. replace (i + j + 1) with (i + S j) by lia. auto.
      + apply nth_error_None in E. pose proof (Nat.mod_upper_bound (i + S j) (length b)). lia. }
  assert (P2 : iter (length b) f x = x).
  { specialize (K (length b)). rewrite <- (Nat.mul_1_l (length b)) in K at 1.
    rewrite Nat.mod_add, Nat.mod_small in K by lia. congruence. }
  assert (ND : NoDup (cyc (length b) x)).
  { apply NoDup_nth_error. rewrite cyc_length. intros u v Hu Huv.
    destruct (le_lt_dec (length b) v) as [Hv|Hv].
    { rewrite (proj2 (nth_error_None _ v)) in Huv by (rewrite cyc_length; auto). rewrite cyc_nth in Huv by auto. discriminate. }
    rewrite !cyc_nth in Huv by auto. rewrite <- !K in Huv.
    rewrite NoDup_nth_error in N. apply N in Huv; [|apply Nat.mod_upper_bound; lia].
    destruct (le_lt_dec (length b) (i + u)); destruct (le_lt_dec (length b) (i + v)).
    - replace (i + u) with ((i + u - length b) + 1 * length b) in Huv by lia.
      replace (i + v) with ((i + v - length b) + 1 * length b) in Huv by lia.
      rewrite !Nat.mod_add, !Nat.mod_small in Huv by lia. lia.
    - replace (i + u) with ((i + u - length b) + 1 * length b) in Huv by lia.
      rewrite !Nat.mod_add, !Nat.mod_small in Huv by lia. lia.
    - replace (i + v) with ((i + v - length b) + 1 * length b) in Huv by lia.
      rewrite !Nat.mod_add, !Nat.mod_small in Huv by lia. lia.
    - rewrite !Nat.mod_small in Huv by lia. lia. }
  split; [split; auto|]. apply NoDup_Permutation_bis; auto.
  - rewrite cyc_length. auto.
  - intros y Hy. apply in_cyc in Hy as (j & _ & ->). eapply nth_error_In; eauto.
Qed.

(** following the map until the start is reached again *)
Fixpoint follow (start : A) (fuel : nat) (cur : A) : option (list A) :=
  match fuel with
  | 0 => None
  | S n => if dec (f cur) start then Some [cur]
           else match follow start n (f cur) with Some r => Some (cur :: r) | None => None end
  end.
Lemma follow_from : forall start k fuel i, period k start -> i < k ->
  follow start fuel (iter i f start) =
  if k - i <=? fuel then Some (map (fun j => iter j f start) (seq i (k - i))) else None.
Proof.
  intros start k. induction fuel as [|n IH]; intros i P Hi.
  - cbn [follow]. destruct (Nat.leb_spec (k - i) 0); [lia|auto].
  - cbn [follow]. change (f (iter i f start)) with (iter (S i) f start).
    destruct (dec (iter (S i) f start) start) as [E|E].
    + assert (S i = k).
      { destruct P as (P1 & P2 & P3). destruct (lt_eq_lt_dec (S i) k) as [[L|L]|L]; auto; [|lia]. exfalso.
        rewrite NoDup_nth_error in P3. assert (S i = 0); [|lia]. apply P3; [rewrite cyc_length; auto|].
        rewrite !cyc_nth by lia. cbn [iter] in *. congruence. }
      replace (k - i) with 1 by lia. cbn [seq map]. destruct (Nat.leb_spec 1 (S n)); [auto|lia].
    + assert (S i < k).
      { destruct P as (P1 & P2 & P3). destruct (lt_eq_lt_dec (S i) k) as [[L|L]|L]; auto; [|lia].
        subst k. contradiction. }
      rewrite IH by auto. destruct (Nat.leb_spec (k - S i) n); destruct (Nat.leb_spec (k - i) (S n)); try lia; auto.
      replace (k - i) with (S (k - S i)) by lia. cbn [seq map]. auto.
Qed.
Lemma follow_period : forall k x fuel, period k x ->
  follow x fuel x = if k <=? fuel then Some (cyc k x) else None.
Proof.
  intros k x fuel P. pose proof (follow_from x k fuel 0 P) as H. cbn [iter] in H.
  rewrite Nat.sub_0_r in H. apply H. destruct P; auto.
Qed.
End Orbits.

(** pairwise unrelated elements, each related to some element of another list, are no more
    than that list has *)
Lemma unrelated_le : forall A (R : A -> A -> Prop), (forall x y, R x y -> R y x) ->
  (forall x y z, R x y -> R y z -> R x z) ->
  forall l m, ForallOrdPairs (fun x y => ~ R x y) l -> (forall x, In x l -> exists y, In y m /\ R x y) ->
  length l <= length m.
Proof.
  intros A R Sy Tr. induction l as [|x l IH]; intros m P H; cbn [length]; [lia|].
  inversion P as [|? ? P1 P2]; subst.
  destruct (H x) as (y & Hy & Rxy); [cbn; auto|]. apply in_split in Hy as (m1 & m2 & ->).
  assert (length l <= length (m1 ++ m2)).
  { apply IH; auto. intros z Hz. destruct (H z) as (w & Hw & Rzw); [cbn; auto|].
    exists w. split; auto. apply in_app_iff in Hw as [Hw|[->|Hw]]; try (apply in_app_iff; auto).
    exfalso. rewrite Forall_forall in P1. apply (P1 z Hz). eapply Tr; eauto. }
  rewrite app_length in *. cbn. lia.
Qed.
