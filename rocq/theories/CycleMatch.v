(** Two partitions into cycles that correspond to each other under a renaming. *)
From Coq Require Import List Arith Lia Permutation.
From Verif Require Import Base ListAux Orbits Cycles PdSpec Relabel RelabelProofs PdProofs HashSpec HashProofs PdCompsProofs.
Import ListNotations.
Open Scope nat_scope.

Lemma nth_error_rotated : forall A (u v : list A) i, i < length (u ++ v) ->
  nth_error (v ++ u) i = nth_error (u ++ v) ((i + length u) mod length (u ++ v)).
Proof.
  intros A u v i Hi. rewrite app_length in *. destruct (Nat.lt_ge_cases i (length v)) as [H|H].
  - rewrite nth_error_app1 by auto. rewrite Nat.mod_small by lia. rewrite nth_error_app2 by lia. f_equal. lia.
  - rewrite nth_error_app2 by auto.
    replace ((i + length u) mod (length u + length v)) with (i - length v).
    + rewrite nth_error_app1 by lia. auto.
    + apply Nat.mod_unique with (q := 1); lia.
Qed.
Lemma cyclically_rotation : forall A (R : A -> A -> Prop) l m, rotation l m -> cyclically R l -> cyclically R m.
Proof.
  intros A R l m (u & v & -> & ->) C i a b Ha Hb.
  assert (Hi : i < length (v ++ u)) by (apply nth_error_Some; congruence).
  assert (Lv : length (v ++ u) = length (u ++ v)) by (rewrite !app_length; lia).
  assert (Hj : (i + 1) mod length (v ++ u) < length (v ++ u)) by (apply Nat.mod_upper_bound; lia).
  rewrite nth_error_rotated in Ha, Hb by lia. rewrite Lv in Hb.
  eapply C; [exact Ha|]. rewrite <- Hb. f_equal. rewrite !Nat.add_mod_idemp_l by lia. f_equal. lia.
Qed.
Lemma rotation_in_front : forall A (x : A) l, In x l -> exists m, rotation l (x :: m).
Proof. intros A x l H. apply in_split in H as (u & v & ->). exists (v ++ u). exists u, (x :: v). auto. Qed.

Section Match.
Context {A : Type} (f : A -> A) (D : list A) (dec : forall x y : A, {x = y} + {x <> y}).
Context (cl : forall x, In x D -> In (f x) D) (inj : forall x y, In x D -> In y D -> f x = f y -> x = y).
Context (L M : list (list A)) (PL : cycle_partition f D L) (PM : cycle_partition f D M).

Lemma block_rotation : forall b c x, In b L -> In c M -> In x b -> In x c -> rotation b c.
Proof.
  intros b c x Hb Hc Xb Xc. destruct (rotation_in_front A x b Xb) as (b' & Rb).
  destruct (rotation_in_front A x c Xc) as (c' & Rc).
  assert (Q : forall K k k', cycle_partition f D K -> In k K -> rotation k (x :: k') ->
    period f (length (x :: k')) x /\ cyc f (length (x :: k')) x = x :: k').
  { intros K k k' (F & N & _) Hk Rk. apply block_is_cyc.
    - split; [discriminate|]. rewrite Forall_forall in F. destruct (F k Hk) as (_ & C).
      pose proof (cyclically_rotation A (fun a b => b = f a) k (x :: k') Rk C) as C'. exact C'.
    - eapply Permutation_NoDup; [apply rotation_perm; exact Rk|]. eapply block_nodup; eauto. }
  destruct (Q L b b' PL Hb Rb) as (P1 & C1). destruct (Q M c c' PM Hc Rc) as (P2 & C2).
  pose proof (period_unique f x _ _ P1 P2) as E. rewrite E in C1. rewrite C1 in C2.
  eapply rotation_trans; [exact Rb|]. rewrite C2. apply rotation_sym; auto.
Qed.

Fixpoint where_is (x : A) (K : list (list A)) : nat :=
  match K with [] => 0 | b :: K' => if in_dec dec x b then 0 else S (where_is x K') end.
Lemma where_is_spec : forall x K, In x (concat K) -> exists b, nth_error K (where_is x K) = Some b /\ In x b.
Proof.
  intros x. induction K as [|b K IH]; intros H; [destruct H|]. cbn [where_is].
  destruct (in_dec dec x b) as [I|I]; [exists b; auto|]. cbn in H. apply in_app_iff in H as [H|H]; [tauto|]. auto.
Qed.

Definition match_block (i : nat) : nat := match nth i L [] with [] => 0 | x :: _ => where_is x M end.
Lemma match_spec : forall i b, nth_error L i = Some b -> exists c, nth_error M (match_block i) = Some c /\ rotation b c.
Proof.
  intros i b H. unfold match_block. rewrite (nth_error_nth L i [] H). pose proof (nth_error_In _ _ H) as Hb.
  pose proof PL as (F & _ & CL). rewrite Forall_forall in F. destruct (F b Hb) as (NE & _).
  destruct b as [|x b]; [congruence|].
  destruct (where_is_spec x M) as (c & E & I).
  { apply PM. apply CL. apply in_concat. exists (x :: b). cbn. auto. }
  exists c. split; auto. eapply (block_rotation _ _ x); eauto using nth_error_In. cbn; auto.
Qed.
Lemma match_bij : length M = length L /\ bij_on (length L) match_block.
Proof.
  assert (E : length M = length L) by (symmetry; eapply partition_length; eauto). split; auto. split.
  - intros i Hi. destruct (match_spec i (nth i L [])) as (c & K & _); [apply nth_error_nth'; auto|].
    rewrite <- E. apply nth_error_Some. congruence.
  - intros i j Hi Hj Q.
    destruct (match_spec i (nth i L [])) as (c & K & R); [apply nth_error_nth'; auto|].
    destruct (match_spec j (nth j L [])) as (c' & K' & R'); [apply nth_error_nth'; auto|].
    rewrite Q, K' in K. injection K as ->.
    assert (NE : nth i L [] <> []).
    { destruct PL as (F & _). rewrite Forall_forall in F. apply F. apply nth_In; auto. }
    destruct (nth i L []) as [|x b] eqn:Eb; [congruence|].
    eapply (blocks_disjoint L i j (nth i L []) (nth j L []) x); try (apply nth_error_nth'; auto).
    + apply PL.
    + rewrite Eb. cbn; auto.
    + apply (Permutation_in _ (Permutation_sym (rotation_perm _ _ _ R'))).
      apply (Permutation_in _ (rotation_perm _ _ _ R)). cbn; auto.
Qed.
End Match.

(** a renaming carries partitions to partitions *)
Lemma partition_map : forall A B (f : A -> A) (g : B -> B) (D : list A) (D' : list B) (h : A -> B) L,
  (forall x y, In x D -> In y D -> h x = h y -> x = y) ->
  (forall y, In y D' <-> exists x, In x D /\ y = h x) ->
  (forall x, In x D -> g (h x) = h (f x)) ->
  cycle_partition f D L -> cycle_partition g D' (map (map h) L).
Proof.
  intros A B f g D D' h L I S C (F & N & M). rewrite Forall_forall in F.
  assert (E : concat (map (map h) L) = map h (concat L)) by (symmetry; apply concat_map).
  split; [|split].
  - apply Forall_forall. intros b Hb. apply in_map_iff in Hb as (c & <- & Hc). destruct (F c Hc) as (NE & K). split.
    + intros Q. apply map_eq_nil in Q. auto.
    + intros i x y Hx Hy. rewrite map_length in Hy. rewrite nth_error_map in Hx, Hy.
      destruct (nth_error c i) as [x0|] eqn:X; [|discriminate].
      destruct (nth_error c ((i + 1) mod length c)) as [y0|] eqn:Y; [|discriminate].
      cbn in Hx, Hy. injection Hx as <-. injection Hy as <-. rewrite (K i x0 y0 X Y). symmetry. apply C.
      apply M. apply in_concat. exists c. split; auto. eapply nth_error_In; eauto.
  - rewrite E. apply NoDup_map_inj; auto. intros x y Hx Hy. apply I; apply M; auto.
  - intros y. rewrite E, in_map_iff, S. split.
    + intros (x & <- & Hx). exists x. split; auto. apply M; auto.
    + intros (x & Hx & ->). exists x. split; auto. apply M; auto.
Qed.
