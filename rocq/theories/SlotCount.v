(** In a consistent diagram every edge is at exactly two places. *)
From Coq Require Import List ZArith Lia Bool Arith Permutation Sorted.
From Verif Require Import Base Iterators ListAux Pd PdSpec PdProofs.
Import ListNotations.
Open Scope nat_scope.


Lemma all_slots_places : forall cs,
  all_slots cs = map (edge_in cs) (list_prod (seq 0 (length cs)) (seq 0 4)).
Proof.
  assert (G : forall cs k full, (forall i, nth_error full (k + i) = nth_error cs i) ->
    all_slots cs = map (edge_in full) (list_prod (seq k (length cs)) (seq 0 4))).
  { induction cs as [|x cs IH]; intros k full H; auto.
    cbn [length seq list_prod]. rewrite map_app. change (all_slots (x :: cs)) with (cross_edges x ++ all_slots cs).
    f_equal.
    - pose proof (H 0) as H0. rewrite Nat.add_0_r in H0. cbn in H0. cbn [seq map]. unfold edge_in. cbn [fst snd].
      rewrite H0. reflexivity.
    - apply IH. intros i. replace (S k + i) with (k + S i) by lia. apply H. }
  intros cs. apply G. auto.
Qed.

Definition twice (n : nat) : list nat := flat_map (fun e => [e; e]) (seq 0 n).
Lemma twice_count : forall n e, e < n -> count_occ Nat.eq_dec (twice n) e = 2.
Proof.
  assert (G : forall n k e, k <= e < k + n -> count_occ Nat.eq_dec (flat_map (fun e => [e; e]) (seq k n)) e = 2).
  { assert (Z : forall n k e, e < k -> count_occ Nat.eq_dec (flat_map (fun e => [e; e]) (seq k n)) e = 0).
    { induction n; intros k e H; auto. cbn [seq flat_map app count_occ].
      destruct (Nat.eq_dec k e); [lia|]. apply IHn. lia. }
    induction n; intros k e H; [lia|]. cbn [seq flat_map app count_occ].
    destruct (Nat.eq_dec k e).
    - rewrite Z by lia. auto.
    - apply IHn. lia. }
  intros n e H. apply G. lia.
Qed.
Lemma twice_in : forall n e, In e (twice n) <-> e < n.
Proof.
  intros n e. unfold twice. rewrite in_flat_map. split.
  - intros (x & Hx & [<-|[<-|[]]]); apply in_seq in Hx; lia.
  - intros H. exists e. rewrite in_seq. split; [lia|cbn; auto].
Qed.

Lemma slots_twice : forall d, ends_recorded d -> two_ended d ->
  Permutation (all_slots (p_cross d)) (twice (nedges d)).
Proof.
  intros d R T. rewrite all_slots_places. change (list_prod (seq 0 (length (p_cross d))) (seq 0 4)) with (places d).
  rewrite <- (dto_perm d R T). rewrite map_map.
  rewrite (map_ext_in _ fst).
  - unfold darts, twice. generalize (seq 0 (nedges d)). intros l. induction l as [|x l IH]; auto.
    cbn [flat_map app map fst]. auto.
  - intros a Ha. apply in_darts in Ha. pose proof (dto_slot d a R Ha) as (_ & x & Hx & E).
    unfold edge_in. rewrite Hx. auto.
Qed.
Lemma consistent_count : forall d e, ends_recorded d -> two_ended d -> e < nedges d ->
  count_occ Nat.eq_dec (all_slots (p_cross d)) e = 2.
Proof.
  intros d e R T H. rewrite (proj1 (Permutation_count_occ Nat.eq_dec _ _) (slots_twice d R T)). apply twice_count; auto.
Qed.
Lemma consistent_bound : forall d c p e, ends_recorded d -> two_ended d -> slot d c p e -> e < nedges d.
Proof.
  intros d c p e R T (Hp & x & Hx & E). apply twice_in. eapply Permutation_in; [apply slots_twice; auto|].
  apply in_all_slots. eauto 6.
Qed.
Lemma consistent_cross_ok : forall d, 0 < ncross d -> ends_recorded d -> two_ended d -> crossings_sorted d ->
  pd_cross_ok d = Ok true.
Proof.
  intros d Hn R T S. apply cross_ok_spec; auto. split; [intros; eapply consistent_bound; eauto|]. split; auto.
  intros e E HE. left. apply consistent_count; auto. eapply edge_at_lt; eauto.
Qed.
