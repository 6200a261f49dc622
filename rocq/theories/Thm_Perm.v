(** Property theorems C01 and C02: the permutation iterator and permutation group. *)
From Coq Require Import List ZArith Lia Bool Arith Permutation Factorial.
From Verif Require Import Base PermData Perm PermProofs.
Import ListNotations.

(** C01.  The state after k calls of pd_increment_perm on pd_new_perm(n):
    every call returns; during the first n! states each map is a permutation of 0..n-1,
    the maps increase strictly in lexicographic order (so none repeats), every permutation
    occurs; the n!-th call restores the initial state. *)
Theorem perm_iterator_enumerates : forall n, 1 <= n ->
  exists st : nat -> perm,
    (forall k, run_perm k (pd_new_perm n) = Ok (st k)) /\
    (forall k, Permutation (seq 0 n) (pmap (st k))) /\
    (forall j k, j < k < fact n -> lexlt (pmap (st j)) (pmap (st k))) /\
    (forall p, Permutation (seq 0 n) p -> exists k, k < fact n /\ pmap (st k) = p) /\
    st (fact n) = pd_new_perm n.
Proof.
  intros n Hn. pose proof (fact_neq_0 n) as F0.
  exists (fun k => mkPerm (nth (k mod fact n) (all_perms n) []) (pidx n k)). simpl.
  split; [intros; apply run_perm_nth; auto|]. split; [|split; [|split]].
  - intros k. apply all_perms_nth. apply Nat.mod_upper_bound; auto.
  - intros j k H. rewrite !Nat.mod_small by lia. apply all_perms_lt; auto.
  - intros p P. destruct (all_perms_index n p P) as (k & Hk & E). exists k; split; auto.
    rewrite Nat.mod_small; auto.
  - rewrite Nat.mod_same by auto. rewrite all_perms_0. unfold pd_new_perm, pidx.
    destruct (n <=? 6); auto. rewrite Nat.mod_same; auto.
Qed.

Example perm_iterator_example :
  1 <= 7 /\ lexlt [1; 6; 2; 5; 4; 3; 0] [1; 6; 3; 0; 2; 4; 5] /\
  pd_increment_perm (mkPerm [1; 6; 2; 5; 4; 3; 0] 0) = Ok (mkPerm [1; 6; 3; 0; 2; 4; 5] 0).
Proof. repeat split; simpl; auto; lia. Qed.

(** C01, the count: pd_nperms is n! modulo 2^32, so it is right exactly up to n = 12. *)
Theorem nperms_exact : forall p, 1 <= pn p <= 12 -> pd_nperms p = Z.of_nat (fact (pn p)).
Proof.
  intros p H. rewrite nperms_spec by lia. apply Z.mod_small. split; [lia|].
  pose proof (fact_le (pn p) 12 ltac:(lia)) as F. apply inj_le in F.
  assert (E : Z.of_nat (fact 12) = 479001600%Z).
  { change (fact 12) with (12 * (11 * (10 * (9 * (8 * (7 * (6 * fact 5))))))).
    rewrite !Nat2Z.inj_mul. reflexivity. }
  rewrite E in F. change (2 ^ 32)%Z with 4294967296%Z. lia.
Qed.

Theorem nperms_overflow_refuted : exists p, pn p = 13 /\ pd_nperms p <> Z.of_nat (fact (pn p)).
Proof.
  exists (pd_new_perm 13). split; auto. rewrite nperms_spec by (unfold pn; simpl; lia).
  change (pn (pd_new_perm 13)) with 13.
  assert (E : Z.of_nat (fact 13) = 6227020800%Z).
  { change (fact 13) with (13 * (12 * (11 * (10 * (9 * (8 * (7 * (6 * fact 5)))))))).
    rewrite !Nat2Z.inj_mul. reflexivity. }
  rewrite E. discriminate.
Qed.

(** The iterator on zero elements is undefined (remainder by zero). *)
Theorem perm_iterator_zero_refuted : pd_increment_perm (pd_new_perm 0) = UB.
Proof. reflexivity. Qed.

(** C02.  pd_compose_perms computes the composite map x |-> A(B(x)), a permutation again. *)
Theorem compose_is_composition : forall A B, is_perm A -> is_perm B -> pn A = pn B -> 1 <= pn A ->
  exists C, pd_compose_perms A B = Ok C /\ is_perm C /\ pn C = pn A /\
    forall x, x < pn A -> nth x (pmap C) 0 = nth (nth x (pmap B) 0) (pmap A) 0.
Proof.
  intros A B PA PB E L. destruct (compose_ok A B PA PB E L) as (C & H1 & H2 & H3 & _ & _ & H4).
  exists C; auto.
Qed.

(** Associativity, as an equality of the results of the C calls (including pc_idx). *)
Theorem compose_assoc : forall A B C, is_perm A -> is_perm B -> is_perm C ->
  pn A = pn B -> pn B = pn C -> 1 <= pn A ->
  bind (pd_compose_perms A B) (fun AB => pd_compose_perms AB C) =
  bind (pd_compose_perms B C) (fun BC => pd_compose_perms A BC) /\
  exists D, bind (pd_compose_perms A B) (fun AB => pd_compose_perms AB C) = Ok D.
Proof.
  intros A B C PA PB PC E1 E2 L.
  destruct (compose_ok A B PA PB E1 L) as (AB & A1 & A2 & A3 & _ & _ & A6).
  destruct (compose_ok B C PB PC E2 ltac:(lia)) as (BC & B1 & B2 & B3 & _ & _ & B6).
  rewrite A1, B1. cbn [bind].
  destruct (compose_ok AB C A2 PC ltac:(lia) ltac:(lia)) as (X & X1 & X2 & X3 & X4 & X5 & X6).
  destruct (compose_ok A BC PA B2 ltac:(lia) L) as (Y & Y1 & Y2 & Y3 & Y4 & Y5 & Y6).
  rewrite X1, Y1. split; [|eauto]. f_equal.
  destruct X as [xm xi], Y as [ym yi]. unfold pn in *; simpl in *.
  assert (EM : xm = ym).
  { apply list_ext0; [lia|]. intros i Hi. rewrite X6, Y6, B6, A6; auto; try lia.
    pose proof (perm_entries C PC) as F. rewrite Forall_forall in F. unfold pn in F.
    rewrite E1, E2. apply F. apply nth_In. lia. }
  subst ym. f_equal. destruct (le_lt_dec (length xm) 6).
  - eapply canonical_unique; eauto. lia.
  - rewrite X5, Y5; auto.
Qed.

(** pd_new_perm is a two-sided unit. *)
Theorem compose_unit : forall A, is_perm A -> 1 <= pn A ->
  exists L R, pd_compose_perms (pd_new_perm (pn A)) A = Ok L /\
              pd_compose_perms A (pd_new_perm (pn A)) = Ok R /\ pmap L = pmap A /\ pmap R = pmap A.
Proof.
  intros A PA L.
  assert (PE : is_perm (pd_new_perm (pn A))) by (unfold is_perm, pn; simpl; rewrite seq_length; auto).
  assert (NE : pn (pd_new_perm (pn A)) = pn A) by (unfold pn; simpl; rewrite seq_length; auto).
  destruct (compose_ok _ A PE PA NE ltac:(lia)) as (X & X1 & X2 & X3 & _ & _ & X6).
  destruct (compose_ok A _ PA PE (eq_sym NE) L) as (Y & Y1 & Y2 & Y3 & _ & _ & Y6).
  exists X, Y. repeat split; auto.
  - apply list_ext0; [unfold pn in *; lia|]. intros i Hi. change (i < pn X) in Hi.
    rewrite X6 by lia. simpl. apply nth_seq.
    pose proof (perm_entries A PA) as F. rewrite Forall_forall in F. apply F. apply nth_In. unfold pn in *; lia.
  - apply list_ext0; [unfold pn in *; lia|]. intros i Hi. change (i < pn Y) in Hi.
    rewrite Y6 by lia. simpl. rewrite nth_seq by lia. reflexivity.
Qed.

(** pd_inverse_perm is a two-sided inverse for pd_compose_perms. *)
Theorem inverse_is_inverse : forall A, is_perm A -> 1 <= pn A ->
  exists I E1 E2, pd_inverse_perm A = Ok I /\ is_perm I /\
    pd_compose_perms A I = Ok E1 /\ pd_compose_perms I A = Ok E2 /\
    pmap E1 = seq 0 (pn A) /\ pmap E2 = seq 0 (pn A).
Proof.
  intros A PA L. destruct (inverse_ok A PA L) as (I & I1 & I2 & I3 & _ & _ & I6 & I7).
  destruct (compose_ok A I PA I2 (eq_sym I3) L) as (X & X1 & X2 & X3 & _ & _ & X6).
  destruct (compose_ok I A I2 PA I3 ltac:(lia)) as (Y & Y1 & Y2 & Y3 & _ & _ & Y6).
  exists I, X, Y. repeat split; auto.
  - apply list_ext0; [rewrite seq_length; unfold pn in *; lia|]. intros i Hi. change (i < pn X) in Hi.
    rewrite X6, nth_seq by lia. apply I7; lia.
  - apply list_ext0; [rewrite seq_length; unfold pn in *; lia|]. intros i Hi. change (i < pn Y) in Hi.
    rewrite Y6, nth_seq by lia. apply I6; lia.
Qed.

(** pd_stareq_perm leaves in A the map pd_compose_perms returns. *)
Theorem stareq_is_compose : forall A B, is_perm A -> is_perm B -> pn A = pn B -> 1 <= pn A ->
  exists S C, pd_stareq_perm A B = Ok S /\ pd_compose_perms A B = Ok C /\ pmap S = pmap C.
Proof.
  intros A B PA PB E L. unfold pd_stareq_perm, pd_compose_perms. rewrite E, Nat.eqb_refl.
  destruct (gather_perm A B PA PB E) as (m & G & Lm & P). rewrite G. cbn [bind].
  destruct (regen_ok m 0 (P 0)) as (i & R & _ & _); [lia|]. rewrite R.
  eexists. eexists. repeat split.
Qed.

(** ... but it leaves the old table index behind, so the result can fail pd_perm_ok. *)
Theorem stareq_stale_index_refuted :
  exists A B S, is_perm A /\ is_perm B /\ pd_perm_ok A = Ok true /\ pd_perm_ok B = Ok true /\
    pd_stareq_perm A B = Ok S /\ pd_perm_ok S = Ok false.
Proof.
  exists (mkPerm [1; 0] 1), (mkPerm [1; 0] 1), (mkPerm [0; 1] 1).
  repeat split; try reflexivity; unfold is_perm; simpl; apply perm_swap.
Qed.

(** C02, period: pd_perm_period returns k iff k is the order of A and k < 10000; for
    larger orders it stops in its assertion. *)
Theorem period_is_order : forall A k, is_perm A ->
  (pd_perm_period A = Ok k <->
   1 <= k < Z.to_nat 10000 /\ power_is_id A k /\ forall j, 1 <= j < k -> ~ power_is_id A j).
Proof.
  intros A k PA. unfold pd_perm_period.
  pose proof (period_loop_spec A (Z.to_nat 9998) A 1 PA PA eq_refl) as S.
  specialize (S (fun x H => eq_refl)).
  assert (B : 1 + Z.to_nat 9998 < Z.to_nat 10000) by lia.
  assert (B2 : Z.to_nat 10000 = Datatypes.S (1 + Z.to_nat 9998)) by lia.
  destruct (period_loop A (Z.to_nat 9998) A 1) as [r| | |]; try contradiction.
  - destruct S as (S1 & S2 & S3). split.
    + intros E; inversion E; subst. split; [lia|]. split; auto.
    + intros (K1 & K2 & K3). f_equal. destruct (lt_eq_lt_dec r k) as [[H|H]|H]; auto; exfalso.
      * apply (K3 r); auto; lia.
      * apply (S3 k); auto; lia.
  - split; [discriminate|]. intros (K1 & K2 & K3). exfalso. apply (S k); auto. lia.
Qed.

Example group_example :
  let A := mkPerm [1; 2; 0; 4; 3; 5; 6] 0 in
  is_perm A /\ 1 <= pn A /\ pd_perm_period A = Ok 6 /\
  pd_inverse_perm A = Ok (mkPerm [2; 0; 1; 4; 3; 5; 6] 0).
Proof.
  simpl. repeat split.
  - apply is_perm_intro; [repeat constructor; simpl; intuition discriminate|repeat constructor; simpl; lia].
  - unfold pn; simpl; lia.
Qed.

(** pd_perm_ok accepts, among states whose table index is in range, exactly the
    permutations stored with their own index. *)
Theorem perm_ok_exact : forall p, 1 <= pn p ->
  (pn p <= 6 -> pc_idx p < fact (pn p)) ->
  exists b, pd_perm_ok p = Ok b /\ (b = true <-> is_perm p /\ canonical p).
Proof.
  intros p L R.
  assert (ST : forallb (fun x => x <? pn p) (pmap p) && nodupb (pmap p) = true <-> is_perm p).
  { assert (ND : forall l, nodupb l = true <-> NoDup l).
    { induction l as [|x l IH]; simpl; [split; auto; constructor|].
      rewrite andb_true_iff, IH, negb_true_iff. split.
      - intros [H1 H2]. constructor; auto. intros I.
        assert (existsb (Nat.eqb x) l = true); [|congruence].
        apply existsb_exists. exists x; split; auto. apply Nat.eqb_refl.
      - intros N; inversion N; subst. split; auto. apply not_true_is_false. intros X.
        apply existsb_exists in X. destruct X as (y & Hy & E). apply Nat.eqb_eq in E. subst; auto. }
    rewrite andb_true_iff, ND, forallb_forall. split.
    - intros [F N]. destruct p as [m c]. apply is_perm_intro; auto. apply Forall_forall.
      intros x Hx. apply F in Hx. apply Nat.ltb_lt in Hx. exact Hx.
    - intros P. split; [|apply is_perm_NoDup; auto]. intros x Hx.
      pose proof (perm_entries p P) as F. rewrite Forall_forall in F. apply Nat.ltb_lt; auto. }
  unfold pd_perm_ok, max_pc_perm. destruct (pn p <=? 6) eqn:E.
  - apply Nat.leb_le in E. destruct (pc_perm_ok (pn p) ltac:(lia)) as [T1 T2]. rewrite T1, T2.
    specialize (R E).
    destruct (fact (pn p) <? pc_idx p) eqn:E2; [apply Nat.ltb_lt in E2; lia|].
    destruct (pn p =? 0) eqn:E3; [apply Nat.eqb_eq in E3; lia|].
    assert (NE : nth_error (all_perms (pn p)) (pc_idx p) = Some (nth (pc_idx p) (all_perms (pn p)) [])).
    { apply nth_error_nth'. rewrite all_perms_length; auto. }
    rewrite NE. pose proof (all_perms_nth _ _ R) as Q.
    pose proof (Permutation_length Q) as QL. rewrite seq_length in QL.
    rewrite firstn_all2 by lia.
    destruct (list_eqb _ _) eqn:E4.
    + eexists; split; [reflexivity|]. rewrite ST. split; [|tauto]. intros P; split; auto.
      intros _. rewrite NE. apply list_eqb_eq in E4. congruence.
    + exists false; split; [reflexivity|]. split; [discriminate|]. intros [_ C]. exfalso.
      specialize (C E). rewrite NE in C. inversion C as [C1].
      assert (list_eqb (pmap p) (nth (pc_idx p) (all_perms (pn p)) []) = true); [|congruence].
      apply list_eqb_eq. congruence.
  - eexists; split; [reflexivity|]. rewrite ST. split; [|tauto]. intros P; split; auto.
    intros H. apply Nat.leb_gt in E. lia.
Qed.

(** The range test is off by one: an index equal to n! passes it and the check then
    reads past the table. *)
Theorem perm_ok_off_by_one_refuted : exists p, is_perm p /\ pd_perm_ok p = UB.
Proof.
  exists (mkPerm [0; 1] 2). split; [|reflexivity]. unfold is_perm; simpl; auto.
Qed.

Print Assumptions perm_iterator_enumerates.
Print Assumptions nperms_exact.
Print Assumptions nperms_overflow_refuted.
Print Assumptions perm_iterator_zero_refuted.
Print Assumptions compose_is_composition.
Print Assumptions compose_assoc.
Print Assumptions compose_unit.
Print Assumptions inverse_is_inverse.
Print Assumptions stareq_is_compose.
Print Assumptions stareq_stale_index_refuted.
Print Assumptions period_is_order.
Print Assumptions perm_ok_exact.
Print Assumptions perm_ok_off_by_one_refuted.
