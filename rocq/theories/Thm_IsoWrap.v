(** C26, where it fails: the number of ways to turn and flip the components is computed with 32 bits. *)
From Coq Require Import List ZArith Lia Bool Arith Permutation Relations.
From Verif Require Import Base Iterators Perm PermProofs Pd PdSpec PdProofs PdRegen PdExamples Relabel HashSpec RegenSpec Carry Planar PdIso IsoSpec DiagIso HashProofs
  DartMap AlikeProofs IsoEnum IsoComplete Thm_Ops Thm_Planar Thm_IsoComplete.
Import ListNotations.
Open Scope nat_scope.

(** if the number of turns is a multiple of 2^32, no edge map is built, and the loop over the neighbours in the empty list of
    edge maps reads outside it *)
Theorem isomorphic_wraps : forall A B, valid A -> valid B -> ncomps A <= 12 -> may_match A B = true -> (Z.of_nat (turns A) mod 2 ^ 32 = 0)%Z ->
  pd_isomorphic A B = UB /\ pd_build_isos A B = UB /\ pd_build_map_isomorphisms A B = UB.
Proof.
  intros A B (TA & CA & OA) (TB & CB & OB) WC MM W. destruct (groups A B TA CA WC MM) as (grps & cps & E1 & E2 & E3 & ND & GD & ALL).
  destruct (mm_counts A B MM) as (NX & NE & NC & NF & CS).
  assert (BE : forall cp, In cp cps -> pd_build_edgemaps A B cp = Ok []).
  { intros cp I. destruct (GD cp I) as (G & _). unfold pd_build_edgemaps. rewrite NC, NE, (gp_n _ _ G), !Nat.eqb_refl. cbn [andb]. unfold all_states.
    assert (Z0 : pd_multidx_nvals (pd_new_multidx pd_ndihedrals (map pd_new_dihedral (PdIso.comp_sizes A))) = 0%Z).
    { rewrite Thm_Iterators.multidx_nvals_product, map_map. rewrite turns_product in W. erewrite map_ext; [exact W|].
      intros n. unfold pd_ndihedrals. cbn [pd_new_dihedral dmap]. rewrite seq_length. lia. }
    rewrite Z0. reflexivity. }
  assert (FC : forall keep early cp, In cp cps -> from_compperm keep early A B cp = UB).
  { intros keep early cp I. unfold from_compperm. rewrite (BE cp I). reflexivity. }
  assert (PB : Permutation (by_key pmap cps) cps) by apply Sorting.isort_perm.
  assert (ID : exists cp, In cp cps).
  { destruct (ALL (fun c => c)) as (cp & I & _); [split; auto| |eauto]. intros i C C' HC HC'.
    assert (X : nth_error (comp_sizes A) i = Some (length (cp_edge C))) by (unfold comp_sizes; apply (map_nth_error (fun c => length (cp_edge c))); auto).
    rewrite <- CS in X. unfold comp_sizes in X. rewrite (map_nth_error (fun c => length (cp_edge c)) _ _ HC') in X. congruence. }
  assert (ALLUB : forall keep early, build_isos keep early A B = UB).
  { intros keep early. unfold build_isos. rewrite MM. cbn [negb]. rewrite E1. cbn [bind]. rewrite E2. cbn [bind]. rewrite E3. cbn [bind].
    destruct ID as (c0 & I0). apply (Permutation_in _ (Permutation_sym PB)) in I0. destruct (by_key pmap cps) as [|cp r] eqn:EB; [destruct I0|]. cbn [search].
    rewrite FC; [reflexivity|]. apply (Permutation_in _ PB). cbn. auto. }
  unfold pd_isomorphic, pd_build_isos, pd_build_map_isomorphisms. rewrite !ALLUB. auto.
Qed.

(** twelve circles in a row, each linked with the next: ten of them run through four crossings, the two at the ends through two *)
Definition chain12 : pd := mkPd 22 0 []
  [mkEdge 0 0 2 1; mkEdge 1 1 0 2; mkEdge 3 2 1 3; mkEdge 2 3 3 0; mkEdge 2 0 4 1; mkEdge 3 1 2 2; mkEdge 5 2 3 3; mkEdge 4 3 5 0; mkEdge 4 0 6 1;
    mkEdge 5 1 4 2; mkEdge 7 2 5 3; mkEdge 6 3 7 0; mkEdge 6 0 8 1; mkEdge 7 1 6 2; mkEdge 9 2 7 3; mkEdge 8 3 9 0; mkEdge 8 0 10 1; mkEdge 9 1 8 2;
    mkEdge 11 2 9 3; mkEdge 10 3 11 0; mkEdge 10 0 12 1; mkEdge 11 1 10 2; mkEdge 13 2 11 3; mkEdge 12 3 13 0; mkEdge 12 0 14 1; mkEdge 13 1 12 2; mkEdge
    15 2 13 3; mkEdge 14 3 15 0; mkEdge 14 0 16 1; mkEdge 15 1 14 2; mkEdge 17 2 15 3; mkEdge 16 3 17 0; mkEdge 16 0 18 1; mkEdge 17 1 16 2; mkEdge 19 2
    17 3; mkEdge 18 3 19 0; mkEdge 18 0 20 1; mkEdge 19 1 18 2; mkEdge 21 2 19 3; mkEdge 20 3 21 0; mkEdge 1 2 0 1; mkEdge 0 3 1 0; mkEdge 20 0 21 3;
    mkEdge 21 1 20 2]
  [mkCross 0 40 1 41 Pos; mkCross 41 1 40 2 Pos; mkCross 4 0 5 3 Pos; mkCross 3 5 2 6 Pos; mkCross 8 4 9 7 Pos; mkCross 7 9 6 10 Pos; mkCross 12 8 13
    11 Pos; mkCross 11 13 10 14 Pos; mkCross 16 12 17 15 Pos; mkCross 15 17 14 18 Pos; mkCross 20 16 21 19 Pos; mkCross 19 21 18 22 Pos; mkCross 24 20 25
    23 Pos; mkCross 23 25 22 26 Pos; mkCross 28 24 29 27 Pos; mkCross 27 29 26 30 Pos; mkCross 32 28 33 31 Pos; mkCross 31 33 30 34 Pos; mkCross 36 32 37
    35 Pos; mkCross 35 37 34 38 Pos; mkCross 42 36 43 39 Pos; mkCross 39 43 38 42 Pos]
  [] [].

Lemma stepwise_connected : forall d, (forall c, 0 < c -> c < ncross d -> exists c', c' < c /\ joined d c' c) -> connected d.
Proof.
  intros d H. assert (K : forall c, c < ncross d -> clos_refl_trans nat (joined d) 0 c /\ clos_refl_trans nat (joined d) c 0).
  { induction c as [c IH] using lt_wf_ind. intros Hc. destruct c as [|c]; [split; apply rt_refl|]. destruct (H (S c)) as (c' & L & J); [lia|auto|].
    destruct (IH c') as (I1 & I2); [auto|lia|]. split; [eapply rt_trans; [exact I1|apply rt_step; auto]|eapply rt_trans; [|exact I2]]. apply rt_step.
    destruct J as (e & p & q & S1 & S2). exists e, q, p. auto. }
  intros c c' Hc Hc'. eapply rt_trans; [apply (K c Hc)|apply (K c' Hc')].
Qed.
(** a crossing with a smaller number at the other end of an edge *)
Definition linked_before (d : pd) (c : nat) : bool :=
  existsb (fun e => existsb (fun c' => existsb (fun p => existsb (fun q =>
    match nth_error (p_cross d) c', nth_error (p_cross d) c with Some x, Some y => (cedge x p =? e) && (cedge y q =? e) | _, _ => false end)
    (seq 0 4)) (seq 0 4)) (seq 0 c)) (seq 0 (nedges d)).
Lemma linked_joined : forall d c, linked_before d c = true -> exists c', c' < c /\ joined d c' c.
Proof.
  intros d c H. unfold linked_before in H. apply existsb_exists in H as (e & _ & H). apply existsb_exists in H as (c' & I & H). apply existsb_exists in H as (p & Ip & H). apply existsb_exists in H as (q & Iq & H).
  apply in_seq in I, Ip, Iq. destruct (nth_error (p_cross d) c') as [x|] eqn:X; [|discriminate]. destruct (nth_error (p_cross d) c) as [y|] eqn:Y; [|discriminate]. apply andb_true_iff in H as (H1 & H2). apply Nat.eqb_eq in H1, H2.
  exists c'. split; [lia|]. exists e, p, q. split; (split; [lia|eauto]).
Qed.

(** twelve circles: the diagram is valid, it is not isomorphic to itself according to the code, which has no defined behaviour *)
Theorem isomorphic_chain_refuted : exists d, pd_regenerate chain12 = Ok d /\ valid d /\ ncross d = 22 /\ ncomps d = 12 /\ alike d d (fun c => c) (fun e => e) Pos /\
  pd_isomorphic d d = UB.
Proof.
  assert (T : two_ended chain12).
  { assert (K : forallb (fun E => negb ((e_head E =? e_tail E) && (e_headpos E =? e_tailpos E))) (p_edge chain12) = true) by reflexivity. rewrite forallb_forall in K.
    intros e E H X. apply nth_error_In in H. apply K in H. unfold head_slot, tail_slot in X. injection X as X1 X2. rewrite X1, X2, !Nat.eqb_refl in H. discriminate. }
  assert (E : exists d, pd_regenerate chain12 = Ok d) by (eexists; vm_compute; reflexivity). destruct E as (d & E). exists d. split; auto.
  assert (TD : tidy d).
  { apply (regenerate_tidy chain12); auto; try (cbn; lia); try reflexivity. exists 0, Pos. split; [eexists; split; reflexivity|discriminate]. }
  assert (V : valid d).
  { split; auto. vm_compute in E. injection E as <-. split; [|vm_compute; reflexivity]. apply stepwise_connected. intros c H0 Hc. apply linked_joined.
    match goal with |- linked_before ?d c = true => assert (K : forallb (linked_before d) (seq 1 21) = true) by (vm_compute; reflexivity) end.
    rewrite forallb_forall in K. apply K, in_seq. cbn in Hc. lia. }
  split; auto. pose proof (alike_refl d) as AL.
  assert (MM : may_match d d = true).
  { pose proof (tidy_sphere d TD (proj1 (proj2 V))) as SD. destruct (alike_extends d d _ _ Pos SD SD (or_introl eq_refl) AL) as (kp & kf & dir & IM & _).
    eapply may_match_ok; eauto; apply V. }
  assert (Q : ncross d = 22 /\ ncomps d = 12 /\ (Z.of_nat (turns d) mod 2 ^ 32 = 0)%Z).
  { clear - E. vm_compute in E. injection E as <-. split; [reflexivity|]. split; [reflexivity|]. rewrite turns_product. cbn [HashProofs.comp_sizes p_comp map cp_edge length].
    match goal with |- context [Thm_Iterators.product ?l] => set (z := l) end. assert (Z0 : Z.of_nat (Thm_Iterators.product z) = fold_right Z.mul 1%Z (map Z.of_nat z)).
    { clear. induction z as [|a z IH]; auto. change (Thm_Iterators.product (a :: z)) with (a * Thm_Iterators.product z). rewrite Nat2Z.inj_mul, IH. reflexivity. }
    rewrite Z0. vm_compute. reflexivity. }
  destruct Q as (Q1 & Q2 & Q3). split; auto. split; auto. split; auto. apply (isomorphic_wraps d d); auto. lia.
Qed.
Print Assumptions isomorphic_wraps.
Print Assumptions isomorphic_chain_refuted.
