(** C16: regeneration of the crossings. *)
From Coq Require Import List ZArith Lia Bool Arith Permutation Sorted.
From Verif Require Import Base Iterators Sorting Pd PdSpec PdProofs Relabel RelabelProofs SlotCount
  PdCross PdCrossProofs PdExamples Thm_Pd.
Import ListNotations.
Open Scope nat_scope.

(** When all edge records point to existing places, pd_regenerate_crossings renumbers and turns
    the crossings and adjusts both ends of every edge accordingly: nothing else changes, edges
    keep their numbers, and the crossings come out in dictionary order. *)
Theorem regenerate_crossings_relabels : forall d,
  (forall e E, edge_at d e E -> e_head E < ncross d /\ e_headpos E < 4 /\ e_tail E < ncross d /\ e_tailpos E < 4) ->
  exists d' sigma rho, pd_regenerate_crossings d = Ok d' /\
    relabelled d d' sigma rho (fun e => e) /\ same_rest d d' /\ crossings_sorted d'.
Proof.
  intros d H. destruct (regenerate_spec d H) as (d' & num & E & -> & _ & _ & _ & R & S).
  eexists _, _, _. split; [exact E|]. split; [exact R|]. split; auto. unfold same_rest. cbn. auto.
Qed.

(** In a consistent diagram every crossing then starts at the lowest of its edges (at the first
    of the two places if these are neighbours), and a second call changes nothing. *)
Theorem regenerate_crossings_canonical : forall d d', ends_recorded d -> two_ended d ->
  pd_regenerate_crossings d = Ok d' ->
  crossings_canonical d' /\ pd_regenerate_crossings d' = Ok d'.
Proof.
  intros d d' R T E. pose proof (regenerate_canonical d d' R T E) as C. split; auto.
  apply regenerate_canonical_fixed; auto. apply recorded_in_range.
  destruct (regenerate_spec d (recorded_in_range d R)) as (d2 & num & E2 & _ & _ & _ & _ & RL & _).
  rewrite E2 in E. apply ok_inj in E. subst d2. eapply rl_ends_recorded; eauto.
Qed.

(** A diagram in that form is left alone. *)
Theorem regenerate_crossings_fixed : forall d, ends_recorded d -> crossings_canonical d ->
  pd_regenerate_crossings d = Ok d.
Proof. intros. apply regenerate_canonical_fixed; auto. apply recorded_in_range; auto. Qed.

(** A valid diagram is turned into a valid diagram. *)
Theorem regenerate_crossings_valid : forall d, 0 < ncross d -> pd_ok d = Ok true -> two_ended d ->
  exists d', pd_regenerate_crossings d = Ok d' /\ pd_ok d' = Ok true /\ two_ended d'.
Proof.
  intros d Hn H T. unfold pd_ok in H. rewrite !and_ok_true in H. destruct H as (_ & H2 & H3 & H4).
  pose proof H2 as H2'. apply edges_ok_spec in H2' as (R & G); auto.
  destruct (regenerate_spec d (recorded_in_range d R)) as (d' & num & E & Ed & _ & _ & _ & RL & S).
  exists d'. split; auto.
  assert (Hn' : 0 < ncross d') by (rewrite (rl_ncross _ _ _ _ _ RL); auto).
  pose proof (rl_ends_recorded _ _ _ _ _ RL R) as R'. pose proof (rl_two_ended _ _ _ _ _ RL R T) as T'.
  split; auto. unfold pd_ok. rewrite !and_ok_true.
  split; [apply consistent_cross_ok; auto|].
  split; [apply edges_ok_spec; auto; split; auto; eapply rl_goes_through; eauto|].
  assert (Ef : p_face d' = p_face d) by (rewrite Ed; reflexivity).
  assert (Ec : p_comp d' = p_comp d) by (rewrite Ed; reflexivity).
  assert (Em : p_maxv d' = p_maxv d) by (rewrite Ed; reflexivity).
  split.
  - apply faces_ok_spec in H3; auto. apply faces_ok_spec; auto. unfold faces_sorted, nfaces, MAXFACES in *.
    rewrite Ef, Em. destruct H3 as (A & B & C). split; auto. split; auto. intros f Hf.
    destruct (B f Hf) as (B1 & B2 & B3 & B4). split; auto. split; [|split; auto].
    + intros a Ha. destruct (B2 a Ha) as (L & O). split; auto. rewrite (rl_nedges _ _ _ _ _ RL). auto.
    + intros i a b Ha Hb. specialize (B3 i a b Ha Hb). apply (rl_left_turn _ _ _ _ _ RL R) in B3.
      destruct a, b. exact B3.
  - apply comps_ok_spec in H4; auto. apply comps_ok_spec; auto. unfold ncomps, MAXCOMPONENTS in *.
    rewrite Ec, Em, (rl_nedges _ _ _ _ _ RL). destruct H4 as (A & B & C & D). split; auto. split; auto. split; auto.
    intros c Hc i a b Ha Hb. apply (rl_continues _ _ _ _ _ RL R). eapply C; eauto.
Qed.

(** The diagram without crossings has one edge, whose ends are not set: it cannot be passed to
    this function. *)
Definition unknot0 : pd := mkPd 2 0 [] [mkEdge 0 4 0 4] [] [mkComp [0] 65%Z] [[(0, Pos)]; [(0, Neg)]].
Theorem regenerate_crossings_unknot_refuted : pd_ok unknot0 = Ok true /\ pd_regenerate_crossings unknot0 = UB.
Proof. split; reflexivity. Qed.

(** the trefoil with its crossings turned and listed backwards *)
Definition turned_trefoil : pd := mkPd 3 0 []
  [mkEdge 1 3 2 1; mkEdge 0 2 1 1; mkEdge 2 2 0 0; mkEdge 1 0 2 0; mkEdge 0 1 1 2; mkEdge 2 3 0 3]
  [mkCross 2 4 1 5 Pos; mkCross 3 1 4 0 Pos; mkCross 3 0 2 5 Pos] (p_comp trefoil) (p_face trefoil).
Example regenerate_crossings_trefoil : pd_edges_ok turned_trefoil = Ok true /\ 
  pd_cross_ok turned_trefoil = Ok false /\ pd_regenerate_crossings turned_trefoil = Ok trefoil.
Proof. repeat split; reflexivity. Qed.
Example trefoil_canonical : crossings_canonical trefoil.
Proof.
  apply (regenerate_crossings_canonical trefoil trefoil); [|apply two_ended_trefoil|reflexivity].
  apply (edges_ok_spec trefoil); [cbn; lia|reflexivity].
Qed.

Print Assumptions regenerate_crossings_relabels.
Print Assumptions regenerate_crossings_canonical.
Print Assumptions regenerate_crossings_fixed.
Print Assumptions regenerate_crossings_valid.
Print Assumptions regenerate_crossings_unknot_refuted.
