(** C15: regeneration of the faces. *)
From Coq Require Import List ZArith Lia Bool Arith Permutation Sorted.
From Verif Require Import Base Iterators Sorting Orbits Pd PdSpec PdProofs PdFaces PdFacesProofs PdExamples Thm_Pd.
Import ListNotations.
Open Scope nat_scope.

(** closed walks turning left at every crossing that together use every edge exactly once in
    each direction *)
Definition face_partition (d : pd) (fs : list face) : Prop :=
  (forall f, In f fs -> f <> [] /\ cyclically (left_turn d) f) /\
  NoDup (concat fs) /\ (forall a, In a (concat fs) <-> is_dart d a).

Lemma partition_decomposition : forall d fs, face_partition d fs <-> is_decomposition d fs.
Proof.
  intros d fs. unfold face_partition, is_decomposition. split.
  - intros (H & N & C). split; auto. apply NoDup_Permutation; auto using NoDup_darts.
    intros a. rewrite C, in_darts. tauto.
  - intros (H & P). split; auto. split.
    + eapply Permutation_NoDup; [symmetry; exact P|apply NoDup_darts].
    + intros a. rewrite <- in_darts. split; apply Permutation_in; auto. symmetry; auto.
Qed.

Section Consistent.
Context (d : pd) (Hn : 0 < ncross d) (Hedges : pd_edges_ok d = Ok true) (Hends : two_ended d).

Lemma loop_cases :
  (exists fs, pd_regenerate_faces d = Ok (with_faces d fs) /\ face_partition d fs /\
     length fs = ncross d + 2 /\ length fs <= MAXFACES d /\ Forall starts_low fs /\
     Forall (fun f => length f <= nedges d) fs /\
     StronglySorted big_first (map (map fst) fs)) \/
  (pd_regenerate_faces d = Fail /\ forall gs, face_partition d gs ->
     length gs = ncross d + 2 -> length gs <= MAXFACES d -> Forall (fun f => length f <= nedges d) gs -> False).
Proof.
  apply edges_ok_spec in Hedges as (R & G); auto. pose proof R as (En & _).
  unfold pd_regenerate_faces. destruct (Nat.ltb_spec 0 (ncross d)); [|lia].
  destruct (Nat.ltb_spec 1 (nedges d)); [|lia].
  destruct (faces_loop_ok d R Hends (MAXFACES d + 2) (0, Pos) []) as [(fs & E & C & L & B & _)|(E & K)].
  - apply inv_start. lia.
  - cbn; lia.
  - cbn; lia.
  - rewrite E. cbn [bind]. fold face_le. destruct (finish_faces d R Hends fs C) as (F1 & F2 & F3 & F4).
    change (fun a b => not_gt (pd_face_cmp a b)) with face_le.
    set (fs' := isort face_le (map canonorder_face fs)) in *.
    pose proof (complete_decomposition d R Hends fs' F2) as Dec.
    destruct (Nat.eqb_spec (length fs') (ncross d + 2)) as [Q|Q].
    + left. exists fs'. split; auto. split; [apply partition_decomposition; auto|]. split; auto. split; [lia|].
      split; auto. split; auto. cbn [length skipn] in B. apply Forall_forall. intros f Hf.
      apply (Permutation_in _ (isort_perm _ _)) in Hf. apply in_map_iff in Hf as (g & <- & Hg).
      destruct C as (C & _). rewrite Forall_forall in B, C.
      rewrite (Permutation_length (canonorder_perm d g (C g Hg))). apply B; auto.
    + right. split; auto. intros gs Hg Hl _ _. apply partition_decomposition in Hg. apply Q.
      pose proof (decomposition_le d R Hends fs' gs (decomposition_sub d fs' Dec) Hg).
      pose proof (decomposition_le d R Hends gs fs' (decomposition_sub d gs Hg) Dec). lia.
  - right. rewrite E. split; auto. intros gs Hg Hl Hm Hs. apply partition_decomposition in Hg.
    destruct K as [(x & k & Dx & P & Lk)|(fs & F1 & F2 & F3)].
    + assert (I : In x (concat gs)).
      { eapply Permutation_in; [symmetry; apply Hg|]. apply in_darts; auto. }
      apply in_concat in I as (g & Ig & Ix).
      destruct (decomposition_block d R Hends gs g x (decomposition_sub d gs Hg) Ig Ix) as (_ & P' & _).
      rewrite Forall_forall in Hs. specialize (Hs g Ig).
      assert (k = length g) by (eapply period_unique; eauto). lia.
    + assert (S : is_sub d fs).
      { split; auto. intros f Hf. rewrite Forall_forall in F1. split; [|split].
        - apply (cycle_nonempty d); auto.
        - apply cycle_left; auto.
        - apply cycle_darts; auto. }
      pose proof (decomposition_le d R Hends fs gs S Hg). lia.
Qed.

(** When the crossing and edge tables are consistent, pd_regenerate_faces either stops with an
    error or leaves everything but the faces unchanged and produces faces in which every edge
    occurs exactly once in each direction; the face check accepts the result. *)
Theorem regenerate_faces_correct :
  pd_regenerate_faces d = Fail \/
  exists d', pd_regenerate_faces d = Ok d' /\ d' = with_faces d (p_face d') /\
    face_partition d (p_face d') /\ nfaces d' = ncross d + 2 /\ pd_faces_ok d' = Ok true.
Proof.
  destruct loop_cases as [(fs & E & P & L & M & S & _ & O)|(E & _)]; [right|left; auto].
  exists (with_faces d fs). split; auto. split; auto. split; auto. split; auto.
  pose proof Hedges as H. apply edges_ok_spec in H as (R & G); auto. apply faces_ok_spec; auto.
  split; auto. split; auto. cbn [with_faces p_face]. intros f Hf. destruct P as (P1 & P2 & P3).
  destruct (P1 f Hf) as (K1 & K2). split; auto. split; [|split; auto].
  - intros a Ha. apply P3. apply in_concat. eauto.
  - rewrite Forall_forall in S. auto.
Qed.

(** It succeeds exactly when such faces exist in the number Euler's formula asks for, there is
    room for them and none is longer than the number of edges. *)
Theorem regenerate_faces_succeeds :
  (exists d', pd_regenerate_faces d = Ok d') <->
  exists fs, face_partition d fs /\ length fs = ncross d + 2 /\ length fs <= MAXFACES d /\
    Forall (fun f => length f <= nedges d) fs.
Proof.
  destruct loop_cases as [(fs & E & P & L & M & _ & S & _)|(E & N)].
  - split; [|eauto]. intros _. exists fs. auto.
  - split; [intros (d' & H); congruence|]. intros (fs & P & L & M & S). exfalso. eapply N; eauto.
Qed.
End Consistent.

Example regenerate_faces_trefoil : pd_regenerate_faces (with_faces trefoil []) = Ok trefoil.
Proof. reflexivity. Qed.
Example trefoil_hyps : 0 < ncross trefoil /\ pd_edges_ok trefoil = Ok true /\ two_ended trefoil.
Proof. split; [cbn; lia|]. split; [reflexivity|apply two_ended_trefoil]. Qed.
(** a diagram that is not planar makes it stop *)
Example regenerate_faces_torus :
  pd_regenerate_faces (mkPd 2 0 [] [mkEdge 0 0 0 2; mkEdge 0 1 0 3] [mkCross 0 1 0 1 Unset] [] []) = Fail.
Proof. reflexivity. Qed.

Print Assumptions regenerate_faces_correct.
Print Assumptions regenerate_faces_succeeds.
