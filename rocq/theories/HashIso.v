(** Renumbered diagrams have the same faces and strands. *)
From Coq Require Import List ZArith Lia Bool Arith Permutation Sorted.
From Verif Require Import Base Iterators Sorting Orbits Cycles CycleMatch Pd PdSpec PdProofs Relabel RelabelProofs
  Strands PdFaces PdFacesProofs PdCompsProofs PdHash HashSpec HashProofs Thm_Pd Thm_Faces.
Import ListNotations.
Open Scope nat_scope.

Lemma partition_faced : forall d, 0 < ncross d -> nedges d = 2 * ncross d -> face_partition d (p_face d) -> faced d.
Proof.
  intros d Hn He (F & N & C).
  assert (P : Permutation (concat (p_face d)) (darts d)).
  { apply NoDup_Permutation; auto using NoDup_darts. intros a. rewrite C, in_darts. tauto. }
  split; [|split].
  - intros E. rewrite E in *. assert (I : In (0, Pos) (@nil dart)); [|destruct I].
    apply (C (0, Pos)). split; cbn; auto. lia.
  - intros I. apply in_map_iff in I as (f & E & Hf). apply map_eq_nil in E. subst. destruct (F [] Hf); auto.
  - intros e. unfold face_edges. rewrite <- concat_map.
    rewrite (proj1 (Permutation_count_occ Nat.eq_dec _ _) (Permutation_map fst P) e).
    unfold darts. clear. generalize (nedges d) as n. intros n.
    assert (K : forall k, count_occ Nat.eq_dec (map fst (flat_map (fun i => [(i, Pos); (i, Neg)]) (seq k n))) e =
      if (k <=? e) && (e <? k + n) then 2 else 0).
    { induction n as [|n IH]; intros k.
      - cbn [seq flat_map map count_occ]. destruct (Nat.leb_spec k e), (Nat.ltb_spec e (k + 0)); auto; lia.
      - cbn [seq flat_map app map fst count_occ]. rewrite IH.
        destruct (Nat.eq_dec k e) as [->|Q].
        + rewrite Nat.leb_refl. rewrite (proj2 (Nat.leb_gt (S e) e)) by lia. cbn [andb].
          destruct (Nat.ltb_spec e (e + S n)); auto; lia.
        + destruct (Nat.leb_spec (S k) e), (Nat.leb_spec k e), (Nat.ltb_spec e (S k + n)), (Nat.ltb_spec e (k + S n)); auto; lia. }
    apply (K 0).
Qed.

Lemma faces_cycle : forall d fs, ends_recorded d -> two_ended d ->
  face_partition d fs <-> cycle_partition (turn d) (darts d) fs.
Proof.
  intros d fs R T.
  assert (B : forall c, (forall a, In a c -> is_dart d a) -> cyclically (left_turn d) c <->
     forall i x y, nth_error c i = Some x -> nth_error c ((i + 1) mod length c) = Some y -> y = turn d x).
  { intros c Hc. split; intros H i x y Hx Hy; specialize (H i x y Hx Hy);
      apply (turn_left d R T x y (Hc x (nth_error_In _ _ Hx))); auto. }
  unfold face_partition, cycle_partition. rewrite Forall_forall. split; intros (H1 & H2 & H3); (split; [|split; auto]).
  - intros c Hc. destruct (H1 c Hc) as (A & C). split; auto. apply B; auto. intros a Ha. apply H3, in_concat. eauto.
  - intros x. rewrite H3, in_darts. tauto.
  - intros c Hc. destruct (H1 c Hc) as (A & C). split; auto. apply B; auto. intros a Ha. apply in_darts, H3, in_concat. eauto.
  - intros x. rewrite H3, in_darts. tauto.
Qed.

Section Iso.
Context (d d' : pd) (sigma rho pi : nat -> nat) (R : relabelled d d' sigma rho pi).
Context (E : ends_recorded d) (G : goes_through d) (T : two_ended d).

Lemma relabelled_faces : face_partition d (p_face d) -> face_partition d' (p_face d') ->
  exists phi, same_faces d d' pi phi.
Proof.
  intros F F'. pose proof (rl_ends_recorded d d' sigma rho pi R E) as E'.
  pose proof (rl_two_ended d d' sigma rho pi R E T) as T'.
  apply faces_cycle in F; auto. apply faces_cycle in F'; auto.
  set (h := rl_dart pi).
  assert (P : cycle_partition (turn d') (darts d') (map (map h) (p_face d))).
  { apply (partition_map _ _ (turn d) (turn d') (darts d)); auto.
    - intros (a, o) (b, o') Ha Hb Q. apply in_darts in Ha, Hb. destruct Ha as (Ha & _), Hb as (Hb & _).
      unfold h, rl_dart in Q. cbn [fst snd] in *. apply pair_equal_spec in Q as (Q & ->). f_equal.
      apply (rl_pi _ _ _ _ _ R); auto.
    - intros (b, o). rewrite in_darts. split.
      + intros (Hb & O). cbn [fst snd] in *. rewrite (rl_nedges _ _ _ _ _ R) in Hb.
        destruct (bij_surj _ _ _ (rl_pi _ _ _ _ _ R) Hb) as (a & Ha & <-). exists (a, o). split; auto.
        apply in_darts. split; auto.
      + intros (a & Ha & ->). apply in_darts in Ha. eapply rl_is_dart; eauto.
    - intros a Ha. apply in_darts in Ha. symmetry. apply turn_left; auto.
      + eapply rl_is_dart; eauto.
      + eapply rl_left_turn; eauto. apply turn_left; auto. }
  pose proof (match_bij (turn d') (darts d') dart_dec (turn_closed d' E' T') (turn_inj d' E' T') _ _ P F') as (L & B).
  pose proof (match_spec (turn d') (darts d') dart_dec _ _ P F') as S.
  rewrite map_length in L, B.
  exists (match_block dart_dec (map (map h) (p_face d)) (p_face d')). constructor; auto.
  - apply (rl_nedges _ _ _ _ _ R).
  - apply (rl_pi _ _ _ _ _ R).
  - intros i f Hf. unfold face_edges in Hf. rewrite nth_error_map in Hf.
    destruct (nth_error (p_face d) i) as [g|] eqn:Q; [|discriminate]. cbn in Hf. injection Hf as <-.
    destruct (S i (map h g)) as (c & Hc & Rc); [rewrite nth_error_map, Q; auto|].
    exists (map fst c). split; [unfold face_edges; rewrite nth_error_map, Hc; auto|].
    left. apply (rotation_map _ _ fst) in Rc. rewrite map_map in *. exact Rc.
Qed.

Lemma relabelled_strands : forall L L', strand_partition d L -> strand_partition d' L' ->
  Permutation (map (@length nat) L) (map (@length nat) L').
Proof.
  intros L L' P P'. pose proof (rl_ends_recorded d d' sigma rho pi R E) as E'.
  pose proof (rl_goes_through d d' sigma rho pi R E G) as G'.
  apply strand_cycle in P; auto. apply strand_cycle in P'; auto.
  assert (Q : cycle_partition (succ d') (seq 0 (nedges d')) (map (map pi) L)).
  { apply (partition_map _ _ (succ d) (succ d') (seq 0 (nedges d))); auto.
    - intros a b Ha Hb. apply in_seq in Ha, Hb. apply (rl_pi _ _ _ _ _ R); lia.
    - intros b. rewrite in_seq, (rl_nedges _ _ _ _ _ R). split.
      + intros (_ & Hb). destruct (bij_surj _ _ _ (rl_pi _ _ _ _ _ R) Hb) as (a & Ha & <-). exists a. rewrite in_seq. split; auto. lia.
      + intros (a & Ha & ->). apply in_seq in Ha. split; [lia|]. apply (rl_pi _ _ _ _ _ R). lia.
    - intros a Ha. apply in_seq in Ha. symmetry. apply (continues_succ d' E' G'). eapply rl_continues; eauto.
      apply continues_succ; auto. split; [lia|auto]. }
  pose proof (match_bij (succ d') (seq 0 (nedges d')) Nat.eq_dec (D_closed d' G') (D_inj d' E' G') _ _ Q P') as (Len & B).
  pose proof (match_spec (succ d') (seq 0 (nedges d')) Nat.eq_dec _ _ Q P') as S.
  set (phi := match_block Nat.eq_dec (map (map pi) L) L') in *. rewrite map_length in Len, B.
  rewrite <- (map_nth_all _ _ (@length nat) L []), <- (map_nth_all _ _ (@length nat) L' []). rewrite Len.
  transitivity (map (fun i => length (nth i L' [])) (map phi (seq 0 (length L)))).
  - rewrite map_map. erewrite map_ext_in; [reflexivity|]. intros i Hi. apply in_seq in Hi.
    destruct (S i (map pi (nth i L []))) as (c & Hc & Rc).
    { rewrite nth_error_map, (nth_error_nth' L []) by lia. auto. }
    rewrite (nth_error_nth _ _ _ Hc). rewrite <- (Permutation_length (rotation_perm _ _ _ Rc)). symmetry. apply map_length.
  - apply Permutation_map, bij_perm; auto.
Qed.
End Iso.

Lemma numbered_strands : forall d, numbered_along d -> strand_partition d (map cp_edge (p_comp d)).
Proof.
  intros d (C & S & _). split; [|split].
  - intros c Hc. apply in_map_iff in Hc as (x & <- & Hx). auto.
  - rewrite C. apply seq_NoDup.
  - intros e. rewrite C, in_seq. lia.
Qed.
