(** Lemmas for pd_regenerate. *)
From Coq Require Import List ZArith Lia Bool Arith Permutation Sorted.
From Verif Require Import Base Iterators Sorting Orbits Cycles CycleMatch Pd PdSpec PdProofs Relabel RelabelProofs RelabelSym
  Strands SlotCount PdCross PdCrossProofs PdEdges PdEdgesProofs PdComps PdCompsProofs PdFaces PdFacesProofs PdHash HashSpec
  HashProofs HashIso PdRegen RegenSpec Thm_Pd Thm_Cross Thm_Edges Thm_Comps Thm_Faces.
Import ListNotations.
Open Scope nat_scope.

(** ** Planarity and strands carry over *)
Section Carry.
Context (d d' : pd) (sigma rho pi : nat -> nat) (R : relabelled d d' sigma rho pi).
Context (E : ends_recorded d) (G : goes_through d) (T : two_ended d).
Lemma relabelled_partition : forall fs, face_partition d fs -> face_partition d' (map (map (rl_dart pi)) fs).
Proof.
  intros fs F. pose proof (rl_ends_recorded d d' sigma rho pi R E) as E'.
  pose proof (rl_two_ended d d' sigma rho pi R E T) as T'.
  apply faces_cycle in F; auto. apply faces_cycle; auto.
  apply (partition_map _ _ (turn d) (turn d') (darts d)); auto.
  - intros (a, o) (b, o') Ha Hb Q. apply in_darts in Ha, Hb. destruct Ha as (Ha & _), Hb as (Hb & _).
    unfold rl_dart in Q. cbn [fst snd] in *. apply pair_equal_spec in Q as (Q & ->). f_equal.
    apply (rl_pi _ _ _ _ _ R); auto.
  - intros (b, o). rewrite in_darts. split.
    + intros (Hb & O). cbn [fst snd] in *. rewrite (rl_nedges _ _ _ _ _ R) in Hb.
      destruct (bij_surj _ _ _ (rl_pi _ _ _ _ _ R) Hb) as (a & Ha & <-). exists (a, o). split; auto.
      apply in_darts. split; auto.
    + intros (a & Ha & ->). apply in_darts in Ha. eapply rl_is_dart; eauto.
  - intros a Ha. apply in_darts in Ha. symmetry. apply turn_left; auto.
    + eapply rl_is_dart; eauto.
    + eapply rl_left_turn; eauto. apply turn_left; auto.
Qed.
Lemma relabelled_planar : planar d -> planar d'.
Proof.
  intros (fs & F & L & B). exists (map (map (rl_dart pi)) fs). split; [apply relabelled_partition; auto|].
  rewrite map_length, (rl_ncross _ _ _ _ _ R), (rl_nedges _ _ _ _ _ R). split; auto.
  rewrite Forall_forall in *. intros f Hf. apply in_map_iff in Hf as (g & <- & Hg). rewrite map_length. auto.
Qed.
Lemma relabelled_strand_partition : forall L, strand_partition d L -> strand_partition d' (map (map pi) L).
Proof.
  intros L P. pose proof (rl_ends_recorded d d' sigma rho pi R E) as E'.
  pose proof (rl_goes_through d d' sigma rho pi R E G) as G'.
  apply strand_cycle in P; auto. apply strand_cycle; auto.
  apply (partition_map _ _ (succ d) (succ d') (seq 0 (nedges d))); auto.
  - intros a b Ha Hb. apply in_seq in Ha, Hb. apply (rl_pi _ _ _ _ _ R); lia.
  - intros b. rewrite in_seq, (rl_nedges _ _ _ _ _ R). split.
    + intros (_ & Hb). destruct (bij_surj _ _ _ (rl_pi _ _ _ _ _ R) Hb) as (a & Ha & <-). exists a. rewrite in_seq. split; auto. lia.
    + intros (a & Ha & ->). apply in_seq in Ha. split; [lia|]. apply (rl_pi _ _ _ _ _ R). lia.
  - intros a Ha. apply in_seq in Ha. symmetry. apply (continues_succ d' E' G'). eapply rl_continues; eauto.
    apply continues_succ; auto. split; [lia|auto].
Qed.
End Carry.

(** ** Which fields the steps look at *)
Definition same_core (d d' : pd) : Prop := p_maxv d = p_maxv d' /\ p_edge d = p_edge d' /\ p_cross d = p_cross d'.
Lemma next_edge_core : forall d d', same_core d d' -> next_edge_on_face d = next_edge_on_face d'.
Proof. intros d d' (M & E & C). unfold next_edge_on_face, nedges. rewrite E, C. reflexivity. Qed.
Lemma walk_core : forall d d', same_core d d' -> forall n s c, walk_face d s n c = walk_face d' s n c.
Proof.
  intros d d' H. induction n as [|n IH]; intros s c; cbn [walk_face]; auto. rewrite (next_edge_core d d' H).
  destruct (next_edge_on_face d' c); auto. cbn [bind]. rewrite IH. auto.
Qed.
Lemma faces_loop_core : forall d d', same_core d d' -> forall n s done, faces_loop d n s done = faces_loop d' n s done.
Proof.
  intros d d' H. pose proof H as (M & E & C).
  induction n as [|n IH]; intros s done; cbn [faces_loop]; auto. rewrite (walk_core d d' H).
  unfold nedges, MAXFACES, next_unassigned, later_pairs, nedges. rewrite E, M.
  destruct (walk_face d' s (length (p_edge d')) s); auto. cbn [bind]. destruct (p_maxv d' + 2 <=? length done); auto.
  destruct (find _ _); auto.
Qed.
Lemma regenerate_faces_core : forall d d' fs, same_core d d' -> pd_regenerate_faces d = Ok (with_faces d fs) ->
  pd_regenerate_faces d' = Ok (with_faces d' fs).
Proof.
  intros d d' fs H. pose proof H as (M & E & C). unfold pd_regenerate_faces, ncross, nedges, MAXFACES.
  rewrite (faces_loop_core d d' H), E, M, C.
  destruct (0 <? length (p_cross d')); [|discriminate]. destruct (1 <? length (p_edge d')); [|discriminate].
  destruct (faces_loop _ _ _ _); try discriminate. cbn [bind].
  destruct (_ =? _); [|discriminate]. intros Q. apply ok_inj in Q. f_equal.
  assert (Q2 := f_equal p_face Q). cbn [with_faces p_face] in Q2. rewrite Q2. auto.
Qed.

(** ** The last three steps *)
Section Tail.
Context (d : pd) (Hn : 0 < ncross d) (Hm : ncross d <= p_maxv d).
Context (R : ends_recorded d) (G : goes_through d) (T : two_ended d) (S : crossings_sorted d).
Context (L : list (list nat)) (HL : strand_partition d L) (LL : length L <= MAXCOMPONENTS d) (P : planar d).

Lemma regenerate_tail : exists d3 d4 d5 sigma rho pi,
  pd_regenerate_comps d = Ok d3 /\ pd_regenerate_faces d3 = Ok d4 /\ pd_regenerate_hash d4 = Ok d5 /\
  relabelled d d5 sigma rho pi /\ regular d5 /\ ncomps d5 = length L /\ p_maxv d5 = p_maxv d /\ p_uid d5 = p_uid d /\
  pd_regenerate_faces d5 = Ok d5 /\ pd_regenerate_hash d5 = Ok d5 /\
  (ncomps d5 <= 64 -> pd_ok d5 = Ok true).
Proof.
  assert (HC : pd_cross_ok d = Ok true) by (apply consistent_cross_ok; auto).
  assert (HE : pd_edges_ok d = Ok true) by (apply edges_ok_spec; auto).
  destruct (regenerate_comps_cases d Hn Hm HC HE) as (M & HM & _ & K & _).
  assert (EL : length M = length L) by (eapply strand_length; eauto).
  destruct (K ltac:(lia)) as (d3 & s & r & q & E3 & RL & S3 & C3 & Mv & Ui & Ha & Fa & Nc & NA & TG). clear K.
  pose proof (rl_ncross _ _ _ _ _ RL) as N3.
  pose proof (rl_ends_recorded _ _ _ _ _ RL R) as R3. pose proof (rl_two_ended _ _ _ _ _ RL R T) as T3.
  pose proof (rl_goes_through _ _ _ _ _ RL R G) as G3.
  assert (HE3 : pd_edges_ok d3 = Ok true) by (apply edges_ok_spec; auto; lia).
  destruct (relabelled_planar d d3 s r q RL R T P) as (fs & F1 & F2 & F3).
  destruct (loop_cases d3 ltac:(lia) HE3 T3) as [(gs & E4 & P4 & L4 & M4 & W4 & B4 & O4)|(_ & X)].
  2:{ exfalso. apply (X fs); auto. unfold MAXFACES. lia. }
  set (d4 := with_faces d3 gs) in *.
  assert (FD : faced d4) by (apply partition_faced; auto; [change (0 < ncross d3); lia|apply R3]).
  pose proof (hash_data_ok d4 FD) as H5.
  eexists d3, d4, _, s, r, q. split; auto. split; auto. split.
  { unfold pd_regenerate_hash. rewrite H5. cbn [bind]. reflexivity. }
  set (d5 := with_hash d4 _).
  assert (Rg : regular d5).
  { constructor; auto. }
  split; [destruct RL; constructor; auto|]. split; auto. split; [change (ncomps d3 = length L); lia|]. split; auto. split; auto.
  split; [exact (regenerate_faces_core d3 d5 gs ltac:(repeat split) E4)|].
  split; [unfold pd_regenerate_hash; change (hash_data d5) with (hash_data d4); rewrite H5; reflexivity|].
  intros N64. destruct (regenerate_comps_valid d d3 Hn T E3 N64) as (V1 & V2 & V3 & _).
  unfold pd_ok. rewrite !and_ok_true. split; auto. split; auto. split; [|rewrite <- V3; unfold pd_comps_ok; rewrite (comps_walk_ext d5 d3) by reflexivity; reflexivity].
  apply (faces_ok_spec d5); [change (0 < ncross d3); lia|apply R3|]. split; [exact M4|]. split; [|exact O4].
  intros f Hf. destruct P4 as (P1 & P2 & P3). destruct (P1 f Hf) as (K1 & K2). split; auto. split; [|split; auto].
  - intros a Ha'. apply P3. apply in_concat. eauto.
  - rewrite Forall_forall in W4. auto.
Qed.
End Tail.

(** ** Running pd_regenerate again *)
Lemma signed_not_unset : forall d, signed d -> all_signs_unset d = false.
Proof.
  intros d (c & s & (x & Hx & <-) & N). apply not_true_is_false. intros F. unfold all_signs_unset in F.
  rewrite forallb_forall in F. specialize (F x (nth_error_In _ _ Hx)). destruct (csign x); try discriminate. auto.
Qed.
Lemma unsigned_unset : forall d, unsigned d -> all_signs_unset d = true.
Proof.
  intros d H. unfold all_signs_unset. apply forallb_forall. intros x Hx. apply In_nth_error in Hx as (c & Hx).
  rewrite (H c (csign x)); [reflexivity|]. exists x; auto.
Qed.
Lemma relabelled_signed : forall d d' s r q, relabelled d d' s r q -> signed d -> signed d'.
Proof. intros d d' s r q R (c & o & H & N). exists (s c), o. split; auto. eapply rl_sign; eauto. Qed.

(** a regular diagram whose faces and hash come out of the last steps is a fixed point *)
Lemma regenerate_fixed : forall d, 0 < ncross d -> ncross d <= p_maxv d -> ncomps d <= MAXCOMPONENTS d ->
  regular d -> signed d ->
  pd_regenerate_faces d = Ok d -> pd_regenerate_hash d = Ok d -> pd_regenerate d = Ok d.
Proof.
  intros d Hn Hm Hc [R G T C NA TG F NF LO SO] Sg HF HH.
  unfold pd_regenerate. rewrite regenerate_canonical_fixed; auto using recorded_in_range. cbn [bind].
  unfold regenerate_edges_if_needed. rewrite signed_not_unset by auto.
  assert (HE : pd_edges_ok d = Ok true) by (apply edges_ok_spec; auto). rewrite HE. cbn [bind].
  rewrite regenerate_comps_fixed; auto.
  2:{ apply consistent_cross_ok; auto. apply C. }
  cbn [bind]. rewrite HF. cbn [bind]. auto.
Qed.

(** ** Success means that there was room and the diagram is planar *)
Definition regenerate_rest (d : pd) : res pd :=
  bind (pd_regenerate_comps d) (fun d3 => bind (pd_regenerate_faces d3) pd_regenerate_hash).
Lemma rest_inv : forall d d', 0 < ncross d -> ncross d <= p_maxv d ->
  ends_recorded d -> goes_through d -> two_ended d -> crossings_sorted d -> regenerate_rest d = Ok d' ->
  planar d /\ exists L, strand_partition d L /\ length L <= MAXCOMPONENTS d.
Proof.
  intros d d' Hn Hm R G T S E.
  assert (HC : pd_cross_ok d = Ok true) by (apply consistent_cross_ok; auto).
  assert (HE : pd_edges_ok d = Ok true) by (apply edges_ok_spec; auto).
  apply bind_ok in E as (d3 & E3 & E). apply bind_ok in E as (d4 & E4 & _).
  destruct (regenerate_comps_cases d Hn Hm HC HE) as (L & HL & _ & K1 & K2).
  destruct (le_lt_dec (length L) (MAXCOMPONENTS d)) as [LL|LL].
  2:{ rewrite (K2 LL) in E3. discriminate. }
  split; [|eauto].
  destruct (K1 LL) as (d2 & s & r & q & E2 & RL & S3 & C3 & Mv & _). rewrite E2 in E3. apply ok_inj in E3. subst d2.
  pose proof (rl_ends_recorded _ _ _ _ _ RL R) as R3. pose proof (rl_two_ended _ _ _ _ _ RL R T) as T3.
  pose proof (rl_goes_through _ _ _ _ _ RL R G) as G3.
  pose proof (rl_ncross _ _ _ _ _ RL) as N3.
  assert (HE3 : pd_edges_ok d3 = Ok true) by (apply edges_ok_spec; auto; lia).
  destruct (proj1 (regenerate_faces_succeeds d3 ltac:(lia) HE3 T3) (ex_intro _ d4 E4)) as (fs & F1 & F2 & _ & F3).
  destruct (rl_sym d d3 s r q R T RL) as (s' & r' & q' & RL').
  apply (relabelled_planar d3 d s' r' q' RL' R3 T3). exists fs; auto.
Qed.
Lemma regenerate_rest_ok : forall d L, 0 < ncross d -> ncross d <= p_maxv d ->
  ends_recorded d -> goes_through d -> two_ended d -> crossings_sorted d ->
  strand_partition d L -> length L <= MAXCOMPONENTS d -> planar d ->
  exists d' sigma rho pi, regenerate_rest d = Ok d' /\
  relabelled d d' sigma rho pi /\ regular d' /\ ncomps d' = length L /\ p_maxv d' = p_maxv d /\ p_uid d' = p_uid d /\
  pd_regenerate_faces d' = Ok d' /\ pd_regenerate_hash d' = Ok d' /\
  (ncomps d' <= 64 -> pd_ok d' = Ok true).
Proof.
  intros d L Hn Hm R G T S HL LL P.
  destruct (regenerate_tail d Hn Hm R G T S L HL LL P) as (d3 & d4 & d5 & s & r & q & E3 & E4 & E5 & K).
  exists d5, s, r, q. split; auto. unfold regenerate_rest. rewrite E3. cbn [bind]. rewrite E4. cbn [bind]. auto.
Qed.

(** ** Fresh edge records *)
Lemma rotate_left_perm : forall c k, k < 4 -> Permutation (cross_edges (rotate_left c k)) (cross_edges c).
Proof.
  intros [a b e g s] k Hk. destruct (small4 k Hk) as [->|[->|[->| ->]]]; unfold rotate_left, cross_edges; cbn [cedge ce0 ce1 ce2 ce3].
  - apply Permutation_refl.
  - exact (Permutation_app_comm [b; e; g] [a]).
  - exact (Permutation_app_comm [e; g] [a; b]).
  - exact (Permutation_app_comm [g] [a; b; e]).
Qed.
Section Fresh.
Context (d d1 : pd) (Hr : ends_in_range d) (E1 : pd_regenerate_crossings d = Ok d1).
Lemma crossings_twice : each_edge_twice d -> each_edge_twice d1.
Proof.
  intros H. destruct (regenerate_spec d Hr) as (d2 & num & E2 & Ed & L & B & I & RL & S).
  rewrite E2 in E1. apply ok_inj in E1. subst d2. intros e He. rewrite (rl_ncross _ _ _ _ _ RL) in He.
  rewrite <- (H e He). apply Permutation_count_occ. rewrite Ed. cbn [with_cross p_cross].
  transitivity (flat_map cross_edges (rot_cross d)).
  - apply Permutation_flat_map. transitivity (map (fun i => nth i (rot_cross d) no_cross) (seq 0 (ncross d))).
    + apply Permutation_map, cperm_perm.
    + rewrite <- (PdCrossProofs.rot_length d). rewrite map_nth_seq. apply Permutation_refl.
  - unfold rot_cross. rewrite !flat_map_concat_map, map_map. clear. induction (p_cross d) as [|x l IH]; cbn [map concat]; auto.
    apply Permutation_app; auto. apply rotate_left_perm, rdist_lt.
Qed.
Lemma crossings_across : no_edge_across d -> no_edge_across d1.
Proof.
  intros H. destruct (regenerate_spec d Hr) as (d2 & num & E2 & Ed & L & B & I & RL & S).
  rewrite E2 in E1. apply ok_inj in E1. subst d2. intros c' p' e S1 S2.
  destruct (slot_back d d1 _ _ _ RL c' p' e S1) as (c & p & e1 & S1' & -> & -> & ->).
  pose proof (slot_lt _ _ _ _ S1') as (Hc & Hp).
  destruct (nth_error (p_cross d) c) as [x|] eqn:X.
  2:{ apply nth_error_None in X. unfold ncross in Hc. lia. }
  assert (S3 : slot d c ((p + 2) mod 4) (cedge x ((p + 2) mod 4))) by (split; [apply mod4_lt|eauto]).
  pose proof (rl_slot _ _ _ _ _ RL _ _ _ S3) as S4.
  rewrite (rl_shift_slot _ _ _ _ _ RL) in S4 by auto. 
  pose proof (slot_fun _ _ _ _ _ S2 S4) as Q. cbv beta in Q. apply (H c p e1); auto. rewrite Q. auto.
Qed.
End Fresh.

Section Pull.
Context (d d1 : pd) (sigma rho pi : nat -> nat) (RL : relabelled d d1 sigma rho (fun e => e)).
Definition pull (E : edge) : edge :=
  let h := moved (sigma' d sigma) (rho' d sigma rho) (e_head E) (e_headpos E) in
  let t := moved (sigma' d sigma) (rho' d sigma rho) (e_tail E) (e_tailpos E) in
  mkEdge (fst h) (snd h) (fst t) (snd t).
Lemma pull_relabelled : forall es,
  relabelled (with_edges d1 es) (with_edges d (map pull es)) (sigma' d sigma) (rho' d sigma rho) (fun e => e).
Proof.
  intros es. pose proof (rl_ncross _ _ _ _ _ RL) as Nc. pose proof (rl_sigma _ _ _ _ _ RL) as Bs. constructor.
  - symmetry. exact Nc.
  - unfold nedges. cbn [with_edges p_edge]. apply map_length.
  - change (ncross (with_edges d1 es)) with (ncross d1). rewrite Nc. apply bij_inv; auto.
  - intros c Hc. apply mod4_lt.
  - apply bij_id.
  - intros c' p' e' H. change (slot d1 c' p' e') in H.
    destruct (slot_back d d1 _ _ _ RL c' p' e' H) as (c & p & e & S & -> & -> & ->).
    pose proof (slot_lt _ _ _ _ S) as (Hc & Hp).
    rewrite (moved_back d d1 sigma rho _ RL) by auto. cbn [snd]. unfold sigma'. rewrite inv_left by auto. exact S.
  - intros c' s (x' & Hx' & Es). assert (Hc' : c' < ncross d1) by (apply nth_error_Some; cbn in Hx'; congruence).
    apply (cross_back d d1 sigma rho _ RL) in Hc' as (c & Hc & ->). unfold sigma'. rewrite inv_left by auto.
    destruct (nth_error (p_cross d) c) as [x|] eqn:X.
    2:{ apply nth_error_None in X. unfold ncross in Hc. lia. }
    destruct (rl_sign _ _ _ _ _ RL c (csign x)) as (y & Hy & Ey); [exists x; auto|].
    change (nth_error (p_cross d1) (sigma c) = Some x') in Hx'. rewrite Hx' in Hy. injection Hy as <-.
    exists x. split; auto. congruence.
  - intros e E H. exists (pull E). unfold edge_at in *. cbn [with_edges p_edge] in *. rewrite nth_error_map, H.
    split; [reflexivity|]. split; reflexivity.
Qed.
End Pull.

Lemma drop_relabelled : forall d d1 s r q, relabelled d d1 s r q -> relabelled (drop_signs d) (drop_signs d1) s r q.
Proof.
  assert (NC : forall d, ncross (drop_signs d) = ncross d) by (intros; apply map_length).
  assert (SL : forall d c p e, slot (drop_signs d) c p e <-> slot d c p e).
  { intros d c p e. unfold slot. cbn [drop_signs with_cross p_cross]. rewrite nth_error_map. split.
    - intros (Hp & x & Hx & E). split; auto. destruct (nth_error (p_cross d) c) as [y|]; [|discriminate].
      cbn in Hx. injection Hx as <-. exists y. split; auto.
    - intros (Hp & x & Hx & E). split; auto. rewrite Hx. exists (drop_sign x). split; auto. }
  intros d d1 s r q [H1 H2 H3 H4 H5 H6 H7 H8]. constructor; rewrite ?NC; auto.
  - intros c p e. rewrite !SL. apply H6.
  - intros c o (x & Hx & E). cbn [drop_signs with_cross p_cross] in Hx. rewrite nth_error_map in Hx.
    destruct (nth_error (p_cross d) c) as [y|] eqn:Y; [|discriminate]. cbn in Hx. injection Hx as <-. cbn in E.
    destruct (H7 c (csign y)) as (z & Hz & _); [exists y; auto|].
    exists (drop_sign z). split; auto. cbn [drop_signs with_cross p_cross]. rewrite nth_error_map, Hz. auto.
Qed.
Lemma drop_slots : forall d c p e, slot (drop_signs d) c p e <-> slot d c p e.
Proof.
  intros d c p e. unfold slot. cbn [drop_signs with_cross p_cross]. rewrite nth_error_map. split.
  - intros (Hp & x & Hx & E). split; auto. destruct (nth_error (p_cross d) c) as [y|]; [|discriminate].
    cbn in Hx. injection Hx as <-. exists y. split; auto.
  - intros (Hp & x & Hx & E). split; auto. rewrite Hx. exists (drop_sign x). split; auto.
Qed.
Lemma drop_twice : forall d, each_edge_twice d -> each_edge_twice (drop_signs d).
Proof.
  intros d H e He. unfold ncross in He. cbn [drop_signs with_cross p_cross] in *. rewrite map_length in He.
  rewrite <- (H e He). f_equal. rewrite !flat_map_concat_map, map_map. f_equal.
Qed.
Lemma drop_across : forall d, no_edge_across d -> no_edge_across (drop_signs d).
Proof. intros d H c p e S1 S2. rewrite drop_slots in S1, S2. exact (H c p e S1 S2). Qed.
Lemma drop_unsigned : forall d, unsigned d -> drop_signs d = d.
Proof.
  intros d H. unfold drop_signs. rewrite (map_ext_in _ (fun x => x)).
  - rewrite map_id. destruct d; reflexivity.
  - intros x Hx. apply In_nth_error in Hx as (c & Hx). pose proof (H c (csign x) ltac:(exists x; auto)) as Q.
    destruct x; cbn in *. subst; auto.
Qed.
Lemma drop_ncross : forall d, ncross (drop_signs d) = ncross d.
Proof. intros; apply map_length. Qed.
Lemma relabelled_unsigned : forall d d' s r q, relabelled d d' s r q -> unsigned d -> unsigned d'.
Proof.
  intros d d' s r q RL H c' o (x & Hx & <-). assert (Hc : c' < ncross d') by (apply nth_error_Some; congruence).
  apply (cross_back d d' s r q RL) in Hc as (c & Hc & ->). destruct (nth_error (p_cross d) c) as [y|] eqn:Y.
  2:{ apply nth_error_None in Y. unfold ncross in Hc. lia. }
  destruct (rl_sign _ _ _ _ _ RL c (csign y)) as (z & Hz & Ez); [exists y; auto|].
  rewrite Hx in Hz. injection Hz as <-. rewrite Ez. apply (H c). exists y; auto.
Qed.
Lemma sorted_cross : forall d d', map cross_edges (p_cross d') = map cross_edges (p_cross d) ->
  crossings_sorted d -> crossings_sorted d'.
Proof. intros d d' E H. unfold crossings_sorted in *. rewrite E. auto. Qed.

(** the middle step, when the edge records are made afresh *)
Lemma fresh_step : forall d d1, 0 < ncross d -> ends_in_range d -> each_edge_twice d -> no_edge_across d ->
  unsigned d \/ nedges d <> 2 * ncross d ->
  pd_regenerate_crossings d = Ok d1 ->
  exists d2 es s r q, regenerate_edges_if_needed d1 = Ok d2 /\
    ends_recorded d2 /\ goes_through d2 /\ two_ended d2 /\ crossings_sorted d2 /\
    ncross d2 = ncross d /\ p_maxv d2 = p_maxv d /\ p_uid d2 = p_uid d /\
    ends_recorded (with_edges (drop_signs d) es) /\ goes_through (with_edges (drop_signs d) es) /\
    two_ended (with_edges (drop_signs d) es) /\
    relabelled (with_edges (drop_signs d) es) d2 s r q.
Proof.
  intros d d1 Hn Hr H2 HA HU E1.
  pose proof (crossings_twice d d1 Hr E1 H2) as H2'. pose proof (crossings_across d d1 Hr E1 HA) as HA'.
  destruct (regenerate_spec d Hr) as (dd & num & E2 & Ed & L & B & I & RL & S).
  rewrite E2 in E1. apply ok_inj in E1. subst dd.
  pose proof (rl_ncross _ _ _ _ _ RL) as Nc.
  destruct (regenerate_edges_succeeds (drop_signs d1)) as (es1 & E3 & R2 & T2 & G2).
  { rewrite drop_ncross. lia. } { apply drop_twice; auto. } { apply drop_across; auto. }
  set (d2 := with_edges (drop_signs d1) es1) in *.
  assert (M : regenerate_edges_if_needed d1 = Ok d2).
  { unfold regenerate_edges_if_needed. destruct (all_signs_unset d1) eqn:A.
    - assert (U : unsigned d1).
      { intros c s (x & Hx & <-). unfold all_signs_unset in A. rewrite forallb_forall in A.
        specialize (A x (nth_error_In _ _ Hx)). destruct (csign x); auto; discriminate. }
      rewrite <- (drop_unsigned d1 U) at 1. auto.
    - destruct HU as [U|U].
      + apply (relabelled_unsigned _ _ _ _ _ RL) in U. rewrite (unsigned_unset d1 U) in A. discriminate.
      + unfold pd_edges_ok. rewrite (rl_nedges _ _ _ _ _ RL), Nc.
        destruct (Nat.eqb_spec (ncross d) 0); [lia|]. destruct (Nat.eqb_spec (nedges d) (ncross d * 2)); [lia|].
        cbn [negb andb bind]. auto. }
  pose proof (drop_relabelled _ _ _ _ _ RL) as RL'.
  pose proof (pull_relabelled _ _ _ _ RL' es1) as RP. fold d2 in RP.
  pose proof (rl_ends_recorded _ _ _ _ _ RP R2) as R0. pose proof (rl_two_ended _ _ _ _ _ RP R2 T2) as T0.
  pose proof (rl_goes_through _ _ _ _ _ RP R2 G2) as G0.
  destruct (rl_sym _ _ _ _ _ R2 T2 RP) as (s & r & q & RQ).
  exists d2. do 4 eexists. split; [exact M|]. split; auto. split; auto. split; auto. split.
  { apply (sorted_cross d1); auto. unfold d2. cbn [with_edges drop_signs with_cross p_cross].
    rewrite map_map. apply map_ext. intros []; auto. }
  split; [change (ncross (drop_signs d1) = ncross d); rewrite drop_ncross; auto|].
  split; [unfold d2; rewrite Ed; reflexivity|]. split; [unfold d2; rewrite Ed; reflexivity|].
  split; [exact R0|]. split; [exact G0|]. split; [exact T0|]. exact RQ.
Qed.
