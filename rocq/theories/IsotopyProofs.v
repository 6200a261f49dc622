(** Lemmas for the diagram isotopies. *)
From Coq Require Import List ZArith Lia Bool Arith Permutation Sorted.
From Verif Require Import Base ListAux Iterators PermData Perm PermProofs Sorting Cycles Pd PdSpec PdProofs PdFaces PdFacesProofs PdCross Relabel RelabelProofs
  PdCrossProofs HashSpec HashProofs RegenSpec PdIso IsoSpec IsoOpsProofs DiagIso IsoSound Planar Carry LinkProofs Thm_Planar DartMap AlikeProofs IsoImages IsoEnum IsoEdges
  IsoComplete IsotopySpec Thm_IsoComplete.
From Verif Require IteratorsProofs Thm_Iterators PdCompsProofs.
Import ListNotations.
Open Scope nat_scope.
Open Scope res_scope.

(** * The cyclic groups *)
Notation cstates := (state_of (list nat) pd_ncyclics (fun o i => IteratorsProofs.rot (length o) i)).
Lemma cyclic_step : forall n i, 1 <= n -> pd_increment_cyclic (IteratorsProofs.rot n i) = Ok (IteratorsProofs.rot n (S i)).
Proof.
  intros n i Hn. rewrite <- (IteratorsProofs.cyclic_calls n (S i)) by auto. cbn [IteratorsProofs.calls]. rewrite IteratorsProofs.cyclic_calls by auto. reflexivity.
Qed.
Lemma cyclic_turns : forall n, 1 <= n -> turns_ok (list nat) pd_increment_cyclic pd_ncyclics (fun o i => IteratorsProofs.rot (length o) i) (pd_new_cyclic n).
Proof.
  intros n Hn. destruct (Thm_Iterators.cyclic_iterator n Hn) as (st & RUN & LEN & _ & _ & DIF & BACK & NV & _).
  assert (E : forall k, st k = IteratorsProofs.rot n k).
  { intros k. specialize (RUN k). rewrite IteratorsProofs.cyclic_calls in RUN by auto. congruence. }
  unfold turns_ok. rewrite NV. assert (L : length (pd_new_cyclic n) = n) by (apply seq_length). rewrite L.
  split; [lia|]. split; [|split; [|split]].
  - rewrite <- E. specialize (RUN 0). cbn in RUN. congruence.
  - rewrite <- E. auto.
  - intros i Hi. rewrite Nat.add_1_r. apply cyclic_step; auto.
  - intros i j Hi Hj H. rewrite <- !E in H. destruct (Nat.lt_trichotomy i j) as [X|[X|X]]; auto; exfalso.
    + apply (DIF i j); auto.
    + apply (DIF j i); auto.
Qed.
(** they are the elements of the dihedral groups that keep the orientation *)
Lemma cyclic_dihedral : forall n m, 1 <= n -> (cstates (pd_new_cyclic n) m <-> dstates (pd_new_dihedral n) (mkD m Pos)).
Proof.
  intros n m Hn. assert (L : length (pd_new_cyclic n) = n) by (apply seq_length).
  destruct (Thm_Iterators.cyclic_iterator n Hn) as (st & RUN & LEN & NTH & _).
  assert (E : forall k, st k = IteratorsProofs.rot n k).
  { intros k. specialize (RUN k). rewrite IteratorsProofs.cyclic_calls in RUN by auto. congruence. }
  split.
  - intros (i & Hi & ->). unfold pd_ncyclics in Hi. rewrite L in Hi. rewrite L. rewrite <- E. destruct (dihedral_all n i Pos) as (dh & S & O & LD & K); [auto|left; auto|].
    replace (mkD (st i) Pos) with dh; auto. destruct dh as [dm o]. cbn in *. subst o. f_equal. apply (nth_ext _ _ 0 0); [rewrite LEN; auto|]. intros k Hk. rewrite K, NTH by lia. auto.
  - intros S. destruct (dihedral_member n _ Hn S) as (LD & _ & _ & r & Hr & K). cbn [dmap dor] in *. exists r. unfold pd_ncyclics. rewrite L. split; auto. rewrite <- E.
    apply (nth_ext _ _ 0 0); [rewrite LEN; auto|]. intros k Hk. rewrite K, NTH by lia. auto.
Qed.

Section Edges.
Context (A B : pd) (SA : sphere A) (SB : sphere B) (NE : nedges B = nedges A) (NC : ncomps B = ncomps A).
Context (cp : perm) (GC : good_perm (ncomps A) cp).
Let to (i : nat) : nat := nth i (pmap cp) 0.
Context (SZ : forall i CA CB, nth_error (p_comp A) i = Some CA -> nth_error (p_comp B) (to i) = Some CB -> length (cp_edge CB) = length (cp_edge CA)).
Context (WE : (Z.of_nat (Thm_Iterators.product (comp_sizes A)) < 2 ^ 32)%Z).
Definition fwd (cs : list (list nat)) : list dihedral := map (fun m => mkD m Pos) cs.

Lemma forward_or : forall cs em, good_dihedrals A (fwd cs) -> of_dihedrals A B cp (fwd cs) em -> forall e, e < nedges A -> nth_error (em_or em) e = Some Pos.
Proof.
  intros cs em (L & G) (_ & _ & P) e He. destruct (edge_comp A e SA He) as (i & C & HC & I). destruct (G i C HC) as (dh & HD & _).
  destruct (target A B NE NC cp GC SZ i C HC) as (C' & HC' & _). apply In_nth with (d := 0) in I as (k & Hk & <-). destruct (P i dh HD C C' HC HC' k Hk) as (_ & ->).
  unfold fwd in HD. rewrite nth_error_map in HD. destruct (nth_error cs i); [|discriminate]. cbn in HD. injection HD as <-. reflexivity.
Qed.

Theorem oriented_edgemaps_spec : exists l, pd_build_oriented_edgemaps A B cp = Ok l /\ pd_edgemaps_ok l = Ok true /\ NoDup (map em_key l) /\
  (forall em, In em l -> good_em A B cp em /\ forall e, e < nedges A -> nth_error (em_or em) e = Some Pos) /\
  (forall m, (forall i CA, nth_error (p_comp A) i = Some CA -> exists CB, nth_error (p_comp B) (to i) = Some CB /\ rotation (cp_edge CB) (map m (cp_edge CA))) ->
    exists em, In em l /\ forall e, e < nedges A -> nth e (pmap (em_perm em)) 0 = m e).
Proof.
  assert (NV : forall n, pd_ncyclics (pd_new_cyclic n) = n) by (intros n; apply (seq_length n 0)).
  assert (NZ : forall i C, nth_error (p_comp A) i = Some C -> 1 <= length (cp_edge C)) by (intros i C H; apply (comp_nonempty A i C SA H)).
  destruct (all_states_spec (list nat) pd_increment_cyclic pd_ncyclics (fun o i => IteratorsProofs.rot (length o) i) (map pd_new_cyclic (comp_sizes A))) as (sts & E & ND & NEm & ALL).
  - apply Forall_forall. intros o I. apply in_map_iff in I as (n & <- & I). apply in_map_iff in I as (C & <- & I). apply In_nth_error in I as (i & Hi).
    apply cyclic_turns. eauto.
  - rewrite map_map. erewrite map_ext; [rewrite map_id; exact WE|]. auto.
  - assert (ALL' : forall v, In v sts <-> good_dihedrals A (fwd v)).
    { intros v. rewrite ALL. unfold comp_sizes. rewrite map_map, forall2_map. unfold good_dihedrals, ncomps, fwd. clear - NZ.
      revert v. induction (p_comp A) as [|C cs IH]; intros v; split.
      - intros H. inversion H; subst. split; auto. intros i CA X. destruct i; discriminate.
      - intros (L & _). destruct v; [constructor|discriminate].
      - intros H. inversion H as [|? dh ? w SS F]; subst. apply IH in F as (L & K); [|intros i D HD; apply (NZ (S i) D HD)]. split; [cbn; auto|].
        intros i CA X. destruct i as [|i]; cbn in *; [injection X as <-|eauto]. eexists. split; [reflexivity|]. apply cyclic_dihedral; auto. apply (NZ 0 C eq_refl).
      - intros (L & K). destruct v as [|dh v]; [discriminate|]. constructor.
        + destruct (K 0 C eq_refl) as (dh' & X & S). injection X as <-. apply cyclic_dihedral; auto. apply (NZ 0 C eq_refl).
        + apply IH; [intros i D HD; apply (NZ (S i) D HD)|]. split; [cbn in L; lia|]. intros i CA X. apply (K (S i) CA X). }
    destruct (map_ok_ex _ _ (fun cs => make_edgemap A B cp (fwd cs)) (fun cs em => of_dihedrals A B cp (fwd cs) em) sts) as (l & EL & F).
    { intros dhs I. apply make_spec; auto. apply ALL'; auto. }
    assert (ND' : NoDup (map em_key l)).
    { eapply forall2_nodup; eauto. intros x y u v Ix Iy Hx Hy Ek. assert (X : fwd x = fwd y) by (apply (em_same A B SA SB NE NC cp GC SZ (fwd x) (fwd y) u v); auto; apply ALL'; auto).
      apply (f_equal (map dmap)) in X. unfold fwd in X. rewrite !map_map in X. cbn in X. rewrite !map_id in X. auto. }
    assert (NL : l <> []) by (intros ->; inversion F; subst; congruence).
    assert (GD : forall em, In em l -> good_em A B cp em /\ forall e, e < nedges A -> nth_error (em_or em) e = Some Pos).
    { intros em I. destruct (forall2_in_r _ _ _ _ _ _ F I) as (cs & Id & H). apply ALL' in Id. split.
      - constructor; [apply H|apply H|]. eapply dihedral_moves; eauto.
      - eapply forward_or; eauto. }
    exists l. split; [|split; [|split; [auto|split; [exact GD|]]]].
    + unfold pd_build_oriented_edgemaps. rewrite NC, NE, (gp_n _ _ GC), !Nat.eqb_refl. cbn [andb]. change PdIso.comp_sizes with comp_sizes. rewrite E. cbn [bind]. exact EL.
    + unfold pd_edgemaps_ok. apply PdProofs.and_ok_true. split; [|apply unique_true; auto]. apply PdProofs.all_ok_spec. intros em I. destruct (GD em I) as ([G L _] & M).
      unfold pd_edgemap_ok. rewrite (good_perm_ok (nedges A)); auto.
      * cbn [bind andb]. f_equal. apply forallb_forall. intros o Io. apply In_nth_error in Io as (e & He). assert (e < nedges A) as Le by (rewrite <- L; apply nth_error_Some; congruence).
        rewrite (M e Le) in He. injection He as <-. reflexivity.
      * pose proof (sp_some A SA) as S0. destruct (nth_error (p_cross A) 0) as [x|] eqn:X; [|apply nth_error_None in X; unfold ncross in S0; lia].
        assert (slot A 0 0 (cedge x 0)) as SL by (split; [lia|eauto]). apply (edges_lt A SA) in SL. lia.
    + intros m H. destruct (em_all A B SA NE NC cp GC SZ m (fun _ => Pos)) as (dhs & G & K).
      { intros i C HC. split; [left; auto|]. apply H; auto. }
      assert (EF : fwd (map dmap dhs) = dhs).
      { destruct (make_spec A B SA SB NE NC cp GC SZ dhs G) as (em & _ & OD). destruct (K em OD) as (_ & K2). destruct G as (LG & G). unfold fwd. rewrite map_map.
        rewrite <- (map_id dhs) at 2. apply map_ext_in. intros dh I. apply In_nth_error in I as (i & Hi).
        assert (Li : i < ncomps A) by (rewrite <- LG; apply nth_error_Some; congruence). destruct (nth_error (p_comp A) i) as [C|] eqn:HC; [|apply nth_error_None in HC; unfold ncomps in Li; lia].
        destruct (target A B NE NC cp GC SZ i C HC) as (C' & HC' & _). destruct OD as (_ & _ & OD). pose proof (NZ i C HC) as N0. destruct (OD i dh Hi C C' HC HC' 0 N0) as (_ & O).
        rewrite (K2 i C _ HC) in O by (apply nth_In; auto). injection O as O. destruct dh. cbn in *. congruence. }
      destruct (forall2_in_l _ _ _ _ _ (map dmap dhs) F) as (em & I & P); [apply ALL'; rewrite EF; auto|]. rewrite EF in P. exists em. split; auto. apply K; auto.
Qed.
End Edges.

(** * Diagrams with other tags *)
Lemma comp_same : forall d0 d, same_but_tags d0 d -> forall i C, nth_error (p_comp d) i = Some C -> exists C0, nth_error (p_comp d0) i = Some C0 /\ cp_edge C0 = cp_edge C.
Proof.
  intros d0 d S i C H. pose proof (map_nth_error cp_edge _ _ H) as H1. rewrite (sb_comp _ _ S), nth_error_map in H1. destruct (nth_error (p_comp d0) i) as [C0|]; [|discriminate].
  cbn in H1. injection H1 as H1. eauto.
Qed.
Lemma same_but_sym : forall d0 d, same_but_tags d0 d -> same_but_tags d d0.
Proof. intros d0 d [H1 H2 H3 H4 H5]. constructor; auto. Qed.
Lemma same_sizes : forall d0 d, same_but_tags d0 d -> comp_sizes d = comp_sizes d0.
Proof. intros d0 d S. unfold comp_sizes. rewrite <- !(map_map cp_edge (@length nat)), (sb_comp _ _ S). auto. Qed.
Lemma same_ncomps : forall d0 d, same_but_tags d0 d -> ncomps d = ncomps d0.
Proof. intros d0 d S. unfold ncomps. rewrite <- (map_length cp_edge (p_comp d)), (sb_comp _ _ S). apply map_length. Qed.

Lemma drawn_facts : forall d, drawn d -> sphere d /\ crossings_canonical d /\ Forall starts_low (p_face d) /\ faces_sorted d.
Proof.
  intros d (d0 & T & CN & S). pose proof (tidy_sphere d0 T CN) as SP. destruct (td_regular d0 T) as [_ _ _ RX _ _ _ _ RL RS]. pose proof (same_ncomps d0 d S) as NC. pose proof (comp_same d d0 (same_but_sym _ _ S)) as CS. pose proof (comp_same d0 d S) as CS'.
  destruct SP as [S1 S2 S3 S4 S5 S6 S7 (S8 & S9 & S10)]. destruct S as [E1 E2 E3 E4 E5]. destruct d as [mv uid h es xs cs fs], d0 as [mv0 uid0 h0 es0 xs0 cs0 fs0]. cbn in E1, E2, E3, E4, E5. subst h es xs fs.
  assert (NA : Strands.numbered_along (mkPd mv uid h0 es0 xs0 cs fs0)).
  { split; [cbn in *; rewrite E5; exact S8|]. split.
    - intros C I. apply In_nth_error in I as (i & Hi). destruct (CS' i C Hi) as (C0 & H0 & <-). apply (S9 C0 (nth_error_In _ _ H0)).
    - unfold comps_sorted in *. cbn in *. rewrite E5. exact S10. }
  split; [constructor; auto|]. auto.
Qed.

Lemma iso_retag : forall A0 B0 A B kc ke kp kf s r dir, same_but_tags A0 A -> same_but_tags B0 B -> isomorphism A B kc ke kp kf s r dir -> isomorphism A0 B0 kc ke kp kf s r dir.
Proof.
  intros A0 B0 A B kc ke kp kf s r dir SA SB I. pose proof (same_ncomps _ _ SA) as N1. pose proof (same_ncomps _ _ SB) as N2. destruct I as [[I1 I2 I3 I4 I5] J1 J2 J3 J4 J5 J6].
  unfold ncross, nedges, nfaces in *. rewrite (sb_cross _ _ SA) in *. rewrite (sb_cross _ _ SB) in *. rewrite (sb_edge _ _ SA) in *. rewrite (sb_edge _ _ SB) in *.
  rewrite (sb_face _ _ SA) in *. rewrite (sb_face _ _ SB) in *. constructor; auto; try congruence.
  - constructor; auto.
  - intros i C H. destruct (comp_same _ _ (same_but_sym _ _ SA) i C H) as (C1 & H1 & E1). destruct (J3 i C1 H1) as (C1' & H2 & R). destruct (comp_same _ _ SB _ _ H2) as (C' & H3 & E3).
    exists C'. split; auto. rewrite E3, <- E1. auto.
Qed.
Lemma may_match_retag : forall A0 B0 A B, same_but_tags A0 A -> same_but_tags B0 B -> may_match A B = may_match A0 B0.
Proof.
  intros A0 B0 A B SA SB. unfold may_match. change PdIso.comp_sizes with comp_sizes. rewrite (same_sizes _ _ SA), (same_sizes _ _ SB), (same_ncomps _ _ SA), (same_ncomps _ _ SB).
  unfold ncross, nedges, nfaces. rewrite (sb_cross _ _ SA), (sb_cross _ _ SB), (sb_edge _ _ SA), (sb_edge _ _ SB), (sb_face _ _ SA), (sb_face _ _ SB), (sb_hash _ _ SA), (sb_hash _ _ SB). reflexivity.
Qed.
Lemma drawn_match : forall A B kc ke kp kf s r dir, drawn A -> drawn B -> isomorphism A B kc ke kp kf s r dir -> may_match A B = true.
Proof.
  intros A B kc ke kp kf s r dir (A0 & TA & CA & SA) (B0 & TB & CB & SB) I. rewrite (may_match_retag A0 B0 A B SA SB). eapply may_match_ok; eauto. eapply iso_retag; eauto.
Qed.

(** * The tags *)
Lemma find_tag_spec : forall t cs j, match find_tag t cs j with
  | Some k => exists i C, k = j + i /\ nth_error cs i = Some C /\ cp_tag C = t
  | None => ~ In t (map cp_tag cs) end.
Proof.
  intros t. induction cs as [|c cs IH]; intros j; cbn [find_tag]; [intros []|]. destruct (Z.eqb_spec (cp_tag c) t) as [E|E].
  - exists 0, c. split; [lia|]. auto.
  - specialize (IH (S j)). destruct (find_tag t cs (S j)) as [k|].
    + destruct IH as (i & C & -> & H). exists (S i), C. split; [lia|]. auto.
    + cbn. intros [X|X]; auto.
Qed.
Lemma tag_perm_spec : forall A B, ncomps B = ncomps A -> tags_agree A B ->
  exists m, tag_perm A B = Ok m /\ good_perm (ncomps A) (mkPerm m 0) /\
    forall i C, nth_error (p_comp A) i = Some C -> exists C', nth_error (p_comp B) (nth i m 0) = Some C' /\ cp_tag C' = cp_tag C.
Proof.
  intros A B NC (NA & NB & TT). destruct (TT (eq_sym NC)) as (INC & SIX). unfold tags in *.
  assert (H : exists m, tag_perm A B = Ok m /\ Forall2 (fun C j => exists C', nth_error (p_comp B) j = Some C' /\ cp_tag C' = cp_tag C) (p_comp A) m).
  { unfold tag_perm. apply map_ok_ex. intros C I. pose proof (find_tag_spec (cp_tag C) (p_comp B) 0) as F. destruct (find_tag (cp_tag C) (p_comp B) 0) as [k|].
    - exists k. split; auto. destruct F as (i & C' & -> & H1 & H2). cbn. eauto.
    - exfalso. apply F, INC, in_map. auto. }
  destruct H as (m & E & F). exists m. assert (L : length m = ncomps A) by (pose proof (IteratorsProofs.Forall2_length F); unfold ncomps; lia).
  assert (TO : forall i C, nth_error (p_comp A) i = Some C -> exists C', nth_error (p_comp B) (nth i m 0) = Some C' /\ cp_tag C' = cp_tag C).
  { clear - F. induction F as [|x j l is K F IH]; intros c y Hy; [destruct c; discriminate|]. destruct c as [|c]; cbn in *; [injection Hy as <-; auto|auto]. }
  split; auto. split; auto.
  assert (TAG : forall d i C, nth_error (p_comp d) i = Some C -> nth_error (map cp_tag (p_comp d)) i = Some (cp_tag C)) by (intros d i C H; apply map_nth_error; auto).
  assert (AT : forall i, i < ncomps A -> exists C, nth_error (p_comp A) i = Some C).
  { intros i Hi. destruct (nth_error (p_comp A) i) as [C|] eqn:X; eauto. apply nth_error_None in X. unfold ncomps in Hi. lia. }
  assert (PP : is_perm (mkPerm m 0)).
  { apply is_perm_intro; cbn [pmap pn].
    - apply (NoDup_nth m 0). intros i j Hi Hj X. rewrite L in *. destruct (AT i Hi) as (C & HC), (AT j Hj) as (D & HD).
      destruct (TO i C HC) as (C' & HC' & E1), (TO j D HD) as (D' & HD' & E2). rewrite X in HC'. assert (C' = D') as <- by congruence.
      apply (proj1 (NoDup_nth_error (map cp_tag (p_comp A))) NA); [rewrite map_length; exact Hi|]. rewrite (TAG A i C HC), (TAG A j D HD). congruence.
    - apply Forall_forall. intros j I. apply In_nth with (d := 0) in I as (i & Hi & <-). rewrite L in *. destruct (AT i Hi) as (C & HC). destruct (TO i C HC) as (C' & HC' & _).
      rewrite <- NC. apply nth_error_Some. congruence. }
  constructor; auto.
  intros Six. assert (m = seq 0 (ncomps A)) as ->.
  { unfold pn in Six. cbn [pmap] in Six. rewrite L in Six. specialize (SIX Six). apply (nth_ext _ _ 0 0); [rewrite seq_length; auto|]. intros i Hi. rewrite L in Hi. rewrite seq_nth by auto. cbn.
    destruct (AT i Hi) as (C & HC). destruct (TO i C HC) as (C' & HC' & ET).
    apply (proj1 (NoDup_nth_error (map cp_tag (p_comp B))) NB); [rewrite map_length; apply nth_error_Some; congruence|]. rewrite (TAG B _ _ HC'), ET, <- SIX. symmetry. apply TAG; auto. }
  pose proof (gp_canon _ _ (new_perm_good (ncomps A))) as X. apply X. exact Six.
Qed.

(** * The writhe *)
Lemma writhe_sum_fold : forall l w, fold_left (fun w c => if is_pos (csign c) then (w + 1)%Z else (w - 1)%Z) l w = (w + fold_right (fun c n => (if is_pos (csign c) then 1 else -1) + n) 0 l)%Z.
Proof. induction l as [|c l IH]; intros w; cbn [fold_left fold_right]; [lia|]. rewrite IH. destruct (is_pos (csign c)); lia. Qed.
Lemma kept_writhe : forall A B kc ke kp kf s, kept A B kc ke kp kf s -> writhe_sum A = writhe_sum B.
Proof.
  intros A B kc ke kp kf s [[[I1 _ I3 _ I5] _ _ _ _ _ _] KS _]. unfold writhe_sum. rewrite !writhe_sum_fold. f_equal.
  assert (G : forall l, fold_right (fun c n => (if is_pos (csign c) then 1 else -1) + n)%Z 0%Z l = fold_right (fun o n => (if is_pos o then 1 else -1) + n)%Z 0%Z (map csign l)).
  { induction l as [|c l IH]; cbn; congruence. }
  rewrite !G. assert (P : Permutation (map csign (p_cross A)) (map csign (p_cross B))).
  { assert (E : map csign (p_cross A) = map (fun c => nth (kc c) (map csign (p_cross B)) Unset) (seq 0 (ncross A))).
    { apply (nth_ext _ _ Unset Unset); rewrite !map_length, ?seq_length; auto. intros c Hc.
      destruct (nth_error (p_cross A) c) as [x|] eqn:X; [|apply nth_error_None in X; lia]. destruct (I5 c x X) as (y & Y & _).
      rewrite (nth_error_nth _ _ _ (map_nth_error csign _ _ X)). erewrite (nth_error_nth (map _ (seq _ _))) by (apply map_nth_error; rewrite nth_error_nth' with (d := 0) by (rewrite seq_length; exact Hc); rewrite seq_nth by exact Hc; reflexivity).
      cbn. rewrite (nth_error_nth _ _ _ (map_nth_error csign _ _ Y)). symmetry. apply (KS c x y); auto. }
    rewrite E, <- (map_map kc (fun c => nth c (map csign (p_cross B)) Unset)).
    rewrite (bij_perm _ kc I3), <- I1. unfold ncross. rewrite <- (map_length csign), map_nth_seq. auto. }
  clear - P. induction P; cbn; lia.
Qed.

(** * The maps from one edge map *)
Section Iso.
Context (A B : pd) (DA : drawn A) (DB : drawn B) (TG : tags_agree A B) (TN : turnable A) (MM : may_match A B = true).
Let SA : sphere A := proj1 (drawn_facts A DA).
Let SB : sphere B := proj1 (drawn_facts B DB).

Definition scross_to (mm : list nat) (o : orient) (x : crossing) (i : nat) : Prop :=
  exists y, nth_error (p_cross B) i = Some y /\ rotation (turned o (around_cross y)) (map (fun e => nth e mm 0) (around_cross x)) /\ csign y = csign x.
Definition sfits (m : nat -> nat) (o : orient) : Prop :=
  forall c x, nth_error (p_cross A) c = Some x -> exists c' y, nth_error (p_cross B) c' = Some y /\ rotation (turned o (around_cross y)) (map m (around_cross x)) /\ csign y = csign x.
Definition signed (t : orient * (perm * perm)) : Prop :=
  forall c x y, nth_error (p_cross A) c = Some x -> nth_error (p_cross B) (nth c (pmap (fst (snd t))) 0) = Some y -> csign y = csign x.
Lemma sfits_fits : forall m o, sfits m o -> cross_fits A B m o.
Proof. intros m o F c x Hx. destruct (F c x Hx) as (c' & y & Hy & R & _). eauto. Qed.

Lemma orient_eqb_eq : forall a b, orient_eqb a b = true <-> a = b.
Proof. intros [] []; cbn; split; congruence. Qed.

Section Em.
Context (em : edgemap) (cp : perm) (GE : good_em A B cp em).
Let mm := pmap (em_perm em).
Lemma simage_spec : forall o x, sign_like o -> In x (p_cross A) ->
  exists r, cross_image true B mm o x = Ok r /\ match r with Some i => scross_to mm o x i | None => forall i, ~ scross_to mm o x i end.
Proof.
  intros o x SO Hx. destruct (good_perm_bij _ _ (ge_perm _ _ _ _ GE)) as (LM & RM & IM). destruct (mm_counts A B MM) as (NX & NE & NC & NF & _).
  pose proof (proj1 (proj2 (drawn_facts B DB))) as CB. assert (BM : bij_on (nedges A) (fun e => nth e mm 0)) by (split; auto).
  destruct (cross_image_spec A B SA SB NE NX CB mm LM o SO x Hx) as (r & E & K). unfold cross_image in *.
  destruct (get mm (ce0 x)) as [e0| | |]; try discriminate. destruct (get mm (ce1 x)) as [e1| | |]; try discriminate. destruct (get mm (ce2 x)) as [e2| | |]; try discriminate. destruct (get mm (ce3 x)) as [e3| | |]; try discriminate.
  cbn [bind] in *. cbv zeta in *. destruct (bsearch _ _) as [i|].
  - cbn [andb] in E. injection E as <-. destruct K as (y & Hy & R). rewrite (nth_error_nth _ _ _ Hy). cbn [andb].
    destruct (orient_eqb (csign x) (csign y)) eqn:Q; cbn [negb]; eexists; (split; [reflexivity|]).
    + exists y. apply orient_eqb_eq in Q. auto.
    + intros j (z & Hz & Rz & S). assert (i = j) as <- by (eapply (same_cross_back B o i j y z); eauto). rewrite Hy in Hz. injection Hz as <-. rewrite S in Q. destruct (csign x); discriminate.
  - injection E as <-. eexists. split; [reflexivity|]. intros i (y & Hy & R & _). apply (K i). exists y. auto.
Qed.

Lemma soriented : forall o, sign_like o ->
  (sfits (fun e => nth e mm 0) o /\ exists p, oriented_map (cross_image true B mm o) o (p_cross A) = Ok [mkOM p o] /\ good_map _ (cross_to B mm o) (p_cross A) p /\ forall q, signed (o, (p, q))) \/
  (~ sfits (fun e => nth e mm 0) o /\ oriented_map (cross_image true B mm o) o (p_cross A) = Ok []).
Proof.
  intros o SO. destruct (good_perm_bij _ _ (ge_perm _ _ _ _ GE)) as (LM & RM & IM). destruct (mm_counts A B MM) as (NX & NE & NC & NF & _).
  assert (BM : bij_on (nedges A) (fun e => nth e mm 0)) by (split; auto).
  destruct (oriented_spec A B NE NX mm LM o _ (cross_image true B mm o) (scross_to mm o) (p_cross A)) as [(p & E & G)|(E & x & Ix & H)].
  - pose proof (sp_some A SA) as L. unfold ncross in L. destruct (p_cross A); [cbn in L; lia|discriminate].
  - intros x Hx. apply simage_spec; auto.
  - intros c c' x x' i Hc Hc' (y & Hy & Ro & _) (y' & Hy' & Ro' & _). rewrite Hy in Hy'. injection Hy' as <-. eapply (same_image A SA _ BM o SO); eauto.
  - intros x i (y & Hy & _). change (length (p_cross A)) with (ncross A). rewrite <- NX. apply nth_error_Some. congruence.
  - left. split; [|exists p; split; [auto|split]].
    + intros c x Hx. destruct (gm_to _ _ _ _ G c x Hx) as (y & Hy & Ro & S). eauto 6.
    + destruct G as [G1 G2 G3 G4 G5]. constructor; auto. intros c x Hx. destruct (G5 c x Hx) as (y & Hy & R & _). exists y. auto.
    + intros q c x y Hx Hy. destruct (gm_to _ _ _ _ G c x Hx) as (y' & Hy' & _ & S). cbn in Hy. congruence.
  - right. split; auto. intros F. apply In_nth_error in Ix as (c & Hc). destruct (F c x Hc) as (c' & y & Hy & Ro). apply (H c'). exists y. auto.
Qed.
End Em.

Definition schosen (em : edgemap) (L : list (orient * (perm * perm))) : Prop :=
  NoDup (map fst L) /\ (forall t, In t L -> built A B em t /\ signed t) /\ forall o, sign_like o -> sfits (fun e => nth e (pmap (em_perm em)) 0) o -> In o (map fst L).

Lemma isotopy_checked : forall cp em t, good_perm (ncomps A) cp -> good_em A B cp em -> (forall e, e < nedges A -> nth_error (em_or em) e = Some Pos) ->
  (forall i C, nth_error (p_comp A) i = Some C -> exists C', nth_error (p_comp B) (nth i (pmap cp) 0) = Some C' /\ cp_tag C' = cp_tag C) ->
  built A B em t -> signed t -> pd_diagram_isotopy_ok (mk cp em t) A B = Ok true.
Proof.
  intros cp em (o & (px & pf)) GC GE GO GT (SO & GX & GF) SG. cbn [fst snd] in *. destruct GE as [G1 G2 _]. pose proof (good_of_map _ _ _ _ GX) as PX. pose proof (good_of_map _ _ _ _ GF) as PF.
  destruct (mm_counts A B MM) as (NX & NE & NC & NF & _). pose proof (sp_some A SA) as S0. assert (E0 : 1 <= nedges A).
  { destruct (nth_error (p_cross A) 0) as [x|] eqn:X; [|apply nth_error_None in X; unfold ncross in S0; lia].
    assert (slot A 0 0 (cedge x 0)) as SL by (split; [lia|eauto]). apply (edges_lt A SA) in SL. lia. }
  assert (C0 : 1 <= ncomps A).
  { destruct (edge_comp A 0 SA ltac:(lia)) as (i & C & HC & _). assert (i < ncomps A) by (apply nth_error_Some; congruence). lia. }
  assert (F0 : 1 <= nfaces A) by (pose proof (sp_nfaces A SA); lia).
  assert (POS : forall r, In r (em_or em) -> r = Pos).
  { intros r Io. apply In_nth_error in Io as (e & He). assert (e < nedges A) as Le by (rewrite <- G2; apply nth_error_Some; congruence). rewrite (GO e Le) in He. congruence. }
  unfold pd_diagram_isotopy_ok, mk. cbn [fst snd]. apply and_ok_true. split.
  - unfold pd_iso_ok. cbn [i_comp i_edge i_cross i_face]. rewrite !and_ok_true. split; [eapply good_perm_ok; [|exact GC]; auto|]. split; [|split].
    + unfold pd_edgemap_ok. rewrite (good_perm_ok (nedges A)); auto. cbn [bind andb]. f_equal. apply forallb_forall. intros r Io. rewrite (POS r Io). reflexivity.
    + cbn. eapply good_perm_ok; [|exact PX]. auto.
    + cbn. eapply good_perm_ok; [|exact PF]. auto.
  - unfold pd_is_diagram_isotopy. cbn [i_comp i_edge i_cross i_face om_or om_perm]. destruct (good_perm_bij _ _ GC) as (LC & _). destruct (good_perm_bij _ _ PX) as (LX & _).
    assert (T : all_ok (fun c => do CA <- get (p_comp A) c; do c' <- get (pmap cp) c; do CB <- get (p_comp B) c'; Ok (cp_tag CA =? cp_tag CB)%Z) (seq 0 (pn cp)) = Ok true).
    { apply PdProofs.all_ok_spec. intros i I. apply in_seq in I. rewrite (gp_n _ _ GC) in I. destruct (nth_error (p_comp A) i) as [C|] eqn:HC; [|apply nth_error_None in HC; unfold ncomps in I; lia].
      destruct (GT i C HC) as (C' & HC' & ET). unfold get at 1. rewrite HC. cbn [bind]. rewrite (get_lt _ _ _ 0) by lia. cbn [bind]. unfold get. rewrite HC'. cbn [bind]. rewrite ET, Z.eqb_refl. auto. }
    rewrite T. cbn [bind negb]. rewrite NX, Nat.eqb_refl. cbn [negb]. destruct (Nat.eqb_spec (ncross A) 0); [lia|]. cbn [bind]. replace (orient_eqb o o) with true by (destruct o; auto).
    rewrite (proj2 (forallb_forall _ _)) by (intros r I; rewrite (POS r I); auto). cbn [negb].
    apply PdProofs.all_ok_spec. intros c I. apply in_seq in I. rewrite (gp_n _ _ PX) in I. change (length (p_cross A)) with (ncross A) in *.
    destruct (nth_error (p_cross A) c) as [x|] eqn:HX; [|apply nth_error_None in HX; unfold ncross in I; lia].
    destruct (gm_to _ _ _ _ GX c x HX) as (y & HY & _). pose proof (SG c x y HX HY) as Q. unfold get at 1. rewrite HX. cbn [bind]. rewrite (get_lt _ _ _ 0) by lia. cbn [bind].
    unfold get. rewrite HY. cbn [bind]. rewrite Q. destruct (csign x); auto.
Qed.

Lemma add_isotopies_ok : forall cp em l, (forall t, In t l -> pd_diagram_isotopy_ok (mk cp em t) A B = Ok true) ->
  add_isotopies A B cp em (map (fun t => (Some (mkOM (fst (snd t)) (fst t)), mkOM (snd (snd t)) (fst t))) l) = Ok (map (mk cp em) l).
Proof.
  intros cp em. induction l as [|t l IH]; intros H; auto. cbn [map add_isotopies]. change (mkIso cp em (Some (mkOM (fst (snd t)) (fst t))) (mkOM (snd (snd t)) (fst t))) with (mk cp em t).
  rewrite H by (cbn; auto). cbn [bind]. rewrite IH by (intros; apply H; cbn; auto). reflexivity.
Qed.

Lemma isotopies_from_spec : forall cp em, good_perm (ncomps A) cp -> good_em A B cp em -> (forall e, e < nedges A -> nth_error (em_or em) e = Some Pos) ->
  (forall i C, nth_error (p_comp A) i = Some C -> exists C', nth_error (p_comp B) (nth i (pmap cp) 0) = Some C' /\ cp_tag C' = cp_tag C) ->
  exists L, isotopies_from_edgemap A B cp em = Ok (map (mk cp em) L) /\ schosen em L.
Proof.
  intros cp em GC GE GO GT. destruct (good_perm_bij _ _ (ge_perm _ _ _ _ GE)) as (LM & RM & IM). destruct (mm_counts A B MM) as (NX & NE & NC & NF & _).
  pose proof (proj2 (proj2 (drawn_facts B DB))) as (LB & FB). set (mm := pmap (em_perm em)) in *. assert (BM : bij_on (nedges A) (fun e => nth e mm 0)) by (split; auto).
  assert (ORI : forall o, sign_like o ->
    (sfits (fun e => nth e mm 0) o /\ exists px pf, oriented_map (cross_image true B mm o) o (p_cross A) = Ok [mkOM px o] /\ oriented_map (face_image B mm o) o (p_face A) = Ok [mkOM pf o] /\ built A B em (o, (px, pf)) /\ signed (o, (px, pf))) \/
    (~ sfits (fun e => nth e mm 0) o /\ oriented_map (cross_image true B mm o) o (p_cross A) = Ok [] /\ exists l, oriented_map (face_image B mm o) o (p_face A) = Ok l /\ (l = [] \/ exists f, l = [f]))).
  { intros o SO. pose proof (cross_face A B SA SB (fun e => nth e mm 0) NE BM o SO) as CF.
    destruct (soriented em cp GE o SO) as [(F & px & E & G & Q)|(F & E)];
    destruct (oriented_face A B SA SB NE NX LB FB mm LM BM o SO NF) as [(F' & pf & E' & G')|(F' & E')].
    - left. split; auto. exists px, pf. split; auto. split; auto. split; auto. split; auto.
    - exfalso. apply F', CF, sfits_fits, F.
    - right. split; auto. split; auto. eauto.
    - right. split; auto. split; auto. eauto. }
  assert (CK : forall t, built A B em t /\ signed t -> pd_diagram_isotopy_ok (mk cp em t) A B = Ok true) by (intros t (X & Y); apply isotopy_checked; auto).
  pose proof (sp_some A SA) as S0.
  unfold isotopies_from_edgemap, pd_build_crossmaps, pd_build_facemaps. rewrite NX, NF, !Nat.eqb_refl. destruct (Nat.eqb_spec (ncross A) 0) as [Z|_]; [lia|]. cbn [andb]. fold mm.
  assert (SP : sign_like Pos) by (left; auto). assert (SN : sign_like Neg) by (right; auto).
  destruct (ORI Pos SP) as [(FP & px & pf & E1 & E2 & BP)|(FP & E1 & lp & E2 & LP)]; rewrite E1, E2; cbn [bind];
  destruct (ORI Neg SN) as [(FN & nx & nf & E3 & E4 & BN)|(FN & E3 & ln & E4 & LN)]; rewrite E3, E4; cbn [bind app map length Nat.eqb].
  - exists [(Pos, (px, pf)); (Neg, (nx, nf))]. split; [apply (add_isotopies_ok cp em [(Pos, (px, pf)); (Neg, (nx, nf))]); intros t [<-|[<-|[]]]; auto|]. split; [|split].
    + repeat constructor; cbn; intuition discriminate.
    + intros t [<-|[<-|[]]]; auto.
    + intros o [->| ->] _; cbn; auto.
  - exists [(Pos, (px, pf))]. split.
    + pose proof (add_isotopies_ok cp em [(Pos, (px, pf))]) as X. destruct LN as [->|(f & ->)]; cbn [app length Nat.eqb andb combine get nth_error is_pos om_or bind]; apply X; intros t [<-|[]]; auto.
    + split; [|split].
      * repeat constructor; cbn; intuition discriminate.
      * intros t [<-|[]]; auto.
      * intros o [->| ->] F; cbn; auto; contradiction.
  - exists [(Neg, (nx, nf))]. split.
    + pose proof (add_isotopies_ok cp em [(Neg, (nx, nf))]) as X. destruct LP as [->|(f & ->)]; cbn [app length Nat.eqb andb combine get nth_error is_pos om_or bind]; apply X; intros t [<-|[]]; auto.
    + split; [|split].
      * repeat constructor; cbn; intuition discriminate.
      * intros t [<-|[]]; auto.
      * intros o [->| ->] F; cbn; auto; contradiction.
  - exists []. split; auto. split; [constructor|]. split; [intros t []|]. intros o [->| ->] F; contradiction.
Qed.

(** * The whole search *)
Definition sgood (cp : perm) (i : iso) : Prop := good A B (fun _ => true) i /\ i_comp i = cp /\
  (forall e, e < nedges A -> nth_error (em_or (i_edge i)) e = Some Pos) /\
  exists x, i_cross i = Some x /\ forall c xa xb, nth_error (p_cross A) c = Some xa -> nth_error (p_cross B) (nth c (pmap (om_perm x)) 0) = Some xb -> csign xb = csign xa.

Lemma rotations_product : forall d, rotations d = Thm_Iterators.product (comp_sizes d).
Proof. intros d. unfold rotations, comp_sizes. induction (p_comp d) as [|C l IH]; auto. cbn [fold_right map]. rewrite IH. reflexivity. Qed.

Lemma isotopies_found : exists cp l, good_perm (ncomps A) cp /\
  (forall i C, nth_error (p_comp A) i = Some C -> exists C', nth_error (p_comp B) (nth i (pmap cp) 0) = Some C' /\ cp_tag C' = cp_tag C) /\
  pd_build_diagram_isotopies A B = Ok l /\ NoDup (map tag l) /\ (forall i, In i l -> sgood cp i) /\
  forall kc ke kp kf s, sign_like s -> kept A B kc ke kp kf s -> (forall c, c < ncomps A -> kp c = nth c (pmap cp) 0) /\
    exists i, In i l /\ agrees A i ke (fun _ => Pos) s.
Proof.
  destruct (mm_counts A B MM) as (NX & NE & NC & NF & _). destruct (tag_perm_spec A B NC TG) as (m & E1 & GC & GT).
  assert (C0 : 1 <= ncomps A).
  { pose proof (sp_some A SA) as S0. destruct (nth_error (p_cross A) 0) as [x|] eqn:X; [|apply nth_error_None in X; unfold ncross in S0; lia].
    assert (slot A 0 0 (cedge x 0)) as SL by (split; [lia|eauto]). apply (edges_lt A SA) in SL.
    destruct (edge_comp A _ SA SL) as (i & C & HC & _). assert (i < ncomps A) by (apply nth_error_Some; congruence). lia. }
  exists (mkPerm m 0).
  assert (KP : forall kc ke kp kf s, kept A B kc ke kp kf s -> forall c, c < ncomps A -> kp c = nth c m 0).
  { intros kc ke kp kf s [IM _ KT] c Hc. destruct (nth_error (p_comp A) c) as [C|] eqn:HC; [|apply nth_error_None in HC; unfold ncomps in Hc; lia].
    destruct (GT c C HC) as (C1 & H1 & T1). destruct (im_comp _ _ _ _ _ _ _ _ _ IM c C HC) as (C2 & H2 & _). pose proof (KT c C C2 HC H2) as T2.
    destruct TG as (_ & NB & _). unfold tags in NB. apply (proj1 (NoDup_nth_error _) NB); [rewrite map_length; apply nth_error_Some; congruence|].
    rewrite (map_nth_error cp_tag _ _ H1), (map_nth_error cp_tag _ _ H2). congruence. }
  unfold pd_build_diagram_isotopies. rewrite MM. cbn [negb].
  destruct (Z.eqb_spec (writhe_sum A) (writhe_sum B)) as [W|W]; cbn [negb].
  2:{ exists []. split; auto. split; auto. split; auto. split; [constructor|]. split; [intros i []|]. intros kc ke kp kf s _ K. exfalso. apply W. eapply kept_writhe; eauto. }
  rewrite E1. cbn [bind]. rewrite (good_perm_ok (ncomps A)) by auto. cbn [bind].
  assert (SZX : exists b, all_ok (comp_size_ok A B m) (seq 0 (ncomps A)) = Ok b /\ (b = true <-> forall i C C', nth_error (p_comp A) i = Some C -> nth_error (p_comp B) (nth i m 0) = Some C' -> length (cp_edge C') = length (cp_edge C))).
  { assert (EQ : forall i, In i (seq 0 (ncomps A)) -> exists C C', nth_error (p_comp A) i = Some C /\ nth_error (p_comp B) (nth i m 0) = Some C' /\ comp_size_ok A B m i = Ok (length (cp_edge C) =? length (cp_edge C'))).
    { intros i I. apply in_seq in I. destruct (nth_error (p_comp A) i) as [C|] eqn:HC; [|apply nth_error_None in HC; unfold ncomps in I; lia]. destruct (GT i C HC) as (C' & HC' & _).
      exists C, C'. split; auto. split; auto. unfold comp_size_ok. unfold get at 1. rewrite HC. cbn [bind]. destruct (good_perm_bij _ _ GC) as (LC & _). cbn [pmap] in LC.
      rewrite (get_lt _ _ _ 0) by lia. cbn [bind]. unfold get. rewrite HC'. reflexivity. }
    assert (K : exists b, all_ok (comp_size_ok A B m) (seq 0 (ncomps A)) = Ok b).
    { clear - EQ. induction (seq 0 (ncomps A)) as [|i l IH]; [exists true; auto|]. destruct (EQ i) as (C & C' & _ & _ & E); [cbn; auto|]. cbn [all_ok]. rewrite E. unfold and_ok. cbn [bind].
      destruct (length (cp_edge C) =? length (cp_edge C')); [|eauto]. apply IH. intros j J. apply EQ. cbn. auto. }
    destruct K as (b & E). exists b. split; auto. split.
    - intros ->. intros i C C' HC HC'. pose proof (proj1 (PdProofs.all_ok_spec _ _ _) E i) as X. assert (I : In i (seq 0 (ncomps A))) by (apply in_seq; split; [lia|]; apply nth_error_Some; congruence).
      specialize (X I). destruct (EQ i I) as (D & D' & HD & HD' & EE). rewrite EE in X. injection X as X. apply Nat.eqb_eq in X. congruence.
    - intros H. assert (X : all_ok (comp_size_ok A B m) (seq 0 (ncomps A)) = Ok true).
      { apply PdProofs.all_ok_spec. intros i I. destruct (EQ i I) as (D & D' & HD & HD' & ->). f_equal. apply Nat.eqb_eq. symmetry. eapply H; eauto. }
      congruence. }
  destruct SZX as (b & E2 & SZ). rewrite E2. cbn [bind]. destruct b; cbn [negb].
  2:{ exists []. split; auto. split; auto. split; auto. split; [constructor|]. split; [intros i []|]. intros kc ke kp kf s _ K. exfalso. assert (false = true) as X; [|discriminate]. apply SZ.
      intros i C C' HC HC'. assert (Hi : i < ncomps A) by (apply nth_error_Some; congruence). rewrite <- (KP _ _ _ _ _ K i Hi) in HC'. destruct (im_comp _ _ _ _ _ _ _ _ _ (kt_iso _ _ _ _ _ _ _ K) i C HC) as (C2 & H2 & R).
      rewrite HC' in H2. injection H2 as <-. apply HashProofs.rotation_perm, Permutation_length in R. rewrite map_length in R. exact R. }
  assert (SZ' := proj1 SZ eq_refl). clear SZ.
  destruct (oriented_edgemaps_spec A B SA SB NE NC (mkPerm m 0) GC SZ') as (ems & E3 & E4 & ND & GE & ALL); [rewrite <- rotations_product; exact TN|].
  rewrite E3. cbn [bind]. rewrite E4. cbn [bind].
  destruct (search_all _ (isotopies_from_edgemap A B (mkPerm m 0)) (fun em a => In em ems /\ exists L, a = map (mk (mkPerm m 0) em) L /\ schosen em L) ems) as (ass & E & F).
  { intros em I. destruct (GE em I) as (G & O). destruct (isotopies_from_spec (mkPerm m 0) em GC G O GT) as (L & EL & CL). eexists. split; [exact EL|]. split; auto. exists L. auto. }
  rewrite E. cbn [bind].
  assert (NDL : NoDup (map tag (concat ass))).
  { eapply (concat_nodup _ _ _ em_key tag (fun i => em_key (i_edge i))); [exact F|auto| |].
    + intros em a (_ & L & -> & N & _). split.
      * rewrite map_map. clear - N. induction L as [|t L IH]; cbn; [constructor|]. cbn in N. inversion N; subst. constructor; auto.
        rewrite in_map_iff. intros (u & Eu & I). apply H1. unfold tag in Eu. cbn in Eu. injection Eu as Eu. rewrite <- Eu. apply in_map; auto.
      * intros i I. apply in_map_iff in I as (t & <- & I). reflexivity.
    + intros i j T. unfold tag in T. congruence. }
  assert (GD : forall i, In i (concat ass) -> sgood (mkPerm m 0) i).
  { intros i I. apply in_concat in I as (a & Ia & I). destruct (forall2_in_r _ _ _ _ _ _ F Ia) as (em & Ie & _ & L & -> & N & M & _). destruct (GE em Ie) as (G & O).
    apply in_map_iff in I as (t & <- & I). destruct (M t I) as (M1 & M2). split; [exists (mkPerm m 0), em, t; auto 6|]. split; [reflexivity|]. split; [exact O|].
    eexists. split; [reflexivity|]. cbn [om_perm]. exact M2. }
  exists (rev (concat ass)). split; [exact GC|]. split; [exact GT|]. split; [|split; [|split]].
  - apply (collect_ok A B (fun _ => true)); auto. intros i I. apply GD; auto.
  - rewrite map_rev. eapply Permutation_NoDup; [apply Permutation_rev|auto].
  - intros i I. apply in_rev in I. auto.
  - intros kc ke kp kf s SO K. split; [eauto|]. pose proof (kt_iso _ _ _ _ _ _ _ K) as IM.
    destruct (ALL ke) as (em & Ie & EM).
    { intros i C HC. destruct (im_comp _ _ _ _ _ _ _ _ _ IM i C HC) as (C' & HC' & R). exists C'. assert (Hi : i < ncomps A) by (apply nth_error_Some; congruence).
      cbn [pmap]. rewrite <- (KP _ _ _ _ _ K i Hi). auto. }
    destruct (forall2_in_l _ _ _ _ _ _ F Ie) as (a & Ia & _ & L & -> & N & M & COV).
    assert (I : In s (map fst L)).
    { apply COV; auto. intros c x Hx. destruct (al_cross _ _ _ _ _ (im_alike _ _ _ _ _ _ _ _ _ IM) c x Hx) as (y & Hy & R). exists (kc c), y. split; auto. split; [|eapply (kt_sign _ _ _ _ _ _ _ K); eauto].
      assert (EQ : map (fun e => nth e (pmap (em_perm em)) 0) (around_cross x) = map ke (around_cross x)); [|rewrite EQ; exact R].
      apply map_ext_in. intros e I. apply EM. assert (exists p, p < 4 /\ cedge x p = e) as (p & P & <-).
      { cbn in I. destruct I as [<-|[<-|[<-|[<-|[]]]]]; [exists 0|exists 1|exists 2|exists 3]; cbn; split; auto; lia. }
      apply (edges_lt A SA c p). split; auto. exists x. auto. }
    apply in_map_iff in I as (t & <- & I). exists (mk (mkPerm m 0) em t). split.
    + apply in_rev. rewrite rev_involutive. apply in_concat. eexists. split; [exact Ia|]. apply in_map. auto.
    + split; [exact EM|]. split; [|reflexivity]. intros c C e HC Ic. apply (GE em Ie). eapply edge_in_lt; eauto.
Qed.
End Iso.

(** * Each kept map once *)
Lemma kept_listed : forall A B, drawn A -> drawn B -> tags_agree A B -> turnable A ->
  exists l, pd_build_diagram_isotopies A B = Ok l /\
   (forall i, In i l -> exists kc ke kp kf s, sign_like s /\ kept A B kc ke kp kf s /\ holds A i kc ke kp kf s (fun _ => Pos)) /\
   (forall kc ke kp kf s, sign_like s -> kept A B kc ke kp kf s -> exists n, forall n', (exists i, nth_error l n' = Some i /\ holds A i kc ke kp kf s (fun _ => Pos)) <-> n' = n).
Proof.
  intros A B DA DB TG TN. destruct (drawn_facts A DA) as (SA & _). destruct (drawn_facts B DB) as (SB & _). destruct (may_match A B) eqn:MM.
  - destruct (isotopies_found A B DA DB TG TN MM) as (cp & l & GC & GT & E & ND & G & ALL). exists l. split; auto. split.
    + intros i I. destruct (G i I) as (GI & EC & EO & x & EX & ES). destruct (good_holds A B MM _ i GI) as (kc & ke & kp & kf & s & dir & SO & _ & SD & IM & H).
      assert (D : forall c C, nth_error (p_comp A) c = Some C -> dir c = Pos).
      { intros c C HC. destruct H as (_ & _ & _ & _ & HO). pose proof (comp_nonempty A c C SA HC) as N. pose proof (HO c C (nth 0 (cp_edge C) 0) HC (nth_In _ _ N)) as X.
        rewrite EO in X by (eapply edge_in_lt; eauto; apply nth_In; auto). congruence. }
      exists kc, ke, kp, kf, s. split; auto. split; [constructor|].
      * destruct IM as [I1 I2 I3 I4 I5 I6 I7]. constructor; auto. intros c C HC. rewrite <- (D c C HC). apply I4; auto.
      * intros c xa xb HA HB. destruct H as ((x' & EX' & _ & HC) & _). assert (x' = x) as -> by congruence. apply (ES c xa xb); auto. rewrite HC; auto. apply nth_error_Some. congruence.
      * intros c C C' HC HC'. destruct H as (_ & _ & HP & _). destruct (GT c C HC) as (C2 & H2 & T2). rewrite <- EC, HP in H2 by (apply nth_error_Some; congruence). congruence.
      * destruct H as (H1 & H2 & H3 & H4 & H5). split; auto. split; auto. split; auto. split; auto. intros c C e HC I'. rewrite (H5 c C e HC I'). f_equal. eauto.
    + intros kc ke kp kf s SO K. destruct (ALL kc ke kp kf s SO K) as (KP & i & Ii & AG). destruct (G i Ii) as (GI & EC & _).
      assert (HI : holds A i kc ke kp kf s (fun _ => Pos)).
      { apply (found_holds A B SA SB (fun _ => true)); auto; [apply K|]. intros c Hc. rewrite EC. symmetry. auto. }
      apply In_nth_error in Ii as (n & Hn). exists n. intros n'. split.
      * intros (j & Hj & HJ). assert (T : tag j = tag i) by (eapply (holds_tag A B SA (fun _ => true)); eauto; apply G; eapply nth_error_In; eauto).
        assert (T1 : nth_error (map tag l) n' = Some (tag i)) by (rewrite <- T; apply map_nth_error; auto).
        assert (T2 : nth_error (map tag l) n = Some (tag i)) by (apply map_nth_error; auto).
        apply (NoDup_nth_error (map tag l)); auto; [apply nth_error_Some; congruence|congruence].
      * intros ->. eauto.
  - exists []. split; [unfold pd_build_diagram_isotopies; rewrite MM; auto|]. split; [intros i []|]. intros kc ke kp kf s _ K.
    rewrite (drawn_match A B kc ke kp kf s s (fun _ => Pos)) in MM; auto; [discriminate|apply K].
Qed.
