(** Tangles: the rebuilt tangle passes all checks. *)
From Coq Require Import List ZArith Lia Bool Arith Permutation Sorted Relations.
From Verif Require Import Base ListAux Iterators Sorting Orbits Cycles Containers ContainersProofs Pd PdSpec PdProofs PdFaces PdFacesProofs PdCross PdCompsProofs PdIso Relabel RelabelProofs Strands
  OverUnder OverUnderSpec OverUnderProofs LinkProofs HashSpec HashIso IsoEnum Planar PlanarProofs DartMap Bigon Thm_Faces Thm_Planar Tangle TangleSpec TangleWalk TangleInside.
From Verif Require BigonCorners.
Import ListNotations.
Open Scope nat_scope.

Section Sphere.
Context (d : pd) (SD : sphere d).
Notation R := (sp_recorded d SD). Notation G := (sp_through d SD). Notation T := (sp_ends d SD). Notation FP := (sp_faces d SD).
Notation lfs := (lfs d). Notation rts := (rts d).

Lemma face_pos_ok : forall e, e < nedges d -> pd_face_and_pos d e = Ok (lfs e, rts e).
Proof.
  intros e L. destruct FP as (_ & N & C). unfold pd_face_and_pos.
  destruct (BigonCorners.last_face_found e Pos (p_face d) 0 None N) as (F & f & E1 & HF & If); [apply C; split; auto|].
  destruct (BigonCorners.last_face_found e Neg (p_face d) 0 None N) as (F' & g & E2 & HF' & Ig); [apply C; split; auto|].
  rewrite E1, E2. cbn [Deloop.index bind]. unfold PlanarProofs.lfs, PlanarProofs.rts.
  rewrite (fno_is d FP (e, Pos) F), (fno_is d FP (e, Neg) F'); auto; [exists g|exists f]; auto.
Qed.
Lemma sides_differ : forall e, e < nedges d -> lfs e <> rts e.
Proof.
  intros e L E. destruct (coloured d R T FP (sp_nfaces d SD) (sp_connected d SD)) as (u & U).
  pose proof (U (e, Pos) (dart_lt d e Pos L (or_introl eq_refl))) as K. unfold flip in K. cbn [fst snd] in K.
  unfold PlanarProofs.lfs, PlanarProofs.rts in E. rewrite E in K. cbn in K. destruct (u (fno d (e, Neg))); discriminate.
Qed.
Lemma along_lt : forall f e o, face_along d f e o -> e < nedges d.
Proof. intros f e o (F & HF & I). destruct FP as (_ & _ & C). apply (C (e, o)), in_concat. exists F. split; auto. eapply nth_error_In; eauto. Qed.
Lemma along_pos : forall f e, face_along d f e Pos -> lfs e = f.
Proof. intros f e H. apply (fno_is d FP (e, Pos)). exact H. Qed.
Lemma along_neg : forall f e, face_along d f e Neg -> rts e = f.
Proof. intros f e H. apply (fno_is d FP (e, Neg)). exact H. Qed.
Lemma lfs_along : forall e, e < nedges d -> face_along d (lfs e) e Pos.
Proof. intros e L. apply (fno_along d FP (e, Pos)). apply dart_lt; auto. Qed.
Lemma rts_along : forall e, e < nedges d -> face_along d (rts e) e Neg.
Proof. intros e L. apply (fno_along d FP (e, Neg)). apply dart_lt; auto. Qed.
Lemma on_face : forall f e o, face_along d f e o -> edge_on_face d e f = Ok true.
Proof.
  intros f e o (F & HF & I). unfold edge_on_face. rewrite (proj2 (get_ok _ _ _ _) HF). cbn [bind]. f_equal. apply existsb_exists. exists (e, o). split; auto. apply Nat.eqb_refl.
Qed.

Context (es fs : list nat) (inside : nat -> bool).
Context (CC : closed_curve d es fs) (TS : two_sides_of d es fs inside).
Notation hi := (hi d inside). Notation ti := (ti d inside). Notation os := (map (dir d inside) es).
Notation entries := (entries d es inside). Notation exits := (exits d es inside). Notation the_strand := (the_strand d es inside).
Notation succ := (succ d).

Lemma fs_length : length fs = length es. Proof. apply CC. Qed.
Lemma on_faces : map2_ok (edge_on_face d) es fs = Ok (map (fun _ => true) es).
Proof.
  apply map2_map; [apply fs_length|]. intros i e f He Hf. destruct TS as (X & _). destruct (X i e f He Hf) as [(A & _)|(A & _)]; eapply on_face; eauto.
Qed.
Lemma os_ok : map2_ok (boundary_or d) es fs = Ok os.
Proof.
  apply map2_map; [apply fs_length|]. intros i e f He Hf. destruct TS as (X & _).
  unfold boundary_or, dir. destruct (X i e f He Hf) as [(A & K)|(A & K)]; rewrite face_pos_ok by (eapply along_lt; eauto); cbn [bind fst snd].
  - apply in_iff in K; auto. destruct K as (_ & _ & ->). rewrite (along_pos f e A), Nat.eqb_refl. auto.
  - apply out_iff in K; auto. destruct K as (L & _ & ->). pose proof (sides_differ e L) as N. rewrite (along_neg f e A) in *. rewrite Nat.eqb_refl.
    destruct (Nat.eqb_spec (lfs e) f); congruence.
Qed.
Lemma nth_os : forall i e, nth_error es i = Some e -> nth_error os i = Some (dir d inside e).
Proof. intros i e H. rewrite nth_error_map, H. auto. Qed.
Lemma fit_faces : forall o ss c i, faces_fit d (mkTangle es fs o ss c i) = Ok true.
Proof.
  intros o ss c i. unfold faces_fit. cbn [t_edge t_face].
  rewrite (map_ok_all _ _ _ (fun e => (lfs e, rts e))) by (intros e I; apply face_pos_ok; eapply es_lt; eauto). cbn [bind].
  apply all_ok_spec. intros j J. apply in_seq in J. destruct CC as (NE & _ & _ & Ln & X).
  destruct (nth_error es j) as [e|] eqn:He; [|apply nth_error_None in He; lia].
  destruct (nth_error fs j) as [f|] eqn:Hf; [|apply nth_error_None in Hf; lia].
  assert (Lm : (j + 1) mod length es < length es) by (apply Nat.mod_upper_bound; lia).
  destruct (nth_error fs ((j + 1) mod length es)) as [g|] eqn:Hg; [|apply nth_error_None in Hg; lia].
  rewrite (proj2 (get_ok _ (map _ es) j (lfs e, rts e))) by (rewrite nth_error_map, He; auto). cbn [bind].
  rewrite (proj2 (get_ok _ _ _ _) Hf). cbn [bind]. rewrite (proj2 (get_ok _ _ _ _) Hg). cbn [bind].
  assert (Le : e < nedges d) by (eapply es_lt; eauto using nth_error_In). pose proof (sides_differ e Le) as N.
  unfold on_one_side. cbn [fst snd]. f_equal. destruct (X j e f g He Hf Hg) as [(A & B)|(A & B)].
  - rewrite (along_pos f e A), (along_neg g e B) in *. rewrite !Nat.eqb_refl. destruct (Nat.eqb_spec f g), (Nat.eqb_spec g f); cbn; congruence.
  - rewrite (along_neg f e A), (along_pos g e B) in *. rewrite !Nat.eqb_refl. destruct (Nat.eqb_spec f g), (Nat.eqb_spec g f); cbn; congruence.
Qed.
Lemma rewalk_ok : forall r a, a < nedges d -> (forall j, j < r -> iter j succ a <> iter r succ a) -> rewalk r d a (iter r succ a) = Ok true.
Proof.
  induction r as [|r IH]; intros a L N; cbn [rewalk].
  - cbn [iter]. rewrite Nat.eqb_refl. auto.
  - destruct (Nat.eqb_spec a (iter (S r) succ a)) as [E|_]; [exfalso; apply (N 0); [lia|exact E]|].
    rewrite (next_is d SD a L). cbn [bind]. rewrite <- iter_front. apply IH; [apply succ_lt; auto; exact G|]. intros j Hj. rewrite !iter_front. apply N. lia.
Qed.
Lemma strand_checks : forall i c b s, strand_at d es inside i s ->
  let t := mkTangle es fs os (map the_strand entries) c b in
  strand_fits d t s = Ok true /\ strand_walks d t s = Ok true /\ strand_on_comp d t s = Ok true.
Proof.
  intros i c b s (E & a & r & m & Hi & L & Ta & Ha & P & R0 & Rm & Q & X & Y & He & Hn & OC & C & HC & Em) t.
  unfold t, strand_fits, strand_walks, strand_on_comp. cbn [t_edge]. rewrite E.
  assert (L1 : i < length es) by (apply nth_error_Some; congruence). assert (L2 : end_edge s < length es) by (apply nth_error_Some; congruence).
  rewrite (proj2 (Nat.ltb_lt _ _) L1), (proj2 (Nat.ltb_lt _ _) L2), (proj2 (get_ok _ _ _ _) HC). cbn [bind]. split.
  { f_equal. apply Nat.leb_le. lia. }
  rewrite (proj2 (get_ok _ _ _ _) Hi), (proj2 (get_ok _ _ _ _) He). cbn [bind]. split.
  - rewrite Hn. replace (r + 1) with (S r) by lia. apply rewalk_ok; auto. intros j Hj Z.
    assert (hi (iter j succ a) = true) by (destruct (Nat.eq_dec j 0) as [->|]; [exact Ha|apply Q; lia]). congruence.
  - assert (OB : on_comp d (iter r succ a) (ts_comp s)).
    { assert (forall k, on_comp d (iter k succ a) (ts_comp s)); auto. induction k as [|k IH]; auto. cbn [iter].
      apply (on_comp_continues d R G (strands_part d SD) (iter k succ a)); auto. apply (continues_succ d R G). split; auto. apply iter_lt; auto. exact G. }
    destruct (comp_pos_ok d (strands_part d SD) a L) as (c1 & p1 & -> & O1). cbn [bind fst].
    destruct (comp_pos_ok d (strands_part d SD) (iter r succ a)) as (c2 & p2 & -> & O2); [apply iter_lt; auto; exact G|]. cbn [bind fst].
    rewrite (on_comp_fun d (strands_part d SD) _ _ _ O1 OC), (on_comp_fun d (strands_part d SD) _ _ _ O2 OB), Nat.eqb_refl. auto.
Qed.
Lemma checks_ok : forall st, good d inside st -> pd_tangle_ok d (mkTangle es fs os (map the_strand entries) (fst st) (snd st)) = Ok true.
Proof.
  intros st (Gc & Gi). unfold pd_tangle_ok. cbn [t_strand t_edge]. destruct (halves d SD es fs inside CC TS) as (H1 & H2 & H3).
  rewrite map_length, H1, Nat.eqb_refl. cbn [negb]. rewrite edges_unique_ok by (eapply es_nodup; eauto). cbn [negb].
  rewrite fit_faces. unfold and_ok at 1. cbn [bind].
  assert (CF : counts_fit (mkTangle es fs os (map the_strand entries) (fst st) (snd st)) = true).
  { unfold counts_fit. cbn [t_or t_strand]. rewrite map_length, !filter_map_length, H1.
    pose proof (count_in d es inside) as CI. pose proof (filter_split _ hi es) as FSp.
    assert (F1 : filter (fun a => is_out (dir d inside a)) es = filter (fun a => negb (hi a)) es) by (apply filter_ext; intros a; unfold dir; destruct (hi a); auto).
    assert (F2 : filter (fun a => negb (is_out (dir d inside a))) es = filter hi es) by (apply filter_ext; intros a; unfold dir; destruct (hi a); auto).
    rewrite F1, F2. apply andb_true_iff. rewrite !Nat.leb_le. lia. }
  rewrite CF. cbn [negb].
  assert (SC : forall s, In s (map the_strand entries) -> exists i, strand_at d es inside i s).
  { intros s I. apply in_map_iff in I as (i & <- & I). exists i. eapply the_strand_ok; eauto. }
  rewrite (proj2 (all_ok_spec _ _ _)) by (intros s I; destruct (SC s I) as (i & K); apply (strand_checks i (fst st) (snd st) s K)). unfold and_ok at 1. cbn [bind].
  rewrite (proj2 (all_ok_spec _ _ _)) by (intros s I; destruct (SC s I) as (i & K); apply (strand_checks i (fst st) (snd st) s K)). unfold and_ok at 1. cbn [bind].
  rewrite (proj2 (all_ok_spec _ _ _)) by (intros s I; destruct (SC s I) as (i & K); apply (strand_checks i (fst st) (snd st) s K)). unfold and_ok at 1. cbn [bind].
  f_equal. apply andb_true_iff. rewrite !Nat.leb_le. split.
  - cbn [t_cross]. pose proof (good_lt d inside st (conj Gc Gi)) as B. destruct (fst st); cbn [buf_len lst length] in *; lia.
  - cbn [t_inner]. assert (B : length (lst (snd st)) <= nedges d).
    { apply bounded_length; [eapply lists_incr; eauto|]. intros x I. eapply lists_in in I; eauto. apply inner_iff in I; auto. tauto. }
    destruct (snd st); cbn [length buf_len lst] in *; lia.
Qed.

Theorem regenerated : forall t, t_edge t = es -> t_face t = fs -> length (t_strand t) = length es / 2 ->
  exists t', pd_regenerate_tangle d t = Ok t' /\ boundary_found d es fs inside t' /\ pd_tangle_ok d t' = Ok true /\
    lists_only (t_cross t') (inside_cross d inside) /\ lists_only (t_inner t') (inner d inside) /\
    (no_right_curl d inside -> lists_all (t_cross t') (inside_cross d inside) /\ lists_all (t_inner t') (inner d inside)).
Proof.
  intros t Te Tf Ts. unfold pd_regenerate_tangle. rewrite Te, Tf.
  assert (NE : length es <> 0) by (destruct CC as (NE & _); destruct es; cbn; congruence).
  assert (LE : length es <= nedges d).
  { rewrite <- (seq_length (nedges d) 0). apply NoDup_incl_length; [eapply es_nodup; eauto|]. intros e I. apply in_seq. pose proof (es_lt d es fs inside CC TS e I). lia. }
  rewrite (proj2 (Nat.eqb_neq _ _) NE), (proj2 (Nat.leb_le _ _) LE). cbn [negb andb].
  rewrite edges_unique_ok by (eapply es_nodup; eauto). rewrite on_faces. cbn [bind].
  assert (FA : forallb (fun b => b) (map (fun _ : nat => true) es) = true) by (apply forallb_forall; intros b I; apply in_map_iff in I as (? & <- & _); auto).
  rewrite FA, os_ok. cbn [bind]. rewrite (strands_ok d SD es fs inside CC TS (t_strand t) Ts). cbn [bind].
  destruct (seeds_ok d SD es fs inside CC TS entries (None, None)) as (st & E & Gd & _ & V & C); [intros x; auto|split; exact I|]. rewrite E. cbn [bind].
  rewrite (checks_ok st Gd). cbn [bind]. eexists. split; [reflexivity|]. split; [|split; [apply checks_ok; auto|]].
  - split; auto. split; auto. cbn [t_or t_strand]. split; [apply map_length|]. split; [|split; [|split; [|split; [|split]]]].
    + intros i e o He Ho. rewrite (nth_os i e He) in Ho. injection Ho as <-.
      assert (Ie : In e es) by (eapply nth_error_In; eauto). pose proof (es_lt d es fs inside CC TS e Ie) as Le. apply (es_iff d es fs inside CC TS e Le) in Ie.
      unfold dir. destruct (hi e) eqn:H; [apply in_iff|apply out_iff]; auto; repeat split; auto; destruct (ti e); congruence.
    + rewrite (starts d SD es fs inside CC TS). apply entries_sorted.
    + intros i. rewrite (starts d SD es fs inside CC TS), entries_in. split; intros (e & He & K); exists e; split; auto.
      * assert (Ie : In e es) by (eapply nth_error_In; eauto). pose proof (es_lt d es fs inside CC TS e Ie) as Le. apply (es_iff d es fs inside CC TS e Le) in Ie.
        apply in_iff; auto. repeat split; auto. destruct (ti e); congruence.
      * apply in_iff in K; auto. tauto.
    + apply (ends_nodup d SD es fs inside CC TS).
    + intros i. rewrite (ends_exit d SD es fs inside CC TS), exits_in. split; intros (e & He & K); exists e; split; auto.
      * assert (Ie : In e es) by (eapply nth_error_In; eauto). pose proof (es_lt d es fs inside CC TS e Ie) as Le. apply (es_iff d es fs inside CC TS e Le) in Ie.
        apply out_iff; auto. repeat split; auto. destruct (ti e); congruence.
      * apply out_iff in K; auto. tauto.
    + intros s Is. apply in_map_iff in Is as (i & <- & Is). apply (strand_at_is d SD es inside i). apply (the_strand_ok d SD es fs inside CC TS i Is).
  - cbn [t_cross t_inner]. destruct Gd as (Gc & Gi). split; auto. split; auto. intros NC.
    destruct (complete d SD es fs inside CC TS st NC (conj Gc Gi)) as (K1 & K2).
    + intros a Ia Ha. destruct (In_nth_error _ _ Ia) as (i & Hi). apply (V i a); auto. apply entries_in. eauto.
    + intros c f Ic Lf Tl. apply (C NC c f); auto.
    + split.
      * destruct (fst st) as [l|]; cbn in *; [|intros x Hx; exact (K1 x Hx)]. destruct Gc as (A1 & A2 & A3). split; auto. split; auto. intros x. split; auto.
      * destruct (snd st) as [l|]; cbn in *; [|intros x Hx; exact (K2 x Hx)]. destruct Gi as (A1 & A2 & A3). split; auto. split; auto. intros x. split; auto.
Qed.
End Sphere.
