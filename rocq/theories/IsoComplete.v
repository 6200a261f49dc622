(** Completeness of the isomorphism search. *)
From Coq Require Import List ZArith Lia Bool Arith Permutation Factorial.
From Verif Require Import Base Sorting Iterators PermData Perm PermProofs Pd PdSpec PdProofs PdCross PdFaces OverUnder PdIso IsoSpec Relabel RelabelProofs HashSpec HashProofs Strands DiagIso RegenSpec Carry Thm_IsoOps DartMap AlikeProofs IsoSound IsoImages IsoEnum IsoEdges Planar.
From Verif Require IteratorsProofs Thm_Iterators Thm_Planar PdStore PdStoreProofs.
Import ListNotations.
Open Scope nat_scope.
Open Scope res_scope.

(** * Where an edge is *)
Lemma pos_in_nth : forall l p e, NoDup l -> nth_error l p = Some e -> pos_in e l = Some p.
Proof.
  induction l as [|x l IH]; intros p e N H; [destruct p; discriminate|]. inversion N; subst. cbn. destruct p as [|p]; cbn in H.
  - injection H as ->. rewrite Nat.eqb_refl. auto.
  - destruct (Nat.eqb_spec x e) as [->|X]; [exfalso; apply H2; eapply nth_error_In; eauto|]. rewrite (IH p e); auto.
Qed.
Lemma pos_in_none : forall l e, ~ In e l -> pos_in e l = None.
Proof.
  induction l as [|x l IH]; intros e N; auto. cbn. destruct (Nat.eqb_spec x e) as [->|X]; [exfalso; apply N; cbn; auto|]. rewrite IH; auto. intros I. apply N. cbn. auto.
Qed.
Lemma comp_search_nth : forall cs k j C p e, NoDup (concat (map cp_edge cs)) -> nth_error cs j = Some C -> nth_error (cp_edge C) p = Some e -> comp_search e k cs = Ok (k + j, p).
Proof.
  induction cs as [|c cs IH]; intros k j C p e N HC He; [destruct j; discriminate|]. cbn in N. cbn [comp_search]. destruct j as [|j]; cbn in HC.
  - injection HC as ->. rewrite (pos_in_nth _ p e); auto; [rewrite Nat.add_0_r; auto|]. eapply NoDup_app_l; eauto.
  - rewrite pos_in_none.
    + rewrite (IH (S k) j C p e); auto; [f_equal; f_equal; lia|]. eapply NoDup_app_r; eauto.
    + intros I. apply (NoDup_app_disj _ _ _ N e I). apply in_concat. exists (cp_edge C). split; [apply in_map; eapply nth_error_In; eauto|eapply nth_error_In; eauto].
Qed.
Lemma comp_pos_nth : forall d j C p e, sphere d -> nth_error (p_comp d) j = Some C -> nth_error (cp_edge C) p = Some e -> pd_component_and_pos d e = Ok (j, p).
Proof.
  intros d j C p e SD HC He. unfold pd_component_and_pos. assert (L : e < nedges d) by (eapply edge_in_lt; eauto; eapply nth_error_In; eauto).
  destruct (Nat.ltb_spec e (nedges d)); [|lia]. apply (comp_search_nth (p_comp d) 0 j C p e); auto. destruct (sp_comps d SD) as (E & _). rewrite E. apply seq_NoDup.
Qed.

Lemma cycliceq_true : forall a b n o, length a = length b -> length a = n -> a <> [] -> sign_like o -> rotation (turned o b) a -> pdint_buffers_cycliceq a b n o = true.
Proof. intros a b n o L Ln N SO Ro. subst n. apply cyclic_comparison; auto. Qed.

Section Consistent.
Context (A B : pd) (SA : sphere A) (SB : sphere B) (NE : nedges B = nedges A) (NC : ncomps B = ncomps A) (NX : ncross B = ncross A) (NF : nfaces B = nfaces A).
Context (OA : pd_ok A = Ok true) (OB : pd_ok B = Ok true) (W : forall C, In C (p_comp B) -> (Z.of_nat (length (cp_edge C)) <= 2 ^ 32)%Z).
Context (cp : perm) (GC : good_perm (ncomps A) cp) (em : edgemap) (GE : good_em A B cp em).
Context (o : orient) (SO : sign_like o) (px pf : perm).
Let mm := pmap (em_perm em).
Context (GX : good_map _ (cross_to B mm o) (p_cross A) px) (GF : good_map _ (face_to B mm o) (p_face A) pf).

Lemma good_of_map : forall T P (l : list T) p, good_map T P l p -> good_perm (length l) p.
Proof. intros T P l p [G1 G2 G3 G4 _]. constructor; auto. Qed.
Lemma mm_get : forall e, e < nedges A -> get mm e = Ok (nth e mm 0).
Proof. intros e H. apply get_lt. destruct (good_perm_bij _ _ (ge_perm _ _ _ _ GE)) as (L & _). unfold mm. lia. Qed.

Lemma consistent_ok : pd_iso_consistent A B (mkIso cp em (Some (mkOM px o)) (mkOM pf o)) = Ok true.
Proof.
  destruct GE as [G1 G2 (dir & M)]. pose proof (good_of_map _ _ _ _ GX) as PX. pose proof (good_of_map _ _ _ _ GF) as PF.
  destruct (good_perm_bij _ _ GC) as (LC & RC & _). destruct (good_perm_bij _ _ G1) as (LE & RE & _).
  pose proof (sp_some A SA) as S0. assert (E0 : 1 <= nedges A).
  { destruct (nth_error (p_cross A) 0) as [x|] eqn:X; [|apply nth_error_None in X; unfold ncross in S0; lia].
    assert (slot A 0 0 (cedge x 0)) as SL by (split; [lia|eauto]). apply (edges_lt A SA) in SL. lia. }
  assert (C0 : 1 <= ncomps A).
  { destruct (edge_comp A 0 SA ltac:(lia)) as (i & C & HC & _). assert (i < ncomps A) by (apply nth_error_Some; congruence). lia. }
  assert (F0 : 1 <= nfaces A) by (pose proof (sp_nfaces A SA); lia).
  unfold pd_iso_consistent. rewrite OA, OB. cbn [bind].
  assert (IK : pd_iso_ok (mkIso cp em (Some (mkOM px o)) (mkOM pf o)) = Ok true).
  { unfold pd_iso_ok. cbn [i_comp i_edge i_cross i_face]. rewrite !and_ok_true. split; [eapply good_perm_ok; [|exact GC]; auto|]. split; [|split].
    - unfold pd_edgemap_ok. rewrite (good_perm_ok (nedges A)); auto. cbn [bind andb]. f_equal. apply forallb_forall. intros r Io. apply In_nth_error in Io as (e & He).
      assert (e < nedges A) as Le by (rewrite <- G2; apply nth_error_Some; congruence).
      destruct (edge_comp A e SA Le) as (i & CA & HA & Ie). destruct (M i CA HA) as (SD & _ & K). rewrite (K e Ie) in He. injection He as <-. destruct SD as [->| ->]; reflexivity.
    - cbn. eapply good_perm_ok; [|exact PX]. auto.
    - cbn. eapply good_perm_ok; [|exact PF]. auto. }
  rewrite IK. cbn [bind negb i_cross i_edge i_comp i_face om_perm]. rewrite NX, Nat.eqb_refl.
  destruct (Nat.eqb_spec (ncross A) 0) as [Z|_]; [lia|]. cbn [bind]. rewrite (gp_n _ _ PX). change (length (p_cross A)) with (ncross A). rewrite Nat.eqb_refl. cbn [negb].
  rewrite NE, Nat.eqb_refl. rewrite (gp_n _ _ G1), Nat.eqb_refl. cbn [negb]. rewrite NF, Nat.eqb_refl. rewrite (gp_n _ _ PF). change (length (p_face A)) with (nfaces A). rewrite Nat.eqb_refl. cbn [negb].
  rewrite NC, Nat.eqb_refl. rewrite (gp_n _ _ GC), Nat.eqb_refl. cbn [negb]. cbv zeta. fold mm.
  change (moves_comps A B cp (fun e => nth e mm 0) (em_or em) dir) in M.
  assert (COMP : forall i, i < ncomps A -> exists CA CB, nth_error (p_comp A) i = Some CA /\ nth_error (p_comp B) (nth i (pmap cp) 0) = Some CB /\ length (cp_edge CB) = length (cp_edge CA) /\
    get (p_comp A) i = Ok CA /\ get (pmap cp) i = Ok (nth i (pmap cp) 0) /\ get (p_comp B) (nth i (pmap cp) 0) = Ok CB /\ sign_like (dir i) /\ 1 <= length (cp_edge CA) /\
    (forall e, In e (cp_edge CA) -> nth_error (em_or em) e = Some (dir i)) /\
    exists r, r < length (cp_edge CA) /\ forall k, k < length (cp_edge CA) -> nth_error (cp_edge CB) (match dir i with Pos => (k + r) mod length (cp_edge CA) | _ => length (cp_edge CA) - 1 - (k + r) mod length (cp_edge CA) end) = Some (nth (nth k (cp_edge CA) 0) mm 0)).
  { intros i Hi. destruct (nth_error (p_comp A) i) as [CA|] eqn:HA; [|apply nth_error_None in HA; unfold ncomps in Hi; lia].
    destruct (M i CA HA) as (SD & (CB & HB & Ro) & K). pose proof (comp_nonempty A i CA SA HA) as N0. exists CA, CB.
    assert (LB : length (cp_edge CB) = length (cp_edge CA)).
    { pose proof (Permutation_length (rotation_perm _ _ _ Ro)) as L. rewrite turned_length, map_length in L. auto. }
    split; auto. split; auto. split; auto. split; [unfold get; rewrite HA; auto|]. split; [apply get_lt; lia|]. split; [unfold get; rewrite HB; auto|]. split; auto. split; auto. split; auto.
    destruct (rotation_nth _ _ _ 0 Ro) as (_ & r & Hr & R); [intros X; apply (f_equal (@length nat)) in X; rewrite turned_length in X; cbn in X; lia|].
    rewrite turned_length, LB in Hr, R. exists r. split; auto. intros k Hk. specialize (R k Hk). rewrite map_nth_in in R by auto.
    assert (Hq : (k + r) mod length (cp_edge CA) < length (cp_edge CB)) by (rewrite LB; apply Nat.mod_upper_bound; lia).
    rewrite turned_nth in R by auto. rewrite LB in R. rewrite R. apply nth_error_nth'. destruct (dir i); lia. }
  rewrite !and_ok_true, !all_ok_spec. split; [|split; [|split; [|split; [|split; [|split]]]]].
  - intros i I. apply in_seq in I. destruct (COMP i ltac:(lia)) as (CA & CB & HA & HB & LB & E1 & E2 & E3 & _). unfold comp_size_ok. rewrite E1. cbn [bind]. rewrite E2. cbn [bind]. rewrite E3. cbn [bind]. rewrite LB, Nat.eqb_refl. auto.
  - intros e I. apply in_seq in I. destruct (edge_comp A e SA ltac:(lia)) as (i & CA & HA & Ie). assert (Hi : i < ncomps A) by (apply nth_error_Some; congruence).
    destruct (COMP i Hi) as (CA' & CB & HA' & HB & LB & E1 & E2 & E3 & _ & _ & _ & r & Hr & R). rewrite HA in HA'. injection HA' as <-.
    apply In_nth_error in Ie as (k & Hk). unfold edge_comp_ok. rewrite (comp_pos_nth A i CA k e SA HA Hk). cbn [bind fst].
    rewrite mm_get by lia. cbn [bind]. assert (Lk : k < length (cp_edge CA)) by (apply nth_error_Some; congruence). specialize (R k Lk). rewrite (nth_error_nth _ _ _ Hk) in R.
    erewrite (comp_pos_nth B _ CB); eauto. cbn [bind fst]. rewrite E2. cbn [bind]. rewrite Nat.eqb_refl. auto.
  - intros i I. apply in_seq in I. destruct (COMP i ltac:(lia)) as (CA & CB & HA & HB & LB & E1 & E2 & E3 & SD & N0 & K & _). unfold comp_or_ok. rewrite E1. cbn [bind].
    rewrite (get_lt _ (cp_edge CA) 0 0) by lia. cbn [bind]. unfold get at 1. rewrite K by (apply nth_In; lia). cbn [bind]. apply all_ok_spec. intros k Ik. apply in_seq in Ik.
    rewrite (get_lt _ (cp_edge CA) k 0) by lia. cbn [bind]. unfold get at 1. rewrite K by (apply nth_In; lia). cbn [bind]. f_equal. destruct SD as [->| ->]; reflexivity.
  - intros i I. apply in_seq in I. destruct (COMP i ltac:(lia)) as (CA & CB & HA & HB & LB & E1 & E2 & E3 & SD & N0 & K & r & Hr & R). unfold comp_order_ok. rewrite E1. cbn [bind].
    rewrite (get_lt _ (cp_edge CA) 0 0) by lia. cbn [bind]. unfold get at 1. rewrite K by (apply nth_In; lia). cbn [bind]. apply all_ok_spec. intros k Ik. apply in_seq in Ik.
    set (n := length (cp_edge CA)) in *. assert (Hk : k < n) by lia. assert (Hk' : (k + 1) mod n < n) by (apply Nat.mod_upper_bound; lia).
    rewrite (get_lt _ (cp_edge CA) k 0) by auto. cbn [bind]. rewrite (get_lt _ (cp_edge CA) ((k + 1) mod n) 0) by auto. cbn [bind].
    rewrite mm_get by (eapply (edge_in_lt A); eauto; apply nth_In; auto). cbn [bind]. rewrite mm_get by (eapply (edge_in_lt A); eauto; apply nth_In; auto). cbn [bind].
    rewrite (comp_pos_nth B _ CB _ _ SB HB (R k Hk)). cbn [bind]. rewrite (comp_pos_nth B _ CB _ _ SB HB (R _ Hk')). cbn [bind fst snd]. rewrite Nat.eqb_refl. rewrite E3. cbn [bind]. rewrite LB.
    set (s := (k + r) mod n). assert (Es : ((k + 1) mod n + r) mod n = (s + 1) mod n).
    { unfold s. rewrite !Nat.add_mod_idemp_l by lia. f_equal. lia. }
    rewrite Es. assert (Hs : s < n) by (apply Nat.mod_upper_bound; lia).
    assert (Hs' : (s + 1) mod n < n) by (apply Nat.mod_upper_bound; lia).
    assert (WB : (Z.of_nat n <= 2 ^ 32)%Z) by (rewrite <- LB; apply W; eapply nth_error_In; eauto).
    match goal with |- pdint_in_cyclic_order ?a ?b _ _ = _ => destruct (cyclic_order a b n (dir i)) as (b0 & Eb & Hb); auto end; try (destruct (dir i); lia).
    rewrite Eb. f_equal. apply Hb. destruct SD as [-> | ->]; auto.
    destruct (Nat.eq_dec (s + 1) n) as [X|X].
    + rewrite X, Nat.mod_same by lia. replace (n - 1 - 0 + 1) with n by lia. rewrite Nat.mod_same by lia. lia.
    + rewrite (Nat.mod_small (s + 1)) by lia. rewrite Nat.mod_small by lia. lia.
  - intros c I. apply in_seq in I. unfold cross_pair_ok. destruct (nth_error (p_cross A) c) as [x|] eqn:Hx; [|apply nth_error_None in Hx; unfold ncross in I; lia].
    unfold get at 1. rewrite Hx. cbn [bind om_perm om_or]. destruct (gm_to _ _ _ _ GX c x Hx) as (y & Hy & Ro).
    rewrite gather_ok.
    2:{ apply Forall_forall. intros e Ie. replace (length mm) with (nedges A) by (unfold mm; auto). apply In_nth_error in Ie as (p & Hp).
        assert (p < 4) by (change 4 with (length (cross_edges x)); apply nth_error_Some; congruence). apply (edges_lt A SA c p). split; auto. exists x. split; auto.
        destruct (small4 p H) as [->|[->|[->| ->]]]; cbn in Hp; injection Hp as <-; reflexivity. }
    cbn [bind]. rewrite (get_lt _ (pmap px) c 0) by (destruct (good_perm_bij _ _ PX) as (-> & _); unfold ncross in *; lia). cbn [bind]. unfold get at 1. rewrite Hy. cbn [bind]. f_equal.
    apply cycliceq_true; auto. discriminate.
  - intros f I. apply in_seq in I. unfold face_size_ok. destruct (nth_error (p_face A) f) as [F|] eqn:HF; [|apply nth_error_None in HF; unfold nfaces in I; lia].
    unfold get at 1. rewrite HF. cbn [bind om_perm om_or]. destruct (gm_to _ _ _ _ GF f F HF) as (G & HG & Ro).
    rewrite (get_lt _ (pmap pf) f 0) by (destruct (good_perm_bij _ _ PF) as (-> & _); unfold nfaces in *; lia). cbn [bind]. unfold get at 1. rewrite HG. cbn [bind]. f_equal.
    pose proof (Permutation_length (rotation_perm _ _ _ Ro)) as L. rewrite turned_length, !map_length in L. rewrite L. apply Nat.eqb_refl.
  - intros f I. apply in_seq in I. unfold face_pair_ok. destruct (nth_error (p_face A) f) as [F|] eqn:HF; [|apply nth_error_None in HF; unfold nfaces in I; lia].
    unfold get at 1. rewrite HF. cbn [bind om_perm om_or]. destruct (gm_to _ _ _ _ GF f F HF) as (G & HG & Ro).
    rewrite gather_ok.
    2:{ apply Forall_forall. intros e Ie. replace (length mm) with (nedges A) by (unfold mm; auto). apply in_map_iff in Ie as (a & <- & Ia). apply (in_face A f F a (sp_faces A SA) HF Ia). }
    cbn [bind]. rewrite (get_lt _ (pmap pf) f 0) by (destruct (good_perm_bij _ _ PF) as (-> & _); unfold nfaces in *; lia). cbn [bind]. unfold get at 1. rewrite HG. cbn [bind].
    pose proof (Permutation_length (rotation_perm _ _ _ Ro)) as L. rewrite turned_length, !map_length in L. rewrite L, Nat.eqb_refl. f_equal.
    apply cycliceq_true; auto; rewrite ?map_length; auto. destruct (proj1 (sp_faces A SA) F (nth_error_In _ _ HF)) as (N & _). destruct F; [congruence|discriminate].
Qed.
End Consistent.

(** * The search *)
Definition mk (cp : perm) (em : edgemap) (t : orient * (perm * perm)) : iso := mkIso cp em (Some (mkOM (fst (snd t)) (fst t))) (mkOM (snd (snd t)) (fst t)).
Definition cut {T} (early : bool) (l : list T) : list T := if early then firstn 1 l else l.

Lemma add_isos_ok : forall A B early cp em l, (forall t, In t l -> pd_iso_consistent A B (mk cp em t) = Ok true) ->
  add_isos A B early cp em (map (fun t => (i_cross (mk cp em t), i_face (mk cp em t))) l) = Ok (cut early (map (mk cp em) l)).
Proof.
  induction l as [|t l IH]; intros H; cbn [map add_isos]; [destruct early; auto|].
  change (mkIso cp em (i_cross (mk cp em t)) (i_face (mk cp em t))) with (mk cp em t). rewrite (H t) by (cbn; auto). cbn [bind]. destruct early; auto.
  rewrite IH by (intros; apply H; cbn; auto). reflexivity.
Qed.
Lemma search_all : forall T (f : T -> res (list iso)) (Q : T -> list iso -> Prop) l, (forall x, In x l -> exists a, f x = Ok a /\ Q x a) ->
  exists ass, search false f l = Ok (concat ass) /\ Forall2 Q l ass.
Proof.
  induction l as [|x l IH]; intros H; cbn [search]; [exists []; auto|]. destruct (H x) as (a & E & K); [cbn; auto|]. rewrite E. cbn [bind andb].
  destruct IH as (ass & E2 & F); [intros; apply H; cbn; auto|]. rewrite E2. cbn [bind]. exists (a :: ass). auto.
Qed.
Lemma search_first : forall T (f : T -> res (list iso)) (Q : T -> list iso -> Prop) l, (forall x, In x l -> exists a, f x = Ok a /\ Q x a) ->
  exists r, search true f l = Ok r /\ ((r = [] /\ forall x, In x l -> Q x []) \/ (r <> [] /\ exists x, In x l /\ Q x r)).
Proof.
  induction l as [|x l IH]; intros H; cbn [search]; [exists []; split; auto; left; split; auto; intros x []|].
  destruct (H x) as (a & E & K); [cbn; auto|]. rewrite E. cbn [bind andb]. destruct (Nat.eqb_spec (length a) 0) as [L|L]; cbn [negb].
  - destruct a; [|discriminate]. destruct IH as (r & E2 & [(-> & F)|(N & y & Iy & F)]); [intros; apply H; cbn; auto| |]; rewrite E2; cbn [bind app].
    + exists []. split; auto. left. split; auto. intros y [<-|I]; auto.
    + exists r. split; auto. right. split; auto. exists y. cbn. auto.
  - exists a. split; auto. right. split; [intros ->; auto|]. exists x. cbn. auto.
Qed.

Lemma fact_mul : forall a b, fact a * fact b <= fact (a + b).
Proof.
  induction a as [|a IH]; intros b; [cbn; lia|]. specialize (IH b). cbn [Nat.add]. change (fact (S a)) with (S a * fact a). change (fact (S (a + b))) with (S (a + b) * fact (a + b)). nia.
Qed.
Lemma fact_groups : forall l : list (list nat), Thm_Iterators.product (map (fun g => fact (length g)) l) <= fact (length (concat l)).
Proof.
  induction l as [|g l IH]; [cbn; lia|]. cbn [map concat]. rewrite app_length. etransitivity; [|apply fact_mul].
  change (fact (length g) * Thm_Iterators.product (map (fun g => fact (length g)) l) <= fact (length g) * fact (length (concat l))). nia.
Qed.
Lemma product_part : forall l x, In x l -> (forall y, In y l -> 1 <= y) -> x <= Thm_Iterators.product l.
Proof.
  induction l as [|y l IH]; intros x I P; [destruct I|]. change (Thm_Iterators.product (y :: l)) with (y * Thm_Iterators.product l).
  assert (1 <= y) by (apply P; cbn; auto). assert (1 <= Thm_Iterators.product l).
  { clear - P. induction l as [|z l IH]; [cbn; lia|]. change (1 <= z * Thm_Iterators.product l). assert (1 <= z) by (apply P; cbn; auto). assert (1 <= Thm_Iterators.product l); [|nia]. apply IH. intros w [->|W]; apply P; cbn; auto. }
  destruct I as [->|I]; [nia|]. specialize (IH x I). assert (x <= Thm_Iterators.product l); [|nia]. apply IH. intros z Z. apply P. cbn. auto.
Qed.

Section Search.
Context (A B : pd) (TA : tidy A) (TB : tidy B) (CA : connected A) (CB : connected B) (OA : pd_ok A = Ok true) (OB : pd_ok B = Ok true).
Context (WC : ncomps A <= 12) (WE : (Z.of_nat (Thm_Iterators.product (map (fun n : nat => (2 * n)%nat) (comp_sizes A))) < 2 ^ 32)%Z).
Context (MM : may_match A B = true).
Context (keep : option ormap -> res bool) (keeps : orient -> bool) (KK : forall p o, sign_like o -> keep (Some (mkOM p o)) = Ok (keeps o)).

Let SA : sphere A := tidy_sphere A TA CA.
Let SB : sphere B := tidy_sphere B TB CB.
Lemma mm_counts : ncross B = ncross A /\ nedges B = nedges A /\ ncomps B = ncomps A /\ nfaces B = nfaces A /\ comp_sizes B = comp_sizes A.
Proof.
  unfold may_match in MM. rewrite !andb_true_iff in MM. destruct MM as ((((((_ & H1) & H2) & H3) & H4) & H5) & _).
  apply Nat.eqb_eq in H1, H2, H3, H4. apply list_eqb_eq in H5. auto.
Qed.
Let NX : ncross B = ncross A := proj1 mm_counts.
Let NE : nedges B = nedges A := proj1 (proj2 mm_counts).
Let NC : ncomps B = ncomps A := proj1 (proj2 (proj2 mm_counts)).
Let NF : nfaces B = nfaces A := proj1 (proj2 (proj2 (proj2 mm_counts))).
Let CS : comp_sizes B = comp_sizes A := proj2 (proj2 (proj2 (proj2 mm_counts))).

Lemma short_comps : forall C, In C (p_comp B) -> (Z.of_nat (length (cp_edge C)) <= 2 ^ 32)%Z.
Proof.
  intros C I. assert (J : In (length (cp_edge C)) (comp_sizes A)) by (rewrite <- CS; apply in_map_iff; eauto).
  assert (K : 2 * length (cp_edge C) <= Thm_Iterators.product (map (fun n => 2 * n) (comp_sizes A))).
  { apply product_part; [apply in_map_iff; eauto|]. intros y Y. apply in_map_iff in Y as (n & <- & Y). apply in_map_iff in Y as (D & <- & Y). apply In_nth_error in Y as (i & Hi).
    pose proof (comp_nonempty A i D SA Hi). lia. }
  apply inj_le in K. rewrite Nat2Z.inj_mul in K. change (Z.of_nat 2) with 2%Z in K. lia.
Qed.

Definition fits (em : edgemap) (o : orient) : Prop := cross_fits A B (fun e => nth e (pmap (em_perm em)) 0) o.
Definition built (em : edgemap) (t : orient * (perm * perm)) : Prop :=
  sign_like (fst t) /\ good_map _ (cross_to B (pmap (em_perm em)) (fst t)) (p_cross A) (fst (snd t)) /\ good_map _ (face_to B (pmap (em_perm em)) (fst t)) (p_face A) (snd (snd t)).

(** the crossing and face maps for one edge map *)
Definition chosen (em : edgemap) (L : list (orient * (perm * perm))) : Prop :=
  NoDup (map fst L) /\ (forall t, In t L -> built em t /\ keeps (fst t) = true) /\
  forall o, sign_like o -> keeps o = true -> fits em o -> In o (map fst L).

Lemma from_edgemap_spec : forall cp em early, good_perm (ncomps A) cp -> good_em A B cp em ->
  exists L, from_edgemap keep early A B cp em = Ok (cut early (map (mk cp em) L)) /\ chosen em L.
Proof.
  intros cp em early GC GE. destruct (good_perm_bij _ _ (ge_perm _ _ _ _ GE)) as (LM & RM & IM). set (mm := pmap (em_perm em)) in *.
  assert (BM : bij_on (nedges A) (fun e => nth e mm 0)) by (split; auto).
  pose proof (td_regular B TB) as RB.
  assert (ORI : forall o, sign_like o ->
    (fits em o /\ exists px pf, oriented_map (cross_image false B mm o) o (p_cross A) = Ok [mkOM px o] /\ oriented_map (face_image B mm o) o (p_face A) = Ok [mkOM pf o] /\ built em (o, (px, pf))) \/
    (~ fits em o /\ oriented_map (cross_image false B mm o) o (p_cross A) = Ok [] /\ oriented_map (face_image B mm o) o (p_face A) = Ok [])).
  { intros o SO. pose proof (cross_face A B SA SB (fun e => nth e mm 0) NE BM o SO) as CF.
    destruct (oriented_cross A B SA SB NE NX (rg_cross B RB) mm LM BM o SO) as [(F & px & E & G)|(F & E)];
    destruct (oriented_face A B SA SB NE NX (rg_low B RB) (rg_sorted B RB) mm LM BM o SO NF) as [(F' & pf & E' & G')|(F' & E')].
    - left. split; auto. exists px, pf. split; auto. split; auto. split; auto.
    - exfalso. apply F', CF, F.
    - exfalso. apply F, CF, F'.
    - right. auto. }
  assert (CONS : forall t, built em t -> pd_iso_consistent A B (mk cp em t) = Ok true).
  { intros (o, (px, pf)) (SO & GX & GF). apply (consistent_ok A B SA SB NE NC NX NF OA OB short_comps cp GC em GE o SO px pf GX GF). }
  pose proof (sp_some A SA) as S0.
  unfold from_edgemap, pd_build_crossmaps, pd_build_facemaps. rewrite NX, NF, !Nat.eqb_refl. destruct (Nat.eqb_spec (ncross A) 0) as [Z|_]; [lia|]. cbn [andb]. fold mm.
  assert (SP : sign_like Pos) by (left; auto). assert (SN : sign_like Neg) by (right; auto).
  assert (FIN : forall L0 : list (orient * (perm * perm)), NoDup (map fst L0) -> (forall t, In t L0 -> built em t) -> (forall o, sign_like o -> fits em o -> In o (map fst L0)) ->
    exists L, (do ks <- map_ok keep (map Some (map (fun t => mkOM (fst (snd t)) (fst t)) L0));
      add_isos A B early cp em (map snd (filter (fun p => fst p) (combine ks (combine (map Some (map (fun t => mkOM (fst (snd t)) (fst t)) L0)) (map (fun t => mkOM (snd (snd t)) (fst t)) L0)))))) =
      Ok (cut early (map (mk cp em) L)) /\ chosen em L).
  { intros L0 ND BT ALL. rewrite map_map. assert (EK : map_ok keep (map (fun t => Some (mkOM (fst (snd t)) (fst t))) L0) = Ok (map (fun t => keeps (fst t)) L0)).
    { clear ND ALL. induction L0 as [|t L0 IH]; cbn [map map_ok]; auto. rewrite KK by (apply BT; cbn; auto). cbn [bind]. rewrite IH by (intros; apply BT; cbn; auto). auto. }
    rewrite EK. cbn [bind]. exists (filter (fun t => keeps (fst t)) L0). split.
    - rewrite <- (add_isos_ok A B early cp em).
      + f_equal. clear. induction L0 as [|t L0 IH]; auto. cbn [map combine filter fst]. destruct (keeps (fst t)); cbn [map snd]; rewrite IH; auto.
      + intros t I. apply filter_In in I as (I & _). auto.
    - split; [|split].
      + clear - ND. induction L0 as [|t L0 IH]; cbn; [constructor|]. cbn in ND. inversion ND; subst. destruct (keeps (fst t)); auto. cbn. constructor; auto.
        rewrite in_map_iff in *. intros (u & E & I). apply filter_In in I as (I & _). apply H1. eauto.
      + intros t I. apply filter_In in I. split; [apply BT|]; apply I.
      + intros o SO K F. specialize (ALL o SO F). apply in_map_iff in ALL as (t & <- & I). apply in_map_iff. exists t. split; auto. apply filter_In. auto. }
  destruct (ORI Pos SP) as [(FP & px & pf & E1 & E2 & BP)|(FP & E1 & E2)]; rewrite E1, E2; cbn [bind];
  destruct (ORI Neg SN) as [(FN & nx & nf & E3 & E4 & BN)|(FN & E3 & E4)]; rewrite E3, E4; cbn [bind app map length Nat.eqb].
  - apply (FIN [(Pos, (px, pf)); (Neg, (nx, nf))]).
    + repeat constructor; cbn; intuition discriminate.
    + intros t [<-|[<-|[]]]; auto.
    + intros o [->| ->] _; cbn; auto.
  - apply (FIN [(Pos, (px, pf))]).
    + repeat constructor; cbn; intuition discriminate.
    + intros t [<-|[]]; auto.
    + intros o [->| ->] F; cbn; auto; contradiction.
  - apply (FIN [(Neg, (nx, nf))]).
    + repeat constructor; cbn; intuition discriminate.
    + intros t [<-|[]]; auto.
    + intros o [->| ->] F; cbn; auto; contradiction.
  - apply (FIN []).
    + constructor.
    + intros t [].
    + intros o [->| ->] F; contradiction.
Qed.

(** ** Where the search gets *)
Lemma groups : exists grps cps, pd_build_compgrps A B = Ok (Some grps) /\ pd_build_compperms grps = Ok cps /\ pd_compperms_ok cps = Ok (by_key pmap cps) /\ NoDup (map pmap cps) /\
  (forall cp, In cp cps -> good_perm (ncomps A) cp /\ forall i C C', nth_error (p_comp A) i = Some C -> nth_error (p_comp B) (nth i (pmap cp) 0) = Some C' -> length (cp_edge C') = length (cp_edge C)) /\
  (forall f, bij_on (ncomps A) f -> (forall i C C', nth_error (p_comp A) i = Some C -> nth_error (p_comp B) (f i) = Some C' -> length (cp_edge C') = length (cp_edge C)) ->
    exists cp, In cp cps /\ forall i, i < ncomps A -> nth i (pmap cp) 0 = f i).
Proof.
  assert (C0 : 1 <= ncomps A).
  { pose proof (sp_some A SA) as S0. destruct (nth_error (p_cross A) 0) as [x|] eqn:X; [|apply nth_error_None in X; unfold ncross in S0; lia].
    assert (slot A 0 0 (cedge x 0)) as SL by (split; [lia|eauto]). apply (edges_lt A SA) in SL.
    destruct (edge_comp A _ SA SL) as (i & C & HC & _). assert (i < ncomps A) by (apply nth_error_Some; congruence). lia. }
  assert (LS : length (comp_sizes A) = ncomps A) by (unfold comp_sizes; apply map_length).
  assert (exists s r, comp_sizes A = s :: r) as (s & r & ES) by (clear - LS C0; destruct (comp_sizes A) as [|s r]; [cbn in LS; lia|eauto]).
  rewrite ES in LS.
  set (sz := fun x => nth x (comp_sizes A) 0). set (grps := grow r 1 s [0]).
  assert (SZ : forall i C, nth_error (p_comp A) i = Some C -> sz i = length (cp_edge C)).
  { intros i C HC. unfold sz, comp_sizes. apply nth_error_nth. apply (map_nth_error (fun c => length (cp_edge c))). auto. }
  assert (SZ' : forall i C, nth_error (p_comp B) i = Some C -> sz i = length (cp_edge C)).
  { intros i C HC. unfold sz. rewrite <- CS. unfold comp_sizes. apply nth_error_nth. apply (map_nth_error (fun c => length (cp_edge c))). auto. }
  assert (SR : forall k, k < length r -> sz (1 + k) = nth k r 0) by (intros k Hk; unfold sz; rewrite ES; reflexivity).
  assert (SC : forall x, In x [0] -> sz x = s) by (intros x [<-|[]]; unfold sz; rewrite ES; reflexivity).
  assert (GCc : concat grps = seq 0 (ncomps A)).
  { unfold grps. rewrite grow_concat. rewrite <- LS. reflexivity. }
  assert (SS : Sorted.StronglySorted (fun a b => b <= a) (s :: r)).
  { rewrite <- ES. destruct (td_regular A TA) as [_ _ _ _ (_ & _ & N) _ _ _ _ _]. unfold comp_sizes. rewrite <- (map_map cp_edge (@length nat)). apply big_first_sizes; auto. }
  assert (GB : Forall (fun g => length g <= 12) grps).
  { apply Forall_forall. intros g G. assert (length g <= length (concat grps)); [|rewrite GCc, seq_length in H; lia]. clear - G. induction grps as [|h l IH]; [destruct G|]. cbn. rewrite app_length. destruct G as [->|G]; [lia|]. specialize (IH G). lia. }
  assert (GW : (Z.of_nat (Thm_Iterators.product (map (fun g => fact (length g)) grps)) < 2 ^ 32)%Z).
  { pose proof (fact_groups grps) as F. rewrite GCc, seq_length in F. pose proof (fact_le (ncomps A) 12 WC) as F'. assert (F2 : Thm_Iterators.product (map (fun g => fact (length g)) grps) <= fact 12) by lia. apply inj_le in F2.
    assert (E : Z.of_nat (fact 12) = 479001600%Z).
    { change (fact 12) with (12 * (11 * (10 * (9 * (8 * (7 * (6 * fact 5))))))). rewrite !Nat2Z.inj_mul. reflexivity. }
    rewrite E in F2. change (2 ^ 32)%Z with 4294967296%Z. lia. }
  destruct (compperms_spec (ncomps A) sz grps GCc) as (cps & E1 & E2 & ND & GD & ALL); auto.
  - apply grow_nonempty. discriminate.
  - intros E. rewrite E in GCc. cbn in GCc. clear - GCc C0. destruct (ncomps A); [lia|discriminate].
  - intros g x y. apply (grow_same sz r 1 s [0]); auto.
  - intros x y Hx Hy. apply (grow_together sz r 1 s [0]); auto.
    + change (In x (seq 0 (S (length r)))). apply in_seq. cbn in LS. lia.
    + change (In y (seq 0 (S (length r)))). apply in_seq. cbn in LS. lia.
  - exists grps, cps. split; [|split; [auto|split; [auto|split; [auto|split]]]].
    + unfold pd_build_compgrps. change PdIso.comp_sizes with comp_sizes. rewrite CS, ES. rewrite (proj2 (list_eqb_eq _ _) eq_refl). reflexivity.
    + intros cp I. destruct (GD cp I) as (G & S). split; auto. intros i C C' HC HC'. rewrite <- (SZ i C HC), <- (SZ' _ C' HC'). apply S. apply nth_error_Some. congruence.
    + intros f (F1 & F2) F3. apply ALL; auto. intros x Hx. destruct (nth_error (p_comp A) x) as [C|] eqn:HC; [|apply nth_error_None in HC; unfold ncomps in Hx; lia].
      destruct (nth_error (p_comp B) (f x)) as [C'|] eqn:HC'; [|apply nth_error_None in HC'; specialize (F1 x Hx); unfold ncomps in *; lia].
      rewrite (SZ x C HC), (SZ' _ C' HC'). eauto.
Qed.

Definition good (i : iso) : Prop := exists cp em t, i = mk cp em t /\ good_perm (ncomps A) cp /\ good_em A B cp em /\ built em t /\ keeps (fst t) = true.
Definition tag (i : iso) : list nat * list nat * orient := (pmap (i_comp i), em_key (i_edge i), om_or (i_face i)).
Definition along (kp m : nat -> nat) (dir : nat -> orient) : Prop :=
  forall i CA, nth_error (p_comp A) i = Some CA ->
    sign_like (dir i) /\ exists CB, nth_error (p_comp B) (kp i) = Some CB /\ rotation (turned (dir i) (cp_edge CB)) (map m (cp_edge CA)).
Definition wanted (m : nat -> nat) (o : orient) : Prop := sign_like o /\ keeps o = true /\ cross_fits A B m o.
Definition agrees (i : iso) (m : nat -> nat) (dir : nat -> orient) (o : orient) : Prop :=
  (forall e, e < nedges A -> nth e (pmap (em_perm (i_edge i))) 0 = m e) /\
  (forall c CA e, nth_error (p_comp A) c = Some CA -> In e (cp_edge CA) -> nth_error (em_or (i_edge i)) e = Some (dir c)) /\
  om_or (i_face i) = o.

Lemma fits_ext : forall m m' o, (forall e, e < nedges A -> m e = m' e) -> cross_fits A B m o -> cross_fits A B m' o.
Proof.
  intros m m' o E F c x Hx. destruct (F c x Hx) as (c' & y & Hy & R). exists c', y. split; auto.
  assert (EQ : map m' (around_cross x) = map m (around_cross x)); [|rewrite EQ; exact R].
  apply map_ext_in. intros e I. symmetry. apply E. assert (exists p, p < 4 /\ cedge x p = e) as (p & P & <-).
  { cbn in I. destruct I as [<-|[<-|[<-|[<-|[]]]]]; [exists 0|exists 1|exists 2|exists 3]; cbn; split; auto; lia. }
  apply (edges_lt A SA c p). split; auto. exists x. auto.
Qed.

Lemma concat_nodup : forall T K V (kx : T -> K) (tg : iso -> V) (pr : iso -> K) (Q : T -> list iso -> Prop) xs ass,
  Forall2 Q xs ass -> NoDup (map kx xs) -> (forall x a, Q x a -> NoDup (map tg a) /\ forall i, In i a -> pr i = kx x) ->
  (forall i j, tg i = tg j -> pr i = pr j) -> NoDup (map tg (concat ass)).
Proof.
  intros T K V kx tg pr Q xs ass F. induction F as [|x a xs ass H F IH]; intros N D P; cbn; [constructor|]. rewrite map_app. cbn in N. inversion N; subst.
  apply PdCompsProofs.NoDup_app_intro; auto.
  - apply (D x a H).
  - intros v I J. apply in_map_iff in I as (i & <- & I), J as (j & E & J). apply in_concat in J as (b & Ib & J).
    destruct (forall2_in_r _ _ _ _ _ _ F Ib) as (y & Iy & Qy). destruct (D x a H) as (_ & D1). destruct (D y b Qy) as (_ & D2).
    apply H2. rewrite <- (D1 i I), <- (P j i E), (D2 j J). apply in_map. auto.
Qed.

(** one component permutation *)
Section One.
Context (cp : perm) (GC : good_perm (ncomps A) cp).
Context (SZ : forall i C C', nth_error (p_comp A) i = Some C -> nth_error (p_comp B) (nth i (pmap cp) 0) = Some C' -> length (cp_edge C') = length (cp_edge C)).
Let kp := fun c => nth c (pmap cp) 0.

Lemma one_all : exists a, from_compperm keep false A B cp = Ok a /\ NoDup (map tag a) /\ (forall i, In i a -> good i /\ i_comp i = cp) /\
  forall m dir o, along kp m dir -> wanted m o -> exists i, In i a /\ agrees i m dir o.
Proof.
  destruct (edgemaps_spec A B SA SB NE NC cp GC SZ WE) as (ems & E1 & E2 & ND & GE & ALL). unfold from_compperm. rewrite E1. cbn [bind]. rewrite E2. cbn [bind].
  destruct (search_all _ (from_edgemap keep false A B cp) (fun em a => In em ems /\ exists L, a = map (mk cp em) L /\ chosen em L) ems) as (ass & E & F).
  { intros em I. destruct (from_edgemap_spec cp em false GC (GE em I)) as (L & EL & CL). exists (map (mk cp em) L). split; [exact EL|]. split; auto. exists L. auto. }
  exists (concat ass). split; [exact E|]. split; [|split].
  - eapply (concat_nodup _ _ _ em_key tag (fun i => em_key (i_edge i))); [exact F|auto| |].
    + intros em a (_ & L & -> & N & _). split.
      * rewrite map_map. clear - N. induction L as [|t L IH]; cbn; [constructor|]. cbn in N. inversion N; subst. constructor; auto.
        rewrite in_map_iff. intros (u & Eu & I). apply H1. unfold tag in Eu. cbn in Eu. injection Eu as Eu. rewrite <- Eu. apply in_map; auto.
      * intros i I. apply in_map_iff in I as (t & <- & I). reflexivity.
    + intros i j T. unfold tag in T. congruence.
  - intros i I. apply in_concat in I as (a & Ia & I). destruct (forall2_in_r _ _ _ _ _ _ F Ia) as (em & Ie & Ie' & L & -> & N & M & _).
    apply in_map_iff in I as (t & <- & I). split; auto. destruct (M t I) as (M1 & M2). exists cp, em, t. auto 6.
  - intros m dir o AM (SO & KO & FO). destruct (ALL m dir AM) as (em & Ie & EM & ED).
    destruct (forall2_in_l _ _ _ _ _ _ F Ie) as (a & Ia & _ & L & -> & N & M & COV).
    assert (I : In o (map fst L)).
    { apply COV; auto. unfold fits. eapply fits_ext; [|exact FO]. intros e He. symmetry. apply EM. auto. }
    apply in_map_iff in I as (t & <- & I). exists (mk cp em t). split.
    + apply in_concat. eexists. split; [exact Ia|]. apply in_map. auto.
    + split; [exact EM|]. split; [exact ED|]. reflexivity.
Qed.

Lemma one_first : exists a, from_compperm keep true A B cp = Ok a /\ length a <= 1 /\ (forall i, In i a -> good i /\ i_comp i = cp) /\
  (a = [] -> forall m dir o, along kp m dir -> wanted m o -> False).
Proof.
  destruct (edgemaps_spec A B SA SB NE NC cp GC SZ WE) as (ems & E1 & E2 & ND & GE & ALL). unfold from_compperm. rewrite E1. cbn [bind]. rewrite E2. cbn [bind].
  destruct (search_first _ (from_edgemap keep true A B cp) (fun em a => In em ems /\ exists L, a = cut true (map (mk cp em) L) /\ chosen em L) ems) as (r & E & F).
  { intros em I. destruct (from_edgemap_spec cp em true GC (GE em I)) as (L & EL & CL). exists (cut true (map (mk cp em) L)). split; [exact EL|]. split; auto. exists L. auto. }
  exists r. split; [exact E|]. destruct F as [(-> & F)|(N & em & Ie & _ & L & -> & NL & M & _)].
  - split; [cbn; lia|]. split; [intros i []|]. intros _ m dir o AM (SO & KO & FO). destruct (ALL m dir AM) as (em & Ie & EM & ED).
    destruct (F em Ie) as (_ & L & EL & N & M & COV). destruct L as [|t L]; [|discriminate].
    destruct (COV o SO KO). unfold fits. eapply fits_ext; [|exact FO]. intros e He. symmetry. apply EM. auto.
  - split; [|split].
    + unfold cut. rewrite firstn_length. lia.
    + intros i I. unfold cut in I. assert (J : In i (map (mk cp em) L)) by (rewrite <- (firstn_skipn 1); apply in_or_app; auto).
      apply in_map_iff in J as (t & <- & J). split; auto. destruct (M t J) as (M1 & M2). exists cp, em, t. auto 6.
    + intros X. congruence.
Qed.
End One.

Lemma or_key_inj : forall a b, sign_like a -> sign_like b -> or_key a = or_key b -> a = b.
Proof. intros a b [->| ->] [->| ->] H; cbn in H; congruence. Qed.
Lemma app_inj_len : forall T (a b c d : list T), length a = length c -> a ++ b = c ++ d -> a = c /\ b = d.
Proof.
  intros T a. induction a as [|x a IH]; intros b [|y c] d L E; cbn in *; try discriminate; auto. injection E as -> E. injection L as L. apply IH in E as (-> & ->); auto.
Qed.
Lemma key_tag : forall i j, good i -> good j -> iso_key i = iso_key j -> tag i = tag j.
Proof.
  intros i j (cp & em & (o & (px & pf)) & -> & G1 & G2 & (SO & GX & GF) & _) (cp' & em' & (o' & (px' & pf')) & -> & G1' & G2' & (SO' & GX' & GF') & _) E.
  unfold iso_key in E. cbn [mk i_comp i_edge i_cross i_face fst snd] in *.
  assert (LE : forall cp em, good_em A B cp em -> length (em_key em) = nedges A + nedges A).
  { intros c m G. unfold em_key. rewrite app_length, map_length, (ge_or _ _ _ _ G). f_equal. apply (gp_n _ _ (ge_perm _ _ _ _ G)). }
  apply app_inj_len in E as (E1 & E); [|pose proof (gp_n _ _ G1) as X; pose proof (gp_n _ _ G1') as X'; unfold pn in *; congruence].
  apply app_inj_len in E as (E2 & E); [|rewrite (LE _ _ G2), (LE _ _ G2'); auto].
  unfold om_key in E. cbn in E. injection E as E _. apply or_key_inj in E; auto. unfold tag, mk. cbn. congruence.
Qed.
Lemma collect_ok : forall l, NoDup (map tag l) -> (forall i, In i l -> good i) -> collect l = Ok (rev l).
Proof.
  intros l N G. assert (EL : l = [] \/ l <> []) by (destruct l; [auto|right; discriminate]). destruct EL as [->|EL]; auto. assert (X : collect l = do u <- unique_by iso_key (rev l); assert u; Ok (rev l)) by (destruct l; [congruence|reflexivity]).
  rewrite X, unique_true; auto.
  - intros R. apply EL. rewrite <- (rev_involutive l), R. reflexivity.
  - rewrite map_rev. eapply Permutation_NoDup; [apply Permutation_rev|]. clear - N G. induction l as [|i l IH]; cbn; [constructor|]. cbn in N. inversion N; subst. constructor.
    + rewrite in_map_iff. intros (j & E & I). apply H1. rewrite <- (key_tag j i); auto; [apply in_map; auto| |]; apply G; cbn; auto.
    + apply IH; auto. intros j I. apply G. cbn. auto.
Qed.

Theorem build_all : exists l, build_isos keep false A B = Ok l /\ NoDup (map tag l) /\ (forall i, In i l -> good i) /\
  forall kp m dir o, bij_on (ncomps A) kp -> along kp m dir -> wanted m o ->
    exists i, In i l /\ agrees i m dir o /\ forall c, c < ncomps A -> nth c (pmap (i_comp i)) 0 = kp c.
Proof.
  destruct groups as (grps & cps & E1 & E2 & E3 & ND & GD & ALL). unfold build_isos. rewrite MM. cbn [negb]. rewrite E1. cbn [bind]. rewrite E2. cbn [bind]. rewrite E3. cbn [bind].
  assert (PB : Permutation (by_key pmap cps) cps) by apply isort_perm.
  destruct (search_all _ (from_compperm keep false A B) (fun cp a => NoDup (map tag a) /\ (forall i, In i a -> good i /\ i_comp i = cp) /\
    forall m dir o, along (fun c => nth c (pmap cp) 0) m dir -> wanted m o -> exists i, In i a /\ agrees i m dir o) (by_key pmap cps)) as (ass & E & F).
  { intros cp I. apply (Permutation_in _ PB) in I. destruct (GD cp I) as (G & S). destruct (one_all cp G S) as (a & Ea & Q). exists a. auto. }
  rewrite E. cbn [bind].
  assert (N : NoDup (map tag (concat ass))).
  { eapply (concat_nodup _ _ _ pmap tag (fun i => pmap (i_comp i))); [exact F| | |].
    - eapply Permutation_NoDup; [apply Permutation_map; symmetry; exact PB|auto].
    - intros cp a (Na & Ga & _). split; auto. intros i I. destruct (Ga i I) as (_ & ->). auto.
    - intros i j T. unfold tag in T. congruence. }
  assert (G : forall i, In i (concat ass) -> good i).
  { intros i I. apply in_concat in I as (a & Ia & I). destruct (forall2_in_r _ _ _ _ _ _ F Ia) as (cp & _ & _ & Ga & _). apply Ga. auto. }
  rewrite collect_ok by auto. exists (rev (concat ass)). split; auto. split; [|split].
  - rewrite map_rev. eapply Permutation_NoDup; [apply Permutation_rev|auto].
  - intros i I. apply G, in_rev, I.
  - intros kp m dir o BK AM WM.
    assert (SZ : forall i C C', nth_error (p_comp A) i = Some C -> nth_error (p_comp B) (kp i) = Some C' -> length (cp_edge C') = length (cp_edge C)).
    { intros i C C' HC HC'. destruct (AM i C HC) as (_ & D & HD & R). rewrite HC' in HD. injection HD as <-. apply HashProofs.rotation_perm, Permutation_length in R. rewrite turned_length, map_length in R. auto. }
    destruct (ALL kp BK SZ) as (cp & Ic & EC). apply (Permutation_in _ (Permutation_sym PB)) in Ic. destruct (forall2_in_l _ _ _ _ _ _ F Ic) as (a & Ia & _ & Ga & COV).
    destruct (COV m dir o) as (i & Ii & AG); auto.
    { intros c C HC. destruct (AM c C HC) as (S & D & HD & R). split; auto. exists D. rewrite EC; auto. apply nth_error_Some. congruence. }
    exists i. split; [apply -> in_rev; apply in_concat; eauto|]. split; auto. intros c Hc. destruct (Ga i Ii) as (_ & ->). auto.
Qed.

Theorem build_first : exists l, build_isos keep true A B = Ok l /\ (forall i, In i l -> good i) /\
  (l = [] -> forall kp m dir o, bij_on (ncomps A) kp -> along kp m dir -> wanted m o -> False).
Proof.
  destruct groups as (grps & cps & E1 & E2 & E3 & ND & GD & ALL). unfold build_isos. rewrite MM. cbn [negb]. rewrite E1. cbn [bind]. rewrite E2. cbn [bind]. rewrite E3. cbn [bind].
  assert (PB : Permutation (by_key pmap cps) cps) by apply isort_perm.
  destruct (search_first _ (from_compperm keep true A B) (fun cp a => length a <= 1 /\ (forall i, In i a -> good i /\ i_comp i = cp) /\
    (a = [] -> forall m dir o, along (fun c => nth c (pmap cp) 0) m dir -> wanted m o -> False)) (by_key pmap cps)) as (r & E & F).
  { intros cp I. apply (Permutation_in _ PB) in I. destruct (GD cp I) as (G & S). destruct (one_first cp G S) as (a & Ea & Q). exists a. auto. }
  rewrite E. cbn [bind]. destruct F as [(-> & F)|(N & cp & Ic & L & Gr & _)].
  - exists []. split; auto. split; [intros i []|]. intros _ kp m dir o BK AM WM.
    assert (SZ : forall i C C', nth_error (p_comp A) i = Some C -> nth_error (p_comp B) (kp i) = Some C' -> length (cp_edge C') = length (cp_edge C)).
    { intros i C C' HC HC'. destruct (AM i C HC) as (_ & D & HD & R). rewrite HC' in HD. injection HD as <-. apply HashProofs.rotation_perm, Permutation_length in R. rewrite turned_length, map_length in R. auto. }
    destruct (ALL kp BK SZ) as (cp & Ic & EC). apply (Permutation_in _ (Permutation_sym PB)) in Ic. destruct (F cp Ic) as (_ & _ & X). apply (X eq_refl m dir o); auto.
    intros c C HC. destruct (AM c C HC) as (S & D & HD & R). split; auto. exists D. rewrite EC; auto. apply nth_error_Some. congruence.
  - assert (G : forall i, In i r -> good i) by (intros i I; apply (Gr i I)). rewrite collect_ok; auto.
    + exists (rev r). split; auto. split; [intros i I; apply G, in_rev, I|]. intros X. exfalso. apply N. apply (f_equal (@rev iso)) in X. rewrite rev_involutive in X. auto.
    + destruct r as [|i [|j r]]; cbn in *; [constructor|constructor; [auto|constructor]|lia].
Qed.
End Search.
