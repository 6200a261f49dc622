(** C55: connected diagrams with the right number of faces behave like drawings on the sphere. *)
From Coq Require Import List ZArith Lia Bool Arith Permutation Relations.
From Verif Require Import Base Iterators Orbits Pd PdSpec PdProofs Relabel RelabelProofs Strands Cycles PdFaces PdFacesProofs PdCross PdCrossProofs
  PdCompsProofs SlotCount PdIso PdHash HashSpec HashIso RegenSpec RegenProofs OverUnder OverUnderSpec OverUnderProofs LinkProofs PdOps Carry CarryProofs ReorientProofs Planar PlanarProofs
  PdExamples Thm_Pd Thm_Faces Thm_Edges Thm_Comps Thm_OverUnder Thm_Hash Thm_Regen Thm_Ops.
Import ListNotations.
Open Scope nat_scope.

(** a set of edges that meets every crossing an even number of times separates the faces into two
    classes: an edge belongs to the set exactly if its two sides are in different classes *)
Theorem cycles_separate : forall d z, ends_recorded d -> two_ended d -> face_partition d (p_face d) ->
  nfaces d = ncross d + 2 -> connected d -> even_everywhere d z ->
  exists class : nat -> bool, forall e f g, face_along d f e Pos -> face_along d g e Neg ->
    (z e = true <-> class f <> class g).
Proof.
  intros d z R T FP NF CN Z. destruct (cut d R T FP NF CN z Z) as (u & U). exists u. intros e f g Hf Hg.
  assert (He : e < nedges d).
  { destruct Hf as (F & HF & I). destruct FP as (_ & _ & C). apply (C (e, Pos)), in_concat. exists F. split; auto. eapply nth_error_In; eauto. }
  rewrite (U e He). unfold lfs, rts. rewrite (fno_is d FP (e, Pos) f Hf), (fno_is d FP (e, Neg) g Hg).
  destruct (u f), (u g); cbn; intuition congruence.
Qed.

(** the faces can be coloured black and white such that each edge separates the two colours *)
Theorem checkerboard : forall d, ends_recorded d -> two_ended d -> face_partition d (p_face d) ->
  nfaces d = ncross d + 2 -> connected d ->
  exists colour : nat -> bool, forall e f g, face_along d f e Pos -> face_along d g e Neg -> colour f <> colour g.
Proof.
  intros d R T FP NF CN. destruct (cycles_separate d (fun _ => true) R T FP NF CN) as (u & U); [intros c x _; reflexivity|].
  exists u. intros e f g Hf Hg. apply (U e f g Hf Hg). auto.
Qed.

Section Sphere.
Context (d : pd) (R : ends_recorded d) (T : two_ended d) (FP : face_partition d (p_face d)).
Context (NF : nfaces d = ncross d + 2) (CN : connected d).

Lemma coloured : exists u : nat -> bool, forall a, is_dart d a -> u (fno d a) = negb (u (fno d (flip a))).
Proof.
  destruct (checkerboard d R T FP NF CN) as (u & U). exists u. intros (e, o) (L & O). cbn [fst snd] in *.
  pose proof (fno_along d FP (e, Pos) (conj L (or_introl eq_refl))) as A1.
  pose proof (fno_along d FP (e, Neg) (conj L (or_intror eq_refl))) as A2. pose proof (U e _ _ A1 A2) as K.
  unfold flip. cbn [fst snd]. destruct O; subst o; destruct (u (fno d (e, Pos))), (u (fno d (e, Neg))); cbn; congruence.
Qed.

(** no face has the same edge twice *)
Theorem face_edges_distinct : forall F, In F (p_face d) -> NoDup (map fst F).
Proof.
  intros F HF. apply In_nth_error in HF as (f & HF). destruct FP as (P1 & P2 & P3).
  assert (DA : forall a, In a F -> is_dart d a) by (intros a Ia; apply P3, in_concat; exists F; split; auto; eapply nth_error_In; eauto).
  assert (ND : NoDup F).
  { apply (block_nodup (p_face d)); auto. eapply nth_error_In; eauto. }
  apply NoDup_map_on; auto. intros (e, o) (e', o') I I' E. cbn in E. subst e'. f_equal.
  destruct (checkerboard d R T FP NF CN) as (u & U). pose proof (DA _ I) as (_ & O). pose proof (DA _ I') as (_ & O'). cbn in O, O'.
  assert (X : In (e, Pos) F -> In (e, Neg) F -> False).
  { intros J1 J2. apply (U e f f); try exact eq_refl; exists F; auto. }
  destruct O, O'; subst; auto; exfalso; auto.
Qed.

(** no edge comes straight back to its crossing *)
Theorem planar_no_edge_across : no_edge_across d.
Proof.
  intros c p e S S'. pose proof (slot_lt _ _ _ _ S) as (Hc & Hp). destruct coloured as (u & U).
  assert (Q : forall p, p < 4 -> u (fno d (arr d c ((p + 1) mod 4))) = negb (u (fno d (arr d c p)))).
  { intros q Hq. rewrite fno_corner by auto. destruct (arr_spec d R T c q Hc Hq) as (D & _). rewrite (U _ D). rewrite negb_involutive; auto. }
  assert (Hp2 : (p + 2) mod 4 < 4) by (apply Nat.mod_upper_bound; lia).
  assert (Hp1 : (p + 1) mod 4 < 4) by (apply Nat.mod_upper_bound; lia).
  destruct (arr_spec d R T c p Hc Hp) as (D1 & E1). destruct (arr_spec d R T c _ Hc Hp2) as (D2 & E2).
  pose proof (arr_slot d R T _ _ _ S) as F1. pose proof (arr_slot d R T _ _ _ S') as F2.
  assert (N : arr d c p <> arr d c ((p + 2) mod 4)).
  { intros X. rewrite X in E1. rewrite E1 in E2. injection E2 as E2. destruct (small4 p Hp) as [->|[->|[->| ->]]]; cbn in E2; lia. }
  assert (FL : arr d c ((p + 2) mod 4) = flip (arr d c p)).
  { destruct (arr d c p) as (a, o), (arr d c ((p + 2) mod 4)) as (b, o'). cbn in F1, F2. subst a b.
    destruct D1 as (_ & O1), D2 as (_ & O2). cbn in O1, O2. unfold flip. cbn. destruct O1, O2; subst; auto; congruence. }
  pose proof (Q p Hp) as Q1. pose proof (Q _ Hp1) as Q2. replace (((p + 1) mod 4 + 1) mod 4) with ((p + 2) mod 4) in Q2.
  2:{ destruct (small4 p Hp) as [->|[->|[->| ->]]]; reflexivity. }
  rewrite FL in Q2. pose proof (U _ D1) as Q3. rewrite Q2, Q1 in Q3. destruct (u (fno d (arr d c p))); discriminate.
Qed.

(** different faces have different edges *)
Theorem faces_distinct : 0 < ncross d -> forall f g F G, nth_error (p_face d) f = Some F -> nth_error (p_face d) g = Some G ->
  (forall e, In e (map fst F) <-> In e (map fst G)) -> f = g.
Proof.
  intros Hn f g F G HF HG H. destruct (Nat.eq_dec f g) as [|N]; auto. exfalso.
  set (y := fun h => (h =? f) || (h =? g)).
  assert (On : forall h K e, nth_error (p_face d) h = Some K -> e < nedges d -> (In e (map fst K) <-> lfs d e = h \/ rts d e = h)).
  { intros h K e HK He. rewrite in_map_iff. destruct FP as (_ & _ & P3). split.
    - intros ((e', o) & <- & I). cbn [fst]. assert (A : face_along d h e' o) by (exists K; auto).
      assert (is_dart d (e', o)) as (_ & O) by (apply P3, in_concat; exists K; split; auto; eapply nth_error_In; eauto).
      apply (fno_is d FP (e', o)) in A. cbn in O. unfold lfs, rts. destruct O; subst o; auto.
    - intros [E|E].
      + destruct (fno_spec d FP (e, Pos)) as (K' & HK' & I); [apply dart_lt; auto|]. fold (lfs d e) in HK'. rewrite E, HK in HK'. injection HK' as <-. exists (e, Pos). auto.
      + destruct (fno_spec d FP (e, Neg)) as (K' & HK' & I); [apply dart_lt; auto|]. fold (rts d e) in HK'. rewrite E, HK in HK'. injection HK' as <-. exists (e, Neg). auto. }
  assert (Y : forall e, e < nedges d -> y (lfs d e) = y (rts d e)).
  { intros e He. pose proof (On f F e HF He) as A. pose proof (On g G e HG He) as B. rewrite H in A. rewrite A in B. unfold y.
    destruct (Nat.eqb_spec (lfs d e) f), (Nat.eqb_spec (lfs d e) g), (Nat.eqb_spec (rts d e) f), (Nat.eqb_spec (rts d e) g); cbn; auto; exfalso; intuition congruence. }
  assert (Lf : f < nfaces d) by (apply nth_error_Some; congruence). assert (Lg : g < nfaces d) by (apply nth_error_Some; congruence).
  assert (K : forall h, h < nfaces d -> h = f \/ h = g).
  { intros h Hh. pose proof (dual_const d R T FP NF CN y Y h f Hh Lf) as E. unfold y in E. rewrite Nat.eqb_refl in E. cbn in E.
    apply orb_true_iff in E. rewrite !Nat.eqb_eq in E. auto. }
  destruct (K 0 ltac:(lia)), (K 1 ltac:(lia)), (K 2 ltac:(lia)); lia.
Qed.

(** no two crossings look alike *)
Theorem planar_crossings_differ : crossings_differ d.
Proof.
  split; [|intros c p e S S'; exact (planar_no_edge_across c p e S S')].
  intros c c' k Hc Hc' N H.
  assert (M : forall p, p < 4 -> is_dart d (arr d c p) /\ dto d (arr d c p) = (c, p)) by (intros; apply arr_spec; auto).
  assert (M' : forall p, is_dart d (arr d c' (p mod 4)) /\ dto d (arr d c' (p mod 4)) = (c', p mod 4)) by (intros; apply arr_spec; auto; apply mod4_lt).
  assert (FL : forall p, p < 4 -> arr d c' ((p + k) mod 4) = flip (arr d c p)).
  { intros p Hp. destruct (M p Hp) as (D1 & E1). destruct (M' (p + k)) as (D2 & E2).
    pose proof (dto_slot d _ R D1) as S. rewrite E1 in S. cbn [fst snd] in S. apply H in S. apply arr_slot in S; auto.
    destruct (arr d c p) as (a, o), (arr d c' ((p + k) mod 4)) as (b, o'). cbn in S. subst b.
    assert (X : o <> o') by (intros <-; rewrite E1 in E2; congruence).
    destruct D1 as (_ & O1), D2 as (_ & O2). cbn in O1, O2. unfold flip. cbn. destruct O1, O2; subst; auto; congruence. }
  assert (A : forall v, v < ncross d -> v = c \/ v = c').
  { intros v Hv. set (y := fun h => (h =? c) || (h =? c')).
    assert (Y : forall e, e < nedges d -> y (heads d e) = y (tails d e)).
    { assert (Y1 : forall a, is_dart d a -> y (fst (dto d a)) = true -> y (fst (dto d (flip a))) = true).
      { intros a Da Ha. pose proof (dto_slot d a R Da) as S. pose proof (slot_lt _ _ _ _ S) as (_ & Lp).
        pose proof (arr_dto d R T a Da) as Q. destruct (dto d a) as (v0, p) eqn:Ea. cbn [fst snd] in *.
        unfold y in Ha. apply orb_true_iff in Ha as [Ha|Ha]; apply Nat.eqb_eq in Ha; subst v0.
        - rewrite <- Q, <- (FL p Lp). destruct (M' (p + k)) as (_ & ->). cbn. unfold y. rewrite Nat.eqb_refl. apply orb_true_r.
        - assert (exists q, q < 4 /\ (q + k) mod 4 = p) as (q & Hq & Eq).
          { exists ((p + (4 - k mod 4)) mod 4). split; [apply mod4_lt|]. rewrite Nat.add_mod_idemp_l by lia.
            rewrite (Nat.div_mod k 4) at 2 by lia. pose proof (mod4_lt k) as Lk.
            replace (p + (4 - k mod 4) + (4 * (k / 4) + k mod 4)) with (p + (k / 4 + 1) * 4) by lia.
            rewrite Nat.mod_add by lia. apply Nat.mod_small; auto. }
          rewrite <- Q, <- Eq, (FL q Hq), flip_flip. destruct (M q Hq) as (_ & ->). cbn. unfold y. rewrite Nat.eqb_refl. auto. }
      intros e He. assert (D1 : is_dart d (e, Pos)) by (apply dart_lt; auto). assert (D2 : is_dart d (e, Neg)) by (apply dart_lt; auto).
      pose proof (Y1 _ D1) as Z1. pose proof (Y1 _ D2) as Z2. unfold flip in Z1, Z2. cbn [fst snd] in Z1, Z2.
      unfold heads, tails. apply eq_true_iff_eq. split; auto. }
    pose proof (conn_const d R T NF CN y Y v c Hv Hc) as E. unfold y in E. rewrite Nat.eqb_refl in E. cbn in E.
    apply orb_true_iff in E. rewrite !Nat.eqb_eq in E. auto. }
  (* every face is the face of one of the first two places *)
  assert (St : forall p, p < 4 -> fno d (arr d c p) = fno d (arr d c ((p + 2) mod 4)) /\ fno d (arr d c' ((p + 3 + k) mod 4)) = fno d (arr d c p)).
  { intros p Hp. assert (L3 : (p + 3) mod 4 < 4) by apply mod4_lt. assert (L2 : (p + 2) mod 4 < 4) by apply mod4_lt.
    pose proof (fno_corner d R T FP c ((p + 3) mod 4) Hc L3) as K1. replace (((p + 3) mod 4 + 1) mod 4) with p in K1.
    2:{ destruct (small4 p Hp) as [->|[->|[->| ->]]]; reflexivity. }
    rewrite <- (FL _ L3) in K1. rewrite Nat.add_mod_idemp_l in K1 by lia. split; [|rewrite K1; auto].
    rewrite K1. pose proof (fno_corner d R T FP c' ((p + 2 + k) mod 4) Hc' (mod4_lt _)) as K2.
    rewrite Nat.add_mod_idemp_l in K2 by lia. replace (p + 2 + k + 1) with (p + 3 + k) in K2 by lia. rewrite K2.
    pose proof (FL _ L2) as K3. rewrite Nat.add_mod_idemp_l in K3 by lia. rewrite K3, flip_flip. auto. }
  assert (B : forall a, is_dart d a -> fno d a = fno d (arr d c 0) \/ fno d a = fno d (arr d c 1)).
  { assert (B0 : forall p, p < 4 -> fno d (arr d c p) = fno d (arr d c 0) \/ fno d (arr d c p) = fno d (arr d c 1)).
    { intros p Hp. destruct (St 0 ltac:(lia)) as (S0 & _). destruct (St 1 ltac:(lia)) as (S1 & _). cbn in S0, S1.
      destruct (small4 p Hp) as [->|[->|[->| ->]]]; auto. }
    intros a Da. pose proof (dto_slot d a R Da) as S. pose proof (slot_lt _ _ _ _ S) as (Lv & Lp).
    pose proof (arr_dto d R T a Da) as Q. destruct (dto d a) as (v, p). cbn [fst snd] in *.
    destruct (A v Lv) as [->| ->]; [rewrite <- Q; auto|].
    assert (exists q, q < 4 /\ (q + 3 + k) mod 4 = p) as (q & Hq & Eq).
    { exists ((p + 1 + (4 - k mod 4)) mod 4). split; [apply mod4_lt|]. rewrite <- Nat.add_assoc, Nat.add_mod_idemp_l by lia.
      rewrite (Nat.div_mod k 4) at 2 by lia. pose proof (mod4_lt k) as Lk.
      replace (p + 1 + (4 - k mod 4) + (3 + (4 * (k / 4) + k mod 4))) with (p + (k / 4 + 2) * 4) by lia.
      rewrite Nat.mod_add by lia. apply Nat.mod_small; auto. }
    destruct (St q Hq) as (_ & E). rewrite Eq, Q in E. rewrite E. auto. }
  assert (D : forall f, f < nfaces d -> exists a, is_dart d a /\ fno d a = f).
  { intros f Hf. destruct (nth_error (p_face d) f) as [F|] eqn:HF; [|apply nth_error_None in HF; unfold nfaces in Hf; lia].
    destruct FP as (P1 & _ & P3). destruct (P1 F (nth_error_In _ _ HF)) as (NE & _). destruct F as [|a F]; [congruence|].
    exists a. assert (is_dart d a) by (apply P3, in_concat; exists (a :: F); split; [eapply nth_error_In; eauto|cbn; auto]).
    split; auto. apply (fno_is d FP). exists (a :: F). split; auto. destruct a; cbn; auto. }
  destruct (D 0 ltac:(lia)) as (a0 & D0 & E0), (D 1 ltac:(lia)) as (a1 & D1 & E1), (D 2 ltac:(lia)) as (a2 & D2 & E2).
  destruct (B a0 D0), (B a1 D1), (B a2 D2); lia.
Qed.
End Sphere.

(** ** Two components cross an even number of times *)
Lemma firstn_S_snoc : forall A (l : list A) n x, nth_error l n = Some x -> firstn (S n) l = firstn n l ++ [x].
Proof.
  induction l as [|a l IH]; intros [|n] x H; try discriminate; cbn in *; [congruence|]. rewrite (IH n x H). auto.
Qed.
Lemma cyclic_parity : forall (w : nat -> bool) (g : nat -> bool) l, l <> [] -> cyclically (fun a b => g a = xorb (w a) (w b)) l -> xl l g = false.
Proof.
  intros w g l NE CY. destruct l as [|a0 l]; [congruence|].
  assert (Q : forall n, n < length (a0 :: l) -> xl (firstn n (a0 :: l)) g = xorb (w a0) (w (nth n (a0 :: l) 0))).
  { induction n as [|n IH]; intros Hn; [cbn; destruct (w a0); auto|].
    assert (E : nth_error (a0 :: l) n = Some (nth n (a0 :: l) 0)) by (apply nth_error_nth'; lia).
    assert (E' : nth_error (a0 :: l) (S n) = Some (nth (S n) (a0 :: l) 0)) by (apply nth_error_nth'; lia).
    rewrite (firstn_S_snoc _ _ _ _ E), xl_app, IH by lia. cbn [xl].
    rewrite (CY n _ (nth (S n) (a0 :: l) 0) E); [|rewrite Nat.mod_small by lia; rewrite Nat.add_1_r; exact E'].
    destruct (w a0), (w (nth n (a0 :: l) 0)), (w (nth (S n) (a0 :: l) 0)); auto. }
  set (m := length l). assert (E : nth_error (a0 :: l) m = Some (nth m (a0 :: l) 0)) by (apply nth_error_nth'; cbn; lia).
  rewrite <- (firstn_all (a0 :: l)). cbn [length]. fold m. rewrite (firstn_S_snoc _ _ _ _ E), xl_app, Q by (cbn; lia). cbn [xl].
  rewrite (CY m _ a0 E); [destruct (w a0), (w (nth m (a0 :: l) 0)); auto|].
  cbn [length]. fold m. rewrite Nat.add_1_r, Nat.mod_same by lia. auto.
Qed.
Lemma xl_filter : forall A (l : list A) g, xl l g = Nat.odd (length (filter g l)).
Proof.
  induction l as [|a l IH]; intros g; auto. cbn [xl filter]. rewrite IH. destruct (g a); cbn [length]; [rewrite Nat.odd_succ, <- Nat.negb_odd|]; destruct (Nat.odd _); auto.
Qed.

Section Components.
Context (d : pd) (R : ends_recorded d) (G : goes_through d) (T : two_ended d).
Context (P : strand_partition d (map cp_edge (p_comp d))) (FP : face_partition d (p_face d)).
Context (NF : nfaces d = ncross d + 2) (CN : connected d).

Definition onb (j e : nat) : bool := match pd_component_and_pos d e with Ok q => fst q =? j | _ => false end.
Lemma onb_spec : forall j e, e < nedges d -> (onb j e = true <-> on_comp d e j).
Proof.
  intros j e He. destruct (comp_pos_ok d P e He) as (i & p & H & OC). unfold onb. rewrite H. cbn [fst]. rewrite Nat.eqb_eq.
  split; [intros <-; auto|]. intros OC'. eapply on_comp_fun; eauto.
Qed.
Lemma onb_continues : forall j a b, continues d a b -> onb j a = onb j b.
Proof.
  intros j a b C. pose proof C as (A & B & HA & HB & _). apply edge_at_lt in HA, HB. apply eq_true_iff_eq.
  rewrite !onb_spec by auto. apply on_comp_continues; auto.
Qed.
Lemma onb_across : forall j c p e f, slot d c p e -> slot d c ((p + 2) mod 4) f -> onb j e = onb j f.
Proof.
  intros j c p e f S S'. pose proof (slot_lt _ _ _ _ S) as (Hc & Hp). destruct (either d R T c p Hc Hp) as (e' & Se & K).
  assert (e' = e) by (eapply slot_fun; eauto). subst e'. destruct K as [K|K].
  - destruct (arrives_across d G _ _ _ K) as (g & Dg & Cg). rewrite (onb_continues j _ _ Cg). f_equal.
    apply (departs_slot d R) in Dg. eapply slot_fun; eauto.
  - destruct (departs_across d R G _ _ _ K) as (g & Ag & Cg). rewrite <- (onb_continues j _ _ Cg). f_equal.
    apply (arrives_slot d R) in Ag. eapply slot_fun; eauto.
Qed.
Lemma onb_even : forall j, even_everywhere d (onb j).
Proof.
  intros j c x Hx. assert (S : forall p, p < 4 -> slot d c p (cedge x p)) by (intros p Hp; split; eauto).
  rewrite (onb_across j c 0 (ce0 x) (ce2 x)), (onb_across j c 1 (ce1 x) (ce3 x));
    [|exact (S 1 ltac:(lia))|exact (S 3 ltac:(lia))|exact (S 0 ltac:(lia))|exact (S 2 ltac:(lia))].
  destruct (onb j (ce2 x)), (onb j (ce3 x)); auto.
Qed.
Lemma arr_arrives : forall c p e, arrives d c p e -> arr d c p = (e, Pos).
Proof.
  intros c p e (E & HE & H). assert (D : is_dart d (e, Pos)) by (split; cbn; auto; eapply edge_at_lt; eauto).
  rewrite <- (arr_dto d R T (e, Pos) D). unfold dto. cbn [fst snd]. unfold edge_at in HE. rewrite HE.
  unfold head_slot in H. cbn. injection H as -> ->. auto.
Qed.
Lemma arr_departs : forall c p e, departs d c p e -> arr d c p = (e, Neg).
Proof.
  intros c p e (E & HE & H). assert (D : is_dart d (e, Neg)) by (split; cbn; auto; eapply edge_at_lt; eauto).
  rewrite <- (arr_dto d R T (e, Neg) D). unfold dto. cbn [fst snd]. unfold edge_at in HE. rewrite HE.
  unfold tail_slot in H. cbn. injection H as -> ->. auto.
Qed.

(** the number of crossings at which two components meet is even *)
Theorem crossings_even : forall i j L, i < ncomps d -> i <> j ->
  NoDup L -> (forall cr, In cr L <-> meets d i j cr) -> Nat.Even (length L).
Proof.
  intros i j L Hi N NL HL. destruct (nth_error (p_comp d) i) as [C|] eqn:HC; [|apply nth_error_None in HC; unfold ncomps in Hi; lia].
  assert (E : length L = length (filter (otherb d j) (cp_edge C))).
  { rewrite <- (map_length (hd d) (filter _ _)). apply Permutation_length, NoDup_Permutation; auto.
    - eapply met_once; eauto.
    - intros c. rewrite HL, (meets_in d R G T P i j C c HC). tauto. }
  rewrite E. apply Nat.even_spec. rewrite <- Nat.negb_odd, <- xl_filter.
  destruct (cut d R T FP NF CN (onb j) (onb_even j)) as (u & U).
  assert (HI : In (cp_edge C) (map cp_edge (p_comp d))) by (apply in_map, (nth_error_In _ _ HC)).
  destruct (proj1 P _ HI) as (NE & CY).
  rewrite (cyclic_parity (fun e => u (lfs d e)) (otherb d j) (cp_edge C) NE); auto.
  intros k a b Ha Hb. pose proof (CY k a b Ha Hb) as K. pose proof K as (A & B & HA & HB & _).
  assert (La := edge_at_lt _ _ _ HA). assert (Lb := edge_at_lt _ _ _ HB).
  pose proof (rec_arrives d a La) as Aa. set (c := hd d a) in *. set (p := e_headpos (rec d a)) in *.
  pose proof (arrives_slot d R _ _ _ Aa) as Sa. pose proof (slot_lt _ _ _ _ Sa) as (Lc & Lp).
  destruct (arrives_across d G _ _ _ Aa) as (b' & Db & Cb).
  assert (b' = b) by (apply (continues_succ d R G) in K, Cb; destruct K as (_ & K), Cb as (_ & Cb); congruence). subst b'.
  destruct (step_ok d R T P a La) as (x & q & _ & Hx & _ & Hq & _ & S1). fold c p in Hx, Hq, S1.
  unfold otherb. fold c p. rewrite Hx, Hq. change (fst q =? j) with (match Ok q with Ok q => fst q =? j | _ => false end).
  rewrite <- Hq. fold (onb j (cedge x ((p + 1) mod 4))).
  assert (S3 : slot d c ((p + 3) mod 4) (cedge x ((p + 3) mod 4))) by (split; [apply mod4_lt|eauto]).
  rewrite (onb_across j c ((p + 1) mod 4) _ (cedge x ((p + 3) mod 4)) S1).
  2:{ rewrite Nat.add_mod_idemp_l by lia. replace (p + 1 + 2) with (p + 3) by lia. auto. }
  set (g := cedge x ((p + 3) mod 4)) in *. pose proof (arr_slot d R T _ _ _ S3) as Fg.
  destruct (arr_spec d R T c _ Lc (mod4_lt (p + 3))) as (Dg & _).
  assert (Lg : g < nedges d) by (rewrite <- Fg; apply Dg). rewrite (U g Lg).
  assert (W : u (lfs d a) = u (fno d (flip (arr d c ((p + 3) mod 4))))).
  { f_equal. rewrite <- (fno_corner d R T FP c _ Lc (mod4_lt _)), Nat.add_mod_idemp_l by lia.
    replace ((p + 3 + 1) mod 4) with p by (destruct (small4 p Lp) as [->|[->|[->| ->]]]; reflexivity).
    rewrite (arr_arrives _ _ _ Aa). auto. }
  assert (W' : u (lfs d b) = u (fno d (arr d c ((p + 3) mod 4)))).
  { f_equal. pose proof (fno_corner d R T FP c _ Lc (mod4_lt (p + 2))) as Q. rewrite Nat.add_mod_idemp_l in Q by lia.
    replace (p + 2 + 1) with (p + 3) in Q by lia. rewrite Q, (arr_departs _ _ _ Db). auto. }
  rewrite W, W'. destruct (arr d c ((p + 3) mod 4)) as (g', o). cbn [fst] in Fg. subst g'. destruct Dg as (_ & O). cbn [snd] in O.
  unfold flip, lfs, rts. cbn [fst snd]. destruct O; subst o; cbn; destruct (u (fno d (g, Pos))), (u (fno d (g, Neg))); auto.
Qed.

Lemma sum_signs_parity : forall L, all_signed d -> (forall c, In c L -> c < ncross d) ->
  exists k, sum_signs d L = (Z.of_nat (length L) + 2 * k)%Z.
Proof.
  intros L A. induction L as [|c L IH]; intros H; [exists 0%Z; reflexivity|].
  destruct IH as (k & IH); [intros; apply H; cbn; auto|]. cbn [sum_signs fold_right length]. fold (sum_signs d L). rewrite IH.
  unfold sign_of. destruct (nth_error (p_cross d) c) as [x|] eqn:E; [|apply nth_error_None in E; specialize (H c); unfold ncross in H; cbn in H; lia].
  assert (csign x <> Unset) by (apply (A c); exists x; auto).
  destruct (csign x); [exists k|exists (k - 1)%Z|congruence]; lia.
Qed.
(** the linking number is exactly half of the sum of the signs *)
Theorem linking_number_exact : forall i j L lk, all_signed d -> i < ncomps d -> j < ncomps d -> i <> j ->
  NoDup L -> (forall cr, In cr L <-> meets d i j cr) -> pd_linking_number d i j = Ok lk -> (2 * lk = sum_signs d L)%Z.
Proof.
  intros i j L lk A Hi Hj N NL HL E. rewrite (linking_number d R G T P i j L) in E; auto. injection E as <-.
  destruct (crossings_even i j L Hi N NL HL) as (m & Hm).
  destruct (sum_signs_parity L A) as (k & ->); [intros c Hc; apply HL in Hc; eapply meets_lt; eauto|].
  rewrite Hm. replace (Z.of_nat (2 * m) + 2 * k)%Z with ((Z.of_nat m + k) * 2)%Z by lia. rewrite Z.quot_mul by lia. lia.
Qed.
End Components.

(** ** Consequences for the operations on diagrams *)
Lemma tidy_differ : forall d, tidy d -> connected d -> crossings_differ d.
Proof. intros d TD CN. destruct (td_regular d TD). apply planar_crossings_differ; auto. Qed.
Theorem reorient_twice_connected : forall d cmp, tidy d -> connected d -> cmp < ncomps d ->
  exists d', pd_reorient_component d cmp Neg = Ok d' /\ pd_reorient_component d' cmp Neg = Ok d.
Proof. intros d cmp TD CN. apply reorient_twice; auto. apply tidy_differ; auto. Qed.
Theorem apply_identity_connected : forall d, tidy d -> connected d -> pd_apply_edgemap d (pd_new_edgemap (nedges d)) = Ok d.
Proof. intros d TD CN. apply apply_identity; auto. apply tidy_differ; auto. Qed.

(** ** What the checks do not see
    A diagram of two separate pieces, a one-crossing unknot and two loops that cross once, which is only
    possible on a torus, has as many faces as Euler's formula asks of a connected planar diagram.
    [pd_ok] accepts it; its faces cannot be coloured, and its linking number is not half of the sum. *)
Definition curl_and_torus : pd := mkPd 2 0 []
  [mkEdge 0 0 0 1; mkEdge 0 3 0 2; mkEdge 1 0 1 2; mkEdge 1 1 1 3]
  [mkCross 0 0 1 1 Pos; mkCross 2 3 2 3 Pos]
  [mkComp [0; 1] 65%Z; mkComp [2] 66%Z; mkComp [3] 67%Z]
  [[(2, Neg); (3, Neg); (2, Pos); (3, Pos)];
   [(0, Pos); (1, Neg)];
   [(0, Neg)];
   [(1, Pos)]].
Theorem ok_not_planar_refuted : pd_ok curl_and_torus = Ok true /\ ~ connected curl_and_torus /\
  (forall colour : nat -> bool, ~ forall e f g, face_along curl_and_torus f e Pos -> face_along curl_and_torus g e Neg -> colour f <> colour g) /\
  (forall cr, In cr [1] <-> meets curl_and_torus 1 2 cr) /\
  exists lk, pd_linking_number curl_and_torus 1 2 = Ok lk /\ (2 * lk)%Z <> sum_signs curl_and_torus [1].
Proof.
  split; [reflexivity|]. split; [|split; [|split]].
  - intros H. assert (K : forall a b, clos_refl_trans nat (joined curl_and_torus) a b -> a = 0 -> b = 0).
    { clear H. intros a b H. induction H as [a b (e & p & q & (Hp & X & HX & EX) & (Hq & Y & HY & EY))|a|a b c _ IH1 _ IH2]; auto.
      intros ->. cbn in HX. injection HX as <-. destruct b as [|[|b]]; auto.
      - cbn in HY. injection HY as <-. subst e. destruct (small4 p Hp) as [->|[->|[->| ->]]], (small4 q Hq) as [->|[->|[->| ->]]]; discriminate.
      - destruct b; discriminate. }
    discriminate (K 0 1 (H 0 1 ltac:(cbn; lia) ltac:(cbn; lia)) eq_refl).
  - intros u H. apply (H 2 0 0); auto; eexists; (split; [reflexivity|cbn; auto]).
  - intros cr. split.
    + intros [<-|[]]. exists 2, 0, 3, 1. split; [eexists; split; reflexivity|]. split; [eexists; split; reflexivity|].
      split; [lia|]. split; eexists; (split; [reflexivity|cbn; auto]).
    + intros (e & p & f & q & (E & HE & H) & _ & _ & (C & HC & I) & _). cbn in HC. injection HC as <-. destruct I as [<-|[]].
      cbn in HE. injection HE as <-. cbn in H. injection H as <- _. cbn; auto.
  - exists 0%Z. split; [reflexivity|]. cbn. lia.
Qed.

(** ** Satisfiability *)
Lemma joined_connected : forall d, (forall c, c < ncross d -> c = 0 \/ joined d 0 c) -> connected d.
Proof.
  intros d H c c' Hc Hc'.
  assert (A : forall c, c < ncross d -> clos_refl_trans nat (joined d) 0 c).
  { intros v Hv. destruct (H v Hv) as [->|J]; [apply rt_refl|apply rt_step; auto]. }
  assert (B : forall c, c < ncross d -> clos_refl_trans nat (joined d) c 0).
  { intros v Hv. destruct (H v Hv) as [->|(e & p & q & S & S')]; [apply rt_refl|apply rt_step; exists e, q, p; auto]. }
  eapply rt_trans; eauto.
Qed.
Example trefoil_connected : connected trefoil.
Proof.
  apply joined_connected. intros c Hc. destruct c as [|[|[|c]]]; [auto| | |cbn in Hc; lia]; right.
  - exists 0, 0, 0. split; (split; [lia|eexists; split; reflexivity]).
  - exists 2, 1, 2. split; (split; [lia|eexists; split; reflexivity]).
Qed.
Example hopf_connected : connected hopf.
Proof.
  apply joined_connected. intros c Hc. destruct c as [|[|c]]; [auto| |cbn in Hc; lia]. right.
  exists 0, 0, 0. split; (split; [lia|eexists; split; reflexivity]).
Qed.
Example trefoil_sphere : ends_recorded trefoil /\ two_ended trefoil /\ face_partition trefoil (p_face trefoil) /\
  nfaces trefoil = ncross trefoil + 2 /\ connected trefoil /\ even_everywhere trefoil (fun _ => true).
Proof.
  assert (EO : pd_edges_ok trefoil = Ok true) by reflexivity.
  apply edges_ok_spec in EO as (R & G); [|cbn; lia]. split; auto. split; [apply two_ended_trefoil|].
  split; [apply trefoil_partition|]. split; auto. split; [apply trefoil_connected|]. intros c x _. reflexivity.
Qed.
Example hopf_sphere : strand_partition hopf (map cp_edge (p_comp hopf)) /\ face_partition hopf (p_face hopf) /\
  nfaces hopf = ncross hopf + 2 /\ connected hopf /\ all_signed hopf /\ ncomps hopf = 2 /\ pd_linking_number hopf 0 1 = Ok 1%Z.
Proof.
  destruct hopf_hyps as (R & G & T & P & A). split; auto. split.
  - assert (EO : pd_edges_ok hopf = Ok true) by reflexivity.
    destruct (regenerate_faces_correct hopf ltac:(cbn; lia) EO T) as [K|(d' & K & _ & FP & _)]; vm_compute in K; [discriminate|].
    injection K as <-. exact FP.
  - split; auto. split; [apply hopf_connected|]. split; auto.
Qed.
(** a tidy, connected diagram *)
Example tidy_connected : exists d, tidy d /\ connected d /\ ncross d = 3.
Proof.
  destruct tidy_example as (d & E & TD & _). exists d. split; auto. vm_compute in E. injection E as <-. split; auto.
  apply joined_connected. intros c Hc. destruct c as [|[|[|c]]]; [auto| | |cbn in Hc; lia]; right.
  - exists 0, 0, 0. split; (split; [lia|eexists; split; reflexivity]).
  - exists 2, 1, 2. split; (split; [lia|eexists; split; reflexivity]).
Qed.

Print Assumptions cycles_separate.
Print Assumptions checkerboard.
Print Assumptions face_edges_distinct.
Print Assumptions planar_no_edge_across.
Print Assumptions faces_distinct.
Print Assumptions planar_crossings_differ.
Print Assumptions crossings_even.
Print Assumptions linking_number_exact.
Print Assumptions reorient_twice_connected.
Print Assumptions apply_identity_connected.
Print Assumptions ok_not_planar_refuted.
