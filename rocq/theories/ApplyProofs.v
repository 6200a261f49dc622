(** Lemmas about pd_apply_edgemap. *)
From Coq Require Import List ZArith Lia Bool Arith Permutation Sorted.
From Verif Require Import Base Iterators Sorting Orbits Cycles CycleMatch Pd PdSpec PdProofs Relabel RelabelProofs RelabelSym
  Strands SlotCount PdCross PdCrossProofs PdComps PdCompsProofs PdFaces PdFacesProofs PdHash HashSpec HashProofs HashIso
  Perm PermProofs RegenSpec RegenProofs Thm_Pd Thm_Cross Thm_Comps Thm_Faces OverUnder OverUnderSpec LinkProofs
  PdIso IsoSpec IsoOpsProofs PdOps Carry CarryProofs.
Import ListNotations.
Open Scope nat_scope.

(** a property passed on around a cyclic list holds everywhere *)
Lemma cyclically_all : forall A (P : A -> Prop) l a, cyclically (fun x y => P x -> P y) l ->
  nth_error l 0 = Some a -> P a -> Forall P l.
Proof.
  intros A P l a C H0 Pa. apply Forall_forall. intros x Hx. apply In_nth_error in Hx as (i & Hi). revert x Hi.
  induction i as [|i IH]; intros x Hi; [congruence|].
  assert (L : S i < length l) by (apply nth_error_Some; congruence).
  destruct (nth_error l i) as [y|] eqn:Hy; [|apply nth_error_None in Hy; lia].
  apply (C i y x); auto. rewrite Nat.mod_small by lia. replace (i + 1) with (S i) by lia. auto.
Qed.

Section Apply.
Context (d : pd) (R : ends_recorded d) (Th : goes_through d) (T : two_ended d).
Context (P : strand_partition d (map cp_edge (p_comp d))).
Context (m : edgemap) (GM : good_edgemap (nedges d) m) (FS : follows_strands d m).
Notation n := (nedges d).

Lemma source_lt : forall e, e < n -> source m e < n.
Proof. intros e He. destruct GM as (A & B & _). rewrite <- B. apply perm_lt; auto. lia. Qed.
Lemma source_bij : bij_on n (source m).
Proof.
  split; [apply source_lt|]. intros i j Hi Hj E. destruct GM as (A & B & _).
  pose proof (is_perm_NoDup _ A) as N. rewrite NoDup_nth in N. apply (N i j); [unfold pn in B; lia..|exact E].
Qed.
Definition target := inv_on n (source m).
Lemma target_source : forall e, e < n -> target (source m e) = e.
Proof. intros. apply inv_left; auto. apply source_bij. Qed.
Lemma source_target : forall e, e < n -> source m (target e) = e.
Proof. intros e He. apply (inv_spec n (source m) e source_bij He). Qed.
Lemma target_lt : forall e, e < n -> target e < n.
Proof. intros e He. apply (inv_spec n (source m) e source_bij He). Qed.
Definition flips (e : nat) : bool := turns m (target e).

Lemma or_cases : forall e, e < n -> get (em_or m) e = Ok (if turns m e then Neg else Pos).
Proof.
  intros e He. destruct GM as (_ & _ & L & F). rewrite get_nth with (d := Pos) by lia. f_equal. unfold turns.
  rewrite Forall_forall in F. destruct (F (nth e (em_or m) Pos)) as [->| ->]; auto. apply nth_In. lia.
Qed.
Lemma source_get : forall e, e < n -> get (pmap (em_perm m)) e = Ok (source m e).
Proof. intros e He. destruct GM as (_ & B & _). apply get_nth. unfold pn in B. lia. Qed.

(** reversed edges form whole strands *)
Lemma flips_continue : forall a b, continues d a b -> flips a = flips b.
Proof.
  intros x y C. pose proof C as C'. apply continues_succ in C' as (Hx & Ey); auto.
  assert (Hy : y < n) by (subst y; apply succ_lt; auto).
  pose proof (target_lt x Hx) as Ha. pose proof (target_lt y Hy) as Hb. unfold flips.
  destruct (turns m (target x)) eqn:Tx.
  - (* the edge before *)
    destruct (edge_at_ex d (target x) Ha) as (A & HA). destruct (Th _ A HA) as (_ & (b & B & HB & SB & QB)).
    assert (C0 : continues d b (target x)).
    { exists B, A. unfold head_slot in QB. apply pair_equal_spec in QB as (Q1 & Q2). split; auto. split; auto. split; auto.
      rewrite Q2. destruct R as (_ & R2). destruct (R2 _ A HA) as (_ & S). apply slot_lt in S as (_ & S). rewrite across_back; auto. }
    pose proof (FS b (target x) C0) as (E1 & E2). rewrite E1, Tx in E2. rewrite source_target in E2 by auto.
    apply continues_succ in E2 as (_ & E2); auto. rewrite <- Ey in E2. rewrite <- E2 in *.
    rewrite <- Tx, <- E1. rewrite target_source; auto. eapply edge_at_lt; eauto.
  - destruct (edge_at_ex d (target x) Ha) as (A & HA).
    assert (C1 : continues d (target x) (succ d (target x))) by (apply continues_succ; auto).
    pose proof (FS _ _ C1) as (E1 & E2). rewrite Tx in E2. rewrite source_target in E2 by auto.
    apply continues_succ in E2 as (_ & E2); auto. rewrite <- Ey in E2. rewrite <- E2.
    rewrite target_source by (apply succ_lt; auto). congruence.
Qed.

(** the check at the start succeeds *)
Lemma comp_target_ok : forall e, e < n -> exists i, comp_target d m e = Ok (i, if turns m e then Neg else Pos) /\ on_comp d (source m e) i.
Proof.
  intros e He. unfold comp_target. rewrite source_get by auto. cbn [bind].
  destruct (comp_pos_ok d P (source m e) (source_lt e He)) as (i & p & -> & O). cbn [bind]. rewrite or_cases by auto. cbn [bind fst]. eauto.
Qed.
Lemma comps_bound : forall C e, In C (p_comp d) -> In e (cp_edge C) -> e < n.
Proof. intros C e HC He. apply P. apply in_concat. exists (cp_edge C). split; auto. apply in_map; auto. Qed.
Lemma consistent_ok : pd_edgemap_consistent d m = Ok true.
Proof.
  unfold pd_edgemap_consistent. destruct GM as (_ & B & _). rewrite B, Nat.eqb_refl. cbn [negb].
  apply all_ok_spec. intros C HC. unfold comp_consistent.
  destruct (proj1 P (cp_edge C) (in_map _ _ _ HC)) as (NE & CY).
  destruct (cp_edge C) as [|e0 l] eqn:EC; [congruence|]. rewrite get_nth with (d := 0) by (cbn; lia). cbn [nth bind].
  assert (Bd : forall e, In e (e0 :: l) -> e < n) by (intros e He; apply (comps_bound C); auto; rewrite EC; auto).
  destruct (comp_target_ok e0 (Bd e0 (or_introl eq_refl))) as (i & E0 & O0). rewrite E0. cbn [bind fst snd].
  assert (A : Forall (fun e => comp_target d m e = Ok (i, if turns m e0 then Neg else Pos)) (e0 :: l)).
  { apply (cyclically_all _ _ (e0 :: l) e0); auto. intros k a b Ha Hb Q. pose proof (CY k a b Ha Hb) as Cab.
    assert (La : a < n) by (apply Bd; eapply nth_error_In; eauto). assert (Lb : b < n) by (apply Bd; eapply nth_error_In; eauto).
    destruct (comp_target_ok a La) as (j & Ej & Oj). destruct (comp_target_ok b Lb) as (k' & Ek & Ok').
    rewrite Ej in Q. injection Q as -> Qt. rewrite Ek. f_equal. pose proof (FS a b Cab) as (F1 & F2). f_equal; [|rewrite <- F1; exact Qt].
    apply (on_comp_fun d P (source m b)); auto. destruct (turns m a).
    - apply (on_comp_continues d R Th P _ _ i F2); auto.
    - apply (on_comp_continues d R Th P _ _ i F2); auto. }
  apply all_ok_spec. cbn [tl]. intros e He. rewrite Forall_forall in A. rewrite (A e (or_intror He)). cbn [bind fst snd].
  rewrite Nat.eqb_refl. destruct (turns m e0); reflexivity.
Qed.

(** the copy of the edges *)
Definition new_edge (e : nat) : edge :=
  let E := nth (source m e) (p_edge d) (mkEdge 0 0 0 0) in if turns m e then flip_edge E else E.
Definition half (k : nat) : list edge := imap (turned_edge (fun x => (target x <? k) && flips x)) 0 (p_edge d).
Lemma fold_ok_app : forall A B (f : A -> B -> res A) l l' a,
  fold_ok f (l ++ l') a = bind (fold_ok f l a) (fold_ok f l').
Proof.
  induction l as [|x l IH]; intros l' a; cbn [fold_ok app bind]; auto.
  destruct (f a x); cbn [bind]; auto.
Qed.
Lemma copies_ok : forall k, k <= n -> fold_ok (copy_edge m) (seq 0 k) (p_edge d, []) = Ok (half k, map new_edge (seq 0 k)).
Proof.
  induction k as [|k IH]; intros Hk.
  - cbn [seq fold_ok map]. f_equal. f_equal. apply list_ext. intros i. unfold half. rewrite nth_error_imap.
    unfold turned_edge. cbn. destruct (nth_error (p_edge d) i); reflexivity.
  - rewrite seq_S, fold_ok_app, IH by lia. cbn [bind plus fold_ok]. unfold copy_edge. cbn [fst snd].
    rewrite source_get, or_cases by lia. cbn [bind].
    assert (Hs : source m k < n) by (apply source_lt; lia).
    destruct (edge_at_ex d (source m k) Hs) as (E & HE). unfold edge_at in HE.
    assert (HH : nth_error (half k) (source m k) = Some E).
    { unfold half. rewrite nth_error_imap, HE. cbn [plus option_map]. unfold turned_edge.
      rewrite target_source by lia. rewrite Nat.ltb_irrefl. reflexivity. }
    assert (NE : new_edge k = if turns m k then flip_edge E else E).
    { unfold new_edge. rewrite (nth_error_nth _ _ _ HE). auto. }
    assert (FL : flips (source m k) = turns m k) by (unfold flips; rewrite target_source by lia; auto).
    assert (LH : length (half k) = n) by apply imap_length.
    assert (Q : (if turns m k then upd (source m k) (flip_edge E) (half k) else half k) = half (S k)).
    { apply list_ext. intros i. unfold half at 3. rewrite nth_error_imap. cbn [plus].
      destruct (Nat.eq_dec i (source m k)) as [->|Ni].
      - rewrite HE. cbn [option_map]. unfold turned_edge. rewrite FL, target_source by lia.
        rewrite (proj2 (Nat.ltb_lt k (S k))) by lia. cbn [andb]. destruct (turns m k); auto.
        rewrite nth_error_upd, Nat.eqb_refl, LH. rewrite (proj2 (Nat.ltb_lt _ _) Hs). auto.
      - replace (nth_error (if turns m k then upd (source m k) (flip_edge E) (half k) else half k) i) with (nth_error (half k) i).
        2:{ destruct (turns m k); auto. rewrite nth_error_upd. destruct (Nat.eqb_spec (source m k) i); [congruence|auto]. }
        unfold half. rewrite nth_error_imap. cbn [plus]. destruct (nth_error (p_edge d) i) as [X|] eqn:HX; auto. cbn [option_map].
        f_equal. unfold turned_edge. assert (Hi : i < n) by (apply nth_error_Some; unfold nedges in *; congruence).
        assert (target i <> k) by (intros <-; apply Ni; symmetry; apply source_target; auto).
        replace (target i <? S k) with (target i <? k); auto.
        destruct (Nat.ltb_spec (target i) k), (Nat.ltb_spec (target i) (S k)); auto; lia. }
    unfold pd_reorient_edge. rewrite LH. rewrite (proj2 (Nat.ltb_lt _ _) Hs).
    destruct (turns m k) eqn:Tk; cbn [pd_or_ok].
    + unfold get at 1. rewrite HH. cbn [bind]. rewrite Q. unfold get.
      assert (HN : nth_error (half (S k)) (source m k) = Some (flip_edge E)).
      { rewrite <- Q. rewrite nth_error_upd, Nat.eqb_refl, LH. rewrite (proj2 (Nat.ltb_lt _ _) Hs). auto. }
      rewrite HN. cbn [bind]. f_equal. f_equal. rewrite map_app. cbn [map]. rewrite NE. auto.
    + cbn [bind]. unfold get. rewrite HH. cbn [bind]. rewrite Q. f_equal. f_equal. rewrite map_app. cbn [map]. rewrite NE. auto.
Qed.

(** the diagram before its crossings are put in order *)
Definition no_change (c : nat) : bool := false.
Definition renamed (x : crossing) : crossing :=
  mkCross (target (ce0 x)) (target (ce1 x)) (target (ce2 x)) (target (ce3 x)) (csign x).
Definition staged (fs : list face) : pd :=
  with_faces (with_cross (with_edges d (map new_edge (seq 0 n))) (map renamed (p_cross d))) fs.
Lemma renamed_edge : forall x p, cedge (renamed x) p = target (cedge x p).
Proof. intros x [|[|[|p]]]; reflexivity. Qed.
Lemma staged_relabelled : forall fs, relabelled (rev_pd d flips no_change) (staged fs) (fun c => c) (fun _ => 0) target.
Proof.
  intros fs. apply carried_rev; auto.
  assert (M : forall c p, p < 4 -> moved (fun c => c) (fun _ => 0) c p = (c, p)).
  { intros c p Hp. unfold moved. f_equal. destruct (small4 p Hp) as [->|[->|[->| ->]]]; reflexivity. }
  constructor.
  - unfold ncross, staged. cbn [with_faces with_cross with_edges p_cross]. apply map_length.
  - unfold nedges, staged. cbn [with_faces with_cross with_edges p_edge]. rewrite map_length, seq_length. auto.
  - apply bij_id.
  - intros; lia.
  - apply bij_inv, source_bij.
  - intros c p e (Hp & x & Hx & <-). rewrite M by auto. cbn [snd]. split; auto.
    exists (renamed x). split; [unfold staged; cbn [with_faces with_cross with_edges p_cross]; apply map_nth_error; auto|apply renamed_edge].
  - intros c s (x & Hx & <-). exists (renamed x). cbn [no_change]. split; auto.
    unfold staged; cbn [with_faces with_cross with_edges p_cross]. apply map_nth_error; auto.
  - intros e E HE. pose proof (edge_at_lt _ _ _ HE) as He. pose proof (target_lt e He) as Ht.
    exists (new_edge (target e)). split.
    + unfold edge_at, staged. cbn [with_faces with_cross with_edges p_edge]. apply map_nth_error.
      rewrite nth_error_nth' with (d := 0) by (rewrite seq_length; auto). rewrite seq_nth by auto. auto.
    + unfold new_edge. rewrite source_target by auto. unfold edge_at in HE. rewrite (nth_error_nth _ _ _ HE).
      change (turns m (target e)) with (flips e). destruct R as (_ & R2). destruct (R2 e E HE) as (A & B).
      apply slot_lt in A as (_ & A). apply slot_lt in B as (_ & B). rewrite !M by auto. destruct (flips e); auto.
Qed.
Context (Hn : 0 < ncross d).
Lemma inverse_target : exists ip, pd_inverse_perm (em_perm m) = Ok ip /\ forall x, x < n -> get (pmap ip) x = Ok (target x).
Proof.
  destruct GM as (A & B & _). destruct R as (N & _).
  destruct (inverse_ok (em_perm m) A ltac:(lia)) as (ip & E & PI & L & _ & _ & I1 & I2). exists ip. split; auto.
  intros x Hx. rewrite get_nth with (d := 0) by (unfold pn in L; unfold pn in B; lia). f_equal.
  rewrite <- (target_source (nth x (pmap ip) 0)).
  - f_equal. unfold source. apply I2. lia.
  - rewrite <- B, <- L. apply perm_lt; auto. lia.
Qed.
Lemma rename_all : forall ip, (forall x, x < n -> get (pmap ip) x = Ok (target x)) ->
  map_ok (rename_cross (pmap ip)) (p_cross d) = Ok (map renamed (p_cross d)).
Proof.
  intros ip H. apply map_ok_map. intros x Hx. apply In_nth_error in Hx as (c & Hx). unfold rename_cross.
  assert (B : forall p, p < 4 -> cedge x p < n).
  { intros p Hp. apply (consistent_bound d c p); auto. split; auto. exists x; auto. }
  rewrite !H. - reflexivity. - apply (B 3); lia. - apply (B 2); lia. - apply (B 1); lia. - apply (B 0); lia.
Qed.
Context (FD : forall f a, In f (p_face d) -> In a f -> is_dart d a).
Lemma rename_faces : forall ip, (forall x, x < n -> get (pmap ip) x = Ok (target x)) ->
  exists fs, map_ok (map_ok (rename_dart (pmap ip) (em_or m))) (p_face d) = Ok fs.
Proof.
  intros ip H. eexists. apply (map_ok_map _ _ _ (map (fun a => (target (fst a), if flips (fst a) then opp (snd a) else snd a)))).
  intros f Hf. apply map_ok_map. intros (e, o) Ha. destruct (FD f _ Hf Ha) as (He & Ho). cbn [fst snd] in *.
  unfold rename_dart. cbn [fst snd]. rewrite H by auto. cbn [bind]. rewrite or_cases by (apply target_lt; auto). cbn [bind].
  unfold flips. destruct (turns m (target e)), o; try reflexivity; destruct Ho; congruence.
Qed.

Lemma apply_continues : forall d' s r, relabelled (rev_pd d flips no_change) d' s r target ->
  forall a b, continues d a b -> continues d' a b.
Proof.
  intros d' s r RL a b C. pose proof (FS a b C) as (E1 & E2).
  assert (Ha : a < n) by (apply continues_succ in C as (Ha & _); auto).
  assert (Hb : b < n) by (apply continues_succ in C as (_ & ->); auto; apply succ_lt; auto).
  assert (Q : continues (rev_pd d flips no_change) (source m a) (source m b)).
  { assert (KF : forall x, x < n -> flips (source m x) = turns m x) by (intros x Hx; unfold flips; rewrite target_source; auto).
    destruct (turns m a) eqn:Ta.
    - pose proof (rev_continues d flips no_change R flips_continue _ _ E2) as Q. rewrite KF, <- E1 in Q by auto. exact Q.
    - pose proof (rev_continues d flips no_change R flips_continue _ _ E2) as Q. rewrite KF, Ta in Q by auto. exact Q. }
  apply (rl_continues _ _ _ _ _ RL) in Q; [|apply rev_ends_recorded; auto]. rewrite !target_source in Q by auto. exact Q.
Qed.

Context (Hm : ncross d <= p_maxv d) (PL : planar d) (NA : numbered_along d) (TG : tags_in_order d).
Lemma apply_ok : exists d' sigma rho, pd_apply_edgemap d m = Ok d' /\
  carried d d' sigma rho target flips no_change /\ tidy d' /\
  p_comp d' = p_comp d /\ p_maxv d' = p_maxv d /\ p_uid d' = p_uid d.
Proof.
  destruct inverse_target as (ip & EI & HI). destruct (rename_faces ip HI) as (fs & EF).
  unfold pd_apply_edgemap. rewrite consistent_ok. cbn [bind]. rewrite copies_ok by auto. cbn [bind snd].
  rewrite EI. cbn [bind]. rewrite (rename_all ip HI), EF. cbn [bind]. fold (staged fs).
  pose proof (staged_relabelled fs) as RL0. set (d0 := rev_pd d flips no_change) in *.
  pose proof (rev_ends_recorded d flips no_change R) as R0. pose proof (rev_two_ended d flips no_change T) as T0.
  pose proof (rev_goes_through d flips no_change R Th flips_continue) as G0. fold d0 in R0, T0, G0.
  pose proof (rl_ends_recorded _ _ _ _ _ RL0 R0) as R1. pose proof (rl_two_ended _ _ _ _ _ RL0 R0 T0) as T1.
  destruct (regenerate_spec (staged fs) (recorded_in_range _ R1)) as (d2 & num & E2 & D2 & _ & _ & _ & RL2 & S2).
  pose proof (regenerate_canonical _ _ R1 T1 E2) as C2.
  rewrite E2. cbn [bind].
  pose proof (rl_trans _ _ _ _ _ _ _ _ _ R0 RL0 RL2) as RL. cbn beta in RL. set (s := fun c => nth c num 0) in *.
  pose proof (rl_ends_recorded _ _ _ _ _ RL R0) as R2. pose proof (rl_two_ended _ _ _ _ _ RL R0 T0) as T2.
  pose proof (rl_goes_through _ _ _ _ _ RL R0 G0) as G2. pose proof (rl_ncross _ _ _ _ _ RL) as N2.
  assert (N0 : ncross d0 = ncross d) by apply rev_ncross.
  assert (HE2 : pd_edges_ok d2 = Ok true) by (apply edges_ok_spec; auto; lia).
  pose proof (rev_planar d flips no_change R T PL) as PL0. fold d0 in PL0.
  destruct (relabelled_planar _ _ _ _ _ RL R0 T0 PL0) as (gs & F1 & F2 & F3).
  assert (Mv : p_maxv d2 = p_maxv d) by (rewrite D2; reflexivity).
  destruct (loop_cases d2 ltac:(lia) HE2 T2) as [(hs & E4 & P4 & L4 & M4 & W4 & B4 & O4)|(_ & X)].
  2:{ exfalso. apply (X gs); auto. unfold MAXFACES. lia. }
  rewrite E4. cbn [bind]. set (d4 := with_faces d2 hs) in *.
  assert (FC : faced d4) by (apply partition_faced; auto; [change (0 < ncross d2); lia|apply R2]).
  pose proof (hash_data_ok d4 FC) as H5. unfold pd_regenerate_hash at 1. rewrite H5. cbn [bind].
  eexists. exists s, (fun c => (0 + rho (staged fs) c) mod 4). split; [reflexivity|]. set (d5 := with_hash d4 _).
  split. { apply carried_rev; auto. fold d0. destruct RL as [X1 X2 X3 X4 X5 X6 X7 X8]. constructor; [exact X1|exact X2|exact X3|exact X4|exact X5|exact X6|exact X7|exact X8]. }
  split; [|unfold d5, d4; rewrite D2; repeat split].
  assert (Pc : p_comp d5 = p_comp d) by (unfold d5, d4; rewrite D2; reflexivity).
  assert (NN : nedges d2 = n) by (rewrite (rl_nedges _ _ _ _ _ RL); apply rev_nedges).
  constructor.
  - change (0 < ncross d2). lia.
  - change (ncross d2 <= p_maxv d2). lia.
  - constructor; auto.
    + destruct NA as (A1 & A2 & A3). split; [rewrite Pc; change (nedges d5) with (nedges d2); rewrite NN; auto|].
      split; [|unfold comps_sorted; rewrite Pc; exact A3]. rewrite Pc. intros c Hc. destruct (A2 c Hc) as (B1 & B2). split; auto.
      intros k a b Ha Hb. apply (apply_continues d2 _ _ RL). apply (B2 k a b Ha Hb).
    + unfold tags_in_order. rewrite Pc. exact TG.
  - exact (regenerate_faces_core d2 d5 hs ltac:(repeat split) E4).
  - unfold pd_regenerate_hash. change (hash_data d5) with (hash_data d4). rewrite H5. reflexivity.
Qed.
End Apply.
