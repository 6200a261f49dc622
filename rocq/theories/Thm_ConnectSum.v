(** C34: the connected sum of two diagrams. *)
From Coq Require Import List ZArith Lia Bool Arith Permutation Relations Sorted.
From Verif Require Import Base Iterators Sorting ListAux Pd PdSpec PdProofs PdExamples Relabel RelabelProofs Strands HashSpec CycleMatch CycleSurgery
  PdCross PdComps PdCompsProofs PdIso PdFaces PdFacesProofs Planar RegenSpec PdRegen RegenProofs SplitSpec Thm_Faces Thm_Comps Thm_Regen Thm_Planar MoveProofs Moves OverUnder LinkProofs
  Thm_LoopAdd FewComps CarryProofs Unsigned Exchange ConnectSum ConnectSpec ConnectProofs.
From Verif Require DeloopProofs DeloopComps SplitChild Thm_Split Thm_Pd.
Import ListNotations.
Open Scope nat_scope.

Lemma sorted_seq : forall t n, Permutation t (seq 0 n) -> isort Nat.leb t = seq 0 n.
Proof.
  intros t n P. apply (@sorted_unique nat Nat.leb).
  - intros x y H K. apply Nat.leb_le in H, K. lia.
  - apply isort_sorted; [apply SplitChild.leb_total|apply SplitChild.leb_tr].
  - assert (G : forall k m, StronglySorted (lep Nat.leb) (seq k m)).
    { intros k m. revert k. induction m as [|m IH]; intro k; [constructor|]. cbn [seq]. constructor; auto. apply Forall_forall. intros x Hx. apply in_seq in Hx. unfold lep. apply Nat.leb_le. lia. }
    apply G.
  - etransitivity; [apply isort_perm|exact P].
Qed.

(** in a connected planar diagram the two sides of an edge are different faces *)
Lemma sides_differ : forall d fs e, ends_recorded d -> two_ended d -> face_partition d fs -> length fs = ncross d + 2 -> connected d -> e < nedges d ->
  exists f g, In f fs /\ In g fs /\ In (e, Pos) f /\ In (e, Neg) g /\ f <> g.
Proof.
  intros d fs e R T FP NF CN He. pose proof FP as (_ & _ & P3).
  assert (H1 : In (e, Pos) (concat fs)) by (apply P3; split; auto). assert (H2 : In (e, Neg) (concat fs)) by (apply P3; split; auto).
  apply in_concat in H1 as (f & Hf & If). apply in_concat in H2 as (g & Hg & Ig). exists f, g. split; auto. split; auto. split; auto. split; auto. intros <-.
  pose proof (face_edges_distinct (with_faces d fs) R T FP NF CN f Hf) as N. clear -N If Ig. apply in_split in If as (l1 & l2 & ->).
  rewrite map_app in N. cbn [map fst] in N. apply NoDup_remove_2 in N. apply N. rewrite <- map_app. change e with (fst (e, Neg)) at 1. apply in_map.
  apply in_app_iff in Ig as [I|[I|I]]; [apply in_app_iff; auto|discriminate|apply in_app_iff; auto].
Qed.
Lemma map_inj_on : forall A B (h : A -> B) l m, (forall a b, In a l -> In b m -> h a = h b -> a = b) -> map h l = map h m -> l = m.
Proof.
  intros A B h. induction l as [|x l IH]; intros [|y m] H E; cbn in E; try discriminate; auto. injection E as E1 E2. f_equal; [apply H; simpl; auto|].
  apply IH; auto. intros a b Ha Hb. apply H; simpl; auto.
Qed.
Lemma map_rotation : forall A B (h : A -> B) l m, rotation l m -> rotation (map h l) (map h m).
Proof. intros A B h l m (u & v & -> & ->). exists (map h u), (map h v). rewrite !map_app. auto. Qed.

Lemma nodup_r : forall A (l m : list A), NoDup (l ++ m) -> NoDup m.
Proof. induction l as [|x l IH]; intros m H; auto. inversion H; subst. apply IH. auto. Qed.

(** ** parts *)
(** [p] with its places, before the exchange *)
Record placed (d : pd) (p : piece) : Prop := {
  pl_turn : forall c, at_turn p c = 0;
  pl_slot : forall c k e, slot (pc p) c k e -> slot d (at_cross p c) k (at_edge p e);
  pl_sign : forall c s, sign_at (pc p) c s -> sign_at d (at_cross p c) s;
  pl_edge : forall e E, edge_at (pc p) e E -> edge_at d (at_edge p e) (mkEdge (at_cross p (e_head E)) (e_headpos E) (at_cross p (e_tail E)) (e_tailpos E));
  pl_cross : forall c c', c < ncross (pc p) -> c' < ncross (pc p) -> at_cross p c = at_cross p c' -> c = c';
  pl_edges : forall e e', e < nedges (pc p) -> e' < nedges (pc p) -> at_edge p e = at_edge p e' -> e = e';
  pl_lt : forall c, c < ncross (pc p) -> at_cross p c < ncross d }.
Definition then_at (p : piece) (s r q : nat -> nat) : piece := mkPiece (pc p) (fun c => s (at_cross p c)) (fun c => r (at_cross p c)) (fun e => q (at_edge p e)).
Lemma exchanged_sym : forall d d1 a b, exchanged d d1 a b -> exchanged d d1 b a.
Proof.
  intros d d1 a b [X1 X2 X3 X4 X5 X6 X7 X8 X9 X10 X11]. constructor; auto.
  - intros c p x S F. apply X6; auto. intros E [H|H]; apply F; auto.
  - intros E F HE HF. destruct (X11 F E HF HE). auto.
Qed.
Lemma part_ok : forall d d1 d' p x q y s r t, ends_recorded d -> two_ended d -> ends_recorded (pc p) -> two_ended (pc p) ->
  placed d p -> placed d q -> x < nedges (pc p) -> y < nedges (pc q) ->
  (forall e, e < nedges (pc p) -> at_edge p e <> at_edge q y) ->
  exchanged d d1 (at_edge p x) (at_edge q y) -> relabelled d1 d' s r t ->
  part d' (then_at p s r t) x (then_at q s r t) y.
Proof.
  intros d d1 d' p x q y s r t R T Rp Tp [I1 I2 I3 I4 I5 I6 I7] [J1 J2 J3 J4 J5 J6 J7] Hx Hy Dj X RL.
  assert (EL : forall c k e, slot (pc p) c k e -> e < nedges (pc p)).
  { intros c k e S. destruct (DeloopProofs.slot_edge _ _ _ _ Rp Tp S) as (E & HE). exact (edge_at_lt _ _ _ HE). }
  destruct (edge_at_ex (pc p) x Hx) as (EX & HX). destruct (edge_at_ex (pc q) y Hy) as (EY & HY). pose proof (I4 _ _ HX) as KX. pose proof (J4 _ _ HY) as KY.
  constructor; cbn [then_at pc at_cross at_turn at_edge].
  - intros c Hc. apply (rl_rho _ _ _ _ _ RL). rewrite (ex_ncross _ _ _ _ X). auto.
  - intros c k e S F. pose proof (I2 _ _ _ S) as K. assert (S1 : slot d1 (at_cross p c) k (at_edge p e)).
    { apply (ex_slot _ _ _ _ X); auto. intros E [HE|HE] Q.
      - assert (E = mkEdge (at_cross p (e_head EX)) (e_headpos EX) (at_cross p (e_tail EX)) (e_tailpos EX)) as -> by (unfold edge_at in *; congruence).
        unfold head_slot in Q. cbn [e_head e_headpos] in Q. apply pair_eq in Q as (Q1 & Q2). destruct (proj2 Rp x EX HX) as (SX & _).
        apply (F EX HX). unfold head_slot. f_equal; auto. apply I5; [apply slot_lt in SX; tauto|apply slot_lt in S; tauto|auto].
      - destruct (proj2 R _ _ HE) as (SE & _). unfold head_slot in Q. apply pair_eq in Q as (Q1 & Q2). rewrite Q1, Q2 in SE.
        pose proof (slot_fun _ _ _ _ _ K SE) as Z. exact (Dj e (EL _ _ _ S) Z). }
    pose proof (rl_slot _ _ _ _ _ RL _ _ _ S1) as Z. exact Z.
  - intros X0 HX0. assert (X0 = EX) as -> by (unfold edge_at in *; congruence). pose proof (ex_slota _ _ _ _ X _ KX) as S1. cbn [e_head e_headpos] in S1.
    exact (rl_slot _ _ _ _ _ RL _ _ _ S1).
  - intros c s0 S. apply (rl_sign _ _ _ _ _ RL), (ex_sign _ _ _ _ X), I3, S.
  - intros e E Ne HE. pose proof (edge_at_lt _ _ _ HE) as Le.
    assert (K : edge_at d1 (at_edge p e) (mkEdge (at_cross p (e_head E)) (e_headpos E) (at_cross p (e_tail E)) (e_tailpos E))).
    { apply (ex_edge _ _ _ _ X); auto. }
    destruct (rl_edge _ _ _ _ _ RL _ _ K) as (E' & HE' & Q1 & Q2). exists E'. split; auto.
  - intros X0 Y0 HX0 HY0. assert (X0 = EX) as -> by (unfold edge_at in *; congruence). assert (Y0 = EY) as -> by (unfold edge_at in *; congruence).
    destruct (ex_edges _ _ _ _ X _ _ KX KY) as (K & _). cbn [e_head e_headpos e_tail e_tailpos] in K.
    destruct (rl_edge _ _ _ _ _ RL _ _ K) as (E' & HE' & Q1 & Q2). exists E'. split; auto.
Qed.

Section Sum.
Context (A B : pd) (SA : summand A) (SB : summand B).
Notation D := (Thm_Split.beside A B).

Lemma summand_facts : forall d, summand d -> ends_recorded d /\ goes_through d /\ two_ended d /\ concat (map cp_edge (p_comp d)) = seq 0 (nedges d) /\
  strand_partition d (map cp_edge (p_comp d)) /\ 2 * ncomps d <= ncross d + 2.
Proof.
  intros d [H1 H2 H3 H4 H5 H6]. pose proof H2 as OK. unfold pd_ok in H2. rewrite !and_ok_true in H2. destruct H2 as (K1 & K2 & K3 & K4).
  apply edges_ok_spec in K2 as (R & G); auto. apply comps_ok_spec in K4 as (C1 & C2 & C3 & _); auto.
  assert (SP : strand_partition d (map cp_edge (p_comp d))).
  { split; [|split].
    - intros c Hc. apply in_map_iff in Hc as (k & <- & Hk). split; auto.
    - rewrite C2. apply seq_NoDup.
    - intro e. rewrite C2, in_seq. lia. }
  split; auto. split; auto. split; auto. split; auto. split; auto.
  destruct H5 as (fs & FP & NF & _). exact (components_few (with_faces d fs) R G H3 SP FP NF H6 H1).
Qed.

(** what is handed to pd_regenerate, and what it becomes in any other numbering *)
Lemma sum_core : forall a b, a < nedges A -> b < nedges B ->
  exists d1 M,
    (forall d', pd_regenerate d1 = Ok d' -> pd_ok d' = Ok true -> pd_connect_sum A a B b = Ok d') /\
    ncross d1 = ncross A + ncross B /\ ncross d1 <= p_maxv d1 /\ ends_recorded d1 /\ goes_through d1 /\ two_ended d1 /\
    strand_partition d1 M /\ length M = ncomps A + ncomps B - 1 /\ planar d1 /\ connected d1 /\
    2 * length M <= ncross d1 + 2 /\ (signed A \/ signed B -> signed d1) /\ (unsigned A -> unsigned B -> unsigned d1) /\
    forall d' s r w, relabelled d1 d' s r w ->
      exists p q, pc p = A /\ pc q = B /\ sum_of d' p a q b /\ sum_strands p a q b (map (map w) M).
Proof.
  intros a b Ha Hb.
  destruct (summand_facts A SA) as (RA & GA & TA & CA & SPA & FA). destruct (summand_facts B SB) as (RB & GB & TB & CB & SPB & FB).
  destruct SA as [nA okA _ neA (fA & fpA & nfA & lfA) cnA]. destruct SB as [nB okB _ neB (fB & fpB & nfB & lfB) cnB].
  destruct (comp_search_ok a (p_comp A) 0) as (i & p & C & EC & HC & Kp); [rewrite CA; apply in_seq; lia|].
  destruct (comp_search_ok b (p_comp B) 0) as (j & q & F & EF & HF & Kq); [rewrite CB; apply in_seq; lia|]. cbn [plus] in EC, EF.
  assert (Lp : p < length (cp_edge C)) by (apply nth_error_Some; congruence). assert (Lq : q < length (cp_edge F)) by (apply nth_error_Some; congruence).
  destruct (tables_ok A B i p C j q F CA CB HC HF Lp Lq) as (sA & sB & tA & tB & E1 & E2 & E3 & E4 & LA & LB & P).
  destruct (copy_edges A B RA RB tA tB LA LB P) as (es & E6 & Le & Kes).
  pose proof (copy_cross A B RA RB TA TB tA tB LA LB) as E5.
  set (t := tab tA tB) in *. set (cs := map (ren t) (p_cross D)) in *.
  set (mv := maxverts_of (ncross A + ncross B)).
  assert (MV : ncross A + ncross B <= mv) by (unfold mv, maxverts_of; destruct (Nat.eqb_spec (ncross A + ncross B) 1); lia).
  set (D1 := mkPd mv 0 [32] es cs [] []).
  pose proof (copied A B RA RB tA tB LA LB P mv 0 [32] es [] [] Le Kes) as RL1. fold t cs D1 in RL1.
  pose proof (bs_recorded A B RA RB) as RD. pose proof (bs_two_ended A B TA TB) as TD. pose proof (bs_through A B GA GB) as GD.
  pose proof (rl_ends_recorded _ _ _ _ _ RL1 RD) as R1. pose proof (rl_two_ended _ _ _ _ _ RL1 RD TD) as T1. pose proof (rl_goes_through _ _ _ _ _ RL1 RD GD) as G1.
  pose proof (tab_bij A B tA tB LA LB P) as BJ. fold t in BJ. destruct BJ as (BJ1 & BJ2).
  set (a1 := t a). set (b1 := t (nedges A + b)).
  destruct (edge_at_ex A a Ha) as (EA & HEA). destruct (edge_at_ex B b Hb) as (EB & HEB).
  pose proof (Kes _ _ (bs_edgeA A B _ _ HEA)) as KA. pose proof (Kes _ _ (bs_edgeB A B _ _ HEB)) as KB. fold a1 in KA. fold b1 in KB.
  assert (Nab : a1 <> b1) by (intro Q; apply BJ2 in Q; lia).
  destruct (exchange_ok mv 0 [32] es cs [] [] a1 b1 _ _ R1 KA KB Nab) as (cs1 & cs2 & E7 & E8 & _ & X).
  set (d1 := mkPd mv 0 [32] _ cs2 [] []) in X. fold D1 in X.
  pose proof (ex_recorded _ _ _ _ X R1 T1) as R2. pose proof (ex_two_ended _ _ _ _ X R1 T1) as T2. pose proof (ex_through _ _ _ _ X R1 G1 T1) as G2.
  (* components *)
  destruct (rotation_in_front nat a (cp_edge C)) as (u & Ru); [eapply nth_error_In; eauto|].
  destruct (rotation_in_front nat b (cp_edge F)) as (v & Rv); [eapply nth_error_In; eauto|].
  set (sh := fun e => nedges A + e).
  set (M0 := (a :: u) :: (map sh (b :: v)) :: rest_of A i ++ map (map sh) (rest_of B j)).
  assert (PR : forall d k K, nth_error (p_comp d) k = Some K -> Permutation (map cp_edge (p_comp d)) (cp_edge K :: rest_of d k)).
  { intros d k K H. unfold rest_of. destruct (nth_error_split _ _ H) as (l1 & l2 & E & L). rewrite E.
    assert (F1 : firstn k (l1 ++ K :: l2) = l1) by (rewrite <- L, firstn_app, Nat.sub_diag, firstn_all; cbn; apply app_nil_r).
    assert (F2 : skipn (S k) (l1 ++ K :: l2) = l2) by (rewrite skipn_app, skipn_all2 by lia; replace (S k - length l1) with 1 by lia; reflexivity).
    rewrite F1, F2, !map_app. cbn [map]. apply Permutation_sym, Permutation_middle. }
  assert (SM0 : strand_partition D M0).
  { pose proof (bs_strands A B _ _ SPA SPB) as Z. fold sh in Z.
    apply (cpart_turn _ (continues D) _ (cp_edge C)); auto.
    apply (cpart_perm _ _ _ (map sh (b :: v) :: cp_edge C :: rest_of A i ++ map (map sh) (rest_of B j))); [apply perm_swap|].
    apply (cpart_turn _ (continues D) _ (map sh (cp_edge F))); [apply map_rotation; auto|].
    refine (cpart_perm _ _ _ _ _ _ Z). etransitivity; [apply Permutation_app; [apply (PR A i C HC)|apply Permutation_map, (PR B j F HF)]|].
    cbn [map app]. apply perm_trans with (cp_edge C :: (map sh (cp_edge F) :: rest_of A i ++ map (map sh) (rest_of B j))); [|apply perm_swap].
    apply perm_skip, Permutation_sym, Permutation_middle. }
  pose proof (relabelled_strand_partition _ _ _ _ _ RL1 RD GD _ SM0) as SM1.
  unfold M0 in SM1. cbn [map] in SM1. fold a1 in SM1. change (t (sh b)) with b1 in SM1.
  pose proof (ex_strands0 _ _ _ _ X R1 _ _ _ SM1) as SM2.
  set (M2 := (a1 :: map t (map sh v) ++ b1 :: map t u) :: map (map t) (rest_of A i ++ map (map sh) (rest_of B j))) in *.
  assert (LM : length M2 = ncomps A + ncomps B - 1).
  { pose proof (Permutation_length (PR A i C HC)) as Q1. pose proof (Permutation_length (PR B j F HF)) as Q2. unfold M2. cbn [length] in *. rewrite !map_length in *.
    rewrite app_length, map_length. unfold ncomps. lia. }
  (* faces *)
  assert (PL : planar d1).
  { destruct (sides_differ A fA a RA TA fpA nfA cnA Ha) as (pa & na & Ipa & Ina & Ja & Ka & Na).
    destruct (sides_differ B fB b RB TB fpB nfB cnB Hb) as (pb & nb & Ipb & Inb & Jb & Kb & Nb).
    pose proof (bs_faces A B _ _ fpA fpB) as FPD. set (fD := fA ++ map (map (sd A)) fB) in *.
    pose proof (relabelled_partition _ _ _ _ _ RL1 RD TD _ FPD) as FP1.
    assert (IA : forall f, In f fA -> In f fD) by (intros f Hf; apply in_app_iff; auto).
    assert (IB : forall f, In f fB -> In (map (sd A) f) fD) by (intros f Hf; apply in_app_iff; right; apply in_map; auto).
    assert (DD : forall f x, In f fD -> In x f -> is_dart D x) by (intros f x Hf Hx; apply FPD, in_concat; eauto).
    assert (INJ : forall f g, In f fD -> In g fD -> map (rl_dart t) f = map (rl_dart t) g -> f = g).
    { intros f g Hf Hg. apply map_inj_on. intros (x, o) (y, o') Hx Hy Q. pose proof (DD _ _ Hf Hx) as (Q1 & _). pose proof (DD _ _ Hg Hy) as (Q2 & _). rewrite bs_nedges in Q1, Q2. unfold rl_dart in Q. cbn [fst snd] in *.
      apply pair_eq in Q as (Q & ->). f_equal. apply BJ2; auto. }
    assert (CR : forall f g, In f fA -> In (a, Pos) f \/ In (a, Neg) f -> In g fB -> f <> map (sd A) g).
    { intros f g Hf HI Hg ->. assert (exists o, In (a, o) (map (sd A) g)) as (o & K) by (destruct HI; eauto). apply in_map_iff in K as ((x, o') & Q & _). unfold sd in Q. cbn [fst snd] in Q.
      apply pair_eq in Q as (Q & _). lia. }
    assert (BI : map (sd A) pb <> map (sd A) nb).
    { intro Q. apply Nb. revert Q. apply map_inj_on. intros (x, o) (y, o') _ _ Q. unfold sd in Q. cbn [fst snd] in Q. apply pair_eq in Q as (Q & ->). f_equal. lia. }
    destruct (ex_faces _ _ _ _ X R1 T1 _ (map (rl_dart t) pa) (map (rl_dart t) na) (map (rl_dart t) (map (sd A) pb)) (map (rl_dart t) (map (sd A) nb)) FP1) as (m1 & m2 & fs' & PF & FP2 & L1 & L2).
    - apply in_map; auto.
    - apply in_map; auto.
    - apply in_map; auto.
    - apply in_map; auto.
    - change (a1, Pos) with (rl_dart t (a, Pos)). apply in_map; auto.
    - change (a1, Neg) with (rl_dart t (a, Neg)). apply in_map; auto.
    - change (b1, Pos) with (rl_dart t (sd A (b, Pos))). apply in_map, in_map; auto.
    - change (b1, Neg) with (rl_dart t (sd A (b, Neg))). apply in_map, in_map; auto.
    - assert (N1 : map (rl_dart t) pa <> map (rl_dart t) na) by (intro Q; apply INJ in Q; auto).
      assert (N2 : map (rl_dart t) pa <> map (rl_dart t) (map (sd A) pb)) by (intro Q; apply INJ in Q; auto; exact (CR pa pb Ipa (or_introl Ja) Ipb Q)).
      assert (N3 : map (rl_dart t) pa <> map (rl_dart t) (map (sd A) nb)) by (intro Q; apply INJ in Q; auto; exact (CR pa nb Ipa (or_introl Ja) Inb Q)).
      assert (N4 : map (rl_dart t) na <> map (rl_dart t) (map (sd A) pb)) by (intro Q; apply INJ in Q; auto; exact (CR na pb Ina (or_intror Ka) Ipb Q)).
      assert (N5 : map (rl_dart t) na <> map (rl_dart t) (map (sd A) nb)) by (intro Q; apply INJ in Q; auto; exact (CR na nb Ina (or_intror Ka) Inb Q)).
      assert (N6 : map (rl_dart t) (map (sd A) pb) <> map (rl_dart t) (map (sd A) nb)) by (intro Q; apply INJ in Q; auto).
      constructor; [intros [Q|[Q|[Q|[]]]]; congruence|]. constructor; [intros [Q|[Q|[]]]; congruence|]. constructor; [intros [Q|[]]; congruence|]. constructor; [intros []|constructor].
    - exists (m1 :: m2 :: fs'). split; auto.
      assert (NN : nedges d1 = nedges A + nedges B) by (rewrite (ex_nedges _ _ _ _ X), (rl_nedges _ _ _ _ _ RL1); apply bs_nedges).
      assert (NX : ncross d1 = ncross A + ncross B) by (rewrite (ex_ncross _ _ _ _ X), (rl_ncross _ _ _ _ _ RL1); apply bs_ncross).
      rewrite Forall_forall in lfA, lfB. pose proof (Permutation_length PF) as PLn. rewrite map_length in PLn. unfold fD in PLn. rewrite app_length, map_length in PLn. cbn [length] in *.
      split; [lia|]. rewrite NN. rewrite !map_length in L1, L2. constructor; [rewrite L1; specialize (lfA na Ina); specialize (lfB nb Inb); lia|].
      constructor; [rewrite L2; specialize (lfA pa Ipa); specialize (lfB pb Ipb); lia|]. apply Forall_forall. intros f Hf.
      assert (I : In f (map (map (rl_dart t)) fD)) by (eapply Permutation_in; [symmetry; exact PF|simpl; auto]). apply in_map_iff in I as (g & <- & Hg). rewrite map_length.
      apply in_app_iff in Hg as [Hg|Hg]; [specialize (lfA g Hg); lia|]. apply in_map_iff in Hg as (h & <- & Hh). rewrite map_length. specialize (lfB h Hh). lia. }
  assert (NN : nedges d1 = nedges A + nedges B) by (rewrite (ex_nedges _ _ _ _ X), (rl_nedges _ _ _ _ _ RL1); apply bs_nedges).
  assert (NX : ncross d1 = ncross A + ncross B) by (rewrite (ex_ncross _ _ _ _ X), (rl_ncross _ _ _ _ _ RL1); apply bs_ncross).
  (* connected *)
  assert (CN1 : connected d1).
  { assert (TR : forall c c', clos_refl_trans nat (joined D) c c' -> clos_refl_trans nat (joined d1) c c').
    { intros c c' K. destruct SM1 as (Q1 & Q2 & Q3). cbn [concat] in Q2, Q3.
      pose proof (Q1 _ (or_introl eq_refl)) as (_ & C1). pose proof (Q1 _ (or_intror (or_introl eq_refl))) as (_ & C2).
      apply (ex_joined _ _ _ _ X R1 T1 _ _ C1 C2).
      - cbn [app] in Q2. inversion Q2 as [|? ? W _]; subst. intro I. apply W. apply in_app_iff; auto.
      - intro I. cbn [app] in Q2. inversion Q2 as [|? ? _ W]; subst. apply in_split in I as (l1 & l2 & EI). rewrite EI in W. rewrite <- app_assoc in W. cbn [app] in W.
        apply NoDup_remove_2 in W. apply W. rewrite !in_app_iff. cbn [In]. tauto.
      - cbn [app] in Q2. inversion Q2 as [|? ? W _]; subst. intro I. apply W. apply in_app_iff; right. cbn [In]. rewrite in_app_iff. auto.
      - cbn [app] in Q2. inversion Q2 as [|? ? _ W]; subst. apply nodup_r in W. cbn [app] in W. inversion W as [|? ? W' _]; subst. intro I. apply W'. apply in_app_iff; auto.
      - intros x Hx. apply Q3. cbn [app In]. rewrite !in_app_iff. cbn [In]. rewrite in_app_iff in Hx. rewrite !in_app_iff. tauto.
      - clear -K RL1. induction K as [x y (e & k & l & S1 & S2)|x|x y z _ IH1 _ IH2]; [|apply rt_refl|eapply rt_trans; eauto].
        apply rt_step. do 3 eexists. split; eapply (rl_slot _ _ _ _ _ RL1); eauto. }
    assert (JA : forall c c', c < ncross A -> c' < ncross A -> clos_refl_trans nat (joined d1) c c') by (intros c c' H1 H2; apply TR, bs_joinedA, cnA; auto).
    assert (JB : forall c c', c < ncross B -> c' < ncross B -> clos_refl_trans nat (joined d1) (ncross A + c) (ncross A + c')) by (intros c c' H1 H2; apply TR, bs_joinedB, cnB; auto).
    assert (JX : exists c c', c < ncross A /\ c' < ncross B /\ joined d1 c (ncross A + c')).
    { exists (e_tail EA), (e_head EB). destruct (proj2 RA a EA HEA) as (_ & S1). destruct (proj2 RB b EB HEB) as (S2 & _). apply slot_lt in S1 as (S1 & _). apply slot_lt in S2 as (S2 & _).
      split; auto. split; auto. destruct (ex_edges _ _ _ _ X _ _ KA KB) as (HE & _). destruct (proj2 R2 _ _ HE) as (S3 & S4). exists a1. do 2 eexists. split; [exact S4|exact S3]. }
    destruct JX as (x & y & Hx & Hy & J).
    intros c c' Hc Hc'. rewrite NX in Hc, Hc'.
    assert (W : forall c, c < ncross A + ncross B -> clos_refl_trans nat (joined d1) c x).
    { intros z Hz. destruct (Nat.lt_ge_cases z (ncross A)) as [Q|Q]; [apply JA; auto|]. replace z with (ncross A + (z - ncross A)) by lia.
      eapply rt_trans; [apply (JB _ y); [lia|auto]|]. apply rt_step. apply joined_sym. exact J. }
    eapply rt_trans; [apply W; auto|]. apply reach_sym, W; auto. }
  assert (SG1 : signed A \/ signed B -> signed d1).
  { intros [(c & s & K & N)|(c & s & K & N)].
    - exists c, s. split; auto. apply (ex_sign _ _ _ _ X). exact (rl_sign _ _ _ _ _ RL1 _ _ (bs_signA A B _ _ K)).
    - exists (ncross A + c), s. split; auto. apply (ex_sign _ _ _ _ X). exact (rl_sign _ _ _ _ _ RL1 _ _ (bs_signB A B _ _ K)). }
  assert (SG2 : unsigned A -> unsigned B -> unsigned d1).
  { intros UA UB c s K. pose proof (sign_lt _ _ _ K) as Q. rewrite NX in Q. destruct (Nat.lt_ge_cases c (ncross A)) as [Hc|Hc].
    - destruct (sign_ex A c Hc) as (s' & K'). pose proof (UA c s' K') as ->. symmetry. eapply sign_fun; [|exact K]. apply (ex_sign _ _ _ _ X). exact (rl_sign _ _ _ _ _ RL1 _ _ (bs_signA A B _ _ K')).
    - destruct (sign_ex B (c - ncross A) ltac:(lia)) as (s' & K'). pose proof (UB _ s' K') as ->. symmetry. eapply sign_fun; [|exact K]. replace c with (ncross A + (c - ncross A)) by lia.
      apply (ex_sign _ _ _ _ X). exact (rl_sign _ _ _ _ _ RL1 _ _ (bs_signB A B _ _ K')). }
  exists d1, M2. split.
  { intros d' E9 OK. unfold pd_connect_sum. rewrite okA, okB. cbn [bind]. destruct (Nat.eqb_spec (ncross A + ncross B) 0); [lia|]. cbn [negb].
    unfold pd_component_and_pos. destruct (Nat.ltb_spec a (nedges A)); [|lia]. destruct (Nat.ltb_spec b (nedges B)); [|lia]. rewrite EC, EF. cbn [bind fst snd].
    unfold get at 1. rewrite HC. cbn [bind]. unfold get at 1. rewrite HF. cbn [bind]. rewrite E1. cbn [bind]. rewrite E2. cbn [bind]. rewrite E3. cbn [bind]. rewrite E4. cbn [bind].
    rewrite (sorted_seq _ _ P). destruct (list_eq_dec Nat.eq_dec (seq 0 (nedges A + nedges B)) (seq 0 (nedges A + nedges B))) as [_|Q]; [|congruence]. cbn [bind].
    rewrite E5. cbn [bind]. rewrite E6. cbn [bind]. unfold get at 1. rewrite (tab_A A B tA tB LA LB a Ha). cbn [bind]. unfold get at 1. rewrite (tab_B A B tA tB LA LB b Hb). cbn [bind].
    fold t. fold a1 b1. unfold get at 1. rewrite KA. cbn [bind]. unfold get at 1. rewrite KB. cbn [bind e_head e_headpos e_tail e_tailpos].
    rewrite E7. cbn [bind]. rewrite E8. cbn [bind]. fold mv. fold d1. rewrite E9. cbn [bind]. rewrite OK. reflexivity. }
  split; auto. split; [rewrite NX; exact MV|]. split; auto. split; auto. split; auto. split; auto. split; auto. split; auto. split; auto.
  split; [lia|]. split; auto. split; auto.
  intros d' s r w RL2.
  (* the pieces *)
  set (p0 := mkPiece A (fun c => c) (fun _ => 0) t). set (q0 := mkPiece B (fun c => ncross A + c) (fun _ => 0) (fun e => t (nedges A + e))).
  assert (PA0 : placed D1 p0).
  { constructor; cbn [p0 pc at_cross at_turn at_edge]; auto.
    - intros c k e S. pose proof (rl_slot _ _ _ _ _ RL1 _ _ _ (bs_slotA A B _ _ _ S)) as Z. rewrite moved0 in Z by apply S. exact Z.
    - intros c s0 S. exact (rl_sign _ _ _ _ _ RL1 _ _ (bs_signA A B _ _ S)).
    - intros e E HE. pose proof (Kes _ _ (bs_edgeA A B _ _ HE)) as Z. destruct E; exact Z.
    - intros e e' H1 H2 Q. apply BJ2; auto; lia.
    - intros c Hc. rewrite (rl_ncross _ _ _ _ _ RL1), bs_ncross. lia. }
  assert (PB0 : placed D1 q0).
  { constructor; cbn [q0 pc at_cross at_turn at_edge]; auto.
    - intros c k e S. pose proof (rl_slot _ _ _ _ _ RL1 _ _ _ (Thm_Split.shift_slot A B _ _ _ S)) as Z. rewrite moved0 in Z by apply S. exact Z.
    - intros c s0 S. exact (rl_sign _ _ _ _ _ RL1 _ _ (bs_signB A B _ _ S)).
    - intros e E HE. exact (Kes _ _ (bs_edgeB A B _ _ HE)).
    - intros; lia.
    - intros e e' H1 H2 Q. apply BJ2 in Q; lia.
    - intros c Hc. rewrite (rl_ncross _ _ _ _ _ RL1), bs_ncross. lia. }
  exists (then_at p0 s r w), (then_at q0 s r w).
  split; [reflexivity|]. split; [reflexivity|].
  assert (NX' : ncross d' = ncross A + ncross B) by (rewrite (rl_ncross _ _ _ _ _ RL2); auto).
  assert (NN' : nedges d' = nedges A + nedges B) by (rewrite (rl_nedges _ _ _ _ _ RL2); auto).
  split.
  { constructor.
    - eapply (part_ok D1 d1); eauto. intros e He Q. cbn [p0 q0 at_edge pc] in *. apply BJ2 in Q; lia.
    - eapply (part_ok D1 d1); eauto; [|apply exchanged_sym; exact X]. intros e He Q. cbn [p0 q0 at_edge pc] in *. apply BJ2 in Q; lia.
    - unfold crossings_of. cbn [then_at p0 q0 pc at_cross]. rewrite NX'. pose proof (bij_perm _ _ (rl_sigma _ _ _ _ _ RL2)) as Z. rewrite NX, seq_app, map_app in Z.
      rewrite <- (map_map (fun c => ncross A + c) s), Thm_Split.map_seq_shift, seq_app. exact Z.
    - unfold edges_of. cbn [then_at p0 q0 pc at_edge]. rewrite NN'. pose proof (bij_perm _ _ (rl_pi _ _ _ _ _ RL2)) as Z. rewrite NN in Z.
      etransitivity; [|exact Z]. rewrite <- (map_map t w), <- (map_map (fun c => t (nedges A + c)) w), <- (map_map (fun c => nedges A + c) t), Thm_Split.map_seq_shift, <- !map_app, <- seq_app.
      apply Permutation_map. apply bij_perm. split; auto. }
  exists i, j, C, F, u, v. split; auto. split; auto. split; auto. split; auto.
  unfold M2. cbn [map then_at p0 q0 pc at_edge app]. f_equal.
  - rewrite map_app. cbn [map]. rewrite !map_map. reflexivity.
  - rewrite !map_app. f_equal; [rewrite map_map; apply map_ext; intro l; rewrite map_map; reflexivity|].
    rewrite !map_map. apply map_ext. intro l. rewrite !map_map. reflexivity.
Qed.

(** each strand is one of the recorded components *)
Lemma recorded_strand : forall d L l, regular d -> strand_partition d L -> In l L -> exists c, In c (p_comp d) /\ rotation l (cp_edge c).
Proof.
  intros d L l Rg SM Hl. pose proof (rg_recorded _ Rg) as R3. pose proof (rg_through _ Rg) as G3.
  pose proof (comps_partition d (rg_comps _ Rg)) as CP. apply strand_cycle in SM; auto. apply strand_cycle in CP; auto.
  apply In_nth_error in Hl as (k & Hl). destruct (match_spec (succ d) (seq 0 (nedges d)) Nat.eq_dec _ _ SM CP k l Hl) as (m & Hm & Rm).
  apply nth_error_In, in_map_iff in Hm as (c & <- & Hc). exists c. auto.
Qed.

(** For planar connected diagrams with crossings, at least one of them with a sign: pd_connect_sum returns the sum, in a
    standard numbering, and it passes all checks. *)
Theorem connect_sum_signed : forall a b, a < nedges A -> b < nedges B -> signed A \/ signed B -> ncomps A + ncomps B <= 65 ->
  exists d p q, pd_connect_sum A a B b = Ok d /\ pc p = A /\ pc q = B /\ sum_of d p a q b /\ summed_comps d p a q b /\
    ncross d = ncross A + ncross B /\ ncomps d = ncomps A + ncomps B - 1 /\
    regular d /\ connected d /\ pd_ok d = Ok true.
Proof.
  intros a b Ha Hb Sg NC. destruct (sum_core a b Ha Hb) as (d1 & M & RUN & NX & MV & R & G & T & SM & LM & PL & CN & FW & SG & _ & ALL).
  pose proof (sd_some _ SA) as nA.
  destruct (regenerate_signed d1 M) as (d' & s & r & w & E9 & RL2 & Rg & Nc & _ & _ & OK); auto.
  { lia. } { apply edges_ok_spec; auto. lia. }
  { unfold MAXCOMPONENTS. pose proof (Nat.div_mod (p_maxv d1) 2 ltac:(lia)) as Q1. pose proof (Nat.mod_upper_bound (p_maxv d1) 2 ltac:(lia)) as Q2. lia. }
  rewrite LM in Nc. specialize (OK ltac:(lia)). destruct (ALL d' s r w RL2) as (p & q & Hp & Hq & S1 & S2).
  exists d', p, q. split; auto. split; auto. split; auto. split; auto. split.
  { exists (map (map w) M). split; auto. split; [rewrite map_length; lia|]. intros l Hl. eapply recorded_strand; eauto.
    exact (relabelled_strand_partition _ _ _ _ _ RL2 R G _ SM). }
  split; [rewrite (rl_ncross _ _ _ _ _ RL2); auto|]. split; auto. split; auto. split; auto.
  exact (DeloopComps.relabelled_connected _ _ _ _ _ RL2 CN).
Qed.

(** For two diagrams without signs nothing determines the directions of the strands: pd_connect_sum returns the sum
    with some of its strands, those of the edges in [F], turned around. *)
Theorem connect_sum_unsigned : forall a b, a < nedges A -> b < nedges B -> unsigned A -> unsigned B -> ncomps A + ncomps B <= 65 ->
  exists d F p q, pd_connect_sum A a B b = Ok d /\ pc p = A /\ pc q = B /\
    sum_of (rev_pd d F none_turned) p a q b /\ (forall e e', continues d e e' -> F e = F e') /\ summed_turned d p a q b /\
    ncross d = ncross A + ncross B /\ ncomps d = ncomps A + ncomps B - 1 /\
    regular d /\ connected d /\ unsigned d /\ pd_ok d = Ok true.
Proof.
  intros a b Ha Hb UA UB NC. destruct (sum_core a b Ha Hb) as (d1 & M & RUN & NX & MV & R & G & T & SM & LM & PL & CN & FW & _ & SG & ALL).
  pose proof (sd_some _ SA) as nA.
  destruct (regenerate_unsigned_planar d1 M) as (d' & F & s & r & w & E9 & K & RL2 & Rg & U' & Nc & _ & _ & OK); auto; [lia|].
  rewrite LM in Nc. specialize (OK ltac:(lia)).
  pose proof (rev_ends_recorded d1 F none_turned R) as R0. pose proof (rev_goes_through d1 F none_turned R G K) as G0.
  destruct (turned_back d1 d' s r w F R RL2) as (F' & RLB & HF).
  destruct (ALL _ s r w RLB) as (p & q & Hp & Hq & S1 & S2).
  exists d', F', p, q. split; auto. split; auto. split; auto. split; auto. split.
  { apply turned_strands; try apply Rg. exact (rl_goes_through _ _ _ _ _ RLB R G). }
  split.
  { exists (map (map w) M). split; auto. split; [rewrite map_length; lia|]. intros l Hl. apply in_map_iff in Hl as (m & <- & Hm).
    pose proof (rev_strands d1 F R K none_turned M SM) as Z.
    pose proof (relabelled_strand_partition _ _ _ _ _ RL2 R0 G0 _ Z) as Z2.
    destruct (recorded_strand d' _ (map w (if F (List.hd 0 m) then rev m else m)) Rg Z2) as (c & Hc & Rc).
    { apply in_map. apply in_map_iff. exists m. auto. }
    exists c. split; auto. destruct (F (List.hd 0 m)); auto. right. rewrite <- map_rev. exact Rc. }
  split; [rewrite (rl_ncross _ _ _ _ _ RL2), rev_ncross; auto|]. split; auto. split; auto. split; [|auto].
  exact (DeloopComps.relabelled_connected _ _ _ _ _ RL2 (rev_connected _ _ _ CN)).
Qed.
End Sum.
Print Assumptions connect_sum_signed.
Print Assumptions connect_sum_unsigned.

Example summand_trefoil : summand trefoil.
Proof.
  destruct trefoil_sphere as (_ & T & FP & NF & CN & _). constructor; auto; [cbn; lia| |].
  - intros c [<-|[]]. discriminate.
  - exists (p_face trefoil). split; auto. split; auto. repeat constructor; cbn; lia.
Qed.
Example summand_hopf : summand hopf.
Proof.
  destruct hopf_sphere as (_ & FP & NF & CN & _). destruct Thm_OverUnder.hopf_hyps as (_ & _ & T & _). constructor; auto; [cbn; lia| |].
  - intros c [<-|[<-|[]]]; discriminate.
  - exists (p_face hopf). split; auto. split; auto. repeat constructor; cbn; lia.
Qed.
(** the trefoil and the two-component link of two crossings *)
Example trefoil_hopf : signed trefoil /\ exists d, pd_connect_sum trefoil 2 hopf 1 = Ok d /\ ncross d = 5 /\ nedges d = 10 /\ ncomps d = 2 /\ nfaces d = 7.
Proof.
  split; [exists 0, Pos; split; [eexists; split; reflexivity|discriminate]|]. eexists. split; [vm_compute; reflexivity|]. repeat split.
Qed.

(** the shadows of the trefoil and of that link *)
Example unsigned_summands : summand (drop_signs trefoil) /\ summand (drop_signs hopf) /\ unsigned (drop_signs trefoil) /\ unsigned (drop_signs hopf) /\
  exists d, pd_connect_sum (drop_signs trefoil) 2 (drop_signs hopf) 1 = Ok d /\ ncross d = 5 /\ ncomps d = 2.
Proof.
  assert (K : forall d, summand d -> pd_ok (drop_signs d) = Ok true -> summand (drop_signs d) /\ unsigned (drop_signs d)).
  { intros d [H1 H2 H3 H4 (fs & FP & NF & LF) H6] OK.
    assert (SL : forall c p e, slot (drop_signs d) c p e <-> slot d c p e).
    { intros c p e. unfold slot. cbn [drop_signs with_cross p_cross]. rewrite nth_error_map. split; intros (Hp & x & Hx & Hc); split; auto.
      - destruct (nth_error (p_cross d) c) as [y|] eqn:Y; cbn [option_map] in Hx; [|discriminate]. exists y. split; auto. injection Hx as Hx. subst x. destruct y as [? ? ? ? ?]. destruct p as [|[|[|[|p]]]]; auto.
      - rewrite Hx. cbn [option_map]. eexists. split; [reflexivity|]. destruct x as [? ? ? ? ?]. destruct p as [|[|[|[|p]]]]; auto. }
    assert (NX : ncross (drop_signs d) = ncross d) by apply map_length.
    split.
    - constructor; auto; try (rewrite NX; auto).
      + exists fs. split; [|split; auto; rewrite NX; auto]. exact FP.
      + intros c c' Hc Hc'. rewrite NX in Hc, Hc'. specialize (H6 c c' Hc Hc'). clear Hc Hc'. induction H6 as [x y (e & p & q & S1 & S2)|x|x y z _ IH1 _ IH2]; [|apply rt_refl|eapply rt_trans; eauto].
        apply rt_step. exists e, p, q. split; apply SL; auto.
    - intros c s (x & Hx & <-). cbn [drop_signs with_cross p_cross] in Hx. rewrite nth_error_map in Hx. destruct (nth_error (p_cross d) c); [|discriminate]. injection Hx as <-. reflexivity. }
  destruct (K trefoil summand_trefoil eq_refl). destruct (K hopf summand_hopf eq_refl).
  split; auto. split; auto. split; auto. split; auto. eexists. split; [vm_compute; reflexivity|]. repeat split.
Qed.

(** With the unknot without crossings, an accepted diagram, the array of new crossing numbers has no entries and is
    read outside its bounds; for two such unknots an assertion fails. *)
Theorem connect_sum_unknot_refuted : pd_ok unknot0 = Ok true /\ pd_ok trefoil = Ok true /\
  pd_connect_sum trefoil 2 unknot0 0 = UB /\ pd_connect_sum unknot0 0 trefoil 2 = UB /\ pd_connect_sum unknot0 0 unknot0 0 = Fail.
Proof. repeat split; vm_compute; reflexivity. Qed.
Print Assumptions connect_sum_unknot_refuted.
