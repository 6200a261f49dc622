(** C61: removing the two crossings of a bigon by the second Reidemeister move. *)
From Coq Require Import List ZArith Lia Bool Arith Permutation Relations.
From Verif Require Import Base Iterators ListAux Pd PdSpec PdProofs Relabel PdCross PdEdges PdComps PdFaces PdRegen PdExamples Planar RegenSpec Thm_Pd Thm_Faces
  DeloopSpec Thm_LoopDel OverUnder OverUnderSpec OverUnderProofs RemoveSpec Bigon BigonSpec BigonCase.
Import ListNotations.
Open Scope nat_scope.

(** of two neighbouring places at a crossing one is above *)
Lemma one_is_above : forall d c p, ends_recorded d -> goes_through d -> two_ended d -> c < ncross d -> p < 4 -> over_at d c p \/ over_at d c ((p + 3) mod 4).
Proof.
  intros d c p R G T Hc Hp. destruct (nth_error (p_cross d) c) as [x|] eqn:X; [|apply nth_error_None in X; unfold ncross in Hc; lia].
  destruct (internal_spec d R G T c x X) as (oi & oo & ui & uo & _ & O). pose proof (over_under_range d R _ _ _ _ _ _ O) as (L1 & _).
  assert (SA : sign_at d c (csign x)) by (exists x; auto).
  pose proof O as (_ & _ & _ & _ & E & _). subst oo.
  assert (Q : (p = oi \/ p = (oi + 2) mod 4) \/ ((p + 3) mod 4 = oi \/ (p + 3) mod 4 = (oi + 2) mod 4)).
  { destruct p as [|[|[|[|?]]]], oi as [|[|[|[|?]]]]; cbn; lia. }
  destruct Q as [Q|Q]; [left|right]; exists (csign x), oi, ((oi + 2) mod 4), ui, uo; auto.
Qed.

(** ** the move *)
(** Suppose that a face of [d] has two sides, whose strands cross each other twice.  If one of the strands lies above
    the other at both crossings, or both crossings are unsigned, and the two outer corners of the bigon lie on
    different faces, then the move yields one diagram, which is [d] without the two crossings: every strand runs
    as before, every component keeps its tag and its remaining edges in order, and the diagram is accepted. *)
Theorem bigon_removal : forall d x y u p v q c0 c1,
  workable d -> 2 < ncross d -> pd_ok d = Ok true -> bigon d x y u p v q ->
  (forall f, In f (p_face d) -> arrives_at d f u ((p + 2) mod 4) -> arrives_at d f v ((q + 2) mod 4) -> False) ->
  (sign_at d u Unset /\ sign_at d v Unset) \/ one_above d u p v q ->
  (c0, c1) = (u, v) \/ (c0, c1) = (v, u) ->
  exists d' kc rho ke, pd_R2_bigon_elimination d c0 c1 = Ok [d'] /\
    crossings_removed d d' [u; v] kc rho ke /\ workable d' /\
    Permutation (p_comp d') (map (fun k => mkComp (map ke (filter (survives d [u; v]) (cp_edge k))) (cp_tag k)) (p_comp d)) /\
    crossings_canonical d' /\ pd_ok d' = Ok true /\ p_maxv d' = p_maxv d.
Proof.
  intros d x y u p v q c0 c1 W N2 OK BG OC SG CC.
  assert (BG' : bigon d y x v q u p) by (destruct BG as ([A|A] & B & C & D); repeat split; auto).
  destruct (bigon_found d W N2 x y u p v q BG OC) as (s & _ & S1 & S2 & S3 & (F1 & F2 & EF & NF) & d1 & kc1 & rho1 & ke1 & J1 & CR1 & K1).
  destruct (bigon_found d W N2 y x v q u p BG' ltac:(intros f I A B; eapply OC; eauto)) as (t & _ & T1 & T2 & T3 & (G1 & G2 & EG & NG) & d2 & kc2 & rho2 & ke2 & J2 & CR2 & K2).
  assert (Lu : u < ncross d /\ p < 4 /\ v < ncross d /\ q < 4) by (eapply bg_lt; eauto).
  destruct Lu as (Lu & Lp & Lv & Lq).
  assert (Hu : exists X, nth_error (p_cross d) u = Some X).
  { destruct (nth_error (p_cross d) u) eqn:Q; eauto. apply nth_error_None in Q. unfold ncross in Lu. lia. }
  assert (Hv : exists X, nth_error (p_cross d) v = Some X).
  { destruct (nth_error (p_cross d) v) eqn:Q; eauto. apply nth_error_None in Q. unfold ncross in Lv. lia. }
  destruct Hu as (X & HX), Hv as (Y & HY).
  pose proof W as [_ _ R G T _ _ _ _ _ _].
  assert (FS : bigon_strands d c0 c1 = Ok s \/ bigon_strands d c0 c1 = Ok t).
  { assert (SH : shadow_strands d c0 c1 = Ok s \/ shadow_strands d c0 c1 = Ok t).
    { destruct CC as [E|E]; apply pair_equal_spec in E as (-> & ->).
      - destruct (one_is_above d u p R G T Lu Lp); auto.
      - destruct (one_is_above d v q R G T Lv Lq); auto. }
    assert (SI : sign_at d u Unset /\ sign_at d v Unset \/ signed_strands d c0 c1 = Ok s \/ signed_strands d c0 c1 = Ok t).
    { destruct SG as [SG|[(A & B)|(A & B)]]; auto; right.
      - destruct (S1 A B). destruct CC as [E|E]; apply pair_equal_spec in E as (-> & ->); auto.
      - destruct (T1 B A). destruct CC as [E|E]; apply pair_equal_spec in E as (-> & ->); auto. }
    unfold bigon_strands. destruct CC as [E|E]; apply pair_equal_spec in E as (-> & ->);
      rewrite (proj2 (get_ok _ _ _ _) HX), (proj2 (get_ok _ _ _ _) HY); cbn [bind]; destruct (orient_eqb (csign X) Unset) eqn:Q1, (orient_eqb (csign Y) Unset) eqn:Q2; cbn [andb]; auto;
      destruct SI as [((X' & HX' & E1) & (Y' & HY' & E2))|SI]; auto; exfalso; rewrite HX in HX'; rewrite HY in HY'; injection HX' as <-; injection HY' as <-; rewrite ?E1, ?E2 in *; discriminate. }
  unfold pd_R2_bigon_elimination. rewrite OK. cbn [bind].
  destruct (Nat.eqb_spec (ncross d) 2) as [Q|_]; [lia|]. cbn [andb].
  destruct FS as [FS|FS]; rewrite FS; cbn [bind].
  - rewrite EF. cbn [bind fst snd]. destruct (Nat.eqb_spec F1 F2); [congruence|]. exists d1, kc1, rho1, ke1. auto.
  - rewrite EG. cbn [bind fst snd]. destruct (Nat.eqb_spec G1 G2); [congruence|]. exists d2, kc2, rho2, ke2. split; auto.
    split; [eapply removed_perm; [apply perm_swap|auto]|]. destruct K2 as (K & PM & K'). split; auto. split; auto.
    etransitivity; [exact PM|]. erewrite map_ext; [apply Permutation_refl|]. intro k. cbv beta. do 2 f_equal. apply filter_ext. intro e.
    unfold survives. destruct (nth_error (p_edge d) e) as [E|]; auto.
    destruct (in_dec Nat.eq_dec (e_tail E) [v; u]) as [I|I], (in_dec Nat.eq_dec (e_tail E) [u; v]) as [I'|I']; auto; exfalso; cbn [In] in *; tauto.
Qed.
Print Assumptions bigon_removal.

(** A clasp stays: if each of the two strands lies above the other at one crossing, the program stops with an error. *)
Theorem bigon_clasp : forall d x y u p v q c0 c1,
  workable d -> 2 < ncross d -> pd_ok d = Ok true -> bigon d x y u p v q ->
  (forall f, In f (p_face d) -> arrives_at d f u ((p + 2) mod 4) -> arrives_at d f v ((q + 2) mod 4) -> False) ->
  ~ (sign_at d u Unset /\ sign_at d v Unset) -> ~ one_above d u p v q ->
  (c0, c1) = (u, v) \/ (c0, c1) = (v, u) ->
  pd_R2_bigon_elimination d c0 c1 = Fail.
Proof.
  intros d x y u p v q c0 c1 W N2 OK BG OC SG NA CC.
  assert (BG' : bigon d y x v q u p) by (destruct BG as ([A|A] & B & C & D); repeat split; auto).
  destruct (bigon_found d W N2 x y u p v q BG OC) as (w0 & S0 & _).
  assert (Lu : u < ncross d /\ p < 4 /\ v < ncross d /\ q < 4) by (eapply bg_lt; eauto).
  destruct Lu as (Lu & Lp & Lv & Lq).
  assert (Hu : exists X, nth_error (p_cross d) u = Some X).
  { destruct (nth_error (p_cross d) u) eqn:Q; eauto. apply nth_error_None in Q. unfold ncross in Lu. lia. }
  assert (Hv : exists X, nth_error (p_cross d) v = Some X).
  { destruct (nth_error (p_cross d) v) eqn:Q; eauto. apply nth_error_None in Q. unfold ncross in Lv. lia. }
  destruct Hu as (X & HX), Hv as (Y & HY).
  pose proof W as [_ _ R G T _ _ _ _ _ _].
  assert (FS : bigon_strands d c0 c1 = Fail).
  { assert (SI : signed_strands d u v = Fail /\ signed_strands d v u = Fail).
    { unfold one_above in NA. destruct (one_is_above d u p R G T Lu Lp) as [A|A], (one_is_above d v q R G T Lv Lq) as [B|B]; tauto. }

    unfold bigon_strands. destruct CC as [E|E]; apply pair_equal_spec in E as (-> & ->);
      rewrite (proj2 (get_ok _ _ _ _) HX), (proj2 (get_ok _ _ _ _) HY); cbn [bind]; destruct (orient_eqb (csign X) Unset) eqn:Q1, (orient_eqb (csign Y) Unset) eqn:Q2; cbn [andb]; try tauto;
      exfalso; apply SG; split; eexists; split; eauto; destruct (csign X), (csign Y); try discriminate; auto. }
  unfold pd_R2_bigon_elimination. rewrite OK. cbn [bind]. rewrite FS. reflexivity.
Qed.
Print Assumptions bigon_clasp.

(** ** concrete cases: a trefoil diagram with one crossing changed, the trefoil itself and its shadow *)
Definition three (s0 s1 s2 : orient) : pd := mkPd 3 0 [32]
  [mkEdge 1 0 0 0; mkEdge 2 0 1 2; mkEdge 0 1 2 2; mkEdge 1 1 0 3; mkEdge 2 3 1 3; mkEdge 0 2 2 1]
  [mkCross 0 2 5 3 s0; mkCross 0 3 1 4 s1; mkCross 1 5 2 4 s2]
  [mkComp [0; 1; 2; 3; 4; 5] 65%Z]
  [[(0, Pos); (4, Pos); (2, Pos)]; [(1, Neg); (3, Neg); (5, Neg)]; [(0, Neg); (3, Pos)]; [(1, Pos); (4, Neg)]; [(2, Neg); (5, Pos)]].
Example three_workable : forall s0 s1 s2, workable (three s0 s1 s2).
Proof.
  intros s0 s1 s2. assert (T : two_ended (three s0 s1 s2)).
  { intros e E HE. unfold edge_at in HE. do 6 (destruct e as [|e]; [injection HE as <-; discriminate|]). destruct e; discriminate. }
  assert (EO : pd_edges_ok (three s0 s1 s2) = Ok true) by reflexivity.
  apply accepted_workable; auto; try (cbn; lia).
  - intros c [<-|[]]. discriminate.
  - repeat constructor.
  - destruct (regenerate_faces_correct (three s0 s1 s2) ltac:(cbn; lia) EO T) as [K|(d' & K & _ & FP & _)]; vm_compute in K; [discriminate|].
    injection K as <-. exact FP.
  - assert (J : forall u v, joined (three s0 s1 s2) u v -> clos_refl_trans nat (joined (three s0 s1 s2)) u v /\ clos_refl_trans nat (joined (three s0 s1 s2)) v u).
    { intros u v (e & p & q & A & B). split; apply rt_step; [exists e, p, q|exists e, q, p]; auto. }
    assert (J01 : joined (three s0 s1 s2) 0 1) by (exists 0, 0, 0; split; (split; [lia|eexists; split; reflexivity])).
    assert (J02 : joined (three s0 s1 s2) 0 2) by (exists 2, 1, 2; split; (split; [lia|eexists; split; reflexivity])).
    assert (A : forall v, v < 3 -> clos_refl_trans nat (joined (three s0 s1 s2)) 0 v /\ clos_refl_trans nat (joined (three s0 s1 s2)) v 0).
    { intros v Hv. destruct v as [|[|[|v]]]; [split; apply rt_refl|apply J; auto|apply J; auto|lia]. }
    intros u v Hu Hv. destruct (A u Hu) as (_ & A1). destruct (A v Hv) as (A2 & _). eapply rt_trans; eauto.
Qed.
Example three_bigon : forall s0 s1 s2, bigon (three s0 s1 s2) (0, Neg) (3, Pos) 0 0 1 1.
Proof.
  intros s0 s1 s2. split; [left; cbn [three p_face In]; auto|]. split; [|split; [|lia]].
  - eexists. split; [reflexivity|]. right. auto.
  - eexists. split; [reflexivity|]. left. auto.
Qed.
Example three_corners : forall s0 s1 s2 f, In f (p_face (three s0 s1 s2)) ->
  arrives_at (three s0 s1 s2) f 0 2 -> arrives_at (three s0 s1 s2) f 1 3 -> False.
Proof.
  intros s0 s1 s2 f If (a & Ia & E & HE & Ka) (b & Ib & F & HF & Kb). cbn [three p_face In] in If.
  decompose [or] If; try contradiction; subst f; cbn [In] in Ia, Ib;
    repeat (destruct Ia as [<-|Ia] || destruct Ib as [<-|Ib] || contradiction); injection HE as <-; injection HF as <-;
    destruct Ka as [(Q1 & Q2)|(Q1 & Q2)], Kb as [(Q3 & Q4)|(Q3 & Q4)]; discriminate.
Qed.
Ltac edge_there := first [exists 0; eexists; split; reflexivity|exists 1; eexists; split; reflexivity|exists 2; eexists; split; reflexivity
  |exists 3; eexists; split; reflexivity|exists 4; eexists; split; reflexivity|exists 5; eexists; split; reflexivity].
Example three_above : forall s2, one_above (three Neg Pos s2) 0 0 1 1.
Proof.
  intro s2. left. split.
  - exists Neg, 2, 0, 1, 3. split; [eexists; split; reflexivity|]. split; auto. repeat split; edge_there.
  - exists Pos, 0, 2, 1, 3. split; [eexists; split; reflexivity|]. split; auto. repeat split; edge_there.
Qed.
(** the result has one crossing *)
Example three_removed : exists d', pd_R2_bigon_elimination (three Neg Pos Pos) 0 1 = Ok [d'] /\ ncross d' = 1 /\ map cp_tag (p_comp d') = [65%Z].
Proof. eexists. split; [vm_compute; reflexivity|]. split; reflexivity. Qed.
Example shadow_removed : exists d', pd_R2_bigon_elimination (three Unset Unset Unset) 1 0 = Ok [d'] /\ ncross d' = 1 /\ map cp_tag (p_comp d') = [65%Z].
Proof. eexists. split; [vm_compute; reflexivity|]. split; reflexivity. Qed.
Example trefoil_clasp : pd_R2_bigon_elimination (three Pos Pos Pos) 0 1 = Fail.
Proof. reflexivity. Qed.
Example three_clasp : ~ (sign_at (three Pos Pos Pos) 0 Unset /\ sign_at (three Pos Pos Pos) 1 Unset) /\ ~ one_above (three Pos Pos Pos) 0 0 1 1.
Proof.
  split; [intros ((x & Hx & E) & _); injection Hx as <-; discriminate|]. intro O.
  destruct (three_workable Pos Pos Pos) as [_ _ R G T _ _ _ _ _ _].
  assert (U : forall c s oi oo ui uo, over_under (three Pos Pos Pos) c s oi oo ui uo -> forall p, over_at (three Pos Pos Pos) c p -> sign_at (three Pos Pos Pos) c s -> p = oi \/ p = oo).
  { intros c s oi oo ui uo H p (s' & oi' & oo' & ui' & uo' & (X & HX & <-) & H' & K) (X' & HX' & <-). rewrite HX in HX'. injection HX' as <-.
    destruct (overunder_unique _ R T _ _ _ _ _ _ _ _ _ _ H H') as (-> & -> & _). exact K. }
  assert (A0 : over_under (three Pos Pos Pos) 0 Pos 1 3 2 0) by (repeat split; edge_there).
  assert (A1 : over_under (three Pos Pos Pos) 1 Pos 0 2 1 3) by (repeat split; edge_there).
  destruct O as [(O1 & O2)|(O1 & O2)].
  - destruct (U _ _ _ _ _ _ A0 _ O1); [exists (mkCross 0 2 5 3 Pos); auto|discriminate|discriminate].
  - destruct (U _ _ _ _ _ _ A1 _ O2); [exists (mkCross 0 3 1 4 Pos); auto|discriminate|discriminate].
Qed.
