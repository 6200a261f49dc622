(** C24, C28, C29 and C37: applying edge maps, reversing and renumbering components. *)
From Coq Require Import List ZArith Lia Bool Arith Permutation Sorted.
From Verif Require Import Base Iterators Sorting Orbits Cycles CycleMatch Pd PdSpec PdProofs Relabel RelabelProofs RelabelSym
  Strands SlotCount PdCross PdCrossProofs PdComps PdCompsProofs PdFaces PdFacesProofs PdHash HashSpec HashProofs HashIso
  Perm PermProofs PdRegen RegenSpec RegenProofs Thm_Pd Thm_Perm Thm_Cross Thm_Comps Thm_Faces Thm_Regen OverUnder OverUnderSpec OverUnderProofs LinkProofs
  PdIso IsoSpec IsoOpsProofs PdOps Carry CarryProofs ApplyProofs ReorientProofs Thm_OverUnder PdExamples.
Import ListNotations.
Open Scope nat_scope.

(** * Applying an edge map *)

(** Edge [e] of the result is edge [source m e] of the diagram, reversed if [turns m e]; crossings
    are renumbered and turned, signs stay; the result is again complete and in order. *)
Theorem apply_edgemap : forall d m, tidy d -> good_edgemap (nedges d) m -> follows_strands d m ->
  exists d' sigma rho pi F, pd_apply_edgemap d m = Ok d' /\
    carried d d' sigma rho pi F (fun _ => false) /\
    (forall e, e < nedges d -> pi (source m e) = e /\ F (source m e) = turns m e) /\
    tidy d' /\ p_comp d' = p_comp d /\ p_maxv d' = p_maxv d /\ p_uid d' = p_uid d.
Proof.
  intros d m TD GM FS. pose proof (td_regular d TD) as [R Th T CA NA TG FP NF LO SO].
  pose proof (numbered_strands d NA) as P.
  destruct (apply_ok d R Th T P m GM FS (td_some d TD) (tidy_darts d TD) (td_room d TD) (tidy_planar d TD) NA TG)
    as (d' & s & r & E & CR & TD' & K).
  exists d', s, r, (target d m), (flips d m). split; auto. split; auto. split; auto.
  intros e He. split; [apply target_source; auto|]. unfold flips. rewrite target_source; auto.
Qed.

Lemma apply_again : forall d d' m s r pi F, tidy d -> tidy d' -> p_comp d' = p_comp d -> nedges d' = nedges d ->
  carried d d' s r pi F (fun _ => false) -> follows_strands d m -> follows_strands d' m.
Proof.
  intros d d' m s r pi F TD TD' EC EN CR FS.
  pose proof (td_regular d TD) as [R Th T CA NA _ _ _ _ _]. pose proof (td_regular d' TD') as [R' Th' T' CA' NA' _ _ _ _ _].
  assert (Q : forall a b, continues d a b <-> continues d' a b).
  { assert (X : forall d d', ends_recorded d -> goes_through d -> ends_recorded d' -> goes_through d' ->
      numbered_along d -> numbered_along d' -> p_comp d' = p_comp d -> nedges d' = nedges d -> forall a b, continues d a b -> continues d' a b).
    { clear. intros d d' R Th R' Th' NA NA' EC EN a b Cab.
      assert (Ha : a < nedges d) by (apply continues_succ in Cab; tauto).
      destruct NA as (A1 & A2 & _), NA' as (B1 & B2 & _).
      assert (In a (concat (map cp_edge (p_comp d)))) by (rewrite A1; apply in_seq; lia).
      apply in_concat in H as (l & Hl & Ia). apply in_map_iff in Hl as (C & <- & HC).
      destruct (A2 C HC) as (_ & C1). rewrite EC in B2. destruct (B2 C HC) as (_ & C2).
      apply In_nth_error in Ia as (i & Hi). assert (Li : i < length (cp_edge C)) by (apply nth_error_Some; congruence).
      assert (Lm : (i + 1) mod length (cp_edge C) < length (cp_edge C)) by (apply Nat.mod_upper_bound; lia).
      destruct (nth_error (cp_edge C) ((i + 1) mod length (cp_edge C))) as [b'|] eqn:Hb; [|apply nth_error_None in Hb; lia].
      pose proof (C1 i a b' Hi Hb) as K1. pose proof (C2 i a b' Hi Hb) as K2.
      apply continues_succ in K1 as (_ & ->); auto. apply continues_succ in Cab as (_ & ->); auto. }
    intros a b. split; [apply (X d d')|apply (X d' d)]; auto. }
  intros a b Cab. apply Q in Cab. destruct (FS a b Cab) as (E1 & E2). split; auto.
  destruct (turns m a); apply Q; auto.
Qed.

Lemma times_neg : forall a b, sign_like a -> sign_like b ->
  orient_eqb (times a b) Neg = xorb (orient_eqb a Neg) (orient_eqb b Neg).
Proof. intros a b [->| ->] [->| ->]; reflexivity. Qed.

(** Applying two edge maps in turn is applying their composition. *)
Theorem apply_composed : forall d A B, tidy d -> crossings_differ d ->
  good_edgemap (nedges d) A -> good_edgemap (nedges d) B -> follows_strands d A -> follows_strands d B ->
  exists AB d1 d2, pd_compose_edgemaps A B = Ok AB /\
    pd_apply_edgemap d A = Ok d1 /\ pd_apply_edgemap d1 B = Ok d2 /\ pd_apply_edgemap d AB = Ok d2.
Proof.
  intros d A B TD DF GA GB FA FB. pose proof (td_regular d TD) as [R Th T CA NA _ _ _ _ _].
  destruct (apply_edgemap d A TD GA FA) as (d1 & s1 & r1 & q1 & F1 & E1 & CR1 & K1 & TD1 & C1 & M1 & U1).
  pose proof (ca_nedges _ _ _ _ _ _ _ CR1) as N1.
  destruct (apply_edgemap d1 B TD1 ltac:(rewrite N1; auto) (apply_again _ _ _ _ _ _ _ TD TD1 C1 N1 CR1 FB))
    as (d2 & s2 & r2 & q2 & F2 & E2 & CR2 & K2 & TD2 & C2 & M2 & U2).
  destruct (compose_edgemaps_ok (nedges d) A B GA GB) as (EC & GC). set (AB := emul (nedges d) A B) in *.
  assert (SB : forall e, e < nedges d -> source B e < nedges d) by (intros; eapply source_lt; eauto).
  assert (SC : forall e, e < nedges d -> source AB e = source A (source B e)) by (intros; apply emul_perm; auto).
  assert (TC : forall e, e < nedges d -> turns AB e = xorb (turns B e) (turns A (source B e))).
  { intros e He. unfold turns, AB. rewrite emul_or by auto. apply times_neg; [apply (or_at (nedges d)); auto|]. apply (or_at (nedges d)); auto. }
  assert (FC : follows_strands d AB).
  { intros a b Cab. pose proof Cab as (X & Y & HX & HY & _). apply edge_at_lt in HX, HY.
    destruct (FB a b Cab) as (P1 & P2). rewrite !TC, !SC by auto. destruct (turns B a) eqn:Ta.
    - destruct (FA _ _ P2) as (P3 & P4). rewrite <- P1, P3. split; auto. rewrite <- P3. destruct (turns A (source B b)) eqn:Tb; auto.
    - destruct (FA _ _ P2) as (P3 & P4). rewrite <- P1, P3. split; auto. rewrite <- P3. destruct (turns A (source B a)) eqn:Tb; auto. }
  destruct (apply_edgemap d AB TD GC FC) as (d3 & s3 & r3 & q3 & F3 & E3 & CR3 & K3 & TD3 & C3 & M3 & U3).
  exists AB, d1, d2. split; auto. split; auto. split; auto. rewrite E3. f_equal.
  pose proof (carried_trans _ _ _ _ _ _ _ _ _ _ _ _ _ R CR1 CR2) as CR12.
  rewrite N1 in K2.
  destruct (carried_same_target _ _ _ _ _ _ _ _ _ _ _ _ _ R T CR12 CR3) as (X1 & X2); auto.
  - intros e He. cbv beta.
    assert (Sx : exists x, x < nedges d /\ source A x = e).
    { exists (inv_on (nedges d) (source A) e). apply inv_spec; auto. apply source_bij; auto. }
    destruct Sx as (x & Hx & <-). destruct (K1 x Hx) as (-> & ->).
    assert (Sy : exists y, y < nedges d /\ source B y = x).
    { exists (inv_on (nedges d) (source B) x). apply inv_spec; auto. apply source_bij; auto. }
    destruct Sy as (y & Hy & <-). destruct (K2 y Hy) as (-> & ->).
    destruct (K3 y Hy) as (K3a & K3b). rewrite SC in K3a, K3b by auto. rewrite K3a, K3b, TC by auto. split; auto. apply xorb_comm.
  - apply TD2.
  - apply TD3.
  - apply tidy_unique; auto; congruence.
Qed.

(** The identity map changes nothing. *)
Theorem apply_identity : forall d, tidy d -> crossings_differ d -> pd_apply_edgemap d (pd_new_edgemap (nedges d)) = Ok d.
Proof.
  intros d TD DF. pose proof (td_regular d TD) as [R Th T CA NA _ _ _ _ _]. set (m := pd_new_edgemap (nedges d)).
  assert (S : forall e, e < nedges d -> source m e = e) by (intros; unfold source, m; cbn; apply seq_nth; auto).
  assert (W : forall e, e < nedges d -> turns m e = false) by (intros; unfold turns, m; cbn [pd_new_edgemap em_or]; rewrite nth_repeat; auto).
  destruct (apply_edgemap d m TD (new_edgemap_good _)) as (d1 & s1 & r1 & q1 & F1 & E1 & CR1 & K1 & TD1 & C1 & M1 & U1).
  - intros a b Cab. pose proof Cab as (X & Y & HX & HY & _). apply edge_at_lt in HX, HY. rewrite !W, !S by auto. auto.
  - rewrite E1. f_equal.
    destruct (carried_same_target _ _ _ _ _ _ _ _ _ _ _ _ _ R T (carried_refl d R) CR1) as (X1 & X2); auto.
    + intros e He. destruct (K1 e He) as (A & B). rewrite S in A, B by auto. rewrite A, B, W by auto. auto.
    + apply TD1.
    + symmetry. apply tidy_unique; auto.
Qed.

(** * Reversing a component *)
Definition mixes (d : pd) (cmp c : nat) : Prop :=
  (exists p e, slot d c p e /\ on_comp d e cmp) /\ (exists p e, slot d c p e /\ ~ on_comp d e cmp).

(** The numbers of the component's edges are read backwards, starting from the same edge; exactly
    these edges are reversed; exactly the signs of the crossings between this component and others
    change; nothing else happens. *)
Theorem reorient_component : forall d cmp C, tidy d -> nth_error (p_comp d) cmp = Some C ->
  exists d' sigma rho pi F G, pd_reorient_component d cmp Neg = Ok d' /\
    carried d d' sigma rho pi F G /\
    (forall i e, nth_error (cp_edge C) i = Some e ->
       nth_error (cp_edge C) ((length (cp_edge C) - i) mod length (cp_edge C)) = Some (pi e)) /\
    (forall e, ~ on_comp d e cmp -> pi e = e) /\
    (forall e, F e = true <-> on_comp d e cmp) /\
    (forall c, c < ncross d -> (G c = true <-> mixes d cmp c)) /\
    tidy d' /\ p_comp d' = p_comp d /\ p_maxv d' = p_maxv d /\ p_uid d' = p_uid d.
Proof.
  intros d cmp C TD HC. destruct (block_of d TD cmp C HC) as (f & EC & Hk & Hf).
  destruct (reorient_ok d TD cmp C HC f EC Hk Hf) as (d' & s & r & E & CR & TD' & K).
  pose proof (td_regular d TD) as [R Th T CA NA _ _ _ _ _].
  pose proof (on_block d cmp C HC f _ EC Hk Hf) as OB.
  exists d', s, r, (moved_no f (length (cp_edge C)) (back C)), (inb f (length (cp_edge C))), (mixed d C).
  split; auto. split; auto. split; [|split; [|split; [|split]]]; auto.
  - intros i e Hi. assert (Li : i < length (cp_edge C)) by (apply nth_error_Some; congruence).
    assert (Ei : e = f + i).
    { rewrite EC in Hi. rewrite nth_error_nth' with (d := 0) in Hi by (rewrite seq_length; auto). rewrite seq_nth in Hi by auto. congruence. }
    set (k := length (cp_edge C)) in *. assert (Lj : (k - i) mod k < k) by (apply Nat.mod_upper_bound; lia).
    rewrite nth_error_nth' with (d := 0) by auto. f_equal. rewrite EC. rewrite seq_nth by auto.
    unfold moved_no. rewrite (proj2 (inb_spec f k e)) by lia. unfold back. fold k. f_equal. f_equal. lia.
  - intros e Ne. unfold moved_no. destruct (inb f (length (cp_edge C)) e) eqn:I; auto. exfalso. apply Ne, OB. auto.
  - intros e. symmetry. apply OB.
  - intros c Hc. apply odd_heads; auto. apply numbered_strands; auto.
Qed.

(** Reversing it twice gives back exactly the same diagram. *)
Theorem reorient_twice : forall d cmp, tidy d -> crossings_differ d -> cmp < ncomps d ->
  exists d', pd_reorient_component d cmp Neg = Ok d' /\ pd_reorient_component d' cmp Neg = Ok d.
Proof.
  intros d cmp TD DF Hc. pose proof (td_regular d TD) as [R Th T CA NA _ _ _ _ _].
  destruct (nth_error (p_comp d) cmp) as [C|] eqn:HC; [|apply nth_error_None in HC; unfold ncomps in Hc; lia].
  destruct (reorient_component d cmp C TD HC) as (d1 & s1 & r1 & q1 & F1 & G1 & E1 & CR1 & A1 & B1 & O1 & X1 & TD1 & C1 & M1 & U1).
  assert (HC1 : nth_error (p_comp d1) cmp = Some C) by (rewrite C1; auto).
  destruct (reorient_component d1 cmp C TD1 HC1) as (d2 & s2 & r2 & q2 & F2 & G2 & E2 & CR2 & A2 & B2 & O2 & X2 & TD2 & C2 & M2 & U2).
  exists d1. split; auto. rewrite E2. f_equal.
  pose proof (carried_trans _ _ _ _ _ _ _ _ _ _ _ _ _ R CR1 CR2) as CR12.
  set (k := length (cp_edge C)) in *.
  destruct (block_of d TD cmp C HC) as (f & EC & Hk & Hf). fold k in EC, Hk, Hf.
  assert (OCs : forall e, on_comp d1 e cmp <-> on_comp d e cmp) by (intros; unfold on_comp; rewrite C1; tauto).
  assert (Q : forall e, e < nedges d -> q2 (q1 e) = e /\ (on_comp d (q1 e) cmp <-> on_comp d e cmp)).
  { intros e He. destruct (inb f k e) eqn:I.
    - apply inb_spec in I. assert (He' : nth_error (cp_edge C) (e - f) = Some e).
      { rewrite EC. rewrite nth_error_nth' with (d := 0) by (rewrite seq_length; lia). rewrite seq_nth by lia. f_equal. lia. }
      pose proof (A1 _ _ He') as K1. pose proof (A2 _ _ K1) as K2.
      pose proof (back_back d C f Hk Hf (e - f) ltac:(fold k; lia)) as BB. unfold back in BB. fold k in BB. rewrite BB in K2.
      split; [congruence|]. split; intros _.
      + exists C. split; auto. eapply nth_error_In; eauto.
      + exists C. split; auto. eapply nth_error_In; eauto.
    - assert (N : ~ on_comp d e cmp).
      { intros O. apply (on_block d cmp C HC f k EC Hk Hf) in O. congruence. }
      rewrite (B1 e N). rewrite B2 by (rewrite OCs; auto). split; auto. tauto. }
  destruct (carried_same_target _ _ _ _ _ _ _ _ _ _ _ _ _ R T (carried_refl d R) CR12) as (Y1 & Y2); auto.
  - intros e He. cbv beta. destruct (Q e He) as (-> & QO). split; auto.
    assert (F1 e = F2 (q1 e)).
    { apply eq_true_iff_eq. rewrite O1, O2, OCs. tauto. }
    rewrite H. symmetry. apply xorb_nilpotent.
  - intros c Hcc. cbv beta. assert (G1 c = G2 (s1 c)); [|rewrite H; symmetry; apply xorb_nilpotent].
    apply eq_true_iff_eq. rewrite X1 by auto. rewrite X2.
    2:{ rewrite (ca_ncross _ _ _ _ _ _ _ CR1). apply (ca_sigma _ _ _ _ _ _ _ CR1); auto. }
    assert (SL : forall p e, slot d c p e -> exists p' , slot d1 (s1 c) p' (q1 e) /\ (on_comp d1 (q1 e) cmp <-> on_comp d e cmp)).
    { intros p e S. eexists. split; [apply (ca_slot _ _ _ _ _ _ _ CR1 _ _ _ S)|]. rewrite OCs. apply Q. eapply consistent_bound; eauto. }
    pose proof CR1 as CR1'. apply carried_rev in CR1'; auto.
    assert (SB : forall p' e', slot d1 (s1 c) p' e' -> exists p e, slot d c p e /\ (on_comp d1 e' cmp <-> on_comp d e cmp)).
    { intros p' e' S. apply (slot_back _ _ _ _ _ CR1') in S as (c0 & p & e & S & Ec & _ & ->).
      rewrite rev_slot in S. assert (c0 = c).
      { apply (ca_sigma _ _ _ _ _ _ _ CR1); auto. apply slot_lt in S. tauto. }
      subst c0. exists p, e. split; auto. rewrite OCs. apply Q. eapply consistent_bound; eauto. }
    unfold mixes. split; intros ((p & e & S & O) & (p' & e' & S' & O')).
    + destruct (SL p e S) as (u & V & W). destruct (SL p' e' S') as (u' & V' & W'). split; [exists u, (q1 e)|exists u', (q1 e')]; tauto.
    + destruct (SB p e S) as (u & v & V & W). destruct (SB p' e' S') as (u' & v' & V' & W'). split; [exists u, v|exists u', v']; tauto.
  - apply TD2.
  - symmetry. apply tidy_unique; auto; congruence.
Qed.
Theorem reorient_positive : forall d cmp, pd_reorient_component d cmp Pos = Ok d.
Proof. reflexivity. Qed.

(** ** What reversal means for the strands *)
Section Carried.
Context (d d' : pd) (s r q : nat -> nat) (F G : nat -> bool) (CR : carried d d' s r q F G).
Lemma carried_arrives : forall c p e, arrives d c p e ->
  if F e then departs d' (s c) (snd (moved s r c p)) (q e) else arrives d' (s c) (snd (moved s r c p)) (q e).
Proof.
  intros c p e (E & HE & H). destruct (ca_edge _ _ _ _ _ _ _ CR e E HE) as (E' & HE' & H1 & H2).
  injection H as <- <-. destruct (F e); exists E'; auto.
Qed.
Lemma carried_departs : forall c p e, departs d c p e ->
  if F e then arrives d' (s c) (snd (moved s r c p)) (q e) else departs d' (s c) (snd (moved s r c p)) (q e).
Proof.
  intros c p e (E & HE & H). destruct (ca_edge _ _ _ _ _ _ _ CR e E HE) as (E' & HE' & H1 & H2).
  unfold tail_slot in H. apply pair_equal_spec in H as (<- & <-). destruct (F e); exists E'; auto.
Qed.
End Carried.

Lemma opp_turn : forall s a b, a < 4 -> s <> Unset ->
  b = (a + match s with Neg => 3 | _ => 1 end) mod 4 ->
  b = ((a + 2) mod 4 + match opp s with Neg => 3 | _ => 1 end) mod 4 /\
  (b + 2) mod 4 = (a + match opp s with Neg => 3 | _ => 1 end) mod 4 /\
  (b + 2) mod 4 = ((a + 2) mod 4 + match s with Neg => 3 | _ => 1 end) mod 4.
Proof.
  intros s a b Ha N ->. destruct s; try congruence; destruct (small4 a Ha) as [->|[->|[->| ->]]]; cbn; auto.
Qed.
Lemma turned_place : forall p r t, p < 4 -> r < 4 -> ((p + t) mod 4 + 4 - r) mod 4 = ((p + 4 - r) mod 4 + t) mod 4.
Proof.
  intros p r t Hp Hr. replace ((p + t) mod 4 + 4 - r) with ((p + t) mod 4 + (4 - r)) by lia.
  rewrite !Nat.add_mod_idemp_l by lia. f_equal. lia.
Qed.

(** whichever strands are reversed, if the sign changes exactly when one of the two strands at the
    crossing is reversed then the upper strand stays the upper one *)
Lemma carried_over : forall d d' s r q F G, ends_recorded d -> goes_through d -> two_ended d -> carried d d' s r q F G ->
  (forall a b, continues d a b -> F a = F b) ->
  (forall c p e p' e', arrives d c p e -> arrives d c p' e' -> p <> p' -> G c = xorb (F e) (F e')) ->
  forall c o oi oo ui uo, o <> Unset -> over_under d c o oi oo ui uo ->
  exists oi' oo' ui' uo', over_under d' (s c) (if G c then opp o else o) oi' oo' ui' uo' /\
    (snd (moved s r c oi) = oi' /\ snd (moved s r c oo) = oo' \/ snd (moved s r c oi) = oo' /\ snd (moved s r c oo) = oi') /\
    (snd (moved s r c ui) = ui' /\ snd (moved s r c uo) = uo' \/ snd (moved s r c ui) = uo' /\ snd (moved s r c uo) = ui').
Proof.
  intros d d' s r q F G R Th T CR HF HG c o oi oo ui uo No ((e & Ae) & (f & Df) & (g & Ag) & (h & Dh) & E1 & E2 & E3).
  pose proof (arrives_slot d R _ _ _ Ae) as Se. pose proof (slot_lt _ _ _ _ Se) as (Hc & Loi).
  pose proof (arrives_slot d R _ _ _ Ag) as Sg. pose proof (slot_lt _ _ _ _ Sg) as (_ & Lui).
  pose proof (ca_rho _ _ _ _ _ _ _ CR c Hc) as Lr.
  assert (Fef : F e = F f).
  { destruct (arrives_across d Th _ _ _ Ae) as (f' & Df' & C). rewrite <- E1 in Df'.
    assert (f = f') by (eapply slot_fun; [eapply (departs_slot d R); eauto|eapply (departs_slot d R); eauto]). subst f'. auto. }
  assert (Fgh : F g = F h).
  { destruct (arrives_across d Th _ _ _ Ag) as (h' & Dh' & C). rewrite <- E2 in Dh'.
    assert (h = h') by (eapply slot_fun; [eapply (departs_slot d R); eauto|eapply (departs_slot d R); eauto]). subst h'. auto. }
  assert (Nou : oi <> ui).
  { intros X. subst ui. rewrite <- E1 in E2. subst uo. clear - E1 E3 Loi.
    rewrite E1 in E3. destruct o, (small4 oi Loi) as [->|[->|[->| ->]]]; cbn in E3; lia. }
  rewrite (HG c oi e ui g Ae Ag Nou).
  pose proof (carried_arrives _ _ _ _ _ _ _ CR _ _ _ Ae) as Ae'. pose proof (carried_departs _ _ _ _ _ _ _ CR _ _ _ Df) as Df'.
  pose proof (carried_arrives _ _ _ _ _ _ _ CR _ _ _ Ag) as Ag'. pose proof (carried_departs _ _ _ _ _ _ _ CR _ _ _ Dh) as Dh'.
  rewrite <- Fef in Df'. rewrite <- Fgh in Dh'. cbn [moved snd] in *.
  set (mi := (oi + 4 - r c) mod 4) in *. set (mo := (oo + 4 - r c) mod 4) in *.
  set (ni := (ui + 4 - r c) mod 4) in *. set (no := (uo + 4 - r c) mod 4) in *.
  assert (Lmi : mi < 4) by apply mod4_lt. assert (Lmo : mo < 4) by apply mod4_lt.
  assert (Lni : ni < 4) by apply mod4_lt. assert (Lno : no < 4) by apply mod4_lt.
  assert (M1 : mo = (mi + 2) mod 4) by (unfold mo, mi; rewrite E1; apply turned_place; auto).
  assert (M2 : no = (ni + 2) mod 4) by (unfold no, ni; rewrite E2; apply turned_place; auto).
  assert (Loo : oo < 4) by (rewrite E1; apply mod4_lt).
  assert (M3 : no = (mo + match o with Neg => 3 | _ => 1 end) mod 4) by (unfold no, mo; rewrite E3; apply turned_place; auto).
  assert (M1' : mi = (mo + 2) mod 4) by (rewrite M1; destruct (small4 mi Lmi) as [->|[->|[->| ->]]]; reflexivity).
  assert (M2' : ni = (no + 2) mod 4) by (rewrite M2; destruct (small4 ni Lni) as [->|[->|[->| ->]]]; reflexivity).
  destruct (opp_turn o mo no Lmo No M3) as (Q1 & Q2 & Q3). rewrite <- M1' in Q1, Q3. rewrite <- M2' in Q2, Q3.
  destruct (F e), (F g); cbn [xorb].
  - exists mo, mi, no, ni. split; [|auto]. repeat split; eauto.
  - exists mo, mi, ni, no. split; [|auto]. repeat split; eauto.
  - exists mi, mo, no, ni. split; [|auto]. repeat split; eauto.
  - exists mi, mo, ni, no. split; [|auto]. repeat split; eauto.
Qed.

Lemma strand_flags : forall d cmp F, tidy d -> (forall e, F e = true <-> on_comp d e cmp) ->
  forall a b, continues d a b -> F a = F b.
Proof.
  intros d cmp F TD O1 a b Cab. pose proof (td_regular d TD) as [R Th T CA NA _ _ _ _ _]. pose proof (numbered_strands d NA) as P.
  apply eq_true_iff_eq. rewrite !O1. apply (on_comp_continues d R Th P a b cmp Cab).
Qed.
Lemma mixes_flags : forall d cmp F G, tidy d -> (forall e, F e = true <-> on_comp d e cmp) ->
  (forall c, c < ncross d -> (G c = true <-> mixes d cmp c)) ->
  forall c p e p' e', arrives d c p e -> arrives d c p' e' -> p <> p' -> G c = xorb (F e) (F e').
Proof.
  intros d cmp F G TD O1 X1. pose proof (td_regular d TD) as [R Th T CA NA _ _ _ _ _]. pose proof (numbered_strands d NA) as P.
  intros c p e p' e' Ae Ae' N. pose proof (arrives_slot d R _ _ _ Ae) as Se. pose proof (slot_lt _ _ _ _ Se) as (Hc & _).
  pose proof (arrives_slot d R _ _ _ Ae') as Se'.
  destruct (two_arrivals d R Th T P c Hc) as (x & i & y & j & Ax & Ay & Nij & U & V).
  assert (V' : forall i0 z, slot d c i0 z -> (on_comp d x cmp -> on_comp d y cmp -> on_comp d z cmp)).
  { intros i0 z Sz Ox Oy. destruct (comp_pos_ok d P z (consistent_bound d c _ z R T Sz)) as (w & _ & _ & Ow).
    destruct (V _ _ Sz w Ow) as [K|K]; replace cmp with w; auto; eapply on_comp_fun; eauto. }
  assert (XE : xorb (F e) (F e') = xorb (F x) (F y)).
  { destruct (U _ _ Ae) as [(-> & ->)|(-> & ->)], (U _ _ Ae') as [(-> & ->)|(-> & ->)]; try congruence. apply xorb_comm. }
  rewrite XE. apply eq_true_iff_eq. rewrite X1 by auto. unfold mixes.
  destruct (F x) eqn:Fx, (F y) eqn:Fy; cbn [xorb].
  - split; [|discriminate]. intros (_ & p0 & z & Sz & Nz). exfalso. apply Nz. apply (V' p0 z Sz); apply O1; auto.
  - split; auto. intros _. split.
    + exists i, x. split; [apply arrives_slot; auto|apply O1; auto].
    + exists j, y. split; [apply arrives_slot; auto|]. rewrite <- O1. congruence.
  - split; auto. intros _. split.
    + exists j, y. split; [apply arrives_slot; auto|apply O1; auto].
    + exists i, x. split; [apply arrives_slot; auto|]. rewrite <- O1. congruence.
  - split; [|discriminate]. intros ((p0 & z & Sz & Oz) & _). exfalso. destruct (V _ _ Sz cmp Oz) as [K|K]; apply O1 in K; congruence.
Qed.

(** After a reversal the same strand passes over at every signed crossing. *)
Theorem reorient_keeps_over : forall d cmp C, tidy d -> nth_error (p_comp d) cmp = Some C ->
  exists d' sigma rho pi, pd_reorient_component d cmp Neg = Ok d' /\
    (forall c p e, slot d c p e -> slot d' (sigma c) (snd (moved sigma rho c p)) (pi e)) /\
    forall c p, ~ sign_at d c Unset ->
      (over_at d c p -> over_at d' (sigma c) (snd (moved sigma rho c p))) /\
      (under_at d c p -> under_at d' (sigma c) (snd (moved sigma rho c p))).
Proof.
  intros d cmp C TD HC. pose proof (td_regular d TD) as [R Th T CA NA _ _ _ _ _]. pose proof (numbered_strands d NA) as P.
  destruct (reorient_component d cmp C TD HC) as (d1 & s & r & q & F & G & E1 & CR & A1 & B1 & O1 & X1 & TD1 & C1 & M1 & U1).
  exists d1, s, r, q. split; auto. split; [intros; apply (ca_slot _ _ _ _ _ _ _ CR); auto|].
  pose proof (strand_flags d cmp F TD O1) as HF. pose proof (mixes_flags d cmp F G TD O1 X1) as HG.
  pose proof (carried_over d d1 s r q F G R Th T CR HF HG) as K.
  intros c p NU. split; intros (o & oi & oo & ui & uo & So & OU & Hp).
  - assert (No : o <> Unset) by (intros ->; auto).
    destruct (K c o oi oo ui uo No OU) as (oi' & oo' & ui' & uo' & OU' & H1 & H2).
    exists (if G c then opp o else o), oi', oo', ui', uo'. split; [apply (ca_sign _ _ _ _ _ _ _ CR); auto|]. split; auto.
    destruct Hp as [->| ->]; destruct H1 as [(Y1 & Y2)|(Y1 & Y2)]; auto.
  - assert (No : o <> Unset) by (intros ->; auto).
    destruct (K c o oi oo ui uo No OU) as (oi' & oo' & ui' & uo' & OU' & H1 & H2).
    exists (if G c then opp o else o), oi', oo', ui', uo'. split; [apply (ca_sign _ _ _ _ _ _ _ CR); auto|]. split; auto.
    destruct Hp as [->| ->]; destruct H2 as [(Y1 & Y2)|(Y1 & Y2)]; auto.
Qed.

(** ** C37: reversing a component changes the sign of its linking numbers *)
Lemma meets_list : forall d, tidy d -> forall i j, i < ncomps d -> exists L, NoDup L /\ forall cr, In cr L <-> meets d i j cr.
Proof.
  intros d TD i j Hi. pose proof (td_regular d TD) as [R Th T CA NA _ _ _ _ _]. pose proof (numbered_strands d NA) as P.
  destruct (nth_error (p_comp d) i) as [C|] eqn:HC; [|apply nth_error_None in HC; unfold ncomps in Hi; lia].
  exists (nodup Nat.eq_dec (map (hd d) (filter (otherb d j) (cp_edge C)))). split; [apply NoDup_nodup|].
  intros cr. rewrite nodup_In. apply (meets_in d R Th T P i j C cr HC).
Qed.
Lemma sum_map : forall d d' s (b : bool) L, (forall c, In c L -> sign_of d' (s c) = (if b then - sign_of d c else sign_of d c)%Z) ->
  sum_signs d' (map s L) = (if b then - sum_signs d L else sum_signs d L)%Z.
Proof.
  intros d d' s b L H. induction L as [|c L IH]; cbn [map sum_signs fold_right].
  - destruct b; reflexivity.
  - fold (sum_signs d' (map s L)). fold (sum_signs d L). rewrite IH by (intros; apply H; cbn; auto). rewrite H by (cbn; auto).
    destruct b; lia.
Qed.
Theorem reorient_linking : forall d cmp d' i j x, tidy d -> all_signed d -> cmp < ncomps d -> i < ncomps d -> j < ncomps d ->
  pd_reorient_component d cmp Neg = Ok d' -> pd_linking_number d i j = Ok x ->
  pd_linking_number d' i j = Ok (if xorb (i =? cmp) (j =? cmp) then (- x)%Z else x).
Proof.
  intros d cmp d' i j x TD AS Hc Hi Hj E L0. pose proof (td_regular d TD) as [R Th T CA NA _ _ _ _ _]. pose proof (numbered_strands d NA) as P.
  destruct (nth_error (p_comp d) cmp) as [C|] eqn:HC; [|apply nth_error_None in HC; unfold ncomps in Hc; lia].
  destruct (reorient_component d cmp C TD HC) as (d1 & s & r & q & F & G & E1 & CR & A1 & B1 & O1 & X1 & TD1 & C1 & M1 & U1).
  rewrite E in E1. apply ok_inj in E1. subst d1. 
  pose proof (strand_flags d cmp F TD O1) as HF. pose proof (mixes_flags d cmp F G TD O1 X1) as HG.
  pose proof (td_regular d' TD1) as [R1 Th1 T1 _ NA1 _ _ _ _ _]. pose proof (numbered_strands d' NA1) as P1.
  assert (OC : forall e a, on_comp d e a -> on_comp d' (q e) a).
  { intros e a (A & HA & Ie). exists A. rewrite C1. split; auto. destruct (Nat.eq_dec a cmp) as [->|N].
    - rewrite HC in HA. injection HA as <-. apply In_nth_error in Ie as (k & Hk). apply A1 in Hk. eapply nth_error_In; eauto.
    - rewrite B1; auto. intros O. apply N. apply (on_comp_fun d P e a cmp); auto. exists A; auto. }
  assert (AR : forall c p e a, arrives d c p e -> on_comp d e a -> exists f p', arrives d' (s c) p' f /\ on_comp d' f a /\
    (p' = snd (moved s r c p) \/ p' = snd (moved s r c ((p + 2) mod 4)))).
  { intros c p e a Ae Oe. pose proof (carried_arrives _ _ _ _ _ _ _ CR _ _ _ Ae) as K. destruct (F e) eqn:Fe.
    2:{ eexists _, _. split; [exact K|]. split; [apply OC; auto|left; reflexivity]. }
    destruct (arrives_across d Th _ _ _ Ae) as (f & Df & Cf). pose proof (HF _ _ Cf) as Ff.
    pose proof (carried_departs _ _ _ _ _ _ _ CR _ _ _ Df) as K2. rewrite <- Ff, Fe in K2. eexists _, _. split; [exact K2|]. split; auto.
    apply OC. apply (on_comp_continues d R Th P e f a Cf). auto. }
  assert (FW : forall a b c, meets d a b c -> meets d' a b (s c)).
  { intros a b c (e & p & f & p' & Ae & Af & N & Oe & Of).
    destruct (AR _ _ _ _ Ae Oe) as (e2 & u & Ae2 & Oe2 & Hu). destruct (AR _ _ _ _ Af Of) as (f2 & v & Af2 & Of2 & Hv).
    exists e2, u, f2, v. split; auto. split; auto. split; auto.
    pose proof (arrives_slot d R _ _ _ Ae) as Se. pose proof (slot_lt _ _ _ _ Se) as (Hcc & Lp).
    pose proof (arrives_slot d R _ _ _ Af) as Sf. pose proof (slot_lt _ _ _ _ Sf) as (_ & Lp').
    pose proof (ca_rho _ _ _ _ _ _ _ CR c Hcc) as Lr. cbn [moved snd] in Hu, Hv.
    assert (N2 : p' <> (p + 2) mod 4).
    { intros X. destruct (arrives_across d Th _ _ _ Ae) as (g & Dg & _). rewrite X in Af. eapply (not_both d R T); eauto. }
    remember (r c) as z. clear - N N2 Lp Lp' Lr Hu Hv.
    destruct (small4 p Lp) as [->|[->|[->| ->]]], (small4 p' Lp') as [->|[->|[->| ->]]]; cbn in N, N2; try lia;
    destruct (small4 z Lr) as [->|[->|[->| ->]]]; cbn in Hu, Hv; lia. }
  assert (BW : forall c, c < ncross d -> meets d' i j (s c) -> meets d i j c).
  { intros c Hcc (e & p & f & p' & Ae & Af & N & Oe & Of).
    destruct (two_arrivals d R Th T P c Hcc) as (x0 & u & y0 & v & Ax & Ay & Nuv & _).
    destruct (comp_pos_ok d P x0) as (a & _ & _ & Oa); [eapply consistent_bound; eauto; eapply arrives_slot; eauto|].
    destruct (comp_pos_ok d P y0) as (b & _ & _ & Ob); [eapply consistent_bound; eauto; eapply arrives_slot; eauto|].
    assert (M : meets d a b c) by (exists x0, u, y0, v; auto). assert (M' : meets d b a c) by (exists y0, v, x0, u; auto).
    destruct (FW _ _ _ M) as (e2 & p2 & f2 & p2' & Ae2 & Af2 & N2 & Oe2 & Of2).
    assert (Hs : s c < ncross d') by (eapply slot_lt; eapply (arrives_slot d' R1); eauto).
    destruct (two_arrivals d' R1 Th1 T1 P1 (s c) Hs) as (z & w & z' & w' & Az & Az' & Nw & U & _).
    assert (FN : forall e a b, on_comp d' e a -> on_comp d' e b -> a = b) by (intros; eapply (on_comp_fun d' P1); eauto).
    destruct (U _ _ Ae) as [(-> & ->)|(-> & ->)], (U _ _ Af) as [(-> & ->)|(-> & ->)]; try congruence;
    destruct (U _ _ Ae2) as [(-> & ->)|(-> & ->)], (U _ _ Af2) as [(-> & ->)|(-> & ->)]; try congruence;
    rewrite (FN _ _ _ Oe Oe2), (FN _ _ _ Of Of2) || rewrite (FN _ _ _ Oe Of2), (FN _ _ _ Of Oe2); auto. }
  destruct (meets_list d TD i j Hi) as (L & NL & HL).
  assert (SB : forall c', c' < ncross d' -> exists c, c < ncross d /\ s c = c').
  { intros c' Hc'. rewrite (ca_ncross _ _ _ _ _ _ _ CR) in Hc'. exists (inv_on (ncross d) s c'). apply inv_spec; auto. apply (ca_sigma _ _ _ _ _ _ _ CR). }
  assert (ML : forall c, meets d i j c -> c < ncross d).
  { intros c (e & p & _ & _ & Ae & _). apply (arrives_slot d R) in Ae. apply slot_lt in Ae. tauto. }
  assert (NL' : NoDup (map s L)).
  { apply NoDup_map_on; auto. intros a b Ha Hb. apply (ca_sigma _ _ _ _ _ _ _ CR); apply ML, HL; auto. }
  assert (HL' : forall cr, In cr (map s L) <-> meets d' i j cr).
  { intros cr. rewrite in_map_iff. split.
    - intros (c & <- & Hcc). apply FW, HL. auto.
    - intros M. assert (Hcr : cr < ncross d').
      { destruct M as (e & p & _ & _ & Ae & _). apply (arrives_slot d' R1) in Ae. apply slot_lt in Ae. tauto. }
      destruct (SB cr Hcr) as (c & Hcc & <-). exists c. split; auto. apply HL, BW; auto. }
  assert (AS' : all_signed d').
  { intros c' o So. assert (Hc' : c' < ncross d') by (destruct So as (y & Hy & _); apply nth_error_Some; congruence).
    destruct (SB c' Hc') as (c & Hcc & <-). destruct (nth_error (p_cross d) c) as [y|] eqn:Hy; [|apply nth_error_None in Hy; unfold ncross in Hcc; lia].
    assert (S0 : sign_at d c (csign y)) by (exists y; auto). pose proof (ca_sign _ _ _ _ _ _ _ CR _ _ S0) as (z & Hz & Ez).
    destruct So as (z' & Hz' & <-). rewrite Hz in Hz'. injection Hz' as <-. rewrite Ez. specialize (AS _ _ S0).
    destruct (G c), (csign y); cbn; congruence. }
  assert (SG : forall c, In c L -> sign_of d' (s c) = if xorb (i =? cmp) (j =? cmp) then (- sign_of d c)%Z else sign_of d c).
  { intros c Hcc. apply HL in Hcc. pose proof (ML c Hcc) as Lc. destruct Hcc as (e & p & f & p' & Ae & Af & N & Oe & Of).
    pose proof (HG c p e p' f Ae Af N) as GG.
    assert (FE : forall e a, on_comp d e a -> F e = (a =? cmp)).
    { intros e0 a Oa. apply eq_true_iff_eq. rewrite O1, Nat.eqb_eq. split; [intros Oc; eapply on_comp_fun; eauto|intros <-; auto]. }
    rewrite (FE _ _ Oe), (FE _ _ Of) in GG. rewrite <- GG.
    destruct (nth_error (p_cross d) c) as [y|] eqn:Hy; [|apply nth_error_None in Hy; unfold ncross in Lc; lia].
    assert (S0 : sign_at d c (csign y)) by (exists y; auto). pose proof (ca_sign _ _ _ _ _ _ _ CR _ _ S0) as (z & Hz & Ez).
    unfold sign_of. rewrite Hy, Hz, Ez. destruct (G c), (csign y); reflexivity. }
  pose proof (sum_map d d' s _ L SG) as SM.
  assert (Ni : ncomps d' = ncomps d) by (unfold ncomps; rewrite C1; auto).
  destruct (Nat.eq_dec i j) as [<-|Nij].
  - rewrite (self_linking d R Th T P i L AS Hi NL HL) in L0. apply ok_inj in L0. subst x.
    rewrite (self_linking d' R1 Th1 T1 P1 i (map s L) AS' ltac:(lia) NL' HL'). f_equal. exact SM.
  - rewrite (linking_number d R Th T P i j L AS Hi Hj Nij NL HL) in L0. apply ok_inj in L0. subst x.
    rewrite (linking_number d' R1 Th1 T1 P1 i j (map s L) AS' ltac:(lia) ltac:(lia) Nij NL' HL'). f_equal. rewrite SM.
    destruct (xorb _ _); auto. apply Z.quot_opp_l. lia.
Qed.

(** * Renumbering a component *)

(** The edge at place [i + ofs] of the component gets the number at place [i], cyclically; nothing
    else happens. *)
Theorem renumber_component : forall d cmp C ofs, tidy d -> nth_error (p_comp d) cmp = Some C ->
  (0 <= ofs)%Z -> (ofs + Z.of_nat (length (cp_edge C)) <= 2 ^ 32)%Z ->
  exists d' sigma rho pi, pd_renumber_component d cmp ofs = Ok d' /\
    carried d d' sigma rho pi (fun _ => false) (fun _ => false) /\
    (forall i e, nth_error (cp_edge C) ((i + Z.to_nat ofs) mod length (cp_edge C)) = Some e -> i < length (cp_edge C) ->
       nth_error (cp_edge C) i = Some (pi e)) /\
    (forall e, e < nedges d -> ~ on_comp d e cmp -> pi e = e) /\
    tidy d' /\ p_comp d' = p_comp d /\ p_maxv d' = p_maxv d /\ p_uid d' = p_uid d.
Proof.
  intros d cmp C ofs TD HC H0 H32. destruct (block_of d TD cmp C HC) as (f & EC & Hk & Hf).
  destruct (renumber_ok d TD cmp C HC f EC Hk Hf ofs H0 H32) as (d' & s & r & E & CR & TD' & K).
  pose proof (on_block d cmp C HC f _ EC Hk Hf) as OB. set (k := length (cp_edge C)) in *.
  set (phi := moved_no f k (shifted C (Z.to_nat ofs))) in *.
  assert (B : bij_on (nedges d) phi) by (apply block_perm; auto; apply (shifted_bij d C f Hk Hf)).
  exists d', s, r, (inv_on (nedges d) phi). split; auto. split; auto. split; [|split; auto].
  - intros i e He Hi. set (j := (i + Z.to_nat ofs) mod k) in *.
    assert (Lj : j < k) by (apply Nat.mod_upper_bound; lia).
    assert (Q : forall j, j < k -> nth_error (cp_edge C) j = Some (f + j)).
    { intros j0 Hj. rewrite EC. rewrite nth_error_nth' with (d := 0) by (rewrite seq_length; auto). rewrite seq_nth by auto. auto. }
    rewrite Q in He by auto. injection He as <-. rewrite Q by auto. f_equal.
    rewrite <- (inv_left (nedges d) phi (f + i) B ltac:(lia)). f_equal. unfold phi, moved_no.
    rewrite (proj2 (inb_spec f k (f + i))) by lia. unfold shifted. fold k. unfold j. f_equal. f_equal. f_equal. lia.
  - intros e He Ne. rewrite <- (inv_left (nedges d) phi e B He) at 2. f_equal. unfold phi, moved_no.
    destruct (inb f k e) eqn:I; auto. exfalso. apply Ne, OB. auto.
Qed.

(** Renumbering by [a] and then by [b] is renumbering by any offset that is [a + b] cyclically. *)
Theorem renumber_adds : forall d cmp C a b c, tidy d -> crossings_differ d -> nth_error (p_comp d) cmp = Some C ->
  (0 <= a)%Z -> (0 <= b)%Z -> (0 <= c)%Z ->
  (forall x, In x [a; b; c] -> x + Z.of_nat (length (cp_edge C)) <= 2 ^ 32)%Z ->
  (c mod Z.of_nat (length (cp_edge C)) = (a + b) mod Z.of_nat (length (cp_edge C)))%Z ->
  exists d1 d2, pd_renumber_component d cmp a = Ok d1 /\ pd_renumber_component d1 cmp b = Ok d2 /\
    pd_renumber_component d cmp c = Ok d2.
Proof.
  intros d cmp C a b c TD DF HC Ha Hb Hc HB HM. pose proof (td_regular d TD) as [R Th T CA NA _ _ _ _ _].
  destruct (block_of d TD cmp C HC) as (f & EC & Hk & Hf). set (k := length (cp_edge C)) in *.
  destruct (renumber_component d cmp C a TD HC Ha) as (d1 & s1 & r1 & q1 & E1 & CR1 & A1 & B1 & TD1 & C1 & M1 & U1); [apply HB; cbn; auto|].
  assert (HC1 : nth_error (p_comp d1) cmp = Some C) by (rewrite C1; auto).
  destruct (renumber_component d1 cmp C b TD1 HC1 Hb) as (d2 & s2 & r2 & q2 & E2 & CR2 & A2 & B2 & TD2 & C2 & M2 & U2); [apply HB; cbn; auto|].
  destruct (renumber_component d cmp C c TD HC Hc) as (d3 & s3 & r3 & q3 & E3 & CR3 & A3 & B3 & TD3 & C3 & M3 & U3); [apply HB; cbn; auto|].
  exists d1, d2. split; auto. split; auto. rewrite E3. f_equal.
  pose proof (carried_trans _ _ _ _ _ _ _ _ _ _ _ _ _ R CR1 CR2) as CR12.
  fold k in A1, A2, A3. pose proof (ca_nedges _ _ _ _ _ _ _ CR1) as N1. rewrite N1 in B2.
  destruct (carried_same_target _ _ _ _ _ _ _ _ _ _ _ _ _ R T CR12 CR3) as (X1 & X2); auto.
  - intros e He. cbv beta. split; auto. destruct (inb f k e) eqn:I.
    + apply inb_spec in I.
      assert (Q : forall j, nth_error (cp_edge C) (j mod k) = Some (f + j mod k)).
      { intros j. assert (j mod k < k) by (apply Nat.mod_upper_bound; lia).
        rewrite EC. rewrite nth_error_nth' with (d := 0) by (rewrite seq_length; auto). rewrite seq_nth by auto. auto. }
      (* the place that comes to e after both *)
      assert (P : exists i, i < k /\ e = f + (i + Z.to_nat c) mod k).
      { destruct (inv_spec k (shifted C (Z.to_nat c)) (e - f)) as (L1 & L2); [apply (shifted_bij d C f Hk Hf)|fold k; lia|].
        eexists. split; [exact L1|]. unfold shifted in L2 at 1. fold k in L2. lia. }
      destruct P as (i & Hi & Ei).
      assert (E3' : Some (f + i) = Some (q3 e)).
      { rewrite <- (A3 i e); auto; [|rewrite Q; congruence]. rewrite <- (Nat.mod_small i k Hi) at 2. rewrite Q. rewrite Nat.mod_small; auto. }
      assert (Em : (i + Z.to_nat c) mod k = ((i + Z.to_nat b) mod k + Z.to_nat a) mod k).
      { rewrite Nat.add_mod_idemp_l by lia. apply Nat2Z.inj. rewrite !Nat2Z.inj_mod, !Nat2Z.inj_add, !Z2Nat.id by auto.
        rewrite <- Z.add_mod_idemp_r by lia. rewrite HM. rewrite Z.add_mod_idemp_r by lia. f_equal. lia. }
      assert (E1' : Some (f + (i + Z.to_nat b) mod k) = Some (q1 e)).
      { rewrite <- (A1 ((i + Z.to_nat b) mod k) e).
        - rewrite Q; auto.
        - rewrite <- Em. rewrite Q. congruence.
        - apply Nat.mod_upper_bound; lia. }
      assert (E2' : Some (f + i) = Some (q2 (q1 e))).
      { rewrite <- (A2 i (q1 e)); auto; [|rewrite Q; congruence]. rewrite <- (Nat.mod_small i k Hi) at 2. rewrite Q. rewrite Nat.mod_small; auto. }
      congruence.
    + assert (N : ~ on_comp d e cmp).
      { intros O. apply (on_block d cmp C HC f k EC Hk Hf) in O. congruence. }
      rewrite (B1 e He N). rewrite (B3 e He N). apply B2; auto. unfold on_comp. rewrite C1. exact N.
  - apply TD2.
  - apply TD3.
  - apply tidy_unique; auto; congruence.
Qed.

(** The header says that the offset is added to each edge number.  It is subtracted: in this diagram,
    renumbered by 1, edge 1 has not become edge 2. *)
Definition double_curl : pd := mkPd 2 0 []
  [mkEdge 0 0 1 0; mkEdge 0 1 0 2; mkEdge 1 1 0 3; mkEdge 1 2 1 3]
  [mkCross 0 1 1 2 Pos; mkCross 0 2 3 3 Neg]
  [mkComp [0; 1; 2; 3] 65]
  [[(0, Neg); (3, Pos); (2, Neg); (1, Pos)];
   [(0, Pos); (2, Pos)];
   [(1, Neg)];
   [(3, Neg)]].

Theorem renumber_direction_refuted : pd_ok double_curl = Ok true /\
  exists d d', pd_regenerate double_curl = Ok d /\ pd_renumber_component d 0 1%Z = Ok d' /\
  ~ exists sigma rho pi, carried d d' sigma rho pi none none /\ forall e, e < 4 -> pi e = (e + 1) mod 4.
Proof.
  split; [reflexivity|]. do 2 eexists. split; [vm_compute; reflexivity|]. split; [vm_compute; reflexivity|].
  intros (s & r & q & CR & H).
  match type of CR with carried ?d ?d' _ _ _ _ _ => 
    assert (S : slot d 0 1 1) by (split; [lia|]; eexists; split; reflexivity);
    assert (G : sign_at d 0 Pos) by (eexists; split; reflexivity) end.
  apply (ca_slot _ _ _ _ _ _ _ CR) in S. apply (ca_sign _ _ _ _ _ _ _ CR) in G. rewrite (H 1) in S by lia. cbn [none] in G.
  destruct S as (L & x & Hx & Ex). destruct G as (y & Hy & Ey). rewrite Hx in Hy. injection Hy as <-.
  assert (B : s 0 < 2) by (apply (ca_sigma _ _ _ _ _ _ _ CR); cbn; lia).
  set (p := snd (moved s r 0 1)) in *. clearbody p.
  destruct (s 0) as [|[|?]]; [| |lia]; cbn in Hx; injection Hx as <-; cbn in Ey; try discriminate;
  destruct (small4 p L) as [->|[->|[->| ->]]]; cbn in Ex; discriminate.
Qed.
(** An offset so large that adding the place to it wraps around 32 bits makes the program stop at an
    assertion. *)
Theorem renumber_large_refuted : exists d, pd_regenerate trefoil = Ok d /\ pd_ok d = Ok true /\
  pd_renumber_component d 0 (2 ^ 32 - 1)%Z = Fail.
Proof. eexists. split; [vm_compute; reflexivity|]. split; vm_compute; reflexivity. Qed.
(** The unknot without crossings cannot be reversed or renumbered: the edge has no crossing at its
    head, and reading its sign or its edges is reading outside the diagram. *)
Theorem reorient_unknot_refuted : pd_ok unknot_B = Ok true /\ pd_reorient_component unknot_B 0 Neg = UB /\
  pd_renumber_component unknot_B 0 1%Z <> Ok unknot_B.
Proof. split; [reflexivity|]. split; [reflexivity|]. vm_compute. discriminate. Qed.

(** ** Satisfiability *)
Lemma regenerate_tidy : forall d d', 0 < ncross d -> ncross d <= p_maxv d ->
  pd_edges_ok d = Ok true -> two_ended d -> signed d -> pd_regenerate d = Ok d' -> tidy d'.
Proof.
  intros d d' H1 H2 H3 H4 H5 H6. destruct (regenerate_room d d' H1 H2 H3 H4 H5 H6) as (A & B & C & E & F & _).
  constructor; auto; lia.
Qed.
Definition slots_of (d : pd) (c : nat) : list nat :=
  match nth_error (p_cross d) c with Some x => [ce0 x; ce1 x; ce2 x; ce3 x] | None => [] end.
Example tidy_example : exists d, pd_regenerate trefoil = Ok d /\ tidy d /\ crossings_differ d /\ all_signed d.
Proof.
  destruct trefoil_signed_hyps as (S & _ & T & _).
  eexists. split; [vm_compute; reflexivity|]. split; [|split; [split|]].
  - apply (regenerate_tidy trefoil); auto; cbn; try lia; reflexivity.
  - intros c c' k Hc Hc' N H. cbn in Hc, Hc'.
    assert (K : forall p e, slot trefoil c p e -> slot trefoil c' ((p + k) mod 4) e) by exact H. clear H.
    assert (Q : forall p, p < 4 -> exists q, q < 4 /\ nth q (slots_of trefoil c') 0 = nth p (slots_of trefoil c) 0).
    { intros p Hp. destruct (nth_error (p_cross trefoil) c) as [x|] eqn:Hx; [|apply nth_error_None in Hx; cbn in Hx; lia].
      destruct (K p (cedge x p)) as (L & y & Hy & Ey); [split; eauto|]. exists ((p + k) mod 4). split; auto.
      unfold slots_of. rewrite Hx, Hy. generalize dependent ((p + k) mod 4). intros q L Ey.
      destruct (small4 p Hp) as [->|[->|[->| ->]]], (small4 q L) as [->|[->|[->| ->]]]; exact Ey. }
    clear K.
    assert (Cs : forall c, c < 3 -> c = 0 \/ c = 1 \/ c = 2) by (intros; lia).
    destruct (Cs c Hc) as [->|[->| ->]], (Cs c' Hc') as [->|[->| ->]]; try lia;
    destruct (Q 0 ltac:(lia)) as (q & L & E1), (Q 1 ltac:(lia)) as (q1 & L1 & E2), (Q 2 ltac:(lia)) as (q2 & L2 & E3), (Q 3 ltac:(lia)) as (q3 & L3 & E4);
    destruct (small4 q L) as [->|[->|[->| ->]]]; try discriminate E1;
    destruct (small4 q1 L1) as [->|[->|[->| ->]]]; try discriminate E2;
    destruct (small4 q2 L2) as [->|[->|[->| ->]]]; try discriminate E3;
    destruct (small4 q3 L3) as [->|[->|[->| ->]]]; discriminate E4.
  - intros c p e (L & x & Hx & Ex) (_ & y & Hy & Ey). rewrite Hx in Hy. injection Hy as <-.
    do 3 (destruct c as [|c]; [injection Hx as <-; destruct (small4 p L) as [->|[->|[->| ->]]]; cbn in Ex, Ey; lia|]). destruct c; discriminate.
  - intros c s (x & Hx & <-). do 3 (destruct c as [|c]; [injection Hx as <-; discriminate|]). destruct c; discriminate.
Qed.
(** the cyclic renumbering of the trefoil's edges is an edge map that follows the strand *)
Example edgemap_example : exists d m, pd_regenerate trefoil = Ok d /\ tidy d /\ good_edgemap (nedges d) m /\ follows_strands d m /\
  source m 0 = 1 /\ turns m 0 = false.
Proof.
  destruct tidy_example as (d & E & TD & _). exists d.
  assert (HC : nth_error (p_comp d) 0 = Some (mkComp [0; 1; 2; 3; 4; 5] 65%Z)).
  { vm_compute in E. apply ok_inj in E. subst d. reflexivity. }
  assert (NE : nedges d = 6) by (vm_compute in E; apply ok_inj in E; subst d; reflexivity).
  set (C := mkComp [0; 1; 2; 3; 4; 5] 65%Z) in *.
  assert (B : bij_on 6 (shifted C 1)) by (apply (shifted_bij d C 0); cbn; lia).
  destruct (block_good 6 0 6 (shifted C 1) Pos 0 ltac:(lia) B (or_introl eq_refl)) as (GM & S & W).
  eexists. split; auto. split; auto. rewrite NE. split; [exact GM|]. pose proof (td_regular d TD) as [R Th T CA NA _ _ _ _ _].
  split; [|split; reflexivity].
  eapply (block_follows d R Th NA 0 C HC 0 6 eq_refl ltac:(lia) ltac:(lia)); [exact B|left; reflexivity|rewrite NE; exact S|rewrite NE; exact W|].
  intros i Hi. cbn [orient_eqb]. change 6 with (length (cp_edge C)). apply (shifted_next d C 0); cbn; lia.
Qed.
Print Assumptions apply_edgemap.
Print Assumptions apply_composed.
Print Assumptions apply_identity.
Print Assumptions reorient_component.
Print Assumptions reorient_twice.
Print Assumptions reorient_keeps_over.
Print Assumptions reorient_linking.
Print Assumptions renumber_component.
Print Assumptions renumber_adds.
Print Assumptions renumber_direction_refuted.
Print Assumptions renumber_large_refuted.
Print Assumptions reorient_unknot_refuted.
