(** A map that keeps the components, the signs and the tags moves the whole diagram, unless a component has two edges. *)
From Coq Require Import List ZArith Lia Bool Arith Permutation.
From Verif Require Import Base ListAux Iterators Cycles CycleMatch Pd PdSpec PdProofs Relabel RelabelProofs Strands PdFacesProofs PdCompsProofs HashSpec HashProofs IsoSpec DiagIso Planar PlanarProofs Carry
  LinkProofs Thm_Planar DartMap AlikeProofs IsotopySpec IsotopyProofs.
From Verif Require IsoEdges.
Import ListNotations.
Open Scope nat_scope.

Definition sgn (s : orient) : orient := match s with Pos => Pos | _ => Neg end.
Lemma sgn_like : forall s, sign_like (sgn s).
Proof. intros []; [left|right|right]; auto. Qed.
Definition by_turn (s : orient) (t : nat) : nat := match s with Pos => t mod 4 | _ => 3 - t mod 4 end.
Lemma turn_place : forall s t p, p < 4 -> turn_to s t p = place (sgn s) (by_turn s t) p.
Proof.
  intros s t p Hp. unfold turn_to, place, by_turn. assert (E : (t + 4 - p) mod 4 = (t mod 4 + 4 - p) mod 4).
  { rewrite <- !Nat.add_sub_assoc by lia. rewrite Nat.add_mod_idemp_l by lia. auto. }
  assert (E2 : (t + p) mod 4 = (t mod 4 + p) mod 4) by (rewrite Nat.add_mod_idemp_l by lia; auto). rewrite E, E2. pose proof (mod4_lt t) as L. revert L. generalize (t mod 4). clear - Hp. intros t L.
  destruct s, (small4 t L) as [->|[->|[->| ->]]], (small4 p Hp) as [->|[->|[->| ->]]]; reflexivity.
Qed.
Lemma place_turn : forall s r p, p < 4 -> place (sgn s) r p = turn_to s (by_turn s r) p.
Proof.
  intros s r p Hp. rewrite turn_place by auto. unfold by_turn, place. destruct s; cbn [sgn].
  - rewrite Nat.mod_mod by lia. rewrite Nat.add_mod_idemp_r by lia. auto.
  - pose proof (mod4_lt r) as L. rewrite <- (Nat.add_mod_idemp_r p r) by lia. revert L. generalize (r mod 4). intros t L. destruct (small4 t L) as [->|[->|[->| ->]]]; reflexivity.
  - pose proof (mod4_lt r) as L. rewrite <- (Nat.add_mod_idemp_r p r) by lia. revert L. generalize (r mod 4). intros t L. destruct (small4 t L) as [->|[->|[->| ->]]]; reflexivity.
Qed.
Lemma turn_across : forall s t p, p < 4 -> turn_to s t ((p + 2) mod 4) = (turn_to s t p + 2) mod 4.
Proof.
  intros s t p Hp. rewrite !turn_place by auto using mod4_lt. unfold place, by_turn. pose proof (mod4_lt t) as L. revert L. generalize (t mod 4). clear t. intros t L.
  destruct s, (small4 t L) as [->|[->|[->| ->]]], (small4 p Hp) as [->|[->|[->| ->]]]; reflexivity.
Qed.

Lemma comp_unique : forall d i j C C' e, sphere d -> nth_error (p_comp d) i = Some C -> nth_error (p_comp d) j = Some C' -> In e (cp_edge C) -> In e (cp_edge C') -> i = j.
Proof.
  intros d i j C C' e SD HC HC' I I'. destruct (sp_comps d SD) as (E & _). apply (blocks_disjoint (map cp_edge (p_comp d)) i j (cp_edge C) (cp_edge C') e); auto; try (apply map_nth_error; auto).
  rewrite E. apply seq_NoDup.
Qed.

Section Moves.
Context (A B : pd) (SA : sphere A) (SB : sphere B).

(** ** An isotopy is a kept map *)
Lemma isotopy_kept : forall kc ke turn s, isotopy A B kc ke turn s -> exists kp kf, kept A B kc ke kp kf (sgn s).
Proof.
  intros kc ke turn s [I1 I2 I3 I4 I5 I6 I7].
  assert (AL : alike A B kc ke (sgn s)).
  { constructor; auto. intros c x Hx. destruct (I5 c x Hx) as (y & Hy & _ & K). exists y. split; auto. apply rotation_places; [apply sgn_like|].
    exists (by_turn s (turn c)). split; [unfold by_turn; pose proof (mod4_lt (turn c)); destruct s; lia|]. intros p Hp. rewrite <- turn_place by auto. symmetry. auto. }
  destruct (alike_extends A B kc ke (sgn s) SA SB (sgn_like s) AL) as (kp & kf & dir & IM & _).
  exists kp, kf. destruct IM as [_ J1 J2 J3 J4 J5 J6].
  assert (NZ : forall i C, nth_error (p_comp A) i = Some C -> exists e, In e (cp_edge C)).
  { intros i C HC. destruct (sp_comps A SA) as (_ & CA & _). destruct (CA C (nth_error_In _ _ HC)) as (N & _). destruct (cp_edge C) as [|e l]; [congruence|exists e; cbn; auto]. }
  assert (IN : forall i C C', nth_error (p_comp A) i = Some C -> nth_error (p_comp B) (kp i) = Some C' -> forall e, In e (cp_edge C) -> In (ke e) (cp_edge C')).
  { intros i C C' HC HC' e I. destruct (J3 i C HC) as (C2 & H2 & R). rewrite HC' in H2. injection H2 as <-. apply HashProofs.rotation_perm in R.
    assert (X : In (ke e) (turned (dir i) (cp_edge C'))) by (eapply Permutation_in; [symmetry; exact R|apply in_map; auto]). destruct (dir i); cbn in X; auto; rewrite in_rev; auto. }
  constructor.
  - constructor; auto. intros i C HC. destruct (J3 i C HC) as (C' & HC' & _). exists C'. split; auto. cbn [turned].
    destruct (sp_comps A SA) as (_ & CA & _). destruct (CA C (nth_error_In _ _ HC)) as (NC & CY). destruct (sp_comps B SB) as (_ & CB & _). destruct (CB C' (nth_error_In _ _ HC')) as (NC' & CY').
    destruct (NZ i C HC) as (e & Ie). apply (cycles_rotate _ (succ B) _ _ (ke e)).
    + split; auto. intros k x y Hx Hy. apply (continues_succ B (sp_recorded B SB) (sp_through B SB)). eapply CY'; eauto.
    + split; [intros Q; apply map_eq_nil in Q; auto|].
      apply (cyclically_map _ _ (continues A)); auto. intros a b Ia Ib (Ea & Eb & Ha & Hb & T1 & T2). apply (continues_succ B (sp_recorded B SB) (sp_through B SB)).
      destruct (I6 a Ea Ha) as (Ea' & Ha' & K1 & K2 & _). destruct (I6 b Eb Hb) as (Eb' & Hb' & _ & _ & K3 & K4). exists Ea', Eb'. split; auto. split; auto. split; [congruence|].
      rewrite K4, K2, T1, T2. apply turn_across. destruct (proj2 (sp_recorded A SA) a Ea Ha) as ((L & _) & _). exact L.
    + eapply comp_nodup; eauto.
    + pose proof (comp_nodup A i C SA HC) as ND. apply NoDup_map_on; auto. intros x y Hx Hy E. apply I4 in E; auto; eapply comp_edges_lt; eauto.
    + eapply IN; eauto.
    + apply in_map; auto.
  - intros c x y Hx Hy. destruct (I5 c x Hx) as (y' & Hy' & S & _). congruence.
  - intros i C C' HC HC'. destruct (NZ i C HC) as (e & Ie). destruct (I7 i C e HC Ie) as (j & C2 & H2 & I2' & T2). pose proof (IN i C C' HC HC' e Ie) as I2''.
    assert (j = kp i) as -> by (eapply (comp_unique B); eauto). congruence.
Qed.

(** ** A kept map is an isotopy *)
Lemma kept_isotopy : forall kc ke kp kf s, sign_like s -> kept A B kc ke kp kf s -> (forall C, In C (p_comp A) -> length (cp_edge C) <> 2) -> exists turn, isotopy A B kc ke turn s.
Proof.
  intros kc ke kp kf s SO [IM KS KT] N2. pose proof (im_alike _ _ _ _ _ _ _ _ _ IM) as [NC NE BC BE XX]. assert (ES : sgn s = s) by (destruct SO as [->| ->]; auto).
  destruct (finite_choice (fun c r => exists x y, nth_error (p_cross A) c = Some x /\ nth_error (p_cross B) (kc c) = Some y /\ forall p, p < 4 -> ke (cedge x p) = cedge y (place s r p)) (ncross A)) as (rt & RT).
  { intros c Hc. destruct (nth_error (p_cross A) c) as [x|] eqn:X; [|apply nth_error_None in X; unfold ncross in Hc; lia]. destruct (XX c x X) as (y & Hy & R).
    apply rotation_places in R as (r & Hr & K); auto. exists r, x, y. auto. }
  destruct (lift_along A B SA SB ke NE BE s SO kc rt RT) as (h & LF & HT).
  assert (DP : forall e, e < nedges A -> is_dart A (e, Pos)) by (intros e He; split; cbn; auto).
  assert (HP : forall e, e < nedges A -> h (e, Pos) = (ke e, Pos)).
  { intros e He. destruct (lf_dart _ _ _ _ _ LF _ (DP e He)) as ((_ & DS) & E1). cbn [fst] in E1. rewrite (surjective_pairing (h (e, Pos))), E1. f_equal. destruct DS as [DS|DS]; auto. exfalso.
    destruct (IsoEdges.edge_comp A e SA He) as (i & C & HC & I). destruct (sp_comps A SA) as (_ & CA & _). destruct (CA C (nth_error_In _ _ HC)) as (NZ & CY).
    apply In_nth_error in I as (k & Hk). assert (Lk : k < length (cp_edge C)) by (apply nth_error_Some; congruence).
    assert (AT : forall j, exists e, nth_error (cp_edge C) (j mod length (cp_edge C)) = Some e).
    { intros j. pose proof (Nat.mod_upper_bound j (length (cp_edge C))) as Hj. destruct (nth_error (cp_edge C) (j mod length (cp_edge C))) as [e'|] eqn:X; eauto. apply nth_error_None in X. lia. }
    destruct (AT (k + 1)) as (e' & He'). pose proof (CY k e e' Hk He') as CC. set (k' := (k + 1) mod length (cp_edge C)) in *.
    destruct (AT (k' + 1)) as (e'' & He''). pose proof (CY k' e' e'' He' He'') as CC'.
    assert (L' : e' < nedges A) by (eapply comp_edges_lt; eauto using nth_error_In). assert (L'' : e'' < nedges A) by (eapply comp_edges_lt; eauto using nth_error_In).
    (* backwards *)
    apply continues_straight in CC; auto. pose proof (lf_straight A B SA SB ke s SO h LF _ _ CC) as ST. pose proof (straight_sign B _ _ SB ST) as SG. rewrite DS in SG.
    apply straight_back in ST; auto. destruct (lf_dart _ _ _ _ _ LF _ (DP e' L')) as (_ & E2). cbn [fst] in E2.
    unfold flip in ST. rewrite DS, <- SG, E1, E2 in ST. apply continues_straight in ST; auto.
    (* forwards *)
    destruct (im_comp _ _ _ _ _ _ _ _ _ IM i C HC) as (C' & HC' & R). cbn [turned] in R. destruct (sp_comps B SB) as (_ & CB & _). destruct (CB C' (nth_error_In _ _ HC')) as (_ & CY').
    pose proof (cyclically_rotation _ _ _ _ R CY') as CM. assert (CF : continues B (ke e') (ke e'')).
    { apply (CM k'); [apply map_nth_error; auto|]. rewrite map_length. apply map_nth_error. exact He''. }
    pose proof (proj1 (continues_succ B (sp_recorded B SB) (sp_through B SB) _ _) ST) as (_ & Q1). pose proof (proj1 (continues_succ B (sp_recorded B SB) (sp_through B SB) _ _) CF) as (_ & Q2).
    assert (EE : e'' = e) by (apply BE; auto; congruence). subst e''.
    assert (KK : k = (k' + 1) mod length (cp_edge C)).
    { apply (proj1 (NoDup_nth_error (cp_edge C)) (comp_nodup A i C SA HC)); auto. congruence. }
    unfold k' in KK. rewrite Nat.add_mod_idemp_l in KK by lia. specialize (N2 C (nth_error_In _ _ HC)).
    assert (L1 : length (cp_edge C) = 1).
    { destruct (Nat.le_gt_cases 3 (length (cp_edge C))) as [L|L]; [|lia]. exfalso. destruct (Nat.lt_ge_cases (k + 1 + 1) (length (cp_edge C))) as [X|X].
      - rewrite Nat.mod_small in KK by auto. lia.
      - replace (k + 1 + 1) with ((k + 1 + 1 - length (cp_edge C)) + 1 * length (cp_edge C)) in KK by lia. rewrite Nat.mod_add, Nat.mod_small in KK by lia. lia. }
    assert (e' = e) as ->.
    { destruct (cp_edge C) as [|a [|b l]]; try discriminate. unfold k' in He'. cbn [length] in *. rewrite Nat.mod_1_r in He'. assert (k = 0) as -> by lia. cbn in *. congruence. }
    destruct CC as (D1 & _ & X). destruct (edge_at_ex A e He) as (Ee & HE). unfold dto, flip in X. cbn [fst snd] in X. unfold edge_at in HE. rewrite HE in X. unfold tail_slot, head_slot in X. cbn [fst snd] in X. injection X as X1 X2.
    destruct (proj2 (sp_recorded A SA) e Ee HE) as (S1 & S2). rewrite X1, X2 in S2.
    exact (planar_no_edge_across A (sp_recorded A SA) (sp_ends A SA) (sp_faces A SA) (sp_nfaces A SA) (sp_connected A SA) _ _ _ S1 S2). }
  assert (HN : forall e, e < nedges A -> h (e, Neg) = (ke e, Neg)).
  { intros e He. pose proof (lf_flip _ _ _ _ _ LF _ (DP e He)) as X. rewrite HP in X by auto. exact X. }
  exists (fun c => by_turn s (rt c)). constructor; auto.
  - intros c x Hx. assert (Hc : c < ncross A) by (apply nth_error_Some; congruence). destruct (RT c Hc) as (x' & y & Hx' & Hy & K). rewrite Hx in Hx'. injection Hx' as <-. exists y. split; auto.
    split; [eapply KS; eauto|]. intros p Hp. rewrite <- place_turn, ES by auto. symmetry. auto.
  - intros e E HE. assert (He : e < nedges A) by (apply nth_error_Some; congruence). assert (He' : ke e < nedges B) by (rewrite NE; apply BE; auto).
    destruct (edge_at_ex B (ke e) He') as (E' & HE'). exists E'. split; auto. destruct (proj2 (sp_recorded A SA) e E HE) as ((L1 & _) & (L2 & _)).
    pose proof (HT _ (DP e He)) as T1. rewrite HP in T1 by auto. pose proof (HT (e, Neg)) as T2. rewrite HN in T2 by auto. specialize (T2 ltac:(split; cbn; auto)).
    unfold dto in T1, T2. cbn [fst snd] in T1, T2. unfold edge_at in HE'. rewrite HE, HE' in T1, T2. unfold head_slot, tail_slot in T1, T2. cbn [fst snd] in T1, T2.
    injection T1 as T1 T3. injection T2 as T2 T4. rewrite T1, T2, T3, T4. rewrite <- !place_turn, ES by auto. auto.
  - intros i C e HC I. destruct (im_comp _ _ _ _ _ _ _ _ _ IM i C HC) as (C' & HC' & R). exists (kp i), C'. split; auto. split; [|eapply KT; eauto].
    cbn [turned] in R. eapply Permutation_in; [symmetry; apply HashProofs.rotation_perm; exact R|]. apply in_map; auto.
Qed.
End Moves.
