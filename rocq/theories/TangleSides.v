(** Tangles: a closed curve has two sides. *)
From Coq Require Import List ZArith Lia Bool Arith Permutation Sorted Relations.
From Verif Require Import Base ListAux Iterators Orbits Cycles Pd PdSpec PdProofs PdFaces PdFacesProofs PdCross PdCompsProofs SlotCount Relabel RelabelProofs
  LinkProofs Planar PlanarProofs DartMap Thm_Faces Thm_Planar Tangle TangleSpec TangleWalk TangleRegen.
From Verif Require Homology.
Import ListNotations.
Open Scope nat_scope.

Lemma seq_rotate : forall A (g : nat -> A) n, Permutation (map (fun i => g ((i + 1) mod n)) (seq 0 n)) (map g (seq 0 n)).
Proof.
  intros A g [|n]; auto. rewrite seq_S at 1. rewrite map_app. cbn [map Nat.add]. replace ((n + 1) mod S n) with 0 by (rewrite Nat.add_1_r, Nat.mod_same; lia).
  cbn [seq map]. rewrite <- seq_shift, map_map. symmetry. etransitivity; [apply Permutation_cons_append|]. apply Permutation_app_tail.
  erewrite map_ext_in; [reflexivity|]. intros i I. apply in_seq in I. cbn beta. f_equal. rewrite Nat.mod_small by lia. lia.
Qed.
Lemma nth_seq : forall A (l : list A) z, map (fun i => nth i l z) (seq 0 (length l)) = l.
Proof. induction l as [|x l IH]; intros z; auto. cbn [length seq map nth]. f_equal. rewrite <- seq_shift, map_map. apply IH. Qed.
Lemma cyclic_count : forall A (f g : A -> bool) l, cyclically (fun x y => g y = f x) l -> length (filter f l) = length (filter g l).
Proof.
  intros A f g l C. destruct l as [|z l']; auto. set (l := z :: l') in *.
  rewrite <- (nth_seq A l z) at 1. rewrite filter_map_length.
  transitivity (length (filter g (map (fun i => nth ((i + 1) mod length l) l z) (seq 0 (length l))))).
  - rewrite filter_map_length. f_equal. apply filter_ext_in. intros i I. apply in_seq in I. symmetry. apply (C i).
    + apply nth_error_nth'. lia.
    + apply nth_error_nth'. apply Nat.mod_upper_bound. cbn. lia.
  - rewrite (filter_perm_length _ g _ _ (seq_rotate _ (fun i => nth i l z) (length l))), nth_seq. auto.
Qed.
Lemma filter_less : forall A (f g : A -> bool) l a, (forall x, In x l -> f x = true -> g x = true) -> In a l -> f a = false -> g a = true ->
  length (filter f l) < length (filter g l).
Proof.
  assert (W : forall A (f g : A -> bool) l, (forall x, In x l -> f x = true -> g x = true) -> length (filter f l) <= length (filter g l)).
  { induction l as [|x l IH]; intros H; auto. cbn [filter]. assert (length (filter f l) <= length (filter g l)) by (apply IH; intros; apply H; cbn; auto).
    destruct (f x) eqn:E; [rewrite (H x) by (cbn; auto); cbn; lia|]. destruct (g x); cbn; lia. }
  intros A f g. induction l as [|x l IH]; intros a H I Fa Ga; [destruct I|]. cbn [filter].
  assert (H' : forall y, In y l -> f y = true -> g y = true) by (intros; apply H; cbn; auto). destruct I as [->|I].
  - rewrite Fa, Ga. cbn [length]. specialize (W A f g l H'). lia.
  - specialize (IH a H' I Fa Ga). destruct (f x) eqn:E; [rewrite (H x) by (cbn; auto); cbn; lia|]. destruct (g x); cbn; lia.
Qed.

Section Curve.
Context (d : pd) (SD : sphere d) (es fs : list nat) (CC : closed_curve d es fs).
Notation R := (sp_recorded d SD). Notation G := (sp_through d SD). Notation T := (sp_ends d SD). Notation FP := (sp_faces d SD).
Notation lfs := (lfs d). Notation rts := (rts d).

Definition E (i : nat) : nat := nth i es 0.
Definition F (i : nat) : nat := nth i fs 0.
Definition nx (i : nat) : nat := (i + 1) mod length es.
Lemma n_pos : 0 < length es. Proof. destruct CC as (NE & _). destruct es; cbn; [congruence|lia]. Qed.
Lemma nx_lt : forall i, nx i < length es. Proof. intros. apply Nat.mod_upper_bound. pose proof n_pos. lia. Qed.
Lemma E_at : forall i, i < length es -> nth_error es i = Some (E i). Proof. intros. apply nth_error_nth'. auto. Qed.
Lemma F_at : forall i, i < length es -> nth_error fs i = Some (F i). Proof. intros. apply nth_error_nth'. rewrite (fs_length d es fs CC). auto. Qed.
Lemma sides : forall i, i < length es -> E i < nedges d /\ (lfs (E i) = F i /\ rts (E i) = F (nx i) \/ rts (E i) = F i /\ lfs (E i) = F (nx i)).
Proof.
  intros i L. destruct CC as (_ & _ & _ & _ & X). destruct (X i (E i) (F i) (F (nx i))) as [(A & B)|(A & B)]; auto using E_at, F_at, nx_lt.
  - split; [eapply (along_lt d SD); eauto|]. left. split; [eapply (along_pos d SD)|eapply (along_neg d SD)]; eauto.
  - split; [eapply (along_lt d SD); eauto|]. right. split; [eapply (along_neg d SD)|eapply (along_pos d SD)]; eauto.
Qed.
Lemma F_inj : forall i j, i < length es -> j < length es -> F i = F j -> i = j.
Proof.
  intros i j Hi Hj Q. destruct CC as (_ & _ & N & Ln & _). rewrite NoDup_nth_error in N. apply N; [lia|]. rewrite (F_at i), (F_at j) by auto. congruence.
Qed.
Lemma in_E : forall e, In e es <-> exists i, i < length es /\ e = E i.
Proof.
  intros e. split.
  - intros I. apply In_nth_error in I as (i & Hi). assert (i < length es) by (apply nth_error_Some; congruence). exists i. split; auto. rewrite E_at in Hi by auto. congruence.
  - intros (i & L & ->). eapply nth_error_In, E_at; auto.
Qed.
Definition z (e : nat) : bool := existsb (Nat.eqb e) es.
Lemma z_in : forall e, z e = true <-> In e es.
Proof.
  intros e. unfold z. rewrite existsb_exists. split.
  - intros (y & I & Q). apply Nat.eqb_eq in Q. subst. auto.
  - intros I. exists e. split; auto. apply Nat.eqb_refl.
Qed.

(** the curve meets the boundary of each face an even number of times *)
Lemma even_faces : forall f, xl (seq 0 (nedges d)) (fun e => z e && Homology.inc (lfs e) (rts e) f) = false.
Proof.
  intros f.
  assert (P : Permutation (seq 0 (nedges d)) (es ++ filter (fun e => negb (z e)) (seq 0 (nedges d)))).
  { apply NoDup_Permutation.
    - apply seq_NoDup.
    - apply NoDup_app_intro; [apply CC|apply NoDup_filter, seq_NoDup|]. intros x I J. apply filter_In in J as (_ & J). apply z_in in I. rewrite I in J. discriminate.
    - intros x. rewrite in_app_iff, filter_In. split.
      + intros I. destruct (z x) eqn:Z; [left; apply z_in; auto|right; auto].
      + intros [I|(I & _)]; auto. apply in_E in I as (i & L & ->). apply in_seq. pose proof (sides i L). lia. }
  rewrite (xl_perm _ _ _ _ P), xl_app. rewrite (xl_false _ (filter _ _)), xorb_false_r.
  2:{ intros e I. apply filter_In in I as (_ & I). apply negb_true_iff in I. rewrite I. auto. }
  assert (EE : forall g, xl es g = xl (seq 0 (length es)) (fun i => g (E i))) by (intros g; rewrite <- (xl_map _ _ E); f_equal; symmetry; apply nth_seq). rewrite EE.
  transitivity (xl (seq 0 (length es)) (fun i => xorb (F i =? f) (F (nx i) =? f))).
  - apply xl_ext. intros i I. apply in_seq in I. assert (Li : i < length es) by lia. assert (Z : z (E i) = true) by (apply z_in, in_E; eauto). rewrite Z. cbn [andb].
    unfold Homology.inc. destruct (sides i Li) as (_ & [(-> & ->)|(-> & ->)]); auto. apply xorb_comm.
  - rewrite xl_xor. rewrite <- (xl_map _ _ F (seq 0 (length es)) (fun x => x =? f)), <- (xl_map _ _ (fun i => F (nx i)) (seq 0 (length es)) (fun x => x =? f)).
    rewrite (xl_perm _ _ _ _ (seq_rotate _ F (length es))). apply xorb_nilpotent.
Qed.
Lemma potential : exists u : nat -> bool, forall e, e < nedges d -> z e = xorb (u (heads d e)) (u (tails d e)).
Proof.
  apply (@Homology.cycles_bound (nfaces d) (nedges d) (ncross d) lfs rts (heads d) (tails d)).
  - intros e He. unfold heads, tails, PlanarProofs.lfs, PlanarProofs.rts.
    repeat split; try (eapply slot_lt; eapply dto_slot; [exact R|apply dart_lt; auto]); apply (fno_lt d FP); apply dart_lt; auto.
  - destruct R as (N & _). rewrite (sp_nfaces d SD). lia.
  - exact (dual_const d R T FP (sp_nfaces d SD) (sp_connected d SD)).
  - exact (conn_const d R T (sp_nfaces d SD) (sp_connected d SD)).
  - intros v f Hv Hf. rewrite xsum_xl.
    transitivity (xl (seq 0 (nedges d)) (fun e => Homology.inc (lfs e) (rts e) f && Homology.inc (heads d e) (tails d e) v)).
    { apply xl_ext. intros e _. apply andb_comm. }
    rewrite (edges_to_places d R T v (fun e => Homology.inc (lfs e) (rts e) f) Hv).
    assert (K : forall p, p < 4 -> Homology.inc (lfs (eslot d (v, p))) (rts (eslot d (v, p))) f =
       xorb (fno d (arr d v p) =? f) (fno d (arr d v ((p + 1) mod 4)) =? f)).
    { intros p Hp. destruct (arr_spec d R T v p Hv Hp) as (Da & Ea). rewrite (fno_corner d R T FP) by auto. rewrite <- Ea, (eslot_dto d R) by auto.
      unfold Homology.inc. destruct (PlanarProofs.sides d _ Da) as [(-> & ->)|(-> & ->)]; auto. apply xorb_comm. }
    rewrite !K by lia. change ((0 + 1) mod 4) with 1. change ((1 + 1) mod 4) with 2. change ((2 + 1) mod 4) with 3. change ((3 + 1) mod 4) with 0.
    destruct (fno d (arr d v 0) =? f), (fno d (arr d v 1) =? f), (fno d (arr d v 2) =? f), (fno d (arr d v 3) =? f); reflexivity.
  - intros f Hf. rewrite xsum_xl. apply even_faces.
Qed.
Lemma heads_is : forall e, e < nedges d -> heads d e = hd d e.
Proof. intros e L. unfold heads, dto. cbn [fst snd]. pose proof (rec_at d e L) as K. unfold edge_at in K. rewrite K. reflexivity. Qed.
Lemma tails_is : forall e, e < nedges d -> tails d e = e_tail (rec d e).
Proof. intros e L. unfold tails, dto. cbn [fst snd]. pose proof (rec_at d e L) as K. unfold edge_at in K. rewrite K. reflexivity. Qed.

(** along the boundary of a face one leaves the inside as often as one enters it *)
Lemma around_face : forall (inside : nat -> bool) f Fc, nth_error (p_face d) f = Some Fc ->
  length (filter (fun a => inside (fst (dto d a))) Fc) = length (filter (fun a => inside (fst (dto d (flip a)))) Fc).
Proof.
  intros inside f Fc H. apply cyclic_count. destruct FP as (P & _ & _). destruct (P Fc (nth_error_In _ _ H)) as (_ & C).
  intros i a b Ha Hb. pose proof (proj1 (left_turn_dto d a b) (C i a b Ha Hb)) as K. destruct K as (_ & _ & _ & K). rewrite K. reflexivity.
Qed.

Section Sides.
Context (u : nat -> bool) (U : forall e, e < nedges d -> z e = xorb (u (heads d e)) (u (tails d e))).
(** which end of the edge is inside *)
Definition agrees (i : nat) : Prop := u (heads d (E i)) = (lfs (E i) =? F i).
Lemma agrees_next : forall i, i < length es -> agrees i -> agrees (nx i).
Proof.
  intros i L A. pose proof (nx_lt i) as L'. set (j := nx i) in *. destruct (sides i L) as (Le & Si). destruct (sides j L') as (Le' & Sj).
  pose proof (sides_differ d SD (E i) Le) as N1. pose proof (sides_differ d SD (E j) Le') as N2.
  assert (Z1 : z (E i) = true) by (apply z_in, in_E; eauto). assert (Z2 : z (E j) = true) by (apply z_in, in_E; eauto).
  pose proof (U _ Le) as U1. pose proof (U _ Le') as U2. rewrite Z1 in U1. rewrite Z2 in U2.
  (* the dart of E i on the face F j leads outside *)
  set (a := if lfs (E i) =? F i then (E i, Neg) else (E i, Pos)). set (b := if lfs (E j) =? F j then (E j, Pos) else (E j, Neg)).
  assert (Fa : fno d a = F j /\ is_dart d a /\ u (fst (dto d a)) = false /\ u (fst (dto d (flip a))) = true).
  { unfold a, agrees in *. destruct (Nat.eqb_spec (lfs (E i)) (F i)) as [Q|Q].
    - split; [destruct Si as [(_ & K)|(K & K2)]; [exact K|congruence]|]. split; [apply dart_lt; auto|].
      change (fst (dto d (flip (E i, Neg)))) with (heads d (E i)). change (fst (dto d (E i, Neg))) with (tails d (E i)). rewrite A in *. destruct (u (tails d (E i))); auto; discriminate.
    - split; [destruct Si as [(K & _)|(_ & K)]; [congruence|exact K]|]. split; [apply dart_lt; auto|].
      change (fst (dto d (flip (E i, Pos)))) with (tails d (E i)). change (fst (dto d (E i, Pos))) with (heads d (E i)). rewrite A in *. destruct (u (tails d (E i))); auto; discriminate. }
  assert (Fb : fno d b = F j /\ is_dart d b).
  { unfold b. destruct (Nat.eqb_spec (lfs (E j)) (F j)) as [Q|Q]; (split; [|apply dart_lt; auto]); [exact Q|].
    destruct Sj as [(K & _)|(K & _)]; [congruence|exact K]. }
  assert (Tb : u (fst (dto d b)) = true -> agrees j).
  { unfold b, agrees. destruct (lfs (E j) =? F j); [auto|]. intros K. change (fst (dto d (E j, Neg))) with (tails d (E j)) in K. rewrite K in U2. destruct (u (heads d (E j))); auto; discriminate. }
  apply Tb. destruct (u (fst (dto d b))) eqn:B; auto. exfalso. destruct Fa as (Fa & Da & Ta1 & Ta2). destruct Fb as (Fb & Db).
  destruct (fno_spec d FP a Da) as (Fc & HF & Ia). rewrite Fa in HF.
  pose proof (around_face u (F j) Fc HF) as Q.
  assert (X : forall x, In x Fc -> u (fst (dto d x)) = true -> u (fst (dto d (flip x))) = true).
  { intros x Ix Hx. assert (Dx : is_dart d x) by (destruct FP as (_ & _ & C); apply C, in_concat; exists Fc; split; auto; eapply nth_error_In; eauto).
    assert (Fx : fno d x = F j) by (apply (fno_is d FP); exists Fc; split; auto; rewrite <- surjective_pairing; auto).
    destruct (z (fst x)) eqn:Zx.
    - apply z_in, in_E in Zx as (k & Lk & Ek). destruct (sides k Lk) as (Lek & Sk).
      assert (K : k = j \/ k = i).
      { assert (F j = F k \/ F j = F (nx k)).
        { destruct x as (e, o). cbn [fst] in Ek. subst e. destruct Dx as (_ & [O|O]); cbn [snd] in O; subst o; [change (fno d (E k, Pos)) with (lfs (E k)) in Fx|change (fno d (E k, Neg)) with (rts (E k)) in Fx]; intuition congruence. }
        destruct H as [H|H]; [left; symmetry; apply F_inj; auto|right].
        assert (H2 : nx i = nx k) by (apply F_inj; auto using nx_lt). unfold nx in H2.
        assert (M : forall w, w < length es -> (w + 1) mod length es = if w + 1 =? length es then 0 else w + 1).
        { intros w Hw. destruct (Nat.eqb_spec (w + 1) (length es)) as [->|]; [apply Nat.mod_same; lia|apply Nat.mod_small; lia]. }
        rewrite !M in H2 by auto. destruct (Nat.eqb_spec (i + 1) (length es)), (Nat.eqb_spec (k + 1) (length es)); lia. }
      assert (OneD : forall y, is_dart d y -> fst y = fst x -> fno d y = fno d x -> y = x).
      { intros (e, o) (_ & Dy) E1 E2. cbn [fst] in E1. subst e. destruct x as (e, o'). cbn [fst snd] in *. destruct Dx as (Lx & Dx). cbn [fst snd] in *. pose proof (sides_differ d SD e Lx) as NN.
        destruct Dy, Dx; subst; auto; exfalso; apply NN; unfold PlanarProofs.lfs, PlanarProofs.rts; congruence. }
      destruct K as [-> | ->].
      + assert (b = x) by (apply OneD; auto; [unfold b; destruct (lfs (E j) =? F j); auto|congruence]). subst x. congruence.
      + assert (a = x) by (apply OneD; auto; [unfold a; destruct (lfs (E i) =? F i); auto|congruence]). subst x. congruence.
    - pose proof (U (fst x) (proj1 Dx)) as Ux. rewrite Zx in Ux. destruct x as (e, o). cbn [fst] in *. destruct Dx as (_ & [O|O]); cbn [snd] in O; subst o.
      + change (fst (dto d (flip (e, Pos)))) with (tails d e). change (fst (dto d (e, Pos))) with (heads d e) in Hx. rewrite Hx in Ux. destruct (u (tails d e)); auto; discriminate.
      + change (fst (dto d (flip (e, Neg)))) with (heads d e). change (fst (dto d (e, Neg))) with (tails d e) in Hx. rewrite Hx in Ux. destruct (u (heads d e)); auto; discriminate. }
  pose proof (filter_less _ (fun x => u (fst (dto d x))) (fun x => u (fst (dto d (flip x)))) Fc a X Ia Ta1 Ta2). lia.
Qed.
Lemma agrees_all : agrees 0 -> forall i, i < length es -> agrees i.
Proof.
  intros A. induction i as [|i IH]; intros L; auto. replace (S i) with (nx i) by (unfold nx; rewrite Nat.mod_small; lia). apply agrees_next; [lia|]. apply IH. lia.
Qed.
Lemma agrees_sides : (forall i, i < length es -> agrees i) -> two_sides_of d es fs u.
Proof.
  intros A. split.
  - intros i e f He Hf. assert (L : i < length es) by (apply nth_error_Some; congruence). rewrite E_at in He by auto. rewrite F_at in Hf by auto. injection He as <-. injection Hf as <-.
    destruct (sides i L) as (Le & S). specialize (A i L). unfold agrees in A. pose proof (U _ Le) as Ue. assert (Z : z (E i) = true) by (apply z_in, in_E; eauto). rewrite Z in Ue.
    destruct (Nat.eqb_spec (lfs (E i)) (F i)) as [Q|Q].
    + left. split; [rewrite <- Q; apply (lfs_along d SD); auto|]. apply in_iff. split; auto. unfold ti, hi. rewrite <- heads_is, <- tails_is by auto. rewrite A in *. destruct (u (tails d (E i))); auto; discriminate.
    + right. assert (Q2 : rts (E i) = F i) by (destruct S as [(K & _)|(K & _)]; congruence). split; [rewrite <- Q2; apply (rts_along d SD); auto|].
      apply out_iff. split; auto. unfold ti, hi. rewrite <- heads_is, <- tails_is by auto. rewrite A in *. destruct (u (tails d (E i))); auto; discriminate.
  - intros e Ed He N. pose proof (edge_at_lt _ _ _ He) as L. pose proof (U e L) as Ue. assert (Z : z e = false) by (destruct (z e) eqn:Z; auto; apply z_in in Z; tauto). rewrite Z in Ue.
    rewrite heads_is, tails_is in Ue by auto. pose proof (rec_at d e L) as K. unfold edge_at in *. assert (Ed = rec d e) by congruence. subst Ed. unfold hd in Ue.
    destruct (u (e_head (rec d e))), (u (e_tail (rec d e))); auto; discriminate.
Qed.
End Sides.

Theorem two_sides_exist : exists inside, two_sides_of d es fs inside.
Proof.
  destruct potential as (u & U).
  set (w := fun c => xorb (u c) (xorb (u (heads d (E 0))) (lfs (E 0) =? F 0))).
  assert (W : forall e, e < nedges d -> z e = xorb (w (heads d e)) (w (tails d e))).
  { intros e L. rewrite (U e L). unfold w. destruct (u (heads d e)), (u (tails d e)), (xorb (u (heads d (E 0))) (lfs (E 0) =? F 0)); auto. }
  exists w. apply (agrees_sides w W). apply (agrees_all w W). unfold agrees, w. destruct (u (heads d (E 0))), (lfs (E 0) =? F 0); auto.
Qed.
Theorem two_sides_unique : forall inside inside', two_sides_of d es fs inside -> two_sides_of d es fs inside' ->
  forall c, c < ncross d -> inside c = inside' c.
Proof.
  intros s s' H H' c Lc. set (x := fun c => xorb (s c) (s' c)).
  assert (C : forall e, e < nedges d -> x (heads d e) = x (tails d e)).
  { intros e L. unfold x. rewrite heads_is, tails_is by auto. pose proof (es_iff d es fs s CC H e L) as K. pose proof (es_iff d es fs s' CC H' e L) as K'.
    unfold ti, hi in *. destruct (s (hd d e)), (s (e_tail (rec d e))), (s' (hd d e)), (s' (e_tail (rec d e))); auto; cbn; exfalso;
    assert (true <> false) by discriminate; assert (false <> true) by discriminate; tauto. }
  pose proof n_pos as L0. destruct (sides 0 L0) as (Le & S0). pose proof (sides_differ d SD (E 0) Le) as N0.
  assert (K : forall i, two_sides_of d es fs i -> i (heads d (E 0)) = (lfs (E 0) =? F 0)).
  { intros i (X & _). rewrite heads_is by auto. destruct (X 0 (E 0) (F 0)) as [(A & B)|(A & B)]; auto using E_at, F_at.
    - apply in_iff in B as (_ & _ & B). unfold hi in B. rewrite B, (along_pos d SD _ _ A), Nat.eqb_refl. auto.
    - apply out_iff in B as (_ & _ & B). unfold hi in B. rewrite B. rewrite (along_neg d SD _ _ A) in N0. symmetry. apply Nat.eqb_neq. auto. }
  assert (Q : x c = x (heads d (E 0))).
  { apply (conn_const d R T (sp_nfaces d SD) (sp_connected d SD) x C); auto. eapply slot_lt. eapply dto_slot; [exact R|apply dart_lt; auto]. }
  unfold x in Q. rewrite (K s H), (K s' H'), xorb_nilpotent in Q. destruct (s c), (s' c); auto; discriminate.
Qed.
End Curve.
