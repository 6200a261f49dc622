(** Proofs about the diagrams with a loop added. *)
From Coq Require Import List ZArith Lia Bool Arith Permutation.
From Verif Require Import Base Iterators ListAux Pd PdSpec PdProofs Relabel RelabelProofs Strands CycleSurgery PdFaces PdFacesProofs Planar RegenSpec
  Thm_Faces Thm_Planar MoveSpec.
Import ListNotations.
Open Scope nat_scope.

Lemma pair_eq : forall A B (x x' : A) (y y' : B), (x, y) = (x', y') -> x = x' /\ y = y'.
Proof. intros A B x x' y y' E. injection E. auto. Qed.
Lemma slot_ex : forall d c p, c < ncross d -> p < 4 -> exists e, slot d c p e.
Proof.
  intros d c p Hc Hp. destruct (nth_error (p_cross d) c) as [x|] eqn:X; [|apply nth_error_None in X; unfold ncross in Hc; lia].
  exists (cedge x p). split; auto. eauto.
Qed.

Section Loop.
Context (d d1 : pd) (e a b c pa pb : nat) (H : loop_at d d1 e a b c pa pb).
Context (R : ends_recorded d) (G : goes_through d) (T : two_ended d) (He : e < nedges d).
Context (Hpa : pa < 4) (Hpb : pb < 4) (Hab : pa <> pb) (Hop : (pa + 2) mod 4 <> pb).

Lemma loop_E : exists E, edge_at d e E.
Proof. apply edge_at_ex. exact He. Qed.
Lemma loop_cases : forall x X, edge_at d1 x X ->
  (x <> e /\ x < nedges d /\ edge_at d x X) \/ x = a \/ x = e \/ x = b.
Proof.
  intros x X HX. pose proof (edge_at_lt _ _ _ HX) as L. rewrite (lp_nedges _ _ _ _ _ _ _ _ H) in L.
  rewrite (lp_a _ _ _ _ _ _ _ _ H), (lp_b _ _ _ _ _ _ _ _ H).
  destruct (Nat.eq_dec x e) as [|N]; auto. destruct (Nat.eq_dec x (nedges d)); auto. destruct (Nat.eq_dec x (nedges d + 1)); auto.
  left. split; auto. split; [lia|]. destruct (edge_at_ex d x ltac:(lia)) as (Y & HY).
  pose proof (lp_others _ _ _ _ _ _ _ _ H x Y N HY) as Q. unfold edge_at in *. congruence.
Qed.
Lemma old_slot : forall E x v p, edge_at d e E -> x <> e -> slot d v p x -> slot d1 v p x.
Proof.
  intros E x v p HE N S. destruct R as (_ & Rr). destruct (Rr e E HE) as (S1 & S2).
  apply (lp_slots _ _ _ _ _ _ _ _ H E); auto; intros Q; injection Q as -> ->; apply N; eapply slot_fun; eauto.
Qed.
Lemma loop_recorded : ends_recorded d1.
Proof.
  split; [rewrite (lp_nedges _ _ _ _ _ _ _ _ H), (lp_ncross _ _ _ _ _ _ _ _ H); destruct R as (N & _); lia|].
  intros x X HX. destruct loop_E as (E & HE). destruct (lp_edges _ _ _ _ _ _ _ _ H E HE) as (A & E' & B & HA & HE' & HB & A1 & A2 & E1 & E2 & B1 & B2 & S1 & S2).
  destruct (lp_new _ _ _ _ _ _ _ _ H) as (N1 & N2 & N3 & N4).
  destruct (loop_cases x X HX) as [(N & L & HX')|[->|[->| ->]]].
  - destruct R as (_ & Rr). destruct (Rr x X HX') as (Q1 & Q2). split; apply (old_slot E); auto.
  - unfold edge_at in *. rewrite HX in HA. injection HA as <-. unfold head_slot, tail_slot in *.
    apply pair_eq in A1 as (-> & ->). apply pair_eq in A2 as (-> & ->). auto.
  - unfold edge_at in *. rewrite HX in HE'. injection HE' as <-. unfold head_slot, tail_slot in *.
    apply pair_eq in E1 as (-> & ->). apply pair_eq in E2 as (-> & ->). auto.
  - unfold edge_at in *. rewrite HX in HB. injection HB as <-. unfold head_slot, tail_slot in *.
    apply pair_eq in B1 as (-> & ->). apply pair_eq in B2 as (-> & ->). auto.
Qed.
Lemma loop_two_ended : two_ended d1.
Proof.
  intros x X HX. destruct loop_E as (E & HE). destruct (lp_edges _ _ _ _ _ _ _ _ H E HE) as (A & E' & B & HA & HE' & HB & A1 & A2 & E1 & E2 & B1 & B2 & S1 & S2).
  pose proof (lp_c _ _ _ _ _ _ _ _ H) as Hc. destruct R as (_ & Rr). destruct (Rr e E HE) as (Q1 & Q2).
  apply slot_lt in Q1, Q2. unfold head_slot, tail_slot in *.
  destruct (loop_cases x X HX) as [(N & L & HX')|[->|[->| ->]]].
  - apply (T x X HX').
  - unfold edge_at in *. rewrite HX in HA. injection HA as <-. rewrite A1, A2. intros Q. injection Q as Q _. lia.
  - unfold edge_at in *. rewrite HX in HE'. injection HE' as <-. rewrite E1, E2. intros Q. injection Q as Q.
    apply Hab. clear -Q Hpa Hpb. revert Q. destruct pa as [|[|[|[|?]]]], pb as [|[|[|[|?]]]]; cbn; lia.
  - unfold edge_at in *. rewrite HX in HB. injection HB as <-. rewrite B1, B2. intros Q. injection Q as Q _. lia.
Qed.
Lemma old_tail : forall v p, (exists e' E', edge_at d e' E' /\ slot d v p e' /\ tail_slot E' = (v, p)) ->
  exists e' E', edge_at d1 e' E' /\ slot d1 v p e' /\ tail_slot E' = (v, p).
Proof.
  intros v p (x & X & HX & S & Q). destruct loop_E as (E & HE). destruct (Nat.eq_dec x e) as [->|N].
  - destruct (lp_edges _ _ _ _ _ _ _ _ H E HE) as (A & E' & B & HA & HE' & HB & A1 & A2 & E1 & E2 & B1 & B2 & S1 & S2).
    unfold edge_at in *. rewrite HE in HX. injection HX as <-. unfold tail_slot in Q. injection Q as <- <-. exists a, A. auto.
  - exists x, X. split; [apply (lp_others _ _ _ _ _ _ _ _ H); auto|]. split; auto. apply (old_slot E); auto.
Qed.
Lemma old_head : forall v p, (exists e' E', edge_at d e' E' /\ slot d v p e' /\ head_slot E' = (v, p)) ->
  exists e' E', edge_at d1 e' E' /\ slot d1 v p e' /\ head_slot E' = (v, p).
Proof.
  intros v p (x & X & HX & S & Q). destruct loop_E as (E & HE). destruct (Nat.eq_dec x e) as [->|N].
  - destruct (lp_edges _ _ _ _ _ _ _ _ H E HE) as (A & E' & B & HA & HE' & HB & A1 & A2 & E1 & E2 & B1 & B2 & S1 & S2).
    unfold edge_at in *. rewrite HE in HX. injection HX as <-. unfold head_slot in Q. injection Q as <- <-. exists b, B. auto.
  - exists x, X. split; [apply (lp_others _ _ _ _ _ _ _ _ H); auto|]. split; auto. apply (old_slot E); auto.
Qed.
Lemma plus4 : forall p, p < 4 -> ((p + 2) mod 4 + 2) mod 4 = p.
Proof. intros p Hp. destruct p as [|[|[|[|?]]]]; cbn; lia. Qed.
Lemma loop_through : goes_through d1.
Proof.
  intros x X HX. destruct loop_E as (E & HE). destruct (lp_edges _ _ _ _ _ _ _ _ H E HE) as (A & E' & B & HA & HE' & HB & A1 & A2 & E1 & E2 & B1 & B2 & S1 & S2).
  destruct (lp_new _ _ _ _ _ _ _ _ H) as (N1 & N2 & N3 & N4). destruct (G e E HE) as (Ge1 & Ge2).
  destruct (loop_cases x X HX) as [(N & L & HX')|[->|[->| ->]]].
  - destruct (G x X HX') as (G1 & G2). split; [apply old_tail; exact G1|apply old_head; exact G2].
  - unfold edge_at in HX, HA. rewrite HX in HA. injection HA as <-. unfold head_slot, tail_slot in A1, A2. apply pair_eq in A1 as (-> & ->). apply pair_eq in A2 as (-> & ->).
    split; [exists e, E'; auto|apply old_head; exact Ge2].
  - unfold edge_at in HX, HE'. rewrite HX in HE'. injection HE' as <-. unfold head_slot, tail_slot in E1, E2. apply pair_eq in E1 as (-> & ->). apply pair_eq in E2 as (-> & ->).
    rewrite !plus4 by auto. split; [exists b, B; auto|exists a, A; auto].
  - unfold edge_at in HX, HB. rewrite HX in HB. injection HB as <-. unfold head_slot, tail_slot in B1, B2. apply pair_eq in B1 as (-> & ->). apply pair_eq in B2 as (-> & ->).
    split; [apply old_tail; exact Ge1|exists e, E'; auto].
Qed.

(** ** strands *)
Definition strand_of (x : nat) : list nat := if x =? e then [a; e; b] else [x].
Lemma ab_new : a <> e /\ b <> e /\ a <> b /\ nedges d <= a /\ nedges d <= b.
Proof. rewrite (lp_a _ _ _ _ _ _ _ _ H), (lp_b _ _ _ _ _ _ _ _ H). lia. Qed.
Lemma loop_strands : forall L, strand_partition d L -> strand_partition d1 (map (flat_map strand_of) L).
Proof.
  intros L HL. destruct ab_new as (n1 & n2 & n3 & n4 & n5). destruct loop_E as (E & HE).
  destruct (lp_edges _ _ _ _ _ _ _ _ H E HE) as (A & E' & B & HA & HE' & HB & A1 & A2 & E1 & E2 & B1 & B2 & S1 & S2).
  unfold head_slot, tail_slot in *.
  assert (C1 : continues d1 a e).
  { exists A, E'. split; auto. split; auto. apply pair_eq in A2 as (-> & ->). apply pair_eq in E1 as (-> & ->). auto. }
  assert (C2 : continues d1 e b).
  { exists E', B. split; auto. split; auto. apply pair_eq in E2 as (-> & ->). apply pair_eq in B1 as (-> & ->). rewrite plus4 by auto. auto. }
  assert (X : cpart (continues d1) (fun x => exists y, y < nedges d /\ In x (strand_of y)) (map (flat_map strand_of) L)).
  { apply (cpart_expand nat nat (continues d) (continues d1) strand_of (fun y => y < nedges d)); auto.
    - intros x Hx. unfold strand_of. destruct (Nat.eqb_spec x e).
      + split; [discriminate|]. split; [cbn; auto|]. repeat constructor; cbn; intuition lia.
      + split; [discriminate|]. split; [cbn; auto|]. repeat constructor; cbn; tauto.
    - intros x y z Hx Hy. unfold strand_of. destruct (Nat.eqb_spec x e), (Nat.eqb_spec y e); cbn; intros; subst; intuition (subst; lia).
    - intros x y u v Hx Hy (X & Y & HX & HY & Q1 & Q2) (w1 & W1) (w2 & W2).
      assert (U : exists U, edge_at d1 u U /\ e_head U = e_head X /\ e_headpos U = e_headpos X).
      { unfold strand_of in W1. destruct (Nat.eqb_spec x e) as [->|N].
        - change [a; e; b] with ([a; e] ++ [b]) in W1. apply app_inj_tail in W1. destruct W1 as (_ & <-).
          unfold edge_at in HX, HE. rewrite HE in HX. injection HX as <-. exists B. split; auto. apply pair_eq in B2 as (-> & ->). auto.
        - change [x] with ([] ++ [x]) in W1. apply app_inj_tail in W1. destruct W1 as (_ & <-). exists X. split; auto. apply (lp_others _ _ _ _ _ _ _ _ H); auto. }
      assert (V : exists V, edge_at d1 v V /\ e_tail V = e_tail Y /\ e_tailpos V = e_tailpos Y).
      { unfold strand_of in W2. destruct (Nat.eqb_spec y e) as [->|N].
        - injection W2 as <- _. unfold edge_at in HY, HE. rewrite HE in HY. injection HY as <-. exists A. split; auto. apply pair_eq in A1 as (-> & ->). auto.
        - injection W2 as <- _. exists Y. split; auto. apply (lp_others _ _ _ _ _ _ _ _ H); auto. }
      destruct U as (U & HU & U1 & U2). destruct V as (V & HV & V1 & V2). exists U, V. rewrite U1, U2, V1, V2. auto. }
  eapply cpart_ext; [exact X|auto|]. intro x. rewrite (lp_nedges _ _ _ _ _ _ _ _ H). split.
  - intro Lx. unfold strand_of. rewrite (lp_a _ _ _ _ _ _ _ _ H), (lp_b _ _ _ _ _ _ _ _ H) in *.
    destruct (Nat.eq_dec x e); [exists e; rewrite Nat.eqb_refl; cbn; auto|].
    destruct (le_lt_dec (nedges d) x); [exists e; rewrite Nat.eqb_refl; cbn; split; auto; lia|].
    exists x. split; auto. destruct (Nat.eqb_spec x e); [lia|]. cbn. auto.
  - intros (y & Ly & Iy). unfold strand_of in Iy. rewrite (lp_a _ _ _ _ _ _ _ _ H), (lp_b _ _ _ _ _ _ _ _ H) in *. destruct (y =? e); cbn in Iy; lia.
Qed.

(** ** faces *)
Context (o : orient) (Ho : (o = Pos /\ pb = (pa + 1) mod 4) \/ (o = Neg /\ pb = (pa + 3) mod 4)).
Definition side_of (x : nat * orient) : list (nat * orient) :=
  if fst x =? e then
    match o, snd x with
    | Pos, Pos => [(a, Pos); (e, Neg); (b, Pos)]
    | Pos, _ => [(b, Neg); (a, Neg)]
    | _, Pos => [(a, Pos); (b, Pos)]
    | _, _ => [(b, Neg); (e, Pos); (a, Neg)]
    end
  else [x].
Lemma to_e : forall x E s, fst x = e -> edge_at d e E -> dart_to d x s -> snd x = Pos /\ s = head_slot E \/ snd x = Neg /\ s = tail_slot E.
Proof. intros (y, oo) E s Fx HE (X & HX & Q). cbn in *. subst y. unfold edge_at in *. rewrite HE in HX. injection HX as <-. exact Q. Qed.
Lemma loop_left : left_turn d1 (e, o) (e, o).
Proof.
  destruct loop_E as (E & HE).
  destruct (lp_edges _ _ _ _ _ _ _ _ H E HE) as (A & E' & B & HA & HE' & HB & A1 & A2 & E1 & E2 & B1 & B2 & S1 & S2).
  destruct Ho as [(-> & Hb)|(-> & Hb)].
  - exists c, ((pb + 2) mod 4). split; [apply Nat.mod_upper_bound; lia|]. split; exists E'; split; auto; left; split; auto. rewrite E1, Hb. f_equal.
    clear -Hpa. destruct pa as [|[|[|[|?]]]]; cbn; lia.
  - exists c, ((pa + 2) mod 4). split; [apply Nat.mod_upper_bound; lia|]. split; exists E'; split; auto; right; split; auto. rewrite E2, Hb. f_equal.
    clear -Hpa. destruct pa as [|[|[|[|?]]]]; cbn; lia.
Qed.
Lemma loop_faces : forall fs, face_partition d fs -> face_partition d1 ([(e, o)] :: map (flat_map side_of) fs).
Proof.
  intros fs HF. destruct ab_new as (n1 & n2 & n3 & n4 & n5). destruct loop_E as (E & HE).
  destruct (lp_edges _ _ _ _ _ _ _ _ H E HE) as (A & E' & B & HA & HE' & HB & A1 & A2 & E1 & E2 & B1 & B2 & S1 & S2).
  assert (Ha : forall (x : nat * orient), is_dart d x -> fst x <> a /\ fst x <> b) by (intros x (Lx & _); lia).
  assert (LT : left_turn d1 (e, o) (e, o) /\
    (o = Pos -> left_turn d1 (a, Pos) (e, Neg) /\ left_turn d1 (e, Neg) (b, Pos) /\ left_turn d1 (b, Neg) (a, Neg)) /\
    (o = Neg -> left_turn d1 (a, Pos) (b, Pos) /\ left_turn d1 (b, Neg) (e, Pos) /\ left_turn d1 (e, Pos) (a, Neg))).
  { split; [exact loop_left|].
    assert (m4 : forall k, k mod 4 < 4) by (intro; apply Nat.mod_upper_bound; lia).
    destruct Ho as [(-> & Hb)|(-> & Hb)]; (split; intro Q; [try discriminate Q|try discriminate Q]).
    - split; [|split].
      + exists c, pa. split; auto. split; [exists A|exists E']; (split; [auto|]); [left|right]; split; auto. rewrite E2, Hb. f_equal.
        clear -Hpa. destruct pa as [|[|[|[|?]]]]; cbn; lia.
      + exists c, ((pa + 2) mod 4). split; auto. split; [exists E'|exists B]; (split; [auto|]); [right|left]; split; auto. rewrite B1, Hb. f_equal.
        clear -Hpa. destruct pa as [|[|[|[|?]]]]; cbn; lia.
      + exists c, pb. split; auto. split; [exists B|exists A]; (split; [auto|]); [right|right]; split; auto. rewrite A2, Hb. f_equal.
        clear -Hpa. destruct pa as [|[|[|[|?]]]]; cbn; lia.
    - split; [|split].
      + exists c, pa. split; auto. split; [exists A|exists B]; (split; [auto|]); [left|left]; split; auto. rewrite B1, Hb. f_equal.
      + exists c, pb. split; auto. split; [exists B|exists E']; (split; [auto|]); [right|left]; split; auto. rewrite E1, Hb. f_equal.
        clear -Hpa. destruct pa as [|[|[|[|?]]]]; cbn; lia.
      + exists c, ((pb + 2) mod 4). split; auto. split; [exists E'|exists A]; (split; [auto|]); [left|right]; split; auto. rewrite A2, Hb. f_equal.
        clear -Hpa. destruct pa as [|[|[|[|?]]]]; cbn; lia. }
  destruct LT as (LT0 & LT1 & LT2).
  assert (X : cpart (left_turn d1) (fun x => exists y, is_dart d y /\ In x (side_of y)) (map (flat_map side_of) fs)).
  { apply (cpart_expand _ _ (left_turn d) (left_turn d1) side_of (is_dart d)); auto.
    - intros (x, ox) (Lx & Ox). cbn in Lx, Ox. unfold side_of. cbn [fst snd]. destruct (Nat.eqb_spec x e) as [->|N].
      + destruct Ho as [(-> & Hb)|(-> & Hb)], Ox as [-> | ->]; (split; [discriminate|]);
          (split; [cbn; try destruct (LT1 eq_refl) as (? & ? & ?); try destruct (LT2 eq_refl) as (? & ? & ?); auto|]);
          repeat constructor; cbn; intuition congruence.
      + split; [discriminate|]. split; [cbn; auto|]. repeat constructor; cbn; tauto.
    - intros (x, ox) (y, oy) (z, oz) Dx Dy Ix Iy. destruct (Ha _ Dx) as (Xa & Xb). destruct (Ha _ Dy) as (Ya & Yb).
      destruct Dx as (_ & Ox). destruct Dy as (_ & Oy). cbn in *. unfold side_of in *. cbn [fst snd] in *.
      destruct (Nat.eqb_spec x e) as [->|Nx], (Nat.eqb_spec y e) as [->|Ny].
      + f_equal. destruct Ho as [(-> & Hb)|(-> & Hb)], Ox as [-> | ->], Oy as [-> | ->]; cbn in Ix, Iy; auto; exfalso; intuition congruence.
      + exfalso. destruct Ho as [(-> & Hb)|(-> & Hb)], Ox as [-> | ->]; cbn in Ix, Iy; intuition congruence.
      + exfalso. destruct Ho as [(-> & Hb)|(-> & Hb)], Oy as [-> | ->]; cbn in Ix, Iy; intuition congruence.
      + cbn in Ix, Iy. destruct Ix as [Ix|[]], Iy as [Iy|[]]. congruence.
    - intros x y u v Dx Dy (cc & p & Hp & Tx & Fy) (w1 & W1) (w2 & W2).
      exists cc, p. split; auto. split.
      + unfold side_of in W1. destruct (Nat.eqb_spec (fst x) e) as [Ex|N].
        * destruct (to_e x E _ Ex HE Tx) as [(Sx & Q)|(Sx & Q)]; rewrite Sx in W1.
          -- assert (u = (b, Pos)) as ->.
             { destruct Ho as [(-> & _)|(-> & _)].
               - change [(a, Pos); (e, Neg); (b, Pos)] with ([(a, Pos); (e, Neg)] ++ [(b, Pos)]) in W1. apply app_inj_tail in W1. destruct W1; auto.
               - change [(a, Pos); (b, Pos)] with ([(a, Pos)] ++ [(b, Pos)]) in W1. apply app_inj_tail in W1. destruct W1; auto. }
             exists B. split; auto. left. rewrite B2. auto.
          -- assert (u = (a, Neg)) as ->.
             { destruct Ho as [(-> & _)|(-> & _)].
               - change [(b, Neg); (a, Neg)] with ([(b, Neg)] ++ [(a, Neg)]) in W1. apply app_inj_tail in W1. destruct W1; auto.
               - change [(b, Neg); (e, Pos); (a, Neg)] with ([(b, Neg); (e, Pos)] ++ [(a, Neg)]) in W1. apply app_inj_tail in W1. destruct W1; auto. }
             exists A. split; auto. right. rewrite A1. auto.
        * change [x] with ([] ++ [x]) in W1. apply app_inj_tail in W1. destruct W1 as (_ & <-). destruct Tx as (X & HX & Q). exists X. split; auto.
          apply (lp_others _ _ _ _ _ _ _ _ H); auto.
      + apply dart_from_to in Fy. unfold side_of in W2. destruct (Nat.eqb_spec (fst y) e) as [Ey|N].
        * destruct (to_e (flip y) E _ Ey HE Fy) as [(Sy & Q)|(Sy & Q)].
          -- assert (Sy' : snd y = Neg) by (clear -Dy Sy; destruct Dy as (_ & Oy); destruct y as (yy, oy); unfold flip in Sy; cbn in *; destruct Oy; subst oy; cbn in *; congruence). rewrite Sy' in W2.
             assert (v = (b, Neg)) as -> by (destruct Ho as [(-> & _)|(-> & _)]; injection W2 as <- _; reflexivity).
             exists B. split; auto. right. rewrite B2. auto.
          -- assert (Sy' : snd y = Pos) by (clear -Dy Sy; destruct Dy as (_ & Oy); destruct y as (yy, oy); unfold flip in Sy; cbn in *; destruct Oy; subst oy; cbn in *; congruence). rewrite Sy' in W2.
             assert (v = (a, Pos)) as -> by (destruct Ho as [(-> & _)|(-> & _)]; injection W2 as <- _; reflexivity).
             exists A. split; auto. left. rewrite A1. auto.
        * injection W2 as <- _. apply dart_from_to in Fy. destruct Fy as (Y & HY & Q). exists Y. split; auto. apply (lp_others _ _ _ _ _ _ _ _ H); auto. }
  apply (cpart_cons _ _ _ _ _ [(e, o)] X); [discriminate| | | |].
  - intros [|i] x y Hx Hy; [cbn in Hx, Hy; injection Hx as <-; injection Hy as <-; auto|destruct i; discriminate].
  - repeat constructor; cbn; tauto.
  - intros x [<-|[]] ((y, oy) & Dy & Iy). destruct (Ha _ Dy) as (Ya & Yb). destruct Dy as (_ & Oy). cbn in Oy, Ya, Yb. unfold side_of in Iy. cbn [fst snd] in Iy.
    destruct (Nat.eqb_spec y e) as [->|N].
    + destruct Ho as [(-> & _)|(-> & _)], Oy as [-> | ->]; cbn in Iy; intuition congruence.
    + cbn in Iy. destruct Iy as [Iy|[]]. congruence.
  - intros (x, ox). unfold is_dart. cbn [fst snd]. rewrite (lp_nedges _ _ _ _ _ _ _ _ H). split.
    + intros (Lx & Ox). destruct (Nat.eq_dec x e) as [->|N].
      * destruct Ho as [(Eo & _)|(Eo & _)], Ox as [-> | ->].
        -- left. rewrite Eo. cbn. auto.
        -- right. exists (e, Pos). split; [split; cbn; auto|]. unfold side_of. cbn [fst snd]. rewrite Nat.eqb_refl, Eo. cbn; auto.
        -- right. exists (e, Neg). split; [split; cbn; auto|]. unfold side_of. cbn [fst snd]. rewrite Nat.eqb_refl, Eo. cbn; auto.
        -- left. rewrite Eo. cbn. auto.
      * right. destruct (le_lt_dec (nedges d) x) as [G1|G1].
        -- assert (x = a \/ x = b) by (rewrite (lp_a _ _ _ _ _ _ _ _ H), (lp_b _ _ _ _ _ _ _ _ H); lia).
           exists (e, ox). split; [split; cbn; auto|]. unfold side_of. cbn [fst snd]. rewrite Nat.eqb_refl.
           destruct Ho as [(Eo & _)|(Eo & _)], Ox as [-> | ->], H0 as [-> | ->]; rewrite Eo; cbn; auto.
        -- exists (x, ox). split; [split; cbn; auto|]. unfold side_of. cbn [fst snd]. destruct (Nat.eqb_spec x e); [congruence|]. cbn. auto.
    + intros [[Q|[]]|((y, oy) & (Ly & Oy) & Iy)]; [injection Q as <- <-; split; [lia|destruct Ho as [(-> & _)|(-> & _)]; auto]|].
      cbn in Ly, Oy. unfold side_of in Iy. cbn [fst snd] in Iy.
      assert (La : a < nedges d + 2) by (rewrite (lp_a _ _ _ _ _ _ _ _ H); lia). assert (Lb : b < nedges d + 2) by (rewrite (lp_b _ _ _ _ _ _ _ _ H); lia).
      destruct (Nat.eqb_spec y e) as [->|N].
      * destruct Ho as [(-> & _)|(-> & _)], Oy as [-> | ->]; cbn in Iy; intuition (match goal with Q : (_, _) = (x, ox) |- _ => injection Q as <- <- end; auto; lia).
      * destruct Iy as [Q|[]]. injection Q as <- <-. split; auto. lia.
Qed.
Lemma loop_planar : face_partition d (p_face d) -> nfaces d = ncross d + 2 -> connected d -> planar d1.
Proof.
  intros FP NF CN. exists ([(e, o)] :: map (flat_map side_of) (p_face d)). split; [apply loop_faces; exact FP|]. split.
  - cbn [length]. rewrite map_length, (lp_ncross _ _ _ _ _ _ _ _ H). unfold nfaces in NF. lia.
  - rewrite (lp_nedges _ _ _ _ _ _ _ _ H). constructor; [cbn; lia|]. apply Forall_forall. intros f Hf. apply in_map_iff in Hf. destruct Hf as (F & <- & HF).
    pose proof (face_edges_distinct d R T FP NF CN F HF) as ND.
    assert (LE : length F <= nedges d).
    { rewrite <- (map_length fst F), <- (seq_length (nedges d) 0). apply NoDup_incl_length; auto.
      intros x Hx. apply in_map_iff in Hx. destruct Hx as (y & <- & Hy). destruct FP as (_ & _ & P3).
      assert (is_dart d y) as (Ly & _) by (apply P3, in_concat; eauto). apply in_seq. lia. }
    assert (Q : length (flat_map side_of F) <= length F + (if in_dec Nat.eq_dec e (map fst F) then 2 else 0)).
    { clear -ND. induction F as [|x F IH]; [cbn; lia|]. cbn [map] in *. inversion ND as [|? ? Nx ND']; subst. specialize (IH ND'). cbn [flat_map length]. rewrite app_length.
      unfold side_of at 1. destruct (Nat.eqb_spec (fst x) e) as [Ex|N].
      - destruct (in_dec Nat.eq_dec e (map fst F)) as [I|I]; [rewrite <- Ex in I; tauto|].
        destruct (in_dec Nat.eq_dec e (fst x :: map fst F)) as [J|J]; [|exfalso; apply J; simpl; auto]. destruct o, (snd x); cbn [length]; lia.
      - cbn [length]. destruct (in_dec Nat.eq_dec e (map fst F)) as [I|I], (in_dec Nat.eq_dec e (fst x :: map fst F)) as [J|J]; try lia.
        exfalso. apply J. simpl. auto. }
    destruct (in_dec Nat.eq_dec e (map fst F)); lia.
Qed.
End Loop.
