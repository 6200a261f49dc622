(** C76: equilateral polygons are assembled from their diagonals and dihedral angles, and sampled ones close up. *)
From Coq Require Import Reals List Bool Lra Lia Psatz QArith Qreals.
From Verif Require Import Base Sampler SamplerProofs Hopf HopfProofs Xoshiro XoshiroProofs Thm_Xoshiro Thm_Sampler Fan FanProofs.
Import ListNotations.
Open Scope R_scope.
Open Scope res_scope.

(** ** what is asked of the polygons *)
(** A closed polygon of n edges of length 1 that starts along the first axis. *)
Record equilateral (n : nat) (P : list V3) : Prop := {
  eq_number : length P = n;
  eq_edges : forall i, (i < n)%nat -> square_dist (vertex P i) (vertex P ((i + 1) mod n)) = 1;
  eq_start : vertex P 0 = mkV 0 0 0 /\ vertex P 1 = mkV 1 0 0 }.
(** the distance of a vertex from the first one *)
Definition diagonal (P : list V3) (i : nat) : R := sqrt (square_dist (vertex P i) (vertex P 0)).
Definition inner (u v : V3) : R := c0 u * c0 v + c1 u * c1 v + c2 u * c2 v.
Definition outer (u v : V3) : V3 := mkV (c1 u * c2 v - c2 u * c1 v) (c2 u * c0 v - c0 u * c2 v) (c0 u * c1 v - c1 u * c0 v).
Definition size (u : V3) : R := sqrt (inner u u).
(** The normal of the triangle with the corners 0, i, i + 1, its length twice the area. *)
Definition normal (P : list V3) (i : nat) : V3 := outer (vertex P i) (vertex P (i + 1)).
(** The triangles on both sides of the diagonal to vertex i + 1 meet in the angle theta, measured from the normal of the first to
    the normal of the second, against the sense of the diagonal.  (If a triangle is flat this says nothing.) *)
Definition dihedral_angle (P : list V3) (i : nat) (theta : R) : Prop :=
  inner (normal P i) (normal P (i + 1)) = size (normal P i) * size (normal P (i + 1)) * cos theta /\
  inner (outer (normal P i) (normal P (i + 1))) (vertex P (i + 1)) = - (size (vertex P (i + 1)) * size (normal P i) * size (normal P (i + 1)) * sin theta).
(** Diagonals d_0 = 1, d_1, ..., d_(n-2) = 1 that meet the inequalities of their triangles, and are not too short. *)
Definition admissible (ds : list R) : Prop := (2 <= length ds)%nat /\ nth 0 ds 0 = 1 /\ nth (length ds - 1) ds 0 = 1 /\ forall i, (i + 1 < length ds)%nat ->
  / 1000000000000 <= nth (i + 1) ds 0 /\ 1 <= nth i ds 0 + nth (i + 1) ds 0 /\ Rabs (nth (i + 1) ds 0 - nth i ds 0) <= 1.

(** ** proofs *)
Lemma same_length : forall {A B} (Q : A -> B -> Prop) l l', Forall2 Q l l' -> length l = length l'. Proof. intros A B Q l l' H. induction H; cbn; auto. Qed.
Lemma nth_last : forall {T} (l : list T) (x d : T), nth (length l) (x :: l) d = last l x.
Proof. intros T. induction l as [|y l IH]; intros x d; auto. cbn [length]. change (nth (length l) (y :: l) d = last (y :: l) x). rewrite IH, last_cons. auto. Qed.
Lemma admissible_triangles : forall ds l, (forall i, (i + 1 < length (l :: ds))%nat -> / 1000000000000 <= nth (i + 1) (l :: ds) 0 /\ 1 <= nth i (l :: ds) 0 + nth (i + 1) (l :: ds) 0 /\ Rabs (nth (i + 1) (l :: ds) 0 - nth i (l :: ds) 0) <= 1) ->
  triangles l ds /\ Forall (fun d => / 1000000000000 <= d) ds.
Proof.
  induction ds as [|d ds IH]; intros l H; [split; [exact I|constructor]|]. destruct (H 0%nat) as (A & B & C); [cbn; lia|]. cbn in A, B, C. destruct (IH d) as (T & F).
  - intros i Hi. specialize (H (S i)). cbn [length nth plus] in H, Hi |- *. apply H. lia.
  - split; [|constructor; auto]. cbn [triangles]. split; [unfold DBL_EPSILON; lra|]. split; [auto|]. split; [|auto]. unfold Rabs in C. destruct (Rcase_abs _) in C; lra.
Qed.
Lemma linked_edge : forall vs x, linked x vs -> forall i, (i < length vs)%nat -> dist2 (nth i (x :: vs) (mkV 0 0 0)) (nth (S i) (x :: vs) (mkV 0 0 0)) = 1.
Proof. induction vs as [|y vs IH]; intros x L i Hi; [cbn in Hi; lia|]. destruct L as (E & L). destruct i; [cbn; rewrite dist2_sym; auto|]. apply (IH y L). cbn in Hi. lia. Qed.
Lemma linked_closed : forall vs, linked (mkV 1 0 0) vs -> dot (last vs (mkV 1 0 0)) (last vs (mkV 1 0 0)) = 1 -> equilateral (2 + length vs) (mkV 0 0 0 :: mkV 1 0 0 :: vs).
Proof.
  intros vs L Z. split; [auto| |split; auto]. intros i Hi. rewrite square_dist_eq. unfold vertex. destruct (Nat.eq_dec i (S (length vs))) as [K|K].
  - replace (i + 1)%nat with (2 + length vs)%nat by lia. rewrite Nat.mod_same by lia. subst i. change (nth (S (length vs)) (mkV 0 0 0 :: mkV 1 0 0 :: vs) (mkV 0 0 0)) with (nth (length vs) (mkV 1 0 0 :: vs) (mkV 0 0 0)). rewrite nth_last. unfold dist2, dot in *. cbn [nth c0 c1 c2]. rewrite !Rminus_0_r. exact Z.
  - rewrite Nat.mod_small by lia. destruct i as [|i]; [unfold dist2; cbn; ring|]. replace (S i + 1)%nat with (S (S i)) by lia. apply (linked_edge vs _ L). lia.
Qed.
Lemma folded_nth : forall vs x thetas, folded x vs thetas -> forall i, (i + 1 < length vs)%nat -> (i < length thetas)%nat ->
  dihedral (nth i (x :: vs) (mkV 0 0 0)) (nth (i + 1) (x :: vs) (mkV 0 0 0)) (nth (i + 2) (x :: vs) (mkV 0 0 0)) (nth i thetas 0).
Proof.
  induction vs as [|y vs IH]; intros x thetas F i Hi Ht; [cbn in Hi; lia|]. destruct thetas as [|t ts]; [cbn in Ht; lia|]. destruct vs as [|z vs]; [cbn in Hi; lia|]. destruct F as (D & F). destruct i as [|i]; [exact D|]. apply (IH y ts F i); cbn in *; lia.
Qed.
Lemma diagonal_norm : forall v, sqrt (square_dist v (mkV 0 0 0)) = norm3 v.
Proof. intros v. unfold norm3. f_equal. unfold square_dist, Rsqr. cbn. ring. Qed.

(** Every list of admissible diagonals and every choice of angles gives a closed equilateral polygon with these diagonals and
    these dihedral angles. *)
Theorem polygon_assembled : forall thetas ds, admissible ds -> length thetas = (length ds - 2)%nat ->
  exists P, fantriangulation_action_angle thetas ds = Ok P /\ equilateral (length ds + 1) P /\
    (forall i, (i < length ds)%nat -> diagonal P (i + 1) = nth i ds 0) /\ (forall i, (i < length thetas)%nat -> dihedral_angle P (i + 1) (nth i thetas 0)).
Proof.
  intros thetas ds (N & D0 & DL & AD) LT. destruct ds as [|d0 ds]; [cbn in N; lia|]. cbn [nth] in D0. subst d0. destruct (admissible_triangles ds 1 AD) as (T & F). cbn [length] in *.
  rewrite Nat.sub_succ, Nat.sub_0_r, nth_last in DL. destruct (assembled ds thetas T DL ltac:(lia)) as (vs & E & LK & F2 & Z & FO). assert (LV : length vs = length ds) by (eapply same_length; eauto).
  exists (mkV 0 0 0 :: mkV 1 0 0 :: vs). split; [exact E|]. split; [replace (S (length ds) + 1)%nat with (2 + length vs)%nat by lia; apply linked_closed; auto|]. split.
  - intros i Hi. replace (i + 1)%nat with (S i) by lia. unfold diagonal, vertex. cbn [nth]. rewrite diagonal_norm. destruct i as [|i]; [cbn [nth]; apply norm3_eq; [lra|unfold dot; cbn; ring]|]. cbn [nth].
    assert (X : forall (us : list V3) es, Forall2 (fun v d => dot v v = d * d) us es -> Forall (fun d => / 1000000000000 <= d) es -> forall i, (i < length es)%nat -> norm3 (nth i us (mkV 0 0 0)) = nth i es 0).
    { clear. intros us es H. induction H; intros FF i Hi; [cbn in Hi; lia|]. inversion FF; subst. destruct i; [cbn; apply norm3_eq; [lra|auto]|]. cbn in *. apply IHForall2; auto; lia. }
    apply X; auto. lia.
  - intros i Hi. pose proof (folded_nth vs _ thetas FO i ltac:(lia) Hi) as DH. unfold dihedral_angle, normal, vertex. replace (i + 1 + 1)%nat with (S (i + 1)) by lia. replace (S (i + 1) + 1)%nat with (S (i + 2)) by lia. replace (i + 1)%nat with (S i) in * by lia. exact DH.
Qed.
Print Assumptions polygon_assembled.

(** Every closed equilateral polygon in standard position (the third vertex in the upper half of the plane of the first two axes),
    and with no vertex too close to the first, is assembled from its diagonals and some angles. *)
Theorem every_polygon_assembled : forall n P, (3 <= n)%nat -> equilateral n P -> c2 (vertex P 2) = 0 -> 0 <= c1 (vertex P 2) -> (forall i, (1 <= i < n)%nat -> DBL_EPSILON <= diagonal P i) ->
  exists thetas, length thetas = (n - 3)%nat /\ Forall (fun t => 0 <= t < 2 * PI) thetas /\ fantriangulation_action_angle thetas (map (diagonal P) (seq 1 (n - 1))) = Ok P.
Proof.
  intros n P N [L ED (V0 & V1)] Z2 Z1 DG. destruct P as [|a [|b vs]]; [cbn in L; lia|cbn in L; lia|]. cbn in V0, V1. subst a b. cbn [length] in L.
  assert (EQ : map (diagonal (mkV 0 0 0 :: mkV 1 0 0 :: vs)) (seq 1 (n - 1)) = 1 :: map norm3 vs).
  { replace (n - 1)%nat with (S (length vs)) by lia. cbn [seq map]. f_equal; [unfold diagonal, vertex; cbn [nth]; rewrite diagonal_norm; apply norm3_eq; [lra|unfold dot; cbn; ring]|]. rewrite <- (map_seq_nth norm3 vs (mkV 0 0 0)), <- seq_shift, map_map. rewrite <- seq_shift, map_map. apply map_ext. intros i. unfold diagonal, vertex. cbn [nth]. apply diagonal_norm. }
  assert (LK : linked (mkV 1 0 0) vs).
  { assert (X : forall us x, (forall i, (i < length us)%nat -> dist2 (nth i (x :: us) (mkV 0 0 0)) (nth (S i) (x :: us) (mkV 0 0 0)) = 1) -> linked x us).
    { induction us as [|y us IH]; intros x H; [exact I|]. split; [rewrite dist2_sym; apply (H 0%nat); cbn; lia|]. apply IH. intros i Hi. apply (H (S i)). cbn. lia. }
    apply X. intros i Hi. specialize (ED (S i) ltac:(lia)). rewrite Nat.mod_small in ED by lia. rewrite square_dist_eq in ED. replace (S i + 1)%nat with (S (S i)) in ED by lia. exact ED. }
  assert (FA : Forall (fun v => DBL_EPSILON <= norm3 v) vs).
  { apply Forall_forall. intros v V. destruct (In_nth vs v (mkV 0 0 0) V) as (i & Hi & Ei). specialize (DG (S (S i)) ltac:(lia)). unfold diagonal, vertex in DG. cbn [nth] in DG. rewrite diagonal_norm, Ei in DG. exact DG. }
  destruct (fan_reaches vs _ _ 1 start_ready LK FA) as (thetas & LT & BT & E).
  { intros y Y. destruct vs as [|y' vs]; [discriminate|]. injection Y as ->. unfold vertex in Z1, Z2. cbn [nth] in Z1, Z2. unfold ahead, dot, cross. cbn. rewrite Z2. split; lra. }
  exists thetas. split; [lia|]. split; [auto|]. rewrite EQ. cbn [fantriangulation_action_angle]. rewrite E. cbn [bind].
  assert (Z : dist2 (last vs (mkV 1 0 0)) (mkV 0 0 0) = 1). { specialize (ED (n - 1)%nat ltac:(lia)). replace (n - 1 + 1)%nat with n in ED by lia. rewrite Nat.mod_same, square_dist_eq in ED by lia. unfold vertex in ED. replace (n - 1)%nat with (S (length vs)) in ED by lia. change (nth (S (length vs)) (mkV 0 0 0 :: mkV 1 0 0 :: vs) (mkV 0 0 0)) with (nth (length vs) (mkV 1 0 0 :: vs) (mkV 0 0 0)) in ED. rewrite nth_last in ED. exact ED. }
  unfold dist2 in Z. cbn [c0 c1 c2] in Z. rewrite !Rminus_0_r in Z. rewrite Z, sqrt_1. replace (1 - 1) with 0 by ring. rewrite Rabs_R0. destruct (Rlt_dec 0 (/ 100000000)); [auto|lra].
Qed.
Print Assumptions every_polygon_assembled.

(** For every generator with values in [0,1] the sampler ends with a closed equilateral polygon, or because all rounds were rejected. *)
Theorem equilateral_sampled : forall (gen : Type) (uniform : gen -> R * gen) (good : gen -> Prop),
  (forall g, good g -> 0 <= fst (uniform g) <= 1 /\ good (snd (uniform g))) ->
  forall n g, good g -> (3 <= n)%nat -> (exists P g', random_equilateral_closed_polygon uniform n g = Ok (P, g') /\ good g' /\ equilateral n P) \/ random_equilateral_closed_polygon uniform n g = Fail.
Proof.
  intros gen uniform good U n g G N. unfold random_equilateral_closed_polygon. destruct (Nat.ltb_spec most_edges n); [auto|]. destruct (Nat.ltb_spec n 3); [lia|].
  destruct (rounds_ok uniform good U most_rounds n g G) as [F|(ds & g1 & E & G1 & L & T)]; [right; rewrite F; auto|]. rewrite E. cbn [bind]. destruct (angles_ok uniform good U (n - 3) g1 G1) as (LA & G2). destruct (angles uniform (n - 3) g1) as (ts, g2). cbn [fst snd] in LA, G2.
  destruct (assembled (ds ++ [1]) ts T (last_last ds 1 1)) as (vs & EV & LK & F2 & Z & _); [rewrite app_length; cbn; lia|]. rewrite EV. cbn [bind]. left. eexists _, _. split; [reflexivity|]. split; [auto|].
  assert (LV : length vs = length (ds ++ [1])) by (eapply same_length; eauto). rewrite app_length in LV. cbn in LV. replace n with (2 + length vs)%nat by lia. apply linked_closed; auto.
Qed.
Print Assumptions equilateral_sampled.
(** In particular for the generator of the library. *)
Theorem equilateral_sampled_xoshiro : forall n s, fits s -> (3 <= n)%nat ->
  (exists P s', random_equilateral_closed_polygon uniform_real n s = Ok (P, s') /\ fits s' /\ equilateral n P) \/ random_equilateral_closed_polygon uniform_real n s = Fail.
Proof.
  apply equilateral_sampled. intros s F. destruct (xoshiro_unit s F) as ((L & U) & F'). split; [|exact F']. cbn [uniform_real fst].
  apply Qle_Rle in L. apply Qlt_Rlt in U. rewrite RMicromega.Q2R_0 in L. rewrite RMicromega.Q2R_1 in U. split; [exact L|apply Rlt_le; exact U].
Qed.
Print Assumptions equilateral_sampled_xoshiro.

(** All admissible diagonals and all angles up to the constant TWOPI of the code are drawn: some numbers in [0,1] make the sampler
    return the polygon with these. *)
Theorem equilateral_drawn : forall thetas ds, admissible ds -> (length ds <= 2999)%nat -> length thetas = (length ds - 2)%nat -> Forall (fun t => 0 <= t <= TWOPI) thetas ->
  exists draws P, Forall (fun u => 0 <= u <= 1) draws /\ random_equilateral_closed_polygon deal (length ds + 1) draws = Ok (P, []) /\ fantriangulation_action_angle thetas ds = Ok P.
Proof.
  intros thetas ds AD L3 LT FT. destruct (polygon_assembled thetas ds AD LT) as (P & EP & _). destruct AD as (N & D0 & DL & AD). destruct ds as [|d0 ds]; [cbn in N; lia|]. cbn [nth] in D0. subst d0. destruct (admissible_triangles ds 1 AD) as (T & F). cbn [length] in N, LT, L3, DL |- *. rewrite Nat.sub_succ, Nat.sub_0_r, nth_last in DL.
  destruct (exists_last (l := ds)) as (es & e & ->); [intros ->; cbn in N; lia|]. rewrite last_last in DL. subst e. rewrite app_length in *. cbn [length] in *. destruct (triangles_app _ _ _ T) as (T0 & T1 & T2). apply Forall_app in F. destruct F as (F & _).
  exists (steps_of 1 es ++ map (fun t => t / TWOPI) thetas ++ []), P. split; [|split; [|exact EP]].
  - rewrite app_nil_r. apply Forall_app. split; [apply steps_unit; auto|]. apply Forall_forall. intros u Hu. apply in_map_iff in Hu. destruct Hu as (t & <- & It). pose proof (proj1 (Forall_forall _ _) FT t It) as B. cbn in B. assert (TP : 0 < TWOPI) by (unfold TWOPI; lra). split.
    + apply Rmult_le_pos; [lra|]. left. apply Rinv_0_lt_compat. auto.
    + apply Rmult_le_reg_r with TWOPI; [auto|]. unfold Rdiv. rewrite Rmult_assoc, Rinv_l by lra. lra.
  - unfold random_equilateral_closed_polygon. destruct (Nat.ltb_spec most_edges (S (length es + 1) + 1)) as [K|K]; [exfalso; unfold most_edges in K; lia|]. destruct (Nat.ltb_spec (S (length es + 1) + 1) 3); [lia|]. clear K.
    replace (S (length es + 1) + 1 - 3)%nat with (length es) by lia. assert (MR : exists k, most_rounds = S k) by (exists (pred most_rounds); unfold most_rounds; lia). destruct MR as (k & ->). cbn [rounds]. replace (S (length es + 1) + 1 - 3)%nat with (length es) by lia. rewrite deal_diagonals by auto. destruct (Rlt_dec (last es 1) 0); [lra|]. destruct (Rlt_dec 2 (last es 1)); [lra|]. cbn [bind]. replace (length es) with (length thetas) by lia. rewrite deal_angles. rewrite EP. auto.
Qed.
Print Assumptions equilateral_drawn.

(** More than 3000 edges are refused; with less than three the array of diagonals is read before its beginning. *)
Theorem equilateral_refused : forall (gen : Type) (uniform : gen -> R * gen) n g,
  ((3000 < n)%nat -> random_equilateral_closed_polygon uniform n g = Fail) /\ ((n < 3)%nat -> random_equilateral_closed_polygon uniform n g = UB).
Proof.
  intros gen u n g. unfold random_equilateral_closed_polygon. split; intros H.
  - destruct (Nat.ltb_spec most_edges n) as [K|K]; [auto|]. unfold most_edges in K. lia.
  - destruct (Nat.ltb_spec most_edges n) as [K|K]; [unfold most_edges in K; lia|]. destruct (Nat.ltb_spec n 3); [auto|lia].
Qed.
Print Assumptions equilateral_refused.

(** A folded square: four edges, the second diagonal 1, the triangles at a right angle. *)
Example admissible_square : admissible [1; 1; 1].
Proof. split; [cbn; lia|]. split; [auto|]. split; [auto|]. intros i Hi. cbn in Hi. destruct i as [|[|i]]; [| |lia]; cbn; rewrite Rminus_diag_eq by auto; rewrite Rabs_R0; lra. Qed.
Example folded_square : exists P, fantriangulation_action_angle [PI / 2] [1; 1; 1] = Ok P /\ equilateral 4 P /\ diagonal P 2 = 1 /\ inner (normal P 1) (normal P 2) = 0.
Proof.
  destruct (polygon_assembled [PI / 2] [1; 1; 1] admissible_square eq_refl) as (P & E & Q & D & A). exists P. split; [auto|]. split; [auto|]. split; [apply (D 1%nat); cbn; lia|]. destruct (A 0%nat ltac:(cbn; lia)) as (A1 & _). cbn [nth plus] in A1. rewrite cos_PI2, Rmult_0_r in A1. exact A1.
Qed.
