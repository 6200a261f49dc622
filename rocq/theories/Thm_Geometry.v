(** C80: angles, normals, circumcenters, intersections of planes, inscribed spheres, turning angles and dihedral angles. *)
From Coq Require Import Reals List Bool Lra Lia Psatz ZArith.
From Verif Require Import Base Sampler SamplerProofs Hopf HopfProofs Fan FanProofs Rotate RotateProofs Closure ClosureProofs Measure MeasureProofs Geometry Thm_Hopf Thm_Fan Thm_Rotate Thm_Closure Thm_Measure.
Import ListNotations.
Open Scope R_scope.
Open Scope res_scope.

(** ** what is asked *)
(** [inner], [outer], [size] and the others are those of Thm_Fan.v and Thm_Rotate.v. *)
Definition angle_between (u v : V3) : R := acos (inner u v / (size u * size v)).
(** the vertex with a number counted around the component *)
Definition vertex (s : arc) (i : Z) : V3 := nth (Z.to_nat (i mod Z.of_nat (length (verts s)))) (verts s) origin.
Definition edge_to (s : arc) (i : Z) : V3 := minus3 (vertex s i) (vertex s (i - 1)).
(** the angle between the edges at a vertex *)
Definition turn_at (s : arc) (i : Z) : R := angle_between (edge_to s i) (edge_to s (i + 1)).

(** ** proofs *)
Lemma lagrange : forall u v, inner u u * inner v v = inner u v * inner u v + inner (outer u v) (outer u v).
Proof. intros. unfold inner, outer. cbn [c0 c1 c2]. ring. Qed.
Lemma inner_pos : forall u, 0 <= inner u u.
Proof. intros u. pose proof (Rle_0_sqr (c0 u)). pose proof (Rle_0_sqr (c1 u)). pose proof (Rle_0_sqr (c2 u)). unfold inner, Rsqr in *. lra. Qed.
Lemma size_sq : forall u, size u * size u = inner u u. Proof. intros. unfold size. apply sqrt_sqrt, inner_pos. Qed.
Lemma size_pos : forall u, 0 <= size u. Proof. intros. apply sqrt_pos. Qed.
Lemma atan2_ok : forall L D r, 0 <= L -> 0 < r -> L * L + D * D = r * r -> 0 <= atan2 L D <= PI /\ D = r * cos (atan2 L D) /\ L = r * sin (atan2 L D).
Proof.
  intros L D r LP RP E. pose proof PI_RGT_0 as PP. unfold atan2. destruct (Rlt_dec 0 D) as [P|P]; [|destruct (Rlt_dec D 0) as [Q|Q]].
  - assert (S : sqrt (1 + (L / D)²) = r / D). { replace (1 + (L / D)²) with ((r / D) * (r / D)) by (unfold Rsqr; field_simplify_eq; [nra|lra]). apply sqrt_square. apply Rlt_le, Rdiv_lt_0_compat; lra. }
    rewrite cos_atan, sin_atan, S. pose proof (atan_bound (L / D)) as B. split; [|split; field; lra]. split; [|lra]. destruct (Rle_lt_or_eq_dec 0 L LP) as [X|X]; [|rewrite <- X; unfold Rdiv; rewrite Rmult_0_l, atan_0; lra]. assert (Y : 0 < L / D) by (apply Rdiv_lt_0_compat; lra). apply atan_increasing in Y. rewrite atan_0 in Y. lra.
  - destruct (Rle_dec 0 L); [|lra]. assert (S : sqrt (1 + (L / D)²) = r / - D). { replace (1 + (L / D)²) with ((r / - D) * (r / - D)) by (unfold Rsqr; field_simplify_eq; [nra|lra]). apply sqrt_square. apply Rlt_le, Rdiv_lt_0_compat; lra. }
    rewrite neg_cos, neg_sin, cos_atan, sin_atan, S. pose proof (atan_bound (L / D)) as B. split; [|split; field; lra]. split; [lra|]. destruct (Rle_lt_or_eq_dec 0 L LP) as [X|X]; [|rewrite <- X; unfold Rdiv; rewrite Rmult_0_l, atan_0; lra]. assert (Y : L / D < 0). { assert (0 < L / - D) by (apply Rdiv_lt_0_compat; lra). replace (L / D) with (- (L / - D)) by (field; lra). lra. } apply atan_increasing in Y. rewrite atan_0 in Y. lra.
  - assert (D = 0) by lra. subst D. assert (LR : L = r) by nra. destruct (Rlt_dec 0 L); [|lra]. rewrite cos_PI2, sin_PI2. lra.
Qed.
Lemma angle_length : forall A B, sqrt ((c0 A * c1 B - c1 A * c0 B) * (c0 A * c1 B - c1 A * c0 B) + (c0 A * c2 B - c2 A * c0 B) * (c0 A * c2 B - c2 A * c0 B) + (c1 A * c2 B - c2 A * c1 B) * (c1 A * c2 B - c2 A * c1 B)) = size (outer A B).
Proof. intros. unfold size. f_equal. unfold inner, outer. cbn [c0 c1 c2]. ring. Qed.

(** plc_angle is the angle between the vectors. *)
Theorem angle_right : forall A B, 0 < size A -> 0 < size B ->
  fst (plc_angle A B) = angle_between A B /\ 0 <= angle_between A B <= PI /\ inner A B = size A * size B * cos (angle_between A B) /\ size (outer A B) = size A * size B * sin (angle_between A B).
Proof.
  intros A B PA PB. destruct (atan2_ok (size (outer A B)) (inner A B) (size A * size B)) as (T & C & S); [apply size_pos|nra| |].
  - rewrite size_sq. transitivity (inner A A * inner B B); [rewrite lagrange; ring|]. rewrite <- !size_sq. ring.
  - set (t := atan2 (size (outer A B)) (inner A B)) in *. assert (E : angle_between A B = t). { unfold angle_between. rewrite C. replace (size A * size B * cos t / (size A * size B)) with (cos t) by (field; split; lra). apply acos_cos. auto. }
    rewrite E. split; [|auto]. unfold plc_angle. cbn [fst]. rewrite angle_length. reflexivity.
Qed.
Print Assumptions angle_right.
Lemma less_spec : forall a b, less a b = true <-> a < b. Proof. intros. unfold less. destruct (Rlt_dec a b); split; auto; discriminate. Qed.
Lemma less_no : forall a b, less a b = false <-> b <= a. Proof. intros. unfold less. destruct (Rlt_dec a b); split; auto; try discriminate; lra. Qed.
(** The flag is true unless the product of the lengths is about 1e-12 or less. *)
Theorem angle_flag : forall A B, (2 * / 1000000000000 <= size A * size B -> snd (plc_angle A B) = true) /\ (size A * size B <= / 1000000000000 -> snd (plc_angle A B) = false).
Proof.
  intros A B. unfold plc_angle. cbn [snd]. rewrite angle_length. change (dot_prod A B) with (inner A B). assert (E : size (outer A B) * size (outer A B) + inner A B * inner A B = (size A * size B) * (size A * size B)). { rewrite size_sq. transitivity (inner A A * inner B B); [rewrite lagrange; ring|]. rewrite <- !size_sq. ring. }
  pose proof (size_pos A) as PA. pose proof (size_pos B) as PB. assert (PR : 0 <= size A * size B) by nra. set (r := size A * size B) in *. clearbody r. rewrite <- (Rabs_right (size (outer A B))) in E by (apply Rle_ge, size_pos). set (x := Rabs (size (outer A B))) in *. assert (AB : inner A B * inner A B = Rabs (inner A B) * Rabs (inner A B)) by (unfold Rabs; destruct (Rcase_abs _); ring). rewrite AB in E. set (y := Rabs (inner A B)) in *. assert (0 <= x) by apply Rabs_pos. assert (0 <= y) by apply Rabs_pos. clearbody x y. split; intros H'.
  - destruct (less (/ 1000000000000) x) eqn:X; [auto|]. destruct (less (/ 1000000000000) y) eqn:Y; [auto|]. apply less_no in X. apply less_no in Y. exfalso. set (d := / 1000000000000) in *. assert (0 < d) by (unfold d; lra). clearbody d. nra.
  - replace (less (/ 1000000000000) x) with false by (symmetry; apply less_no; nra). replace (less (/ 1000000000000) y) with false by (symmetry; apply less_no; nra). auto.
Qed.
Print Assumptions angle_flag.

Lemma cell_vertex : forall s i, (1 <= length (verts s))%nat -> (0 <= i < Z.of_nat (length (verts s)))%Z \/ (opened s = false /\ (-1 <= i <= Z.of_nat (length (verts s)))%Z) -> cell s i = Ok (vertex s i).
Proof.
  intros s i N C. unfold vertex. change origin with vz. destruct (Z_lt_dec i 0) as [A|A]; [|destruct (Z_lt_dec i (Z.of_nat (length (verts s)))) as [B|B]].
  - assert (i = (-1)%Z) by lia. subst i. destruct C as [C|(O & _)]; [lia|]. unfold cell. cbn [Z.eqb]. rewrite O. replace (-1 mod Z.of_nat (length (verts s)))%Z with (Z.of_nat (length (verts s)) - 1)%Z by (apply (Z.mod_unique_pos _ _ (-1)); lia). destruct (Z.ltb_spec (Z.of_nat (length (verts s)) - 1) 0); [lia|]. rewrite (nth_error_nth' _ vz) by lia. auto.
  - rewrite Z.mod_small by lia. rewrite <- (Z2Nat.id i) at 1 by lia. apply reads_verts. lia.
  - assert (i = Z.of_nat (length (verts s))) by lia. subst i. destruct C as [C|(O & _)]; [lia|]. rewrite Z_mod_same_full. apply cell_end; auto.
Qed.
Lemma vertex_mod : forall s i, (1 <= length (verts s))%nat -> vertex s (i mod Z.of_nat (length (verts s))) = vertex s i.
Proof. intros. unfold vertex. rewrite Zmod_mod. auto. Qed.
Lemma vertex_mod_plus : forall s i k, (1 <= length (verts s))%nat -> vertex s (i mod Z.of_nat (length (verts s)) + k) = vertex s (i + k).
Proof. intros. unfold vertex. rewrite Zplus_mod_idemp_l. auto. Qed.

(** plc_turning_angle is the angle between the two edges at a vertex, for every index on closed components... *)
Theorem turning_angle_right : forall s i, (1 <= length (verts s))%nat -> (opened s = true -> (0 < i < Z.of_nat (length (verts s)) - 1)%Z) ->
  2 * / 1000000000000 <= size (edge_to s i) * size (edge_to s (i + 1)) -> turning_angle s i = Ok (turn_at s i, Some true).
Proof.
  intros s i N O S. assert (POS : 0 < size (edge_to s i) /\ 0 < size (edge_to s (i + 1))) by (pose proof (size_pos (edge_to s i)); pose proof (size_pos (edge_to s (i + 1))); split; nra).
  destruct (angle_right (edge_to s i) (edge_to s (i + 1))) as (F & _); [tauto|tauto|]. pose proof (proj1 (angle_flag (edge_to s i) (edge_to s (i + 1))) S) as K.
  set (nv := Z.of_nat (length (verts s))) in *. unfold turning_angle. fold nv.
  assert (E1 : opened s && ((i <=? 0)%Z || (nv - 1 <=? i)%Z) = false). { destruct (opened s); auto. specialize (O eq_refl). cbn [andb]. destruct (Z.leb_spec i 0); [lia|]. destruct (Z.leb_spec (nv - 1) i); [lia|auto]. } rewrite E1.
  assert (E2 : negb (opened s) && (nv =? 0)%Z = false) by (destruct (Z.eqb_spec nv 0); [lia|destruct (opened s); auto]). rewrite E2. set (vt := if opened s then i else (i mod nv)%Z).
  assert (V : forall k, vertex s (vt + k) = vertex s (i + k)) by (intros k; unfold vt; destruct (opened s); auto; apply vertex_mod_plus; auto).
  assert (RG : (0 <= vt < nv)%Z) by (unfold vt; destruct (opened s); [specialize (O eq_refl); lia|apply Z.mod_pos_bound; lia]).
  assert (C : forall k, (-1 <= k <= 1)%Z -> cell s (vt + k) = Ok (vertex s (i + k))). { intros k B. rewrite <- V. apply cell_vertex; auto. fold nv. unfold vt in *. destruct (opened s); [left; specialize (O eq_refl); lia|right; split; auto; lia]. }
  pose proof (C 0%Z ltac:(lia)) as C0'. pose proof (C (-1)%Z ltac:(lia)) as C1. pose proof (C 1%Z ltac:(lia)) as C2. rewrite Z.add_0_r in C0'. rewrite C0'. cbn [bind]. replace (vt - 1)%Z with (vt + -1)%Z by lia. rewrite C1. cbn [bind]. rewrite C2. cbn [bind].
  unfold edge_to in F, K. replace (i + 1 - 1)%Z with i in F, K by lia. rewrite Z.add_0_r. replace (i + -1)%Z with (i - 1)%Z by lia. change (vect_diff ?a ?b) with (minus3 a b). destruct (plc_angle (minus3 (vertex s i) (vertex s (i - 1))) (minus3 (vertex s (i + 1)) (vertex s i))) as [t ok]. cbn [fst snd] in F, K. subst t ok. unfold turn_at, edge_to. replace (i + 1 - 1)%Z with i by lia. auto.
Qed.
Print Assumptions turning_angle_right.
(** ... but 0, whatever the angle, if the edges are short (1e-6, say). *)
Theorem turning_angle_short_refuted : forall s i, opened s = false -> (1 <= length (verts s))%nat -> size (edge_to s i) * size (edge_to s (i + 1)) <= / 1000000000000 -> turning_angle s i = Ok (0, Some false).
Proof.
  intros s i O N S. pose proof (proj2 (angle_flag (edge_to s i) (edge_to s (i + 1))) S) as K. set (nv := Z.of_nat (length (verts s))) in *. unfold turning_angle. fold nv. rewrite O. cbn [andb negb]. destruct (Z.eqb_spec nv 0); [lia|]. set (vt := (i mod nv)%Z).
  assert (V : forall k, vertex s (vt + k) = vertex s (i + k)) by (intros k; unfold vt; apply vertex_mod_plus; auto).
  assert (RG : (0 <= vt < nv)%Z) by (unfold vt; apply Z.mod_pos_bound; lia).
  assert (C : forall k, (-1 <= k <= 1)%Z -> cell s (vt + k) = Ok (vertex s (i + k))) by (intros k B; rewrite <- V; apply cell_vertex; auto; fold nv; right; split; auto; lia).
  pose proof (C 0%Z ltac:(lia)) as C0'. pose proof (C (-1)%Z ltac:(lia)) as C1. pose proof (C 1%Z ltac:(lia)) as C2. rewrite Z.add_0_r in C0'. rewrite C0'. cbn [bind]. replace (vt - 1)%Z with (vt + -1)%Z by lia. rewrite C1. cbn [bind]. rewrite C2. cbn [bind].
  unfold edge_to in K. replace (i + 1 - 1)%Z with i in K by lia. rewrite Z.add_0_r. replace (i + -1)%Z with (i - 1)%Z by lia. change (vect_diff ?a ?b) with (minus3 a b). destruct (plc_angle (minus3 (vertex s i) (vertex s (i - 1))) (minus3 (vertex s (i + 1)) (vertex s i))) as [t ok]. cbn [snd] in K. subst ok. auto.
Qed.
Print Assumptions turning_angle_short_refuted.

(** plc_totalcurvature is the sum of the turning angles at all vertices of closed components and the inner ones of open components. *)
Definition turns (s : arc) : list Z := map Z.of_nat (if opened s then seq 1 (length (verts s) - 2) else seq 0 (length (verts s))).
Lemma angle_sym : forall A B, angle_between A B = angle_between B A.
Proof. intros. unfold angle_between. f_equal. f_equal; [unfold inner; ring|ring]. Qed.
Lemma flag_sym : forall A B, snd (plc_angle A B) = snd (plc_angle B A).
Proof. intros. unfold plc_angle. cbn [snd]. rewrite !angle_length. replace (size (outer B A)) with (size (outer A B)) by (unfold size; f_equal; unfold inner, outer; cbn; ring). replace (dot_prod B A) with (dot_prod A B) by (unfold dot_prod; ring). auto. Qed.
Lemma curvature_loop_ok : forall s, (1 <= length (verts s))%nat -> forall n vt tk, (opened s = true -> 1 <= vt /\ vt + n <= length (verts s) - 1)%nat -> (vt + n <= length (verts s))%nat ->
  (forall k, In k (seq vt n) -> 2 * / 1000000000000 <= size (edge_to s (Z.of_nat k)) * size (edge_to s (Z.of_nat k + 1))) -> curvature_loop s n (Z.of_nat vt) tk = Ok (tk + total (turn_at s) (map Z.of_nat (seq vt n))).
Proof.
  intros s N. induction n as [|n IH]; intros vt tk O B E; [cbn; f_equal; ring|]. cbn [curvature_loop seq map total].
  assert (C : forall k, (-1 <= k <= 1)%Z -> cell s (Z.of_nat vt + k) = Ok (vertex s (Z.of_nat vt + k))). { intros k K. apply cell_vertex; auto. destruct (opened s); [left; specialize (O eq_refl); lia|right; split; auto; lia]. }
  rewrite (C 1%Z) by lia. cbn [bind]. pose proof (C 0%Z ltac:(lia)) as C0'. rewrite Z.add_0_r in C0'. rewrite C0'. cbn [bind]. replace (Z.of_nat vt - 1)%Z with (Z.of_nat vt + -1)%Z by lia. rewrite (C (-1)%Z) by lia. cbn [bind]. replace (Z.of_nat vt + -1)%Z with (Z.of_nat vt - 1)%Z by lia.
  pose proof (E vt (or_introl eq_refl)) as BIG. set (e1 := edge_to s (Z.of_nat vt)) in *. set (e2 := edge_to s (Z.of_nat vt + 1)) in *. assert (POS : 0 < size e1 /\ 0 < size e2) by (pose proof (size_pos e1); pose proof (size_pos e2); split; nra).
  destruct (angle_right e2 e1) as (F & _); [tauto|tauto|]. pose proof (proj1 (angle_flag e1 e2) BIG) as K. rewrite flag_sym in K.
  replace (vect_diff (vertex s (Z.of_nat vt + 1)) (vertex s (Z.of_nat vt))) with e2 by (unfold e2, edge_to; replace (Z.of_nat vt + 1 - 1)%Z with (Z.of_nat vt) by lia; auto). change (vect_diff (vertex s (Z.of_nat vt)) (vertex s (Z.of_nat vt - 1))) with e1. destruct (plc_angle e2 e1) as [t ok]. cbn [fst snd] in F, K. subst ok. rewrite angle_sym in F. subst t. change (angle_between e1 e2) with (turn_at s (Z.of_nat vt)).
  replace (Z.of_nat vt + 1)%Z with (Z.of_nat (S vt)) by lia. replace (if opened s then turn_at s (Z.of_nat vt) else turn_at s (Z.of_nat vt)) with (turn_at s (Z.of_nat vt)) by (destruct (opened s); auto). rewrite IH; [f_equal; ring|intros X; specialize (O X); lia|lia|]. intros k I. apply E. right. auto.
Qed.
Theorem total_curvature_right : forall L, (forall s, In s L -> (1 <= length (verts s))%nat /\ forall i, In i (turns s) -> 2 * / 1000000000000 <= size (edge_to s i) * size (edge_to s (i + 1))) ->
  total_curvature L 0 = Ok (total (fun s => total (turn_at s) (turns s)) L).
Proof.
  assert (G : forall L tk, (forall s, In s L -> (1 <= length (verts s))%nat /\ forall i, In i (turns s) -> 2 * / 1000000000000 <= size (edge_to s i) * size (edge_to s (i + 1))) -> total_curvature L tk = Ok (tk + total (fun s => total (turn_at s) (turns s)) L)).
  { induction L as [|s L IH]; intros tk H; [cbn; f_equal; ring|]. cbn [total_curvature total]. destruct (H s (or_introl eq_refl)) as (N & T). assert (E : strand_curvature s tk = Ok (tk + total (turn_at s) (turns s))).
    { unfold strand_curvature, turns in *. destruct (opened s) eqn:O.
      - destruct (Nat.le_gt_cases (length (verts s)) 2) as [X|X]; [replace (length (verts s) - 2)%nat with 0%nat by lia; cbn; f_equal; ring|]. change 1%Z with (Z.of_nat 1). apply curvature_loop_ok; auto; try lia. intros k I. apply T. apply in_map. auto.
      - change 0%Z with (Z.of_nat 0). apply curvature_loop_ok; auto; try lia; try congruence. intros k I. apply T. apply in_map. auto. }
    rewrite E. cbn [bind]. rewrite IH by (intros s' I; apply H; right; auto). f_equal. ring. }
  intros L H. rewrite G by auto. f_equal. ring.
Qed.
Print Assumptions total_curvature_right.

(** plc_normal is the unit normal of the plane through three points, on the side from which they turn to the left. *)
Lemma unit_size : forall v, eps <= size v -> size (unit_of v) = 1.
Proof. intros v S. unfold size. replace (inner (unit_of v) (unit_of v)) with 1; [apply sqrt_1|]. symmetry. exact (unit_one v S). Qed.
Theorem normal_right : forall A B C, let w := outer (minus3 B A) (minus3 C A) in
  (eps <= size w -> exists n, plc_normal A B C = Ok (Some n) /\ size n = 1 /\ inner n (minus3 B A) = 0 /\ inner n (minus3 C A) = 0 /\ 0 < inner n w) /\
  (size w < eps -> plc_normal A B C = Ok None).
Proof.
  intros A B C w. split; intros S.
  - exists (unit_of w). destruct (normalize_vect_long w S) as (E & _). split; [exact E|]. split; [apply unit_size; auto|]. assert (P : 0 < size w) by (unfold eps, DBL_EPSILON in S; lra). split; [|split].
    + unfold unit_of, w, outer, inner. cbn. ring.
    + unfold unit_of, w, outer, inner. cbn. ring.
    + replace (inner (unit_of w) w) with (/ size w * (size w * size w)) by (rewrite size_sq; unfold unit_of, inner; cbn; ring). replace (/ size w * (size w * size w)) with (size w) by (field; lra). auto.
  - exact (normalize_vect_short w S).
Qed.
Print Assumptions normal_right.

(** plc_circumcenter is the point of the plane with the same distance, the radius, from three points that are not on a line. *)
Theorem circumcenter_right : forall A B C, c2 A = 0 -> c2 B = 0 -> c2 C = 0 -> / 100000000000000 <= Rabs (c2 (outer (minus3 B A) (minus3 C A))) ->
  exists P r, circumcenter A B C = Ok (Some (P, r)) /\ c2 P = 0 /\ distance P A = r /\ distance P B = r /\ distance P C = r.
Proof.
  intros A B C ZA ZB ZC S. unfold circumcenter. rewrite ZA, ZB, ZC, Rabs_R0. replace (less (/ 100000000000000) 0) with false by (symmetry; apply less_no; lra). cbn [orb]. set (d := c2 (outer (minus3 B A) (minus3 C A))) in *. change ((c0 B - c0 A) * (c1 C - c1 A) - (c1 B - c1 A) * (c0 C - c0 A)) with d. replace (less (Rabs d) (/ 100000000000000)) with false by (symmetry; apply less_no; auto). assert (D : d <> 0) by (intros Z; rewrite Z, Rabs_R0 in S; lra). unfold rdiv. destruct (Req_EM_T d 0); [contradiction|]. cbn [bind]. do 2 eexists. split; [reflexivity|]. split; [reflexivity|]. unfold distance. rewrite ZA, ZB, ZC. cbn [c0 c1 c2]. unfold Rsqr.
  set (k := / 2 / d). assert (K : k * d = / 2) by (unfold k; field; auto). clearbody k. unfold d, outer, minus3 in K. cbn [c0 c1 c2] in K. set (b0 := c0 B - c0 A) in *. set (b1 := c1 B - c1 A) in *. set (q0 := c0 C - c0 A) in *. set (q1 := c1 C - c1 A) in *. set (bl := b0 * b0 + b1 * b1). set (ql := q0 * q0 + q1 * q1). split; [f_equal; ring|]. replace (c0 B) with (b0 + c0 A) by (unfold b0; ring). replace (c1 B) with (b1 + c1 A) by (unfold b1; ring). replace (c0 C) with (q0 + c0 A) by (unfold q0; ring). replace (c1 C) with (q1 + c1 A) by (unfold q1; ring). split; f_equal.
  - transitivity (((q1 * bl - b1 * ql) * k) * ((q1 * bl - b1 * ql) * k) + ((b0 * ql - q0 * bl) * k) * ((b0 * ql - q0 * bl) * k) + bl - 2 * bl * (k * (b0 * q1 - b1 * q0))); [unfold bl; ring|]. rewrite K. lra.
  - transitivity (((q1 * bl - b1 * ql) * k) * ((q1 * bl - b1 * ql) * k) + ((b0 * ql - q0 * bl) * k) * ((b0 * ql - q0 * bl) * k) + ql - 2 * ql * (k * (b0 * q1 - b1 * q0))); [unfold ql; ring|]. rewrite K. lra.
Qed.
Print Assumptions circumcenter_right.
Theorem circumcenter_refused : forall A B C, / 100000000000000 < Rabs (c2 A) \/ / 100000000000000 < Rabs (c2 B) \/ / 100000000000000 < Rabs (c2 C) \/ Rabs (c2 (outer (minus3 B A) (minus3 C A))) < / 100000000000000 -> circumcenter A B C = Ok None.
Proof.
  intros A B C H. unfold circumcenter. destruct (less _ (Rabs (c2 A))) eqn:LA; [auto|]. destruct (less _ (Rabs (c2 B))) eqn:LB; [auto|]. destruct (less _ (Rabs (c2 C))) eqn:LC; [auto|]. apply less_no in LA. apply less_no in LB. apply less_no in LC. cbn [orb]. change ((c0 B - c0 A) * (c1 C - c1 A) - (c1 B - c1 A) * (c0 C - c0 A)) with (c2 (outer (minus3 B A) (minus3 C A))). replace (less (Rabs (c2 (outer (minus3 B A) (minus3 C A)))) (/ 100000000000000)) with true; [auto|]. symmetry. apply less_spec. destruct H as [H|[H|[H|H]]]; try lra.
Qed.
Print Assumptions circumcenter_refused.

(** plc_3plane_intersection is the only point on all three planes. *)
Lemma cramer : forall V1 V2 V3 w, times3 (inner V1 (outer V2 V3)) w = plus3 (plus3 (times3 (inner w V1) (outer V2 V3)) (times3 (inner w V2) (outer V3 V1))) (times3 (inner w V3) (outer V1 V2)).
Proof. intros. apply v3_eq; unfold inner, outer; cbn; ring. Qed.
Theorem three_planes_meet : forall N1 P1 N2 P2 N3 P3, eps <= size N1 -> eps <= size N2 -> eps <= size N3 ->
  / 100000000 <= Rabs (inner (unit_of N1) (outer (unit_of N2) (unit_of N3))) ->
  exists P, three_planes N1 P1 N2 P2 N3 P3 = Ok (Some P) /\ forall Q, Q = P <-> inner (minus3 Q P1) N1 = 0 /\ inner (minus3 Q P2) N2 = 0 /\ inner (minus3 Q P3) N3 = 0.
Proof.
  intros N1 P1 N2 P2 N3 P3 S1 S2 S3 D. unfold three_planes. destruct (normalize_vect_long N1 S1) as (-> & _). destruct (normalize_vect_long N2 S2) as (-> & _). destruct (normalize_vect_long N3 S3) as (-> & _). cbn [bind]. change (scale (/ norm3 N1) N1) with (unit_of N1). change (scale (/ norm3 N2) N2) with (unit_of N2). change (scale (/ norm3 N3) N3) with (unit_of N3).
  assert (Z : forall N w, eps <= size N -> (inner w N = 0 <-> inner w (unit_of N) = 0)). { intros N w S. assert (K : inner w (unit_of N) = / size N * inner w N) by (unfold unit_of, inner; cbn; ring). assert (0 < size N) by (unfold eps, DBL_EPSILON in S; lra). assert (/ size N <> 0) by (apply Rinv_neq_0_compat; lra). rewrite K. split; intros E; [rewrite E; ring|]. apply Rmult_integral in E. tauto. }
  set (V1 := unit_of N1) in *. set (V2 := unit_of N2) in *. set (V3 := unit_of N3) in *. change (dot_prod V1 (cross_prod V2 V3)) with (inner V1 (outer V2 V3)). set (d := inner V1 (outer V2 V3)) in *. replace (less (Rabs d) (/ 100000000)) with false by (symmetry; apply less_no; auto). assert (DZ : d <> 0) by (intros X; rewrite X, Rabs_R0 in D; lra). unfold rdiv. destruct (Req_EM_T d 0); [contradiction|]. cbn [bind]. eexists. split; [reflexivity|]. intros Q. rewrite (Z N1), (Z N2), (Z N3) by auto. fold V1 V2 V3. clearbody V1 V2 V3.
  set (P := scale_vect (1 / d) _). assert (DP : times3 d P = plus3 (plus3 (times3 (inner P1 V1) (outer V2 V3)) (times3 (inner P2 V2) (outer V3 V1))) (times3 (inner P3 V3) (outer V1 V2))). { assert (X : forall w, times3 d (scale_vect (1 / d) w) = w) by (intros w; apply v3_eq; cbn; field; auto). unfold P. rewrite X. apply v3_eq; unfold inner, dot_prod; cbn; ring. }
  clearbody P. split.
  - intros ->. assert (X : forall V Pi, inner (times3 d P) V = d * inner Pi V -> inner (minus3 P Pi) V = 0). { intros V Pi E. apply (Rmult_eq_reg_l d); [|auto]. transitivity (inner (times3 d P) V - d * inner Pi V); [unfold inner; cbn; ring|]. rewrite E. ring. } repeat split; apply X; rewrite DP; unfold d, inner, outer; cbn; ring.
  - intros (E1 & E2 & E3). assert (T : times3 d Q = times3 d P). { unfold d at 1. rewrite cramer, DP. replace (inner Q V1) with (inner P1 V1) by (unfold inner, minus3 in *; cbn in *; lra). replace (inner Q V2) with (inner P2 V2) by (unfold inner, minus3 in *; cbn in *; lra). replace (inner Q V3) with (inner P3 V3) by (unfold inner, minus3 in *; cbn in *; lra). auto. }
    injection T as T0 T1 T2. apply v3_eq; eapply Rmult_eq_reg_l; eauto.
Qed.
Print Assumptions three_planes_meet.

(** plc_tetrahedron_inradius is the distance of a point inside from all four faces. *)
Lemma size_nonzero : forall u w, inner u w <> 0 -> 0 < size w.
Proof. intros u w H. destruct (Rle_lt_or_eq_dec _ _ (size_pos w)) as [|E]; auto. exfalso. apply H. pose proof (size_sq w) as Q. rewrite <- E in Q. pose proof (lagrange u w) as G. pose proof (inner_pos (outer u w)). nra. Qed.
Theorem inradius_right : forall A B C D, inner (minus3 A D) (outer (minus3 B D) (minus3 C D)) <> 0 ->
  exists r P ka kb kc kd, tetrahedron_inradius A B C D = Ok r /\ 0 < ka /\ 0 < kb /\ 0 < kc /\ 0 < kd /\ ka + kb + kc + kd = 1 /\
    P = plus3 (plus3 (times3 ka A) (times3 kb B)) (plus3 (times3 kc C) (times3 kd D)) /\
    forall X Y Z, In (X, Y, Z) [(B, C, D); (C, A, D); (A, B, D); (A, B, C)] -> let n := outer (minus3 Y X) (minus3 Z X) in 0 < size n /\ Rabs (inner (minus3 P X) n) = r * size n.
Proof.
  intros A B C D V. unfold tetrahedron_inradius. change (vect_diff A D) with (minus3 A D). change (vect_diff B D) with (minus3 B D). change (vect_diff C D) with (minus3 C D). set (a := minus3 A D) in *. set (b := minus3 B D) in *. set (c := minus3 C D) in *.
  assert (SA : 0 < size (outer b c)) by (apply (size_nonzero a); auto).
  assert (SB : 0 < size (outer c a)) by (apply (size_nonzero b); intros E; apply V; rewrite <- E; unfold inner, outer; cbn [c0 c1 c2]; ring).
  assert (SC : 0 < size (outer a b)) by (apply (size_nonzero c); intros E; apply V; rewrite <- E; unfold inner, outer; cbn [c0 c1 c2]; ring).
  set (n := plus3 (outer b c) (plus3 (outer c a) (outer a b))). assert (SD : 0 < size n) by (apply (size_nonzero a); intros E; apply V; rewrite <- E; unfold n, inner, outer; cbn [c0 c1 c2 plus3]; ring).
  change (vnorm (cross_prod b c)) with (size (outer b c)). change (vnorm (cross_prod c a)) with (size (outer c a)). change (vnorm (cross_prod a b)) with (size (outer a b)). change (vnorm (vadd (cross_prod b c) (vadd (cross_prod c a) (cross_prod a b)))) with (size n). change (dot_prod a (cross_prod b c)) with (inner a (outer b c)). set (wa := size (outer b c)) in *. set (wb := size (outer c a)) in *. set (wc := size (outer a b)) in *. set (wd := size n) in *. set (s := wa + wb + wc + wd). assert (SP : 0 < s) by (unfold s; lra). unfold rdiv. destruct (Req_EM_T s 0); [lra|]. set (v := inner a (outer b c)) in *.
  exists (Rabs v / s), (plus3 (plus3 (times3 (wa / s) A) (times3 (wb / s) B)) (plus3 (times3 (wc / s) C) (times3 (wd / s) D))), (wa / s), (wb / s), (wc / s), (wd / s). split; [auto|]. repeat (split; [apply Rdiv_lt_0_compat; auto|]). split; [unfold s; field; fold s; unfold s in SP; lra|]. split; [auto|].
  set (P := plus3 _ _). set (p := plus3 (plus3 (times3 (wa / s) a) (times3 (wb / s) b)) (times3 (wc / s) c)).
  assert (EP : P = plus3 D p). { assert (KD : wd / s = 1 - wa / s - wb / s - wc / s) by (unfold s; field; unfold s in SP; lra). unfold P, p, a, b, c. rewrite KD. apply v3_eq; cbn; ring. }
  assert (ABS : forall x w, 0 < w -> Rabs (x * (w / s)) = Rabs x / s * w). { intros x w W. rewrite Rabs_mult, (Rabs_right (w / s)) by (apply Rle_ge, Rlt_le, Rdiv_lt_0_compat; auto). field. lra. }
  intros X Y Z [E|[E|[E|[E|[]]]]]; injection E as <- <- <-; cbv zeta.
  - assert (EN : outer (minus3 C B) (minus3 D B) = outer b c) by (apply v3_eq; unfold b, c, outer; cbn; ring). rewrite EN. split; [auto|]. fold wa. rewrite <- ABS by auto. f_equal. transitivity (inner (minus3 p b) (outer b c)); [rewrite EP; unfold inner, b; cbn; ring|]. unfold v, p. unfold inner, outer. cbn [c0 c1 c2 minus3 plus3 times3]. ring.
  - assert (EN : outer (minus3 A C) (minus3 D C) = outer c a) by (apply v3_eq; unfold a, c, outer; cbn; ring). rewrite EN. split; [auto|]. fold wb. rewrite <- ABS by auto. f_equal. transitivity (inner (minus3 p c) (outer c a)); [rewrite EP; unfold inner, c; cbn; ring|]. unfold v, p. unfold inner, outer. cbn [c0 c1 c2 minus3 plus3 times3]. ring.
  - assert (EN : outer (minus3 B A) (minus3 D A) = outer a b) by (apply v3_eq; unfold a, b, outer; cbn; ring). rewrite EN. split; [auto|]. fold wc. rewrite <- ABS by auto. f_equal. transitivity (inner (minus3 p a) (outer a b)); [rewrite EP; unfold inner, a; cbn; ring|]. unfold v, p. unfold inner, outer. cbn [c0 c1 c2 minus3 plus3 times3]. ring.
  - assert (EN : outer (minus3 B A) (minus3 C A) = n) by (apply v3_eq; unfold n, a, b, c, outer; cbn; ring). rewrite EN. split; [auto|]. fold wd. rewrite <- ABS, <- Rabs_Ropp by auto. f_equal. transitivity (- inner (minus3 p a) n); [rewrite EP; unfold inner, a; cbn; ring|]. replace (wd / s) with (1 - wa / s - wb / s - wc / s) by (unfold s; field; unfold s in SP; lra). unfold v, p, n. unfold inner, outer. cbn [c0 c1 c2 minus3 plus3 times3]. ring.
Qed.
Print Assumptions inradius_right.

(** plc_dihedral_angle: turned by the angle around the diagonal AC, the normal of ABC is opposite to that of ACD. *)
Lemma frame_expand : forall a n v, inner a a = 1 -> inner n n = 1 -> inner n a = 0 -> inner v a = 0 -> v = plus3 (times3 (inner v n) n) (times3 (inner v (outer n a)) (outer n a)).
Proof.
  intros a n v A N NA VA. set (p := outer n a). assert (PP : inner p p = 1) by (pose proof (lagrange n a) as G; rewrite A, N, NA in G; unfold p; lra).
  assert (PV : outer p v = times3 (inner v n) a). { transitivity (minus3 (times3 (inner v n) a) (times3 (inner v a) n)); [apply v3_eq; unfold p, outer, inner; cbn; ring|]. rewrite VA. apply v3_eq; cbn; ring. }
  assert (AP : outer a p = n). { transitivity (minus3 (times3 (inner a a) n) (times3 (inner n a) a)); [apply v3_eq; unfold p, outer, inner; cbn; ring|]. rewrite A, NA. apply v3_eq; cbn; ring. }
  transitivity (plus3 (outer (outer p v) p) (times3 (inner v p) p)).
  - transitivity (times3 (inner p p) v); [rewrite PP; apply v3_eq; cbn; ring|]. clearbody p. apply v3_eq; unfold outer, inner; cbn; ring.
  - rewrite PV. replace (outer (times3 (inner v n) a) p) with (times3 (inner v n) (outer a p)) by (apply v3_eq; unfold outer; cbn; ring). rewrite AP. auto.
Qed.
Theorem dihedral_right : forall A B C D, let w1 := outer (minus3 B A) (minus3 C A) in let w2 := outer (minus3 C A) (minus3 D A) in
  eps <= size w1 -> eps <= size w2 -> / 100000000 <= size (minus3 C A) ->
  exists r, Geometry.dihedral_angle A B C D = Ok (Some r) /\ 0 <= r < 2 * PI /\ rotation (unit_of (minus3 C A)) (- r) (unit_of w1) = times3 (-1) (unit_of w2).
Proof.
  intros A B C D w1 w2 S1 S2 SC. unfold Geometry.dihedral_angle, plc_normal. change (cross_prod (vect_diff B A) (vect_diff C A)) with w1. change (cross_prod (vect_diff C A) (vect_diff D A)) with w2. destruct (normalize_vect_long w1 S1) as (-> & _). destruct (normalize_vect_long w2 S2) as (-> & _). cbn [bind]. change (scale (/ norm3 w1) w1) with (unit_of w1). change (scale (/ norm3 w2) w2) with (unit_of w2). change (vect_diff C A) with (minus3 C A). set (AC := minus3 C A) in *. rewrite norm_ok. cbn [bind]. change (norm3 AC) with (size AC). replace (less (size AC) (/ 100000000)) with false by (symmetry; apply less_no; auto).
  assert (SA : eps <= size AC) by (unfold eps, DBL_EPSILON; lra). pose proof (unit_one AC SA) as UA. pose proof (unit_one w1 S1) as U1. pose proof (unit_one w2 S2) as U2. pose proof (unit_size w1 S1) as Z1. pose proof (unit_size w2 S2) as Z2. assert (P : 0 < size AC) by lra.
  assert (EA : AC = times3 (size AC) (unit_of AC)) by (apply v3_eq; unfold unit_of; cbn; field; lra).
  assert (O1 : inner (unit_of w1) (unit_of AC) = 0) by (unfold unit_of, w1, AC, inner, outer; cbn; ring). assert (O2 : inner (unit_of w2) (unit_of AC) = 0) by (unfold unit_of, w2, AC, inner, outer; cbn; ring).
  set (a := unit_of AC) in *. set (n1 := unit_of w1) in *. set (n2 := unit_of w2) in *. change (inner a a = 1) in UA. change (inner n1 n1 = 1) in U1. change (inner n2 n2 = 1) in U2.
  destruct (angle_right n1 n2) as (F & T & CO & SI); [lra|lra|]. pose proof (proj1 (angle_flag n1 n2) ltac:(rewrite Z1, Z2; lra)) as K. destruct (plc_angle n1 n2) as [t ok]. cbn [fst snd] in F, K. subst ok. rewrite <- F in T, CO, SI. clear F. rewrite Z1, Z2, !Rmult_1_l in CO, SI. cbn [negb].
  set (y := inner n2 (outer n1 a)). assert (SGN : dot_prod (cross_prod n1 AC) n2 = size AC * y) by (rewrite EA at 1; unfold y, dot_prod, inner, outer; cbn; ring). rewrite SGN.
  pose proof (frame_expand a n1 n2 UA U1 O1 O2) as EX. fold y in EX. replace (inner n2 n1) with (cos t) in EX by (rewrite <- CO; unfold inner; ring).
  assert (PP : inner (outer n1 a) (outer n1 a) = 1) by (pose proof (lagrange n1 a) as G; rewrite U1, UA, O1 in G; lra). assert (PN : inner n1 (outer n1 a) = 0) by (unfold inner, outer; cbn; ring).
  assert (YY : y * y = sin t * sin t). { assert (cos t * cos t + y * y = 1). { rewrite <- U2. rewrite EX at 1 2. transitivity (cos t * cos t * inner n1 n1 + 2 * cos t * y * inner n1 (outer n1 a) + y * y * inner (outer n1 a) (outer n1 a)); [rewrite U1, PN, PP; ring|]. generalize (outer n1 a). intros q. unfold inner. cbn. ring. } pose proof (sin2_cos2 t) as SC2. unfold Rsqr in SC2. lra. }
  assert (ST : 0 <= sin t) by (rewrite <- SI; apply size_pos).
  assert (ROT : forall r, cos r = - cos t -> sin r = - y -> rotation a (- r) n1 = times3 (-1) n2). { intros r CR SR. unfold rotation. rewrite cos_neg, sin_neg, CR, SR. replace (inner a n1) with 0 by (rewrite <- O1; unfold inner; ring). replace (outer a n1) with (times3 (-1) (outer n1 a)) by (apply v3_eq; unfold outer; cbn; ring). rewrite EX at 1. generalize (outer n1 a). intros q. apply v3_eq; cbn; ring. }
  destruct (less 0 (size AC * y)) eqn:LS.
  - apply less_spec in LS. assert (YP : 0 < y) by nra. assert (YE : y = sin t) by (apply Rsqr_inj; [lra|auto|exact YY]). exists (t + PI). split; [auto|]. split; [|apply ROT; [apply neg_cos|rewrite YE; apply neg_sin]]. split; [lra|]. destruct (Rle_lt_or_eq_dec t PI (proj2 T)) as [|E]; [lra|]. rewrite E, sin_PI in YE. lra.
  - apply less_no in LS. assert (YP : y <= 0) by nra. assert (YE : y = - sin t) by (assert (- y = sin t) by (apply Rsqr_inj; [lra|auto|rewrite <- Rsqr_neg; exact YY]); lra). exists (PI - t). split; [auto|]. split; [pose proof PI_RGT_0; lra|]. apply ROT; [rewrite cos_minus, cos_PI, sin_PI; ring|rewrite sin_PI_x, YE; ring].
Qed.
Print Assumptions dihedral_right.

(** ** examples *)
(** The corner of a cube. *)
Example cube_corner : exists P, three_planes (mkV 1 0 0) (mkV 2 0 0) (mkV 0 1 0) (mkV 0 3 0) (mkV 0 0 1) (mkV 0 0 4) = Ok (Some P) /\ P = mkV 2 3 4.
Proof.
  assert (S : forall v, inner v v = 1 -> size v = 1) by (intros v H; unfold size; rewrite H; apply sqrt_1).
  assert (U : forall v, inner v v = 1 -> unit_of v = v) by (intros v H; unfold unit_of; rewrite S by auto; apply v3_eq; cbn; field).
  destruct (three_planes_meet (mkV 1 0 0) (mkV 2 0 0) (mkV 0 1 0) (mkV 0 3 0) (mkV 0 0 1) (mkV 0 0 4)) as (P & E & Q).
  - rewrite S by (unfold inner; cbn; ring). unfold eps, DBL_EPSILON. lra.
  - rewrite S by (unfold inner; cbn; ring). unfold eps, DBL_EPSILON. lra.
  - rewrite S by (unfold inner; cbn; ring). unfold eps, DBL_EPSILON. lra.
  - rewrite !U by (unfold inner; cbn; ring). replace (inner _ _) with 1 by (unfold inner, outer; cbn; ring). rewrite Rabs_R1. lra.
  - exists P. split; [auto|]. symmetry. apply Q. unfold inner. cbn. repeat split; ring.
Qed.
(** The square turns by a right angle at every corner, also at the one before the first. *)
Example square_turns : turning_angle unit_square (-1) = Ok (PI / 2, Some true).
Proof.
  assert (V : edge_to unit_square (-1) = mkV (-1) 0 0 /\ edge_to unit_square (-1 + 1) = mkV 0 (-1) 0) by (unfold edge_to; change (vertex unit_square (-1 + 1)) with (mkV 0 0 0); change (vertex unit_square (-1 + 1 - 1)) with (mkV 0 1 0); change (vertex unit_square (-1)) with (mkV 0 1 0); change (vertex unit_square (-1 - 1)) with (mkV 1 1 0); split; apply v3_eq; cbn; ring). destruct V as (V1 & V2).
  assert (Z1 : size (mkV (-1) 0 0) = 1) by (unfold size, inner; cbn; replace (_ + _ + _) with 1 by ring; apply sqrt_1). assert (Z2 : size (mkV 0 (-1) 0) = 1) by (unfold size, inner; cbn; replace (_ + _ + _) with 1 by ring; apply sqrt_1).
  rewrite turning_angle_right; [|cbn; lia|discriminate|rewrite V1, V2, Z1, Z2; lra]. unfold turn_at, angle_between. rewrite V1, V2, Z1, Z2. replace (inner _ _ / _) with 0 by (unfold inner; cbn; field). rewrite acos_0. auto.
Qed.
