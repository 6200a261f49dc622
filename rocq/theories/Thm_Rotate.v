(** C77: rotations and fold moves are rigid motions. *)
From Coq Require Import Reals List Bool Lra Lia Psatz ZArith.
From Verif Require Import Base Sampler SamplerProofs Hopf HopfProofs Fan FanProofs Rotate RotateProofs Thm_Hopf Thm_Fan.
Import ListNotations.
Open Scope R_scope.
Open Scope res_scope.

(** ** what is asked *)
Definition plus3 (u v : V3) : V3 := mkV (c0 u + c0 v) (c1 u + c1 v) (c2 u + c2 v).
Definition minus3 (u v : V3) : V3 := mkV (c0 u - c0 v) (c1 u - c1 v) (c2 u - c2 v).
Definition times3 (k : R) (u : V3) : V3 := mkV (k * c0 u) (k * c1 u) (k * c2 u).
(** The rotation by the angle t around the line through the origin in the direction of the unit vector a (Rodrigues). *)
Definition rotation (a : V3) (t : R) (v : V3) : V3 := plus3 (plus3 (times3 (cos t) v) (times3 (sin t) (outer a v))) (times3 ((1 - cos t) * inner a v) a).
Definition unit_of (v : V3) : V3 := times3 (/ size v) v.
(** distance of v from that line *)
Definition off_axis (a v : V3) : R := size (outer a v).
Definition eps := DBL_EPSILON.

(** This is the rotation: it keeps a, and turns a vector f orthogonal to a towards a x f by the angle t. *)
Theorem rotation_frame : forall a f t, inner a a = 1 -> inner a f = 0 ->
  rotation a t a = a /\ rotation a t f = plus3 (times3 (cos t) f) (times3 (sin t) (outer a f)) /\
  rotation a t (outer a f) = plus3 (times3 (- sin t) f) (times3 (cos t) (outer a f)) /\
  forall k v w, rotation a t (plus3 (times3 k v) w) = plus3 (times3 k (rotation a t v)) (rotation a t w).
Proof.
  intros a f t A F. repeat split.
  - unfold rotation. rewrite A. apply v3_eq; unfold outer; cbn; ring.
  - unfold rotation. rewrite F. apply v3_eq; cbn; ring.
  - assert (X : outer a (outer a f) = plus3 (times3 (inner a f) a) (times3 (- inner a a) f)) by (apply v3_eq; unfold outer, inner; cbn; ring). assert (Y : inner a (outer a f) = 0) by (unfold inner, outer; cbn; ring). unfold rotation. rewrite X, Y, A, F. apply v3_eq; cbn; ring.
  - intros k v w. unfold rotation. apply v3_eq; unfold outer, inner; cbn; ring.
Qed.
Print Assumptions rotation_frame.

(** ** proofs *)
Lemma rotation_rod : forall a t v, rotation a t v = rod a t v. Proof. reflexivity. Qed.
Lemma size_norm3 : forall v, size v = norm3 v. Proof. reflexivity. Qed.
Lemma distance_dist : forall u v, distance u v = dist u v.
Proof. intros. unfold distance, dist, norm3. f_equal. Qed.
Lemma unit_one : forall v, eps <= size v -> dot (unit_of v) (unit_of v) = 1.
Proof. intros v H. apply normalize_vect_long. auto. Qed.

(** plc_rotate_vect rotates every vector around every axis that is not too short; points closer to the axis than the tolerance may
    stay where they are. *)
Theorem rotate_vect_rotates : forall v axis t, eps <= size axis ->
  exists w, rotate_vect v axis t = Ok w /\ distance w (rotation (unit_of axis) t v) <= 2 * eps /\
    (off_axis (unit_of axis) v = 0 \/ eps <= off_axis (unit_of axis) v -> w = rotation (unit_of axis) t v).
Proof.
  intros v axis t H. pose proof (unit_one axis H) as U. destruct (normalize_vect_long axis H) as (E & _). unfold rotate_vect. rewrite E. cbn [bind]. change (scale (/ norm3 axis) axis) with (unit_of axis). rewrite spin_moved by auto. eexists. split; [reflexivity|]. split; [rewrite distance_dist; apply moved_near; auto|]. intros K. apply moved_exact; auto.
Qed.
Print Assumptions rotate_vect_rotates.
Theorem rotate_vect_short : forall v axis t, size axis < eps -> rotate_vect v axis t = Ok v.
Proof. intros v axis t H. unfold rotate_vect. rewrite normalize_vect_short by auto. auto. Qed.
Print Assumptions rotate_vect_short.
(** Lengths are kept exactly, and two rotations around the same axis are one by the sum of the angles, for all vectors and axes. *)
Theorem rotate_vect_length : forall v axis t, exists w, rotate_vect v axis t = Ok w /\ size w = size v.
Proof.
  intros v axis t. destruct (Rlt_dec (size axis) eps) as [S|S]; [exists v; split; [apply rotate_vect_short; auto|auto]|]. pose proof (unit_one axis ltac:(lra)) as U. destruct (normalize_vect_long axis ltac:(unfold eps in S; rewrite size_norm3 in S; lra)) as (E & _). unfold rotate_vect. rewrite E. cbn [bind]. change (scale (/ norm3 axis) axis) with (unit_of axis). rewrite spin_moved by auto. eexists. split; [reflexivity|]. unfold moved. destruct (Rlt_dec _ _); auto. apply norm3_same, rod_norm. auto.
Qed.
Print Assumptions rotate_vect_length.
Theorem rotate_vect_sum : forall v axis s t, (do w <- rotate_vect v axis s; rotate_vect w axis t) = rotate_vect v axis (s + t).
Proof.
  intros v axis s t. unfold rotate_vect. destruct (Rlt_dec (size axis) eps) as [S|S]; [rewrite normalize_vect_short by auto; auto|]. pose proof (unit_one axis ltac:(lra)) as U. destruct (normalize_vect_long axis ltac:(unfold eps in S; rewrite size_norm3 in S; lra)) as (E & _). rewrite E. cbn [bind]. change (scale (/ norm3 axis) axis) with (unit_of axis). rewrite !spin_moved by auto. cbn [bind]. rewrite spin_moved by auto. rewrite moved_add by auto. auto.
Qed.
Print Assumptions rotate_vect_sum.

(** ** curves *)
Definition corner (L : list arc) (cp vt : nat) : V3 := nth vt (verts (nth cp L (mkArc true []))) (mkV 0 0 0).
Definition in_curve (L : list arc) (cp vt : nat) : Prop := (cp < length L)%nat /\ (vt < length (verts (nth cp L (mkArc true []))))%nat.
(** closed components have at least three vertices (plc_fix_wrap opens the others) *)
Definition wrapped (s : arc) : Prop := opened s = false -> (3 <= length (verts s))%nat.
Definition same_shape (L L' : list arc) : Prop := map (fun s => (opened s, length (verts s))) L = map (fun s => (opened s, length (verts s))) L'.

Lemma fix_wrapped : forall s, wrapped s -> fix_wrap s = s.
Proof. intros [o vs] W. unfold fix_wrap, wrapped in *. cbn [opened verts] in *. destruct (Nat.ltb_spec (length vs) 3); auto. destruct o; auto. specialize (W eq_refl). lia. Qed.
(** plc_rotate with an axis of length 1 rotates the whole curve: every vertex is where the rotation takes it, and all distances
    between vertices are kept, up to the tolerance. *)
Theorem rotate_rotates : forall L axis t, size axis = 1 -> Forall wrapped L ->
  exists L', plc_rotate L axis t = Ok L' /\ same_shape L L' /\
    (forall cp vt, in_curve L cp vt -> distance (corner L' cp vt) (rotation axis t (corner L cp vt)) <= 2 * eps) /\
    (forall cp vt cp' vt', in_curve L cp vt -> in_curve L cp' vt' -> Rabs (distance (corner L' cp vt) (corner L' cp' vt') - distance (corner L cp vt) (corner L cp' vt')) <= 4 * eps).
Proof.
  intros L axis t A W. assert (U : dot axis axis = 1) by (rewrite <- norm3_dot, <- size_norm3, A; ring). set (f := fun s => mkArc (opened s) (map (fun v => moved axis v t) (verts s))). exists (map f L).
  assert (E : plc_rotate L axis t = Ok (map f L)).
  { unfold plc_rotate. apply each_ok. intros s I. rewrite (each_ok _ (fun v => moved axis v t)) by (intros; apply spin_moved; auto). cbn [bind]. rewrite fix_wrapped; auto. pose proof (proj1 (Forall_forall _ _) W s I) as K. unfold wrapped in *. cbn. rewrite map_length. auto. }
  assert (C : forall cp vt, in_curve L cp vt -> corner (map f L) cp vt = moved axis (corner L cp vt) t).
  { intros cp vt (I & J). unfold corner. change (mkArc true []) with (f (mkArc true [])) at 1. rewrite map_nth. unfold f at 1. cbn [verts]. rewrite (nth_indep _ (mkV 0 0 0) (moved axis (mkV 0 0 0) t)) by (rewrite map_length; auto). apply (map_nth (fun v => moved axis v t)). }
  assert (N : forall cp vt, in_curve L cp vt -> distance (corner (map f L) cp vt) (rotation axis t (corner L cp vt)) <= 2 * eps) by (intros cp vt I; rewrite C, distance_dist by auto; apply moved_near; auto).
  split; [auto|]. split; [unfold same_shape; rewrite map_map; apply map_ext; intros s; cbn; rewrite map_length; auto|]. split; [auto|]. intros cp vt cp' vt' I I'. pose proof (N cp vt I) as N1. pose proof (N cp' vt' I') as N2. rewrite distance_dist in N1, N2. rewrite (distance_dist (corner (map f L) cp vt)), (distance_dist (corner L cp vt)). rewrite <- (rod_dist axis t (corner L cp vt) (corner L cp' vt') U). pose proof (dist_near (rod axis t (corner L cp vt)) (rod axis t (corner L cp' vt')) (corner (map f L) cp vt) (corner (map f L) cp' vt')) as D. rewrite rotation_rod in N1, N2. lra.
Qed.
Print Assumptions rotate_rotates.

(** The axis is not normalized: with a longer one an edge of square length 2 becomes one of square length 26. *)
Theorem rotate_long_axis_refuted : exists L axis t L', eps <= size axis /\ plc_rotate L axis t = Ok L' /\
  distance (corner L 0 0) (corner L 0 1) = sqrt 2 /\ distance (corner L' 0 0) (corner L' 0 1) = sqrt 26.
Proof.
  exists [mkArc true [mkV 0 0 0; mkV 1 0 1]], (mkV 0 0 2), (PI / 2), [mkArc true [mkV 0 0 0; mkV 0 (sqrt 10) 4]].
  assert (S10 : sqrt 10 * sqrt 10 = 10) by (apply sqrt_sqrt; lra). split; [|split; [|split]].
  - unfold size, inner, eps, DBL_EPSILON. cbn. replace (0 * 0 + 0 * 0 + 2 * 2) with (2 * 2) by ring. rewrite sqrt_square; lra.
  - unfold plc_rotate. cbn [each verts opened]. unfold spin. rewrite cos_PI2, sin_PI2.
    assert (N1 : normalize_vect (cross_prod (mkV 0 0 2) (vect_diff (mkV 0 0 0) (scale_vect (dot_prod (mkV 0 0 0) (mkV 0 0 2)) (mkV 0 0 2)))) = Ok None).
    { apply normalize_vect_short. pose proof eps_pos. rewrite (norm3_eq _ 0); [auto|lra|]. unfold dot, cross_prod, dot_prod. cbn. ring. }
    rewrite N1. cbn [bind]. set (nor := vect_diff (mkV 1 0 1) (scale_vect (dot_prod (mkV 1 0 1) (mkV 0 0 2)) (mkV 0 0 2))).
    assert (NE : nor = mkV 1 0 (-3)) by (unfold nor, dot_prod; apply v3_eq; cbn; ring). rewrite NE. replace (cross_prod (mkV 0 0 2) (mkV 1 0 (-3))) with (mkV 0 2 0) by (apply v3_eq; cbn; ring).
    assert (N2 : norm3 (mkV 0 2 0) = 2) by (apply norm3_eq; [lra|unfold dot; cbn; ring]). destruct (normalize_vect_long (mkV 0 2 0)) as (E2 & _); [rewrite N2; unfold DBL_EPSILON; lra|]. rewrite E2, N2. cbn [bind]. rewrite norm_ok. cbn [bind]. assert (N3 : norm3 (mkV 1 0 (-3)) = sqrt 10) by (unfold norm3; f_equal; cbn; ring). rewrite N3. unfold fix_wrap. cbn [verts length Nat.ltb Nat.leb]. do 3 f_equal. do 2 f_equal. apply v3_eq; unfold dot_prod; cbn; field.
  - unfold distance, corner. cbn. f_equal. unfold Rsqr. ring.
  - unfold distance, corner. cbn. f_equal. unfold Rsqr. transitivity (sqrt 10 * sqrt 10 + 16); [ring|rewrite S10; ring].
Qed.
Print Assumptions rotate_long_axis_refuted.

(** ** the fold move *)
(** the vertex that index i means, where -1 and nv are the neighbours of the ends: on a closed component those across the closing
    edge, on an open one the second from the end *)
Definition meant (s : arc) (i : Z) : nat :=
  if (i =? -1)%Z then (if opened s then 1 else length (verts s) - 1)%nat
  else if (i =? Z.of_nat (length (verts s)))%Z then (if opened s then length (verts s) - 2 else 0)%nat else Z.to_nat i.
Definition vert (s : arc) (i : nat) : V3 := nth i (verts s) (mkV 0 0 0).
Definition close_by (u v : V3) : Prop := Rabs (c0 u - c0 v) <= 2 * eps /\ Rabs (c1 u - c1 v) <= 2 * eps /\ Rabs (c2 u - c2 v) <= 2 * eps.
(** the edges of a component *)
Definition an_edge (s : arc) (i j : nat) : Prop := let n := length (verts s) in ((i + 1 < n)%nat /\ j = (i + 1)%nat) \/ (opened s = false /\ (i + 1 = n)%nat /\ j = 0%nat).

Lemma cell_meant : forall s i, (2 <= length (verts s))%nat -> (-1 <= i <= Z.of_nat (length (verts s)))%Z -> cell s i = Ok (vert s (meant s i)) /\ (meant s i < length (verts s))%nat.
Proof.
  intros s i L B. unfold cell, meant, vert. set (n := length (verts s)) in *.
  assert (X : forall j, (0 <= j < Z.of_nat n)%Z -> (if (j <? 0)%Z then UB else match nth_error (verts s) (Z.to_nat j) with Some v => Ok v | None => UB end) = Ok (nth (Z.to_nat j) (verts s) (mkV 0 0 0))).
  { intros j J. destruct (Z.ltb_spec j 0); [lia|]. rewrite (nth_error_nth' (verts s) (mkV 0 0 0)) by (unfold n in J; lia). auto. }
  destruct (Z.eqb_spec i (-1)) as [K|K]; [destruct (opened s); rewrite X by lia; split; try lia; do 2 f_equal; lia|]. destruct (Z.eqb_spec i (Z.of_nat n)) as [K2|K2]; [destruct (opened s); rewrite X by lia; split; try lia; do 2 f_equal; lia|]. rewrite X by lia. split; [auto|lia].
Qed.
Lemma vecteq_close : forall a b, vecteq a b = true <-> close_by a b.
Proof.
  intros a b. unfold vecteq, close_by, eps. assert (X : forall x y, Rabs x <= y <-> x <= y /\ - x <= y) by (intros x y; unfold Rabs; destruct (Rcase_abs x); lra). rewrite !X. split.
  - intros H. repeat match type of H with context [Rle_dec ?x ?y] => destruct (Rle_dec x y); [|repeat rewrite ?andb_false_r, ?andb_false_l in H; discriminate] end. repeat split; assumption.
  - intros ((A & B) & (C & D) & (E & F)). repeat match goal with |- context [Rle_dec ?x ?y] => destruct (Rle_dec x y); [|contradiction] end. auto.
Qed.
Lemma map_fixed : forall L, Forall wrapped L -> map fix_wrap L = L.
Proof. induction 1; cbn; auto. rewrite fix_wrapped by auto. f_equal. auto. Qed.
Lemma upd_Forall : forall {T} (P : T -> Prop) l i x, Forall P l -> P x -> Forall P (upd i x l).
Proof. intros T P. induction l as [|y l IH]; intros i x F X; destruct i; cbn; auto; inversion F; subst; constructor; auto. Qed.

(** plc_pfm keeps everything except the vertices strictly between the two indices, turns those around the line through the two
    vertices, and keeps the lengths of all edges, up to the tolerance.  Unless the two vertices are too close, it never fails. *)
Theorem fold_move_rigid : forall L cp s vt0 vt1 t, Forall wrapped L -> nth_error L cp = Some s -> (2 <= length (verts s))%nat ->
  (-1 <= vt0 <= Z.of_nat (length (verts s)))%Z -> (-1 <= vt1 <= Z.of_nat (length (verts s)))%Z ->
  let lo := Z.min vt0 vt1 in let hi := Z.max vt0 vt1 in let A := vert s (meant s lo) in let B := vert s (meant s hi) in
  ~ close_by A B ->
  exists s', plc_pfm L (Z.of_nat cp) vt0 vt1 t = Ok (upd cp s' L) /\ opened s' = opened s /\ length (verts s') = length (verts s) /\
    (forall i, (i < length (verts s))%nat -> ~ (lo < Z.of_nat i < hi)%Z -> vert s' i = vert s i) /\
    (forall i, (lo < Z.of_nat i < hi)%Z -> distance (vert s' i) (plus3 A (rotation (unit_of (minus3 B A)) t (minus3 (vert s i) A))) <= 2 * eps) /\
    (forall i j, an_edge s i j -> Rabs (distance (vert s' i) (vert s' j) - distance (vert s i) (vert s j)) <= 4 * eps).
Proof.
  intros L cp s vt0 vt1 t W E N B0 B1 lo hi A B NC. set (n := length (verts s)) in *. assert (LO : (-1 <= lo <= Z.of_nat n)%Z) by (unfold lo; lia). assert (HI : (-1 <= hi <= Z.of_nat n)%Z) by (unfold hi; lia).
  destruct (cell_meant s lo N LO) as (CLO & MLO). destruct (cell_meant s hi N HI) as (CHI & MHI). fold A in CLO. fold B in CHI. assert (CPL : (cp < length L)%nat) by (apply nth_error_Some; congruence).
  assert (WS : wrapped s) by (apply (proj1 (Forall_forall _ _) W); eapply nth_error_In; eauto).
  assert (VF : vecteq A B = false) by (destruct (vecteq A B) eqn:V; auto; apply vecteq_close in V; contradiction).
  assert (SYM : vecteq B A = false). { destruct (vecteq B A) eqn:V; auto. apply vecteq_close in V. exfalso. apply NC. destruct V as (V0 & V1 & V2). unfold close_by. rewrite Rabs_minus_sym in V0, V1, V2. auto. }
  assert (DF : vt0 <> vt1). { intros ->. apply NC. unfold A, B, lo, hi. rewrite Z.min_id, Z.max_id. unfold close_by. rewrite !Rminus_diag_eq by auto. rewrite Rabs_R0. pose proof eps_pos. unfold eps. lra. }
  pose proof (vecteq_far A B VF) as FAR. destruct (normalize_vect_long (vect_diff B A) FAR) as (EN & U). set (axis := scale (/ norm3 (vect_diff B A)) (vect_diff B A)) in *.
  assert (BA : B = vadd A (scale (norm3 (vect_diff B A)) axis)). { assert (X : forall m, m <> 0 -> B = vadd A (scale m (scale (/ m) (vect_diff B A)))) by (intros m M; apply v3_eq; cbn; field; auto). apply X. pose proof eps_pos. lra. }
  set (g := folding lo hi A axis t). exists (mkArc (opened s) (mapi g 0 (verts s))).
  assert (V' : forall i, (i < n)%nat -> vert (mkArc (opened s) (mapi g 0 (verts s))) i = g (Z.of_nat i) (vert s i)).
  { intros i I. unfold vert at 1. cbn [verts]. apply nth_error_nth. rewrite (mapi_nth g (verts s) 0 i (vert s i)) by (apply nth_error_nth'; auto). f_equal. }
  assert (FA : motion A axis t A = A) by (apply motion_base; auto). assert (FB : motion A axis t B = B) by (rewrite BA; apply motion_fix; auto).
  assert (NR : forall i, (i < n)%nat -> (lo < Z.of_nat i < hi)%Z \/ vert s i = A \/ vert s i = B -> dist (g (Z.of_nat i) (vert s i)) (motion A axis t (vert s i)) <= 2 * DBL_EPSILON).
  { intros i I K. destruct (Z_lt_dec lo (Z.of_nat i)) as [K1|K1]; [destruct (Z_lt_dec (Z.of_nat i) hi) as [K2|K2]|].
    - apply folding_near; auto.
    - unfold g. rewrite folding_out by lia. destruct K as [K|[K|K]]; [lia| |]; rewrite K, ?FA, ?FB, dist_same; pose proof eps_pos; lra.
    - unfold g. rewrite folding_out by lia. destruct K as [K|[K|K]]; [lia| |]; rewrite K, ?FA, ?FB, dist_same; pose proof eps_pos; lra. }
  split; [|split; [auto|split; [cbn; apply mapi_length|split; [|split]]]].
  - unfold plc_pfm. assert (T1 : ((0 <=? Z.of_nat cp)%Z && (Z.of_nat cp <? Z.of_nat (length L))%Z)%bool = true) by (apply andb_true_iff; split; lia). rewrite T1, Nat2Z.id, E. fold n.
    assert (T2 : ((-1 <=? vt0)%Z && (vt0 <=? Z.of_nat n)%Z)%bool = true) by (apply andb_true_iff; split; lia). assert (T3 : ((-1 <=? vt1)%Z && (vt1 <=? Z.of_nat n)%Z)%bool = true) by (apply andb_true_iff; split; lia). rewrite T2, T3.
    destruct (cell_meant s vt0 N B0) as (C0 & _). destruct (cell_meant s vt1 N B1) as (C1 & _). rewrite C0. cbn [bind]. rewrite C1. cbn [bind].
    assert (T4 : vecteq (vert s (meant s vt0)) (vert s (meant s vt1)) = false). { destruct (Z.le_ge_cases vt0 vt1) as [K|K]; unfold A, B, lo, hi in VF, SYM; [rewrite Z.min_l, Z.max_r in VF by lia; auto|rewrite Z.min_r, Z.max_l in SYM by lia; auto]. }
    rewrite T4. cbn [negb]. destruct (Z.eqb_spec vt0 vt1); [contradiction|]. fold lo hi. rewrite CLO. cbn [bind]. rewrite CHI. cbn [bind]. rewrite EN. cbn [bind]. rewrite fold_loop_ok by auto. cbn [bind]. rewrite map_fixed; [auto|]. apply upd_Forall; auto. unfold wrapped in *. cbn. rewrite mapi_length. auto.
  - intros i I O. rewrite V' by auto. apply folding_out. auto.
  - intros i I. assert (LI : (i < n)%nat) by lia. rewrite V' by auto. rewrite distance_dist. replace (plus3 A (rotation (unit_of (minus3 B A)) t (minus3 (vert s i) A))) with (motion A axis t (vert s i)); [apply NR; auto|]. unfold motion. apply v3_eq; apply Rplus_comm.
  - intros i j ED.
    assert (IJ : (i < n)%nat /\ (j < n)%nat) by (unfold an_edge in ED; fold n in ED; lia). destruct IJ as (Hi & Hj). rewrite !V' by auto. rewrite (distance_dist (g _ _)), (distance_dist (vert s i)).
    assert (DI : forall k, (lo < Z.of_nat k < hi)%Z \/ ~ (lo < Z.of_nat k < hi)%Z) by (intros; lia).
    assert (MB : forall k, Z.of_nat k = hi -> (k < n)%nat -> vert s k = B) by (intros k K1 K2; unfold B, meant; fold n; destruct (Z.eqb_spec hi (-1)); [lia|]; destruct (Z.eqb_spec hi (Z.of_nat n)); [lia|]; f_equal; lia).
    assert (MA : forall k, Z.of_nat k = lo -> (k < n)%nat -> vert s k = A) by (intros k K1 K2; unfold A, meant; fold n; destruct (Z.eqb_spec lo (-1)); [lia|]; destruct (Z.eqb_spec lo (Z.of_nat n)); [lia|]; f_equal; lia).
    assert (MN : opened s = false -> hi = Z.of_nat n -> vert s 0 = B) by (intros O K; unfold B, meant; fold n; rewrite O; destruct (Z.eqb_spec hi (-1)); [lia|]; destruct (Z.eqb_spec hi (Z.of_nat n)); [auto|lia]).
    assert (MM : opened s = false -> lo = (-1)%Z -> vert s (n - 1) = A) by (intros O K; unfold A, meant; fold n; rewrite O; destruct (Z.eqb_spec lo (-1)); [auto|lia]).
    assert (OUT : ~ (lo < Z.of_nat i < hi)%Z -> ~ (lo < Z.of_nat j < hi)%Z -> Rabs (dist (g (Z.of_nat i) (vert s i)) (g (Z.of_nat j) (vert s j)) - dist (vert s i) (vert s j)) <= 4 * eps).
    { intros K1 K2. unfold g. rewrite !folding_out by auto. rewrite Rminus_diag_eq by auto. rewrite Rabs_R0. pose proof eps_pos. unfold eps. lra. }
    assert (IN : ((lo < Z.of_nat i < hi)%Z \/ vert s i = A \/ vert s i = B) -> ((lo < Z.of_nat j < hi)%Z \/ vert s j = A \/ vert s j = B) -> Rabs (dist (g (Z.of_nat i) (vert s i)) (g (Z.of_nat j) (vert s j)) - dist (vert s i) (vert s j)) <= 4 * eps).
    { intros K1 K2. apply (edge_kept A axis t); [exact U|apply NR; auto|apply NR; auto]. }
    destruct (DI i) as [I|I], (DI j) as [J|J]; [apply IN; auto| | |auto]; unfold an_edge in ED; fold n in ED; destruct ED as [(E1 & E2)|(O & E1 & E2)].
    + apply IN; [auto|]. right. right. apply MB; lia.
    + apply IN; [auto|]. right. right. subst j. apply MN; [auto|lia].
    + apply IN; [|auto]. right. left. apply MA; lia.
    + apply IN; [|auto]. right. left. replace i with (n - 1)%nat by lia. apply MM; [auto|lia].
Qed.
Print Assumptions fold_move_rigid.
(** Two vertices that are too close, in particular an index given twice, stop the program. *)
Theorem fold_move_refused : forall L cp s vt0 vt1 t, nth_error L cp = Some s -> (2 <= length (verts s))%nat ->
  (-1 <= vt0 <= Z.of_nat (length (verts s)))%Z -> (-1 <= vt1 <= Z.of_nat (length (verts s)))%Z -> close_by (vert s (meant s vt0)) (vert s (meant s vt1)) \/ vt0 = vt1 ->
  plc_pfm L (Z.of_nat cp) vt0 vt1 t = Fail.
Proof.
  intros L cp s vt0 vt1 t E N B0 B1 C. assert (CPL : (cp < length L)%nat) by (apply nth_error_Some; congruence). unfold plc_pfm. set (n := length (verts s)) in *. assert (T1 : ((0 <=? Z.of_nat cp)%Z && (Z.of_nat cp <? Z.of_nat (length L))%Z)%bool = true) by (apply andb_true_iff; split; lia). rewrite T1, Nat2Z.id, E. fold n.
  assert (T2 : ((-1 <=? vt0)%Z && (vt0 <=? Z.of_nat n)%Z)%bool = true) by (apply andb_true_iff; split; lia). assert (T3 : ((-1 <=? vt1)%Z && (vt1 <=? Z.of_nat n)%Z)%bool = true) by (apply andb_true_iff; split; lia). rewrite T2, T3.
  destruct (cell_meant s vt0 N B0) as (C0 & _). destruct (cell_meant s vt1 N B1) as (C1 & _). rewrite C0. cbn [bind]. rewrite C1. cbn [bind]. assert (V : vecteq (vert s (meant s vt0)) (vert s (meant s vt1)) = true); [|rewrite V; auto].
  apply vecteq_close. destruct C as [C| ->]; auto. unfold close_by. rewrite !Rminus_diag_eq by auto. rewrite Rabs_R0. pose proof eps_pos. unfold eps. lra.
Qed.
Print Assumptions fold_move_refused.

(** A square folded along its diagonal meets the hypotheses. *)
Example fold_square : exists s', plc_pfm [mkArc false [mkV 0 0 0; mkV 1 0 0; mkV 1 1 0; mkV 0 1 0]] 0 0 2 (PI / 2) = Ok [s'] /\ vert s' 3 = mkV 0 1 0 /\ Rabs (distance (vert s' 0) (vert s' 1) - 1) <= 4 * eps.
Proof.
  set (s := mkArc false [mkV 0 0 0; mkV 1 0 0; mkV 1 1 0; mkV 0 1 0]).
  destruct (fold_move_rigid [s] 0 s 0 2 (PI / 2)) as (s' & E & _ & _ & K & _ & D); auto; try (cbn; lia).
  - constructor; [|constructor]. intros _. cbn. lia.
  - intros (H & _). change (Rabs (0 - 1) <= 2 * eps) in H. revert H. unfold eps, DBL_EPSILON, Rabs. destruct (Rcase_abs _); lra.
  - exists s'. split; [exact E|]. split; [rewrite K by (cbn; lia); auto|]. specialize (D 0%nat 1%nat). replace (distance (vert s 0) (vert s 1)) with 1 in D; [apply D; left; cbn; lia|]. unfold distance, vert, Rsqr. cbn. replace ((0 - 1) * (0 - 1) + (0 - 0) * (0 - 0) + (0 - 0) * (0 - 0)) with 1 by ring. rewrite sqrt_1. auto.
Qed.
