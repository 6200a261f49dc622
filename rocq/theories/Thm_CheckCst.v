(** C85: plc_check_cst returns how far the curve is from meeting its constraints. *)
From Coq Require Import Reals List Bool Lra Lia Psatz ZArith.
From Verif Require Import Base Sampler SamplerProofs Hopf HopfProofs Fan FanProofs Rotate RotateProofs Closure Stats CheckCst Thm_Hopf Thm_Fan Thm_Stats.
Import ListNotations.
Open Scope R_scope.
Open Scope res_scope.

(** ** what is asked *)
(** [satisfies] and [obeyed] are those of Thm_Stats.v.  [v] is a vertex the constraint speaks about: *)
Definition covered (L : list arc) (c : constraint) (v : V3) : Prop :=
  exists s i, nth_error L (ccmp c) = Some s /\ (cvert c <= i < cvert c + cnum c)%nat /\ nth_error (verts s) i = Some v.
(** Constraints as they are set: they have a kind, lie within a component, fix one vertex only, and directions are not tiny. *)
Definition proper (L : list arc) (c : constraint) : Prop :=
  (exists s, nth_error L (ccmp c) = Some s /\ (cvert c + cnum c <= length (verts s))%nat) /\
  match ckind c with Unconstrained => False | Fixed => cnum c = 1%nat | _ => DBL_EPSILON < inner (vect0 c) (vect0 c) end.

(** ** proofs *)
Definition nearest (c : constraint) (v : V3) : V3 :=
  let t := vect0 c in let q := vect1 c in
  match ckind c with
  | Unconstrained => v
  | Fixed => t
  | Line => let s := (c0 t * (c0 v - c0 q) + c1 t * (c1 v - c1 q) + c2 t * (c2 v - c2 q)) / inner t t in mkV (c0 t * s + c0 q) (c1 t * s + c1 q) (c2 t * s + c2 q)
  | Plane => let f := (inner v t - c0 q) / inner t t in mkV (c0 v - c0 t * f) (c1 v - c1 t * f) (c2 v - c2 t * f)
  end.
Lemma eps0 : 0 < DBL_EPSILON. Proof. unfold DBL_EPSILON. lra. Qed.
Lemma line_closest : forall v t q, DBL_EPSILON < inner t t -> closest_line_point v t q = Ok (nearest (mkConstraint Line t q 0 0 0) v).
Proof.
  intros v t q H. pose proof eps0. unfold closest_line_point, nearest. cbn [ckind vect0 vect1]. change (c0 t * c0 t + c1 t * c1 t + c2 t * c2 t) with (inner t t). rewrite rdiv_ok by lra. cbn [bind]. destruct (Rlt_dec DBL_EPSILON (inner t t)); [reflexivity|contradiction].
Qed.
Lemma plane_xyz_ok : forall a b c x y z d, c <> 0 -> plane_xyz a b c x y z d = Ok (x - a * ((a * x + b * y + c * z - d) / (a * a + b * b + c * c)), y - b * ((a * x + b * y + c * z - d) / (a * a + b * b + c * c)), z - c * ((a * x + b * y + c * z - d) / (a * a + b * b + c * c))).
Proof.
  intros a b c x y z d C. assert (P : 0 < a * a + b * b + c * c) by (assert (0 < c * c) by nra; nra). unfold plane_xyz. rewrite rdiv_ok by lra. cbn [bind]. rewrite rdiv_ok by auto. cbn [bind]. apply f_equal, f_equal2; [reflexivity|]. field. split; lra.
Qed.
Lemma tiny_spec : forall x, (tiny x = true -> x * x <= / 1000000000000 * / 1000000000000) /\ (tiny x = false -> x <> 0).
Proof. intros x. unfold tiny. assert (0 < / 1000000000000) by lra. set (e := / 1000000000000) in *. clearbody e. destruct (Rle_dec x e); destruct (Rle_dec (- e) x); split; intros; try discriminate; nra. Qed.
Lemma plane_closest : forall v n d y z, DBL_EPSILON < inner n n -> closest_plane_point v n d = Ok (nearest (mkConstraint Plane n (mkV d y z) 0 0 0) v).
Proof.
  intros v n d y z H. pose proof eps0. unfold closest_plane_point, nearest. cbn [ckind vect0 vect1 c0]. change (c0 n * c0 n + c1 n * c1 n + c2 n * c2 n) with (inner n n). destruct (Rlt_dec DBL_EPSILON (inner n n)); [|contradiction].
  destruct (tiny_spec (c2 n)) as (A & B). destruct (tiny_spec (c1 n)) as (A' & B'). destruct (tiny (c2 n)); [destruct (tiny (c1 n))|].
  - specialize (A eq_refl). specialize (A' eq_refl). assert (c0 n <> 0). { intros E. unfold inner in H. rewrite E in H. unfold DBL_EPSILON in H. lra. } rewrite plane_xyz_ok by auto. cbn [bind]. unfold inner in *. f_equal. apply v3_eq; cbn [c0 c1 c2]; field; lra.
  - specialize (B' eq_refl). rewrite plane_xyz_ok by auto. cbn [bind]. unfold inner in *. f_equal. apply v3_eq; cbn [c0 c1 c2]; field; lra.
  - specialize (B eq_refl). rewrite plane_xyz_ok by auto. cbn [bind]. unfold inner in *. f_equal. apply v3_eq; cbn [c0 c1 c2]; field; lra.
Qed.
Lemma nearest_met : forall L c v, proper L c -> satisfies c (nearest c v) /\ forall p, satisfies c p -> sq_distance v (nearest c v) <= sq_distance v p.
Proof.
  intros L c v (_ & P). pose proof eps0. unfold satisfies, nearest. destruct (ckind c).
  - contradiction.
  - split; [auto|]. intros p ->. lra.
  - split; [eexists; repeat split; cbn [c0 c1 c2]; rewrite Rplus_comm; f_equal; apply Rmult_comm|]. intros p (s & E0 & E1 & E2). set (t := vect0 c) in *. set (q := vect1 c) in *. set (w := c0 t * (c0 v - c0 q) + c1 t * (c1 v - c1 q) + c2 t * (c2 v - c2 q)). cbv zeta.
    assert (W : w / inner t t * inner t t = w) by (field; lra). set (s0 := w / inner t t) in *. clearbody s0. unfold sq_distance. cbn [c0 c1 c2]. rewrite E0, E1, E2. pose proof (Rle_0_sqr (s - s0)) as SQ. unfold Rsqr in SQ. assert (SP : 0 <= (s - s0) * (s - s0) * inner t t) by (apply Rmult_le_pos; lra).
    assert (Z : (s - s0) * (w - s0 * inner t t) = 0) by (rewrite W; ring). unfold w, inner in *. lra.
  - set (n := vect0 c) in *. set (d := c0 (vect1 c)) in *. cbv zeta. assert (W : (inner v n - d) / inner n n * inner n n = inner v n - d) by (field; lra). set (f := (inner v n - d) / inner n n) in *. clearbody f. split; [unfold inner in *; cbn [c0 c1 c2]; lra|].
    intros p E. unfold sq_distance. cbn [c0 c1 c2]. pose proof (Rle_0_sqr (c0 v - c0 p - f * c0 n)). pose proof (Rle_0_sqr (c1 v - c1 p - f * c1 n)). pose proof (Rle_0_sqr (c2 v - c2 p - f * c2 n)). unfold Rsqr in *.
    assert (Z : f * (f * inner n n) = f * (inner v n - inner p n)) by (rewrite W, E; ring). unfold inner in *. lra.
Qed.
Definition errors (L : list arc) (c : constraint) : list R :=
  match nth_error L (ccmp c) with None => [] | Some s => map (fun v => sq_distance v (nearest c v)) (firstn (cnum c) (skipn (cvert c) (verts s))) end.
Definition maxed (l : list R) (e : R) : R := fold_left Rmax l e.
Lemma check_loop_ok : forall L cmp s f g, nth_error L cmp = Some s -> (forall v, f v = Ok (g v)) -> forall n vert e, (vert + n <= length (verts s))%nat ->
  check_loop L cmp f n vert e = Ok (maxed (map (fun v => sq_distance v (g v)) (firstn n (skipn vert (verts s)))) e).
Proof.
  intros L cmp s f g E F. induction n as [|n IH]; intros vert e B; [reflexivity|]. cbn [check_loop]. unfold read. rewrite E. destruct (nth_error (verts s) vert) as [v|] eqn:V; [|apply nth_error_None in V; lia]. cbn [bind]. rewrite F. cbn [bind]. rewrite IH by lia.
  apply nth_error_split in V as (l1 & l2 & V & <-). rewrite V. assert (K0 : skipn (length l1) (l1 ++ v :: l2) = v :: l2) by (clear; induction l1; cbn; auto). assert (K1 : skipn (S (length l1)) (l1 ++ v :: l2) = l2) by (clear; induction l1; cbn in *; auto). rewrite K0, K1. reflexivity.
Qed.
Lemma check_one_ok : forall L c e, proper L c -> check_one L c e = Ok (maxed (errors L c) e).
Proof.
  intros L c e ((s & E & B) & P). unfold check_one, errors. rewrite E. destruct (ckind c) eqn:K; [contradiction| | |].
  - rewrite P. rewrite (check_loop_ok L (ccmp c) s _ (nearest c)); auto; [intros; unfold nearest; rewrite K; auto|lia].
  - rewrite (check_loop_ok L (ccmp c) s _ (nearest c)); auto. intros v. rewrite line_closest by auto. unfold nearest. rewrite K. auto.
  - rewrite (check_loop_ok L (ccmp c) s _ (nearest c)); auto. intros v. rewrite (plane_closest v (vect0 c) (c0 (vect1 c)) 0 0) by auto. unfold nearest. rewrite K. auto.
Qed.
Lemma check_all_ok : forall L csts e, Forall (proper L) csts -> check_all L csts e = Ok (maxed (flat_map (errors L) csts) e).
Proof. intros L. induction csts as [|c csts IH]; intros e F; [reflexivity|]. inversion F; subst. cbn [check_all flat_map]. rewrite check_one_ok by auto. cbn [bind]. rewrite IH by auto. unfold maxed. rewrite fold_left_app. auto. Qed.
Lemma maxed_spec : forall l e, In (maxed l e) (e :: l) /\ forall x, In x (e :: l) -> x <= maxed l e.
Proof.
  induction l as [|y l IH]; intros e; [split; [left; auto|intros x [<-|[]]; cbn; lra]|]. cbn [maxed fold_left]. destruct (IH (Rmax e y)) as (A & B). unfold maxed in *. pose proof (B _ (or_introl eq_refl)). pose proof (Rmax_l e y). pose proof (Rmax_r e y). split.
  - destruct A as [A|A]; [|right; right; auto]. rewrite <- A. unfold Rmax. destruct (Rle_dec e y); [right; left|left]; auto.
  - intros x [<-|[<-|I]]; [lra|lra|apply B; right; auto].
Qed.
Lemma covered_list : forall L c s v, nth_error L (ccmp c) = Some s -> covered L c v <-> In v (firstn (cnum c) (skipn (cvert c) (verts s))).
Proof.
  intros L c s v E. assert (NS : forall (l : list V3) k n i, (i < n)%nat -> nth_error (firstn n (skipn k l)) i = nth_error l (k + i)). { induction l as [|x l IH]; intros k n i I; [destruct k, n, i; auto|]. destruct k as [|k]; [|apply IH; auto]. cbn [skipn Nat.add]. clear IH. revert n i I. generalize (x :: l). induction l0 as [|y l0 IH]; intros n i I; [destruct n, i; auto|]. destruct n as [|n]; [lia|]. destruct i as [|i]; [auto|]. apply IH. lia. }
  split.
  - intros (s' & i & E' & B & V). rewrite E in E'. injection E' as <-. apply (nth_error_In _ (i - cvert c)). rewrite NS by lia. replace (cvert c + (i - cvert c))%nat with i by lia. auto.
  - intros I. apply In_nth_error in I as (i & I). assert (i < cnum c)%nat. { assert (i < length (firstn (cnum c) (skipn (cvert c) (verts s))))%nat by (apply nth_error_Some; congruence). rewrite firstn_length in *. lia. } rewrite NS in I by auto. exists s, (cvert c + i)%nat. repeat split; auto; lia.
Qed.
Lemma sq_distance_sq : forall a b, distance a b = sqrt (sq_distance a b). Proof. reflexivity. Qed.
Lemma sq_distance_pos : forall a b, 0 <= sq_distance a b.
Proof. intros. unfold sq_distance. pose proof (Rle_0_sqr (c0 a - c0 b)). pose proof (Rle_0_sqr (c1 a - c1 b)). pose proof (Rle_0_sqr (c2 a - c2 b)). unfold Rsqr in *. lra. Qed.

(** The result is the greatest distance of a constrained vertex from the points where its constraint would be met: no vertex is farther
    away, and, unless the result is 0, some vertex is not nearer to any such point. *)
Theorem check_right : forall L csts, Forall (proper L) csts ->
  exists e, check_cst L csts = Ok e /\ 0 <= e /\
    (forall c v, In c csts -> covered L c v -> exists p, satisfies c p /\ distance v p <= e) /\
    (e = 0 \/ exists c v, In c csts /\ covered L c v /\ forall p, satisfies c p -> e <= distance v p).
Proof.
  intros L csts F. unfold check_cst. rewrite check_all_ok by auto. cbn [bind]. eexists. split; [reflexivity|]. split; [apply sqrt_pos|]. destruct (maxed_spec (flat_map (errors L) csts) 0) as (A & B). set (m := maxed (flat_map (errors L) csts) 0) in *. clearbody m. rewrite Forall_forall in F. split.
  - intros c v I C. exists (nearest c v). destruct (nearest_met L c v (F c I)) as (M & _). split; [auto|]. rewrite sq_distance_sq. apply sqrt_le_1_alt. apply B. right. apply in_flat_map. exists c. split; [auto|]. destruct (F c I) as ((s & E & _) & _). unfold errors. rewrite E. apply in_map_iff. exists v. split; [auto|]. apply (covered_list L c s v E). auto.
  - destruct A as [A|A]; [left; rewrite <- A; apply sqrt_0|right]. apply in_flat_map in A as (c & I & A). destruct (F c I) as ((s & E & _) & _). unfold errors in A. rewrite E in A. apply in_map_iff in A as (v & A & V). exists c, v. split; [auto|]. split; [apply (covered_list L c s v E); auto|]. intros p M. rewrite <- A, sq_distance_sq. apply sqrt_le_1_alt. apply (nearest_met L c v (F c I)). auto.
Qed.
Print Assumptions check_right.
(** So it is 0 exactly if all constraints are met. *)
Theorem check_zero : forall L csts, Forall (proper L) csts -> (check_cst L csts = Ok 0 <-> Forall (obeyed L) csts).
Proof.
  intros L csts F. destruct (check_right L csts F) as (e & -> & P & A & B). rewrite Forall_forall. split.
  - intros E. injection E as E. subst e. intros c I s i v S R V. destruct (A c v I) as (p & M & D); [exists s, i; auto|]. replace v with p; [auto|]. rewrite sq_distance_sq in D. pose proof (sqrt_pos (sq_distance v p)). assert (Z : sq_distance v p = 0) by (apply sqrt_eq_0; [apply sq_distance_pos|lra]). unfold sq_distance in Z. pose proof (Rle_0_sqr (c0 v - c0 p)). pose proof (Rle_0_sqr (c1 v - c1 p)). pose proof (Rle_0_sqr (c2 v - c2 p)). unfold Rsqr in *. apply v3_eq; apply Rminus_diag_uniq_sym; apply Rsqr_0_uniq; unfold Rsqr; lra.
  - intros O. f_equal. destruct B as [B|(c & v & I & (s & i & S & R & V) & M)]; [auto|]. assert (D : e <= distance v v) by (apply M; eapply O; eauto). rewrite sq_distance_sq in D. replace (sq_distance v v) with 0 in D by (unfold sq_distance; ring). rewrite sqrt_0 in D. lra.
Qed.
Print Assumptions check_zero.
(** Proper constraints of each kind. *)
Example proper_example : let L := [mkArc true [mkV 1 2 3; mkV 3 2 5; mkV 0 4 5]] in
  Forall (proper L) [mkConstraint Fixed (mkV 1 2 3) (mkV 0 0 0) 0 0 1; mkConstraint Line (mkV 1 0 1) (mkV 1 2 3) 0 0 2; mkConstraint Plane (mkV 0 0 1) (mkV 7 0 0) 0 1 2].
Proof. repeat constructor; cbn [ckind ccmp cvert cnum vect0 nth_error]; try (eexists; split; [reflexivity|cbn; lia]); unfold inner, DBL_EPSILON; cbn; lra. Qed.
