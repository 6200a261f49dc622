(** Proofs about rotations and the fold move. *)
From Coq Require Import Reals List Bool Lra Lia Psatz ZArith.
From Verif Require Import Base Sampler SamplerProofs Hopf HopfProofs Fan FanProofs Rotate.
Import ListNotations.
Open Scope R_scope.
Open Scope res_scope.

(** ** distances *)
Definition dist (u v : V3) : R := norm3 (vect_diff u v).
Lemma norm3_dot : forall v, norm3 v * norm3 v = dot v v. Proof. intros. rewrite norm3_square. auto. Qed.
Lemma le_square : forall a b, 0 <= b -> a * a <= b * b -> a <= b. Proof. intros. nra. Qed.
Lemma cauchy : forall u v, dot u v <= norm3 u * norm3 v.
Proof.
  intros u v. pose proof (norm3_nonneg u) as A. pose proof (norm3_nonneg v) as B. apply le_square; [apply Rmult_le_pos; auto|]. replace (norm3 u * norm3 v * (norm3 u * norm3 v)) with ((norm3 u * norm3 u) * (norm3 v * norm3 v)) by ring. rewrite !norm3_dot. pose proof (cross_norm u v) as C. assert (0 <= dot (cross u v) (cross u v)) by (unfold dot; nra). lra.
Qed.
Lemma norm3_tri : forall u v, norm3 (vadd u v) <= norm3 u + norm3 v.
Proof.
  intros u v. pose proof (norm3_nonneg u) as A. pose proof (norm3_nonneg v) as B. apply le_square; [lra|]. rewrite norm3_dot. assert (E : dot (vadd u v) (vadd u v) = dot u u + dot v v + 2 * dot u v) by (unfold dot; cbn; ring). rewrite E. pose proof (cauchy u v). pose proof (norm3_dot u). pose proof (norm3_dot v). nra.
Qed.
Lemma dist_sym : forall u v, dist u v = dist v u.
Proof. intros. unfold dist, norm3. f_equal. cbn. ring. Qed.
Lemma dist_tri : forall u v w, dist u w <= dist u v + dist v w.
Proof. intros. unfold dist. replace (vect_diff u w) with (vadd (vect_diff u v) (vect_diff v w)) by (apply v3_eq; cbn; ring). apply norm3_tri. Qed.
Lemma dist_same : forall u, dist u u = 0.
Proof. intros. unfold dist. apply norm3_eq; [lra|]. unfold dot. cbn. ring. Qed.
Lemma dist_near : forall p q p' q', Rabs (dist p' q' - dist p q) <= dist p' p + dist q' q.
Proof.
  intros. pose proof (dist_tri p' p q'). pose proof (dist_tri p q q'). pose proof (dist_tri p p' q). pose proof (dist_tri p' q' q). rewrite (dist_sym p p') in *. rewrite (dist_sym q q') in *. apply Rabs_le. lra.
Qed.

(** ** the formula of Rodrigues *)
Definition rod (a : V3) (t : R) (v : V3) : V3 := vadd (comb (cos t) v (sin t) (cross a v)) (scale ((1 - cos t) * dot a v) a).
Lemma circle : forall t, cos t * cos t + sin t * sin t = 1.
Proof. intros t. pose proof (sin2_cos2 t) as H. unfold Rsqr in H. lra. Qed.
Lemma rod_norm : forall a t v, dot a a = 1 -> dot (rod a t v) (rod a t v) = dot v v.
Proof.
  intros a t v A. pose proof (circle t) as C.
  assert (E : dot (rod a t v) (rod a t v) = cos t * cos t * dot v v + sin t * sin t * dot (cross a v) (cross a v) + (1 - cos t) * (1 - cos t) * dot a v * dot a v * dot a a + 2 * cos t * (1 - cos t) * dot a v * dot a v) by (unfold rod, dot, cross; cbn; ring).
  rewrite E, cross_norm, A. replace (sin t * sin t) with (1 - cos t * cos t) by lra. ring.
Qed.
Lemma rod_diff : forall a t v w, vect_diff (rod a t v) (rod a t w) = rod a t (vect_diff v w).
Proof. intros. apply v3_eq; unfold rod, dot, cross; cbn; ring. Qed.
Lemma norm3_same : forall u v, dot u u = dot v v -> norm3 u = norm3 v.
Proof. intros u v E. unfold norm3. f_equal. exact E. Qed.
Lemma rod_dist : forall a t v w, dot a a = 1 -> dist (rod a t v) (rod a t w) = dist v w.
Proof. intros a t v w A. unfold dist. rewrite rod_diff. apply norm3_same, rod_norm. auto. Qed.
Lemma rod_axis : forall a t k, dot a a = 1 -> rod a t (scale k a) = scale k a.
Proof. intros a t k A. assert (D : dot a (scale k a) = k) by (rewrite dot_sym, dot_scale, A; ring). unfold rod. rewrite D. apply v3_eq; unfold cross; cbn; ring. Qed.
Lemma rod_along : forall a t v, dot a a = 1 -> dot a (rod a t v) = dot a v.
Proof. intros a t v A. assert (E : dot a (rod a t v) = cos t * dot a v + (1 - cos t) * dot a v * dot a a) by (unfold rod, dot, cross; cbn; ring). rewrite E, A. ring. Qed.
Lemma rod_off : forall a t v, dot a a = 1 -> norm3 (cross a (rod a t v)) = norm3 (cross a v).
Proof. intros a t v A. apply norm3_same. rewrite !cross_norm, rod_norm, rod_along by auto. auto. Qed.
Lemma rod_add : forall a s t v, dot a a = 1 -> rod a t (rod a s v) = rod a (s + t) v.
Proof.
  intros a s t v A.
  assert (X : cross a (rod a s v) = comb (cos s) (cross a v) (sin s) (vadd (scale (dot a v) a) (scale (- dot a a) v))) by (apply v3_eq; unfold rod, dot, cross; cbn; ring).
  unfold rod at 1. rewrite X, rod_along, A by auto. unfold rod. rewrite cos_plus, sin_plus. apply v3_eq; cbn; ring.
Qed.
Lemma rod_zero : forall a v, rod a 0 v = v.
Proof. intros a v. unfold rod. rewrite cos_0, sin_0. apply v3_eq; cbn; ring. Qed.
Lemma rod_near : forall a t v, dot a a = 1 -> norm3 (cross a v) <= DBL_EPSILON -> dist v (rod a t v) <= 2 * DBL_EPSILON.
Proof.
  intros a t v A N. pose proof (norm3_nonneg (cross a v)) as N0. pose proof (circle t) as C. pose proof (COS_bound t) as CB. apply le_square; [pose proof eps_pos; lra|]. unfold dist. rewrite norm3_dot.
  assert (E : dot (vect_diff v (rod a t v)) (vect_diff v (rod a t v)) = (1 - cos t) * (1 - cos t) * (dot v v - 2 * dot a v * dot a v + dot a v * dot a v * dot a a) + sin t * sin t * dot (cross a v) (cross a v)) by (unfold rod, dot, cross; cbn; ring).
  rewrite E, A. assert (K : dot (cross a v) (cross a v) = dot v v - dot a v * dot a v) by (rewrite cross_norm, A; ring). replace (dot v v - 2 * dot a v * dot a v + dot a v * dot a v * 1) with (dot (cross a v) (cross a v)) by (rewrite K; ring). rewrite <- norm3_dot.
  set (o := norm3 (cross a v)) in *. clearbody o. replace ((1 - cos t) * (1 - cos t) * (o * o) + sin t * sin t * (o * o)) with ((2 - 2 * cos t) * (o * o)) by (replace (sin t * sin t) with (1 - cos t * cos t) by lra; ring).
  assert (o * o <= DBL_EPSILON * DBL_EPSILON) by nra. assert (0 <= o * o) by nra. nra.
Qed.

(** ** the code *)
Lemma norm_ok : forall v, norm v = Ok (norm3 v).
Proof. intros v. unfold norm. change (dot_prod v v) with (dot v v). rewrite <- norm3_dot. apply rsqrt_square, norm3_nonneg. Qed.
Lemma normalize_vect_short : forall v, norm3 v < DBL_EPSILON -> normalize_vect v = Ok None.
Proof. intros v H. unfold normalize_vect. rewrite norm_ok. cbn [bind]. destruct (Rlt_dec (norm3 v) DBL_EPSILON); [auto|lra]. Qed.
Lemma normalize_vect_long : forall v, DBL_EPSILON <= norm3 v -> normalize_vect v = Ok (Some (scale (/ norm3 v) v)) /\ dot (scale (/ norm3 v) v) (scale (/ norm3 v) v) = 1.
Proof.
  intros v H. pose proof eps_pos. split.
  - unfold normalize_vect. rewrite norm_ok. cbn [bind]. destruct (Rlt_dec (norm3 v) DBL_EPSILON); [lra|]. rewrite rdiv_ok by lra. cbn [bind]. unfold Rdiv. rewrite Rmult_1_l. auto.
  - rewrite dot_scale, dot_sym, dot_scale, <- norm3_dot. field. lra.
Qed.
Definition moved (a v : V3) (t : R) : V3 := if Rlt_dec (norm3 (cross a v)) DBL_EPSILON then v else rod a t v.
Lemma spin_ok : forall a v t, dot a a = 1 -> spin a v t = Ok (if Rlt_dec (norm3 (cross a v)) DBL_EPSILON then None else Some (rod a t v)).
Proof.
  intros a v t A. unfold spin. assert (E : cross_prod a (vect_diff v (scale_vect (dot_prod v a) a)) = cross a v) by (apply v3_eq; unfold cross_prod, cross, dot_prod; cbn; ring). rewrite E.
  destruct (Rlt_dec (norm3 (cross a v)) DBL_EPSILON) as [S|S]; [rewrite normalize_vect_short by auto; auto|]. destruct (normalize_vect_long (cross a v) ltac:(lra)) as (-> & _). cbn [bind]. rewrite norm_ok. cbn [bind].
  assert (N : norm3 (vect_diff v (scale_vect (dot_prod v a) a)) = norm3 (cross a v)).
  { apply norm3_same. assert (K : dot (vect_diff v (scale_vect (dot_prod v a) a)) (vect_diff v (scale_vect (dot_prod v a) a)) = dot v v - 2 * dot a v * dot a v + dot a v * dot a v * dot a a) by (unfold dot, dot_prod; cbn; ring). rewrite K, cross_norm, A. ring. }
  rewrite N. pose proof eps_pos. set (m := norm3 (cross a v)) in *. do 2 f_equal. assert (M : m <> 0) by lra. clearbody m. unfold rod. apply v3_eq; cbn; unfold dot_prod, dot, cross; cbn; field; auto.
Qed.
Lemma spin_moved : forall a v t, dot a a = 1 -> (do w <- spin a v t; Ok (match w with Some w => w | None => v end)) = Ok (moved a v t).
Proof. intros a v t A. rewrite spin_ok by auto. unfold moved. destruct (Rlt_dec _ _); auto. Qed.
Lemma moved_near : forall a v t, dot a a = 1 -> dist (moved a v t) (rod a t v) <= 2 * DBL_EPSILON.
Proof. intros a v t A. pose proof eps_pos. unfold moved. destruct (Rlt_dec _ _) as [S|S]; [apply rod_near; [auto|lra]|rewrite dist_same; lra]. Qed.
Lemma dot_zero : forall v, dot v v = 0 -> v = mkV 0 0 0.
Proof. intros v H. unfold dot in H. apply v3_eq; cbn; nra. Qed.
Lemma moved_exact : forall a v t, dot a a = 1 -> norm3 (cross a v) = 0 \/ DBL_EPSILON <= norm3 (cross a v) -> moved a v t = rod a t v.
Proof.
  intros a v t A [Z|Z]; unfold moved; destruct (Rlt_dec _ _) as [S|S]; auto; [|lra]. assert (CZ : dot (cross a v) (cross a v) = 0) by (rewrite <- norm3_dot, Z; ring).
  assert (K : v = scale (dot a v) a). { assert (D : dot (vect_diff v (scale (dot a v) a)) (vect_diff v (scale (dot a v) a)) = 0). { transitivity (dot v v - 2 * dot a v * dot a v + dot a v * dot a v * dot a a); [unfold dot; cbn; ring|]. rewrite cross_norm, A in CZ. rewrite A. lra. } apply dot_zero in D. revert D. generalize (dot a v). intros q D. injection D as D0 D1 D2. apply v3_eq; cbn; lra. }
  rewrite K at 2. rewrite rod_axis by auto. auto.
Qed.
Lemma moved_add : forall a v s t, dot a a = 1 -> moved a (moved a v s) t = moved a v (s + t).
Proof.
  intros a v s t A. unfold moved. destruct (Rlt_dec (norm3 (cross a v)) DBL_EPSILON) as [S|S]; [destruct (Rlt_dec _ _); [auto|lra]|]. rewrite rod_off by auto. destruct (Rlt_dec _ _); [lra|]. apply rod_add. auto.
Qed.
Lemma each_ok : forall {T U} (f : T -> res U) (h : T -> U) l, (forall x, In x l -> f x = Ok (h x)) -> each f l = Ok (map h l).
Proof. intros T U f h. induction l as [|x l IH]; intros H; auto. cbn [each map]. rewrite H by (left; auto). cbn [bind]. rewrite IH by (intros; apply H; right; auto). auto. Qed.

(** ** the fold move *)
Definition folding (vt0 vt1 : Z) (base axis : V3) (t : R) (i : Z) (v : V3) : V3 :=
  if ((vt0 <? i)%Z && (i <? vt1)%Z)%bool then (if Rlt_dec (norm3 (cross axis (vect_diff v base))) DBL_EPSILON then v else vadd (rod axis t (vect_diff v base)) base) else v.
Fixpoint mapi {T U} (f : Z -> T -> U) (i : Z) (l : list T) : list U := match l with [] => [] | x :: l' => f i x :: mapi f (i + 1) l' end.
Lemma mapi_nth : forall {T U} (f : Z -> T -> U) l i k x, nth_error l k = Some x -> nth_error (mapi f i l) k = Some (f (i + Z.of_nat k)%Z x).
Proof. intros T U f. induction l as [|y l IH]; intros i k x H; [destruct k; discriminate|]. destruct k as [|k]; cbn [mapi nth_error] in *; [injection H as ->; do 2 f_equal; lia|]. rewrite (IH (i + 1)%Z k x H). do 2 f_equal. lia. Qed.
Lemma mapi_length : forall {T U} (f : Z -> T -> U) l i, length (mapi f i l) = length l.
Proof. intros T U f. induction l; intros; cbn; auto. Qed.
Lemma fold_loop_ok : forall vs vt0 vt1 base axis t i, dot axis axis = 1 -> fold_loop vt0 vt1 base axis t i vs = Ok (mapi (folding vt0 vt1 base axis t) i vs).
Proof.
  induction vs as [|v vs IH]; intros vt0 vt1 base axis t i A; auto. cbn [fold_loop mapi]. assert (E : (if ((vt0 <? i)%Z && (i <? vt1)%Z)%bool then do w <- spin axis (vect_diff v base) t; Ok (match w with Some w => vadd w base | None => v end) else Ok v) = Ok (folding vt0 vt1 base axis t i v)).
  { unfold folding. destruct (_ && _)%bool; auto. rewrite spin_ok by auto. destruct (Rlt_dec _ _); auto. }
  rewrite E. cbn [bind]. rewrite IH by auto. auto.
Qed.
(** the exact motion *)
Definition motion (base axis : V3) (t : R) (v : V3) : V3 := vadd (rod axis t (vect_diff v base)) base.
Lemma motion_dist : forall base axis t v w, dot axis axis = 1 -> dist (motion base axis t v) (motion base axis t w) = dist v w.
Proof.
  intros base axis t v w A. unfold dist. replace (vect_diff (motion base axis t v) (motion base axis t w)) with (vect_diff (rod axis t (vect_diff v base)) (rod axis t (vect_diff w base))) by (unfold motion; apply v3_eq; cbn; ring). rewrite rod_diff. replace (vect_diff (vect_diff v base) (vect_diff w base)) with (vect_diff v w) by (apply v3_eq; cbn; ring). apply norm3_same, rod_norm. auto.
Qed.
Lemma motion_fix : forall base axis t k, dot axis axis = 1 -> motion base axis t (vadd base (scale k axis)) = vadd base (scale k axis).
Proof. intros base axis t k A. unfold motion. replace (vect_diff (vadd base (scale k axis)) base) with (scale k axis) by (apply v3_eq; cbn; ring). rewrite rod_axis by auto. apply v3_eq; cbn; ring. Qed.
Lemma motion_base : forall base axis t, dot axis axis = 1 -> motion base axis t base = base.
Proof. intros base axis t A. pose proof (motion_fix base axis t 0 A) as H. replace (vadd base (scale 0 axis)) with base in H by (apply v3_eq; cbn; ring). auto. Qed.
Lemma folding_near : forall vt0 vt1 base axis t i v, dot axis axis = 1 -> (vt0 < i < vt1)%Z -> dist (folding vt0 vt1 base axis t i v) (motion base axis t v) <= 2 * DBL_EPSILON.
Proof.
  intros vt0 vt1 base axis t i v A I. unfold folding. assert (E : ((vt0 <? i)%Z && (i <? vt1)%Z)%bool = true) by (apply andb_true_iff; split; lia). rewrite E. pose proof eps_pos. destruct (Rlt_dec _ _) as [S|S]; [|unfold motion; rewrite dist_same; lra].
  pose proof (rod_near axis t (vect_diff v base) A ltac:(lra)) as N. unfold dist in *. replace (vect_diff v (motion base axis t v)) with (vect_diff (vect_diff v base) (rod axis t (vect_diff v base))) by (unfold motion; apply v3_eq; cbn; ring). auto.
Qed.
Lemma folding_out : forall vt0 vt1 base axis t i v, ~ (vt0 < i < vt1)%Z -> folding vt0 vt1 base axis t i v = v.
Proof. intros vt0 vt1 base axis t i v I. unfold folding. destruct (Z.ltb_spec vt0 i); destruct (Z.ltb_spec i vt1); auto; lia. Qed.
(** an edge of which both ends follow the motion *)
Lemma edge_kept : forall base axis t p q p' q', dot axis axis = 1 -> dist p' (motion base axis t p) <= 2 * DBL_EPSILON -> dist q' (motion base axis t q) <= 2 * DBL_EPSILON -> Rabs (dist p' q' - dist p q) <= 4 * DBL_EPSILON.
Proof. intros base axis t p q p' q' A P Q. rewrite <- (motion_dist base axis t p q A). pose proof (dist_near (motion base axis t p) (motion base axis t q) p' q'). lra. Qed.
Lemma vecteq_far : forall a b, vecteq a b = false -> DBL_EPSILON <= norm3 (vect_diff b a).
Proof.
  intros a b H. pose proof eps_pos as EP. destruct (Rlt_dec (norm3 (vect_diff b a)) DBL_EPSILON) as [S|S]; [|lra]. exfalso. pose proof (norm3_nonneg (vect_diff b a)) as N0. pose proof (norm3_square (vect_diff b a)) as Q. cbn in Q. assert (QQ : norm3 (vect_diff b a) * norm3 (vect_diff b a) < DBL_EPSILON * DBL_EPSILON) by nra.
  assert (X : forall x, x * x <= norm3 (vect_diff b a) * norm3 (vect_diff b a) -> - x <= 2 * DBL_EPSILON /\ x <= 2 * DBL_EPSILON) by (intros; split; nra).
  pose proof (Rle_0_sqr (c0 b - c0 a)) as S0. pose proof (Rle_0_sqr (c1 b - c1 a)) as S1. pose proof (Rle_0_sqr (c2 b - c2 a)) as S2. unfold Rsqr in S0, S1, S2.
  destruct (X (c0 b - c0 a) ltac:(lra)) as (A1 & A2). destruct (X (c1 b - c1 a) ltac:(lra)) as (B1 & B2). destruct (X (c2 b - c2 a) ltac:(lra)) as (C1 & C2). clear X Q QQ. unfold vecteq in H. cbv zeta beta in H.
  repeat match type of H with context [Rle_dec ?x ?y] => destruct (Rle_dec x y); [|lra] end. discriminate.
Qed.
