(** Proofs about the assembly of equilateral polygons. *)
From Coq Require Import Reals List Bool Lra Lia Psatz.
From Verif Require Import Base Sampler SamplerProofs Hopf HopfProofs Fan.
Import ListNotations.
Open Scope R_scope.
Open Scope res_scope.

Lemma eps_pos : 0 < DBL_EPSILON. Proof. unfold DBL_EPSILON. lra. Qed.
Lemma eps_one : DBL_EPSILON < 1. Proof. unfold DBL_EPSILON. lra. Qed.
Lemma normalize_any_ok : forall v d, 0 < d -> dot v v = d * d -> normalize_any v = Ok (first v d).
Proof.
  intros v d D E. unfold normalize_any. change (c0 v * c0 v + c1 v * c1 v + c2 v * c2 v) with (dot v v). rewrite E, rsqrt_square by lra. cbn [bind]. rewrite rdiv_ok by lra. cbn [bind]. unfold first, scale, Rdiv. rewrite Rmult_1_l. auto.
Qed.
Lemma normalize_ok_ok : forall v d, DBL_EPSILON <= d -> dot v v = d * d -> normalize_ok v = Ok (first v d).
Proof.
  intros v d D E. pose proof eps_pos. unfold normalize_ok. change (c0 v * c0 v + c1 v * c1 v + c2 v * c2 v) with (dot v v). rewrite E, rsqrt_square by lra. cbn [bind]. destruct (Rlt_dec d DBL_EPSILON); [lra|]. rewrite rdiv_ok by lra. cbn [bind]. unfold first, scale, Rdiv. rewrite Rmult_1_l. auto.
Qed.
Lemma first_one : forall v, first v 1 = v.
Proof. intros v. unfold first, scale. rewrite Rinv_1, !Rmult_1_l. destruct v; auto. Qed.
Lemma lincomb_scale : forall d c s f0 f1, vlincomb (d * c) f0 (d * s) f1 = scale d (comb c f0 s f1).
Proof. intros. unfold vlincomb, scale, comb. cbn. f_equal; ring. Qed.

(** coordinates in an orthonormal frame *)
Lemma expansion : forall n f y, dot n n = 1 -> dot f f = 1 -> dot n f = 0 -> y = vadd (comb (dot y f) f (dot y (cross n f)) (cross n f)) (scale (dot y n) n).
Proof.
  intros n f y N F NF.
  assert (K : forall u v w : R, u = 1 -> w = u * v -> v = w) by (intros; subst; ring).
  assert (G : dot (cross n f) (cross n f) = 1) by (rewrite cross_norm, N, F, NF; ring).
  apply v3_eq; cbn; apply (K (dot (cross n f) (cross n f)) _ _ G).
  - transitivity ((dot y (cross n f)) * c0 (cross n f) + (dot y n * dot f f - dot y f * dot n f) * c0 n + (dot y f * dot n n - dot y n * dot n f) * c0 f); [rewrite N, F, NF; cbn; ring|]. unfold dot, cross. cbn. ring.
  - transitivity ((dot y (cross n f)) * c1 (cross n f) + (dot y n * dot f f - dot y f * dot n f) * c1 n + (dot y f * dot n n - dot y n * dot n f) * c1 f); [rewrite N, F, NF; cbn; ring|]. unfold dot, cross. cbn. ring.
  - transitivity ((dot y (cross n f)) * c2 (cross n f) + (dot y n * dot f f - dot y f * dot n f) * c2 n + (dot y f * dot n n - dot y n * dot n f) * c2 f); [rewrite N, F, NF; cbn; ring|]. unfold dot, cross. cbn. ring.
Qed.
Lemma angle_exists : forall c s, c * c + s * s = 1 -> exists t, 0 <= t < 2 * PI /\ cos t = c /\ sin t = s.
Proof.
  intros c s H. assert (B : -1 <= c <= 1) by nra. pose proof PI_RGT_0 as P. pose proof (acos_bound c) as A.
  assert (S : sin (acos c) = Rabs s). { rewrite sin_acos by auto. rewrite <- sqrt_Rsqr_abs. f_equal. unfold Rsqr. lra. }
  destruct (Rle_dec 0 s) as [L|L].
  - exists (acos c). rewrite Rabs_right in S by lra. split; [lra|]. split; [apply cos_acos; auto|auto].
  - rewrite Rabs_left in S by lra. assert (NZ : acos c <> 0) by (intros Z; rewrite Z, sin_0 in S; lra). exists (2 * PI - acos c). split; [lra|]. split.
    + rewrite cos_minus, cos_2PI, sin_2PI, cos_acos by auto. ring.
    + rewrite sin_minus, cos_2PI, sin_2PI, S. ring.
Qed.

(** ** the vertices *)
Fixpoint linked (x : V3) (vs : list V3) : Prop := match vs with [] => True | y :: vs' => dist2 y x = 1 /\ linked y vs' end.
(** diagonals that satisfy the inequalities of their triangles *)
Fixpoint triangles (dl : R) (ds : list R) : Prop := match ds with [] => True | d :: ds' => DBL_EPSILON <= d /\ 1 <= dl + d /\ -1 <= d - dl <= 1 /\ triangles d ds' end.

Definition ready (x normal : V3) (d : R) : Prop := DBL_EPSILON <= d /\ dot x x = d * d /\ dot normal normal = 1 /\ dot normal x = 0.
Lemma frame_facts : forall x n d, ready x n d -> normalize_ok x = Ok (first x d) /\ normalize_ok (cross_prod n (first x d)) = Ok (second x n d) /\
  dot (first x d) (first x d) = 1 /\ dot (second x n d) (second x n d) = 1 /\ dot (first x d) (second x n d) = 0 /\ dot n (first x d) = 0 /\ dot n (second x n d) = 0 /\ x = scale d (first x d).
Proof.
  intros x n d (D & X & N & O). pose proof eps_pos. destruct (frame_ok x n d ltac:(lra) X N O) as (_ & F0 & F1 & F & N0 & N1 & XS). split; [apply normalize_ok_ok; auto|]. split; [|auto 10].
  change (cross_prod n (first x d)) with (second x n d). pose proof eps_one. rewrite (normalize_ok_ok _ 1) by (lra || rewrite F1; ring). rewrite first_one. auto.
Qed.
(** one step: the new vertex *)
Lemma fan_vertex : forall x n dl d, ready x n dl -> DBL_EPSILON <= d -> 1 <= dl + d -> -1 <= d - dl <= 1 -> exists c s,
  rdiv (dl * dl + d * d - 1) (2 * dl * d) = Ok c /\ rsqrt (1 - c * c) = Ok s /\ 0 <= s /\ c * c + s * s = 1 /\ 2 * dl * d * c = dl * dl + d * d - 1 /\
  let x' := vlincomb (d * c) (first x dl) (d * s) (second x n dl) in dot x' x' = d * d /\ dist2 x' x = 1 /\ dot n x' = 0.
Proof.
  intros x n dl d R D T1 T2. pose proof R as (DL & X & N & O). pose proof eps_pos. destruct (frame_facts x n dl R) as (_ & _ & F0 & F1 & F & N0 & N1 & XS). set (f0 := first x dl) in *. set (f1 := second x n dl) in *.
  rewrite rdiv_ok by nra. exists ((dl * dl + d * d - 1) / (2 * dl * d)). set (c := (dl * dl + d * d - 1) / (2 * dl * d)).
  assert (CB : 0 <= 1 - c * c) by (apply cos_bound; lra). destruct (rsqrt_ok _ CB) as (s & Es & S0 & S1). exists s. split; [auto|]. split; [auto|]. split; [auto|]. split; [lra|].
  assert (CE : 2 * dl * d * c = dl * dl + d * d - 1) by (unfold c; field; lra). split; [auto|]. cbv zeta. rewrite lincomb_scale.
  destruct (placed f0 f1 dl d c s F0 F1 F) as (P1 & P2); [lra|lra|]. rewrite <- XS in P2. split; [auto|]. split; [auto|]. rewrite dot_sym, dot_scale, dot_comb, !(dot_sym _ n), N0, N1. ring.
Qed.
(** one step: the new normal *)
Lemma fan_normal : forall x' n d theta, DBL_EPSILON <= d -> dot x' x' = d * d -> dot n n = 1 -> dot n x' = 0 -> exists n',
  n' = comb (cos theta) n (sin theta) (second x' n d) /\ normalize_ok x' = Ok (first x' d) /\ normalize_any (cross_prod n (first x' d)) = Ok (second x' n d) /\
  normalize_any (vlincomb (cos theta) n (sin theta) (second x' n d)) = Ok n' /\ ready x' n' d.
Proof.
  intros x' n d theta D X N O. assert (R : ready x' n d) by (repeat split; auto). destruct (frame_facts x' n d R) as (E & _ & F0 & F1 & F & N0 & N1 & XS).
  eexists. split; [reflexivity|]. split; [auto|]. change (cross_prod n (first x' d)) with (second x' n d). split; [rewrite (normalize_any_ok _ 1) by (lra || rewrite F1; ring); rewrite first_one; auto|].
  set (f3 := second x' n d) in *. change (vlincomb (cos theta) n (sin theta) f3) with (comb (cos theta) n (sin theta) f3).
  assert (B : forall u a v b w, dot w (comb a u b v) = a * dot w u + b * dot w v) by (intros; unfold dot, comb; cbn; ring).
  assert (U : dot (comb (cos theta) n (sin theta) f3) (comb (cos theta) n (sin theta) f3) = 1).
  { rewrite dot_comb, !B, N, F1, (dot_sym f3 n), N1. pose proof (sin2_cos2 theta) as H. unfold Rsqr in H. lra. }
  split; [rewrite (normalize_any_ok _ 1) by (lra || rewrite U; ring); rewrite first_one; auto|]. split; [auto|]. split; [auto|]. split; [auto|].
  rewrite dot_comb, O. rewrite XS at 1. rewrite (dot_sym f3), dot_scale, F. ring.
Qed.
Lemma fan_cons : forall x n dl d ds thetas, fan x n dl (d :: ds) thetas =
  (do cos_alpha <- rdiv (dl * dl + d * d - 1) (2 * dl * d); do sin_alpha <- rsqrt (1 - cos_alpha * cos_alpha); do f1 <- normalize_ok x; do f2 <- normalize_ok (cross_prod n f1);
   let x' := vlincomb (d * cos_alpha) f1 (d * sin_alpha) f2 in
   match ds with [] => Ok [x'] | _ => match thetas with [] => UB | theta :: thetas' => do f <- normalize_ok x'; do f3 <- normalize_any (cross_prod n f); do n' <- normalize_any (vlincomb (cos theta) n (sin theta) f3); do vs <- fan x' n' d ds thetas'; Ok (x' :: vs) end end).
Proof. reflexivity. Qed.
Lemma fan_ok : forall ds x n dl thetas, ready x n dl -> triangles dl ds -> (length ds <= length thetas + 1)%nat ->
  exists vs, fan x n dl ds thetas = Ok vs /\ linked x vs /\ Forall2 (fun v d => dot v v = d * d) vs ds.
Proof.
  induction ds as [|d ds IH]; intros x n dl thetas R T L; [exists []; repeat split; constructor|]. destruct T as (D & T1 & T2 & T). pose proof R as (DL & X & N & O).
  destruct (fan_vertex x n dl d R D T1 T2) as (c & s & Ec & Es & _ & _ & _ & X' & LK & NX). destruct (frame_facts x n dl R) as (E1 & E2 & _). rewrite fan_cons, Ec. cbn [bind]. rewrite Es. cbn [bind]. rewrite E1. cbn [bind]. rewrite E2. cbn [bind]. cbv zeta in *.
  set (x' := vlincomb (d * c) (first x dl) (d * s) (second x n dl)) in *. destruct ds as [|d2 ds].
  - exists [x']. split; [auto|]. split; [cbn; auto|]. constructor; auto.
  - destruct thetas as [|theta thetas]; [cbn in L; lia|]. destruct (fan_normal x' n d theta D X' N NX) as (n' & _ & E3 & E4 & E5 & R'). rewrite E3. cbn [bind]. rewrite E4. cbn [bind]. rewrite E5. cbn [bind].
    destruct (IH x' n' d thetas R' T) as (vs & E & LV & F); [cbn in L |- *; lia|]. rewrite E. cbn [bind]. exists (x' :: vs). split; [auto|]. split; [cbn; auto|]. constructor; auto.
Qed.

(** ** every polygon *)
Definition ahead (x n y : V3) : Prop := dot n y = 0 /\ 0 <= dot (cross n x) y.
Lemma vertex_reached : forall x n dl d y, ready x n dl -> DBL_EPSILON <= d -> dot y y = d * d -> dist2 y x = 1 -> ahead x n y -> forall c s, 0 <= s -> c * c + s * s = 1 -> 2 * dl * d * c = dl * dl + d * d - 1 ->
  vlincomb (d * c) (first x dl) (d * s) (second x n dl) = y.
Proof.
  intros x n dl d y R D Y LK (A0 & A1) c s S0 CS CE. pose proof R as (DL & X & N & O). pose proof eps_pos. destruct (frame_facts x n dl R) as (_ & _ & F0 & F1 & F & N0 & N1 & XS). pose proof (expansion n (first x dl) y N F0 N0) as EX. fold (second x n dl) in EX. set (f0 := first x dl) in *. set (f1 := second x n dl) in *.
  assert (Y0 : dot y f0 = d * c). { assert (E : dl * dot y f0 = dl * (d * c)); [|nra]. rewrite dist2_dot, X, Y in LK. rewrite XS in LK. rewrite (dot_sym y), dot_scale, (dot_sym f0) in LK. lra. }
  assert (YY : dot y y = dot y f0 * dot y f0 + dot y f1 * dot y f1). { rewrite EX at 1. assert (V : forall a b w, dot (vadd a b) w = dot a w + dot b w) by (intros; unfold dot; cbn; ring). rewrite V, dot_comb, dot_scale, !(dot_sym _ y), (dot_sym y n), A0. ring. }
  assert (P1 : 0 <= dot y f1). { assert (E : dot (cross n x) y = dl * dot y f1). { rewrite XS. unfold f1, second. fold f0. unfold dot, cross, scale. cbn. ring. } rewrite E in A1. nra. }
  assert (Y1 : dot y f1 = d * s). { assert (SQ : dot y f1 * dot y f1 = (d * s) * (d * s)) by (rewrite Y, Y0 in YY; nra). assert (0 <= d * s) by nra. nra. }
  rewrite EX, Y0, Y1, (dot_sym y n), A0. apply v3_eq; cbn; ring.
Qed.
Lemma normal_exists : forall y n d z, DBL_EPSILON <= d -> dot y y = d * d -> dot n n = 1 -> dot n y = 0 -> exists theta, 0 <= theta < 2 * PI /\ ahead y (comb (cos theta) n (sin theta) (second y n d)) z.
Proof.
  intros y n d z D Y N O. pose proof eps_pos. assert (R : ready y n d) by (repeat split; auto). destruct (frame_facts y n d R) as (_ & _ & F0 & F1 & F & N0 & N1 & XS). set (p := dot z n). set (q := dot z (second y n d)). set (rho := sqrt (p * p + q * q)).
  assert (C : exists theta, 0 <= theta < 2 * PI /\ rho * cos theta = q /\ rho * sin theta = - p).
  { assert (RR : rho * rho = p * p + q * q) by (apply sqrt_sqrt; nra). assert (R0 : 0 <= rho) by apply sqrt_pos. destruct (Req_EM_T rho 0) as [Z|Z].
    - exists 0. pose proof PI_RGT_0. split; [lra|]. rewrite Z in *. split; nra.
    - destruct (angle_exists (q / rho) (- p / rho)) as (t & T & Ct & St); [transitivity ((p * p + q * q) / (rho * rho)); [field; lra|rewrite <- RR; field; lra]|]. exists t. split; [auto|]. rewrite Ct, St. split; field; lra. }
  destruct C as (theta & T & C1 & C2). exists theta. split; [auto|]. assert (RR : rho * rho = p * p + q * q) by (apply sqrt_sqrt; nra). assert (R0 : 0 <= rho) by apply sqrt_pos. set (f3 := second y n d) in *. split.
  - rewrite dot_comb, !(dot_sym _ z). fold p q. destruct (Req_EM_T rho 0) as [Z|Z]; [assert (p = 0) by nra; assert (q = 0) by nra; rewrite H0, H1; ring|]. assert (E : rho * (cos theta * p + sin theta * q) = 0); [|nra]. replace (rho * (cos theta * p + sin theta * q)) with (rho * cos theta * p + rho * sin theta * q) by ring. rewrite C1, C2. ring.
  - assert (E : dot (cross (comb (cos theta) n (sin theta) f3) y) z = d * (cos theta * q - sin theta * p)).
    { transitivity (d * (cos theta * dot z (cross n (first y d)) + sin theta * dot z (cross (cross n (first y d)) (first y d)))). { rewrite XS at 1. unfold f3, second, dot, cross, comb, scale. cbn. ring. }
      assert (W : dot z (cross (cross n (first y d)) (first y d)) = dot n (first y d) * dot z (first y d) - dot (first y d) (first y d) * dot z n) by (unfold dot, cross; cbn; ring). rewrite W, N0, F0. unfold p, q, f3, second. ring. }
    rewrite E. apply Rmult_le_pos; [lra|]. destruct (Req_EM_T rho 0) as [Z|Z]; [assert (p = 0) by nra; assert (q = 0) by nra; rewrite H0, H1; lra|].
    assert (E2 : rho * (cos theta * q - sin theta * p) = rho * rho). { replace (rho * (cos theta * q - sin theta * p)) with (rho * cos theta * q - rho * sin theta * p) by ring. rewrite C1, C2, RR. ring. } nra.
Qed.
Lemma dist_triangle : forall x y dl d, 0 < dl -> 0 < d -> dot x x = dl * dl -> dot y y = d * d -> dist2 y x = 1 -> 1 <= dl + d /\ -1 <= d - dl <= 1.
Proof.
  intros x y dl d DL D X Y E. rewrite dist2_dot, X, Y in E. assert (CS : dot y x * dot y x <= (d * dl) * (d * dl)).
  { replace ((d * dl) * (d * dl)) with (dot y y * dot x x) by (rewrite X, Y; ring). pose proof (cross_norm y x) as K. assert (0 <= dot (cross y x) (cross y x)) by (unfold dot; nra). lra. }
  assert (B : - (d * dl) <= dot y x <= d * dl) by (assert (0 < d * dl) by nra; nra). nra.
Qed.
Lemma fan_reaches : forall vs x n dl, ready x n dl -> linked x vs -> Forall (fun v => DBL_EPSILON <= norm3 v) vs -> (forall y, hd_error vs = Some y -> ahead x n y) ->
  exists thetas, length thetas = (length vs - 1)%nat /\ Forall (fun t => 0 <= t < 2 * PI) thetas /\ fan x n dl (map norm3 vs) thetas = Ok vs.
Proof.
  induction vs as [|y vs IH]; intros x n dl R LK F A; [exists []; repeat split; constructor|]. destruct LK as (LK & LKs). inversion F as [|? ? D Fs]; subst. specialize (A y eq_refl). set (d := norm3 y) in *. assert (Y : dot y y = d * d) by (symmetry; apply norm3_square). pose proof eps_pos. pose proof R as (DL & X & N & O).
  destruct (dist_triangle x y dl d ltac:(lra) ltac:(lra) X Y LK) as (T1 & T2). destruct (fan_vertex x n dl d R D T1 T2) as (c & s & Ec & Es & S0 & CS & CE & _). pose proof (vertex_reached x n dl d y R D Y LK A c s S0 CS CE) as EY. destruct (frame_facts x n dl R) as (E1 & E2 & _).
  cbn [map]. fold d. assert (NY : dot n y = 0) by apply A.
  assert (K : forall thetas, fan x n dl (d :: map norm3 vs) thetas = match map norm3 vs with [] => Ok [y] | _ => match thetas with [] => UB | theta :: thetas' => do f <- normalize_ok y; do f3 <- normalize_any (cross_prod n f); do n' <- normalize_any (vlincomb (cos theta) n (sin theta) f3); do ws <- fan y n' d (map norm3 vs) thetas'; Ok (y :: ws) end end).
  { intros thetas. rewrite fan_cons, Ec. cbn [bind]. rewrite Es. cbn [bind]. rewrite E1. cbn [bind]. rewrite E2. cbn [bind]. cbv zeta. rewrite EY. auto. }
  destruct vs as [|z vs]; [exists []; split; [auto|]; split; [constructor|]; rewrite K; auto|].
  destruct (normal_exists y n d z D Y N NY) as (theta & TH & AH). destruct (fan_normal y n d theta D Y N NY) as (n' & En & E3 & E4 & E5 & R'). rewrite <- En in AH.
  destruct (IH y n' d R' LKs Fs) as (thetas & L & B & E); [intros w W; injection W as <-; auto|]. exists (theta :: thetas). split; [cbn in *; lia|]. split; [constructor; auto|]. rewrite K. cbn [map] in E |- *. rewrite E3. cbn [bind]. rewrite E4. cbn [bind]. rewrite E5. cbn [bind]. rewrite E. auto.
Qed.

(** ** the dihedral angles *)
Definition dihedral (x y z : V3) (theta : R) : Prop :=
  dot (cross x y) (cross y z) = norm3 (cross x y) * norm3 (cross y z) * cos theta /\
  dot (cross (cross x y) (cross y z)) y = - (norm3 y * norm3 (cross x y) * norm3 (cross y z) * sin theta).
Fixpoint folded (x : V3) (vs : list V3) (thetas : list R) : Prop :=
  match vs, thetas with y :: (z :: _) as vs', t :: ts => dihedral x y z t /\ folded y vs' ts | _, _ => True end.
Lemma norm3_scale : forall a v, 0 <= a -> dot v v = 1 -> norm3 (scale a v) = a.
Proof. intros a v A V. unfold norm3. change (sqrt (dot (scale a v) (scale a v)) = a). rewrite dot_scale, (dot_sym v), dot_scale, V. replace (a * (a * 1)) with (a * a) by ring. apply sqrt_square. auto. Qed.
Lemma norm3_eq : forall v d, 0 <= d -> dot v v = d * d -> norm3 v = d.
Proof. intros v d D E. unfold norm3. change (sqrt (dot v v) = d). rewrite E. apply sqrt_square. auto. Qed.
Lemma turn_normal : forall x n dl d c s, ready x n dl -> DBL_EPSILON <= d -> 0 <= s -> let y := vlincomb (d * c) (first x dl) (d * s) (second x n dl) in exists A, 0 <= A /\ cross x y = scale A n /\ norm3 (cross x y) = A.
Proof.
  intros x n dl d c s R D S0 y. pose proof R as (DL & X & N & O). pose proof eps_pos. destruct (frame_facts x n dl R) as (_ & _ & F0 & F1 & F & N0 & N1 & XS). set (f0 := first x dl) in *. exists (dl * d * s).
  assert (A0 : 0 <= dl * d * s) by (apply Rmult_le_pos; [apply Rmult_le_pos; lra|auto]). split; [auto|].
  assert (E : cross x y = scale (dl * d * s) n).
  { assert (T : cross f0 (second x n dl) = vadd (scale (dot f0 f0) n) (scale (- dot n f0) f0)) by (unfold second; fold f0; apply v3_eq; unfold dot, cross; cbn; ring).
    rewrite F0, N0 in T. rewrite XS at 1. unfold y. rewrite lincomb_scale.
    assert (B : forall u v, cross (scale dl u) (scale d (comb c u s v)) = scale (dl * d * s) (cross u v)) by (intros; apply v3_eq; unfold cross; cbn; ring). rewrite B, T. apply v3_eq; cbn; ring. }
  split; [auto|]. rewrite E. apply norm3_scale; auto.
Qed.
Lemma fan_folded : forall ds x n dl thetas vs, ready x n dl -> triangles dl ds -> (length ds <= length thetas + 1)%nat -> fan x n dl ds thetas = Ok vs ->
  (forall y, hd_error vs = Some y -> cross x y = scale (norm3 (cross x y)) n) /\ folded x vs thetas.
Proof.
  induction ds as [|d ds IH]; intros x n dl thetas vs R T L E; [injection E as <-; split; [discriminate|exact I]|]. destruct T as (D & T1 & T2 & T). pose proof R as (DL & X & N & O). pose proof eps_pos.
  destruct (fan_vertex x n dl d R D T1 T2) as (c & s & Ec & Es & S0 & _ & _ & X' & LK & NX). destruct (frame_facts x n dl R) as (E1 & E2 & _). destruct (turn_normal x n dl d c s R D S0) as (A & A0 & CR & NC). rewrite fan_cons, Ec in E. cbn [bind] in E. rewrite Es in E. cbn [bind] in E. rewrite E1 in E. cbn [bind] in E. rewrite E2 in E. cbn [bind] in E. cbv zeta in *.
  set (x' := vlincomb (d * c) (first x dl) (d * s) (second x n dl)) in *. clearbody x'. destruct ds as [|d2 ds].
  - injection E as <-. split; [|exact I]. intros y K. injection K as <-. rewrite NC. auto.
  - destruct thetas as [|theta thetas]; [cbn in L; lia|]. destruct (fan_normal x' n d theta D X' N NX) as (n' & En & E3 & E4 & E5 & R'). rewrite E3 in E. cbn [bind] in E. rewrite E4 in E. cbn [bind] in E. rewrite E5 in E. cbn [bind] in E.
    destruct (fan x' n' d (d2 :: ds) thetas) as [ws| | |] eqn:EW; try discriminate. cbn [bind] in E. injection E as <-.
    destruct (IH x' n' d thetas ws R' T ltac:(cbn in *; lia) EW) as (H1 & H2). split; [intros y K; injection K as <-; rewrite NC; auto|].
    destruct ws as [|z ws]; [exact I|]. split; [|exact H2]. specialize (H1 z eq_refl). set (B := norm3 (cross x' z)) in *. split.
    + fold B. rewrite NC, CR, H1. rewrite dot_scale, (dot_sym n), dot_scale.
      destruct (frame_facts x' n d) as (_ & _ & _ & _ & _ & _ & N1 & _); [repeat split; auto|]. rewrite En, dot_comb, N, (dot_sym _ n), N1. ring.
    + fold B. rewrite NC, CR, H1. rewrite (norm3_eq x' d) by (lra || auto).
      assert (K : dot (cross (scale A n) (scale B n')) x' = A * B * dot (cross n n') x') by (unfold dot, cross, scale; cbn; ring). rewrite K.
      assert (K2 : dot (cross n n') x' = sin theta * (dot n (first x' d) * dot n x' - dot n n * dot (first x' d) x')) by (rewrite En; unfold second, dot, cross, comb; cbn; ring).
      assert (K3 : dot (first x' d) x' = d) by (unfold first; rewrite dot_scale, X'; field; lra). rewrite K2, N, NX, K3. ring.
Qed.

(** ** the sampler *)
Section Generator.
Context {gen : Type} (uniform : gen -> R * gen) (good : gen -> Prop).
Hypothesis U : forall g, good g -> 0 <= fst (uniform g) <= 1 /\ good (snd (uniform g)).
Lemma last_cons : forall {T} (l : list T) x d, last (x :: l) d = last l x.
Proof. intros T. induction l as [|y l IH]; intros x d; auto. change (last (y :: l) d = last (y :: l) x). rewrite !IH. auto. Qed.
Lemma diagonals_ok : forall m l g, good g -> exists r g', diagonals uniform m l g = (r, g') /\ good g' /\ forall ds, r = Some ds -> length ds = m /\ (0 <= last ds l <= 2 -> triangles l (ds ++ [1])).
Proof.
  induction m as [|m IH]; intros l g G.
  - exists (Some []), g. split; [auto|]. split; [auto|]. intros ds H. injection H as <-. split; [auto|]. cbn. pose proof eps_one. lra.
  - cbn [diagonals]. destruct (U g G) as (B & G1). destruct (uniform g) as (u, g1). cbn [fst snd] in *. set (d := l + (2 * u - 1)). destruct (Rlt_dec (d + l) 1) as [A|A]; [exists None, g1; split; [auto|split; [auto|discriminate]]|]. destruct (Rlt_dec d (/ 1000000000000)) as [C|C]; [exists None, g1; split; [auto|split; [auto|discriminate]]|].
    destruct (IH d g1 G1) as (r & g2 & E & G2 & K). rewrite E. destruct r as [ds|]; [|exists None, g2; split; [auto|split; [auto|discriminate]]]. exists (Some (d :: ds)), g2. split; [auto|]. split; [auto|]. intros ds' H. injection H as <-. destruct (K ds eq_refl) as (L & T). split; [cbn; lia|]. rewrite last_cons. intros LL. cbn [app triangles]. split; [unfold DBL_EPSILON; lra|]. split; [lra|]. split; [unfold d; lra|auto].
Qed.
Lemma rounds_ok : forall k n g, good g -> rounds uniform k n g = Fail \/ exists ds g', rounds uniform k n g = Ok (ds, g') /\ good g' /\ length ds = (n - 3)%nat /\ triangles 1 (ds ++ [1]).
Proof.
  induction k as [|k IH]; intros n g G; [left; auto|]. cbn [rounds]. destruct (diagonals_ok (n - 3) 1 g G) as (r & g1 & E & G1 & K). rewrite E. destruct r as [ds|]; [|apply IH; auto]. destruct (Rlt_dec (last ds 1) 0); [apply IH; auto|]. destruct (Rlt_dec 2 (last ds 1)); [apply IH; auto|].
  right. destruct (K ds eq_refl) as (L & T). exists ds, g1. split; [auto|]. split; [auto|]. split; [auto|]. apply T. lra.
Qed.
Lemma angles_ok : forall m g, good g -> length (fst (angles uniform m g)) = m /\ good (snd (angles uniform m g)).
Proof.
  induction m as [|m IH]; intros g G; [auto|]. cbn [angles]. destruct (U g G) as (_ & G1). destruct (uniform g) as (u, g1). cbn [snd] in G1. destruct (IH g1 G1) as (L & G2). destruct (angles uniform m g1) as (ts, g2). cbn in *. auto.
Qed.
End Generator.

(** the assembled polygon *)
Lemma start_ready : ready (mkV 1 0 0) (mkV 0 0 1) 1.
Proof. unfold ready, dot. cbn. pose proof eps_one. repeat split; lra. Qed.
Lemma Forall2_last : forall {A B} (P : A -> B -> Prop) l l' a b, Forall2 P l l' -> P a b -> P (last l a) (last l' b).
Proof. intros A B P l l' a b H. revert a b. induction H; intros a b AB; auto. rewrite !last_cons. auto. Qed.
Lemma assembled : forall ds thetas, triangles 1 ds -> last ds 1 = 1 -> (length ds <= length thetas + 1)%nat ->
  exists vs, fantriangulation_action_angle thetas (1 :: ds) = Ok (mkV 0 0 0 :: mkV 1 0 0 :: vs) /\ linked (mkV 1 0 0) vs /\ Forall2 (fun v d => dot v v = d * d) vs ds /\ dot (last vs (mkV 1 0 0)) (last vs (mkV 1 0 0)) = 1 /\ folded (mkV 1 0 0) vs thetas.
Proof.
  intros ds thetas T LD L. destruct (fan_ok ds _ _ 1 thetas start_ready T L) as (vs & E & LK & F). destruct (fan_folded ds _ _ 1 thetas vs start_ready T L E) as (_ & FO). assert (Z : dot (last vs (mkV 1 0 0)) (last vs (mkV 1 0 0)) = 1).
  { rewrite (Forall2_last _ vs ds (mkV 1 0 0) 1 F); [rewrite LD; ring|unfold dot; cbn; ring]. }
  exists vs. split; [|auto]. cbn [fantriangulation_action_angle]. rewrite E. cbn [bind]. unfold dot in Z. rewrite Z, sqrt_1. replace (1 - 1) with 0 by ring. rewrite Rabs_R0. destruct (Rlt_dec 0 (/ 100000000)); [auto|lra].
Qed.

(** draws that give chosen diagonals and angles *)
Definition deal (l : list R) : R * list R := (hd 0 l, tl l).
Fixpoint steps_of (l : R) (ds : list R) : list R := match ds with [] => [] | d :: ds' => (d - l + 1) / 2 :: steps_of d ds' end.
Lemma deal_diagonals : forall ds l rest, triangles l ds -> Forall (fun d => / 1000000000000 <= d) ds -> diagonals deal (length ds) l (steps_of l ds ++ rest) = (Some ds, rest).
Proof.
  induction ds as [|d ds IH]; intros l rest T F; auto. destruct T as (_ & T1 & T2 & T). inversion F; subst. cbn [length diagonals steps_of app deal hd tl]. unfold deal at 1. cbn [hd tl]. replace (l + (2 * ((d - l + 1) / 2) - 1)) with d by field. destruct (Rlt_dec (d + l) 1); [lra|]. destruct (Rlt_dec d (/ 1000000000000)); [lra|]. rewrite IH by auto. auto.
Qed.
Lemma deal_angles : forall ts rest, angles deal (length ts) (map (fun t => t / TWOPI) ts ++ rest) = (ts, rest).
Proof.
  induction ts as [|t ts IH]; intros rest; auto. cbn [length angles map app]. unfold deal at 1. cbn [hd tl]. rewrite IH. do 2 f_equal. unfold TWOPI. field.
Qed.
Lemma steps_unit : forall ds l, triangles l ds -> Forall (fun u => 0 <= u <= 1) (steps_of l ds).
Proof. induction ds as [|d ds IH]; intros l T; constructor; [destruct T as (_ & _ & T & _); lra|apply IH; apply T]. Qed.
Lemma triangles_app : forall ds l d, triangles l (ds ++ [d]) -> triangles l ds /\ 1 <= last ds l + d /\ -1 <= d - last ds l <= 1.
Proof. induction ds as [|e ds IH]; intros l d T; [cbn in T |- *; tauto|]. destruct T as (A & B & C & T). rewrite last_cons. destruct (IH e d T) as (P & Q). split; [cbn; auto|auto]. Qed.
