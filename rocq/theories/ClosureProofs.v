(** Proofs about the closing of open curves. *)
From Coq Require Import Reals List Bool Lra Lia Psatz ZArith.
From Verif Require Import Base Sampler SamplerProofs Hopf HopfProofs Fan FanProofs Rotate RotateProofs Closure Thm_Hopf.
Import ListNotations.
Open Scope R_scope.
Open Scope res_scope.

(** ** the arc *)
Lemma scale_edges_sum : forall k es, vsum (map (scale_vect k) es) = scale_vect k (vsum es).
Proof. induction es as [|e es IH]; cbn [map vsum]; [apply v3_eq; cbn; ring|]. rewrite IH. apply v3_eq; cbn; ring. Qed.
Lemma norm3_times : forall k v, 0 <= k -> norm3 (scale_vect k v) = k * norm3 v.
Proof. intros k v K. apply norm3_eq; [apply Rmult_le_pos; [auto|apply norm3_nonneg]|]. transitivity (k * k * dot v v); [unfold dot; cbn; ring|]. rewrite <- norm3_dot. ring. Qed.
Lemma scale_edges_length : forall k es, 0 <= k -> lsum (map (scale_vect k) es) = k * lsum es.
Proof. intros k es K. induction es as [|e es IH]; cbn [map lsum]; [ring|]. rewrite IH, norm3_times by auto. ring. Qed.
Lemma vdistance_dist : forall a b, vdistance a b = dist a b. Proof. reflexivity. Qed.
Lemma open_sums : forall es v, open_length (v :: sums v es) = lsum es.
Proof. induction es as [|e es IH]; intros v; [auto|]. cbn [sums lsum]. cbn [open_length]. rewrite <- (IH (vadd v e)). f_equal. rewrite vdistance_dist. unfold dist. f_equal. apply v3_eq; cbn; ring. Qed.
Lemma last_sums : forall es v, last (sums v es) v = vadd v (vsum es).
Proof. induction es as [|e es IH]; intros v; [apply v3_eq; cbn; ring|]. cbn [sums vsum]. rewrite last_cons, IH. apply v3_eq; cbn; ring. Qed.
Lemma orthonormal : forall A B, length A = length B -> independent A B -> exists A1 B1, normalize A = Ok A1 /\ normalize (reduce (conj (hdot A1 B)) A1 B) = Ok B1 /\
  length A1 = length A /\ length B1 = length A /\ re (hdot A1 A1) = 1 /\ re (hdot B1 B1) = 1 /\ hdot A1 B1 = cz.
Proof.
  intros A B L (NZ & IND). destruct (HopfProofs.normalize_ok A NZ) as (k & K & E & U). exists (cscale (mkC k 0) A). set (A1 := cscale (mkC k 0) A) in *. set (s := conj (hdot A1 B)).
  assert (L1 : length A1 = length B) by (unfold A1, cscale; rewrite map_length; auto).
  assert (P : 0 < re (hdot (reduce s A1 B) (reduce s A1 B))).
  { destruct (Rle_lt_or_eq_dec _ _ (hdot_self_nonneg (reduce s A1 B))) as [H|H]; auto. exfalso. symmetry in H. apply hdot_self_zero in H. apply reduce_zero in H; auto. unfold A1 in H. rewrite cscale_cscale in H. exact (IND _ H). }
  destruct (normalize_pos _ P) as (k' & K' & E' & U'). exists (cscale (mkC k' 0) (reduce s A1 B)). split; [auto|]. split; [auto|]. split; [lia|]. split; [unfold cscale; rewrite map_length, reduce_length; lia|]. split; [auto|]. split; [auto|].
  rewrite hdot_scale_r, hdot_reduce by auto. pose proof (hdot_self_im A1) as I. assert (C : hdot A1 A1 = mkC 1 0) by (apply cx_eq; auto). rewrite C. unfold s. apply cx_eq; cbn; ring.
Qed.
(** an arc with n edges of total length len from the origin to (ftc, 0, 0) *)
Definition arm_of (n : nat) (len ftc : R) (vs : list V3) : Prop := exists mid, vs = mkV 0 0 0 :: mid ++ [mkV ftc 0 0] /\ length mid = (n - 1)%nat /\ open_length vs = len.
Lemma arm_generic : forall n len ftc g, (1 <= n)%nat -> independent (space_A n g) (space_B n g) -> 0 < len -> 0 <= ftc <= len ->
  exists vs, (do A <- normalize (space_A n g);
    let s := conj (hdot A (space_B n g)) in
    do B <- normalize (reduce s A (space_B n g));
    do q <- rdiv ftc len;
    let ell := 2 * q in
    do aScale <- rsqrt (1 + ell / 2);
    do bScale <- rsqrt (1 - ell / 2);
    let A := cscale (mkC aScale 0) A in
    let B := cscale (mkC bScale 0) B in
    Ok (Some (mkV 0 0 0 :: sums (mkV 0 0 0) (map (scale_vect (len / 2)) (hopf_edges A B))))) = Ok (Some vs) /\ arm_of n len ftc vs.
Proof.
  intros n len ftc g N IND LEN FTC. destruct (space_length n g) as (LA & LB). destruct (orthonormal (space_A n g) (space_B n g) ltac:(congruence) IND) as (A1 & B1 & E1 & E2 & L1 & L2 & HA & HB & HAB). rewrite E1. cbn [bind]. cbv zeta. rewrite E2. cbn [bind]. rewrite rdiv_ok by lra. cbn [bind].
  assert (Q : 0 <= ftc / len <= 1). { split; [apply Rmult_le_pos; [lra|left; apply Rinv_0_lt_compat; auto]|]. apply Rmult_le_reg_r with len; [auto|]. unfold Rdiv. rewrite Rmult_assoc, Rinv_l by lra. lra. }
  destruct (rsqrt_ok (1 + 2 * (ftc / len) / 2) ltac:(lra)) as (a & Ea & A0 & AA). destruct (rsqrt_ok (1 - 2 * (ftc / len) / 2) ltac:(lra)) as (b & Eb & B0 & BB). rewrite Ea. cbn [bind]. rewrite Eb. cbn [bind].
  set (A2 := cscale (mkC a 0) A1). set (B2 := cscale (mkC b 0) B1). assert (L3 : length A2 = length B2) by (unfold A2, B2, cscale; rewrite !map_length; lia). assert (LN : length A2 = n) by (unfold A2, cscale; rewrite map_length; lia).
  assert (HA2 : re (hdot A2 A2) = a * a). { unfold A2. rewrite hdot_scale_l, hdot_scale_r. cbn. rewrite (hdot_self_im A1), HA. ring. }
  assert (HB2 : re (hdot B2 B2) = b * b). { unfold B2. rewrite hdot_scale_l, hdot_scale_r. cbn. rewrite (hdot_self_im B1), HB. ring. }
  assert (HAB2 : hdot A2 B2 = cz). { unfold A2, B2. rewrite hdot_scale_l, hdot_scale_r, HAB. apply cx_eq; cbn; ring. }
  set (es := map (scale_vect (len / 2)) (hopf_edges A2 B2)). exists (mkV 0 0 0 :: sums (mkV 0 0 0) es). split; [auto|].
  assert (ES : vsum es = mkV ftc 0 0). { unfold es. rewrite scale_edges_sum, edges_sum, HA2, HB2, HAB2, AA, BB by auto. apply v3_eq; cbn; field; lra. }
  assert (EL : lsum es = len). { unfold es. rewrite scale_edges_length by lra. rewrite edges_length, HA2, HB2, AA, BB by auto. field. lra. }
  assert (EN : length es = n) by (unfold es; rewrite map_length, edges_number; auto).
  destruct (exists_last (l := sums (mkV 0 0 0) es)) as (mid & z & EM); [intros K; apply (f_equal (@length _)) in K; rewrite sums_length in K; cbn in K; lia|].
  assert (Z : z = mkV ftc 0 0). { pose proof (last_sums es (mkV 0 0 0)) as K. rewrite EM, last_last, ES in K. rewrite K. apply v3_eq; cbn; ring. }
  exists mid. split; [rewrite EM, Z; auto|]. split; [apply (f_equal (@length _)) in EM; rewrite sums_length, app_length in EM; cbn in EM; lia|]. rewrite open_sums. auto.
Qed.
Lemma random_ftc_ok : forall n len ftc g, (1 <= n)%nat -> 0 <= ftc <= len -> (n = 1%nat -> len < ftc + / 100000000) ->
  ((2 <= n)%nat -> independent (space_A n g) (space_B n g) /\ (0 < ftc \/ / 100000000 <= len)) ->
  exists vs len', random_ftc n len ftc g = Ok (Some vs) /\ arm_of n len' ftc vs /\ 0 <= len - len' <= / 100000000 /\ (ftc + / 100000000 <= len -> len' = len).
Proof.
  intros n len ftc g N FTC ONE MANY. unfold random_ftc. destruct (Rlt_dec len ftc); [lra|]. set (len' := if Rlt_dec len (ftc + / 100000000) then ftc else len).
  assert (LL : 0 <= len - len' <= / 100000000 /\ ftc <= len' /\ (ftc + / 100000000 <= len -> len' = len)). { unfold len'. destruct (Rlt_dec _ _); lra. }
  destruct (Nat.eq_dec n 1) as [K|K].
  - subst n. cbn [Nat.eqb andb]. assert (E : len' = ftc) by (unfold len'; destruct (Rlt_dec _ _); [auto|specialize (ONE eq_refl); lra]). rewrite E. replace (ftc - ftc) with 0 by ring. rewrite Rabs_R0. destruct (Rlt_dec 0 (/ 10000000000)); [|lra]. exists [mkV 0 0 0; mkV ftc 0 0], ftc. split; [auto|]. split; [|rewrite E in LL; tauto].
    exists []. split; [auto|]. split; [auto|]. cbn [open_length]. rewrite vdistance_dist. unfold dist. rewrite (norm3_eq _ ftc); [ring|lra|unfold dot; cbn; ring].
  - assert (NE : Nat.eqb n 1 = false) by (apply Nat.eqb_neq; auto). rewrite NE. cbn [andb]. destruct (MANY ltac:(lia)) as (IND & POS). assert (P : 0 < len') by (unfold len'; destruct (Rlt_dec _ _); lra).
    destruct (arm_generic n len' ftc g N IND P ltac:(lra)) as (vs & E & AR). exists vs, len'. split; [exact E|]. tauto.
Qed.

(** ** lengths of nearby polygons *)
Lemma open_cons : forall v w vs, open_length (v :: w :: vs) = vdistance w v + open_length (w :: vs). Proof. reflexivity. Qed.
Lemma open_app : forall vs v ws, open_length (vs ++ v :: ws) = open_length (vs ++ [v]) + open_length (v :: ws).
Proof.
  induction vs as [|u vs IH]; intros v ws; [cbn [app open_length]; ring|]. destruct vs as [|u' vs].
  - cbn [app]. rewrite !open_cons. cbn [open_length]. ring.
  - cbn [app] in *. rewrite !open_cons. rewrite (IH v ws). ring.
Qed.
Lemma open_near : forall d ws vs, Forall2 (fun w v => dist w v <= d) ws vs -> 0 <= d -> Rabs (open_length ws - open_length vs) <= 2 * d * INR (length vs - 1).
Proof.
  intros d ws vs H D. induction H as [|w v ws vs WV H IH]; [cbn; rewrite Rminus_diag_eq by auto; rewrite Rabs_R0; lra|]. destruct H as [|w' v' ws vs WV' H]; [cbn; rewrite Rminus_diag_eq by auto; rewrite Rabs_R0; lra|].
  rewrite !open_cons. cbn [length] in *. replace (S (S (length vs)) - 1)%nat with (S (S (length vs) - 1)) by lia. rewrite S_INR. pose proof (dist_near v' v w' w) as N. change (Rabs (vdistance w' w - vdistance v' v) <= dist w' v' + dist w v) in N.
  replace (vdistance w' w + open_length (w' :: ws) - (vdistance v' v + open_length (v' :: vs))) with ((vdistance w' w - vdistance v' v) + (open_length (w' :: ws) - open_length (v' :: vs))) by ring. eapply Rle_trans; [apply Rabs_triang|]. lra.
Qed.
Lemma open_motion : forall M vs, (forall u v, dist (M u) (M v) = dist u v) -> open_length (map M vs) = open_length vs.
Proof. intros M vs H. induction vs as [|v vs IH]; auto. destruct vs as [|w vs]; auto. cbn [map] in *. rewrite !open_cons, IH. rewrite !vdistance_dist, H. auto. Qed.

(** ** putting the arc into place *)
Definition shift (t v : V3) : V3 := if Rlt_dec (vnorm t) (/ 10000000000) then v else vadd v t.
Lemma translate_map : forall vs t, translate vs t = map (shift t) vs.
Proof. intros vs t. unfold translate, shift. destruct (Rlt_dec _ _); auto. rewrite map_id. auto. Qed.
Lemma shift_near : forall t v, dist (shift t v) (vadd v t) <= / 10000000000.
Proof.
  intros t v. unfold shift. destruct (Rlt_dec _ _) as [S|S]; [|rewrite dist_same; lra]. unfold dist. rewrite (norm3_same _ t) by (unfold dot; cbn; ring). unfold vnorm in S. change (dot_prod t t) with (dot t t) in S. change (norm3 t < / 10000000000) in S. lra.
Qed.
Lemma dist_shift : forall u v t, dist (vadd u t) (vadd v t) = dist u v.
Proof. intros. unfold dist. f_equal. apply v3_eq; cbn; ring. Qed.
Definition slack : R := / 10000000000 + 2 * DBL_EPSILON.
Lemma placing : forall first end_ vs, let ftc := vdistance first end_ in ftc <= 2 ->
  exists h M, (do dir <- normalize_vect (vect_diff first end_);
     do arm <- match dir with
               | None => Ok vs
               | Some dir =>
                   do r <- normalize_vect (vadd dir (mkV 1 0 0));
                   let r_axis := match r with Some r => r | None => mkV 0 1 0 end in
                   each (fun v => do w <- spin r_axis v PI; Ok (match w with Some w => w | None => v end)) vs
               end; Ok (translate arm end_)) = Ok (map h vs) /\
    (forall u v, dist (M u) (M v) = dist u v) /\ (forall v, dist (h v) (M v) <= slack) /\ M (mkV 0 0 0) = end_ /\ dist first (M (mkV ftc 0 0)) <= slack.
Proof.
  intros first end_ vs ftc F2. pose proof eps_pos as EP. change ftc with (dist first end_) in *. unfold dist in F2. set (D := vect_diff first end_) in *. assert (F0 : 0 <= norm3 D) by apply norm3_nonneg. destruct (Rlt_dec (norm3 D) DBL_EPSILON) as [S|S].
  - exists (shift end_), (fun v => vadd v end_). rewrite normalize_vect_short by auto. cbn [bind]. rewrite translate_map. split; [auto|]. split; [intros; apply dist_shift|]. split; [intros v; pose proof (shift_near end_ v); unfold slack; lra|]. split; [apply v3_eq; cbn; ring|].
    pose proof (dist_tri first end_ (vadd (mkV (norm3 D) 0 0) end_)) as T. change (dist first end_) with (norm3 D) in *. assert (K : dist end_ (vadd (mkV (norm3 D) 0 0) end_) = norm3 D) by (unfold dist; apply norm3_eq; [auto|unfold dot; cbn; ring]). unfold slack. lra.
  - destruct (normalize_vect_long D ltac:(lra)) as (E & U). rewrite E. cbn [bind]. set (d := scale (/ norm3 D) D) in *. assert (FD : vadd end_ (scale (norm3 D) d) = first). { assert (X : forall m, m <> 0 -> vadd end_ (scale m (scale (/ m) D)) = first) by (intros m M; apply v3_eq; unfold D; cbn; field; auto). apply X. lra. }
    assert (GEN : forall r, dot r r = 1 -> dist (scale (norm3 D) d) (rod r PI (mkV (norm3 D) 0 0)) <= 2 * DBL_EPSILON ->
      exists h M, (do arm <- each (fun v => do w <- spin r v PI; Ok (match w with Some w => w | None => v end)) vs; Ok (translate arm end_)) = Ok (map h vs) /\ (forall u v, dist (M u) (M v) = dist u v) /\ (forall v, dist (h v) (M v) <= slack) /\ M (mkV 0 0 0) = end_ /\ dist first (M (mkV (norm3 D) 0 0)) <= slack).
    { intros r R1 NR. exists (fun v => shift end_ (moved r v PI)), (fun v => vadd (rod r PI v) end_). rewrite (each_ok _ (fun v => moved r v PI)) by (intros; apply spin_moved; auto). cbn [bind]. rewrite translate_map, map_map. split; [auto|]. split; [intros; rewrite dist_shift; apply rod_dist; auto|]. split.
      - intros v. pose proof (dist_tri (shift end_ (moved r v PI)) (vadd (moved r v PI) end_) (vadd (rod r PI v) end_)) as T. rewrite dist_shift in T. pose proof (shift_near end_ (moved r v PI)). pose proof (moved_near r v PI R1). unfold slack. lra.
      - split; [apply v3_eq; unfold rod, dot, cross; cbn; ring|]. rewrite <- FD. replace (vadd end_ (scale (norm3 D) d)) with (vadd (scale (norm3 D) d) end_) by (apply v3_eq; cbn; ring). rewrite dist_shift. unfold slack. lra. }
    change (dist first end_) with (norm3 D). set (q := vadd d (mkV 1 0 0)) in *. destruct (Rlt_dec (norm3 q) DBL_EPSILON) as [T|T].
    + rewrite (normalize_vect_short q) by auto. cbn [bind]. apply GEN; [unfold dot; cbn; ring|]. unfold dist. replace (vect_diff (scale (norm3 D) d) (rod (mkV 0 1 0) PI (mkV (norm3 D) 0 0))) with (scale_vect (norm3 D) q) by (unfold rod, q; rewrite cos_PI, sin_PI; apply v3_eq; unfold dot; cbn; ring). rewrite norm3_times by auto. pose proof (norm3_nonneg q). nra.
    + destruct (normalize_vect_long q ltac:(lra)) as (E2 & U2). rewrite E2. cbn [bind]. apply GEN; [auto|].
      assert (QQ : norm3 q * norm3 q = 2 + 2 * c0 d). { rewrite norm3_dot. transitivity (dot d d + 1 + 2 * c0 d); [unfold q, dot; cbn; ring|rewrite U; ring]. }
      assert (Z : rod (scale (/ norm3 q) q) PI (mkV (norm3 D) 0 0) = scale (norm3 D) d); [|rewrite Z, dist_same; lra].
      assert (GQ : forall m k, m <> 0 -> m * m = 2 + 2 * c0 d -> rod (scale (/ m) q) PI (mkV k 0 0) = scale k d).
      { clearbody d. intros m k M MM. assert (ND : 2 + 2 * c0 d <> 0) by nra. unfold rod. rewrite cos_PI, sin_PI.
        assert (CF : (1 - -1) * dot (scale (/ m) q) (mkV k 0 0) = k * m). { transitivity (k * (2 + 2 * c0 d) / m); [unfold q, dot; cbn; field; auto|rewrite <- MM; field; auto]. }
        rewrite CF. unfold q.
        apply v3_eq; cbn; field; auto. }
      apply GQ; [lra|auto].
Qed.
