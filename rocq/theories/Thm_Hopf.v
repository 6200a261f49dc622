(** C75: random polygons have total length 2, close up if they should, and all such polygons can occur. *)
From Coq Require Import Reals List Bool Lra Lia Psatz.
From Verif Require Import Base Sampler SamplerProofs Hopf HopfProofs.
Import ListNotations.
Open Scope R_scope.
Open Scope res_scope.

(** ** what is asked of the polygons *)
Definition distance (u v : V3) : R := sqrt ((c0 u - c0 v)² + (c1 u - c1 v)² + (c2 u - c2 v)²).
Fixpoint path_length (v : V3) (vs : list V3) : R := match vs with [] => 0 | w :: vs' => distance v w + path_length w vs' end.
(** the length of a closed polygon, the closing edge included *)
Definition perimeter (vs : list V3) : R := match vs with [] => 0 | v :: vs' => path_length v vs' + distance (last vs' v) v end.
Definition origin := mkV 0 0 0.
Definition closed_polygon (n : nat) (vs : list V3) : Prop := length vs = n /\ perimeter vs = 2 /\ last vs origin = origin.
Definition open_polygon (n : nat) (vs : list V3) : Prop := exists ws, vs = origin :: ws /\ length ws = n /\ path_length origin ws = 2.
Definition planar (vs : list V3) : Prop := Forall (fun v => c1 v = 0) vs.
(** Vectors of complex numbers that span a plane. *)
Definition independent (A B : list cx) : Prop := nonzero A /\ forall s, B <> map (cmul s) A.

(** ** proofs *)
Lemma distance_norm : forall u v, distance u v = norm3 (vsub v u).
Proof. intros. unfold distance, norm3. f_equal. cbn. unfold Rsqr. ring. Qed.
Lemma path_diffs : forall vs v, path_length v vs = lsum (diffs v vs).
Proof. induction vs as [|w vs IH]; intros v; auto. cbn [path_length diffs lsum]. rewrite distance_norm, IH. auto. Qed.
Lemma last_default : forall {T} (l : list T) x d d', last (x :: l) d = last (x :: l) d'.
Proof. intros T. induction l as [|y l IH]; intros x d d'; auto. change (last (y :: l) d = last (y :: l) d'). auto. Qed.
Lemma closed_edges : forall n vs, closed_polygon n vs <-> exists e es, vs = e :: sums e es /\ length (e :: es) = n /\ vsum (e :: es) = vz /\ lsum (e :: es) = 2.
Proof.
  intros n vs. assert (K : forall e ws, last (e :: ws) origin = last ws e) by (intros e ws; destruct ws as [|w ws]; [reflexivity|]; change (last (w :: ws) origin = last (w :: ws) e); apply last_default).
  assert (N : forall e, norm3 (vsub e vz) = norm3 e) by (intros; unfold norm3; f_equal; cbn; ring). split.
  - intros (L & P & LA). destruct vs as [|e ws]; [cbn in P; lra|]. exists e, (diffs e ws). rewrite sums_diffs. split; [auto|]. rewrite K in LA. split; [cbn; rewrite diffs_length; auto|]. split; [cbn [vsum]; rewrite diffs_last; auto|].
    cbn [lsum]. cbn [perimeter] in P. rewrite LA, path_diffs, distance_norm in P. fold vz in P. change origin with vz in P. rewrite N in P. lra.
  - intros (e & es & -> & L & S & LE). split; [cbn; rewrite sums_length; auto|]. cbn [vsum] in S. assert (LA : last (sums e es) e = vz) by (rewrite <- diffs_last, diffs_sums; auto). split; [|rewrite K; auto].
    cbn [perimeter]. rewrite path_diffs, diffs_sums, LA, distance_norm, N. cbn [lsum] in LE. lra.
Qed.
Lemma off_same : forall x, off x x = false.
Proof. intros x. unfold off. replace (x - x) with 0 by ring. rewrite Rabs_R0. destruct (Rlt_dec _ _); auto. lra. Qed.
(** an orthonormal pair *)
Lemma check_passes : forall A B, length A = length B -> re (hdot A A) = 1 -> re (hdot B B) = 1 -> hdot A B = cz -> closed_check A B = true /\ vsum (hopf_edges A B) = vz /\ lsum (hopf_edges A B) = 2.
Proof.
  intros A B L HA HB HAB. assert (S : vsum (hopf_edges A B) = vz) by (rewrite edges_sum, HA, HB, HAB by auto; apply v3_eq; cbn; ring). split; [|split; [auto|rewrite edges_length, HA, HB by auto; lra]].
  unfold closed_check. rewrite HA, HB, HAB, !hdot_self_im. cbn [re im cz]. rewrite !off_same, fold_vsum, S. cbn [orb c0 c1 c2 vadd vz]. replace ((0 + 0) * (0 + 0) + (0 + 0) * (0 + 0) + (0 + 0) * (0 + 0)) with 0 by ring. rewrite sqrt_0. destruct (Rlt_dec _ _); auto. lra.
Qed.
Lemma closed_orthonormal : forall sc A B, length A = length B -> re (hdot A A) = 1 -> re (hdot B B) = 1 -> hdot A B = cz ->
  closed_from sc A B = match hopf_edges A B with [] => UB | e :: es => Ok (e :: sums e es) end.
Proof.
  intros sc A B L HA HB HAB. unfold closed_from. rewrite normalize_unit by auto. cbn [bind]. rewrite HAB. replace (conj cz) with cz by (apply cx_eq; cbn; ring). rewrite reduce_none by auto. rewrite normalize_unit by auto. cbn [bind].
  destruct (check_passes A B L HA HB HAB) as (-> & _). rewrite andb_false_r. auto.
Qed.
Lemma normalize_pos : forall A, 0 < re (hdot A A) -> exists k, 0 < k /\ normalize A = Ok (cscale (mkC k 0) A) /\ re (hdot (cscale (mkC k 0) A) (cscale (mkC k 0) A)) = 1.
Proof.
  intros A N. destruct (rsqrt_pos _ N) as (r & E & P & S). exists (1 / r). split; [apply Rdiv_lt_0_compat; lra|]. split.
  - unfold normalize. rewrite E. cbn [bind]. rewrite rdiv_ok by lra. reflexivity.
  - rewrite hdot_scale_l, hdot_scale_r. cbn. rewrite (hdot_self_im A), <- S. field. lra.
Qed.
Lemma closed_ok : forall sc A B, length A = length B -> independent A B -> exists vs, closed_from sc A B = Ok vs /\ closed_polygon (length A) vs /\
  (Forall (fun a => im a = 0) A -> Forall (fun b => im b = 0) B -> planar vs).
Proof.
  intros sc A B L (NZ & IND). destruct (normalize_ok A NZ) as (k & K & E & U). unfold closed_from. rewrite E. cbn [bind]. set (A1 := cscale (mkC k 0) A) in *. set (s := conj (hdot A1 B)).
  assert (L1 : length A1 = length B) by (unfold A1, cscale; rewrite map_length; auto).
  assert (P : 0 < re (hdot (reduce s A1 B) (reduce s A1 B))).
  { destruct (Rle_lt_or_eq_dec _ _ (hdot_self_nonneg (reduce s A1 B))) as [H|H]; auto. exfalso. symmetry in H. apply hdot_self_zero in H. apply reduce_zero in H; auto. unfold A1 in H. rewrite cscale_cscale in H. exact (IND _ H). }
  destruct (normalize_pos _ P) as (k' & K' & E' & U'). rewrite E'. cbn [bind]. set (B1 := cscale (mkC k' 0) (reduce s A1 B)) in *.
  assert (L2 : length A1 = length B1) by (unfold B1, cscale; rewrite map_length, reduce_length; auto).
  assert (O : hdot A1 B1 = cz). { unfold B1. rewrite hdot_scale_r, hdot_reduce by auto. pose proof (hdot_self_im A1) as I. assert (C : hdot A1 A1 = mkC 1 0) by (apply cx_eq; auto). rewrite C. unfold s. apply cx_eq; cbn; ring. }
  destruct (check_passes A1 B1 L2 U U' O) as (-> & S & LE). rewrite andb_false_r. pose proof (edges_number A1 B1 L2) as EN.
  assert (PL : Forall (fun a => im a = 0) A -> Forall (fun b => im b = 0) B -> Forall (fun v => c1 v = 0) (hopf_edges A1 B1)).
  { intros FA FB. assert (FA1 : Forall (fun a => im a = 0) A1) by (unfold A1, cscale; clear - FA; induction FA; cbn; constructor; auto; cbn; rewrite H; ring).
    assert (S0 : im s = 0). { unfold s. cbn. assert (Z : im (hdot A1 B) = 0); [|rewrite Z; ring]. clearbody A1. clear - FA1 FB. revert B FB. induction FA1 as [|a A1 Ha F IH]; intros B FB; [reflexivity|]. destruct FB as [|b B Hb FB]; [reflexivity|]. cbn [hdot]. cbn. rewrite (IH B FB), Ha, Hb. ring. }
    assert (FR : Forall (fun b => im b = 0) (reduce s A1 B)). { clearbody s A1. clear - FA1 FB S0. revert B FB. induction FA1 as [|a A1 Ha F IH]; intros B FB; [constructor|]. destruct FB as [|b B Hb FB]; [constructor|]. cbn [reduce]. constructor; [cbn; rewrite Ha, Hb, S0; ring|auto]. }
    assert (FB1 : Forall (fun b => im b = 0) B1) by (unfold B1, cscale; clear - FR; induction FR; cbn; constructor; auto; cbn; rewrite H; ring).
    clearbody B1 A1. clear - FA1 FB1. revert B1 FB1. induction FA1 as [|a A Ha F IH]; intros B FB; [constructor|]. destruct FB as [|b B Hb FB]; [constructor|]. cbn [hopf_edges]. constructor; [cbn; rewrite Ha, Hb; ring|auto]. }
  destruct (hopf_edges A1 B1) as [|e es].
  - exfalso. cbn in LE. lra.
  - exists (e :: sums e es). split; [reflexivity|]. split.
    + apply closed_edges. exists e, es. split; [auto|]. split; [rewrite EN, L1; auto|]. auto.
    + intros FA FB. specialize (PL FA FB). inversion PL as [|? ? He Hes]; subst. constructor; auto. clear - He Hes. revert e He. induction Hes as [|x es Hx F IH]; intros e He; cbn [sums]; constructor; [cbn; lra|]. apply IH. cbn. lra.
Qed.
Lemma reduce_self : forall t A, Forall (fun x => x = cz) (reduce t A (cscale t A)).
Proof. intros t. induction A as [|a A IH]; cbn; constructor; [apply cx_eq; cbn; ring|exact IH]. Qed.
Lemma closed_ub : forall sc A B, length A = length B -> ~ independent A B -> closed_from sc A B = UB.
Proof.
  intros sc A B L N. unfold closed_from. destruct (Rlt_dec 0 (re (hdot A A))) as [P|P].
  - destruct (normalize_pos A P) as (k & K & E & U). rewrite E. cbn [bind]. set (A1 := cscale (mkC k 0) A) in *. assert (L1 : length A1 = length B) by (unfold A1, cscale; rewrite map_length; auto).
    set (s := conj (hdot A1 B)). rewrite normalize_zero; [reflexivity|]. intros NZ. apply N. split.
    + destruct (Req_EM_T (re (hdot A A)) 0) as [Z|Z]; [lra|]. clear - Z. induction A as [|a A IH]; [cbn in Z; lra|]. destruct (Req_EM_T (re a) 0) as [R0|R0]; [destruct (Req_EM_T (im a) 0) as [I0|I0]|].
      * cbn [hdot] in Z. cbn in Z. rewrite R0, I0 in Z. destruct IH as (b & I & H); [lra|]. exists b. split; [right; auto|auto].
      * exists a. split; [left; auto|]. intros ->. cbn in I0. lra.
      * exists a. split; [left; auto|]. intros ->. cbn in R0. lra.
    + intros t EB. apply nonzero_pos in NZ. assert (C : hdot A1 A1 = mkC 1 0) by (apply cx_eq; [auto|apply hdot_self_im]).
      assert (EB' : B = cscale (cmul t (mkC (/ k) 0)) A1). { unfold A1. rewrite cscale_cscale. rewrite EB. unfold cscale. apply map_ext. intros a. apply cx_eq; cbn; field; lra. }
      assert (ES : s = cmul t (mkC (/ k) 0)). { unfold s. rewrite EB', hdot_scale_r, C. apply cx_eq; cbn; ring. }
      rewrite ES in NZ. rewrite EB' in NZ. pose proof (reduce_self (cmul t (mkC (/ k) 0)) A1) as Z. remember (reduce (cmul t (mkC (/ k) 0)) A1 (cscale (cmul t (mkC (/ k) 0)) A1)) as X. clear - NZ Z. induction Z as [|x X Hx Z IH]; [cbn in NZ; lra|]. subst x. cbn [hdot] in NZ. cbn in NZ, IH. apply IH. lra.
  - rewrite normalize_zero; [reflexivity|]. intros NZ. apply nonzero_pos in NZ. lra.
Qed.
Lemma space_length : forall n g, length (space_A n g) = n /\ length (space_B n g) = n.
Proof. intros. unfold space_A, space_B. rewrite !map_length, !seq_length. auto. Qed.
Lemma plane_length : forall n g, length (plane_A n g) = n /\ length (plane_B n g) = n.
Proof. intros. unfold plane_A, plane_B. rewrite !map_length, !seq_length. auto. Qed.
Lemma plane_real : forall n g, Forall (fun a => im a = 0) (plane_A n g) /\ Forall (fun a => im a = 0) (plane_B n g).
Proof. intros. unfold plane_A, plane_B. split; apply Forall_forall; intros a I; apply in_map_iff in I as (i & <- & _); reflexivity. Qed.

(** ** closed polygons *)
(** If the vectors that are drawn are independent (which fails with probability 0), the result is a closed polygon of length 2,
    with or without the self check. *)
Theorem closed_polygon_sampled : forall selfcheck n g, independent (space_A n g) (space_B n g) ->
  exists vs, random_closed_polygon selfcheck n g = Ok vs /\ closed_polygon n vs.
Proof. intros sc n g I. destruct (space_length n g) as (LA & LB). destruct (closed_ok sc (space_A n g) (space_B n g) ltac:(congruence) I) as (vs & E & C & _). rewrite LA in C. eauto. Qed.
Print Assumptions closed_polygon_sampled.
(** Otherwise there is a division by zero; in particular for a single edge. *)
Theorem closed_polygon_degenerate : forall selfcheck n g, ~ independent (space_A n g) (space_B n g) -> random_closed_polygon selfcheck n g = UB.
Proof. intros sc n g I. destruct (space_length n g) as (LA & LB). apply closed_ub; auto. congruence. Qed.
Print Assumptions closed_polygon_degenerate.
(** Every closed polygon of length 2 whose last vertex is at the origin is the result of some draws. *)
Theorem closed_polygon_all : forall n vs, closed_polygon n vs -> exists g, forall selfcheck, random_closed_polygon selfcheck n g = Ok vs.
Proof.
  intros n vs C. apply closed_edges in C as (e & es & -> & L & S & LE). destruct (space_draws (map pre (e :: es))) as (g & EA & EB). rewrite map_length, L in EA, EB. rewrite !map_map in EA, EB. exists g. intros sc. unfold random_closed_polygon. rewrite EA, EB.
  pose proof (pre_edges (e :: es)) as PE. set (A := map (fun x => fst (pre x)) (e :: es)) in *. set (B := map (fun x => snd (pre x)) (e :: es)) in *. assert (LAB : length A = length B) by (unfold A, B; rewrite !map_length; auto).
  pose proof (edges_sum A B LAB) as ES. pose proof (edges_length A B LAB) as EL. rewrite PE in ES, EL. rewrite S in ES. rewrite LE in EL. clearbody A B. injection ES as S0 S1 S2.
  rewrite closed_orthonormal; auto; [rewrite PE; auto|lra|lra|apply cx_eq; cbn [re im cz]; lra].
Qed.
Print Assumptions closed_polygon_all.

(** ** closed polygons in the plane *)
Theorem closed_plane_polygon_sampled : forall selfcheck n g, independent (plane_A n g) (plane_B n g) ->
  exists vs, random_closed_plane_polygon selfcheck n g = Ok vs /\ closed_polygon n vs /\ planar vs.
Proof.
  intros sc n g I. destruct (plane_length n g) as (LA & LB). destruct (closed_ok sc (plane_A n g) (plane_B n g) ltac:(congruence) I) as (vs & E & C & P). rewrite LA in C. destruct (plane_real n g) as (RA & RB). eauto 10.
Qed.
Print Assumptions closed_plane_polygon_sampled.
Theorem closed_plane_polygon_degenerate : forall selfcheck n g, ~ independent (plane_A n g) (plane_B n g) -> random_closed_plane_polygon selfcheck n g = UB.
Proof. intros sc n g I. destruct (plane_length n g) as (LA & LB). apply closed_ub; auto. congruence. Qed.
Print Assumptions closed_plane_polygon_degenerate.
Lemma planar_diffs : forall vs v, c1 v = 0 -> planar vs -> Forall (fun e => c1 e = 0) (diffs v vs).
Proof. induction vs as [|w vs IH]; intros v Hv P; cbn [diffs]; constructor; inversion P; subst; [cbn; lra|]. apply IH; auto. Qed.
Lemma pre_real : forall es, Forall (fun e => c1 e = 0) es -> Forall (fun q => im (fst q) = 0 /\ im (snd q) = 0) (map pre es).
Proof. intros es F. induction F as [|e es H F IH]; cbn [map]; constructor; auto. destruct (pre_ok e) as (_ & A & B). auto. Qed.
Theorem closed_plane_polygon_all : forall n vs, closed_polygon n vs -> planar vs -> exists g, forall selfcheck, random_closed_plane_polygon selfcheck n g = Ok vs.
Proof.
  intros n vs C P. apply closed_edges in C as (e & es & -> & L & S & LE). assert (PE0 : Forall (fun e => c1 e = 0) (e :: es)). { inversion P as [|? ? He Hs]; subst. constructor; auto. rewrite <- (diffs_sums es e). apply planar_diffs; auto. }
  destruct (plane_draws (map pre (e :: es)) (pre_real _ PE0)) as (g & EA & EB). rewrite map_length, L in EA, EB. rewrite !map_map in EA, EB. exists g. intros sc. unfold random_closed_plane_polygon. rewrite EA, EB.
  pose proof (pre_edges (e :: es)) as PE. set (A := map (fun x => fst (pre x)) (e :: es)) in *. set (B := map (fun x => snd (pre x)) (e :: es)) in *. assert (LAB : length A = length B) by (unfold A, B; rewrite !map_length; auto).
  pose proof (edges_sum A B LAB) as ES. pose proof (edges_length A B LAB) as EL. rewrite PE in ES, EL. rewrite S in ES. rewrite LE in EL. clearbody A B. injection ES as S0 S1 S2.
  rewrite closed_orthonormal; auto; [rewrite PE; auto|lra|lra|apply cx_eq; cbn [re im cz]; lra].
Qed.
Print Assumptions closed_plane_polygon_all.

(** ** open polygons *)
Lemma open_check_passes : forall A B, re (hdot A A) + re (hdot B B) = 2 -> open_check A B = true.
Proof. intros A B H. unfold open_check. rewrite H, !hdot_self_im, !off_same. reflexivity. Qed.
Lemma open_ok : forall sc A B, length A = length B -> nonzero A \/ nonzero B -> exists vs, open_from sc A B = Ok vs /\ open_polygon (length A) vs /\
  (Forall (fun a => im a = 0) A -> Forall (fun b => im b = 0) B -> planar vs).
Proof.
  intros sc A B L N. assert (P : 0 < re (hdot A A) + re (hdot B B)). { pose proof (hdot_self_nonneg A). pose proof (hdot_self_nonneg B). destruct N as [N|N]; apply nonzero_pos in N; lra. }
  unfold open_from. destruct (rsqrt_pos _ P) as (r & E & R0 & S). rewrite E. cbn [bind]. rewrite rdiv_ok by lra. cbn [bind]. cbv zeta. set (k := sqrt 2 / r).
  assert (K : k * k * (re (hdot A A) + re (hdot B B)) = 2). { unfold k. rewrite <- S. transitivity (sqrt 2 * sqrt 2); [field; lra|apply sqrt_sqrt; lra]. }
  set (A1 := cscale (mkC k 0) A). set (B1 := cscale (mkC k 0) B). assert (L1 : length A1 = length B1) by (unfold A1, B1, cscale; rewrite !map_length; auto).
  assert (T : re (hdot A1 A1) + re (hdot B1 B1) = 2). { unfold A1, B1. rewrite !hdot_scale_l, !hdot_scale_r. cbn. rewrite !hdot_self_im. rewrite <- K. ring. }
  rewrite (open_check_passes A1 B1 T), andb_false_r. eexists. split; [reflexivity|]. split.
  - exists (sums vz (hopf_edges A1 B1)). split; [auto|]. split; [rewrite sums_length, edges_number by auto; unfold A1, cscale; apply map_length|]. change origin with vz. rewrite path_diffs, diffs_sums, edges_length by auto. auto.
  - intros FA FB. assert (FE : Forall (fun e => c1 e = 0) (hopf_edges A1 B1)).
    { unfold A1, B1, cscale. clear - FA FB. revert B FB. induction FA as [|a A Ha F IH]; intros B FB; [constructor|]. destruct FB as [|b B Hb FB]; [constructor|]. cbn [map hopf_edges]. constructor; [cbn; rewrite Ha, Hb; ring|auto]. }
    constructor; [reflexivity|]. assert (V : c1 vz = 0) by reflexivity. revert V. generalize vz. clear - FE. induction FE as [|x es Hx F IH]; intros v Hv; cbn [sums]; constructor; [cbn; lra|]. apply IH. cbn. lra.
Qed.
Lemma open_ub : forall sc A B, ~ (nonzero A \/ nonzero B) -> open_from sc A B = UB.
Proof.
  intros sc A B N. assert (Z : forall X, ~ nonzero X -> re (hdot X X) = 0).
  { intros X H. assert (F : Forall (fun a => a = cz) X). { apply Forall_forall. intros a I. destruct (Req_EM_T (re a) 0) as [E|E]; [destruct (Req_EM_T (im a) 0) as [E'|E']; [apply cx_eq; auto|]|]; exfalso; apply H; exists a; split; auto; intros ->; cbn in *; lra. }
    clear H. induction F as [|a X Ha F IH]; auto. subst a. cbn [hdot]. cbn in *. lra. }
  unfold open_from. rewrite (Z A), (Z B) by tauto. replace (0 + 0) with 0 by ring. unfold rsqrt. destruct (Rlt_dec 0 0); [lra|]. cbn [bind]. rewrite sqrt_0. unfold rdiv. destruct (Req_EM_T 0 0); [reflexivity|lra].
Qed.
Theorem open_polygon_sampled : forall selfcheck n g,
  (nonzero (space_A n g) \/ nonzero (space_B n g) -> exists vs, random_open_polygon selfcheck n g = Ok vs /\ open_polygon n vs) /\
  (~ (nonzero (space_A n g) \/ nonzero (space_B n g)) -> random_open_polygon selfcheck n g = UB).
Proof.
  intros sc n g. split; [|apply open_ub]. intros N. destruct (space_length n g) as (LA & LB). destruct (open_ok sc (space_A n g) (space_B n g) ltac:(congruence) N) as (vs & E & C & _). rewrite LA in C. eauto.
Qed.
Print Assumptions open_polygon_sampled.
Theorem open_plane_polygon_sampled : forall selfcheck n g,
  (nonzero (plane_A n g) \/ nonzero (plane_B n g) -> exists vs, random_open_plane_polygon selfcheck n g = Ok vs /\ open_polygon n vs /\ planar vs) /\
  (~ (nonzero (plane_A n g) \/ nonzero (plane_B n g)) -> random_open_plane_polygon selfcheck n g = UB).
Proof.
  intros sc n g. split; [|apply open_ub]. intros N. destruct (plane_length n g) as (LA & LB). destruct (open_ok sc (plane_A n g) (plane_B n g) ltac:(congruence) N) as (vs & E & C & P). rewrite LA in C. destruct (plane_real n g). eauto 10.
Qed.
Print Assumptions open_plane_polygon_sampled.
Lemma open_given : forall sc A B, length A = length B -> re (hdot A A) + re (hdot B B) = 2 -> open_from sc A B = Ok (vz :: sums vz (hopf_edges A B)).
Proof.
  intros sc A B L T. unfold open_from. rewrite T. unfold rsqrt. destruct (Rlt_dec 2 0); [lra|]. cbn [bind]. assert (0 < sqrt 2) by (apply sqrt_lt_R0; lra). rewrite rdiv_ok by lra. cbn [bind]. replace (sqrt 2 / sqrt 2) with 1 by (field; lra). rewrite !cscale_one. cbv zeta. rewrite open_check_passes by auto. rewrite andb_false_r. auto.
Qed.
Theorem open_polygon_all : forall n vs, open_polygon n vs -> exists g, forall selfcheck, random_open_polygon selfcheck n g = Ok vs.
Proof.
  intros n vs (ws & -> & L & P). change origin with vz in *. rewrite path_diffs in P. destruct (space_draws (map pre (diffs vz ws))) as (g & EA & EB). rewrite map_length, diffs_length, L in EA, EB. rewrite !map_map in EA, EB. exists g. intros sc. unfold random_open_polygon. rewrite EA, EB.
  pose proof (pre_edges (diffs vz ws)) as PE. set (A := map (fun x => fst (pre x)) (diffs vz ws)) in *. set (B := map (fun x => snd (pre x)) (diffs vz ws)) in *. assert (LAB : length A = length B) by (unfold A, B; rewrite !map_length; auto).
  rewrite open_given; auto; [rewrite PE, sums_diffs; auto|]. rewrite <- edges_length, PE by auto. auto.
Qed.
Print Assumptions open_polygon_all.
Theorem open_plane_polygon_all : forall n vs, open_polygon n vs -> planar vs -> exists g, forall selfcheck, random_open_plane_polygon selfcheck n g = Ok vs.
Proof.
  intros n vs (ws & -> & L & P) PL. change origin with vz in *. rewrite path_diffs in P. assert (PD : Forall (fun e => c1 e = 0) (diffs vz ws)) by (inversion PL; subst; apply planar_diffs; auto).
  destruct (plane_draws (map pre (diffs vz ws)) (pre_real _ PD)) as (g & EA & EB). rewrite map_length, diffs_length, L in EA, EB. rewrite !map_map in EA, EB. exists g. intros sc. unfold random_open_plane_polygon. rewrite EA, EB.
  pose proof (pre_edges (diffs vz ws)) as PE. set (A := map (fun x => fst (pre x)) (diffs vz ws)) in *. set (B := map (fun x => snd (pre x)) (diffs vz ws)) in *. assert (LAB : length A = length B) by (unfold A, B; rewrite !map_length; auto).
  rewrite open_given; auto; [rewrite PE, sums_diffs; auto|]. rewrite <- edges_length, PE by auto. auto.
Qed.
Print Assumptions open_plane_polygon_all.

(** ** examples *)
(** Draws that are independent. *)
Example draws_independent : independent (space_A 2 (fun k => if Nat.eqb k 0 then 3 else if Nat.eqb k 6 then 5 else 0)) (space_B 2 (fun k => if Nat.eqb k 0 then 3 else if Nat.eqb k 6 then 5 else 0)).
Proof.
  unfold space_A, space_B. cbn. split.
  - exists (mkC 3 0). split; [left; auto|]. intros E. injection E. lra.
  - intros s E. injection E. intros. lra.
Qed.
(** A square with edges of length 1/2. *)
Example square_is_closed : closed_polygon 4 [mkV (/2) 0 0; mkV (/2) 0 (/2); mkV 0 0 (/2); mkV 0 0 0] /\ planar [mkV (/2) 0 0; mkV (/2) 0 (/2); mkV 0 0 (/2); mkV 0 0 0].
Proof.
  assert (H : forall x, x = /2 * /2 -> sqrt x = /2) by (intros x ->; apply sqrt_square; lra).
  split; [|repeat constructor]. split; [reflexivity|]. split; [|reflexivity]. cbn [perimeter path_length last]. unfold distance. cbn. rewrite !H by (unfold Rsqr; lra). lra.
Qed.
