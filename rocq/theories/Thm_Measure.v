(** C79: the measures of curves are what they are called; projections and rotations to an axis. *)
From Coq Require Import Reals List Bool Lra Lia Psatz ZArith.
From Verif Require Import Base Sampler SamplerProofs Hopf HopfProofs Fan FanProofs Rotate RotateProofs Closure ClosureProofs Measure MeasureProofs Thm_Hopf Thm_Fan Thm_Rotate Thm_Closure.
Import ListNotations.
Open Scope R_scope.
Open Scope res_scope.

(** ** what is asked *)
(** the length along a list of vertices from the i-th to the j-th *)
Definition between (vs : list V3) (i j : nat) : R := match skipn i vs with [] => 0 | v :: r => path_length v (firstn (j - i) r) end.
(** all vertices of a curve *)
Definition all_vertices (L : list arc) : list V3 := flat_map verts L.
Fixpoint total {T} (f : T -> R) (l : list T) : R := match l with [] => 0 | x :: l' => f x + total f l' end.
Definition mean {T} (f : T -> R) (l : list T) : R := total f l / INR (length l).

(** ** proofs *)
Lemma total_sum : forall {T} (f : T -> R) l, total f l = sum_of f l. Proof. intros T f. induction l as [|x l IH]; auto. cbn [total]. rewrite sum_cons, IH. auto. Qed.
Lemma between_seg : forall vs i j, between vs i j = seg vs i (j - i). Proof. reflexivity. Qed.

(** plc_s is the length of the components before, and along the component up to the vertex, if the components before are closed... *)
Theorem arclength_position : forall L cmp s vert, nth_error L cmp = Some s -> (vert < length (verts s))%nat -> Forall wrapped L -> (forall t, In t (firstn cmp L) -> opened t = false) ->
  plc_s L cmp vert 0 = Ok (total_length (firstn cmp L) + between (verts s) 0 vert).
Proof.
  assert (G : forall L cmp s vert acc, nth_error L cmp = Some s -> (vert < length (verts s))%nat -> Forall wrapped L -> (forall t, In t (firstn cmp L) -> opened t = false) -> plc_s L cmp vert acc = Ok (acc + (total_length (firstn cmp L) + between (verts s) 0 vert))).
  { induction L as [|t L IH]; intros cmp s vert acc E V W O; [destruct cmp; discriminate|]. destruct cmp as [|cmp]; cbn [nth_error firstn] in *.
    - injection E as ->. cbn [plc_s total_length]. change 0%Z with (Z.of_nat 0). rewrite (s_loop_ok s (verts s)) by (try apply reads_verts; lia). rewrite between_seg, Nat.sub_0_r. f_equal. ring.
    - inversion W; subst. cbn [plc_s total_length]. assert (OT : opened t = false) by (apply O; left; auto). assert (N : (3 <= length (verts t))%nat) by auto.
      change 0%Z with (Z.of_nat 0). rewrite (s_loop_ok t (verts t ++ [nth 0 (verts t) vz])) by (try (apply reads_more, cell_end; auto; lia); rewrite app_length; cbn; lia). cbn [bind]. rewrite ring_length by (auto; lia). rewrite (IH cmp s) by (auto; intros; apply O; right; auto). f_equal. ring. }
  intros. rewrite (G L cmp s) by auto. f_equal. ring.
Qed.
Print Assumptions arclength_position.
(** ... but of an open component the last edge is counted twice. *)
Theorem arclength_position_open_refuted : forall s vs a b t L, opened s = true -> verts s = vs ++ [a; b] -> plc_s (s :: t :: L) 1 0 0 = Ok (component_length s + distance a b).
Proof.
  intros s vs a b t L O E. assert (LN : length (verts s) = (length vs + 2)%nat) by (rewrite E, app_length; auto). cbn [plc_s]. change 0%Z with (Z.of_nat 0).
  assert (NA : nth (length (verts s) - 2) (verts s) vz = a) by (rewrite LN; replace (length vs + 2 - 2)%nat with (length vs) by lia; rewrite E; apply nth_middle).
  rewrite (s_loop_ok s (verts s ++ [a])) by (try (apply reads_more; rewrite cell_end_open by (auto; lia); rewrite NA; auto); rewrite app_length; cbn; lia). cbn [bind s_loop]. f_equal.
  assert (X : seg (verts s ++ [a]) 0 (length (verts s)) = seg (verts s ++ [a]) 0 (length vs + 1) + seg (verts s ++ [a]) (0 + (length vs + 1)) 1). { rewrite <- seg_add by (rewrite app_length; cbn; lia). f_equal. lia. }
  rewrite X, seg_app by lia. replace (seg (verts s) 0 (length vs + 1)) with (component_length s); [|unfold component_length; rewrite O, E; destruct vs as [|v vs]; cbn [app]; rewrite <- seg_all; [auto|rewrite app_length; cbn [length]; f_equal; lia]].
  rewrite seg_S by (rewrite app_length; cbn; lia). rewrite seg_0. cbn [Nat.add]. replace (nth (length vs + 1) (verts s ++ [a]) vz) with b; [|rewrite app_nth1 by lia; rewrite E; rewrite app_nth2 by lia; replace (length vs + 1 - length vs)%nat with 1%nat by lia; auto]. replace (nth (S (length vs + 1)) (verts s ++ [a]) vz) with a; [|rewrite app_nth2 by lia; rewrite LN; replace (S (length vs + 1) - (length vs + 2))%nat with 0%nat by lia; auto]. rewrite (distance_sym b a). ring.
Qed.
Print Assumptions arclength_position_open_refuted.

(** plc_subarc_length is the length between two vertices, given in any order; on closed components the shorter way round. *)
Theorem subarc_shortest : forall L cmp s i j, nth_error L cmp = Some s -> (i < length (verts s))%nat -> (j < length (verts s))%nat ->
  let d := between (verts s) (Nat.min i j) (Nat.max i j) in
  subarc_length L (Z.of_nat cmp) (Z.of_nat i) (Z.of_nat j) = Ok (if opened s then d else Rmin d (component_length s - d)).
Proof.
  intros L cmp s i j E I J d. assert (C : (cmp < length L)%nat) by (apply nth_error_Some; congruence). unfold subarc_length. replace ((0 <=? Z.of_nat cmp)%Z && (Z.of_nat cmp <? Z.of_nat (length L))%Z) with true by (symmetry; apply andb_true_intro; split; [apply Z.leb_le|apply Z.ltb_lt]; lia). rewrite Nat2Z.id, E.
  replace ((0 <=? Z.of_nat i)%Z && (Z.of_nat i <? Z.of_nat (length (verts s)))%Z) with true by (symmetry; apply andb_true_intro; split; [apply Z.leb_le|apply Z.ltb_lt]; lia). replace ((0 <=? Z.of_nat j)%Z && (Z.of_nat j <? Z.of_nat (length (verts s)))%Z) with true by (symmetry; apply andb_true_intro; split; [apply Z.leb_le|apply Z.ltb_lt]; lia).
  set (lo := Nat.min i j) in *. set (hi := Nat.max i j) in *. replace (if (Z.of_nat i <=? Z.of_nat j)%Z then Z.of_nat i else Z.of_nat j) with (Z.of_nat lo) by (destruct (Z.leb_spec (Z.of_nat i) (Z.of_nat j)); unfold lo; lia). replace (if (Z.of_nat i <=? Z.of_nat j)%Z then Z.of_nat j else Z.of_nat i) with (Z.of_nat hi) by (destruct (Z.leb_spec (Z.of_nat i) (Z.of_nat j)); unfold hi; lia).
  assert (LH : (lo <= hi < length (verts s))%nat) by (unfold lo, hi; lia). cbv zeta. unfold d. rewrite between_seg. destruct (opened s) eqn:O.
  - replace (Z.to_nat (Z.of_nat hi - Z.of_nat lo)) with (hi - lo)%nat by lia. rewrite (subarc_in s (verts s)) by (try apply reads_verts; lia). cbn [bind fst]. f_equal. ring.
  - set (ws := verts s ++ [nth 0 (verts s) vz]). assert (R : reads s ws) by (apply reads_more, cell_end; auto; lia). assert (LW : length ws = S (length (verts s))) by (unfold ws; rewrite app_length; cbn; lia).
    replace (Z.to_nat (Z.of_nat (length (verts s)) - 0)) with (lo + ((hi - lo) + (length (verts s) - hi)))%nat by lia. change 0%Z with (Z.of_nat 0). rewrite subarc_split. rewrite (subarc_out s ws) by (auto; lia). cbn [bind fst snd]. replace (Z.of_nat 0 + Z.of_nat lo)%Z with (Z.of_nat lo) by lia. rewrite subarc_split. rewrite (subarc_in s ws) by (auto; lia). cbn [bind fst snd]. replace (Z.of_nat lo + Z.of_nat (hi - lo))%Z with (Z.of_nat hi) by lia. rewrite (subarc_out s ws) by (auto; lia). cbn [bind fst snd].
    assert (T : component_length s = seg ws 0 lo + (seg ws lo (hi - lo) + seg ws hi (length (verts s) - hi))). { rewrite <- ring_length by (auto; lia). fold ws. replace (length (verts s)) with (lo + ((hi - lo) + (length (verts s) - hi)))%nat at 1 by lia. rewrite seg_add by lia. cbn [Nat.add]. rewrite (seg_add ws (hi - lo)) by lia. replace (lo + (hi - lo))%nat with hi by lia. auto. }
    rewrite T. unfold ws at 1 2. assert (X : seg ws lo (hi - lo) = seg (verts s) lo (hi - lo)) by (apply seg_app; lia). fold ws. rewrite X. rewrite !Rplus_0_l. f_equal. unfold Rmin. replace (seg ws 0 lo + (seg (verts s) lo (hi - lo) + seg ws hi (length (verts s) - hi)) - seg (verts s) lo (hi - lo)) with (seg ws 0 lo + seg ws hi (length (verts s) - hi)) by ring. destruct (Rle_dec _ _); auto.
Qed.
Print Assumptions subarc_shortest.

(** plc_pointset_diameter is the largest distance of two vertices. *)
Theorem diameter_largest : forall L, (forall u v, In u (all_vertices L) -> In v (all_vertices L) -> distance u v <= pointset_diameter L) /\
  (all_vertices L <> [] -> exists u v, In u (all_vertices L) /\ In v (all_vertices L) /\ distance u v = pointset_diameter L) /\
  (all_vertices L = [] -> pointset_diameter L = 0).
Proof.
  intros L. destruct (loop_grows L 0) as (A & B & C). fold (pointset_diameter L) in A, B, C. change (all_vertices L) with (points L). split; [|split].
  - intros u v U V. destruct (pairs_all L u v U V) as [I|I]; [auto|]. rewrite distance_sym. auto.
  - intros N. destruct B as [B|(u & v & I & E)]; [|apply pairs_in in I; exists u, v; split; [tauto|split; [tauto|auto]]]. destruct (points L) as [|u l] eqn:P; [congruence|]. exists u, u. split; [left; auto|]. split; [left; auto|]. rewrite B. unfold distance. replace (_ + _ + _) with 0 by (unfold Rsqr; ring). apply sqrt_0.
  - intros N. destruct B as [B|(u & v & I & E)]; [auto|]. apply pairs_in in I. rewrite N in I. destruct I as ([] & _).
Qed.
Print Assumptions diameter_largest.

(** plc_center_of_mass is the mean of the vertices. *)
Lemma points_pos : forall L, all_vertices L <> [] -> 0 < INR (num_verts L).
Proof. intros L N. rewrite num_points. apply lt_0_INR. change (points L) with (all_vertices L). destruct (all_vertices L); [congruence|cbn; lia]. Qed.
Theorem center_mean : forall L, all_vertices L <> [] -> center_of_mass L = Ok (mkV (mean c0 (all_vertices L)) (mean c1 (all_vertices L)) (mean c2 (all_vertices L))).
Proof.
  intros L N. pose proof (points_pos L N) as P. unfold center_of_mass, rdiv. destruct (Req_EM_T _ 0); [lra|]. cbn [bind]. rewrite (fold_points (fun com v => vadd com (scale_vect (1 / INR (num_verts L)) v))), fold_com. f_equal. unfold mean. rewrite !total_sum. change (all_vertices L) with (points L) in *. rewrite <- !num_points. apply v3_eq; cbn [c0 c1 c2 vz]; field; lra.
Qed.
Print Assumptions center_mean.
(** plc_gyradius is half of the mean over all pairs of vertices of the square of the distance. *)
Theorem gyradius_pairs : forall L, all_vertices L <> [] -> gyradius L = Ok (mean (fun u => mean (fun v => (distance u v)²) (all_vertices L)) (all_vertices L) / 2).
Proof.
  intros L N. pose proof (points_pos L N) as P. unfold gyradius. rewrite center_mean by auto. cbn [bind]. unfold rdiv. destruct (Req_EM_T _ 0) as [|_]; [lra|]. f_equal. rewrite (fold_points (fun g v => g + sq_dist _ v)), fold_sum. change (all_vertices L) with (points L) in *. unfold mean. rewrite !total_sum. rewrite num_points in *. set (l := points L) in *. set (n := INR (length l)) in *. set (S0 := sum_of c0 l). set (S1 := sum_of c1 l). set (S2 := sum_of c2 l).
  assert (V : sum_of (sq_dist (mkV (S0 / n) (S1 / n) (S2 / n))) l = sum_of (fun x => c0 x * c0 x) l + sum_of (fun x => c1 x * c1 x) l + sum_of (fun x => c2 x * c2 x) l - (S0 * S0 + S1 * S1 + S2 * S2) / n).
  { unfold sq_dist. cbn [c0 c1 c2]. rewrite (sum_plus (fun v => (S0 / n - c0 v) * (S0 / n - c0 v) + (S1 / n - c1 v) * (S1 / n - c1 v))), sum_plus, !var_sum. fold n S0 S1 S2. field. lra. }
  rewrite V.
  assert (Q : sum_of (fun u => total (fun v => (distance u v)²) l / n) l = (2 * n * (sum_of (fun x => c0 x * c0 x) l + sum_of (fun x => c1 x * c1 x) l + sum_of (fun x => c2 x * c2 x) l) - 2 * (S0 * S0 + S1 * S1 + S2 * S2)) / n).
  { rewrite (sum_ext _ (fun u => / n * sum_of (fun v => (c0 u - c0 v) * (c0 u - c0 v)) l + 1 * (/ n * sum_of (fun v => (c1 u - c1 v) * (c1 u - c1 v)) l + / n * sum_of (fun v => (c2 u - c2 v) * (c2 u - c2 v)) l))).
    - rewrite sum_lin, sum_lin, !pair_sum. fold n S0 S1 S2. field. lra.
    - intros u _. rewrite total_sum. rewrite (sum_ext _ (fun v => (c0 u - c0 v) * (c0 u - c0 v) + ((c1 u - c1 v) * (c1 u - c1 v) + (c2 u - c2 v) * (c2 u - c2 v)))) by (intros v _; unfold Rsqr; rewrite <- sq_dist_distance; unfold sq_dist; ring). rewrite !sum_plus. field. lra. }
  rewrite Q. field. lra.
Qed.
Print Assumptions gyradius_pairs.
Theorem empty_curve_refused : forall L, all_vertices L = [] -> center_of_mass L = UB /\ gyradius L = UB.
Proof.
  intros L N. assert (Z : center_of_mass L = UB). { unfold center_of_mass, rdiv. rewrite num_points. change (points L) with (all_vertices L). rewrite N. destruct (Req_EM_T _ 0) as [|X]; [auto|exfalso; apply X; reflexivity]. } split; [auto|]. unfold gyradius. rewrite Z. auto.
Qed.
Print Assumptions empty_curve_refused.

(** plc_mean_squared_chordlengths gives for every skip the mean of the squared distances of vertices that many steps apart, going
    around closed components... *)
Theorem chords_open : forall L cp s skips, nth_error L cp = Some s -> opened s = true -> Forall (fun k => 0 <= k < Z.of_nat (length (verts s)))%Z skips ->
  mean_squared_chordlengths L cp skips = Ok (map (fun k => mean (fun i => (distance (nth i (verts s) origin) (nth (i + Z.to_nat k) (verts s) origin))²) (seq 0 (length (verts s) - Z.to_nat k))) skips).
Proof.
  intros L cp s skips E O F. unfold mean_squared_chordlengths. rewrite E. induction F as [|k skips K F IH]; [auto|]. cbn [each map]. rewrite IH. clear IH. unfold mean_squared_chordlength at 1. destruct (Z.ltb_spec k 0); [lia|]. rewrite O. unfold chords. rewrite (fold_sum (fun ab => sq_dist (fst ab) (snd ab))), sum_combine, Rplus_0_l. rewrite skipn_length. unfold rdiv. destruct (Req_EM_T _ 0) as [Z|Z]; [exfalso; revert Z; apply not_0_INR; lia|]. cbn [bind]. do 2 f_equal. unfold mean. rewrite total_sum, seq_length. f_equal. replace (Nat.min (length (verts s)) (length (verts s) - Z.to_nat k)) with (length (verts s) - Z.to_nat k)%nat by lia. apply sum_ext. intros i _. rewrite nth_drop, sq_dist_distance. unfold Rsqr. replace (Z.to_nat k + i)%nat with (i + Z.to_nat k)%nat by lia. auto.
Qed.
Print Assumptions chords_open.
Theorem chords_closed : forall L cp s skips, nth_error L cp = Some s -> opened s = false -> (1 <= length (verts s))%nat -> Forall (fun k => 0 <= k <= Z.of_nat (length (verts s)))%Z skips ->
  mean_squared_chordlengths L cp skips = Ok (map (fun k => mean (fun i => (distance (nth i (verts s) origin) (nth ((i + Z.to_nat k) mod length (verts s)) (verts s) origin))²) (seq 0 (length (verts s)))) skips).
Proof.
  intros L cp s skips E O N F. unfold mean_squared_chordlengths. rewrite E. induction F as [|k skips K F IH]; [auto|]. cbn [each map]. rewrite IH. clear IH. unfold mean_squared_chordlength at 1. destruct (Z.ltb_spec k 0); [lia|]. rewrite O. destruct (Z.ltb_spec (Z.of_nat (length (verts s))) k); [lia|]. unfold chords. rewrite (fold_sum (fun ab => sq_dist (fst ab) (snd ab))), sum_combine, Rplus_0_l. rewrite skipn_length, app_length. unfold rdiv. destruct (Req_EM_T _ 0) as [Z|Z]; [exfalso; revert Z; apply not_0_INR; lia|]. cbn [bind]. do 2 f_equal. unfold mean. rewrite total_sum, seq_length. f_equal. replace (Nat.min (length (verts s)) (length (verts s) + length (verts s) - Z.to_nat k)) with (length (verts s)) by lia. apply sum_ext. intros i I. apply in_seq in I. rewrite nth_drop, sq_dist_distance. unfold Rsqr. replace (nth (Z.to_nat k + i) (verts s ++ verts s) vz) with (nth ((i + Z.to_nat k) mod length (verts s)) (verts s) origin); [auto|]. set (n := length (verts s)) in *.
  destruct (Nat.ltb_spec (Z.to_nat k + i) n); [rewrite app_nth1 by auto; rewrite Nat.mod_small by lia; f_equal; lia|]. rewrite app_nth2 by (fold n; lia). fold n. change origin with vz. f_equal. destruct (Nat.eq_dec (Z.to_nat k + i) (n + n)); [lia|]. symmetry. apply (Nat.mod_unique _ _ 1); lia.
Qed.
Print Assumptions chords_closed.
(** ... and fails beyond: the mean of nothing, or the end of the buffer. *)
Theorem chords_beyond_refuted : forall L cp s k skips, nth_error L cp = Some s ->
  (k < 0)%Z \/ (opened s = true /\ (Z.of_nat (length (verts s)) <= k)%Z) \/ (opened s = false /\ (Z.of_nat (length (verts s)) < k)%Z) -> mean_squared_chordlengths L cp (k :: skips) = UB.
Proof.
  intros L cp s k skips E C. unfold mean_squared_chordlengths. rewrite E. cbn [each]. assert (X : mean_squared_chordlength s k = UB); [|rewrite X; auto]. unfold mean_squared_chordlength. destruct (Z.ltb_spec k 0); [auto|]. destruct C as [C|[(O & C)|(O & C)]]; [lia| |]; rewrite O.
  - rewrite skipn_length. replace (length (verts s) - Z.to_nat k)%nat with 0%nat by lia. unfold rdiv. cbn [INR]. destruct (Req_EM_T 0 0); [auto|congruence].
  - destruct (Z.ltb_spec (Z.of_nat (length (verts s))) k); [auto|lia].
Qed.
Print Assumptions chords_beyond_refuted.

(** plc_project moves every vertex along the normal vector onto the plane through the origin. *)
Definition vertexwise (P : V3 -> V3 -> Prop) (L L' : list arc) : Prop := Forall2 (fun s s' => opened s' = opened s /\ Forall2 P (verts s) (verts s')) L L'.
Lemma on_vertices_vertexwise : forall (P : V3 -> V3 -> Prop) f L, Forall wrapped L -> (forall v, P v (f v)) -> vertexwise P L (on_vertices f L).
Proof.
  intros P f L W H. unfold vertexwise, on_vertices. induction W as [|s L W F IH]; cbn [map]; constructor; auto. rewrite fix_wrapped by (unfold wrapped in *; cbn; rewrite map_length; auto). cbn [opened verts]. split; [auto|]. clear - H. induction (verts s); cbn; constructor; auto.
Qed.
Theorem project_orthogonal : forall L N, Forall wrapped L -> eps <= size N ->
  exists L', project L N = Ok L' /\ vertexwise (fun v w => inner w N = 0 /\ exists t, v = plus3 w (times3 t N)) L L'.
Proof.
  intros L N W S. destruct (normalize_vect_long N) as (E & U); [exact S|]. unfold project. rewrite E. cbn [bind]. eexists. split; [reflexivity|]. apply on_vertices_vertexwise; auto. intros v. set (k := / norm3 N) in *. change (scale k N) with (scale_vect k N) in *.
  assert (K : k * k * dot N N = 1) by (rewrite <- U; unfold dot; cbn; ring). assert (DN : dot N N <> 0) by (intros Z; rewrite Z in K; lra). split.
  - transitivity (dot v N * (1 - k * k * dot N N)); [unfold inner, dot_prod, dot; cbn; ring|]. rewrite K. ring.
  - exists (k * k * dot v N). apply v3_eq; unfold dot_prod, dot; cbn; ring.
Qed.
Print Assumptions project_orthogonal.
Theorem project_refused : forall L N, size N < eps -> project L N = Fail.
Proof. intros L N S. unfold project. rewrite normalize_vect_short by exact S. auto. Qed.
Print Assumptions project_refused.

(** plc_random_rotate applies a rotation (a map that keeps lengths, sums and cross products) that takes a unit vector to (0,0,1)... *)
Theorem rotate_to_axis_rotates : forall L a, Forall wrapped L -> inner a a = 1 -> eps < sqrt (1 - c2 a * c2 a) ->
  exists M L', rotate_to_axis L a = Ok L' /\ vertexwise (fun v w => w = M v) L L' /\ M a = mkV 0 0 1 /\
    (forall u v, inner (M u) (M v) = inner u v) /\ (forall u v, M (outer u v) = outer (M u) (M v)) /\ (forall k u v, M (plus3 (times3 k u) v) = plus3 (times3 k (M u)) (M v)).
Proof.
  intros L a W A S. unfold rotate_to_axis. destruct a as [x y z]. unfold inner in A. cbn [c0 c1 c2] in *. assert (P : 0 <= 1 - z * z) by (pose proof (Rle_0_sqr x) as X; pose proof (Rle_0_sqr y) as Y; unfold Rsqr in *; lra). unfold rsqrt. destruct (Rlt_dec (1 - z * z) 0); [lra|]. cbn [bind]. pose proof (sqrt_sqrt _ P) as Q. set (t := sqrt (1 - z * z)) in *. destruct (Rlt_dec DBL_EPSILON t) as [_|]; [|unfold eps in S; lra]. assert (T : t <> 0) by (unfold eps, DBL_EPSILON in S; lra). unfold rdiv. destruct (Req_EM_T t 0); [contradiction|]. cbn [bind]. set (r := 1 / t). assert (R1 : r * t = 1) by (unfold r; field; auto).
  assert (XY : x * x + y * y = t * t) by lra. assert (RR : r * r * (x * x + y * y) = 1) by (rewrite XY; transitivity ((r * t) * (r * t)); [ring|rewrite R1; ring]).
  eexists (fun v => mkV (- c0 v * (y * r) + c1 v * (x * r)) (- c0 v * (x * z * r) - c1 v * (y * z * r) + c2 v * t) (c0 v * x + c1 v * y + c2 v * z)), _. split; [reflexivity|]. split; [apply on_vertices_vertexwise; auto|]. clearbody r t. clear S. cbn [c0 c1 c2].
  assert (TT : t * t = 1 - z * z) by auto.
  assert (TR : t = r * (x * x + y * y)) by (transitivity (t * (r * t)); [rewrite R1; ring|rewrite XY; ring]).
  split; [|split; [|split]].
  - apply v3_eq; cbn; [ring| |lra]. transitivity (z * (t - r * (x * x + y * y))); [ring|]. rewrite <- TR. ring.
  - intros u v. unfold inner. cbn [c0 c1 c2].
    transitivity (c0 u * c0 v * (r * r * (x * x * z * z + y * y) + x * x) + c1 u * c1 v * (r * r * (x * x + y * y * z * z) + y * y) + (c0 u * c1 v + c1 u * c0 v) * (r * r * (z * z - 1) * x * y + x * y) + c2 u * c2 v * (t * t + z * z) + (c0 u * c2 v + c2 u * c0 v) * (x * z * (1 - r * t)) + (c1 u * c2 v + c2 u * c1 v) * (y * z * (1 - r * t))); [ring|].
    rewrite R1. replace (t * t + z * z) with 1 by lra. replace (z * z - 1) with (- (t * t)) by lra. replace (r * r * - (t * t) * x * y + x * y) with (x * y * (1 - (r * t) * (r * t))) by ring. rewrite R1.
    replace (r * r * (x * x * z * z + y * y) + x * x) with (r * r * (x * x + y * y) - x * x * (r * r * (1 - z * z)) + x * x) by ring. replace (r * r * (x * x + y * y * z * z) + y * y) with (r * r * (x * x + y * y) - y * y * (r * r * (1 - z * z)) + y * y) by ring. rewrite RR, <- TT. replace (r * r * (t * t)) with ((r * t) * (r * t)) by ring. rewrite R1. ring.
  - intros u v. apply v3_eq; unfold outer; cbn [c0 c1 c2].
    + assert (TZ : t + z * z * r = r) by (transitivity (t * (r * t) + z * z * r); [rewrite R1; ring|]; transitivity (r * (t * t + z * z)); [ring|]; rewrite TT; ring). replace (y * r) with (y * (t + z * z * r)) at 1 by (rewrite TZ; auto). replace (x * r) with (x * (t + z * z * r)) at 1 by (rewrite TZ; auto). ring.
    + rewrite TR. ring.
    + transitivity ((c1 u * c2 v - c2 u * c1 v) * (x * (r * t)) + (c2 u * c0 v - c0 u * c2 v) * (y * (r * t)) + (c0 u * c1 v - c1 u * c0 v) * (z * (r * r * (x * x + y * y)))); [rewrite R1, RR; ring|ring].
  - intros k u v. apply v3_eq; cbn; ring.
Qed.
Print Assumptions rotate_to_axis_rotates.
(** ... unless the vector is (nearly) on the third axis: then nothing is done, also if it points the other way. *)
Theorem rotate_to_axis_down_refuted : forall L, rotate_to_axis L (mkV 0 0 (-1)) = Ok L.
Proof.
  intros L. unfold rotate_to_axis, rsqrt. cbn [c0 c1 c2]. destruct (Rlt_dec _ 0); [lra|]. cbn [bind]. replace (1 - -1 * -1) with 0 by ring. rewrite sqrt_0. destruct (Rlt_dec DBL_EPSILON 0) as [X|]; [|auto]. unfold DBL_EPSILON in X. lra.
Qed.
Print Assumptions rotate_to_axis_down_refuted.

(** ** examples *)
(** A square with side 1: opposite corners are 2 apart along it, and the mean squared distance of neighbours is 1. *)
Definition unit_square := mkArc false [mkV 0 0 0; mkV 1 0 0; mkV 1 1 0; mkV 0 1 0].
Example square_measures : subarc_length [unit_square] 0 3 0 = Ok 1 /\ gyradius [unit_square] = Ok (/ 2) /\ mean_squared_chordlengths [unit_square] 0 [1%Z] = Ok [1].
Proof.
  assert (D : forall a b, (c0 a - c0 b) * (c0 a - c0 b) + (c1 a - c1 b) * (c1 a - c1 b) + (c2 a - c2 b) * (c2 a - c2 b) = 1 -> distance a b = 1) by (intros a b H; unfold distance, Rsqr; rewrite H; apply sqrt_1).
  split; [|split].
  - pose proof (subarc_shortest [unit_square] 0 unit_square 3 0 eq_refl ltac:(cbn; lia) ltac:(cbn; lia)) as H. cbv zeta in H. change (Z.of_nat 0) with 0%Z in H. change (Z.of_nat 3) with 3%Z in H. rewrite H. f_equal. cbn [opened unit_square]. unfold between, component_length, perimeter. cbn [verts unit_square Nat.min Nat.max skipn Nat.sub firstn opened path_length last]. rewrite !D by (cbn; ring). unfold Rmin. destruct (Rle_dec _ _); lra.
  - rewrite gyradius_pairs by discriminate. f_equal. unfold mean. cbn [all_vertices flat_map verts unit_square app total length INR]. unfold Rsqr. rewrite <- !sq_dist_distance. unfold sq_dist. cbn [c0 c1 c2]. field.
  - rewrite (chords_closed _ _ unit_square) by (first [reflexivity | cbn; lia | constructor; [cbn; lia|constructor]]). cbn [map]. do 2 f_equal. unfold mean. cbn [verts unit_square length seq total]. change (Z.to_nat 1) with 1%nat. cbn [Nat.add]. change (1 mod 4)%nat with 1%nat. change (2 mod 4)%nat with 2%nat. change (3 mod 4)%nat with 3%nat. change (4 mod 4)%nat with 0%nat. cbn [nth INR]. rewrite !D by (cbn; ring). unfold Rsqr. field.
Qed.
