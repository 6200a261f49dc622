(** C83, C84: the statistics of edge lengths, the curvature at a vertex, and the scaling of curves with their constraints. *)
From Coq Require Import Reals List Bool Lra Lia Psatz ZArith.
From Verif Require Import Base Sampler SamplerProofs Hopf HopfProofs Fan FanProofs Rotate RotateProofs Closure ClosureProofs Measure MeasureProofs Geometry Stats Thm_Hopf Thm_Fan Thm_Rotate Thm_Closure Thm_Measure Thm_Geometry.
Import ListNotations.
Open Scope R_scope.
Open Scope res_scope.

(** ** what is asked *)
(** the lengths of the edges of a component, the closing edge of a closed one included; [vertex] counts around the component *)
Definition edge_count (s : arc) : nat := if opened s then length (verts s) - 1 else length (verts s).
Definition edge_lengths (s : arc) : list R := map (fun k => distance (Thm_Geometry.vertex s (Z.of_nat k)) (Thm_Geometry.vertex s (Z.of_nat k + 1))) (seq 0 (edge_count s)).
Definition all_edges (L : list arc) : list R := flat_map edge_lengths L.
Definition greatest (m : R) (l : list R) : Prop := In m l /\ forall x, In x l -> x <= m.
Definition least (m : R) (l : list R) : Prop := In m l /\ forall x, In x l -> m <= x.
(** what a constraint of each kind asks of a vertex, and which vertices it speaks about *)
Definition satisfies (c : constraint) (v : V3) : Prop :=
  match ckind c with
  | Unconstrained => True
  | Fixed => v = vect0 c
  | Line => exists t, c0 v = c0 (vect1 c) + t * c0 (vect0 c) /\ c1 v = c1 (vect1 c) + t * c1 (vect0 c) /\ c2 v = c2 (vect1 c) + t * c2 (vect0 c)
  | Plane => inner v (vect0 c) = c0 (vect1 c)
  end.
Definition obeyed (L : list arc) (c : constraint) : Prop :=
  forall s i v, nth_error L (ccmp c) = Some s -> (cvert c <= i < cvert c + cnum c)%nat -> nth_error (verts s) i = Some v -> satisfies c v.
Definition enlarged (alpha : R) (v : V3) : V3 := mkV (alpha * c0 v) (alpha * c1 v) (alpha * c2 v).

(** ** proofs *)
Definition gather (l : list R) (a : stats) : stats := fold_left (fun a d => mkStats (Rmax d (longest a)) (Rmin d (shortest a)) (mean_ a + d) (moment2 a + d * d)) l a.
Lemma vdist_distance : forall a b, vdistance a b = distance a b. Proof. reflexivity. Qed.
Lemma stats_loop_ok : forall s, (1 <= length (verts s))%nat -> forall n k a, (k + n <= edge_count s)%nat ->
  stats_loop s n (Z.of_nat k + 1) a = Ok (gather (map (fun k => distance (Thm_Geometry.vertex s (Z.of_nat k)) (Thm_Geometry.vertex s (Z.of_nat k + 1))) (seq k n)) a).
Proof.
  intros s N. induction n as [|n IH]; intros k a L; [reflexivity|]. cbn [stats_loop seq map]. unfold edge_count in L.
  rewrite cell_vertex by (auto; (destruct (opened s) eqn:O; [left; lia|right; split; [auto|lia]])). cbn [bind]. rewrite cell_vertex by (auto; (destruct (opened s) eqn:O; [left; lia|right; split; [auto|lia]])). cbn [bind].
  replace (Z.of_nat k + 1 - 1)%Z with (Z.of_nat k) by lia. rewrite vdist_distance, distance_sym. replace (Z.of_nat k + 1 + 1)%Z with (Z.of_nat (S k) + 1)%Z by lia. rewrite IH by (unfold edge_count; lia). replace (Z.of_nat (S k)) with (Z.of_nat k + 1)%Z by lia. reflexivity.
Qed.
Lemma stats_strands_ok : forall L a, Forall (fun s => (1 <= length (verts s))%nat) L -> stats_strands L a = Ok (gather (all_edges L) a).
Proof.
  induction L as [|s L IH]; intros a F; [reflexivity|]. inversion F; subst. cbn [stats_strands all_edges flat_map]. replace ((if opened s then length (verts s) else S (length (verts s))) - 1)%nat with (edge_count s) by (unfold edge_count; destruct (opened s); lia).
  change 1%Z with (Z.of_nat 0 + 1)%Z at 1. rewrite stats_loop_ok by (auto; lia). cbn [bind]. rewrite IH by auto. unfold gather, edge_lengths. rewrite fold_left_app. reflexivity.
Qed.
Lemma edges_count : forall L e, Forall (fun s => (1 <= length (verts s))%nat) L -> fold_left (fun e s => (e + strand_edges s)%Z) L e = (e + Z.of_nat (length (all_edges L)))%Z.
Proof.
  induction L as [|s L IH]; intros e F; [cbn; lia|]. inversion F; subst. cbn [fold_left all_edges flat_map]. rewrite IH by auto. rewrite app_length. unfold edge_lengths at 1. rewrite map_length, seq_length. unfold strand_edges, edge_count, all_edges. destruct (opened s); lia.
Qed.
Lemma gather_sums : forall l a, mean_ (gather l a) = mean_ a + total (fun x => x) l /\ moment2 (gather l a) = moment2 a + total (fun x => x * x) l.
Proof. induction l as [|x l IH]; intros a; cbn [gather fold_left total]; [split; ring|]. destruct (IH (mkStats (Rmax x (longest a)) (Rmin x (shortest a)) (mean_ a + x) (moment2 a + x * x))) as (A & B). unfold gather in A, B. rewrite A, B. cbn. split; ring. Qed.
Lemma gather_long : forall l a, greatest (longest (gather l a)) (longest a :: l).
Proof.
  induction l as [|x l IH]; intros a; [split; [left; auto|intros y [<-|[]]; cbn; lra]|]. cbn [gather fold_left]. destruct (IH (mkStats (Rmax x (longest a)) (Rmin x (shortest a)) (mean_ a + x) (moment2 a + x * x))) as (A & B). unfold gather in A, B. cbn [longest] in A, B. pose proof (B _ (or_introl eq_refl)) as T. pose proof (Rmax_l x (longest a)). pose proof (Rmax_r x (longest a)). split.
  - destruct A as [A|A]; [|right; right; auto]. rewrite <- A. unfold Rmax. destruct (Rle_dec _ _); [left|right; left]; auto.
  - intros y [<-|[<-|I]]; [lra|lra|]. apply B. right. auto.
Qed.
Lemma gather_short : forall l a, least (shortest (gather l a)) (shortest a :: l).
Proof.
  induction l as [|x l IH]; intros a; [split; [left; auto|intros y [<-|[]]; cbn; lra]|]. cbn [gather fold_left]. destruct (IH (mkStats (Rmax x (longest a)) (Rmin x (shortest a)) (mean_ a + x) (moment2 a + x * x))) as (A & B). unfold gather in A, B. cbn [shortest] in A, B. pose proof (B _ (or_introl eq_refl)) as T. pose proof (Rmin_l x (shortest a)). pose proof (Rmin_r x (shortest a)). split.
  - destruct A as [A|A]; [|right; right; auto]. rewrite <- A. unfold Rmin. destruct (Rle_dec _ _); [right; left|left]; auto.
  - intros y [<-|[<-|I]]; [lra|lra|]. apply B. right. auto.
Qed.
Lemma edges_pos : forall L x, In x (all_edges L) -> 0 <= x.
Proof. intros L x I. apply in_flat_map in I as (s & _ & I). apply in_map_iff in I as (k & <- & _). apply sqrt_pos. Qed.

Lemma stats_form : forall L, Forall (fun s => (1 <= length (verts s))%nat) L -> all_edges L <> [] ->
  edgelength_stats L = Ok (mkStats (longest (gather (all_edges L) (mkStats 0 100000000000000000000 0 0))) (shortest (gather (all_edges L) (mkStats 0 100000000000000000000 0 0))) (mean (fun x => x) (all_edges L)) (mean (fun x => x * x) (all_edges L))).
Proof.
  intros L F N. unfold edgelength_stats. rewrite stats_strands_ok by auto. cbn [bind]. unfold plc_edges. rewrite edges_count by auto. rewrite Z.add_0_l, <- INR_IZR_INZ. assert (P : INR (length (all_edges L)) <> 0) by (apply not_0_INR; destruct (all_edges L); [congruence|cbn; lia]).
  unfold rdiv. destruct (Req_EM_T _ 0); [contradiction|]. cbn [bind]. destruct (gather_sums (all_edges L) (mkStats 0 100000000000000000000 0 0)) as (-> & ->). cbn [mean_ moment2]. rewrite !Rplus_0_l. reflexivity.
Qed.
(** plc_edgelength_stats returns the greatest, the least, the mean and the mean square of the edge lengths. *)
Theorem stats_right : forall L, Forall (fun s => (1 <= length (verts s))%nat) L -> all_edges L <> [] -> (exists x, In x (all_edges L) /\ x <= 100000000000000000000) ->
  exists a, edgelength_stats L = Ok a /\ greatest (longest a) (all_edges L) /\ least (shortest a) (all_edges L) /\ mean_ a = mean (fun x => x) (all_edges L) /\ moment2 a = mean (fun x => x * x) (all_edges L).
Proof.
  intros L F N (x & X & XB). rewrite stats_form by auto. eexists. split; [reflexivity|]. cbn [longest shortest mean_ moment2]. split; [|split; [|auto]].
  - destruct (gather_long (all_edges L) (mkStats 0 100000000000000000000 0 0)) as (A & B). cbn [longest] in A, B. split; [|intros; apply B; right; auto]. destruct A as [A|A]; [|auto]. rewrite <- A. pose proof (B x (or_intror X)). pose proof (edges_pos _ _ X). replace 0 with x by lra. auto.
  - destruct (gather_short (all_edges L) (mkStats 0 100000000000000000000 0 0)) as (A & B). cbn [shortest] in A, B. split; [|intros; apply B; right; auto]. destruct A as [A|A]; [|auto]. rewrite <- A. pose proof (B x (or_intror X)). replace 100000000000000000000 with x by lra. auto.
Qed.
Print Assumptions stats_right.
(** The mean is the length of the curve over the number of its edges. *)
Lemma seg_sum : forall ws n a, (a + n < length ws)%nat -> seg ws a n = total (fun x => x) (map (fun k => distance (nth k ws vz) (nth (S k) ws vz)) (seq a n)).
Proof. intros ws. induction n as [|n IH]; intros a L; [apply seg_0|]. cbn [seq map total]. rewrite seg_S, IH by lia. auto. Qed.
Lemma total_app : forall l l' : list R, total (fun x => x) (l ++ l') = total (fun x => x) l + total (fun x => x) l'.
Proof. induction l as [|x l IH]; intros l'; cbn; [ring|rewrite IH; ring]. Qed.
Lemma vertex_nth : forall s k, (k < length (verts s))%nat -> Thm_Geometry.vertex s (Z.of_nat k) = nth k (verts s) vz.
Proof. intros s k L. unfold Thm_Geometry.vertex. rewrite Z.mod_small, Nat2Z.id by lia. auto. Qed.
Theorem edges_total : forall L, Forall (fun s => (1 <= length (verts s))%nat) L -> total (fun x => x) (all_edges L) = total_length L.
Proof.
  induction L as [|s L IH]; intros F; [reflexivity|]. inversion F; subst. cbn [all_edges flat_map total_length]. rewrite total_app. unfold all_edges in IH. rewrite IH by auto. f_equal. unfold edge_lengths, edge_count. destruct (opened s) eqn:O.
  - transitivity (seg (verts s) 0 (length (verts s) - 1)).
    + rewrite seg_sum by lia. f_equal. apply map_ext_in. intros k I. apply in_seq in I. replace (Z.of_nat k + 1)%Z with (Z.of_nat (S k)) by lia. rewrite !vertex_nth by lia. auto.
    + unfold component_length. destruct (verts s) as [|v vs]; [cbn in *; lia|]. rewrite O. cbn [length]. rewrite Nat.sub_succ, Nat.sub_0_r. apply seg_all.
  - rewrite <- ring_length by auto. rewrite seg_sum by (rewrite app_length; cbn; lia). f_equal. apply map_ext_in. intros k I. apply in_seq in I. rewrite vertex_nth, app_nth1 by lia. f_equal. destruct (Nat.eq_dec (S k) (length (verts s))) as [E|E].
    + replace (Z.of_nat k + 1)%Z with (Z.of_nat (length (verts s))) by lia. unfold Thm_Geometry.vertex. rewrite Z_mod_same_full, E, nth_middle. reflexivity.
    + replace (Z.of_nat k + 1)%Z with (Z.of_nat (S k)) by lia. rewrite vertex_nth, app_nth1 by lia. auto.
Qed.
Print Assumptions edges_total.
(** If every edge is longer than 1e20 the shortest one is reported as 1e20, which is the length of no edge. *)
Theorem stats_huge_refuted : forall L, Forall (fun s => (1 <= length (verts s))%nat) L -> all_edges L <> [] -> (forall x, In x (all_edges L) -> 100000000000000000000 < x) ->
  exists a, edgelength_stats L = Ok a /\ shortest a = 100000000000000000000 /\ ~ In (shortest a) (all_edges L).
Proof.
  intros L F N H. rewrite stats_form by auto. eexists. split; [reflexivity|]. cbn [shortest]. destruct (gather_short (all_edges L) (mkStats 0 100000000000000000000 0 0)) as (A & B). cbn [shortest] in A, B. pose proof (B _ (or_introl eq_refl)) as T.
  assert (E : shortest (gather (all_edges L) (mkStats 0 100000000000000000000 0 0)) = 100000000000000000000) by (destruct A as [A|A]; [auto|apply H in A; lra]). split; [auto|]. rewrite E. intros I. apply H in I. lra.
Qed.
Print Assumptions stats_huge_refuted.
(** A curve without edges makes the program divide by zero. *)
Theorem stats_no_edges : forall L, Forall (fun s => (1 <= length (verts s))%nat) L -> all_edges L = [] -> edgelength_stats L = UB.
Proof. intros L F N. unfold edgelength_stats. rewrite stats_strands_ok by auto. cbn [bind]. unfold plc_edges. rewrite edges_count, N by auto. cbn. unfold rdiv. destruct (Req_EM_T 0 0); [auto|contradiction]. Qed.
Print Assumptions stats_no_edges.
(** The hypotheses hold for a square together with a segment of length 2. *)
Example square_stats : let L := [mkArc false [mkV 0 0 0; mkV 1 0 0; mkV 1 1 0; mkV 0 1 0]; mkArc true [mkV 0 0 0; mkV 2 0 0]] in
  Forall (fun s => (1 <= length (verts s))%nat) L /\ all_edges L = [1; 1; 1; 1; 2].
Proof.
  split; [repeat constructor|]. assert (D : forall u v y, 0 <= y -> (c0 u - c0 v)² + (c1 u - c1 v)² + (c2 u - c2 v)² = y * y -> distance u v = y) by (intros u v y P E; unfold distance; rewrite E; apply sqrt_square; auto).
  unfold all_edges, edge_lengths, edge_count. cbn [flat_map opened verts length seq map app Nat.sub]. repeat (apply f_equal2; [apply D; [lra|]|]); try reflexivity; unfold Rsqr; match goal with |- context [Thm_Geometry.vertex ?s ?i] => idtac end;
  repeat match goal with |- context [Thm_Geometry.vertex ?s ?i] => let v := eval lazy [Thm_Geometry.vertex nth Z.to_nat Z.of_nat Z.modulo Z.div_eucl Z.pos_div_eucl Z.add Pos.add Pos.succ Z.leb Z.ltb Z.compare Pos.compare Pos.compare_cont Z.sub Z.opp Z.pos_sub Z.succ_double Z.double Z.pred_double Pos.pred_double Z.mul Pos.mul Pos.to_nat Pos.iter_op Nat.add Pos.of_succ_nat length verts] in (Thm_Geometry.vertex s i) in change (Thm_Geometry.vertex s i) with v end; cbn [c0 c1 c2]; ring.
Qed.

(** plc_MR_curvature at a vertex with turning angle theta is 2 tan (theta / 2) over the length of the shorter edge, which is taken with
    the precision of DBL_EPSILON; the assertion fails exactly for turns back. *)
Theorem curvature_right : forall s i, (1 <= length (verts s))%nat -> (0 <= i < Z.of_nat (length (verts s)))%Z -> (opened s = true -> (0 < i < Z.of_nat (length (verts s)) - 1)%Z) ->
  let a := size (edge_to s i) in let b := size (edge_to s (i + 1)) in
  (DBL_EPSILON < a * b * (1 + cos (turn_at s i)) -> 0 < a -> 0 < b ->
     exists l, Rmin a b <= l < Rmin a b + DBL_EPSILON /\ MR_curvature s i = Ok (2 * tan (turn_at s i / 2) / l)) /\
  (a * b = 0 \/ a * b * (1 + cos (turn_at s i)) <= DBL_EPSILON -> MR_curvature s i = Fail).
Proof.
  intros s i N B O a b.
  assert (F : MR_curvature s i = if Rlt_dec DBL_EPSILON (a * b + inner (edge_to s i) (edge_to s (i + 1))) then do kappa <- rdiv (2 * size (outer (edge_to s i) (edge_to s (i + 1)))) (a * b + inner (edge_to s i) (edge_to s (i + 1))); rdiv kappa (if Rlt_dec (a - b) DBL_EPSILON then a else b) else Fail).
  { unfold MR_curvature. replace (opened s && ((i =? 0)%Z || (i =? Z.of_nat (length (verts s)) - 1)%Z)) with false. 2:{ destruct (opened s); [|auto]. specialize (O eq_refl). cbn. destruct (Z.eqb_spec i 0); [lia|]. destruct (Z.eqb_spec i (Z.of_nat (length (verts s)) - 1)); [lia|auto]. }
    rewrite !cell_vertex by (auto; (destruct (opened s) eqn:OO; [left; specialize (O eq_refl); lia|right; split; [auto|lia]])). cbn [bind]. unfold a, b, edge_to. replace (i + 1 - 1)%Z with i by lia. reflexivity. }
  assert (EP : 0 < DBL_EPSILON) by (unfold DBL_EPSILON; lra). pose proof (size_pos (edge_to s i)) as PA. pose proof (size_pos (edge_to s (i + 1))) as PB. fold a in PA. fold b in PB.
  split.
  - intros D A Bp. destruct (angle_right (edge_to s i) (edge_to s (i + 1)) A Bp) as (_ & T & C & S). fold a b in C, S. fold (turn_at s i) in T, C, S. rewrite F, C, S. set (t := turn_at s i) in *. clearbody t.
    replace (a * b + a * b * cos t) with (a * b * (1 + cos t)) by ring. destruct (Rlt_dec DBL_EPSILON (a * b * (1 + cos t))) as [|X]; [|contradiction]. unfold rdiv. destruct (Req_EM_T (a * b * (1 + cos t)) 0) as [Z|_]; [lra|]. cbn [bind].
    assert (AB : 0 < a * b) by nra. assert (CP : 0 < 1 + cos t) by nra.
    assert (HC : cos (t / 2) <> 0). { intros Z. assert (E : cos t = 2 * cos (t / 2) * cos (t / 2) - 1) by (rewrite <- cos_2a_cos; f_equal; lra). rewrite Z in E. lra. }
    assert (EC : 1 + cos t = 2 * cos (t / 2) * cos (t / 2)). { assert (E : cos t = 2 * cos (t / 2) * cos (t / 2) - 1) by (rewrite <- cos_2a_cos; f_equal; lra). lra. }
    assert (ES : sin t = 2 * sin (t / 2) * cos (t / 2)) by (rewrite <- sin_2a; f_equal; lra).
    exists (if Rlt_dec (a - b) DBL_EPSILON then a else b). assert (LP : (if Rlt_dec (a - b) DBL_EPSILON then a else b) <> 0) by (destruct (Rlt_dec (a - b) DBL_EPSILON); lra). split.
    + unfold Rmin. destruct (Rlt_dec (a - b) DBL_EPSILON); destruct (Rle_dec a b); lra.
    + destruct (Req_EM_T _ 0); [contradiction|]. f_equal. set (l := if Rlt_dec (a - b) DBL_EPSILON then a else b) in *. clearbody l. unfold tan. rewrite EC, ES. field. repeat split; auto; lra.
  - intros Z. rewrite F. destruct (Rlt_dec _ _) as [X|]; [|auto]. exfalso. pose proof (lagrange (edge_to s i) (edge_to s (i + 1))) as LG. rewrite <- !size_sq in LG. fold a b in LG. pose proof (Rle_0_sqr (size (outer (edge_to s i) (edge_to s (i + 1))))) as SQ. unfold Rsqr in SQ.
    destruct (Req_dec (a * b) 0) as [AZ|AN].
    + assert (a * a * (b * b) = 0) by (replace (a * a * (b * b)) with ((a * b) * (a * b)) by ring; rewrite AZ; ring). assert (inner (edge_to s i) (edge_to s (i + 1)) = 0) by nra. lra.
    + destruct Z as [Z|Z]; [contradiction|]. assert (0 < a) by (destruct (Req_dec a 0) as [E|]; [rewrite E in AN; lra|lra]). assert (0 < b) by (destruct (Req_dec b 0) as [E|]; [rewrite E in AN; lra|lra]).
      destruct (angle_right (edge_to s i) (edge_to s (i + 1))) as (_ & _ & C & _); auto. fold a b in C. fold (turn_at s i) in C. rewrite C in X. lra.
Qed.
Print Assumptions curvature_right.
(** The hypotheses hold at a corner of the unit square. *)
Example square_curvature : size (edge_to unit_square 3) = 1 /\ size (edge_to unit_square (3 + 1)) = 1 /\ DBL_EPSILON < 1 * 1 * (1 + cos (turn_at unit_square 3)).
Proof.
  assert (V : edge_to unit_square 3 = mkV (-1) 0 0 /\ edge_to unit_square (3 + 1) = mkV 0 (-1) 0) by (unfold edge_to; change (Thm_Geometry.vertex unit_square (3 + 1)) with (mkV 0 0 0); change (Thm_Geometry.vertex unit_square (3 + 1 - 1)) with (mkV 0 1 0); change (Thm_Geometry.vertex unit_square 3) with (mkV 0 1 0); change (Thm_Geometry.vertex unit_square (3 - 1)) with (mkV 1 1 0); split; apply v3_eq; cbn; ring). destruct V as (V1 & V2).
  assert (Z1 : size (mkV (-1) 0 0) = 1) by (unfold size, inner; cbn; replace (_ + _ + _) with 1 by ring; apply sqrt_1). assert (Z2 : size (mkV 0 (-1) 0) = 1) by (unfold size, inner; cbn; replace (_ + _ + _) with 1 by ring; apply sqrt_1).
  unfold turn_at, angle_between. rewrite V1, V2, Z1, Z2. replace (inner _ _ / _) with 0 by (unfold inner; cbn; field). rewrite acos_0, cos_PI2. split; [auto|]. split; [auto|]. unfold DBL_EPSILON. lra.
Qed.
Theorem curvature_ends : forall s, opened s = true -> MR_curvature s 0 = Ok 0 /\ MR_curvature s (Z.of_nat (length (verts s)) - 1) = Ok 0.
Proof. intros s O. unfold MR_curvature. rewrite O, Z.eqb_refl. cbn. rewrite Z.eqb_refl, orb_true_r. auto. Qed.
Print Assumptions curvature_ends.

(** plc_scale multiplies every vertex by alpha and every edge length by |alpha|... *)
Lemma enlarge_distance : forall alpha u v, distance (enlarged alpha u) (enlarged alpha v) = Rabs alpha * distance u v.
Proof.
  intros. unfold distance, enlarged. cbn [c0 c1 c2]. rewrite <- sqrt_Rsqr_abs, <- sqrt_mult_alt by apply Rle_0_sqr. f_equal. unfold Rsqr. ring.
Qed.
Lemma scale_strands : forall L csts alpha, Forall wrapped L -> fst (plc_scale L csts alpha) = map (fun s => mkArc (opened s) (map (enlarged alpha) (verts s))) L.
Proof.
  intros L csts alpha W. unfold plc_scale, on_vertices. cbn [fst]. apply map_ext_in. intros s I. rewrite Forall_forall in W. rewrite fix_wrapped; [reflexivity|]. specialize (W s I). unfold wrapped in *. cbn [opened verts]. rewrite map_length. auto.
Qed.
Theorem scale_curve : forall L csts alpha, Forall wrapped L ->
  fst (plc_scale L csts alpha) = map (fun s => mkArc (opened s) (map (enlarged alpha) (verts s))) L /\ all_edges (fst (plc_scale L csts alpha)) = map (fun x => Rabs alpha * x) (all_edges L).
Proof.
  intros L csts alpha W. split; [apply scale_strands; auto|]. rewrite scale_strands by auto. clear W. induction L as [|s L IH]; [reflexivity|]. cbn [map all_edges flat_map]. rewrite map_app. unfold all_edges in IH. rewrite IH. f_equal. unfold edge_lengths, edge_count. cbn [opened verts]. rewrite map_length, map_map. apply map_ext. intros k.
  rewrite <- enlarge_distance. assert (E : enlarged alpha origin = origin) by (unfold enlarged, origin; cbn; f_equal; ring). unfold Thm_Geometry.vertex. cbn [verts]. rewrite map_length. rewrite <- E at 1. rewrite map_nth. rewrite <- E at 2. rewrite map_nth. reflexivity.
Qed.
Print Assumptions scale_curve.
(** ... and a constraint is met afterwards if it was met before, and, unless alpha is 0, only then. *)
Lemma scale_satisfies : forall alpha c v, (satisfies c v -> satisfies (scale_constraint alpha c) (enlarged alpha v)) /\ (alpha <> 0 -> satisfies (scale_constraint alpha c) (enlarged alpha v) -> satisfies c v).
Proof.
  intros alpha [k p q cm vt n] v. unfold satisfies, scale_constraint. cbn [ckind]. destruct k; cbn [ckind vect0 vect1].
  - auto.
  - split; [intros ->; reflexivity|]. intros A E. unfold enlarged, scale_vect in E. destruct v as [x y z], p as [x' y' z']. cbn in E. injection E as E0 E1 E2. apply Rmult_eq_reg_l in E0; auto. apply Rmult_eq_reg_l in E1; auto. apply Rmult_eq_reg_l in E2; auto. subst. auto.
  - unfold enlarged, scale_vect. cbn [c0 c1 c2]. split.
    + intros (t & -> & -> & ->). exists (alpha * t). repeat split; ring.
    + intros A (t & E0 & E1 & E2). exists (t / alpha). repeat split; apply (Rmult_eq_reg_l alpha); auto; rewrite ?E0, ?E1, ?E2; field; auto.
  - unfold enlarged, scale_vect, inner. cbn [c0 c1 c2]. split.
    + intros <-. ring.
    + intros A E. apply (Rmult_eq_reg_l alpha); auto. rewrite <- E. ring.
Qed.
Theorem scale_constraints : forall L csts alpha, Forall wrapped L ->
  map (fun c => (ckind c, ccmp c, cvert c, cnum c)) (snd (plc_scale L csts alpha)) = map (fun c => (ckind c, ccmp c, cvert c, cnum c)) csts /\
  (Forall (obeyed L) csts -> Forall (obeyed (fst (plc_scale L csts alpha))) (snd (plc_scale L csts alpha))) /\
  (alpha <> 0 -> Forall (obeyed (fst (plc_scale L csts alpha))) (snd (plc_scale L csts alpha)) -> Forall (obeyed L) csts).
Proof.
  intros L csts alpha W. rewrite scale_strands by auto. unfold plc_scale. cbn [snd]. assert (K : forall c, (ckind (scale_constraint alpha c), ccmp (scale_constraint alpha c), cvert (scale_constraint alpha c), cnum (scale_constraint alpha c)) = (ckind c, ccmp c, cvert c, cnum c)) by (intros [[] ? ? ? ? ?]; reflexivity).
  split; [rewrite map_map; apply map_ext; auto|]. rewrite !Forall_forall. split.
  - intros H c' I. apply in_map_iff in I as (c & <- & I). specialize (H c I). specialize (K c). injection K as _ KC KV KN. intros s' i v' E B V. rewrite KC in E. rewrite KV, KN in B. rewrite nth_error_map in E. destruct (nth_error L (ccmp c)) as [s|] eqn:ES; [|discriminate]. injection E as <-. cbn [verts] in V. rewrite nth_error_map in V. destruct (nth_error (verts s) i) as [v|] eqn:EV; [|discriminate]. injection V as <-. apply scale_satisfies. eapply H; eauto.
  - intros A H c I s i v E B V. apply (scale_satisfies alpha); auto. specialize (K c). injection K as _ KC KV KN. apply (H (scale_constraint alpha c) (in_map _ _ _ I) (mkArc (opened s) (map (enlarged alpha) (verts s))) i).
    + rewrite KC, nth_error_map, E. reflexivity.
    + rewrite KV, KN. auto.
    + cbn [verts]. rewrite nth_error_map, V. reflexivity.
Qed.
Print Assumptions scale_constraints.
(** Constraints of each kind that are met. *)
Example met : let L := [mkArc true [mkV 1 2 3; mkV 3 2 5; mkV 0 4 5]] in wrapped (mkArc true [mkV 1 2 3; mkV 3 2 5; mkV 0 4 5]) /\
  Forall (obeyed L) [mkConstraint Fixed (mkV 1 2 3) (mkV 0 0 0) 0 0 1; mkConstraint Line (mkV 1 0 1) (mkV 1 2 3) 0 0 2; mkConstraint Plane (mkV 0 0 1) (mkV 5 0 0) 0 1 2].
Proof.
  split; [intros X; discriminate|]. repeat constructor; intros s i v E B V; cbn in E; injection E as <-; cbn in B; cbn [verts] in V; unfold satisfies; cbn [ckind vect0 vect1].
  - assert (i = 0)%nat by lia. subst i. injection V as <-. auto.
  - destruct i as [|[|i]]; [| |lia]; injection V as <-; [exists 0|exists 2]; cbn; lra.
  - destruct i as [|[|[|i]]]; [lia| | |lia]; injection V as <-; unfold inner; cbn; ring.
Qed.

(** ** C84: tangents *)
(** the average of the edges before and after a vertex; at an end the only edge *)
Definition average_edge (s : arc) (i : Z) : V3 :=
  if opened s && (i =? 0)%Z then edge_to s (i + 1)
  else if opened s && (i =? Z.of_nat (length (verts s)) - 1)%Z then edge_to s i
  else times3 (/ 2) (plus3 (edge_to s i) (edge_to s (i + 1))).
(** [t] is the unit vector in the direction of [v] *)
Definition direction_of (t v : V3) : Prop := size t = 1 /\ exists k, 0 < k /\ v = times3 k t.

Lemma direction_unit : forall v k, 0 < k -> DBL_EPSILON <= size v -> normalize_vect v = Ok (Some (times3 (/ size v) v)) /\ direction_of (times3 (/ size v) v) (times3 k v).
Proof.
  intros v k K L. assert (EP : 0 < DBL_EPSILON) by (unfold DBL_EPSILON; lra). assert (E : norm3 v = size v) by reflexivity. destruct (normalize_vect_long v) as (A & B); [rewrite E; auto|]. rewrite E in A, B. split; [exact A|]. split.
  - unfold size at 1. change (inner (times3 (/ size v) v) (times3 (/ size v) v)) with (dot (scale (/ size v) v) (scale (/ size v) v)). rewrite B. apply sqrt_1.
  - exists (k * size v). split; [nra|]. apply v3_eq; unfold times3; cbn [c0 c1 c2]; field; lra.
Qed.
(** plc_mean_tangent is the direction of the average of the two edges at the vertex, the longer one weighing more. *)
Theorem tangent_right : forall s i, (2 <= length (verts s))%nat -> (0 <= i < Z.of_nat (length (verts s)))%Z -> DBL_EPSILON <= size (average_edge s i) ->
  exists t, mean_tangent s i = Ok (Some t) /\ direction_of t (average_edge s i).
Proof.
  intros s i N B L. assert (EP : 0 < DBL_EPSILON) by (unfold DBL_EPSILON; lra). unfold mean_tangent, average_edge in *. assert (T1 : forall v, times3 1 v = v) by (intros; apply v3_eq; unfold times3; cbn; ring).
  destruct (opened s && (i =? 0)%Z) eqn:A.
  - apply andb_true_iff in A as (O & A). apply Z.eqb_eq in A. subst i. rewrite !cell_vertex by (lia || (left; lia)). cbn [bind]. change (vect_diff (Thm_Geometry.vertex s (0 + 1)) (Thm_Geometry.vertex s 0)) with (edge_to s (0 + 1)). destruct (direction_unit (edge_to s (0 + 1)) 1) as (X & Y); [lra|auto|]. rewrite T1 in Y. eauto.
  - destruct (opened s && (i =? Z.of_nat (length (verts s)) - 1)%Z) eqn:C.
    + apply andb_true_iff in C as (O & C). apply Z.eqb_eq in C. rewrite !cell_vertex by (lia || (left; lia)). cbn [bind]. change (vect_diff (Thm_Geometry.vertex s i) (Thm_Geometry.vertex s (i - 1))) with (edge_to s i). destruct (direction_unit (edge_to s i) 1) as (X & Y); [lra|auto|]. rewrite T1 in Y. eauto.
    + assert (IN : opened s = true -> (0 < i < Z.of_nat (length (verts s)) - 1)%Z). { intros O. rewrite O in A, C. cbn in A, C. apply Z.eqb_neq in A. apply Z.eqb_neq in C. lia. }
      rewrite !cell_vertex by (lia || (destruct (opened s) eqn:OO; [left; specialize (IN eq_refl); lia|right; split; [auto|lia]])). cbn [bind]. set (w := vect_diff (Thm_Geometry.vertex s (i + 1)) (Thm_Geometry.vertex s (i - 1))).
      assert (E : times3 (/ 2) (plus3 (edge_to s i) (edge_to s (i + 1))) = times3 (/ 2) w). { f_equal. unfold w, edge_to. replace (i + 1 - 1)%Z with i by lia. apply v3_eq; unfold plus3, minus3, vect_diff; cbn [c0 c1 c2]; ring. }
      rewrite E in *. assert (SZ : size (times3 (/ 2) w) = / 2 * size w). { unfold size. replace (inner (times3 (/ 2) w) (times3 (/ 2) w)) with ((/ 2)² * inner w w) by (unfold inner, times3, Rsqr; cbn [c0 c1 c2]; ring). rewrite sqrt_mult_alt by apply Rle_0_sqr. rewrite sqrt_Rsqr by lra. auto. }
      rewrite SZ in L. pose proof (size_pos w). destruct (direction_unit w (/ 2)) as (X & Y); [lra|lra|]. eauto.
Qed.
Print Assumptions tangent_right.
(** The example of the documentation: the average of (0,0,6) and (8,0,0) is (4,0,3), and the tangent is (0.8,0,0.6). *)
Lemma direction_unique : forall t t' v, direction_of t v -> direction_of t' v -> t = t'.
Proof.
  intros t t' v (U & k & K & E) (U' & k' & K' & E'). assert (S : forall w j, 0 < j -> size w = 1 -> size (times3 j w) = j). { intros w j J W. unfold size. replace (inner (times3 j w) (times3 j w)) with (j² * inner w w) by (unfold inner, times3, Rsqr; cbn [c0 c1 c2]; ring). rewrite sqrt_mult_alt by apply Rle_0_sqr. rewrite sqrt_Rsqr by lra. fold (size w). rewrite W. ring. }
  assert (KK : k = k') by (rewrite <- (S t k), <- (S t' k') by auto; congruence). subst k'. rewrite E in E'. unfold times3 in E'. injection E' as E0 E1 E2. apply v3_eq; apply (Rmult_eq_reg_l k); auto; lra.
Qed.
Example documented_tangent : mean_tangent (mkArc true [mkV 0 0 0; mkV 0 0 6; mkV 8 0 6]) 1 = Ok (Some (mkV (4 / 5) 0 (3 / 5))).
Proof.
  set (s := mkArc true [mkV 0 0 0; mkV 0 0 6; mkV 8 0 6]). assert (E : average_edge s 1 = mkV 4 0 3). { change (average_edge s 1) with (times3 (/ 2) (plus3 (edge_to s 1) (edge_to s (1 + 1)))). unfold edge_to. change (Thm_Geometry.vertex s (1 + 1)) with (mkV 8 0 6). change (Thm_Geometry.vertex s 1) with (mkV 0 0 6). change (Thm_Geometry.vertex s (1 - 1)) with (mkV 0 0 0). change (Thm_Geometry.vertex s (1 + 1 - 1)) with (mkV 0 0 6). apply v3_eq; unfold times3, plus3, minus3; cbn [c0 c1 c2]; field. }
  assert (Z : size (mkV 4 0 3) = 5) by (unfold size, inner; cbn [c0 c1 c2]; replace (_ + _ + _) with (5 * 5) by ring; apply sqrt_square; lra).
  destruct (tangent_right s 1) as (t & -> & D); [cbn; lia|cbn; lia|rewrite E, Z; unfold DBL_EPSILON; lra|]. do 2 f_equal. apply (direction_unique _ _ (average_edge s 1)); auto. rewrite E. split.
  - unfold size, inner. cbn [c0 c1 c2]. replace (_ + _ + _) with 1 by field. apply sqrt_1.
  - exists 5. split; [lra|]. apply v3_eq; unfold times3; cbn [c0 c1 c2]; field.
Qed.
