(** Proofs about the sampling of closed self-avoiding polygons. *)
From Coq Require Import Reals List Lra Lia Bool Psatz.
From Verif Require Import Base Sampler.
Import ListNotations.
Open Scope R_scope.
Open Scope res_scope.

Definition dot (u v : V3) : R := c0 u * c0 v + c1 u * c1 v + c2 u * c2 v.
Definition dist2 (u v : V3) : R := (c0 u - c0 v) * (c0 u - c0 v) + (c1 u - c1 v) * (c1 u - c1 v) + (c2 u - c2 v) * (c2 u - c2 v).
Definition comb (a : R) (u : V3) (b : R) (v : V3) : V3 := mkV (a * c0 u + b * c0 v) (a * c1 u + b * c1 v) (a * c2 u + b * c2 v).
Definition scale (a : R) (u : V3) : V3 := mkV (a * c0 u) (a * c1 u) (a * c2 u).

Lemma dot_sym : forall u v, dot u v = dot v u. Proof. intros. unfold dot. ring. Qed.
Lemma dot_comb : forall a u b v w, dot (comb a u b v) w = a * dot u w + b * dot v w. Proof. intros. unfold dot, comb. cbn. ring. Qed.
Lemma dot_scale : forall a u w, dot (scale a u) w = a * dot u w. Proof. intros. unfold dot, scale. cbn. ring. Qed.
Lemma dist2_dot : forall u v, dist2 u v = dot u u + dot v v - 2 * dot u v. Proof. intros. unfold dot, dist2. ring. Qed.
Lemma dist2_sym : forall u v, dist2 u v = dist2 v u. Proof. intros. unfold dist2. ring. Qed.

(** ** the frame *)
Definition cross (u v : V3) : V3 := mkV (c1 u * c2 v - c2 u * c1 v) (c2 u * c0 v - c0 u * c2 v) (c0 u * c1 v - c1 u * c0 v).
Lemma cross_norm : forall u v, dot (cross u v) (cross u v) = dot u u * dot v v - dot u v * dot u v. Proof. intros. unfold dot, cross. cbn. ring. Qed.
Lemma cross_left : forall u v, dot u (cross u v) = 0. Proof. intros. unfold dot, cross. cbn. ring. Qed.
Lemma cross_right : forall u v, dot v (cross u v) = 0. Proof. intros. unfold dot, cross. cbn. ring. Qed.
Lemma rsqrt_square : forall d, 0 <= d -> rsqrt (d * d) = Ok d.
Proof. intros d H. unfold rsqrt. destruct (Rlt_dec (d * d) 0); [nra|]. rewrite sqrt_square; auto. Qed.
Lemma vdiv_ok : forall v d, d <> 0 -> vdiv v d = Ok (scale (/ d) v).
Proof. intros v d H. unfold vdiv. destruct (Req_EM_T d 0); [lra|]. unfold scale, Rdiv. f_equal. f_equal; ring. Qed.

Definition first (x : V3) (d : R) : V3 := scale (/ d) x.
Definition second (x normal : V3) (d : R) : V3 := cross normal (first x d).
Lemma frame_ok : forall x normal d, 0 < d -> dot x x = d * d -> dot normal normal = 1 -> dot normal x = 0 ->
  frame x normal = Ok (first x d, second x normal d) /\ dot (first x d) (first x d) = 1 /\ dot (second x normal d) (second x normal d) = 1 /\
  dot (first x d) (second x normal d) = 0 /\ dot normal (first x d) = 0 /\ dot normal (second x normal d) = 0 /\ x = scale d (first x d).
Proof.
  intros x nrm d P E N O. assert (F : dot (first x d) (first x d) = 1). { unfold first. rewrite dot_scale, dot_sym, dot_scale, E. field. lra. }
  assert (G : dot nrm (first x d) = 0). { unfold first. rewrite dot_sym, dot_scale, dot_sym, O. ring. }
  assert (C : dot (second x nrm d) (second x nrm d) = 1). { unfold second. rewrite cross_norm, N, F, G. ring. }
  split; [|split; [auto|split; [auto|split; [apply cross_right|split; [auto|split; [apply cross_left|]]]]]].
  - unfold frame. change (c0 x * c0 x + c1 x * c1 x + c2 x * c2 x) with (dot x x). rewrite E, rsqrt_square by lra. cbn [bind]. rewrite vdiv_ok by lra. cbn [bind].
    fold (first x d). change (mkV _ _ _) with (second x nrm d). cbv zeta. change (c0 (second x nrm d) * c0 (second x nrm d) + c1 (second x nrm d) * c1 (second x nrm d) + c2 (second x nrm d) * c2 (second x nrm d)) with (dot (second x nrm d) (second x nrm d)).
    rewrite C. replace 1 with (1 * 1) at 1 by ring. rewrite rsqrt_square by lra. cbn [bind]. rewrite vdiv_ok by lra. cbn [bind]. f_equal. f_equal. unfold scale. rewrite Rinv_1, !Rmult_1_l. destruct (second x nrm d); reflexivity.
  - unfold first, scale. destruct x; cbn. f_equal; field; lra.
Qed.

(** ** one vertex *)
Lemma cos_bound : forall a b, 0 < a -> 0 < b -> 1 <= a + b -> -1 <= a - b <= 1 -> 0 <= 1 - (a * a + b * b - 1) / (2 * a * b) * ((a * a + b * b - 1) / (2 * a * b)).
Proof.
  intros a b A B S D. assert (P : 0 < 2 * a * b) by nra. assert (L : -1 <= (a * a + b * b - 1) / (2 * a * b) <= 1); [|nra].
  assert (Q : (a * a + b * b - 1) / (2 * a * b) * (2 * a * b) = a * a + b * b - 1) by (field; lra).
  split; apply Rmult_le_reg_r with (2 * a * b); auto; rewrite Q; nra.
Qed.
Lemma rsqrt_ok : forall x, 0 <= x -> exists s, rsqrt x = Ok s /\ 0 <= s /\ s * s = x.
Proof. intros x H. unfold rsqrt. destruct (Rlt_dec x 0); [lra|]. exists (sqrt x). split; [auto|]. split; [apply sqrt_pos|apply sqrt_sqrt; auto]. Qed.
(** a vertex at distance d' in the direction with the angle phi *)
Lemma placed : forall f0 f1 d d' c s, dot f0 f0 = 1 -> dot f1 f1 = 1 -> dot f0 f1 = 0 -> c * c + s * s = 1 -> d' * d' + d * d - 2 * d * d' * c = 1 ->
  dot (scale d' (comb c f0 s f1)) (scale d' (comb c f0 s f1)) = d' * d' /\ dist2 (scale d' (comb c f0 s f1)) (scale d f0) = 1.
Proof.
  intros f0 f1 d d' c s F0 F1 F C L. set (w := comb c f0 s f1). assert (W0 : dot w f0 = c). { unfold w. rewrite dot_comb, F0, (dot_sym f1), F. ring. }
  assert (W1 : dot w f1 = s). { unfold w. rewrite dot_comb, F, F1. ring. } assert (W : dot w w = 1). { unfold w at 1. rewrite dot_comb, !(dot_sym _ w), W0, W1. auto. }
  assert (X : dot (scale d' w) (scale d' w) = d' * d') by (rewrite dot_scale, dot_sym, dot_scale, W; ring). split; auto.
  rewrite dist2_dot, X. rewrite (dot_scale d f0), (dot_sym f0), dot_scale, F0. rewrite dot_scale, (dot_sym w), dot_scale, (dot_sym f0), W0. lra.
Qed.
(** the new normal vector *)
Lemma turned : forall f0 f1 nrm d' c s t, dot f0 f0 = 1 -> dot f1 f1 = 1 -> dot f0 f1 = 0 -> dot nrm nrm = 1 -> dot nrm f0 = 0 -> dot nrm f1 = 0 -> c * c + s * s = 1 ->
  let n' := comb (cos t) nrm (sin t) (comb (- s) f0 c f1) in dot n' n' = 1 /\ dot n' (scale d' (comb c f0 s f1)) = 0.
Proof.
  intros f0 f1 nrm d' c s t F0 F1 F N N0 N1 C n'. assert (SC : cos t * cos t + sin t * sin t = 1) by (pose proof (sin2_cos2 t) as H; unfold Rsqr in H; lra).
  assert (B : forall u a v b w, dot w (comb a u b v) = a * dot w u + b * dot w v) by (intros; unfold dot, comb; cbn; ring). assert (F' : dot f1 f0 = 0) by (rewrite dot_sym; auto).
  unfold n'. clear n'. remember (comb (- s) f0 c f1) as w eqn:W. assert (W0 : dot w f0 = - s) by (subst w; rewrite dot_comb, F0, F'; ring). assert (W1 : dot w f1 = c) by (subst w; rewrite dot_comb, F, F1; ring).
  assert (WN : dot nrm w = 0) by (subst w; rewrite B, N0, N1; ring). assert (WN' : dot w nrm = 0) by (rewrite dot_sym; auto). assert (WW : dot w w = 1) by (rewrite W at 2; rewrite B, W0, W1; lra). clear W. split.
  - rewrite dot_comb, !B, N, WN, WN', WW. lra.
  - rewrite dot_sym, dot_scale, dot_sym, dot_comb, !B, N0, N1, W0, W1. ring.
Qed.

Lemma near_false : forall x xs, near x xs = false -> Forall (fun y => 1 - / 1000000000 <= dist2 x y) xs.
Proof. intros x. induction xs as [|y xs IH]; intros H; constructor; cbn [near] in H; destruct (Rlt_dec _ _) as [L|L]; try discriminate; [apply Rnot_lt_le; exact L|auto]. Qed.

(** ** all vertices *)
(** vertices placed so far, the latest first *)
Inductive chain : list V3 -> Prop :=
| chain_one : chain [mkV 1 0 0; mkV 0 0 0]
| chain_more : forall x y xs, chain (y :: xs) -> dist2 x y = 1 -> Forall (fun z => 1 - / 1000000000 <= dist2 x z) (y :: xs) -> chain (x :: y :: xs).

Section Generator.
Context {gen : Type}.
Variable uniform : gen -> R * gen.
Variable good : gen -> Prop.
Hypothesis unit : forall g, good g -> 0 <= fst (uniform g) <= 1 /\ good (snd (uniform g)).

Lemma place_ok : forall m x xs nrm d g, good g -> 0 < d -> dot x x = d * d -> dot nrm nrm = 1 -> dot nrm x = 0 -> chain (x :: xs) ->
  exists r g', place uniform m x xs nrm d g = Ok (r, g') /\ good g' /\ forall x' xs' nrm' d', r = Some (x', xs', nrm', d') ->
    0 < d' /\ dot x' x' = d' * d' /\ dot nrm' nrm' = 1 /\ dot nrm' x' = 0 /\ chain (x' :: xs') /\ length xs' = (m + length xs)%nat.
Proof.
  induction m as [|m IH]; intros x xs nrm d g GG D X N O CH; cbn [place].
  - exists (Some (x, xs, nrm, d)), g. split; [auto|]. split; [auto|]. intros x' xs' nrm' d' E. injection E as <- <- <- <-. auto 10.
  - destruct (unit g GG) as (U & G1). destruct (uniform g) as (u, g1). cbn [fst snd] in U, G1. cbv zeta. set (this := d + 2 * (u - / 2)).
    destruct (Rlt_dec (this + d) 1) as [R1|R1]; [exists None, g1; repeat split; auto; discriminate|]. destruct (Rle_dec this 0) as [R2|R2]; [exists None, g1; repeat split; auto; discriminate|].
    destruct (frame_ok x nrm d D X N O) as (E & F0 & F1 & F & N0 & N1 & XS). rewrite E. cbn [bind]. set (f0 := first x d) in *. set (f1 := second x nrm d) in *.
    unfold rdiv. destruct (Req_EM_T (2 * this * d) 0) as [Z|Z]; [exfalso; nra|]. cbn [bind]. set (c := (this * this + d * d - 1) / (2 * this * d)).
    destruct (rsqrt_ok (1 - c * c)) as (s & Es & S0 & S1); [apply cos_bound; try lra; unfold this; lra|]. rewrite Es. cbn [bind].
    change (mkV (this * (c * c0 f0 + s * c0 f1)) (this * (c * c1 f0 + s * c1 f1)) (this * (c * c2 f0 + s * c2 f1))) with (scale this (comb c f0 s f1)).
    destruct (unit g1 G1) as (V & G2). destruct (uniform g1) as (v, g2). cbn [snd] in G2.
    match goal with |- context [place uniform m _ _ ?n _ _] => change n with (comb (cos (TWOPI * v)) nrm (sin (TWOPI * v)) (comb (- s) f0 c f1)) end.
    assert (CS : c * c + s * s = 1) by lra. assert (LC : this * this + d * d - 2 * d * this * c = 1) by (unfold c; field; split; lra).
    destruct (placed f0 f1 d this c s F0 F1 F CS LC) as (P1 & P2). rewrite <- XS in P2. destruct (turned f0 f1 nrm this c s (TWOPI * v) F0 F1 F N N0 N1 CS) as (T1 & T2).
    destruct (near (scale this (comb c f0 s f1)) (x :: xs)) eqn:NR; [exists None, g2; repeat split; auto; discriminate|]. apply near_false in NR.
    destruct (IH (scale this (comb c f0 s f1)) (x :: xs) (comb (cos (TWOPI * v)) nrm (sin (TWOPI * v)) (comb (- s) f0 c f1)) this g2) as (r & g' & Er & G' & H); auto; [lra|constructor; auto|].
    exists r, g'. split; [exact Er|]. split; [auto|]. intros x' xs' nrm' d' K. destruct (H x' xs' nrm' d' K) as (A & B & C0 & D0 & E0 & L). repeat split; auto. rewrite L. cbn [length]. lia.
Qed.

Lemma close_ok : forall x xs nrm d, dot x x = d * d -> dot nrm nrm = 1 -> dot nrm x = 0 -> chain (x :: xs) ->
  exists r, close_up x xs nrm d = Ok r /\ forall P, r = Some P -> exists x', P = rev (x' :: x :: xs) /\ chain (x' :: x :: xs) /\ dot x' x' = 1.
Proof.
  intros x xs nrm d X N O CH. unfold close_up. destruct (Rle_dec d 0) as [R1|R1]; [exists None; split; auto; discriminate|]. destruct (Rle_dec 2 d) as [R2|R2]; [exists None; split; auto; discriminate|].
  destruct (frame_ok x nrm d ltac:(lra) X N O) as (E & F0 & F1 & F & N0 & N1 & XS). rewrite E. cbn [bind]. set (f0 := first x d) in *. set (f1 := second x nrm d) in *. cbv zeta.
  destruct (rsqrt_ok (1 - d / 2 * (d / 2))) as (s & Es & S0 & S1); [nra|]. rewrite Es. cbn [bind]. change (mkV _ _ _) with (comb (d / 2) f0 s f1).
  assert (CS : d / 2 * (d / 2) + s * s = 1) by lra. destruct (placed f0 f1 d 1 (d / 2) s F0 F1 F CS ltac:(field)) as (P1 & P2).
  assert (SC : scale 1 (comb (d / 2) f0 s f1) = comb (d / 2) f0 s f1) by (unfold scale; rewrite !Rmult_1_l; reflexivity). rewrite SC in P1, P2. rewrite <- XS in P2.
  destruct (near (comb (d / 2) f0 s f1) (x :: xs)) eqn:NR; [exists None; split; auto; discriminate|]. eexists. split; [reflexivity|]. intros P K. injection K as <-. exists (comb (d / 2) f0 s f1). split; [auto|].
  split; [constructor; auto; apply near_false; auto|lra].
Qed.

Lemma trial_ok : forall n g, (5 <= n)%nat -> good g -> exists r g', trial uniform n g = Ok (r, g') /\ good g' /\
  forall P, r = Some P -> length P = n /\ chain (rev P) /\ forall x, nth_error P (n - 1) = Some x -> dot x x = 1.
Proof.
  intros n g Hn GG. unfold trial. destruct (place_ok (n - 3) (mkV 1 0 0) [mkV 0 0 0] (mkV 0 0 1) 1 g GG) as (r & g' & E & G' & H); [lra|unfold dot; cbn; lra|unfold dot; cbn; lra|unfold dot; cbn; lra|constructor|].
  rewrite E. cbn [bind]. destruct r as [[[[x xs] nrm] d]|]; [|exists None, g'; repeat split; auto; discriminate].
  destruct (H _ _ _ _ eq_refl) as (D & X & N & O & CH & L). destruct (close_ok x xs nrm d X N O CH) as (p & Ep & K). rewrite Ep. cbn [bind]. exists p, g'. split; [auto|]. split; [auto|].
  intros P ->. destruct (K P eq_refl) as (x' & -> & C' & D'). assert (LP : length (rev (x' :: x :: xs)) = n) by (rewrite rev_length; cbn [length] in *; lia). split; [auto|]. split; [rewrite rev_involutive; auto|].
  intros y Hy. cbn [rev] in Hy, LP. rewrite nth_error_app2 in Hy by (rewrite app_length in LP; cbn in LP; lia). replace (n - 1 - length ((rev xs ++ [x])))%nat with 0%nat in Hy by (rewrite app_length in LP; cbn in LP; lia). injection Hy as <-. auto.
Qed.
Lemma trials_ok : forall n, (5 <= n)%nat -> forall k g, good g -> trials uniform k n g = Fail \/ exists P g', trials uniform k n g = Ok (P, g') /\ good g' /\ length P = n /\ chain (rev P) /\ forall x, nth_error P (n - 1) = Some x -> dot x x = 1.
Proof.
  intros n Hn. induction k as [|k IH]; intros g GG; [left; reflexivity|]. cbn [trials]. destruct (trial_ok n g Hn GG) as (r & g' & E & G' & H). rewrite E. cbn [bind]. destruct r as [P|]; [|apply IH; auto]. right. exists P, g'. destruct (H P eq_refl) as (A & B & C). auto 10.
Qed.
End Generator.

(** ** what a chain is *)
Lemma chain_start : forall l, chain l -> exists l', l = l' ++ [mkV 1 0 0; mkV 0 0 0].
Proof. intros l H. induction H as [|x y xs H (l' & IH)]; [exists []; auto|]. exists (x :: l'). rewrite IH. auto. Qed.
Lemma chain_edges : forall l, chain l -> forall i x y, nth_error l i = Some x -> nth_error l (S i) = Some y -> dist2 x y = 1.
Proof.
  intros l H. induction H as [|x y xs H IH D F]; intros i a b Ea Eb.
  - destruct i as [|[|[|]]]; try discriminate. injection Ea as <-. injection Eb as <-. unfold dist2. cbn. ring.
  - destruct i as [|i]; [injection Ea as <-; injection Eb as <-; auto|]. apply (IH i); auto.
Qed.
Lemma chain_apart : forall l, chain l -> forall i j x y, (i < j)%nat -> nth_error l i = Some x -> nth_error l j = Some y -> 1 - / 1000000000 <= dist2 x y.
Proof.
  intros l H. induction H as [|x y xs H IH D F]; intros i j a b L Ea Eb.
  - destruct i as [|i], j as [|[|[|]]]; try lia; try discriminate. injection Ea as <-. injection Eb as <-. unfold dist2. cbn. lra.
  - destruct j as [|j]; [lia|]. destruct i as [|i]; [|apply (IH i j); auto; lia]. injection Ea as <-. rewrite Forall_forall in F. apply F. eapply nth_error_In. exact Eb.
Qed.
