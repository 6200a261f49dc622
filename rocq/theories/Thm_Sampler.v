(** C74: sampled polygons are closed, equilateral and self-avoiding. *)
From Coq Require Import Reals List Lra Lia Bool Psatz QArith Qreals.
From Verif Require Import Base Sampler SamplerProofs Xoshiro XoshiroProofs Thm_Xoshiro.
Import ListNotations.
Open Scope R_scope.
Open Scope res_scope.

Definition vertex (P : list V3) (i : nat) : V3 := nth i P (mkV 0 0 0).
Definition square_dist (u v : V3) : R := (c0 u - c0 v)² + (c1 u - c1 v)² + (c2 u - c2 v)².
(** A closed polygon of n edges of length 1 whose vertices are 1 apart (up to 1e-9 for the square), in standard position. *)
Record pearls (n : nat) (P : list V3) : Prop := {
  pearls_number : length P = n;
  pearls_edges : forall i, (i < n)%nat -> square_dist (vertex P i) (vertex P ((i + 1) mod n)) = 1;
  pearls_apart : forall i j, (i < n)%nat -> (j < n)%nat -> i <> j -> 1 - / 1000000000 <= square_dist (vertex P i) (vertex P j);
  pearls_first : vertex P 0 = mkV 0 0 0 /\ vertex P 1 = mkV 1 0 0 }.

Lemma square_dist_eq : forall u v, square_dist u v = dist2 u v. Proof. intros. unfold square_dist, dist2, Rsqr. ring. Qed.
Lemma chain_pearls : forall n P, (5 <= n)%nat -> length P = n -> chain (rev P) -> (forall x, nth_error P (n - 1) = Some x -> dot x x = 1) -> pearls n P.
Proof.
  intros n P Hn L CH LAST. destruct (chain_start _ CH) as (l & E). apply (f_equal (@rev V3)) in E. rewrite rev_involutive, rev_app_distr in E. cbn [rev app] in E.
  assert (NE : forall i, (i < n)%nat -> nth_error P i = Some (vertex P i)) by (intros i H; apply nth_error_nth'; lia).
  assert (RV : forall i, (i < n)%nat -> nth_error (rev P) (n - 1 - i) = Some (vertex P i)).
  { intros i H. rewrite (nth_error_nth' (rev P) (mkV 0 0 0)) by (rewrite rev_length; lia). rewrite rev_nth by lia. unfold vertex. do 2 f_equal. lia. }
  assert (V0 : vertex P 0 = mkV 0 0 0) by (rewrite E; reflexivity).
  assert (FW : forall i, (S i < n)%nat -> dist2 (vertex P i) (vertex P (S i)) = 1).
  { intros i H. rewrite dist2_sym. apply (chain_edges _ CH (n - 1 - S i)); [apply RV; auto|]. replace (S (n - 1 - S i))%nat with (n - 1 - i)%nat by lia. apply RV. lia. }
  assert (AP : forall i j, (i < j < n)%nat -> 1 - / 1000000000 <= dist2 (vertex P i) (vertex P j)).
  { intros i j H. rewrite dist2_sym. apply (chain_apart _ CH (n - 1 - j) (n - 1 - i)); [lia|apply RV; lia|apply RV; lia]. }
  split; auto.
  - intros i H. rewrite square_dist_eq. destruct (Nat.eq_dec i (n - 1)) as [K|K].
    + replace (i + 1)%nat with n by lia. rewrite Nat.mod_same by lia. rewrite V0. subst i. specialize (LAST _ (NE (n - 1)%nat ltac:(lia))). unfold dist2. cbn. unfold dot in LAST. rewrite !Rminus_0_r. exact LAST.
    + rewrite Nat.mod_small by lia. replace (i + 1)%nat with (S i) by lia. apply FW. lia.
  - intros i j Hi Hj N. rewrite square_dist_eq. destruct (Nat.lt_ge_cases i j); [apply AP; lia|]. rewrite dist2_sym. apply AP. lia.
  - rewrite E. split; reflexivity.
Qed.

(** For every generator with values in [0,1] the function ends with such a polygon, or because all 49999999 trials were
    rejected; it never divides by zero or takes the square root of a negative number. *)
Theorem sap_sampled : forall (gen : Type) (uniform : gen -> R * gen) (good : gen -> Prop),
  (forall g, good g -> 0 <= fst (uniform g) <= 1 /\ good (snd (uniform g))) ->
  forall n g, good g -> (exists P g', random_sap uniform n g = Ok (P, g') /\ good g' /\ (5 <= n <= 25)%nat /\ pearls n P) \/ random_sap uniform n g = Fail.
Proof.
  intros gen uniform good U n g G. unfold random_sap. destruct (Nat.ltb_spec n 5) as [A|A]; [auto|]. destruct (Nat.ltb_spec 25 n) as [B|B]; [auto|].
  destruct (trials_ok uniform good U n A (N.to_nat 49999999) g G) as [F|(P & g' & E & G' & L & CH & LAST)]; [auto|]. left. exists P, g'. split; [exact E|]. split; [auto|]. split; [lia|]. apply chain_pearls; auto.
Qed.
Print Assumptions sap_sampled.

(** In particular for the generator of the library. *)
Definition uniform_real (s : xstate) : R * xstate := (Q2R (fst (xoshiro_uniform s)), snd (xoshiro_uniform s)).
Theorem sap_sampled_xoshiro : forall n s, fits s ->
  (exists P s', random_sap uniform_real n s = Ok (P, s') /\ fits s' /\ (5 <= n <= 25)%nat /\ pearls n P) \/ random_sap uniform_real n s = Fail.
Proof.
  apply sap_sampled. intros s F. destruct (xoshiro_unit s F) as ((L & U) & F'). split; [|exact F']. cbn [uniform_real fst].
  apply Qle_Rle in L. apply Qlt_Rlt in U. rewrite RMicromega.Q2R_0 in L. rewrite RMicromega.Q2R_1 in U. split; [exact L|apply Rlt_le; exact U].
Qed.
Print Assumptions sap_sampled_xoshiro.

(** Numbers of edges outside of 5..25 are refused before anything is drawn. *)
Theorem sap_refused : forall (gen : Type) (uniform : gen -> R * gen) n g, ~ (5 <= n <= 25)%nat -> random_sap uniform n g = Fail.
Proof. intros gen u n g H. unfold random_sap. destruct (Nat.ltb_spec n 5); auto. destruct (Nat.ltb_spec 25 n); auto. lia. Qed.
Print Assumptions sap_refused.

(** The function gives up only after 49999999 successive trials that were all rejected. *)
Lemma trials_fail : forall (gen : Type) (uniform : gen -> R * gen) (good : gen -> Prop),
  (forall g, good g -> 0 <= fst (uniform g) <= 1 /\ good (snd (uniform g))) -> forall n, (5 <= n)%nat -> forall k g, good g ->
  trials uniform k n g = Fail -> exists gs : nat -> gen, gs O = g /\ forall i, (i < k)%nat -> trial uniform n (gs i) = Ok (None, gs (S i)).
Proof.
  intros gen uniform good U n Hn. induction k as [|k IH]; intros g G E; [exists (fun _ => g); split; auto; intros; lia|]. cbn [trials] in E. destruct (trial_ok uniform good U n g Hn G) as (r & g' & T & G' & _). rewrite T in E. cbn [bind] in E.
  destruct r as [P|]; [discriminate|]. destruct (IH g' G' E) as (gs & G0 & H). exists (fun i => match i with O => g | S i' => gs i' end). split; auto. intros [|i] L; [rewrite G0; exact T|apply H; lia].
Qed.
Theorem sap_gives_up : forall (gen : Type) (uniform : gen -> R * gen) (good : gen -> Prop),
  (forall g, good g -> 0 <= fst (uniform g) <= 1 /\ good (snd (uniform g))) -> forall n g, good g -> (5 <= n <= 25)%nat ->
  random_sap uniform n g = Fail -> exists gs : nat -> gen, gs O = g /\ forall i, (N.of_nat i < 49999999)%N -> trial uniform n (gs i) = Ok (None, gs (S i)).
Proof.
  intros gen uniform good U n g G H E. unfold random_sap in E. destruct (Nat.ltb_spec n 5); [lia|]. destruct (Nat.ltb_spec 25 n); [lia|]. destruct (trials_fail gen uniform good U n ltac:(lia) _ g G E) as (gs & G0 & K). exists gs. split; auto. intros i L. apply K. clear - L. lia.
Qed.
Print Assumptions sap_gives_up.

(** ** a pentagon *)
Definition draw (l : list R) : R * list R := match l with [] => (0, []) | u :: l' => (u, l') end.
Lemma near_intro : forall x xs, Forall (fun y => 1 <= dist2 x y) xs -> near x xs = false.
Proof. intros x xs F. induction F as [|y xs H F IH]; auto. cbn [near]. destruct (Rlt_dec _ _) as [L|L]; auto. exfalso. unfold dist2 in H. lra. Qed.
(** a step in the plane *)
Lemma frame_flat : forall a b d, 0 < d -> a * a + b * b = 1 -> frame (mkV (d * a) (d * b) 0) (mkV 0 0 1) = Ok (mkV a b 0, mkV (- b) a 0).
Proof.
  intros a b d D E. destruct (frame_ok (mkV (d * a) (d * b) 0) (mkV 0 0 1) d) as (F & _); auto; [unfold dot; cbn; transitivity (d * d * (a * a + b * b)); [ring|rewrite E; ring]|unfold dot; cbn; ring|unfold dot; cbn; ring|]. rewrite F.
  unfold second, first, cross, scale. cbn. f_equal. f_equal; f_equal; field; lra.
Qed.
Lemma place_flat : forall m a b d d' c s u g xs, 0 < d -> a * a + b * b = 1 -> d' = d + 2 * (u - / 2) -> 1 <= d' + d -> 0 < d' -> d' * d' + d * d - 1 = 2 * d' * d * c -> 0 <= s -> s * s = 1 - c * c ->
  Forall (fun y => 1 <= dist2 (mkV (d' * (c * a - s * b)) (d' * (c * b + s * a)) 0) y) (mkV (d * a) (d * b) 0 :: xs) ->
  place draw (S m) (mkV (d * a) (d * b) 0) xs (mkV 0 0 1) d (u :: 0 :: g) = place draw m (mkV (d' * (c * a - s * b)) (d' * (c * b + s * a)) 0) (mkV (d * a) (d * b) 0 :: xs) (mkV 0 0 1) d' g.
Proof.
  intros m a b d d' c s u g xs D E Ed L P C S0 S1 F. cbn [place draw]. cbv zeta. rewrite <- Ed. destruct (Rlt_dec (d' + d) 1); [lra|]. destruct (Rle_dec d' 0); [lra|]. rewrite frame_flat by auto. cbn [bind].
  unfold rdiv. destruct (Req_EM_T (2 * d' * d) 0); [nra|]. cbn [bind]. assert (Q : (d' * d' + d * d - 1) / (2 * d' * d) = c) by (rewrite C; field; lra). rewrite Q, <- S1, rsqrt_square by auto. cbn [bind c0 c1 c2].
  replace (TWOPI * 0) with 0 by ring. rewrite cos_0, sin_0.
  replace (mkV (d' * (c * a + s * - b)) (d' * (c * b + s * a)) (d' * (c * 0 + s * 0))) with (mkV (d' * (c * a - s * b)) (d' * (c * b + s * a)) 0) by (f_equal; ring).
  rewrite near_intro by auto. f_equal; f_equal; ring.
Qed.
Example pentagon : exists P, random_sap draw 5 [3/4; 0; 1/2; 0] = Ok (P, []) /\ pearls 5 P.
Proof.
  assert (S : exists P, random_sap draw 5 [3/4; 0; 1/2; 0] = Ok (P, [])).
  { unfold random_sap. cbn [Nat.ltb Nat.leb]. assert (K : exists k, N.to_nat 49999999 = Datatypes.S k) by (exists (N.to_nat 49999998); rewrite <- Nnat.N2Nat.inj_succ; reflexivity). destruct K as (k & ->). cbn [trials].
    assert (T : exists P, trial draw 5 [3/4; 0; 1/2; 0] = Ok (Some P, [])); [|destruct T as (P & ->); exists P; reflexivity].
    unfold trial. cbn [Nat.sub].
    destruct (rsqrt_ok (1 - 3/4 * (3/4)) ltac:(lra)) as (s & _ & S0 & S1). destruct (rsqrt_ok (1 - 7/9 * (7/9)) ltac:(lra)) as (t & _ & T0 & T1).
    replace (mkV 1 0 0) with (mkV (1 * 1) (1 * 0) 0) by (f_equal; ring). rewrite (place_flat 1 1 0 1 (3/2) (3/4) s); try lra.
    2:{ apply Forall_cons; [|apply Forall_cons; [|apply Forall_nil]]; unfold dist2; cbn; nra. }
    assert (ST : 0 <= s * t) by nra.
    rewrite (place_flat 0 (3/4 * 1 - s * 0) (3/4 * 0 + s * 1) (3/2) (3/2) (7/9) t); try lra.
    2:{ remember (7/9 * (3/4 * 1 - s * 0) - t * (3/4 * 0 + s * 1)) as A eqn:EA. remember (7/9 * (3/4 * 0 + s * 1) + t * (3/4 * 1 - s * 0)) as B eqn:EB.
        assert (AB : A * A + B * B = 1) by (subst A B; transitivity ((9/16 + s * s) * (49/81 + t * t)); [field|rewrite S1, T1; lra]). assert (A1 : A = 7/12 - s * t) by (subst A; field).
        assert (AS : 3/4 * A + s * B = 7/9) by (subst A B; transitivity (7/9 * (9/16 + s * s)); [field|rewrite S1; lra]). clear EA EB.
        apply Forall_cons; [|apply Forall_cons; [|apply Forall_cons; [|apply Forall_nil]]]; unfold dist2; cbn; nra. }
    remember (7/9 * (3/4 * 1 - s * 0) - t * (3/4 * 0 + s * 1)) as A eqn:EA. remember (7/9 * (3/4 * 0 + s * 1) + t * (3/4 * 1 - s * 0)) as B eqn:EB.
    assert (AB : A * A + B * B = 1) by (subst A B; transitivity ((9/16 + s * s) * (49/81 + t * t)); [field|rewrite S1, T1; lra]). assert (A1 : A = 7/12 - s * t) by (subst A; field).
    assert (SB : s * B = 49/144 + 3/4 * (s * t)) by (subst B; transitivity (7/9 * (s * s) + 3/4 * (s * t)); [field|rewrite S1; lra]).
    cbn [place bind]. unfold close_up. destruct (Rle_dec (3/2) 0); [lra|]. destruct (Rle_dec 2 (3/2)); [lra|]. rewrite frame_flat by (auto; lra).
    cbn [bind]. cbv zeta. replace (1 - 3/2/2 * (3/2/2)) with (s * s) by lra. rewrite rsqrt_square by auto. cbn [bind c0 c1 c2]. rewrite near_intro.
    2:{ remember (3/2/2 * A + s * - B) as C eqn:EC. remember (3/2/2 * B + s * A) as D eqn:ED.
        assert (CD : C * C + D * D = 1) by (subst C D; transitivity ((9/16 + s * s) * (A * A + B * B)); [field|rewrite S1, AB; lra]).
        assert (E2 : 3/4 * C + s * D = A) by (subst C D; transitivity ((9/16 + s * s) * A); [field|rewrite S1; lra]).
        assert (E3 : A * C + B * D = 3/4) by (subst C D; transitivity (3/4 * (A * A + B * B)); [field|rewrite AB; lra]).
        assert (E1 : C = 3/4 * A - s * B) by (subst C; field). clear EC ED EA EB.
        apply Forall_cons; [|apply Forall_cons; [|apply Forall_cons; [|apply Forall_cons; [|apply Forall_nil]]]]; unfold dist2; cbn; nra. }
    eexists. reflexivity. }
  destruct S as (P & E). exists P. split; auto.
  destruct (sap_sampled (list R) draw (Forall (fun u => 0 <= u <= 1))) with (n := 5%nat) (g := [3/4; 0; 1/2; 0]) as [(P' & g' & E' & _ & _ & H)|F].
  - intros [|u l] F; cbn; [split; [lra|constructor]|inversion F; auto].
  - repeat constructor; lra.
  - rewrite E in E'. injection E' as <- _. exact H.
  - rewrite E in F. discriminate.
Qed.
