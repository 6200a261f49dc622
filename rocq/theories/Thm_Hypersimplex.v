(** Theorems about the samplers of hypersimplices and of slices of the cube (C56). *)
From Coq Require Import List Arith ZArith QArith Qround Permutation Lia Lqa Bool.
From Verif Require Import Base Pd KAscent KAscentSpec KAscentProofs Thm_KAscent Hypersimplex.
Import ListNotations.
Open Scope nat_scope.

(** ** psi_inverse *)
(** the number of places where the list does not rise *)
Fixpoint drops (prev : Q) (l : list Q) : nat :=
  match l with [] => 0 | a :: l' => (if negb (Qle_bool a prev) then 0 else 1) + drops a l' end.
Lemma psi_sum : forall l prev, (qsum (psi_rest prev l) == last (prev :: l) 0 - prev + qn (drops prev l))%Q.
Proof.
  induction l as [|a l IH]; intro prev.
  - cbn [psi_rest qsum last drops]. change (qn 0) with 0%Q. ring.
  - cbn [psi_rest qsum drops]. rewrite IH, qn_add. change (last (prev :: a :: l) 0%Q) with (last (a :: l) 0%Q).
    destruct (negb (Qle_bool a prev)); [change (qn 0) with 0%Q|change (qn 1) with 1%Q]; ring.
Qed.
Definition inside (a : Q) : Prop := (0 < a < 1)%Q.
Lemma psi_inside : forall l prev, inside prev -> Forall inside l ->
  Forall (fun a => 0 < a <= 1)%Q (psi_rest prev l).
Proof.
  induction l as [|a l IH]; intros prev P F; cbn [psi_rest]; [constructor|].
  inversion F as [|? ? A Fl]; subst. constructor; auto. unfold inside in *.
  destruct (Qle_bool a prev) eqn:E; cbn [negb].
  - apply Qle_bool_iff in E. lra.
  - assert (~ (a <= prev)%Q) by (rewrite <- Qle_bool_iff; congruence). lra.
Qed.
(** the map psi of Stanley: the fractional parts of the partial sums *)
Fixpoint psi (acc : Q) (x : list Q) : list Q :=
  match x with
  | [] => []
  | a :: x' => (acc + a - inject_Z (Qfloor (acc + a)))%Q :: psi (acc + a)%Q x'
  end.
Lemma floor_of : forall q z a, (q == a + inject_Z z)%Q -> (0 <= a < 1)%Q -> Qfloor q = z.
Proof.
  intros q z a E H. rewrite E. pose proof (Qfloor_le (a + inject_Z z)). pose proof (Qlt_floor (a + inject_Z z)).
  set (f := Qfloor (a + inject_Z z)) in *.
  rewrite inject_Z_plus in H1. change (inject_Z 1) with 1%Q in H1.
  assert (inject_Z f < inject_Z (z + 1))%Q by (rewrite inject_Z_plus; change (inject_Z 1) with 1%Q; lra).
  assert (inject_Z z < inject_Z (f + 1))%Q by (rewrite inject_Z_plus; change (inject_Z 1) with 1%Q; lra).
  rewrite <- Zlt_Qlt in *. lia.
Qed.
Lemma psi_rest_back : forall l prev acc z, (acc == prev + inject_Z z)%Q -> Forall (fun a => 0 <= a < 1)%Q l ->
  Forall2 Qeq (psi acc (psi_rest prev l)) l.
Proof.
  induction l as [|a l IH]; intros prev acc z E F; cbn [psi_rest psi]; [constructor|].
  inversion F as [|? ? A Fl]; subst.
  set (d := (if negb (Qle_bool a prev) then a - prev else a - prev + 1)%Q).
  assert (D : exists z', (acc + d == a + inject_Z z')%Q).
  { unfold d. destruct (negb (Qle_bool a prev)).
    - exists z. rewrite E. ring.
    - exists (z + 1)%Z. rewrite inject_Z_plus, E. change (inject_Z 1) with 1%Q. ring. }
  destruct D as [z' D]. constructor; [|eapply IH; eauto].
  rewrite (floor_of _ z' a D A), D. ring.
Qed.
(** psi undoes psi_inverse, so psi_inverse maps different points to different points *)
Theorem psi_round_trip : forall y x, Forall (fun a => 0 <= a < 1)%Q y -> psi_inverse y = Ok x ->
  Forall2 Qeq (psi 0 x) y.
Proof.
  intros [|a y] x F H; [discriminate|]. cbn [psi_inverse] in H. injection H as <-.
  inversion F as [|? ? A Fl]; subst. cbn [psi].
  assert (E : (0 + a == a + inject_Z 0)%Q) by (change (inject_Z 0) with 0%Q; ring).
  constructor; [|apply (psi_rest_back y a (0 + a)%Q 0%Z); auto]. rewrite (floor_of _ 0%Z a E A). change (inject_Z 0) with 0%Q. ring.
Qed.
Print Assumptions psi_round_trip.

(** ** the sorted point *)
Lemma partial_length : forall l acc, length (partial_sums acc l) = length l.
Proof. induction l; intro acc; simpl; auto. Qed.
Lemma partial_bounds : forall l acc i, Forall (fun t => 0 < t)%Q l -> i < length l ->
  (acc < nth i (partial_sums acc l) 0 <= acc + qsum l)%Q.
Proof.
  induction l as [|t l IH]; intros acc i F H; [simpl in H; lia|]. inversion F as [|? ? T Fl]; subst.
  assert (N : (0 <= qsum l)%Q).
  { clear -Fl. induction l; cbn [qsum]; [lra|]. inversion Fl; subst. specialize (IHl H2). lra. }
  cbn [partial_sums qsum]. destruct i as [|i]; cbn [nth]; [lra|]. simpl in H.
  specialize (IH (acc + t)%Q i Fl ltac:(lia)). lra.
Qed.
Lemma partial_step : forall l acc i j, Forall (fun t => 0 < t)%Q l -> i < j -> j < length l ->
  (nth i (partial_sums acc l) 0 < nth j (partial_sums acc l) 0)%Q.
Proof.
  induction l as [|t l IH]; intros acc i j F H1 H2; [simpl in H2; lia|]. inversion F as [|? ? T Fl]; subst.
  simpl in H2. destruct j as [|j]; [lia|]. cbn [partial_sums]. destruct i as [|i]; cbn [nth].
  - apply (partial_bounds l (acc + t)%Q j Fl). lia.
  - apply IH; auto; lia.
Qed.
Lemma qsum_split : forall a b, (qsum (a ++ b) == qsum a + qsum b)%Q.
Proof. induction a; intro b; cbn [qsum app]; [ring|]. rewrite IHa. ring. Qed.

Definition drops_of (l : list Q) : nat := match l with [] => 0 | a :: r => drops a r end.
Lemma drops_asc : forall (f : nat -> Q) l, l <> [] ->
  (forall a b, In a l -> In b l -> (a < b <-> (f a < f b)%Q)) ->
  drops_of (map f l) + asc l = length l - 1.
Proof.
  induction l as [|a l IH]; intros N M; [congruence|]. destruct l as [|b l]; [reflexivity|].
  change (asc (a :: b :: l)) with ((if a <? b then 1 else 0) + asc (b :: l)).
  change (drops_of (map f (a :: b :: l))) with ((if negb (Qle_bool (f b) (f a)) then 0 else 1) + drops_of (map f (b :: l))).
  specialize (IH ltac:(congruence) (fun x y Hx Hy => M x y (or_intror Hx) (or_intror Hy))).
  assert (E : negb (Qle_bool (f b) (f a)) = (a <? b)).
  { specialize (M a b (or_introl eq_refl) (or_intror (or_introl eq_refl))).
    destruct (Nat.ltb_spec a b) as [L | L].
    - apply M in L. destruct (Qle_bool (f b) (f a)) eqn:Q; auto. apply Qle_bool_iff in Q. lra.
    - destruct (Qle_bool (f b) (f a)) eqn:Q; auto.
      assert (~ (f b <= f a)%Q) by (rewrite <- Qle_bool_iff; congruence). exfalso.
      assert (a < b) by (apply M; lra). lia. }
  rewrite E. simpl length in *. destruct (a <? b); lia.
Qed.

Lemma reads_ok : forall sx l, (forall p, In p l -> 1 <= p <= length sx) ->
  reads sx l = Ok (map (fun p => nth (p - 1) sx 0%Q) l).
Proof.
  intros sx. induction l as [|p l IH]; intro H; [reflexivity|].
  assert (B : 1 <= p <= length sx) by (apply H; simpl; auto).
  cbn [reads]. destruct (Nat.eqb_spec p 0); [lia|]. unfold get. rewrite nth_error_nth' with (d := 0%Q) by lia. cbn [bind].
  rewrite IH by (intros; apply H; simpl; auto). reflexivity.
Qed.
Lemma sum_of : forall y x, psi_inverse y = Ok x -> (qsum x == last y 0 + qn (drops_of y))%Q.
Proof.
  intros [|a y] x H; [discriminate|]. injection H as <-. cbn [qsum drops_of]. rewrite psi_sum. ring.
Qed.

(** C56.  Whatever is drawn, the sample of the (k,n) hypersimplex consists of n-1 numbers in [0,1] whose sum lies
    between k-1 and k, and no memory outside the arrays is read. *)
Theorem hypersimplex_in_range : forall k theta ds ps, let n := length theta in
  (Z.of_nat n <= 1000)%Z -> 1 <= k <= n - 2 -> Forall (fun t => 0 < t)%Q theta -> (qsum theta == 1)%Q ->
  hypersimplex_sample k theta ds ps <> UB /\ hypersimplex_sample k theta ds ps <> Fail /\
  forall x rest, hypersimplex_sample k theta ds ps = Ok (x, rest) ->
    length x = n - 1 /\ Forall (fun a => 0 < a <= 1)%Q x /\ (qn (k - 1) < qsum x < qn k)%Q.
Proof.
  intros k theta ds ps n Z1 K T S1.
  assert (K1 : 1 <= n - 1 - 1 - (k - 1) <= n - 1 - 1) by lia.
  destruct (k_ascent_always (n - 1) (n - 1 - 1 - (k - 1)) ds ps) as [U [Fl R]]; [lia|lia|].
  unfold hypersimplex_sample. fold n. unfold random_k_descent.
  set (sx := partial_sums 0 (firstn (n - 1) theta)).
  assert (Lf : length (firstn (n - 1) theta) = n - 1) by (rewrite firstn_length; fold n; lia).
  assert (Lx : length sx = n - 1) by (unfold sx; rewrite partial_length; auto).
  destruct (random_k_ascent (n - 1) (n - 1 - 1 - (k - 1)) ds ps) as [[l rest]| | |]; try congruence;
    [|cbn [bind]; repeat split; discriminate].
  destruct (R l rest eq_refl) as [P A]. clear U Fl R.
  destruct (perm_facts _ _ P) as [N [L J]].
  cbn [bind fst snd]. rewrite reads_ok by (intros p Hp; apply J in Hp; lia). cbn [bind].
  set (y := map (fun p => nth (p - 1) sx 0%Q) l).
  assert (Ly : length y = n - 1) by (unfold y; rewrite map_length; auto).
  destruct (psi_inverse y) as [x| | |] eqn:E; try (destruct y; simpl in *; [lia|discriminate]).
  cbn [bind]. split; [discriminate|]. split; [discriminate|]. intros x0 r0 H. injection H as <- <-.
  assert (Tf : Forall (fun t => 0 < t)%Q (firstn (n - 1) theta)).
  { rewrite <- (firstn_skipn (n - 1) theta) in T. apply Forall_app in T. tauto. }
  assert (Sf : (qsum (firstn (n - 1) theta) < 1)%Q).
  { pose proof (firstn_skipn (n - 1) theta) as Fs. rewrite <- Fs in S1, T. rewrite qsum_split in S1.
    apply Forall_app in T as [_ T]. assert (length (skipn (n - 1) theta) = 1) by (rewrite skipn_length; fold n; lia).
    destruct (skipn (n - 1) theta) as [|t [|? ?]]; try discriminate. inversion T; subst. cbn [qsum] in S1. lra. }
  assert (In1 : Forall inside y).
  { unfold y. apply Forall_map. apply Forall_forall. intros p Hp. apply J in Hp.
    pose proof (partial_bounds (firstn (n - 1) theta) 0 (p - 1) Tf ltac:(lia)). fold sx in H. unfold inside. lra. }
  split; [|split].
  - destruct y as [|a y']; [discriminate|]. injection E as <-. simpl. f_equal.
    simpl in Ly. rewrite <- Ly. f_equal. clear. revert a. induction y'; intro; simpl; auto.
  - destruct y as [|a y']; [discriminate|]. injection E as <-. inversion In1; subst. constructor.
    + unfold inside in *. lra.
    + apply psi_inside; auto.
  - rewrite (sum_of y x E).
    assert (D : drops_of y + asc l = length l - 1).
    { unfold y. apply drops_asc; [intros ->; simpl in L; lia|]. intros a b Ha Hb. apply J in Ha. apply J in Hb.
      split; intro H.
      - apply partial_step; auto; lia.
      - destruct (Nat.lt_trichotomy a b) as [? | [-> | ?]]; auto; [lra|].
        pose proof (partial_step (firstn (n - 1) theta) 0 (b - 1) (a - 1) Tf ltac:(lia) ltac:(lia)). fold sx in H1. lra. }
    rewrite <- asc_ascents, A, L in D. assert (Dk : drops_of y = k - 1) by lia. rewrite Dk.
    assert (Hl : inside (last y 0%Q)).
    { destruct (exists_last (l := y)) as [y0 [a Ey]]; [intros ->; simpl in Ly; lia|]. rewrite Ey, last_last.
      rewrite Ey in In1. apply Forall_app in In1 as [_ I]. inversion I; auto. }
    unfold inside in Hl.
    assert (Ek : (qn k == qn (k - 1) + 1)%Q).
    { replace k with (k - 1 + 1) at 1 by lia. rewrite qn_add. reflexivity. }
    lra.
Qed.
Print Assumptions hypersimplex_in_range.
Example hypersimplex_example :
  let theta := [1 # 10; 2 # 10; 3 # 10; 4 # 10]%Q in
  exists x, hypersimplex_sample 2 theta [true] [0] = Ok (x, ([], [])) /\ (qsum x == 11 # 10)%Q.
Proof. eexists. split; [vm_compute; reflexivity|reflexivity]. Qed.

(** the last hypersimplex, k = n-1, is not handled *)
Theorem last_hypersimplex_refuted : forall theta ds ps, 2 <= length theta ->
  hypersimplex_sample (length theta - 1) theta ds ps = UB.
Proof.
  intros theta ds ps H. unfold hypersimplex_sample, random_k_descent.
  replace (length theta - 1 - 1 - (length theta - 1 - 1)) with 0 by lia.
  rewrite no_ascents_refuted by lia. reflexivity.
Qed.
Print Assumptions last_hypersimplex_refuted.

(** ** slices of the cube *)
Definition in_slice (n : nat) (z : list Q) : Prop :=
  length z = n /\ Forall (fun a => - (1) <= a <= 1)%Q z /\ (qsum z == 0)%Q.
Lemma cube_sum : forall us, (qsum (map (fun u => 2 * u - 1) us) == 2 * qsum us - qn (length us))%Q.
Proof.
  induction us as [|u us IH]; cbn [map qsum length]; [change (qn 0) with 0%Q; ring|].
  rewrite IH. change (S (length us)) with (1 + length us). rewrite qn_add. change (qn 1) with 1%Q. ring.
Qed.
Lemma slice_ok : forall n y, length y + 1 = n -> Forall (fun a => 0 <= a <= 1)%Q y ->
  (- (1) <= qsum (map (fun u => 2 * u - 1) y) <= 1)%Q ->
  in_slice n (map (fun u => 2 * u - 1)%Q y ++ [(- qsum (map (fun u => 2 * u - 1) y))%Q]).
Proof.
  intros n y L F B. split; [rewrite app_length, map_length; simpl; lia|]. split.
  - apply Forall_app. split; [|constructor; [lra|constructor]]. apply Forall_map. revert F. apply Forall_impl.
    intros a Ha. lra.
  - rewrite qsum_split. cbn [qsum]. ring.
Qed.
(** what hypercube_slice_sample returns has n numbers in [-1,1] with sum 0 *)
Theorem cube_slice_in_range : forall n left tries z, 1 <= n ->
  Forall (fun us => length us = n - 1 /\ Forall (fun a => 0 <= a < 1)%Q us) tries ->
  cube_slice left tries = Ok z -> in_slice n z.
Proof.
  intros n left tries z Hn. revert left. induction tries as [|us tries IH]; intros left F H; [discriminate|].
  inversion F as [|? ? [L U] Ft]; subst. cbn [cube_slice] in H. destruct left as [|left]; [discriminate|].
  destruct (negb _ || negb _) eqn:R; [eauto|]. injection H as <-.
  apply orb_false_iff in R as [R1 R2]. apply negb_false_iff in R1, R2. apply Qle_bool_iff in R1, R2.
  apply slice_ok; [lia| |split; auto]. revert U. apply Forall_impl. intros a Ha. lra.
Qed.
Print Assumptions cube_slice_in_range.
(** and the point returned is the first attempt that is in range *)
Theorem cube_slice_accepts : forall left us tries, 1 <= left ->
  (- (1) <= qsum (map (fun u => 2 * u - 1) us) <= 1)%Q ->
  cube_slice left (us :: tries) = Ok (map (fun u => 2 * u - 1)%Q us ++ [(- qsum (map (fun u => 2 * u - 1) us))%Q]).
Proof.
  intros left us tries H [B1 B2]. cbn [cube_slice]. destruct left; [lia|].
  apply Qle_bool_iff in B1, B2. rewrite B1, B2. reflexivity.
Qed.
Print Assumptions cube_slice_accepts.
(** the older sampler for even n >= 4 needs no rejection: the last number is always in [-1,1] *)
Theorem slice_old_in_range : forall theta ds ps z, (Z.of_nat (length theta) <= 1000)%Z -> Nat.Even (length theta) ->
  4 <= length theta -> Forall (fun t => 0 < t)%Q theta -> (qsum theta == 1)%Q ->
  hypercube_slice_old_even theta ds ps = Ok z -> in_slice (length theta) z.
Proof.
  intros theta ds ps z Z1 [h E] G T S1 H. unfold hypercube_slice_old_even in H.
  assert (Eh : length theta / 2 = h) by (rewrite E, Nat.mul_comm, Nat.div_mul; lia). rewrite Eh in H.
  apply bind_ok in H as [[x rest] [H1 H2]]. cbn [fst] in H2. injection H2 as <-.
  destruct (hypersimplex_in_range h theta ds ps Z1) as [_ [_ R]]; auto; [lia|].
  destruct (R x rest H1) as [L [F B]]. apply slice_ok; [lia| |].
  - revert F. apply Forall_impl. intros a Ha. lra.
  - rewrite cube_sum, L.
    assert (E2 : (qn (length theta - 1) == 2 * qn h - 1)%Q).
    { replace (length theta - 1) with (2 * (h - 1) + 1) by lia. rewrite qn_add, qn_mul.
      assert (Eq : (qn h == qn (h - 1) + 1)%Q) by (replace h with (h - 1 + 1) at 1 by lia; rewrite qn_add; reflexivity).
      rewrite Eq. change (qn 2) with 2%Q. change (qn 1) with 1%Q. ring. }
    assert (Eq : (qn h == qn (h - 1) + 1)%Q) by (replace h with (h - 1 + 1) at 1 by lia; rewrite qn_add; reflexivity).
    rewrite E2. lra.
Qed.
Print Assumptions slice_old_in_range.
Theorem slice_old_odd_in_range : forall up theta ds ps z, (Z.of_nat (length theta) <= 1000)%Z ->
  4 <= length theta -> Forall (fun t => 0 < t)%Q theta -> (qsum theta == 1)%Q ->
  hypercube_slice_old_odd up theta ds ps = Ok (Some z) -> in_slice (length theta) z.
Proof.
  intros up theta ds ps z Z1 G T S1 H. unfold hypercube_slice_old_odd in H.
  set (k := if up then length theta / 2 + 1 else length theta / 2) in *.
  assert (Hk : 1 <= k <= length theta - 2 \/ k = length theta - 1).
  { pose proof (Nat.div_mod (length theta) 2 ltac:(lia)). pose proof (Nat.mod_upper_bound (length theta) 2 ltac:(lia)).
    unfold k. destruct up; lia. }
  destruct Hk as [Hk | Hk].
  2: { rewrite Hk, last_hypersimplex_refuted in H by lia. discriminate. }
  apply bind_ok in H as [[x rest] [H1 H2]]. cbn [fst] in H2.
  destruct (hypersimplex_in_range k theta ds ps Z1) as [_ [_ R]]; auto.
  destruct (R x rest H1) as [L [F B]].
  destruct (negb _ || negb _) eqn:Rj; [discriminate|]. injection H2 as <-. unfold slice_of in Rj.
  rewrite last_last in Rj. apply orb_false_iff in Rj as [R1 R2]. apply negb_false_iff in R1, R2. apply Qle_bool_iff in R1, R2.
  apply slice_ok; [lia| |lra]. revert F. apply Forall_impl. intros a Ha. lra.
Qed.
Print Assumptions slice_old_odd_in_range.
