(** Theorems about random_k_ascent_permutation (C46, C47). *)
From Coq Require Import List Arith ZArith QArith Permutation Lia Bool Field.
From Verif Require Import Base Pd KAscent KAscentSpec KAscentProofs.
Import ListNotations.
Open Scope nat_scope.

(** C46.  Whatever is drawn, no assertion fails and nothing outside the work area is touched; when the draws
    are possible ones the result is a permutation of 1..n with exactly k ascents. *)
Theorem k_ascent_always : forall n k ds ps, (Z.of_nat n <= 1000)%Z -> 1 <= k <= n - 1 ->
  random_k_ascent n k ds ps <> UB /\ random_k_ascent n k ds ps <> Fail /\
  forall l rest, random_k_ascent n k ds ps = Ok (l, rest) -> Permutation (seq 1 n) l /\ ascents l = k.
Proof.
  intros n k ds ps Z1 K.
  assert (G : random_k_ascent n k ds ps = Fuel \/ exists r, random_k_ascent n k ds ps = Ok r).
  { destruct (choice_safe n n k ds Z1) as [E | [[cv rest] E]]; try lia.
    - left. unfold random_k_ascent, build_choice_vector. rewrite E. reflexivity.
    - destruct (choice_sound _ _ _ _ _ _ E) as [P D]. rewrite (sampler_run n k cv ds rest ps Z1 P D).
      destruct (grow cv ps) as [[l ps']|]; eauto. }
  split; [destruct G as [-> | [r ->]]; discriminate|]. split; [destruct G as [-> | [r ->]]; discriminate|].
  intros l [rest ps'] H. destruct (sampler_inv _ _ _ _ _ _ _ Z1 H) as [cv [_ [P [_ E]]]].
  exact (grow_k _ _ _ P _ _ _ E).
Qed.
Print Assumptions k_ascent_always.
(** the same in terms of descents *)
Theorem k_descent_always : forall n k ds ps l rest, (Z.of_nat n <= 1000)%Z -> 2 <= n -> k <= n - 2 ->
  random_k_descent n k ds ps = Ok (l, rest) -> Permutation (seq 1 n) l /\ descents l = k.
Proof.
  intros n k ds ps l rest Z1 Hn Hk H.
  destruct (k_ascent_always n (n - 1 - k) ds ps Z1) as [_ [_ G]]; [lia|]. destruct (G l rest H) as [P A]. split; auto.
  destruct (perm_facts _ _ P) as [N [L _]]. pose proof (ascents_descents l N). lia.
Qed.
Print Assumptions k_descent_always.
Example k_ascent_run : random_k_ascent 5 2 [false; true; true] [0; 1; 0] = Ok ([2; 5; 3; 1; 4], ([], [])).
Proof. reflexivity. Qed.

(** k = 0, which the documentation excludes, is not handled: the table is read outside the row of n *)
Theorem no_ascents_refuted : forall n ds ps, 1 <= n -> random_k_ascent n 0 ds ps = UB.
Proof. intros n ds ps H. destruct n; [lia|]. reflexivity. Qed.
Print Assumptions no_ascents_refuted.

(** C47.  Every permutation of 1..n with k ascents is the result for exactly one sequence of draws. *)
Theorem k_ascent_bijection : forall n k l, (Z.of_nat n <= 1000)%Z -> 1 <= k <= n - 1 ->
  Permutation (seq 1 n) l -> ascents l = k ->
  exists ds ps, random_k_ascent n k ds ps = Ok (l, ([], [])) /\
    forall ds' ps', random_k_ascent n k ds' ps' = Ok (l, ([], [])) -> ds' = ds /\ ps' = ps.
Proof.
  intros n k l Z1 K P A. destruct (grow_exists n k l) as [cv [ps [Pa G]]]; [lia|split; auto|].
  exists (draws cv), ps. split.
  - rewrite (sampler_run n k cv _ [] ps Z1 Pa) by (rewrite app_nil_r; auto). rewrite G. reflexivity.
  - intros ds' ps' H. destruct (sampler_inv _ _ _ _ _ _ _ Z1 H) as [cv' [_ [Pa' [-> G']]]]. rewrite app_nil_r.
    destruct (grow_unique _ _ _ _ _ _ _ Pa' Pa G' G) as [-> ->]. auto.
Qed.
Print Assumptions k_ascent_bijection.
(** draws that are left over make no difference *)
Theorem k_ascent_prefix : forall n k ds ps l ds' ps', (Z.of_nat n <= 1000)%Z ->
  random_k_ascent n k ds ps = Ok (l, (ds', ps')) ->
  exists ds0 ps0, ds = ds0 ++ ds' /\ ps = ps0 ++ ps' /\ random_k_ascent n k ds0 ps0 = Ok (l, ([], [])).
Proof.
  intros n k ds ps l ds' ps' Z1 H. destruct (sampler_inv _ _ _ _ _ _ _ Z1 H) as [cv [_ [P [-> G]]]].
  destruct (grow_taken _ _ _ _ G) as [ps0 [-> G0]]. exists (draws cv), ps0. split; auto. split; auto.
  rewrite (sampler_run n k cv _ [] ps0 Z1 P) by (rewrite app_nil_r; auto). rewrite G0. reflexivity.
Qed.
Print Assumptions k_ascent_prefix.

(** the Eulerian number counts the permutations *)
Fixpoint list_k (n k : nat) : list (list nat) :=
  match n with
  | 0 => []
  | S m => match m with
           | 0 => if k =? 0 then [[1]] else []
           | S _ => flat_map (fun l => map (fun g => ins_at g n l) (spots_old l)) (list_k m k) ++
                    match k with
                    | 0 => []
                    | S k' => flat_map (fun l => map (fun g => ins_at g n l) (spots_new l)) (list_k m k')
                    end
           end
  end.
Lemma list_k_S : forall m k, list_k (S (S m)) k =
  flat_map (fun l => map (fun g => ins_at g (S (S m)) l) (spots_old l)) (list_k (S m) k) ++
  match k with 0 => [] | S k' => flat_map (fun l => map (fun g => ins_at g (S (S m)) l) (spots_new l)) (list_k (S m) k') end.
Proof. reflexivity. Qed.
Lemma list_k_spec : forall n k l, 1 <= n -> (In l (list_k n k) <-> k_ascent n k l).
Proof.
  induction n as [|m IH]; intros k l Hn; [lia|]. destruct m as [|m].
  - change (list_k 1 k) with (if k =? 0 then [[1]] else []). split.
    + destruct (Nat.eqb_spec k 0); [|contradiction]. intros [<- | []]. subst. split; [reflexivity|reflexivity].
    + intros [P A]. apply Permutation_length_1_inv in P. subst. reflexivity || (left; reflexivity).
  - rewrite list_k_S. rewrite in_app_iff. split.
    + intros [H | H].
      * apply in_flat_map in H as [l' [H1 H2]]. apply in_map_iff in H2 as [g [<- Hg]].
        apply IH in H1; [|lia]. apply (step_k (S m) k k l' g); auto; [lia|]. rewrite Nat.eqb_refl. auto.
      * destruct k as [|k']; [contradiction|].
        apply in_flat_map in H as [l' [H1 H2]]. apply in_map_iff in H2 as [g [<- Hg]].
        apply IH in H1; [|lia]. apply (step_k (S m) (S k') k' l' g); auto; [lia|].
        destruct (Nat.eqb_spec k' (S k')); [lia|auto].
    + intros [P A]. destruct (perm_shrink _ _ P) as [p [l' [-> [P' Hp]]]].
      destruct (perm_facts _ _ P') as [N [L J]].
      assert (Hne : l' <> []) by (intros ->; discriminate).
      assert (Hx : forall y, In y l' -> y < S (S m)) by (intros y Hy; apply J in Hy; lia).
      destruct (spots_cover l' p N Hp) as [I | I].
      * left. rewrite ascents_old in A by auto. apply in_flat_map. exists l'. split; [apply IH; [lia|split; auto]|].
        apply in_map_iff. eauto.
      * right. rewrite ascents_new in A by auto. subst k. apply in_flat_map. exists l'.
        split; [apply IH; [lia|split; auto]|]. apply in_map_iff. eauto.
Qed.
Lemma nodup_flat : forall (A B : Type) (f : A -> list B) (L : list A), NoDup L -> (forall a, In a L -> NoDup (f a)) ->
  (forall a b x, In a L -> In b L -> In x (f a) -> In x (f b) -> a = b) -> NoDup (flat_map f L).
Proof.
  intros A B f. induction L as [|a L IH]; intros N F D; [constructor|]. simpl. inversion N as [|? ? Na NL]; subst.
  assert (IH' : NoDup (flat_map f L)).
  { apply IH; auto; [intros; apply F; simpl; auto|]. intros a0 b x Ha Hb. apply D; simpl; auto. }
  clear IH. assert (F0 : NoDup (f a)) by (apply F; simpl; auto).
  assert (D0 : forall x, In x (f a) -> ~ In x (flat_map f L)).
  { intros x Hx Hf. apply in_flat_map in Hf as [b [Hb Hx2]].
    assert (a = b) by (apply (D a b x); simpl; auto). subst. auto. }
  induction (f a) as [|y ys IHy]; auto. simpl. inversion F0; subst. constructor.
  - rewrite in_app_iff. intros [I | I]; auto. apply (D0 y); simpl; auto.
  - apply IHy; auto. intros x Hx. apply D0. simpl; auto.
Qed.
Lemma nodup_app : forall (A : Type) (a b : list A), NoDup a -> NoDup b -> (forall x, In x a -> ~ In x b) -> NoDup (a ++ b).
Proof.
  induction a as [|x a IH]; intros b Na Nb D; auto. inversion Na; subst. simpl. constructor.
  - rewrite in_app_iff. intros [I | I]; auto. apply (D x); simpl; auto.
  - apply IH; auto. intros y Hy. apply D; simpl; auto.
Qed.
Lemma list_k_ins : forall m k spots L, (forall l, In l L -> k_ascent (S m) k l) -> NoDup L ->
  (forall l, NoDup (spots l)) -> (forall l g, In g (spots l) -> g <= length l) ->
  NoDup (flat_map (fun l => map (fun g => ins_at g (S (S m)) l) (spots l)) L).
Proof.
  intros m k spots L K N Sn Sl.
  assert (NI : forall l, In l L -> ~ In (S (S m)) l).
  { intros l Hl. destruct (K l Hl) as [P _]. destruct (perm_facts _ _ P) as [_ [_ J]]. rewrite J. lia. }
  apply nodup_flat; auto.
  - intros l Hl. specialize (Sn l). specialize (fun g => Sl l g). revert Sn Sl.
    induction (spots l) as [|g gs IH]; intros; simpl; constructor.
    + rewrite in_map_iff. intros [g' [E Hg]]. apply ins_inj in E; auto; try (apply Sl; simpl; auto).
      destruct E as [-> _]. inversion Sn; auto.
    + inversion Sn; subst. apply IH; auto. intros g' Hg'. apply Sl; simpl; auto.
  - intros a b x Ha Hb H1 H2. apply in_map_iff in H1 as [g [<- Hg]]. apply in_map_iff in H2 as [g' [E Hg']].
    apply ins_inj in E; eauto. destruct E; auto.
Qed.
Lemma list_k_nodup : forall n k, NoDup (list_k n k).
Proof.
  induction n as [|m IH]; intro k; [constructor|]. destruct m as [|m].
  - change (list_k 1 k) with (if k =? 0 then [[1]] else []). destruct (k =? 0); repeat constructor. auto.
  - rewrite list_k_S. apply nodup_app.
    + apply (list_k_ins m k); auto using spots_old_nodup, spots_old_le. intros l Hl. apply list_k_spec; auto. lia.
    + destruct k as [|k']; [constructor|].
      apply (list_k_ins m k'); auto using spots_new_nodup, spots_new_le. intros l Hl. apply list_k_spec; auto. lia.
    + intros x H1 H2. destruct k as [|k']; [contradiction|].
      apply in_flat_map in H1 as [l1 [I1 J1]]. apply in_map_iff in J1 as [g1 [E1 G1]].
      apply in_flat_map in H2 as [l2 [I2 J2]]. apply in_map_iff in J2 as [g2 [E2 G2]].
      apply list_k_spec in I1 as [P1 A1]; [|lia]. apply list_k_spec in I2 as [P2 A2]; [|lia].
      destruct (perm_facts _ _ P1) as [_ [_ Q1]]. destruct (perm_facts _ _ P2) as [_ [_ Q2]].
      rewrite <- E2 in E1. apply ins_inj in E1; auto using spots_old_le, spots_new_le; [|rewrite Q1; lia|rewrite Q2; lia].
      destruct E1 as [_ ->]. lia.
Qed.
Lemma flat_length : forall (A B : Type) (f : A -> list B) c (L : list A), (forall a, In a L -> length (f a) = c) ->
  length (flat_map f L) = c * length L.
Proof.
  induction L as [|a L IH]; intro H; simpl; [lia|]. rewrite app_length, IH by (intros; apply H; simpl; auto).
  rewrite (H a) by (simpl; auto). lia.
Qed.
Lemma eulerian_S : forall m k, eulerian (S (S m)) k =
  match k with 0 => 1 | S k' => (S (S m) - k) * eulerian (S m) k' + (k + 1) * eulerian (S m) k end.
Proof. reflexivity. Qed.
Lemma list_k_length : forall n k, 1 <= n -> length (list_k n k) = eulerian n k.
Proof.
  induction n as [|m IH]; intros k Hn; [lia|]. destruct m as [|m].
  - change (list_k 1 k) with (if k =? 0 then [[1]] else []). change (eulerian 1 k) with (if k =? 0 then 1 else 0).
    destruct (k =? 0); auto.
  - rewrite list_k_S, eulerian_S, app_length.
    rewrite (flat_length _ _ _ (k + 1)).
    2: { intros l Hl. rewrite map_length. unfold spots_old. rewrite app_length, gaps_ascents. simpl.
         apply list_k_spec in Hl as [_ A]; lia. }
    rewrite IH by lia. destruct k as [|k'].
    + assert (E0 : eulerian (S m) 0 = 1) by (destruct m; reflexivity). rewrite E0. reflexivity.
    + rewrite (flat_length _ _ _ (S m - k')).
      2: { intros l Hl. rewrite map_length. unfold spots_new. rewrite app_length, gaps_descents. cbn [length].
           apply list_k_spec in Hl as [P A]; [|lia]. destruct (perm_facts _ _ P) as [N [L _]].
           pose proof (ascents_descents l N). lia. }
      rewrite IH by lia. replace (S (S m) - S k') with (S m - k') by lia. apply Nat.add_comm.
Qed.
Theorem eulerian_counts : forall n k, 1 <= n -> exists L, NoDup L /\ length L = eulerian n k /\
  forall l, In l L <-> Permutation (seq 1 n) l /\ ascents l = k.
Proof.
  intros n k Hn. exists (list_k n k). split; [apply list_k_nodup|]. split; [apply list_k_length; auto|].
  intro l. apply list_k_spec. auto.
Qed.
Print Assumptions eulerian_counts.

(** With the documented probabilities each of the permutations is produced with the same probability, one over
    their number: [chance cv] is the probability of the only sequence of draws that gives it. *)
Lemma eulerian_pos : forall n k, k < n -> 1 <= eulerian n k.
Proof.
  induction n as [|m IH]; intros k H; [lia|]. destruct m as [|m].
  - destruct k; [simpl; lia|lia].
  - rewrite eulerian_S. destruct k as [|k']; [lia|].
    specialize (IH k' ltac:(lia)). nia.
Qed.
Open Scope Q_scope.
Lemma qn_nonzero : forall n, (1 <= n)%nat -> ~ qn n == 0.
Proof. intros n H E. unfold qn, Qeq in E. simpl in E. lia. Qed.
Lemma qn_add : forall a b, qn (a + b) == qn a + qn b.
Proof. intros. unfold qn. rewrite Nat2Z.inj_add, inject_Z_plus. reflexivity. Qed.
Lemma qn_mul : forall a b, qn (a * b) == qn a * qn b.
Proof. intros. unfold qn. rewrite Nat2Z.inj_mul, inject_Z_mult. reflexivity. Qed.
Lemma chance_cons : forall n k n' k' cv, chance ((n, k) :: (n', k') :: cv) =
  (if (k' =? k)%nat then (1 - new_ascent_probability n k) / qn (k' + 1)
   else new_ascent_probability n k / qn (n' - k')) * chance ((n', k') :: cv).
Proof. reflexivity. Qed.
Lemma step_chance : forall m k k', (1 <= k <= m)%nat -> k' = k \/ S k' = k -> (k' <= m - 1)%nat ->
  (if (k' =? k)%nat then (1 - new_ascent_probability (S m) k) / qn (k' + 1)
   else new_ascent_probability (S m) k / qn (m - k')) == qn (eulerian m k') / qn (eulerian (S m) k).
Proof.
  intros m k k' K K' C. unfold new_ascent_probability.
  replace (S m - 1)%nat with m by lia.
  assert (R : eulerian (S m) k = ((S m - k) * eulerian m (k - 1) + (k + 1) * eulerian m k)%nat).
  { destruct m as [|m]; [lia|]. rewrite eulerian_S. destruct k as [|k0]; [lia|]. replace (S k0 - 1)%nat with k0 by lia. reflexivity. }
  assert (Pz : ~ qn (eulerian (S m) k) == 0) by (apply qn_nonzero, eulerian_pos; lia).
  destruct (Nat.eqb_spec k' k).
  - subst k'. assert (Z1 : ~ qn (k + 1) == 0) by (apply qn_nonzero; lia).
    assert (R2 : qn (eulerian (S m) k) == qn (S m - k) * qn (eulerian m (k - 1)) + qn (k + 1) * qn (eulerian m k)).
    { rewrite R, qn_add, !qn_mul. reflexivity. }
    setoid_replace (1 - qn (S m - k) * qn (eulerian m (k - 1)) / qn (eulerian (S m) k)) with
      ((qn (eulerian (S m) k) - qn (S m - k) * qn (eulerian m (k - 1))) / qn (eulerian (S m) k)) by (field; auto).
    setoid_replace (qn (eulerian (S m) k) - qn (S m - k) * qn (eulerian m (k - 1))) with (qn (k + 1) * qn (eulerian m k))
      by (rewrite R2; ring).
    field. auto.
  - replace (k - 1)%nat with k' by lia. replace (m - k')%nat with (S m - k)%nat by lia.
    assert (Z1 : ~ qn (S m - k) == 0) by (apply qn_nonzero; lia). field. auto.
Qed.
Lemma base_one : forall m k, (1 <= m)%nat -> k = 0%nat \/ k = (m - 1)%nat -> eulerian m k = 1%nat.
Proof.
  intros m k Hm H. rewrite <- list_k_length by auto.
  assert (G : forall l, In l (list_k m k) <-> l = (if (k =? 0)%nat then falling m else seq 1 m)).
  { intro l. rewrite list_k_spec by auto. split.
    - intros [P A]. destruct (Nat.eqb_spec k 0); [apply only_falling; auto; lia|apply only_rising; auto; lia].
    - intros ->. apply base_k; auto. }
  pose proof (list_k_nodup m k) as N. set (x := if (k =? 0)%nat then falling m else seq 1 m) in *.
  assert (I : In x (list_k m k)) by (apply G; auto).
  destruct (list_k m k) as [|a [|b L]]; [contradiction|reflexivity|].
  assert (a = x) by (apply G; simpl; auto). assert (b = x) by (apply G; simpl; auto).
  inversion N as [|? ? Hi1 Hi2]. exfalso. apply Hi1. subst. simpl. auto.
Qed.
Lemma path_chance : forall n k cv, path n k cv -> chance cv == 1 / qn (eulerian n k).
Proof.
  induction 1 as [m k k' A B C F | m k k' cv A B C F G P IH].
  - rewrite chance_cons, step_chance by auto. rewrite (base_one m k') by (auto; lia). simpl chance.
    change (qn 1) with 1. ring.
  - destruct (path_head _ _ _ P) as [cv' ->]. rewrite chance_cons, step_chance by auto. rewrite IH.
    assert (~ qn (eulerian m k') == 0) by (apply qn_nonzero, eulerian_pos; pose proof (path_bounds _ _ _ P); lia).
    assert (~ qn (eulerian (S m) k) == 0) by (apply qn_nonzero, eulerian_pos; lia).
    field. auto.
Qed.
Theorem k_ascent_uniform : forall n k l, (Z.of_nat n <= 1000)%Z -> (1 <= k <= n - 1)%nat ->
  Permutation (seq 1 n) l -> ascents l = k ->
  exists ds ps cv, random_k_ascent n k ds ps = Ok (l, ([], [])) /\ build_choice_vector n k ds = Ok (cv, []) /\
    chance cv == 1 / qn (eulerian n k).
Proof.
  intros n k l Z1 K P A. destruct (k_ascent_bijection n k l Z1 K P A) as [ds [ps [H _]]].
  destruct (sampler_inv _ _ _ _ _ _ _ Z1 H) as [cv [E [Pa _]]]. exists ds, ps, cv. split; auto. split; auto.
  apply path_chance; auto.
Qed.
Print Assumptions k_ascent_uniform.
(** the documented probability is a probability, and 1 for k = n-1, where the other branch would leave the table *)
Theorem probability_range : forall n k, (1 <= k <= n - 1)%nat ->
  0 <= new_ascent_probability n k <= 1 /\ new_ascent_probability n (n - 1) == 1.
Proof.
  intros n k K. destruct n as [|m]; [lia|].
  assert (G : forall j, (1 <= j <= m)%nat -> 0 <= new_ascent_probability (S m) j <= 1).
  { intros j Hj. unfold new_ascent_probability. replace (S m - 1)%nat with m by lia.
    assert (R : eulerian (S m) j = ((S m - j) * eulerian m (j - 1) + (j + 1) * eulerian m j)%nat).
    { destruct m as [|m0]; [lia|]. rewrite eulerian_S. destruct j as [|j0]; [lia|]. replace (S j0 - 1)%nat with j0 by lia. reflexivity. }
    assert (P : 0 < qn (eulerian (S m) j)).
    { unfold qn. change 0 with (inject_Z 0). rewrite <- Zlt_Qlt. pose proof (eulerian_pos (S m) j ltac:(lia)). lia. }
    rewrite <- qn_mul. split.
    - apply Qle_shift_div_l; auto. rewrite Qmult_0_l. unfold qn. change 0 with (inject_Z 0). rewrite <- Zle_Qle. apply Nat2Z.is_nonneg.
    - apply Qle_shift_div_r; auto. rewrite Qmult_1_l. unfold qn. rewrite <- Zle_Qle. apply Nat2Z.inj_le. rewrite R. apply Nat.le_add_r. }
  split; [apply G; lia|].
  unfold new_ascent_probability. replace (S m - 1)%nat with m by lia.
  rewrite (base_one (S m) m) by lia. rewrite (base_one m (m - 1)) by lia.
  replace (S m - m)%nat with 1%nat by lia. reflexivity.
Qed.
Print Assumptions probability_range.
Example eulerian_example : map (eulerian 5) [0; 1; 2; 3; 4]%nat = [1; 26; 66; 26; 1]%nat.
Proof. reflexivity. Qed.
