(** The crossings of the projection of a polygon: proofs. *)
From Coq Require Import List NArith ZArith QArith Qabs Lia Lqa Bool Arith Permutation Sorted.
From Verif Require Import Base ListAux Iterators Sorting Pd PdSpec PdProofs PdCompsProofs Nearest Thm_Nearest Project ProjectSpec ProjectProofs.
Import ListNotations.
Open Scope nat_scope.
Open Scope res_scope.

(** ** two segments *)
Definition side (a b p : vec) : Q := wedge (vsub b a) (vsub p a).
Lemma turn_wedge : forall a b c d, (turn a b c d == wedge (vsub b a) (vsub d c))%Q.
Proof. intros. unfold turn, wedge, vsub. cbn. ring. Qed.
Lemma side_diff : forall a b c d, (side a b d - side a b c == turn a b c d)%Q.
Proof. intros. unfold side, turn, wedge, vsub. cbn. ring. Qed.
Lemma turn_anti : forall a b c d, (turn c d a b == - turn a b c d)%Q.
Proof. intros. unfold turn. ring. Qed.
Lemma cross_at_sym : forall a b c d s t, cross_at a b c d s t -> cross_at c d a b t s.
Proof.
  intros a b c d s t (H1 & H2 & H3 & H4 & H5). split; auto. split; auto. split; [symmetry; auto|]. split; [symmetry; auto|]. rewrite turn_anti. intros E. apply H5. lra.
Qed.
Lemma cross_side : forall a b c d s t, cross_at a b c d s t -> (side a b c == - t * turn a b c d /\ side a b d == (1 - t) * turn a b c d)%Q.
Proof.
  intros a b c d s t (H1 & H2 & H3 & H4 & H5). unfold between in H3, H4. cbn in H3, H4.
  assert (X : (vx c - vx a == s * (vx b - vx a) - t * (vx d - vx c))%Q) by lra. assert (Y : (vy c - vy a == s * (vy b - vy a) - t * (vy d - vy c))%Q) by lra.
  assert (K : (side a b c == - t * turn a b c d)%Q). { unfold side, turn, wedge, vsub. cbn. rewrite X, Y. ring. }
  split; auto. pose proof (side_diff a b c d). rewrite K in H. lra.
Qed.
Lemma Qmul_neg : forall a b, (a * b < 0 -> (a < 0 /\ 0 < b) \/ (0 < a /\ b < 0))%Q.
Proof. intros a b H. destruct (Qlt_le_dec a 0) as [A|A]; destruct (Qlt_le_dec 0 b) as [B|B]; [left; auto| |right|right]; try (exfalso; nra); split; nra. Qed.
Lemma cross_opposite : forall a b c d s t, cross_at a b c d s t -> (side a b c * side a b d < 0)%Q.
Proof.
  intros a b c d s t H. destruct (cross_side _ _ _ _ _ _ H) as (A & B). destruct H as (_ & (H1 & H2) & _ & _ & H5). rewrite A, B. set (D := turn a b c d) in *.
  assert (P : (0 < t * (1 - t))%Q) by nra. assert (DD : (0 < D * D)%Q) by (destruct (Qlt_le_dec D 0) as [N|N]; [nra|]; destruct (Qlt_le_dec 0 D) as [M|M]; [nra|]; exfalso; apply H5; lra).
  assert (E : (- t * D * ((1 - t) * D) == - ((t * (1 - t)) * (D * D)))%Q) by ring. rewrite E. pose proof (Qmult_lt_0_compat _ _ P DD). lra.
Qed.
Lemma opposite_cross : forall a b c d, (side a b c * side a b d < 0)%Q -> (side c d a * side c d b < 0)%Q ->
  cross_at a b c d (wedge (vsub c a) (vsub d c) / wedge (vsub b a) (vsub d c)) (wedge (vsub c a) (vsub b a) / wedge (vsub b a) (vsub d c)).
Proof.
  intros a b c d H K. set (D := wedge (vsub b a) (vsub d c)). set (s := (wedge (vsub c a) (vsub d c) / D)%Q). set (t := (wedge (vsub c a) (vsub b a) / D)%Q).
  pose proof (side_diff a b c d) as SD. pose proof (side_diff c d a b) as SD'. rewrite turn_anti in SD'. rewrite turn_wedge in SD, SD'. fold D in SD, SD'.
  assert (DN : ~ (D == 0)%Q). { intros E. rewrite E in SD. assert (Q : (side a b d == side a b c)%Q) by lra. rewrite Q in H. pose proof (sqr_nonneg (side a b c)). unfold sqr in H0. lra. }
  assert (S1 : (s * D == side c d a)%Q). { unfold s. rewrite (Qmult_comm _ D), Qmult_div_r by auto. unfold side, wedge, vsub. cbn. ring. }
  assert (T1 : (t * D == - side a b c)%Q). { unfold t. rewrite (Qmult_comm _ D), Qmult_div_r by auto. unfold side, wedge, vsub. cbn. ring. }
  assert (RG : forall u, (0 < u * D /\ u * D < D \/ u * D < 0 /\ D < u * D)%Q -> (0 < u < 1)%Q).
  { intros u [(A & B)|(A & B)]; (assert (0 < D \/ D < 0)%Q by lra); split; nra. }
  split; [|split; [|split; [|split]]].
  - apply RG. rewrite S1. destruct (Qmul_neg _ _ K) as [(A & B)|(A & B)]; [right|left]; lra.
  - apply RG. rewrite T1. destruct (Qmul_neg _ _ H) as [(A & B)|(A & B)]; [left|right]; lra.
  - unfold between. cbn. assert (Z : ((vx a + s * (vx b - vx a) - (vx c + t * (vx d - vx c))) * D == 0)%Q).
    { assert (E : ((vx a + s * (vx b - vx a) - (vx c + t * (vx d - vx c))) * D == (vx a - vx c) * D + (s * D) * (vx b - vx a) - (t * D) * (vx d - vx c))%Q) by ring. rewrite E, S1, T1. unfold D, side, wedge, vsub. cbn. ring. }
    apply Qmult_integral in Z as [Z|Z]; [lra|contradiction].
  - unfold between. cbn. assert (Z : ((vy a + s * (vy b - vy a) - (vy c + t * (vy d - vy c))) * D == 0)%Q).
    { assert (E : ((vy a + s * (vy b - vy a) - (vy c + t * (vy d - vy c))) * D == (vy a - vy c) * D + (s * D) * (vy b - vy a) - (t * D) * (vy d - vy c))%Q) by ring. rewrite E, S1, T1. unfold D, side, wedge, vsub. cbn. ring. }
    apply Qmult_integral in Z as [Z|Z]; [lra|contradiction].
  - rewrite turn_wedge. exact DN.
Qed.
(** the parameters of a crossing are determined *)
Lemma cross_params : forall a b c d s t s' t', cross_at a b c d s t -> cross_at a b c d s' t' -> (s == s' /\ t == t')%Q.
Proof.
  assert (K : forall a b c d s t s' t', cross_at a b c d s t -> cross_at a b c d s' t' -> (t == t')%Q).
  { intros a b c d s t s' t' H K. destruct (cross_side _ _ _ _ _ _ H) as (A & _). destruct (cross_side _ _ _ _ _ _ K) as (B & _). destruct H as (_ & _ & _ & _ & N). rewrite A in B.
    assert (Z : ((t - t') * turn a b c d == 0)%Q) by lra. apply Qmult_integral in Z as [Z|Z]; [lra|contradiction]. }
  intros a b c d s t s' t' H H'. split; [|eapply K; eauto]. eapply K; apply cross_at_sym; eauto.
Qed.
Lemma segment_side_cases : forall A p, (segment_side A p = 1%Z /\ (0 < side (fst A) (snd A) p)%Q) \/ (segment_side A p = (-1)%Z /\ (side (fst A) (snd A) p < 0)%Q) \/ segment_side A p = 0%Z.
Proof.
  intros A p. unfold segment_side. fold (side (fst A) (snd A) p). pose proof (tenth_pos 10). destruct (Qltb (tenth 10) _) eqn:Q; [apply Qltb_lt in Q; left; split; auto; lra|]. destruct (Qltb _ (- tenth 10)) eqn:Q'; [apply Qltb_lt in Q'; right; left; split; auto; lra|auto].
Qed.
Lemma sides_minus : forall A B, sides A B = (-1)%Z -> (side (fst A) (snd A) (fst B) * side (fst A) (snd A) (snd B) < 0)%Q.
Proof.
  intros A B H. unfold sides in H. destruct (segment_side_cases A (fst B)) as [(E & P)|[(E & P)|E]]; destruct (segment_side_cases A (snd B)) as [(E' & P')|[(E' & P')|E']]; rewrite E, E' in H; cbn in H; try discriminate H; nra.
Qed.
Lemma sides_cross : forall A B, (side (fst A) (snd A) (fst B) * side (fst A) (snd A) (snd B) < 0)%Q -> sides A B = (-1)%Z \/ sides A B = 0%Z.
Proof.
  intros A B H. unfold sides. destruct (segment_side_cases A (fst B)) as [(E & P)|[(E & P)|E]]; destruct (segment_side_cases A (snd B)) as [(E' & P')|[(E' & P')|E']]; rewrite E, E'; cbn; auto; exfalso; nra.
Qed.
(** without trouble, crossings are recognised and located *)
Lemma clean_cross : forall solv A B, tag_as_trouble solv A B = false ->
  (sides A B = (-1)%Z /\ sides B A = (-1)%Z /\ solv A B = true /\ exists s t, locate_crossing solv A B = Some (s, t) /\ cross_at (fst A) (snd A) (fst B) (snd B) s t) \/
  ((Z.eqb (sides A B) (-1) && Z.eqb (sides B A) (-1) = false) /\ forall s t, ~ cross_at (fst A) (snd A) (fst B) (snd B) s t).
Proof.
  intros solv A B H. unfold tag_as_trouble in H. cbv zeta in H. match type of H with (if ?b then _ else _) = _ => destruct b; [discriminate H|] end. match type of H with (if ?b then _ else _) = _ => destruct b; [discriminate H|] end.
  destruct (Z.eqb (sides A B) (-1) && Z.eqb (sides B A) (-1)) eqn:Q.
  - left. apply andb_true_iff in Q as (Q1 & Q2). apply Z.eqb_eq in Q1, Q2. split; auto. split; auto. unfold locate_crossing in *. cbv zeta in *. destruct (solv A B) eqn:SV; [|discriminate H]. split; auto. do 2 eexists. split; [reflexivity|].
    apply opposite_cross; apply (sides_minus _ _); auto.
  - right. split; auto. intros s t X. pose proof (sides_cross A B (cross_opposite _ _ _ _ _ _ X)) as [S1|S1]; pose proof (sides_cross B A (cross_opposite _ _ _ _ _ _ (cross_at_sym _ _ _ _ _ _ X))) as [S2|S2]; rewrite S1, S2 in Q, H; cbn in Q, H; discriminate.
Qed.

(** ** the edges of a polygon *)
Lemma seg_of_spec : forall L i A, seg_of L i = Ok A <-> edge_from_to L (fst i) (snd i) (fst A) (snd A).
Proof.
  intros L (c, i) (a, b). unfold seg_of, seg_at. cbn [fst snd]. split.
  - intros H. apply bind_ok in H as (s & Hs & H). apply get_ok in Hs. apply bind_ok in H as (a' & Ha & H). apply get_ok in Ha. apply bind_ok in H as (b' & Hb & H). apply ok_inj in H. apply pair_equal_spec in H as (-> & ->). exists s. split; auto. split; auto.
    assert (L' : i < length (st_vt s)) by (apply nth_error_Some; congruence). destruct (Nat.eqb_spec (i + 1) (length (st_vt s))) as [E|E]; apply get_ok in Hb; [rewrite E, Nat.mod_same by lia; auto|rewrite Nat.mod_small by lia; auto].
  - intros (s & Hs & Ha & Hb). rewrite (proj2 (get_ok _ _ _ _) Hs). cbn [bind]. rewrite (proj2 (get_ok _ _ _ _) Ha). cbn [bind]. assert (L' : i < length (st_vt s)) by (apply nth_error_Some; congruence).
    destruct (Nat.eqb_spec (i + 1) (length (st_vt s))) as [E|E]; [rewrite E, Nat.mod_same in Hb by lia|rewrite Nat.mod_small in Hb by lia]; rewrite (proj2 (get_ok _ _ _ _) Hb); reflexivity.
Qed.
Lemma num_verts_at : forall L c s, nth_error L c = Some s -> num_verts L c = length (st_vt s).
Proof. intros L c s H. unfold num_verts. rewrite (nth_error_nth _ _ _ H). reflexivity. Qed.
Lemma seg_of_ex : forall L c i, c < length L -> i < num_verts L c -> exists A, seg_of L (c, i) = Ok A.
Proof.
  intros L c i Hc Hi. destruct (nth_error L c) as [s|] eqn:Q; [|apply nth_error_None in Q; lia]. rewrite (num_verts_at _ _ _ Q) in Hi. destruct (nth_error (st_vt s) i) as [a|] eqn:Qa; [|apply nth_error_None in Qa; lia].
  destruct (nth_error (st_vt s) ((i + 1) mod length (st_vt s))) as [b|] eqn:Qb; [|apply nth_error_None in Qb; pose proof (Nat.mod_upper_bound (i + 1) (length (st_vt s))); lia].
  exists (a, b). apply seg_of_spec. exists s. auto.
Qed.
Lemma edge_bounds : forall L c i a b, edge_from_to L c i a b -> c < length L /\ i < num_verts L c.
Proof. intros L c i a b (s & Hs & Ha & _). rewrite (num_verts_at _ _ _ Hs). split; apply nth_error_Some; congruence. Qed.
(** the pairs that are looked at *)
Lemma in_pairs : forall L cA vA cB vB, In ((cA, vA), (cB, vB)) (edge_pairs L) <->
  cA <= cB /\ cB < length L /\ vA < num_verts L cA /\ vB < num_verts L cB /\ (cA = cB -> vA + 2 <= vB /\ (vA = 0 -> vB + 1 < num_verts L cB)).
Proof.
  intros L cA vA cB vB. unfold edge_pairs. rewrite in_flat_map. split.
  - intros (c & Hc & H). apply in_seq in Hc. apply in_flat_map in H as (c' & Hc' & H). apply in_seq in Hc'. apply in_flat_map in H as (v & Hv & H). apply in_seq in Hv. apply in_map_iff in H as (v' & E & H).
    injection E as <- <- <- <-. unfold b_range in H. apply in_seq in H. destruct (Nat.eqb_spec c c') as [E|E]; [destruct (Nat.eqb_spec v 0) as [E'|E']|]; repeat split; try lia.
  - intros (H1 & H2 & H3 & H4 & H5). exists cA. split; [apply in_seq; lia|]. apply in_flat_map. exists cB. split; [apply in_seq; lia|]. apply in_flat_map. exists vA. split; [apply in_seq; lia|]. apply in_map_iff. exists vB. split; auto.
    unfold b_range. apply in_seq. destruct (Nat.eqb_spec cA cB) as [E|E]; [destruct (H5 E) as (K1 & K2); destruct (Nat.eqb_spec vA 0) as [E'|E']; [specialize (K2 E')|]|]; lia.
Qed.
Lemma nodup_flat_map : forall {A B} (f : A -> list B) l, NoDup l -> (forall x, In x l -> NoDup (f x)) -> (forall x y z, In x l -> In y l -> In z (f x) -> In z (f y) -> x = y) -> NoDup (flat_map f l).
Proof.
  intros A B f. induction l as [|a l IH]; intros N H D; cbn [flat_map]; [constructor|]. inversion N as [|? ? N1 N2]; subst. apply NoDup_app_intro.
  - apply H. left; auto.
  - apply IH; auto; [intros; apply H; right; auto|]. intros x y z Hx Hy. apply D; right; auto.
  - intros z Hz K. apply in_flat_map in K as (y & Hy & Kz). assert (a = y) by (apply (D a y z); auto; [left; auto|right; auto]). subst y. contradiction.
Qed.
Lemma pairs_nodup : forall L, NoDup (edge_pairs L).
Proof.
  intros L. unfold edge_pairs. apply nodup_flat_map; [apply seq_NoDup| |].
  - intros cA _. apply nodup_flat_map; [apply seq_NoDup| |].
    + intros cB _. apply nodup_flat_map; [apply seq_NoDup| |].
      * intros vA _. apply FinFun.Injective_map_NoDup; [intros x y E; injection E; auto|apply seq_NoDup].
      * intros x y z _ _ H K. apply in_map_iff in H as (v & <- & _). apply in_map_iff in K as (v' & E & _). injection E. auto.
    + intros x y z _ _ H K. apply in_flat_map in H as (v & _ & H). apply in_map_iff in H as (w & <- & _). apply in_flat_map in K as (v' & _ & K). apply in_map_iff in K as (w' & E & _). injection E. auto.
  - intros x y z _ _ H K. apply in_flat_map in H as (u & _ & H). apply in_flat_map in H as (v & _ & H). apply in_map_iff in H as (w & <- & _).
    apply in_flat_map in K as (u' & _ & K). apply in_flat_map in K as (v' & _ & K). apply in_map_iff in K as (w' & E & _). injection E. auto.
Qed.
(** neighbouring edges do not cross *)
Lemma side_end : forall a b p, (side a b a == 0 /\ side a b b == 0 /\ (p = a \/ p = b -> side a b p == 0))%Q.
Proof. intros a b p. assert (A : (side a b a == 0)%Q) by (unfold side, wedge, vsub; cbn; ring). assert (B : (side a b b == 0)%Q) by (unfold side, wedge, vsub; cbn; ring). split; auto. split; auto. intros [->| ->]; auto. Qed.
Lemma crossing_pair : forall L cA vA cB vB a b c d s t, edge_from_to L cA vA a b -> edge_from_to L cB vB c d -> cross_at a b c d s t ->
  In ((cA, vA), (cB, vB)) (edge_pairs L) \/ In ((cB, vB), (cA, vA)) (edge_pairs L).
Proof.
  assert (SH : forall a b c d s t, cross_at a b c d s t -> c <> b /\ d <> a /\ (a, b) <> (c, d)).
  { intros a b c d s t H. pose proof (cross_opposite _ _ _ _ _ _ H) as O. split; [|split].
    - intros ->. rewrite (proj1 (proj2 (side_end a b a))) in O. lra.
    - intros ->. rewrite (proj1 (side_end a b a)) in O. lra.
    - intros E. injection E as <- <-. rewrite (proj1 (side_end a b a)) in O. lra. }
  intros L cA vA cB vB a b c d s t EA EB X. pose proof (edge_bounds _ _ _ _ _ EA) as (A1 & A2). pose proof (edge_bounds _ _ _ _ _ EB) as (B1 & B2). destruct (SH _ _ _ _ _ _ X) as (N1 & N2 & N3).
  rewrite !in_pairs. destruct (Nat.lt_trichotomy cA cB) as [C|[C|C]]; [left; repeat split; lia| |right; repeat split; lia]. subst cB.
  destruct EA as (st & S1 & S2 & S3). destruct EB as (st' & T1 & T2 & T3). assert (st' = st) by congruence. subst st'. rewrite (num_verts_at _ _ _ S1) in *. set (n := length (st_vt st)) in *.
  assert (AD : vB <> (vA + 1) mod n) by (intros E; apply N1; rewrite <- E in S3; congruence). assert (AD' : vA <> (vB + 1) mod n) by (intros E; apply N2; rewrite <- E in T3; congruence).
  destruct (Nat.lt_trichotomy vA vB) as [V|[V|V]].
  - left. rewrite Nat.mod_small in AD by lia. repeat split; try lia. intros ->. destruct (Nat.eq_dec (vB + 1) n) as [E|E]; [rewrite E, Nat.mod_same in AD' by lia; lia|lia].
  - exfalso. apply N3. subst vB. congruence.
  - right. rewrite Nat.mod_small in AD' by lia. repeat split; try lia. intros ->. destruct (Nat.eq_dec (vA + 1) n) as [E|E]; [rewrite E, Nat.mod_same in AD by lia; lia|lia].
Qed.
