(** Lemmas about the planar diagram checks. *)
From Coq Require Import List ZArith Lia Bool Arith Permutation Sorted.
From Verif Require Import Base Iterators Sorting Pd PdSpec.
From Verif Require PdStore PdStoreProofs.
Import ListNotations.
Open Scope nat_scope.

(** * General *)

Lemma ok_inj : forall A (x y : A), Ok x = Ok y -> x = y.
Proof. congruence. Qed.
Lemma all_ok_spec : forall A (f : A -> res bool) l,
  all_ok f l = Ok true <-> forall x, In x l -> f x = Ok true.
Proof.
  induction l as [|x l IH]; cbn [all_ok].
  - split; auto. intros _ x [].
  - split.
    + intros H. apply bind_ok in H as (b & H1 & H2). destruct b; [|discriminate].
      intros y [->|Hy]; auto. apply IH; auto.
    + intros H. rewrite (H x) by (cbn; auto). cbn [bind]. apply IH. intros y Hy. apply H. cbn; auto.
Qed.
Lemma and_ok_true : forall a b, and_ok a b = Ok true <-> a = Ok true /\ b = Ok true.
Proof.
  intros a b. unfold and_ok. destruct a as [x| | |]; cbn [bind]; [destruct x|..]; intuition congruence.
Qed.
Lemma get_ok : forall A (l : list A) i x, get l i = Ok x <-> nth_error l i = Some x.
Proof. intros. unfold get. destruct (nth_error l i); intuition congruence. Qed.

Lemma kcmp_lex : forall a b, not_gt (PdStore.kcmp a b) = true <-> lex_le a b.
Proof.
  induction a as [|x a IH]; intros [|y b]; cbn [PdStore.kcmp not_gt].
  - split; auto. intros _. left; auto.
  - split; auto. intros _. right. constructor.
  - split; [discriminate|]. intros [H|H]; [discriminate|inversion H].
  - destruct (Nat.compare x y) eqn:E.
    + apply Nat.compare_eq in E. subst. rewrite IH. split.
      * intros [->|H]; [left|right]; auto. apply lex_next; auto.
      * intros [H|H]; [left; congruence|]. inversion H; subst; [lia|right; auto].
    + apply Nat.compare_lt_iff in E. cbn. split; auto. intros _. right. apply lex_here; auto.
    + apply Nat.compare_gt_iff in E. cbn. split; [discriminate|]. intros [H|H].
      * inversion H; lia.
      * inversion H; lia.
Qed.

Lemma lex_lt_trans : forall a b c, lex_lt a b -> lex_lt b c -> lex_lt a c.
Proof.
  intros a b c H. revert c. induction H as [y l|x y l l' L|x l l' H IH]; intros c H2.
  - inversion H2; subst; constructor.
  - inversion H2; subst; apply lex_here; lia.
  - inversion H2; subst; [apply lex_here|apply lex_next]; auto.
Qed.
Lemma lex_le_trans : forall a b c, lex_le a b -> lex_le b c -> lex_le a c.
Proof.
  intros a b c [->|H1] [->|H2]; unfold lex_le; auto. right. eapply lex_lt_trans; eauto.
Qed.
Lemma lex_lt_irrefl : forall a, ~ lex_lt a a.
Proof. induction a; intros H; inversion H; subst; [lia|auto]. Qed.
Lemma lex_le_antisym : forall a b, lex_le a b -> lex_le b a -> a = b.
Proof.
  intros a b [->|H1] [H2|H2]; auto. exfalso. eapply lex_lt_irrefl. eapply lex_lt_trans; eauto.
Qed.
Lemma lex_le_total : forall a b, lex_le a b \/ lex_le b a.
Proof.
  intros a b. destruct (not_gt (PdStore.kcmp a b)) eqn:E; [left; apply kcmp_lex; auto|].
  right. apply kcmp_lex. rewrite PdStoreProofs.kcmp_opp.
  destruct (PdStore.kcmp a b); cbn in *; congruence.
Qed.

Lemma big_first_trans : forall a b c, big_first a b -> big_first b c -> big_first a c.
Proof.
  unfold big_first. intros a b c [H1|[H1 L1]] [H2|[H2 L2]]; try lia.
  right. split; [lia|eapply lex_le_trans; eauto].
Qed.
Lemma big_first_antisym : forall a b, big_first a b -> big_first b a -> a = b.
Proof.
  unfold big_first. intros a b [H1|[H1 L1]] [H2|[H2 L2]]; try lia. apply lex_le_antisym; auto.
Qed.
Lemma big_first_total : forall a b, big_first a b \/ big_first b a.
Proof.
  unfold big_first. intros a b. destruct (lt_eq_lt_dec (length a) (length b)) as [[H|H]|H]; auto.
  destruct (lex_le_total a b); auto.
Qed.
Definition big_cmp (a b : list nat) : comparison :=
  match Nat.compare (length b) (length a) with Eq => PdStore.kcmp a b | c => c end.
Lemma big_cmp_spec : forall a b, not_gt (big_cmp a b) = true <-> big_first a b.
Proof.
  intros a b. unfold big_cmp, big_first. destruct (Nat.compare (length b) (length a)) eqn:E.
  - apply Nat.compare_eq in E. rewrite kcmp_lex. intuition lia.
  - apply Nat.compare_lt_iff in E. cbn. intuition.
  - apply Nat.compare_gt_iff in E. cbn. split; [discriminate|intros [H|[H _]]; lia].
Qed.
Lemma face_cmp_spec : forall a b, not_gt (pd_face_cmp a b) = true <-> big_first (map fst a) (map fst b).
Proof. intros. rewrite <- big_cmp_spec. unfold big_cmp, pd_face_cmp. rewrite !map_length. reflexivity. Qed.
Lemma component_cmp_spec : forall a b,
  not_gt (pd_component_cmp a b) = true <-> big_first (cp_edge a) (cp_edge b).
Proof. intros. rewrite <- big_cmp_spec. reflexivity. Qed.

Lemma adjacent_sorted : forall A B (f : A -> A -> bool) (g : A -> B) (R : B -> B -> Prop),
  (forall x y, f x y = true <-> R (g x) (g y)) -> (forall x y z, R x y -> R y z -> R x z) ->
  forall l, adjacent f l = true <-> StronglySorted R (map g l).
Proof.
  intros A B f g R Hf Ht. induction l as [|x l IH]; [split; auto; constructor|].
  destruct l as [|y l].
  - split; auto. intros _. repeat constructor.
  - change (adjacent f (x :: y :: l)) with (f x y && adjacent f (y :: l)).
    rewrite andb_true_iff, IH, Hf. change (map g (x :: y :: l)) with (g x :: map g (y :: l)).
    split.
    + intros (H1 & H2). constructor; auto. change (map g (y :: l)) with (g y :: map g l) in *.
      inversion H2 as [|? ? H3 H4]; subst. constructor; auto.
      eapply Forall_impl; [|exact H4]. intros z Hz. eapply Ht; eauto.
    + intros H. inversion H as [|? ? H3 H4]; subst. split; auto.
      change (map g (y :: l)) with (g y :: map g l) in H4. inversion H4; auto.
Qed.

Lemma forallb_combine_seq : forall A (P : nat * A -> bool) l k,
  forallb P (combine (seq k (length l)) l) = true <->
  forall i x, nth_error l i = Some x -> P (k + i, x) = true.
Proof.
  induction l as [|a l IH]; intros k; cbn [length seq combine forallb].
  - split; auto. intros _ [|i] x H; discriminate.
  - rewrite andb_true_iff, IH. split.
    + intros (H1 & H2) [|i] x H; cbn in H.
      * inversion H; subst. rewrite Nat.add_0_r. auto.
      * replace (k + S i) with (S k + i) by lia. auto.
    + intros H. split; [specialize (H 0 a); cbn in H; rewrite Nat.add_0_r in H; auto|].
      intros i x Hx. replace (S k + i) with (k + S i) by lia. apply H. auto.
Qed.

Lemma in_all_slots : forall cs e,
  In e (all_slots cs) <-> exists c x p, p < 4 /\ nth_error cs c = Some x /\ cedge x p = e.
Proof.
  intros cs e. unfold all_slots. rewrite in_flat_map. split.
  - intros (x & Hx & He). apply In_nth_error in Hx as (c & Hc). exists c, x.
    cbn in He. destruct He as [H|[H|[H|[H|[]]]]]; [exists 0|exists 1|exists 2|exists 3]; cbn; auto with arith.
  - intros (c & x & p & Hp & Hc & He). exists x. split; [eapply nth_error_In; eauto|].
    destruct p as [|[|[|[|p]]]]; cbn in *; auto; lia.
Qed.

(** * pd_cross_ok *)
Lemma cross_ok_spec : forall d, 0 < ncross d ->
  pd_cross_ok d = Ok true <->
  (forall c p e, slot d c p e -> e < nedges d) /\
  (forall e E, edge_at d e E ->
     count_occ Nat.eq_dec (all_slots (p_cross d)) e = 2 \/
     (count_occ Nat.eq_dec (all_slots (p_cross d)) e = 0 /\ e_headpos E = 4 /\ e_tailpos E = 4)) /\
  crossings_sorted d.
Proof.
  intros d Hn. unfold pd_cross_ok. destruct (Nat.eqb_spec (ncross d) 0); [lia|].
  assert (A1 : forallb (fun e => e <? nedges d) (all_slots (p_cross d)) = true <->
               (forall c p e, slot d c p e -> e < nedges d)).
  { rewrite forallb_forall. split.
    - intros H c p e (Hp & x & Hc & He). apply Nat.ltb_lt, H, in_all_slots. eauto 6.
    - intros H e He. apply in_all_slots in He as (c & x & p & Hp & Hc & He).
      apply Nat.ltb_lt, (H c p). split; eauto. }
  set (P := fun ee : nat * edge => let n := count_occ Nat.eq_dec (all_slots (p_cross d)) (fst ee) in
              (n =? 2) || (unset_edge (snd ee) && (n =? 0))).
  assert (A2 : forallb P (combine (seq 0 (nedges d)) (p_edge d)) = true <->
    (forall e E, edge_at d e E ->
     count_occ Nat.eq_dec (all_slots (p_cross d)) e = 2 \/
     (count_occ Nat.eq_dec (all_slots (p_cross d)) e = 0 /\ e_headpos E = 4 /\ e_tailpos E = 4))).
  { unfold nedges. rewrite forallb_combine_seq. unfold P, edge_at, unset_edge. cbn [fst snd].
    split; intros H e E HE; specialize (H e E HE); cbn [Nat.add] in *;
      rewrite orb_true_iff, !andb_true_iff, !Nat.eqb_eq in *; tauto. }
  assert (A3 : adjacent (fun a b => not_gt (pd_cross_cmp a b)) (p_cross d) = true <-> crossings_sorted d).
  { apply adjacent_sorted; [intros; apply kcmp_lex|apply lex_le_trans]. }
  destruct (forallb (fun e => e <? nedges d) (all_slots (p_cross d))) eqn:E1; cbn [negb].
  2:{ split; [discriminate|]. intros (H & _). apply A1 in H. discriminate. }
  fold P. destruct (forallb P (combine (seq 0 (nedges d)) (p_edge d))) eqn:E2; cbn [negb].
  2:{ split; [discriminate|]. intros (_ & H & _). apply A2 in H. discriminate. }
  rewrite <- A3, <- A1, <- A2. split; [intros H; inversion H as [H1]; rewrite H1; auto|].
  intros (_ & _ & H). rewrite H. auto.
Qed.

(** * pd_edges_ok *)
Lemma slot_fun : forall d c p e e', slot d c p e -> slot d c p e' -> e = e'.
Proof. intros d c p e e' (_ & x & H1 & H2) (_ & y & H3 & H4). congruence. Qed.
Lemma slot_lt : forall d c p e, slot d c p e -> c < ncross d /\ p < 4.
Proof. intros d c p e (H & x & H1 & _). split; auto. apply nth_error_Some. congruence. Qed.

Lemma edge_ok_true : forall d i, 0 < ncross d ->
  edge_ok d i = Ok true <->
  exists E, edge_at d i E /\ slot d (e_head E) (e_headpos E) i /\ slot d (e_tail E) (e_tailpos E) i /\
    (exists e' E', edge_at d e' E' /\ slot d (e_head E) ((e_headpos E + 2) mod 4) e' /\
       tail_slot E' = (e_head E, (e_headpos E + 2) mod 4)) /\
    (exists e' E', edge_at d e' E' /\ slot d (e_tail E) ((e_tailpos E + 2) mod 4) e' /\
       head_slot E' = (e_tail E, (e_tailpos E + 2) mod 4)).
Proof.
  intros d i Hn. unfold edge_ok. split.
  - intros H. apply bind_ok in H as (E & HE & H). apply get_ok in HE.
    destruct (Nat.eqb_spec (ncross d) 0); [lia|].
    destruct ((ncross d <=? e_head E) || (ncross d <=? e_tail E)); [discriminate|].
    destruct ((4 <=? e_headpos E) || (4 <=? e_tailpos E)) eqn:Hp; [discriminate|].
    apply orb_false_iff in Hp as (Hp1 & Hp2). apply Nat.leb_gt in Hp1, Hp2.
    apply bind_ok in H as (hc & Hhc & H). apply bind_ok in H as (tc & Htc & H).
    apply get_ok in Hhc, Htc.
    destruct (Nat.eqb_spec (cedge hc (e_headpos E)) i) as [E1|]; [|discriminate].
    destruct (Nat.eqb_spec (cedge tc (e_tailpos E)) i) as [E2|]; [|discriminate].
    cbn [negb] in H. apply bind_ok in H as (nx & Hnx & H). apply get_ok in Hnx.
    destruct (Nat.eqb_spec (e_tail nx) (e_head E)); [|discriminate].
    destruct (Nat.eqb_spec (e_tailpos nx) ((e_headpos E + 2) mod 4)); [|discriminate].
    cbn [negb orb] in H. apply bind_ok in H as (pv & Hpv & H). apply get_ok in Hpv.
    destruct (Nat.eqb_spec (e_head pv) (e_tail E)); [|discriminate].
    destruct (Nat.eqb_spec (e_headpos pv) ((e_tailpos E + 2) mod 4)); [|discriminate].
    exists E. split; auto. split; [split; eauto|]. split; [split; eauto|]. split.
    + exists (cedge hc ((e_headpos E + 2) mod 4)), nx. split; auto. split.
      * split; [apply Nat.mod_upper_bound; lia|eauto].
      * unfold tail_slot. congruence.
    + exists (cedge tc ((e_tailpos E + 2) mod 4)), pv. split; auto. split.
      * split; [apply Nat.mod_upper_bound; lia|eauto].
      * unfold head_slot. congruence.
  - intros (E & HE & (Hp1 & hc & Hhc & E1) & (Hp2 & tc & Htc & E2) &
            (nx & NX & Hnx & (_ & hc' & Hhc' & E3) & T1) & (pv & PV & Hpv & (_ & tc' & Htc' & E4) & T2)).
    unfold edge_at in *. rewrite (proj2 (get_ok _ _ _ _) HE). cbn [bind].
    destruct (Nat.eqb_spec (ncross d) 0); [lia|].
    assert (e_head E < ncross d) by (apply nth_error_Some; congruence).
    assert (e_tail E < ncross d) by (apply nth_error_Some; congruence).
    destruct (Nat.leb_spec (ncross d) (e_head E)); [lia|].
    destruct (Nat.leb_spec (ncross d) (e_tail E)); [lia|].
    destruct (Nat.leb_spec 4 (e_headpos E)); [lia|].
    destruct (Nat.leb_spec 4 (e_tailpos E)); [lia|]. cbn [orb].
    rewrite (proj2 (get_ok _ _ _ _) Hhc). cbn [bind]. rewrite (proj2 (get_ok _ _ _ _) Htc). cbn [bind].
    rewrite E1, E2, Nat.eqb_refl. cbn [negb].
    assert (hc' = hc) by congruence. assert (tc' = tc) by congruence. subst hc' tc'.
    unfold tail_slot in T1. unfold head_slot in T2. inversion T1 as [[T3 T4]]. inversion T2 as [[T5 T6]].
    rewrite E3, (proj2 (get_ok _ _ _ _) Hnx). cbn [bind].
    rewrite ?T3, ?T4, ?Nat.eqb_refl. cbn [negb orb].
    rewrite E4, (proj2 (get_ok _ _ _ _) Hpv). cbn [bind].
    rewrite ?T5, ?T6, ?Nat.eqb_refl. reflexivity.
Qed.

Lemma edges_ok_spec : forall d, 0 < ncross d ->
  pd_edges_ok d = Ok true <-> ends_recorded d /\ goes_through d.
Proof.
  intros d Hn. unfold pd_edges_ok. destruct (Nat.eqb_spec (ncross d) 0); [lia|]. cbn [negb andb].
  destruct (Nat.eqb_spec (nedges d) (ncross d * 2)) as [En|En]; cbn [negb].
  2:{ split; [discriminate|]. intros ((H & _) & _). lia. }
  rewrite all_ok_spec. split.
  - intros H. assert (K : forall e E, edge_at d e E -> edge_ok d e = Ok true).
    { intros e E HE. apply H, in_seq. split; [lia|]. apply nth_error_Some. unfold edge_at in HE. congruence. }
    split.
    + split; [lia|]. intros e E HE. specialize (K e E HE). apply edge_ok_true in K; auto.
      destruct K as (E' & HE' & K). unfold edge_at in *. assert (E' = E) by congruence. subst. tauto.
    + intros e E HE. specialize (K e E HE). apply edge_ok_true in K; auto.
      destruct K as (E' & HE' & K). unfold edge_at in *. assert (E' = E) by congruence. subst. tauto.
  - intros ((_ & H1) & H2) e He. apply in_seq in He.
    destruct (nth_error (p_edge d) e) as [E|] eqn:HE.
    2:{ apply nth_error_None in HE. unfold nedges in He. lia. }
    apply edge_ok_true; auto. exists E. specialize (H1 e E HE). specialize (H2 e E HE).
    unfold edge_at. tauto.
Qed.

(** * Every place is one end of one edge *)
Definition darts (d : pd) : list dart := flat_map (fun e => [(e, Pos); (e, Neg)]) (seq 0 (nedges d)).
Definition dto (d : pd) (a : dart) : nat * nat :=
  match nth_error (p_edge d) (fst a) with
  | Some E => match snd a with Neg => tail_slot E | _ => head_slot E end
  | None => (0, 0)
  end.
Definition flip (a : dart) : dart :=
  (fst a, match snd a with Pos => Neg | Neg => Pos | Unset => Unset end).
Definition places (d : pd) : list (nat * nat) := list_prod (seq 0 (ncross d)) (seq 0 4).

Lemma in_darts : forall d a, In a (darts d) <-> is_dart d a.
Proof.
  intros d (e, o). unfold darts, is_dart. cbn [fst snd]. rewrite in_flat_map. split.
  - intros (x & Hx & H). apply in_seq in Hx. cbn in H. destruct H as [H|[H|[]]]; inversion H; subst; split; auto; lia.
  - intros (H & O). exists e. rewrite in_seq. split; [lia|]. cbn. destruct O; subst; auto.
Qed.
Lemma NoDup_darts : forall d, NoDup (darts d).
Proof.
  intros d. unfold darts. generalize 0. induction (nedges d) as [|n IH]; intros k; cbn [seq flat_map]; [constructor|].
  assert (K : forall o, ~ In (k, o) (flat_map (fun e => [(e, Pos); (e, Neg)]) (seq (S k) n))).
  { intros o H. apply in_flat_map in H as (x & Hx & H). apply in_seq in Hx.
    cbn in H. destruct H as [H|[H|[]]]; inversion H; lia. }
  constructor; [|constructor; auto]. cbn. intros [H|H]; [discriminate|]. eapply K; eauto.
Qed.
Lemma darts_length : forall d, length (darts d) = 2 * nedges d.
Proof.
  intros d. unfold darts.
  assert (K : forall n k, length (flat_map (fun e => [(e, Pos); (e, Neg)]) (seq k n)) = 2 * n).
  { induction n as [|n IH]; intros k; cbn [seq flat_map length app]; auto. rewrite IH. lia. }
  apply K.
Qed.
Lemma in_places : forall d c p, In (c, p) (places d) <-> c < ncross d /\ p < 4.
Proof. intros. unfold places. rewrite in_prod_iff, !in_seq. lia. Qed.
Lemma NoDup_list_prod : forall A B (l : list A) (m : list B), NoDup l -> NoDup m -> NoDup (list_prod l m).
Proof.
  induction l as [|x l IH]; intros m H1 H2; cbn [list_prod]; [constructor|].
  inversion H1 as [|? ? N1 N2]; subst.
  assert (D : NoDup (map (fun y => (x, y)) m)).
  { clear -H2. induction H2 as [|y m N H IH]; cbn; constructor; auto.
    intros H1. apply in_map_iff in H1 as (z & Hz & Hz2). inversion Hz; subst; auto. }
  specialize (IH m N2 H2).
  assert (K : forall z, In z (list_prod l m) -> fst z <> x).
  { intros (a, b) Hz E. cbn in E. subst a. apply in_prod_iff in Hz. tauto. }
  revert IH K. generalize (list_prod l m). intros q IH K.
  clear -IH D K. induction m as [|y m IHm] in D |- *; cbn; auto.
  cbn in D. inversion D as [|? ? D1 D2]; subst. constructor; [|auto].
  rewrite in_app_iff. intros [H|H]; auto. apply K in H. cbn in H. congruence.
Qed.
Lemma NoDup_places : forall d, NoDup (places d).
Proof. intros. apply NoDup_list_prod; apply seq_NoDup. Qed.
Lemma places_length : forall d, length (places d) = 4 * ncross d.
Proof. intros. unfold places. rewrite prod_length, !seq_length. lia. Qed.

Lemma edge_at_lt : forall d e E, edge_at d e E -> e < nedges d.
Proof. intros d e E H. apply nth_error_Some. unfold edge_at in H. congruence. Qed.
Lemma edge_at_ex : forall d e, e < nedges d -> exists E, edge_at d e E.
Proof.
  intros d e H. unfold edge_at. destruct (nth_error (p_edge d) e) eqn:E; eauto.
  apply nth_error_None in E. unfold nedges in H. lia.
Qed.
Lemma dart_to_dto : forall d a s, dart_to d a s <-> is_dart d a /\ dto d a = s.
Proof.
  intros d (e, o) s. unfold dart_to, is_dart, dto. cbn [fst snd]. split.
  - intros (E & HE & H). split; [split; [eapply edge_at_lt; eauto|tauto]|].
    unfold edge_at in HE. rewrite HE. destruct H as [(-> & ->)|(-> & ->)]; auto.
  - intros ((H1 & H2) & H). destruct (edge_at_ex d e H1) as (E & HE). exists E. split; auto.
    unfold edge_at in HE. rewrite HE in H. destruct H2; subst; auto.
Qed.
Lemma dart_from_to : forall d a s, dart_from d a s <-> dart_to d (flip a) s.
Proof.
  intros d (e, o) s. unfold dart_from, dart_to, flip. cbn [fst snd].
  split; intros (E & HE & H); exists E; split; auto; destruct o; intuition congruence.
Qed.
Lemma flip_flip : forall a, flip (flip a) = a.
Proof. intros (e, o). unfold flip. cbn. destruct o; auto. Qed.
Lemma is_dart_flip : forall d a, is_dart d (flip a) <-> is_dart d a.
Proof. intros d (e, o). unfold is_dart, flip. cbn. destruct o; intuition congruence. Qed.

Lemma dto_slot : forall d a, ends_recorded d -> is_dart d a -> slot d (fst (dto d a)) (snd (dto d a)) (fst a).
Proof.
  intros d (e, o) (_ & H) (Hl & Ho). cbn [fst snd] in *. destruct (edge_at_ex d e Hl) as (E & HE).
  unfold dto. cbn [fst snd]. destruct (H e E HE). unfold edge_at in HE. rewrite HE. destruct o; auto.
Qed.
Lemma dto_inj : forall d, ends_recorded d -> two_ended d ->
  forall a b, is_dart d a -> is_dart d b -> dto d a = dto d b -> a = b.
Proof.
  intros d R T (e, o) (e', o') Ha Hb H.
  pose proof (dto_slot d _ R Ha) as S1. pose proof (dto_slot d _ R Hb) as S2. rewrite <- H in S2.
  pose proof (slot_fun _ _ _ _ _ S1 S2) as K. cbn [fst] in K. subst e'.
  destruct Ha as (Hl & Ho). destruct Hb as (_ & Ho'). cbn [fst snd] in *.
  destruct (edge_at_ex d e Hl) as (E & HE). specialize (T e E HE). unfold dto in H. cbn [fst snd] in H.
  unfold edge_at in HE. rewrite HE in H.
  destruct Ho, Ho'; subst; auto; exfalso; apply T; auto.
Qed.
Lemma NoDup_map_inj : forall A B (f : A -> B) l,
  (forall x y, In x l -> In y l -> f x = f y -> x = y) -> NoDup l -> NoDup (map f l).
Proof.
  induction l as [|x l IH]; intros H N; cbn; [constructor|]. inversion N as [|? ? N1 N2]; subst.
  constructor.
  - intros H1. apply in_map_iff in H1 as (y & Hy & Hy2). assert (y = x) by (apply H; cbn; auto). subst. auto.
  - apply IH; auto. intros y z Hy Hz. apply H; cbn; auto.
Qed.
Lemma dto_perm : forall d, ends_recorded d -> two_ended d -> Permutation (map (dto d) (darts d)) (places d).
Proof.
  intros d R T. apply NoDup_Permutation_bis.
  - apply NoDup_map_inj; [|apply NoDup_darts]. intros x y Hx Hy. apply dto_inj; auto; apply in_darts; auto.
  - rewrite map_length, darts_length, places_length. destruct R as (R & _). lia.
  - intros (c, p) H. apply in_map_iff in H as (a & Ha & Hd). apply in_darts in Hd.
    pose proof (dto_slot d a R Hd) as S. rewrite Ha in S. apply slot_lt in S. apply in_places. auto.
Qed.
Lemma dto_surj : forall d c p, ends_recorded d -> two_ended d -> c < ncross d -> p < 4 ->
  exists a, is_dart d a /\ dto d a = (c, p).
Proof.
  intros d c p R T Hc Hp. assert (I : In (c, p) (places d)) by (apply in_places; auto).
  apply (Permutation_in _ (Permutation_sym (dto_perm d R T))) in I.
  apply in_map_iff in I as (a & Ha & Hd). exists a. split; auto. apply in_darts; auto.
Qed.

(** * pd_comps_ok *)
Definition straight (d : pd) (a b : nat) : Prop :=
  exists A B, edge_at d a A /\ edge_at d b B /\
    e_tail B = e_head A /\ (4 + e_headpos A - e_tailpos B) mod 4 = 2.
Lemma straight_continues : forall d a b, ends_recorded d -> straight d a b <-> continues d a b.
Proof.
  intros d a b (_ & R). split; intros (A & B & HA & HB & E1 & E2); exists A, B; split; auto; split; auto; split; auto.
  - destruct (R a A HA) as (S1 & _). destruct (R b B HB) as (_ & S2). apply slot_lt in S1, S2.
    destruct S1 as (_ & S1). destruct S2 as (_ & S2). revert E2.
    destruct (e_headpos A) as [|[|[|[|]]]]; try lia; destruct (e_tailpos B) as [|[|[|[|]]]]; try lia; cbn; lia.
  - destruct (R a A HA) as (S1 & _). destruct (R b B HB) as (_ & S2). apply slot_lt in S1, S2.
    destruct S1 as (_ & S1). destruct S2 as (_ & S2). revert E2.
    destruct (e_headpos A) as [|[|[|[|]]]]; try lia; destruct (e_tailpos B) as [|[|[|[|]]]]; try lia; cbn; lia.
Qed.

Lemma comp_edge_ok_true : forall d c num pos,
  comp_edge_ok d c num pos = Ok true <->
  nth_error (cp_edge c) pos = Some num /\
  exists ni, nth_error (cp_edge c) ((pos + 1) mod length (cp_edge c)) = Some ni /\ straight d num ni.
Proof.
  intros d c num pos. unfold comp_edge_ok, straight, edge_at. split.
  - intros H. apply bind_ok in H as (ei & H1 & H). apply get_ok in H1.
    destruct (Nat.eqb_spec num ei); [subst|discriminate]. cbn [negb] in H.
    apply bind_ok in H as (ni & H2 & H). apply bind_ok in H as (e & H3 & H). apply bind_ok in H as (nx & H4 & H).
    apply get_ok in H2, H3, H4. inversion H as [H5]. apply andb_true_iff in H5 as (H6 & H7).
    apply Nat.eqb_eq in H6, H7. split; auto. exists ni. split; auto. exists e, nx. auto.
  - intros (H1 & ni & H2 & A & B & HA & HB & E1 & E2). rewrite (proj2 (get_ok _ _ _ _) H1). cbn [bind].
    rewrite Nat.eqb_refl. cbn [negb]. rewrite (proj2 (get_ok _ _ _ _) H2). cbn [bind].
    rewrite (proj2 (get_ok _ _ _ _) HA). cbn [bind]. rewrite (proj2 (get_ok _ _ _ _) HB). cbn [bind].
    rewrite E1, E2, !Nat.eqb_refl. reflexivity.
Qed.

Lemma list_seq_nth : forall l k, (forall i, i < length l -> nth_error l i = Some (k + i)) <-> l = seq k (length l).
Proof.
  induction l as [|x l IH]; intros k; cbn [length seq].
  - split; auto. intros; lia.
  - split.
    + intros H. f_equal.
      * specialize (H 0). cbn in H. assert (Some x = Some (k + 0)) by (apply H; lia). inversion H0; lia.
      * apply IH. intros i Hi. specialize (H (S i)). cbn in H. rewrite H by lia. f_equal. lia.
    + intros H i Hi. inversion H as [[H1 H2]]. rewrite <- H2. destruct i as [|i]; cbn; [f_equal; lia|].
      replace (k + S i) with (S k + i) by lia. apply (IH (S k)); auto. lia.
Qed.

Lemma app_inj_len : forall A (a b a' b' : list A), a ++ b = a' ++ b' -> length a = length a' -> a = a' /\ b = b'.
Proof.
  induction a as [|x a IH]; intros b [|y a'] b' H L; cbn in *; auto; try discriminate.
  inversion H as [[H1 H2]]. apply IH in H2; [|lia]. destruct H2; subst; auto.
Qed.

Lemma comp_walk_one : forall d c num,
  all_ok (fun pos => comp_edge_ok d c (num + pos) pos) (seq 0 (length (cp_edge c))) = Ok true <->
  cp_edge c = seq num (length (cp_edge c)) /\ cyclically (straight d) (cp_edge c).
Proof.
  intros d c num. rewrite all_ok_spec. split.
  - intros H. assert (L : cp_edge c = seq num (length (cp_edge c))).
    { apply list_seq_nth. intros i Hi. specialize (H i). rewrite in_seq in H.
      rewrite comp_edge_ok_true in H. apply H. lia. }
    split; auto. intros i a b Ha Hb. assert (Hi : i < length (cp_edge c)) by (apply nth_error_Some; congruence).
    specialize (H i). rewrite in_seq, comp_edge_ok_true in H. destruct H as (H1 & ni & H2 & H3); [lia|].
    congruence.
  - intros (L & C) i Hi. rewrite in_seq in Hi. apply comp_edge_ok_true.
    assert (Ha : nth_error (cp_edge c) i = Some (num + i)) by (apply list_seq_nth; auto; lia).
    split; auto. destruct (nth_error (cp_edge c) ((i + 1) mod length (cp_edge c))) as [ni|] eqn:Hb.
    + exists ni. split; auto. eapply C; eauto.
    + apply nth_error_None in Hb. assert ((i + 1) mod length (cp_edge c) < length (cp_edge c)) by (apply Nat.mod_upper_bound; lia). lia.
Qed.

Lemma comps_walk_true : forall d cs num m,
  comps_walk d num cs = Ok (true, m) <->
  m = num + length (concat (map cp_edge cs)) /\
  concat (map cp_edge cs) = seq num (length (concat (map cp_edge cs))) /\
  Forall (fun c => cyclically (straight d) (cp_edge c)) cs.
Proof.
  intros d. induction cs as [|c cs IH]; intros num m; cbn [comps_walk map concat].
  - cbn. split; [intros H; inversion H; repeat split; auto; lia|]. intros (-> & _). f_equal. f_equal. lia.
  - rewrite app_length. split.
    + intros H. apply bind_ok in H as (b & H1 & H2). destruct b; [|discriminate].
      apply comp_walk_one in H1 as (L & C). apply IH in H2 as (-> & H2 & H3).
      split; [lia|]. split; [|constructor; auto]. rewrite seq_app. rewrite <- L, <- H2. auto.
    + intros (-> & H & F). inversion F as [|? ? F1 F2]; subst. rewrite seq_app in H.
      assert (L : cp_edge c = seq num (length (cp_edge c)) /\
                  concat (map cp_edge cs) = seq (num + length (cp_edge c)) (length (concat (map cp_edge cs)))).
      { apply app_inj_len in H; auto. rewrite seq_length. auto. }
      destruct L as (L1 & L2). assert (B : all_ok (fun pos => comp_edge_ok d c (num + pos) pos)
         (seq 0 (length (cp_edge c))) = Ok true) by (apply comp_walk_one; auto).
      rewrite B. cbn [bind]. apply IH. split; [lia|auto].
Qed.

Lemma tags_ok_sorted : forall l, StronglySorted Z.le l ->
  tags_ok l = true <-> NoDup l /\ forall x y, In x l -> In y l -> (x < y)%Z -> (65 <= y)%Z.
Proof.
  intros l S. induction S as [|a l S IH F].
  - split; auto. intros _. split; [constructor|]. intros x y [].
  - destruct l as [|b l].
    + split; auto. intros _. split; [repeat constructor; auto|]. intros x y [->|[]] [->|[]]; lia.
    + change (tags_ok (a :: b :: l)) with (negb (b =? a)%Z && (65 <=? b)%Z && tags_ok (b :: l)).
      rewrite !andb_true_iff, IH, negb_true_iff, Z.eqb_neq, Z.leb_le.
      assert (Fb : forall z, In z (b :: l) -> (b <= z)%Z).
      { inversion S as [|? ? S1 S2]; subst. intros z [->|Hz]; [lia|]. rewrite Forall_forall in S2. auto. }
      assert (Fa : forall z, In z (b :: l) -> (a <= z)%Z) by (rewrite Forall_forall in F; auto).
      split.
      * intros ((H1 & H2) & H3 & H4). split.
        { constructor; auto. intros H. apply Fb in H. specialize (Fa b (or_introl eq_refl)). lia. }
        intros x y Hx Hy L. destruct Hy as [<-|Hy].
        { destruct Hx as [<-|Hx]; [lia|]. apply Fa in Hx. lia. }
        apply Fb in Hy. lia.
      * intros (N & H). inversion N as [|? ? N1 N2]; subst. split; [split|split; auto].
        { intros E. apply N1. subst. cbn. auto. }
        { apply (H a b); cbn; auto. specialize (Fa b (or_introl eq_refl)).
          assert (a <> b) by (intros ->; apply N1; cbn; auto). lia. }
        { intros x y Hx Hy. apply H; cbn in *; auto. }
Qed.
Lemma isort_leb_sorted : forall l, StronglySorted Z.le (isort Z.leb l).
Proof.
  intros l. assert (S : StronglySorted (lep Z.leb) (isort Z.leb l)).
  { apply isort_sorted.
    - intros x y H. apply Z.leb_gt in H. apply Z.leb_le. lia.
    - intros x y z H1 H2. apply Z.leb_le in H1, H2. apply Z.leb_le. lia. }
  induction S as [|a m S IH F]; constructor; auto. eapply Forall_impl; [|exact F].
  intros z Hz. apply Z.leb_le. auto.
Qed.

Lemma comps_ok_spec : forall d, 0 < ncross d -> ends_recorded d ->
  pd_comps_ok d = Ok true <->
  ncomps d <= MAXCOMPONENTS d /\
  concat (map cp_edge (p_comp d)) = seq 0 (nedges d) /\
  (forall c, In c (p_comp d) -> cyclically (continues d) (cp_edge c)) /\
  NoDup (map cp_tag (p_comp d)) /\
  (forall t t', In t (map cp_tag (p_comp d)) -> In t' (map cp_tag (p_comp d)) -> (t < t')%Z -> (65 <= t')%Z).
Proof.
  intros d Hn R. unfold pd_comps_ok. destruct (Nat.ltb_spec (MAXCOMPONENTS d) (ncomps d)) as [M|M].
  { split; [discriminate|intros (H & _); lia]. }
  destruct (Nat.eqb_spec (ncross d) 0); [lia|].
  assert (T : tags_ok (isort Z.leb (map cp_tag (p_comp d))) = true <->
     NoDup (map cp_tag (p_comp d)) /\
     (forall t t', In t (map cp_tag (p_comp d)) -> In t' (map cp_tag (p_comp d)) -> (t < t')%Z -> (65 <= t')%Z)).
  { rewrite tags_ok_sorted by apply isort_leb_sorted. pose proof (isort_perm Z.leb (map cp_tag (p_comp d))) as P.
    split; intros (N & H); split.
    - eapply Permutation_NoDup; eauto.
    - intros t t' H1 H2. apply H; eapply Permutation_in; try (symmetry; exact P); auto.
    - eapply Permutation_NoDup; [symmetry|]; eauto.
    - intros t t' H1 H2. apply H; eapply Permutation_in; try exact P; auto. }
  assert (C : forall cs, Forall (fun c => cyclically (straight d) (cp_edge c)) cs <->
                         (forall c, In c cs -> cyclically (continues d) (cp_edge c))).
  { intros cs. rewrite Forall_forall. split; intros H c Hc i a b Ha Hb.
    - apply straight_continues; auto. eapply H; eauto.
    - apply straight_continues; auto. eapply H; eauto. }
  rewrite <- T, <- C. split.
  - intros H. apply bind_ok in H as ((b, m) & H1 & H2). cbn [fst snd] in H2. destruct b; [|discriminate].
    cbn [negb] in H2. destruct (Nat.eqb_spec m (nedges d)) as [E|E]; [|discriminate]. cbn [negb] in H2.
    apply comps_walk_true in H1 as (H1 & H3 & H4). cbn in H1. inversion H2 as [H5]. rewrite H5.
    repeat split; auto. congruence.
  - intros (_ & H1 & H2 & H3). assert (W : comps_walk d 0 (p_comp d) = Ok (true, nedges d)).
    { apply comps_walk_true. rewrite H1, seq_length. auto. }
    rewrite W. cbn [bind fst snd negb]. rewrite Nat.eqb_refl. cbn [negb]. rewrite H3. auto.
Qed.

(** * pd_faces_ok *)
Lemma oriented_ok : forall E o X, pd_oriented_edge E o = Ok X ->
  (o = Pos /\ X = E) \/ (o = Neg /\ X = mkEdge (e_tail E) (e_tailpos E) (e_head E) (e_headpos E)).
Proof. intros E o X. destruct o; cbn; intros H; inversion H; auto. Qed.

Lemma face_step_spec : forall d f i, ends_recorded d -> i < length f ->
  face_step_ok d f i = Ok true <->
  exists a b, nth_error f i = Some a /\ nth_error f ((i + 1) mod length f) = Some b /\ left_turn d a b.
Proof.
  intros d f i R Hi. unfold face_step_ok. split.
  - intros H. apply bind_ok in H as ((ea, oa) & H1 & H). apply bind_ok in H as ((eb, ob) & H2 & H).
    apply get_ok in H1, H2. exists (ea, oa), (eb, ob). cbn [fst snd] in H. split; auto. split; auto.
    destruct (nedges d <=? ea); [discriminate|]. destruct (nedges d <=? eb); [discriminate|].
    apply bind_ok in H as (A & HA & H). apply bind_ok in H as (B & HB & H). apply get_ok in HA, HB.
    apply bind_ok in H as (X & HX & H). apply bind_ok in H as (Y & HY & H).
    apply ok_inj in H. rename H into H5. apply andb_true_iff in H5 as (H6 & H7). apply Nat.eqb_eq in H6, H7.
    exists (e_head X), (e_headpos X). destruct R as (_ & R).
    destruct (R ea A HA) as (SA1 & SA2). destruct (R eb B HB) as (SB1 & SB2).
    apply slot_lt in SA1, SA2, SB1, SB2.
    assert (PX : e_headpos X < 4) by (rewrite <- H7; apply Nat.mod_upper_bound; lia).
    assert (PY : e_tailpos Y < 4).
    { apply oriented_ok in HY as [(-> & ->)|(-> & ->)]; cbn; tauto. }
    split; auto. split.
    + exists A. split; auto. cbn [fst snd]. unfold head_slot, tail_slot.
      apply oriented_ok in HX as [(-> & ->)|(-> & ->)]; cbn; auto.
    + assert (EP : (e_headpos X + 3) mod 4 = e_tailpos Y).
      { rewrite <- H7. destruct (e_tailpos Y) as [|[|[|[|]]]]; cbn; auto; lia. }
      rewrite EP, H6. exists B. split; auto. cbn [fst snd]. unfold head_slot, tail_slot.
      apply oriented_ok in HY as [(-> & ->)|(-> & ->)]; cbn; auto.
  - intros ((ea, oa) & (eb, ob) & H1 & H2 & c & p & Hp & (A & HA & KA) & (B & HB & KB)).
    rewrite (proj2 (get_ok _ _ _ _) H1). cbn [bind]. rewrite (proj2 (get_ok _ _ _ _) H2). cbn [bind].
    cbn [fst snd] in *. pose proof (edge_at_lt _ _ _ HA). pose proof (edge_at_lt _ _ _ HB).
    destruct (Nat.leb_spec (nedges d) ea); [lia|]. destruct (Nat.leb_spec (nedges d) eb); [lia|].
    rewrite (proj2 (get_ok _ _ _ _) HA). cbn [bind]. rewrite (proj2 (get_ok _ _ _ _) HB). cbn [bind].
    assert (EP : ((p + 3) mod 4 + 1) mod 4 = p).
    { destruct p as [|[|[|[|]]]]; cbn; auto; lia. }
    unfold head_slot, tail_slot in *.
    destruct KA as [(-> & KA)|(-> & KA)]; destruct KB as [(-> & KB)|(-> & KB)];
      apply pair_equal_spec in KA as (KA1 & KA2); apply pair_equal_spec in KB as (KB1 & KB2); cbn [pd_oriented_edge bind e_head e_headpos e_tail e_tailpos];
      rewrite <- ?KA1, <- ?KA2, <- ?KB1, <- ?KB2, EP, !Nat.eqb_refl; reflexivity.
Qed.

Lemma face_ok_spec : forall d f, ends_recorded d ->
  face_ok d f = Ok true <-> f <> [] /\ (forall a, In a f -> is_dart d a) /\ cyclically (left_turn d) f.
Proof.
  intros d f R. unfold face_ok. destruct (Nat.eqb_spec (length f) 0) as [L|L].
  { split; [discriminate|]. intros (H & _). destruct f; [congruence|discriminate]. }
  rewrite all_ok_spec. split.
  - intros H. assert (K : forall i, i < length f -> exists a b, nth_error f i = Some a /\
       nth_error f ((i + 1) mod length f) = Some b /\ left_turn d a b).
    { intros i Hi. apply face_step_spec; auto. apply H, in_seq. lia. }
    split; [intros ->; cbn in L; lia|]. split.
    + intros a Ha. apply In_nth_error in Ha as (i & Hi). destruct (K i) as (a' & b & H1 & _ & c & p & _ & H2 & _).
      { apply nth_error_Some. congruence. }
      assert (a' = a) by congruence. subst. apply dart_to_dto in H2. tauto.
    + intros i a b Ha Hb. destruct (K i) as (a' & b' & H1 & H2 & H3).
      { apply nth_error_Some. congruence. }
      assert (a = a') by congruence. assert (b = b') by congruence. subst. auto.
  - intros (_ & _ & C) i Hi. apply in_seq in Hi. apply face_step_spec; auto; [lia|].
    destruct (nth_error f i) as [a|] eqn:Ha.
    2:{ apply nth_error_None in Ha. lia. }
    destruct (nth_error f ((i + 1) mod length f)) as [b|] eqn:Hb.
    2:{ apply nth_error_None in Hb. assert ((i + 1) mod length f < length f) by (apply Nat.mod_upper_bound; lia). lia. }
    exists a, b. repeat split; auto. eapply C; eauto.
Qed.

Lemma face_canonical_spec : forall f, face_canonical f = true <-> starts_low f.
Proof.
  intros [|a f]; unfold starts_low; cbn; [split; auto; discriminate|]. rewrite forallb_forall. split.
  - intros H a' b E. inversion E; subst. intros [->|Hb]; auto. apply Nat.leb_le. auto.
  - intros H b Hb. apply Nat.leb_le. eapply H; eauto.
Qed.

Lemma faces_ok_spec : forall d, 0 < ncross d -> ends_recorded d ->
  pd_faces_ok d = Ok true <->
  nfaces d <= MAXFACES d /\
  (forall f, In f (p_face d) ->
     f <> [] /\ (forall a, In a f -> is_dart d a) /\ cyclically (left_turn d) f /\ starts_low f) /\
  faces_sorted d.
Proof.
  intros d Hn R. unfold pd_faces_ok. destruct (Nat.ltb_spec (MAXFACES d) (nfaces d)) as [M|M].
  { split; [discriminate|intros (H & _); lia]. }
  destruct (Nat.eqb_spec (ncross d) 0); [lia|].
  assert (S : adjacent (fun a b => not_gt (pd_face_cmp a b)) (p_face d) = true <-> faces_sorted d).
  { apply adjacent_sorted; [intros; apply face_cmp_spec|apply big_first_trans]. }
  rewrite <- S. split.
  - intros H. apply bind_ok in H as (b & H1 & H2). destruct b; [|discriminate]. cbn [negb] in H2.
    destruct (forallb face_canonical (p_face d)) eqn:E; [|discriminate]. cbn [negb] in H2. inversion H2 as [H3].
    rewrite H3. rewrite forallb_forall in E. rewrite all_ok_spec in H1. split; auto. split; auto.
    intros f Hf. specialize (H1 f Hf). apply face_ok_spec in H1; auto. specialize (E f Hf).
    apply face_canonical_spec in E. tauto.
  - intros (_ & H & HS). assert (A : all_ok (face_ok d) (p_face d) = Ok true).
    { apply all_ok_spec. intros f Hf. apply face_ok_spec; auto. specialize (H f Hf). tauto. }
    assert (B : forallb face_canonical (p_face d) = true).
    { apply forallb_forall. intros f Hf. apply face_canonical_spec. specialize (H f Hf). tauto. }
    rewrite A. cbn [bind negb]. rewrite B. cbn [negb]. rewrite HS. auto.
Qed.

(** the other checks do not look at faces *)
Lemma comps_walk_ext : forall d d', p_edge d = p_edge d' ->
  forall cs num, comps_walk d num cs = comps_walk d' num cs.
Proof.
  intros d d' E. induction cs as [|c cs IH]; intros num; cbn [comps_walk]; auto.
  unfold comp_edge_ok. rewrite E. destruct (all_ok _ _) as [[]| | |]; cbn [bind]; auto.
Qed.
Lemma comps_ok_faces : forall d fs, pd_comps_ok (with_faces d fs) = pd_comps_ok d.
Proof.
  intros d fs. unfold pd_comps_ok.
  rewrite (comps_walk_ext (with_faces d fs) d) by reflexivity. reflexivity.
Qed.
