(** Proofs about the sampler of permutations with a given number of ascents. *)
From Coq Require Import List Arith ZArith QArith Permutation Lia Bool.
From Verif Require Import Base Pd KAscent KAscentSpec.
Import ListNotations.
Open Scope nat_scope.

(** ** lists *)
Definition ins_at (p x : nat) (l : list nat) : list nat := firstn p l ++ x :: skipn p l.
Definition gaps (cmp : nat -> nat -> bool) (l : list nat) : list nat :=
  filter (fun p => cmp (nth (p - 1) l 0) (nth p l 0)) (seq 1 (length l - 1)).
Definition up : nat -> nat -> bool := fun a b => a <? b.
Definition down : nat -> nat -> bool := fun a b => b <? a.
Definition spots_old (l : list nat) : list nat := gaps up l ++ [0].
Definition spots_new (l : list nat) : list nat := gaps down l ++ [length l].

Lemma filter_map_length : forall A B (f : A -> B) (p : B -> bool) (l : list A),
  length (filter p (map f l)) = length (filter (fun x => p (f x)) l).
Proof. induction l; simpl; auto. destruct (p (f a)); simpl; auto. Qed.
Lemma filter_length_ext : forall A (p q : A -> bool) (l : list A),
  (forall x, In x l -> p x = q x) -> length (filter p l) = length (filter q l).
Proof.
  induction l; simpl; intros; auto. rewrite (H a) by auto. destruct (q a); simpl; rewrite IHl; auto.
Qed.
Lemma gaps_ascents : forall l, length (gaps up l) = ascents l.
Proof.
  intro l. unfold gaps, ascents. rewrite <- (seq_shift (length l - 1) 0), filter_map_length.
  apply filter_length_ext. intros x _. unfold up.
  replace (S x - 1) with x by lia. replace (x + 1) with (S x) by lia. reflexivity.
Qed.
Lemma gaps_descents : forall l, length (gaps down l) = descents l.
Proof.
  intro l. unfold gaps, descents. rewrite <- (seq_shift (length l - 1) 0), filter_map_length.
  apply filter_length_ext. intros x _. unfold down.
  replace (S x - 1) with x by lia. replace (x + 1) with (S x) by lia. reflexivity.
Qed.

(** counting by recursion *)
Fixpoint asc (l : list nat) : nat :=
  match l with
  | [] => 0
  | a :: r => match r with [] => 0 | b :: _ => (if a <? b then 1 else 0) + asc r end
  end.
Lemma asc_ascents : forall l, ascents l = asc l.
Proof.
  induction l as [|a [|b r] IH]; [reflexivity|reflexivity|].
  change (asc (a :: b :: r)) with ((if a <? b then 1 else 0) + asc (b :: r)). rewrite <- IH.
  unfold ascents. replace (length (a :: b :: r) - 1) with (S (length (b :: r) - 1)) by (simpl; lia).
  simpl seq. rewrite <- seq_shift. cbn [filter].
  change (nth 0 (a :: b :: r) 0 <? nth (0 + 1) (a :: b :: r) 0) with (a <? b).
  destruct (a <? b); cbn [length]; rewrite filter_map_length; simpl; reflexivity.
Qed.
Lemma asc_app : forall u a v, asc (u ++ a :: v) = asc (u ++ [a]) + asc (a :: v).
Proof.
  induction u as [|c [|d u] IH]; intros a v; [reflexivity| |].
  - simpl. lia.
  - change (asc (c :: d :: u ++ a :: v)) with ((if c <? d then 1 else 0) + asc ((d :: u) ++ a :: v)).
    change (asc ((c :: d :: u) ++ [a])) with ((if c <? d then 1 else 0) + asc ((d :: u) ++ [a])).
    change ((c :: d :: u) ++ a :: v) with (c :: d :: u ++ a :: v).
    change (asc (c :: d :: u ++ a :: v)) with ((if c <? d then 1 else 0) + asc ((d :: u) ++ a :: v)).
    rewrite IH. lia.
Qed.

Lemma ascents_descents : forall l, NoDup l -> ascents l + descents l = length l - 1.
Proof.
  intros l N. unfold ascents, descents.
  assert (G : forall is, (forall i, In i is -> i + 1 < length l) ->
     length (filter (fun i => nth i l 0 <? nth (i + 1) l 0) is) +
     length (filter (fun i => nth (i + 1) l 0 <? nth i l 0) is) = length is).
  { induction is as [|i is IH]; intro H; [reflexivity|]. simpl.
    assert (nth i l 0 <> nth (i + 1) l 0).
    { intro E. apply (proj1 (NoDup_nth l 0) N) in E; try lia; specialize (H i (or_introl eq_refl)); lia. }
    specialize (IH (fun j Hj => H j (or_intror Hj))).
    destruct (Nat.ltb_spec (nth i l 0) (nth (i + 1) l 0)), (Nat.ltb_spec (nth (i + 1) l 0) (nth i l 0)); simpl; lia. }
  rewrite G, seq_length; auto. intros i Hi. apply in_seq in Hi. lia.
Qed.

Lemma ins_length : forall p x l, length (ins_at p x l) = S (length l).
Proof.
  intros. unfold ins_at. rewrite app_length. simpl. rewrite firstn_length, skipn_length. lia.
Qed.
Lemma nth_ins : forall p x l i, p <= length l ->
  nth i (ins_at p x l) 0 = if i <? p then nth i l 0 else if i =? p then x else nth (i - 1) l 0.
Proof.
  intros p x l i H. unfold ins_at.
  destruct (Nat.ltb_spec i p).
  - rewrite app_nth1 by (rewrite firstn_length; lia).
    rewrite <- (firstn_skipn p l) at 2. rewrite app_nth1; auto. rewrite firstn_length; lia.
  - rewrite app_nth2 by (rewrite firstn_length; lia). rewrite firstn_length. replace (min p (length l)) with p by lia.
    destruct (Nat.eqb_spec i p).
    + subst. rewrite Nat.sub_diag. reflexivity.
    + replace (i - p) with (S (i - p - 1)) by lia. simpl.
      rewrite <- (firstn_skipn p l) at 2. rewrite app_nth2 by (rewrite firstn_length; lia).
      rewrite firstn_length. f_equal. lia.
Qed.
Lemma ins_perm : forall p x l, Permutation (x :: l) (ins_at p x l).
Proof.
  intros. unfold ins_at. rewrite <- Permutation_middle. rewrite firstn_skipn. reflexivity.
Qed.
Lemma split_ins : forall x u v, u ++ x :: v = ins_at (length u) x (u ++ v).
Proof.
  intros. unfold ins_at. rewrite firstn_app, Nat.sub_diag, firstn_all, skipn_app, Nat.sub_diag, skipn_all. simpl.
  rewrite app_nil_r. reflexivity.
Qed.
Lemma ins_inj : forall p q x l m, ~ In x l -> ~ In x m -> p <= length l -> q <= length m ->
  ins_at p x l = ins_at q x m -> p = q /\ l = m.
Proof.
  intros p q x l m Hl Hm Pl Pm E.
  assert (p = q).
  { destruct (Nat.lt_trichotomy p q) as [L | [L | L]]; auto; exfalso.
    - assert (A : nth p (ins_at p x l) 0 = nth p (ins_at q x m) 0) by (f_equal; auto).
      rewrite !nth_ins in A by auto. rewrite Nat.ltb_irrefl, Nat.eqb_refl in A.
      destruct (Nat.ltb_spec p q); [|lia]. apply Hm. rewrite A. apply nth_In. lia.
    - assert (A : nth q (ins_at p x l) 0 = nth q (ins_at q x m) 0) by (f_equal; auto).
      rewrite !nth_ins in A by auto. rewrite Nat.ltb_irrefl, Nat.eqb_refl in A.
      destruct (Nat.ltb_spec q p); [|lia]. apply Hl. rewrite <- A. apply nth_In. lia. }
  subst q. split; auto. unfold ins_at in E.
  assert (length l = length m).
  { assert (length (ins_at p x l) = length (ins_at p x m)) by (unfold ins_at; congruence). rewrite !ins_length in H. lia. }
  rewrite <- (firstn_skipn p l), <- (firstn_skipn p m).
  assert (A : firstn p l = firstn p m).
  { apply (f_equal (firstn p)) in E.
    rewrite !firstn_app, !firstn_length in E.
    replace (p - min p (length l)) with 0 in E by lia. replace (p - min p (length m)) with 0 in E by lia.
    simpl in E. rewrite !app_nil_r, !firstn_firstn, !Nat.min_id in E. exact E. }
  rewrite A in *. apply app_inv_head in E. congruence.
Qed.

(** ** the places where a number can be inserted *)
Lemma gaps_in : forall cmp l p, In p (gaps cmp l) <-> 1 <= p < length l /\ cmp (nth (p - 1) l 0) (nth p l 0) = true.
Proof. intros. unfold gaps. rewrite filter_In, in_seq. intuition lia. Qed.
Lemma gaps_nodup : forall cmp l, NoDup (gaps cmp l).
Proof. intros. apply NoDup_filter, seq_NoDup. Qed.
Lemma nodup_end : forall (l : list nat) x, NoDup l -> ~ In x l -> NoDup (l ++ [x]).
Proof.
  intros. apply Permutation_NoDup with (x :: l); [apply Permutation_cons_append|]. constructor; auto.
Qed.
Lemma spots_old_nodup : forall l, NoDup (spots_old l).
Proof. intro. apply nodup_end; [apply gaps_nodup|]. rewrite gaps_in. lia. Qed.
Lemma spots_new_nodup : forall l, NoDup (spots_new l).
Proof. intro. apply nodup_end; [apply gaps_nodup|]. rewrite gaps_in. lia. Qed.
Lemma spots_old_le : forall l p, In p (spots_old l) -> p <= length l.
Proof.
  intros l p H. apply in_app_or in H. rewrite gaps_in in H. destruct H as [H | [<- | []]]; lia.
Qed.
Lemma spots_new_le : forall l p, In p (spots_new l) -> p <= length l.
Proof.
  intros l p H. apply in_app_or in H. rewrite gaps_in in H. destruct H as [H | [<- | []]]; lia.
Qed.

Lemma split_pair : forall l p, 1 <= p < length l -> exists u v,
  l = u ++ nth (p - 1) l 0 :: nth p l 0 :: v /\ length u = p - 1.
Proof.
  intros l p H. exists (firstn (p - 1) l), (skipn (p + 1) l). split; [|rewrite firstn_length; lia].
  rewrite <- (firstn_skipn (p - 1) l) at 1. f_equal.
  assert (G : forall k (l : list nat), k + 1 < length l -> skipn k l = nth k l 0 :: nth (k + 1) l 0 :: skipn (k + 2) l).
  { induction k; intros m Hm.
    - destruct m as [|a [|b m]]; simpl in Hm; try lia. reflexivity.
    - destruct m as [|a m]; simpl in Hm; try lia. simpl. apply IHk. lia. }
  rewrite G by lia. replace (p - 1 + 1) with p by lia. replace (p - 1 + 2) with (p + 1) by lia. reflexivity.
Qed.

Lemma ascents_ins : forall l x p, l <> [] -> (forall y, In y l -> y < x) -> p <= length l ->
  ascents (ins_at p x l) = ascents l +
    (if p =? 0 then 0 else if p =? length l then 1 else if nth (p - 1) l 0 <? nth p l 0 then 0 else 1).
Proof.
  intros l x p Hne Hx Hp. rewrite !asc_ascents.
  destruct (Nat.eqb_spec p 0) as [E | E].
  - subst p. unfold ins_at. simpl firstn. simpl skipn. rewrite Nat.add_0_r.
    destruct l as [|a l]; [congruence|]. cbn [app]. cbn [asc].
    specialize (Hx a (or_introl eq_refl)). destruct (Nat.ltb_spec x a); [lia|]. reflexivity.
  - destruct (Nat.eqb_spec p (length l)) as [E2 | E2].
    + subst p. unfold ins_at. rewrite firstn_all, skipn_all.
      destruct (exists_last Hne) as [u [a ->]]. rewrite <- app_assoc. cbn [app]. rewrite asc_app. cbn [asc].
      assert (a < x) by (apply Hx, in_or_app; right; left; auto).
      destruct (Nat.ltb_spec a x); [|lia]. lia.
    + destruct (split_pair l p) as [u [v [El Lu]]]; [lia|].
      set (a := nth (p - 1) l 0) in *. set (b := nth p l 0) in *. clearbody a b.
      assert (a < x) by (apply Hx; rewrite El; apply in_or_app; right; left; auto).
      assert (b < x) by (apply Hx; rewrite El; apply in_or_app; right; right; left; auto).
      assert (Ei : ins_at p x l = u ++ a :: x :: b :: v).
      { rewrite El. replace (u ++ a :: b :: v) with ((u ++ [a]) ++ b :: v) by (rewrite <- app_assoc; reflexivity).
        replace (u ++ a :: x :: b :: v) with ((u ++ [a]) ++ x :: b :: v) by (rewrite <- app_assoc; reflexivity).
        rewrite (split_ins x). f_equal. rewrite app_length; simpl; lia. }
      rewrite Ei. rewrite El. rewrite (asc_app u a (x :: b :: v)), (asc_app u a (b :: v)).
      change (asc (a :: x :: b :: v)) with ((if a <? x then 1 else 0) + ((if x <? b then 1 else 0) + asc (b :: v))).
      change (asc (a :: b :: v)) with ((if a <? b then 1 else 0) + asc (b :: v)).
      destruct (Nat.ltb_spec a x), (Nat.ltb_spec x b), (Nat.ltb_spec a b); lia.
Qed.

Lemma ascents_old : forall l x p, l <> [] -> (forall y, In y l -> y < x) -> In p (spots_old l) ->
  ascents (ins_at p x l) = ascents l.
Proof.
  intros l x p Hne Hx Hp. rewrite ascents_ins; auto using spots_old_le.
  apply in_app_or in Hp. rewrite gaps_in in Hp. unfold up in Hp. destruct Hp as [[Hp Hb] | [<- | []]]; [|simpl; lia].
  rewrite Hb. destruct (Nat.eqb_spec p 0), (Nat.eqb_spec p (length l)); lia.
Qed.
Lemma ascents_new : forall l x p, l <> [] -> (forall y, In y l -> y < x) -> In p (spots_new l) ->
  ascents (ins_at p x l) = S (ascents l).
Proof.
  intros l x p Hne Hx Hp. rewrite ascents_ins; auto using spots_new_le.
  apply in_app_or in Hp. rewrite gaps_in in Hp. unfold down in Hp. destruct Hp as [[Hp Hb] | [<- | []]].
  - apply Nat.ltb_lt in Hb. destruct (Nat.eqb_spec p 0), (Nat.eqb_spec p (length l)), (Nat.ltb_spec (nth (p - 1) l 0) (nth p l 0)); lia.
  - rewrite Nat.eqb_refl. destruct (Nat.eqb_spec (length l) 0); [|lia]. destruct l; simpl in *; congruence.
Qed.
Lemma spots_cover : forall l p, NoDup l -> p <= length l -> In p (spots_old l) \/ In p (spots_new l).
Proof.
  intros l p N H. unfold spots_old, spots_new. rewrite !in_app_iff, !gaps_in. unfold up, down. simpl.
  destruct (Nat.eq_dec p 0); [auto|]. destruct (Nat.eq_dec p (length l)); [auto|].
  assert (nth (p - 1) l 0 <> nth p l 0).
  { intro E. apply (proj1 (NoDup_nth l 0) N) in E; lia. }
  destruct (Nat.lt_total (nth (p - 1) l 0) (nth p l 0)) as [L | [L | L]]; [left; left|congruence|right; left];
    (split; [lia|apply Nat.ltb_lt; auto]).
Qed.

(** ** permutations of 1..n *)
Lemma perm_facts : forall n l, Permutation (seq 1 n) l -> NoDup l /\ length l = n /\ (forall y, In y l <-> 1 <= y <= n).
Proof.
  intros n l P. split; [|split].
  - apply Permutation_NoDup with (seq 1 n); auto. apply seq_NoDup.
  - apply Permutation_length in P. rewrite seq_length in P. auto.
  - intro y. split; intro H.
    + apply Permutation_sym in P. apply (Permutation_in y P) in H. apply in_seq in H. lia.
    + apply (Permutation_in y P). apply in_seq. lia.
Qed.
Lemma perm_grow : forall m l p, Permutation (seq 1 m) l -> Permutation (seq 1 (S m)) (ins_at p (S m) l).
Proof.
  intros m l p P. rewrite <- ins_perm. rewrite seq_S. rewrite <- Permutation_cons_append. simpl. constructor. auto.
Qed.
Lemma perm_shrink : forall m l, Permutation (seq 1 (S m)) l ->
  exists p l', l = ins_at p (S m) l' /\ Permutation (seq 1 m) l' /\ p <= length l'.
Proof.
  intros m l P. destruct (perm_facts _ _ P) as [N [L I]].
  destruct (in_split (S m) l) as [u [v ->]]; [apply I; lia|].
  exists (length u), (u ++ v). split; [apply split_ins|]. split; [|rewrite app_length; lia].
  rewrite seq_S in P. apply Permutation_cons_inv with (1 + m).
  rewrite Permutation_cons_append, P. simpl. rewrite <- Permutation_middle. reflexivity.
Qed.
Lemma ascents_le : forall l, ascents l <= length l - 1.
Proof.
  intro l. unfold ascents.
  assert (G : forall is p, length (@filter nat p is) <= length is).
  { induction is; intro p; simpl; auto. destruct (p a); simpl; specialize (IHis p); lia. }
  rewrite G, seq_length. lia.
Qed.
Lemma asc_seq : forall m a, asc (seq a m) = m - 1.
Proof.
  induction m as [|[|m] IH]; intro a; auto.
  change (seq a (S (S m))) with (a :: seq (S a) (S m)).
  change (asc (a :: seq (S a) (S m))) with ((if a <? S a then 1 else 0) + asc (seq (S a) (S m))).
  rewrite IH. destruct (Nat.ltb_spec a (S a)); lia.
Qed.
Definition falling (m : nat) : list nat := map (fun i => m - i) (seq 0 m).
Lemma falling_S : forall m, falling (S m) = S m :: falling m.
Proof.
  intro m. unfold falling. cbn [seq map]. f_equal.
  rewrite <- seq_shift, map_map. apply map_ext. intro. lia.
Qed.
Lemma falling_asc : forall m, asc (falling m) = 0.
Proof.
  induction m as [|[|m] IH]; auto. rewrite falling_S. rewrite falling_S in *.
  change (asc (S (S m) :: S m :: falling m)) with ((if S (S m) <? S m then 1 else 0) + asc (S m :: falling m)).
  rewrite IH. destruct (Nat.ltb_spec (S (S m)) (S m)); lia.
Qed.
Lemma falling_perm : forall m, Permutation (seq 1 m) (falling m).
Proof.
  induction m; auto. rewrite falling_S, seq_S, <- Permutation_cons_append. simpl. auto.
Qed.
Lemma only_falling : forall m l, Permutation (seq 1 m) l -> ascents l = 0 -> l = falling m.
Proof.
  induction m; intros l P A.
  - apply Permutation_nil in P. auto.
  - destruct (perm_shrink _ _ P) as [p [l' [-> [P' Hp]]]].
    destruct (perm_facts _ _ P') as [N [L I]].
    rewrite falling_S. destruct m as [|m].
    + destruct l'; [|discriminate]. destruct p; reflexivity.
    + assert (Hne : l' <> []) by (destruct l'; [discriminate|congruence]).
      assert (Hx : forall y, In y l' -> y < S (S m)) by (intros y Hy; apply I in Hy; lia).
      rewrite ascents_ins in A by auto.
      rewrite <- (IHm l') by (auto; lia).
      destruct (Nat.eqb_spec p 0); [subst; reflexivity|].
      destruct (Nat.eqb_spec p (length l')); [lia|].
      destruct (Nat.ltb_spec (nth (p - 1) l' 0) (nth p l' 0)); [|lia].
      assert (In p (gaps up l')) by (apply gaps_in; split; [lia|apply Nat.ltb_lt; auto]).
      pose proof (gaps_ascents l') as G. destruct (gaps up l'); [contradiction|]. simpl in G. lia.
Qed.
Lemma only_rising : forall m l, Permutation (seq 1 m) l -> ascents l = m - 1 -> l = seq 1 m.
Proof.
  induction m; intros l P A.
  - apply Permutation_nil in P. auto.
  - destruct (perm_shrink _ _ P) as [p [l' [-> [P' Hp]]]].
    destruct (perm_facts _ _ P') as [N [L I]].
    rewrite seq_S. destruct m as [|m].
    + destruct l'; [|discriminate]. destruct p; reflexivity.
    + assert (Hne : l' <> []) by (destruct l'; [discriminate|congruence]).
      assert (Hx : forall y, In y l' -> y < S (S m)) by (intros y Hy; apply I in Hy; lia).
      rewrite ascents_ins in A by auto.
      pose proof (ascents_le l').
      destruct (Nat.eqb_spec p 0); [lia|].
      destruct (Nat.eqb_spec p (length l')).
      * subst p. unfold ins_at. rewrite firstn_all, skipn_all. rewrite (IHm l') by (auto; lia). reflexivity.
      * destruct (Nat.ltb_spec (nth (p - 1) l' 0) (nth p l' 0)); [lia|].
        assert (In p (gaps down l')).
        { apply gaps_in; split; [lia|]. apply Nat.ltb_lt.
          assert (nth (p - 1) l' 0 <> nth p l' 0) by (intro E; apply (proj1 (NoDup_nth l' 0) N) in E; lia). lia. }
        pose proof (gaps_descents l') as G. pose proof (ascents_descents l' N).
        destruct (gaps down l'); [contradiction|]. simpl in G. lia.
Qed.

(** ** the sizes and numbers of ascents gone through *)
Inductive path : nat -> nat -> list (nat * nat) -> Prop :=
| path_last : forall m k k', 1 <= k <= m -> k' = k \/ S k' = k -> k' <= m - 1 -> k' = 0 \/ k' = m - 1 ->
    path (S m) k [(S m, k); (m, k')]
| path_more : forall m k k' cv, 1 <= k <= m -> k' = k \/ S k' = k -> k' <= m - 1 -> k' <> 0 -> k' <> m - 1 ->
    path m k' cv -> path (S m) k ((S m, k) :: cv).
Fixpoint draws (cv : list (nat * nat)) : list bool :=
  match cv with
  | [] => []
  | (n, k) :: cv' => match cv' with [] => [] | (n', k') :: _ => negb (k' =? k) :: draws cv' end
  end.

Lemma path_head : forall n k cv, path n k cv -> exists cv', cv = (n, k) :: cv'.
Proof. intros n k cv []; eauto. Qed.
Lemma path_bounds : forall n k cv, path n k cv -> 1 <= k < n.
Proof. intros n k cv []; lia. Qed.

Lemma choice_sound : forall room n k ds cv rest, choice_loop room n k ds = Ok (cv, rest) ->
  path n k cv /\ ds = draws cv ++ rest.
Proof.
  induction room; intros n k ds cv rest H; [discriminate|]. cbn [choice_loop] in H.
  destruct (in_table n k) eqn:T; [|discriminate]. cbn [negb] in H.
  destruct ds as [|b ds]; [discriminate|].
  unfold in_table in T. rewrite !andb_true_iff in T. destruct T as [[T1 T2] _].
  apply Nat.leb_le in T1. apply Nat.ltb_lt in T2.
  destruct n as [|m]; [lia|].
  destruct (certain (S m) k && negb b) eqn:C; [discriminate|]. unfold certain in C.
  replace (S m - 1) with m in * by lia.
  set (k' := if b then k - 1 else k) in *.
  assert (K : k' = k \/ S k' = k) by (unfold k'; destruct b; lia).
  assert (K2 : k' <= m - 1).
  { unfold k'; destruct b; [lia|]. destruct (Nat.eqb_spec k m); [discriminate|]. lia. }
  assert (B : b = negb (k' =? k)).
  { unfold k'; destruct b; [destruct (Nat.eqb_spec (k - 1) k); auto; lia|rewrite Nat.eqb_refl; auto]. }
  clearbody k'.
  destruct (negb (k' =? m - 1) && negb (k' =? 0)) eqn:W.
  - rewrite andb_true_iff, !negb_true_iff, !Nat.eqb_neq in W.
    apply bind_ok in H as [[cv' r'] [H1 H2]]. injection H2 as <- <-. cbn [fst snd].
    apply IHroom in H1 as [P1 E1]. split; [eapply path_more; eauto; lia|].
    destruct (path_head _ _ _ P1) as [c2 ->]. rewrite B, E1. reflexivity.
  - destruct room; [discriminate|]. injection H as <- <-. split.
    + apply path_last; auto; try lia. destruct (Nat.eqb_spec k' (m - 1)), (Nat.eqb_spec k' 0); simpl in W; try lia; discriminate.
    + rewrite B. reflexivity.
Qed.
Lemma choice_complete : forall n k cv, path n k cv -> forall room rest, (Z.of_nat n <= 1000)%Z -> n <= room ->
  choice_loop room n k (draws cv ++ rest) = Ok (cv, rest).
Proof.
  assert (D : forall m k k', 1 <= k <= m -> k' = k \/ S k' = k -> k' <= m - 1 ->
     certain (S m) k && negb (negb (k' =? k)) = false /\ (if negb (k' =? k) then k - 1 else k) = k').
  { intros m k k' A B C. unfold certain. replace (S m - 1) with m by lia.
    destruct (Nat.eqb_spec k' k), (Nat.eqb_spec k m); simpl; split; auto; lia. }
  induction 1 as [m k k' A B C F | m k k' cv A B C F G P IH]; intros room rest Z1 R;
    (destruct room as [|room]; [lia|]); cbn [choice_loop];
    (replace (in_table (S m) k) with true
       by (symmetry; unfold in_table; rewrite !andb_true_iff, Nat.leb_le, Nat.ltb_lt, Z.leb_le; lia)); cbn [negb].
  - cbn [draws app]. destruct (D m k k' A B C) as [D1 D2]. rewrite D1, D2. replace (S m - 1) with m by lia.
    replace (negb (k' =? m - 1) && negb (k' =? 0)) with false.
    2: { symmetry. destruct F as [-> | ->]; rewrite Nat.eqb_refl; simpl; auto using andb_false_r. }
    destruct room; [lia|reflexivity].
  - destruct (path_head _ _ _ P) as [cv' ->].
    change (draws ((S m, k) :: (m, k') :: cv') ++ rest) with (negb (k' =? k) :: (draws ((m, k') :: cv') ++ rest)).
    cbv iota. destruct (D m k k' A B C) as [D1 D2]. rewrite D1, D2. replace (S m - 1) with m by lia.
    replace (negb (k' =? m - 1) && negb (k' =? 0)) with true.
    2: { symmetry. rewrite andb_true_iff, !negb_true_iff, !Nat.eqb_neq. auto. }
    rewrite (IH room rest) by lia. reflexivity.
Qed.
Lemma choice_safe : forall room n k ds, (Z.of_nat n <= 1000)%Z -> 1 <= k < n -> n <= room ->
  choice_loop room n k ds = Fuel \/ exists r, choice_loop room n k ds = Ok r.
Proof.
  induction room; intros n k ds Z1 K R; [lia|]. cbn [choice_loop].
  replace (in_table n k) with true
    by (symmetry; unfold in_table; rewrite !andb_true_iff, Nat.leb_le, Nat.ltb_lt, Z.leb_le; lia). cbn [negb].
  destruct ds as [|b ds]; auto. destruct (certain n k && negb b) eqn:C; auto.
  unfold certain in C.
  destruct (negb ((if b then k - 1 else k) =? n - 1 - 1) && negb ((if b then k - 1 else k) =? 0)) eqn:W.
  - rewrite andb_true_iff, !negb_true_iff, !Nat.eqb_neq in W.
    destruct (IHroom (n - 1) (if b then k - 1 else k) ds) as [E | [r E]]; try lia.
    + destruct b; [lia|]. destruct (Nat.eqb_spec k (n - 1)); [discriminate|]. lia.
    + rewrite E. auto.
    + rewrite E. right. eexists. reflexivity.
  - destruct room; [lia|]. eauto.
Qed.

(** ** the permutation built along a path *)
Fixpoint grow (cv : list (nat * nat)) (ps : list nat) : option (list nat * list nat) :=
  match cv with
  | [] => None
  | (n, k) :: cv' =>
      match cv' with
      | [] => Some (if k =? 0 then falling n else seq 1 n, ps)
      | (n', k') :: _ =>
          match grow cv' ps with
          | Some (l, p :: ps') =>
              match nth_error (if k' =? k then spots_old l else spots_new l) p with
              | Some g => Some (ins_at g n l, ps')
              | None => None
              end
          | _ => None
          end
      end
  end.
Lemma grow_cons : forall n k n' k' cv ps, grow ((n, k) :: (n', k') :: cv) ps =
  match grow ((n', k') :: cv) ps with
  | Some (l, p :: ps') =>
      match nth_error (if k' =? k then spots_old l else spots_new l) p with
      | Some g => Some (ins_at g n l, ps')
      | None => None
      end
  | _ => None
  end.
Proof. reflexivity. Qed.
Lemma base_k : forall m k, 1 <= m -> k = 0 \/ k = m - 1 -> k_ascent m k (if k =? 0 then falling m else seq 1 m).
Proof.
  intros m k Hm H. destruct (Nat.eqb_spec k 0).
  - split; [apply falling_perm|]. rewrite asc_ascents, falling_asc. auto.
  - split; [reflexivity|]. rewrite asc_ascents, asc_seq. lia.
Qed.
Lemma step_k : forall m k k' l p, 1 <= m -> k' = k \/ S k' = k -> k_ascent m k' l ->
  In p (if k' =? k then spots_old l else spots_new l) -> k_ascent (S m) k (ins_at p (S m) l).
Proof.
  intros m k k' l p Hm K [P A] I. split; [apply perm_grow; auto|].
  destruct (perm_facts _ _ P) as [N [L J]].
  assert (l <> []) by (intros ->; simpl in L; lia).
  assert (forall y, In y l -> y < S m) by (intros y Hy; apply J in Hy; lia).
  destruct (Nat.eqb_spec k' k).
  - rewrite ascents_old; auto. lia.
  - rewrite ascents_new; auto. lia.
Qed.
Lemma grow_k : forall n k cv, path n k cv -> forall ps l ps', grow cv ps = Some (l, ps') -> k_ascent n k l.
Proof.
  induction 1 as [m k k' A B C F | m k k' cv A B C F G P IH]; intros ps l ps' H.
  - rewrite grow_cons in H. cbn [grow] in H. destruct ps as [|p ps]; [discriminate|].
    destruct (nth_error _ p) as [g|] eqn:E; [|discriminate]. injection H as <- <-.
    apply nth_error_In in E. eapply step_k; eauto; [lia|]. apply base_k; auto. lia.
  - destruct (path_head _ _ _ P) as [cv' ->]. rewrite grow_cons in H.
    destruct (grow ((m, k') :: cv') ps) as [[l0 [|p ps0]]|] eqn:E0; try discriminate.
    destruct (nth_error _ p) as [g|] eqn:E; [|discriminate]. injection H as <- <-.
    apply nth_error_In in E. eapply step_k; eauto; lia.
Qed.
Lemma grow_app : forall cv ps l ps' r, grow cv ps = Some (l, ps') -> grow cv (ps ++ r) = Some (l, ps' ++ r).
Proof.
  induction cv as [|[n k] [|[n' k'] cv] IH]; intros ps l ps' r H; [discriminate| |].
  - cbn [grow] in *. injection H as <- <-. reflexivity.
  - rewrite grow_cons in *. destruct (grow ((n', k') :: cv) ps) as [[l0 [|p ps0]]|] eqn:E0; try discriminate.
    rewrite (IH _ _ _ r E0). cbn [app].
    destruct (nth_error _ p) as [g|] eqn:E; [|discriminate]. injection H as <- <-. reflexivity.
Qed.
Lemma grow_exists : forall n k l, 1 <= k < n -> k_ascent n k l ->
  exists cv ps, path n k cv /\ grow cv ps = Some (l, []).
Proof.
  induction n as [|m IH]; intros k l K [P A]; [lia|].
  destruct (perm_shrink _ _ P) as [p [l' [-> [P' Hp]]]].
  destruct (perm_facts _ _ P') as [N [L J]].
  assert (Hne : l' <> []) by (intros ->; simpl in L; lia).
  assert (Hx : forall y, In y l' -> y < S m) by (intros y Hy; apply J in Hy; lia).
  assert (Hle : ascents l' <= m - 1) by (rewrite <- L; apply ascents_le).
  assert (S0 : exists k' j, ascents l' = k' /\ (k' = k \/ S k' = k) /\
     nth_error (if k' =? k then spots_old l' else spots_new l') j = Some p).
  { destruct (spots_cover l' p N Hp) as [I | I].
    - rewrite ascents_old in A by auto. exists k. apply In_nth_error in I as [j Hj]. exists j.
      rewrite Nat.eqb_refl. auto.
    - rewrite ascents_new in A by auto. exists (ascents l'). apply In_nth_error in I as [j Hj]. exists j.
      split; auto. split; [lia|]. destruct (Nat.eqb_spec (ascents l') k); [lia|auto]. }
  destruct S0 as [k' [j [A' [K' Hj]]]].
  destruct (Nat.eq_dec k' 0) as [Z0 | Z0]; [|destruct (Nat.eq_dec k' (m - 1)) as [Z1 | Z1]].
  - exists [(S m, k); (m, k')], [j]. split; [apply path_last; auto; lia|].
    rewrite grow_cons. cbn [grow]. replace (if k' =? 0 then falling m else seq 1 m) with l'.
    + rewrite Hj. reflexivity.
    + rewrite Z0. simpl. apply only_falling; auto. lia.
  - exists [(S m, k); (m, k')], [j]. split; [apply path_last; auto; lia|].
    rewrite grow_cons. cbn [grow]. replace (if k' =? 0 then falling m else seq 1 m) with l'.
    + rewrite Hj. reflexivity.
    + destruct (Nat.eqb_spec k' 0); [lia|]. apply only_rising; auto. lia.
  - destruct (IH k' l') as [cv [ps [Pa G]]]; [lia|split; auto|].
    exists ((S m, k) :: cv), (ps ++ [j]). split; [eapply path_more; eauto; lia|].
    destruct (path_head _ _ _ Pa) as [cv' ->].
    rewrite grow_cons, (grow_app _ _ _ _ [j] G). cbn [app]. rewrite Hj. reflexivity.
Qed.
Lemma grow_taken : forall cv ps l r, grow cv ps = Some (l, r) -> exists ps', ps = ps' ++ r /\ grow cv ps' = Some (l, []).
Proof.
  induction cv as [|[n k] [|[n' k'] cv] IH]; intros ps l r H; [discriminate| |].
  - cbn [grow] in *. injection H as <- <-. exists []. auto.
  - rewrite grow_cons in H. destruct (grow ((n', k') :: cv) ps) as [[l0 [|p ps0]]|] eqn:E0; try discriminate.
    destruct (nth_error _ p) as [g|] eqn:E; [|discriminate]. injection H as <- <-.
    apply IH in E0 as [ps' [-> G]]. exists (ps' ++ [p]). split; [rewrite <- app_assoc; reflexivity|].
    rewrite grow_cons, (grow_app _ _ _ _ [p] G). cbn [app]. rewrite E. reflexivity.
Qed.
Lemma last_step : forall m k cv ps l, path (S m) k cv -> grow cv ps = Some (l, []) ->
  exists k' cv' ps' l' j g, cv = (S m, k) :: (m, k') :: cv' /\ ps = ps' ++ [j] /\
    grow ((m, k') :: cv') ps' = Some (l', []) /\ k_ascent m k' l' /\
    nth_error (if k' =? k then spots_old l' else spots_new l') j = Some g /\ l = ins_at g (S m) l' /\
    g <= length l' /\ ((cv' = [] /\ (k' = 0 \/ k' = m - 1)) \/ path m k' ((m, k') :: cv') /\ k' <> 0 /\ k' <> m - 1).
Proof.
  intros m k cv ps l P H.
  assert (Le : forall k' l' j g, nth_error (if k' =? k then spots_old l' else spots_new l') j = Some g -> g <= length l').
  { intros k' l' j g E. apply nth_error_In in E. destruct (k' =? k); auto using spots_old_le, spots_new_le. }
  inversion P as [m0 k0 k' A B C F | m0 k0 k' cv0 A B C F G P']; subst.
  - rewrite grow_cons in H. cbn [grow] in H. destruct ps as [|j ps]; [discriminate|].
    destruct (nth_error _ j) as [g|] eqn:E; [|discriminate]. injection H as <- ->.
    exists k', [], [], (if k' =? 0 then falling m else seq 1 m), j, g. repeat (split; [solve [auto]|]).
    split; [apply base_k; auto; lia|]. split; auto. split; auto. split; eauto.
  - destruct (path_head _ _ _ P') as [cv' ->]. rewrite grow_cons in H.
    destruct (grow ((m, k') :: cv') ps) as [[l0 [|j ps0]]|] eqn:E0; try discriminate.
    destruct (nth_error _ j) as [g|] eqn:E; [|discriminate]. injection H as <- ->.
    apply grow_taken in E0 as [ps' [-> G0]].
    exists k', cv', ps', l0, j, g. repeat (split; [solve [auto]|]). split; [eapply grow_k; eauto|].
    split; auto. split; auto. split; eauto.
Qed.
Lemma grow_unique : forall n k cv1 cv2 ps1 ps2 l, path n k cv1 -> path n k cv2 ->
  grow cv1 ps1 = Some (l, []) -> grow cv2 ps2 = Some (l, []) -> cv1 = cv2 /\ ps1 = ps2.
Proof.
  induction n as [|m IH]; intros k cv1 cv2 ps1 ps2 l P1 P2 G1 G2; [apply path_bounds in P1; lia|].
  destruct (last_step _ _ _ _ _ P1 G1) as [k1 [c1 [q1 [l1 [j1 [g1 [-> [-> [H1 [A1 [J1 [E1 [L1 D1]]]]]]]]]]]]].
  destruct (last_step _ _ _ _ _ P2 G2) as [k2 [c2 [q2 [l2 [j2 [g2 [-> [-> [H2 [A2 [J2 [E2 [L2 D2]]]]]]]]]]]]].
  destruct A1 as [A1 B1], A2 as [A2 B2].
  destruct (perm_facts _ _ A1) as [_ [_ I1]]. destruct (perm_facts _ _ A2) as [_ [_ I2]].
  assert (E : g1 = g2 /\ l1 = l2).
  { apply (ins_inj g1 g2 (S m)); auto; try congruence; [rewrite I1|rewrite I2]; lia. }
  destruct E as [<- <-]. assert (Ek : k2 = k1) by congruence. clear B1 B2. subst k2.
  assert (j1 = j2).
  { assert (N : NoDup (if k1 =? k then spots_old l1 else spots_new l1)) by (destruct (k1 =? k); auto using spots_old_nodup, spots_new_nodup).
    rewrite NoDup_nth_error in N. apply N; [|congruence]. apply nth_error_Some. congruence. }
  subst j2.
  destruct D1 as [[-> T1] | [D1 [Y1 X1]]], D2 as [[-> T2] | [D2 [Y2 X2]]]; try lia.
  - cbn [grow] in H1, H2. injection H1 as _ ->. injection H2 as _ ->. auto.
  - destruct (IH _ _ _ _ _ _ D1 D2 H1 H2) as [E3 ->]. injection E3 as ->. auto.
Qed.

(** ** the linked list holds the permutation *)
Record holds (w : wperm) (ix l : list nat) : Prop := {
  h_nodup : NoDup ix;
  h_len : length ix = length l;
  h_used : w_used w = length l;
  h_room : length l <= length (w_node w);
  h_ix : forall p, p < length l -> nth p ix 0 < length l;
  h_start : w_start w = nth 0 ix 0;
  h_some : l <> [];
  h_node : forall p, p < length l ->
    nth_error (w_node w) (nth p ix 0) = Some (nth p l 0, if p + 1 <? length l then Some (nth (p + 1) ix 0) else None)
}.
Definition repr (w : wperm) (l : list nat) : Prop := exists ix, holds w ix l.

Lemma ix_inj : forall w ix l p q, holds w ix l -> p < length l -> q < length l -> nth p ix 0 = nth q ix 0 -> p = q.
Proof.
  intros w ix l p q H Hp Hq E. destruct H. apply (proj1 (NoDup_nth ix 0) h_nodup0); auto; lia.
Qed.
Lemma used_new : forall w ix l, holds w ix l -> ~ In (w_used w) ix.
Proof.
  intros w ix l H I. destruct (In_nth ix _ 0 I) as [p [Hp E]]. destruct H.
  rewrite h_len0 in Hp. specialize (h_ix0 p Hp). lia.
Qed.
Lemma holds_ins : forall w ix l g x node', holds w ix l -> g <= length l -> length l < length (w_node w) ->
  node' = (if g =? 0 then upd (w_used w) (x, Some (w_start w)) (w_node w)
           else upd (nth (g - 1) ix 0) (nth (g - 1) l 0, Some (w_used w))
                    (upd (w_used w) (x, if g =? length l then None else Some (nth g ix 0)) (w_node w))) ->
  holds (mkW node' (if g =? 0 then w_used w else w_start w) (w_used w + 1)) (ins_at g (w_used w) ix) (ins_at g x l).
Proof.
  intros w ix l g x node' H Hg Hr En. pose proof (used_new _ _ _ H) as New.
  pose proof (ix_inj w ix l) as Inj. specialize (fun p q => Inj p q H).
  destruct H as [N Len Us Room Ix St Ne No].
  assert (Lix : g <= length ix) by lia.
  assert (Hl1 : 1 <= length l) by (destruct l; [congruence|simpl; lia]).
  constructor; cbn [w_node w_start w_used]; rewrite ?ins_length; try lia.
  - apply Permutation_NoDup with (w_used w :: ix); [apply ins_perm|]. constructor; auto.
  - subst node'. destruct (g =? 0); rewrite ?upd_length; lia.
  - intros p Hp. rewrite nth_ins by auto.
    destruct (Nat.ltb_spec p g); [specialize (Ix p); lia|].
    destruct (Nat.eqb_spec p g); [lia|]. specialize (Ix (p - 1)); lia.
  - rewrite nth_ins by auto. destruct (Nat.eqb_spec g 0) as [G0 | G0].
    + subst g. reflexivity.
    + destruct (Nat.ltb_spec 0 g); [auto|lia].
  - intro E. apply (f_equal (@length nat)) in E. rewrite ins_length in E. discriminate.
  - intros p Hp. rewrite !nth_ins by auto. subst node'.
    destruct (Nat.eqb_spec g 0) as [G0 | G0].
    + subst g. destruct (Nat.ltb_spec p 0); [lia|]. destruct (Nat.ltb_spec (p + 1) 0); [lia|].
      destruct (Nat.eqb_spec (p + 1) 0); [lia|]. replace (p + 1 - 1) with p by lia.
      destruct (Nat.eqb_spec p 0).
      * rewrite nth_error_upd, Nat.eqb_refl. destruct (Nat.ltb_spec (w_used w) (length (w_node w))); [|lia].
        destruct (Nat.ltb_spec (p + 1) (S (length l))); [|lia]. subst p. rewrite St. reflexivity.
      * rewrite nth_error_upd. destruct (Nat.eqb_spec (w_used w) (nth (p - 1) ix 0)).
        { specialize (Ix (p - 1)). lia. }
        rewrite No by lia. replace (p - 1 + 1) with p by lia.
        destruct (Nat.ltb_spec (p + 1) (S (length l))), (Nat.ltb_spec p (length l)); auto; lia.
    + destruct (Nat.ltb_spec p g) as [Pg | Pg].
      * rewrite !nth_error_upd.
        destruct (Nat.eqb_spec (nth (g - 1) ix 0) (nth p ix 0)) as [E | E].
        { assert (p = g - 1) by (symmetry; apply Inj; auto; lia). subst p.
          rewrite upd_length. specialize (Ix (g - 1)).
          destruct (Nat.ltb_spec (nth (g - 1) ix 0) (length (w_node w))); [|lia].
          destruct (Nat.ltb_spec (g - 1 + 1) (S (length l))); [|lia].
          replace (g - 1 + 1) with g by lia. rewrite Nat.ltb_irrefl, Nat.eqb_refl. reflexivity. }
        destruct (Nat.eqb_spec (w_used w) (nth p ix 0)).
        { specialize (Ix p). lia. }
        rewrite No by lia.
        assert (p <> g - 1) by (intro; subst p; congruence).
        destruct (Nat.ltb_spec (p + 1) (length l)), (Nat.ltb_spec (p + 1) (S (length l))), (Nat.ltb_spec (p + 1) g); auto; lia.
      * destruct (Nat.ltb_spec (p + 1) g); [lia|]. destruct (Nat.eqb_spec (p + 1) g); [lia|].
        replace (p + 1 - 1) with p by lia.
        destruct (Nat.eqb_spec p g) as [Ep | Ep].
        { subst p. rewrite !nth_error_upd.
          destruct (Nat.eqb_spec (nth (g - 1) ix 0) (w_used w)).
          { specialize (Ix (g - 1)). lia. }
          rewrite Nat.eqb_refl. destruct (Nat.ltb_spec (w_used w) (length (w_node w))); [|lia].
          destruct (Nat.eqb_spec g (length l)), (Nat.ltb_spec (g + 1) (S (length l))); auto; lia. }
        rewrite !nth_error_upd.
        destruct (Nat.eqb_spec (nth (g - 1) ix 0) (nth (p - 1) ix 0)) as [E | E].
        { apply Inj in E; lia. }
        destruct (Nat.eqb_spec (w_used w) (nth (p - 1) ix 0)).
        { specialize (Ix (p - 1)). lia. }
        rewrite No by lia. replace (p - 1 + 1) with p by lia.
        destruct (Nat.ltb_spec p (length l)), (Nat.ltb_spec (p + 1) (S (length l))); auto; lia.
Qed.

Lemma walk_ok : forall cmp w ix l x target, holds w ix l -> length l < length (w_node w) ->
  forall m p fuel count j g, p + S m = length l -> m < fuel -> target = count + j ->
  nth_error (filter (fun q => cmp (nth (q - 1) l 0) (nth q l 0)) (seq (S p) m)) j = Some g ->
  insert_walk fuel cmp w (nth p ix 0) count target x = insert_after w (nth (g - 1) ix 0) (nth (g - 1) l 0) (Some (nth g ix 0)) x.
Proof.
  intros cmp w ix l x target H Hr. induction m as [|m IH]; intros p fuel count j g Hp Hf Ht Hg.
  - destruct j; discriminate.
  - destruct fuel as [|fuel]; [lia|]. cbn [insert_walk]. unfold get. destruct H as [N Len Us Room Ix St Ne No].
    rewrite (No p) by lia. cbn [bind snd fst]. destruct (Nat.ltb_spec (p + 1) (length l)); [|lia].
    rewrite (No (p + 1)) by lia. cbn [bind fst].
    cbn [seq filter] in Hg. replace (S p - 1) with p in Hg by lia. replace (p + 1) with (S p) by lia.
    destruct (cmp (nth p l 0) (nth (S p) l 0)).
    + destruct j as [|j].
      * cbn [nth_error] in Hg. injection Hg as <-. replace (S p - 1) with p by lia.
        replace (count =? target) with true by (symmetry; apply Nat.eqb_eq; lia). reflexivity.
      * cbn [nth_error] in Hg. replace (count =? target) with false by (symmetry; apply Nat.eqb_neq; lia).
        apply (IH (S p) fuel (count + 1) j g); auto; lia.
    + apply (IH (S p) fuel count j g); auto; lia.
Qed.
Lemma walk_at : forall cmp w ix l x j g, holds w ix l -> length l < length (w_node w) ->
  nth_error (gaps cmp l) j = Some g ->
  exists w', insert_walk (S (length (w_node w))) cmp w (w_start w) 0 j x = Ok w' /\ repr w' (ins_at g x l) /\
    length (w_node w') = length (w_node w).
Proof.
  intros cmp w ix l x j g H Hr Hg.
  assert (Hgi := nth_error_In _ _ Hg). apply gaps_in in Hgi. destruct Hgi as [Hb _].
  rewrite (h_start _ _ _ H).
  rewrite (walk_ok cmp w ix l x j H Hr (length l - 1) 0 _ 0 j g) by (auto; lia).
  unfold insert_after. rewrite (h_used _ _ _ H). destruct (Nat.ltb_spec (length l) (length (w_node w))); [|lia].
  eexists. split; [reflexivity|]. split; [|cbn [w_node]; rewrite !upd_length; auto].
  exists (ins_at g (w_used w) ix). rewrite <- (h_used _ _ _ H).
  pose proof (fun nd => holds_ins w ix l g x nd H) as G. destruct (Nat.eqb_spec g 0); [lia|].
  apply G; auto; [lia|]. destruct (Nat.eqb_spec g (length l)); [lia|]. reflexivity.
Qed.
Lemma start_at : forall w ix l x, holds w ix l -> length l < length (w_node w) ->
  exists w', wperm_insert_at_start w x = Ok w' /\ repr w' (ins_at 0 x l) /\ length (w_node w') = length (w_node w).
Proof.
  intros w ix l x H Hr. unfold wperm_insert_at_start.
  destruct (Nat.ltb_spec (w_used w) (length (w_node w))) as [|L]; [|rewrite (h_used _ _ _ H) in L; lia].
  eexists. split; [reflexivity|]. split; [|cbn [w_node]; rewrite upd_length; auto].
  exists (ins_at 0 (w_used w) ix). apply (holds_ins w ix l 0 x); auto; lia.
Qed.
Lemma find_last_spec : forall node is i, In i is -> (exists s, nth_error node i = Some (s, None)) ->
  (forall j s, In j is -> nth_error node j = Some (s, None) -> j = i) -> find_last node is = Some i.
Proof.
  induction is as [|a is IH]; intros i Hi Hs Hu; [contradiction|]. cbn [find_last].
  destruct (nth_error node a) as [[s [nx|]]|] eqn:E.
  - apply IH; auto; [|intros; eapply Hu; simpl; eauto]. destruct Hi as [<- | Hi]; auto.
    destruct Hs as [s' Hs]. congruence.
  - f_equal. apply (Hu a s); simpl; auto.
  - apply IH; auto; [|intros; eapply Hu; simpl; eauto]. destruct Hi as [<- | Hi]; auto.
    destruct Hs as [s' Hs]. congruence.
Qed.
Lemma ix_onto : forall w ix l j, holds w ix l -> j < length l -> exists p, p < length l /\ nth p ix 0 = j.
Proof.
  intros w ix l j H Hj. destruct H as [N Len Us Room Ix St Ne No].
  assert (I : incl (seq 0 (length l)) ix).
  { apply NoDup_length_incl; auto.
    - rewrite seq_length. lia.
    - intros y Hy. destruct (In_nth ix y 0 Hy) as [p [Hp E]]. rewrite Len in Hp. specialize (Ix p Hp).
      apply in_seq. lia. }
  destruct (In_nth ix j 0) as [p [Hp E]]; [apply I, in_seq; lia|]. exists p. split; auto. lia.
Qed.
Lemma end_at : forall w ix l x, holds w ix l -> length l < length (w_node w) ->
  exists w', wperm_insert_at_end w x = Ok w' /\ repr w' (ins_at (length l) x l) /\ length (w_node w') = length (w_node w).
Proof.
  intros w ix l x H Hr. assert (Hl1 : 1 <= length l) by (pose proof (h_some _ _ _ H); destruct l; [congruence|simpl; lia]).
  unfold wperm_insert_at_end.
  assert (Last : nth_error (w_node w) (nth (length l - 1) ix 0) = Some (nth (length l - 1) l 0, None)).
  { rewrite (h_node _ _ _ H) by lia. destruct (Nat.ltb_spec (length l - 1 + 1) (length l)); [lia|auto]. }
  rewrite (find_last_spec _ _ (nth (length l - 1) ix 0)).
  - unfold get. rewrite Last. cbn [bind fst]. unfold insert_after. rewrite (h_used _ _ _ H).
    destruct (Nat.ltb_spec (length l) (length (w_node w))); [|lia].
    eexists. split; [reflexivity|]. split; [|cbn [w_node]; rewrite !upd_length; auto].
    exists (ins_at (length l) (w_used w) ix). rewrite <- (h_used _ _ _ H).
    pose proof (fun nd => holds_ins w ix l (length l) x nd H) as G. destruct (Nat.eqb_spec (length l) 0); [lia|].
    rewrite (h_used _ _ _ H) in *. apply G; auto. rewrite Nat.eqb_refl. reflexivity.
  - rewrite (h_used _ _ _ H). apply in_seq. pose proof (h_ix _ _ _ H (length l - 1)). lia.
  - eauto.
  - intros j s Hj E. apply in_seq in Hj. rewrite (h_used _ _ _ H) in Hj.
    destruct (ix_onto _ _ _ j H) as [p [Hp <-]]; [lia|].
    rewrite (h_node _ _ _ H) in E by auto. destruct (Nat.ltb_spec (p + 1) (length l)); [discriminate|].
    f_equal. lia.
Qed.
Lemma convert_ok : forall w ix l, holds w ix l -> forall m p room, p + m = length l -> m <= room ->
  convert room (w_node w) (if p <? length l then Some (nth p ix 0) else None) = Ok (skipn p l).
Proof.
  intros w ix l H. induction m as [|m IH]; intros p room Hp Hr.
  - destruct (Nat.ltb_spec p (length l)); [lia|]. rewrite skipn_all2 by lia. destruct room; reflexivity.
  - destruct (Nat.ltb_spec p (length l)); [|lia]. destruct room as [|room]; [lia|]. cbn [convert].
    unfold get. rewrite (h_node _ _ _ H) by auto. cbn [bind fst snd]. rewrite IH by lia. cbn [bind].
    f_equal. replace (p + 1) with (S p) by lia. clear -H0. revert p H0. induction l; intros p Hp; simpl in Hp; [lia|].
    destruct p; [reflexivity|]. simpl. rewrite <- IHl by lia. reflexivity.
Qed.
Lemma convert_all : forall w l room, repr w l -> length l <= room -> convert room (w_node w) (Some (w_start w)) = Ok l.
Proof.
  intros w l room [ix H] Hr. pose proof (convert_ok w ix l H (length l) 0 room eq_refl Hr) as C.
  pose proof (h_some _ _ _ H). destruct (Nat.ltb_spec 0 (length l)); [|destruct l; simpl in *; [congruence|lia]].
  rewrite (h_start _ _ _ H). exact C.
Qed.

Lemma make_ok : forall f n N, 1 <= n < N -> exists w, make_wperm f (wperm_new N) n = Ok w /\
  repr w (map f (seq 0 n)) /\ length (w_node w) = N.
Proof.
  intros f n N H. unfold make_wperm, wperm_new. cbn [w_node]. rewrite repeat_length.
  destruct (Nat.ltb_spec n N); [|lia]. destruct (Nat.eqb_spec n 0); [lia|].
  eexists. split; [reflexivity|]. cbn [w_node].
  assert (Ll : length (map f (seq 0 n)) = n) by (rewrite map_length, seq_length; auto).
  split.
  2: { rewrite app_length, map_length, seq_length, skipn_length, repeat_length. lia. }
  exists (seq 0 n). constructor; cbn [w_node w_used w_start]; rewrite ?Ll, ?seq_length; auto.
  - apply seq_NoDup.
  - rewrite app_length, map_length, seq_length, skipn_length, repeat_length. lia.
  - intros p Hp. rewrite seq_nth by auto. auto.
  - rewrite seq_nth by lia. auto.
  - intro E. rewrite E in Ll. simpl in Ll. lia.
  - intros p Hp. rewrite seq_nth by auto. cbn [Nat.add]. rewrite nth_error_app1 by (rewrite map_length, seq_length; auto).
    assert (E : nth_error (seq 0 n) p = Some p).
    { rewrite nth_error_nth' with (d := 0) by (rewrite seq_length; auto). rewrite seq_nth; auto. }
    rewrite (map_nth_error _ _ _ E). rewrite nth_indep with (d' := f 0) by lia. rewrite map_nth, seq_nth by auto.
    cbn [Nat.add]. destruct (Nat.eqb_spec (p + 1) n), (Nat.ltb_spec (p + 1) n); auto; try lia.
    rewrite seq_nth by lia. auto.
Qed.

Lemma step_ok : forall w l n k n' k' ps, repr w l -> length l < length (w_node w) -> k_ascent n' k' l -> 1 <= n' ->
  k' <= n' - 1 ->
  match ps with
  | p :: ps' =>
      match nth_error (if k' =? k then spots_old l else spots_new l) p with
      | Some g => exists w', insert_step w n k n' k' ps = Ok (w', ps') /\ repr w' (ins_at g n l) /\ length (w_node w') = length (w_node w)
      | None => insert_step w n k n' k' ps = Fuel
      end
  | [] => insert_step w n k n' k' ps = Fuel
  end.
Proof.
  intros w l n k n' k' ps [ix H] Hr [P A] Hn Hk.
  destruct (perm_facts _ _ P) as [N [L _]].
  pose proof (gaps_ascents l) as Gu. pose proof (gaps_descents l) as Gd. pose proof (ascents_descents l N) as AD.
  unfold insert_step. replace (k =? k') with (k' =? k) by apply Nat.eqb_sym.
  destruct (k' =? k); cbn [negb].
  - unfold uniform_int. replace (k' + 1) with (S k') by lia.
    destruct ps as [|p ps]; [reflexivity|]. unfold spots_old.
    destruct (Nat.ltb_spec p (S k')).
    + cbn [bind fst snd]. destruct (Nat.eqb_spec p k').
      * rewrite nth_error_app2 by lia. replace (p - length (gaps up l)) with 0 by lia. cbn [nth_error].
        destruct (start_at _ _ _ n H Hr) as [w' [E [R Le]]]. rewrite E. exists w'. auto.
      * rewrite nth_error_app1 by lia. destruct (nth_error (gaps up l) p) as [g|] eqn:Eg.
        2: { apply nth_error_None in Eg. lia. }
        destruct (walk_at up _ _ _ n _ _ H Hr Eg) as [w' [E [R Le]]]. exists w'. split; auto.
        unfold wperm_insert_at_ascent. change (fun a b => a <? b) with up. rewrite E. reflexivity.
    + replace (nth_error (gaps up l ++ [0]) p) with (@None nat); [reflexivity|].
      symmetry. apply nth_error_None. rewrite app_length. simpl. lia.
  - unfold uniform_int. destruct (n' - k') as [|d] eqn:Ed; [lia|].
    destruct ps as [|p ps]; [reflexivity|]. unfold spots_new.
    destruct (Nat.ltb_spec p (S d)).
    + cbn [bind fst snd]. replace (S d - 1) with d by lia. destruct (Nat.eqb_spec p d).
      * rewrite nth_error_app2 by lia. replace (p - length (gaps down l)) with 0 by lia. cbn [nth_error].
        destruct (end_at _ _ _ n H Hr) as [w' [E [R Le]]]. rewrite E. exists w'. auto.
      * rewrite nth_error_app1 by lia. destruct (nth_error (gaps down l) p) as [g|] eqn:Eg.
        2: { apply nth_error_None in Eg. lia. }
        destruct (walk_at down _ _ _ n _ _ H Hr Eg) as [w' [E [R Le]]]. exists w'. split; auto.
        unfold wperm_insert_at_descent. change (fun a b => b <? a) with down. rewrite E. reflexivity.
    + replace (nth_error (gaps down l ++ [length l]) p) with (@None nat); [reflexivity|].
      symmetry. apply nth_error_None. rewrite app_length. simpl. lia.
Qed.

Lemma base_run : forall N m k ps, 1 <= m < N -> exists w, run_choices (wperm_new N) [(m, k)] ps = Ok (w, ps) /\
  repr w (if k =? 0 then falling m else seq 1 m) /\ length (w_node w) = N.
Proof.
  intros N m k ps H. cbn [run_choices]. unfold make_descending_wperm, make_ascending_wperm.
  destruct (k =? 0).
  - destruct (make_ok (fun i => m - i) m N H) as [w [E [R L]]]. exists w. rewrite E. auto.
  - destruct (make_ok (fun i => i + 1) m N H) as [w [E [R L]]]. exists w. rewrite E. split; auto. split; auto.
    replace (seq 1 m) with (map (fun i => i + 1) (seq 0 m)); auto.
    rewrite <- seq_shift. apply map_ext. intro. lia.
Qed.
Lemma run_cons : forall w0 n k n' k' cv ps, run_choices w0 ((n, k) :: (n', k') :: cv) ps =
  bind (run_choices w0 ((n', k') :: cv) ps) (fun r => insert_step (fst r) n k n' k' (snd r)).
Proof. reflexivity. Qed.
Lemma run_ok : forall n k cv, path n k cv -> forall N ps, n <= N ->
  match grow cv ps with
  | Some (l, ps') => exists w, run_choices (wperm_new N) cv ps = Ok (w, ps') /\ repr w l /\ length (w_node w) = N
  | None => run_choices (wperm_new N) cv ps = Fuel
  end.
Proof.
  assert (St : forall m k k' cv l ps0 ps N, run_choices (wperm_new N) ((m, k') :: cv) ps0 = Ok ps ->
     1 <= m -> S m <= N -> k' <= m - 1 -> repr (fst ps) l -> length (w_node (fst ps)) = N -> k_ascent m k' l ->
     match (match snd ps with
            | p :: ps' => match nth_error (if k' =? k then spots_old l else spots_new l) p with
                          | Some g => Some (ins_at g (S m) l, ps') | None => None end
            | [] => None
            end) with
     | Some (l, ps') => exists w, run_choices (wperm_new N) ((S m, k) :: (m, k') :: cv) ps0 = Ok (w, ps') /\ repr w l /\ length (w_node w) = N
     | None => run_choices (wperm_new N) ((S m, k) :: (m, k') :: cv) ps0 = Fuel
     end).
  { intros m k k' cv l ps0 [w ps] N E Hm HN Hk R Le K. cbn [fst snd] in *. rewrite run_cons, E. cbn [bind fst snd].
    pose proof (step_ok w l (S m) k m k' ps R) as Q. destruct K as [P A].
    destruct (perm_facts _ _ P) as [_ [L _]]. specialize (Q ltac:(lia) (conj P A) Hm Hk).
    destruct ps as [|p ps]; auto. destruct (nth_error _ p); auto.
    destruct Q as [w' [Q1 [Q2 Q3]]]. exists w'. split; auto. split; auto. congruence. }
  induction 1 as [m k k' A B C F | m k k' cv A B C F G P IH]; intros N ps HN.
  - destruct (base_run N m k' ps) as [w [E [R L]]]; [lia|].
    specialize (St m k k' [] (if k' =? 0 then falling m else seq 1 m) ps _ N E). cbn [fst snd] in St. rewrite grow_cons. cbn [grow].
    destruct ps as [|p ps]; apply St; auto; try lia; apply base_k; auto; lia.
  - destruct (path_head _ _ _ P) as [cv' ->]. specialize (IH N ps ltac:(lia)). rewrite grow_cons.
    destruct (grow ((m, k') :: cv') ps) as [[l0 ps0]|] eqn:E0.
    + destruct IH as [w [E [R L]]]. specialize (St m k k' cv' l0 ps _ N E). cbn [fst snd] in St.
      assert (K : k_ascent m k' l0) by (eapply grow_k; eauto).
      destruct ps0 as [|p ps0]; apply St; auto; lia.
    + rewrite run_cons, IH. reflexivity.
Qed.

(** ** the sampler *)
Lemma sampler_run : forall n k cv ds rest ps, (Z.of_nat n <= 1000)%Z -> path n k cv -> ds = draws cv ++ rest ->
  random_k_ascent n k ds ps = match grow cv ps with Some (l, ps') => Ok (l, (rest, ps')) | None => Fuel end.
Proof.
  intros n k cv ds rest ps Z1 P ->. unfold random_k_ascent, build_choice_vector.
  rewrite (choice_complete n k cv P n rest Z1 (le_n _)). cbn [bind fst snd].
  pose proof (run_ok n k cv P n ps (le_n _)) as R. destruct (grow cv ps) as [[l ps']|] eqn:G.
  - destruct R as [w [E [Rw L]]]. rewrite E. cbn [bind fst snd].
    rewrite (convert_all w l n Rw); [reflexivity|].
    destruct (grow_k _ _ _ P _ _ _ G) as [Q _]. destruct (perm_facts _ _ Q) as [_ [-> _]]. auto.
  - rewrite R. reflexivity.
Qed.
Lemma sampler_inv : forall n k ds ps l rest ps', (Z.of_nat n <= 1000)%Z -> random_k_ascent n k ds ps = Ok (l, (rest, ps')) ->
  exists cv, build_choice_vector n k ds = Ok (cv, rest) /\ path n k cv /\ ds = draws cv ++ rest /\ grow cv ps = Some (l, ps').
Proof.
  intros n k ds ps l rest ps' Z1 H. pose proof H as H0. unfold random_k_ascent in H.
  apply bind_ok in H as [[cv r] [H1 H2]].
  destruct (choice_sound _ _ _ _ _ _ H1) as [P E].
  rewrite (sampler_run n k cv ds r ps Z1 P E) in H0. destruct (grow cv ps) as [[l0 ps0]|] eqn:G; [|discriminate].
  injection H0 as -> -> ->. exists cv. auto.
Qed.
