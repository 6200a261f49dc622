From Coq Require Import List ZArith Lia Bool Arith Permutation.
From Verif Require Import Base PermProofs Iterators.
Import ListNotations.

(** k calls of an iterator *)
Fixpoint calls {A} (incr : A -> res A) (k : nat) (x : A) : res A :=
  match k with
  | 0 => Ok x
  | S k' => bind (calls incr k' x) incr
  end.

Definition rot (n k : nat) : list nat := map (fun i => (i + k) mod n) (seq 0 n).
Definition refl (n k : nat) : list nat := map (fun i => (2 * n - k - i) mod n) (seq 0 n).

Lemma nth_map_seq : forall (f : nat -> nat) n i, i < n -> nth i (map f (seq 0 n)) 0 = f i.
Proof.
  intros f n i H. rewrite nth_indep with (d' := f 0) by (rewrite map_length, seq_length; auto).
  rewrite map_nth, seq_nth; auto.
Qed.

(** the copying loop leaves entry i+1 at i for i < c and the rest alone *)
Lemma shift_loop_inv : forall m c, c < length m ->
  let b := fold_left (fun b i => upd i (nth (i + 1) b 0) b) (seq 0 c) m in
  length b = length m /\ forall i, nth i b 0 = if i <? c then nth (i + 1) m 0 else nth i m 0.
Proof.
  intros m c. induction c as [|c IH]; intros H.
  - simpl. auto.
  - rewrite seq_S, fold_left_app. destruct IH as [L N]; [lia|]. cbn [fold_left Nat.add].
    set (b := fold_left _ (seq 0 c) m) in *. cbv zeta. rewrite upd_length. split; auto.
    intros i. destruct (Nat.eq_dec i c) as [->|Hi].
    + rewrite nth_upd_eq by lia. rewrite N. destruct (c + 1 <? c) eqn:E; [apply Nat.ltb_lt in E; lia|].
      destruct (c <? S c) eqn:E2; auto. apply Nat.ltb_ge in E2; lia.
    + rewrite nth_upd_neq by lia. rewrite N.
      destruct (i <? c) eqn:E1, (i <? S c) eqn:E2; auto;
        rewrite ?Nat.ltb_lt, ?Nat.ltb_ge in *; lia.
Qed.

Lemma shift_loop_nth : forall m, 1 <= length m ->
  length (shift_loop m) = length m /\
  forall i, i < length m -> nth i (shift_loop m) 0 = nth ((i + 1) mod length m) m 0.
Proof.
  intros m H. unfold shift_loop. destruct (shift_loop_inv m (length m - 1)) as [L N]; [lia|].
  rewrite upd_length. split; auto. intros i Hi.
  destruct (Nat.eq_dec i (length m - 1)) as [->|Hn].
  - rewrite nth_upd_eq by lia. replace (length m - 1 + 1) with (length m) by lia.
    rewrite Nat.mod_same by lia. reflexivity.
  - rewrite nth_upd_neq by lia. rewrite N. rewrite (proj2 (Nat.ltb_lt i _)) by lia.
    rewrite Nat.mod_small by lia. reflexivity.
Qed.

Lemma shift_map : forall n f, 1 <= n ->
  shift_loop (map f (seq 0 n)) = map (fun i => f ((i + 1) mod n)) (seq 0 n).
Proof.
  intros n f H. destruct (shift_loop_nth (map f (seq 0 n))) as [L N].
  { rewrite map_length, seq_length; auto. }
  rewrite map_length, seq_length in *. apply list_ext0.
  - rewrite map_length, seq_length; auto.
  - intros i Hi. rewrite L in Hi. rewrite N by auto.
    rewrite !nth_map_seq; auto. apply Nat.mod_upper_bound; lia.
Qed.

Lemma rot_length : forall n k, length (rot n k) = n.
Proof. intros. unfold rot. rewrite map_length, seq_length; auto. Qed.
Lemma refl_length : forall n k, length (refl n k) = n.
Proof. intros. unfold refl. rewrite map_length, seq_length; auto. Qed.

Lemma shift_rot : forall n k, 1 <= n -> shift_loop (rot n k) = rot n (k + 1).
Proof.
  intros n k H. unfold rot. rewrite (shift_map n (fun i => (i + k) mod n)) by auto.
  apply map_ext. intros i. rewrite Nat.add_mod_idemp_l by lia. f_equal. lia.
Qed.

Lemma shift_refl : forall n k, 1 <= n -> k < n -> shift_loop (refl n k) = refl n (k + 1).
Proof.
  intros n k H Hk. unfold refl. rewrite (shift_map n (fun i => (2 * n - k - i) mod n)) by auto.
  apply map_ext_in. intros i Hi. apply in_seq in Hi.
  destruct (Nat.eq_dec (i + 1) n) as [E|E].
  - rewrite E, Nat.mod_same by lia. replace (2 * n - k - 0) with ((2 * n - (k + 1) - i) + 1 * n) by lia.
    apply Nat.mod_add. lia.
  - rewrite (Nat.mod_small (i + 1)) by lia. f_equal. lia.
Qed.

Lemma rot_0 : forall n, rot n 0 = seq 0 n.
Proof.
  intros. unfold rot. rewrite <- (map_id (seq 0 n)) at 2. apply map_ext_in. intros i Hi.
  apply in_seq in Hi. rewrite Nat.add_0_r. apply Nat.mod_small. lia.
Qed.

Lemma rot_mod : forall n k, 1 <= n -> rot n (k mod n) = rot n k.
Proof.
  intros. unfold rot. apply map_ext. intros i. rewrite Nat.add_mod_idemp_r by lia. reflexivity.
Qed.

Lemma cyclic_calls : forall n k, 1 <= n -> calls pd_increment_cyclic k (pd_new_cyclic n) = Ok (rot n k).
Proof.
  intros n k H. induction k as [|k IH]; cbn [calls].
  - rewrite rot_0. reflexivity.
  - rewrite IH. cbn [bind]. unfold pd_increment_cyclic. rewrite rot_length.
    destruct (n =? 0) eqn:E0; [apply Nat.eqb_eq in E0; lia|].
    destruct (n =? 1) eqn:E1.
    + apply Nat.eqb_eq in E1. subst n. f_equal.
    + rewrite shift_rot by auto. do 2 f_equal. lia.
Qed.

(** dihedral state number k *)
Definition dstate (n k : nat) : dihedral :=
  let j := k mod (2 * n) in
  if j <? n then mkD (rot n j) Pos else mkD (refl n (j - n)) Neg.

Lemma rot_hd : forall n k, 1 <= n -> nth 0 (rot n k) 0 = k mod n.
Proof. intros. unfold rot. rewrite nth_map_seq by lia. reflexivity. Qed.
Lemma refl_hd : forall n k, 1 <= n -> nth 0 (refl n k) 0 = (2 * n - k) mod n.
Proof. intros. unfold refl. rewrite nth_map_seq by lia. f_equal. lia. Qed.

Lemma refl_0 : forall n, 1 <= n -> refl n 0 = 0 :: map (fun i => n - i) (seq 1 (n - 1)).
Proof.
  intros n H. unfold refl. destruct n as [|n]; [lia|]. cbn [seq map].
  replace (2 * S n - 0 - 0) with (2 * S n) by lia. rewrite Nat.mod_mul by lia.
  replace (S n - 1) with n by lia. f_equal. apply map_ext_in. intros i Hi. apply in_seq in Hi.
  replace (2 * S n - 0 - i) with ((S n - i) + 1 * S n) by lia. rewrite Nat.mod_add by lia.
  apply Nat.mod_small. lia.
Qed.

Lemma dihedral_step : forall n k, 1 <= n -> pd_increment_dihedral (dstate n k) = Ok (dstate n (S k)).
Proof.
  intros n k H. unfold dstate.
  set (j := k mod (2 * n)).
  assert (Hj : j < 2 * n) by (apply Nat.mod_upper_bound; lia).
  assert (HS : S k mod (2 * n) = if j =? 2 * n - 1 then 0 else j + 1).
  { rewrite <- mod_succ by lia. fold j. destruct (j =? 2 * n - 1) eqn:E.
    - apply Nat.eqb_eq in E. replace (j + 1) with (2 * n) by lia. apply Nat.mod_same; lia.
    - apply Nat.eqb_neq in E. apply Nat.mod_small. lia. }
  rewrite HS. clearbody j. clear HS.
  unfold pd_increment_dihedral.
  destruct (j <? n) eqn:E1.
  - apply Nat.ltb_lt in E1. cbn [dmap dor]. rewrite rot_length, rot_hd by auto.
    destruct (n =? 0) eqn:E0; [apply Nat.eqb_eq in E0; lia|].
    destruct (j =? 2 * n - 1) eqn:E2.
    { apply Nat.eqb_eq in E2. lia. }
    destruct (n =? 1) eqn:E3.
    { apply Nat.eqb_eq in E3. assert (j = 0) by lia. subst. reflexivity. }
    apply Nat.eqb_neq in E3. rewrite (Nat.mod_small j) by auto. simpl (orient_eqb _ _). cbn [andb].
    destruct (j =? n - 1) eqn:E4.
    + apply Nat.eqb_eq in E4. replace (j + 1) with n by lia. rewrite Nat.ltb_irrefl, Nat.sub_diag.
      rewrite refl_0 by auto. reflexivity.
    + apply Nat.eqb_neq in E4. rewrite shift_rot by auto.
      rewrite (proj2 (Nat.ltb_lt (j + 1) n)) by lia. reflexivity.
  - apply Nat.ltb_ge in E1. cbn [dmap dor]. rewrite refl_length, refl_hd by auto.
    destruct (n =? 0) eqn:E0; [apply Nat.eqb_eq in E0; lia|].
    destruct (n =? 1) eqn:E3.
    { apply Nat.eqb_eq in E3. assert (j = 1) by lia. subst. reflexivity. }
    apply Nat.eqb_neq in E3. simpl (orient_eqb _ _). cbn [andb].
    destruct (j =? 2 * n - 1) eqn:E2.
    + apply Nat.eqb_eq in E2. replace (2 * n - (j - n)) with (1 + 1 * n) by lia.
      rewrite Nat.mod_add, Nat.mod_1_l by lia. rewrite Nat.eqb_refl.
      destruct (0 <? n) eqn:E5; [|apply Nat.ltb_ge in E5; lia]. rewrite rot_0. reflexivity.
    + apply Nat.eqb_neq in E2.
      assert (X : ((2 * n - (j - n)) mod n =? 1) = false).
      { apply Nat.eqb_neq. destruct (Nat.eq_dec j n) as [->|].
        - rewrite Nat.sub_diag, Nat.sub_0_r, Nat.mod_mul by lia. lia.
        - replace (2 * n - (j - n)) with ((n - (j - n)) + 1 * n) by lia.
          rewrite Nat.mod_add by lia. rewrite Nat.mod_small by lia. lia. }
      rewrite X. rewrite shift_refl by lia.
      destruct (j + 1 <? n) eqn:E5; [apply Nat.ltb_lt in E5; lia|].
      replace (j + 1 - n) with (j - n + 1) by lia. reflexivity.
Qed.

Lemma dihedral_calls : forall n k, 1 <= n -> calls pd_increment_dihedral k (pd_new_dihedral n) = Ok (dstate n k).
Proof.
  intros n k H. induction k as [|k IH]; cbn [calls].
  - unfold dstate. rewrite Nat.mod_0_l by lia. rewrite (proj2 (Nat.ltb_lt 0 n)) by lia.
    rewrite rot_0. reflexivity.
  - rewrite IH. apply dihedral_step; auto.
Qed.

(** ** Bijections and the ok checks *)
Lemma NoDup_map_in : forall (A B : Type) (f : A -> B) l,
  (forall x y, In x l -> In y l -> f x = f y -> x = y) -> NoDup l -> NoDup (map f l).
Proof.
  induction l as [|a l IH]; simpl; intros I N; constructor; inversion N; subst.
  - intros H. apply in_map_iff in H. destruct H as (y & E & Hy). apply I in E; auto. subst; auto.
  - apply IH; auto.
Qed.

Lemma perm_of_inj : forall n (f : nat -> nat), (forall i, i < n -> f i < n) ->
  (forall i j, i < n -> j < n -> f i = f j -> i = j) -> Permutation (seq 0 n) (map f (seq 0 n)).
Proof.
  intros n f B I. symmetry. apply NoDup_Permutation_bis.
  - apply NoDup_map_in; [|apply seq_NoDup].
    intros x y Hx Hy E. apply in_seq in Hx, Hy. apply I; auto; lia.
  - rewrite map_length; auto.
  - intros x Hx. apply in_map_iff in Hx. destruct Hx as (y & <- & Hy). apply in_seq in Hy.
    apply in_seq. specialize (B y). lia.
Qed.

Lemma rot_perm : forall n k, 1 <= n -> Permutation (seq 0 n) (rot n k).
Proof.
  intros n k H. rewrite <- rot_mod by auto. pose proof (Nat.mod_upper_bound k n).
  set (r := k mod n) in *. apply perm_of_inj.
  - intros; apply Nat.mod_upper_bound; lia.
  - intros i j Hi Hj E.
    assert (X : forall a, a < n -> (a + r) mod n = if a + r <? n then a + r else a + r - n).
    { intros a Ha. destruct (a + r <? n) eqn:E1.
      - apply Nat.mod_small. apply Nat.ltb_lt; auto.
      - apply Nat.ltb_ge in E1. replace (a + r) with ((a + r - n) + 1 * n) at 1 by lia.
        rewrite Nat.mod_add by lia. apply Nat.mod_small. lia. }
    rewrite !X in E by auto.
    destruct (i + r <? n) eqn:A, (j + r <? n) eqn:B; rewrite ?Nat.ltb_lt, ?Nat.ltb_ge in *; lia.
Qed.

Lemma refl_val : forall n k i, 1 <= n -> k < n -> i < n ->
  (2 * n - k - i) mod n = if k + i =? 0 then 0 else if k + i <=? n then (if k + i =? n then 0 else n - (k + i)) else 2 * n - (k + i).
Proof.
  intros n k i H Hk Hi. destruct (k + i =? 0) eqn:A.
  - apply Nat.eqb_eq in A. replace (2 * n - k - i) with (2 * n) by lia. apply Nat.mod_mul; lia.
  - apply Nat.eqb_neq in A. destruct (k + i <=? n) eqn:B.
    + apply Nat.leb_le in B. replace (2 * n - k - i) with ((n - (k + i)) + 1 * n) by lia.
      rewrite Nat.mod_add by lia. destruct (k + i =? n) eqn:C.
      * apply Nat.eqb_eq in C. rewrite C, Nat.sub_diag. apply Nat.mod_0_l; lia.
      * apply Nat.mod_small; lia.
    + apply Nat.leb_gt in B. replace (2 * n - k - i) with (2 * n - (k + i)) by lia. apply Nat.mod_small; lia.
Qed.

Lemma refl_perm : forall n k, 1 <= n -> k < n -> Permutation (seq 0 n) (refl n k).
Proof.
  intros n k H Hk. apply perm_of_inj.
  - intros; apply Nat.mod_upper_bound; lia.
  - intros i j Hi Hj E. rewrite !refl_val in E by auto.
    repeat match goal with
    | E : context [if ?b then _ else _] |- _ => destruct b eqn:?
    end; rewrite ?Nat.eqb_eq, ?Nat.eqb_neq, ?Nat.leb_le, ?Nat.leb_gt in *; lia.
Qed.

Lemma distinct_NoDup : forall l, distinct l = true <-> NoDup l.
Proof.
  induction l as [|x l IH]; simpl; [split; auto; constructor|].
  rewrite andb_true_iff, IH, negb_true_iff. split.
  - intros [H1 H2]. constructor; auto. intros I.
    assert (existsb (Nat.eqb x) l = true); [|congruence].
    apply existsb_exists. exists x; split; auto. apply Nat.eqb_refl.
  - intros N; inversion N; subst. split; auto. apply not_true_is_false. intros X.
    apply existsb_exists in X. destruct X as (y & Hy & E). apply Nat.eqb_eq in E. subst; auto.
Qed.

Lemma perm_range_distinct : forall n m, Permutation (seq 0 n) m -> in_range m = true /\ distinct m = true.
Proof.
  intros n m P. split.
  - unfold in_range. apply forallb_forall. intros x Hx. apply Nat.ltb_lt.
    rewrite <- (Permutation_length P), seq_length.
    apply (Permutation_in x (Permutation_sym P)) in Hx. apply in_seq in Hx; lia.
  - apply distinct_NoDup. eapply Permutation_NoDup; [exact P|apply seq_NoDup].
Qed.

Lemma goes_up_nth : forall n m, (forall i, i + 1 < length m ->
   nth i m 0 < nth (i + 1) m 0 \/ (nth i m 0 = n - 1 /\ nth (i + 1) m 0 = 0)) -> goes_up n m = true.
Proof.
  intros n. induction m as [|x m IH]; intros H; auto. destruct m as [|y m]; auto.
  change (goes_up n (x :: y :: m)) with
    (negb ((y <=? x) && negb ((x =? n - 1) && (y =? 0))) && goes_up n (y :: m)).
  apply andb_true_iff. split.
  - specialize (H 0 ltac:(simpl; lia)). simpl in H. destruct H as [H|[H1 H2]].
    + rewrite (proj2 (Nat.leb_gt y x)) by auto. reflexivity.
    + rewrite H1, H2, !Nat.eqb_refl. cbn [andb negb]. rewrite ?andb_false_r. reflexivity.
  - apply IH. intros i Hi. apply (H (S i)). simpl in *; lia.
Qed.

Lemma goes_down_nth : forall n m, (forall i, i + 1 < length m ->
   nth (i + 1) m 0 < nth i m 0 \/ (nth i m 0 = 0 /\ nth (i + 1) m 0 = n - 1)) -> goes_down n m = true.
Proof.
  intros n. induction m as [|x m IH]; intros H; auto. destruct m as [|y m]; auto.
  change (goes_down n (x :: y :: m)) with
    (negb ((x <=? y) && negb ((x =? 0) && (y =? n - 1))) && goes_down n (y :: m)).
  apply andb_true_iff. split.
  - specialize (H 0 ltac:(simpl; lia)). simpl in H. destruct H as [H|[H1 H2]].
    + rewrite (proj2 (Nat.leb_gt x y)) by auto. reflexivity.
    + rewrite H1, H2, !Nat.eqb_refl. cbn [andb negb]. rewrite ?andb_false_r. reflexivity.
  - apply IH. intros i Hi. apply (H (S i)). simpl in *; lia.
Qed.

Lemma rot_goes_up : forall n k, 1 <= n -> goes_up n (rot n k) = true.
Proof.
  intros n k H. rewrite <- rot_mod by auto. pose proof (Nat.mod_upper_bound k n).
  set (r := k mod n) in *. apply goes_up_nth. rewrite rot_length. intros i Hi. unfold rot.
  rewrite !nth_map_seq by lia.
  assert (X : forall a, a < n -> (a + r) mod n = if a + r <? n then a + r else a + r - n).
  { intros a Ha. destruct (a + r <? n) eqn:E1.
    - apply Nat.mod_small. apply Nat.ltb_lt; auto.
    - apply Nat.ltb_ge in E1. replace (a + r) with ((a + r - n) + 1 * n) at 1 by lia.
      rewrite Nat.mod_add by lia. apply Nat.mod_small. lia. }
  rewrite !X by lia.
  destruct (i + r <? n) eqn:A, (i + 1 + r <? n) eqn:B; rewrite ?Nat.ltb_lt, ?Nat.ltb_ge in *; lia.
Qed.

Lemma refl_goes_down : forall n k, 1 <= n -> k < n -> goes_down n (refl n k) = true.
Proof.
  intros n k H Hk. apply goes_down_nth. rewrite refl_length. intros i Hi. unfold refl.
  rewrite !nth_map_seq by lia. rewrite !refl_val by lia.
  repeat match goal with
    | |- context [if ?b then _ else _] => destruct b eqn:?
    end; rewrite ?Nat.eqb_eq, ?Nat.eqb_neq, ?Nat.leb_le, ?Nat.leb_gt in *; lia.
Qed.

(** * Multi-index *)

(** Digit level: the odometer on (digit, radix) pairs, carry form. *)
Section Odo.
Variable X : Type.
Variable rdy : X -> bool.
Variable bmp : X -> X.

Fixpoint readyX (l : list X) : nat :=
  match l with [] => 0 | c :: l' => if rdy c then S (readyX l') else 0 end.

Definition incX (l : list X) : list X :=
  let rr := readyX (rev l) in
  let rr := if rr <? length l then rr + 1 else rr in
  firstn (length l - rr) l ++ map bmp (skipn (length l - rr) l).

Fixpoint carry (l : list X) : list X * bool :=
  match l with
  | [] => ([], true)
  | c :: l' => let (r, b) := carry l' in if b then (bmp c :: r, rdy c) else (c :: r, false)
  end.

Lemma readyX_le : forall l, readyX l <= length l.
Proof. induction l; simpl; auto. destruct (rdy a); lia. Qed.

Lemma readyX_full : forall l, readyX l = length l <-> forallb rdy l = true.
Proof.
  induction l as [|c l IH]; simpl; [tauto|]. destruct (rdy c); simpl.
  - rewrite <- IH. lia.
  - split; [lia|discriminate].
Qed.

Lemma readyX_app : forall a b, readyX (a ++ b) = if readyX a =? length a then length a + readyX b else readyX a.
Proof.
  induction a as [|c a IH]; intros b; simpl; auto.
  destruct (rdy c); simpl; auto. rewrite IH. destruct (readyX a =? length a); lia.
Qed.

Lemma forallb_rev : forall l, forallb rdy (rev l) = forallb rdy l.
Proof.
  induction l; simpl; auto. rewrite forallb_app. simpl. rewrite IHl.
  destruct (forallb rdy l), (rdy a); auto.
Qed.

Lemma carry_spec : forall l, carry l = (incX l, forallb rdy l).
Proof.
  induction l as [|c l IH]; [reflexivity|].
  cbn [carry]. rewrite IH. unfold incX. cbn [length rev forallb].
  assert (RF : readyX (rev l) = length (rev l) <-> forallb rdy l = true).
  { rewrite <- (forallb_rev l). apply readyX_full. }
  pose proof (readyX_le (rev l)) as RL. rewrite readyX_app. rewrite rev_length in *.
  destruct (forallb rdy l) eqn:FL.
  - assert (E : readyX (rev l) = length l) by (apply RF; auto). rewrite E, Nat.ltb_irrefl, Nat.eqb_refl.
    cbn [readyX]. rewrite Nat.sub_diag. cbn [skipn firstn app]. rewrite andb_true_r.
    assert (K : S (length l) - (if length l + (if rdy c then 1 else 0) <? S (length l)
         then length l + (if rdy c then 1 else 0) + 1
         else length l + (if rdy c then 1 else 0)) = 0).
    { destruct (rdy c).
      - destruct (length l + 1 <? S (length l)) eqn:E2; [apply Nat.ltb_lt in E2|]; lia.
      - rewrite Nat.add_0_r. destruct (length l <? S (length l)) eqn:E2; [|apply Nat.ltb_ge in E2]; lia. }
    rewrite K. reflexivity.
  - assert (E : readyX (rev l) <> length l) by (intros E; apply RF in E; congruence).
    rewrite (proj2 (Nat.eqb_neq _ _) E). rewrite andb_false_r.
    rewrite (proj2 (Nat.ltb_lt (readyX (rev l)) (length l))) by lia.
    rewrite (proj2 (Nat.ltb_lt (readyX (rev l)) (S (length l)))) by lia.
    replace (S (length l) - (readyX (rev l) + 1)) with (S (length l - (readyX (rev l) + 1))) by lia.
    reflexivity.
Qed.
End Odo.

Definition dbump (p : nat * nat) : nat * nat := ((fst p + 1) mod snd p, snd p).
Definition dready (p : nat * nat) : bool := fst p =? snd p - 1.

(** value of a digit vector, last digit least significant *)
Fixpoint weight (ns : list nat) : nat := match ns with [] => 1 | n :: ns' => n * weight ns' end.
Fixpoint value (ns ds : list nat) : nat :=
  match ns, ds with
  | n :: ns', d :: ds' => d * weight ns' + value ns' ds'
  | _, _ => 0
  end.
Lemma Forall2_length : forall (A B : Type) (R : A -> B -> Prop) a b, Forall2 R a b -> length b = length a.
Proof. induction 1; simpl; auto. Qed.
Arguments Forall2_length {A B R a b}.

Definition in_box (ns ds : list nat) : Prop := Forall2 (fun n d => d < n) ns ds.

Lemma value_bound : forall ns ds, in_box ns ds -> value ns ds < weight ns.
Proof.
  intros ns ds B. induction B; simpl; [lia|]. nia.
Qed.

Lemma value_inj : forall ns a b, in_box ns a -> in_box ns b -> value ns a = value ns b -> a = b.
Proof.
  intros ns a b A. revert b. induction A as [|n x ns a Hx A IH]; intros b B E; inversion B; subst; auto.
  simpl in E. pose proof (value_bound _ _ A). pose proof (value_bound _ _ H3).
  assert (x = y) by nia. subst. f_equal. apply IH; auto. lia.
Qed.

Lemma value_surj : forall ns v, v < weight ns -> exists ds, in_box ns ds /\ value ns ds = v.
Proof.
  induction ns as [|n ns IH]; simpl; intros v H.
  - exists []. split; [constructor|simpl; lia].
  - destruct (weight ns) as [|w] eqn:W; [lia|].
    destruct (IH (v mod S w)) as (ds & B & E); [apply Nat.mod_upper_bound; lia|].
    exists (v / S w :: ds). split.
    + constructor; auto. apply Nat.div_lt_upper_bound; lia.
    + cbn [value]. rewrite E. pose proof (Nat.div_mod v (S w)). lia.
Qed.

Fixpoint lexless (a b : list nat) : Prop :=
  match a, b with
  | x :: a', y :: b' => x < y \/ (x = y /\ lexless a' b')
  | _, _ => False
  end.

Lemma value_lex : forall ns a b, in_box ns a -> in_box ns b -> (value ns a < value ns b <-> lexless a b).
Proof.
  intros ns a b A. revert b. induction A as [|n x ns a Hx A IH]; intros b B; inversion B; subst; simpl; [lia|].
  pose proof (value_bound _ _ A). pose proof (value_bound _ _ H3). rewrite <- IH by auto.
  split.
  - intros E. destruct (lt_eq_lt_dec x y) as [[?|?]|?]; auto; [right; split; auto; subst; lia|nia].
  - intros [E|[-> E]]; nia.
Qed.

Lemma carry_value : forall ns ds, in_box ns ds ->
  let r := carry _ dready dbump (combine ds ns) in
  exists ds', fst r = combine ds' ns /\ in_box ns ds' /\
    if snd r then value ns ds = weight ns - 1 /\ value ns ds' = 0
    else value ns ds' = S (value ns ds).
Proof.
  intros ns ds B. induction B as [|n d ns ds Hd B IH]; simpl.
  - exists []. repeat split; auto. constructor.
  - destruct (carry _ dready dbump (combine ds ns)) as [r b]. simpl in IH.
    destruct IH as (ds' & E & B' & V). pose proof (value_bound _ _ B) as VB. subst r. destruct b; simpl.
    + destruct V as [V1 V2]. exists ((d + 1) mod n :: ds'). split; [reflexivity|]. split.
      { constructor; auto. apply Nat.mod_upper_bound; lia. }
      unfold dready; simpl. destruct (d =? n - 1) eqn:E.
      * apply Nat.eqb_eq in E. replace (d + 1) with n by lia. rewrite Nat.mod_same by lia.
        simpl. split; [|lia]. rewrite V1. subst d. nia.
      * apply Nat.eqb_neq in E. rewrite Nat.mod_small by lia. rewrite V1, V2. nia.
    + exists (d :: ds'). split; [reflexivity|]. split; [constructor; auto|]. simpl. lia.
Qed.

(** The state of a multi-index whose j-th object, when its counter is d, is (s j d). *)
Section Mid.
Variable obj : Type.
Variable incr : obj -> res obj.

Definition spec1 := ((nat -> obj) * nat)%type.

Definition mkstate (sp : list spec1) (ds : list nat) : list (cell obj) :=
  map (fun p => mkCell (fst (fst p) (snd p)) (snd p) (snd (fst p))) (combine sp ds).

Definition orbit_ok (p : spec1) : Prop :=
  1 <= snd p /\ (forall i, i < snd p -> incr (fst p i) = Ok (fst p ((i + 1) mod snd p))).

Definition cbump (p : spec1 * nat) : spec1 * nat := (fst p, (snd p + 1) mod snd (fst p)).
Definition cready (p : spec1 * nat) : bool := snd p =? snd (fst p) - 1.

Definition tocell (p : spec1 * nat) : cell obj := mkCell (fst (fst p) (snd p)) (snd p) (snd (fst p)).
Definition good (p : spec1 * nat) : Prop := orbit_ok (fst p) /\ snd p < snd (fst p).

Lemma bump_good : forall p, good p -> bump incr (tocell p) = Ok (tocell (cbump p)).
Proof.
  intros [[s n] d] [[H1 H2] H3]. simpl in *. unfold bump, tocell, cbump; simpl.
  destruct (n =? 0) eqn:E; [apply Nat.eqb_eq in E; lia|]. rewrite H2 by auto. reflexivity.
Qed.

Lemma bump_all_good : forall l, Forall good l ->
  bump_all incr (map tocell l) = Ok (map tocell (map cbump l)).
Proof.
  induction 1; simpl; auto. rewrite bump_good by auto. cbn [bind]. rewrite IHForall. reflexivity.
Qed.

Lemma ready_good : forall l, Forall good l -> ready (map tocell l) = readyX _ cready l.
Proof.
  induction 1 as [|[[s n] d] l [[H1 H2] H3] F IH]; simpl; auto. unfold cready; simpl in *.
  destruct (n =? 0) eqn:E; [apply Nat.eqb_eq in E; lia|]. simpl. rewrite IH. reflexivity.
Qed.

Lemma increment_good : forall l, Forall good l ->
  pd_increment_multidx incr (map tocell l) = Ok (map tocell (incX _ cready cbump l)).
Proof.
  intros l F. unfold pd_increment_multidx, incX. rewrite map_length.
  rewrite <- map_rev, ready_good by (apply Forall_rev; auto).
  set (k := length l - _). rewrite skipn_map, bump_all_good.
  - cbn [bind]. rewrite firstn_map, <- map_app. reflexivity.
  - rewrite Forall_forall in *. intros x Hx. apply F. rewrite <- (firstn_skipn k l). apply in_or_app; auto.
Qed.

Lemma carry_digits : forall l,
  map (fun p : spec1 * nat => (snd p, snd (fst p))) (fst (carry _ cready cbump l)) =
  fst (carry _ dready dbump (map (fun p : spec1 * nat => (snd p, snd (fst p))) l)) /\
  snd (carry _ cready cbump l) = snd (carry _ dready dbump (map (fun p : spec1 * nat => (snd p, snd (fst p))) l)) /\
  map fst (fst (carry _ cready cbump l)) = map fst l.
Proof.
  induction l as [|p l IH]; simpl; auto. destruct IH as (I1 & I2 & I3).
  destruct (carry _ cready cbump l) as [r b]. simpl in *.
  destruct (carry _ dready dbump _) as [r' b']. simpl in *. subst b'.
  destruct b; simpl; repeat split; auto; f_equal; auto.
Qed.

Lemma combine_split_eq : forall (A B : Type) (l : list (A * B)), l = combine (map fst l) (map snd l).
Proof. induction l as [|[a b] l IH]; simpl; auto. f_equal; auto. Qed.

Lemma state_step : forall sp ds, Forall orbit_ok sp -> in_box (map snd sp) ds ->
  exists ds', pd_increment_multidx incr (mkstate sp ds) = Ok (mkstate sp ds') /\
    in_box (map snd sp) ds' /\
    value (map snd sp) ds' = S (value (map snd sp) ds) mod weight (map snd sp).
Proof.
  intros sp ds F B.
  assert (LD : length ds = length sp) by (apply Forall2_length in B; rewrite map_length in B; auto).
  assert (G : Forall good (combine sp ds)).
  { clear LD. remember (map snd sp) as ns. revert sp F Heqns. induction B as [|n d ns ds Hd B IH]; intros sp F Heqns.
    - destruct sp; simpl; constructor.
    - destruct sp as [|p sp]; [constructor|]. inversion Heqns; subst. inversion F; subst.
      simpl. constructor; [split; auto|]. apply IH; auto. }
  change (mkstate sp ds) with (map tocell (combine sp ds)). rewrite increment_good by auto.
  destruct (carry_digits (combine sp ds)) as (C1 & C2 & C3).
  assert (CD : map (fun p : spec1 * nat => (snd p, snd (fst p))) (combine sp ds) = combine ds (map snd sp)).
  { clear -LD. revert ds LD. induction sp as [|p sp IH]; destruct ds; simpl; intros; try lia; auto.
    f_equal. apply IH; lia. }
  rewrite CD in *.
  destruct (carry_value _ _ B) as (ds' & D1 & D2 & D3).
  rewrite (carry_spec _ cready cbump) in *. cbn [fst snd] in *.
  set (l' := incX _ cready cbump (combine sp ds)) in *.
  assert (LD' : length ds' = length sp) by (apply Forall2_length in D2; rewrite map_length in D2; auto).
  assert (E1 : map fst l' = sp).
  { rewrite C3. clear -LD. revert ds LD. induction sp as [|p sp IH]; destruct ds; simpl; intros; try lia; auto.
    f_equal. apply IH; lia. }
  assert (E2 : map snd l' = ds').
  { rewrite D1 in C1. apply (f_equal (map fst)) in C1. rewrite map_map in C1. simpl in C1. etransitivity; [exact C1|].
    clear -LD'. revert ds' LD'. induction sp as [|p sp IH]; destruct ds'; simpl; intros; try lia; auto.
    f_equal. apply IH; lia. }
  exists ds'. split.
  - f_equal. rewrite (combine_split_eq _ _ l'), E1, E2. reflexivity.
  - split; auto. pose proof (value_bound _ _ D2) as VB.
    destruct (snd (carry _ dready dbump (combine ds (map snd sp)))).
    + destruct D3 as [V1 V2]. rewrite V1, V2. replace (S (weight (map snd sp) - 1)) with (weight (map snd sp)) by lia.
      rewrite Nat.mod_same by lia. reflexivity.
    + rewrite D3 in *. rewrite Nat.mod_small by lia. reflexivity.
Qed.

Lemma value_zero : forall ns, value ns (map (fun _ => 0) ns) = 0.
Proof. induction ns; simpl; auto. Qed.

Lemma calls_state : forall sp k, Forall orbit_ok sp ->
  exists ds, calls (pd_increment_multidx incr) k (mkstate sp (map (fun _ => 0) sp)) = Ok (mkstate sp ds) /\
    in_box (map snd sp) ds /\ value (map snd sp) ds = k mod weight (map snd sp).
Proof.
  intros sp k F.
  assert (W : weight (map snd sp) <> 0).
  { clear k. induction F as [|p sp [H _] F IH]; simpl; [lia|]. nia. }
  induction k as [|k IH]; cbn [calls].
  - exists (map (fun _ => 0) sp). split; auto. split.
    + clear W. induction F as [|p sp [H _] F IH]; simpl; constructor; auto.
    + rewrite Nat.mod_0_l by auto. pose proof (value_zero (map snd sp)) as V0. rewrite map_map in V0. exact V0.
  - destruct IH as (ds & E & B & V). rewrite E. cbn [bind].
    destruct (state_step sp ds F B) as (ds' & E' & B' & V'). exists ds'. split; auto. split; auto.
    rewrite V', V. rewrite <- (mod_succ k) by auto. f_equal. lia.
Qed.
End Mid.
