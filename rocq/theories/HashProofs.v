(** Lemmas for the hash. *)
From Coq Require Import List ZArith Lia Bool Arith Permutation Sorted.
From Verif Require Import Base Base64 Iterators Sorting ListAux Orbits Pd PdSpec PdProofs Relabel RelabelProofs PdHash HashSpec.
Import ListNotations.
Open Scope nat_scope.

(** ** rotations *)
Lemma rotation_refl : forall A (a : list A), rotation a a.
Proof. intros A a. exists [], a. rewrite app_nil_r. auto. Qed.
Lemma rotation_sym : forall A (a b : list A), rotation a b -> rotation b a.
Proof. intros A a b (x & y & -> & ->). exists y, x. auto. Qed.
Lemma rotation_trans : forall A (a b c : list A), rotation a b -> rotation b c -> rotation a c.
Proof.
  intros A a b c (x & y & -> & ->) (u & v & E & ->). apply app_eq_app in E as (l & [(-> & ->)|(-> & ->)]).
  - exists (x ++ u), l. rewrite <- !app_assoc. auto.
  - exists l, (v ++ y). rewrite <- !app_assoc. auto.
Qed.
Lemma rotation_perm : forall A (a b : list A), rotation a b -> Permutation a b.
Proof. intros A a b (x & y & -> & ->). apply Permutation_app_comm. Qed.
Lemma rotation_map : forall A B (g : A -> B) a b, rotation a b -> rotation (map g a) (map g b).
Proof. intros A B g a b (x & y & -> & ->). exists (map g x), (map g y). rewrite !map_app. auto. Qed.
Lemma rotation_rev : forall A (a b : list A), rotation a b -> rotation (rev a) (rev b).
Proof. intros A a b (x & y & -> & ->). exists (rev y), (rev x). rewrite !rev_app_distr. auto. Qed.

Lemma around_refl : forall A (a : list A), around a a.
Proof. left. apply rotation_refl. Qed.
Lemma around_sym : forall A (a b : list A), around a b -> around b a.
Proof.
  intros A a b [H|H]; [left; apply rotation_sym; auto|right].
  apply rotation_sym. rewrite <- (rev_involutive a). apply rotation_rev; auto.
Qed.
Lemma around_trans : forall A (a b c : list A), around a b -> around b c -> around a c.
Proof.
  intros A a b c [H|H] [K|K].
  - left. eapply rotation_trans; eauto.
  - right. eapply rotation_trans; [apply rotation_rev|]; eauto.
  - right. eapply rotation_trans; eauto.
  - left. eapply rotation_trans; [|exact K]. rewrite <- (rev_involutive a). apply rotation_rev; auto.
Qed.
Lemma around_perm : forall A (a b : list A), around a b -> Permutation a b.
Proof.
  intros A a b [H|H]; [apply rotation_perm; auto|].
  etransitivity; [apply Permutation_rev|apply rotation_perm; auto].
Qed.
Lemma around_map : forall A B (g : A -> B) a b, around a b -> around (map g a) (map g b).
Proof.
  intros A B g a b [H|H]; [left|right]; [apply rotation_map; auto|].
  rewrite <- map_rev. apply rotation_map; auto.
Qed.

(** ** canonical order of a cyclic buffer *)
Lemma buf_lt_lex : forall a b, length a = length b -> buf_lt a b = true <-> lex_lt a b.
Proof.
  induction a as [|x a IH]; intros [|y b] L; try discriminate; cbn [buf_lt].
  - split; [discriminate|]. intros K; inversion K.
  - injection L as L. destruct (Nat.ltb_spec x y) as [H|H].
    + split; auto. intros _. apply lex_here; auto.
    + destruct (Nat.ltb_spec y x) as [H'|H'].
      * split; [discriminate|]. intros K; inversion K; subst; lia.
      * assert (x = y) by lia. subst. rewrite IH by auto. split; [apply lex_next|].
        intros K; inversion K; subst; auto; lia.
Qed.
Lemma buf_ge : forall a b, length a = length b -> buf_lt a b = false -> lex_le b a.
Proof.
  intros a b L H. destruct (lex_le_total a b) as [[->|K]|K]; auto; [left; auto|].
  apply buf_lt_lex in K; auto. congruence.
Qed.

Lemma best_fold : forall n (g : nat -> list nat) l b, length b = n -> (forall i, In i l -> length (g i) = n) ->
  let r := fold_left (fun best i => if buf_lt (g i) best then g i else best) l b in
  length r = n /\ (r = b \/ exists i, In i l /\ r = g i) /\ lex_le r b /\ forall i, In i l -> lex_le r (g i).
Proof.
  intros n g. induction l as [|i l IH]; intros b Lb Lg; cbn [fold_left].
  - repeat split; auto; [left; auto|intros i []].
  - set (b' := if buf_lt (g i) b then g i else b).
    assert (Li : length (g i) = n) by (apply Lg; cbn; auto).
    assert (B' : length b' = n /\ (b' = b \/ b' = g i) /\ lex_le b' b /\ lex_le b' (g i)).
    { unfold b'. destruct (buf_lt (g i) b) eqn:E.
      - apply buf_lt_lex in E; [|lia]. split; auto. split; auto. split; [right; auto|left; auto].
      - apply buf_ge in E; [|lia]. split; auto. split; auto. split; [left; auto|auto]. }
    destruct B' as (B1 & B2 & B3 & B4).
    destruct (IH b' B1) as (R1 & R2 & R3 & R4); [intros; apply Lg; cbn; auto|].
    cbv zeta. split; auto. split; [|split].
    + destruct R2 as [->|(j & J1 & ->)]; [|right; exists j; cbn; auto].
      destruct B2 as [->| ->]; [auto|right; exists i; cbn; auto].
    + eapply lex_le_trans; eauto.
    + intros j [<-|Hj]; auto. eapply lex_le_trans; eauto.
Qed.

Lemma rot_skipn : forall i buf, i < length buf -> rot i buf = skipn i buf ++ firstn i buf.
Proof.
  intros i buf Hi. apply nth_error_ext. intros j. unfold rot. rewrite nth_error_map.
  destruct (Nat.lt_ge_cases j (length buf)) as [Hj|Hj].
  - rewrite (nth_error_nth' (seq 0 (length buf)) 0) by (rewrite seq_length; auto). rewrite seq_nth by auto. cbn [option_map].
    destruct (Nat.lt_ge_cases (i + j) (length buf)) as [H|H].
    + rewrite nth_error_app1 by (rewrite skipn_length; lia). rewrite nth_error_skipn.
      rewrite Nat.mod_small by lia. symmetry. apply nth_error_nth'. lia.
    + rewrite nth_error_app2 by (rewrite skipn_length; lia). rewrite skipn_length, nth_error_firstn.
      replace ((i + (0 + j)) mod length buf) with (j - (length buf - i)).
      * destruct (Nat.ltb_spec (j - (length buf - i)) i); [|lia]. symmetry. apply nth_error_nth'. lia.
      * apply Nat.mod_unique with (q := 1); lia.
  - rewrite !(proj2 (nth_error_None _ _)); auto.
    + rewrite app_length, skipn_length, firstn_length. lia.
    + rewrite seq_length. lia.
Qed.
Lemma rotation_rot : forall a b, rotation a b -> a <> [] -> exists i, i < length a /\ b = rot i a.
Proof.
  intros a b (x & y & -> & ->) NE. destruct y as [|z y].
  - rewrite app_nil_r in *. cbn [app]. exists 0. assert (0 < length x) by (destruct x; [congruence|cbn; lia]).
    split; auto. rewrite rot_skipn by auto. cbn. rewrite app_nil_r. auto.
  - exists (length x). rewrite app_length. cbn [length]. split; [lia|].
    rewrite rot_skipn by (rewrite app_length; cbn [length]; lia).
    rewrite skipn_app, firstn_app, skipn_all, firstn_all, Nat.sub_diag. cbn. rewrite app_nil_r. auto.
Qed.
Lemma rot_rotation : forall i a, i < length a -> rotation a (rot i a).
Proof. intros i a H. rewrite rot_skipn by auto. exists (firstn i a), (skipn i a). rewrite firstn_skipn. auto. Qed.
Lemma rot_length : forall i a, length (rot i a) = length a.
Proof. intros. unfold rot. rewrite map_length, seq_length. auto. Qed.

Lemma canonical_spec : forall a, a <> [] -> around a (pd_canonicalorder a) /\
  forall b, around a b -> lex_le (pd_canonicalorder a) b.
Proof.
  intros a NE. unfold pd_canonicalorder.
  destruct (best_fold (length a) (fun i => rot i a) (seq 0 (length a)) a) as (A1 & A2 & A3 & A4); auto.
  { intros; apply rot_length. }
  cbv zeta in *. set (m := fold_left _ _ a) in *.
  destruct (best_fold (length a) (fun i => rev (rot i a)) (seq 0 (length a)) m) as (B1 & B2 & B3 & B4); auto.
  { intros; rewrite rev_length; apply rot_length. }
  cbv zeta in *. set (r := fold_left _ _ m) in *. split.
  - destruct B2 as [->|(i & Hi & ->)].
    + destruct A2 as [->|(i & Hi & ->)]; [apply around_refl|]. apply in_seq in Hi. left. apply rot_rotation. lia.
    + apply in_seq in Hi. right. apply rotation_rev, rot_rotation. lia.
  - intros b [H|H].
    + destruct (rotation_rot a b H NE) as (i & Hi & ->). eapply lex_le_trans; [exact B3|]. apply A4. apply in_seq. lia.
    + apply rotation_rev in H. rewrite rev_involutive in H. destruct (rotation_rot _ _ H NE) as (i & Hi & E).
      rewrite <- (rev_involutive b), E. apply B4. apply in_seq. lia.
Qed.
Lemma canonical_around : forall a b, a <> [] -> around a b -> pd_canonicalorder a = pd_canonicalorder b.
Proof.
  intros a b NE H. assert (NE' : b <> []).
  { intros ->. apply around_perm, Permutation_sym, Permutation_nil in H. congruence. }
  destruct (canonical_spec a NE) as (A1 & A2). destruct (canonical_spec b NE') as (B1 & B2).
  apply lex_le_antisym.
  - apply A2. exact (around_trans _ a b _ H B1).
  - apply B2. exact (around_trans _ b a _ (around_sym _ _ _ H) A1).
Qed.

(** ** incidence *)
Notation count := (count_occ Nat.eq_dec).
Fixpoint incf (k : nat) (fs : list (list nat)) (te : nat) : list nat :=
  match fs with
  | [] => []
  | f :: fs' => repeat k (count f te) ++ incf (S k) fs' te
  end.
Lemma incf_length : forall fs k te, length (incf k fs te) = count (concat fs) te.
Proof. induction fs as [|f fs IH]; intros; cbn; auto. rewrite app_length, repeat_length, count_occ_app, IH. auto. Qed.
Lemma count_repeat : forall n x y, count (repeat x n) y = if x =? y then n else 0.
Proof.
  intros n x y. destruct (Nat.eqb_spec x y) as [->|H].
  - apply count_occ_repeat_eq; auto.
  - apply count_occ_repeat_neq; auto.
Qed.
Lemma incf_count : forall fs k te i, count (incf k fs te) i = if i <? k then 0 else count (nth (i - k) fs []) te.
Proof.
  induction fs as [|f fs IH]; intros k te i; cbn [incf].
  - destruct (i <? k), (i - k); reflexivity.
  - rewrite count_occ_app, count_repeat, IH. destruct (Nat.eqb_spec k i) as [->|H].
    + rewrite (proj2 (Nat.ltb_lt i (S i))), Nat.ltb_irrefl, Nat.sub_diag by lia. cbn. lia.
    + destruct (Nat.ltb_spec i k), (Nat.ltb_spec i (S k)); try lia.
      replace (i - k) with (S (i - S k)) by lia. cbn. auto.
Qed.

Lemma note_edges_ok : forall face es ifs, (forall e, In e es -> e < length ifs) ->
  (forall e, length (nth e ifs []) + count es e <= 2) ->
  exists ifs', note_edges face es ifs = Ok ifs' /\ length ifs' = length ifs /\
    forall e, e < length ifs -> nth e ifs' [] = nth e ifs [] ++ repeat face (count es e).
Proof.
  intros face. induction es as [|te es IH]; intros ifs R C; cbn [note_edges].
  - exists ifs. split; auto. split; auto. intros. cbn. rewrite app_nil_r. auto.
  - assert (Ht : te < length ifs) by (apply R; cbn; auto).
    assert (Lt : length (nth te ifs []) <= 1).
    { specialize (C te). rewrite count_occ_cons_eq in C by auto. lia. }
    assert (E : note_face face te ifs = Ok (upd te (nth te ifs [] ++ [face]) ifs)).
    { unfold note_face, get. rewrite (nth_error_nth' ifs []) by auto. cbn [bind].
      destruct (nth te ifs []) as [|a [|b l]]; auto. cbn in Lt. lia. }
    rewrite E. cbn [bind]. set (ifs1 := upd te _ ifs).
    assert (N1 : forall e, e < length ifs -> nth e ifs1 [] = nth e ifs [] ++ (if te =? e then [face] else [])).
    { intros e He. unfold ifs1. destruct (Nat.eqb_spec te e) as [->|Q].
      - rewrite nth_upd_eq; auto.
      - rewrite nth_upd_neq by auto. rewrite app_nil_r. auto. }
    assert (L1 : length ifs1 = length ifs) by apply upd_length.
    destruct (IH ifs1) as (ifs' & I1 & I2 & I3).
    + intros e He. rewrite L1. apply R. cbn; auto.
    + intros e. destruct (Nat.lt_ge_cases e (length ifs)) as [He|He].
      * rewrite N1, app_length by auto. specialize (C e). destruct (Nat.eqb_spec te e) as [->|Q].
        -- rewrite count_occ_cons_eq in C by auto. cbn. lia.
        -- rewrite count_occ_cons_neq in C by auto. cbn. lia.
      * rewrite nth_overflow by lia. cbn. specialize (C e). destruct (Nat.eq_dec te e).
        -- lia.
        -- rewrite count_occ_cons_neq in C by auto. lia.
    + exists ifs'. split; auto. split; [lia|]. intros e He. rewrite I3, N1 by lia. rewrite <- app_assoc. f_equal.
      destruct (Nat.eqb_spec te e) as [->|Q].
      * rewrite count_occ_cons_eq by auto. reflexivity.
      * rewrite count_occ_cons_neq by auto. reflexivity.
Qed.
Lemma note_faces_ok : forall fs k ifs, (forall e, In e (concat fs) -> e < length ifs) ->
  (forall e, length (nth e ifs []) + count (concat fs) e <= 2) ->
  exists ifs', note_faces k fs ifs = Ok ifs' /\ length ifs' = length ifs /\
    forall e, e < length ifs -> nth e ifs' [] = nth e ifs [] ++ incf k fs e.
Proof.
  induction fs as [|f fs IH]; intros k ifs R C; cbn [note_faces incf].
  - exists ifs. split; auto. split; auto. intros. rewrite app_nil_r. auto.
  - cbn [concat] in *.
    destruct (note_edges_ok k f ifs) as (ifs1 & E1 & L1 & N1).
    + intros e He. apply R. apply in_app_iff; auto.
    + intros e. specialize (C e). rewrite count_occ_app in C. lia.
    + rewrite E1. cbn [bind]. destruct (IH (S k) ifs1) as (ifs' & I1 & I2 & I3).
      * intros e He. rewrite L1. apply R. apply in_app_iff; auto.
      * intros e. specialize (C e). rewrite count_occ_app in C. destruct (Nat.lt_ge_cases e (length ifs)) as [He|He].
        -- rewrite N1, app_length, repeat_length by auto. lia.
        -- rewrite nth_overflow by lia. cbn. lia.
      * exists ifs'. split; auto. split; [lia|]. intros e He. rewrite I3, N1 by lia. rewrite app_assoc. auto.
Qed.

Definition twice (n : nat) (fs : list (list nat)) : Prop :=
  forall e, count (concat fs) e = if e <? n then 2 else 0.
Lemma twice_in : forall n fs e f, twice n fs -> In f fs -> In e f -> e < n.
Proof.
  intros n fs e f T Hf He. specialize (T e). assert (I : In e (concat fs)) by (apply in_concat; eauto).
  apply (count_occ_In Nat.eq_dec) in I. destruct (Nat.ltb_spec e n); lia.
Qed.
Lemma incident_ok : forall n fs, twice n fs -> exists ifs, incident_faces n fs = Ok ifs /\
  forall e, e < n -> nth e ifs [] = incf 0 fs e /\ length (incf 0 fs e) = 2.
Proof.
  intros n fs T. unfold incident_faces.
  assert (Z : forall e, nth e (repeat (@nil nat) n) [] = []).
  { intros e. destruct (nth_in_or_default e (repeat (@nil nat) n) []) as [I| ->]; auto. apply repeat_spec in I; auto. }
  destruct (note_faces_ok fs 0 (repeat [] n)) as (ifs & E & L & N).
  - intros e He. rewrite repeat_length. apply in_concat in He as (f & Hf & He). eapply twice_in; eauto.
  - intros e. rewrite Z. rewrite T. cbn [length]. destruct (e <? n); lia.
  - rewrite E. cbn [bind]. rewrite repeat_length in *.
    assert (K : forall e, e < n -> nth e ifs [] = incf 0 fs e /\ length (incf 0 fs e) = 2).
    { intros e He. rewrite N by auto. rewrite Z. split; auto. rewrite incf_length, T. destruct (Nat.ltb_spec e n); lia. }
    exists ifs. split; auto.
    replace (forallb (fun l => length l =? 2) ifs) with true; auto. symmetry. apply forallb_forall.
    intros l Hl. apply (In_nth _ _ []) in Hl as (e & He & <-). destruct (K e) as (K1 & K2); [lia|].
    rewrite K1, K2. auto.
Qed.

(** ** adjacency under renumbering *)
Definition other (l : list nat) (face : nat) : nat :=
  match l with [a; b] => if a =? face then b else a | _ => 0 end.

Lemma sorted_distinct : forall l, StronglySorted (fun a b => a <= b) l ->
  equal_neighbours l + length (nodup Nat.eq_dec l) = length l.
Proof.
  induction l as [|x l IH]; intros S; auto. inversion S as [|? ? S' F]; subst. specialize (IH S').
  destruct l as [|y l]; [reflexivity|]. change (equal_neighbours (x :: y :: l)) with ((if x =? y then 1 else 0) + equal_neighbours (y :: l)).
  change (nodup Nat.eq_dec (x :: y :: l)) with
    (if in_dec Nat.eq_dec x (y :: l) then nodup Nat.eq_dec (y :: l) else x :: nodup Nat.eq_dec (y :: l)).
  set (m := nodup Nat.eq_dec (y :: l)) in *. destruct (Nat.eqb_spec x y) as [->|Q].
  - destruct (in_dec Nat.eq_dec y (y :: l)) as [|K]; [cbn [length] in *; lia|]. exfalso; apply K; cbn; auto.
  - destruct (in_dec Nat.eq_dec x (y :: l)) as [K|K]; [|cbn [length] in *; lia].
    destruct K as [K|K]; [congruence|]. inversion F as [|? ? F1 F2]; subst. inversion S' as [|? ? _ F']; subst.
    rewrite Forall_forall in F'. specialize (F' x K). lia.
Qed.
Lemma leb_sorted : forall l, StronglySorted (fun a b => a <= b) (isort Nat.leb l).
Proof.
  intros l. pose proof (isort_sorted Nat.leb) as H.
  assert (S : StronglySorted (lep Nat.leb) (isort Nat.leb l)).
  { apply H.
    - intros x y K. apply Nat.leb_le. apply Nat.leb_gt in K. lia.
    - intros x y z K1 K2. apply Nat.leb_le in K1, K2. apply Nat.leb_le. lia. }
  clear H. induction S as [|x m S IH F]; constructor; auto. eapply Forall_impl; [|exact F].
  intros y K. apply Nat.leb_le. exact K.
Qed.
Lemma repeats_count : forall l, equal_neighbours (isort Nat.leb l) + length (nodup Nat.eq_dec l) = length l.
Proof.
  intros l. rewrite <- (isort_length Nat.leb l). rewrite <- (sorted_distinct (isort Nat.leb l)) by apply leb_sorted.
  f_equal. apply Permutation_length. apply NoDup_Permutation; try apply NoDup_nodup.
  intros x. rewrite !nodup_In. split; apply Permutation_in; [symmetry|]; apply isort_perm.
Qed.
Lemma repeats_inj : forall (g : nat -> nat) l m, (forall x y, In x l -> In y l -> g x = g y -> x = y) ->
  Permutation (map g l) m -> equal_neighbours (isort Nat.leb l) = equal_neighbours (isort Nat.leb m).
Proof.
  intros g l m I P. pose proof (repeats_count l). pose proof (repeats_count m).
  assert (length l = length m) by (rewrite <- (Permutation_length P), map_length; auto).
  assert (length (nodup Nat.eq_dec l) = length (nodup Nat.eq_dec m)); [|lia].
  rewrite <- (map_length g). apply Permutation_length. apply NoDup_Permutation.
  - apply NoDup_map_inj; [|apply NoDup_nodup]. intros x y Hx Hy. apply I; [apply nodup_In in Hx|apply nodup_In in Hy]; auto.
  - apply NoDup_nodup.
  - intros x. rewrite nodup_In. rewrite in_map_iff. split.
    + intros (y & <- & Hy). apply nodup_In in Hy. apply (Permutation_in _ P). apply in_map; auto.
    + intros Hx. apply (Permutation_in _ (Permutation_sym P)) in Hx. apply in_map_iff in Hx as (y & <- & Hy).
      exists y. split; auto. apply nodup_In; auto.
Qed.

Lemma sum_perm : forall l m, Permutation l m -> list_sum l = list_sum m.
Proof. unfold list_sum. intros l m P. induction P; cbn; lia. Qed.
Lemma sum_reindex : forall n (phi g g' : nat -> nat), bij_on n phi -> (forall i, i < n -> g' (phi i) = g i) ->
  list_sum (map g' (seq 0 n)) = list_sum (map g (seq 0 n)).
Proof.
  intros n phi g g' B H.
  assert (P : Permutation (map g' (seq 0 n)) (map g (seq 0 n))).
  { transitivity (map g' (map phi (seq 0 n))).
    - apply Permutation_map. symmetry. apply bij_perm; auto.
    - rewrite map_map. erewrite map_ext_in; [reflexivity|]. intros i Hi. apply in_seq in Hi. apply H. lia. }
  apply sum_perm; auto.
Qed.

Lemma map_nth_all : forall A B (g : A -> B) (l : list A) z, map (fun i => g (nth i l z)) (seq 0 (length l)) = map g l.
Proof.
  intros A B g l z. apply nth_error_ext. intros i. rewrite !nth_error_map.
  destruct (Nat.lt_ge_cases i (length l)) as [H|H].
  - rewrite (nth_error_nth' (seq 0 (length l)) 0) by (rewrite seq_length; auto). rewrite seq_nth by auto. cbn [option_map].
    rewrite (nth_error_nth' l z) by auto. auto.
  - rewrite !(proj2 (nth_error_None _ _)); auto. rewrite seq_length; auto.
Qed.
Lemma map_nth_self : forall A (l : list A) z, map (fun i => nth i l z) (seq 0 (length l)) = l.
Proof. intros. rewrite (map_nth_all A A (fun x => x)). apply map_id. Qed.
Lemma combine_map : forall A B C (f : A -> B) (g : A -> C) l, combine (map f l) (map g l) = map (fun x => (f x, g x)) l.
Proof. intros A B C f g. induction l; cbn; f_equal; auto. Qed.

Definition adjl (fs : list (list nat)) (i : nat) : list nat := map (fun e => other (incf 0 fs e) i) (nth i fs []).
Definition sizes (fs : list (list nat)) (l : list nat) : list nat := map (fun g => length (nth g fs [])) l.

Section Corr.
Context (n : nat) (fs fs' : list (list nat)) (pi phi : nat -> nat).
Context (T : twice n fs) (T' : twice n fs') (Bpi : bij_on n pi) (Bphi : bij_on (length fs) phi).
Context (L : length fs' = length fs).
Context (F : forall i, i < length fs -> around (map pi (nth i fs [])) (nth (phi i) fs' [])).

Lemma face_lt : forall i e, i < length fs -> In e (nth i fs []) -> e < n.
Proof. intros i e Hi He. eapply (twice_in n fs); eauto. apply nth_In; auto. Qed.
Lemma count_inj : forall m (g : nat -> nat) l e, bij_on m g -> (forall x, In x l -> x < m) -> e < m ->
  count (map g l) (g e) = count l e.
Proof.
  intros m g l e B Hl He. induction l as [|x l IH]; auto. cbn [map].
  assert (Hx : x < m) by (apply Hl; cbn; auto).
  destruct (Nat.eq_dec x e) as [->|Q].
  - rewrite !count_occ_cons_eq by auto. rewrite IH; auto. intros; apply Hl; cbn; auto.
  - rewrite !count_occ_cons_neq; auto.
    + apply IH. intros; apply Hl; cbn; auto.
    + intros K. apply Q. apply B; auto.
Qed.
Lemma count_corr : forall i e, i < length fs -> e < n -> count (nth (phi i) fs' []) (pi e) = count (nth i fs []) e.
Proof.
  intros i e Hi He. rewrite <- (count_inj n pi (nth i fs []) e Bpi) by (auto; intros; eapply face_lt; eauto).
  symmetry. apply Permutation_count_occ. apply around_perm, F; auto.
Qed.
Lemma inc_lt : forall e i, In i (incf 0 fs e) -> i < length fs.
Proof.
  intros e i H. apply (count_occ_In Nat.eq_dec) in H. rewrite incf_count, Nat.sub_0_r in H. cbn [Nat.ltb Nat.leb] in H.
  destruct (Nat.lt_ge_cases i (length fs)); auto. rewrite nth_overflow in H by auto. cbn in H. lia.
Qed.
Lemma inc_perm : forall e, e < n -> Permutation (map phi (incf 0 fs e)) (incf 0 fs' (pi e)).
Proof.
  intros e He. apply (Permutation_count_occ Nat.eq_dec). intros x. rewrite incf_count, Nat.sub_0_r. cbn [Nat.ltb Nat.leb].
  destruct (Nat.lt_ge_cases x (length fs)) as [Hx|Hx].
  - destruct (bij_surj _ _ _ Bphi Hx) as (i & Hi & <-).
    rewrite (count_inj (length fs) phi) by (auto; intros; eapply inc_lt; eauto).
    rewrite incf_count, Nat.sub_0_r. cbn [Nat.ltb Nat.leb]. symmetry. apply count_corr; auto.
  - rewrite nth_overflow by lia. cbn. apply count_occ_not_In. intros K. apply in_map_iff in K as (i & <- & Hi).
    apply inc_lt in Hi. apply Bphi in Hi. lia.
Qed.
Lemma inc_two : forall e, e < n -> exists a b, incf 0 fs e = [a; b].
Proof.
  intros e He. assert (length (incf 0 fs e) = 2).
  { rewrite incf_length, T. destruct (Nat.ltb_spec e n); lia. }
  destruct (incf 0 fs e) as [|a [|b [|? ?]]]; try discriminate. eauto.
Qed.
Lemma other_corr : forall i e, i < length fs -> In e (nth i fs []) ->
  other (incf 0 fs' (pi e)) (phi i) = phi (other (incf 0 fs e) i) /\ other (incf 0 fs e) i < length fs.
Proof.
  intros i e Hi He. pose proof (face_lt i e Hi He) as Hn. destruct (inc_two e Hn) as (a & b & E).
  assert (Ii : In i (incf 0 fs e)).
  { apply (count_occ_In Nat.eq_dec). rewrite incf_count, Nat.sub_0_r. cbn [Nat.ltb Nat.leb]. apply count_occ_In; auto. }
  assert (Ha : a < length fs) by (apply (inc_lt e); rewrite E; cbn; auto).
  assert (Hb : b < length fs) by (apply (inc_lt e); rewrite E; cbn; auto).
  pose proof (inc_perm e Hn) as P. rewrite E in *. cbn [map] in P. apply Permutation_length_2_inv in P.
  destruct Bphi as (_ & I). cbn [other]. split.
  - destruct P as [-> | ->]; cbn [other].
    + destruct (Nat.eqb_spec a i) as [Q|Q], (Nat.eqb_spec (phi a) (phi i)) as [Q'|Q']; auto; try congruence.
      exfalso. auto.
    + destruct Ii as [Q|[Q|[]]]; rewrite <- Q.
      * rewrite Nat.eqb_refl. destruct (Nat.eqb_spec (phi b) (phi a)); auto.
      * rewrite Nat.eqb_refl. destruct (Nat.eqb_spec a b); congruence.
  - destruct (a =? i); auto.
Qed.
Lemma adjl_corr : forall i, i < length fs -> around (map phi (adjl fs i)) (adjl fs' (phi i)).
Proof.
  intros i Hi. unfold adjl. pose proof (around_map _ _ (fun e => other (incf 0 fs' e) (phi i)) _ _ (F i Hi)) as K.
  rewrite map_map in *. erewrite map_ext_in; [exact K|]. intros e He. cbn beta. symmetry. apply other_corr; auto.
Qed.
Lemma adjl_lt : forall i g, i < length fs -> In g (adjl fs i) -> g < length fs.
Proof. intros i g Hi Hg. apply in_map_iff in Hg as (e & <- & He). apply other_corr; auto. Qed.
Lemma size_corr : forall i, i < length fs -> length (nth (phi i) fs' []) = length (nth i fs []).
Proof. intros i Hi. rewrite <- (Permutation_length (around_perm _ _ _ (F i Hi))). apply map_length. Qed.

Lemma sizes_perm : Permutation (map (@length nat) fs) (map (@length nat) fs').
Proof.
  rewrite <- (map_nth_all _ _ (@length nat) fs []), <- (map_nth_all _ _ (@length nat) fs' []). rewrite L.
  transitivity (map (fun i => length (nth i fs' [])) (map phi (seq 0 (length fs)))).
  - rewrite map_map. erewrite map_ext_in; [reflexivity|]. intros i Hi. apply in_seq in Hi. symmetry. apply size_corr. lia.
  - apply Permutation_map, bij_perm; auto.
Qed.
Lemma dual_corr :
  list_sum (map (fun i => equal_neighbours (isort Nat.leb (adjl fs' i))) (seq 0 (length fs'))) =
  list_sum (map (fun i => equal_neighbours (isort Nat.leb (adjl fs i))) (seq 0 (length fs))).
Proof.
  rewrite L. apply (sum_reindex _ phi); auto. intros i Hi. symmetry. apply (repeats_inj phi).
  - intros x y Hx Hy. apply Bphi; eapply adjl_lt; eauto.
  - apply around_perm, adjl_corr; auto.
Qed.
Definition J (fs : list (list nat)) (s k : nat) : nat :=
  list_sum (map (fun i => if length (nth i fs []) =? s
    then length (filter (fun g => length (nth g fs []) =? k) (adjl fs i)) else 0) (seq 0 (length fs))).
Lemma filter_perm : forall A (p : A -> bool) l m, Permutation l m -> length (filter p l) = length (filter p m).
Proof.
  intros A p l m P. induction P; cbn; auto.
  - destruct (p x); cbn; lia.
  - destruct (p x), (p y); cbn; lia.
  - lia.
Qed.
Lemma filter_map_length : forall A B (f : A -> B) (p : A -> bool) q l, (forall x, In x l -> p x = q (f x)) ->
  length (filter p l) = length (filter q (map f l)).
Proof.
  intros A B f p q. induction l as [|x l IH]; intros H; auto. cbn [map filter]. rewrite <- H by (cbn; auto).
  destruct (p x); cbn [length]; rewrite IH; auto; intros; apply H; cbn; auto.
Qed.
Lemma J_corr : forall s k, J fs' s k = J fs s k.
Proof.
  intros s k. unfold J. rewrite L. apply (sum_reindex _ phi); auto. intros i Hi. rewrite size_corr by auto.
  destruct (_ =? s); auto. symmetry.
  rewrite (filter_map_length _ _ phi _ (fun g => length (nth g fs' []) =? k)).
  - apply filter_perm. apply around_perm, adjl_corr; auto.
  - intros g Hg. rewrite size_corr; auto. eapply adjl_lt; eauto.
Qed.
Lemma sizes_corr : forall i, i < length fs -> around (sizes fs (adjl fs i)) (sizes fs' (adjl fs' (phi i))).
Proof.
  intros i Hi. unfold sizes. pose proof (around_map _ _ (fun g => length (nth g fs' [])) _ _ (adjl_corr i Hi)) as K.
  rewrite map_map in K. erewrite map_ext_in; [exact K|]. intros g Hg. cbn beta. symmetry. apply size_corr.
  eapply adjl_lt; eauto.
Qed.
End Corr.

(** ** the whole vector *)
Definition largest (l : list nat) : bool :=
  match l with [] => false | x :: l' => forallb (fun y => y <? x) l' end.
Definition vector (nc ne : nat) (fs : list (list nat)) (cs : list nat) : list Z :=
  firstn 24 (map uchar ([nc; ne; length fs] ++ map (@length nat) fs ++ [length cs] ++ cs ++
    [list_sum (map (fun i => equal_neighbours (isort Nat.leb (adjl fs i))) (seq 0 (length fs)))] ++
    (if largest (map (@length nat) fs) then pd_canonicalorder (sizes fs (adjl fs 0)) else []) ++
    compress (map (J fs 1) [3; 4; 5; 6] ++ map (J fs 2) [3; 4; 5; 6] ++ map (J fs 3) [3; 4; 5; 6] ++ repeat 0 9)
      false 0 (repeat 0 21)) ++ repeat 0%Z 24).

Definition comp_sizes (d : pd) : list nat := map (fun c => length (cp_edge c)) (p_comp d).

Lemma hash_data_ok : forall d, faced d -> hash_data d = Ok (vector (ncross d) (nedges d) (face_edges d) (comp_sizes d)).
Proof.
  intros d (NE & NI & T). unfold hash_data. fold (face_edges d). set (fs := face_edges d) in *.
  destruct (incident_ok (nedges d) fs T) as (ifs & E & N). rewrite E. cbn [bind].
  assert (A : map (fun p => adjfaces ifs (fst p) (snd p)) (combine (seq 0 (length fs)) fs) = map (adjl fs) (seq 0 (length fs))).
  { rewrite <- (map_nth_self _ fs []) at 2. rewrite <- (map_id (seq 0 (length fs))) at 1. rewrite combine_map, map_map.
    apply map_ext_in. intros i Hi. apply in_seq in Hi. cbn [fst snd]. unfold adjfaces, adjl. apply map_ext_in.
    intros e He. unfold adjacent_face. destruct (N e) as (-> & _); auto.
    eapply twice_in; eauto. apply nth_In. lia. }
  destruct fs as [|f0 rest] eqn:Efs.
  { exfalso. apply NE. unfold fs, face_edges in Efs. destruct (p_face d); auto; discriminate. }
  rewrite <- Efs in *.
  replace (existsb (fun f => length f =? 0) fs) with false.
  2:{ symmetry. apply not_true_iff_false. rewrite existsb_exists. intros (f & Hf & Q). apply Nat.eqb_eq in Q.
      destruct f; [|discriminate]. auto. }
  rewrite A. f_equal. unfold vector. f_equal. f_equal. f_equal.
  assert (JJ : forall s k, joins fs (map (adjl fs) (seq 0 (length fs))) s k = J fs s k).
  { intros s k. unfold joins, J. f_equal. rewrite <- (map_nth_self _ fs []) at 1. rewrite combine_map, map_map.
    apply map_ext. intros i. reflexivity. }
  assert (A0 : nth 0 (map (adjl fs) (seq 0 (length fs))) [] = adjl fs 0) by (rewrite Efs; reflexivity).
  rewrite A0. unfold sizes.
  assert (Lg : forallb (fun f => length f <? length f0) rest = largest (map (@length nat) fs)).
  { rewrite Efs. cbn [map largest]. clear. induction rest as [|g r IH]; auto. cbn [forallb map]. rewrite IH. auto. }
  rewrite Lg. rewrite !(map_ext (joins fs _ _) _ (JJ _)). rewrite map_map.
  assert (Nf : nfaces d = length fs) by (unfold nfaces, fs, face_edges; rewrite map_length; auto).
  rewrite Nf. unfold ncomps, comp_sizes. rewrite map_length. reflexivity.
Qed.

Lemma desc_unique : forall l m, StronglySorted (fun a b => b <= a) l -> StronglySorted (fun a b => b <= a) m ->
  Permutation l m -> l = m.
Proof.
  intros l m S1 S2. apply (sorted_unique (fun a b => b <=? a)).
  - intros x y H1 H2. apply Nat.leb_le in H1, H2. lia.
  - clear - S1. induction S1 as [|x l S IH F]; constructor; auto. eapply Forall_impl; [|exact F].
    intros y H. apply Nat.leb_le. auto.
  - clear - S2. induction S2 as [|x l S IH F]; constructor; auto. eapply Forall_impl; [|exact F].
    intros y H. apply Nat.leb_le. auto.
Qed.
Lemma big_first_sizes : forall l, StronglySorted big_first l -> StronglySorted (fun a b => b <= a) (map (@length nat) l).
Proof.
  intros l S. induction S as [|x l S IH F]; cbn [map]; constructor; auto. apply Forall_forall. intros y Hy.
  apply in_map_iff in Hy as (z & <- & Hz). rewrite Forall_forall in F. destruct (F z Hz) as [K|(K & _)]; lia.
Qed.

Lemma largest_first : forall l i, largest l = true -> i < length l -> nth i l 0 = nth 0 l 0 -> i = 0.
Proof.
  intros [|x l] i H Hi E; [cbn in Hi; lia|]. destruct i as [|i]; auto. exfalso. cbn in H, Hi, E.
  rewrite forallb_forall in H. assert (In (nth i l 0) l) by (apply nth_In; lia). apply H in H0.
  apply Nat.ltb_lt in H0. lia.
Qed.

Lemma vector_same : forall d d' pi phi, faced d -> faced d' -> faces_sorted d -> faces_sorted d' ->
  comps_sorted d -> comps_sorted d' -> ncross d' = ncross d -> same_faces d d' pi phi -> same_lengths d d' ->
  hash_data d' = hash_data d.
Proof.
  intros d d' pi phi Fd Fd' S S' C C' N SF SL. rewrite !hash_data_ok by auto. f_equal.
  destruct Fd as (NE & NI & T), Fd' as (_ & _ & T'), SF as [M Bpi K Bphi FF].
  assert (Cs : comp_sizes d' = comp_sizes d).
  { apply desc_unique.
    - unfold comp_sizes. rewrite <- (map_map cp_edge (@length nat)). apply big_first_sizes; auto.
    - unfold comp_sizes. rewrite <- (map_map cp_edge (@length nat)). apply big_first_sizes; auto.
    - symmetry. exact SL. }
  assert (K' : length (face_edges d') = length (face_edges d)).
  { unfold face_edges. rewrite !map_length. exact K. }
  assert (Bphi' : bij_on (length (face_edges d)) phi).
  { unfold face_edges. rewrite map_length. exact Bphi. }
  fold (twice (nedges d) (face_edges d)) in T. rewrite M in T'. fold (twice (nedges d) (face_edges d')) in T'.
  assert (F : forall i, i < length (face_edges d) -> around (map pi (nth i (face_edges d) [])) (nth (phi i) (face_edges d') [])).
  { intros i Hi. destruct (FF i (nth i (face_edges d) [])) as (f' & E & R); [apply nth_error_nth'; auto|].
    rewrite (nth_error_nth _ _ _ E). auto. }
  assert (Sz : map (@length nat) (face_edges d') = map (@length nat) (face_edges d)).
  { apply desc_unique; try (apply big_first_sizes; auto). symmetry. eapply sizes_perm; eauto. }
  unfold vector. rewrite N, M, K', Cs, Sz. f_equal. f_equal. f_equal. f_equal. f_equal. f_equal. f_equal. f_equal.
  rewrite <- K' at 1. rewrite (dual_corr (nedges d) (face_edges d) (face_edges d') pi phi); auto.
  assert (JC : forall s k, J (face_edges d') s k = J (face_edges d) s k).
  { intros. eapply (J_corr (nedges d) (face_edges d) (face_edges d') pi phi); eauto. }
  rewrite !(map_ext (J (face_edges d') _) _ (JC _)).
  f_equal. f_equal. destruct (largest (map (@length nat) (face_edges d))) eqn:Lg; auto.
  assert (H0 : 0 < length (face_edges d)).
  { unfold face_edges. rewrite map_length. destruct (p_face d); [congruence|cbn; lia]. }
  assert (P0 : phi 0 = 0).
  { apply (largest_first _ (phi 0) Lg).
    - rewrite map_length. apply Bphi'. auto.
    - rewrite <- Sz at 1. change 0 with (length (@nil nat)) at 2 4. rewrite !map_nth. apply size_corr with (pi := pi); auto. }
  assert (R : around (sizes (face_edges d) (adjl (face_edges d) 0)) (sizes (face_edges d') (adjl (face_edges d') (phi 0)))).
  { eapply (sizes_corr (nedges d) (face_edges d) (face_edges d') pi phi); eauto. }
  rewrite P0 in R.
  symmetry. apply canonical_around; auto. unfold sizes, adjl. rewrite !map_map. intros Q. apply map_eq_nil in Q.
  apply NI. rewrite <- Q. apply nth_In; auto.
Qed.

Lemma hash_data_bytes : forall d data, hash_data d = Ok data -> length data = 3 * 8 /\ Forall byte data.
Proof.
  intros d data E. unfold hash_data in E. destruct (incident_faces _ _) as [ifs| | |]; try discriminate. cbn [bind] in E.
  destruct (map (map fst) (p_face d)); [discriminate|]. destruct (existsb _ _); [discriminate|].
  apply ok_inj in E. rewrite <- E. clear E. match goal with |- context [map uchar ?l] => generalize l end. intros all. split.
  - rewrite firstn_length, app_length, repeat_length. lia.
  - apply Forall_forall. intros x Hx. apply in_firstn in Hx. apply in_app_iff in Hx as [Hx|Hx].
    + apply in_map_iff in Hx as (y & <- & _). unfold byte, uchar. apply Z.mod_pos_bound. lia.
    + apply repeat_spec in Hx. subst. unfold byte. lia.
Qed.
