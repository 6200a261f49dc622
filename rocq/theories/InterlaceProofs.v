(** Proofs about the bubble sort and the code of crossings in Interlace.v. *)
From Coq Require Import List ZArith Lia Bool Arith Permutation Sorted.
From Verif Require Import Base Iterators Sorting Pd PdProofs PdCompsProofs PdCross PdIso OverUnder Interlace InterlaceSpec.
Import ListNotations.
Open Scope nat_scope.

Notation cnt := (count_occ Nat.eq_dec).

(** number of pairs of places with [i] before [j] *)
Fixpoint inv (i j : nat) (l : list nat) : nat :=
  match l with
  | [] => 0
  | x :: r => (if x =? i then cnt r j else 0) + inv i j r
  end.
Lemma inv_app : forall i j u v, inv i j (u ++ v) = inv i j u + inv i j v + cnt u i * cnt v j.
Proof.
  intros i j. induction u as [|x u IH]; intro v; cbn [app inv]; [cbn; lia|].
  rewrite IH, count_occ_app. cbn [count_occ]. destruct (Nat.eqb_spec x i), (Nat.eq_dec x i); try lia.
Qed.
Lemma inv_sorted : forall i j l, j < i -> StronglySorted le l -> inv i j l = 0.
Proof.
  intros i j l H S. induction S as [|x l S IH F]; cbn [inv]; auto. rewrite IH. destruct (Nat.eqb_spec x i); [|lia]. subst.
  destruct (cnt l j) eqn:C; auto. exfalso. assert (I : In j l) by (apply (count_occ_In Nat.eq_dec); lia). rewrite Forall_forall in F. apply F in I. lia.
Qed.

Definition key (z : Z) : nat := Z.to_nat (Z.abs z).
Lemma key_lt : forall x y, (Z.abs y <? Z.abs x)%Z = (key y <? key x).
Proof. intros x y. unfold key. destruct (Z.ltb_spec (Z.abs y) (Z.abs x)), (Nat.ltb_spec (Z.to_nat (Z.abs y)) (Z.to_nat (Z.abs x))); auto; lia. Qed.

(** the order of the keys after a pass *)
Fixpoint bub (x : nat) (l : list nat) : list nat :=
  match l with
  | [] => [x]
  | y :: l' => if y <? x then y :: bub x l' else x :: bub y l'
  end.
Fixpoint swaps (x : nat) (l : list nat) : bool :=
  match l with
  | [] => false
  | y :: l' => if y <? x then true else swaps y l'
  end.
Lemma bub_perm : forall l x, Permutation (bub x l) (x :: l).
Proof.
  induction l as [|y l IH]; intro x; cbn [bub]; auto. destruct (y <? x); rewrite IH; auto. apply perm_swap.
Qed.
Lemma bub_max : forall l x, exists a m, bub x l = a ++ [m] /\ Forall (fun y => y <= m) a.
Proof.
  induction l as [|y l IH]; intro x; cbn [bub]; [exists [], x; auto|].
  destruct (Nat.ltb_spec y x).
  - destruct (IH x) as (a & m & E & F). exists (y :: a), m. rewrite E. split; auto. constructor; auto.
    assert (I : In x (bub x l)) by (eapply Permutation_in; [symmetry; apply bub_perm|simpl; auto]). rewrite E in I. apply in_app_iff in I. rewrite Forall_forall in F.
    destruct I as [I|[<-|[]]]; [apply F in I; lia|lia].
  - destruct (IH y) as (a & m & E & F). exists (x :: a), m. rewrite E. split; auto. constructor; auto.
    assert (I : In y (bub y l)) by (eapply Permutation_in; [symmetry; apply bub_perm|simpl; auto]). rewrite E in I. apply in_app_iff in I. rewrite Forall_forall in F.
    destruct I as [I|[<-|[]]]; [apply F in I; lia|lia].
Qed.
Lemma bub_sorted : forall s x, StronglySorted le (x :: s) -> bub x s = x :: s.
Proof.
  induction s as [|y s IH]; intros x S; cbn [bub]; auto. inversion S as [|? ? S' F]; subst. inversion F; subst.
  destruct (Nat.ltb_spec y x); [lia|]. rewrite IH; auto.
Qed.
Lemma bub_app : forall a x s, StronglySorted le s -> Forall (fun m => Forall (le m) s) (x :: a) -> bub x (a ++ s) = bub x a ++ s.
Proof.
  induction a as [|y a IH]; intros x s S F.
  - cbn [app bub]. inversion F; subst. rewrite bub_sorted; auto. constructor; auto.
  - cbn [app bub]. inversion F as [|? ? F1 F']; subst. inversion F' as [|? ? F2 F'']; subst. destruct (y <? x); rewrite IH; auto.
Qed.
Lemma swaps_sorted : forall l x, swaps x l = false <-> StronglySorted le (x :: l).
Proof.
  induction l as [|y l IH]; intro x; cbn [swaps]; [split; auto; repeat constructor|].
  destruct (Nat.ltb_spec y x).
  - split; [discriminate|]. intro S. inversion S as [|? ? _ F]; subst. inversion F; subst. lia.
  - rewrite IH. split; intro S.
    + inversion S as [|? ? S' F]; subst. constructor; auto. constructor; auto. eapply Forall_impl; [|exact F]. cbn. intros; lia.
    + inversion S; auto.
Qed.

(** the table of counters *)
Definition table_ok (cp : nat) (ns : list (list nat)) : Prop :=
  length ns = cp + 1 /\ forall i row, 2 <= i -> nth_error ns i = Some row -> length row = i.
Definition val (ns : list (list nat)) (i j : nat) : nat := nth j (nth i ns []) 0.
Lemma bump_ok : forall cp ns a b, table_ok cp ns -> 1 <= b -> b < a -> a <= cp ->
  exists ns', bump ns a b = Ok ns' /\ table_ok cp ns' /\ forall i j, val ns' i j = val ns i j + (if (a =? i) && (b =? j) then 1 else 0).
Proof.
  intros cp ns a b (L & RW) Hb Hba Ha. unfold bump. destruct (nth_error ns a) as [row|] eqn:E; [|apply nth_error_None in E; lia].
  rewrite (proj2 (get_ok _ _ _ _) E). cbn [bind]. pose proof (RW a row ltac:(lia) E) as Lr.
  destruct (nth_error row b) as [v|] eqn:V; [|apply nth_error_None in V; lia]. rewrite (proj2 (get_ok _ _ _ _) V). cbn [bind].
  eexists. split; [reflexivity|]. split; [split; [rewrite upd_length; auto|]|].
  - intros i r Hi Hr. rewrite nth_error_upd in Hr. destruct (Nat.eqb_spec a i) as [<-|N]; [|eauto]. destruct (Nat.ltb_spec a (length ns)); [|lia].
    injection Hr as <-. rewrite upd_length. auto.
  - intros i j. unfold val. destruct (Nat.eqb_spec a i) as [<-|N].
    + rewrite nth_upd_eq by lia. rewrite (nth_error_nth _ _ [] E). destruct (Nat.eqb_spec b j) as [<-|N'].
      * rewrite nth_upd_eq by lia. rewrite (nth_error_nth _ _ 0 V). cbn. reflexivity.
      * rewrite nth_upd_neq by auto. cbn. lia.
    + rewrite nth_upd_neq by auto. cbn. lia.
Qed.

Lemma bubble_ok : forall cp l x ns, table_ok cp ns -> Forall (fun z => 1 <= key z <= cp) (x :: l) ->
  exists l' ns', bubble x l ns = Ok (l', ns', swaps (key x) (map key l)) /\ map key l' = bub (key x) (map key l) /\ table_ok cp ns' /\
    forall i j, j < i -> val ns' i j + inv i j (map key l') = val ns i j + inv i j (map key (x :: l)).
Proof.
  intros cp. induction l as [|y l IH]; intros x ns TO F.
  - exists [x], ns. cbn [bubble map bub swaps]. auto.
  - inversion F as [|? ? F1 F']; subst. inversion F' as [|? ? F2 F'']; subst. cbn [bubble map bub swaps]. rewrite key_lt. destruct (Nat.ltb_spec (key y) (key x)) as [H|H].
    + destruct (bump_ok cp ns (key x) (key y) TO) as (ns1 & B & TO1 & V1); try lia. fold (key x) (key y). rewrite B. cbn [bind].
      destruct (IH x ns1 TO1 ltac:(constructor; auto)) as (l' & ns' & E & K & TO' & V'). rewrite E. cbn [bind].
      exists (y :: l'), ns'. split; auto. split; [cbn [map]; congruence|]. split; auto. intros i j Hij. specialize (V' i j Hij). specialize (V1 i j).
      cbn [map inv] in *. rewrite K in *.
      assert (C : cnt (bub (key x) (map key l)) j = cnt (key x :: map key l) j) by (apply (Permutation_count_occ Nat.eq_dec), bub_perm).
      rewrite C. cbn [count_occ].
      destruct (Nat.eqb_spec (key x) i), (Nat.eqb_spec (key y) i), (Nat.eqb_spec (key y) j), (Nat.eq_dec (key x) j), (Nat.eq_dec (key y) j); cbn [andb] in *; lia.
    + destruct (IH y ns TO ltac:(constructor; auto)) as (l' & ns' & E & K & TO' & V'). rewrite E. cbn [bind].
      exists (x :: l'), ns'. split; auto. split; [cbn [map]; congruence|]. split; auto. intros i j Hij. specialize (V' i j Hij). cbn [map inv] in *.
      assert (C : cnt (map key l') j = cnt (map key (y :: l)) j) by (rewrite K; apply (Permutation_count_occ Nat.eq_dec), bub_perm).
      cbn [map] in C. rewrite C. lia.
Qed.

Lemma sort_ok : forall cp k l ns a s, table_ok cp ns -> Forall (fun z => 1 <= key z <= cp) l ->
  map key l = a ++ s -> StronglySorted le s -> Forall (fun m => Forall (le m) s) a -> 1 <= k -> length a <= k ->
  exists ns', bubble_sort k l ns = Ok ns' /\ table_ok cp ns' /\ forall i j, j < i -> val ns' i j = val ns i j + inv i j (map key l).
Proof.
  intros cp. induction k as [|k IH]; intros l ns a s TO F E S FA Hk Ha; [lia|]. cbn [bubble_sort].
  destruct l as [|x l].
  - cbn [bubble_pass bind]. exists ns. split; auto.
  - cbn [bubble_pass]. destruct (bubble_ok cp l x ns TO F) as (l' & ns' & B & K & TO' & V). rewrite B. cbn [bind].
    destruct (swaps (key x) (map key l)) eqn:SW.
    + destruct a as [|x' a].
      { exfalso. cbn [app] in E. cbn [map] in E. rewrite <- E in S. apply swaps_sorted in S. congruence. }
      cbn [map app] in E. injection E as E1 E2. subst x'.
      assert (k <> 0).
      { intros ->. cbn in Ha. destruct a; [|cbn in Ha; lia]. cbn [app] in E2. inversion FA; subst.
        assert (Q : swaps (key x) (map key l) = false) by (apply swaps_sorted; constructor; auto). congruence. }
      rewrite E2, bub_app in K by auto. destruct (bub_max a (key x)) as (a' & m & Em & Fm). rewrite Em in K.
      assert (PA : Permutation (a' ++ [m]) (key x :: a)) by (rewrite <- Em; apply bub_perm).
      assert (Lm : Forall (le m) s).
      { rewrite Forall_forall in FA. apply FA. apply (Permutation_in _ PA), in_app_iff. simpl; auto. }
      destruct (IH l' ns' a' (m :: s)) as (ns2 & B2 & TO2 & V2); auto.
      * apply Forall_forall. intros z Hz. assert (I : In (key z) (map key (x :: l))).
        { apply (Permutation_in _ (bub_perm (map key l) (key x))). rewrite E2, bub_app by auto. rewrite Em, <- K. apply in_map. auto. }
        apply in_map_iff in I. destruct I as (z' & <- & I). rewrite Forall_forall in F. auto.
      * rewrite <- app_assoc in K. exact K.
      * constructor; auto.
      * apply Forall_forall. intros y Hy. constructor; [rewrite Forall_forall in Fm; auto|].
        rewrite Forall_forall in FA. apply FA. apply (Permutation_in _ PA), in_app_iff. auto.
      * lia.
      * apply Permutation_length in PA. rewrite app_length in PA. cbn in PA, Ha. lia.
      * exists ns2. split; auto. split; auto. intros i j Hij. rewrite (V2 i j Hij). specialize (V i j Hij). lia.
    + exists ns'. split; auto. split; auto. intros i j Hij. specialize (V i j Hij).
      assert (inv i j (map key l') = 0); [|lia]. apply inv_sorted; auto. rewrite K. apply swaps_sorted in SW. rewrite bub_sorted; auto.
Qed.

(** ** the parity of the number of swaps *)
Lemma split_once : forall (w : list nat) i, 0 < cnt w i -> exists A B, w = A ++ i :: B /\ cnt A i = 0.
Proof.
  induction w as [|x w IH]; intros i H; [cbn in H; lia|]. cbn [count_occ] in H. destruct (Nat.eq_dec x i) as [->|N].
  - exists [], w. auto.
  - destruct (IH i H) as (A & B & -> & C). exists (x :: A), B. split; auto. cbn [count_occ]. destruct (Nat.eq_dec x i); [contradiction|auto].
Qed.
Lemma count_cons_eq : forall (w : list nat) i, cnt (i :: w) i = S (cnt w i).
Proof. intros. cbn [count_occ]. destruct (Nat.eq_dec i i); [auto|contradiction]. Qed.
Lemma count_cons_ne : forall (w : list nat) i j, i <> j -> cnt (i :: w) j = cnt w j.
Proof. intros. cbn [count_occ]. destruct (Nat.eq_dec i j); [contradiction|auto]. Qed.
Lemma abab_count : forall w a b, a <> b -> abab w a b -> 2 <= cnt w a /\ 2 <= cnt w b.
Proof.
  intros w a b N (u0 & u1 & u2 & u3 & u4 & ->). rewrite !count_occ_app, !count_cons_eq, !count_cons_ne, !count_occ_app, !count_cons_eq by auto.
  rewrite !count_cons_ne, !count_occ_app, !count_cons_eq by auto. rewrite !count_cons_ne, !count_occ_app, !count_cons_eq by auto. lia.
Qed.
Lemma inv_cons_eq : forall i j l, inv i j (i :: l) = cnt l j + inv i j l.
Proof. intros. cbn [inv]. rewrite Nat.eqb_refl. auto. Qed.
Lemma inv_cons_ne : forall x i j l, x <> i -> inv i j (x :: l) = inv i j l.
Proof. intros. cbn [inv]. destruct (Nat.eqb_spec x i); [contradiction|auto]. Qed.
Lemma zero_inv : forall i j u, cnt u i = 0 -> inv i j u = 0.
Proof.
  induction u as [|x u IH]; cbn [count_occ inv]; auto. destruct (Nat.eq_dec x i); [discriminate|]. intro H. rewrite IH by auto. destruct (Nat.eqb_spec x i); [contradiction|auto].
Qed.
Ltac counts := repeat (rewrite ?count_occ_app, ?inv_app, ?count_cons_eq, ?inv_cons_eq; rewrite ?count_cons_ne, ?inv_cons_ne by auto).
Ltac counts_in H := repeat (rewrite ?count_occ_app, ?inv_app, ?count_cons_eq, ?inv_cons_eq in H; rewrite ?count_cons_ne, ?inv_cons_ne in H by auto).
Lemma parity : forall w i j, i <> j -> cnt w i = 2 -> cnt w j = 2 -> (inv i j w mod 2 <> 0 <-> abab w i j \/ abab w j i).
Proof.
  intros w i j N Ci Cj. assert (N' : j <> i) by auto. split.
  - intro H. destruct (split_once w i ltac:(lia)) as (A & X & -> & CA). counts_in Ci.
    destruct (split_once X i ltac:(lia)) as (B & C & -> & CB). counts_in Ci. assert (CC : cnt C i = 0) by lia. counts_in Cj.
    counts_in H. rewrite CA, CB, (zero_inv i j A), (zero_inv i j B), (zero_inv i j C) in H by auto.
    assert (K : cnt B j = 1).
    { destruct (cnt B j) as [|[|[|k]]] eqn:Q; auto; exfalso; apply H.
      - match goal with |- ?t mod 2 = 0 => replace t with (cnt C j * 2) by lia end. apply Nat.mod_mul. lia.
      - match goal with |- ?t mod 2 = 0 => replace t with (1 * 2) by lia end. reflexivity.
      - lia. }
    destruct (split_once B j ltac:(lia)) as (B1 & B2 & -> & _).
    destruct (Nat.eq_dec (cnt A j) 0) as [Z|Z].
    + left. destruct (split_once C j ltac:(lia)) as (C1 & C2 & -> & _). exists A, B1, B2, C1, C2. rewrite <- !app_assoc. reflexivity.
    + right. destruct (split_once A j ltac:(lia)) as (A1 & A2 & -> & _). exists A1, A2, B1, B2, C. rewrite <- !app_assoc. cbn. rewrite <- ?app_assoc. reflexivity.
  - intros [(u0 & u1 & u2 & u3 & u4 & ->)|(u0 & u1 & u2 & u3 & u4 & ->)]; counts_in Ci; counts_in Cj; counts.
    + assert (Z : cnt u0 i = 0 /\ cnt u1 i = 0 /\ cnt u2 i = 0 /\ cnt u3 i = 0 /\ cnt u4 i = 0 /\ cnt u1 j = 0 /\ cnt u2 j = 0 /\ cnt u3 j = 0 /\ cnt u4 j = 0) by lia.
      destruct Z as (Z0 & Z1 & Z2 & Z3 & Z4 & Z5 & Z6 & Z7 & Z8). rewrite !zero_inv by auto. rewrite Z0, Z1, Z2, Z3, Z5, Z6, Z7, Z8. cbn. lia.
    + assert (Z : cnt u0 i = 0 /\ cnt u1 i = 0 /\ cnt u2 i = 0 /\ cnt u3 i = 0 /\ cnt u4 i = 0 /\ cnt u1 j = 0 /\ cnt u2 j = 0 /\ cnt u3 j = 0 /\ cnt u4 j = 0) by lia.
      destruct Z as (Z0 & Z1 & Z2 & Z3 & Z4 & Z5 & Z6 & Z7 & Z8). rewrite !zero_inv by auto. rewrite Z0, Z1, Z2, Z3, Z5, Z6, Z7, Z8. cbn. lia.
Qed.

(** ** the code *)
Notation zcnt := (count_occ Z.eq_dec).
Fixpoint tagged (seen l : list Z) : list Z :=
  match l with
  | [] => []
  | x :: r => (if in_dec Z.eq_dec x seen then x else (- x)%Z) :: tagged (x :: seen) r
  end.
Lemma tag_first_ok : forall n l nseen seen, length nseen = n -> Forall (fun x => (0 < x)%Z /\ Z.to_nat x < n) l ->
  (forall x, (0 < x)%Z -> Z.to_nat x < n -> nth_error nseen (Z.to_nat x) = Some (zcnt seen x)) ->
  tag_first nseen l = Ok (tagged seen l).
Proof.
  intros n. induction l as [|x l IH]; intros nseen seen L F H; cbn [tag_first tagged]; auto. inversion F as [|? ? (F1 & F2) F']; subst.
  rewrite (proj2 (get_ok _ _ _ _) (H x F1 F2)). cbn [bind]. rewrite (IH _ (x :: seen)); cbn [bind].
  - f_equal. f_equal. destruct (in_dec Z.eq_dec x seen) as [I|I].
    + apply (count_occ_In Z.eq_dec) in I. destruct (Nat.eqb_spec (zcnt seen x + 1) 1); auto; lia.
    + apply (count_occ_not_In Z.eq_dec) in I. rewrite I. reflexivity.
  - rewrite upd_length. auto.
  - auto.
  - intros y Py Ly. rewrite nth_error_upd. cbn [count_occ]. destruct (Z.eq_dec x y) as [<-|N].
    + rewrite Nat.eqb_refl. destruct (Nat.ltb_spec (Z.to_nat x) (length nseen)); [|lia]. f_equal. lia.
    + destruct (Nat.eqb_spec (Z.to_nat x) (Z.to_nat y)); [lia|]. auto.
Qed.
Lemma tagged_count : forall l seen y, Forall (fun x => 0 < x)%Z l -> (0 < y)%Z ->
  zcnt (filter (fun x => 0 <? x)%Z (tagged seen l)) y = if in_dec Z.eq_dec y seen then zcnt l y else zcnt l y - 1.
Proof.
  induction l as [|x l IH]; intros seen y F Hy; cbn [tagged filter count_occ]; [destruct (in_dec Z.eq_dec y seen); auto|].
  inversion F as [|? ? F1 F']; subst. specialize (IH (x :: seen) y F' Hy).
  destruct (in_dec Z.eq_dec x seen) as [I|I].
  - destruct (Z.ltb_spec 0 x); [|lia]. cbn [count_occ]. rewrite IH. destruct (Z.eq_dec x y) as [->|N].
    + destruct (in_dec Z.eq_dec y (y :: seen)) as [_|Q]; [|exfalso; apply Q; simpl; auto]. destruct (in_dec Z.eq_dec y seen); [auto|contradiction].
    + destruct (in_dec Z.eq_dec y (x :: seen)) as [[Q|Q]|Q], (in_dec Z.eq_dec y seen) as [Q'|Q']; auto; try contradiction. exfalso; apply Q; simpl; auto.
  - destruct (Z.ltb_spec 0 (- x)); [lia|]. rewrite IH. destruct (Z.eq_dec x y) as [->|N].
    + destruct (in_dec Z.eq_dec y (y :: seen)) as [_|Q]; [|exfalso; apply Q; simpl; auto]. destruct (in_dec Z.eq_dec y seen); [contradiction|lia].
    + destruct (in_dec Z.eq_dec y (x :: seen)) as [[Q|Q]|Q], (in_dec Z.eq_dec y seen) as [Q'|Q']; auto; try contradiction. exfalso; apply Q; simpl; auto.
Qed.
Lemma tagged_abs : forall l seen, Forall (fun x => 0 < x)%Z l -> map Z.abs (tagged seen l) = l.
Proof.
  induction l as [|x l IH]; intros seen F; cbn [tagged map]; auto. inversion F; subst. rewrite IH by auto. f_equal. destruct (in_dec Z.eq_dec x seen); lia.
Qed.

(** the labels: place in the sorted list, from 1, or 0 *)
Lemma new_labels_ok : forall n present i arr, length arr = n -> NoDup present -> Forall (fun x => (0 < x)%Z /\ Z.to_nat x < n) present ->
  exists arr', new_labels i present arr = Ok arr' /\ length arr' = n /\
    (forall k x, nth_error present k = Some x -> nth_error arr' (Z.to_nat x) = Some (i + k + 1)) /\
    (forall m, (forall x, In x present -> Z.to_nat x <> m) -> nth_error arr' m = nth_error arr m).
Proof.
  intros n. induction present as [|x r IH]; intros i arr L ND F; cbn [new_labels].
  - exists arr. split; auto. split; auto. split; auto. intros [|k] x; discriminate.
  - inversion ND as [|? ? N1 N2]; subst. inversion F as [|? ? (F1 & F2) F']; subst. destruct (Nat.ltb_spec (Z.to_nat x) (length arr)); [|lia].
    destruct (IH (i + 1) (upd (Z.to_nat x) (i + 1) arr)) as (arr' & E & L' & A1 & A2); auto; [apply upd_length|].
    exists arr'. split; auto. split; auto. split.
    + intros [|k] y Hy; cbn in Hy.
      * injection Hy as <-. rewrite A2.
        -- rewrite nth_error_upd, Nat.eqb_refl. destruct (Nat.ltb_spec (Z.to_nat x) (length arr)); [|lia]. f_equal. lia.
        -- intros y Iy Q. apply N1. rewrite Forall_forall in F'. destruct (F' y Iy). replace x with y by lia. auto.
      * rewrite (A1 _ _ Hy). f_equal. lia.
    + intros m Hm. rewrite A2; [|intros y Iy; apply Hm; simpl; auto]. rewrite nth_error_upd. destruct (Nat.eqb_spec (Z.to_nat x) m) as [Q|Q]; auto.
      exfalso. apply (Hm x); simpl; auto.
Qed.

Definition pick (lab : Z -> nat) (l : list Z) : list nat := filter (fun k => 0 <? k) (map lab l).
Lemma augmented_ok : forall label lab code, (forall x, In x code -> nth_error label (Z.to_nat (Z.abs x)) = Some (lab (Z.abs x))) ->
  exists aug, augmented label code = Ok aug /\ map key aug = pick lab (map Z.abs code).
Proof.
  intros label lab. induction code as [|x r IH]; intros H; [exists []; auto|]. cbn [augmented].
  rewrite (proj2 (get_ok _ _ _ _) (H x ltac:(simpl; auto))). cbn [bind]. destruct IH as (aug & E & K); [intros; apply H; simpl; auto|]. rewrite E. cbn [bind].
  eexists. split; [reflexivity|]. unfold pick. cbn [map filter]. destruct (Nat.ltb_spec 0 (lab (Z.abs x))); auto. cbn [map]. f_equal; auto.
  unfold key. destruct (0 <? x)%Z; lia.
Qed.
Lemma pick_count : forall lab j b l, 0 < j -> (forall x, In x l -> (lab x = j <-> x = b)) -> cnt (pick lab l) j = zcnt l b.
Proof.
  intros lab j b. induction l as [|x l IH]; intros Hj H; auto. unfold pick in *. cbn [map filter]. pose proof (H x ltac:(simpl; auto)) as Hx.
  destruct (Nat.ltb_spec 0 (lab x)); cbn [count_occ]; rewrite IH by (auto; intros; apply H; simpl; auto); destruct (Z.eq_dec x b); try destruct (Nat.eq_dec (lab x) j); try lia; intuition; lia.
Qed.
Fixpoint zinv (i j : Z) (l : list Z) : nat :=
  match l with
  | [] => 0
  | x :: r => (if Z.eq_dec x i then zcnt r j else 0) + zinv i j r
  end.
Lemma pick_inv : forall lab i j a b l, 0 < i -> 0 < j -> (forall x, In x l -> (lab x = i <-> x = a)) -> (forall x, In x l -> (lab x = j <-> x = b)) ->
  inv i j (pick lab l) = zinv a b l.
Proof.
  intros lab i j a b. induction l as [|x l IH]; intros Hi Hj H1 H2; auto. pose proof (H1 x ltac:(simpl; auto)) as Hx.
  assert (IH' : inv i j (pick lab l) = zinv a b l) by (apply IH; auto; intros; [apply H1|apply H2]; simpl; auto).
  assert (C : cnt (pick lab l) j = zcnt l b) by (apply pick_count; auto; intros; apply H2; simpl; auto).
  unfold pick in *. cbn [map filter zinv]. destruct (Nat.ltb_spec 0 (lab x)); cbn [inv]; rewrite IH', ?C; destruct (Z.eq_dec x a); try destruct (Nat.eqb_spec (lab x) i); try lia; intuition; lia.
Qed.
Lemma zcnt_of_nat : forall w c, zcnt (map (fun c => Z.of_nat (c + 1)) w) (Z.of_nat (c + 1)) = cnt w c.
Proof.
  induction w as [|x w IH]; intro c; cbn [map count_occ]; auto. rewrite IH. destruct (Z.eq_dec (Z.of_nat (x + 1)) (Z.of_nat (c + 1))), (Nat.eq_dec x c); auto; lia.
Qed.
Lemma zinv_of_nat : forall w a b, zinv (Z.of_nat (a + 1)) (Z.of_nat (b + 1)) (map (fun c => Z.of_nat (c + 1)) w) = inv a b w.
Proof.
  induction w as [|x w IH]; intros a b; cbn [map zinv inv]; auto. rewrite IH, zcnt_of_nat. destruct (Z.eq_dec (Z.of_nat (x + 1)) (Z.of_nat (a + 1))), (Nat.eqb_spec x a); auto; lia.
Qed.

(** how many entries have their value in a list *)
Lemma sum_count_cons : forall x w S, list_sum (map (zcnt (x :: w)) S) = zcnt S x + list_sum (map (zcnt w) S).
Proof.
  induction S as [|s S IH]; auto. cbn [map list_sum fold_right] in *. unfold list_sum in *. cbn [fold_right]. rewrite IH. cbn [count_occ]. destruct (Z.eq_dec x s), (Z.eq_dec s x); try lia; congruence.
Qed.
Lemma count_members : forall S w, NoDup S -> length (filter (fun x => if in_dec Z.eq_dec x S then true else false) w) = list_sum (map (zcnt w) S).
Proof.
  intros S w ND. induction w as [|x w IH].
  - cbn [filter length]. clear ND. induction S as [|s S IH]; auto.
  - rewrite sum_count_cons, <- IH. cbn [filter]. destruct (in_dec Z.eq_dec x S) as [I|I].
    + cbn [length]. assert (zcnt S x = 1); [|lia]. apply (NoDup_count_occ' Z.eq_dec); auto.
    + apply (count_occ_not_In Z.eq_dec) in I. rewrite I. reflexivity.
Qed.

(** the pairs of labels *)
Lemma in_pairs : forall cp i j, In (i, j) (label_pairs cp) <-> 1 <= j /\ j < i /\ i <= cp.
Proof.
  intros cp i j. unfold label_pairs. rewrite in_flat_map. split.
  - intros (i' & Hi & Hj). apply in_map_iff in Hj. destruct Hj as (j' & Q & Hj). injection Q as <- <-. apply in_seq in Hi, Hj. lia.
  - intros H. exists i. split; [apply in_seq; lia|]. apply in_map, in_seq. lia.
Qed.
Lemma pairs_nodup : forall cp, NoDup (label_pairs cp).
Proof.
  intro cp. unfold label_pairs. generalize (seq_NoDup (cp - 1) 2). generalize (seq 2 (cp - 1)). induction l as [|i l IH]; intro ND; cbn [flat_map]; [constructor|].
  inversion ND as [|? ? N1 N2]; subst. apply NoDup_app_intro; auto.
  - apply FinFun.Injective_map_NoDup; [intros x y Q; congruence|apply seq_NoDup].
  - intros (a, b) H1 H2. apply in_map_iff in H1. destruct H1 as (j & Q & _). injection Q as <- <-. apply in_flat_map in H2. destruct H2 as (i' & Hi & H2).
    apply in_map_iff in H2. destruct H2 as (j' & Q & _). injection Q as <- <-. auto.
Qed.
