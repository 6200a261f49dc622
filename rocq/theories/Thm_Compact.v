(** C30: the compacting copy. *)
From Coq Require Import List ZArith Lia Bool Arith Sorted Permutation.
From Verif Require Import Base Sorting Pd PdCross Compact.
Import ListNotations.
Open Scope nat_scope.

(** ** the list of deletions *)
Lemma nleb_total : forall a b, Nat.leb a b = false -> Nat.leb b a = true.
Proof. intros a b H. apply Nat.leb_gt in H. apply Nat.leb_le. lia. Qed.
Lemma nleb_trans : forall a b c, Nat.leb a b = true -> Nat.leb b c = true -> Nat.leb a c = true.
Proof. intros a b c. rewrite !Nat.leb_le. lia. Qed.
Lemma unique_from_in : forall l last x, StronglySorted le (last :: l) -> (In x (unique_from last l) <-> In x l /\ x <> last).
Proof.
  induction l as [|y l IH]; intros last x S; cbn [unique_from]; [cbn; tauto|].
  inversion S as [|? ? S1 F1]; subst. inversion S1 as [|? ? S2 F2]; subst. inversion F1 as [|? ? Hy F1']; subst.
  destruct (Nat.eqb_spec last y) as [->|N].
  - rewrite IH by auto. cbn [In]. split; [tauto|]. intros [[E|I] D]; [congruence|tauto].
  - cbn [In]. rewrite IH by auto. split.
    + intros [<-|[I D]]; [split; auto|]. split; [auto|]. rewrite Forall_forall in F2. apply F2 in I. lia.
    + intros [[E|I] D]; [auto|]. destruct (Nat.eq_dec x y); auto.
Qed.
Lemma unique_from_sorted : forall l last, StronglySorted le (last :: l) -> StronglySorted lt (last :: unique_from last l).
Proof.
  induction l as [|y l IH]; intros last S; cbn [unique_from]; [repeat constructor|].
  inversion S as [|? ? S1 F1]; subst. inversion S1 as [|? ? S2 F2]; subst. inversion F1 as [|? ? Hy F1']; subst.
  destruct (Nat.eqb_spec last y) as [->|N]; [apply IH; auto|].
  constructor; [apply IH; auto|]. constructor; [lia|]. apply Forall_forall. intros x Hx. apply unique_from_in in Hx; auto.
  destruct Hx as [I _]. rewrite Forall_forall in F2. apply F2 in I. lia.
Qed.
Lemma sorted_dels : forall l, StronglySorted le (isort Nat.leb l).
Proof.
  intro l. pose proof (isort_sorted Nat.leb nleb_total nleb_trans l) as S. induction S; constructor; auto.
  eapply Forall_impl; [|eassumption]. intros b Hb. apply Nat.leb_le. exact Hb.
Qed.
Lemma unique_spec : forall l, StronglySorted lt (unique (isort Nat.leb l)) /\ forall x, In x (unique (isort Nat.leb l)) <-> In x l.
Proof.
  intro l. pose proof (sorted_dels l) as S. pose proof (isort_perm Nat.leb l) as P.
  assert (E : forall x, In x (isort Nat.leb l) <-> In x l) by (intro x; split; apply Permutation_in; [auto|symmetry; auto]).
  destruct (isort Nat.leb l) as [|y t]; cbn [unique].
  - split; [constructor|]. exact E.
  - split; [apply unique_from_sorted; auto|]. intro x. rewrite <- E. cbn [In]. rewrite unique_from_in by auto.
    destruct (Nat.eq_dec y x); [subst; tauto|]. assert (x <> y) by auto. tauto.
Qed.

(** ** the copying loop *)
Definition kept (dels : list nat) (i : nat) : bool := negb (existsb (Nat.eqb i) dels).
Lemma kept_false : forall dels i, kept dels i = false <-> In i dels.
Proof.
  intros dels i. unfold kept. rewrite negb_false_iff, existsb_exists. split.
  - intros [x [Hx E]]. apply Nat.eqb_eq in E. congruence.
  - intro H. exists i. split; auto. apply Nat.eqb_refl.
Qed.
(** survivors: the objects at the places that are not deleted, in order *)
Fixpoint survivors {A} (keep : nat -> bool) (src : list A) (i : nat) : list A :=
  match src with [] => [] | x :: src' => if keep i then x :: survivors keep src' (S i) else survivors keep src' (S i) end.
Lemma loop_spec : forall A (src : list A) dels si ti, StronglySorted lt dels -> (forall k, In k dels -> si <= k) ->
  let r := compact_loop src dels si ti in
  fst r = survivors (kept dels) src si /\ length (snd r) = length src /\
  (forall i, i < length src -> nth_error (snd r) i =
     Some (if kept dels (si + i) then Some (ti + length (survivors (kept dels) (firstn i src) si)) else None)).
Proof.
  intros A. induction src as [|x src IH]; intros dels si ti S G; cbn zeta; cbn [compact_loop].
  - split; [reflexivity|]. split; [reflexivity|]. cbn. lia.
  - assert (K : (match dels with [] => false | k :: _ => si =? k end) = negb (kept dels si)).
    { destruct dels as [|k dels]; [reflexivity|]. unfold kept. rewrite negb_involutive. cbn [existsb].
      destruct (Nat.eqb_spec si k) as [->|N]; [reflexivity|]. symmetry. cbn [orb]. apply not_true_iff_false. rewrite existsb_exists.
      intros [z [Hz E]]. apply Nat.eqb_eq in E. subst z. inversion S as [|? ? S1 F1]; subst. rewrite Forall_forall in F1.
      apply F1 in Hz. pose proof (G k (or_introl eq_refl)). lia. }
    rewrite K. destruct (kept dels si) eqn:Ks; cbn [negb].
    + destruct (IH dels (Datatypes.S si) (Datatypes.S ti)) as (H1 & H2 & H3); auto.
      { intros k Hk. pose proof (G k Hk). destruct (Nat.eq_dec k si); [|lia]. subst. apply kept_false in Hk. congruence. }
      cbn [fst snd survivors]. rewrite Ks, H1. split; [reflexivity|]. split; [cbn [length]; lia|].
      intros [|i] Hi; cbn [nth_error firstn survivors].
      * rewrite Nat.add_0_r, Ks. cbn [survivors length]. rewrite Nat.add_0_r. reflexivity.
      * rewrite H3 by (cbn [length] in Hi; lia). rewrite Ks. cbn [length].
        replace (si + Datatypes.S i) with (Datatypes.S si + i) by lia.
        replace (ti + Datatypes.S (length (survivors (kept dels) (firstn i src) (Datatypes.S si))))
          with (Datatypes.S ti + length (survivors (kept dels) (firstn i src) (Datatypes.S si))) by lia. reflexivity.
    + destruct dels as [|k dels]; [discriminate|]. cbn [tl].
      symmetry in K. cbn [negb] in K. symmetry in K. apply Nat.eqb_eq in K. subst k.
      inversion S as [|? ? S1 F1]; subst. rewrite Forall_forall in F1.
      assert (X : forall i, si < i -> kept (si :: dels) i = kept dels i).
      { intros i Hi. unfold kept. cbn [existsb]. destruct (Nat.eqb_spec i si); [lia|]. reflexivity. }
      assert (Y : forall B (l : list B) j, si < j -> survivors (kept (si :: dels)) l j = survivors (kept dels) l j).
      { intros B. induction l as [|y l IHl]; intros j Hj; [reflexivity|]. cbn [survivors]. rewrite X, IHl by lia. reflexivity. }
      destruct (IH dels (Datatypes.S si) ti) as (H1 & H2 & H3); auto.
      cbn [fst snd survivors]. rewrite Ks, H1, Y by lia. split; [reflexivity|]. split; [cbn [length]; lia|].
      intros [|i] Hi; cbn [nth_error firstn survivors].
      * rewrite Nat.add_0_r, Ks. reflexivity.
      * rewrite H3 by (cbn [length] in Hi; lia). rewrite Ks, Y by lia.
        replace (si + Datatypes.S i) with (Datatypes.S si + i) by lia. rewrite (X (Datatypes.S si + i)) by lia. reflexivity.
Qed.
Lemma survivors_all : forall A (l : list A) k i, (forall j, i <= j < i + length l -> k j = true) -> survivors k l i = l.
Proof. intros A. induction l as [|x l IH]; intros k i H; [reflexivity|]. cbn [survivors]. rewrite (H i) by (cbn; lia). rewrite IH; auto. intros j Hj. apply H. cbn. lia. Qed.
Lemma survivors_none : forall A (l : list A) k i, (forall j, i <= j < i + length l -> k j = false) -> survivors k l i = [].
Proof. intros A. induction l as [|x l IH]; intros k i H; [reflexivity|]. cbn [survivors]. rewrite (H i) by (cbn; lia). apply IH. intros j Hj. apply H. cbn. lia. Qed.
Lemma survivors_seq : forall A (l : list A) k i, length (survivors k l i) = length (filter k (seq i (length l))).
Proof. intros A. induction l as [|x l IH]; intros k i; [reflexivity|]. cbn [survivors length seq filter]. destruct (k i); cbn [length]; rewrite IH; reflexivity. Qed.
Lemma survivors_nth : forall A (l : list A) k i j x, nth_error l j = Some x -> k (i + j) = true ->
  nth_error (survivors k l i) (length (survivors k (firstn j l) i)) = Some x.
Proof.
  intros A. induction l as [|y l IH]; intros k i [|j] x H K; cbn [nth_error] in H; try discriminate.
  - injection H as ->. cbn [firstn survivors length]. rewrite Nat.add_0_r in K. rewrite K. reflexivity.
  - cbn [firstn survivors]. replace (i + Datatypes.S j) with (Datatypes.S i + j) in K by lia.
    destruct (k i); cbn [length nth_error]; apply IH; auto.
Qed.

(** the places before [i] that are not deleted *)
Definition before (dels : list nat) (i : nat) : nat := length (filter (fun j => if in_dec Nat.eq_dec j dels then false else true) (seq 0 i)).
Lemma before_survivors : forall A (l : list A) dels i, i <= length l ->
  length (survivors (kept dels) (firstn i l) 0) = before dels i.
Proof.
  intros A l dels i L. rewrite survivors_seq, firstn_length_le by auto. unfold before. f_equal. apply filter_ext. intro j.
  destruct (in_dec Nat.eq_dec j dels) as [I|N]; [apply kept_false; auto|]. destruct (kept dels j) eqn:K; auto. apply kept_false in K. tauto.
Qed.

(** For any list of deletions inside the array, in any order and with repetitions, the table has one
    entry for each object; an object that is deleted is not in the copy; any other object sits in the copy
    at the place given by the table, which is the number of the objects kept before it; and the copy has no
    other entries. *)
Theorem compacting_copy : forall A (src : list A) dels, (forall i, In i dels -> i < length src) ->
  exists T I, pd_compacting_copy src dels = Ok (T, I) /\ length I = length src /\ length T = before dels (length src) /\
    (forall i, In i dels -> nth_error I i = Some None) /\
    (forall i x, nth_error src i = Some x -> ~ In i dels ->
       nth_error I i = Some (Some (before dels i)) /\ nth_error T (before dels i) = Some x).
Proof.
  intros A src dels H.
  set (R := exists T I, pd_compacting_copy src dels = Ok (T, I) /\ T = survivors (kept dels) src 0 /\ length I = length src /\
    forall i, i < length src -> nth_error I i = Some (if kept dels i then Some (length (survivors (kept dels) (firstn i src) 0)) else None)).
  assert (HR : R).
  { unfold R, pd_compacting_copy. destruct dels as [|k dels].
    - exists src, (map Some (seq 0 (length src))). split; [reflexivity|]. split; [symmetry; apply survivors_all; reflexivity|].
      split; [rewrite map_length, seq_length; reflexivity|]. intros i Hi. rewrite nth_error_map.
      rewrite (nth_error_nth' _ 0) by (rewrite seq_length; auto). rewrite seq_nth by auto. cbn [option_map].
      rewrite survivors_all by reflexivity. rewrite firstn_length_le by lia. reflexivity.
    - destruct (unique_spec (k :: dels)) as (US & UI). set (u := unique (isort Nat.leb (k :: dels))) in *. clearbody u.
      assert (KK : forall i, kept u i = kept (k :: dels) i).
      { intro i. destruct (kept (k :: dels) i) eqn:E.
        - destruct (kept u i) eqn:E2; auto. apply kept_false in E2. apply UI in E2. apply kept_false in E2. congruence.
        - apply kept_false. apply UI. apply kept_false. exact E. }
      assert (SV : forall B (l : list B) i, survivors (kept u) l i = survivors (kept (k :: dels)) l i).
      { intros B. induction l as [|x l IH]; intro i; [reflexivity|]. cbn [survivors]. rewrite KK, IH. reflexivity. }
      assert (AU : forallb (fun i => i <? length src) u = true).
      { apply forallb_forall. intros x Hx. apply Nat.ltb_lt, H, UI, Hx. }
      assert (ND : NoDup u).
      { clear -US. induction US as [|x l S IH F]; constructor; auto. intro I. rewrite Forall_forall in F. apply F in I. lia. }
      assert (LE : length u <= length src).
      { rewrite <- (seq_length (length src) 0). apply NoDup_incl_length; auto. intros x Hx. apply in_seq. apply UI in Hx. apply H in Hx. lia. }
      rewrite AU. cbn [bind]. destruct (Nat.eqb_spec (length u) (length src)) as [E|N].
      + exists [], (repeat None (length src)). split; [reflexivity|].
        assert (AL : forall j, j < length src -> kept (k :: dels) j = false).
        { intros j Hj. apply kept_false, UI. apply (NoDup_length_incl ND (l' := seq 0 (length src))).
          - rewrite seq_length. lia.
          - intros x Hx. apply in_seq. apply UI in Hx. apply H in Hx. lia.
          - apply in_seq. lia. }
        split; [symmetry; apply survivors_none; intros j Hj; apply AL; lia|]. split; [apply repeat_length|].
        intros i Hi. rewrite AL by auto. apply nth_error_repeat. auto.
      + destruct (Nat.ltb_spec (length u) (length src)) as [L|L]; [|lia].
        destruct (loop_spec A src u 0 0 US ltac:(intros; lia)) as (H1 & H2 & H3).
        exists (fst (compact_loop src u 0 0)), (snd (compact_loop src u 0 0)). split; [rewrite <- surjective_pairing; reflexivity|].
        split; [rewrite H1; apply SV|]. split; auto. intros i Hi. rewrite H3 by auto. cbn [Nat.add]. rewrite KK, SV. reflexivity. }
  destruct HR as (T & I & E & HT & HL & HI). exists T, I. split; auto. split; auto. split.
  - rewrite HT, <- (before_survivors A src) by auto. rewrite firstn_all. reflexivity.
  - split.
    + intros i Hi. rewrite HI by auto. rewrite (proj2 (kept_false dels i) Hi). reflexivity.
    + intros i x Hx N. assert (Li : i < length src) by (apply nth_error_Some; congruence).
      assert (K : kept dels i = true) by (destruct (kept dels i) eqn:K; auto; apply kept_false in K; tauto).
      rewrite HI, K by auto. rewrite before_survivors by lia. split; auto. rewrite HT, <- (before_survivors A src) by lia.
      apply survivors_nth; auto.
Qed.
Print Assumptions compacting_copy.

(** A deletion outside the array stops the program. *)
Theorem compacting_copy_outside : forall A (src : list A) dels i, In i dels -> length src <= i -> pd_compacting_copy src dels = Fail.
Proof.
  intros A src dels i Hi L. unfold pd_compacting_copy. destruct dels as [|k dels]; [destruct Hi|].
  destruct (unique_spec (k :: dels)) as (US & UI). destruct (forallb _ _) eqn:F; [|reflexivity].
  rewrite forallb_forall in F. apply UI in Hi. apply F in Hi. apply Nat.ltb_lt in Hi. lia.
Qed.
Print Assumptions compacting_copy_outside.

(** so the kept objects keep their order *)
Theorem compacting_copy_order : forall A (src : list A) dels T I, pd_compacting_copy src dels = Ok (T, I) ->
  forall i j p q, nth_error I i = Some (Some p) -> nth_error I j = Some (Some q) -> (i < j <-> p < q).
Proof.
  intros A src dels T I E i j p q Hi Hj.
  assert (H : forall k, In k dels -> k < length src).
  { intros k Hk. destruct (le_lt_dec (length src) k) as [L|L]; auto. rewrite (compacting_copy_outside A src dels k Hk L) in E. discriminate. }
  destruct (compacting_copy A src dels H) as (T' & I' & E' & L1 & _ & D & K). rewrite E in E'. injection E' as <- <-.
  assert (X : forall a b, nth_error I a = Some (Some b) -> ~ In a dels /\ b = before dels a).
  { intros a b Ha. assert (a < length src) by (rewrite <- L1; apply nth_error_Some; congruence).
    destruct (nth_error src a) as [x|] eqn:Ex; [|apply nth_error_None in Ex; lia].
    destruct (in_dec Nat.eq_dec a dels) as [J|J]; [rewrite (D a J) in Ha; discriminate|]. split; auto. destruct (K a x Ex J) as (Q & _). congruence. }
  destruct (X _ _ Hi) as (Ni & ->). destruct (X _ _ Hj) as (Nj & ->).
  assert (M : forall a b, a < b -> ~ In a dels -> before dels a < before dels b).
  { intros a b L N. unfold before. replace b with (a + Datatypes.S (b - a - 1)) by lia. rewrite seq_app, filter_app, app_length. cbn [seq filter].
    destruct (in_dec Nat.eq_dec (0 + a) dels) as [J|J]; [cbn in J; tauto|]. cbn [length]. lia. }
  split; intro L; [apply M; auto|]. destruct (lt_eq_lt_dec i j) as [[Q|Q]|Q]; auto.
  - subst. lia.
  - pose proof (M j i Q Nj). lia.
Qed.
Print Assumptions compacting_copy_order.

(** The list of the images of the entries that have one, in order. *)
Theorem transform_and_compact : forall source transform, (forall x, In x source -> x < length transform) ->
  pd_transform_and_compact_indices source transform =
  Ok (filter (fun o => match o with Some _ => true | None => false end) (map (fun x => nth x transform None) source)).
Proof.
  intros source transform H. unfold pd_transform_and_compact_indices.
  set (keep := fun i => match nth i source 0 with x => match nth x transform None with Some _ => true | None => false end end).
  assert (U : forall pre suf i, (forall x, In x suf -> x < length transform) -> source = pre ++ suf -> i = length pre ->
    unset_places transform suf i = Ok (filter (fun j => negb (keep j)) (seq i (length suf)))).
  { intros pre suf. revert pre. induction suf as [|x suf IH]; intros pre i Hs Es Ei; [reflexivity|]. cbn [unset_places length seq filter].
    assert (Lx : x < length transform) by (apply Hs; simpl; auto).
    assert (Kx : keep i = match nth x transform None with Some _ => true | None => false end).
    { unfold keep. rewrite Es, app_nth2 by lia. rewrite Ei, Nat.sub_diag. reflexivity. }
    unfold get. rewrite (nth_error_nth' transform None Lx). cbn [bind].
    rewrite (IH (pre ++ [x]) (Datatypes.S i)) by (try (rewrite <- app_assoc; exact Es); try (rewrite app_length; cbn; lia); intros y Hy; apply Hs; simpl; auto).
    cbn [bind]. rewrite Kx. destruct (nth x transform None); reflexivity. }
  rewrite (U [] source 0) by auto. cbn [bind]. clear U.
  set (dels := filter (fun j => negb (keep j)) (seq 0 (length source))).
  destruct (compacting_copy nat source dels) as (T & I & E & _).
  { intros i Hi. apply filter_In in Hi. destruct Hi as [Hi _]. apply in_seq in Hi. lia. }
  assert (ET : T = survivors keep source 0).
  { unfold dels in E. clear -E.
    assert (G : forall i, i < length source -> kept (filter (fun j => negb (keep j)) (seq 0 (length source))) i = keep i).
    { intros i Hi. destruct (keep i) eqn:K.
      - destruct (kept _ i) eqn:Q; auto. apply kept_false in Q. apply filter_In in Q. destruct Q as [_ Q]. rewrite K in Q. discriminate.
      - apply kept_false. apply filter_In. split; [apply in_seq; lia|]. rewrite K. reflexivity. }
    set (dels := filter _ _) in *. clearbody dels.
    assert (Sv : survivors (kept dels) source 0 = survivors keep source 0).
    { assert (Z : forall (l : list nat) i, (forall j, i <= j < i + length l -> kept dels j = keep j) -> survivors (kept dels) l i = survivors keep l i).
      { clear. induction l as [|x l IH]; intros i Hk; [reflexivity|]. cbn [survivors]. rewrite (Hk i) by (cbn; lia). rewrite IH; auto. intros j Hj. apply Hk. cbn. lia. }
      apply Z. intros j Hj. apply G. lia. }
    unfold pd_compacting_copy in E. destruct dels as [|k dels].
    - injection E as <- <-. rewrite <- Sv. symmetry. apply survivors_all. reflexivity.
    - destruct (unique_spec (k :: dels)) as (US & UI). set (u := unique (isort Nat.leb (k :: dels))) in *. clearbody u.
      assert (KK : forall i, kept u i = kept (k :: dels) i).
      { intro i. destruct (kept (k :: dels) i) eqn:E1.
        - destruct (kept u i) eqn:E2; auto. apply kept_false in E2. apply UI in E2. apply kept_false in E2. congruence.
        - apply kept_false. apply UI. apply kept_false. exact E1. }
      assert (SV : forall B (l : list B) i, survivors (kept u) l i = survivors (kept (k :: dels)) l i).
      { intros B. induction l as [|x l IH]; intro i; [reflexivity|]. cbn [survivors]. rewrite KK, IH. reflexivity. }
      destruct (forallb _ u) eqn:F; [|discriminate]. rewrite forallb_forall in F.
      assert (ND : NoDup u).
      { clear -US. induction US as [|x l S IH FF]; constructor; auto. intro J. rewrite Forall_forall in FF. apply FF in J. lia. }
      destruct (Nat.eqb_spec (length u) (length source)) as [E1|N1].
      + injection E as <- <-. rewrite <- Sv. symmetry. apply survivors_none. intros j Hj. rewrite <- KK. apply kept_false.
        apply (NoDup_length_incl ND (l' := seq 0 (length source))); [rewrite seq_length; lia| |apply in_seq; lia].
        intros x Hx. apply in_seq. apply F in Hx. apply Nat.ltb_lt in Hx. lia.
      + destruct (Nat.ltb_spec (length u) (length source)) as [L|L]; [|discriminate].
        injection E as E. assert (T = fst (compact_loop source u 0 0)) by (rewrite E; reflexivity).
        destruct (loop_spec nat source u 0 0 US ltac:(intros; lia)) as (H1 & _). rewrite H, H1, SV, Sv. reflexivity. }
  rewrite E. cbn [bind fst]. rewrite ET. clear E ET dels T I.
  assert (G : forall pre suf, source = pre ++ suf -> (forall x, In x suf -> x < length transform) ->
    map_ok (get transform) (survivors keep suf (length pre)) =
    Ok (filter (fun o => match o with Some _ => true | None => false end) (map (fun x => nth x transform None) suf))).
  { intros pre suf. revert pre. induction suf as [|x suf IH]; intros pre Es Hs; [reflexivity|]. cbn [survivors map filter].
    assert (Kx : keep (length pre) = match nth x transform None with Some _ => true | None => false end).
    { unfold keep. rewrite Es, app_nth2 by lia. rewrite Nat.sub_diag. reflexivity. }
    specialize (IH (pre ++ [x])). rewrite app_length in IH. cbn [length] in IH. rewrite Nat.add_1_r in IH.
    rewrite <- app_assoc in IH. specialize (IH Es ltac:(intros y Hy; apply Hs; simpl; auto)).
    rewrite Kx. destruct (nth x transform None) as [t|] eqn:Et; [|exact IH]. cbn [map_ok].
    unfold get at 1. rewrite (nth_error_nth' transform None) by (apply Hs; simpl; auto). rewrite Et. cbn [bind]. rewrite IH. reflexivity. }
  apply (G [] source); auto.
Qed.
Print Assumptions transform_and_compact.

Example compacting_example : pd_compacting_copy [10; 11; 12; 13; 14] [3; 1; 3] =
  Ok ([10; 12; 14], [Some 0; None; Some 1; None; Some 2]) /\
  pd_transform_and_compact_indices [3; 0; 1; 2] [Some 5; None; Some 7; None] = Ok [Some 5; Some 7].
Proof. split; reflexivity. Qed.
