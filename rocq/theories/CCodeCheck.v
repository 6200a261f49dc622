(** Crossing codes: the consistency check succeeds and counts the strands. *)
From Coq Require Import List NArith ZArith Lia Bool Arith Permutation.
From Verif Require Import Base ListAux Iterators Pd PdSpec PdProofs PdCross Relabel RelabelProofs Strands PdCompsProofs
  OverUnder OverUnderSpec OverUnderProofs AltProofs TextIO TextProofs CCode CCodeSpec CCodeProofs CCodeRead.
Import ListNotations.
Open Scope nat_scope.
Open Scope res_scope.

Section Check.
Context (d : pd) (R : ends_recorded d) (G : goes_through d) (T : two_ended d) (SG : all_signed d).
Context (l : list mcross) (DE : describes d l).
Notation k := (stored l).

Lemma line_of : forall c, c < ncross d -> exists m, nth_error l c = Some m /\ sign_at d c (if m_positive m then Pos else Neg) /\
  forall x, wired d c x (fst (m_to m x)) (snd (m_to m x)).
Proof.
  intros c Hc. destruct DE as (L & H). destruct (nth_error l c) as [m|] eqn:M; [|apply nth_error_None in M; lia].
  exists m. split; auto.
Qed.
Lemma flat_nth : forall (q : list mcross) c m j, nth_error q c = Some m -> j < 8 -> nth (8 * c + j) (flat_map line_bytes q) 0 = nth j (line_bytes m) 0.
Proof.
  assert (L8 : forall m, length (line_bytes m) = 8) by (intros [? [] [] [] []]; reflexivity).
  induction q as [|x q IH]; intros c m j H Hj; destruct c; try discriminate; cbn [flat_map].
  - injection H as ->. rewrite app_nth1; [f_equal; lia|rewrite L8; lia].
  - cbn [nth_error] in H. rewrite app_nth2; rewrite L8; [|lia]. replace (8 * S c + j - 8) with (8 * c + j) by lia. auto.
Qed.
Lemma bytes_ok : forall c m x, nth_error l c = Some m -> c < XCNT ->
  byte k c (2 * letter_index x) = Ok (fst (m_to m x)) /\ byte k c (Nat.lor (2 * letter_index x) 1) = Ok (2 * letter_index (snd (m_to m x))).
Proof.
  intros c m x H Hc. unfold byte, stored. cbn [c_bytes]. destruct m as [s [c1 l1] [c2 l2] [c3 l3] [c4 l4]].
  assert (B : forall j, j < 8 -> 8 * c + j <? 8 * (XCNT + 1) = true) by (intros j Hj; apply Nat.ltb_lt; lia).
  split; rewrite B by (destruct x; cbn; lia); rewrite (flat_nth l c _ _ H) by (destruct x; cbn; lia); destruct x; reflexivity.
Qed.
Lemma sign_ok : forall c m, nth_error l c = Some m -> c < XCNT -> sign_byte k c = Ok (sign_code m).
Proof.
  intros c m H Hc. unfold sign_byte, stored. cbn [c_sign]. apply Nat.ltb_lt in Hc. rewrite Hc.
  apply (map_nth_error sign_code) in H. rewrite (nth_error_nth _ _ _ H). auto.
Qed.

(** ** branches *)
Definition out_letter (m : mcross) (x : CCodeSpec.letter) : Prop := x = La \/ x = if m_positive m then Ld else Lb.
Lemma departs_letter : forall c m x p e, nth_error l c = Some m -> at_letter d c x p -> departs d c p e -> out_letter m x.
Proof.
  intros c m x p e M A D.
  assert (Hc : c < ncross d) by (apply (departs_slot d R), slot_lt in D; lia).
  destruct (line_of c Hc) as (m' & M' & S & _). assert (m' = m) by congruence. subst m'.
  destruct S as (y & Hy & S). destruct (at_crossing d R G T SG c y Hy) as (oi & oo & ui & uo & _ & O & A1 & A2 & A3 & A4).
  pose proof O as ((e1 & B1) & (e2 & B2) & (e3 & B3) & (e4 & B4) & _).
  destruct (places_split d R _ _ _ _ _ _ O) as (_ & _ & _ & _ & _ & _ & PS).
  assert (Lp : p < 4) by (apply (departs_slot d R), slot_lt in D; lia).
  destruct (PS p Lp) as [->|[->|[->| ->]]].
  - exfalso. exact (OverUnderProofs.not_both d R T _ _ _ _ B1 D).
  - left. exact (letter_inj d R T _ _ _ _ A A1).
  - exfalso. exact (OverUnderProofs.not_both d R T _ _ _ _ B3 D).
  - right. rewrite (letter_inj d R T _ _ _ _ A A4). rewrite S. destruct (m_positive m); reflexivity.
Qed.
Lemma arrives_letter : forall c m x p e, nth_error l c = Some m -> at_letter d c x p -> arrives d c p e -> x = Lc \/ x = if m_positive m then Lb else Ld.
Proof.
  intros c m x p e M A D.
  assert (Hc : c < ncross d) by (apply (arrives_slot d R), slot_lt in D; lia).
  destruct (line_of c Hc) as (m' & M' & S & _). assert (m' = m) by congruence. subst m'.
  destruct S as (y & Hy & S). destruct (at_crossing d R G T SG c y Hy) as (oi & oo & ui & uo & _ & O & A1 & A2 & A3 & A4).
  pose proof O as ((e1 & B1) & (e2 & B2) & (e3 & B3) & (e4 & B4) & _).
  destruct (places_split d R _ _ _ _ _ _ O) as (_ & _ & _ & _ & _ & _ & PS).
  assert (Lp : p < 4) by (apply (arrives_slot d R), slot_lt in D; lia).
  destruct (PS p Lp) as [->|[->|[->| ->]]].
  - left. exact (letter_inj d R T _ _ _ _ A A2).
  - exfalso. exact (OverUnderProofs.not_both d R T _ _ _ _ D B2).
  - right. rewrite (letter_inj d R T _ _ _ _ A A3). rewrite S. destruct (m_positive m); reflexivity.
  - exfalso. exact (OverUnderProofs.not_both d R T _ _ _ _ D B4).
Qed.
Definition opposite (x : CCodeSpec.letter) : CCodeSpec.letter := match x with La => Lc | Lb => Ld | Lc => La | Ld => Lb end.
Lemma at_opposite : forall c x p, at_letter d c x p -> at_letter d c (opposite x) ((p + 2) mod 4).
Proof.
  intros c x p (s & oi & oo & ui & uo & S & O & ->). exists s, oi, oo, ui, uo. split; auto. split; auto.
  destruct (over_under_range d R _ _ _ _ _ _ O) as (_ & L2 & _). destruct (small4 oo L2) as [->|[->|[->| ->]]]; destruct x; reflexivity.
Qed.

(** edge [e] leaves crossing [c] at branch [x] *)
Definition leaves (e c : nat) (x : CCodeSpec.letter) : Prop := exists p, departs d c p e /\ at_letter d c x p.
Definition pass (c : nat) (x : CCodeSpec.letter) : nat := 2 * c + match x with La => 0 | _ => 1 end.
Lemma leaves_ex : forall e, e < nedges d -> exists c x, leaves e c x.
Proof.
  intros e He. destruct (nth_error (p_edge d) e) as [E|] eqn:HE; [|apply nth_error_None in HE; unfold nedges in He; lia].
  destruct (letters_ok d R G T SG e E HE) as (h & t & _ & _ & A). exists (e_tail E), t, (e_tailpos E). split; auto. exists E. auto.
Qed.
Lemma leaves_lt : forall e c x, leaves e c x -> e < nedges d /\ c < ncross d.
Proof.
  intros e c x (p & D & _). split.
  - destruct D as (E & HE & _). eapply edge_at_lt; eauto.
  - apply (departs_slot d R), slot_lt in D. lia.
Qed.
Lemma leaves_fun : forall e c x c' x', leaves e c x -> leaves e c' x' -> c = c' /\ x = x'.
Proof.
  intros e c x c' x' (p & D & A) (p' & D' & A'). destruct (departs_place d _ _ _ _ _ D D') as (-> & ->).
  split; auto. eapply letter_inj; eauto.
Qed.
Lemma leaves_inj : forall e e' c x, leaves e c x -> leaves e' c x -> e = e'.
Proof.
  intros e e' c x (p & D & A) (p' & D' & A'). rewrite (at_letter_fun d R T _ _ _ _ A A') in D. eapply departs_fun; eauto.
Qed.
Lemma leaves_out : forall e c x m, leaves e c x -> nth_error l c = Some m -> out_letter m x.
Proof. intros e c x m (p & D & A) M. eapply departs_letter; eauto. Qed.
Lemma pass_inj : forall e c x e' c' x', leaves e c x -> leaves e' c' x' -> pass c x = pass c' x' -> e = e'.
Proof.
  intros e c x e' c' x' H H' E. unfold pass in E. assert (c' = c) by (destruct x, x'; lia). subst c'.
  destruct (line_of c (proj2 (leaves_lt _ _ _ H))) as (m & M & _).
  assert (x' = x). { destruct (leaves_out _ _ _ _ H M) as [->| ->], (leaves_out _ _ _ _ H' M) as [->| ->]; auto; destruct (m_positive m); lia. }
  subst x'. eapply leaves_inj; eauto.
Qed.
Lemma pass_lt : forall e c x, leaves e c x -> pass c x < 2 * ncross d.
Proof. intros e c x H. destruct (leaves_lt _ _ _ H) as (_ & Hc). unfold pass. destruct x; lia. Qed.
Lemma pass_surj : forall c m x, c < ncross d -> nth_error l c = Some m -> out_letter m x -> exists e, leaves e c x.
Proof.
  intros c m x Hc M O. destruct (line_of c Hc) as (m' & M' & S & _). assert (m' = m) by congruence. subst m'.
  destruct S as (y & Hy & S). destruct (at_crossing d R G T SG c y Hy) as (oi & oo & ui & uo & _ & OU & A1 & A2 & A3 & A4).
  pose proof OU as ((e1 & B1) & (e2 & B2) & (e3 & B3) & (e4 & B4) & _).
  destruct O as [->| ->]; [exists e2, oo; auto|]. exists e4, uo. split; auto. rewrite S in A4. destruct (m_positive m); auto.
Qed.

(** ** one step *)
Context (FEW : ncross d < XCNT).
Lemma step_ok : forall f marks e c x e', leaves e c x -> nth_error marks (pass c x) = Some 0 -> continues d e e' ->
  exists c' x', leaves e' c' x' /\
    follow (S f) k marks (pass c x) c (2 * letter_index x) = follow f k (upd (pass c x) 1 marks) (pass c' x') c' (2 * letter_index x').
Proof.
  intros f marks e c x e' LV M0 CN. destruct (leaves_lt _ _ _ LV) as (_ & Hc). destruct LV as (p & D & A).
  destruct (line_of c Hc) as (m & M & S & W). specialize (W x).
  pose proof (wired_lt d R _ _ _ _ W) as Hc'. destruct (m_to m x) as (c', x') eqn:TO. cbn [fst snd] in *.
  destruct (line_of c' Hc') as (m' & M' & S' & W').
  pose proof (wired_fun d R T _ _ _ _ _ _ (W' x') (wired_sym d _ _ _ _ W)) as (Q1 & Q2).
  destruct W as (e1 & p1 & p' & A1 & A' & K). assert (p1 = p) by (eapply at_letter_fun; eauto). subst p1.
  destruct K as [(K1 & K2)|(K1 & K2)]; [|exfalso; exact (OverUnderProofs.not_both d R T _ _ _ _ K1 D)].
  assert (e1 = e) by (eapply departs_fun; eauto). subst e1.
  exists c', (opposite x'). split.
  - exists ((p' + 2) mod 4). split; [|apply at_opposite; auto].
    destruct CN as (E & F & HE & HF & C1 & C2). destruct K2 as (E' & HE' & K2). unfold edge_at in *. rewrite HE in HE'. injection HE' as <-.
    unfold head_slot in K2. apply pair_equal_spec in K2 as (<- & <-). exists F. split; auto. unfold tail_slot. congruence.
  - cbn [follow]. rewrite (proj2 (get_ok _ _ _ _) M0). cbn [bind Nat.eqb negb].
    assert (LX : c < XCNT /\ c' < XCNT) by lia. destruct LX as (X1 & X2).
    destruct (bytes_ok c m x M X1) as (B1 & B2). rewrite B1. cbn [bind]. rewrite B2. cbn [bind]. rewrite TO. cbn [fst snd].
    change (c_num k) with (length l). rewrite (proj1 DE). apply Nat.ltb_lt in Hc'. rewrite Hc'.
    destruct (bytes_ok c' m' x' M' X2) as (B3 & B4). rewrite B3. cbn [bind]. rewrite B4. cbn [bind]. rewrite Q1, Q2, !Nat.eqb_refl. cbn [andb].
    rewrite (sign_ok c' m' M' X2). cbn [bind].
    destruct (arrives_letter c' m' x' p' e M' A' K2) as [->| ->]; unfold sign_code; destruct (m_positive m'); cbn [letter_index opposite]; reflexivity.
Qed.

(** [M] is the list of edges that have been marked *)
Definition marked (marks : list nat) (M : list nat) : Prop :=
  length marks = 2 * ncross d + 1 /\ nth_error marks (2 * ncross d) = Some 0 /\
  forall e c x, leaves e c x -> (In e M -> nth_error marks (pass c x) = Some 1) /\ (~ In e M -> nth_error marks (pass c x) = Some 0).
Lemma mark_step : forall marks M e c x, marked marks M -> leaves e c x -> marked (upd (pass c x) 1 marks) (e :: M).
Proof.
  intros marks M e c x (L & Z & H) LV. pose proof (pass_lt _ _ _ LV) as PL. split; [rewrite upd_length; auto|]. split.
  - rewrite nth_error_upd. destruct (Nat.eqb_spec (pass c x) (2 * ncross d)); [lia|auto].
  - intros e' c' x' LV'. rewrite nth_error_upd. destruct (Nat.eqb_spec (pass c x) (pass c' x')) as [E|E].
    + assert (e = e') by (eapply pass_inj; eauto). subst e'. destruct (Nat.ltb_spec (pass c x) (length marks)); [|lia].
      split; auto. intros N. exfalso. apply N. left. auto.
    + destruct (H e' c' x' LV') as (H1 & H2). split; intros I.
      * destruct I as [->|I]; auto. exfalso. destruct (leaves_fun _ _ _ _ _ LV LV') as (-> & ->). auto.
      * apply H2. intros J. apply I. right. auto.
Qed.

Fixpoint chain (e : nat) (t : list nat) (z : nat) : Prop :=
  match t with [] => continues d e z | a :: t' => continues d e a /\ chain a t' z end.
Lemma follow_chain : forall t e c x z M marks f, chain e t z -> NoDup (e :: t) -> (forall a, In a (e :: t) -> ~ In a M) -> In z (e :: M) ->
  marked marks M -> leaves e c x -> length t + 1 < f ->
  exists marks' M', follow f k marks (pass c x) c (2 * letter_index x) = Ok marks' /\ marked marks' M' /\
    forall a, In a M' <-> In a (e :: t) \/ In a M.
Proof.
  induction t as [|a t IH]; intros e c x z M marks f CH ND DJ IZ MK LV LF; (destruct f as [|f]; [lia|]).
  - cbn [chain] in CH. pose proof MK as (_ & _ & H). destruct (H e c x LV) as (_ & M0). specialize (M0 (DJ e (or_introl eq_refl))).
    destruct (step_ok f marks e c x z LV M0 CH) as (c' & x' & LV' & E). rewrite E.
    pose proof (mark_step _ _ _ _ _ MK LV) as MK'. destruct f as [|f]; [cbn in LF; lia|]. cbn [follow].
    destruct MK' as (L' & Z' & H'). destruct (H' z c' x' LV') as (M1 & _). rewrite (proj2 (get_ok _ _ _ _) (M1 IZ)). cbn [bind Nat.eqb negb].
    eexists. exists (e :: M). split; [reflexivity|]. split; [split; auto|]. intros b. cbn [In]. tauto.
  - cbn [chain] in CH. destruct CH as (CN & CH). pose proof MK as (_ & _ & H). destruct (H e c x LV) as (_ & M0). specialize (M0 (DJ e (or_introl eq_refl))).
    destruct (step_ok f marks e c x a LV M0 CN) as (c' & x' & LV' & E). rewrite E.
    pose proof (mark_step _ _ _ _ _ MK LV) as MK'. inversion ND; subst.
    destruct (IH a c' x' z (e :: M) (upd (pass c x) 1 marks) f) as (marks' & M' & F & MM & Q); auto.
    + intros b Ib [<-|J]; [auto|]. apply (DJ b); [right; auto|auto].
    + right. auto.
    + cbn [length] in LF. lia.
    + exists marks', M'. split; auto. split; auto. intros b. rewrite Q. cbn [In]. tauto.
Qed.

(** a strand as a chain from any of its edges *)
Lemma chain_prefix : forall t e, (forall i a b, nth_error (e :: t) i = Some a -> nth_error (e :: t) (S i) = Some b -> continues d a b) ->
  forall z, continues d (last (e :: t) 0) z -> chain e t z.
Proof.
  induction t as [|a t IH]; intros e H z L; cbn [chain]; auto. split; [apply (H 0); auto|]. apply IH; auto.
  intros i u v U V. apply (H (S i)); auto.
Qed.
Lemma strand_chain : forall s e, cyclically (continues d) s -> In e s -> NoDup s ->
  exists t, chain e t e /\ Permutation s (e :: t).
Proof.
  intros s e CY I ND. apply in_split in I as (a & b & ->). exists (b ++ a). split; [|rewrite <- Permutation_middle; constructor; apply Permutation_app_comm].
  set (n := length (a ++ e :: b)). assert (Ln : n = length a + S (length b)) by (unfold n; rewrite app_length; auto).
  assert (N : forall i, i < n -> nth_error (e :: b ++ a) i = nth_error (a ++ e :: b) ((length a + i) mod n)).
  { intros i Hi. destruct (Nat.lt_ge_cases (length a + i) n).
    - rewrite Nat.mod_small by auto. rewrite (nth_error_app2 a) by lia. replace (length a + i - length a) with i by lia.
      change (e :: b ++ a) with ((e :: b) ++ a). rewrite nth_error_app1; auto. cbn [length]. lia.
    - assert (Q : (length a + i) mod n = length a + i - n) by (replace (length a + i) with ((length a + i - n) + 1 * n) at 1 by lia; rewrite Nat.mod_add, Nat.mod_small by lia; auto).
      rewrite Q. rewrite nth_error_app1 by lia. change (e :: b ++ a) with ((e :: b) ++ a). rewrite nth_error_app2 by (cbn [length]; lia). f_equal. cbn [length]. lia. }
  assert (LL : length (e :: b ++ a) = n) by (cbn [length]; rewrite app_length; lia).
  assert (ST : forall i j u v, i < n -> j < n -> j = (i + 1) mod n -> nth_error (e :: b ++ a) i = Some u -> nth_error (e :: b ++ a) j = Some v -> continues d u v).
  { intros i j u v Hi Hj E U V. rewrite N in U, V by auto. apply (CY _ _ _ U). fold n. rewrite <- V. f_equal.
    rewrite E, Nat.add_mod_idemp_l, Nat.add_mod_idemp_r by lia. f_equal. lia. }
  apply chain_prefix.
  - intros i u v U V. assert (S i < n) by (rewrite <- LL; apply nth_error_Some; congruence).
    apply (ST i (S i)); auto; try lia. rewrite Nat.mod_small; lia.
  - apply (ST (n - 1) 0); try lia.
    + replace (n - 1 + 1) with n by lia. rewrite Nat.mod_same; lia.
    + rewrite <- LL at 1. clear. generalize (b ++ a). intros q. revert e. induction q as [|x q IH]; intros e; [reflexivity|].
      change (last (e :: x :: q) 0) with (last (x :: q) 0). rewrite <- IH. cbn [length]. rewrite !Nat.sub_succ, !Nat.sub_0_r. reflexivity.
    + reflexivity.
Qed.

(** ** all strands *)
Lemma first_zero_ok : forall marks j, nth_error marks j = Some 0 -> exists i, first_zero marks = Ok i /\ nth_error marks i = Some 0 /\ i <= j.
Proof.
  induction marks as [|m marks IH]; intros j H; [destruct j; discriminate|]. cbn [first_zero].
  destruct (Nat.eqb_spec m 0) as [->|N]; [exists 0; split; auto; split; auto; lia|].
  destruct j as [|j]; [injection H as ->; congruence|]. destruct (IH j H) as (i & E & Q & L). rewrite E. cbn [bind]. exists (S i). split; auto. split; auto. lia.
Qed.
Context (L : list (list nat)) (SP : strand_partition d L).

(** the pass found next belongs to an edge that is not marked *)
Lemma next_pass : forall marks M, marked marks M -> exists i, first_zero marks = Ok i /\
  (i = 2 * ncross d /\ (forall e, e < nedges d -> In e M) \/
   i < 2 * ncross d /\ exists e c x, leaves e c x /\ ~ In e M /\ i = pass c x /\ i / 2 = c /\
     (if Nat.odd i then (do s <- sign_byte k (i / 2); Ok (Nat.land s 6)) else Ok 0) = Ok (2 * letter_index x)).
Proof.
  intros marks M (LM & Z & H). destruct (first_zero_ok marks _ Z) as (i & E & Q & Li). exists i. split; auto.
  assert (AE : forall e, In e M \/ ~ In e M) by (intros e; destruct (in_dec Nat.eq_dec e M); auto).
  destruct (Nat.eq_dec i (2 * ncross d)) as [->|N].
  - left. split; auto. intros e He. destruct (leaves_ex e He) as (c & x & LV). destruct (AE e) as [I|I]; auto. exfalso.
    destruct (H e c x LV) as (_ & H0). specialize (H0 I).
    assert (MIN : forall marks i, first_zero marks = Ok i -> forall j, nth_error marks j = Some 0 -> i <= j).
    { clear. induction marks as [|m marks IH]; intros i E j J; [discriminate|]. cbn [first_zero] in E. destruct (Nat.eqb_spec m 0) as [->|N].
      - injection E as <-. lia.
      - destruct (first_zero marks) as [i'| | |]; try discriminate. cbn [bind] in E. injection E as <-. destruct j; [injection J as ->; congruence|].
        specialize (IH i' eq_refl j J). lia. }
    pose proof (MIN _ _ E _ H0). pose proof (pass_lt _ _ _ LV). lia.
  - right. split; [lia|].
    assert (Hc : i / 2 < ncross d) by (apply Nat.div_lt_upper_bound; lia).
    destruct (line_of (i / 2) Hc) as (m & M1 & S & _).
    pose proof (Nat.div_mod i 2 ltac:(lia)) as DM.
    assert (OD : Nat.odd i = (i mod 2 =? 1)).
    { assert (i mod 2 < 2) by (apply Nat.mod_upper_bound; lia). rewrite DM at 1. rewrite Nat.odd_add, Nat.odd_mul. cbn [Nat.odd Nat.even negb andb].
      change (Nat.odd 2) with false. cbn [andb xorb]. destruct (i mod 2) as [|[|q]]; auto; lia. }
    rewrite OD. destruct (Nat.eqb_spec (i mod 2) 1) as [O|O].
    + destruct (pass_surj (i / 2) m (if m_positive m then Ld else Lb) Hc M1 (or_intror eq_refl)) as (e & LV).
      exists e, (i / 2), (if m_positive m then Ld else Lb). split; auto.
      assert (P : i = pass (i / 2) (if m_positive m then Ld else Lb)) by (unfold pass; destruct (m_positive m); lia).
      split; [|split; auto; split; auto].
      * intros I. destruct (H _ _ _ LV) as (H1 & _). specialize (H1 I). rewrite <- P in H1. congruence.
      * rewrite (sign_ok _ m M1) by (unfold XCNT in *; lia). cbn [bind]. unfold sign_code. destruct (m_positive m); reflexivity.
    + assert (i mod 2 = 0) by (pose proof (Nat.mod_upper_bound i 2); lia).
      destruct (pass_surj (i / 2) m La Hc M1 (or_introl eq_refl)) as (e & LV).
      exists e, (i / 2), La. split; auto. assert (P : i = pass (i / 2) La) by (unfold pass; lia). split; [|split; auto].
      intros I. destruct (H _ _ _ LV) as (H1 & _). specialize (H1 I). rewrite <- P in H1. congruence.
Qed.

Lemma strands_ok : forall rest seen marks M f e c x low, Permutation L (seen ++ rest) -> (forall a, In a M <-> In a (concat seen)) ->
  marked marks M -> leaves e c x -> ~ In e M -> length rest < f ->
  strands f k marks (pass c x) c (2 * letter_index x) low = Ok (low - Z.of_nat (length rest))%Z.
Proof.
  intros rest. remember (length rest) as n eqn:En. revert rest En.
  induction n as [|n IH]; intros rest En seen marks M f e c x low PM HM MK LV NI LF.
  - destruct rest; [|discriminate]. exfalso. apply NI, HM. rewrite app_nil_r in PM.
    eapply Permutation_in; [apply concat_perm; exact PM|]. apply SP. apply (leaves_lt _ _ _ LV).
  - destruct f as [|f]; [lia|]. cbn [strands]. change (c_num k) with (length l). rewrite (proj1 DE).
    destruct (Nat.eqb_spec (pass c x) (2 * ncross d)) as [E|_]; [pose proof (pass_lt _ _ _ LV); lia|].
    destruct (leaves_lt _ _ _ LV) as (He & _).
    assert (IE : In e (concat (seen ++ rest))) by (eapply Permutation_in; [apply concat_perm; exact PM|]; apply SP; auto).
    rewrite concat_app in IE. apply in_app_or in IE as [IE|IE]; [exfalso; apply NI, HM; auto|].
    apply in_concat in IE as (s & Is & Ie). apply in_split in Is as (r1 & r2 & ->).
    assert (ND : NoDup (concat (seen ++ r1 ++ s :: r2))) by (eapply Permutation_NoDup; [apply concat_perm; exact PM|]; apply SP).
    assert (PQ : Permutation (seen ++ r1 ++ s :: r2) ((s :: seen) ++ r1 ++ r2)).
    { cbn [app]. rewrite !app_assoc. symmetry. apply Permutation_middle. }
    assert (ND2 : NoDup (s ++ concat (seen ++ r1 ++ r2))) by (apply (Permutation_NoDup (concat_perm _ _ _ PQ) ND)).
    assert (NS : NoDup s /\ forall a, In a s -> ~ In a (concat seen)).
    { clear - ND2. split; [induction s as [|b s IHs]; [constructor|]; cbn [app] in ND2; inversion ND2; subst; constructor; auto; intros J; apply H1, in_or_app; auto|].
      intros a Ia J. induction s as [|b s IHs]; [destruct Ia|]. cbn [app] in ND2. inversion ND2; subst. destruct Ia as [->|Ia]; auto.
      apply H1. apply in_or_app. right. rewrite concat_app. apply in_or_app. auto. }
    destruct NS as (NS & DJ).
    assert (InL : In s L) by (apply (Permutation_in s (Permutation_sym PM)); apply in_or_app; right; apply in_elt).
    destruct (proj1 SP s InL) as (_ & CY). destruct (strand_chain s e CY Ie NS) as (t & CH & PT).
    assert (LE : length s <= nedges d).
    { transitivity (length (seq 0 (nedges d))); [|rewrite seq_length; auto]. apply NoDup_incl_length; auto. intros a Ia. apply in_seq.
      assert (a < nedges d); [|lia]. apply SP. apply in_concat. exists s. auto. }
    assert (Lt : length t + 1 = length s) by (rewrite (Permutation_length PT); cbn [length]; lia).
    destruct (follow_chain t e c x e M marks (S (S (2 * ncross d)))) as (marks' & M' & F & MK' & HM'); auto.
    + eapply Permutation_NoDup; eauto.
    + intros a Ia J. apply (DJ a); [eapply Permutation_in; [symmetry; exact PT|auto]|apply HM; auto].
    + left. auto.
    + pose proof (proj1 R). lia.
    + rewrite F. cbn [bind]. destruct (next_pass marks' M' MK') as (i & FZ & K). rewrite FZ. cbn [bind].
      assert (HM2 : forall a, In a M' <-> In a (concat (s :: seen))).
      { intros a. rewrite HM', HM. cbn [concat]. rewrite in_app_iff. split; (intros [J|J]; [left|right; auto]); [exact (Permutation_in a (Permutation_sym PT) J)|exact (Permutation_in a PT J)]. }
      assert (PM2 : Permutation L ((s :: seen) ++ r1 ++ r2)) by (etransitivity; [exact PM|exact PQ]).
      rewrite app_length in En. cbn [length] in En.
      destruct K as [(-> & ALL)|(Li & e2 & c2 & x2 & LV2 & NI2 & EP & <- & SB)].
      * assert (RN : r1 ++ r2 = []).
        { destruct (r1 ++ r2) as [|s2 rr] eqn:RR; auto. exfalso.
          assert (I2 : In s2 L) by (apply (Permutation_in s2 (Permutation_sym PM2)); apply in_or_app; right; left; auto).
          destruct (proj1 SP s2 I2) as (NE & _). destruct s2 as [|y s2]; [congruence|].
          assert (Iy : In y (concat (s :: seen))). { apply HM2, ALL. apply SP. apply in_concat. exists (y :: s2). split; auto. left. auto. }
          assert (ND3 : NoDup (concat ((s :: seen) ++ (y :: s2) :: rr))) by (eapply Permutation_NoDup; [apply concat_perm; exact PM2|apply SP]).
          rewrite concat_app in ND3. cbn [concat app] in ND3. apply NoDup_remove_2 in ND3. apply ND3. apply in_or_app. left. auto. }
        apply app_eq_nil in RN as (-> & ->). cbn [length] in En.
        rewrite Nat.odd_mul. change (Nat.odd 2) with false. cbn [andb bind].
        destruct f as [|f]; [lia|]. cbn [strands]. change (c_num k) with (length l). rewrite (proj1 DE), Nat.eqb_refl. f_equal. lia.
      * rewrite SB. cbn [bind]. rewrite EP.
        assert (Q : pass (pass (i / 2) x2 / 2) x2 = pass (i / 2) x2) by (rewrite <- EP; auto).
        assert (Q2 : pass (i / 2) x2 / 2 = i / 2) by (rewrite <- EP; auto). rewrite Q2.
        rewrite (IH (r1 ++ r2) ltac:(rewrite app_length; lia) (s :: seen) marks' M' f e2 (i / 2) x2 (low - 1)%Z); auto; [f_equal; lia|lia].
Qed.

Theorem check_ok : 0 < ncross d -> conchk k = Ok (1 - Z.of_nat (length L))%Z.
Proof.
  intros Hn. unfold conchk. change (c_num k) with (length l). rewrite (proj1 DE).
  destruct (Nat.leb_spec (2 * XCNT) (2 * ncross d)) as [B|_]; [lia|].
  destruct (line_of 0 Hn) as (m & M & _). destruct (pass_surj 0 m La Hn M (or_introl eq_refl)) as (e & LV).
  assert (MK : marked (repeat 0 (2 * ncross d + 1)) []).
  { assert (Z : forall i, i < 2 * ncross d + 1 -> nth_error (repeat 0 (2 * ncross d + 1)) i = Some 0) by (intros i Hi; apply nth_error_repeat; auto).
    split; [apply repeat_length|]. split; [apply Z; lia|]. intros e' c x LV'. split; [intros []|]. intros _. apply Z. pose proof (pass_lt _ _ _ LV'). lia. }
  assert (LL : length L <= 2 * ncross d).
  { rewrite <- (proj1 R). transitivity (length (concat L)).
    - assert (NE : forall s, In s L -> s <> []) by (intros s I; apply (proj1 SP s I)). clear - NE. induction L as [|s q IH]; [auto|]. cbn [concat length]. rewrite app_length.
      pose proof (NE s (or_introl eq_refl)). destruct s; [congruence|]. cbn [length]. specialize (IH (fun s I => NE s (or_intror I))). lia.
    - transitivity (length (seq 0 (nedges d))); [|rewrite seq_length; auto]. apply NoDup_incl_length; [apply SP|]. intros a Ia. apply in_seq. apply SP in Ia. lia. }
  apply (strands_ok L [] (repeat 0 (2 * ncross d + 1)) [] (S (2 * ncross d)) e 0 La 1%Z); auto; [cbn; tauto|lia].
Qed.
End Check.
