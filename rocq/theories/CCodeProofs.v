(** Crossing codes: what is written. *)
From Coq Require Import List NArith ZArith Lia Bool Arith Permutation.
From Verif Require Import Base ListAux Iterators Pd PdSpec PdProofs PdCross Relabel RelabelProofs Strands PdCompsProofs
  OverUnder OverUnderSpec OverUnderProofs AltProofs TextIO TextProofs CCode CCodeSpec.
Import ListNotations.
Open Scope nat_scope.
Open Scope res_scope.

Section Code.
Context (d : pd) (R : ends_recorded d) (G : goes_through d) (T : two_ended d) (SG : all_signed d).

(** the letters of the four places *)
Lemma at_crossing : forall c x, nth_error (p_cross d) c = Some x ->
  exists oi oo ui uo, pd_overunder_internal d c = Ok (mkPasses oi oo ui uo) /\ over_under d c (csign x) oi oo ui uo /\
    at_letter d c La oo /\ at_letter d c Lc oi /\
    at_letter d c (if orient_eqb (csign x) Pos then Lb else Ld) ui /\ at_letter d c (if orient_eqb (csign x) Pos then Ld else Lb) uo.
Proof.
  intros c x Hx. destruct (internal_spec d R G T c x Hx) as (oi & oo & ui & uo & I & O).
  exists oi, oo, ui, uo. split; auto. split; auto.
  assert (S : sign_at d c (csign x)) by (exists x; auto).
  destruct (over_under_range d R _ _ _ _ _ _ O) as (L1 & L2 & L3 & L4).
  assert (A : forall l p, p = match l with La => oo | Lb => (oo + 3) mod 4 | Lc => (oo + 2) mod 4 | Ld => (oo + 1) mod 4 end -> at_letter d c l p).
  { intros l p ->. exists (csign x), oi, oo, ui, uo. auto. }
  pose proof (SG c _ S) as NU. destruct O as (_ & _ & _ & _ & E1 & E2 & E3).
  split; [apply A; auto|]. split; [apply A; rewrite E1; destruct (small4 oi L1) as [->|[->|[->| ->]]]; reflexivity|].
  destruct (csign x); [| |congruence]; cbn [orient_eqb]; split; apply A; subst uo; try (rewrite E3; reflexivity);
    destruct (small4 ui L3) as [->|[->|[->| ->]]]; destruct (small4 oo L2) as [->|[->|[->| ->]]]; cbn in E3; try discriminate; reflexivity.
Qed.

Lemma letters_ok : forall e E, edge_at d e E -> exists h t, pd_millet_ewing_positions d e = Ok (letter_char h, letter_char t) /\
  at_letter d (e_head E) h (e_headpos E) /\ at_letter d (e_tail E) t (e_tailpos E).
Proof.
  intros e E HE. unfold pd_millet_ewing_positions. rewrite (proj2 (get_ok _ _ _ _) HE). cbn [bind].
  assert (AR : arrives d (e_head E) (e_headpos E) e) by (exists E; auto).
  assert (DE : departs d (e_tail E) (e_tailpos E) e) by (exists E; auto).
  pose proof (arrives_slot d R _ _ _ AR) as SA. pose proof (departs_slot d R _ _ _ DE) as SD.
  destruct SA as (LA & x & Hx & Ex), SD as (LD & y & Hy & Ey).
  assert (H1 : exists h, (do o <- pd_overstrand_pos d (e_head E); do u <- pd_understrand_pos d (e_head E); do x <- get (p_cross d) (e_head E);
     if cedge x (fst o) =? e then Ok ch_c else if cedge x (fst u) =? e then Ok (if orient_eqb (csign x) Pos then ch_b else ch_d) else UB) = Ok (letter_char h) /\
     at_letter d (e_head E) h (e_headpos E)).
  { destruct (at_crossing _ _ Hx) as (oi & oo & ui & uo & I & O & A1 & A2 & A3 & A4).
    unfold pd_overstrand_pos, pd_understrand_pos. rewrite I. cbn [bind over_in over_out under_in under_out fst].
    rewrite (proj2 (get_ok _ _ _ _) Hx). cbn [bind].
    destruct (places_split d R _ _ _ _ _ _ O) as (N1 & N2 & N3 & N4 & N5 & N6 & PS).
    pose proof O as ((e1 & B1) & (e2 & B2) & (e3 & B3) & (e4 & B4) & _).
    destruct (PS _ LA) as [P|[P|[P|P]]].
    - exists Lc. rewrite P in *. rewrite Ex, Nat.eqb_refl. auto.
    - exfalso. rewrite P in AR. exact (OverUnderProofs.not_both d R T _ _ _ _ AR B2).
    - exists (if orient_eqb (csign x) Pos then Lb else Ld). rewrite P in *. rewrite Ex, Nat.eqb_refl.
      destruct (Nat.eqb_spec (cedge x oi) e) as [Q|Q].
      + exfalso. pose proof (arrives_slot d R _ _ _ B1) as (_ & x' & Hx' & E1). assert (Z : e1 = e) by congruence. rewrite Z in B1.
        destruct (arrives_place d _ _ _ _ _ AR B1). congruence.
      + split; auto. destruct (orient_eqb (csign x) Pos); reflexivity.
    - exfalso. rewrite P in AR. exact (OverUnderProofs.not_both d R T _ _ _ _ AR B4). }
  assert (H2 : exists t, (do o <- pd_overstrand_pos d (e_tail E); do u <- pd_understrand_pos d (e_tail E); do x <- get (p_cross d) (e_tail E);
     if cedge x (snd o) =? e then Ok ch_a else if cedge x (snd u) =? e then Ok (if orient_eqb (csign x) Pos then ch_d else ch_b) else UB) = Ok (letter_char t) /\
     at_letter d (e_tail E) t (e_tailpos E)).
  { destruct (at_crossing _ _ Hy) as (oi & oo & ui & uo & I & O & A1 & A2 & A3 & A4).
    unfold pd_overstrand_pos, pd_understrand_pos. rewrite I. cbn [bind over_in over_out under_in under_out snd].
    rewrite (proj2 (get_ok _ _ _ _) Hy). cbn [bind].
    destruct (places_split d R _ _ _ _ _ _ O) as (N1 & N2 & N3 & N4 & N5 & N6 & PS).
    pose proof O as ((e1 & B1) & (e2 & B2) & (e3 & B3) & (e4 & B4) & _).
    destruct (PS _ LD) as [P|[P|[P|P]]].
    - exfalso. rewrite P in DE. exact (OverUnderProofs.not_both d R T _ _ _ _ B1 DE).
    - exists La. rewrite P in *. rewrite Ey, Nat.eqb_refl. auto.
    - exfalso. rewrite P in DE. exact (OverUnderProofs.not_both d R T _ _ _ _ B3 DE).
    - exists (if orient_eqb (csign y) Pos then Ld else Lb). rewrite P in *. rewrite Ey, Nat.eqb_refl.
      destruct (Nat.eqb_spec (cedge y oo) e) as [Q|Q].
      + exfalso. pose proof (departs_slot d R _ _ _ B2) as (_ & x' & Hx' & E1). assert (Z : e2 = e) by congruence. rewrite Z in B2.
        destruct DE as (E' & HE' & K), B2 as (E2 & HE2 & K2). unfold edge_at in *. congruence.
      + split; auto. destruct (orient_eqb (csign y) Pos); reflexivity. }
  destruct H1 as (h & H1 & K1), H2 as (t & H2 & K2). exists h, t. split; auto.
  apply bind_ok in H1 as (o & Q1 & H1). apply bind_ok in H1 as (u & Q2 & H1). apply bind_ok in H1 as (x1 & Q3 & H1).
  rewrite Q1. cbn [bind]. rewrite Q2. cbn [bind]. rewrite Q3. cbn [bind]. rewrite H1. cbn [bind].
  apply bind_ok in H2 as (o' & Q1' & H2). apply bind_ok in H2 as (u' & Q2' & H2). apply bind_ok in H2 as (x2 & Q3' & H2).
  rewrite Q1'. cbn [bind]. rewrite Q2'. cbn [bind]. rewrite Q3'. cbn [bind]. rewrite H2. reflexivity.
Qed.

Lemma to_head_ok : forall c p e l, departs d c p e -> at_letter d c l p -> exists x, to_head d e = Ok (end_text x) /\ wired d c l (fst x) (snd x).
Proof.
  intros c p e l (E & HE & K) A. destruct (letters_ok e E HE) as (h & t & M & B1 & B2).
  exists (e_head E, h). unfold to_head. rewrite (proj2 (get_ok _ _ _ _) HE). cbn [bind]. rewrite M. cbn [bind fst]. split; [reflexivity|].
  cbn [fst snd]. exists e, p, (e_headpos E). split; auto. split; auto. left. split; exists E; auto.
Qed.
Lemma to_tail_ok : forall c p e l, arrives d c p e -> at_letter d c l p -> exists x, to_tail d e = Ok (end_text x) /\ wired d c l (fst x) (snd x).
Proof.
  intros c p e l (E & HE & K) A. destruct (letters_ok e E HE) as (h & t & M & B1 & B2).
  exists (e_tail E, t). unfold to_tail. rewrite (proj2 (get_ok _ _ _ _) HE). cbn [bind]. rewrite M. cbn [bind snd]. split; [reflexivity|].
  cbn [fst snd]. exists e, p, (e_tailpos E). split; auto. split; auto. right. split; exists E; auto.
Qed.

Definition right (c : nat) (m : mcross) : Prop :=
  sign_at d c (if m_positive m then Pos else Neg) /\ forall l, wired d c l (fst (m_to m l)) (snd (m_to m l)).
Lemma line_ok : forall c, c < ncross d -> exists s r m, line_start d c = Ok s /\ line_rest d c = Ok r /\ s ++ r = line_text c m /\ right c m.
Proof.
  intros c Hc. destruct (nth_error (p_cross d) c) as [x|] eqn:Hx; [|apply nth_error_None in Hx; unfold ncross in Hc; lia].
  unfold line_start, line_rest. rewrite (proj2 (get_ok _ _ _ _) Hx). cbn [bind].
  destruct (at_crossing c x Hx) as (oi & oo & ui & uo & I & O & A1 & A2 & A3 & A4).
  unfold pd_overstrand, pd_understrand, pd_overstrand_pos, pd_understrand_pos. rewrite I. cbn [bind fst snd over_in over_out under_in under_out].
  rewrite (proj2 (get_ok _ _ _ _) Hx). cbn [bind fst snd].
  pose proof O as ((e1 & B1) & (e2 & B2) & (e3 & B3) & (e4 & B4) & _).
  assert (Q : forall p e, slot d c p e -> e = cedge x p) by (intros p y (_ & x' & Hx' & <-); congruence).
  pose proof (Q _ _ (arrives_slot d R _ _ _ B1)). pose proof (Q _ _ (departs_slot d R _ _ _ B2)).
  pose proof (Q _ _ (arrives_slot d R _ _ _ B3)). pose proof (Q _ _ (departs_slot d R _ _ _ B4)). subst e1 e2 e3 e4.
  destruct (to_head_ok _ _ _ _ B2 A1) as (a & Ta & Wa). destruct (to_tail_ok _ _ _ _ B1 A2) as (cc & Tc & Wc).
  destruct (to_tail_ok _ _ _ _ B3 A3) as (i & Ti & Wi). destruct (to_head_ok _ _ _ _ B4 A4) as (o & To & Wo).
  rewrite Ta. cbn [bind]. rewrite Tc. cbn [bind]. rewrite Ti, To.
  assert (S : sign_at d c (csign x)) by (exists x; auto). pose proof (SG c _ S) as NU.
  destruct (csign x); [| |congruence]; cbn [orient_eqb bind fst snd] in *; do 2 eexists; [exists (mkM true a i cc o)|exists (mkM false a o cc i)];
    (split; [reflexivity|]); (split; [reflexivity|]); split.
  - unfold line_text. cbn [m_positive m_a m_b m_c m_d]. rewrite <- !app_assoc. reflexivity.
  - split; [exact S|]. intros [| | |]; auto.
  - unfold line_text. cbn [m_positive m_a m_b m_c m_d]. rewrite <- !app_assoc. reflexivity.
  - split; [exact S|]. intros [| | |]; auto.
Qed.

Lemma wired_lt : forall c l c' l', wired d c l c' l' -> c' < ncross d.
Proof.
  intros c l c' l' (e & p & p' & _ & _ & [(_ & H)|(_ & H)]).
  - apply (arrives_slot d R), slot_lt in H. lia.
  - apply (departs_slot d R), slot_lt in H. lia.
Qed.

(** sizes *)
Lemma size_small : forall k n, (n < 2 ^ N.of_nat k)%N -> N.size_nat n <= k.
Proof.
  induction k; intros n H; destruct n as [|p]; cbn [N.size_nat]; try lia.
  - assert (E : (2 ^ N.of_nat (S k) = 2 * 2 ^ N.of_nat k)%N) by (rewrite Nat2N.inj_succ, N.pow_succ_r'; reflexivity). rewrite E in H.
    destruct p as [p|p|]; cbn [Pos.size_nat].
    + assert (Q : (N.pos p < 2 ^ N.of_nat k)%N) by lia. apply IHk in Q. cbn [N.size_nat] in Q. lia.
    + assert (Q : (N.pos p < 2 ^ N.of_nat k)%N) by lia. apply IHk in Q. cbn [N.size_nat] in Q. lia.
    + lia.
Qed.
Context (FEW : (N.of_nat (ncross d) < 8388608)%N).
Lemma number_short : forall c, c < ncross d -> length (show_nat (c + 1)) <= 25.
Proof.
  intros c Hc. unfold show_nat. etransitivity; [apply show_length|]. apply le_n_S. apply size_small.
  change (2 ^ N.of_nat 24)%N with 16777216%N. lia.
Qed.
Lemma end_short : forall x, fst x < ncross d -> length (end_text x) <= 26.
Proof. intros x H. unfold end_text. rewrite app_length. pose proof (number_short _ H). cbn [length]. lia. Qed.
Lemma line_short : forall c m, c < ncross d -> right c m -> length (line_text c m) <= 131.
Proof.
  intros c m Hc (_ & W). unfold line_text. rewrite !app_length. pose proof (number_short _ Hc).
  pose proof (end_short (m_a m) (wired_lt _ _ _ _ (W La))). pose proof (end_short (m_b m) (wired_lt _ _ _ _ (W Lb))).
  pose proof (end_short (m_c m) (wired_lt _ _ _ _ (W Lc))). pose proof (end_short (m_d m) (wired_lt _ _ _ _ (W Ld))).
  cbn [length]. lia.
Qed.

Lemma lines_ok : forall k c buf, c + k = ncross d -> length buf <= 131 * c ->
  exists l, length l = k /\ ccode_lines d (256 * ncross d) (seq c k) buf = Ok (buf ++ lines_text c l) /\
    length (buf ++ lines_text c l) <= 131 * ncross d /\ forall i m, nth_error l i = Some m -> right (c + i) m.
Proof.
  induction k; intros c buf E L.
  - exists []. cbn [seq ccode_lines lines_text]. rewrite app_nil_r. split; auto. split; auto. split; [lia|]. intros [|i] m H; discriminate.
  - destruct (line_ok c ltac:(lia)) as (s & r & m & Q1 & Q2 & Q3 & Q4).
    pose proof (line_short c m ltac:(lia) Q4) as LS. rewrite <- Q3, app_length in LS.
    cbn [seq ccode_lines]. rewrite Q1. cbn [bind]. unfold put.
    destruct (Nat.ltb_spec (length buf + length s) (256 * ncross d)) as [_|B]; [|lia]. cbn [bind]. rewrite Q2. cbn [bind].
    rewrite app_length. destruct (Nat.ltb_spec (length buf + length s + length r) (256 * ncross d)) as [_|B]; [|lia]. cbn [bind].
    destruct (IHk (S c) ((buf ++ s) ++ r)) as (l & L1 & L2 & L3 & L4); [lia|rewrite !app_length; lia|].
    assert (X : ((buf ++ s) ++ r) ++ lines_text (S c) l = buf ++ lines_text c (m :: l)).
    { cbn [lines_text]. rewrite <- Q3, Nat.add_1_r, <- !app_assoc. reflexivity. }
    exists (m :: l). split; [cbn; lia|]. rewrite L2, <- X. split; auto. split; auto.
    intros [|i] m' H; [injection H as <-; rewrite Nat.add_0_r; auto|]. replace (c + S i) with (S c + i) by lia. auto.
Qed.

Lemma written : 0 < ncross d -> exists l, describes d l /\ pdcode_to_ccode d = Ok (code_text l).
Proof.
  intros Hn. destruct (lines_ok (ncross d) 0 []) as (l & L1 & L2 & L3 & L4); auto.
  exists l. split.
  - split; auto.
  - unfold pdcode_to_ccode. apply N.ltb_lt in FEW. rewrite FEW, L2. cbn [bind app] in *. unfold put.
    destruct (Nat.ltb_spec (length (lines_text 0 l) + length [10; 10]) (256 * ncross d)) as [_|B]; [reflexivity|cbn [length] in B; lia].
Qed.

(** ** the code is determined by the diagram *)
Lemma at_letter_fun : forall c l p p', at_letter d c l p -> at_letter d c l p' -> p = p'.
Proof.
  intros c l p p' (s & oi & oo & ui & uo & S & O & ->) (s' & oi' & oo' & ui' & uo' & S' & O' & ->).
  destruct S as (x & Hx & <-), S' as (x' & Hx' & <-). rewrite Hx in Hx'. injection Hx' as <-.
  destruct (overunder_unique d R T _ _ _ _ _ _ _ _ _ _ O O') as (-> & -> & -> & ->). reflexivity.
Qed.
Lemma letter_inj : forall c l l' p, at_letter d c l p -> at_letter d c l' p -> l = l'.
Proof.
  intros c l l' p (s & oi & oo & ui & uo & S & O & ->) (s' & oi' & oo' & ui' & uo' & S' & O' & H).
  destruct S as (x & Hx & <-), S' as (x' & Hx' & <-). rewrite Hx in Hx'. injection Hx' as <-.
  destruct (overunder_unique d R T _ _ _ _ _ _ _ _ _ _ O O') as (-> & -> & -> & ->).
  destruct (over_under_range d R _ _ _ _ _ _ O) as (L1 & L2 & L3 & L4).
  destruct (small4 oo' L2) as [->|[->|[->| ->]]]; destruct l, l'; try reflexivity; discriminate H.
Qed.
Lemma departs_place : forall c p c' p' e, departs d c p e -> departs d c' p' e -> c = c' /\ p = p'.
Proof.
  intros c p c' p' e (E & HE & H) (F & HF & H'). unfold edge_at in *. rewrite HE in HF. injection HF as <-.
  rewrite H in H'. injection H' as -> ->. auto.
Qed.
Lemma departs_fun : forall c p e f, departs d c p e -> departs d c p f -> e = f.
Proof. intros. eapply slot_fun; eauto using (departs_slot d R). Qed.
Lemma wired_fun : forall c l c1 l1 c2 l2, wired d c l c1 l1 -> wired d c l c2 l2 -> c1 = c2 /\ l1 = l2.
Proof.
  intros c l c1 l1 c2 l2 (e & p & q & A & B & K) (e' & p' & q' & A' & B' & K').
  assert (p' = p) by (eapply at_letter_fun; eauto). subst p'.
  assert (c1 = c2 /\ q = q').
  { destruct K as [(K1 & K2)|(K1 & K2)], K' as [(K1' & K2')|(K1' & K2')].
    - rewrite (departs_fun _ _ _ _ K1 K1') in K2. eapply arrives_place; eauto.
    - exfalso. exact (OverUnderProofs.not_both d R T _ _ _ _ K1' K1).
    - exfalso. exact (OverUnderProofs.not_both d R T _ _ _ _ K1 K1').
    - rewrite (arrives_fun d R _ _ _ _ K1 K1') in K2. eapply departs_place; eauto. }
  destruct H as (-> & ->). split; auto. eapply letter_inj; eauto.
Qed.
Lemma wired_sym : forall c l c' l', wired d c l c' l' -> wired d c' l' c l.
Proof. intros c l c' l' (e & p & q & A & B & K). exists e, q, p. tauto. Qed.
Lemma describes_fun : forall l l', describes d l -> describes d l' -> l = l'.
Proof.
  intros l l' (L & H) (L' & H'). apply nth_error_ext. intros i.
  destruct (nth_error l i) as [m|] eqn:M.
  - assert (Li : i < length l') by (rewrite L', <- L; apply nth_error_Some; congruence).
    destruct (nth_error l' i) as [m'|] eqn:M'; [|apply nth_error_None in M'; lia]. f_equal.
    destruct (H _ _ M) as (S & W), (H' _ _ M') as (S' & W').
    assert (P : m_positive m = m_positive m').
    { destruct S as (x & Hx & S), S' as (x' & Hx' & S'). rewrite Hx in Hx'. injection Hx' as <-. destruct (m_positive m), (m_positive m'); congruence. }
    assert (Q : forall k, m_to m k = m_to m' k).
    { intros k. destruct (wired_fun _ _ _ _ _ _ (W k) (W' k)). destruct (m_to m k), (m_to m' k). cbn in *. congruence. }
    pose proof (Q La). pose proof (Q Lb). pose proof (Q Lc). pose proof (Q Ld). destruct m, m'. cbn in *. congruence.
  - symmetry. apply nth_error_None. apply nth_error_None in M. lia.
Qed.
End Code.
