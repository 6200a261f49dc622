(** C36: the interlacement counts. *)
From Coq Require Import List ZArith Lia Bool Arith Permutation Sorted.
From Verif Require Import Base Iterators Sorting Pd PdSpec PdProofs Relabel Strands PdCompsProofs PdCross PdCrossProofs PdIso PdExamples OverUnder OverUnderSpec OverUnderProofs LinkProofs
  MoveProofs Thm_Pd Thm_OverUnder Interlace InterlaceSpec InterlaceProofs.
Import ListNotations.
Open Scope nat_scope.

Section Interlacing.
Context (d : pd) (R : ends_recorded d) (G : goes_through d) (T : two_ended d).

(** ** the sign of a crossing *)
Lemma with_pos_slot : forall c x, nth_error (p_cross d) c = Some x -> forall v p e, slot (with_pos d c x) v p e <-> slot d v p e.
Proof.
  intros c x Hx v p e. unfold slot. cbn [with_pos p_cross]. split; intros (Hp & y & Hy & E); split; auto.
  - rewrite nth_error_upd in Hy. destruct (Nat.eqb_spec c v) as [<-|N]; [|eauto]. destruct (c <? length (p_cross d)); [|discriminate].
    injection Hy as <-. exists x. split; auto.
  - rewrite nth_error_upd. destruct (Nat.eqb_spec c v) as [<-|N]; [|eauto]. rewrite Hx in Hy. injection Hy as <-.
    assert (c < length (p_cross d)) by (apply nth_error_Some; congruence). destruct (Nat.ltb_spec c (length (p_cross d))); [|lia].
    eexists. split; [reflexivity|]. rewrite <- E. reflexivity.
Qed.
Lemma polyak_ok : forall c, c < ncross d -> exists z, pdint_polyak_sign d c = Ok z /\ order_sign d c z.
Proof.
  intros c Hc. destruct (nth_error (p_cross d) c) as [x|] eqn:Hx; [|apply nth_error_None in Hx; unfold ncross in Hc; lia].
  unfold pdint_polyak_sign. rewrite (proj2 (get_ok _ _ _ _) Hx). cbn [bind]. set (d' := with_pos d c x).
  pose proof (with_pos_slot c x Hx) as SL. fold d' in SL.
  assert (R' : ends_recorded d').
  { destruct R as (N & RR). split; [cbn; unfold ncross; cbn; rewrite upd_length; exact N|]. intros e E HE. destruct (RR e E HE). rewrite !SL. auto. }
  assert (G' : goes_through d').
  { intros e E HE. destruct (G e E HE) as ((f & F & HF & S1 & K1) & (g & K & HK & S2 & K2)). split; [exists f, F|exists g, K]; rewrite SL; auto. }
  assert (Sg : sign_at d' c Pos).
  { exists (signed_pos x). cbn. rewrite nth_error_upd, Nat.eqb_refl. destruct (Nat.ltb_spec c (length (p_cross d))); [auto|unfold ncross in Hc; lia]. }
  destruct (strand_places d' R' G' T c Pos Sg) as (oi & oo & ui & uo & -> & -> & (_ & (e & De) & _ & (f & Df) & E1 & E2 & E3)). cbn [bind snd].
  assert (Ho : oo < 4) by (subst oo; apply Nat.mod_upper_bound; lia).
  assert (Se : slot d c oo e) by (apply departs_slot; auto). assert (Sf : slot d c uo f) by (apply departs_slot; auto).
  assert (Ce : cedge x oo = e) by (destruct Se as (_ & y & Hy & <-); congruence).
  assert (Cf : cedge x uo = f) by (destruct Sf as (_ & y & Hy & <-); congruence).
  assert (N : e <> f).
  { intros <-. destruct De as (E & HE & K1). destruct Df as (E' & HE' & K2). unfold edge_at in *. rewrite HE in HE'. injection HE' as <-. rewrite K1 in K2.
    apply pair_eq in K2 as (_ & K2). rewrite E3 in K2. clear -Ho K2. destruct oo as [|[|[|[|?]]]]; cbn in *; lia. }
  exists (if e <? f then 1%Z else (-1)%Z). split.
  - rewrite E3 in *. clear E1 E2 E3 De Df Se Sf. destruct oo as [|[|[|[|?]]]]; cbn in *; try lia; rewrite Ce, Cf; reflexivity.
  - exists oo, e, f. split; auto. rewrite E3 in Df. split; auto. destruct (Nat.ltb_spec e f); [left|right]; split; auto. lia.
Qed.
Lemma order_sign_fun : forall c z z', order_sign d c z -> order_sign d c z' -> z = z'.
Proof.
  intros c z z' (p & e & f & D1 & D2 & H) (q & g & h & D3 & D4 & H').
  assert (K : p = q).
  { pose proof (departs_slot d R _ _ _ D1) as S1. pose proof (departs_slot d R _ _ _ D2) as S2. pose proof (departs_slot d R _ _ _ D3) as S3. pose proof (departs_slot d R _ _ _ D4) as S4.
    apply slot_lt in S1, S2, S3, S4. destruct S1 as (_ & L1), S3 as (_ & L3).
    destruct (departs_across d R G _ _ _ D1) as (a & A & _). destruct (departs_across d R G _ _ _ D2) as (b & B & _).
    assert (q <> (p + 2) mod 4) by (intros ->; exact (not_both d R T _ _ _ _ A D3)).
    assert (q <> ((p + 1) mod 4 + 2) mod 4) by (intros ->; exact (not_both d R T _ _ _ _ B D3)).
    assert ((q + 1) mod 4 <> (p + 2) mod 4) by (intros Q; rewrite Q in D4; exact (not_both d R T _ _ _ _ A D4)).
    clear -L1 L3 H0 H1 H2. destruct p as [|[|[|[|?]]]], q as [|[|[|[|?]]]]; cbn in *; lia. }
  subst q. apply (departs_slot d R) in D1, D2, D3, D4. pose proof (slot_fun _ _ _ _ _ D1 D3) as <-. pose proof (slot_fun _ _ _ _ _ D2 D4) as <-. lia.
Qed.

(** ** a component visits a crossing at most twice *)
Lemma arrival_places : forall c p q r e f g, arrives d c p e -> arrives d c q f -> arrives d c r g -> p = q \/ p = r \/ q = r.
Proof.
  intros c p q r e f g A B C.
  assert (Q : forall p q e f, arrives d c p e -> arrives d c q f -> q <> (p + 2) mod 4).
  { intros p1 q1 e1 f1 A1 A2 ->. destruct (arrives_across d G _ _ _ A1) as (h & D & _). exact (not_both d R T _ _ _ _ A2 D). }
  pose proof (Q _ _ _ _ A B). pose proof (Q _ _ _ _ A C). pose proof (Q _ _ _ _ B C).
  apply (arrives_slot d R), slot_lt in A, B, C. destruct A as (_ & A), B as (_ & B), C as (_ & C). clear Q.
  destruct p as [|[|[|[|?]]]], q as [|[|[|[|?]]]], r as [|[|[|[|?]]]]; cbn in *; lia.
Qed.
Lemma visits_at : forall es w k c, visits d es w -> nth_error w k = Some c -> exists e E, nth_error es k = Some e /\ edge_at d e E /\ e_head E = c.
Proof.
  intros es w k c V. revert k. induction V as [|e c' es w (E & HE & H) V IH]; intros [|k] Hk; cbn in *; try discriminate; eauto.
  injection Hk as <-. exists e, E. auto.
Qed.
Lemma visits_twice : forall es w c, NoDup es -> visits d es w -> cnt w c <= 2.
Proof.
  intros es w c ND V. destruct (le_lt_dec (cnt w c) 2) as [|H]; auto. exfalso.
  destruct (split_once w c ltac:(lia)) as (A & X & -> & CA). rewrite count_occ_app, count_cons_eq in H.
  destruct (split_once X c ltac:(lia)) as (B & Y & -> & CB). rewrite count_occ_app, count_cons_eq in H.
  destruct (split_once Y c ltac:(lia)) as (C & D & -> & CC).
  destruct (visits_at _ _ (length A) c V) as (e & E & He & HE & Ec). { rewrite nth_error_app2 by lia. rewrite Nat.sub_diag. reflexivity. }
  destruct (visits_at _ _ (length A + S (length B)) c V) as (f & F & Hf & HF & Fc).
  { rewrite nth_error_app2 by lia. replace (length A + S (length B) - length A) with (S (length B)) by lia. cbn [nth_error]. rewrite nth_error_app2, Nat.sub_diag by lia. reflexivity. }
  destruct (visits_at _ _ (length A + S (length B + S (length C))) c V) as (g & K & Hg & HK & Kc).
  { rewrite nth_error_app2 by lia. replace (length A + S (length B + S (length C)) - length A) with (S (length B + S (length C))) by lia. cbn [nth_error].
    rewrite nth_error_app2 by lia. replace (length B + S (length C) - length B) with (S (length C)) by lia. cbn [nth_error]. rewrite nth_error_app2, Nat.sub_diag by lia. reflexivity. }
  rewrite NoDup_nth_error in ND.
  assert (U : forall p q e f i j, nth_error es i = Some e -> nth_error es j = Some f -> i <> j -> arrives d c p e -> arrives d c q f -> p <> q).
  { intros p q e1 f1 i j H1 H2 N A1 A2 ->. apply (arrives_slot d R) in A1 as S1. apply (arrives_slot d R) in A2 as S2. pose proof (slot_fun _ _ _ _ _ S1 S2) as <-.
    apply N, ND; [apply nth_error_Some; congruence|congruence]. }
  assert (A1 : arrives d c (e_headpos E) e) by (exists E; unfold head_slot; rewrite Ec; auto).
  assert (A2 : arrives d c (e_headpos F) f) by (exists F; unfold head_slot; rewrite Fc; auto).
  assert (A3 : arrives d c (e_headpos K) g) by (exists K; unfold head_slot; rewrite Kc; auto).
  destruct (arrival_places _ _ _ _ _ _ _ A1 A2 A3) as [Q|[Q|Q]]; revert Q; [eapply (U _ _ e f)|eapply (U _ _ e g)|eapply (U _ _ f g)]; eauto; lia.
Qed.
Lemma visits_lt : forall es w c, visits d es w -> In c w -> c < ncross d.
Proof.
  intros es w c V I. apply In_nth_error in I. destruct I as (k & Hk). destruct (visits_at _ _ _ _ V Hk) as (e & E & _ & HE & <-).
  destruct (proj2 R e E HE) as (S1 & _). apply slot_lt in S1. tauto.
Qed.
Lemma gauss_ok : forall es w, visits d es w -> gauss_code d es = Ok (map (fun c => Z.of_nat (c + 1)) w).
Proof.
  intros es w V. unfold gauss_code. induction V as [|e c es w (E & HE & <-) V IH]; auto. cbn [map_ok map]. unfold edge_at in HE. rewrite (proj2 (get_ok _ _ _ _) HE).
  cbn [bind]. rewrite IH. reflexivity.
Qed.

Lemma sorted_strict : forall l, NoDup l -> StronglySorted (lep Z.leb) l -> forall i j x y, i < j -> nth_error l i = Some x -> nth_error l j = Some y -> (x < y)%Z.
Proof.
  intros l ND S. induction S as [|z l S IH F]; intros i j x y H Hi Hj; [destruct i; discriminate|]. inversion ND as [|? ? N1 N2]; subst.
  destruct i as [|i], j as [|j]; cbn in *; try lia.
  - injection Hi as <-. apply nth_error_In in Hj. rewrite Forall_forall in F. pose proof (F _ Hj) as Q. unfold lep in Q. apply Z.leb_le in Q.
    destruct (Z.eq_dec z y) as [->|]; [contradiction|lia].
  - eapply (IH N2 i j); eauto. lia.
Qed.

(** the value of the loop over the pairs *)
Lemma count_loop : forall signs ns old ps t (wt : nat * nat -> Z),
  (forall i j, In (i, j) ps -> exists row v, nth_error ns i = Some row /\ nth_error row j = Some v /\ v = val ns i j) ->
  (forall i j, In (i, j) ps -> signs = true -> exists a b s s', nth_error old i = Some a /\ nth_error old j = Some b /\
     pdint_polyak_sign d (Z.to_nat a) = Ok s /\ pdint_polyak_sign d (Z.to_nat b) = Ok s' /\ wt (i, j) = (s * s')%Z) ->
  (forall i j, signs = false -> wt (i, j) = 1%Z) ->
  fold_ok (fun t ij =>
    bind (get ns (fst ij)) (fun row => bind (get row (snd ij)) (fun v =>
    if v mod 2 =? 0 then Ok t
    else if signs then
      bind (get old (fst ij)) (fun a => bind (get old (snd ij)) (fun b =>
      bind (pdint_polyak_sign d (Z.to_nat a)) (fun s => bind (pdint_polyak_sign d (Z.to_nat b)) (fun s' => Ok (t + s * s')%Z))))
    else Ok (t + 1)%Z))) ps t =
  Ok (t + fold_right (fun ij u => wt ij + u) 0 (filter (fun ij => negb (val ns (fst ij) (snd ij) mod 2 =? 0)%nat) ps))%Z.
Proof.
  intros signs ns old. induction ps as [|(i, j) ps IH]; intros t wt H1 H2 H3; cbn [fold_ok filter fold_right fst snd]; [f_equal; lia|].
  destruct (H1 i j ltac:(simpl; auto)) as (row & v & E1 & E2 & ->). rewrite (proj2 (get_ok _ _ _ _) E1). cbn [bind]. rewrite (proj2 (get_ok _ _ _ _) E2). cbn [bind].
  destruct (val ns i j mod 2 =? 0) eqn:Q; cbn [negb bind].
  - apply IH; intros; [apply H1|apply H2|]; simpl; auto.
  - cbn [fold_right]. destruct signs.
    + destruct (H2 i j ltac:(simpl; auto) eq_refl) as (a & b & s & s' & A & B & P1 & P2 & W). rewrite (proj2 (get_ok _ _ _ _) A). cbn [bind].
      rewrite (proj2 (get_ok _ _ _ _) B). cbn [bind]. rewrite P1. cbn [bind]. rewrite P2. cbn [bind]. rewrite IH with (wt := wt); [|intros; apply H1; simpl; auto|intros; apply H2; simpl; auto|auto].
      f_equal. lia.
    + cbn [bind]. rewrite IH with (wt := wt); [|intros; apply H1; simpl; auto|intros; apply H2; simpl; auto|auto]. rewrite (H3 i j eq_refl). f_equal. lia.
Qed.

Context (P : strand_partition d (map cp_edge (p_comp d))).
Lemma comp_visits : forall i C, nth_error (p_comp d) i = Some C -> exists w, visits d (cp_edge C) w.
Proof.
  intros i C HC. assert (F : forall e, In e (cp_edge C) -> e < nedges d).
  { intros e He. apply (on_comp_lt d P e i). exists C. auto. }
  induction (cp_edge C) as [|e es IH]; [exists []; constructor|]. destruct IH as (w & V); [intros; apply F; simpl; auto|].
  destruct (edge_at_ex d e (F e ltac:(simpl; auto))) as (E & HE). exists (e_head E :: w). constructor; eauto.
Qed.

Lemma fold_sum_perm : forall (A : Type) (f : A -> Z) l l', Permutation l l' -> fold_right (fun x t => f x + t)%Z 0%Z l = fold_right (fun x t => f x + t)%Z 0%Z l'.
Proof. intros A f l l' H. induction H; cbn; lia. Qed.
Lemma fold_sum_map : forall (A B : Type) (g : A -> B) (f : B -> Z) l, fold_right (fun x t => f x + t)%Z 0%Z (map g l) = fold_right (fun x t => f (g x) + t)%Z 0%Z l.
Proof. induction l; cbn; lia. Qed.

Lemma filter_same_length : forall (f : Z -> bool) (lab : Z -> nat) l, (forall x, In x l -> f x = (0 <? lab x)) ->
  length (filter f l) = length (filter (fun k => 0 <? k) (map lab l)).
Proof.
  intros f lab. induction l as [|x l IH]; intros H; auto. cbn [filter map]. rewrite <- (H x ltac:(simpl; auto)).
  destruct (f x); cbn [length]; rewrite IH; auto; intros; apply H; simpl; auto.
Qed.
Lemma interlaced_main : forall signs i C w L s, nth_error (p_comp d) i = Some C -> visits d (cp_edge C) w -> interlaced_pairs w L ->
  (forall c, c < ncross d -> order_sign d c (s c)) ->
  pdint_interlaced_comp d i signs = Ok (if signs then sum_products s L else Z.of_nat (length L)).
Proof.
  intros signs i C w L s HC V (NL & HL) HS. unfold pdint_interlaced_comp. rewrite (proj2 (get_ok _ _ _ _) HC). cbn [bind].
  rewrite (gauss_ok _ _ V). cbn [bind]. set (code := map (fun c => Z.of_nat (c + 1)) w).
  assert (ND : NoDup (cp_edge C)).
  { apply (comp_nodup d P i C HC). }
  assert (C2 : forall c, cnt w c <= 2) by (intro c; eapply visits_twice; eauto).
  assert (FC : Forall (fun x => (0 < x)%Z /\ Z.to_nat x < ncross d + 1) code).
  { apply Forall_forall. intros x Hx. apply in_map_iff in Hx. destruct Hx as (c & <- & Hc). pose proof (visits_lt _ _ _ V Hc). lia. }
  assert (FP : Forall (fun x => 0 < x)%Z code) by (eapply Forall_impl; [|exact FC]; cbn; tauto).
  rewrite (tag_first_ok (ncross d + 1) code _ []); auto.
  2:{ apply repeat_length. }
  2:{ intros x _ Lx. cbn [count_occ]. rewrite nth_error_repeat by auto. reflexivity. }
  cbn [bind]. set (present := filter (fun x => (0 <? x)%Z) (tagged [] code)).
  assert (PC : forall y, (0 < y)%Z -> count_occ Z.eq_dec present y = count_occ Z.eq_dec code y - 1).
  { intros y Hy. unfold present. rewrite (tagged_count code [] y FP Hy). reflexivity. }
  assert (PP : forall y, In y present -> (0 < y)%Z).
  { intros y Hy. apply filter_In in Hy. destruct Hy as (_ & Hy). apply Z.ltb_lt in Hy. exact Hy. }
  assert (CC : forall y, count_occ Z.eq_dec code y <= 2).
  { intro y. destruct (le_lt_dec (count_occ Z.eq_dec code y) 0) as [|Q]; [lia|]. apply (count_occ_In Z.eq_dec) in Q. apply in_map_iff in Q. destruct Q as (c & <- & _).
    unfold code. rewrite zcnt_of_nat. auto. }
  assert (NP : NoDup present).
  { apply (NoDup_count_occ Z.eq_dec). intro y. destruct (le_lt_dec (count_occ Z.eq_dec present y) 0) as [|Q]; [lia|].
    rewrite PC; [pose proof (CC y); lia|]. apply PP. apply (count_occ_In Z.eq_dec). exact Q. }
  assert (IP : forall y, In y present <-> exists c, y = Z.of_nat (c + 1) /\ cnt w c = 2).
  { intro y. rewrite (count_occ_In Z.eq_dec). split.
    - intro Q. assert (Py : (0 < y)%Z) by (apply PP, (count_occ_In Z.eq_dec); exact Q). rewrite PC in Q by auto.
      assert (I : In y code) by (apply (count_occ_In Z.eq_dec); lia). apply in_map_iff in I. destruct I as (c & <- & _). exists c. split; auto.
      unfold code in Q. rewrite zcnt_of_nat in Q. pose proof (C2 c). lia.
    - intros (c & -> & Hc). rewrite PC by lia. unfold code. rewrite zcnt_of_nat. lia. }
  assert (LP : length present <= ncross d).
  { rewrite <- (seq_length (ncross d) 0), <- (map_length (fun c => Z.of_nat (c + 1))). apply NoDup_incl_length; auto. intros y Hy. apply IP in Hy. destruct Hy as (c & -> & Hc).
    apply (in_map (fun c => Z.of_nat (c + 1))), in_seq. assert (In c w) by (apply (count_occ_In Nat.eq_dec); lia). pose proof (visits_lt _ _ _ V H). lia. }
  destruct (Nat.ltb_spec (ncross d) (length present)); [lia|].
  assert (LZ : forall a b, In (a, b) L -> In (Z.of_nat (a + 1)) present /\ In (Z.of_nat (b + 1)) present /\ cnt w a = 2 /\ cnt w b = 2).
  { intros a b I. apply HL in I. destruct I as (_ & N & I). assert (K : 2 <= cnt w a /\ 2 <= cnt w b).
    { destruct I as [I|I]; apply abab_count in I; auto. tauto. }
    pose proof (C2 a). pose proof (C2 b). split; [|split]; [apply IP; exists a; split; auto; lia|apply IP; exists b; split; auto; lia|lia]. }
  destruct (Nat.eqb_spec (length present) 0) as [Z0|NZ].
  { assert (L = []) as ->; [|destruct signs; reflexivity]. destruct L as [|(a, b) L]; auto. exfalso. destruct (LZ a b ltac:(simpl; auto)) as (I & _).
    destruct present; [destruct I|cbn in Z0; lia]. }
  set (srt := isort Z.leb present).
  assert (PS : Permutation srt present) by apply isort_perm.
  assert (NS : NoDup srt) by (eapply Permutation_NoDup; [symmetry; exact PS|auto]).
  assert (LS : length srt = length present) by (apply Permutation_length; auto).
  assert (SS : StronglySorted (lep Z.leb) srt).
  { apply isort_sorted; intros; rewrite ?Z.leb_le in *; try lia. }
  assert (FS : Forall (fun x => (0 < x)%Z /\ Z.to_nat x < ncross d + 1) srt).
  { apply Forall_forall. intros x Hx. apply (Permutation_in _ PS), IP in Hx. destruct Hx as (c & -> & Hc).
    assert (In c w) by (apply (count_occ_In Nat.eq_dec); lia). pose proof (visits_lt _ _ _ V H0). lia. }
  destruct (new_labels_ok (ncross d + 1) srt 0 (repeat 0 (ncross d + 1)) (repeat_length _ _) NS FS) as (label & -> & LL & N1 & N2). cbn [bind].
  set (lab := fun x : Z => nth (Z.to_nat x) label 0).
  assert (LAB : forall x, (0 < x)%Z -> Z.to_nat x < ncross d + 1 -> nth_error label (Z.to_nat x) = Some (lab x)).
  { intros x _ Lx. unfold lab. apply nth_error_nth'. lia. }
  assert (LN : forall k x, nth_error srt k = Some x -> lab x = k + 1).
  { intros k x Hk. unfold lab. rewrite (nth_error_nth _ _ 0 (N1 _ _ Hk)). lia. }
  assert (LO : forall x, (0 < x)%Z -> Z.to_nat x < ncross d + 1 -> ~ In x srt -> lab x = 0).
  { intros x Px Lx NI. unfold lab. assert (Q : nth_error label (Z.to_nat x) = Some 0).
    { rewrite N2; [rewrite nth_error_repeat by auto; auto|]. intros y Hy Q. apply NI. rewrite Forall_forall in FS. destruct (FS y Hy). replace x with y by lia. auto. }
    apply (nth_error_nth _ _ 0 Q). }
  assert (LE : forall k y x, nth_error srt k = Some y -> In x code -> (lab x = k + 1 <-> x = y)).
  { intros k y x Hk Hx. rewrite Forall_forall in FC. destruct (FC x Hx) as (Px & Lx). split; [|intros ->; auto]. intro Q. destruct (in_dec Z.eq_dec x srt) as [I|I].
    - apply In_nth_error in I. destruct I as (k' & Hk'). rewrite (LN _ _ Hk') in Q. replace k' with k in Hk' by lia. congruence.
    - rewrite LO in Q by auto. lia. }
  destruct (augmented_ok label lab (tagged [] code)) as (aug & -> & KA).
  { intros x Hx. assert (I : In (Z.abs x) code) by (rewrite <- (tagged_abs code [] FP); apply in_map; auto). rewrite Forall_forall in FC. destruct (FC _ I). apply LAB; auto. }
  cbn [bind]. rewrite (tagged_abs code [] FP) in KA.
  assert (LA : length aug = 2 * length present).
  { rewrite <- (map_length key), KA. unfold pick.
    replace (length (filter (fun k => 0 <? k) (map lab code))) with (length (filter (fun x => if in_dec Z.eq_dec x srt then true else false) code)).
    - rewrite count_members by auto. rewrite <- LS. assert (F2 : Forall (fun x => count_occ Z.eq_dec code x = 2) srt).
      { apply Forall_forall. intros x Hx. apply (Permutation_in _ PS), IP in Hx. destruct Hx as (c & -> & Hc). unfold code. rewrite zcnt_of_nat. auto. }
      clear -F2. induction F2 as [|x l Hx F IH]; auto. cbn [map list_sum fold_right length]. unfold list_sum in *. cbn [fold_right]. rewrite IH, Hx. lia.
    - assert (Q : forall x, In x code -> (if in_dec Z.eq_dec x srt then true else false) = (0 <? lab x)).
      { intros x Hx. rewrite Forall_forall in FC. destruct (FC x Hx). destruct (in_dec Z.eq_dec x srt) as [I|I].
        - apply In_nth_error in I. destruct I as (k & Hk). rewrite (LN _ _ Hk). destruct (Nat.ltb_spec 0 (k + 1)); auto; lia.
        - rewrite LO by auto. reflexivity. }
      apply filter_same_length. exact Q. }
  destruct (Nat.ltb_spec (2 * length present) (length aug)); [lia|]. destruct (Nat.eqb_spec (length aug) (2 * length present)); [|lia].
  set (cp := length present) in *. set (ns0 := map (fun i => if i <? 2 then [] else repeat 0 i) (seq 0 (cp + 1))).
  assert (T0 : table_ok cp ns0).
  { split; [unfold ns0; rewrite map_length, seq_length; auto|]. intros k row Hk Hr. unfold ns0 in Hr. rewrite nth_error_map in Hr.
    destruct (nth_error (seq 0 (cp + 1)) k) as [k'|] eqn:Q; [|discriminate]. cbn [option_map] in Hr. assert (k < cp + 1) by (rewrite <- (seq_length (cp + 1) 0); apply nth_error_Some; congruence).
    apply (nth_error_nth _ _ 0) in Q. rewrite seq_nth in Q by auto. cbn in Q. subst k'. injection Hr as <-. destruct (Nat.ltb_spec k 2); [lia|]. apply repeat_length. }
  assert (V0 : forall i j, val ns0 i j = 0).
  { intros k j. unfold val, ns0. assert (Q : forall l, (forall x, In x l -> x = 0) -> nth j l 0 = 0).
    { intros l Hl. destruct (nth_in_or_default j l 0); auto. }
    destruct (nth_in_or_default k (map (fun i => if i <? 2 then [] else repeat 0 i) (seq 0 (cp + 1))) []) as [I|I]; [|rewrite I; destruct j; auto].
    apply in_map_iff in I. destruct I as (k' & <- & _). destruct (k' <? 2); [destruct j; auto|]. apply Q. intros x Hx. apply repeat_spec in Hx. auto. }
  destruct (sort_ok cp (2 * cp + 1) aug ns0 (map key aug) []) as (ns & -> & TN & VN); auto.
  - apply Forall_forall. intros z Hz. assert (I : In (key z) (pick lab code)) by (rewrite <- KA; apply in_map; auto). unfold pick in I. apply filter_In in I. destruct I as (I & Q).
    apply Nat.ltb_lt in Q. apply in_map_iff in I. destruct I as (x & E & Hx). rewrite <- E in *. rewrite Forall_forall in FC. destruct (FC x Hx). destruct (in_dec Z.eq_dec x srt) as [I|I].
    + apply In_nth_error in I. destruct I as (k & Hk). rewrite (LN _ _ Hk) in *. assert (k < length srt) by (apply nth_error_Some; congruence). lia.
    + rewrite LO in Q by auto. lia.
  - rewrite app_nil_r. auto.
  - constructor.
  - apply Forall_forall. constructor.
  - lia.
  - rewrite map_length. lia.
  - cbn [bind]. set (old := 0%Z :: map (fun x => (x - 1)%Z) srt).
    assert (OLD : forall k, 1 <= k <= cp -> exists c, nth_error srt (k - 1) = Some (Z.of_nat (c + 1)) /\ nth_error old k = Some (Z.of_nat c) /\ cnt w c = 2 /\ c < ncross d).
    { intros k Hk. destruct (nth_error srt (k - 1)) as [y|] eqn:Q; [|apply nth_error_None in Q; lia]. pose proof (nth_error_In _ _ Q) as I. apply (Permutation_in _ PS), IP in I. destruct I as (c & -> & Hc).
      exists c. split; auto. split; [|split; auto].
      - unfold old. destruct k as [|k]; [lia|]. cbn [nth_error]. replace (S k - 1) with k in Q by lia. rewrite (map_nth_error _ _ _ Q). f_equal. lia.
      - apply (visits_lt _ _ _ V), (count_occ_In Nat.eq_dec). lia. }
    set (nm := fun k => Z.to_nat (nth k old 0%Z)).
    assert (NM : forall k c, nth_error old k = Some (Z.of_nat c) -> nm k = c).
    { intros k c Hk. unfold nm. rewrite (nth_error_nth _ _ 0%Z Hk). lia. }
    assert (VI : forall i j, 1 <= j -> j < i -> i <= cp -> val ns i j = inv (nm i) (nm j) w).
    { intros k j Hj Hjk Hk. rewrite (VN k j Hjk), V0, KA. destruct (OLD k ltac:(lia)) as (a & A1 & A2 & _). destruct (OLD j ltac:(lia)) as (b & B1 & B2 & _).
      rewrite (NM _ _ A2), (NM _ _ B2), <- (zinv_of_nat w a b). fold code. cbn [plus]. apply pick_inv; try lia; intros x Hx.
      - pose proof (LE _ _ x A1 Hx) as Q. replace (k - 1 + 1) with k in Q by lia. exact Q.
      - pose proof (LE _ _ x B1 Hx) as Q. replace (j - 1 + 1) with j in Q by lia. exact Q. }
    set (wt := fun ij : nat * nat => if signs then (s (nm (fst ij)) * s (nm (snd ij)))%Z else 1%Z).
    unfold interlacements. rewrite (count_loop signs ns old (label_pairs cp) 0%Z wt).
    + f_equal. rewrite Z.add_0_l.
      set (odd := filter (fun ij => negb (val ns (fst ij) (snd ij) mod 2 =? 0)) (label_pairs cp)).
      set (f := fun ij : nat * nat => (nm (snd ij), nm (fst ij))).
      assert (MI : forall k k', 1 <= k <= cp -> 1 <= k' <= cp -> (nm k < nm k' <-> k < k')).
      { assert (Q : forall k k', 1 <= k <= cp -> 1 <= k' <= cp -> k < k' -> nm k < nm k').
        { intros k k' Hk Hk' Hlt. destruct (OLD k Hk) as (a & A1 & A2 & _). destruct (OLD k' Hk') as (b & B1 & B2 & _). rewrite (NM _ _ A2), (NM _ _ B2).
          pose proof (sorted_strict srt NS SS (k - 1) (k' - 1) _ _ ltac:(lia) A1 B1). lia. }
        intros k k' Hk Hk'. split; [|apply Q; auto]. intro Hlt. destruct (lt_eq_lt_dec k k') as [[|E]|E]; auto; [subst; lia|]. pose proof (Q k' k Hk' Hk E). lia. }
      assert (PM : Permutation (map f odd) L).
      { apply NoDup_Permutation; auto.
        - assert (NO : NoDup odd) by (apply NoDup_filter, pairs_nodup).
          assert (IO : forall ij, In ij odd -> 1 <= snd ij /\ snd ij < fst ij /\ fst ij <= cp).
          { intros (k, j) I. apply filter_In in I. destruct I as (I & _). apply in_pairs in I. exact I. }
          clear -NO IO MI. induction odd as [|(k, j) l IH]; [constructor|]. inversion NO as [|? ? Q1 Q2]; subst. cbn [map]. constructor; [|apply IH; auto; intros; apply IO; simpl; auto].
          intro I. apply in_map_iff in I. destruct I as ((k', j') & E & I). unfold f in E. cbn [fst snd] in E. apply pair_eq in E as (E1 & E2).
          pose proof (IO (k, j) ltac:(simpl; auto)) as K1. pose proof (IO (k', j') ltac:(simpl; auto)) as K2. cbn [fst snd] in *.
          pose proof (MI k k' ltac:(lia) ltac:(lia)). pose proof (MI k' k ltac:(lia) ltac:(lia)). pose proof (MI j j' ltac:(lia) ltac:(lia)). pose proof (MI j' j ltac:(lia) ltac:(lia)).
          apply Q1. assert (k' = k) as -> by lia. assert (j' = j) as -> by lia. auto.
        - intros (a, b). rewrite HL. split.
          + intro I. apply in_map_iff in I. destruct I as ((k, j) & E & I). unfold f in E. cbn [fst snd] in E. apply pair_eq in E as (<- & <-).
            apply filter_In in I. destruct I as (I & Q). apply in_pairs in I. cbn [fst snd] in Q. rewrite (VI k j) in Q by lia. apply negb_true_iff, Nat.eqb_neq in Q.
            destruct (OLD k ltac:(lia)) as (a & A1 & A2 & A3 & _). destruct (OLD j ltac:(lia)) as (b & B1 & B2 & B3 & _). pose proof (proj2 (MI j k ltac:(lia) ltac:(lia)) ltac:(lia)).
            split; auto. split; [lia|]. rewrite (NM _ _ A2), (NM _ _ B2) in *. apply parity in Q; auto; [tauto|lia].
          + intros (Hab & N & I). assert (IL : In (a, b) L) by (apply HL; split; auto; split; auto). destruct (LZ a b IL) as (Ia & Ib & Ca & Cb).
            apply (Permutation_in _ (Permutation_sym PS)) in Ia, Ib. apply In_nth_error in Ia, Ib. destruct Ia as (j & Hj), Ib as (k & Hk).
            assert (Lj : j < cp) by (rewrite <- LS; apply nth_error_Some; congruence). assert (Lk : k < cp) by (rewrite <- LS; apply nth_error_Some; congruence).
            destruct (OLD (k + 1) ltac:(lia)) as (b' & B1 & B2 & _). replace (k + 1 - 1) with k in B1 by lia. rewrite Hk in B1. assert (b' = b) as -> by (injection B1; lia).
            destruct (OLD (j + 1) ltac:(lia)) as (a' & A1 & A2 & _). replace (j + 1 - 1) with j in A1 by lia. rewrite Hj in A1. assert (a' = a) as -> by (injection A1; lia).
            assert (j + 1 < k + 1). { apply MI; try lia. rewrite (NM _ _ A2), (NM _ _ B2). auto. }
            apply in_map_iff. exists (k + 1, j + 1). split; [unfold f; cbn [fst snd]; rewrite (NM _ _ A2), (NM _ _ B2); auto|].
            apply filter_In. split; [apply in_pairs; lia|]. cbn [fst snd]. rewrite VI by lia. rewrite (NM _ _ A2), (NM _ _ B2). apply negb_true_iff, Nat.eqb_neq.
            apply parity; auto. tauto. }
      unfold sum_products. destruct signs.
      * rewrite <- (fold_sum_perm _ _ _ _ PM), (fold_sum_map _ _ f). unfold wt, f. cbn [fst snd]. clear. induction odd as [|x l IH]; cbn [fold_right]; auto. rewrite IH. lia.
      * rewrite <- (Permutation_length PM), map_length. unfold wt. clear. induction odd as [|x l IH]; cbn [fold_right length]; auto. rewrite IH. lia.
    + intros k j I. apply in_pairs in I. destruct TN as (TL & TR). destruct (nth_error ns k) as [row|] eqn:Q; [|apply nth_error_None in Q; lia].
      pose proof (TR k row ltac:(lia) Q) as Lr. destruct (nth_error row j) as [v|] eqn:Q2; [|apply nth_error_None in Q2; lia].
      exists row, v. split; auto. split; auto. unfold val. rewrite (nth_error_nth _ _ [] Q), (nth_error_nth _ _ 0 Q2). auto.
    + intros k j I E. apply in_pairs in I. destruct (OLD k ltac:(lia)) as (a & _ & A2 & _ & La). destruct (OLD j ltac:(lia)) as (b & _ & B2 & _ & Lb).
      destruct (polyak_ok a La) as (sa & Pa & Oa). destruct (polyak_ok b Lb) as (sb & Pb & Ob). exists (Z.of_nat a), (Z.of_nat b), sa, sb. rewrite !Nat2Z.id. split; auto. split; auto. split; auto. split; auto.
      unfold wt. rewrite E. cbn [fst snd]. rewrite (NM _ _ A2), (NM _ _ B2), (order_sign_fun _ _ _ Oa (HS a La)), (order_sign_fun _ _ _ Ob (HS b Lb)). auto.
    + intros k j ->. reflexivity.
Qed.

(** the interlaced pairs of a word in which nothing occurs three times can be listed *)
Lemma pairs_exist : forall es w, NoDup es -> visits d es w -> exists L, interlaced_pairs w L.
Proof.
  intros es w ND V. pose proof (fun c => visits_twice es w c ND V) as C2.
  set (ok := fun ab : nat * nat => (fst ab <? snd ab) && (cnt w (fst ab) =? 2) && (cnt w (snd ab) =? 2) && negb (inv (fst ab) (snd ab) w mod 2 =? 0)).
  exists (filter ok (list_prod (seq 0 (ncross d)) (seq 0 (ncross d)))). split.
  - apply NoDup_filter. assert (NP : forall l m, NoDup l -> NoDup m -> NoDup (@list_prod nat nat l m)).
    { intros l m Hl Hm. induction Hl as [|x l N Hl IH]; cbn [list_prod]; [constructor|]. apply NoDup_app_intro; auto.
      - apply FinFun.Injective_map_NoDup; auto. intros y z Q. congruence.
      - intros (a, b) H1 H2. apply in_map_iff in H1. destruct H1 as (y & Q & _). injection Q as <- <-. apply in_prod_iff in H2. tauto. }
    apply NP; apply seq_NoDup.
  - intros a b. rewrite filter_In, in_prod_iff. unfold ok. cbn [fst snd]. rewrite !andb_true_iff, negb_true_iff, Nat.eqb_neq, !Nat.eqb_eq, Nat.ltb_lt, !in_seq. split.
    + intros (_ & ((Hab & Ca) & Cb) & Q). split; auto. split; [lia|]. apply parity in Q; auto. lia.
    + intros (Hab & N & I). assert (K : cnt w a = 2 /\ cnt w b = 2).
      { pose proof (C2 a). pose proof (C2 b). destruct I as [I|I]; apply abab_count in I; auto; lia. }
      destruct K as (Ca & Cb). assert (a < ncross d) by (apply (visits_lt _ _ _ V), (count_occ_In Nat.eq_dec); lia).
      assert (b < ncross d) by (apply (visits_lt _ _ _ V), (count_occ_In Nat.eq_dec); lia). split; [lia|]. split; auto. apply parity; auto.
Qed.

(** The number of interlaced pairs on a component. *)
Theorem interlaced_unsigned : forall i C w L, nth_error (p_comp d) i = Some C -> visits d (cp_edge C) w -> interlaced_pairs w L ->
  pdint_interlaced_comp d i false = Ok (Z.of_nat (length L)).
Proof.
  intros i C w L HC V HL. assert (SX : exists s, forall c, c < ncross d -> order_sign d c (s c)).
  { exists (fun c => match pdint_polyak_sign d c with Ok z => z | _ => 0%Z end). intros c Hc. destruct (polyak_ok c Hc) as (z & -> & O). exact O. }
  destruct SX as (s & HS). exact (interlaced_main false i C w L s HC V HL HS).
Qed.

(** The sum over the interlaced pairs of the products of the signs of their crossings. *)
Theorem interlaced_signed : forall i C w L s, nth_error (p_comp d) i = Some C -> visits d (cp_edge C) w -> interlaced_pairs w L ->
  (forall c, c < ncross d -> order_sign d c (s c)) ->
  pdint_interlaced_comp d i true = Ok (sum_products s L).
Proof. intros i C w L s HC V HL HS. exact (interlaced_main true i C w L s HC V HL HS). Qed.

Lemma each_comp : forall signs, exists zs, map_ok (fun i => pdint_interlaced_comp d i signs) (seq 0 (ncomps d)) = Ok zs /\ length zs = ncomps d /\
  forall i, i < ncomps d -> exists z, nth_error zs i = Some z /\ pdint_interlaced_comp d i signs = Ok z.
Proof.
  intros signs.
  assert (H : forall i, In i (seq 0 (ncomps d)) -> exists z, pdint_interlaced_comp d i signs = Ok z).
  { intros i Hi. apply in_seq in Hi. destruct (nth_error (p_comp d) i) as [C|] eqn:HC; [|apply nth_error_None in HC; unfold ncomps in Hi; lia].
    destruct (comp_visits i C HC) as (w & V). destruct (pairs_exist _ w (comp_nodup d P i C HC) V) as (L & HL).
    eexists. apply (interlaced_main signs i C w L (fun c => match pdint_polyak_sign d c with Ok z => z | _ => 0%Z end) HC V HL).
    intros c Hc. destruct (polyak_ok c Hc) as (z & -> & O). exact O. }
  assert (K : forall l, (forall i, In i l -> exists z, pdint_interlaced_comp d i signs = Ok z) -> exists zs, map_ok (fun i => pdint_interlaced_comp d i signs) l = Ok zs /\ length zs = length l /\
    forall k i, nth_error l k = Some i -> exists z, nth_error zs k = Some z /\ pdint_interlaced_comp d i signs = Ok z).
  { induction l as [|i l IH]; intro Hl; [exists []; split; auto; split; auto; intros [|k] i; discriminate|]. destruct (Hl i ltac:(simpl; auto)) as (z & Hz).
    destruct IH as (zs & E & Lz & N); [intros; apply Hl; simpl; auto|]. exists (z :: zs). cbn [map_ok]. rewrite Hz. cbn [bind]. rewrite E. cbn [bind length]. split; auto. split; auto.
    intros [|k] j Hj; cbn in *; [injection Hj as <-; eauto|]. eauto. }
  destruct (K _ H) as (zs & E & Lz & N). exists zs. split; auto. rewrite seq_length in Lz. split; auto. intros i Hi. apply N. rewrite nth_error_nth' with (d := 0) by (rewrite seq_length; auto).
  rewrite seq_nth by auto. reflexivity.
Qed.

(** one count for each component *)
Theorem interlaced_crossings : exists zs, pd_interlaced_crossings d = Ok zs /\ length zs = ncomps d /\
  forall i C w L s, nth_error (p_comp d) i = Some C -> visits d (cp_edge C) w -> interlaced_pairs w L ->
    (forall c, c < ncross d -> order_sign d c (s c)) -> nth_error zs i = Some (sum_products s L).
Proof.
  destruct (each_comp true) as (zs & E & Lz & N). exists zs. split; auto. split; auto. intros i C w L s HC V HL HS.
  destruct (N i) as (z & Hz & K); [apply nth_error_Some; congruence|]. rewrite (interlaced_signed i C w L s HC V HL HS) in K. congruence.
Qed.
Theorem interlaced_crossings_unsigned : exists zs, pd_interlaced_crossings_unsigned d = Ok zs /\ length zs = ncomps d /\
  forall i C w L, nth_error (p_comp d) i = Some C -> visits d (cp_edge C) w -> interlaced_pairs w L -> nth_error zs i = Some (Z.of_nat (length L)).
Proof.
  destruct (each_comp false) as (zs & E & Lz & N). exists zs. split; auto. split; auto. intros i C w L HC V HL.
  destruct (N i) as (z & Hz & K); [apply nth_error_Some; congruence|]. rewrite (interlaced_unsigned i C w L HC V HL) in K. congruence.
Qed.

(** words and lists of pairs to which this applies exist for every component, and so do signs *)
Theorem interlaced_applies : forall i, i < ncomps d -> exists C w L, nth_error (p_comp d) i = Some C /\ visits d (cp_edge C) w /\ interlaced_pairs w L.
Proof.
  intros i Hi. destruct (nth_error (p_comp d) i) as [C|] eqn:HC; [|apply nth_error_None in HC; unfold ncomps in Hi; lia].
  destruct (comp_visits i C HC) as (w & V). destruct (pairs_exist _ w (comp_nodup d P i C HC) V) as (L & HL). exists C, w, L. auto.
Qed.
Theorem order_signs_exist : exists s, forall c, c < ncross d -> order_sign d c (s c).
Proof.
  exists (fun c => match pdint_polyak_sign d c with Ok z => z | _ => 0%Z end). intros c Hc. destruct (polyak_ok c Hc) as (z & -> & O). exact O.
Qed.
End Interlacing.

(** The unknot without crossings is accepted, but the count reads outside its array. *)
Theorem interlaced_unknot_refuted : pd_ok unknot0 = Ok true /\ pd_interlaced_crossings unknot0 = UB /\ pd_interlaced_crossings_unsigned unknot0 = UB.
Proof. split; [reflexivity|]. split; reflexivity. Qed.

(** ** the hypotheses can be met *)
Example trefoil_hyps : ends_recorded trefoil /\ goes_through trefoil /\ two_ended trefoil /\ strand_partition trefoil (map cp_edge (p_comp trefoil)).
Proof.
  assert (EO : pd_edges_ok trefoil = Ok true) by reflexivity.
  apply edges_ok_spec in EO as (R & G); [|cbn; lia].
  split; auto. split; auto. split.
  - intros e E HE. unfold edge_at in HE. do 6 (destruct e as [|e]; [injection HE as <-; discriminate|]). destruct e; discriminate.
  - apply valid_partition; [cbn; lia|reflexivity|reflexivity|]. intros C [<-|[]]; discriminate.
Qed.
(** all three pairs of crossings of the trefoil are interlaced *)
Example trefoil_interlaced : visits trefoil [0; 1; 2; 3; 4; 5] [1; 2; 0; 1; 2; 0] /\ interlaced_pairs [1; 2; 0; 1; 2; 0] [(0, 1); (0, 2); (1, 2)] /\
  pd_interlaced_crossings_unsigned trefoil = Ok [3%Z] /\ pd_interlaced_crossings trefoil = Ok [(-1)%Z].
Proof.
  assert (AB : interlaced [1; 2; 0; 1; 2; 0] 0 1 /\ interlaced [1; 2; 0; 1; 2; 0] 0 2 /\ interlaced [1; 2; 0; 1; 2; 0] 1 2).
  { repeat split; try lia; [right; exists [], [2], [], [2], []|right; exists [1], [], [1], [], []|left; exists [], [], [0], [], [0]]; reflexivity. }
  destruct AB as (H1 & H2 & H3).
  split; [|split; [|split; reflexivity]].
  - repeat (constructor; [eexists; split; reflexivity|]). constructor.
  - split; [repeat constructor; simpl; intuition congruence|]. intros a b. split.
    + intros [Q|[Q|[Q|[]]]]; injection Q as <- <-; split; auto; lia.
    + intros (Hab & N & I). assert (B : In a [1; 2; 0; 1; 2; 0] /\ In b [1; 2; 0; 1; 2; 0]).
      { destruct I as [(u0 & u1 & u2 & u3 & u4 & ->)|(u0 & u1 & u2 & u3 & u4 & ->)]; repeat (rewrite in_app_iff; cbn [In]); auto 20. }
      simpl in B. simpl. destruct B as (Ba & Bb). assert (a < 3) by (clear -Ba; intuition; lia). assert (b < 3) by (clear -Bb; intuition; lia).
      destruct a as [|[|[|a]]], b as [|[|[|b]]]; try lia; auto.
Qed.

Print Assumptions interlaced_unsigned.
Print Assumptions interlaced_signed.
Print Assumptions interlaced_crossings.
Print Assumptions interlaced_crossings_unsigned.
Print Assumptions interlaced_applies.
Print Assumptions order_signs_exist.
Print Assumptions interlaced_unknot_refuted.
