(** The rows that match are an interval of the table, and the classification returns it. *)
From Coq Require Import List NArith ZArith Lia Bool Arith String Sorted.
From Verif Require Import Base Pd PdProofs TextIO TextSpec TextProofs CCode CCodeSpec KtTable Classify ClassifySpec.
Import List ListNotations.
Open Scope list_scope.
Open Scope nat_scope.
Open Scope res_scope.

Lemma strcmp_zero : forall a b, strcmp a b = 0%Z <-> a = b.
Proof.
  induction a as [|x a IH]; intros [|y b]; cbn [strcmp]; split; intros H; try discriminate; try reflexivity.
  - destruct (Nat.eqb_spec x y) as [->|N]; [f_equal; apply IH; auto|destruct (x <? y); discriminate].
  - injection H as -> ->. rewrite Nat.eqb_refl. apply IH. auto.
Qed.
Lemma hit_spec : forall k r, hit k r = true <-> k = k_homfly r.
Proof. intros k r. unfold hit. rewrite Z.eqb_eq. apply strcmp_zero. Qed.
Lemma strcmp_trans : forall a b c, (strcmp a b <= 0 -> strcmp b c <= 0 -> strcmp a c <= 0)%Z.
Proof.
  induction a as [|x a IH]; intros [|y b] [|z c]; cbn [strcmp]; try lia. 
  destruct (Nat.eqb_spec x y) as [->|N1].
  - destruct (Nat.eqb_spec y z) as [->|N2]; [apply IH|]. destruct (Nat.ltb_spec y z); lia.
  - destruct (Nat.ltb_spec x y); [|lia]. destruct (Nat.eqb_spec y z) as [->|N2].
    + rewrite (proj2 (Nat.eqb_neq x z)) by lia. rewrite (proj2 (Nat.ltb_lt x z)) by lia. lia.
    + destruct (Nat.ltb_spec y z); [|lia]. rewrite (proj2 (Nat.eqb_neq x z)) by lia. rewrite (proj2 (Nat.ltb_lt x z)) by lia. lia.
Qed.
Lemma strcmp_antisym : forall a b, (strcmp a b <= 0 -> strcmp b a <= 0 -> a = b)%Z.
Proof.
  induction a as [|x a IH]; intros [|y b]; cbn [strcmp]; auto; try (intros; exfalso; lia). rewrite (Nat.eqb_sym y x). destruct (Nat.eqb_spec x y) as [->|N]; [intros; f_equal; auto|]. destruct (Nat.ltb_spec x y), (Nat.ltb_spec y x); intros; exfalso; lia.
Qed.
Lemma sorted_nth : forall rows i j a b, in_order rows -> i < j -> nth_error rows i = Some a -> nth_error rows j = Some b -> (homcmp a b <= 0)%Z.
Proof.
  intros rows i j a b S. revert i j. induction S as [|x rows S IH F]; intros i j L A B; [destruct i; discriminate|]. destruct j as [|j]; [lia|]. destruct i as [|i]; cbn in A, B.
  - injection A as <-. rewrite Forall_forall in F. apply F. eapply nth_error_In; eauto.
  - apply (IH i j); auto; lia.
Qed.
(** between two hits there are only hits *)
Lemma hits_convex : forall rows k i j m a b c, in_order rows -> i <= j <= m -> nth_error rows i = Some a -> nth_error rows j = Some b -> nth_error rows m = Some c ->
  k_homfly a = k -> k_homfly c = k -> k_homfly b = k.
Proof.
  intros rows k i j m a b c S (L1 & L2) A B C Ka Kc. destruct (Nat.eq_dec i j) as [->|N1]; [congruence|]. destruct (Nat.eq_dec j m) as [->|N2]; [congruence|].
  pose proof (sorted_nth rows i j a b S ltac:(lia) A B) as H1. pose proof (sorted_nth rows j m b c S ltac:(lia) B C) as H2. unfold homcmp in *. rewrite Ka in H1. rewrite Kc in H2. symmetry; apply strcmp_antisym; auto.
Qed.
(** a filter that keeps an interval *)
Lemma filter_none : forall {A} (f : A -> bool) l, (forall x, In x l -> f x = false) -> filter f l = [].
Proof. intros A f. induction l as [|x l IH]; intros H; auto. cbn. rewrite H by (left; auto). apply IH. intros. apply H. right. auto. Qed.
Lemma filter_all : forall {A} (f : A -> bool) l, (forall x, In x l -> f x = true) -> filter f l = l.
Proof. intros A f. induction l as [|x l IH]; intros H; auto. cbn. rewrite H by (left; auto). f_equal. apply IH. intros. apply H. right. auto. Qed.
Lemma in_firstn_nth : forall {A} n (l : list A) x, In x (firstn n l) -> exists i, i < n /\ nth_error l i = Some x.
Proof. intros A. induction n as [|n IH]; intros l x H; [destruct H|]. destruct l as [|y l]; [destruct H|]. destruct H as [<-|H]; [exists 0; split; [lia|auto]|]. apply IH in H as (i & L & E). exists (S i). split; [lia|auto]. Qed.
Lemma nth_skipn : forall {A} n (l : list A) i, nth_error (skipn n l) i = nth_error l (n + i).
Proof. intros A. induction n as [|n IH]; intros l i; auto. destruct l; cbn; [destruct i; auto|auto]. Qed.
Lemma filter_interval : forall {A} (f : A -> bool) l lo hi, lo <= hi -> (forall i x, nth_error l i = Some x -> (f x = true <-> lo <= i <= hi)) ->
  filter f l = firstn (hi - lo + 1) (skipn lo l).
Proof.
  intros A f l lo hi L H. rewrite <- (firstn_skipn lo l) at 1. rewrite filter_app. rewrite (filter_none f (firstn lo l)).
  2:{ intros x Hx. apply in_firstn_nth in Hx as (i & Li & E). destruct (f x) eqn:Fx; auto. apply (H i x E) in Fx. lia. }
  cbn [app]. rewrite <- (firstn_skipn (hi - lo + 1) (skipn lo l)) at 1. rewrite filter_app. rewrite (filter_none f (skipn _ (skipn lo l))).
  - rewrite app_nil_r. apply filter_all. intros x Hx. apply in_firstn_nth in Hx as (i & Li & E). rewrite nth_skipn in E. apply (H _ x E). lia.
  - intros x Hx. apply In_nth_error in Hx as (i & E). rewrite !nth_skipn in E. destruct (f x) eqn:Fx; auto. apply (H _ x E) in Fx. lia.
Qed.
(** ** the two scans *)
Lemma array_len : List.length ktarray = 1089. Proof. vm_compute. reflexivity. Qed.
Lemma db_len : List.length ktdb = KTDBSIZE. Proof. vm_compute. reflexivity. Qed.
Lemma array_get : forall i, i <= KTDBSIZE -> exists r, nth_error ktarray i = Some r.
Proof. intros i L. destruct (nth_error ktarray i) eqn:E; eauto. apply nth_error_None in E. rewrite array_len in E. unfold KTDBSIZE in *. lia. Qed.
Lemma array_db : forall i, i < KTDBSIZE -> nth_error ktarray i = nth_error ktdb i.
Proof. intros i L. unfold ktarray. apply nth_error_app1. rewrite db_len. auto. Qed.
Definition hits (k : text) (i : nat) : Prop := exists r, nth_error ktarray i = Some r /\ k_homfly r = k.
Lemma with_hits : forall k i x, nth_error ktarray i = Some x -> ((if list_eq_dec Nat.eq_dec (k_homfly x) k then true else false) = true <-> hits k i).
Proof.
  intros k i x. unfold hits. generalize (nth_error ktarray i). intros o ->. destruct (list_eq_dec Nat.eq_dec (k_homfly x) k) as [e|n]; split; intros H; auto; [exists x; auto|discriminate|]. destruct H as (x' & E' & K'). injection E' as <-. contradiction.
Qed.
Lemma hits_dec : forall k i r, nth_error ktarray i = Some r -> (hit k r = true /\ hits k i) \/ (hit k r = false /\ ~ hits k i).
Proof.
  intros k i r E. destruct (hit k r) eqn:H; [left|right]; split; auto; [exists r; split; auto; symmetry; apply hit_spec; auto|]. intros (r' & E' & K). rewrite E in E'. injection E' as <-. symmetry in K. apply hit_spec in K. congruence.
Qed.
Lemma down : forall k i, i <= KTDBSIZE -> hits k i -> exists lo, scan_down k i = Ok lo /\ lo <= i /\ (forall j, lo < j <= i -> hits k j) /\ (lo = 0 \/ ~ hits k lo).
Proof.
  intros k. induction i as [|i IH]; intros L H; cbn [scan_down].
  - destruct (array_get 0 L) as (r & E). unfold get. rewrite E. cbn [bind]. exists 0. repeat split; auto; lia.
  - destruct (array_get (S i) L) as (r & E). unfold get. rewrite E. cbn [bind]. destruct (hits_dec k (S i) r E) as [(-> & _)|(_ & N)]; [|tauto].
    destruct (array_get i ltac:(lia)) as (r' & E'). destruct (hits_dec k i r' E') as [(_ & Hi)|(H' & Ni)].
    + destruct (IH ltac:(lia) Hi) as (lo & E2 & L2 & A & B). exists lo. repeat split; auto; try lia. intros j Lj. destruct (Nat.eq_dec j (S i)) as [->|]; auto. apply A. lia.
    + exists i. repeat split; auto; try lia. destruct i as [|i']; cbn [scan_down]; unfold get; rewrite E'; cbn [bind]; auto. rewrite H'. auto.
      intros j Lj. replace j with (S i) by lia. auto.
Qed.
Lemma up : forall k fuel i, i <= KTDBSIZE -> KTDBSIZE - i < fuel -> hits k i -> exists hi, scan_up fuel k i = Ok hi /\ i <= hi <= KTDBSIZE /\ (forall j, i <= j < hi -> hits k j) /\ (hi = KTDBSIZE \/ ~ hits k hi).
Proof.
  intros k. induction fuel as [|f IH]; intros i L F H; [lia|]. cbn [scan_up]. destruct (array_get i L) as (r & E). unfold get. rewrite E. cbn [bind]. destruct (hits_dec k i r E) as [(-> & _)|(_ & N)]; [|tauto]. cbn [andb].
  destruct (Nat.ltb_spec i KTDBSIZE) as [Li|Li]; [|exists i; repeat split; auto; try lia; left; lia].
  destruct (array_get (i + 1) ltac:(lia)) as (r' & E'). destruct (hits_dec k (i + 1) r' E') as [(_ & Hi)|(H' & Ni)].
  - destruct (IH (i + 1) ltac:(lia) ltac:(lia) Hi) as (hi & E2 & L2 & A & B). exists hi. repeat split; auto; try lia. intros j Lj. destruct (Nat.eq_dec j i) as [->|]; auto. apply A. lia.
  - exists (i + 1). repeat split; auto; try lia. destruct f as [|f']; [lia|]. cbn [scan_up]. unfold get. rewrite E'. cbn [bind]. rewrite H'. auto.
    intros j Lj. replace j with i by lia. auto.
Qed.
(** ** the table is in order, and the row after it matches nothing in it *)
Fixpoint ordered (rows : list knottype) : bool :=
  match rows with
  | a :: (b :: _) as rest => Z.leb (homcmp a b) 0 && ordered rest
  | _ => true
  end.
Lemma ordered_sound : forall rows, ordered rows = true -> in_order rows.
Proof.
  intros rows H. apply Sorted_StronglySorted; [intros a b c; unfold homcmp; apply strcmp_trans|]. induction rows as [|a [|b rest] IH]; [constructor|constructor; constructor|].
  cbn [ordered] in H. apply andb_true_iff in H as (H1 & H2). constructor; [auto|]. constructor. apply Z.leb_le. auto.
Qed.
Lemma db_order : in_order ktdb. Proof. apply ordered_sound. vm_compute. reflexivity. Qed.
Lemma last_differs : forall r, In r ktdb -> k_homfly r <> k_homfly last_row.
Proof.
  assert (C : forallb (fun r => negb (hit (k_homfly last_row) r)) ktdb = true) by (vm_compute; reflexivity). intros r H E. rewrite forallb_forall in C. specialize (C r H). symmetry in E. apply hit_spec in E. rewrite E in C. discriminate.
Qed.
Lemma lookup_exact : forall bsearch k, searches bsearch -> lookup bsearch k = Ok (rows_with k).
Proof.
  intros bs k SB. specialize (SB k ktdb db_order). unfold lookup. destruct (bs k ktdb) as [m|].
  2:{ f_equal. symmetry. apply filter_none. intros r H. destruct (list_eq_dec Nat.eq_dec (k_homfly r) k); auto. exfalso. eapply SB; eauto. }
  destruct SB as (r & Em & K). assert (Lm : m < KTDBSIZE) by (rewrite <- db_len; apply nth_error_Some; congruence).
  assert (Hm : hits k m) by (exists r; rewrite array_db; auto). assert (Rin : In r ktdb) by (eapply nth_error_In; eauto).
  assert (Hlast : ~ hits k KTDBSIZE). { intros (r' & E' & K'). unfold ktarray in E'. rewrite nth_error_app2 in E' by (rewrite db_len; auto). rewrite db_len, Nat.sub_diag in E'. injection E' as <-. apply (last_differs r Rin). congruence. }
  destruct (down k m ltac:(lia) Hm) as (lo & E1 & L1 & A1 & B1). rewrite E1. cbn [bind].
  destruct (array_get lo ltac:(lia)) as (r1 & G1). unfold get at 1. rewrite G1. cbn [bind]. set (lo' := if hit k r1 then lo else lo + 1).
  assert (P1 : lo' <= m /\ hits k lo' /\ (forall j, lo' <= j <= m -> hits k j) /\ forall j, j < lo' -> lo' = j + 1 -> ~ hits k j).
  { unfold lo'. destruct (hits_dec k lo r1 G1) as [(-> & H)|(-> & H)].
    - split; [auto|]. split; [auto|]. split; [intros j Lj; destruct (Nat.eq_dec j lo) as [->|]; auto; apply A1; lia|]. intros j Lj Ej. destruct B1; [lia|tauto].
    - assert (lo <> m) by (intros ->; tauto). split; [lia|]. split; [apply A1; lia|]. split; [intros; apply A1; lia|]. intros j Lj Ej. replace j with lo by lia. auto. }
  clearbody lo'. destruct P1 as (L1' & (r2 & G2 & K2) & A1' & B1'). unfold get at 1. rewrite G2. cbn [bind]. rewrite (proj2 (hit_spec k r2)) by auto.
  destruct (up k (List.length ktarray + 1) m ltac:(lia) ltac:(rewrite array_len; unfold KTDBSIZE; lia) Hm) as (hi & E3 & L3 & A3 & B3). rewrite E3. cbn [bind].
  assert (NH : ~ hits k hi) by (destruct B3 as [->|]; auto). destruct (array_get hi ltac:(lia)) as (r3 & G3). unfold get at 1. rewrite G3. cbn [bind].
  destruct (hits_dec k hi r3 G3) as [(_ & H)|(-> & _)]; [tauto|]. assert (hi <> m) by (intros ->; tauto). destruct (A3 (hi - 1) ltac:(lia)) as (r4 & G4 & K4). unfold get. rewrite G4. cbn [bind]. rewrite (proj2 (hit_spec k r4)) by auto. f_equal. symmetry.
  assert (R : rows_with k = filter (fun r => if list_eq_dec Nat.eq_dec (k_homfly r) k then true else false) ktarray).
  { unfold rows_with, ktarray. rewrite filter_app. cbn [filter]. destruct (list_eq_dec Nat.eq_dec (k_homfly last_row) k) as [e|]; [|rewrite app_nil_r; auto]. exfalso. apply (last_differs r Rin). congruence. }
  rewrite R. apply filter_interval; [lia|]. intros i x Ex. pose proof (with_hits k i x Ex) as Q.
  rewrite Q. clear Q. split.
  - intros Hi. assert (Li : i < KTDBSIZE). { destruct (Nat.lt_ge_cases i KTDBSIZE); auto. exfalso. assert (i < List.length ktarray) by (apply nth_error_Some; congruence). rewrite array_len in *. unfold KTDBSIZE in *. assert (i = 1088) by lia. subst i. tauto. }
    assert (CV : forall a b c, a <= b <= c -> c < KTDBSIZE -> hits k a -> hits k c -> hits k b).
    { intros a b c Lab Lc (ra & Ea & Ka) (rc & Ec & Kc). destruct (array_get b ltac:(lia)) as (rb & Eb). exists rb. split; auto. rewrite !array_db in * by lia. eapply hits_convex; eauto using db_order. }
    split.
    + destruct (Nat.le_gt_cases lo' i); auto. exfalso. apply (B1' (lo' - 1)); try lia. apply (CV i (lo' - 1) m); auto; lia.
    + destruct (Nat.le_gt_cases i (hi - 1)); auto. exfalso. apply NH. apply (CV m hi i); auto; lia.
  - intros Li. destruct (Nat.le_gt_cases i m); [apply A1'; lia|apply A3; lia].
Qed.
(** ** crossing codes *)
Lemma count_digits : forall t, Forall (fun c => isdigit c = true) t -> count_occ Nat.eq_dec t 10 = 0.
Proof. induction t as [|c t IH]; intros F; auto. inversion F as [|? ? D F']; subst. rewrite count_occ_cons_neq; [auto|]. intros ->. discriminate. Qed.
Lemma count_show : forall n, count_occ Nat.eq_dec (show n) 10 = 0.
Proof. intros n. apply count_digits. apply show_is_digits. Qed.
Lemma count_end : forall x, count_occ Nat.eq_dec (end_text x) 10 = 0.
Proof. intros x. unfold end_text, show_nat. rewrite count_occ_app, count_show. destruct (snd x); reflexivity. Qed.
Lemma count_line : forall c m, count_occ Nat.eq_dec (line_text c m) 10 = 1.
Proof. intros c m. unfold line_text, show_nat. rewrite !count_occ_app, count_show, !count_end. destruct (m_positive m); reflexivity. Qed.
Lemma count_lines : forall l c, count_occ Nat.eq_dec (lines_text c l) 10 = List.length l.
Proof. induction l as [|m l IH]; intros c; auto. cbn [lines_text List.length]. rewrite count_occ_app, count_line, IH. reflexivity. Qed.
Lemma count_code : forall l, count_occ Nat.eq_dec (code_text l) 10 = List.length l + 2.
Proof. intros l. unfold code_text. rewrite count_occ_app, count_lines. reflexivity. Qed.
