(** Crossing codes: what is read back. *)
From Coq Require Import List NArith ZArith Lia Bool Arith.
From Verif Require Import Base ListAux Iterators Pd PdCross TextIO TextProofs CCode CCodeSpec.
Import ListNotations.
Open Scope nat_scope.
Open Scope res_scope.

(** what the reader stores for a code *)
Definition letter_index (l : letter) : nat := match l with La => 0 | Lb => 1 | Lc => 2 | Ld => 3 end.
Definition end_bytes (x : nat * letter) : list nat := [fst x; 2 * letter_index (snd x)].
Definition line_bytes (m : mcross) : list nat := end_bytes (m_a m) ++ end_bytes (m_b m) ++ end_bytes (m_c m) ++ end_bytes (m_d m).
Definition sign_code (m : mcross) : nat := if m_positive m then 6 else 2.
Definition stored (l : list mcross) : crs := mkCrs (length l) (map sign_code l) (flat_map line_bytes l).

Lemma read_digits_le : forall s a, (a <= fst (read_digits a s))%N.
Proof.
  induction s as [|c s IH]; intros a; cbn [read_digits fst]; [lia|]. destruct (isdigit c); cbn [fst]; [|lia].
  etransitivity; [|apply IH]. lia.
Qed.
Lemma short_small : forall z, (-32768 <= z < 32768)%Z -> short z = z.
Proof. intros z H. unfold short. rewrite Z.mod_small by lia. lia. Qed.
Lemma short_digits_ok : forall s a, (fst (read_digits a s) < 32768)%N ->
  short_digits (Z.of_N a) s = (Z.of_N (fst (read_digits a s)), snd (read_digits a s)).
Proof.
  induction s as [|c s IH]; intros a H; cbn [read_digits short_digits] in *; auto. destruct (isdigit c); auto.
  pose proof (read_digits_le s (10 * a + N.of_nat (c - 48))%N) as L.
  rewrite (short_small (Z.of_N a * 10)) by lia. rewrite short_small by lia.
  replace (Z.of_N a * 10 + Z.of_nat (c - 48))%Z with (Z.of_N (10 * a + N.of_nat (c - 48))) by lia. apply IH. auto.
Qed.
Lemma short_show : forall n rest, n < 1000 -> no_digit rest -> short_digits 0 (show_nat n ++ rest) = (Z.of_nat n, rest).
Proof.
  intros n rest L ND. change 0%Z with (Z.of_N 0). rewrite short_digits_ok; unfold show_nat; rewrite read_show, read_digits_stop by auto; cbn [fst snd].
  - rewrite nat_N_Z. auto.
  - lia.
Qed.
(** any number: only digits are used up *)
Lemma short_digits_app : forall t i c rest, Forall (fun c => isdigit c = true) t -> isdigit c = false ->
  snd (short_digits i (t ++ c :: rest)) = c :: rest.
Proof.
  induction t as [|x t IH]; intros i c rest F N; cbn [app short_digits].
  - rewrite N. auto.
  - inversion F; subst. rewrite H1. auto.
Qed.
Lemma skip_digits_app : forall t c rest, Forall (fun c => isdigit c = true) t -> isdigit c = false -> CCode.skip_digits (t ++ c :: rest) = c :: rest.
Proof.
  induction t as [|x t IH]; intros c rest F N; cbn [app CCode.skip_digits].
  - rewrite N. auto.
  - inversion F; subst. rewrite H1. auto.
Qed.
Lemma letter_no_digit : forall l, isdigit (letter_char l) = false.
Proof. intros [| | |]; reflexivity. Qed.
Lemma letter_range : forall l, ((letter_char l <? ch_a) || (ch_d <? letter_char l)) = false /\ (letter_char l - ch_a) * 2 = 2 * letter_index l.
Proof. intros [| | |]; split; reflexivity. Qed.

Lemma read_end : forall j x rest bytes, fst x < 256 -> read_ends (S j) (end_text x ++ rest) bytes = read_ends j rest (bytes ++ end_bytes x).
Proof.
  intros j [c l] rest bytes H. cbn [fst] in H. unfold end_text. cbn [fst snd]. rewrite <- app_assoc. cbn [app].
  destruct (show_nat (c + 1) ++ letter_char l :: rest) as [|y s] eqn:E; [destruct (show_nat (c + 1)); discriminate|].
  cbn [read_ends]. rewrite <- E, short_show; [|lia|exact (letter_no_digit l)].
  destruct (Z.eqb_spec (Z.of_nat (c + 1)) 0); [lia|].
  destruct (letter_range l) as (-> & ->).
  replace (Z.to_nat ((Z.of_nat (c + 1) - 1) mod 256)) with c by (rewrite Z.mod_small; lia).
  rewrite <- app_assoc. reflexivity.
Qed.
Lemma read_end_any : forall j x rest bytes, read_ends (S j) (end_text x ++ rest) bytes = None \/ exists b, read_ends (S j) (end_text x ++ rest) bytes = read_ends j rest b.
Proof.
  intros j [c l] rest bytes. unfold end_text. cbn [fst snd]. rewrite <- app_assoc. cbn [app].
  destruct (show_is_digits (N.of_nat (c + 1))) as (_ & F). pose proof (short_digits_app (show_nat (c + 1)) 0 (letter_char l) rest F (letter_no_digit l)) as D.
  destruct (show_nat (c + 1) ++ letter_char l :: rest) as [|y s] eqn:E; [destruct (show_nat (c + 1)); discriminate|].
  cbn [read_ends]. destruct (short_digits 0 (y :: s)) as (i, s') eqn:Q. cbn [snd] in D. subst s'.
  destruct (i =? 0)%Z; [auto|]. destruct (letter_range l) as (-> & _). right. eexists. reflexivity.
Qed.

Definition ends_text (m : mcross) : text := end_text (m_a m) ++ end_text (m_b m) ++ end_text (m_c m) ++ end_text (m_d m).
Lemma read_four : forall m rest bytes, (forall l, fst (m_to m l) < 256) -> read_ends 4 (ends_text m ++ rest) bytes = Some (bytes ++ line_bytes m, rest).
Proof.
  intros m rest bytes H. unfold ends_text. rewrite <- !app_assoc. rewrite !read_end; [|exact (H Ld)|exact (H Lc)|exact (H Lb)|exact (H La)].
  unfold line_bytes. rewrite <- !app_assoc. reflexivity.
Qed.
Lemma read_four_any : forall m rest bytes, read_ends 4 (ends_text m ++ rest) bytes = None \/ exists b, read_ends 4 (ends_text m ++ rest) bytes = Some (b, rest).
Proof.
  intros m rest bytes. unfold ends_text. rewrite <- !app_assoc.
  destruct (read_end_any 3 (m_a m) (end_text (m_b m) ++ end_text (m_c m) ++ end_text (m_d m) ++ rest) bytes) as [->|(b1 & ->)]; auto.
  destruct (read_end_any 2 (m_b m) (end_text (m_c m) ++ end_text (m_d m) ++ rest) b1) as [->|(b2 & ->)]; auto.
  destruct (read_end_any 1 (m_c m) (end_text (m_d m) ++ rest) b2) as [->|(b3 & ->)]; auto.
  destruct (read_end_any 0 (m_d m) rest b3) as [->|(b4 & ->)]; auto. right. exists b4. reflexivity.
Qed.

Lemma line_text_eq : forall c m rest, line_text c m ++ rest = show_nat (c + 1) ++ (if m_positive m then ch_plus else ch_minus) :: ends_text m ++ 10 :: rest.
Proof. intros c m rest. unfold line_text, ends_text. rewrite <- !app_assoc. cbn [app]. destruct (m_positive m); reflexivity. Qed.
Lemma sign_no_digit : forall b : bool, isdigit (if b then ch_plus else ch_minus) = false.
Proof. intros [|]; reflexivity. Qed.
Lemma line_first : forall c m rest, isdigit (peek (line_text c m ++ rest)) = true.
Proof.
  intros c m rest. rewrite line_text_eq. destruct (show_is_digits (N.of_nat (c + 1))) as (N & F). unfold show_nat.
  destruct (show (N.of_nat (c + 1))); [congruence|]. inversion F; subst. auto.
Qed.
Lemma digit_cases : forall c, isdigit c = true -> c =? 10 = false /\ c =? 0 = false.
Proof. intros c H. unfold isdigit in H. apply andb_true_iff in H as (H & _). apply Nat.leb_le in H. split; apply Nat.eqb_neq; lia. Qed.

(** one line *)
Lemma read_line : forall fuel c m rest k, c_num k <> XCNT -> (forall l, fst (m_to m l) < 256) ->
  read_lines (S fuel) (line_text c m ++ rest) k = read_lines fuel rest (mkCrs (c_num k + 1) (c_sign k ++ [sign_code m]) (c_bytes k ++ line_bytes m)).
Proof.
  intros fuel c m rest k N H. destruct (digit_cases _ (line_first c m rest)) as (D1 & D2).
  cbn [read_lines]. rewrite D1, D2. cbn [orb]. apply Nat.eqb_neq in N. rewrite N.
  destruct (show_is_digits (N.of_nat (c + 1))) as (_ & F). rewrite line_text_eq, skip_digits_app by (auto using sign_no_digit). cbv zeta.
  unfold sign_code. destruct (m_positive m); cbn [peek tl]; [change (ch_plus =? ch_plus) with true|change (ch_minus =? ch_plus) with false; change (ch_minus =? ch_minus) with true];
    cbv iota; rewrite read_four by auto; reflexivity.
Qed.
Lemma read_line_any : forall fuel c m rest k, c_num k <> XCNT -> read_lines (S fuel) (line_text c m ++ rest) k = Ok None \/
  exists k', c_num k' = c_num k + 1 /\ read_lines (S fuel) (line_text c m ++ rest) k = read_lines fuel rest k'.
Proof.
  intros fuel c m rest k N. destruct (digit_cases _ (line_first c m rest)) as (D1 & D2).
  cbn [read_lines]. rewrite D1, D2. cbn [orb]. apply Nat.eqb_neq in N. rewrite N.
  destruct (show_is_digits (N.of_nat (c + 1))) as (_ & F). rewrite line_text_eq, skip_digits_app by (auto using sign_no_digit). cbv zeta.
  destruct (m_positive m); cbn [peek tl]; [change (ch_plus =? ch_plus) with true|change (ch_minus =? ch_plus) with false; change (ch_minus =? ch_minus) with true];
    cbv iota; (destruct (read_four_any m (10 :: rest) (c_bytes k)) as [->|(b & ->)]; [auto|right; cbn [peek tl Nat.eqb]; eexists; split; [|reflexivity]; reflexivity]).
Qed.

Lemma read_all : forall l fuel c k, length l < fuel -> c_num k + length l <= XCNT -> (forall m x, In m l -> fst (m_to m x) < 256) ->
  read_lines fuel (lines_text c l ++ [10; 10]) k =
    Ok (Some (mkCrs (c_num k + length l) (c_sign k ++ map sign_code l) (c_bytes k ++ flat_map line_bytes l), [10; 10])).
Proof.
  induction l as [|m l IH]; intros fuel c k F L H.
  - destruct fuel; [cbn in F; lia|]. cbn [length lines_text app map flat_map]. rewrite !app_nil_r, Nat.add_0_r. destruct k. reflexivity.
  - destruct fuel as [|fuel]; [cbn in F; lia|]. cbn [lines_text]. rewrite <- app_assoc. cbn [length] in *.
    rewrite read_line; [|intros E; unfold XCNT in *; lia|intros x; apply H; left; auto].
    rewrite IH; cbn [c_num c_sign c_bytes]; [|lia|lia|intros; apply H; right; auto].
    cbn [map flat_map]. rewrite <- !app_assoc. replace (c_num k + 1 + length l) with (c_num k + S (length l)) by lia. reflexivity.
Qed.
Lemma read_too_many : forall l fuel c k x rest, length l < fuel -> c_num k + length l = XCNT -> isdigit x = true ->
  read_lines fuel (lines_text c l ++ x :: rest) k = Ok None.
Proof.
  induction l as [|m l IH]; intros fuel c k x rest F L D.
  - destruct fuel; [cbn in F; lia|]. cbn [lines_text app length] in *. destruct (digit_cases x D) as (D1 & D2).
    cbn [read_lines peek]. rewrite D1, D2. cbn [orb]. rewrite Nat.add_0_r in L. rewrite L, Nat.eqb_refl. reflexivity.
  - destruct fuel as [|fuel]; [cbn in F; lia|]. cbn [lines_text]. rewrite <- app_assoc. cbn [length] in *.
    destruct (read_line_any fuel c m (lines_text (c + 1) l ++ x :: rest) k) as [->|(k' & K & ->)]; [unfold XCNT in *; lia|auto|].
    apply IH; auto; lia.
Qed.

(** ** lengths and newlines *)
Lemma decimal_length : forall q k n a, (n < 10 ^ N.of_nat q)%N -> 0 < q -> length (show_digits k n a) <= q + length a.
Proof.
  induction q; intros k n a H Hq; [lia|]. destruct k; cbn [show_digits]; [lia|]. destruct (N.ltb_spec n 10); [cbn; lia|].
  destruct q as [|q].
  - exfalso. change (10 ^ N.of_nat 1)%N with 10%N in H. lia.
  - etransitivity; [apply IHq|cbn [length]; lia].
    + rewrite Nat2N.inj_succ, N.pow_succ_r' in H. apply N.div_lt_upper_bound; lia.
    + lia.
Qed.
Lemma show_short : forall q n, (n < 10 ^ N.of_nat q)%N -> 0 < q -> length (show n) <= q.
Proof. intros q n H Hq. unfold show. etransitivity; [apply decimal_length; eauto|]. cbn. lia. Qed.
Lemma line_length : forall c m, c < XCNT -> (forall l, (N.of_nat (fst (m_to m l)) < 8388608)%N) -> length (line_text c m) <= 37.
Proof.
  intros c m Hc H. unfold XCNT in Hc. assert (A : forall x, (N.of_nat (fst x) < 8388608)%N -> length (end_text x) <= 8).
  { intros x Hx. unfold end_text. rewrite app_length. unfold show_nat. pose proof (show_short 7 (N.of_nat (fst x + 1))) as Q.
    change (10 ^ N.of_nat 7)%N with 10000000%N in Q. cbn [length]. lia. }
  pose proof (A _ (H La)). pose proof (A _ (H Lb)). pose proof (A _ (H Lc)). pose proof (A _ (H Ld)).
  unfold line_text. rewrite !app_length. unfold show_nat. pose proof (show_short 3 (N.of_nat (c + 1))) as Q.
  change (10 ^ N.of_nat 3)%N with 1000%N in Q. cbn [length m_to] in *. lia.
Qed.
Lemma lines_length : forall l c, c + length l <= XCNT -> (forall m x, In m l -> (N.of_nat (fst (m_to m x)) < 8388608)%N) -> length (lines_text c l) <= 37 * length l.
Proof.
  induction l as [|m l IH]; intros c L H; cbn [lines_text length] in *; [lia|]. rewrite app_length.
  pose proof (line_length c m ltac:(lia) (fun x => H m x (or_introl eq_refl))). pose proof (IH (c + 1) ltac:(lia) (fun m x I => H m x (or_intror I))). lia.
Qed.
Lemma lines_many : forall l c, length l <= length (lines_text c l).
Proof.
  induction l as [|m l IH]; intros c; cbn [lines_text length]; [lia|]. rewrite app_length. pose proof (IH (c + 1)).
  unfold line_text. rewrite app_length. cbn [app length]. lia.
Qed.
Lemma digits_no_newline : forall t, Forall (fun c => isdigit c = true) t -> count_occ Nat.eq_dec t 10 = 0.
Proof.
  induction t as [|c t IH]; intros F; cbn [count_occ]; auto. inversion F; subst. destruct (Nat.eq_dec c 10) as [->|_]; [discriminate|auto].
Qed.
Lemma show_no_newline : forall n, count_occ Nat.eq_dec (show_nat n) 10 = 0.
Proof. intros n. apply digits_no_newline. apply show_is_digits. Qed.
Lemma end_no_newline : forall x, count_occ Nat.eq_dec (end_text x) 10 = 0.
Proof. intros [c l]. unfold end_text. rewrite count_occ_app, show_no_newline. destruct l; reflexivity. Qed.
Lemma lines_newlines : forall l c, count_occ Nat.eq_dec (lines_text c l) 10 = length l.
Proof.
  induction l as [|m l IH]; intros c; cbn [lines_text length]; auto. rewrite count_occ_app, IH.
  unfold line_text. rewrite !count_occ_app, show_no_newline, !end_no_newline. destruct (m_positive m); reflexivity.
Qed.
Lemma code_newlines : forall l, count_occ Nat.eq_dec (code_text l) 10 = length l + 2.
Proof. intros l. unfold code_text. rewrite count_occ_app, lines_newlines. reflexivity. Qed.

Lemma firstn_app_le {A} : forall n (l l' : list A), length l <= n -> firstn n (l ++ l') = l ++ firstn (n - length l) l'.
Proof. intros n l l' H. rewrite firstn_app, firstn_all2 by auto. auto. Qed.
Lemma lines_app : forall l c l', lines_text c (l ++ l') = lines_text c l ++ lines_text (c + length l) l'.
Proof.
  induction l as [|m l IH]; intros c l'; cbn [lines_text app length]; [rewrite Nat.add_0_r; auto|].
  rewrite IH, <- app_assoc. replace (c + 1 + length l) with (c + S (length l)) by lia. auto.
Qed.

(** the beginning of the text is the first crossing *)
Lemma start_ok : forall m rest, skip_name (skip_newlines (line_text 0 m ++ rest)) = Ok (line_text 0 m ++ rest) /\ peek (line_text 0 m ++ rest) =? 10 = false.
Proof.
  intros m rest. rewrite line_text_eq. change (show_nat (0 + 1)) with [49]. cbn [app]. split; [|reflexivity].
  cbn [skip_newlines]. change (49 =? 10) with false. cbv iota. unfold skip_name. cbn [peek tl]. destruct (m_positive m); reflexivity.
Qed.

Definition limit := Z.to_nat 10239.
Lemma limit_eq : Z.of_nat limit = 10239%Z. Proof. unfold limit. rewrite Z2Nat.id; lia. Qed.

Theorem read_back : forall l, 2 <= length l <= XCNT -> (forall m x, In m l -> fst (m_to m x) < length l) ->
  lmpoly_read (code_text l) = Ok (Read (stored l)).
Proof.
  intros l L H. unfold lmpoly_read. rewrite code_newlines. destruct (Nat.eqb_spec (length l + 2) 3) as [E|_]; [lia|].
  change (Z.to_nat 10239) with limit. pose proof limit_eq as LE.
  assert (Q : firstn limit (code_text l) = code_text l).
  { apply firstn_all2. unfold code_text. rewrite app_length. pose proof (lines_length l 0 ltac:(lia)) as K. unfold XCNT in *. cbn [length].
    assert (length (lines_text 0 l) <= 37 * length l); [|lia]. apply K. intros m x I. specialize (H m x I). lia. }
  rewrite Q. destruct l as [|m l]; [cbn in L; lia|]. unfold code_text. cbn [lines_text]. rewrite <- app_assoc.
  destruct (start_ok m (lines_text (0 + 1) l ++ [10; 10])) as (S1 & S2). rewrite S1. cbn [bind]. rewrite S2.
  rewrite app_assoc. change (line_text 0 m ++ lines_text (0 + 1) l) with (lines_text 0 (m :: l)).
  rewrite read_all; cbn [c_num c_sign c_bytes].
  - cbn [bind peek Nat.eqb]. reflexivity.
  - pose proof (lines_many (m :: l) 0). rewrite app_length. cbn [length] in *. lia.
  - lia.
  - intros m' x I. specialize (H m' x I). unfold XCNT in *. lia.
Qed.
Theorem refuse_many : forall l, XCNT < length l -> (forall m x, In m l -> (N.of_nat (fst (m_to m x)) < 8388608)%N) ->
  lmpoly_read (code_text l) = Ok Refused.
Proof.
  intros l L H. unfold lmpoly_read. rewrite code_newlines. unfold XCNT in L. destruct (Nat.eqb_spec (length l + 2) 3) as [E|_]; [lia|].
  change (Z.to_nat 10239) with limit. pose proof limit_eq as LE.
  assert (LF : length (firstn XCNT l) = XCNT) by (rewrite firstn_length; unfold XCNT; lia).
  pose proof (firstn_skipn XCNT l) as FS. destruct (skipn XCNT l) as [|m2 l2] eqn:SK.
  { exfalso. rewrite app_nil_r in FS. rewrite FS in LF. unfold XCNT in LF. lia. }
  assert (B : length (lines_text 0 (firstn XCNT l)) <= 37 * XCNT).
  { rewrite <- LF at 2. apply lines_length; [rewrite LF; auto|]. intros m x I. apply H. rewrite <- FS. apply in_or_app. auto. }
  assert (XZ : Z.of_nat (37 * XCNT) = 9250%Z) by reflexivity.
  unfold code_text. rewrite <- FS, lines_app, <- app_assoc, firstn_app_le by (clear - B XZ LE; lia).
  set (rest := lines_text (0 + length (firstn XCNT l)) (m2 :: l2) ++ [10; 10]).
  assert (P : isdigit (peek rest) = true) by (unfold rest; cbn [lines_text]; rewrite <- app_assoc; apply line_first).
  destruct rest as [|x rest]; [discriminate|]. cbn [peek] in P.
  destruct (limit - length (lines_text 0 (firstn XCNT l))) as [|q] eqn:Eq; [clear - B XZ LE Eq; lia|]. cbn [firstn].
  destruct (firstn XCNT l) as [|m l1] eqn:F1; [discriminate LF|]. clear Eq.
  cbn [lines_text]. rewrite <- app_assoc.
  destruct (start_ok m (lines_text (0 + 1) l1 ++ x :: firstn q rest)) as (S1 & S2). rewrite S1. cbn [bind]. rewrite S2.
  rewrite app_assoc. change (line_text 0 m ++ lines_text (0 + 1) l1) with (lines_text 0 (m :: l1)).
  rewrite read_too_many; cbn [c_num]; auto.
  pose proof (lines_many (m :: l1) 0). rewrite app_length. lia.
Qed.
Theorem read_one : forall l, length l = 1 -> lmpoly_read (code_text l) = Ok OneCrossing.
Proof. intros l L. unfold lmpoly_read. rewrite code_newlines, L. reflexivity. Qed.
