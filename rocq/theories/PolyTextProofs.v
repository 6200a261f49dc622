(** Reading tables of coefficients in the notation of lmpoly. *)
From Coq Require Import List NArith ZArith Lia Bool Arith String Sorted Permutation.
From Verif Require Import Base Pd PdProofs PdCross Sorting TextIO TextSpec TextProofs Poly PolySpec Thm_Poly PolyText PolyTextSpec.
Import List ListNotations.
Open Scope string_scope.
Open Scope list_scope.
Open Scope nat_scope.
Open Scope res_scope.

(** ** decimal notation *)
Definition plain (c : nat) : Prop := isdigit c = true \/ c = 45.
Lemma decimal_form : forall z, decimal z = (if Z.ltb z 0 then [45] else []) ++ show (Z.abs_N z).
Proof. intros [|p|p]; reflexivity. Qed.
Lemma show_cons : forall n, exists c t, show n = c :: t /\ isdigit c = true /\ Forall (fun c => isdigit c = true) t.
Proof.
  intros n. pose proof (show_is_digits n) as HD. destruct HD as (NE & HD). destruct (show n) as [|c t]; [congruence|]. inversion HD; subst. eauto.
Qed.
Lemma decimal_plain : forall z, exists c t, decimal z = c :: t /\ plain c /\ Forall plain t.
Proof.
  intros z. rewrite decimal_form. destruct (show_cons (Z.abs_N z)) as (c & t & -> & H1 & H2). assert (F : Forall plain t) by (eapply Forall_impl; [|exact H2]; intros; left; auto).
  destruct (Z.ltb z 0); cbn [app]; eexists; eexists; split; try reflexivity; split; auto; [right; auto| |left; auto]. constructor; auto. left. auto.
Qed.
Definition special (c : nat) : Prop := c = 32 \/ c = 91 \/ c = 93 \/ c = 78.
Lemma digit_cases : forall c, isdigit c = true -> c = 48 \/ c = 49 \/ c = 50 \/ c = 51 \/ c = 52 \/ c = 53 \/ c = 54 \/ c = 55 \/ c = 56 \/ c = 57.
Proof. intros c H. unfold isdigit in H. apply andb_true_iff in H as (A & B). apply Nat.leb_le in A, B. lia. Qed.
Lemma plain_tests : forall c, plain c -> isspace c = false /\ (c =? 91) = false /\ (c =? 93) = false /\ (c =? 78) = false /\ (c =? 0) = false /\ (c =? 32) = false.
Proof. intros c [H|H]; [|subst c; auto 10]. apply digit_cases in H. decompose [or] H; subst c; auto 10. Qed.
Lemma special_nodigit : forall c s, special c -> no_digit (c :: s).
Proof. intros c s H. unfold special in H. decompose [or] H; subst c; reflexivity. Qed.
Lemma scan_decimal : forall z rest, no_digit rest -> scan_int (decimal z ++ rest) = Some z.
Proof.
  intros z rest ND. rewrite decimal_form, <- app_assoc. unfold scan_int. destruct (show_cons (Z.abs_N z)) as (c & t & E & H1 & H2).
  assert (R : fst (read_digits 0 (show (Z.abs_N z) ++ rest)) = Z.abs_N z) by (rewrite read_show, read_digits_stop; auto).
  destruct (Z.ltb_spec z 0) as [L|L].
  - cbn [app]. cbn [Nat.eqb]. rewrite R. rewrite E. cbn [app]. rewrite H1. f_equal. lia.
  - cbn [app]. rewrite E in R |- *. cbn [app] in R |- *. assert (c =? 43 = false /\ c =? 45 = false) as (-> & ->) by (apply digit_cases in H1; split; apply Nat.eqb_neq; lia). rewrite H1, R. f_equal. lia.
Qed.
Lemma skip_number_plain : forall X c s, Forall plain X -> special c -> skip_number (X ++ c :: s) = Some (c :: s).
Proof.
  induction X as [|a X IH]; intros c s F SP; cbn [app skip_number].
  - destruct SP as [-> | [-> | [-> | ->]]]; reflexivity.
  - inversion F; subst. destruct (plain_tests a) as (-> & Q1 & Q2 & Q3 & _); auto. unfold ch_open, ch_close, ch_N. rewrite Q1, Q2, Q3. cbn [orb]. auto.
Qed.
Lemma skip_block_plain : forall X s, Forall plain X -> skip_block (X ++ 32 :: s) = 32 :: s.
Proof. induction X as [|a X IH]; intros s F; auto. inversion F; subst. cbn [app skip_block]. destruct (plain_tests a) as (-> & _); auto. Qed.

(** ** the number of coefficients before the bracket *)
Definition blocks (zs : list Z) : text := flat_map (fun z => decimal z ++ txt " ") zs.
Lemma initial_blocks : forall zs fuel pre t pwr, (pre = [] \/ pre = [32]) -> length zs < fuel -> initial_loop fuel (pre ++ blocks zs ++ 91 :: t) pwr = Ok (pwr - Z.of_nat (length zs))%Z.
Proof.
  induction zs as [|z zs IH]; intros fuel pre t pwr HP L; (destruct fuel as [|f]; [cbn in L; lia|]).
  - cbn [blocks flat_map app initial_loop length]. rewrite Z.sub_0_r. destruct HP as [-> | ->]; reflexivity.
  - cbn [length] in L |- *. destruct (decimal_plain z) as (c & X & E & P1 & P2). destruct (plain_tests c P1) as (T1 & T2 & T3 & T4 & T5 & T6).
    assert (B : blocks (z :: zs) ++ 91 :: t = (c :: X) ++ [32] ++ blocks zs ++ 91 :: t) by (unfold blocks; cbn [flat_map]; rewrite E, <- !app_assoc; reflexivity).
    assert (SK : skip (pre ++ blocks (z :: zs) ++ 91 :: t) = (c :: X) ++ [32] ++ blocks zs ++ 91 :: t).
    { rewrite B. destruct HP as [-> | ->]; cbn [app skip]; [rewrite T1; auto|]. change (isspace 32) with true. cbn [skip]. rewrite T1. reflexivity. }
    replace (pwr - Z.of_nat (S (length zs)))%Z with ((pwr - 1) - Z.of_nat (length zs))%Z by lia. rewrite <- (IH f [32] t (pwr - 1)%Z) by (auto; lia).
    cbn [initial_loop]. rewrite SK. rewrite B. assert (SB : skip_block ((c :: X) ++ [32] ++ blocks zs ++ 91 :: t) = [32] ++ blocks zs ++ 91 :: t) by (apply (skip_block_plain (c :: X)); constructor; auto).
    destruct HP as [-> | ->]; cbn [app] in SB |- *; unfold ch_open; [rewrite T2|change (32 =? 91) with false; cbv iota; rewrite T2]; cbv iota; rewrite SB; reflexivity.
Qed.
Lemma blocks_length : forall zs, length zs <= length (blocks zs).
Proof. induction zs as [|z zs IH]; [auto|]. unfold blocks in *. cbn [flat_map length]. destruct (decimal_plain z) as (c & X & -> & _). rewrite !app_length. cbn [length]. lia. Qed.
Lemma row_blocks : forall r, row_text r = blocks (r_neg r) ++ 91 :: decimal (r_mid r) ++ 93 :: flat_map (fun z => 32 :: decimal z) (r_pos r).
Proof. reflexivity. Qed.
Lemma initial_row : forall r pre t, (pre = [] \/ pre = [32]) -> initiallpower (pre ++ row_text r ++ t) = Ok (- Z.of_nat (length (r_neg r)))%Z.
Proof.
  intros r pre t HP. unfold initiallpower. rewrite row_blocks, <- app_assoc. cbn [app]. rewrite initial_blocks; auto. rewrite !app_length. pose proof (blocks_length (r_neg r)). lia.
Qed.

(** ** the reading loop *)
Fixpoint monos_from (zs : list Z) (lp mp : Z) : poly :=
  match zs with [] => [] | z :: zs' => (if Z.eqb z 0 then [] else [mkM z lp mp]) ++ monos_from zs' (lp + 1) mp end.
Definition reads (cap : nat) (X s : text) (mp lp : Z) (acc : poly) (mp' lp' : Z) (acc' : poly) : Prop :=
  forall fuel, length (X ++ s) < fuel -> exists fuel', length s < fuel' /\ read_monos fuel (X ++ s) mp lp cap acc = read_monos fuel' s mp' lp' cap acc'.
Lemma reads_app : forall cap X Y s mp lp acc mp1 lp1 acc1 mp2 lp2 acc2, reads cap X (Y ++ s) mp lp acc mp1 lp1 acc1 -> reads cap Y s mp1 lp1 acc1 mp2 lp2 acc2 -> reads cap (X ++ Y) s mp lp acc mp2 lp2 acc2.
Proof.
  intros cap X Y s mp lp acc mp1 lp1 acc1 mp2 lp2 acc2 H1 H2 fuel L. rewrite <- app_assoc in *. destruct (H1 fuel L) as (f1 & L1 & E1). destruct (H2 f1 L1) as (f2 & L2 & E2). exists f2. split; auto. congruence.
Qed.
Lemma reads_skip : forall cap c s mp lp acc, c = 32 \/ c = 91 \/ c = 93 -> reads cap [c] s mp lp acc mp lp acc.
Proof.
  intros cap c s mp lp acc H fuel L. destruct fuel as [|f]; [cbn in L; lia|]. exists f. cbn [app length] in L. split; [lia|]. cbn [app read_monos]. destruct H as [->|[-> | ->]]; reflexivity.
Qed.
Lemma reads_nil : forall cap s mp lp acc, reads cap [] s mp lp acc mp lp acc.
Proof. intros cap s mp lp acc fuel L. exists fuel. auto. Qed.
Lemma reads_N : forall cap s mp lp acc l, initiallpower s = Ok l -> reads cap [78] s mp lp acc (mp + 1) l acc.
Proof.
  intros cap s mp lp acc l H fuel L. destruct fuel as [|f]; [cbn in L; lia|]. exists f. cbn [app length] in L. split; [lia|]. cbn [app read_monos]. change (78 =? ch_N) with true. cbv iota. rewrite H. reflexivity.
Qed.
Lemma small_range : forall z, small z -> int_range z = true.
Proof. intros z H. unfold small in H. unfold int_range. apply andb_true_iff. rewrite !Z.leb_le. lia. Qed.
Lemma reads_num : forall cap z c s mp lp acc, small z -> special c -> length acc < cap -> reads cap (decimal z) (c :: s) mp lp acc mp (lp + 1) (acc ++ monos_from [z] lp mp).
Proof.
  intros cap z c s mp lp acc SM SP LC fuel L. destruct fuel as [|f]; [cbn in L; lia|]. exists f. destruct (decimal_plain z) as (a & X & E & P1 & P2). destruct (plain_tests a P1) as (T1 & T2 & T3 & T4 & T5 & T6).
  rewrite app_length, E in L. cbn [length] in L. split; [cbn; lia|].
  assert (SC : scan_int (decimal z ++ c :: s) = Some z) by (apply scan_decimal; apply special_nodigit; auto).
  assert (SN : skip_number (decimal z ++ c :: s) = Some (c :: s)) by (rewrite E; apply skip_number_plain; auto).
  rewrite E in SC, SN |- *. cbn [app] in SC, SN |- *. cbn [read_monos]. unfold ch_N, ch_close, ch_open. rewrite T1, T2, T3, T4. cbn [orb]. rewrite SC, SN, (small_range z SM), (proj2 (Nat.leb_gt _ _)) by lia. cbn [negb orb monos_from].
  destruct (Z.eqb z 0); cbn [app]; rewrite ?app_nil_r; reflexivity.
Qed.
Lemma monos_app : forall xs ys lp mp, monos_from (xs ++ ys) lp mp = monos_from xs lp mp ++ monos_from ys (lp + Z.of_nat (length xs)) mp.
Proof.
  induction xs as [|x xs IH]; intros ys lp mp; cbn [app monos_from length]; [rewrite Z.add_0_r; auto|]. rewrite IH, <- app_assoc. do 2 f_equal. f_equal. lia.
Qed.
Lemma reads_blocks : forall cap zs s mp lp acc, Forall small zs -> length acc + length (monos_from zs lp mp) < cap -> reads cap (blocks zs) s mp lp acc mp (lp + Z.of_nat (length zs)) (acc ++ monos_from zs lp mp).
Proof.
  intros cap. induction zs as [|z zs IH]; intros s mp lp acc F L; [cbn; rewrite Z.add_0_r, app_nil_r; apply reads_nil|]. inversion F; subst. cbn [blocks flat_map]. fold (blocks zs). change (z :: zs) with ([z] ++ zs) in L |- *. rewrite monos_app in L |- *. rewrite app_length in L. change (Z.of_nat (length [z])) with 1%Z in L |- *.
  rewrite <- app_assoc. eapply reads_app; [apply (reads_num cap z 32); auto; [left; auto|lia]|]. eapply reads_app; [apply reads_skip; auto|]. rewrite app_assoc.
  replace (lp + Z.of_nat (length ([z] ++ zs)))%Z with (lp + 1 + Z.of_nat (length zs))%Z by (rewrite app_length; cbn [length]; lia). apply IH; auto. rewrite app_length. lia.
Qed.
Lemma reads_pos : forall cap zs c s mp lp acc, Forall small zs -> special c -> length acc + length (monos_from zs lp mp) < cap ->
  reads cap (flat_map (fun z => 32 :: decimal z) zs) (c :: s) mp lp acc mp (lp + Z.of_nat (length zs)) (acc ++ monos_from zs lp mp).
Proof.
  intros cap. induction zs as [|z zs IH]; intros c s mp lp acc F SP L; [cbn; rewrite Z.add_0_r, app_nil_r; apply reads_nil|]. inversion F; subst. cbn [flat_map]. change (z :: zs) with ([z] ++ zs) in L |- *. rewrite monos_app in L |- *. rewrite app_length in L. change (Z.of_nat (length [z])) with 1%Z in L |- *.
  change (32 :: decimal z) with ([32] ++ decimal z). rewrite <- app_assoc. eapply reads_app; [apply reads_skip; auto|].
  assert (NX : exists c' s', flat_map (fun z => 32 :: decimal z) zs ++ c :: s = c' :: s' /\ special c') by (destruct zs as [|z' zs']; cbn [flat_map app]; eexists; eexists; split; try reflexivity; auto; left; auto).
  destruct NX as (c' & s' & E' & SP'). eapply reads_app; [rewrite E'; apply reads_num; auto; lia|]. rewrite app_assoc.
  replace (lp + Z.of_nat (length ([z] ++ zs)))%Z with (lp + 1 + Z.of_nat (length zs))%Z by (rewrite app_length; cbn [length]; lia). apply IH; auto. rewrite app_length. lia.
Qed.
Definition row_monos (r : row) (mp : Z) : poly := monos_from (row_entries r) (- Z.of_nat (length (r_neg r))) mp.
Lemma reads_row : forall cap r c s mp acc, Forall small (row_entries r) -> special c -> length acc + length (row_monos r mp) < cap ->
  reads cap (row_text r) (c :: s) mp (- Z.of_nat (length (r_neg r))) acc mp (1 + Z.of_nat (length (r_pos r))) (acc ++ row_monos r mp).
Proof.
  intros cap r c s mp acc F SP L. unfold row_monos, row_entries in *. apply Forall_app in F as (F1 & F2). inversion F2; subst. change (r_mid r :: r_pos r) with ([r_mid r] ++ r_pos r) in L |- *. rewrite !monos_app in L |- *. rewrite !app_length in L. rewrite Z.add_opp_diag_l in L |- *. change (0 + Z.of_nat (length [r_mid r]))%Z with 1%Z in L |- *.
  rewrite row_blocks. eapply reads_app; [apply reads_blocks; auto; lia|]. rewrite Z.add_opp_diag_l. eapply (reads_app cap [91]); [apply reads_skip; auto|]. cbn [app]. eapply reads_app; [apply (reads_num cap (r_mid r) 93); auto; [right; right; auto|rewrite app_length; lia]|]. eapply (reads_app cap [93]); [apply reads_skip; auto|].
  rewrite !app_assoc. apply reads_pos; auto. rewrite !app_length. cbn [length] in *. rewrite ?app_length in *. lia.
Qed.
(** the text after the outer brackets are gone *)
Fixpoint rows_plain (j before : nat) (rs : list row) : text :=
  match rs with
  | [] => []
  | r :: rs' => (if j =? before then [32] ++ row_text r ++ (match r_pos r with [] => [32] | _ => [93] end) else row_text r) ++ [78] ++ rows_plain (j + 1) before rs'
  end.
Fixpoint rows_monos (rs : list row) (mp : Z) : poly := match rs with [] => [] | r :: rs' => row_monos r mp ++ rows_monos rs' (mp + 1) end.
Lemma initial_rows : forall j before r rs t, initiallpower (rows_plain j before (r :: rs) ++ t) = Ok (- Z.of_nat (length (r_neg r)))%Z.
Proof.
  intros j before r rs t. cbn [rows_plain]. destruct (j =? before); rewrite <- !app_assoc; [apply (initial_row r [32]); auto|apply (initial_row r []); auto].
Qed.
Lemma reads_rows : forall cap before rs j mp lp acc, Forall (fun r => Forall small (row_entries r)) rs -> length acc + length (rows_monos rs mp) < cap -> initiallpower (rows_plain j before rs ++ [32]) = Ok lp ->
  exists mp' lp', reads cap (rows_plain j before rs) [32] mp lp acc mp' lp' (acc ++ rows_monos rs mp).
Proof.
  intros cap before. induction rs as [|r rs IH]; intros j mp lp acc F L I.
  - cbn. exists mp, lp. rewrite app_nil_r. apply reads_nil.
  - inversion F; subst. cbn [rows_monos] in L |- *. rewrite app_length in L. rewrite initial_rows in I. apply ok_inj in I. subst lp. cbn [rows_plain].
    assert (NI : exists lp', initiallpower (rows_plain (j + 1) before rs ++ [32]) = Ok lp') by (destruct rs; [eexists; reflexivity|rewrite initial_rows; eauto]). destruct NI as (lp' & NI).
    destruct (IH (j + 1) (mp + 1)%Z lp' (acc ++ row_monos r mp)) as (mp2 & lp2 & R); auto; [rewrite app_length; lia|]. exists mp2, lp2. rewrite (app_assoc acc).
    assert (ST : exists lq, reads cap (if j =? before then [32] ++ row_text r ++ (match r_pos r with [] => [32] | _ => [93] end) else row_text r) ([78] ++ rows_plain (j + 1) before rs ++ [32]) mp (- Z.of_nat (length (r_neg r))) acc mp lq (acc ++ row_monos r mp)).
    { exists (1 + Z.of_nat (length (r_pos r)))%Z. destruct (j =? before).
      - eapply reads_app; [apply reads_skip; auto|]. destruct (r_pos r) eqn:EP.
        + rewrite <- EP. eapply reads_app; [apply reads_row; auto; [left; auto|lia]|apply reads_skip; auto].
        + rewrite <- EP. eapply reads_app; [apply reads_row; auto; [right; right; auto|lia]|apply reads_skip; auto].
      - apply reads_row; auto; [right; right; right; auto|lia]. }
    destruct ST as (lq & ST). eapply reads_app; [exact ST|]. eapply reads_app; [apply reads_N; exact NI|exact R].
Qed.
(** ** the outer brackets *)
Definition quiet (c : nat) : Prop := plain c \/ c = 32.
Lemma find_quiet : forall X s i d st fin it mp, Forall quiet X -> find_mid (X ++ s) i d st fin it mp = find_mid s (i + length X) d st fin it mp.
Proof.
  induction X as [|c X IH]; intros s i d st fin it mp F; [cbn; rewrite Nat.add_0_r; auto|]. inversion F as [|? ? Q F']; subst. cbn [app find_mid length].
  assert (T : (c =? 91) = false /\ (c =? 93) = false /\ (c =? 78) = false) by (destruct Q as [Q | ->]; [destruct (plain_tests c Q) as (_ & A & B & C & _); auto|auto]). destruct T as (T1 & T2 & T3). unfold ch_open, ch_close, ch_N. rewrite T1, T2, T3, IH by auto. f_equal. lia.
Qed.
Lemma blocks_quiet : forall zs, Forall quiet (blocks zs).
Proof.
  induction zs as [|z zs IH]; [constructor|]. cbn [blocks flat_map]. destruct (decimal_plain z) as (c & X & -> & P1 & P2). repeat (apply Forall_app; split); auto; [constructor; [left; auto|eapply Forall_impl; [|exact P2]; intros; left; auto]|constructor; [right; auto|constructor]].
Qed.
Lemma pos_quiet : forall zs, Forall quiet (flat_map (fun z => 32 :: decimal z) zs).
Proof.
  induction zs as [|z zs IH]; [constructor|]. cbn [flat_map]. destruct (decimal_plain z) as (c & X & -> & P1 & P2). cbn [app]. constructor; [right; auto|]. constructor; [left; auto|]. apply Forall_app. split; auto. eapply Forall_impl; [|exact P2]; intros; left; auto.
Qed.
Lemma decimal_quiet : forall z, Forall quiet (decimal z).
Proof. intros z. destruct (decimal_plain z) as (c & X & -> & P1 & P2). constructor; [left; auto|eapply Forall_impl; [|exact P2]; intros; left; auto]. Qed.
Lemma find_row : forall r s i st fin mp, find_mid (row_text r ++ [78] ++ s) i 0 st fin false mp = find_mid s (i + length (row_text r ++ [78])) 0 (i + length (blocks (r_neg r))) fin false (mp - 1).
Proof.
  intros r s i st fin mp. rewrite row_blocks. set (B := blocks (r_neg r)). set (D := decimal (r_mid r)). set (P := flat_map _ _).
  repeat (rewrite <- app_assoc || rewrite <- app_comm_cons). rewrite find_quiet by apply blocks_quiet. cbn [find_mid]. change (91 =? ch_open) with true. cbn [Z.eqb]. rewrite find_quiet by apply decimal_quiet. cbn [find_mid]. change (93 =? ch_open) with false. change (93 =? ch_close) with true. cbn [andb]. rewrite find_quiet by apply pos_quiet. cbn [app find_mid].
  change (78 =? ch_open) with false. change (78 =? ch_close) with false. change (78 =? ch_N) with true. cbv iota. f_equal. repeat (rewrite app_length || cbn [length]). unfold B, D, P. lia.
Qed.
Lemma find_mid_row : forall r s i st fin mp, find_mid ([91] ++ row_text r ++ s) i 0 st fin false mp =
  (i, i + 1 + length (blocks (r_neg r) ++ 91 :: decimal (r_mid r) ++ [93]), true, mp).
Proof.
  intros r s i st fin mp. rewrite row_blocks. repeat (rewrite <- app_assoc || rewrite <- app_comm_cons). cbn [app find_mid]. change (91 =? ch_open) with true. cbn [Z.eqb]. rewrite find_quiet by apply blocks_quiet. cbn [find_mid]. change (91 =? ch_open) with true. cbn [Z.eqb]. cbv iota.
  rewrite find_quiet by apply decimal_quiet. cbn [find_mid]. change (93 =? ch_open) with false. change (93 =? ch_close) with true. cbn [andb Z.eqb Z.sub Z.add Z.opp Z.pos_sub]. cbv iota. f_equal. f_equal. f_equal. rewrite !app_length. cbn [length]. rewrite !app_length. cbn [length]. lia.
Qed.
(** everything up to the outer bracket, the text inside up to the closing bracket of the power 0, and the rest *)
Lemma rows_after : forall rs j before, before < j -> rows_plain j before rs = rows_text j before rs.
Proof. induction rs as [|r rs IH]; intros j before L; auto. cbn [rows_plain rows_text]. rewrite (proj2 (Nat.eqb_neq j before)) by lia. rewrite IH by lia. reflexivity. Qed.
Lemma text_split : forall rs j before mp i st fin, j <= before -> before - j < length rs ->
  exists A B x C, rows_text j before rs = A ++ 91 :: B ++ x :: C /\ rows_plain j before rs = A ++ 32 :: B ++ 32 :: C /\
    forall s, find_mid (rows_text j before rs ++ s) i 0 st fin false mp = (i + length A, i + length A + 1 + length B, true, (mp - Z.of_nat (before - j))%Z).
Proof.
  induction rs as [|r rs IH]; intros j before mp i st fin LJ LB; [cbn in LB; lia|]. cbn [rows_text rows_plain]. destruct (Nat.eqb_spec j before) as [E|E].
  - subst j. rewrite Nat.sub_diag in *. set (B := blocks (r_neg r) ++ 91 :: decimal (r_mid r) ++ [93]). rewrite rows_after by lia. set (R := rows_text (before + 1) before rs).
    assert (FM : forall s, find_mid ((([91] ++ row_text r ++ [93]) ++ [78] ++ R) ++ s) i 0 st fin false mp = (i + length (@nil nat), i + length (@nil nat) + 1 + length B, true, (mp - Z.of_nat 0)%Z)).
    { intros s. repeat rewrite <- app_assoc. rewrite find_mid_row. cbn [length]. fold B. rewrite Nat.add_0_r, Z.sub_0_r. reflexivity. }
    destruct (r_pos r) as [|z zs] eqn:EP.
    + assert (RT : row_text r = B) by (rewrite row_blocks, EP; reflexivity). exists [], B, 93, ([78] ++ R). split; [rewrite RT; cbn; rewrite <- !app_assoc; reflexivity|]. split; [rewrite RT; cbn; rewrite <- !app_assoc; reflexivity|]. exact FM.
    + assert (RT : row_text r = B ++ 32 :: decimal z ++ flat_map (fun z => 32 :: decimal z) zs) by (rewrite row_blocks, EP; unfold B; cbn [flat_map]; repeat (rewrite <- app_assoc || rewrite <- app_comm_cons); reflexivity).
      exists [], B, 32, (decimal z ++ flat_map (fun z => 32 :: decimal z) zs ++ [93] ++ [78] ++ R). split; [rewrite RT; cbn [app]; repeat (rewrite <- app_assoc || rewrite <- app_comm_cons); reflexivity|]. split; [rewrite RT; cbn [app]; repeat (rewrite <- app_assoc || rewrite <- app_comm_cons); reflexivity|]. exact FM.
  - destruct (IH (j + 1) before (mp - 1)%Z (i + length (row_text r ++ [78])) (i + length (blocks (r_neg r))) fin) as (A & B & x & C & E1 & E2 & FM); [lia|cbn [length] in LB; lia|].
    exists ((row_text r ++ [78]) ++ A), B, x, C. rewrite E1, E2. split; [cbn; rewrite <- !app_assoc; reflexivity|]. split; [cbn; rewrite <- !app_assoc; reflexivity|].
    intros s. rewrite <- E1. repeat rewrite <- app_assoc. change (txt "N") with [78]. rewrite find_row. rewrite FM. replace (mp - 1 - Z.of_nat (before - (j + 1)))%Z with (mp - Z.of_nat (before - j))%Z by lia. rewrite !app_length, !Nat.add_assoc. reflexivity.
Qed.
(** ** the polynomial that is read *)
Lemma cstr_zero : forall s k, Forall (fun c => c <> 0) s -> cstr (s ++ repeat 0 k) = s.
Proof.
  induction s as [|c s IH]; intros k F; [destruct k; reflexivity|]. inversion F; subst. cbn [app cstr]. rewrite (proj2 (Nat.eqb_neq c 0)) by auto. f_equal. auto.
Qed.
Lemma upd_mid : forall {A} (X : list A) a b Y, upd (length X) b (X ++ a :: Y) = X ++ b :: Y.
Proof. intros A. induction X as [|x X IH]; intros a b Y; cbn; auto. f_equal. auto. Qed.
Lemma quiet_nonzero : forall X, Forall quiet X -> Forall (fun c => c <> 0) X.
Proof. intros X F. eapply Forall_impl; [|exact F]. intros c [H| ->]; [|discriminate]. destruct (plain_tests c H) as (_ & _ & _ & _ & T & _). apply Nat.eqb_neq. auto. Qed.
Lemma row_nonzero : forall r, Forall (fun c => c <> 0) (row_text r).
Proof.
  intros r. rewrite row_blocks. apply Forall_app. split; [apply quiet_nonzero, blocks_quiet|]. constructor; [discriminate|]. apply Forall_app. split; [apply quiet_nonzero, decimal_quiet|]. constructor; [discriminate|apply quiet_nonzero, pos_quiet].
Qed.
Lemma rows_nonzero : forall rs j before, Forall (fun c => c <> 0) (rows_plain j before rs).
Proof.
  induction rs as [|r rs IH]; intros j before; [constructor|]. cbn [rows_plain]. apply Forall_app. split; [|apply Forall_app; split; [constructor; [discriminate|constructor]|apply IH]].
  destruct (j =? before); [|apply row_nonzero]. apply Forall_app. split; [constructor; [discriminate|constructor]|]. apply Forall_app. split; [apply row_nonzero|]. destruct (r_pos r); constructor; try discriminate; constructor.
Qed.
Lemma monos_count : forall zs lp mp, length (monos_from zs lp mp) = length (filter (fun z => negb (Z.eqb z 0)) zs).
Proof. induction zs as [|z zs IH]; intros lp mp; auto. cbn [monos_from filter]. rewrite app_length, IH. destruct (Z.eqb z 0); reflexivity. Qed.
Lemma rows_count : forall rs mp, length (rows_monos rs mp) = length (filter (fun z => negb (Z.eqb z 0)) (flat_map row_entries rs)).
Proof. induction rs as [|r rs IH]; intros mp; auto. cbn [rows_monos flat_map]. unfold row_monos. rewrite app_length, filter_app, app_length, IH, monos_count. reflexivity. Qed.
Lemma raw_read : forall T, t_before T < length (t_rows T) -> Forall small (entries T) -> nonzeros T <= spaces (table_text T) ->
  lmpoly_to_polynomial (table_text T) = Ok (isort mono_le (rows_monos (t_rows T) (- Z.of_nat (t_before T)))).
Proof.
  intros [rs before] HB SM SP. unfold nonzeros, entries, spaces, table_text in *. cbn [t_rows t_before] in *. change (txt " ") with [32] in *.
  destruct (text_split rs 0 before 0%Z 0 0 0) as (A & B & x & C & E1 & E2 & FM); [lia|lia|]. unfold lmpoly_to_polynomial. rewrite FM. rewrite Nat.sub_0_r, !Nat.add_0_l, Z.sub_0_l in *.
  assert (WB : without_brackets (rows_text 0 before rs ++ [32]) (length A) (length A + 1 + length B) true = rows_plain 0 before rs ++ [32]).
  { unfold without_brackets. rewrite E1, E2. replace (((A ++ 91 :: B ++ x :: C) ++ [32]) ++ repeat 0 10) with (A ++ 91 :: B ++ x :: (C ++ [32] ++ repeat 0 10)) by (repeat (rewrite <- app_assoc || rewrite <- app_comm_cons); reflexivity).
    rewrite upd_mid. replace (A ++ ch_sp :: B ++ x :: C ++ [32] ++ repeat 0 10) with ((A ++ ch_sp :: B) ++ x :: C ++ [32] ++ repeat 0 10) by (repeat (rewrite <- app_assoc || rewrite <- app_comm_cons); reflexivity).
    replace (length A + 1 + length B) with (length (A ++ ch_sp :: B)) by (rewrite app_length; cbn [length]; lia). rewrite upd_mid.
    replace ((A ++ ch_sp :: B) ++ ch_sp :: C ++ [32] ++ repeat 0 10) with (((A ++ 32 :: B ++ 32 :: C) ++ [32]) ++ repeat 0 10) by (repeat (rewrite <- app_assoc || rewrite <- app_comm_cons); reflexivity).
    apply cstr_zero. rewrite <- E2. apply Forall_app. split; [apply rows_nonzero|constructor; [discriminate|constructor]]. }
  rewrite WB. set (cap := count_occ Nat.eq_dec (rows_plain 0 before rs ++ [32]) ch_sp).
  assert (CAP : length (rows_monos rs (- Z.of_nat before)) < cap).
  { rewrite rows_count. eapply Nat.le_lt_trans; [exact SP|]. unfold cap. rewrite E1, E2. rewrite !count_occ_app. unfold ch_sp. rewrite !count_occ_cons_neq with (x := 91) by discriminate. rewrite !count_occ_cons_eq with (x := 32) by auto. rewrite !count_occ_app. rewrite count_occ_cons_eq with (x := 32) by auto.
    destruct (Nat.eq_dec x 32) as [->|N]; [rewrite count_occ_cons_eq by auto; lia|rewrite count_occ_cons_neq by auto; lia]. }
  assert (IR : exists lp, initiallpower (rows_plain 0 before rs ++ [32]) = Ok lp) by (destruct rs; [cbn in HB; lia|rewrite initial_rows; eauto]). destruct IR as (lp & IR). rewrite IR. cbn [bind].
  assert (F : Forall (fun r => Forall small (row_entries r)) rs). { apply Forall_forall. intros r Hr. rewrite Forall_forall in *. intros z Hz. apply SM. apply in_flat_map. eauto. }
  destruct (reads_rows cap before rs 0 (- Z.of_nat before)%Z lp [] F ltac:(cbn [length]; lia) IR) as (mp' & lp' & R).
  destruct (R (length (rows_plain 0 before rs ++ [32]) + 1)) as (f & Lf & Ef); [lia|]. rewrite Ef. destruct f as [|[|f]]; cbn in Lf; try lia. reflexivity.
Qed.
(** ** its coefficients *)
Lemma coef_monos : forall zs lp mp l m, coef (monos_from zs lp mp) l m = (if Z.eqb m mp && Z.leb lp l then nth (Z.to_nat (l - lp)) zs 0 else 0)%Z.
Proof.
  induction zs as [|z zs IH]; intros lp mp l m; cbn [monos_from].
  - cbn. destruct (_ && _); auto. destruct (Z.to_nat (l - lp)); auto.
  - rewrite coef_app, IH. destruct (Z.eqb_spec m mp) as [->|Nm]; cbn [andb].
    + destruct (Z.leb_spec (lp + 1) l).
      * rewrite (proj2 (Z.leb_le lp l)) by lia. replace (Z.to_nat (l - lp)) with (S (Z.to_nat (l - (lp + 1)))) by lia. cbn [nth]. destruct (Z.eqb z 0); cbn [coef fold_right lexp mexp]; [lia|]. rewrite (proj2 (Z.eqb_neq lp l)) by lia. cbn [andb]. lia.
      * destruct (Z.leb_spec lp l).
        -- replace l with lp by lia. rewrite Z.sub_diag. cbn [Z.to_nat nth]. destruct (Z.eqb_spec z 0); cbn [coef fold_right lexp mexp coeff]; [lia|]. rewrite !Z.eqb_refl. cbn [andb]. lia.
        -- destruct (Z.eqb z 0); cbn [coef fold_right lexp mexp]; [lia|]. rewrite (proj2 (Z.eqb_neq lp l)) by lia. cbn [andb]. lia.
    + destruct (Z.eqb z 0); cbn [coef fold_right lexp mexp]; [lia|]. rewrite (proj2 (Z.eqb_neq mp m)) by auto. rewrite andb_false_r. lia.
Qed.
Lemma coef_row : forall r mp l m, coef (row_monos r mp) l m = (if Z.eqb m mp then row_entry r l else 0)%Z.
Proof.
  intros r mp l m. unfold row_monos. rewrite coef_monos. destruct (Z.eqb m mp); cbn [andb]; auto. unfold row_entries, row_entry. destruct (Z.ltb_spec l 0) as [L|L].
  - destruct (Z.ltb_spec (Z.of_nat (length (r_neg r)) + l) 0) as [L'|L']; [rewrite (proj2 (Z.leb_gt _ _)) by lia; auto|]. rewrite (proj2 (Z.leb_le _ _)) by lia. rewrite app_nth1 by lia. f_equal. lia.
  - rewrite (proj2 (Z.leb_le _ _)) by lia. rewrite app_nth2 by lia. destruct (Z.eqb_spec l 0) as [->|N0].
    + replace (Z.to_nat (0 - - Z.of_nat (length (r_neg r))) - length (r_neg r)) with 0 by lia. reflexivity.
    + replace (Z.to_nat (l - - Z.of_nat (length (r_neg r))) - length (r_neg r)) with (S (Z.to_nat (l - 1))) by lia. reflexivity.
Qed.
Lemma coef_rows : forall rs mp l m, coef (rows_monos rs mp) l m = (if Z.ltb m mp then 0 else match nth_error rs (Z.to_nat (m - mp)) with Some r => row_entry r l | None => 0 end)%Z.
Proof.
  induction rs as [|r rs IH]; intros mp l m; cbn [rows_monos].
  - cbn [coef fold_right]. destruct (Z.ltb m mp); auto. destruct (Z.to_nat (m - mp)); auto.
  - rewrite coef_app, coef_row, IH. destruct (Z.eqb_spec m mp) as [->|N].
    + rewrite (proj2 (Z.ltb_lt _ _)) by lia. rewrite Z.ltb_irrefl, Z.sub_diag. cbn. lia.
    + destruct (Z.ltb_spec m mp); [rewrite (proj2 (Z.ltb_lt _ _)) by lia; auto|]. rewrite (proj2 (Z.ltb_ge _ _)) by lia. replace (Z.to_nat (m - mp)) with (S (Z.to_nat (m - (mp + 1)))) by lia. reflexivity.
Qed.
Definition key (t : mono) : Z * Z := (lexp t, mexp t).
Lemma monos_in : forall zs lp mp t, In t (monos_from zs lp mp) -> mexp t = mp /\ (lp <= lexp t)%Z /\ coeff t <> 0%Z /\ In (coeff t) zs /\ (lexp t < lp + Z.of_nat (length zs))%Z.
Proof.
  induction zs as [|z zs IH]; intros lp mp t H; [destruct H|]. cbn [monos_from] in H. apply in_app_or in H as [H|H].
  - destruct (Z.eqb_spec z 0); [destruct H|]. destruct H as [<-|[]]. cbn. repeat split; auto; lia.
  - apply IH in H as (A & B & C & D & E). cbn [length In]. repeat split; auto; lia.
Qed.
Lemma monos_keys : forall zs lp mp, NoDup (map key (monos_from zs lp mp)).
Proof.
  induction zs as [|z zs IH]; intros lp mp; [constructor|]. cbn [monos_from]. destruct (Z.eqb z 0); cbn [app map]; auto. constructor; auto. intros H. apply in_map_iff in H as (t & E & H). apply monos_in in H as (_ & B & _). unfold key in E. cbn in E. injection E as E1 E2. lia.
Qed.
Lemma rows_in : forall rs mp t, In t (rows_monos rs mp) -> (mp <= mexp t)%Z /\ coeff t <> 0%Z.
Proof.
  induction rs as [|r rs IH]; intros mp t H; [destruct H|]. cbn [rows_monos] in H. apply in_app_or in H as [H|H]; [apply monos_in in H as (A & B & C & _); split; auto; lia|apply IH in H as (A & B); split; auto; lia].
Qed.
Lemma nodup_app : forall {A} (l l' : list A), NoDup l -> NoDup l' -> (forall x, In x l -> ~ In x l') -> NoDup (l ++ l').
Proof.
  intros A. induction l as [|a l IH]; intros l' N1 N2 D; auto. inversion N1; subst. cbn [app]. constructor; [intros H; apply in_app_or in H as [H|H]; auto; apply (D a); auto; left; auto|]. apply IH; auto. intros x Hx. apply D. right. auto.
Qed.
Lemma rows_keys : forall rs mp, NoDup (map key (rows_monos rs mp)).
Proof.
  induction rs as [|r rs IH]; intros mp; [constructor|]. cbn [rows_monos]. rewrite map_app. apply nodup_app; auto; [apply monos_keys|]. intros k H1 H2. apply in_map_iff in H1 as (t1 & <- & H1). apply in_map_iff in H2 as (t2 & E & H2). apply monos_in in H1 as (A & _). apply rows_in in H2 as (B & _). unfold key in E. injection E as E1 E2. lia.
Qed.
Lemma sorted_strict : forall p, NoDup (map key p) -> StronglySorted (lep mono_le) p -> StronglySorted key_lt p.
Proof.
  intros p N S. induction S as [|t p S IH F]; constructor; cbn [map] in N; inversion N as [|? ? N1 N2]; subst; auto. rewrite Forall_forall in *. intros t' H. specialize (F t' H). apply mono_le_spec in F as [F|(F & _)]; auto.
  exfalso. apply N1. destruct F as (E1 & E2). unfold key at 1. rewrite E1, E2. apply (in_map key) in H. exact H.
Qed.
Theorem table_read : forall T, t_before T < length (t_rows T) -> Forall small (entries T) -> nonzeros T <= spaces (table_text T) ->
  exists p, lmpoly_to_polynomial (table_text T) = Ok p /\ normal p /\ forall l m, coef p l m = entry T l m.
Proof.
  intros T HB SM SP. eexists. split; [apply raw_read; auto|]. set (ms := rows_monos _ _). pose proof (isort_perm mono_le ms) as P. split; [split|].
  - apply Forall_forall. intros t H. apply (Permutation_in t P) in H. apply rows_in in H. apply H.
  - apply sorted_strict; [|apply isort_sorted; [apply le_total|apply le_trans]]. eapply Permutation_NoDup; [apply Permutation_map; symmetry; exact P|apply rows_keys].
  - intros l m. rewrite (coef_perm _ _ P). unfold ms. rewrite coef_rows. unfold entry. replace (m - - Z.of_nat (t_before T))%Z with (m + Z.of_nat (t_before T))%Z by lia. destruct (Z.ltb_spec m (- Z.of_nat (t_before T))), (Z.ltb_spec (m + Z.of_nat (t_before T)) 0); auto; lia.
Qed.
