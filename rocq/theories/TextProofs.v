(** Reading back what was written. *)
From Coq Require Import List NArith ZArith Lia Bool Arith Ascii String.
From Verif Require Import Base Iterators Perm Pd PdCross PdHash OverUnder TextIO.
Import ListNotations.
Open Scope nat_scope.
Open Scope res_scope.

Definition digits_text (t : text) : Prop := t <> [] /\ Forall (fun c => isdigit c = true) t.
Lemma digit_char : forall n, (n < 10)%N -> isdigit (48 + N.to_nat n) = true.
Proof. intros n H. unfold isdigit. apply andb_true_iff. rewrite !Nat.leb_le. lia. Qed.

Lemma show_digits_app : forall k n a b, show_digits k n (a ++ b) = show_digits k n a ++ b.
Proof.
  induction k; intros n a b; cbn [show_digits]; auto.
  destruct (n <? 10)%N; cbn [app]; auto. change (?x :: a ++ b) with ((x :: a) ++ b). apply IHk.
Qed.
Lemma show_digits_digits : forall k n a, Forall (fun c => isdigit c = true) a ->
  Forall (fun c => isdigit c = true) (show_digits k n a) /\ (k <> 0 \/ a <> [] -> show_digits k n a <> []).
Proof.
  induction k; intros n a F; cbn [show_digits].
  - split; auto. intros [?|?]; congruence.
  - assert (F' : Forall (fun c => isdigit c = true) (48 + N.to_nat (n mod 10) :: a)).
    { constructor; auto. apply digit_char. apply N.mod_lt. lia. }
    destruct (n <? 10)%N.
    + split; auto. intros _; discriminate.
    + destruct (IHk (n / 10)%N _ F') as (G1 & G2). split; auto. intros _. apply G2. right. discriminate.
Qed.
Lemma show_is_digits : forall n, digits_text (show n).
Proof.
  intros n. destruct (show_digits_digits (S (N.size_nat n)) n [] (Forall_nil _)) as (A & B). split; auto.
Qed.

Lemma read_digits_cons : forall a c s, read_digits a (c :: s) = if isdigit c then read_digits (10 * a + N.of_nat (c - 48)) s else (a, c :: s).
Proof. reflexivity. Qed.
Lemma read_show_digits : forall k n rest, (n < 2 ^ N.of_nat k)%N ->
  read_digits 0 (show_digits (S k) n [] ++ rest) = read_digits n rest.
Proof.
  intros k n rest. rewrite <- show_digits_app. cbn [app]. revert n rest.
  induction k; intros n rest H.
  - assert (n = 0%N) by (cbn in H; lia). subst. cbn. reflexivity.
  - cbn [show_digits]. assert (M : (n mod 10 < 10)%N) by (apply N.mod_lt; lia).
    assert (D : (n = 10 * (n / 10) + n mod 10)%N) by (apply N.div_mod; lia).
    assert (St : forall a r, read_digits a (48 + N.to_nat (n mod 10) :: r) = read_digits (10 * a + n mod 10) r).
    { intros a r. rewrite read_digits_cons, digit_char by auto. rewrite (Nat.add_comm 48), Nat.add_sub, N2Nat.id. reflexivity. }
    destruct (N.ltb_spec n 10).
    + rewrite St. f_equal. rewrite N.mod_small by auto. lia.
    + change (if (n / 10 <? 10)%N then ?a else ?b) with (show_digits (S k) (n / 10) (48 + N.to_nat (n mod 10) :: rest)).
      rewrite IHk.
      * rewrite St. f_equal. lia.
      * rewrite Nat2N.inj_succ, N.pow_succ_r' in H. apply N.div_lt_upper_bound; lia.
Qed.
Lemma read_show : forall n rest, read_digits 0 (show n ++ rest) = read_digits n rest.
Proof.
  intros n rest. unfold show. apply read_show_digits.
  destruct n as [|p]; [cbn; lia|]. cbn [N.size_nat].
  pose proof (Pos.size_gt p) as G. rewrite <- (Pos2Nat.id (Pos.size p)) in G.
  assert (Pos.to_nat (Pos.size p) = Pos.size_nat p).
  { clear G. induction p; cbn [Pos.size Pos.size_nat]; rewrite ?Pos2Nat.inj_succ, ?IHp; auto. }
  rewrite Pos2Nat.id in G. rewrite <- H, positive_nat_N. exact G.
Qed.

(** * White space *)
Lemma skip_skip : forall s, skip (skip s) = skip s.
Proof. induction s as [|c s IH]; auto. cbn [skip]. destruct (isspace c) eqn:E; auto. cbn [skip]. rewrite E. auto. Qed.
Lemma digit_not_space : forall c, isdigit c = true -> isspace c = false.
Proof.
  intros c H. unfold isdigit in H. unfold isspace. apply andb_true_iff in H as (A & B).
  apply Nat.leb_le in A, B. destruct (Nat.eqb_spec c 32); [lia|]. destruct (Nat.leb_spec c 13); [lia|]. now rewrite andb_false_r.
Qed.
Lemma skip_digits : forall n s, skip (show n ++ s) = show n ++ s.
Proof.
  intros n s. destruct (show_is_digits n) as (A & B). destruct (show n) as [|c t]; [congruence|].
  inversion B; subst. cbn [app skip]. rewrite digit_not_space; auto.
Qed.
Definition no_digit (s : text) : Prop := match s with c :: _ => isdigit c = false | [] => True end.
Lemma read_digits_stop : forall a s, no_digit s -> read_digits a s = (a, s).
Proof. intros a [|c s] H; auto. cbn in *. now rewrite H. Qed.

Lemma scan_number : forall n rest, (n <= ulong_max)%N -> no_digit rest -> scan_ulong (show n ++ rest) = Some (n, rest).
Proof.
  intros n rest Hn Hr. unfold scan_ulong. rewrite skip_digits.
  destruct (show_is_digits n) as (A & B). pose proof (read_show n rest) as R. destruct (show n) as [|c t]; [congruence|].
  inversion B; subst. cbn [app] in *.
  assert (E1 : c =? 43 = false /\ c =? 45 = false).
  { unfold isdigit in H1. apply andb_true_iff in H1 as (X & Y). apply Nat.leb_le in X, Y. rewrite !Nat.eqb_neq. lia. }
  destruct E1 as (-> & ->). rewrite H1, R, read_digits_stop by auto. cbn [fst snd]. unfold to_ulong.
  destruct (N.ltb_spec ulong_max n); [lia|]. reflexivity.
Qed.
(** leading white space *)
Lemma scan_number_skip : forall s, scan_ulong (skip s) = scan_ulong s.
Proof. intros s. unfold scan_ulong. rewrite skip_skip. reflexivity. Qed.

Lemma num1_skip : forall f s, num1 (Ws :: f) (skip s) = num1 (Ws :: f) s.
Proof. intros f s. unfold num1. cbn [scan]. now rewrite skip_skip. Qed.
Lemma num4_skip : forall f s, num4 (Ws :: f) (skip s) = num4 (Ws :: f) s.
Proof. intros f s. unfold num4. cbn [scan]. now rewrite skip_skip. Qed.

(** the digits, then white space *)
Lemma num_ws : forall n rest, (n <= ulong_max)%N -> no_digit rest -> num1 [Ws; ULong; Ws] (show n ++ rest) = Some (n, skip rest).
Proof. intros n rest H R. unfold num1. cbn [scan]. rewrite skip_digits, scan_number by auto. reflexivity. Qed.

Definition bound32 (n : nat) : Prop := (N.of_nat n < 2 ^ 32)%N.
Lemma bound_ulong : forall n, bound32 n -> (N.of_nat n <= ulong_max)%N.
Proof. intros n H. unfold bound32 in H. unfold ulong_max. change (2 ^ 32)%N with 4294967296%N in H. lia. Qed.
Lemma idx_of_nat : forall n, bound32 n -> idx (N.of_nat n) = n.
Proof. intros n H. unfold idx. change 4294967296%N with (2 ^ 32)%N. rewrite N.mod_small by auto. apply Nat2N.id. Qed.

Lemma read_idx_skip : forall s, read_idx (skip s) = read_idx s.
Proof. intros s. unfold read_idx. change (fmt " %lu ") with [Ws; ULong; Ws]. now rewrite num1_skip. Qed.
Lemma read_idx_show : forall n rest, bound32 n -> no_digit rest -> read_idx (show_nat n ++ rest) = Ok (Some (n, skip rest)).
Proof.
  intros n rest H R. unfold read_idx, show_nat. change (fmt " %lu ") with [Ws; ULong; Ws].
  rewrite num_ws by (auto using bound_ulong). cbn [try_ bind]. now rewrite idx_of_nat.
Qed.

(** * Records *)
Lemma read_many_exact {A} (f : text -> res (option (A * text))) (w : A -> text) : forall l rest,
  (forall a r, In a l -> f (skip (w a ++ r)) = Ok (Some (a, skip r))) ->
  read_many f (List.length l) (skip (flat_map w l ++ rest)) = Ok (Some (l, skip rest)).
Proof.
  induction l as [|a l IH]; intros rest H; auto.
  cbn [flat_map List.length read_many]. rewrite <- app_assoc, H by (left; auto). cbn [try_ bind].
  rewrite IH by (intros; apply H; right; auto). reflexivity.
Qed.

Lemma tx : forall s, txt s = map nat_of_ascii (list_ascii_of_string s). Proof. reflexivity. Qed.
Ltac texts := rewrite ?tx; cbn [list_ascii_of_string map nat_of_ascii N_of_ascii N_of_digits] in *.

(** crossings *)
Definition no_sign (s : text) : Prop := match s with c :: _ => plus_minus c = false | [] => True end.
Lemma digit_no_sign : forall n s, no_sign (show n ++ s).
Proof.
  intros n s. destruct (show_is_digits n) as (A & B). destruct (show n) as [|c t]; [congruence|].
  inversion B; subst. cbn. unfold isdigit in H1. unfold plus_minus. apply andb_true_iff in H1 as (X & Y). apply Nat.leb_le in X, Y.
  apply orb_false_iff. rewrite !Nat.eqb_neq. lia.
Qed.
Lemma read_idx_space : forall n rest, bound32 n -> read_idx (show_nat n ++ 32 :: rest) = Ok (Some (n, skip rest)).
Proof. intros n rest H. rewrite read_idx_show; auto. reflexivity. Qed.
Lemma read_cross_skip : forall s, read_cross (skip s) = read_cross s.
Proof. intros s. unfold read_cross. now rewrite read_idx_skip. Qed.
Definition cross_small (x : crossing) : Prop := bound32 (ce0 x) /\ bound32 (ce1 x) /\ bound32 (ce2 x) /\ bound32 (ce3 x).
Lemma read_cross_line : forall x rest, cross_small x -> no_sign (skip rest) ->
  exists s, read_cross (cross_line x ++ rest) = Ok (Some (x, s)) /\ skip s = skip rest.
Proof.
  intros x rest (H0 & H1 & H2 & H3) NS. unfold cross_line, read_cross. cbn [flat_map].
  change (txt " ") with [32]. rewrite <- !app_assoc. cbn [app].
  rewrite read_idx_space by auto. cbn [try_ bind]. rewrite read_idx_skip, read_idx_space by auto. cbn [try_ bind].
  rewrite read_idx_skip, read_idx_space by auto. cbn [try_ bind]. rewrite read_idx_skip, read_idx_space by auto. cbn [try_ bind].
  destruct x as [a b c e sg]; cbn [csign ce0 ce1 ce2 ce3] in *. destruct sg.
  - change (skip (sign_text Pos ++ 10 :: rest)) with (43 :: 10 :: rest). cbn. eexists; split; reflexivity.
  - change (skip (sign_text Neg ++ 10 :: rest)) with (45 :: 10 :: rest). cbn. eexists; split; reflexivity.
  - change (skip (sign_text Unset ++ 10 :: rest)) with (skip rest).
    destruct (skip rest) as [|y s] eqn:E; [eexists; split; reflexivity|].
    cbn in NS. unfold plus_minus in NS. apply orb_false_iff in NS as (-> & ->). eexists; split; [reflexivity|].
    rewrite <- E. apply skip_skip.
Qed.
Lemma read_crosses : forall l s rest, Forall cross_small l -> no_sign (skip rest) -> skip s = skip (flat_map cross_line l ++ rest) ->
  exists s', read_many read_cross (List.length l) s = Ok (Some (l, s')) /\ skip s' = skip rest.
Proof.
  induction l as [|x l IH]; intros s rest F NS E.
  - exists s. split; auto.
  - inversion F as [|? ? Fx Fl]; subst. cbn [flat_map List.length read_many]. rewrite <- read_cross_skip, E, read_cross_skip.
    cbn [flat_map]. rewrite <- app_assoc.
    assert (NS' : no_sign (skip (flat_map cross_line l ++ rest))).
    { destruct l as [|y l]; auto. cbn [flat_map]. unfold cross_line at 1. cbn [flat_map]. unfold show_nat.
      rewrite <- !app_assoc, skip_digits. apply digit_no_sign. }
    destruct (read_cross_line x _ Fx NS') as (s1 & -> & E1). cbn [try_ bind].
    destruct (IH s1 rest Fl NS E1) as (s2 & -> & E2). cbn [try_ bind]. exists s2. auto.
Qed.

(** edges *)
Definition edge_small (E : edge) : Prop :=
  bound32 (e_head E) /\ e_headpos E < 4 /\ bound32 (e_tail E) /\ e_tailpos E < 4.
Lemma small_pos : forall p, p < 4 -> bound32 p.
Proof. intros p H. unfold bound32. change (2 ^ 32)%N with 4294967296%N. lia. Qed.
Lemma show_end_set : forall c p, p < 4 -> show_end c p = show_nat c ++ 44 :: show_nat p.
Proof. intros c p H. unfold show_end. destruct (Nat.eqb_spec p 4); [lia|]. reflexivity. Qed.
Lemma read_edge_line : forall E rest, edge_small E -> read_edge (skip (edge_line E ++ rest)) = Ok (Some (E, skip rest)).
Proof.
  intros [h hp t tp] rest (H1 & H2 & H3 & H4). cbn [e_head e_headpos e_tail e_tailpos] in *. unfold edge_line, read_edge.
  cbn [e_head e_headpos e_tail e_tailpos]. rewrite !show_end_set by auto.
  change (txt " -> ") with [32; 45; 62; 32]. change (txt " ") with [32].
  change (fmt " %lu,%lu -> %lu,%lu ") with [Ws; ULong; Lit 44; ULong; Ws; Lit 45; Lit 62; Ws; ULong; Lit 44; ULong; Ws].
  rewrite num4_skip. rewrite <- !app_assoc. cbn [app].
  unfold num4, show_nat. cbn [scan]. pose proof (small_pos _ H2). pose proof (small_pos _ H4).
  rewrite skip_digits, scan_number by (auto using bound_ulong; reflexivity). cbn [Nat.eqb].
  rewrite scan_number by (auto using bound_ulong; reflexivity).
  change (skip (32 :: 45 :: ?r)) with (45 :: r). cbn [Nat.eqb]. change (skip (32 :: ?r)) with (skip r).
  rewrite skip_digits, scan_number by (auto using bound_ulong; reflexivity). cbn [Nat.eqb].
  rewrite scan_number by (auto using bound_ulong; reflexivity). cbn [fst snd try_ bind].
  rewrite !idx_of_nat by auto. reflexivity.
Qed.

(** components *)
Definition tag_fine (t : Z) : Prop := (-128 <= t < 128)%Z /\ isspace (tag_byte t) = false.
Lemma tag_back : forall t, (-128 <= t < 128)%Z -> as_char (tag_byte t) = t.
Proof.
  intros t H. unfold as_char, tag_byte. destruct (Z.ltb_spec t 0).
  - replace (t mod 256)%Z with (t + 256)%Z by (rewrite <- (Z.mod_add t 1 256) by lia; rewrite Z.mod_small; lia).
    destruct (Nat.leb_spec 128 (Z.to_nat (t + 256))); lia.
  - rewrite Z.mod_small by lia. destruct (Nat.leb_spec 128 (Z.to_nat t)); lia.
Qed.
Lemma num_colon : forall n rest, bound32 n -> num1 (fmt " %lu : ") (skip (show_nat n ++ 32 :: 58 :: 32 :: rest)) = Some (N.of_nat n, skip rest).
Proof.
  intros n rest H. change (fmt " %lu : ") with [Ws; ULong; Ws; Lit 58; Ws]. rewrite num1_skip. unfold num1, show_nat. cbn [scan].
  rewrite skip_digits, scan_number by (auto using bound_ulong; reflexivity).
  change (skip (32 :: 58 :: ?r)) with (58 :: r). cbn [Nat.eqb fst snd]. reflexivity.
Qed.
Definition comp_small (maxe : nat) (c : component) : Prop :=
  bound32 (List.length (cp_edge c)) /\ List.length (cp_edge c) <= maxe /\ Forall bound32 (cp_edge c) /\ tag_fine (cp_tag c).
Lemma read_comp_line : forall maxe c tg rest, comp_small maxe c ->
  read_comp maxe tg (skip (comp_line c ++ rest)) = Ok (Some (c, tg, skip rest)).
Proof.
  intros maxe [es t] tg rest (L & M & F & T1 & T2). cbn [cp_edge cp_tag] in *. unfold comp_line, read_comp. cbn [cp_edge cp_tag].
  change (txt " : ") with [32; 58; 32]. change (txt " ") with [32]. change (txt "tag ") with [116; 97; 103; 32].
  rewrite <- !app_assoc. cbn [app]. rewrite num_colon by auto. cbn [try_ bind]. rewrite idx_of_nat by auto.
  destruct (Nat.ltb_spec maxe (List.length es)); [lia|].
  rewrite (read_many_exact read_idx (fun e => show_nat e ++ [32])).
  2:{ intros e r He. rewrite read_idx_skip, <- app_assoc. cbn [app]. apply read_idx_space.
      rewrite Forall_forall in F. auto. }
  cbn [try_ bind]. change (skip (116 :: ?r)) with (116 :: r). change (skip (116 :: ?r)) with (116 :: r).
  cbn [Nat.eqb]. change (fmt " tag %c ") with [Ws; Lit 116; Lit 97; Lit 103; Ws; AChar; Ws]. unfold num1. cbn [scan].
  change (skip (116 :: ?r)) with (116 :: r). cbn [Nat.eqb].
  change (skip (32 :: ?r)) with (skip r). assert (E : skip (tag_byte t :: 10 :: rest) = tag_byte t :: 10 :: rest)
    by (cbn [skip]; now rewrite T2).
  rewrite E. cbn [fst snd try_ bind]. rewrite Nat2N.id, tag_back by auto. reflexivity.
Qed.
Lemma read_comps_lines : forall maxe l tg rest, Forall (comp_small maxe) l ->
  read_comps maxe (List.length l) tg (skip (flat_map comp_line l ++ rest)) = Ok (Some (l, skip rest)).
Proof.
  induction l as [|c l IH]; intros tg rest F; auto. inversion F; subst.
  cbn [flat_map List.length read_comps]. rewrite <- app_assoc, read_comp_line by auto. cbn [try_ bind].
  rewrite IH by auto. reflexivity.
Qed.

(** faces *)
Definition face_small (maxe : nat) (f : face) : Prop :=
  bound32 (List.length f) /\ List.length f <= maxe /\ Forall (fun a => bound32 (fst a) /\ snd a <> Unset) f.
Definition face_edge_text (a : nat * orient) : text :=
  (match snd a with Pos => txt "+ " | _ => txt "- " end) ++ show_nat (fst a) ++ txt " ".
Lemma digit_no_s : forall n s, exists c t, show n ++ s = c :: t /\ c =? 115 = false.
Proof.
  intros n s. destruct (show_is_digits n) as (A & B). destruct (show n) as [|c t]; [congruence|].
  inversion B; subst. exists c, (t ++ s). split; auto. unfold isdigit in H1. apply andb_true_iff in H1 as (X & Y).
  apply Nat.leb_le in X, Y. apply Nat.eqb_neq. lia.
Qed.
Lemma read_face_edge_text : forall a rest, bound32 (fst a) -> snd a <> Unset ->
  read_face_edge (skip (face_edge_text a ++ rest)) = Ok (Some (a, skip rest)).
Proof.
  intros [e o] rest H U. cbn [fst snd] in *. unfold face_edge_text, read_face_edge. cbn [fst snd].
  change (fmt " " ++ [SetStr 1 plus_minus] ++ fmt "s ") with [Ws; SetStr 1 plus_minus; Lit 115; Ws].
  change (txt " ") with [32]. destruct o; [| |congruence].
  - change (txt "+ ") with [43; 32]. rewrite <- !app_assoc. cbn [app].
    change (skip (43 :: ?r)) with (43 :: r). cbn [scan]. change (skip (43 :: ?r)) with (43 :: r).
    change (span 1 plus_minus (43 :: 32 :: ?r)) with ([43], 32 :: r). cbn [fst snd scan Nat.eqb].
    rewrite <- read_idx_skip. change (skip (32 :: ?r)) with (skip r). rewrite read_idx_skip, read_idx_space by auto. reflexivity.
  - change (txt "- ") with [45; 32]. rewrite <- !app_assoc. cbn [app].
    change (skip (45 :: ?r)) with (45 :: r). cbn [scan]. change (skip (45 :: ?r)) with (45 :: r).
    change (span 1 plus_minus (45 :: 32 :: ?r)) with ([45], 32 :: r). cbn [fst snd scan Nat.eqb].
    rewrite <- read_idx_skip. change (skip (32 :: ?r)) with (skip r). rewrite read_idx_skip, read_idx_space by auto. reflexivity.
Qed.
Lemma read_face_line : forall maxe f rest, face_small maxe f ->
  read_face maxe (skip (face_line f ++ rest)) = Ok (Some (f, skip rest)).
Proof.
  intros maxe f rest (L & M & F). unfold face_line, read_face. change (txt " : ") with [32; 58; 32].
  rewrite <- !app_assoc. cbn [app]. rewrite num_colon by auto. cbn [try_ bind]. rewrite idx_of_nat by auto.
  destruct (Nat.ltb_spec maxe (List.length f)); [lia|]. rewrite Forall_forall in F.
  change (skip rest) with (skip (10 :: rest)).
  apply (read_many_exact read_face_edge face_edge_text). intros a r Ha. destruct (F a Ha). apply read_face_edge_text; auto.
Qed.

(** * The first line *)
Lemma span_app : forall w f h c s, Forall (fun x => f x = true) h -> List.length h <= w -> f c = false ->
  span w f (h ++ c :: s) = (h, c :: s).
Proof.
  induction w; intros f h c s F L C; destruct h as [|x h]; cbn in *; try lia; auto.
  - now rewrite C.
  - inversion F; subst. rewrite H1, IHw by (auto; lia). reflexivity.
Qed.
Lemma take_line_app : forall l w s, Forall (fun c => c <> 10) l -> List.length l < w -> take_line w (l ++ 10 :: s) = (l ++ [10], s).
Proof.
  induction l as [|c l IH]; intros w s F L; destruct w; cbn in L; try lia; cbn [app take_line].
  - reflexivity.
  - inversion F; subst. destruct (Nat.eqb_spec c 10); [congruence|]. rewrite IH by (auto; lia). reflexivity.
Qed.
Lemma show_length : forall n, List.length (show n) <= S (N.size_nat n).
Proof.
  intros n. unfold show. assert (G : forall k n a, List.length (show_digits k n a) <= k + List.length a).
  { induction k; intros m a; cbn [show_digits]; auto. destruct (m <? 10)%N; [cbn; lia|]. etransitivity; [apply IHk|]. cbn; lia. }
  etransitivity; [apply G|]. cbn. lia.
Qed.

Definition hash_fine (h : text) : Prop := h <> [] /\ List.length h < 32 /\ Forall (fun c => hash_char c = true) h.
Lemma hash_char_range : forall c, hash_char c = true -> 43 <= c.
Proof.
  intros c H. unfold hash_char, isdigit in H. rewrite !orb_true_iff, !andb_true_iff, !Nat.leb_le, !Nat.eqb_eq in H. lia.
Qed.
Lemma hash_not_space : forall c, hash_char c = true -> isspace c = false.
Proof.
  intros c H. apply hash_char_range in H. unfold isspace. destruct (Nat.eqb_spec c 32); [lia|].
  destruct (Nat.leb_spec c 13); [lia|]. now rewrite andb_false_r.
Qed.
Lemma read_header_line : forall h u, hash_fine h -> (u <= ulong_max)%N ->
  read_header (txt "pd " ++ h ++ txt " " ++ show u ++ [10]) = Ok (Some (h, u)).
Proof.
  intros h u (N & L & F) U. unfold read_header.
  change (fmt " pd " ++ [SetStr 32 hash_char] ++ fmt " %lu ") with [Ws; Lit 112; Lit 100; Ws; SetStr 32 hash_char; Ws; ULong; Ws].
  change (txt "pd ") with [112; 100; 32]. change (txt " ") with [32]. cbn [app].
  cbn [scan]. change (skip (112 :: ?r)) with (112 :: r). cbn [Nat.eqb]. change (skip (32 :: ?r)) with (skip r).
  assert (E : forall s, skip (h ++ s) = h ++ s).
  { intros s. destruct h as [|c h]; [congruence|]. cbn [app skip]. inversion F; subst. now rewrite hash_not_space. }
  rewrite E, span_app by (auto; lia). cbn [fst snd]. destruct h as [|c h']; [congruence|].
  set (h := c :: h') in *. change (skip (32 :: ?r)) with (skip r). rewrite skip_digits, scan_number by (auto; reflexivity).
  cbn [fst snd]. destruct (Nat.leb_spec 32 (List.length h)); [lia|]. reflexivity.
Qed.
