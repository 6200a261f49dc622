(** Polynomials in LaTeX and in the notation of Mathematica. *)
From Coq Require Import List NArith ZArith Lia Bool Arith String Sorted Permutation.
From Verif Require Import Base Pd PdProofs PdCross Sorting TextIO TextSpec TextProofs Poly PolySpec Thm_Poly PolyText PolyTextSpec PolyTextProofs.
Import List ListNotations.
Open Scope string_scope.
Open Scope list_scope.
Open Scope nat_scope.
Open Scope res_scope.

Lemma bind_eq : forall {A B} (e : res A) (k : A -> res B) x, e = Ok x -> bind e k = k x.
Proof. intros A B e k x ->. reflexivity. Qed.
Lemma show_int_decimal : forall z, show_int z = decimal z.
Proof. intros z. rewrite decimal_form. reflexivity. Qed.
Lemma size_bound : forall n, (n < 2147483649)%N -> N.size_nat n <= 32.
Proof.
  intros n L. destruct n as [|p]; [cbn; lia|]. pose proof (N.size_gt (N.pos p)) as G. pose proof (N.size_le (N.pos p)) as G2.
  assert (N.size (N.pos p) <= 32)%N.
  { destruct (N.le_gt_cases (N.size (N.pos p)) 32); auto. exfalso. assert (2 ^ 33 <= 2 ^ N.size (N.pos p))%N by (apply N.pow_le_mono_r; lia). change (2 ^ 33)%N with 8589934592%N in *. lia. }
  assert (E : N.of_nat (N.size_nat (N.pos p)) = N.size (N.pos p)). { cbn. clear. induction p; cbn; auto; rewrite ?Pos.of_nat_succ; lia. } lia.
Qed.
Definition inint (z : Z) : Prop := (Z.abs z <= 2147483648)%Z.
Lemma decimal_length : forall z, inint z -> length (decimal z) <= 34.
Proof.
  intros z I. rewrite decimal_form, app_length. pose proof (show_length (Z.abs_N z)). pose proof (size_bound (Z.abs_N z)) as B. unfold inint in I. assert (Z.abs_N z < 2147483649)%N by lia. destruct (Z.ltb z 0); cbn [length]; lia.
Qed.
Lemma decimal_pos_length : forall z, (0 <= z)%Z -> inint z -> length (decimal z) <= 33.
Proof.
  intros z P I. rewrite decimal_form, app_length. pose proof (show_length (Z.abs_N z)). pose proof (size_bound (Z.abs_N z)) as B. unfold inint in I. assert (Z.abs_N z < 2147483649)%N by lia. rewrite (proj2 (Z.ltb_ge z 0)) by lia. cbn [length]; lia.
Qed.
Definition term_fine (t : mono) : Prop := (0 < Z.abs (coeff t) <= 2147483647)%Z /\ inint (lexp t) /\ inint (mexp t).
Lemma cat_ok : forall n out t, length out + length t <= 128 * n -> cat n out t = Ok (out ++ t).
Proof. intros n out t L. unfold cat. rewrite (proj2 (Nat.leb_le _ _)) by lia. reflexivity. Qed.
Lemma power_cat : forall n out (x : text) e, length x = 1 -> inint e -> length out + 38 <= 128 * n ->
  (if Z.eqb e 0 then Ok out else cat n out ((x ++ txt "^{") ++ show_int e ++ txt "}")) = Ok (out ++ power_text x e) /\ length (power_text x e) <= 38.
Proof.
  intros n out x e Lx I L. pose proof (decimal_length e I). unfold power_text. destruct (Z.eqb e 0); [rewrite app_nil_r; split; [auto|cbn; lia]|]. rewrite show_int_decimal.
  assert (LL : length (x ++ txt "^{" ++ decimal e ++ txt "}") <= 38) by (rewrite !app_length; cbn; lia). split; auto. rewrite <- (app_assoc x). apply cat_ok. lia.
Qed.
Lemma math_power_cat : forall n out (x : text) e, length x = 1 -> inint e -> length out + 39 <= 128 * n ->
  (if Z.eqb e 0 then Ok out else cat n out ((txt "*" ++ x ++ txt "^(") ++ show_int e ++ txt ")")) = Ok (out ++ math_power x e) /\ length (math_power x e) <= 39.
Proof.
  intros n out x e Lx I L. pose proof (decimal_length e I). unfold math_power. destruct (Z.eqb e 0); [rewrite app_nil_r; split; [auto|cbn; lia]|]. rewrite show_int_decimal.
  assert (LL : length (txt "*" ++ x ++ txt "^(" ++ decimal e ++ txt ")") <= 39) by (rewrite !app_length; cbn; lia). split; auto. rewrite <- !app_assoc. apply cat_ok. lia.
Qed.
Definition lead (first : bool) (t : mono) : text := if first then (if Z.ltb (coeff t) 0 then txt "-" else []) else (if Z.ltb (coeff t) 0 then txt " - " else txt " + ").
Lemma latex_term_ok : forall n first out t, term_fine t -> length out + 128 <= 128 * n ->
  latex_term n first out t = Ok (out ++ lead first t ++ term_text t) /\ length (lead first t ++ term_text t) <= 128.
Proof.
  intros n first out t ((C1 & C2) & IL & IM) L. unfold latex_term. rewrite (proj2 (Z.eqb_neq (coeff t) _)) by lia.
  assert (E1 : (if first then if Z.ltb (coeff t) 0 then cat n out (txt "-") else Ok out else cat n out (if Z.ltb 0 (coeff t) then txt " + " else txt " - ")) = Ok (out ++ lead first t) /\ length (lead first t) <= 3).
  { unfold lead. destruct first; destruct (Z.ltb_spec (coeff t) 0); try (rewrite (proj2 (Z.ltb_lt 0 (coeff t))) by lia); try (rewrite (proj2 (Z.ltb_ge 0 (coeff t))) by lia); try (rewrite cat_ok by (cbn; lia)); split; auto; try (cbn; lia). rewrite app_nil_r. auto. }
  destruct E1 as (E1 & L1). erewrite bind_eq by (exact E1). clear E1.
  set (num := if Z.eqb (Z.abs (coeff t)) 1 && negb (Z.eqb (lexp t) 0 && Z.eqb (mexp t) 0) then [] else decimal (Z.abs (coeff t))).
  assert (E2 : (if negb (Z.eqb (Z.abs (coeff t)) 1) || (Z.eqb (lexp t) 0 && Z.eqb (mexp t) 0) then cat n (out ++ lead first t) (show_int (Z.abs (coeff t))) else Ok (out ++ lead first t)) = Ok ((out ++ lead first t) ++ num) /\ length num <= 33).
  { pose proof (decimal_pos_length (Z.abs (coeff t)) ltac:(lia) ltac:(unfold inint; lia)) as DL. rewrite show_int_decimal. unfold num. assert (K : cat n (out ++ lead first t) (decimal (Z.abs (coeff t))) = Ok ((out ++ lead first t) ++ decimal (Z.abs (coeff t)))) by (apply cat_ok; rewrite app_length; lia).
    destruct (Z.eqb (Z.abs (coeff t)) 1), (Z.eqb (lexp t) 0 && Z.eqb (mexp t) 0); cbn [negb orb andb]; try (split; [exact K|lia]). rewrite app_nil_r. split; [auto|cbn; lia]. }
  destruct E2 as (E2 & L2). erewrite bind_eq by (exact E2). clear E2.
  destruct (power_cat n ((out ++ lead first t) ++ num) (txt "a") (lexp t) eq_refl IL) as (E3 & L3); [rewrite !app_length; lia|]. change (txt "a^{") with (txt "a" ++ txt "^{"). erewrite bind_eq by (exact E3).
  destruct (power_cat n (((out ++ lead first t) ++ num) ++ power_text (txt "a") (lexp t)) (txt "z") (mexp t) eq_refl IM) as (E4 & L4); [rewrite !app_length; lia|]. change (txt "z^{") with (txt "z" ++ txt "^{"). unfold term_text. fold num. split; [refine (eq_trans E4 _); rewrite <- !app_assoc; reflexivity|rewrite !app_length; lia].
Qed.
Definition rest_text (p : poly) : text := flat_map (fun t => (if Z.ltb (coeff t) 0 then txt " - " else txt " + ") ++ term_text t) p.
Lemma latex_rest : forall p n out, Forall term_fine p -> length out + 128 * length p <= 128 * n -> latex_terms n false out p = Ok (out ++ rest_text p).
Proof.
  induction p as [|t p IH]; intros n out F L; cbn [latex_terms length] in *; [unfold rest_text; cbn [flat_map]; rewrite app_nil_r; auto|]. inversion F; subst.
  destruct (latex_term_ok n false out t) as (E & LL); auto; [lia|]. rewrite E. cbn [bind]. rewrite IH; auto; [|rewrite app_length; lia]. unfold rest_text, lead. cbn [flat_map]. rewrite <- !app_assoc. reflexivity.
Qed.
Lemma latex_ok : forall p, Forall term_fine p -> poly_to_latex p = Ok (latex_text p).
Proof.
  intros [|t p] F; [reflexivity|]. inversion F; subst. unfold poly_to_latex. cbn [latex_terms]. cbn [length]. destruct (latex_term_ok (S (length p)) true [] t) as (E & LL); auto; [cbn [length]; lia|]. rewrite E. cbn [bind app].
  rewrite latex_rest; auto; [|lia]. unfold latex_text, lead, rest_text. rewrite <- !app_assoc. reflexivity.
Qed.
Lemma math_term_ok : forall n first out t, inint (coeff t) -> inint (lexp t) -> inint (mexp t) -> length out + 128 <= 128 * n ->
  math_term n first out t = Ok (out ++ (if first : bool then [] else txt " + ") ++ math_term_text t) /\ length ((if first : bool then [] else txt " + ") ++ math_term_text t) <= 128.
Proof.
  intros n first out t IC IL IM L. unfold math_term. set (ld := if first then [] else txt " + "). assert (L1 : length ld <= 3) by (unfold ld; destruct first; cbn; lia).
  assert (E1 : (if first then Ok out else cat n out (txt " + ")) = Ok (out ++ ld)) by (unfold ld; destruct first; [rewrite app_nil_r; auto|apply cat_ok; cbn; lia]). erewrite bind_eq by (exact E1). pose proof (decimal_length _ IC) as LC. rewrite show_int_decimal.
  assert (L2 : length (txt "(" ++ decimal (coeff t) ++ txt ")") <= 36) by (rewrite !app_length; cbn; lia). rewrite cat_ok by (rewrite (app_length out); lia). cbn [bind]. set (num := txt "(" ++ decimal (coeff t) ++ txt ")") in *.
  destruct (math_power_cat n ((out ++ ld) ++ num) (txt "a") (lexp t) eq_refl IL) as (E3 & L3); [rewrite !app_length; lia|]. change (txt "*a^(") with (txt "*" ++ txt "a" ++ txt "^("). erewrite bind_eq by (exact E3).
  destruct (math_power_cat n (((out ++ ld) ++ num) ++ math_power (txt "a") (lexp t)) (txt "z") (mexp t) eq_refl IM) as (E4 & L4); [rewrite !app_length; lia|]. change (txt "*z^(") with (txt "*" ++ txt "z" ++ txt "^("). assert (EQ : math_term_text t = num ++ math_power (txt "a") (lexp t) ++ math_power (txt "z") (mexp t)) by (unfold math_term_text, num; rewrite <- !app_assoc; reflexivity). rewrite EQ. split; [refine (eq_trans E4 _); rewrite <- !app_assoc; reflexivity|rewrite !app_length; lia].
Qed.
Definition math_rest (p : poly) : text := flat_map (fun t => txt " + " ++ math_term_text t) p.
Definition in_ints (t : mono) : Prop := inint (coeff t) /\ inint (lexp t) /\ inint (mexp t).
Lemma math_rest_ok : forall p n out, Forall in_ints p -> length out + 128 * length p <= 128 * n -> math_terms n false out p = Ok (out ++ math_rest p).
Proof.
  induction p as [|t p IH]; intros n out F L; cbn [math_terms length] in *; [unfold math_rest; cbn [flat_map]; rewrite app_nil_r; auto|]. inversion F as [|? ? (A & B & C) F']; subst.
  destruct (math_term_ok n false out t) as (E & LL); auto; [lia|]. rewrite E. cbn [bind]. rewrite IH; auto; [|rewrite app_length; lia]. unfold math_rest. cbn [flat_map]. rewrite <- !app_assoc. reflexivity.
Qed.
Lemma math_ok : forall p, Forall in_ints p -> poly_to_mathematica p = Ok (math_text p).
Proof.
  intros [|t p] F; [reflexivity|]. inversion F as [|? ? (A & B & C) F']; subst. unfold poly_to_mathematica. cbn [math_terms]. cbn [length]. destruct (math_term_ok (S (length p)) true [] t) as (E & LL); auto; [cbn [length]; lia|]. rewrite E. cbn [bind app] in *.
  rewrite math_rest_ok; auto; lia.
Qed.
(** ** the texts determine the terms *)
Definition begins (P : nat -> Prop) (s : text) : Prop := match s with [] => True | c :: _ => P c end.
Lemma decimal_inj : forall a b X Y, no_digit X -> no_digit Y -> decimal a ++ X = decimal b ++ Y -> a = b /\ X = Y.
Proof.
  intros a b X Y NX NY E. assert (a = b) by (pose proof (scan_decimal a X NX) as H; rewrite E, (scan_decimal b Y NY) in H; congruence). subst b. split; auto. eapply app_inv_head; eauto.
Qed.
Lemma power_inj : forall x e f X Y, begins (fun c => c <> x) X -> begins (fun c => c <> x) Y -> power_text [x] e ++ X = power_text [x] f ++ Y -> e = f /\ X = Y.
Proof.
  intros x e f X Y BX BY E. unfold power_text in E. destruct (Z.eqb_spec e 0) as [E0|E0], (Z.eqb_spec f 0) as [F0|F0]; cbn [app] in E.
  - split; [lia|auto].
  - subst X. cbn in BX. congruence.
  - subst Y. cbn in BY. congruence.
  - injection E as E. rewrite <- !app_assoc in E. apply decimal_inj in E as (A & B); [|reflexivity|reflexivity]. split; auto. injection B as B. auto.
Qed.
Lemma math_power_inj : forall x e f X Y, (forall s, X <> 42 :: x :: s) -> (forall s, Y <> 42 :: x :: s) -> math_power [x] e ++ X = math_power [x] f ++ Y -> e = f /\ X = Y.
Proof.
  intros x e f X Y BX BY E. unfold math_power in E. destruct (Z.eqb_spec e 0) as [E0|E0], (Z.eqb_spec f 0) as [F0|F0]; cbn [app] in E.
  - split; [lia|auto].
  - subst X. exfalso. eapply BX. reflexivity.
  - subst Y. exfalso. eapply BY. reflexivity.
  - injection E as E. rewrite <- !app_assoc in E. apply decimal_inj in E as (A & B); [|reflexivity|reflexivity]. split; auto. injection B as B. auto.
Qed.
Definition spaced (s : text) : Prop := begins (fun c => c = 32) s.
Lemma power_first : forall (P : nat -> Prop) x e X, P x -> begins P X -> begins P (power_text [x] e ++ X).
Proof. intros P x e X Px PX. unfold power_text. destruct (Z.eqb e 0); cbn; auto. Qed.
Lemma begins_weaken : forall (P Q : nat -> Prop) s, (forall c, P c -> Q c) -> begins P s -> begins Q s.
Proof. intros P Q [|c s] H B; cbn in *; auto. Qed.
Lemma begins_no_digit : forall s, begins (fun c => isdigit c = false) s -> no_digit s.
Proof. intros [|c s] H; cbn in *; auto. Qed.
Lemma powers_begin : forall l m X, spaced X -> begins (fun c => c = 97 \/ c = 122 \/ c = 32) (power_text [97] l ++ power_text [122] m ++ X).
Proof. intros l m X SX. apply power_first; auto. apply power_first; auto. eapply begins_weaken; [|exact SX]. auto. Qed.
Lemma powers_inj : forall l m l' m' X Y, spaced X -> spaced Y -> power_text [97] l ++ power_text [122] m ++ X = power_text [97] l' ++ power_text [122] m' ++ Y -> l = l' /\ m = m' /\ X = Y.
Proof.
  intros l m l' m' X Y SX SY E. apply power_inj in E as (A & E); [|apply power_first; [discriminate|eapply begins_weaken; [|eassumption]; intros c -> ; discriminate]..].
  apply power_inj in E as (B & E); auto; eapply begins_weaken; try eassumption; intros c -> ; discriminate.
Qed.
Lemma power_some : forall l m X, ~ (l = 0 /\ m = 0)%Z -> exists c s, power_text [97] l ++ power_text [122] m ++ X = c :: s /\ (c = 97 \/ c = 122).
Proof. intros l m X N. unfold power_text. destruct (Z.eqb_spec l 0); [|cbn; eauto]. destruct (Z.eqb_spec m 0); [tauto|cbn; eauto]. Qed.
Lemma letters_no_digit : forall s, begins (fun c => c = 97 \/ c = 122 \/ c = 32) s -> no_digit s.
Proof. intros s B. apply begins_no_digit. eapply begins_weaken; [|exact B]. intros c [-> | [-> | ->]]; reflexivity. Qed.
Lemma decimal_digit : forall z, (0 <= z)%Z -> exists c s, decimal z = c :: s /\ isdigit c = true.
Proof. intros z P. rewrite decimal_form, (proj2 (Z.ltb_ge z 0)) by auto. destruct (show_cons (Z.abs_N z)) as (c & s & E & H & _). cbn [app]. eauto. Qed.
Lemma term_inj : forall t u X Y, spaced X -> spaced Y -> term_text t ++ X = term_text u ++ Y ->
  Z.abs (coeff t) = Z.abs (coeff u) /\ lexp t = lexp u /\ mexp t = mexp u /\ X = Y.
Proof.
  intros t u X Y SX SY E. unfold term_text in E. rewrite <- !app_assoc in E. change (txt "a") with [97] in E. change (txt "z") with [122] in E.
  pose proof (powers_begin (lexp t) (mexp t) X SX) as BT. pose proof (powers_begin (lexp u) (mexp u) Y SY) as BU. apply letters_no_digit in BT, BU.
  assert (K : forall (b : bool) (v : mono), (Z.eqb (Z.abs (coeff v)) 1 && negb (Z.eqb (lexp v) 0 && Z.eqb (mexp v) 0)) = b -> if b then Z.abs (coeff v) = 1%Z /\ ~ (lexp v = 0 /\ mexp v = 0)%Z else True).
  { intros [|] v H; auto. apply andb_true_iff in H as (H1 & H2). apply Z.eqb_eq in H1. split; auto. intros (H3 & H4). rewrite H3, H4 in H2. discriminate. }
  destruct (Z.eqb (Z.abs (coeff t)) 1 && negb (Z.eqb (lexp t) 0 && Z.eqb (mexp t) 0)) eqn:Et; apply K in Et; destruct (Z.eqb (Z.abs (coeff u)) 1 && negb (Z.eqb (lexp u) 0 && Z.eqb (mexp u) 0)) eqn:Eu; apply K in Eu; cbn [app] in E.
  - apply powers_inj in E as (A & B & C); auto. destruct Et, Eu. repeat split; auto; congruence.
  - exfalso. destruct Et as (_ & Et). destruct (power_some _ _ X Et) as (c & s & E1 & Hc). destruct (decimal_digit (Z.abs (coeff u))) as (d & s' & E2 & Hd); [lia|]. rewrite E1, E2 in E. injection E as Ec _. subst d. destruct Hc; subst c; discriminate.
  - exfalso. destruct Eu as (_ & Eu). destruct (power_some _ _ Y Eu) as (c & s & E1 & Hc). destruct (decimal_digit (Z.abs (coeff t))) as (d & s' & E2 & Hd); [lia|]. rewrite E1, E2 in E. injection E as Ec _. subst d. destruct Hc; subst c; discriminate.
  - apply decimal_inj in E as (A & E); auto. apply powers_inj in E as (B & C & D); auto.
Qed.
Lemma rest_spaced : forall p, spaced (rest_text p).
Proof. intros [|t p]; [exact I|]. unfold rest_text. cbn [flat_map]. destruct (Z.ltb (coeff t) 0); reflexivity. Qed.
Lemma term_first : forall t X, exists c s, term_text t ++ X = c :: s /\ c <> 45.
Proof.
  intros t X. unfold term_text. change (txt "a") with [97]. change (txt "z") with [122]. rewrite <- !app_assoc.
  destruct (Z.eqb (Z.abs (coeff t)) 1 && negb (Z.eqb (lexp t) 0 && Z.eqb (mexp t) 0)) eqn:Et.
  - apply andb_true_iff in Et as (_ & H). destruct (power_some (lexp t) (mexp t) X) as (c & s & E & Hc); [intros (A & B); rewrite A, B in H; discriminate|]. cbn [app]. rewrite E. exists c, s. split; auto. destruct Hc; subst; discriminate.
  - destruct (decimal_digit (Z.abs (coeff t))) as (d & s & E & Hd); [lia|]. rewrite E. cbn [app]. eexists; eexists; split; [reflexivity|]. intros ->. discriminate.
Qed.
Lemma same_term : forall t u, Z.abs (coeff t) = Z.abs (coeff u) -> coeff t <> 0%Z -> coeff u <> 0%Z -> Z.ltb (coeff t) 0 = Z.ltb (coeff u) 0 -> lexp t = lexp u -> mexp t = mexp u -> t = u.
Proof. intros [c l m] [c' l' m'] A N N' S L M. cbn in *. subst. f_equal. destruct (Z.ltb_spec c 0), (Z.ltb_spec c' 0); try discriminate; lia. Qed.
Lemma rest_inj : forall p q, Forall (fun t => coeff t <> 0%Z) p -> Forall (fun t => coeff t <> 0%Z) q -> rest_text p = rest_text q -> p = q.
Proof.
  induction p as [|t p IH]; intros [|u q] F G E; auto; unfold rest_text in E; cbn [flat_map] in E.
  - exfalso. destruct (Z.ltb (coeff u) 0); discriminate.
  - exfalso. destruct (Z.ltb (coeff t) 0); discriminate.
  - fold (rest_text p) (rest_text q) in E. inversion F; inversion G; subst. rewrite <- !app_assoc in E.
    assert (S : Z.ltb (coeff t) 0 = Z.ltb (coeff u) 0) by (destruct (Z.ltb (coeff t) 0), (Z.ltb (coeff u) 0); auto; discriminate). rewrite S in E. apply app_inv_head in E. apply term_inj in E as (A & B & C & D); try apply rest_spaced. f_equal; [apply same_term; auto|]. apply IH; auto.
Qed.
Lemma latex_inj : forall p q, Forall (fun t => coeff t <> 0%Z) p -> Forall (fun t => coeff t <> 0%Z) q -> latex_text p = latex_text q -> p = q.
Proof.
  intros [|t p] [|u q] F G E; auto; cbn [latex_text] in E.
  - exfalso. destruct (term_first u (flat_map (fun t => (if Z.ltb (coeff t) 0 then txt " - " else txt " + ") ++ term_text t) q)) as (c & s & E1 & _). rewrite E1 in E. destruct (Z.ltb (coeff u) 0); discriminate.
  - exfalso. destruct (term_first t (flat_map (fun t => (if Z.ltb (coeff t) 0 then txt " - " else txt " + ") ++ term_text t) p)) as (c & s & E1 & _). rewrite E1 in E. destruct (Z.ltb (coeff t) 0); discriminate.
  - fold (rest_text p) (rest_text q) in E. inversion F; inversion G; subst. destruct (term_first t (rest_text p)) as (c & s & E1 & N1). destruct (term_first u (rest_text q)) as (c' & s' & E2 & N2).
    assert (S : Z.ltb (coeff t) 0 = Z.ltb (coeff u) 0).
    { destruct (Z.ltb (coeff t) 0), (Z.ltb (coeff u) 0); auto; exfalso; rewrite E1, E2 in E; change (txt "-") with [45] in E; cbn [app] in E; inversion E; congruence. }
    rewrite S in E. apply app_inv_head in E. apply term_inj in E as (A & B & C & D); try apply rest_spaced. f_equal; [apply same_term; auto|]. apply rest_inj; auto.
Qed.
Lemma math_rest_spaced : forall p, spaced (math_rest p). Proof. intros [|t p]; cbn; auto. Qed.
Lemma spaced_not_star : forall X x s, spaced X -> X <> 42 :: x :: s.
Proof. intros X x s B ->. discriminate. Qed.
Lemma math_term_inj : forall t u X Y, spaced X -> spaced Y -> math_term_text t ++ X = math_term_text u ++ Y -> t = u /\ X = Y.
Proof.
  intros [c l m] [c' l' m'] X Y SX SY E. unfold math_term_text in E. cbn [coeff lexp mexp] in E. rewrite <- !app_assoc in E. change (txt "a") with [97] in E. change (txt "z") with [122] in E. apply app_inv_head in E.
  apply decimal_inj in E as (A & E); [|reflexivity|reflexivity]. apply app_inv_head in E. subst c'.
  assert (Z1 : forall e W s, spaced W -> math_power [122] e ++ W <> 42 :: 97 :: s) by (intros e W s SW; unfold math_power; destruct (Z.eqb e 0); [apply spaced_not_star; auto|cbn; discriminate]).
  apply math_power_inj in E as (B & E); [|intros; apply Z1; auto..]. apply math_power_inj in E as (C & E); [|intros; apply spaced_not_star; auto..]. subst. auto.
Qed.
Lemma math_rest_inj : forall p q, math_rest p = math_rest q -> p = q.
Proof.
  induction p as [|t p IH]; intros [|u q] E; auto; try discriminate. unfold math_rest in E. cbn [flat_map] in E. fold (math_rest p) (math_rest q) in E. rewrite <- !app_assoc in E. apply app_inv_head in E. apply math_term_inj in E as (A & B); try apply math_rest_spaced. subst u. f_equal. auto.
Qed.
Lemma math_inj : forall p q, math_text p = math_text q -> p = q.
Proof.
  intros [|t p] [|u q] E; auto; try discriminate. cbn [math_text] in E. fold (math_rest p) (math_rest q) in E. apply math_term_inj in E as (A & B); try apply math_rest_spaced. subst u. f_equal. apply math_rest_inj. auto.
Qed.
