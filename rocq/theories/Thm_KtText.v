(** C72: the names of knot types. *)
From Coq Require Import List NArith ZArith Lia Bool Arith Ascii String.
From Verif Require Import Base Pd TextIO TextSpec TextProofs PolyText KtTable KtText.
Import List ListNotations.
Open Scope string_scope.
Open Scope list_scope.
Open Scope nat_scope.
Open Scope res_scope.

(** The names of the factors as they are usually written, for example 3_1#5_2. *)
Fixpoint names_text (fs : list (nat * nat)) : text :=
  match fs with
  | [] => []
  | [f] => show_nat (fst f) ++ txt "_" ++ show_nat (snd f)
  | f :: fs' => show_nat (fst f) ++ txt "_" ++ show_nat (snd f) ++ txt "#" ++ names_text fs'
  end.
Definition well_formed (r : knottype) : Prop := 1 <= k_nf r <= 10 /\ length (k_cr r) = k_nf r /\ length (k_ind r) = k_nf r.

Lemma names_cons : forall f g fs, names_text (f :: g :: fs) = show_nat (fst f) ++ txt "_" ++ show_nat (snd f) ++ txt "#" ++ names_text (g :: fs).
Proof. reflexivity. Qed.
Lemma write_rest : forall r n i, i + n <= 10 -> i + n <= length (k_cr r) -> i + n <= length (k_ind r) ->
  write_factors r (seq i n) = Ok (flat_map (fun f => txt "#" ++ show_nat (fst f) ++ txt "_" ++ show_nat (snd f)) (firstn n (skipn i (combine (k_cr r) (k_ind r))))).
Proof.
  intros r. induction n as [|n IH]; intros i L1 L2 L3; [reflexivity|]. cbn [seq write_factors]. unfold entry10, MAXPRIMEFACTORS. rewrite (proj2 (Nat.ltb_lt i 10)) by lia. cbn [bind]. rewrite (IH (S i)) by lia. cbn [bind].
  assert (E : skipn i (combine (k_cr r) (k_ind r)) = (nth i (k_cr r) 0, nth i (k_ind r) 0) :: skipn (S i) (combine (k_cr r) (k_ind r))).
  { clear - L2 L3. revert i L2 L3. generalize (k_cr r) (k_ind r). intros a. induction a as [|x a IHa]; intros [|y b] i L2 L3; cbn in L2, L3; try lia. destruct i as [|i]; [reflexivity|]. cbn [combine skipn nth]. apply IHa; lia. }
  rewrite E. cbn [firstn flat_map fst snd]. rewrite <- !app_assoc. reflexivity.
Qed.
Lemma names_flat : forall fs f, names_text (f :: fs) = show_nat (fst f) ++ txt "_" ++ show_nat (snd f) ++ flat_map (fun f => txt "#" ++ show_nat (fst f) ++ txt "_" ++ show_nat (snd f)) fs.
Proof.
  induction fs as [|g fs IH]; intros f; [cbn [names_text flat_map]; rewrite app_nil_r; auto|]. rewrite names_cons, IH. cbn [flat_map]. rewrite <- !app_assoc. reflexivity.
Qed.
(** What is written: the names of all factors in order, and the polynomial in parentheses. *)
Theorem knottype_written : forall r, well_formed r ->
  plc_write_knottype r = Ok (names_text (combine (k_cr r) (k_ind r)) ++ txt " (" ++ k_homfly r ++ txt ") " ++ [10]).
Proof.
  intros r ((L1 & L2) & C & I). unfold plc_write_knottype, entry10. cbn [Nat.ltb Nat.leb MAXPRIMEFACTORS bind]. rewrite write_rest by lia. cbn [bind]. f_equal.
  destruct (k_cr r) as [|c cr] eqn:Ec; [cbn in C; lia|]. destruct (k_ind r) as [|i ind] eqn:Ei; [cbn in I; lia|]. cbn [combine skipn nth]. rewrite names_flat. cbn [fst snd]. rewrite firstn_all2 by (rewrite combine_length; cbn in C, I; lia). rewrite <- !app_assoc. reflexivity.
Qed.
Print Assumptions knottype_written.

(** The written text determines the names and the polynomial. *)
Lemma show_inj : forall a b X Y, no_digit X -> no_digit Y -> show_nat a ++ X = show_nat b ++ Y -> a = b /\ X = Y.
Proof.
  intros a b X Y NX NY E. assert (a = b). { pose proof (read_show (N.of_nat a) X) as H1. pose proof (read_show (N.of_nat b) Y) as H2. unfold show_nat in E. rewrite E in H1. rewrite H1 in H2. rewrite !read_digits_stop in H2 by auto. injection H2 as H2 _. lia. }
  subst b. split; auto. eapply app_inv_head; eauto.
Qed.
Lemma flat_inj : forall fs gs X Y, flat_map (fun f => txt "#" ++ show_nat (fst f) ++ txt "_" ++ show_nat (snd f)) fs ++ 32 :: X = flat_map (fun f => txt "#" ++ show_nat (fst f) ++ txt "_" ++ show_nat (snd f)) gs ++ 32 :: Y -> fs = gs /\ X = Y.
Proof.
  induction fs as [|(a & b) fs IH]; intros [|(c & d) gs] X Y E; cbn [flat_map app] in E.
  - injection E as E. auto.
  - discriminate.
  - discriminate.
  - rewrite <- !app_assoc in E. apply app_inv_head in E. cbn [fst snd] in E.
    assert (ND : forall hs Z, no_digit (flat_map (fun f => txt "#" ++ show_nat (fst f) ++ txt "_" ++ show_nat (snd f)) hs ++ 32 :: Z)) by (intros [|h hs] Z; reflexivity).
    apply show_inj in E as (A & E); [|reflexivity|reflexivity]. apply app_inv_head in E. apply show_inj in E as (B & E); auto. apply IH in E as (C & D). subst. auto.
Qed.
Theorem knottype_written_determines : forall r r' t, well_formed r -> well_formed r' -> plc_write_knottype r = Ok t -> plc_write_knottype r' = Ok t ->
  k_cr r = k_cr r' /\ k_ind r = k_ind r' /\ k_homfly r = k_homfly r'.
Proof.
  intros r r' t W W' E E'. rewrite knottype_written in E, E' by auto. injection E as E. injection E' as E'. rewrite <- E' in E. clear E'. destruct W as ((W1 & _) & W2 & W3), W' as ((V1 & _) & V2 & V3).
  assert (K : combine (k_cr r) (k_ind r) = combine (k_cr r') (k_ind r') /\ k_homfly r = k_homfly r').
  { destruct (combine (k_cr r) (k_ind r)) as [|f fs] eqn:F; [exfalso; apply (f_equal (@length _)) in F; rewrite combine_length in F; cbn in F; lia|].
    destruct (combine (k_cr r') (k_ind r')) as [|g gs] eqn:G; [exfalso; apply (f_equal (@length _)) in G; rewrite combine_length in G; cbn in G; lia|].
    rewrite !names_flat, <- !app_assoc in E. apply show_inj in E as (A & E); [|reflexivity|reflexivity]. apply app_inv_head in E.
    apply show_inj in E as (B & E); [|destruct fs; reflexivity|destruct gs; reflexivity]. change (txt " (") with (32 :: [40]) in E. cbn [app] in E. apply flat_inj in E as (C & D). injection D as D.
    apply app_inv_tail in D. destruct f, g. cbn in A, B. subst. auto. }
  destruct K as (K & H). assert (S1 : split (combine (k_cr r) (k_ind r)) = (k_cr r, k_ind r)) by (apply combine_split; lia). assert (S2 : split (combine (k_cr r') (k_ind r')) = (k_cr r', k_ind r')) by (apply combine_split; lia).
  rewrite K, S2 in S1. injection S1 as -> ->. auto.
Qed.
Print Assumptions knottype_written_determines.

(** No name can be read back: whatever nonempty text is given, memory that was not allocated is freed or an array is read beyond
    its end. *)
Lemma skip_hash_rest : forall s, snd (skip_hash s) = [] -> fst (skip_hash s) = length s.
Proof. induction s as [|c s IH]; intros H; auto. cbn [skip_hash] in *. destruct (c =? 35); [|discriminate]. destruct (skip_hash s) as (n, r). cbn in *. auto. Qed.
Lemma skip_hash_head : forall s c r, snd (skip_hash s) = c :: r -> c <> 35.
Proof. induction s as [|x s IH]; intros c r H; [discriminate|]. cbn [skip_hash] in H. destruct (Nat.eqb_spec x 35) as [E|E]; [destruct (skip_hash s) as (n, q) eqn:F; cbn in H; apply (IH c r); auto|cbn in H; injection H as <- <-; auto]. Qed.
Lemma strtok_moves : forall s, s <> [] -> 0 < snd (fst (strtok s)).
Proof.
  intros s NE. unfold strtok. destruct (skip_hash s) as (n, s1) eqn:E. destruct s1 as [|c s1].
  - cbn. pose proof (skip_hash_rest s) as H. rewrite E in H. cbn in H. rewrite H by auto. destruct s; [congruence|cbn; lia].
  - pose proof (skip_hash_head s c s1) as H. rewrite E in H. specialize (H eq_refl). cbn [take_token]. rewrite (proj2 (Nat.eqb_neq c 35)) by auto. destruct (take_token s1) as ((t, m), r). cbn. lia.
Qed.
Lemma skip_hash_length : forall s, fst (skip_hash s) + length (snd (skip_hash s)) = length s.
Proof. induction s as [|c s IH]; auto. cbn [skip_hash]. destruct (c =? 35); auto. destruct (skip_hash s) as (n, r). cbn in *. lia. Qed.
Lemma take_token_length : forall s, length (snd (take_token s)) <= length s.
Proof. induction s as [|c s IH]; auto. cbn [take_token]. destruct (c =? 35); [cbn; lia|]. destruct (take_token s) as ((t, m), r). cbn in *. lia. Qed.
Lemma strtok_shorter : forall s t n r, strtok s = (Some t, n, r) -> length r < length s.
Proof.
  intros s t n r E. unfold strtok in E. pose proof (skip_hash_length s) as L. destruct (skip_hash s) as (k, s1) eqn:F. pose proof (skip_hash_head s) as H. rewrite F in H. cbn in L, H. destruct s1 as [|c s1]; [discriminate|].
  specialize (H c s1 eq_refl). cbn [take_token] in E. rewrite (proj2 (Nat.eqb_neq c 35)) in E by auto. pose proof (take_token_length s1) as Q. destruct (take_token s1) as ((t', m), r'). injection E as _ _ <-. cbn in *. lia.
Qed.
Lemma freed_inside : forall {A} pos (k : res A), 0 < pos -> free_copy pos k = UB.
Proof. intros A pos k L. unfold free_copy. rewrite (proj2 (Nat.eqb_neq pos 0)) by lia. auto. Qed.
Lemma read_ub : forall fuel pos s acc, length s < fuel -> 0 < pos \/ s <> [] -> read_factors fuel pos s acc = UB.
Proof.
  induction fuel as [|f IH]; intros pos s acc L H; [lia|]. cbn [read_factors].
  assert (P : 0 < pos + snd (fst (strtok s))). { destruct H as [H|H]; [lia|]. pose proof (strtok_moves s H). lia. }
  pose proof (strtok_shorter s) as SH. destruct (strtok s) as ((tok, n), s') eqn:E. cbn [fst snd] in P. destruct tok as [t|]; [|apply freed_inside; auto].
  destruct (scan_name t) as [(c & i)|]; [|apply freed_inside; auto]. destruct (Z.ltb c 0 || Z.ltb 19 c); [apply freed_inside; auto|]. unfold get. destruct (nth_error maxind (Z.to_nat c)); [|reflexivity]. cbn [bind].
  destruct (Z.ltb i 0 || Z.ltb z i); [apply freed_inside; auto|]. destruct (_ =? _); [apply freed_inside; auto|]. specialize (SH t n s' eq_refl). apply IH; [lia|left; auto].
Qed.
Theorem knottype_read_refuted : forall s, s <> [] -> plc_read_knottype s = UB.
Proof. intros s NE. unfold plc_read_knottype. rewrite read_ub; auto. lia. Qed.
Print Assumptions knottype_read_refuted.
(** In particular what is written for a row of the table cannot be read. *)
Example square_written : exists t, plc_write_knottype (mkKt 2 [3; 3] [1; 1] ["(1,1,e)"; "(-1,1,e)"] "[[1]]N ") = Ok t /\ t = txt "3_1#3_1 ([[1]]N ) " ++ [10] /\
  plc_read_knottype t = UB /\ plc_read_knottype (txt "3_1#3_1") = UB.
Proof. eexists. split; [reflexivity|]. split; [reflexivity|]. split; apply knottype_read_refuted; discriminate. Qed.
Example square_well_formed : well_formed (mkKt 2 [3; 3] [1; 1] ["(1,1,e)"; "(-1,1,e)"] "[[1]]N "). Proof. cbv. repeat split; auto; lia. Qed.
