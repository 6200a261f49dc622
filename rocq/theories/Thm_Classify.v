(** C71: knots are classified by looking up their HOMFLY polynomials in the table.
    ClassifySpec.v says what is asked of bsearch and what the rows of the table stand for. *)
From Coq Require Import List NArith ZArith Lia Bool Arith Ascii String Sorted Permutation.
From Verif Require Import Base Pd PdSpec PdProofs PdExamples OverUnderSpec Relabel TextIO Poly PolySpec Thm_Poly PolyText PolyTextSpec PolyTextProofs Thm_PolyText CCode CCodeSpec Thm_CCode KtTable Classify ClassifySpec ClassifyProofs KtProofs.
Import List ListNotations.
Open Scope string_scope.
Open Scope list_scope.
Open Scope nat_scope.
Open Scope res_scope.

(** A diagram of three or more crossings is handed to lmpoly as its crossing code; if lmpoly answers with a polynomial, the result
    is the list of all rows of the table with this polynomial, in the order of the table; if it does not answer, the result is
    empty.  The diagram has been freed.  (For curves: with the diagram that the curve was converted to.) *)
Theorem classify_exact : forall bsearch lmpoly d, searches bsearch ->
  ends_recorded d -> goes_through d -> two_ended d -> all_signed d -> 3 <= ncross d -> (N.of_nat (ncross d) < 8388608)%N ->
  exists code, describes d code /\
    (forall h, lmpoly (code_text code) = Some h -> length h < 1024 ->
       pd_classify bsearch lmpoly d = Ok (rows_with h, true) /\ plc_classify bsearch lmpoly (Some d) = Ok (rows_with h)) /\
    (lmpoly (code_text code) = None -> pd_classify bsearch lmpoly d = Ok ([], true) /\ plc_classify bsearch lmpoly (Some d) = Ok []).
Proof.
  intros bs lm d SB R G T SG Hn FEW. destruct (ccode_written d R G T SG ltac:(lia) FEW) as (l & D & E & _). exists l. split; auto.
  assert (L : length l = ncross d) by apply D.
  assert (C : classify_code bs lm (code_text l) = let h := match lm (code_text l) with Some h => h | None => txt "ccode unable to create crossing code for L" end in if length h <? 1024 then lookup bs h else UB).
  { unfold classify_code. rewrite count_code, L. rewrite (proj2 (Nat.eqb_neq (ncross d + 2) 3)) by lia. rewrite (proj2 (Nat.eqb_neq (ncross d + 2) 4)) by lia. reflexivity. }
  assert (P : pd_classify bs lm d = do rs <- classify_code bs lm (code_text l); Ok (rs, true)).
  { unfold pd_classify. rewrite (proj2 (Nat.eqb_neq (ncross d) 0)), (proj2 (Nat.eqb_neq (ncross d) 1)), (proj2 (Nat.eqb_neq (ncross d) 2)) by lia. rewrite andb_false_r. cbn [orb]. rewrite E. reflexivity. }
  assert (Q : plc_classify bs lm (Some d) = classify_code bs lm (code_text l)) by (cbn [plc_classify]; rewrite E; reflexivity).
  rewrite P, Q, C. split.
  - intros h -> Lh. cbv zeta. rewrite (proj2 (Nat.ltb_lt _ _) Lh), lookup_exact by auto. split; reflexivity.
  - intros ->. cbv zeta. change (length (txt "ccode unable to create crossing code for L") <? 1024) with true. cbv iota. rewrite lookup_exact by auto.
    assert (N : rows_with (txt "ccode unable to create crossing code for L") = []) by (vm_compute; reflexivity). rewrite N. split; reflexivity.
Qed.
Print Assumptions classify_exact.

(** Smaller diagrams of one component are unknots, and are classified as such without looking at anything else. *)
Theorem classify_small : forall bsearch lmpoly d, ncross d <= 1 \/ (ncomps d = 1 /\ ncross d = 2) ->
  pd_classify bsearch lmpoly d = Ok ([unknot], false) /\
  (ends_recorded d -> goes_through d -> two_ended d -> all_signed d -> 0 < ncross d -> plc_classify bsearch lmpoly (Some d) = Ok [unknot]).
Proof.
  intros bs lm d H. split.
  - unfold pd_classify. assert (B : ((ncross d =? 0) || (ncross d =? 1) || ((ncomps d =? 1) && (ncross d =? 2))) = true); [|rewrite B; auto].
    destruct H as [H|(H1 & H2)]; [|rewrite H1, H2; apply orb_true_r]. destruct (ncross d) as [|[|]]; auto; lia.
  - intros R G T SG Hn. destruct (ccode_written d R G T SG Hn ltac:(lia)) as (l & D & E & _). cbn [plc_classify]. rewrite E. cbn [bind]. unfold classify_code. assert (L : length l = ncross d) by apply D. rewrite count_code, L.
    assert (ncross d = 1 \/ ncross d = 2) as [-> | ->] by lia; reflexivity.
Qed.
Print Assumptions classify_small.
(** But the Hopf link is classified as the unknot, too, although the first test lets it pass. *)
Theorem classify_hopf_refuted : pd_ok hopf = Ok true /\ ncomps hopf = 2 /\
  forall bsearch lmpoly, pd_classify bsearch lmpoly hopf = Ok ([unknot], true) /\ plc_classify bsearch lmpoly (Some hopf) = Ok [unknot].
Proof. split; [reflexivity|]. split; [reflexivity|]. intros bs lm. split; vm_compute; reflexivity. Qed.
Print Assumptions classify_hopf_refuted.
(** And whether the diagram still exists afterwards depends on how many crossings it had. *)
Theorem classify_frees_refuted : ~ exists freed, forall bsearch lmpoly d rs b, searches bsearch -> pd_classify bsearch lmpoly d = Ok (rs, b) -> b = freed.
Proof.
  intros (b & H). assert (SB : searches (fun k rows => find (fun i => match nth_error rows i with Some r => hit k r | None => false end) (seq 0 (length rows)))).
  { intros k rows _. destruct (find _ _) as [i|] eqn:E.
    - apply find_some in E as (_ & E). destruct (nth_error rows i) as [r|]; [|discriminate]. exists r. split; auto. symmetry. apply hit_spec. auto.
    - intros r I K. apply In_nth_error in I as (i & I). pose proof (find_none _ _ E i) as F. cbv beta in F. rewrite I in F. symmetry in K. apply hit_spec in K. rewrite K in F. discriminate F. apply in_seq. assert (i < length rows) by (apply nth_error_Some; congruence). lia. }
  pose proof (H _ (fun _ => None) curl [unknot] false SB eq_refl). pose proof (H _ (fun _ => None) hopf [unknot] true SB ltac:(vm_compute; reflexivity)). congruence.
Qed.
Print Assumptions classify_frees_refuted.

(** ** what the table says *)

(** Every row has as many crossing numbers, indices and symmetry tags as factors, and its text is the text of a table of
    coefficients; the polynomial that the library reads from it has these coefficients. *)
Theorem table_rows_read : forall r, In r ktdb -> exists T p, k_homfly r = table_text T /\ t_before T < length (t_rows T) /\
  lmpoly_to_polynomial (k_homfly r) = Ok p /\ normal p /\ (forall l m, coef p l m = entry T l m) /\
  length (k_cr r) = k_nf r /\ length (k_ind r) = k_nf r /\ length (k_sym r) = k_nf r /\ length (k_homfly r) < 1024.
Proof. exact (row_reads ktdb rows_good). Qed.
Print Assumptions table_rows_read.
Lemma pof_ok : forall r, In r ktdb -> lmpoly_to_polynomial (k_homfly r) = Ok (pof r) /\ normal (pof r).
Proof. intros r H. destruct (table_rows_read r H) as (T & p & _ & _ & E & N & _). rewrite (pof_read r p E). auto. Qed.

(** Rows with the same polynomial have the same text: looking for the text is looking for the polynomial. *)
Theorem table_texts_decide : forall r r' p, In r ktdb -> In r' ktdb ->
  lmpoly_to_polynomial (k_homfly r) = Ok p -> lmpoly_to_polynomial (k_homfly r') = Ok p -> k_homfly r = k_homfly r'.
Proof. intros r r' p H H' E E'. apply (poly_text ktdb texts_differ_true); auto. rewrite (pof_read r p E), (pof_read r' p E'). auto. Qed.
Print Assumptions table_texts_decide.
(** So if lmpoly answers with a table of coefficients whose text is in the table of knots, the result consists of the rows with
    these coefficients. *)
Theorem classify_by_polynomial : forall T, t_before T < length (t_rows T) -> Forall small (entries T) -> nonzeros T <= spaces (table_text T) ->
  rows_with (table_text T) <> [] ->
  forall r, In r (rows_with (table_text T)) <-> In r ktdb /\ exists p, lmpoly_to_polynomial (k_homfly r) = Ok p /\ forall l m, coef p l m = entry T l m.
Proof.
  intros T B S N NE r. destruct (homfly_text_read T B S N) as (p & E & Np & C).
  assert (IN : forall r, In r (rows_with (table_text T)) <-> In r ktdb /\ k_homfly r = table_text T).
  { intros r0. unfold rows_with. rewrite filter_In. destruct (list_eq_dec Nat.eq_dec (k_homfly r0) (table_text T)); split; intros (A & A'); split; auto; discriminate. }
  rewrite IN. split; intros (H & K); split; auto.
  - exists p. rewrite K. auto.
  - destruct K as (q & Eq & Cq). assert (R0 : exists r0, In r0 (rows_with (table_text T))) by (destruct (rows_with (table_text T)) as [|r0 l]; [congruence|exists r0; left; auto]). destruct R0 as (r0 & H0). apply IN in H0 as (H0 & K0).
    rewrite <- K0. apply (table_texts_decide r r0 p); auto; [|rewrite K0; auto]. destruct (pof_ok r H) as (E1 & N1). rewrite Eq in E1. injection E1 as E1. rewrite Eq. f_equal. subst q. apply normal_unique; auto. intros. rewrite Cq, C. auto.
Qed.
Print Assumptions classify_by_polynomial.

(** The polynomial of a connected sum is the product of the polynomials of the rows of its factors. *)
Theorem table_sums_multiply : forall r, In r ktdb -> exists rs ps p, Forall2 prime_row rs (factors r) /\
  Forall2 (fun r' q => lmpoly_to_polynomial (k_homfly r') = Ok q) rs ps /\
  lmpoly_to_polynomial (k_homfly r) = Ok p /\ forall l m, coef p l m = product_coef ps l m.
Proof.
  intros r H. destruct (row_product ktdb sums_multiply_true r H) as (rs & F & C). exists rs, (map pof rs), (pof r). split; [exact F|]. split; [|split; [apply pof_ok; auto|exact C]].
  assert (I : Forall (fun r' => In r' ktdb) rs) by (clear - F; induction F as [|x y l l' (A & _)]; constructor; auto). clear - I. induction I; cbn [map]; constructor; auto. apply pof_ok. auto.
Qed.
Print Assumptions table_sums_multiply.

(** Tags that differ only in the orientation have the same text, and those that differ in the reflection have mirror images. *)
Theorem table_tags : forall r r' f f' p p', prime_row r f -> prime_row r' f' -> f_cr f = f_cr f' -> f_ind f = f_ind f' ->
  lmpoly_to_polynomial (k_homfly r) = Ok p -> lmpoly_to_polynomial (k_homfly r') = Ok p' ->
  if Bool.eqb (reflected f) (reflected f') then k_homfly r = k_homfly r' else forall l m, coef p' l m = coef p (- l) m.
Proof.
  intros r r' f f' p p' P P' Ec Ei E E'. pose proof (tag_poly ktdb tags_right_true r r' f f' P P' Ec Ei) as Q. destruct (Bool.eqb (reflected f) (reflected f')).
  - apply (poly_text ktdb texts_differ_true); auto; [apply P|apply P'].
  - rewrite (pof_read r p E), (pof_read r' p' E') in Q. exact Q.
Qed.
Print Assumptions table_tags.
(** The mirror image of every row is in the table, under the same names. *)
Theorem table_mirrors : forall r, In r ktdb -> exists r' p p', In r' ktdb /\ k_cr r' = k_cr r /\ k_ind r' = k_ind r /\
  lmpoly_to_polynomial (k_homfly r) = Ok p /\ lmpoly_to_polynomial (k_homfly r') = Ok p' /\ forall l m, coef p' l m = coef p (- l) m.
Proof.
  intros r H. destruct (row_mirror ktdb mirrors_present_true r H) as (r' & H' & A & B & C). exists r', (pof r), (pof r'). repeat split; auto; apply pof_ok; auto.
Qed.
Print Assumptions table_mirrors.

(** The prime rows are the unknot and the prime knots with 3 to 10 crossings, numbered as usual. *)
Theorem table_primes : forall c i, (exists r f, prime_row r f /\ f_cr f = c /\ f_ind f = i) <-> 1 <= i <= nth c [1; 0; 0; 1; 1; 2; 3; 7; 21; 49; 165] 0.
Proof. exact (names ktdb names_present_true). Qed.
Print Assumptions table_primes.
(** Every sum of these knots, with any tags, with at most 12 crossings altogether is in the table, and nothing is in it twice. *)
Theorem table_complete : forall fs, fs <> [] -> (forall f, In f fs -> exists r, prime_row r f /\ 0 < f_cr f) -> crossings fs <= 12 ->
  exists r, In r ktdb /\ Permutation (factors r) fs.
Proof. exact (sum_present ktdb knots_large_true sums_present_true). Qed.
Print Assumptions table_complete.
Theorem table_no_repeats : forall i j r r', nth_error ktdb i = Some r -> nth_error ktdb j = Some r' -> Permutation (factors r) (factors r') -> i = j.
Proof. exact (row_unique ktdb rows_unique_true). Qed.
Print Assumptions table_no_repeats.

(** The trefoil. *)
Example trefoil_hyps : ends_recorded trefoil /\ goes_through trefoil /\ two_ended trefoil /\ all_signed trefoil.
Proof.
  assert (EO : pd_edges_ok trefoil = Ok true) by reflexivity. apply edges_ok_spec in EO as (R & G); [|cbn; lia]. split; auto. split; auto. split.
  - intros e E HE. unfold edge_at in HE. do 6 (destruct e as [|e]; [injection HE as <-; discriminate|]). destruct e; discriminate.
  - intros c s (x & Hx & <-). do 3 (destruct c as [|c]; [injection Hx as <-; discriminate|]). destruct c; discriminate.
Qed.
Example trefoil_classified : forall bsearch lmpoly, searches bsearch -> lmpoly (match pdcode_to_ccode trefoil with Ok t => t | _ => [] end) = Some (table_text trefoil_table) ->
  pd_classify bsearch lmpoly trefoil = Ok ([mkKt 1 [3] [1] ["(-1,1,e)"] "[-1 0 -2 0 [0]]N[0]N1 0 [0]N "], true).
Proof.
  intros bs lm SB E. destruct trefoil_hyps as (R & G & T & SG). destruct (classify_exact bs lm trefoil SB R G T SG) as (code & D & A & _); [cbn; lia|cbn; lia|].
  destruct (ccode_written trefoil R G T SG) as (l & _ & W & U); [cbn; lia|cbn; lia|]. rewrite (U code D) in A. rewrite W in E. destruct (A _ E) as (P & _); [vm_compute; lia|]. rewrite P. vm_compute. reflexivity.
Qed.
Example granny : exists r, In r ktdb /\ Permutation (factors r) [mkF 3 1 "(1,1,e)"; mkF 3 1 "(1,1,e)"].
Proof.
  apply table_complete; [discriminate| |cbn; lia]. intros f H. assert (f = mkF 3 1 "(1,1,e)") as -> by (destruct H as [H|[H|[]]]; auto). 
  assert (X : existsb (fun r => match factors r with [f] => factor_eqb f (mkF 3 1 "(1,1,e)") | _ => false end) ktdb = true) by (vm_compute; reflexivity). apply existsb_exists in X as (r & I & X). exists r. split; [|cbn; lia]. split; auto. destruct (factors r) as [|f [|]]; try discriminate. apply factor_eqb_eq in X. congruence.
Qed.
