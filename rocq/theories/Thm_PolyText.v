(** C70: HOMFLY polynomials are read from the output of lmpoly and written without loss.
    PolyTextSpec.v says how lmpoly writes a table of coefficients and what the written forms are. *)
From Coq Require Import List NArith ZArith Lia Bool Arith String Sorted Permutation.
From Verif Require Import Base Pd PdProofs PdCross Sorting TextIO TextSpec TextProofs Poly PolySpec Thm_Poly PolyText PolyTextSpec PolyTextProofs LatexProofs.
Import List ListNotations.
Open Scope string_scope.
Open Scope list_scope.
Open Scope nat_scope.
Open Scope res_scope.

(** The polynomial read from a table of coefficients has the coefficients of the table, if the array for the terms, which is as
    large as the number of spaces, is large enough.  It is in normal form: no coefficient is 0 and the terms are in order. *)
Theorem homfly_text_read : forall T, t_before T < length (t_rows T) -> Forall small (entries T) -> nonzeros T <= spaces (table_text T) ->
  exists p, lmpoly_to_polynomial (table_text T) = Ok p /\ normal p /\ forall l m, coef p l m = entry T l m.
Proof. exact table_read. Qed.
Print Assumptions homfly_text_read.

(** Without the condition on the room the array is overrun. *)
Definition overfull : table := mkTable [mkRow [] 1 []; mkRow [] 0 []; mkRow [] 1 []; mkRow [] 0 []; mkRow [] 1 []; mkRow [] 0 []; mkRow [] 1 []] 0.
Theorem homfly_text_room_refuted : exists T, t_before T < length (t_rows T) /\ Forall small (entries T) /\ lmpoly_to_polynomial (table_text T) = UB.
Proof.
  exists overfull. split; [cbn; lia|]. split; [|vm_compute; reflexivity]. unfold entries, overfull, small. cbn. repeat constructor; lia.
Qed.
Print Assumptions homfly_text_room_refuted.

Lemma rows_where : forall rs mp t, In t (rows_monos rs mp) -> exists r, In r rs /\ (mp <= mexp t < mp + Z.of_nat (length rs))%Z /\
  (- Z.of_nat (length (r_neg r)) <= lexp t <= Z.of_nat (length (r_pos r)))%Z /\ In (coeff t) (row_entries r) /\ coeff t <> 0%Z.
Proof.
  induction rs as [|r rs IH]; intros mp t H; [destruct H|]. cbn [rows_monos] in H. apply in_app_or in H as [H|H].
  - exists r. apply monos_in in H as (A & B & C & D & E). unfold row_entries in E. rewrite app_length in E. cbn [length] in *. repeat split; auto; try lia. left; auto.
  - apply IH in H as (r' & A & B & C & D & E). exists r'. cbn [length In]. repeat split; auto; lia.
Qed.
Lemma fits_small : forall T, fits T -> Forall small (entries T).
Proof. intros T (_ & _ & F). eapply Forall_impl; [|exact F]. intros z H. unfold small. cbn beta in H. lia. Qed.
Lemma fits_terms : forall T, t_before T < length (t_rows T) -> fits T -> Forall term_fine (rows_monos (t_rows T) (- Z.of_nat (t_before T))).
Proof.
  intros T HB (R & F & G). apply Forall_forall. intros t H. apply rows_where in H as (r & A & B & C & D & E). rewrite Forall_forall in F, G. destruct (F r A) as (F1 & F2).
  assert (Gt : (Z.abs (coeff t) <= 2147483647)%Z) by (apply G; unfold entries; apply in_flat_map; eauto). unfold term_fine, inint. lia.
Qed.
Definition read_poly (T : table) : poly := isort mono_le (rows_monos (t_rows T) (- Z.of_nat (t_before T))).
Lemma read_fine : forall T, t_before T < length (t_rows T) -> fits T -> Forall term_fine (read_poly T).
Proof. intros T HB F. eapply Permutation_Forall; [symmetry; apply isort_perm|]. apply fits_terms; auto. Qed.
Lemma fine_ints : forall p, Forall term_fine p -> Forall in_ints p.
Proof. intros p F. eapply Forall_impl; [|exact F]. intros t (A & B & C). unfold in_ints. repeat split; auto. unfold inint. lia. Qed.

(** What pd_homfly returns is the LaTeX form of the polynomial of the table, and the other writer gives its form in Mathematica. *)
Theorem homfly_text_written : forall T, t_before T < length (t_rows T) -> fits T -> nonzeros T <= spaces (table_text T) ->
  exists p, normal p /\ (forall l m, coef p l m = entry T l m) /\
  lmpoly_to_latex (table_text T) = Ok (latex_text p) /\ lmpoly_to_mathematica (table_text T) = Ok (math_text p).
Proof.
  intros T HB F SP. destruct (table_read T HB (fits_small T F) SP) as (p & E & N & C). exists p. assert (EP : p = read_poly T) by (rewrite (raw_read T HB (fits_small T F) SP) in E; injection E as E; auto).
  pose proof (read_fine T HB F) as FF. rewrite <- EP in FF. repeat split; auto; try apply N; unfold lmpoly_to_latex, lmpoly_to_mathematica; rewrite E; cbn [bind]; [apply latex_ok|apply math_ok, fine_ints]; auto.
Qed.
Print Assumptions homfly_text_written.

(** The written forms determine the terms, for every polynomial without terms with coefficient 0. *)
Theorem latex_determines : forall p q, Forall (fun t => coeff t <> 0%Z) p -> Forall (fun t => coeff t <> 0%Z) q -> latex_text p = latex_text q -> p = q.
Proof. exact latex_inj. Qed.
Print Assumptions latex_determines.
Theorem mathematica_determines : forall p q, math_text p = math_text q -> p = q.
Proof. exact math_inj. Qed.
Print Assumptions mathematica_determines.

Lemma normal_unique : forall p q, normal p -> normal q -> (forall l m, coef p l m = coef q l m) -> p = q.
Proof.
  intros p q (Fp & Sp) (Fq & Sq) C. apply strict_unique; auto. rewrite Forall_forall in Fp, Fq.
  assert (K : forall p q k, (forall t, In t p -> coeff t <> 0%Z) -> StronglySorted key_lt p -> (forall l m, coef p l m = coef q l m) -> (exists t, In t p /\ same_key t k) -> exists t, In t q /\ same_key t k).
  { clear. intros p q k F S C (t & Ht & Kt). pose proof (strict_coef p S t Ht) as E. rewrite C in E. specialize (F t Ht). destruct Kt as (K1 & K2). rewrite K1, K2 in E.
    assert (N : coef q (lexp k) (mexp k) <> 0%Z) by congruence. clear -N. induction q as [|u q IH]; [cbn in N; congruence|]. rewrite coef_cons in N.
    destruct (Z.eqb_spec (lexp u) (lexp k)) as [A|A], (Z.eqb_spec (mexp u) (mexp k)) as [B|B]; cbn [andb] in N; try (destruct IH as (v & Hv & Kv); [lia|exists v; split; [right; auto|auto]]). exists u. split; [left; auto|split; auto]. }
  intros k. split; [apply K|apply K]; auto.
Qed.
(** So two tables have the same text exactly if they have the same coefficients: comparing the texts compares the polynomials. *)
Theorem homfly_text_decides : forall T U, t_before T < length (t_rows T) -> fits T -> nonzeros T <= spaces (table_text T) ->
  t_before U < length (t_rows U) -> fits U -> nonzeros U <= spaces (table_text U) ->
  (lmpoly_to_latex (table_text T) = lmpoly_to_latex (table_text U) <-> forall l m, entry T l m = entry U l m) /\
  (lmpoly_to_mathematica (table_text T) = lmpoly_to_mathematica (table_text U) <-> forall l m, entry T l m = entry U l m).
Proof.
  intros T U BT FT ST BU FU SU. destruct (homfly_text_written T BT FT ST) as (p & Np & Cp & Lp & Mp). destruct (homfly_text_written U BU FU SU) as (q & Nq & Cq & Lq & Mq). rewrite Lp, Lq, Mp, Mq.
  assert (D : (forall l m, entry T l m = entry U l m) -> p = q) by (intros H; apply normal_unique; auto; intros; rewrite Cp, Cq; auto).
  assert (R : p = q -> forall l m, entry T l m = entry U l m) by (intros -> l m; rewrite <- Cp, <- Cq; auto).
  split; (split; [intros H; apply R|intros H; rewrite (D H); auto]); injection H as H; [apply latex_inj in H; auto; [apply Np|apply Nq]|apply math_inj in H; auto].
Qed.
Print Assumptions homfly_text_decides.

(** The trefoil and a table with several rows before that of the power 0. *)
Definition trefoil_table : table := mkTable [mkRow [-1; 0; -2; 0]%Z 0 []; mkRow [] 0 []; mkRow [1; 0]%Z 0 []] 0.
Example trefoil_text : table_text trefoil_table = txt "[-1 0 -2 0 [0]]N[0]N1 0 [0]N ". Proof. reflexivity. Qed.
Example trefoil_meets : t_before trefoil_table < length (t_rows trefoil_table) /\ fits trefoil_table /\ nonzeros trefoil_table <= spaces (table_text trefoil_table).
Proof. split; [cbn; lia|]. split; [|vm_compute; lia]. split; [vm_compute; discriminate|]. unfold entries, row_entries. cbn [t_rows trefoil_table flat_map app r_neg r_pos r_mid]. split; repeat (apply Forall_cons; [cbn; lia|]); apply Forall_nil. Qed.
Example trefoil_latex : lmpoly_to_latex (table_text trefoil_table) = Ok (txt "-a^{-4} - 2a^{-2} + a^{-2}z^{2}"). Proof. vm_compute. reflexivity. Qed.
Definition link_table : table := mkTable [mkRow [1; 0]%Z 0 [3]%Z; mkRow [] 0 []; mkRow [] 12 [0; -7]%Z] 1.
Example link_meets : t_before link_table < length (t_rows link_table) /\ fits link_table /\ nonzeros link_table <= spaces (table_text link_table).
Proof. split; [cbn; lia|]. split; [|vm_compute; lia]. split; [vm_compute; discriminate|]. unfold entries, row_entries. cbn [t_rows link_table flat_map app r_neg r_pos r_mid]. split; repeat (apply Forall_cons; [cbn; lia|]); apply Forall_nil. Qed.
Example link_written : lmpoly_to_latex (table_text link_table) = Ok (txt "a^{-2}z^{-1} + 12z^{1} + 3a^{1}z^{-1} - 7a^{2}z^{1}") /\
  lmpoly_to_mathematica (table_text link_table) = Ok (txt "(1)*a^(-2)*z^(-1) + (12)*z^(1) + (3)*a^(1)*z^(-1) + (-7)*a^(2)*z^(1)").
Proof. split; vm_compute; reflexivity. Qed.
