(** The translation tables of the connected sum, and two diagrams side by side. *)
From Coq Require Import List ZArith Lia Bool Arith Permutation Relations.
From Verif Require Import Base Iterators Sorting ListAux Pd PdSpec PdProofs Relabel RelabelProofs Strands HashSpec CycleMatch CycleSurgery
  PdCross PdComps PdIso ApplyProofs PdFaces PdFacesProofs Planar RegenSpec SplitSpec Thm_Faces Thm_Planar MoveProofs Moves OverUnder Thm_LoopAdd
  Exchange ConnectSum ConnectSpec.
From Verif Require PdCrossProofs PdCompsProofs IsoOpsProofs SplitChild Thm_Split.
Import ListNotations.
Open Scope nat_scope.

(** ** tables *)
Definition assign (ps : list (nat * nat)) (t : list (option nat)) : res (list (option nat)) :=
  fold_ok (fun t p => if fst p <? length t then Ok (upd (fst p) (Some (snd p)) t) else UB) ps t.
Lemma assign_ok : forall ps t, (forall p, In p ps -> fst p < length t) -> NoDup (map fst ps) ->
  exists t', assign ps t = Ok t' /\ length t' = length t /\
    (forall i, ~ In i (map fst ps) -> nth_error t' i = nth_error t i) /\
    (forall p, In p ps -> nth_error t' (fst p) = Some (Some (snd p))).
Proof.
  induction ps as [|p ps IH]; intros t H N.
  - exists t. split; [reflexivity|]. split; auto. split; auto. intros p [].
  - inversion N as [|? ? Np N']; subst. pose proof (H p (or_introl eq_refl)) as Hp.
    destruct (IH (upd (fst p) (Some (snd p)) t)) as (t' & E & L & K1 & K2); auto.
    { intros q Hq. rewrite upd_length. apply H. simpl; auto. }
    exists t'. split.
    + unfold assign. cbn [fold_ok]. destruct (Nat.ltb_spec (fst p) (length t)); [|lia]. cbn [bind]. exact E.
    + rewrite upd_length in L. split; auto. split.
      * intros i Hi. rewrite K1 by (intro; apply Hi; simpl; auto). rewrite nth_error_upd. destruct (Nat.eqb_spec (fst p) i) as [Q|Q]; auto.
        exfalso. apply Hi. simpl. auto.
      * intros q [<-|Hq]; auto. rewrite K1 by auto. rewrite nth_error_upd, Nat.eqb_refl. destruct (Nat.ltb_spec (fst p) (length t)); [reflexivity|lia].
Qed.
Lemma table_ok : forall ps n, Permutation (map fst ps) (seq 0 n) ->
  exists t tab, assign ps (repeat None n) = Ok t /\ all_set t = Ok tab /\ length tab = n /\
    (forall p, In p ps -> nth_error tab (fst p) = Some (snd p)) /\ Permutation tab (map snd ps).
Proof.
  intros ps n P. assert (N : NoDup (map fst ps)) by (eapply Permutation_NoDup; [symmetry; exact P|apply seq_NoDup]).
  destruct (assign_ok ps (repeat None n)) as (t & E & L & _ & K); auto.
  { intros p Hp. rewrite repeat_length. assert (In (fst p) (seq 0 n)) as I by (eapply Permutation_in; [exact P|apply in_map; auto]). apply in_seq in I. lia. }
  rewrite repeat_length in L.
  assert (A : forall i, i < n -> exists k, nth_error t i = Some (Some k) /\ In (i, k) ps).
  { intros i Hi. assert (I : In i (map fst ps)) by (eapply Permutation_in; [symmetry; exact P|apply in_seq; lia]).
    apply in_map_iff in I as ((j, k) & <- & I). exists k. split; auto. apply (K _ I). }
  set (g := fun o : option nat => match o with Some k => k | None => 0 end).
  exists t, (map g t). split; auto. split.
  { unfold all_set. apply PdCrossProofs.map_ok_map. intros o Ho. apply In_nth_error in Ho as (i & Ho). assert (Hi : i < n) by (rewrite <- L; apply nth_error_Some; congruence).
    destruct (A i Hi) as (k & Q & _). rewrite Q in Ho. injection Ho as <-. reflexivity. }
  rewrite map_length. split; auto.
  assert (Z : forall p, In p ps -> nth_error (map g t) (fst p) = Some (snd p)).
  { intros p Hp. rewrite (map_nth_error g _ _ (K p Hp)). reflexivity. }
  split; auto.
  assert (Q : map g t = map (fun i => nth i (map g t) 0) (seq 0 n)).
  { apply nth_ext with (d := 0) (d' := 0); [rewrite !map_length, seq_length; auto|]. intros i Hi. rewrite map_length in Hi.
    symmetry. rewrite nth_indep with (d' := nth 0 (map g t) 0) by (rewrite map_length, seq_length; lia).
    rewrite map_nth with (f := fun i => nth i (map g t) 0) (d := 0). rewrite seq_nth by lia. reflexivity. }
  rewrite Q. etransitivity; [apply Permutation_map, Permutation_sym, P|]. rewrite map_map. 
  erewrite map_ext_in; [apply Permutation_refl|]. intros p Hp. cbn beta. apply nth_error_nth. auto.
Qed.
Lemma number_assign : forall es n t, number es n t = assign (combine es (seq n (length es))) t.
Proof. reflexivity. Qed.
Lemma assign_app : forall a b t, assign (a ++ b) t = bind (assign a t) (assign b).
Proof. intros. apply fold_ok_app. Qed.
Lemma combine_fst : forall (es : list nat) n, map fst (combine es (seq n (length es))) = es.
Proof. induction es as [|x es IH]; intro n; [reflexivity|]. cbn. f_equal. apply IH. Qed.
Lemma combine_snd : forall (es : list nat) n, map snd (combine es (seq n (length es))) = seq n (length es).
Proof. induction es as [|x es IH]; intro n; [reflexivity|]. cbn. f_equal. apply IH. Qed.

Lemma comps_split : forall d i C, nth_error (p_comp d) i = Some C -> 
  Permutation (cp_edge C ++ other_comps d i) (concat (map cp_edge (p_comp d))).
Proof.
  intros d i C H. unfold other_comps. destruct (nth_error_split _ _ H) as (l1 & l2 & E & L). rewrite E.
  assert (F1 : firstn i (l1 ++ C :: l2) = l1) by (rewrite <- L, firstn_app, Nat.sub_diag, firstn_all; cbn; apply app_nil_r).
  assert (F2 : skipn (S i) (l1 ++ C :: l2) = l2).
  { rewrite skipn_app. rewrite skipn_all2 by lia. replace (S i - length l1) with 1 by lia. reflexivity. }
  rewrite F1, F2, !map_app, !concat_app. cbn [map concat]. rewrite !app_assoc. apply Permutation_app_tail, Permutation_app_comm.
Qed.
Lemma nth_skip : forall A i j (l : list A) z, nth j (skipn i l) z = nth (i + j) l z.
Proof. induction i as [|i IH]; intros j l z; [reflexivity|]. destruct l as [|x l]; cbn [skipn]; [destruct j; reflexivity|]. apply IH. Qed.
(** one lap around a list *)
Lemma lap : forall A (l : list A) p, p < length l ->
  map_ok (fun k => get l (k mod length l)) (seq (1 + p) (length l)) = Ok (skipn (S p) l ++ firstn (S p) l).
Proof.
  intros A l p Hp. destruct l as [|z l0]; [cbn in Hp; lia|]. set (l := z :: l0) in *. set (n := length l) in *.
  rewrite (PdCrossProofs.map_ok_map _ _ _ (fun k => nth (k mod n) l z)).
  - f_equal. apply nth_ext with (d := z) (d' := z).
    + rewrite map_length, seq_length, app_length, skipn_length, firstn_length. fold n. lia.
    + intros i Hi. rewrite map_length, seq_length in Hi. rewrite nth_indep with (d' := nth (0 mod n) l z) by (rewrite map_length, seq_length; auto).
      rewrite map_nth with (f := fun k => nth (k mod n) l z) (d := 0). rewrite seq_nth by auto.
      destruct (Nat.lt_ge_cases i (n - S p)) as [Q|Q].
      * rewrite app_nth1 by (rewrite skipn_length; fold n; lia). rewrite nth_skip. f_equal. rewrite Nat.mod_small; lia.
      * rewrite app_nth2 by (rewrite skipn_length; fold n; lia). rewrite skipn_length. fold n.
        replace ((1 + p + i) mod n) with (1 + p + i - n). 2:{ symmetry. rewrite <- (Nat.mod_small (1 + p + i - n) n) at 1 by lia.
          replace (1 + p + i) with (1 + p + i - n + 1 * n) at 1 by lia. rewrite Nat.mod_add by lia. reflexivity. }
        rewrite <- (firstn_skipn (S p) l) at 1. rewrite app_nth1 by (rewrite firstn_length; fold n; lia). f_equal. lia.
  - intros k _. apply PdCompsProofs.get_nth. apply Nat.mod_upper_bound. cbn. lia.
Qed.

(** both tables: each lists every number once *)
Lemma tables_ok : forall A B i p C j q D, concat (map cp_edge (p_comp A)) = seq 0 (nedges A) -> concat (map cp_edge (p_comp B)) = seq 0 (nedges B) ->
  nth_error (p_comp A) i = Some C -> nth_error (p_comp B) j = Some D -> p < length (cp_edge C) -> q < length (cp_edge D) ->
  exists sA sB tA tB, table_A A i p (cp_edge C) (length (cp_edge D)) = Ok sA /\ table_B A B j p q (cp_edge D) = Ok sB /\
    all_set sA = Ok tA /\ all_set sB = Ok tB /\ length tA = nedges A /\ length tB = nedges B /\
    Permutation (tA ++ tB) (seq 0 (nedges A + nedges B)).
Proof.
  intros A B i p C j q D EA EB HC HD Hp Hq. pose proof (comps_split A i C HC) as PA. pose proof (comps_split B j D HD) as PB. rewrite EA in PA. rewrite EB in PB.
  set (cA := cp_edge C) in *. set (cB := cp_edge D) in *. set (oA := other_comps A i) in *. set (oB := other_comps B j) in *.
  pose proof (Permutation_length PA) as LA. pose proof (Permutation_length PB) as LB. rewrite app_length, seq_length in LA, LB.
  set (f1 := firstn (S p) cA) in *. set (f2 := skipn (S p) cA) in *.
  assert (L1 : length f1 = S p) by (unfold f1; rewrite firstn_length; lia). assert (L2 : length f2 = length cA - S p) by (unfold f2; apply skipn_length).
  set (g := skipn (S q) cB ++ firstn (S q) cB). assert (LG : length g = length cB) by (unfold g; rewrite app_length, skipn_length, firstn_length; lia).
  set (psA := combine f1 (seq 0 (length f1)) ++ combine f2 (seq (S p + length cB) (length f2)) ++ combine oA (seq (length cA + length cB) (length oA))).
  set (psB := combine g (seq (1 + p) (length g)) ++ combine oB (seq (nedges A + length cB) (length oB))).
  destruct (table_ok psA (nedges A)) as (sA & tA & EA1 & EA2 & EA3 & _ & EA5).
  { unfold psA. rewrite !map_app, !combine_fst, app_assoc. unfold f1, f2. rewrite firstn_skipn. exact PA. }
  destruct (table_ok psB (nedges B)) as (sB & tB & EB1 & EB2 & EB3 & _ & EB5).
  { unfold psB. rewrite !map_app, !combine_fst. etransitivity; [|exact PB]. apply Permutation_app_tail. unfold g.
    etransitivity; [apply Permutation_app_comm|]. rewrite firstn_skipn. apply Permutation_refl. }
  exists sA, sB, tA, tB.
  split. { unfold table_A. fold f1 f2 oA. rewrite number_assign. unfold psA in EA1. rewrite assign_app in EA1.
    destruct (assign (combine f1 _) _) as [t1| | |]; cbn [bind] in *; try discriminate. rewrite number_assign. rewrite assign_app in EA1. destruct (assign (combine f2 _) _) as [t2| | |]; cbn [bind] in *; try discriminate. exact EA1. }
  split. { unfold table_B. rewrite lap by auto. cbn [bind]. fold g oB. rewrite number_assign. unfold psB in EB1. rewrite !assign_app in EB1. 
    destruct (assign (combine g _) _) as [t1| | |]; cbn [bind] in *; try discriminate. exact EB1. }
  split; auto. split; auto. split; auto. split; auto.
  etransitivity; [apply Permutation_app; [exact EA5|exact EB5]|]. unfold psA, psB. rewrite !map_app, !combine_snd, L1, L2, LG.
  replace (nedges A + nedges B) with (S p + (length cB + (length cA - S p + (length oA + length oB)))) by lia.
  rewrite seq_app. rewrite <- !app_assoc. apply Permutation_app_head. rewrite seq_app. cbn [plus].
  change (1 + p) with (S p). rewrite (app_assoc (seq (S (p + length cB)) _)). etransitivity; [apply Permutation_app_swap_app|]. apply Permutation_app_head.
  rewrite <- app_assoc. rewrite seq_app. apply Permutation_app_head. rewrite seq_app.
  replace (S (p + length cB) + (length cA - S p)) with (length cA + length cB) by lia. apply Permutation_app_head.
  replace (length cA + length cB + length oA) with (nedges A + length cB) by lia. apply Permutation_refl.
Qed.

(** ** two diagrams side by side *)
Section Beside.
Import Thm_Split.
Context (A B : pd).
Notation D := (beside A B).
Lemma bs_ncross : ncross D = ncross A + ncross B.
Proof. unfold ncross at 1, beside. cbn [p_cross]. rewrite app_length, map_length. reflexivity. Qed.
Lemma bs_nedges : nedges D = nedges A + nedges B.
Proof. unfold nedges at 1, beside. cbn [p_edge]. rewrite app_length, map_length. reflexivity. Qed.
Lemma bs_slotA : forall c p x, slot A c p x -> slot D c p x.
Proof. intros c p x (Hp & y & Hy & E). split; auto. exists y. split; auto. cbn [beside p_cross]. rewrite nth_error_app1; auto. apply nth_error_Some. congruence. Qed.
Lemma bs_signA : forall c s, sign_at A c s -> sign_at D c s.
Proof. intros c s (y & Hy & E). exists y. split; auto. cbn [beside p_cross]. rewrite nth_error_app1; auto. apply nth_error_Some. congruence. Qed.
Lemma bs_signB : forall c s, sign_at B c s -> sign_at D (ncross A + c) s.
Proof.
  intros c s (y & Hy & E). exists (shift_cross (nedges A) y). split; auto. cbn [beside p_cross]. rewrite nth_error_app2 by (unfold ncross; lia).
  replace (ncross A + c - length (p_cross A)) with c by (unfold ncross; lia). apply map_nth_error. auto.
Qed.
Lemma bs_edgeA : forall e E, edge_at A e E -> edge_at D e E.
Proof. intros e E H. unfold edge_at in *. cbn [beside p_edge]. rewrite nth_error_app1; auto. apply nth_error_Some. congruence. Qed.
Lemma bs_edgeB : forall e E, edge_at B e E -> edge_at D (nedges A + e) (shift_edge (ncross A) E).
Proof.
  intros e E H. unfold edge_at in *. cbn [beside p_edge]. rewrite nth_error_app2 by (unfold nedges; lia).
  replace (nedges A + e - length (p_edge A)) with e by (unfold nedges; lia). apply map_nth_error. auto.
Qed.
Lemma bs_edge : forall e E, edge_at D e E -> (edge_at A e E) \/ exists e' E', e = nedges A + e' /\ E = shift_edge (ncross A) E' /\ edge_at B e' E'.
Proof.
  intros e E H. pose proof (edge_at_lt _ _ _ H) as L. rewrite bs_nedges in L. destruct (Nat.lt_ge_cases e (nedges A)) as [K|K].
  - left. destruct (edge_at_ex A e K) as (E' & HE'). pose proof (bs_edgeA _ _ HE') as Q. unfold edge_at in *. congruence.
  - right. destruct (edge_at_ex B (e - nedges A)) as (E' & HE'); [lia|]. exists (e - nedges A), E'. split; [lia|]. split; auto.
    pose proof (bs_edgeB _ _ HE') as Q. replace (nedges A + (e - nedges A)) with e in Q by lia. unfold edge_at in *. congruence.
Qed.
Lemma bs_dartA : forall x, is_dart A x -> is_dart D x.
Proof. intros (e, o) (H & K). split; auto. rewrite bs_nedges. cbn [fst] in *. lia. Qed.
Definition sd (x : nat * orient) : nat * orient := (nedges A + fst x, snd x).
Lemma bs_dartB : forall x, is_dart B x -> is_dart D (sd x).
Proof. intros (e, o) (H & K). split; auto. rewrite bs_nedges. cbn [sd fst] in *. lia. Qed.
Lemma bs_contA : forall x y, continues A x y -> continues D x y.
Proof. intros x y (X & Y & HX & HY & K). exists X, Y. split; [apply bs_edgeA; auto|]. split; [apply bs_edgeA; auto|exact K]. Qed.
Lemma bs_contB : forall x y, continues B x y -> continues D (nedges A + x) (nedges A + y).
Proof.
  intros x y (X & Y & HX & HY & K1 & K2). do 2 eexists. split; [apply bs_edgeB; exact HX|]. split; [apply bs_edgeB; exact HY|].
  cbn [shift_edge e_head e_headpos e_tail e_tailpos]. split; auto.
Qed.
Lemma bs_leftA : forall x y, left_turn A x y -> left_turn D x y.
Proof.
  intros x y (c & p & Hp & (X & HX & K) & (Y & HY & K')). exists c, p. split; auto. split; [exists X|exists Y]; (split; [apply bs_edgeA; auto|auto]).
Qed.
Lemma bs_leftB : forall x y, left_turn B x y -> left_turn D (sd x) (sd y).
Proof.
  intros x y (c & p & Hp & (X & HX & K) & (Y & HY & K')). exists (ncross A + c), p. split; auto. split.
  - exists (shift_edge (ncross A) X). split; [apply bs_edgeB; auto|]. unfold head_slot, tail_slot in *. cbn [sd snd shift_edge e_head e_headpos e_tail e_tailpos].
    destruct K as [(K1 & K2)|(K1 & K2)]; apply MoveProofs.pair_eq in K2 as (-> & ->); auto.
  - exists (shift_edge (ncross A) Y). split; [apply bs_edgeB; auto|]. unfold head_slot, tail_slot in *. cbn [sd snd shift_edge e_head e_headpos e_tail e_tailpos].
    destruct K' as [(K1 & K2)|(K1 & K2)]; apply MoveProofs.pair_eq in K2 as (-> & ->); auto.
Qed.
Lemma bs_joinedA : forall c c', clos_refl_trans nat (joined A) c c' -> clos_refl_trans nat (joined D) c c'.
Proof.
  intros c c' K. induction K as [x y (e & p & q & S1 & S2)|x|x y z _ IH1 _ IH2]; [|apply rt_refl|eapply rt_trans; eauto].
  apply rt_step. exists e, p, q. split; apply bs_slotA; auto.
Qed.
Lemma bs_joinedB : forall c c', clos_refl_trans nat (joined B) c c' -> clos_refl_trans nat (joined D) (ncross A + c) (ncross A + c').
Proof.
  intros c c' K. induction K as [x y (e & p & q & S1 & S2)|x|x y z _ IH1 _ IH2]; [|apply rt_refl|eapply rt_trans; eauto].
  apply rt_step. exists (nedges A + e), p, q. split; apply shift_slot; auto.
Qed.

Context (RA : ends_recorded A) (RB : ends_recorded B).
Lemma bs_recorded : ends_recorded D.
Proof.
  split.
  - rewrite bs_nedges, bs_ncross. destruct RA, RB. lia.
  - intros e E H. apply bs_edge in H as [H|(e' & E' & -> & -> & H)].
    + destruct RA as (_ & K). destruct (K e E H) as (S1 & S2). split; apply bs_slotA; auto.
    + destruct RB as (_ & K). destruct (K e' E' H) as (S1 & S2). split; apply shift_slot; auto.
Qed.
Lemma bs_two_ended : two_ended A -> two_ended B -> two_ended D.
Proof.
  intros TA TB e E H. apply bs_edge in H as [H|(e' & E' & -> & -> & H)]; [exact (TA e E H)|].
  intro Q. apply (TB e' E' H). unfold head_slot, tail_slot in *. cbn [shift_edge e_head e_headpos e_tail e_tailpos] in Q. apply MoveProofs.pair_eq in Q as (Q1 & Q2). f_equal; [lia|auto].
Qed.
Lemma bs_through : goes_through A -> goes_through B -> goes_through D.
Proof.
  intros GA GB e E H. apply bs_edge in H as [H|(e' & E' & -> & -> & H)].
  - destruct (GA e E H) as ((x & X & HX & S1 & Q1) & (y & Y & HY & S2 & Q2)). split; [exists x, X|exists y, Y]; (split; [apply bs_edgeA; auto|]; split; [apply bs_slotA; auto|auto]).
  - destruct (GB e' E' H) as ((x & X & HX & S1 & Q1) & (y & Y & HY & S2 & Q2)). unfold head_slot, tail_slot in *.
    apply MoveProofs.pair_eq in Q1 as (Q1 & Q1'). apply MoveProofs.pair_eq in Q2 as (Q2 & Q2').
    split; [exists (nedges A + x), (shift_edge (ncross A) X)|exists (nedges A + y), (shift_edge (ncross A) Y)];
      (split; [apply bs_edgeB; assumption|]; split; [apply shift_slot; assumption|]); unfold head_slot, tail_slot;
      cbn [shift_edge e_head e_headpos e_tail e_tailpos]; congruence.
Qed.
Lemma bs_strands : forall L M, strand_partition A L -> strand_partition B M -> strand_partition D (L ++ map (map (fun e => nedges A + e)) M).
Proof.
  intros L M HL HM.
  assert (C1 : cpart (continues D) (fun e => e < nedges A) L).
  { apply (cpart_ext _ (continues A) _ (fun e => e < nedges A)); [exact HL| |reflexivity]. intros a b _ _. apply bs_contA. }
  assert (C2 : cpart (continues D) (fun y => exists e, e < nedges B /\ y = nedges A + e) (map (map (fun e => nedges A + e)) M)).
  { apply (cpart_map _ _ (continues B) _ _ (fun e => e < nedges B)); [exact HM| | |reflexivity]. intros a b _ _; apply bs_contB. intros; lia. }
  apply (cpart_ext _ (continues D) _ (fun y => y < nedges A \/ exists e, e < nedges B /\ y = nedges A + e)); auto.
  - apply cpart_app; auto. intros x Hx (e & He & ->). lia.
  - intro x. rewrite bs_nedges. split.
    + intro H. destruct (Nat.lt_ge_cases x (nedges A)); [left; auto|]. right. exists (x - nedges A). lia.
    + intros [H|(e & He & ->)]; lia.
Qed.
Lemma bs_faces : forall fs gs, face_partition A fs -> face_partition B gs -> face_partition D (fs ++ map (map sd) gs).
Proof.
  intros fs gs HL HM.
  assert (C1 : cpart (left_turn D) (is_dart A) fs).
  { apply (cpart_ext _ (left_turn A) _ (is_dart A)); [exact HL| |reflexivity]. intros a b _ _. apply bs_leftA. }
  assert (C2 : cpart (left_turn D) (fun y => exists e, is_dart B e /\ y = sd e) (map (map sd) gs)).
  { apply (cpart_map _ _ (left_turn B) _ _ (is_dart B)); [exact HM| | |reflexivity]. intros a b _ _; apply bs_leftB.
    intros (a, o) (b, o') _ _ Q. unfold sd in Q. cbn [fst snd] in Q. apply MoveProofs.pair_eq in Q as (Q & ->). f_equal. lia. }
  apply (cpart_ext _ (left_turn D) _ (fun y => is_dart A y \/ exists e, is_dart B e /\ y = sd e)); auto.
  - apply cpart_app; auto. intros x (Hx & _) ((e, o) & He & ->). cbn [sd fst] in Hx. lia.
  - intros (x, o). split.
    + intros (H & K). rewrite bs_nedges in H. cbn [fst snd] in *. destruct (Nat.lt_ge_cases x (nedges A)); [left; split; auto|]. right. exists (x - nedges A, o).
      split; [split; cbn [fst snd]; [lia|auto]|]. unfold sd. cbn [fst snd]. f_equal. lia.
    + intros [H|(e & He & ->)]; [apply bs_dartA; auto|apply bs_dartB; auto].
Qed.
End Beside.

(** ** copying *)
Definition ren (f : nat -> nat) (x : crossing) : crossing := mkCross (f (ce0 x)) (f (ce1 x)) (f (ce2 x)) (f (ce3 x)) (csign x).
Lemma rename_list : forall cs tab f, (forall x, In x cs -> forall p, p < 4 -> cedge x p < length tab) -> (forall x, x < length tab -> nth x tab 0 = f x) ->
  map_ok (rename_cross tab) cs = Ok (map (ren f) cs).
Proof.
  intros cs tab f H K. apply PdCrossProofs.map_ok_map. intros x Hx.
  pose proof (H x Hx 0 ltac:(lia)) as Q0. pose proof (H x Hx 1 ltac:(lia)) as Q1. pose proof (H x Hx 2 ltac:(lia)) as Q2. pose proof (H x Hx 3 ltac:(lia)) as Q3. cbn [cedge] in *.
  unfold rename_cross. rewrite !(PdCompsProofs.get_nth _ tab _ 0) by auto. cbn [bind]. rewrite !K by auto. reflexivity.
Qed.
Lemma put_edges_ok : forall ctt (f : nat -> nat) ps es,
  (forall p, In p ps -> fst p < length es /\ nth_error ctt (e_head (snd p)) = Some (f (e_head (snd p))) /\ nth_error ctt (e_tail (snd p)) = Some (f (e_tail (snd p)))) ->
  NoDup (map fst ps) -> exists es', fold_ok (put_edge ctt) ps es = Ok es' /\ length es' = length es /\
    (forall i, ~ In i (map fst ps) -> nth_error es' i = nth_error es i) /\
    (forall p, In p ps -> nth_error es' (fst p) = Some (mkEdge (f (e_head (snd p))) (e_headpos (snd p)) (f (e_tail (snd p))) (e_tailpos (snd p)))).
Proof.
  induction ps as [|p ps IH]; intros es H N.
  - exists es. split; [reflexivity|]. split; auto. split; auto. intros p [].
  - inversion N as [|? ? Np N']; subst. destruct (H p (or_introl eq_refl)) as (Hp & H1 & H2).
    set (E := mkEdge (f (e_head (snd p))) (e_headpos (snd p)) (f (e_tail (snd p))) (e_tailpos (snd p))).
    destruct (IH (upd (fst p) E es)) as (es' & Q & L & K1 & K2); auto.
    { intros q Hq. rewrite upd_length. apply H. simpl; auto. }
    exists es'. split.
    + cbn [fold_ok]. unfold put_edge at 1. unfold get. rewrite H1, H2. cbn [bind]. destruct (Nat.ltb_spec (fst p) (length es)); [|lia]. cbn [bind]. exact Q.
    + rewrite upd_length in L. split; auto. split.
      * intros i Hi. rewrite K1 by (intro; apply Hi; simpl; auto). rewrite nth_error_upd. destruct (Nat.eqb_spec (fst p) i) as [Z|Z]; auto.
        exfalso. apply Hi. simpl. auto.
      * intros q [<-|Hq]; auto. rewrite K1 by auto. rewrite nth_error_upd, Nat.eqb_refl. destruct (Nat.ltb_spec (fst p) (length es)); [reflexivity|lia].
Qed.
Lemma combine_tab : forall (t : list nat) (es : list edge), length t = length es -> map fst (combine t es) = t.
Proof. induction t as [|x t IH]; intros [|E es] L; cbn in *; try lia; auto. f_equal. apply IH. lia. Qed.
Lemma combine_in : forall (t : list nat) (es : list edge) p, length t = length es -> In p (combine t es) <->
  exists e, nth_error t e = Some (fst p) /\ nth_error es e = Some (snd p).
Proof.
  induction t as [|x t IH]; intros [|E es] p L; cbn in L; try lia.
  - split; [intros []|]. intros (e & H & _). destruct e; discriminate.
  - cbn [combine In]. rewrite IH by lia. split.
    + intros [<-|(e & H)]; [exists 0; auto|exists (S e); auto].
    + intros ([|e] & H1 & H2); [left; cbn in *; destruct p; cbn in *; congruence|right; exists e; auto].
Qed.

(** the new diagram before the heads are exchanged *)
Section Copied.
Import Thm_Split.
Context (A B : pd) (RA : ends_recorded A) (RB : ends_recorded B) (TA : two_ended A) (TB : two_ended B).
Context (tA tB : list nat) (LA : length tA = nedges A) (LB : length tB = nedges B) (P : Permutation (tA ++ tB) (seq 0 (nedges A + nedges B))).
Definition tab (e : nat) : nat := nth e (tA ++ tB) 0.
Lemma tab_bij : bij_on (nedges A + nedges B) tab.
Proof.
  assert (LL : length (tA ++ tB) = nedges A + nedges B) by (rewrite app_length; lia).
  assert (N : NoDup (tA ++ tB)) by (eapply Permutation_NoDup; [symmetry; exact P|apply seq_NoDup]). split.
  - intros i Hi. assert (I : In (tab i) (tA ++ tB)) by (apply nth_In; lia). apply (Permutation_in _ P) in I. apply in_seq in I. lia.
  - intros i j Hi Hj E. eapply (proj1 (NoDup_nth (tA ++ tB) 0) N); eauto; lia.
Qed.
Lemma tab_A : forall e, e < nedges A -> nth_error tA e = Some (tab e).
Proof. intros e H. unfold tab. rewrite app_nth1 by lia. apply nth_error_nth'. lia. Qed.
Lemma tab_B : forall e, e < nedges B -> nth_error tB e = Some (tab (nedges A + e)).
Proof. intros e H. unfold tab. rewrite app_nth2 by lia. replace (nedges A + e - length tA) with e by lia. apply nth_error_nth'. lia. Qed.
Lemma slots_lt : forall d, ends_recorded d -> two_ended d -> forall x, In x (p_cross d) -> forall p, p < 4 -> cedge x p < nedges d.
Proof.
  intros d R T x Hx p Hp. apply In_nth_error in Hx as (c & Hc). assert (S : slot d c p (cedge x p)) by (split; eauto).
  destruct (DeloopProofs.slot_edge d c p _ R T S) as (X & HX). exact (edge_at_lt _ _ _ HX).
Qed.
Lemma ren_ext : forall f g x, (forall p, p < 4 -> f (cedge x p) = g (cedge x p)) -> ren f x = ren g x.
Proof. intros f g x H. pose proof (H 0 ltac:(lia)). pose proof (H 1 ltac:(lia)). pose proof (H 2 ltac:(lia)). pose proof (H 3 ltac:(lia)). unfold ren. cbn [cedge] in *. congruence. Qed.
Lemma copy_cross : summed_cross tA tB A B = Ok (map (ren tab) (p_cross (beside A B))).
Proof.
  unfold summed_cross. rewrite (rename_list _ tA tab).
  - cbn [bind]. rewrite (rename_list _ tB (fun e => tab (nedges A + e))).
    + cbn [bind]. f_equal. cbn [beside p_cross]. rewrite map_app, map_map. reflexivity.
    + intros x Hx p Hp. rewrite LB. apply slots_lt; auto.
    + intros x Hx. apply nth_error_nth. apply tab_B. lia.
  - intros x Hx p Hp. rewrite LA. apply slots_lt; auto.
  - intros x Hx. apply nth_error_nth. apply tab_A. lia.
Qed.
Lemma copy_edges : exists es, summed_edges tA tB A B = Ok es /\ length es = nedges A + nedges B /\ forall e E, edge_at (beside A B) e E -> nth_error es (tab e) = Some E.
Proof.
  assert (N : NoDup (tA ++ tB)) by (eapply Permutation_NoDup; [symmetry; exact P|apply seq_NoDup]).
  assert (IL : forall x, In x (tA ++ tB) -> x < nedges A + nedges B) by (intros x Hx; apply (Permutation_in _ P) in Hx; apply in_seq in Hx; lia).
  assert (NA : NoDup tA) by (clear -N; induction tA as [|a t IH]; [constructor|]; inversion N as [|? ? Na N']; subst; constructor; [rewrite in_app_iff in Na; tauto|apply IH; auto]).
  assert (ND : NoDup tB /\ forall x, In x tA -> ~ In x tB).
  { clear -N. induction tA as [|a t IH]; [auto|]. inversion N as [|? ? Na N']; subst. destruct (IH N') as (K1 & K2). split; auto. intros x [<-|Hx]; auto. rewrite in_app_iff in Na. tauto. }
  destruct ND as (NB & Dj).
  unfold summed_edges.
  destruct (put_edges_ok (seq 0 (ncross A)) (fun c => c) (combine tA (p_edge A)) (repeat (mkEdge 0 4 0 4) (nedges A + nedges B))) as (es1 & E1 & L1 & _ & K1).
  { intros (k, E) Hp. apply combine_in in Hp as (e & H1 & H2); [|exact LA]. cbn [fst snd] in *. destruct RA as (_ & RA2). destruct (RA2 e E H2) as (S1 & S2).
    apply slot_lt in S1 as (S1 & _). apply slot_lt in S2 as (S2 & _). split; [|split].
    - rewrite repeat_length. apply IL. apply in_app_iff. left. eapply nth_error_In; eauto.
    - rewrite nth_error_nth' with (d := 0) by (rewrite seq_length; auto). rewrite seq_nth; auto.
    - rewrite nth_error_nth' with (d := 0) by (rewrite seq_length; auto). rewrite seq_nth; auto. }
  { rewrite combine_tab; auto. }
  rewrite E1. cbn [bind]. rewrite repeat_length in L1.
  destruct (put_edges_ok (seq (ncross A) (ncross B)) (fun c => ncross A + c) (combine tB (p_edge B)) es1) as (es2 & E2 & L2 & K3 & K2).
  { intros (k, E) Hp. apply combine_in in Hp as (e & H1 & H2); [|exact LB]. cbn [fst snd] in *. destruct RB as (_ & RB2). destruct (RB2 e E H2) as (S1 & S2).
    apply slot_lt in S1 as (S1 & _). apply slot_lt in S2 as (S2 & _). split; [|split].
    - rewrite L1. apply IL. apply in_app_iff. right. eapply nth_error_In; eauto.
    - rewrite nth_error_nth' with (d := 0) by (rewrite seq_length; auto). rewrite seq_nth; auto.
    - rewrite nth_error_nth' with (d := 0) by (rewrite seq_length; auto). rewrite seq_nth; auto. }
  { rewrite combine_tab; auto. }
  exists es2. split; auto. split; [lia|]. intros e E HE. apply bs_edge in HE as [HE|(e' & E' & -> & -> & HE)].
  - pose proof (edge_at_lt _ _ _ HE) as Le. pose proof (tab_A e Le) as Q. rewrite K3.
    + assert (I : In (tab e, E) (combine tA (p_edge A))) by (apply combine_in; [exact LA|]; exists e; auto). apply K1 in I. cbn [fst snd] in I. rewrite I. destruct E; reflexivity.
    + rewrite combine_tab by exact LB. apply Dj. eapply nth_error_In; eauto.
  - pose proof (edge_at_lt _ _ _ HE) as Le. pose proof (tab_B e' Le) as Q.
    assert (I : In (tab (nedges A + e'), E') (combine tB (p_edge B))) by (apply combine_in; [exact LB|]; exists e'; auto). apply K2 in I. exact I.
Qed.
Lemma moved0 : forall c p, p < 4 -> moved (fun c => c) (fun _ => 0) c p = (c, p).
Proof. intros c p Hp. unfold moved. f_equal. destruct (small4 p Hp) as [->|[->|[->| ->]]]; reflexivity. Qed.
Lemma copied : forall mv u h es cm fs, length es = nedges A + nedges B -> (forall e E, edge_at (beside A B) e E -> nth_error es (tab e) = Some E) ->
  relabelled (beside A B) (mkPd mv u h es (map (ren tab) (p_cross (beside A B))) cm fs) (fun c => c) (fun _ => 0) tab.
Proof.
  intros mv u h es cm fs L K. constructor.
  - unfold ncross. cbn [p_cross]. rewrite map_length. reflexivity.
  - unfold nedges at 1. cbn [p_edge]. rewrite L. symmetry. apply bs_nedges.
  - apply bij_id.
  - intros; lia.
  - rewrite bs_nedges. apply tab_bij.
  - intros c p e (Hp & x & Hx & Q). rewrite moved0 by auto. cbn [snd]. split; auto. exists (ren tab x). cbn [p_cross]. split; [apply map_nth_error; auto|].
    rewrite <- Q. destruct (small4 p Hp) as [->|[->|[->| ->]]]; reflexivity.
  - intros c s (x & Hx & Q). exists (ren tab x). cbn [p_cross]. split; [apply map_nth_error; auto|]. auto.
  - intros e E HE. exists E. split; [apply K; auto|]. destruct (proj2 (bs_recorded A B RA RB) e E HE) as (S1 & S2).
    apply slot_lt in S1 as (_ & S1). apply slot_lt in S2 as (_ & S2). rewrite !moved0 by auto. auto.
Qed.
End Copied.

(** the exchange *)
Lemma exchange_ok : forall mv u h es cs cm fs a b EA EB, let d := mkPd mv u h es cs cm fs in
  ends_recorded d -> edge_at d a EA -> edge_at d b EB -> a <> b ->
  exists cs1 cs2, put_cross cs (e_head EB) (e_headpos EB) a = Ok cs1 /\ put_cross cs1 (e_head EA) (e_headpos EA) b = Ok cs2 /\ length cs2 = length cs /\
    exchanged d (mkPd mv u h (upd a (mkEdge (e_head EB) (e_headpos EB) (e_tail EA) (e_tailpos EA)) (upd b (mkEdge (e_head EA) (e_headpos EA) (e_tail EB) (e_tailpos EB)) es)) cs2 cm fs) a b.
Proof.
  intros mv u h es cs cm fs a b EA EB d R HA HB N. destruct (proj2 R a EA HA) as (SA & _). destruct (proj2 R b EB HB) as (SB & _).
  pose proof (slot_lt _ _ _ _ SA) as (LA1 & LA2). pose proof (slot_lt _ _ _ _ SB) as (LB1 & LB2).
  assert (NS : (e_head EA, e_headpos EA) <> (e_head EB, e_headpos EB)).
  { intro Q. apply MoveProofs.pair_eq in Q as (Q1 & Q2). rewrite Q1, Q2 in SA. apply N. exact (slot_fun _ _ _ _ _ SA SB). }
  pose proof (edge_at_lt _ _ _ HA) as La. pose proof (edge_at_lt _ _ _ HB) as Lb. unfold nedges in La, Lb. change (p_edge d) with es in La, Lb.
  destruct (put_ok cs (e_head EB) (e_headpos EB) a) as (cs1 & E1 & L1 & K1); auto.
  destruct (put_ok cs1 (e_head EA) (e_headpos EA) b) as (cs2 & E2 & L2 & K2); auto.
  { rewrite L1. exact LA1. }
  exists cs1, cs2. split; auto. split; auto. split; [lia|].
  assert (SL : forall c p x, slot d c p x -> exists y, nth_error cs2 c = Some y /\
     cedge y p = if (c =? e_head EA) && (p =? e_headpos EA) then b else if (c =? e_head EB) && (p =? e_headpos EB) then a else x).
  { intros c p x (Hp & y & Hy & Q). change (p_cross d) with cs in Hy. destruct (K1 c y Hy) as (y1 & H1 & _ & Q1). destruct (K2 c y1 H1) as (y2 & H2 & _ & Q2).
    exists y2. split; auto. rewrite Q2, Q1 by auto. rewrite Q. reflexivity. }
  constructor; subst d.
  - unfold ncross. cbn [p_cross]. lia.
  - unfold nedges. cbn [p_edge]. rewrite !upd_length. reflexivity.
  - exact N.
  - exact La.
  - exact Lb.
  - intros c p x S F. destruct (SL c p x S) as (y & Hy & Q). split; [apply S|]. exists y. split; auto. rewrite Q.
    destruct (Nat.eqb_spec c (e_head EA)) as [c1|c1]; cbn [andb].
    + destruct (Nat.eqb_spec p (e_headpos EA)) as [p1|p1].
      * exfalso. apply (F EA (or_introl HA)). unfold head_slot. congruence.
      * destruct (Nat.eqb_spec c (e_head EB)) as [c2|c2]; cbn [andb]; auto. destruct (Nat.eqb_spec p (e_headpos EB)) as [p2|p2]; auto. exfalso. apply (F EB (or_intror HB)). unfold head_slot. congruence.
    + destruct (Nat.eqb_spec c (e_head EB)) as [c2|c2]; cbn [andb]; auto. destruct (Nat.eqb_spec p (e_headpos EB)) as [p2|p2]; auto. exfalso. apply (F EB (or_intror HB)). unfold head_slot. congruence.
  - intros E HE. assert (E = EA) as -> by (unfold edge_at in *; congruence). destruct (SL _ _ _ SA) as (y & Hy & Q). split; auto. exists y. split; auto. rewrite Q, !Nat.eqb_refl. reflexivity.
  - intros E HE. assert (E = EB) as -> by (unfold edge_at in *; congruence). destruct (SL _ _ _ SB) as (y & Hy & Q). split; auto. exists y. split; auto. rewrite Q, !Nat.eqb_refl. cbn [andb].
    destruct (Nat.eqb_spec (e_head EB) (e_head EA)) as [c1|c1]; cbn [andb]; auto. destruct (Nat.eqb_spec (e_headpos EB) (e_headpos EA)) as [p1|p1]; auto. exfalso. apply NS. congruence.
  - intros c s (y & Hy & Q). cbn [p_cross] in Hy. destruct (K1 c y Hy) as (y1 & H1 & Q1 & _). destruct (K2 c y1 H1) as (y2 & H2 & Q2 & _). exists y2. split; auto. congruence.
  - intros x X Na Nb HX. unfold edge_at in *. cbn [p_edge] in *. rewrite !nth_error_upd. destruct (Nat.eqb_spec a x); [congruence|]. destruct (Nat.eqb_spec b x); [congruence|]. exact HX.
  - intros E F HE HF. assert (E = EA) as -> by (unfold edge_at in *; congruence). assert (F = EB) as -> by (unfold edge_at in *; congruence).
    unfold edge_at. cbn [p_edge]. rewrite !nth_error_upd, !upd_length, !Nat.eqb_refl. destruct (Nat.ltb_spec a (length es)); [|lia]. destruct (Nat.eqb_spec a b); [congruence|].
    destruct (Nat.ltb_spec b (length es)); [|lia]. auto.
Qed.
