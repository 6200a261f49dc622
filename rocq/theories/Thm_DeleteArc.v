(** C81: plc_delete_arc removes the arc asked for and nothing else. *)
From Coq Require Import List ZArith Bool Arith Lia.
From Verif Require Import Base ListAux PlcConstraints PlcStrands PlcStrandsProofs Thm_Strands DeleteArc.
Import ListNotations.
Open Scope Z_scope.
Open Scope res_scope.

(** ** what is asked *)
Section Spec.
Context {V K : Type}.
(** the vertices of a component *)
Definition points (s : strand V K) : list V := firstn (Z.to_nat (s_nv s)) (skipn 1 (s_buf s)).
(** the list from place [k] on, then its beginning *)
Definition from_place (k : nat) (l : list V) : list V := skipn k l ++ firstn k l.
Definition not_empty (l : list V) : bool := match l with [] => false | _ => true end.
(** curves as the library makes them: components with two or more vertices, not more colors than vertices, right wrap-around cells *)
Definition curve_made (L : plcurve V K) : Prop :=
  Forall strand_wf (strands L) /\ Forall wrapped (strands L) /\ Forall (fun s => Z.of_nat (length (s_clr s)) <= s_nv s) (strands L).
(** components put in place of component [cp]; the others are the same and the constraints are gone *)
Definition replaced (L L' : plcurve V K) (cp : Z) (news : list (strand V K)) : Prop :=
  strands L' = firstn (Z.to_nat cp) (strands L) ++ news ++ skipn (S (Z.to_nat cp)) (strands L) /\ pcsts L' = [].
(** an open component with right wrap-around cells *)
Definition open_made (s : strand V K) : Prop := s_open s = true /\ (2 <= s_nv s -> wrapped s).
End Spec.

(** ** proofs *)
Section P.
Context {V K : Type}.
Notation strand := (strand V K).
Notation plcurve := (plcurve V K).
Lemma points_nth : forall (s : strand) i, nth_error (points s) i = if Nat.ltb i (Z.to_nat (s_nv s)) then nth_error (s_buf s) (S i) else None.
Proof. intros. unfold points. rewrite nth_error_firstn. destruct (Nat.ltb i _); [|auto]. rewrite nth_error_skipn. auto. Qed.
Lemma points_length : forall s : strand, 0 <= s_nv s -> s_nv s + 2 <= Z.of_nat (length (s_buf s)) -> length (points s) = Z.to_nat (s_nv s).
Proof. intros. unfold points. rewrite firstn_length, skipn_length. lia. Qed.
Lemma fix_open : forall nv (b : list V) (clr : list K), 1 <= nv -> nv + 2 <= Z.of_nat (length b) ->
  exists s', fix_strand (mkStrand nv true b clr) = Ok s' /\ open_made s' /\ s_nv s' = nv /\ length (s_buf s') = length b /\ s_clr s' = clr /\ points s' = points (mkStrand nv true b clr).
Proof.
  intros nv b clr N B. unfold fix_strand. cbn [s_nv s_open s_buf s_clr]. replace (if nv <? 3 then true else true) with true by (destruct (nv <? 3); auto).
  destruct (vget_ok b 1 ltac:(lia)) as (a & A1 & A2). rewrite A1. cbn [bind]. rewrite vset_ok by lia. cbn [bind]. change (Z.to_nat (-1 + 1)) with 0%nat.
  destruct (vget_ok (upd 0 a b) (nv - 2)) as (c & C1 & C2); [rewrite upd_length; lia|]. rewrite C1. cbn [bind]. rewrite vset_ok by (rewrite upd_length; lia). cbn [bind].
  eexists. split; [reflexivity|]. cbn [s_nv s_open s_buf s_clr]. split; [split; [reflexivity|]|].
  - cbn [s_nv]. intros N2. unfold wrapped, vertex. cbn [s_open s_nv s_buf]. rewrite !(proj2 (Z.ltb_ge _ _)) by lia. change (Z.to_nat (-1 + 1)) with 0%nat. rewrite !nth_error_upd, !upd_length. split.
    + rewrite (proj2 (Nat.eqb_neq (Z.to_nat (nv + 1)) 0)), (proj2 (Nat.eqb_neq (Z.to_nat (nv + 1)) (Z.to_nat (1 + 1)))) by lia. rewrite A2. cbn [Nat.eqb]. change (Z.to_nat (1 + 1)) with 2%nat. cbn [Nat.eqb]. rewrite (proj2 (Nat.ltb_lt _ _)) by lia. auto.
    + rewrite Nat.eqb_refl, (proj2 (Nat.ltb_lt _ _)) by lia. rewrite (proj2 (Nat.eqb_neq (Z.to_nat (nv + 1)) (Z.to_nat (nv - 2 + 1)))) by lia. rewrite <- C2. rewrite nth_error_upd. auto.
  - split; [auto|]. split; [rewrite !upd_length; auto|]. split; [auto|]. apply nth_error_ext. intros i. rewrite !points_nth. cbn [s_nv s_buf]. destruct (Nat.ltb_spec i (Z.to_nat nv)); [|auto]. rewrite !nth_error_upd. rewrite (proj2 (Nat.eqb_neq _ (S i))) by lia. auto.
Qed.
Lemma move_ok : forall (old : list V) n vt src new, 0 <= vt + 1 -> vt + Z.of_nat n < Z.of_nat (length new) -> (forall i, vt <= i < vt + Z.of_nat n -> 0 <= src i + 1 < Z.of_nat (length old)) ->
  exists b, move_loop n vt src old new = Ok b /\ length b = length new /\ forall i, vt <= i < vt + Z.of_nat n -> nth_error b (Z.to_nat (i + 1)) = nth_error old (Z.to_nat (src i + 1)).
Proof.
  intros old n. assert (G : forall vt src new, 0 <= vt + 1 -> vt + Z.of_nat n < Z.of_nat (length new) -> (forall i, vt <= i < vt + Z.of_nat n -> 0 <= src i + 1 < Z.of_nat (length old)) ->
    exists b, move_loop n vt src old new = Ok b /\ length b = length new /\ (forall i, vt <= i < vt + Z.of_nat n -> nth_error b (Z.to_nat (i + 1)) = nth_error old (Z.to_nat (src i + 1))) /\ forall i, (i < Z.to_nat (vt + 1))%nat -> nth_error b i = nth_error new i).
  { induction n as [|n IH]; intros vt src new P B R; cbn [move_loop]; [exists new; repeat split; auto; lia|].
    destruct (vget_ok old (src vt) (R vt ltac:(lia))) as (v & E & W). rewrite E. cbn [bind]. rewrite vset_ok by lia. cbn [bind].
    destruct (IH (vt + 1) src (upd (Z.to_nat (vt + 1)) v new)) as (b & F & LB & H1 & H2); [lia|rewrite upd_length; lia|intros; apply R; lia|]. exists b. split; [auto|]. split; [rewrite LB; apply upd_length|]. split.
    - intros i Hi. destruct (Z.eq_dec i vt) as [->|]; [|apply H1; lia]. rewrite H2 by lia. rewrite nth_error_upd, Nat.eqb_refl, (proj2 (Nat.ltb_lt _ _)) by lia. auto.
    - intros i Hi. rewrite H2 by lia. rewrite nth_error_upd, (proj2 (Nat.eqb_neq _ _)) by lia. auto. }
  intros vt src new P B R. destruct (G vt src new P B R) as (b & E & LB & H & _). exists b. auto.
Qed.
Lemma made_copy : forall (z : V) (zc : K) (L : plcurve) cp s, curve_made L -> 0 <= cp -> nth_error (strands L) (Z.to_nat cp) = Some s -> plc_copy z zc L = Ok L.
Proof.
  intros z zc L cp s (W & _ & C) P N. apply plc_copy_identical; [intros E; rewrite E in N; destruct (Z.to_nat cp); discriminate|]. rewrite Forall_forall in *. intros x X. specialize (W x X). specialize (C x X). cbn in C. unfold strand_wf in W. lia.
Qed.
Lemma made_parts : forall (L : plcurve) k, curve_made L -> fix_strands (firstn k (strands L)) = Ok (firstn k (strands L)) /\ fix_strands (skipn k (strands L)) = Ok (skipn k (strands L)).
Proof. intros L k (W & R & _). rewrite <- (firstn_skipn k (strands L)) in W, R. apply Forall_app in W. apply Forall_app in R. split; apply fix_strands_idem; tauto. Qed.
Lemma upd_parts : forall (l : list strand) k a s, nth_error l k = Some a -> upd k s l = firstn k l ++ s :: skipn (S k) l.
Proof. induction l as [|x l IH]; intros [|k] a s N; cbn in *; try discriminate; auto. f_equal. eapply IH; eauto. Qed.
(** plc_fix_wrap with changed components in the place of component [cp] *)
Lemma fix_parts : forall (L : plcurve) k mid mid', curve_made L -> fix_strands mid = Ok mid' -> plc_fix_wrap (mkPlc (firstn k (strands L) ++ mid ++ skipn (S k) (strands L)) []) = Ok (mkPlc (firstn k (strands L) ++ mid' ++ skipn (S k) (strands L)) []).
Proof. intros L k mid mid' M E. unfold plc_fix_wrap. cbn [strands pcsts]. rewrite !fix_strands_app, E. rewrite (proj1 (made_parts L k M)), (proj2 (made_parts L (S k) M)). auto. Qed.
Lemma fix_parts0 : forall (L : plcurve) k, curve_made L -> plc_fix_wrap (mkPlc (firstn k (strands L) ++ skipn (S k) (strands L)) []) = Ok (mkPlc (firstn k (strands L) ++ skipn (S k) (strands L)) []).
Proof. intros L k M. exact (fix_parts L k [] [] M eq_refl). Qed.
Lemma fix_parts1 : forall (L : plcurve) k a a', curve_made L -> fix_strand a = Ok a' -> plc_fix_wrap (mkPlc (firstn k (strands L) ++ a :: skipn (S k) (strands L)) []) = Ok (mkPlc (firstn k (strands L) ++ a' :: skipn (S k) (strands L)) []).
Proof. intros L k a a' M E. apply (fix_parts L k [a] [a'] M). cbn [fix_strands]. rewrite E. auto. Qed.
Lemma fix_parts2 : forall (L : plcurve) k a b a' b', curve_made L -> fix_strand a = Ok a' -> fix_strand b = Ok b' -> plc_fix_wrap (mkPlc (firstn k (strands L) ++ a :: b :: skipn (S k) (strands L)) []) = Ok (mkPlc (firstn k (strands L) ++ a' :: b' :: skipn (S k) (strands L)) []).
Proof. intros L k a b a' b' M E F. apply (fix_parts L k [a; b] [a'; b'] M). cbn [fix_strands]. rewrite E. cbn [bind]. rewrite F. auto. Qed.
Lemma dropped : forall (L : plcurve) cp s, curve_made L -> 0 <= cp -> nth_error (strands L) (Z.to_nat cp) = Some s ->
  exists L', (do newL <- plc_drop_component (remove_all_constraints L) cp; plc_fix_wrap newL) = Ok L' /\ replaced L L' cp [].
Proof.
  intros L cp s M P N. assert (B : (Z.to_nat cp < length (strands L))%nat) by (apply nth_error_Some; congruence). unfold plc_drop_component, remove_all_constraints. cbn [strands pcsts]. rewrite (proj2 (Z.leb_le _ _)), (proj2 (Z.ltb_lt _ _)) by lia. cbn [bind]. rewrite fix_parts0 by auto. eexists. split; [reflexivity|]. split; auto.
Qed.

Theorem delete_closed : forall (z : V) (zc : K) (L : plcurve) cp s vt1 vt2, curve_made L -> 0 <= cp -> nth_error (strands L) (Z.to_nat cp) = Some s -> s_open s = false -> 0 <= vt1 < s_nv s -> 0 <= vt2 < s_nv s ->
  let deleted := (vt2 - vt1) mod s_nv s + 1 in
  exists L' news, delete_arc z zc L cp vt1 vt2 = Ok L' /\ replaced L L' cp news /\ Forall open_made news /\
    map points news = filter not_empty [skipn (Z.to_nat deleted) (from_place (Z.to_nat vt1) (points s))].
Proof.
  intros z zc L cp s vt1 vt2 M P N O B1 B2 deleted. unfold delete_arc. rewrite (made_copy z zc L cp s M P N). cbn [bind]. rewrite (proj2 (Z.ltb_ge _ _)) by lia. cbn [remove_all_constraints strands]. rewrite N, O. set (nv := s_nv s) in *.
  assert (SW : strand_wf s) by (destruct M as (W & _); rewrite Forall_forall in W; apply W; eapply nth_error_In; eauto). destruct SW as (S2 & SB). fold nv in S2, SB.
  assert (PL : length (points s) = Z.to_nat nv) by (apply points_length; fold nv; lia).
  destruct ((vt1 =? vt2 + 1) || ((vt1 <=? 0) && (nv - 1 <=? vt2))) eqn:T.
  - destruct (dropped L cp s M P N) as (L' & E & Q). exists L', []. split; [exact E|]. split; [auto|]. split; [auto|]. replace deleted with nv. { rewrite skipn_all2; [reflexivity|]. unfold from_place. rewrite app_length, skipn_length, firstn_length. lia. }
    unfold deleted. apply orb_true_iff in T. destruct T as [T|T].
    + apply Z.eqb_eq in T. replace (vt2 - vt1) with (nv - 1 + (-1) * nv) by lia. rewrite Z.mod_add, Z.mod_small by lia. lia.
    + apply andb_true_iff in T. rewrite !Z.leb_le in T. replace (vt2 - vt1) with (nv - 1) by lia. rewrite Z.mod_small by lia. lia.
  - apply orb_false_iff in T. destruct T as (T1 & T2). apply Z.eqb_neq in T1. apply andb_false_iff in T2. rewrite !Z.leb_gt in T2.
    set (nv' := if vt1 <=? vt2 then nv - (vt2 - vt1 + 1) else vt1 - vt2 - 1). assert (NV : deleted = nv - nv' /\ 1 <= nv' < nv). { unfold deleted, nv'. destruct (Z.leb_spec vt1 vt2); [rewrite Z.mod_small by lia; lia|]. replace (vt2 - vt1) with (nv - (vt1 - vt2) + (-1) * nv) by lia. rewrite Z.mod_add, Z.mod_small by lia. lia. }
    destruct NV as (ND & NB).
    destruct (move_ok (s_buf s) (Z.to_nat nv') 0 (fun vt => Z.rem (vt + vt2 + 1) nv) (s_buf s)) as (b & E & LB & H); [lia|lia| |]. { intros i Hi. rewrite Z.rem_mod_nonneg by lia. pose proof (Z.mod_pos_bound (i + vt2 + 1) nv ltac:(lia)). lia. }
    rewrite E. cbn [bind]. rewrite (upd_parts _ _ s _ N). destruct (fix_open nv' b (s_clr s)) as (s' & F & OM & NV' & LB' & CL & PT); [lia|lia|].
    rewrite (fix_parts1 L _ _ s' M F). eexists. exists [s']. split; [reflexivity|]. split; [split; auto|]. split; [repeat constructor; apply OM|].
    assert (EQ : points s' = skipn (Z.to_nat deleted) (from_place (Z.to_nat vt1) (points s))).
    { rewrite PT. apply nth_error_ext. intros i. rewrite nth_error_skipn, points_nth. cbn [s_nv s_buf]. destruct (Nat.ltb_spec i (Z.to_nat nv')) as [Hi|Hi].
      - specialize (H (Z.of_nat i) ltac:(lia)). cbv beta in H. replace (Z.to_nat (Z.of_nat i + 1)) with (S i) in H by lia. rewrite H. rewrite Z.rem_mod_nonneg by lia. unfold from_place.
        assert (D : exists q, Z.of_nat i + vt2 + 1 = vt1 + deleted + Z.of_nat i + q * nv /\ (q = 0 \/ q = -1)). { rewrite ND. unfold nv'. destruct (Z.leb_spec vt1 vt2); [exists 0|exists (-1)]; lia. }
        destruct D as (q & D & _). rewrite D, Z.mod_add by lia.
        destruct (Z.lt_ge_cases (vt1 + deleted + Z.of_nat i) nv).
        + rewrite Z.mod_small by lia. rewrite nth_error_app1 by (rewrite skipn_length; lia). rewrite nth_error_skipn, points_nth. fold nv. rewrite (proj2 (Nat.ltb_lt _ _)) by lia. f_equal. lia.
        + replace (vt1 + deleted + Z.of_nat i) with (vt1 + deleted + Z.of_nat i - nv + 1 * nv) by lia. rewrite Z.mod_add, Z.mod_small by lia. rewrite nth_error_app2 by (rewrite skipn_length; lia). rewrite skipn_length, nth_error_firstn, (proj2 (Nat.ltb_lt _ _)) by lia. rewrite points_nth. fold nv. rewrite (proj2 (Nat.ltb_lt _ _)) by lia. f_equal. lia.
      - symmetry. apply nth_error_None. unfold from_place. rewrite app_length, skipn_length, firstn_length. lia. }
    cbn [map filter]. rewrite <- EQ. destruct (points s') eqn:EP; [|auto]. exfalso. pose proof (points_length s' ltac:(lia) ltac:(lia)) as Q. rewrite EP in Q. cbn in Q. lia.
Qed.

Theorem delete_open : forall (z : V) (zc : K) (L : plcurve) cp s vt1 vt2, curve_made L -> 0 <= cp -> nth_error (strands L) (Z.to_nat cp) = Some s -> s_open s = true -> vt1 <= vt2 -> -1 <= vt2 -> vt1 <= s_nv s ->
  exists L' news, delete_arc z zc L cp vt1 vt2 = Ok L' /\ replaced L L' cp news /\ Forall open_made news /\
    map points news = filter not_empty [firstn (Z.to_nat vt1) (points s); skipn (Z.to_nat (vt2 + 1)) (points s)].
Proof.
  intros z zc L cp s vt1 vt2 M P N O LE G1 G2. unfold delete_arc. rewrite (made_copy z zc L cp s M P N). cbn [bind]. rewrite (proj2 (Z.ltb_ge cp _)) by lia. cbn [remove_all_constraints strands]. rewrite N, O. set (nv := s_nv s) in *.
  assert (SW : strand_wf s) by (destruct M as (W & _); rewrite Forall_forall in W; apply W; eapply nth_error_In; eauto). destruct SW as (S2 & SB). fold nv in S2, SB.
  assert (PL : length (points s) = Z.to_nat nv) by (apply points_length; fold nv; lia).
  assert (NE : forall t : strand, 1 <= s_nv t -> s_nv t + 2 <= Z.of_nat (length (s_buf t)) -> not_empty (points t) = true). { intros t T1 T2. destruct (points t) eqn:EP; [|auto]. pose proof (points_length t ltac:(lia) T2) as Q. rewrite EP in Q. cbn in Q. lia. }
  rewrite (proj2 (Z.ltb_ge vt2 vt1)) by lia. destruct (Z.leb_spec vt1 0) as [F|F].
  - replace (firstn (Z.to_nat vt1) (points s)) with (@nil V) by (replace (Z.to_nat vt1) with 0%nat by lia; auto). destruct (Z.leb_spec (nv - 1) vt2) as [T|T].
    + destruct (dropped L cp s M P N) as (L' & E & Q). exists L', []. split; [exact E|]. split; [auto|]. split; [auto|]. rewrite skipn_all2 by lia. auto.
    + destruct (move_ok (s_buf s) (Z.to_nat (nv - vt2)) 0 (fun vt => vt + vt2 + 1) (s_buf s)) as (b & E & LB & H); [lia|lia|intros; lia|]. rewrite E. cbn [bind].
      rewrite (upd_parts _ _ s _ N). destruct (fix_open (nv - (vt2 + 1)) b (s_clr s)) as (s' & FX & OM & NV' & LB' & CL & PT); [lia|lia|]. rewrite (fix_parts1 L _ _ s' M FX). eexists. exists [s']. split; [reflexivity|]. split; [split; auto|]. split; [repeat constructor; apply OM|].
      assert (EQ : points s' = skipn (Z.to_nat (vt2 + 1)) (points s)). { rewrite PT. apply nth_error_ext. intros i. rewrite nth_error_skipn, !points_nth. cbn [s_nv s_buf]. fold nv. destruct (Nat.ltb_spec i (Z.to_nat (nv - (vt2 + 1)))) as [Hi|Hi]; [|rewrite (proj2 (Nat.ltb_ge _ _)) by lia; auto]. rewrite (proj2 (Nat.ltb_lt _ _)) by lia. specialize (H (Z.of_nat i) ltac:(lia)). cbv beta in H. replace (Z.to_nat (Z.of_nat i + 1)) with (S i) in H by lia. rewrite H. f_equal. lia. }
      cbn [map filter not_empty]. rewrite <- EQ. rewrite NE by lia. auto.
  - assert (CUT : forall c : list K, exists s', fix_strand (mkStrand vt1 true (s_buf s) c) = Ok s' /\ open_made s' /\ points s' = firstn (Z.to_nat vt1) (points s) /\ not_empty (points s') = true).
    { intros c. destruct (fix_open vt1 (s_buf s) c) as (s' & FX & OM & NV' & LB' & CL & PT); [lia|lia|]. exists s'. split; [auto|]. split; [auto|]. split; [|apply NE; lia]. rewrite PT. unfold points. cbn [s_nv s_buf]. fold nv. rewrite firstn_firstn. f_equal. lia. }
    destruct (Z.leb_spec (nv - 1) vt2) as [T|T].
    + rewrite (upd_parts _ _ s _ N). destruct (CUT (s_clr s)) as (s' & FX & OM & PT & NS). rewrite (fix_parts1 L _ _ s' M FX). eexists. exists [s']. split; [reflexivity|]. split; [split; auto|]. split; [repeat constructor; apply OM|]. rewrite skipn_all2 by lia. cbn [map filter not_empty]. rewrite <- PT, NS. auto.
    + set (tail := firstn (Z.to_nat (nv - (vt2 + 1))) (skipn (Z.to_nat (vt2 + 2)) (s_buf s))). assert (TL : tail = skipn (Z.to_nat (vt2 + 1)) (points s)). { apply nth_error_ext. intros i. unfold tail. rewrite nth_error_firstn, !nth_error_skipn, points_nth. fold nv. destruct (Nat.ltb_spec i (Z.to_nat (nv - (vt2 + 1)))) as [Hi|Hi]; [rewrite (proj2 (Nat.ltb_lt _ _)) by lia; f_equal; lia|rewrite (proj2 (Nat.ltb_ge _ _)) by lia; auto]. }
      assert (TN : length tail = Z.to_nat (nv - (vt2 + 1))) by (rewrite TL, skipn_length; lia).
      assert (BC : (Z.to_nat cp < length (strands L))%nat) by (apply nth_error_Some; congruence).
      unfold plc_add_component, remove_all_constraints. cbn [strands pcsts]. rewrite (proj2 (Z.leb_le 1 (Z.of_nat (length tail)))) by lia. rewrite (proj2 (Z.leb_le 0 (cp + 1))) by lia. rewrite (proj2 (Z.leb_le (cp + 1) (Z.of_nat (length (strands L))))) by lia.
      replace (Z.to_nat (cp + 1)) with (S (Z.to_nat cp)) by lia. destruct (fix_open (Z.of_nat (length tail)) (z :: tail ++ [z]) []) as (t & FX & OM & NV' & LB' & CL & PT); [lia|cbn [length]; rewrite app_length; cbn [length]; lia|].
      unfold plc_fix_wrap at 1. cbn [strands pcsts]. rewrite fix_strands_app. cbn [fix_strands]. rewrite FX. rewrite (proj1 (made_parts L _ M)), (proj2 (made_parts L _ M)). cbn [bind strands pcsts].
      assert (NC : nth_error (firstn (S (Z.to_nat cp)) (strands L) ++ t :: skipn (S (Z.to_nat cp)) (strands L)) (Z.to_nat cp) = Some s). { rewrite nth_error_app1 by (rewrite firstn_length; lia). rewrite nth_error_firstn, (proj2 (Nat.ltb_lt _ _)) by lia. auto. }
      rewrite NC, O. rewrite (upd_parts _ _ s _ NC).
      assert (A1 : firstn (Z.to_nat cp) (firstn (S (Z.to_nat cp)) (strands L) ++ t :: skipn (S (Z.to_nat cp)) (strands L)) = firstn (Z.to_nat cp) (strands L)). { rewrite firstn_app, firstn_firstn, firstn_length. replace (Nat.min (Z.to_nat cp) (S (Z.to_nat cp))) with (Z.to_nat cp) by lia. replace (Z.to_nat cp - _)%nat with 0%nat by lia. cbn [firstn]. apply app_nil_r. }
      assert (A2 : skipn (S (Z.to_nat cp)) (firstn (S (Z.to_nat cp)) (strands L) ++ t :: skipn (S (Z.to_nat cp)) (strands L)) = t :: skipn (S (Z.to_nat cp)) (strands L)). { rewrite skipn_app, firstn_length, skipn_all2 by (rewrite firstn_length; lia). replace (S (Z.to_nat cp) - _)%nat with 0%nat by lia. auto. }
      rewrite A1, A2. destruct (CUT (s_clr s)) as (s' & FS & OS & PS & NS).
      destruct OM as (OT & WT). destruct t as [tn to tb tc]. cbn [s_nv s_open s_buf s_clr] in *. subst tn to tc. destruct (fix_open (Z.of_nat (length tail)) tb []) as (t' & FT & OT' & NT & LT & CT & PT'); [lia|rewrite LB'; cbn [length]; rewrite app_length; cbn [length]; lia|].
      rewrite (fix_parts2 L _ _ _ s' t' M FS FT). eexists. exists [s'; t']. split; [reflexivity|]. split; [split; auto|]. split; [repeat constructor; first [apply OS|apply OT']|].
      assert (EQ : points t' = tail). { rewrite PT', PT. unfold points. cbn [s_nv s_buf skipn]. rewrite Nat2Z.id, firstn_app, Nat.sub_diag, firstn_all. cbn [firstn]. apply app_nil_r. }
      cbn [map filter]. rewrite <- TL, <- PS, NS, EQ. destruct tail; [cbn in TN; lia|auto].
Qed.

Theorem delete_open_nothing : forall (z : V) (zc : K) (L : plcurve) cp s vt1 vt2, curve_made L -> 0 <= cp -> nth_error (strands L) (Z.to_nat cp) = Some s -> s_open s = true -> vt2 < vt1 ->
  delete_arc z zc L cp vt1 vt2 = Ok (mkPlc (strands L) []).
Proof. intros z zc L cp s vt1 vt2 M P N O LT. unfold delete_arc. rewrite (made_copy z zc L cp s M P N). cbn [bind]. rewrite (proj2 (Z.ltb_ge cp _)) by lia. cbn [remove_all_constraints strands]. rewrite N, O, (proj2 (Z.ltb_lt _ _)) by lia. auto. Qed.

(** Places beyond the ends are clamped, as [delete_open] says, only if the arc reaches the component: one that ends before place -1
    or begins after the place behind the last vertex makes the program write beyond the buffer. *)
Theorem delete_open_outside_refuted : forall (z : V) (zc : K) (L : plcurve) cp s vt1 vt2, curve_made L -> 0 <= cp -> nth_error (strands L) (Z.to_nat cp) = Some s -> s_open s = true -> vt1 <= vt2 ->
  vt2 < -1 \/ s_nv s < vt1 -> delete_arc z zc L cp vt1 vt2 = UB.
Proof.
  intros z zc L cp s vt1 vt2 M P N O LE G. unfold delete_arc. rewrite (made_copy z zc L cp s M P N). cbn [bind]. rewrite (proj2 (Z.ltb_ge cp _)) by lia. cbn [remove_all_constraints strands]. rewrite N, O. set (nv := s_nv s) in *.
  assert (SW : strand_wf s) by (destruct M as (W & _); rewrite Forall_forall in W; apply W; eapply nth_error_In; eauto). destruct SW as (S2 & SB). fold nv in S2, SB.
  rewrite (proj2 (Z.ltb_ge vt2 vt1)) by lia. destruct G as [G|G].
  - rewrite (proj2 (Z.leb_le vt1 0)), (proj2 (Z.leb_gt (nv - 1) vt2)) by lia.
    assert (ML : forall n vt (old new : list V) src, Z.of_nat (length new) = nv + 2 -> 0 <= vt <= nv + 1 -> nv + 1 < vt + Z.of_nat n -> move_loop n vt src old new = UB).
    { induction n as [|n IH]; intros vt old new src LN BV BN; [lia|]. cbn [move_loop]. assert (VG : forall i, vget old i = UB \/ exists v, vget old i = Ok v) by (intros i; unfold vget; destruct (0 <=? i + 1); [|auto]; destruct (nth_error old _); eauto). destruct (VG (src vt)) as [->|(v & ->)]; [auto|]. cbn [bind]. destruct (Z.eq_dec vt (nv + 1)) as [->|].
      - unfold vset. rewrite (proj2 (Z.ltb_ge _ (Z.of_nat (length new)))) by lia. rewrite andb_false_r. auto.
      - rewrite vset_ok by lia. cbn [bind]. apply IH; [rewrite upd_length; lia|lia|lia]. }
    rewrite ML by lia. auto.
  - rewrite (proj2 (Z.leb_gt vt1 0)), (proj2 (Z.leb_le (nv - 1) vt2)) by lia. rewrite (upd_parts _ _ s _ N).
    assert (FX : fix_strand (mkStrand vt1 true (s_buf s) (s_clr s)) = UB). { unfold fix_strand. cbn [s_nv s_open s_buf s_clr]. rewrite (proj2 (Z.ltb_ge vt1 3)) by lia. destruct (vget_ok (s_buf s) 1 ltac:(lia)) as (a & -> & _). cbn [bind]. rewrite vset_ok by lia. cbn [bind]. set (b1 := upd _ _ _). assert (LB : length b1 = length (s_buf s)) by apply upd_length. unfold vget. destruct (0 <=? vt1 - 2 + 1); [|auto]. destruct (nth_error b1 _); [|auto]. cbn [bind]. unfold vset. rewrite (proj2 (Z.ltb_ge _ (Z.of_nat (length b1)))) by lia. rewrite andb_false_r. auto. }
    unfold plc_fix_wrap. cbn [strands pcsts]. rewrite fix_strands_app. rewrite (proj1 (made_parts L _ M)). cbn [bind fix_strands]. rewrite FX. auto.
Qed.
End P.
(** Colors are not cut: after an arc of a component with as many colors as vertices is deleted, the curve cannot be copied. *)
Theorem delete_colors_refuted : exists (L L' : plcurve Z Z), curve_made L /\ delete_arc 0 0 L 0 1 2 = Ok L' /\ plc_copy 0 0 L' = Fail.
Proof.
  exists (mkPlc [mkStrand 5 false [5;1;2;3;4;5;1] [1;2;3;4;5]] []). eexists. split; [|split; reflexivity]. split; [|split]; repeat constructor; cbn; lia.
Qed.
(** The hypotheses hold for a curve with an open and a closed component. *)
Example delete_example : let L := mkPlc [mkStrand 4 true [2;1;2;3;4;3] []; mkStrand 5 false [9;5;6;7;8;9;5] []] [] : plcurve Z Z in
  curve_made L /\ (exists L', delete_arc 0 0 L 1 4 0 = Ok L' /\ map points (strands L') = [[1;2;3;4]; [6;7;8]]) /\ (exists L', delete_arc 0 0 L 0 1 1 = Ok L' /\ map points (strands L') = [[1]; [3;4]; [5;6;7;8;9]]).
Proof. cbv zeta. split; [split; [|split]; repeat constructor; cbn; lia|]. split; eexists; split; reflexivity. Qed.
Print Assumptions delete_closed.
Print Assumptions delete_open.
Print Assumptions delete_open_nothing.
Print Assumptions delete_open_outside_refuted.
Print Assumptions delete_colors_refuted.
