(** C09, C10, C11: packed diagrams. *)
From Coq Require Import List ZArith Lia Bool Arith Permutation Sorted.
From Verif Require Import Base Iterators ListAux Sorting Pd PdSpec PdProofs Relabel RelabelProofs RelabelSym Strands SlotCount
  PdCross PdCrossProofs PdEdges PdComps PdCompsProofs PdFaces PdHash PdRegen RegenSpec RegenProofs RestProofs PdPack PackProofs
  PdExamples Thm_Pd Thm_Comps Thm_Faces Thm_Hash Thm_Regen.
Import ListNotations.
Open Scope nat_scope.

(** ** C10 *)

(** Every edge number of a diagram with n crossings fits into pd_indexbits(n) bits, and one bit less
    is too few. *)
Theorem indexbits_fit : forall n e, e < 2 * n -> e < 2 ^ pd_indexbits n.
Proof. exact index_fits. Qed.
Theorem indexbits_least : forall n w, 0 < n -> (forall e, e < 2 * n -> e < 2 ^ w) -> pd_indexbits n <= w.
Proof.
  intros n w Hn H. unfold pd_indexbits. apply Nat.log2_up_le_pow2; [lia|]. specialize (H (2 * n - 1) ltac:(lia)). lia.
Qed.
Theorem index_round_trip : forall n e, e < 2 * n -> exists bits, pd_idx_bitencode e n = Ok bits /\
  length bits = pd_indexbits n /\ pd_idx_bitdecode bits = e.
Proof.
  intros n e H. exists (idx_bits (pd_indexbits n) e). unfold pd_idx_bitencode. rewrite (proj2 (Nat.ltb_lt _ _) H).
  split; auto. split; [apply idx_bits_length|]. apply idx_round, index_fits; auto.
Qed.
(** Bit strings of every length but 0 survive packing into 32-bit words, whatever words follow. *)
Theorem bitstring_round_trip : forall bits extra, bits <> [] -> Forall (fun b => b = 0 \/ b = 1) bits ->
  exists words, pd_packbitstring bits = Ok words /\ length words = (length bits + 31) / 32 /\
    Forall (fun w => 0 <= w < 2 ^ 32)%Z words /\ pd_unpackbitstring (words ++ extra) (length bits) = Ok bits.
Proof. intros bits extra N F. apply bitstring_round; auto. destruct bits; [congruence|cbn; lia]. Qed.
Theorem bitstring_empty_refuted : pd_packbitstring [] = Fail.
Proof. reflexivity. Qed.
(** The buffer for one crossing is large enough although the byte for the sign is added to the size
    of an element instead of to the number of elements (line 211). *)
Theorem bitcode_fits : forall n signed,
  4 * (4 + 4 * pd_indexbits n + sign_bits signed) <= (4 + 4 * pd_indexbits n) * (4 + sign_bits signed).
Proof. intros n []; cbn [sign_bits]; lia. Qed.

Section Pack.
Context (d : pd) (Hn : 0 < ncross d) (HE : pd_edges_ok d = Ok true) (T : two_ended d).
Notation n := (ncross d).

(** all the crossings have a sign, or none *)
Definition all_signed (b : bool) : Prop := forall c s, sign_at d c s -> (s <> Unset <-> b = true).
Lemma all_signed_in : forall b x, all_signed b -> In x (p_cross d) -> orient_eqb (csign x) Unset = negb b.
Proof.
  intros b x H I. apply In_nth_error in I as (c & I). destruct (H c (csign x)) as (H1 & H2); [exists x; auto|].
  destruct b; cbn.
  - destruct (csign x); auto. exfalso. apply H2; auto.
  - destruct (csign x); auto; exfalso; assert (false = true) by (apply H1; discriminate); discriminate.
Qed.

Lemma pack_shape : forall b, all_signed b -> too_many_bits n b = false ->
  exists words, pd_pack d = Ok ((if b then (- Z.of_nat n) mod 2 ^ 32 else Z.of_nat n)%Z :: words) /\
    length words = (pd_packbits n b + 31) / 32 /\ Forall (fun w => 0 <= w < 2 ^ 32)%Z words /\
    forall extra, pd_unpackbitstring (words ++ extra) (pd_packbits n b) = Ok (code d b).
Proof.
  intros b HS HB. pose proof (proj1 (edges_ok_spec d Hn) HE) as (R & G).
  destruct (nth_error (p_cross d) 0) as [c0|] eqn:C0; [|apply nth_error_None in C0; unfold ncross in Hn; lia].
  assert (L : 0 < length (code d b)).
  { rewrite (code_length d Hn). unfold pd_packbits. nia. }
  destruct (bitstring_round (code d b) [] L (code_bits d b)) as (words & E & Lw & F & _).
  exists words. rewrite (code_length d Hn) in Lw. split; [|split; [exact Lw|split; [exact F|]]].
  - unfold pd_pack, get. rewrite C0. cbn [bind].
    rewrite (all_signed_in b c0 HS) by (eapply nth_error_In; eauto). rewrite !negb_involutive.
    rewrite (proj2 (forallb_forall _ _)).
    2:{ intros x Hx. rewrite (all_signed_in b x HS Hx). apply eqb_reflx. }
    rewrite HB. rewrite (codes_ok d Hn R T).
    2:{ intros Eb x Hx Q. pose proof (all_signed_in b x HS Hx) as W. rewrite Q, Eb in W. discriminate. }
    cbn [bind]. change (concat (map (fun p => cross_code d b (fst p) (snd p)) (combine (seq 0 n) (p_cross d)))) with (code d b).
    rewrite E. cbn [bind]. reflexivity.
  - intros extra. destruct (bitstring_round (code d b) extra L (code_bits d b)) as (w2 & E2 & _ & _ & U).
    rewrite E in E2. apply ok_inj in E2. subst w2. rewrite (code_length d Hn) in U. exact U.
Qed.

(** pd_pack writes one word with the number of crossings and then exactly pd_packbits bits. *)
Theorem pack_length : forall b, all_signed b -> too_many_bits n b = false ->
  exists w words, pd_pack d = Ok (w :: words) /\ length words = (pd_packbits n b + 31) / 32 /\
    Forall (fun w => 0 <= w < 2 ^ 32)%Z (w :: words).
Proof.
  intros b HS HB. destruct (pack_shape b HS HB) as (words & E & L & F & _). do 2 eexists. split; [exact E|].
  split; [exact L|]. constructor; [|exact F].
  assert (Hb : (Z.of_nat n < 2 ^ 31)%Z).
  { unfold too_many_bits in HB. apply Z.leb_gt in HB. unfold pd_packbits in HB. nia. }
  destruct b; [apply Z.mod_pos_bound; lia|lia].
Qed.

(** ** C09: reading back *)

(** the table that pd_unpack reads: the crossings with their signs (negative when they had none)
    and the edge records *)
Lemma table_back : forall b words, all_signed b -> too_many_bits n b = false ->
  (forall extra, pd_unpackbitstring (words ++ extra) (pd_packbits n b) = Ok (code d b)) ->
  pd_unpack_table b n words =
    Ok (mkPd (maxverts_of n) 0 [32] (p_edge d) (map (decoded b) (p_cross d)) [] []).
Proof.
  intros b words HS HB U. pose proof (proj1 (edges_ok_spec d Hn) HE) as (R & G).
  unfold pd_unpack_table. destruct (Nat.eqb_spec n 0) as [Z0|Z0]; [lia|]. cbn [negb]. rewrite HB.
  specialize (U []). rewrite app_nil_r in U. rewrite U. cbn [bind].
  assert (Lr : 2 * n <= length (repeat zero_edge (2 * maxverts_of n + 1))).
  { rewrite repeat_length. unfold maxverts_of. destruct (Nat.eqb_spec n 1) as [Z1|Z1]; lia. }
  pose proof (decode_crossings_ok d Hn R T b (p_cross d) 0 [] (repeat zero_edge (2 * maxverts_of n + 1)) ltac:(auto) Lr) as K.
  rewrite app_nil_r in K. change (length (p_cross d)) with n in K.
  change (concat (map (fun p => cross_code d b (fst p) (snd p)) (combine (seq 0 n) (p_cross d)))) with (code d b) in K.
  rewrite K. cbn [bind fst snd]. rewrite (edges_back d Hn R T) by exact Lr. reflexivity.
Qed.
Lemma decoded_signed : all_signed true -> map (decoded true) (p_cross d) = p_cross d.
Proof.
  intros HS. rewrite (map_ext_in _ (fun x => x)); [apply map_id|]. intros x Hx.
  pose proof (all_signed_in true x HS Hx) as Q. destruct x as [a1 a2 a3 a4 s]. unfold decoded. cbn in *. destruct s; auto. discriminate.
Qed.
Lemma first_word : forall b, too_many_bits n b = false ->
  let i := to_int (if b then (- Z.of_nat n) mod 2 ^ 32 else Z.of_nat n)%Z in
  (i =? - 2 ^ 31)%Z = false /\ negb (0 <? i)%Z = b /\ Z.to_nat (Z.abs i) = n.
Proof.
  intros b HB. unfold too_many_bits in HB. apply Z.leb_gt in HB. unfold pd_packbits in HB.
  assert (Hb : (Z.of_nat n < 2 ^ 31)%Z) by nia. cbv zeta. destruct b.
  - assert (Q : ((- Z.of_nat n) mod 2 ^ 32 = 2 ^ 32 - Z.of_nat n)%Z).
    { symmetry. apply (Z.mod_unique _ _ (-1)); lia. }
    rewrite Q. unfold to_int. rewrite (proj2 (Z.ltb_ge _ _)) by lia. split; [apply Z.eqb_neq; lia|].
    split; [|lia]. rewrite (proj2 (Z.ltb_ge _ _)) by lia. auto.
  - unfold to_int. rewrite (proj2 (Z.ltb_lt _ _)) by lia. split; [apply Z.eqb_neq; lia|]. split; [|lia].
    rewrite (proj2 (Z.ltb_lt _ _)) by lia. auto.
Qed.
Lemma unpack_is : forall b, all_signed b -> too_many_bits n b = false -> exists words, pd_pack d = Ok words /\
  pd_unpack words =
    bind (pd_regenerate (mkPd (maxverts_of n) 0 [32] (p_edge d) (map (decoded b) (p_cross d)) [] []))
      (fun d' => bind (pd_ok d') (fun ok => if ok then Ok d' else Fail)).
Proof.
  intros b HS HB. destruct (pack_shape b HS HB) as (words & E & _ & _ & U). eexists. split; [exact E|].
  destruct (first_word b HB) as (F1 & F2 & F3). cbv zeta in *. unfold pd_unpack. rewrite F1, F2, F3.
  rewrite (table_back b words HS HB U). reflexivity.
Qed.

(** Every planar diagram whose crossings all have signs comes back as the same diagram with crossings
    and edges renamed, in regular form. *)
Theorem unpack_pack : forall L, all_signed true -> too_many_bits n true = false ->
  strand_partition d L -> length L <= maxverts_of n / 2 + 2 -> length L <= 64 -> planar d ->
  exists words d' sigma rho pi, pd_pack d = Ok words /\ pd_unpack words = Ok d' /\
    relabelled d d' sigma rho pi /\ regular d' /\ ncomps d' = length L /\
    p_maxv d' = maxverts_of n /\ p_uid d' = 0 /\ pd_ok d' = Ok true.
Proof.
  intros L HS HB HL LL L64 P. destruct (unpack_is true HS HB) as (words & E & U). rewrite (decoded_signed HS) in U.
  set (d0 := mkPd (maxverts_of n) 0 [32] (p_edge d) (p_cross d) [] []) in *.
  assert (HE0 : pd_edges_ok d0 = Ok true) by exact HE.
  destruct (regenerate_signed d0 L) as (d' & s & r & q & E' & RL & Rg & Nc & Mv & Ui & K).
  - exact Hn.
  - unfold d0, maxverts_of. change (n <= (if n =? 1 then 2 else n)). destruct (Nat.eqb_spec n 1) as [Z1|Z1]; lia.
  - exact HE0.
  - exact T.
  - destruct (nth_error (p_cross d) 0) as [c0|] eqn:C0; [|apply nth_error_None in C0; unfold ncross in Hn; lia].
    exists 0, (csign c0). split; [exists c0; auto|]. apply (HS 0 (csign c0)); auto. exists c0; auto.
  - exact HL.
  - exact LL.
  - exact P.
  - rewrite E' in U. cbn [bind] in U. rewrite K in U by lia. cbn [bind] in U.
    exists words, d', s, r, q. split; auto. split; auto. split; [destruct RL; constructor; auto|].
    split; auto. split; auto. split; [exact Mv|]. split; [exact Ui|]. apply K; lia.
Qed.

(** A diagram that pd_regenerate leaves alone comes back unchanged, except that its capacity is the
    least possible and its uid is 0. *)
Theorem unpack_pack_regular : all_signed true -> too_many_bits n true = false -> n <= p_maxv d ->
  ncomps d <= maxverts_of n / 2 + 2 -> ncomps d <= 64 -> pd_regenerate d = Ok d ->
  exists words, pd_pack d = Ok words /\
    pd_unpack words = Ok (mkPd (maxverts_of n) 0 (p_hash d) (p_edge d) (p_cross d) (p_comp d) (p_face d)).
Proof.
  intros HS HB Hm LL L64 HR. destruct (unpack_is true HS HB) as (words & E & U). rewrite (decoded_signed HS) in U.
  pose proof (proj1 (edges_ok_spec d Hn) HE) as (R & G).
  assert (Sg : signed d).
  { destruct (nth_error (p_cross d) 0) as [c0|] eqn:C0; [|apply nth_error_None in C0; unfold ncross in Hn; lia].
    exists 0, (csign c0). split; [exists c0; auto|]. apply (HS 0 (csign c0)); auto. exists c0; auto. }
  destruct (regenerate_form d d Hn Hm HE T Sg HR) as (Rg & HF & HH).
  set (d0 := mkPd (maxverts_of n) 0 [32] (p_edge d) (p_cross d) [] []) in *.
  set (d1 := mkPd (maxverts_of n) 0 (p_hash d) (p_edge d) (p_cross d) (p_comp d) (p_face d)).
  assert (Hm1 : ncross d1 <= p_maxv d1).
  { unfold d1, maxverts_of. change (n <= (if n =? 1 then 2 else n)). destruct (Nat.eqb_spec n 1) as [Z1|Z1]; lia. }
  assert (Q : pd_regenerate d0 = Ok d1).
  { unfold pd_regenerate.
    rewrite (regenerate_canonical_fixed d0) by (first [exact (recorded_in_range d R)|exact (rg_cross d Rg)]). cbn [bind].
    unfold regenerate_edges_if_needed. change (all_signs_unset d0) with (all_signs_unset d). rewrite signed_not_unset by auto.
    change (pd_edges_ok d0) with (pd_edges_ok d). rewrite HE. cbn [bind].
    assert (C1 : pd_regenerate_comps d1 = Ok d1).
    { apply regenerate_comps_fixed; auto; try exact (rg_comps d Rg); try exact (rg_tags d Rg); try exact (rg_cross d Rg).
      apply (consistent_cross_ok d); auto. apply Rg. }
    pose proof (regenerate_comps_rest 0 [32] [] [] d1 d1 C1) as C0.
    change (rest 0 [32] [] [] d1) with d0 in C0. rewrite C0. cbn [bind]. clear C0.
    match goal with |- bind (pd_regenerate_faces ?x) _ = _ => set (d2 := x) end.
    rewrite (regenerate_faces_room d d2 (p_face d)).
    - cbn [bind]. unfold pd_regenerate_hash in *. change (hash_data (with_faces d2 (p_face d))) with (hash_data d).
      destruct (hash_data d); try discriminate. cbn [bind] in *. f_equal. apply ok_inj in HH.
      assert (H2 := f_equal p_hash HH). cbn [with_hash p_hash] in H2. unfold d1. rewrite <- H2. reflexivity.
    - split; reflexivity.
    - change (nfaces d <= MAXFACES d1). rewrite (rg_nfaces d Rg). unfold MAXFACES. change (ncross d1) with n in Hm1. lia.
    - rewrite HF. destruct d; reflexivity. }
  exists words. split; auto. rewrite U, Q. cbn [bind].
  assert (K : pd_ok d1 = Ok true).
  { destruct (regenerate_signed d0 (map cp_edge (p_comp d))) as (d' & s & r & q & E' & RL & _ & Nc & _ & _ & K); auto.
    - exact (comps_partition d (rg_comps d Rg)).
    - rewrite map_length. exact LL.
    - exists (p_face d). split; [exact (rg_faces d Rg)|]. split; [exact (rg_nfaces d Rg)|].
      exact (faces_short d Hn HE T HF).
    - rewrite Q in E'. apply ok_inj in E'. subst d'. apply K. exact L64. }
  rewrite K. reflexivity.
Qed.

(** A diagram without signs comes back with all its crossings negative. *)
Theorem unpack_pack_unsigned : forall L, all_signed false -> too_many_bits n false = false ->
  strand_partition d L -> length L <= maxverts_of n / 2 + 2 -> length L <= 64 -> planar d ->
  exists words d' sigma rho pi, pd_pack d = Ok words /\ pd_unpack words = Ok d' /\
    relabelled (with_cross d (map (fun x => mkCross (ce0 x) (ce1 x) (ce2 x) (ce3 x) Neg) (p_cross d))) d' sigma rho pi /\
    regular d' /\ (forall c s, sign_at d' c s -> s = Neg) /\ pd_ok d' = Ok true.
Proof.
  intros L HS HB HL LL L64 P. destruct (unpack_is false HS HB) as (words & E & U).
  pose proof (proj1 (edges_ok_spec d Hn) HE) as (R & G).
  change (map (decoded false) (p_cross d)) with (map (fun x => mkCross (ce0 x) (ce1 x) (ce2 x) (ce3 x) Neg) (p_cross d)) in U.
  set (cs := map (fun x => mkCross (ce0 x) (ce1 x) (ce2 x) (ce3 x) Neg) (p_cross d)) in *.
  set (d0 := mkPd (maxverts_of n) 0 [32] (p_edge d) cs [] []) in *.
  assert (Nc0 : ncross d0 = n) by (apply map_length).
  assert (Sl : forall c p e, slot d c p e -> slot d0 c p e).
  { intros c p e (Hp & x & Hx & Q). split; auto. exists (mkCross (ce0 x) (ce1 x) (ce2 x) (ce3 x) Neg).
    unfold d0, cs. cbn [p_cross]. rewrite nth_error_map, Hx. split; auto. }
  assert (R0 : ends_recorded d0).
  { destruct R as (R1 & R2). split; [rewrite Nc0; exact R1|]. intros e X HX. destruct (R2 e X HX). split; apply Sl; auto. }
  assert (G0 : goes_through d0).
  { intros e X HX. destruct (G e X HX) as ((f & F & F1 & F2 & F3) & (g & K & K1 & K2 & K3)).
    split; [exists f, F; auto|exists g, K; auto]. }
  assert (HE0 : pd_edges_ok d0 = Ok true) by (apply edges_ok_spec; auto; rewrite Nc0; auto).
  assert (Ng : forall c s, sign_at d0 c s -> s = Neg).
  { intros c s (x & Hx & <-). unfold d0, cs in Hx. cbn [p_cross] in Hx. rewrite nth_error_map in Hx.
    destruct (nth_error (p_cross d) c); [|discriminate]. cbn in Hx. injection Hx as <-. reflexivity. }
  destruct (regenerate_signed d0 L) as (d' & s & r & q & E' & RL & Rg & Nc & Mv & Ui & K); auto.
  - rewrite Nc0. auto.
  - rewrite Nc0. unfold d0, maxverts_of. cbn [p_maxv]. destruct (Nat.eqb_spec n 1) as [Z1|Z1]; lia.
  - destruct (nth_error (p_cross d) 0) as [c0|] eqn:C0; [|apply nth_error_None in C0; unfold ncross in Hn; lia].
    exists 0, Neg. split; [|discriminate]. exists (mkCross (ce0 c0) (ce1 c0) (ce2 c0) (ce3 c0) Neg).
    unfold d0, cs. cbn [p_cross]. rewrite nth_error_map, C0. auto.
  - destruct P as (fs & P1 & P2 & P3). exists fs. split; auto. rewrite Nc0. auto.
  - rewrite E' in U. cbn [bind] in U. rewrite K in U by lia. cbn [bind] in U.
    exists words, d', s, r, q. split; auto. split; auto. split; [destruct RL; constructor; auto|]. split; auto.
    split; [|apply K; lia]. intros c s' (x & Hx & <-).
    assert (Hc : c < ncross d') by (apply nth_error_Some; congruence).
    apply (cross_back d0 d' s r q RL) in Hc as (c1 & Hc1 & ->).
    destruct (nth_error (p_cross d0) c1) as [y|] eqn:Y; [|apply nth_error_None in Y; unfold ncross in Hc1; lia].
    destruct (rl_sign _ _ _ _ _ RL c1 (csign y)) as (z & Hz & Ez); [exists y; auto|].
    rewrite Hx in Hz. injection Hz as <-. rewrite Ez. apply (Ng c1). exists y; auto.
Qed.
End Pack.

(** ** C09: further limits *)

(** A diagram without crossings cannot be packed: pd_pack reads the sign of crossing 0, which does
    not exist. *)
Theorem pack_unknot_refuted : forall d, ncross d = 0 -> pd_pack d = UB.
Proof. intros d H. unfold pd_pack, get. destruct (p_cross d) eqn:E; [auto|]. unfold ncross in H. rewrite E in H. discriminate. Qed.
(** Nor can one with some signs set and some not. *)
Theorem pack_partly_signed_refuted : forall d c c' s, sign_at d c s -> s <> Unset -> sign_at d c' Unset -> pd_pack d = Fail.
Proof.
  intros d c c' s (x & Hx & Es) N (y & Hy & Ey). unfold pd_pack, get.
  destruct (nth_error (p_cross d) 0) as [c0|] eqn:C0.
  2:{ apply nth_error_None in C0. destruct (p_cross d); [|cbn in C0; lia]. destruct c; discriminate. }
  cbn [bind]. match goal with |- context [forallb ?f _] => destruct (forallb f (p_cross d)) eqn:F end; auto. exfalso.
  rewrite forallb_forall in F. pose proof (F x (nth_error_In _ _ Hx)) as F1. pose proof (F y (nth_error_In _ _ Hy)) as F2.
  apply eqb_prop in F1, F2. rewrite Ey in F2. rewrite Es in F1. destruct s; try congruence; destruct (csign c0); discriminate.
Qed.

(** ** C11 *)

(** What is packed are the crossings and the edge records: two diagrams with the same crossings and
    edges have the same packed form, whatever their tags, uid and hash. *)
Theorem pack_ignores : forall d d', p_cross d = p_cross d' -> p_edge d = p_edge d' -> pd_pack d = pd_pack d'.
Proof.
  intros d d' C E. unfold pd_pack. rewrite C. unfold ncross. rewrite C.
  assert (K : forall b cr, pd_crossing_bitencode d b cr = pd_crossing_bitencode d' b cr).
  { intros b cr. unfold pd_crossing_bitencode. rewrite C. destruct (get (p_cross d') cr); auto. cbn [bind].
    unfold encode_place, ncross. rewrite C, E. auto. }
  assert (M : forall b l, map_ok (pd_crossing_bitencode d b) l = map_ok (pd_crossing_bitencode d' b) l).
  { intros b. induction l as [|x l IH]; cbn [map_ok]; auto. rewrite K, IH. auto. }
  destruct (get (p_cross d') 0); auto. cbn [bind]. rewrite M. auto.
Qed.
(** So the tags of a diagram are lost: this trefoil has the tag Z, and comes back with the tag A. *)
Definition trefoil_Z : pd := with_comps trefoil (map (fun c => mkComp (cp_edge c) 90) (p_comp trefoil)).
Theorem unpack_tags_refuted : exists words d', pd_ok trefoil_Z = Ok true /\ pd_pack trefoil_Z = Ok words /\
  pd_unpack words = Ok d' /\ map cp_tag (p_comp d') = [65%Z] /\ map cp_tag (p_comp trefoil_Z) = [90%Z].
Proof. do 2 eexists. split; [reflexivity|]. split; [vm_compute; reflexivity|]. split; [vm_compute; reflexivity|]. split; reflexivity. Qed.
(** The trefoil without signs comes back with three negative crossings. *)
Theorem unpack_unsigned_refuted : exists words d', pd_ok trefoil_unsigned = Ok true /\
  pd_pack trefoil_unsigned = Ok words /\ pd_unpack words = Ok d' /\
  map csign (p_cross trefoil_unsigned) = [Unset; Unset; Unset] /\ map csign (p_cross d') = [Neg; Neg; Neg].
Proof. do 2 eexists. split; [reflexivity|]. split; [vm_compute; reflexivity|]. split; [vm_compute; reflexivity|]. split; reflexivity. Qed.

(** ** Satisfiability *)
Example trefoil_pack_hyps : all_signed trefoil true /\ too_many_bits (ncross trefoil) true = false /\
  ncomps trefoil <= maxverts_of (ncross trefoil) / 2 + 2 /\ all_signed trefoil_unsigned false.
Proof.
  split; [|split; [reflexivity|split; [cbn; lia|]]].
  - intros c s (x & Hx & <-). do 3 (destruct c as [|c]; [injection Hx as <-; cbn; split; congruence|]). destruct c; discriminate.
  - intros c s (x & Hx & <-). do 3 (destruct c as [|c]; [injection Hx as <-; cbn; split; congruence|]). destruct c; discriminate.
Qed.
Definition trefoil_hashed : pd := match pd_regenerate trefoil with Ok d => d | _ => trefoil end.
Example trefoil_regenerated : pd_regenerate trefoil_hashed = Ok trefoil_hashed /\ pd_edges_ok trefoil_hashed = Ok true.
Proof. split; [vm_compute; reflexivity|reflexivity]. Qed.

Print Assumptions indexbits_fit.
Print Assumptions indexbits_least.
Print Assumptions index_round_trip.
Print Assumptions bitstring_round_trip.
Print Assumptions bitcode_fits.
Print Assumptions pack_length.
Print Assumptions unpack_pack.
Print Assumptions unpack_pack_regular.
Print Assumptions unpack_pack_unsigned.
Print Assumptions pack_unknot_refuted.
Print Assumptions pack_partly_signed_refuted.
Print Assumptions pack_ignores.
Print Assumptions unpack_tags_refuted.
Print Assumptions unpack_unsigned_refuted.
