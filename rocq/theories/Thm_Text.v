(** C19: pd_read restores what pd_write wrote. *)
From Coq Require Import List NArith ZArith Lia Bool Arith Ascii String.
From Verif Require Import Base Iterators Perm Pd PdSpec PdProofs PdCross PdHash OverUnder Relabel RelabelProofs Thm_Pd Thm_Cross
  Base64 Base64Proofs HashSpec HashProofs PdExamples Strands RegenSpec Carry Planar PlanarProofs Thm_Planar Thm_Comps FewComps
  PdComps PdCompsProofs Thm_Ops TextIO TextSpec TextProofs.
Import ListNotations.
Open Scope nat_scope.
Open Scope res_scope.

(** the diagram in the capacity pd_read gives it *)
Definition restored (d : pd) : pd :=
  mkPd (maxverts_of (ncross d)) (p_uid d) (p_hash d) (p_edge d) (p_cross d) (p_comp d) (p_face d).

Lemma letter_hash_char : forall c, letter_code c -> hash_char c = true.
Proof.
  intros c H. unfold hash_char, isdigit. rewrite !orb_true_iff, !andb_true_iff, !Nat.leb_le, !Nat.eqb_eq. unfold letter_code in H. lia.
Qed.
Lemma list_eqb_eq : forall a b, list_eqb a b = true -> a = b.
Proof.
  induction a as [|x a IH]; intros [|y b] H; cbn in H; try discriminate; auto.
  apply andb_true_iff in H as (A & B). apply Nat.eqb_eq in A. rewrite A, (IH b); auto.
Qed.
Lemma has_unset_spec : forall h, has_unset h = true -> exists a b, h = a ++ [117; 110; 115; 101; 116] ++ b.
Proof.
  induction h as [|c h IH]; intros H; [discriminate|]. cbn [has_unset] in H. apply orb_true_iff in H as [H|H].
  - apply list_eqb_eq in H. exists [], (skipn 5 (c :: h)). cbn [app]. rewrite <- (firstn_skipn 5 (c :: h)) at 1. rewrite H. reflexivity.
  - destruct (IH H) as (a & b & ->). exists (c :: a), b. reflexivity.
Qed.

Section Read.
Context (d : pd) (W : storable d).

Let mv := maxverts_of (ncross d).
Lemma mv_ge : ncross d <= mv /\ mv <= ncross d + 1.
Proof. unfold mv, maxverts_of. destruct (Nat.eqb_spec (ncross d) 1); lia. Qed.
Lemma small_of : forall n, n <= 2 * mv + 4 -> n <= 2 * ncross d + 4 \/ bound32 n -> bound32 n.
Proof.
  intros n H [K|K]; auto. pose proof (so_small d W) as S. unfold bound32. change (2 ^ 32)%N with 4294967296%N in *. lia.
Qed.
Lemma small_at : forall n, n <= 2 * ncross d + 4 -> bound32 n.
Proof. intros n H. pose proof (so_small d W) as S. unfold bound32. change (2 ^ 32)%N with 4294967296%N in *. lia. Qed.

Lemma facts : (forall c p e, slot d c p e -> e < nedges d) /\ ends_recorded d /\ nedges d = 2 * ncross d.
Proof.
  destruct (pd_ok_incidence d (so_valid d W) (so_some d W)) as (A & _ & R & _). split; auto. split; auto. apply R.
Qed.

Lemma crosses_small : Forall cross_small (p_cross d).
Proof.
  destruct facts as (A & _ & N). apply Forall_forall. intros x Hx. apply In_nth_error in Hx as (c & Hc).
  assert (K : forall p, p < 4 -> bound32 (cedge x p)).
  { intros p Hp. apply small_at. specialize (A c p (cedge x p)). assert (slot d c p (cedge x p)) by (split; auto; exists x; auto). specialize (A H). lia. }
  repeat split; [apply (K 0)|apply (K 1)|apply (K 2)|apply (K 3)]; lia.
Qed.
Lemma edges_small : forall E, In E (p_edge d) -> edge_small E.
Proof.
  destruct facts as (_ & (_ & R) & N). intros E HE. apply In_nth_error in HE as (e & He).
  destruct (R e E He) as ((P1 & x & X1 & _) & (P2 & y & Y1 & _)).
  assert (e_head E < ncross d) by (apply nth_error_Some; unfold ncross; congruence).
  assert (e_tail E < ncross d) by (apply nth_error_Some; unfold ncross; congruence).
  split; [apply small_at; lia|]. split; auto. split; auto. apply small_at; lia.
Qed.
Lemma comps_small : Forall (comp_small (2 * mv + 1)) (p_comp d).
Proof.
  destruct facts as (_ & R & N). pose proof (so_valid d W) as V. unfold pd_ok in V. rewrite !and_ok_true in V. destruct V as (_ & _ & _ & V).
  apply comps_ok_spec in V as (_ & V & _); auto; [|apply (so_some d W)].
  apply Forall_forall. intros c Hc.
  assert (I : incl (cp_edge c) (seq 0 (nedges d))).
  { intros x Hx. rewrite <- V. apply in_concat. exists (cp_edge c). split; auto. apply in_map; auto. }
  assert (L : List.length (cp_edge c) <= nedges d).
  { rewrite <- (seq_length (nedges d) 0), <- V. apply in_split in Hc as (a & b & ->). rewrite map_app, concat_app, app_length.
    cbn [map List.concat]. rewrite app_length. lia. }
  pose proof mv_ge. destruct (so_tags d W c Hc) as (T1 & T2).
  split; [apply small_at; lia|]. split; [lia|]. split.
  - apply Forall_forall. intros x Hx. apply I, in_seq in Hx. apply small_at. lia.
  - split; auto. unfold isspace, tag_byte. apply orb_false_iff. split.
    + apply Nat.eqb_neq. intros Q. apply T2. left. destruct (Z.ltb_spec (cp_tag c) 0).
      * rewrite <- (Z.mod_add (cp_tag c) 1 256), Z.mod_small in Q; lia.
      * rewrite Z.mod_small in Q; lia.
    + destruct (Nat.leb_spec 9 (Z.to_nat (cp_tag c mod 256))) as [A|A]; auto. cbn [andb].
      destruct (Nat.leb_spec (Z.to_nat (cp_tag c mod 256)) 13) as [B|B]; auto. exfalso. apply T2. right.
      destruct (Z.ltb_spec (cp_tag c) 0).
      * rewrite <- (Z.mod_add (cp_tag c) 1 256), Z.mod_small in B, A; lia.
      * rewrite Z.mod_small in B, A; lia.
Qed.
Lemma faces_small : forall f, In f (p_face d) -> face_small (2 * mv + 1) f.
Proof.
  destruct facts as (_ & R & N). pose proof (so_valid d W) as V. unfold pd_ok in V. rewrite !and_ok_true in V. destruct V as (_ & _ & V & _).
  apply faces_ok_spec in V as (_ & V & _); auto; [|apply (so_some d W)]. intros f Hf. destruct (V f Hf) as (_ & D & _).
  pose proof (so_faces d W f Hf) as L. fold mv in L. pose proof mv_ge. split.
  - pose proof (so_small d W) as S. unfold bound32. change (2 ^ 32)%N with 4294967296%N in *. lia.
  - split; auto. apply Forall_forall. intros a Ha. destruct (D a Ha) as (D1 & D2). split; [apply small_at; lia|]. destruct D2 as [-> | ->]; discriminate.
Qed.

Lemma restored_ok : pd_ok (restored d) = Ok true.
Proof.
  destruct facts as (_ & R & N). pose proof (so_some d W) as Hn. pose proof (so_valid d W) as V. unfold pd_ok in *. rewrite !and_ok_true in *.
  destruct V as (V1 & V2 & V3 & V4). split; [exact V1|]. split; [exact V2|]. split.
  - apply faces_ok_spec in V3 as (_ & V3); auto. apply (faces_ok_spec (restored d)); auto. split; auto. exact (so_nfaces d W).
  - apply comps_ok_spec in V4 as (_ & V4); auto. apply (comps_ok_spec (restored d)); auto. split; auto. exact (so_ncomps d W).
Qed.

Lemma not_invalid : (p_maxv d <? ncross d) || (MAXEDGES d <? nedges d) || (MAXCOMPONENTS d <? ncomps d) || (MAXFACES d <? nfaces d) = false.
Proof.
  destruct facts as (_ & R & N). pose proof (so_some d W) as Hn. pose proof (so_valid d W) as V. pose proof (so_room d W). unfold pd_ok in *. rewrite !and_ok_true in *.
  destruct V as (V1 & V2 & V3 & V4). apply faces_ok_spec in V3 as (V3 & _); auto. apply comps_ok_spec in V4 as (V4 & _); auto.
  rewrite !orb_false_iff, !Nat.ltb_ge. unfold MAXEDGES. lia.
Qed.

Lemma body : forall rest s, skip s = skip (flat_map cross_line (p_cross d) ++
    txt "ne " ++ show_nat (nedges d) ++ [10] ++ flat_map edge_line (p_edge d) ++
    txt "nc " ++ show_nat (ncomps d) ++ [10] ++ flat_map comp_line (p_comp d) ++
    txt "nf " ++ show_nat (nfaces d) ++ [10] ++ flat_map face_line (p_face d) ++ rest) ->
  read_body (p_hash d) (N.of_nat (p_uid d)) (ncross d) s = Ok (Some (restored d, skip rest)).
Proof.
  intros rest s E. pose proof mv_ge as M. destruct facts as (_ & _ & N). unfold read_body. cbn [p_maxv]. fold mv.
  destruct (Nat.ltb_spec mv (ncross d)); [lia|]. unfold MAXEDGES, MAXCOMPONENTS, MAXFACES. cbn [p_maxv]. fold mv.
  destruct (fun H => read_crosses (p_cross d) s _ crosses_small H E) as (s1 & R1 & E1); [reflexivity|].
  unfold ncross at 1. rewrite R1. cbn [try_ bind].
  change (txt "ne ") with [110; 101; 32] in *. change (txt "nc ") with [110; 99; 32] in *. change (txt "nf ") with [110; 102; 32] in *.
  change (fmt " ne %lu ") with [Ws; Lit 110; Lit 101; Ws; ULong; Ws]. rewrite <- num1_skip, E1. rewrite num1_skip.
  unfold num1 at 1. cbn [scan app]. change (skip (110 :: ?r)) with (110 :: r). cbn [Nat.eqb]. change (skip (32 :: ?r)) with (skip r).
  unfold show_nat at 1. rewrite skip_digits, scan_number by (try reflexivity; apply bound_ulong, small_at; lia). cbn [fst snd try_ bind].
  rewrite idx_of_nat by (apply small_at; lia). destruct (Nat.ltb_spec (2 * mv + 1) (nedges d)); [lia|].
  change (skip (10 :: ?r)) with (skip r).
  change (read_many read_edge (nedges d)) with (read_many read_edge (List.length (p_edge d))).
  rewrite (read_many_exact read_edge edge_line) by (intros a r Ha; apply read_edge_line, edges_small; auto). cbn [try_ bind].
  pose proof (so_ncomps d W) as NC. fold mv in NC. pose proof (so_nfaces d W) as NF. fold mv in NF.
  assert (mv / 2 <= mv) by (apply Nat.div_le_upper_bound; lia). pose proof (so_some d W).
  assert (SC : bound32 (ncomps d)) by (apply small_at; lia). assert (SF : bound32 (nfaces d)) by (apply small_at; lia).
  change (fmt "nc %lu ") with [Lit 110; Lit 99; Ws; ULong; Ws]. change (skip (110 :: ?r)) with (110 :: r).
  unfold num1 at 1. cbn [scan]. cbn [Nat.eqb]. change (skip (32 :: ?r)) with (skip r).
  unfold show_nat at 1. rewrite skip_digits, scan_number by (try reflexivity; apply bound_ulong; auto). cbn [fst snd try_ bind].
  rewrite idx_of_nat by auto. destruct (Nat.ltb_spec (mv / 2 + 2) (ncomps d)); [lia|]. change (skip (10 :: ?r)) with (skip r).
  change (read_comps (2 * mv + 1) (ncomps d)) with (read_comps (2 * mv + 1) (List.length (p_comp d))). rewrite read_comps_lines by apply comps_small. cbn [try_ bind].
  change (fmt " nf %lu ") with [Ws; Lit 110; Lit 102; Ws; ULong; Ws]. rewrite num1_skip.
  unfold num1 at 1. cbn [scan app]. change (skip (110 :: ?r)) with (110 :: r). cbn [Nat.eqb]. change (skip (32 :: ?r)) with (skip r).
  unfold show_nat at 1. rewrite skip_digits, scan_number by (try reflexivity; apply bound_ulong; auto). cbn [fst snd try_ bind].
  rewrite idx_of_nat by auto. destruct (Nat.ltb_spec (mv + 2) (nfaces d)); [lia|]. change (skip (10 :: ?r)) with (skip r).
  change (read_many (read_face (2 * mv + 1)) (nfaces d)) with (read_many (read_face (2 * mv + 1)) (List.length (p_face d))).
  rewrite (read_many_exact (read_face (2 * mv + 1)) face_line) by (intros a r Ha; apply read_face_line, faces_small; auto).
  cbn [try_ bind]. rewrite Nat2N.id. reflexivity.
Qed.

Theorem pd_read_write : forall rest, pd_read (pd_write d ++ rest) = Ok (Some (restored d), skip rest).
Proof.
  intros rest. unfold pd_write. rewrite not_invalid. unfold pd_read.
  pose proof (so_uid d W) as U. assert (U' : (N.of_nat (p_uid d) <= ulong_max)%N) by (unfold ulong_max; change (2 ^ 64)%N with 18446744073709551616%N in U; lia).
  assert (HF : hash_fine (p_hash d)).
  { split; [apply (so_hash_some d W)|]. split; [apply (so_hash_short d W)|]. apply Forall_forall. intros c Hc. apply letter_hash_char, (so_hash_letters d W); auto. }
  set (line := txt "pd " ++ p_hash d ++ txt " " ++ show_nat (p_uid d)).
  assert (E : forall r, txt "pd " ++ p_hash d ++ txt " " ++ show_nat (p_uid d) ++ [10] ++ r = line ++ 10 :: r)
    by (intros r; unfold line; rewrite <- !app_assoc; reflexivity).
  rewrite E, <- app_assoc. cbn [app].
  assert (SK : forall r, skip (line ++ r) = line ++ r) by (intros r; unfold line; change (txt "pd ") with [112; 100; 32]; reflexivity).
  rewrite SK. assert (NE : exists c l, line ++ 10 :: (txt "nv " ++ show_nat (ncross d) ++ 10 :: flat_map cross_line (p_cross d) ++
    txt "ne " ++ show_nat (nedges d) ++ 10 :: flat_map edge_line (p_edge d) ++
    txt "nc " ++ show_nat (ncomps d) ++ 10 :: flat_map comp_line (p_comp d) ++
    txt "nf " ++ show_nat (nfaces d) ++ 10 :: flat_map face_line (p_face d)) ++ rest = c :: l) by (eexists; eexists; reflexivity).
  destruct NE as (c & l & NE). rewrite NE. rewrite <- NE.
  assert (LW : List.length line < line_width).
  { unfold line. rewrite !app_length. change (List.length (txt "pd ")) with 3. change (List.length (txt " ")) with 1.
    pose proof (so_hash_short d W). unfold show_nat. pose proof (show_length (N.of_nat (p_uid d))) as L.
    assert (N.size_nat (N.of_nat (p_uid d)) <= 64).
    { destruct (N.of_nat (p_uid d)) as [|p] eqn:Q; [cbn; lia|]. cbn [N.size_nat].
      assert (G : forall p k, (N.pos p < 2 ^ N.of_nat k)%N -> Pos.size_nat p <= k).
      { clear. induction p; intros k H; destruct k as [|k]; cbn [Pos.size_nat]; try (cbn in H; lia);
          rewrite ?Nat2N.inj_succ, ?N.pow_succ_r' in H.
        - apply le_n_S, IHp. lia.
        - apply le_n_S, IHp. lia.
        }
      apply (G p 64). exact U. }
    change line_width with (Z.to_nat 4095). lia. }
  assert (NN : Forall (fun c => c <> 10) line).
  { unfold line. change (txt "pd ") with [112; 100; 32]. change (txt " ") with [32]. cbn [app].
    do 3 (constructor; [lia|]). apply Forall_app. split.
    - apply Forall_forall. intros x Hx. apply (so_hash_letters d W) in Hx. unfold letter_code in Hx. lia.
    - constructor; [lia|]. destruct (show_is_digits (N.of_nat (p_uid d))) as (_ & D). eapply Forall_impl; [|exact D].
      intros x Hx ->. discriminate. }
  rewrite take_line_app by auto.
  assert (H : line ++ [10] = txt "pd " ++ p_hash d ++ txt " " ++ show (N.of_nat (p_uid d)) ++ [10]) by (unfold line; rewrite <- !app_assoc; reflexivity).
  rewrite H, read_header_line by auto. cbn [bind].
  destruct facts as (_ & R & N). assert (SN : bound32 (ncross d)) by (apply small_at; lia).
  change (txt "nv ") with [110; 118; 32]. change (fmt " nv %lu ") with [Ws; Lit 110; Lit 118; Ws; ULong; Ws].
  rewrite <- !app_assoc. cbn [app].
  unfold num1. cbn [scan]. change (skip (110 :: ?r)) with (110 :: r). cbn [Nat.eqb]. change (skip (32 :: ?r)) with (skip r).
  unfold show_nat at 1. rewrite skip_digits, scan_number by (try reflexivity; apply bound_ulong; auto). cbn [fst snd].
  rewrite idx_of_nat by auto. pose proof (so_some d W). destruct (Nat.eqb_spec (ncross d) 0); [lia|]. change (skip (10 :: ?r)) with (skip r).
  erewrite (body rest).
  2:{ rewrite skip_skip. f_equal. cbn [app]. repeat (rewrite <- app_assoc; cbn [app]). reflexivity. }
  cbn [bind]. rewrite (regenerate_crossings_fixed (restored d)) by (try exact R; exact (so_cross d W)). cbn [bind].
  rewrite restored_ok. cbn [bind]. change (p_hash (restored d)) with (p_hash d).
  destruct (has_unset (p_hash d)) eqn:HU; [|reflexivity].
  apply has_unset_spec, (so_hash_known d W) in HU. 
  assert (HR : pd_regenerate_hash (restored d) = Ok (restored d)).
  { unfold pd_regenerate_hash in *. change (hash_data (restored d)) with (hash_data d). destruct (hash_data d); try discriminate.
    cbn [bind] in *. revert HU. generalize (firstn 31 (Base64.base64encode a)). intros h HU.
    apply (f_equal (fun r => match r with Ok d' => p_hash d' | _ => [] end)) in HU. cbn [p_hash with_hash] in HU.
    unfold with_hash, restored. cbn [p_maxv p_uid p_hash p_edge p_cross p_comp p_face]. now rewrite HU. }
  rewrite HR. reflexivity.
Qed.
End Read.

(** Codes written one after another are read one after another. *)
Fixpoint read_each (k : nat) (s : text) : res (list (option pd) * text) :=
  match k with
  | 0 => Ok ([], s)
  | S k' => do r <- pd_read s; do q <- read_each k' (snd r); Ok (fst r :: fst q, snd q)
  end.
Lemma pd_read_skip : forall s, pd_read (skip s) = pd_read s.
Proof. intros s. unfold pd_read. rewrite skip_skip. reflexivity. Qed.
Theorem pd_read_write_all : forall ds rest, Forall storable ds ->
  exists s, read_each (List.length ds) (flat_map pd_write ds ++ rest) = Ok (map (fun d => Some (restored d)) ds, s) /\
    skip s = skip rest.
Proof.
  intros ds rest F. assert (G : forall s, skip s = skip (flat_map pd_write ds ++ rest) ->
    exists s', read_each (List.length ds) s = Ok (map (fun d => Some (restored d)) ds, s') /\ skip s' = skip rest); [|apply G; auto].
  induction F as [|d ds W F IH]; intros s E; cbn [List.length read_each].
  - exists s. auto.
  - cbn [flat_map] in E. rewrite <- app_assoc in E. rewrite <- pd_read_skip, E, pd_read_skip, pd_read_write by auto. cbn [bind fst snd].
    destruct (IH (skip (flat_map pd_write ds ++ rest)) (skip_skip _)) as (s' & -> & E'). exists s'. auto.
Qed.

(** What pd_regenerate makes, for a connected planar diagram with at most 64 components, can be stored. *)
Lemma hash_letters : forall d, pd_regenerate_hash d = Ok d ->
  List.length (p_hash d) = 31 /\ forall c, In c (p_hash d) -> letter_code c.
Proof.
  intros d H. unfold pd_regenerate_hash in H. destruct (hash_data d) as [data| | |] eqn:E; try discriminate. cbn [bind] in H.
  destruct (hash_data_bytes d data E) as (L & B).
  assert (Q : p_hash d = firstn 31 (base64encode data)).
  { revert H. generalize (firstn 31 (base64encode data)). intros h H.
    apply (f_equal (fun r => match r with Ok d' => p_hash d' | _ => [] end)) in H. cbn [p_hash with_hash] in H. auto. }
  rewrite Q. split.
  - rewrite firstn_length, (encode_length 8) by auto. reflexivity.
  - intros c Hc. assert (I : In c (base64encode data)) by (rewrite <- (firstn_skipn 31); apply in_or_app; auto).
    assert (A : forall t, base64_text data t -> In c t -> letter_code c).
    { clear. intros t H. induction H; intros I; [destruct I|]. unfold base64_char in *.
      destruct I as [<-|[<-|[<-|[<-|I]]]]; auto; unfold letter_code; lia. }
    apply (A _ (encode_ok data 8 L B) I).
Qed.
Theorem regenerated_storable : forall d, tidy d -> connected d -> pd_ok d = Ok true -> ncomps d <= 64 ->
  (N.of_nat (p_uid d) < 2 ^ 64)%N -> (2 * N.of_nat (ncross d) + 5 < 2 ^ 32)%N -> storable d.
Proof.
  intros d [Hn Hm Rg Fc Hh] CN V C64 U S. destruct Rg as [R G T X NA TG FP NF Lo So]. destruct (hash_letters d Hh) as (HL & HC).
  assert (MV : ncross d <= maxverts_of (ncross d)) by (unfold maxverts_of; destruct (Nat.eqb_spec (ncross d) 1); lia).
  constructor; auto.
  - intros Q. rewrite Q in HL. discriminate.
  - lia.
  - intros c Hc. apply In_nth_error in Hc as (i & Hi). rewrite (TG i c Hi). assert (i < ncomps d) by (apply nth_error_Some; congruence).
    assert (B : (-128 <= letter i < 128)%Z) by (unfold letter; pose proof (Z.mod_pos_bound (65 + Z.of_nat i + 128) 256); lia). split; auto.
    destruct (Nat.eq_dec i 63) as [->|].
    + intros W. unfold white in W. vm_compute in W. destruct W as [W|(W & _)]; [discriminate|apply W; reflexivity].
    + rewrite letter_small by lia. unfold white. lia.
  - assert (P : strand_partition d (map cp_edge (p_comp d))) by (apply comps_partition; auto).
    pose proof (components_few d R G T P FP NF CN Hn) as K. etransitivity; [|apply Nat.add_le_mono_r, Nat.div_le_mono; [lia|exact MV]].
    assert (ncomps d <= (ncross d + 2) / 2) by (apply Nat.div_le_lower_bound; lia).
    replace (ncross d + 2) with (ncross d + 1 * 2) in H by lia. rewrite Nat.div_add in H by lia. lia.
  - rewrite NF. lia.
  - intros f Hf. pose proof (face_edges_distinct d R T FP NF CN f Hf) as ND.
    assert (I : incl (map fst f) (seq 0 (nedges d))).
    { intros e He. apply in_map_iff in He as (a & <- & Ha). apply in_seq. destruct FP as (_ & _ & F3).
      assert (D : is_dart d a) by (apply F3, in_concat; eauto). destruct D. lia. }
    apply NoDup_incl_length in I; auto. rewrite map_length, seq_length in I. destruct R as (R & _). lia.
Qed.

(** The unknot without crossings keeps its tag. *)
Definition plain_unknot (u : nat) (h : text) (t : Z) : pd := mkPd 2 u h [mkEdge 0 4 0 4] [] [mkComp [0] t] [[(0, Pos)]; [(0, Neg)]].
Lemma small_size : forall n k, (n < 2 ^ N.of_nat k)%N -> N.size_nat n <= k.
Proof.
  intros [|p] k; [cbn; lia|]. cbn [N.size_nat]. revert k.
  induction p; intros k H; destruct k as [|k]; cbn [Pos.size_nat]; try (cbn in H; lia);
    rewrite ?Nat2N.inj_succ, ?N.pow_succ_r' in H; apply le_n_S, IHp; lia.
Qed.
Theorem pd_read_write_unknot : forall u h t rest, (N.of_nat u < 2 ^ 64)%N ->
  h <> [] -> List.length h < 32 -> (forall c, In c h -> letter_code c) -> (-128 <= t < 128)%Z -> ~ white t ->
  exists k, pd_read (pd_write (plain_unknot u h t) ++ rest) = Ok (Some (plain_unknot 0 k t), upto_p rest) /\
    pd_regenerate_hash (plain_unknot 0 k t) = Ok (plain_unknot 0 k t).
Proof.
  intros u h t rest U H1 H2 H3 T1 T2. unfold pd_write.
  assert (U' : (N.of_nat u <= ulong_max)%N) by (unfold ulong_max; change (2 ^ 64)%N with 18446744073709551616%N in U; lia).
  assert (HF : hash_fine h) by (split; auto; split; auto; apply Forall_forall; intros c Hc; apply letter_hash_char, H3; auto).
  change (_ || _ || _ || _) with false. cbv iota. unfold plain_unknot at 1 2 3 4 5 6 7 8 9 10. cbn [p_hash p_uid].
  set (line := txt "pd " ++ h ++ txt " " ++ show_nat u).
  assert (E : forall r, txt "pd " ++ h ++ txt " " ++ show_nat u ++ [10] ++ r = line ++ 10 :: r)
    by (intros r; unfold line; rewrite <- !app_assoc; reflexivity).
  rewrite E, <- app_assoc. cbn [app]. unfold pd_read.
  assert (SK : forall r, skip (line ++ r) = line ++ r) by (intros r; unfold line; change (txt "pd ") with [112; 100; 32]; reflexivity).
  rewrite SK. match goal with |- context [match ?x with [] => _ | _ :: _ => _ end] =>
    assert (NE : exists c l, x = c :: l) by (eexists; eexists; reflexivity); destruct NE as (c & l & NE); rewrite NE; rewrite <- NE; clear NE c l end.
  assert (LW : List.length line < line_width).
  { unfold line. rewrite !app_length. change (List.length (txt "pd ")) with 3. change (List.length (txt " ")) with 1.
    unfold show_nat. pose proof (show_length (N.of_nat u)) as L. pose proof (small_size (N.of_nat u) 64 U).
    change line_width with (Z.to_nat 4095). lia. }
  assert (NN : Forall (fun c => c <> 10) line).
  { unfold line. change (txt "pd ") with [112; 100; 32]. change (txt " ") with [32]. cbn [app].
    do 3 (constructor; [lia|]). apply Forall_app. split.
    - apply Forall_forall. intros x Hx. apply H3 in Hx. unfold letter_code in Hx. lia.
    - constructor; [lia|]. destruct (show_is_digits (N.of_nat u)) as (_ & D). eapply Forall_impl; [|exact D].
      intros x Hx ->. discriminate. }
  rewrite take_line_app by auto.
  assert (H : line ++ [10] = txt "pd " ++ h ++ txt " " ++ show (N.of_nat u) ++ [10]) by (unfold line; rewrite <- !app_assoc; reflexivity).
  rewrite H, read_header_line by auto. cbn [bind].
  match goal with |- context [num1 _ ?x] => set (s := x) end.
  assert (Es : s = txt "nv 0" ++ [10] ++ txt "ne 1" ++ [10] ++ txt "4294967295,4 -> 4294967295,4 " ++ [10] ++ txt "nc 1" ++ [10] ++
    txt "1 : 0 tag " ++ [tag_byte t; 10] ++ txt "nf 2" ++ [10] ++ txt "1 : + 0 " ++ [10] ++ txt "1 : - 0 " ++ [10] ++ rest)
    by reflexivity.
  rewrite Es. clear Es s.
  match goal with |- context [num1 _ ?x] => change (num1 (fmt " nv %lu ") x) with
    (Some (0%N, txt "ne 1" ++ [10] ++ txt "4294967295,4 -> 4294967295,4 " ++ [10] ++ txt "nc 1" ++ [10] ++
    txt "1 : 0 tag " ++ [tag_byte t; 10] ++ txt "nf 2" ++ [10] ++ txt "1 : + 0 " ++ [10] ++ txt "1 : - 0 " ++ [10] ++ rest)) end.
  cbv iota. change (idx 0 =? 0) with true. cbv iota. unfold read_unknot.
  change (after_tag _) with (Some (32 :: tag_byte t :: 10 :: txt "nf 2" ++ [10] ++ txt "1 : + 0 " ++ [10] ++ txt "1 : - 0 " ++ [10] ++ rest)).
  cbv iota beta. change (fmt " %c ") with [Ws; AChar; Ws]. cbn [scan]. change (skip (32 :: ?r)) with (skip r).
  assert (Sp : isspace (tag_byte t) = false).
  { unfold isspace, tag_byte. apply orb_false_iff. split.
    + apply Nat.eqb_neq. intros Q. apply T2. left. destruct (Z.ltb_spec t 0).
      * rewrite <- (Z.mod_add t 1 256), Z.mod_small in Q; lia.
      * rewrite Z.mod_small in Q; lia.
    + destruct (Nat.leb_spec 9 (Z.to_nat (t mod 256))) as [A|A]; auto. cbn [andb].
      destruct (Nat.leb_spec (Z.to_nat (t mod 256)) 13) as [B|B]; auto. exfalso. apply T2. right.
      destruct (Z.ltb_spec t 0).
      * rewrite <- (Z.mod_add t 1 256), Z.mod_small in B, A; lia.
      * rewrite Z.mod_small in B, A; lia. }
  assert (St : forall r, skip (tag_byte t :: r) = tag_byte t :: r) by (intros r; cbn [skip]; now rewrite Sp).
  rewrite St. cbn [fst snd]. rewrite Nat2N.id, tag_back by auto.
  destruct pd_build_unknot0 as [un| | |] eqn:EU; vm_compute in EU; try discriminate. injection EU as <-. cbn [bind].
  eexists. split; reflexivity.
Qed.

(** Whatever the text, a diagram that pd_read returns passes pd_ok. *)
Theorem pd_read_valid : forall s d rest, pd_read s = Ok (Some d, rest) -> pd_ok d = Ok true.
Proof.
  intros s d rest H. unfold pd_read in H. destruct (skip s) as [|c s1]; [discriminate|].
  destruct (take_line line_width (c :: s1)) as (line & s2). destruct (read_header line) as [hu| | |]; try discriminate. cbn [bind] in H.
  destruct hu as [(h & u)|]; [|discriminate]. destruct (num1 _ s2) as [(n & s3)|]; [|discriminate].
  destruct (idx n =? 0).
  - unfold read_unknot in H. destruct (after_tag s3) as [s4|]; [|discriminate]. destruct (scan _ s4) as (vs & s5).
    assert (K : forall t r, (do u <- pd_build_unknot0; do c <- get (p_comp u) 0;
      Ok (Some (with_comps u (upd 0 (mkComp (cp_edge c) t) (p_comp u))), r)) = Ok (Some d, rest) -> pd_ok d = Ok true).
    { intros t r Q. destruct pd_build_unknot0 as [un| | |] eqn:EU; vm_compute in EU; try discriminate. injection EU as <-.
      cbn in Q. injection Q as <- _. reflexivity. }
    destruct vs as [|[v|v] [|? ?]]; eapply K; exact H.
  - destruct (read_body h u (idx n) s3) as [r| | |]; try discriminate. cbn [bind] in H. destruct r as [(e & s4)|]; [|discriminate].
    destruct (pd_regenerate_crossings e) as [d1| | |]; try discriminate. cbn [bind] in H.
    destruct (pd_ok d1) as [b| | |] eqn:V; try discriminate. cbn [bind] in H. destruct b; [|discriminate].
    destruct (has_unset (p_hash d1)); cbn [bind] in H.
    + unfold pd_regenerate_hash in H. destruct (hash_data d1) as [data| | |]; try discriminate. cbn [bind] in H.
      revert H. generalize (firstn 31 (base64encode data)). intros k H. injection H as <- _.
      destruct d1 as [a1 a2 a3 a4 a5 a6 a7]. unfold pd_ok in *. rewrite !and_ok_true in *. destruct V as (V1 & V2 & V3 & V4).
      split; [exact V1|]. split; [exact V2|]. split; [exact V3|]. rewrite <- V4. unfold pd_comps_ok.
      rewrite (comps_walk_ext (with_hash (mkPd a1 a2 a3 a4 a5 a6 a7) k) (mkPd a1 a2 a3 a4 a5 a6 a7)) by reflexivity. reflexivity.
    + injection H as <- _. exact V.
Qed.

(** ** Where reading fails *)

(** a diagram whose hash was never computed (pd_code_new leaves a single space) is written, but cannot be read *)
Theorem pd_read_no_hash_refuted : forall d rest, p_hash d = [32] -> p_uid d = 0 ->
  ncross d <= p_maxv d -> nedges d <= MAXEDGES d -> ncomps d <= MAXCOMPONENTS d -> nfaces d <= MAXFACES d ->
  pd_read (pd_write d ++ rest) = Ok (None, []).
Proof.
  intros d rest Hh Hu H1 H2 H3 H4. unfold pd_write.
  replace (_ || _ || _ || _) with false by (symmetry; rewrite !orb_false_iff, !Nat.ltb_ge; auto).
  rewrite Hh, Hu. reflexivity.
Qed.
(** a hash of 32 characters, which the error message for other hashes allows, is stored outside its array *)
Theorem pd_read_long_hash_refuted : forall h rest, List.length h = 32 -> (forall c, In c h -> letter_code c) ->
  pd_read (txt "pd " ++ h ++ txt " 0" ++ [10] ++ rest) = UB.
Proof.
  intros h rest L H. unfold pd_read. change (txt "pd ") with [112; 100; 32]. change (txt " 0") with [32; 48]. cbn [app].
  change (skip (112 :: ?r)) with (112 :: r).
  assert (TL : take_line line_width (112 :: 100 :: 32 :: h ++ 32 :: 48 :: 10 :: rest) = (((112 :: 100 :: 32 :: h) ++ [32; 48]) ++ [10], rest)).
  { change (112 :: 100 :: 32 :: h ++ 32 :: 48 :: 10 :: rest) with ((112 :: 100 :: 32 :: h) ++ ([32; 48] ++ 10 :: rest)).
    rewrite app_assoc. apply take_line_app.
    - cbn [app]. do 3 (constructor; [lia|]). apply Forall_app. split; [|repeat constructor; lia].
      apply Forall_forall. intros c Hc. apply H in Hc. unfold letter_code in Hc. lia.
    - cbn [app List.length]. rewrite app_length, L. cbn [List.length]. change line_width with (Z.to_nat 4095). lia. }
  cbv iota; rewrite TL. clear TL.
  assert (E : read_header (((112 :: 100 :: 32 :: h) ++ [32; 48]) ++ [10]) = UB); [|rewrite E; reflexivity].
  assert (F : Forall (fun c => hash_char c = true) h) by (apply Forall_forall; intros c Hc; apply letter_hash_char, H; auto).
  unfold read_header.
  change (fmt " pd " ++ [SetStr 32 hash_char] ++ fmt " %lu ") with [Ws; Lit 112; Lit 100; Ws; SetStr 32 hash_char; Ws; ULong; Ws].
  rewrite <- app_assoc. cbn [app].
  cbn [scan]. change (skip (112 :: ?r)) with (112 :: r). cbn [Nat.eqb]. change (skip (32 :: ?r)) with (skip r).
  assert (Sk : forall s, skip (h ++ s) = h ++ s).
  { intros s. destruct h as [|c h']; [discriminate|]. cbn [app skip]. inversion F; subst. now rewrite hash_not_space. }
  rewrite Sk, span_app by (auto; lia). cbn [fst snd]. destruct h as [|c h']; [discriminate|].
  set (h := c :: h') in *. change (scan_ulong _) with (Some (0%N, [10])). cbn [fst snd]. rewrite L. reflexivity.
Qed.
(** a tag that is white space is not restored, although the diagram is valid *)
Definition hashed_trefoil : pd := match pd_regenerate_hash trefoil with Ok d => d | _ => trefoil end.
Theorem pd_read_blank_tag_refuted : exists d, pd_ok d = Ok true /\ pd_regenerate_hash d = Ok d /\ crossings_canonical d /\
  pd_read (pd_write d) = Ok (None, []).
Proof.
  exists (with_comps hashed_trefoil [mkComp [0; 1; 2; 3; 4; 5] 32%Z]). split; [reflexivity|]. split; [vm_compute; reflexivity|].
  split; [exact trefoil_canonical|vm_compute; reflexivity].
Qed.
(** crossing numbers are used as indices before they are checked: the one-crossing unknot with a 7 for a 0 *)
Theorem pd_read_unchecked_refuted :
  pd_read (txt "pd a 0" ++ [10] ++ txt "nv 1 0 0 1 1 + ne 2 0,1 -> 7,0 0,2 -> 0,3 nc 1 2 : 0 1 tag A nf 3 2 : + 0 - 1 1 : - 0 1 : + 1 ") = UB.
Proof. vm_compute. reflexivity. Qed.
(** a text that ends after the edges of a component: a character that was never set is examined *)
Theorem pd_read_truncated_refuted :
  pd_read (txt "pd a 0" ++ [10] ++ txt "nv 1 0 0 1 1 + ne 2 0,1 -> 0,0 0,2 -> 0,3 nc 1 2 : 0 1") = UB.
Proof. vm_compute. reflexivity. Qed.

(** ** Diagrams that meet the hypotheses *)
Example storable_trefoil : storable hashed_trefoil.
Proof.
  assert (E : exists h, hashed_trefoil = with_hash trefoil h /\ List.length h = 31 /\ pd_regenerate_hash (with_hash trefoil h) = Ok (with_hash trefoil h)).
  { eexists. split; [vm_compute; reflexivity|]. split; vm_compute; reflexivity. }
  destruct E as (h & -> & L & R). destruct (hash_letters _ R) as (_ & HL). cbn [with_hash p_hash] in HL.
  constructor.
  - cbn; lia.
  - cbn; lia.
  - reflexivity.
  - exact trefoil_canonical.
  - cbn [with_hash p_hash]. intros ->. discriminate.
  - cbn [with_hash p_hash]. lia.
  - exact HL.
  - intros _. exact R.
  - reflexivity.
  - intros c [<-|[]]. unfold white. cbn. lia.
  - cbn; lia.
  - cbn; lia.
  - intros f Hf. cbn in Hf. repeat (destruct Hf as [<-|Hf]; [cbn; lia|]). destruct Hf.
  - reflexivity.
Qed.
Example regenerated_example : exists d, tidy d /\ connected d /\ pd_ok d = Ok true /\ ncomps d <= 64.
Proof.
  destruct Thm_Ops.tidy_example as (d & E & TD & _). exists d. split; auto. vm_compute in E. injection E as <-. split; [|split; [reflexivity|cbn; lia]].
  apply joined_connected. intros c Hc. destruct c as [|[|[|c]]]; [auto| | |cbn in Hc; lia]; right.
  - exists 0, 0, 0. split; (split; [lia|eexists; split; reflexivity]).
  - exists 2, 1, 2. split; (split; [lia|eexists; split; reflexivity]).
Qed.

Print Assumptions pd_read_write.
Print Assumptions pd_read_write_all.
Print Assumptions regenerated_storable.
Print Assumptions pd_read_write_unknot.
Print Assumptions pd_read_valid.
Print Assumptions pd_read_no_hash_refuted.
Print Assumptions pd_read_long_hash_refuted.
Print Assumptions pd_read_blank_tag_refuted.
Print Assumptions pd_read_unchecked_refuted.
Print Assumptions pd_read_truncated_refuted.

(** A code without crossings whose text ends after the word tag gets the tag A. *)
Lemma skip_white : forall ws, Forall (fun c => isspace c = true) ws -> skip ws = [].
Proof. induction ws as [|c ws IH]; intros H; [reflexivity|]. apply Forall_cons_iff in H as (H & K). cbn [skip]. rewrite H. auto. Qed.
Theorem pd_read_untagged : forall u h ws, (N.of_nat u < 2 ^ 64)%N -> h <> [] -> List.length h < 32 -> (forall c, In c h -> letter_code c) ->
  Forall (fun c => isspace c = true) ws ->
  exists k, pd_read (txt "pd " ++ h ++ txt " " ++ show_nat u ++ [10] ++ txt "nv 0" ++ [10] ++ txt "tag" ++ ws) = Ok (Some (plain_unknot 0 k 65), []).
Proof.
  intros u h ws U H1 H2 H3 HW.
  assert (U' : (N.of_nat u <= ulong_max)%N) by (unfold ulong_max; change (2 ^ 64)%N with 18446744073709551616%N in U; lia).
  assert (HF : hash_fine h) by (split; auto; split; auto; apply Forall_forall; intros c Hc; apply letter_hash_char, H3; auto).
  set (line := txt "pd " ++ h ++ txt " " ++ show_nat u).
  assert (E : forall r, txt "pd " ++ h ++ txt " " ++ show_nat u ++ [10] ++ r = line ++ 10 :: r)
    by (intros r; unfold line; rewrite <- !app_assoc; reflexivity).
  rewrite E. unfold pd_read.
  assert (SK : forall r, skip (line ++ r) = line ++ r) by (intros r; unfold line; change (txt "pd ") with [112; 100; 32]; reflexivity).
  rewrite SK. match goal with |- context [match ?x with [] => _ | _ :: _ => _ end] =>
    assert (NE : exists c l, x = c :: l) by (eexists; eexists; reflexivity); destruct NE as (c & l & NE); rewrite NE; rewrite <- NE; clear NE c l end.
  assert (LW : List.length line < line_width).
  { unfold line. rewrite !app_length. change (List.length (txt "pd ")) with 3. change (List.length (txt " ")) with 1.
    unfold show_nat. pose proof (show_length (N.of_nat u)) as L. pose proof (small_size (N.of_nat u) 64 U).
    change line_width with (Z.to_nat 4095). lia. }
  assert (NN : Forall (fun c => c <> 10) line).
  { unfold line. change (txt "pd ") with [112; 100; 32]. change (txt " ") with [32]. cbn [app].
    do 3 (constructor; [lia|]). apply Forall_app. split.
    - apply Forall_forall. intros x Hx. apply H3 in Hx. unfold letter_code in Hx. lia.
    - constructor; [lia|]. destruct (show_is_digits (N.of_nat u)) as (_ & D). eapply Forall_impl; [|exact D].
      intros x Hx ->. discriminate. }
  rewrite take_line_app by auto.
  assert (H : line ++ [10] = txt "pd " ++ h ++ txt " " ++ show (N.of_nat u) ++ [10]) by (unfold line; rewrite <- !app_assoc; reflexivity).
  rewrite H, read_header_line by auto. cbn [bind].
  change (num1 (fmt " nv %lu ") (txt "nv 0" ++ [10] ++ txt "tag" ++ ws)) with (Some (0%N, txt "tag" ++ ws)).
  cbv iota. change (idx 0 =? 0) with true. cbv iota. unfold read_unknot.
  change (after_tag (txt "tag" ++ ws)) with (Some ws).
  cbv iota beta. change (fmt " %c ") with [Ws; AChar; Ws]. cbn [scan]. rewrite (skip_white ws HW).
  destruct pd_build_unknot0 as [un| | |] eqn:EU; vm_compute in EU; try discriminate. injection EU as <-. cbn [bind].
  eexists. reflexivity.
Qed.
Print Assumptions pd_read_untagged.
Example untagged_hyps : let h := [104; 97] in h <> [] /\ List.length h < 32 /\ (forall c, In c h -> letter_code c) /\ Forall (fun c => isspace c = true) [10; 32].
Proof. split; [discriminate|]. split; [cbn; lia|]. split; [intros c [<-|[<-|[]]]; unfold letter_code; lia|repeat constructor]. Qed.
