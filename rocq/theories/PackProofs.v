(** Lemmas for packing. *)
From Coq Require Import List ZArith Lia Bool Arith Permutation Sorted.
From Verif Require Import Base Iterators ListAux Sorting Pd PdSpec PdProofs SlotCount PdCross PdCrossProofs PdEdges PdPack.
Import ListNotations.
Open Scope nat_scope.

(** ** Bits and words *)
Definition is_bit (b : nat) : Prop := b = 0 \/ b = 1.

Lemma set_bits_spec : forall bits w ofs j, (0 <= ofs)%Z -> (0 <= j)%Z ->
  Z.testbit (set_bits w ofs bits) j =
  ((ofs <=? j)%Z && (nth (Z.to_nat (j - ofs)) bits 0 =? 1)) || Z.testbit w j.
Proof.
  induction bits as [|b r IH]; intros w ofs j Ho Hj; cbn [set_bits].
  - destruct (Z.to_nat (j - ofs)); cbn; rewrite andb_false_r; auto.
  - rewrite IH by lia. destruct (Z.leb_spec ofs j) as [L|L].
    + destruct (Z.eq_dec ofs j) as [->|N].
      * rewrite Z.sub_diag. cbn [Z.to_nat nth]. rewrite (proj2 (Z.leb_gt (j + 1) j)) by lia. cbn [andb orb].
        destruct (b =? 1); auto. rewrite Z.setbit_eqb by lia. rewrite Z.eqb_refl. auto.
      * rewrite (proj2 (Z.leb_le (ofs + 1) j)) by lia.
        replace (Z.to_nat (j - ofs)) with (S (Z.to_nat (j - (ofs + 1)))) by lia. cbn [nth andb]. f_equal.
        destruct (b =? 1); auto. rewrite Z.setbit_eqb by lia. rewrite (proj2 (Z.eqb_neq ofs j)) by lia. auto.
    + rewrite (proj2 (Z.leb_gt (ofs + 1) j)) by lia. cbn [andb orb].
      destruct (b =? 1); auto. rewrite Z.setbit_eqb by lia. rewrite (proj2 (Z.eqb_neq ofs j)) by lia. auto.
Qed.
Lemma set_bits_nonneg : forall bits w ofs, (0 <= w)%Z -> (0 <= ofs)%Z -> (0 <= set_bits w ofs bits)%Z.
Proof.
  induction bits as [|b r IH]; intros w ofs Hw Ho; cbn [set_bits]; auto.
  apply IH; [|lia]. destruct (b =? 1); auto. unfold Z.setbit. apply Z.lor_nonneg. split; auto. apply Z.shiftl_nonneg. lia.
Qed.
Lemma word_range : forall bits, length bits <= 32 -> (0 <= set_bits 0 0 bits < 2 ^ 32)%Z.
Proof.
  intros bits L. pose proof (set_bits_nonneg bits 0 0 ltac:(lia) ltac:(lia)) as N. split; auto.
  destruct (Z.lt_ge_cases (set_bits 0 0 bits) (2 ^ 32)) as [|G]; auto. exfalso.
  set (w := set_bits 0 0 bits) in *. assert (0 < w)%Z by lia.
  pose proof (Z.bit_log2 w H) as B. assert (Q : (32 <= Z.log2 w)%Z) by (apply Z.log2_le_pow2; lia).
  unfold w in B. rewrite set_bits_spec in B by (fold w; lia). fold w in B.
  rewrite Z.bits_0, orb_false_r, Z.sub_0_r in B. rewrite nth_overflow in B by lia. rewrite andb_false_r in B. discriminate.
Qed.
Lemma word_round : forall bits n, Forall is_bit bits -> length bits = n -> word_bits (set_bits 0 0 bits) n = bits.
Proof.
  intros bits n F <-. apply nth_error_ext. intros i. unfold word_bits. rewrite nth_error_map.
  destruct (le_lt_dec (length bits) i) as [G|G].
  - rewrite (proj2 (nth_error_None bits i) G). rewrite (proj2 (nth_error_None _ _)) by (rewrite seq_length; auto). auto.
  - rewrite (nth_error_nth' _ 0) by (rewrite seq_length; auto). rewrite seq_nth by auto. cbn [option_map].
    rewrite (nth_error_nth' bits 0 G). f_equal. rewrite set_bits_spec by lia.
    rewrite Z.bits_0, orb_false_r, Z.sub_0_r. replace (Z.to_nat (Z.of_nat (0 + i))) with i by lia.
    rewrite (proj2 (Z.leb_le 0 _)) by lia. cbn [andb].
    rewrite Forall_forall in F. destruct (F (nth i bits 0)) as [->| ->]; auto. apply nth_In; auto.
Qed.

Lemma word_count_S : forall n, 32 < n -> word_count n = S (word_count (n - 32)).
Proof.
  intros n H. unfold word_count. replace (n + 31) with (n - 32 + 31 + 1 * 32) by lia. rewrite Nat.div_add by lia. lia.
Qed.
Lemma word_count_1 : forall n, 0 < n <= 32 -> word_count n = 1.
Proof.
  intros n H. unfold word_count. symmetry. apply (Nat.div_unique (n + 31) 32 1 (n - 1)); lia.
Qed.
Lemma words_round : forall m bits extra, length bits <= m -> 0 < length bits -> Forall is_bit bits ->
  unpack_words (word_count (length bits)) (length bits) (pack_words (word_count (length bits)) bits ++ extra) = Ok bits /\
  length (pack_words (word_count (length bits)) bits) = word_count (length bits) /\
  Forall (fun w => (0 <= w < 2 ^ 32)%Z) (pack_words (word_count (length bits)) bits).
Proof.
  induction m as [|m IH]; intros bits extra Hm L F; [lia|].
  assert (W : (0 <= set_bits 0 0 (firstn 32 bits) < 2 ^ 32)%Z).
  { apply word_range. rewrite firstn_length. lia. }
  destruct (le_lt_dec (length bits) 32) as [S|S].
  - rewrite word_count_1 by lia. rewrite firstn_all2 in W by lia.
    cbn [pack_words unpack_words bind app]. rewrite firstn_all2 by lia. rewrite Nat.min_r by lia.
    rewrite word_round by auto. rewrite app_nil_r. split; auto.
  - rewrite word_count_S by lia. cbn [pack_words unpack_words app].
    assert (Ls : length (skipn 32 bits) = length bits - 32) by apply skipn_length.
    destruct (IH (skipn 32 bits) extra) as (E & Q & G); try lia.
    { apply Forall_forall. intros x Hx. apply in_skipn in Hx. rewrite Forall_forall in F. auto. }
    rewrite Ls in *. rewrite E. cbn [bind length]. rewrite Nat.min_l by lia. rewrite word_round.
    + rewrite firstn_skipn. split; auto.
    + apply Forall_forall. intros x Hx. apply in_firstn in Hx. rewrite Forall_forall in F. auto.
    + rewrite firstn_length. lia.
Qed.
Lemma bitstring_round : forall bits extra, 0 < length bits -> Forall is_bit bits ->
  exists words, pd_packbitstring bits = Ok words /\ length words = word_count (length bits) /\
    Forall (fun w => (0 <= w < 2 ^ 32)%Z) words /\ pd_unpackbitstring (words ++ extra) (length bits) = Ok bits.
Proof.
  intros bits extra L F. destruct (words_round (length bits) bits extra) as (E & Q & G); auto.
  exists (pack_words (word_count (length bits)) bits). unfold pd_packbitstring, pd_unpackbitstring.
  rewrite (proj2 (forallb_forall _ _)).
  2:{ intros b Hb. rewrite Forall_forall in F. destruct (F b Hb) as [->| ->]; auto. }
  destruct (Nat.eqb_spec (length bits) 0); [lia|]. cbn [negb]. auto.
Qed.

(** ** Indices *)
Lemma idx_loop_spec : forall bits i p, idx_loop bits i p = i + p * idx_loop bits 0 1.
Proof.
  induction bits as [|b r IH]; intros i p; cbn [idx_loop]; [lia|].
  rewrite (IH (i + b * p) (p * 2)), (IH (0 + b * 1) (1 * 2)). nia.
Qed.
Lemma idx_round : forall w i, i < 2 ^ w -> pd_idx_bitdecode (idx_bits w i) = i.
Proof.
  unfold pd_idx_bitdecode. induction w as [|w IH]; intros i H; cbn [idx_bits idx_loop].
  - cbn in H. lia.
  - rewrite idx_loop_spec. rewrite IH.
    + pose proof (Nat.div_mod i 2 ltac:(lia)). lia.
    + apply Nat.div_lt_upper_bound; [lia|]. cbn in H. lia.
Qed.
Lemma idx_bits_length : forall w i, length (idx_bits w i) = w.
Proof. induction w; intros i; cbn; auto. Qed.
Lemma idx_bits_bits : forall w i, Forall is_bit (idx_bits w i).
Proof.
  induction w as [|w IH]; intros i; cbn [idx_bits]; constructor; auto. unfold is_bit.
  pose proof (Nat.mod_upper_bound i 2 ltac:(lia)). lia.
Qed.
Lemma index_fits : forall n i, i < 2 * n -> i < 2 ^ pd_indexbits n.
Proof.
  intros n i H. unfold pd_indexbits. destruct (Nat.log2_log2_up_spec (2 * n)) as (_ & Q); lia.
Qed.

(** ** Encoding *)
Section Code.
Context (d : pd) (Hn : 0 < ncross d) (R : ends_recorded d) (T : two_ended d).
Notation n := (ncross d).
Notation W := (pd_indexbits (ncross d)).

Lemma place_edge : forall c x k, nth_error (p_cross d) c = Some x -> k < 4 ->
  cedge x k < 2 * n /\ exists E, nth_error (p_edge d) (cedge x k) = Some E.
Proof.
  intros c x k Hx Hk. assert (S : slot d c k (cedge x k)) by (split; eauto).
  pose proof (consistent_bound d c k _ R T S) as B. destruct R as (En & _). split; [lia|].
  unfold nedges in B. destruct (nth_error (p_edge d) (cedge x k)) eqn:Q; eauto. apply nth_error_None in Q. lia.
Qed.
Definition head_bit (cr k e : nat) : nat :=
  match nth_error (p_edge d) e with
  | Some E => if (e_head E =? cr) && (e_headpos E =? k) then 1 else 0
  | None => 0
  end.
Definition place_code (cr : nat) (x : crossing) (k : nat) : list nat :=
  head_bit cr k (cedge x k) :: idx_bits W (cedge x k).
Definition cross_code (signed : bool) (cr : nat) (x : crossing) : list nat :=
  (if signed then [if orient_eqb (csign x) Pos then 1 else 0] else []) ++
  concat (map (place_code cr x) [0; 1; 2; 3]).
Lemma encode_place_ok : forall cr x k, nth_error (p_cross d) cr = Some x -> k < 4 ->
  encode_place d cr x k = Ok (place_code cr x k).
Proof.
  intros cr x k Hx Hk. destruct (place_edge cr x k Hx Hk) as (L & E & HE).
  unfold encode_place, place_code, head_bit, get, pd_idx_bitencode. rewrite HE.
  rewrite (proj2 (Nat.ltb_lt _ _) L). reflexivity.
Qed.
Lemma encode_cross_ok : forall signed cr x, nth_error (p_cross d) cr = Some x ->
  (signed = true -> csign x <> Unset) ->
  pd_crossing_bitencode d signed cr = Ok (cross_code signed cr x).
Proof.
  intros signed cr x Hx Hs. unfold pd_crossing_bitencode, get. rewrite Hx. cbn [bind].
  assert (G : negb signed || negb (orient_eqb (csign x) Unset) = true).
  { destruct signed; auto. destruct (csign x); auto. exfalso; apply Hs; auto. }
  rewrite G. rewrite (map_ok_map _ _ _ (place_code cr x)).
  - reflexivity.
  - intros k Hk. apply encode_place_ok; auto. cbn in Hk. lia.
Qed.
Lemma place_code_length : forall cr x k, length (place_code cr x k) = 1 + W.
Proof. intros. cbn. rewrite idx_bits_length. auto. Qed.
Lemma cross_code_length : forall signed cr x, length (cross_code signed cr x) = 4 + 4 * W + sign_bits signed.
Proof.
  intros. unfold cross_code. rewrite app_length. cbn [map concat]. rewrite !app_length, !place_code_length.
  destruct signed; cbn; lia.
Qed.
Lemma cross_code_bits : forall signed cr x, Forall is_bit (cross_code signed cr x).
Proof.
  assert (P : forall cr x k, Forall is_bit (place_code cr x k)).
  { intros. constructor; [|apply idx_bits_bits]. unfold head_bit. destruct (nth_error _ _) as [E|]; unfold is_bit; auto.
    destruct (_ && _); auto. }
  intros. unfold cross_code. apply Forall_app. split.
  - destruct signed; auto. constructor; auto. unfold is_bit. destruct (orient_eqb _ _); auto.
  - cbn [map concat]. rewrite !Forall_app. auto 6.
Qed.
Definition code (signed : bool) : list nat :=
  concat (map (fun p => cross_code signed (fst p) (snd p)) (combine (seq 0 n) (p_cross d))).
Lemma code_bits : forall signed, Forall is_bit (code signed).
Proof.
  intros. unfold code. apply Forall_forall. intros b Hb. apply in_concat in Hb as (l & Hl & Hb).
  apply in_map_iff in Hl as (p & <- & _). pose proof (cross_code_bits signed (fst p) (snd p)) as F.
  rewrite Forall_forall in F. auto.
Qed.
Lemma code_length : forall signed, length (code signed) = pd_packbits n signed.
Proof.
  intros. unfold code, pd_packbits. unfold ncross at 3.
  assert (G : forall (l : list (nat * crossing)), length (concat (map (fun p => cross_code signed (fst p) (snd p)) l)) =
     length l * (4 + 4 * W + sign_bits signed)).
  { induction l as [|p l IH]; cbn [map concat length]; auto. rewrite app_length, IH, cross_code_length. lia. }
  rewrite G, combine_length, seq_length. unfold ncross. rewrite Nat.min_id. auto.
Qed.
Lemma seq_combine : forall A B (f : nat -> A -> res B) (g : nat -> A -> B) (l : list A) k h,
  (forall i x, nth_error l i = Some x -> h (k + i) = Ok (g (k + i) x)) ->
  map_ok h (seq k (length l)) = Ok (map (fun p => g (fst p) (snd p)) (combine (seq k (length l)) l)).
Proof.
  intros A B f g. induction l as [|x l IH]; intros k h H; cbn [length seq combine map map_ok]; auto.
  pose proof (H 0 x eq_refl) as H0. rewrite Nat.add_0_r in H0. rewrite H0. cbn [bind].
  rewrite IH; auto. intros i y Hy. replace (S k + i) with (k + S i) by lia. apply H. auto.
Qed.
Lemma codes_ok : forall signed, (signed = true -> forall x, In x (p_cross d) -> csign x <> Unset) ->
  map_ok (pd_crossing_bitencode d signed) (seq 0 n) =
  Ok (map (fun p => cross_code signed (fst p) (snd p)) (combine (seq 0 n) (p_cross d))).
Proof.
  intros signed H. unfold ncross. apply (seq_combine _ _ (fun _ _ => Fail)). intros i x Hx. cbn [plus].
  apply encode_cross_ok; auto. intros S. apply H; auto. eapply nth_error_In; eauto.
Qed.

(** ** Decoding *)
Definition note (es : list edge) (s : nat * nat) : list edge :=
  let e := edge_in (p_cross d) s in
  match nth_error es e with
  | Some E => upd e (if head_bit (fst s) (snd s) e =? 1 then mkEdge (fst s) (snd s) (e_tail E) (e_tailpos E)
                     else mkEdge (e_head E) (e_headpos E) (fst s) (snd s)) es
  | None => es
  end.
Lemma note_length : forall es s, length (note es s) = length es.
Proof. intros. unfold note. destruct (nth_error _ _); auto. apply upd_length. Qed.
Lemma notes_length : forall ps es, length (fold_left note ps es) = length es.
Proof. induction ps as [|s ps IH]; intros es; cbn; auto. rewrite IH. apply note_length. Qed.

Lemma head_bit_bit : forall cr k e, head_bit cr k e = 0 \/ head_bit cr k e = 1.
Proof. intros. unfold head_bit. destruct (nth_error _ _); auto. destruct (_ && _); auto. Qed.
Lemma edge_in_nth : forall cr x k, nth_error (p_cross d) cr = Some x -> edge_in (p_cross d) (cr, k) = cedge x k.
Proof. intros cr x k H. unfold edge_in. cbn [fst snd]. rewrite H. auto. Qed.

Lemma decode_places_ok : forall ks cr x rest c es, nth_error (p_cross d) cr = Some x ->
  (forall k, In k ks -> k < 4) -> 2 * n <= length es ->
  decode_places W cr ks (concat (map (place_code cr x) ks) ++ rest) c es =
  Ok (fold_left (fun c k => set_cedge c k (cedge x k)) ks c, fold_left note (map (fun k => (cr, k)) ks) es, rest).
Proof.
  induction ks as [|k ks IH]; intros cr x rest c es Hx Hk L; cbn [map concat app fold_left decode_places]; auto.
  unfold place_code at 1. cbn [app]. rewrite <- app_assoc.
  destruct (place_edge cr x k Hx (Hk k (or_introl eq_refl))) as (B & _).
  rewrite app_length, idx_bits_length. rewrite (proj2 (Nat.ltb_ge _ _)) by lia.
  rewrite firstn_app, idx_bits_length, Nat.sub_diag. cbn [firstn]. rewrite app_nil_r, firstn_all2 by (rewrite idx_bits_length; lia).
  rewrite skipn_app, idx_bits_length, Nat.sub_diag. cbn [skipn]. rewrite skipn_all2 by (rewrite idx_bits_length; lia). cbn [app].
  rewrite idx_round by (apply index_fits; auto).
  assert (Q : (head_bit cr k (cedge x k) =? 0) || (head_bit cr k (cedge x k) =? 1) = true).
  { destruct (head_bit_bit cr k (cedge x k)) as [->| ->]; auto. }
  rewrite Q. unfold get. destruct (nth_error es (cedge x k)) as [E|] eqn:HE.
  2:{ apply nth_error_None in HE. lia. }
  cbn [bind]. rewrite IH; auto.
  - f_equal. f_equal. f_equal. unfold note at 3. rewrite (edge_in_nth cr x k Hx). cbn [fst snd]. rewrite HE. reflexivity.
  - intros; apply Hk; right; auto.
  - rewrite upd_length. auto.
Qed.
Definition decoded (signed : bool) (x : crossing) : crossing :=
  mkCross (ce0 x) (ce1 x) (ce2 x) (ce3 x) (if signed then (if orient_eqb (csign x) Pos then Pos else Neg) else Neg).
Lemma decode_cross_ok : forall signed cr x rest es, nth_error (p_cross d) cr = Some x -> 2 * n <= length es ->
  pd_crossing_bitdecode W cr signed (cross_code signed cr x ++ rest) es =
  Ok (decoded signed x, fold_left note (map (fun k => (cr, k)) [0; 1; 2; 3]) es, rest).
Proof.
  intros signed cr x rest es Hx L. unfold pd_crossing_bitdecode, cross_code.
  assert (K : forall k, In k [0; 1; 2; 3] -> k < 4) by (cbn; lia).
  destruct signed; cbn [app].
  - assert (Q : ((if orient_eqb (csign x) Pos then 1 else 0) =? 0) || ((if orient_eqb (csign x) Pos then 1 else 0) =? 1) = true)
      by (destruct (orient_eqb _ _); auto).
    rewrite Q. rewrite decode_places_ok; auto. unfold decoded. destruct (orient_eqb (csign x) Pos); reflexivity.
  - rewrite decode_places_ok; auto.
Qed.
Lemma decode_crossings_ok : forall signed l k rest es, (forall i x, nth_error l i = Some x -> nth_error (p_cross d) (k + i) = Some x) ->
  2 * n <= length es ->
  decode_crossings W signed (length l) k
    (concat (map (fun p => cross_code signed (fst p) (snd p)) (combine (seq k (length l)) l)) ++ rest) es =
  Ok (map (decoded signed) l, fold_left note (list_prod (seq k (length l)) [0; 1; 2; 3]) es).
Proof.
  intros signed. induction l as [|x l IH]; intros k rest es H L; cbn [length seq combine map concat decode_crossings list_prod fold_left]; auto.
  rewrite <- app_assoc. cbn [fst snd]. pose proof (H 0 x eq_refl) as Hx. rewrite Nat.add_0_r in Hx.
  rewrite decode_cross_ok by auto. cbn [bind]. rewrite IH.
  - cbn [bind fst snd]. rewrite fold_left_app. reflexivity.
  - intros i y Hy. replace (S k + i) with (k + S i) by lia. apply H; auto.
  - rewrite notes_length. auto.
Qed.

Lemma notes_spec : forall ps es e E, (forall s, In s ps -> fst s < n /\ snd s < 4) -> 2 * n <= length es -> edge_at d e E ->
  exists X, nth_error (fold_left note ps es) e = Some X /\
    (In (head_slot E) ps -> head_slot X = head_slot E) /\ (In (tail_slot E) ps -> tail_slot X = tail_slot E).
Proof.
  intros ps es e E. induction ps as [|s ps IH] using rev_ind; intros Hp L HE.
  - cbn. pose proof (edge_at_lt _ _ _ HE). destruct R as (En & _).
    destruct (nth_error es e) as [X|] eqn:Q; [|apply nth_error_None in Q; lia]. exists X. split; auto. cbn. tauto.
  - destruct IH as (X & HX & H1 & H2); auto. { intros; apply Hp, in_or_app; auto. }
    rewrite fold_left_app. cbn [fold_left]. set (es' := fold_left note ps es) in *.
    destruct (Hp s) as (Hc & Hk); [apply in_or_app; cbn; auto|]. destruct s as (c, k). cbn [fst snd] in *.
    destruct (nth_error (p_cross d) c) as [x|] eqn:Hx; [|apply nth_error_None in Hx; unfold ncross in Hc; lia].
    unfold note. rewrite (edge_in_nth c x k Hx). cbn [fst snd].
    assert (Sl : slot d c k (cedge x k)) by (split; eauto).
    destruct R as (_ & R2). destruct (R2 e E HE) as (SH & ST).
    destruct (place_edge c x k Hx Hk) as (B & F & HF).
    assert (Ls : length es' = length es) by apply notes_length.
    destruct (nth_error es' (cedge x k)) as [Y|] eqn:HY; [|apply nth_error_None in HY; lia].
    destruct (Nat.eq_dec (cedge x k) e) as [Q|Q].
    + rewrite Q in *. rewrite HX in HY. injection HY as <-. rewrite nth_error_upd.
      rewrite Nat.eqb_refl, (proj2 (Nat.ltb_lt e (length es'))) by lia. eexists. split; [reflexivity|].
      assert (Hb : (c, k) = head_slot E \/ (c, k) = tail_slot E).
      { destruct (dto_surj d c k R T Hc Hk) as ((e', o) & D & V). pose proof (dto_slot d _ R D) as S3. rewrite V in S3.
        cbn [fst snd] in S3. pose proof (slot_fun _ _ _ _ _ Sl S3) as Q3. rewrite <- Q3 in V.
        unfold dto in V. cbn [fst snd] in V. unfold edge_at in HE. rewrite HE in V.
        destruct D as (_ & Ho). cbn [snd] in Ho. destruct Ho as [Ho|Ho]; rewrite Ho in V; auto. }
      assert (NE : head_slot E <> tail_slot E) by (apply (T e E HE)).
      unfold head_bit. unfold edge_at in HE. rewrite HE.
      destruct Hb as [Hb|Hb].
      * assert (Bt : (e_head E =? c) && (e_headpos E =? k) = true).
        { unfold head_slot in Hb. apply pair_equal_spec in Hb as (-> & ->). rewrite !Nat.eqb_refl. auto. }
        rewrite Bt. cbn [Nat.eqb]. split.
        -- intros _. unfold head_slot at 1. cbn [e_head e_headpos]. auto.
        -- intros I. apply in_app_or in I as [I|[I|[]]]; [exact (H2 I)|congruence].
      * assert (Bt : (e_head E =? c) && (e_headpos E =? k) = false).
        { apply not_true_is_false. intros W. apply andb_true_iff in W as (W1 & W2).
          apply Nat.eqb_eq in W1, W2. apply NE. rewrite <- Hb. unfold head_slot. congruence. }
        rewrite Bt. cbn [Nat.eqb]. split.
        -- intros I. apply in_app_or in I as [I|[I|[]]]; [exact (H1 I)|congruence].
        -- intros _. unfold tail_slot at 1. cbn [e_tail e_tailpos]. auto.
    + rewrite nth_error_upd, (proj2 (Nat.eqb_neq _ _) Q). exists X. split; auto.
      assert (N1 : (c, k) <> head_slot E).
      { intros W. unfold head_slot in W. apply pair_equal_spec in W as (-> & ->). apply Q. eapply slot_fun; eauto. }
      assert (N2 : (c, k) <> tail_slot E).
      { intros W. unfold tail_slot in W. apply pair_equal_spec in W as (-> & ->). apply Q. eapply slot_fun; eauto. }
      split; intros I; apply in_app_or in I as [I|[I|[]]]; auto; congruence.
Qed.
Lemma edges_back : forall es, 2 * n <= length es ->
  firstn (2 * n) (fold_left note (list_prod (seq 0 n) [0; 1; 2; 3]) es) = p_edge d.
Proof.
  intros es L. pose proof R as (En & R2). apply nth_error_ext. intros e.
  destruct (le_lt_dec (2 * n) e) as [G|G].
  - rewrite !(proj2 (nth_error_None _ _)); auto; [unfold nedges in En; lia|]. rewrite firstn_length. lia.
  - rewrite nth_error_firstn, (proj2 (Nat.ltb_lt _ _) G). destruct (edge_at_ex d e) as (E & HE); [lia|].
    destruct (notes_spec (list_prod (seq 0 n) [0; 1; 2; 3]) es e E) as (X & HX & H1 & H2); auto.
    { intros (c, k) I. apply in_prod_iff in I as (I1 & I2). apply in_seq in I1. cbn in *. lia. }
    rewrite HX. unfold edge_at in HE. rewrite HE. f_equal. destruct (R2 e E HE) as (SH & ST).
    apply slot_lt in SH, ST.
    assert (I : forall c k, c < n -> k < 4 -> In (c, k) (list_prod (seq 0 n) [0; 1; 2; 3])).
    { intros c k Hc Hk. apply in_prod_iff. rewrite in_seq. split; [lia|]. cbn. lia. }
    specialize (H1 (I _ _ (proj1 SH) (proj2 SH))). specialize (H2 (I _ _ (proj1 ST) (proj2 ST))).
    unfold head_slot, tail_slot in *. apply pair_equal_spec in H1 as (A1 & A2), H2 as (A3 & A4).
    destruct X, E; cbn in *; congruence.
Qed.
End Code.
