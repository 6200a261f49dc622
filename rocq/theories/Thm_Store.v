(** Property theorems C08, C51, C52: stores of diagrams and store files. *)
From Coq Require Import List ZArith Lia Bool Arith Sorted Permutation.
From Verif Require Import Base Containers PdStore PdStoreSpec PdStoreProofs.
Import ListNotations.
Open Scope nat_scope.

Section Thms.
Context {D P : Type} (hash : D -> key) (pack : D -> P) (unpack : P -> D) (iso isot : D -> D -> bool).
Notation accepted := (accepted hash pack unpack iso isot).
Notation stored := (stored pack unpack).
Notation stands_for := (stands_for hash pack unpack iso isot).
Notation add_all := (add_all hash pack unpack iso isot).
Notation addto := (pd_addto_pdstor hash pack unpack iso isot).
Notation under := (under hash).
Notation R := (same iso isot).

Lemma accepted_in : forall h reps r, In r (fold_left (accept hash pack unpack iso isot) h reps) ->
  In r reps \/ In r (map fst h).
Proof.
  induction h as [|(d, e) h IH]; intros reps r I; cbn [fold_left] in I; auto.
  apply IH in I. destruct I as [I|I]; [|cbn; auto]. unfold accept in I. cbn [fst snd] in I.
  destruct (existsb _ reps); auto. apply in_app_or in I. cbn in *. intuition.
Qed.

Lemma accepted_length : forall h reps, length (fold_left (accept hash pack unpack iso isot) h reps) <= length reps + length h.
Proof.
  induction h as [|(d, e) h IH]; intros reps; cbn [fold_left length]; [lia|].
  specialize (IH (accept hash pack unpack iso isot reps (d, e))). unfold accept in *. cbn [fst snd] in *.
  destruct (existsb _ reps); try rewrite app_length in IH; cbn [length] in IH; lia.
Qed.

(** C08, contents.  Every history of insertions (any mixture of equivalence modes) succeeds.
    Then visiting the store by firstelt/nextelt returns, hash by hash in increasing order,
    the accepted codes with that hash numbered 1, 2, 3, ...: each accepted code exactly
    once.  The number of elements is right, and so are the statistics.  Each uid reported
    by an insertion is the number of an accepted code that is the inserted one or stands
    for it. *)
Theorem pdstor_contents : forall h,
  Forall (fun x => hash (fst x) <> []) h -> (Z.of_nat (length h) < 4294967296)%Z ->
  exists s us ks,
    add_all pd_new_pdstor h = Ok (s, us) /\
    StronglySorted (fun a b => kcmp a b = Lt) ks /\
    (forall k, In k ks <-> exists r, In r (accepted h) /\ hash r = k) /\
    (exists s' vs, visit unpack (length h) s = Ok (s', vs) /\
       vs = flat_map (fun k => number 1 (map stored (under k (accepted h)))) ks /\
       Permutation (map snd vs) (map stored (accepted h)) /\
       hmap s' = hmap s) /\
    pd_stor_nelts s = Z.of_nat (length (accepted h)) /\
    pd_stor_stats s = (Z.of_nat (length ks), Z.of_nat (length (accepted h))) /\
    length us = length h /\
    (forall i u d eq, nth_error us i = Some u -> nth_error h i = Some (d, eq) ->
      exists r, 1 <= u /\ nth_error (under (hash d) (accepted h)) (u - 1) = Some r /\
        (r = d \/ stands_for eq r d = true)).
Proof.
  intros h NE LH.
  destruct (add_all_holds hash pack unpack iso isot h _ _ (new_holds hash pack)) as (s & us & A1 & A2 & A3 & A4).
  fold (accepted h) in A2, A4.
  assert (NE2 : Forall (fun r => hash r <> []) (accepted h)).
  { apply Forall_forall. intros r I. apply accepted_in in I. destruct I as [[]|I].
    apply in_map_iff in I. destruct I as (x & <- & I). rewrite Forall_forall in NE. auto. }
  destruct (holds_struct hash pack s _ A2 NE2) as (B1 & B2 & B3).
  pose proof A2 as (S1 & S2 & S3).
  assert (EN := entries_of hash pack unpack s _ B2).
  assert (PM : Permutation (map snd (entries unpack (hmap s))) (map stored (accepted h))).
  { rewrite EN, map_snd_entries. apply Permutation_map. apply classes_permute.
    - apply ksorted_nodup; auto.
    - intros r I. apply B3. eauto. }
  assert (LE : length (entries unpack (hmap s)) = length (accepted h)).
  { apply Permutation_length in PM. rewrite !map_length in PM. auto. }
  assert (LA : length (accepted h) <= length h) by apply (accepted_length h []).
  assert (LK : length (hmap s) <= length (entries unpack (hmap s))).
  { clear - B1. unfold entries. induction B1 as [|x m H1 H2 IH]; cbn [flat_map length]; auto.
    rewrite app_length, map_length. destruct x as (k, a). destruct H1 as (H & _). cbn [snd] in *.
    destruct a; [congruence|]. cbn [length]. lia. }
  exists s, us, (map fst (hmap s)). split; auto. split; [|split; auto; split].
  - clear - S1. induction S1; cbn [map]; constructor; auto. apply Forall_forall. intros k I.
    apply in_map_iff in I. destruct I as (x & <- & I). rewrite Forall_forall in H. apply (H x I).
  - exists (init_iter s), (entries unpack (hmap s)). split; [|split; [|split; [|reflexivity]]].
    + apply visit_ok; auto. lia.
    + auto.
    + auto.
  - split; [|split; [|split; auto]].
    + unfold pd_stor_nelts. rewrite S3. apply Z.mod_small. lia.
    + unfold pd_stor_stats. change 0%Z with (u32 0) at 1 2. rewrite (stats_ok unpack). rewrite map_length, LE.
      f_equal; apply Z.mod_small; lia.
Qed.

(** C08, no duplicates.  For a relation that is an equivalence, implies equal hashes and
    does not change when the first argument goes through storage: the accepted codes are
    pairwise inequivalent, every inserted code is equivalent to an accepted one, and two
    insertions get the same (hash, uid) exactly when the codes are equivalent. *)
Theorem pdstor_no_duplicates : forall eq h, eq <> NONE ->
  (forall a, R eq a a = true) -> (forall a b, R eq a b = true -> R eq b a = true) ->
  (forall a b c, R eq a b = true -> R eq b c = true -> R eq a c = true) ->
  (forall a b, R eq a b = true -> hash a = hash b) ->
  (forall a b, R eq (stored a) b = R eq a b) ->
  let reps := accepted (map (fun d => (d, eq)) h) in
  ForallOrdPairs (fun a b => R eq a b = false) reps /\
  (forall d, In d h -> exists r, In r reps /\ R eq r d = true) /\
  (forall r, In r reps -> In r h).
Proof.
  intros eq h EQ Rr Rs Rt Rh Rst reps.
  assert (SF : forall r d, stands_for eq r d = R eq r d).
  { intros r d. unfold PdStoreSpec.stands_for. rewrite Rst. destruct (R eq r d) eqn:E; [|apply andb_false_r].
    rewrite (Rh _ _ E), keyb_refl. auto. }
  assert (G : forall h reps0, ForallOrdPairs (fun a b => R eq a b = false) reps0 ->
     let reps := fold_left (accept hash pack unpack iso isot) (map (fun d => (d, eq)) h) reps0 in
     ForallOrdPairs (fun a b => R eq a b = false) reps /\
     (forall d, (In d h \/ In d reps0) -> exists r, In r reps /\ R eq r d = true)).
  { clear reps h. induction h as [|d h IH]; intros reps0 F; cbn [map fold_left].
    - split; auto. intros d [[]|I]. eauto.
    - set (acc := accept hash pack unpack iso isot reps0 (d, eq)).
      assert (AC : ForallOrdPairs (fun a b => R eq a b = false) acc /\ exists r, In r acc /\ R eq r d = true).
      { unfold acc, accept. cbn [fst snd]. destruct (existsb (fun r => stands_for eq r d) reps0) eqn:E.
        - split; auto. apply existsb_exists in E. destruct E as (r & E1 & E2). rewrite SF in E2. eauto.
        - split.
          + assert (N : forall r, In r reps0 -> R eq r d = false).
            { intros r I. rewrite <- SF. destruct (stands_for eq r d) eqn:E2; auto.
              rewrite <- E. symmetry. apply existsb_exists. eauto. }
            clear - F N. induction F; cbn [app]; [repeat constructor|]. constructor.
            * apply Forall_app. split; auto. constructor; auto. apply N. cbn; auto.
            * apply IHF. intros. apply N. cbn; auto.
          + exists d. split; auto. apply in_or_app. cbn; auto. }
      destruct AC as [AC1 (r0 & AC2 & AC3)]. destruct (IH acc AC1) as [I1 I2]. split; auto.
      intros x [[<-|I]|I].
      + destruct (I2 r0) as (r & R1 & R2); auto. exists r. split; eauto.
      + apply I2; auto.
      + apply I2. right. unfold acc, accept. cbn [fst snd]. destruct (existsb _ reps0); auto. apply in_or_app; auto. }
  destruct (G h [] (FOP_nil _)) as [G1 G2]. split; auto. split.
  - intros d I. apply G2; auto.
  - intros r I. apply accepted_in in I. destruct I as [[]|I]. rewrite map_map in I. cbn in I. rewrite map_id in I. auto.
Qed.

(** C08: with mode NONE every insertion is kept. *)
Theorem pdstor_none_keeps_all : forall h, accepted (map (fun d => (d, NONE)) h) = h.
Proof.
  intros h. unfold PdStoreSpec.accepted.
  assert (G : forall h reps, fold_left (accept hash pack unpack iso isot) (map (fun d => (d, NONE)) h) reps = reps ++ h).
  { clear. induction h as [|d h IH]; intros reps; cbn [map fold_left]; [rewrite app_nil_r; auto|].
    unfold accept at 2. cbn [fst snd].
    replace (existsb (fun r => stands_for NONE r d) reps) with false.
    - rewrite IH, <- app_assoc. auto.
    - symmetry. clear. induction reps; cbn [existsb]; auto. rewrite IHreps. unfold PdStoreSpec.stands_for.
      cbn [same]. rewrite andb_false_r. auto. }
  apply G.
Qed.

(** C08: inserting a code that some accepted code stands for changes nothing and reports
    the id of such a code; otherwise the id is one more than the number of accepted codes
    with this hash. *)
Theorem pdstor_add_known : forall h s us d eq,
  add_all pd_new_pdstor h = Ok (s, us) ->
  exists s' u, addto s d eq = Ok (s', u) /\
    (if existsb (fun r => stands_for eq r d) (accepted h)
     then hmap s' = hmap s /\ nelts s' = nelts s /\
          exists r, 1 <= u /\ nth_error (under (hash d) (accepted h)) (u - 1) = Some r /\ stands_for eq r d = true
     else u = S (length (under (hash d) (accepted h)))).
Proof.
  intros h s us d eq H.
  destruct (add_all_holds hash pack unpack iso isot h _ _ (new_holds hash pack)) as (s1 & us1 & A1 & A2 & _).
  rewrite A1 in H. inversion H; subst.
  destruct (add_holds hash pack unpack iso isot s _ d eq A2) as (s' & u & B1 & B2 & B3 & B4 & B5 & B6). eauto.
Qed.

(** C08: the search returns a stored code with the same hash for which there are
    isomorphisms, or nothing when there is none. *)
Theorem pdstor_search : forall h s us I (isos : D -> D -> list I) d,
  add_all pd_new_pdstor h = Ok (s, us) ->
  exists o, pd_search_pdstor hash unpack isos s d = Ok o /\
  match o with
  | Some (u, q, is) => exists r, 1 <= u /\ nth_error (under (hash d) (accepted h)) (u - 1) = Some r /\
      q = stored r /\ is = isos d q /\ is <> []
  | None => forall r, In r (accepted h) -> hash r = hash d -> isos d (stored r) = []
  end.
Proof.
  intros h s us I isos d H.
  destruct (add_all_holds hash pack unpack iso isot h _ _ (new_holds hash pack)) as (s1 & us1 & A1 & A2 & _).
  rewrite A1 in H. inversion H; subst. fold (accepted h) in A2. destruct A2 as (S1 & S2 & S3).
  unfold pd_search_pdstor. specialize (S2 (hash d)). destruct (jsl_get (hmap s) (hash d)) as [a|].
  - destruct S2 as [S2 ->]. pose proof (search_ok pack unpack I isos d (under (hash d) (accepted h)) 1) as SO.
    assert (E : match number 1 (map pack (under (hash d) (accepted h))) with [] => Fail
       | _ => Ok (search_loop unpack isos d (number 1 (map pack (under (hash d) (accepted h))))) end
       = Ok (search_loop unpack isos d (number 1 (map pack (under (hash d) (accepted h)))))).
    { destruct (under (hash d) (accepted h)); [congruence|reflexivity]. }
    match goal with |- exists o, ?X = _ /\ _ => replace X with (Ok (search_loop unpack isos d (number 1 (map pack (under (hash d) (accepted h)))))) end.
    eexists. split; [reflexivity|].
    destruct (search_loop unpack isos d (number 1 (map pack (under (hash d) (accepted h))))) as [((u, q), is)|].
    + destruct SO as (i & r & R1 & R2 & R3 & R4 & R5). exists r. split; [lia|]. subst u.
      replace (1 + i - 1) with i by lia. auto.
    + intros r R1 R2. apply SO. unfold PdStoreSpec.under. apply filter_In. split; auto. apply keyb_true. auto.
  - exists None. split; auto. intros r R1 R2. exfalso.
    assert (In r (under (hash d) (accepted h))). { apply filter_In. split; auto. apply keyb_true; auto. }
    rewrite S2 in H0. inversion H0.
Qed.

(** C51.  Writing a store built with a relation as in [pdstor_no_duplicates] and reading the
    file back, where [reread] is what pd_read makes of the text of a code: the store read
    holds, under every hash, the reread codes in the same order and with the same ids. *)
Theorem store_file_round_trip : forall eq hs s us (reread : D -> D) verbose, eq <> NONE ->
  (forall a, R eq a a = true) -> (forall a b, R eq a b = true -> R eq b a = true) ->
  (forall a b c, R eq a b = true -> R eq b c = true -> R eq a c = true) ->
  (forall a b, R eq a b = true -> hash a = hash b) ->
  (forall a b, R eq (stored a) b = R eq a b) ->
  (forall a b, R eq (reread a) b = R eq a b) ->
  Forall (fun d => hash d <> []) hs -> (Z.of_nat (length hs) < 4294967296)%Z ->
  add_all pd_new_pdstor (map (fun d => (d, eq)) hs) = Ok (s, us) ->
  let reps := accepted (map (fun d => (d, eq)) hs) in
  exists s' hdr body s2, pd_write_pdstor unpack (length hs) s = Ok (s', hdr, body) /\
    map fst body = seq 0 (length reps) /\
    pd_read_pdstor hash pack unpack iso isot verbose eq hdr (map (fun x => Some (reread (snd x))) body) = Ok (Some s2) /\
    (forall k, jsl_get (hmap s2) k =
       match under k reps with
       | [] => None
       | l => Some (number 1 (map (fun r => pack (reread (stored r))) l))
       end) /\
    pd_stor_nelts s2 = pd_stor_nelts s.
Proof.
  intros eq hs s us reread verbose EQ Rr Rs Rt Rh Rst Rrd NE LH HA reps.
  assert (LM : length (map (fun d => (d, eq)) hs) = length hs) by apply map_length.
  assert (NE' : Forall (fun x => hash (fst x) <> []) (map (fun d => (d, eq)) hs)).
  { apply Forall_forall. intros x I. apply in_map_iff in I. destruct I as (d & <- & I).
    rewrite Forall_forall in NE. auto. }
  destruct (pdstor_contents (map (fun d => (d, eq)) hs) NE' ltac:(rewrite LM; auto))
    as (s0 & us0 & ks & C1 & C2 & C3 & (s1 & vs & C4 & C5 & C6 & C7) & C8 & C9 & _).
  rewrite HA in C1. inversion C1; subst s0 us0. clear C1. rewrite LM in C4. fold reps in C3, C5, C6, C8, C9.
  destruct (pdstor_no_duplicates eq hs EQ Rr Rs Rt Rh Rst) as (N1 & N2 & N3). fold reps in N1, N2, N3.
  assert (LV : length vs = length reps). { apply Permutation_length in C6. rewrite !map_length in C6. auto. }
  assert (RS : forall r, hash (reread (stored r)) = hash r).
  { intros r. apply Rh. rewrite Rrd, Rst. apply Rr. }
  assert (LR : (Z.of_nat (length reps) < 4294967296)%Z).
  { assert (length reps <= length hs). rewrite <- LM. apply (accepted_length _ []). lia. }
  (* the codes in the file *)
  set (file := map snd vs).
  assert (FILE : file = map stored (flat_map (fun k => under k reps) ks)).
  { unfold file. rewrite C5. apply map_snd_entries. }
  assert (WR : exists s', pd_write_pdstor unpack (length hs) s =
     Ok (s', Counted (pd_stor_nelts s) (Z.of_nat (length reps)) (Z.of_nat (length ks)), combine (seq 0 (length file)) file)).
  { unfold pd_write_pdstor. rewrite C9. destruct (Z.of_nat (length reps) =? 0)%Z eqn:E.
    - apply Z.eqb_eq in E. assert (vs = []) by (destruct vs; auto; cbn in LV; lia).
      unfold file. subst vs. eexists. rewrite H. reflexivity.
    - rewrite C4. cbn [bind fst snd]. eexists. unfold file. rewrite map_length. reflexivity. }
  destruct WR as (s' & WR). exists s', (Counted (pd_stor_nelts s) (Z.of_nat (length reps)) (Z.of_nat (length ks))), (combine (seq 0 (length file)) file).
  assert (LF : length file = length reps) by (unfold file; rewrite map_length; auto).
  assert (CF : forall (l : list D) n, map fst (combine (seq n (length l)) l) = seq n (length l)).
  { clear. induction l as [|x l IH]; intros n; cbn [length seq combine map fst]; f_equal; auto. }
  assert (CS : forall (l : list D) n, map (fun x => Some (reread (snd x))) (combine (seq n (length l)) l) = map (fun d => Some (reread d)) l).
  { clear. induction l as [|x l IH]; intros n; cbn [length seq combine map snd]; f_equal; auto. }
  rewrite CS, CF, LF. rewrite LF in WR.
  (* what the reading loop does *)
  assert (RL : forall (l : list D) acc s0, holds hash pack s0 acc ->
    exists s2, read_loop hash pack unpack iso isot eq (Z.of_nat (length l)) (map (fun d => Some (reread d)) l) s0 = Ok (Some s2) /\
      holds hash pack s2 (fold_left (accept hash pack unpack iso isot) (map (fun d => (reread d, eq)) l) acc)).
  { clear. induction l as [|d l IH]; intros acc s0 H; cbn [map fold_left].
    - exists s0. split; auto.
    - cbn [length read_loop]. rewrite (proj2 (Z.leb_gt _ _)) by lia.
      destruct (add_holds hash pack unpack iso isot s0 acc (reread d) eq H) as (s1 & u & A1 & A2 & _).
      rewrite A1. cbn [bind fst]. replace (Z.of_nat (S (length l)) - 1)%Z with (Z.of_nat (length l)) by lia.
      apply IH; auto. }
  destruct (RL file [] _ (new_holds hash pack)) as (s2 & RL1 & RL2). exists s2. split; auto. split; auto. split.
  { unfold pd_read_pdstor. rewrite C8, Z.eqb_refl. cbn [negb andb]. rewrite <- LF. exact RL1. }
  (* nothing is rejected while reading *)
  assert (ND : ForallOrdPairs (fun a b => R eq a b = false) file).
  { rewrite FILE. assert (SW : forall l, ForallOrdPairs (fun a b => R eq a b = false) l -> forall l', Permutation l l' ->
        ForallOrdPairs (fun a b => R eq a b = false) l').
    { clear - Rs. assert (SY : forall a b, R eq a b = false -> R eq b a = false).
      { intros a b H. destruct (R eq b a) eqn:E; auto. rewrite (Rs _ _ E) in H. auto. }
      intros l F l' PM. induction PM; auto.
      - inversion F; subst. constructor; auto. eapply Permutation_Forall; eauto.
      - inversion F as [|? ? F1 F2]; subst. inversion F2 as [|? ? F3 F4]; subst. inversion F1; subst.
        constructor; [|constructor]; auto. }
    assert (PM : Permutation (flat_map (fun k => under k reps) ks) reps).
    { apply classes_permute.
      - clear - C2. induction C2; constructor; auto. intros I. rewrite Forall_forall in H. specialize (H _ I).
        rewrite kcmp_refl in H. discriminate.
      - intros r I. apply C3. eauto. }
    specialize (SW _ N1 _ (Permutation_sym PM)). clear - SW Rst Rs.
    assert (SB : forall a b, R eq (stored a) (stored b) = R eq a b).
    { intros a b. rewrite Rst. destruct (R eq a (stored b)) eqn:E1, (R eq a b) eqn:E2; auto.
      - apply Rs in E1. rewrite Rst in E1. apply Rs in E1. congruence.
      - apply Rs in E2. rewrite <- Rst in E2. apply Rs in E2. congruence. }
    induction SW as [|x l F1 F2 IH]; cbn [map]; constructor; auto.
    apply Forall_forall. intros y I. apply in_map_iff in I. destruct I as (z & <- & I).
    rewrite SB. rewrite Forall_forall in F1. auto. }
  assert (AL : forall l acc, ForallOrdPairs (fun a b => R eq a b = false) (acc ++ l) ->
     fold_left (accept hash pack unpack iso isot) (map (fun d => (reread d, eq)) l) (map reread acc) = map reread (acc ++ l)).
  { clear - Rst Rrd Rs. assert (SB : forall a b, R eq (reread a) (reread b) = R eq a b).
    { intros a b. rewrite Rrd. destruct (R eq a (reread b)) eqn:E1, (R eq a b) eqn:E2; auto.
      - apply Rs in E1. rewrite Rrd in E1. apply Rs in E1. congruence.
      - apply Rs in E2. rewrite <- Rrd in E2. apply Rs in E2. congruence. }
    induction l as [|d l IH]; intros acc F; cbn [map fold_left]; [rewrite app_nil_r; auto|].
    replace (acc ++ d :: l) with ((acc ++ [d]) ++ l) in * by (rewrite <- app_assoc; auto).
    rewrite <- IH by auto. f_equal. unfold accept. cbn [fst snd].
    replace (existsb (fun r => stands_for eq r (reread d)) (map reread acc)) with false.
    - rewrite map_app. reflexivity.
    - symmetry. destruct (existsb _ (map reread acc)) eqn:E; auto. apply existsb_exists in E.
      destruct E as (r & E1 & E2). apply in_map_iff in E1. destruct E1 as (a & <- & E1).
      unfold PdStoreSpec.stands_for in E2. apply andb_prop in E2. destruct E2 as [_ E2].
      rewrite Rst, SB in E2. exfalso. clear - F E1 E2. rewrite <- app_assoc in F. cbn [app] in F.
      induction acc as [|x acc IH]; [inversion E1|]. inversion F as [|? ? F1 F2]; subst.
      destruct E1 as [->|E1].
      + rewrite Forall_forall in F1. rewrite F1 in E2 by (apply in_or_app; cbn; auto). discriminate.
      + apply IH; auto. }
  specialize (AL file [] ND). cbn [map app] in AL. rewrite AL in RL2. destruct RL2 as (H1 & H2 & H3).
  assert (UK : forall k, under k (map reread file) = map (fun r => reread (stored r)) (under k reps)).
  { intros k. rewrite FILE, map_map.
    assert (M : forall l, under k (map (fun x => reread (stored x)) l) = map (fun r => reread (stored r)) (under k l)).
    { clear - RS. induction l as [|x l IH]; cbn [map]; auto. unfold PdStoreSpec.under in *. cbn [filter].
      rewrite RS. destruct (keyb (hash x) k); cbn [map]; rewrite IH; auto. }
    rewrite M. f_equal.
    assert (KN : NoDup ks).
    { clear - C2. induction C2; constructor; auto. intros I. rewrite Forall_forall in H. specialize (H _ I).
      rewrite kcmp_refl in H. discriminate. }
    assert (UU : forall k', under k (under k' reps) = if keyb k' k then under k reps else []).
    { clear. intros k'. unfold PdStoreSpec.under. induction reps as [|x l IH]; cbn [filter]; [destruct (keyb k' k); auto|].
      destruct (keyb (hash x) k') eqn:E1; cbn [filter]; rewrite IH.
      - apply keyb_true in E1. subst k'. destruct (keyb (hash x) k) eqn:E2; auto.
      - destruct (keyb k' k) eqn:E2; auto. apply keyb_true in E2. subst k'. rewrite E1. auto. }
    assert (FM : forall ks, NoDup ks -> under k (flat_map (fun k => under k reps) ks) = if existsb (fun x => keyb x k) ks then under k reps else []).
    { clear - UU. induction ks as [|x ks IH]; intros ND; cbn [flat_map existsb]; auto.
      rewrite under_app, UU. inversion ND; subst. rewrite IH by auto.
      destruct (keyb x k) eqn:E; cbn [orb]; auto. apply keyb_true in E. subst x.
      replace (existsb (fun x => keyb x k) ks) with false; [apply app_nil_r|].
      symmetry. destruct (existsb _ ks) eqn:E2; auto. apply existsb_exists in E2. destruct E2 as (y & Y1 & Y2).
      apply keyb_true in Y2. subst. tauto. }
    rewrite FM by auto. destruct (existsb (fun x => keyb x k) ks) eqn:E; auto.
    destruct (under k reps) as [|r l] eqn:EU; auto. exfalso.
    assert (I : In r (under k reps)) by (rewrite EU; cbn; auto). apply filter_In in I. destruct I as [I1 I2].
    apply keyb_true in I2. assert (IK : In k ks) by (apply C3; eauto).
    assert (existsb (fun x => keyb x k) ks = true) by (apply existsb_exists; exists k; split; auto; apply keyb_refl).
    congruence. }
  split.
  - intros k. specialize (H2 k). rewrite UK in H2. destruct (jsl_get (hmap s2) k) as [a|].
    + destruct H2 as [H4 ->]. rewrite map_map. destruct (under k reps); [cbn in H4; congruence|auto].
    + destruct (under k reps); auto. discriminate.
  - unfold pd_stor_nelts in *. rewrite H3, C8, map_length, LF. apply Z.mod_small. lia.
Qed.

(** C52.  A file with the streaming header is never read back: pd_read_pdstor returns NULL
    whatever codes follow, unless there are at least 2^32-1 of them. *)
Theorem streaming_store_never_read : forall verbose eq body,
  (Z.of_nat (length body) < 4294967295)%Z ->
  pd_read_pdstor hash pack unpack iso isot verbose eq Streaming body = Ok None.
Proof.
  intros verbose eq body H. unfold pd_read_pdstor.
  assert (G : forall body n s reps, holds hash pack s reps -> (Z.of_nat (length body) < n)%Z ->
    read_loop hash pack unpack iso isot eq n body s = Ok None).
  { clear. induction body as [|[d|] body IH]; intros n s reps HS H; cbn [length read_loop] in *;
      rewrite (proj2 (Z.leb_gt _ _)) by lia; auto.
    destruct (add_holds hash pack unpack iso isot s reps d eq HS) as (s1 & u & A1 & A2 & _).
    rewrite A1. cbn [bind fst]. eapply IH; eauto. lia. }
  eapply G; eauto. apply new_holds.
Qed.

End Thms.

(** A concrete store: diagrams are numbers, the hash is the remainder mod 3 (plus one), two
    are equivalent when they agree mod 30, storage reduces mod 30. *)
Example store_example :
  let hash := fun d => [S (d mod 3)] in let pk := fun d => d mod 30 in
  let eqv := fun a b => (a mod 30) =? (b mod 30) in
  let h := map (fun d => (d, ISOMORPHISM)) [7; 3; 37; 4; 9; 33; 2] in
  exists s s', PdStore.add_all hash pk (fun x => x) eqv eqv pd_new_pdstor h = Ok (s, [1; 1; 1; 2; 2; 1; 1]) /\
    visit (fun x => x) 7 s = Ok (s', [(1, 3); (2, 9); (1, 7); (2, 4); (1, 2)]) /\
    PdStoreSpec.accepted hash pk (fun x => x) eqv eqv h = [7; 3; 4; 9; 2] /\
    pd_stor_nelts s = 5%Z.
Proof. cbv zeta. eexists _, _. split; [vm_compute; reflexivity|]. split; [vm_compute; reflexivity|]. split; vm_compute; reflexivity. Qed.

(** ... and the relation of the example meets the hypotheses of the theorems. *)
Example store_relation_example :
  let hash := fun d => [S (d mod 3)] in
  let eqv := fun a b => (a mod 30) =? (b mod 30) in
  (forall a b, eqv a b = true -> hash a = hash b) /\ (forall a b, eqv (a mod 30) b = eqv a b) /\
  (forall d, hash d <> []).
Proof.
  cbv zeta. split; [|split].
  - intros a b H. apply Nat.eqb_eq in H. do 2 f_equal.
    assert (M : forall x, x mod 3 = (x mod 30) mod 3).
    { intros x. rewrite (Nat.div_mod x 30) at 1 by lia. replace (30 * (x / 30)) with ((10 * (x / 30)) * 3) by lia.
      rewrite Nat.add_comm. apply Nat.mod_add. lia. }
    rewrite (M a), (M b), H. auto.
  - intros a b. rewrite Nat.mod_mod by lia. auto.
  - discriminate.
Qed.

(** C08 fails for codes whose hash is the empty string: they are stored, but the iteration
    stops at an assertion. *)
Theorem pdstor_empty_hash_refuted : exists (hash : nat -> key) s us s1 e,
  add_all hash (fun d => d) (fun d => d) Nat.eqb Nat.eqb pd_new_pdstor [(5, ISOMORPHISM); (6, ISOMORPHISM)] = Ok (s, us) /\
  pd_stor_nelts s = 2%Z /\
  pd_stor_firstelt (fun d => d) s = Ok (s1, Some e) /\ pd_stor_nextelt (fun d => d) s1 = Fail.
Proof.
  exists (fun _ => []). eexists _, _, _, _. split; [vm_compute; reflexivity|]. split; [vm_compute; reflexivity|].
  split; vm_compute; reflexivity.
Qed.

(** nextelt after the end, or after any insertion, fails its assertion. *)
Theorem nextelt_after_add : forall (D P : Type) hash (pack : D -> P) unpack iso isot s d eq s' u,
  pd_addto_pdstor hash pack unpack iso isot s d eq = Ok (s', u) -> pd_stor_nextelt unpack s' = Fail.
Proof.
  intros D P hash pack unpack iso isot s d eq s' u H. unfold pd_addto_pdstor in H.
  match type of H with match ?X with _ => _ end = _ => destruct X end.
  - inversion H; subst. reflexivity.
  - destruct (jl_insert _ _ _); inversion H; subst. reflexivity.
Qed.

(** Displaying an empty store dereferences NULL. *)
Theorem display_empty_refuted : forall (D P : Type) (unpack : P -> D), pd_display_first unpack pd_new_pdstor = UB.
Proof. reflexivity. Qed.

(** A header whose two counts disagree is only rejected in verbose mode. *)
Theorem header_mismatch_refuted : exists s,
  pd_read_pdstor (fun d : nat => [d]) (fun d => d) (fun d => d) Nat.eqb Nat.eqb false ISOMORPHISM (Counted 1 2 1) [Some 5; Some 6] = Ok (Some s)
  /\ pd_stor_nelts s = 1%Z
  /\ pd_read_pdstor (fun d : nat => [d]) (fun d => d) (fun d => d) Nat.eqb Nat.eqb true ISOMORPHISM (Counted 1 2 1) [Some 5; Some 6] = Ok None.
Proof. eexists. split; [vm_compute; reflexivity|]. split; vm_compute; reflexivity. Qed.

Print Assumptions pdstor_contents.
Print Assumptions pdstor_no_duplicates.
Print Assumptions pdstor_none_keeps_all.
Print Assumptions pdstor_add_known.
Print Assumptions pdstor_search.
Print Assumptions store_file_round_trip.
Print Assumptions streaming_store_never_read.
Print Assumptions pdstor_empty_hash_refuted.
Print Assumptions nextelt_after_add.
Print Assumptions display_empty_refuted.
Print Assumptions header_mismatch_refuted.
