From Coq Require Import List ZArith Lia Bool Arith.
From Verif Require Import Base PlcConstraints PlcConstraintsProofs PlcConstraintsHist PlcVect.
Import ListNotations.
Open Scope Z_scope.

(** * Appending at the end of the list *)

Definition ends_by (i v : Z) (c : cst) : Prop :=
  ccmp c < i \/ (ccmp c = i /\ cend c <= v).

Lemma seek_all : forall i v l passed, Forall (ends_by i v) l ->
  seek i v passed l = (rev l ++ passed, []).
Proof.
  induction l as [|c l IH]; intros passed F; simpl; auto.
  inversion F; subst.
  replace ((ccmp c <? i) || ((ccmp c =? i) && (cend c <=? v))) with true.
  - rewrite IH; auto. rewrite <- app_assoc. reflexivity.
  - symmetry. unfold ends_by in H1. apply orb_true_iff. rewrite andb_true_iff, Z.ltb_lt, Z.eqb_eq, Z.leb_le. lia.
Qed.

Lemma append_set : forall nv l i v num k vv,
  wf nv l -> Forall (ends_by i v) l ->
  0 <= i < Z.of_nat (length nv) -> 0 <= v -> 1 <= num -> v + num <= nth (Z.to_nat i) nv 0 ->
  k <> Unconstrained -> (k = Fixed -> num = 1) ->
  let l' := set_cst_list l i v num k vv in
  wf nv l' /\ Forall (ends_by i (v + num)) l' /\
  forall cp vt, look l' cp vt = if in_run i v num cp vt then Some (k, vv) else look l cp vt.
Proof.
  intros nv l i v num k vv W F Hi Hv Hn Hb Hk Hf l'. unfold l', set_cst_list.
  rewrite seek_all; auto. rewrite app_nil_r.
  assert (KU : kind_eqb k Unconstrained = false) by (destruct k; auto; congruence).
  rewrite KU.
  assert (APP : let l2 := l ++ [mkCst k vv i v num] in
    wf nv l2 /\ Forall (ends_by i (v + num)) l2 /\
    forall cp vt, look l2 cp vt = if in_run i v num cp vt then Some (k, vv) else look l cp vt).
  { cbv zeta. destruct W as [W1 W2]. split; [split|split].
    - apply sorted_app. split; auto. split; [simpl; auto|].
      eapply Forall_impl; [|exact F]. intros c Hc. constructor; auto.
    - apply Forall_app. split; auto. constructor; auto.
      unfold cell_ok, cend; simpl. auto 10.
    - apply Forall_app. split.
      + eapply Forall_impl; [|exact F]. unfold ends_by. intros; lia.
      + constructor; auto. unfold ends_by, cend; simpl. lia.
    - intros cp vt. rewrite look_app. simpl. rewrite covers_mk. unfold in_run.
      destruct ((cp =? i) && (v <=? vt) && (vt <? v + num)) eqn:E.
      + rewrite look_none; [reflexivity|]. caseb. eapply Forall_impl; [|exact F].
        unfold ends_by. intros; lia.
      + destruct (look l cp vt); auto. }
  destruct (rev l) as [|p passed'] eqn:R.
  - assert (l = []) by (rewrite <- (rev_involutive l), R; reflexivity). subst l.
    simpl. exact APP.
  - assert (EL : l = rev passed' ++ [p]) by (rewrite <- (rev_involutive l), R; reflexivity).
    destruct (same_nonfixed k vv p && (ccmp p =? i) && (v <=? cend p)) eqn:S.
    2:{ rewrite !rev_append_rev. rewrite <- R, rev_involutive. exact APP. }
    apply andb_true_iff in S. destruct S as [S S3]. apply andb_true_iff in S. destruct S as [S1 S2].
    apply same_nonfixed_eq in S1. destruct S1 as (S1a & S1b & S1c). apply Z.eqb_eq in S2. apply Z.leb_le in S3.
    rewrite rev_append_rev. unfold overrun_check. simpl.
    destruct W as [W1 W2]. rewrite EL in W1, W2, F. apply sorted_app in W1.
    destruct W1 as (W1a & W1b & W1c). apply Forall_app in W2. destruct W2 as [W2a W2b].
    apply Forall_app in F. destruct F as [F1 F2]. inversion W2b; subst. inversion F2; subst.
    assert (CE : cend p = v) by (unfold ends_by in *; lia).
    destruct H1 as (G1 & G2 & G3 & G4 & G5 & G6).
    assert (EX : extend p v num = mkCst (ckind p) (cvect p) (ccmp p) (cvert p) (v + num - cvert p)).
    { unfold extend. unfold cend in CE. rewrite Z.min_r by lia. unfold cend. rewrite Z.max_l by lia. reflexivity. }
    rewrite EX. split; [split|split].
    + apply sorted_app. split; auto. split; [simpl; auto|].
      eapply Forall_impl; [|exact W1c]. intros c Hc. inversion Hc; subst. constructor; auto.
    + apply Forall_app. split; auto. constructor; auto. unfold cell_ok, cend in *; simpl.
      repeat (split; [first [assumption|lia]|]). congruence.
    + apply Forall_app. split.
      * eapply Forall_impl; [|exact F1]. unfold ends_by. intros; lia.
      * constructor; auto. unfold ends_by, cend in *; simpl. lia.
    + intros cp vt. rewrite !look_app. simpl. rewrite covers_mk. unfold in_run, setting; simpl.
      destruct (look (rev passed') cp vt) as [s|] eqn:LK.
      * destruct ((cp =? ccmp p) && (v <=? vt) && (vt <? v + num)) eqn:E; auto.
        exfalso. apply look_in in LK. destruct LK as (c & Hc & Cc).
        rewrite Forall_forall in W1c. specialize (W1c c Hc). inversion W1c; subst.
        apply covers_true in Cc. caseb. unfold before, cend in *. lia.
      * unfold covers. rewrite (Z.eqb_sym (ccmp p) cp). rewrite CE.
        destruct (cp =? ccmp p); simpl; auto.
        replace (cvert p + (v + num - cvert p)) with (v + num) by lia.
        unfold cend in CE.
        destruct (v <=? vt) eqn:A1; destruct (vt <? v + num) eqn:A2; destruct (cvert p <=? vt) eqn:A3;
          destruct (vt <? v) eqn:A4; simpl; auto; caseb; lia.
Qed.

(** * The reader *)

(** Spec: which numbers may be used beside vertices: those of the table, other than a
    fixed constraint used on two neighbours. *)
Definition row_ok (hd : Z -> option (kind * vects)) (row : list Z) : Prop :=
  (forall n, In n row -> n <> 0 -> exists k v, hd n = Some (k, v) /\ k <> Unconstrained) /\
  (forall j n v, nth_error row j = Some n -> nth_error row (S j) = Some n -> n <> 0 ->
     hd n <> Some (Fixed, v)).

Definition hmap (hd : Z -> option (kind * vects)) (n : Z) : option (kind * vects) :=
  if n =? 0 then None else hd n.

Definition tdef (t : table) (n : Z) : option (kind * vects) :=
  match tget t n with Ok e => Some e | _ => None end.

Lemma row_ok_tl : forall hd n row, row_ok hd (n :: row) -> row_ok hd row.
Proof.
  intros hd n row [A B]. split.
  - intros; apply A; simpl; auto.
  - intros j m v H1 H2. apply (B (S j) m v); auto.
Qed.

Lemma look_at : forall L cp vt, constraint_at L cp vt = look (csts L) cp vt.
Proof. intros. rewrite look_is. reflexivity. Qed.

(** The pending run [pv, j) of number [pn] is put on the curve. *)
Lemma flush_ok : forall t i nv row0 j pn pv L m,
  row_ok (tdef t) row0 -> j <= Z.of_nat (length row0) ->
  0 <= i < Z.of_nat (length nv) -> nth (Z.to_nat i) nv 0 = Z.of_nat (length row0) ->
  nvs L = nv -> wf nv (csts L) ->
  pn <> 0 -> 0 <= pv < j -> (forall q, pv <= q < j -> nth_error row0 (Z.to_nat q) = Some pn) ->
  Forall (ends_by i pv) (csts L) ->
  (forall cp vt, constraint_at L cp vt =
     if (cp =? i) && (0 <=? vt) && (vt <? pv)
     then hmap (tdef t) (nth (Z.to_nat vt) row0 0) else m cp vt) ->
  exists L', bind (tget t pn) (fun e => plc_set_constraint L i pv (j - pv) (fst e) (snd e)) = Ok L' /\
    nvs L' = nv /\ wf nv (csts L') /\ Forall (ends_by i j) (csts L') /\
    forall cp vt, constraint_at L' cp vt =
     if (cp =? i) && (0 <=? vt) && (vt <? j)
     then hmap (tdef t) (nth (Z.to_nat vt) row0 0) else m cp vt.
Proof.
  intros t i nv row0 j pn pv L m RO Hj Hi Hnv EL W Z0 Q1 Q3 ST1 ST2.
  assert (Hin : In pn row0).
  { apply nth_error_In with (Z.to_nat pv). apply Q3; lia. }
  destruct (proj1 RO pn Hin Z0) as (k & v & D & KU).
  unfold tdef in D. destruct (tget t pn) as [e| | |] eqn:TG; try discriminate.
  inversion D; subst e. simpl.
  assert (FX : k = Fixed -> j - pv = 1).
  { intros ->. destruct (Z.eq_dec (j - pv) 1) as [|N]; auto. exfalso.
    refine (proj2 RO (Z.to_nat pv) pn v _ _ Z0 _).
    - apply Q3; lia.
    - replace (S (Z.to_nat pv)) with (Z.to_nat (pv + 1)) by lia. apply Q3; lia.
    - unfold tdef. rewrite TG. reflexivity. }
  rewrite legal_asserts.
  2:{ unfold legal_run. rewrite EL, Hnv. lia. }
  2:{ exact FX. }
  destruct (append_set nv (csts L) i pv (j - pv) k v) as (A1 & A2 & A3); auto; try lia.
  replace (pv + (j - pv)) with j in A2 by lia.
  eexists. split; [reflexivity|]. simpl. split; auto. split; auto. split; auto.
  intros cp vt. rewrite look_at. simpl. rewrite A3.
  specialize (ST2 cp vt). rewrite look_at in ST2. rewrite ST2.
  unfold in_run. replace (pv + (j - pv)) with j by lia.
  destruct (cp =? i) eqn:C1; simpl; auto.
  destruct (pv <=? vt) eqn:C2, (vt <? j) eqn:C3, (0 <=? vt) eqn:C4, (vt <? pv) eqn:C5;
    simpl; auto; caseb; try lia.
  assert (NE : nth_error row0 (Z.to_nat vt) = Some pn) by (apply Q3; lia).
  rewrite (nth_error_nth _ _ 0 NE). unfold hmap. replace (pn =? 0) with false by (symmetry; apply Z.eqb_neq; auto).
  unfold tdef. rewrite TG. reflexivity.
Qed.

Lemma read_verts_ok : forall t i nv row0 m nums done j pn pv cn L,
  row_ok (tdef t) row0 -> row0 = done ++ nums -> Z.of_nat (length done) = j ->
  0 <= i < Z.of_nat (length nv) -> nth (Z.to_nat i) nv 0 = Z.of_nat (length row0) ->
  (forall vt, m i vt = None) ->
  nvs L = nv -> wf nv (csts L) ->
  (pn <> 0 -> 0 <= pv < j /\ cn = pn /\ forall q, pv <= q < j -> nth_error row0 (Z.to_nat q) = Some pn) ->
  (let v := if pn =? 0 then j else pv in
   Forall (ends_by i v) (csts L) /\
   forall cp vt, constraint_at L cp vt =
     if (cp =? i) && (0 <=? vt) && (vt <? v)
     then hmap (tdef t) (nth (Z.to_nat vt) row0 0) else m cp vt) ->
  exists L', read_verts t i nums j pn pv cn L = Ok L' /\ nvs L' = nv /\ wf nv (csts L') /\
    Forall (ends_by i (Z.of_nat (length row0))) (csts L') /\
    forall cp vt, constraint_at L' cp vt =
     if (cp =? i) && (0 <=? vt) && (vt <? Z.of_nat (length row0))
     then hmap (tdef t) (nth (Z.to_nat vt) row0 0) else m cp vt.
Proof.
  intros t i nv row0 m nums.
  induction nums as [|n nums IH];
    intros done j pn pv cn L RO E0 EJ Hi Hnv MN EL W P1 (ST1 & ST2).
  - rewrite app_nil_r in E0. subst done. rewrite <- EJ in *. simpl.
    destruct (pn =? 0) eqn:Z0.
    + exists L. auto 10.
    + apply Z.eqb_neq in Z0. destruct (P1 Z0) as (Q1 & Q2 & Q3). subst cn.
      eapply flush_ok; eauto; lia.
  - assert (ED : row0 = (done ++ [n]) ++ nums) by (rewrite <- app_assoc; exact E0).
    assert (LD : Z.of_nat (length (done ++ [n])) = j + 1) by (rewrite app_length; simpl; lia).
    assert (NJ : nth_error row0 (Z.to_nat j) = Some n).
    { rewrite E0, <- EJ, Nat2Z.id. rewrite nth_error_app2 by lia. rewrite Nat.sub_diag. reflexivity. }
    assert (LR : j < Z.of_nat (length row0)).
    { rewrite E0, app_length; simpl; lia. }
    assert (ZERO : n = 0 -> forall cp vt,
      (if (cp =? i) && (0 <=? vt) && (vt <? j)
       then hmap (tdef t) (nth (Z.to_nat vt) row0 0) else m cp vt) =
      (if (cp =? i) && (0 <=? vt) && (vt <? j + 1)
       then hmap (tdef t) (nth (Z.to_nat vt) row0 0) else m cp vt)).
    { intros -> cp vt. destruct (cp =? i) eqn:C1; simpl; auto.
      destruct (0 <=? vt) eqn:C2; simpl; auto.
      destruct (vt <? j) eqn:C3, (vt <? j + 1) eqn:C4; auto; caseb; try lia.
      assert (vt = j) by lia. subst vt cp. rewrite (nth_error_nth _ _ 0 NJ).
      rewrite MN. reflexivity. }
    simpl. destruct (n =? pn) eqn:NP.
    + apply Z.eqb_eq in NP. subst pn.
      apply (IH (done ++ [n])); auto.
      * intros Z0. destruct (P1 Z0) as (Q1 & Q2 & Q3). split; [lia|]. split; auto.
        intros q Hq. destruct (Z.eq_dec q j) as [->|]; auto. apply Q3; lia.
      * destruct (n =? 0) eqn:Z0.
        -- split.
           ++ eapply Forall_impl; [|exact ST1]. unfold ends_by; intros; lia.
           ++ intros cp vt. rewrite ST2. apply ZERO. apply Z.eqb_eq; auto.
        -- split; auto.
    + assert (FL : exists L', (if pn =? 0 then Ok L
        else bind (tget t pn) (fun e => plc_set_constraint L i pv (j - pv) (fst e) (snd e))) = Ok L' /\
        nvs L' = nv /\ wf nv (csts L') /\ Forall (ends_by i j) (csts L') /\
        forall cp vt, constraint_at L' cp vt =
         if (cp =? i) && (0 <=? vt) && (vt <? j)
         then hmap (tdef t) (nth (Z.to_nat vt) row0 0) else m cp vt).
      { destruct (pn =? 0) eqn:Z0.
        - exists L. auto 10.
        - apply Z.eqb_neq in Z0. destruct (P1 Z0) as (Q1 & Q2 & Q3).
          eapply flush_ok; eauto; lia. }
      destruct FL as (L' & F1 & F2 & F3 & F4 & F5). rewrite F1. simpl.
      apply (IH (done ++ [n])); auto.
      * intros Z0. split; [lia|]. split; auto. intros q Hq. replace q with j by lia. auto.
      * destruct (n =? 0) eqn:Z0.
        -- split.
           ++ eapply Forall_impl; [|exact F4]. unfold ends_by; intros; lia.
           ++ intros cp vt. rewrite F5. apply ZERO. apply Z.eqb_eq; auto.
        -- split; auto.
Qed.

Definition zlen {A} (l : list A) : Z := Z.of_nat (length l).

(** number beside vertex [vt] of component [cp]; 0 when there is none *)
Definition num_at (rows : list (list Z)) (cp vt : Z) : Z :=
  if (0 <=? cp) && (0 <=? vt) then nth (Z.to_nat vt) (nth (Z.to_nat cp) rows []) 0 else 0.

Lemma read_comps_ok : forall t rows rows0 done L,
  Forall (row_ok (tdef t)) rows0 -> rows0 = done ++ rows ->
  nvs L = map (fun r => zlen r) rows0 -> wf (nvs L) (csts L) ->
  Forall (fun c => ccmp c < zlen done) (csts L) ->
  (forall cp vt, constraint_at L cp vt =
     if cp <? zlen done then hmap (tdef t) (num_at rows0 cp vt) else None) ->
  exists L', read_comps t (zlen done) rows L = Ok L' /\ nvs L' = nvs L /\ wf (nvs L) (csts L') /\
    forall cp vt, constraint_at L' cp vt = hmap (tdef t) (num_at rows0 cp vt).
Proof.
  induction rows as [|r rows IH]; intros rows0 done L RO E0 EL W LT CT; simpl.
  - exists L. rewrite app_nil_r in E0. subst done. split; auto. split; auto. split; auto.
    intros cp vt. rewrite CT. destruct (cp <? zlen rows0) eqn:E; auto. caseb.
    unfold num_at. destruct ((0 <=? cp) && (0 <=? vt)); auto.
    rewrite (nth_overflow rows0) by (unfold zlen in *; lia). destruct (Z.to_nat vt); reflexivity.
  - assert (NR : nth (Z.to_nat (zlen done)) rows0 [] = r).
    { subst rows0. unfold zlen. rewrite Nat2Z.id, app_nth2, Nat.sub_diag by lia. reflexivity. }
    destruct (read_verts_ok t (zlen done) (nvs L) r (fun cp vt => if cp <? zlen done then hmap (tdef t) (num_at rows0 cp vt) else None)
                r [] 0 0 0 0 L) as (L' & A1 & A2 & A3 & A4 & A5); auto.
    + rewrite Forall_forall in RO. apply RO. subst rows0. apply in_or_app; simpl; auto.
    + rewrite EL, map_length. subst rows0. rewrite app_length. unfold zlen. cbn [length]. lia.
    + rewrite EL. change 0 with (zlen (@nil Z)) at 1. rewrite map_nth, NR. reflexivity.
    + intros vt. rewrite Z.ltb_irrefl. reflexivity.
    + intros X; congruence.
    + cbv zeta. rewrite Z.eqb_refl. split.
      * eapply Forall_impl; [|exact LT]. unfold ends_by. intros; simpl in *; lia.
      * intros cp vt. rewrite CT. destruct ((cp =? zlen done) && (0 <=? vt) && (vt <? 0)) eqn:E; auto.
        caseb. lia.
    + rewrite A1. simpl.
      assert (ZL : zlen done + 1 = zlen (done ++ [r])) by (unfold zlen; rewrite app_length; simpl; lia).
      rewrite ZL.
      destruct (IH rows0 (done ++ [r]) L') as (L2 & B1 & B2 & B3 & B4); auto.
      * rewrite <- app_assoc. exact E0.
      * congruence.
      * rewrite A2. exact A3.
      * eapply Forall_impl; [|exact A4]. unfold ends_by. intros; simpl in *; lia.
      * intros cp vt. rewrite A5. rewrite <- ZL.
        destruct (cp =? zlen done) eqn:C1; simpl.
        -- apply Z.eqb_eq in C1. subst cp. rewrite (proj2 (Z.ltb_lt (zlen done) (zlen done + 1))) by lia.
           rewrite Z.ltb_irrefl. unfold num_at.
           replace (0 <=? zlen done) with true by (symmetry; apply Z.leb_le; unfold zlen; lia). simpl. rewrite NR.
           destruct (0 <=? vt) eqn:C2; simpl; auto.
           destruct (vt <? Z.of_nat (length r)) eqn:C3; auto. caseb.
           rewrite nth_overflow by lia. reflexivity.
        -- apply Z.eqb_neq in C1. destruct (cp <? zlen done) eqn:C2, (cp <? zlen done + 1) eqn:C3; auto; caseb; exfalso; lia.
      * exists L2. rewrite B1, B2, <- A2. rewrite A2. split; auto. split; auto. split; auto.
        rewrite A2 in B3. auto.
Qed.

(** * The reader's table *)

Fixpoint number_from (n : Z) (es : list (kind * vects)) : list header :=
  match es with
  | [] => []
  | e :: es' => (n, e) :: number_from (n + 1) es'
  end.

Definition tinv (q : Z) (f : Z -> option (kind * vects)) (t : table) : Prop :=
  zlen t = (if q <? 2 then 2 else 30) /\
  forall n, 1 <= n <= q -> nth (Z.to_nat n) t None = f n.

Lemma nth_resize : forall t len i, (i < Z.to_nat len)%nat -> (i < length t)%nat ->
  nth i (resize t len) None = nth i t None.
Proof.
  intros. unfold resize. rewrite app_nth1.
  - rewrite <- (firstn_skipn (Z.to_nat len) t) at 2. rewrite app_nth1; auto.
    rewrite firstn_length. lia.
  - rewrite firstn_length. lia.
Qed.

Lemma resize_length : forall t len, length (resize t len) = Z.to_nat len.
Proof. intros. unfold resize. rewrite app_length, firstn_length, repeat_length. lia. Qed.

Lemma read_header_step : forall t q e f, 0 <= q < 29 -> tinv q f t ->
  exists t', read_header t (q + 1, e) = Ok t' /\
    tinv (q + 1) (fun n => if n =? q + 1 then Some e else f n) t'.
Proof.
  intros t q e f Hq [HL HN]. unfold read_header.
  replace (q + 1 <? 1) with false by (symmetry; apply Z.ltb_ge; lia).
  unfold grow. replace (INT_MAX - 11 <? q + 1) with false by (symmetry; apply Z.ltb_ge; unfold INT_MAX; lia).
  assert (X : exists t', (if Z.of_nat (length t) <? q + 1 + 1
     then let len := 10 * ((q + 1 + 11) mod 10) in if len =? 0 then UB else Ok (resize t len)
     else Ok t) = Ok t' /\ zlen t' = (if q + 1 <? 2 then 2 else 30) /\
     forall n, 1 <= n <= q -> nth (Z.to_nat n) t' None = f n).
  { destruct (Z.eq_dec q 1) as [->|N].
    - replace (Z.of_nat (length t)) with 2 by (unfold zlen in HL; simpl in HL; lia). simpl.
      eexists. split; [reflexivity|]. split.
      + unfold zlen. rewrite resize_length. reflexivity.
      + intros n Hn. rewrite nth_resize; auto. cbn. lia. unfold zlen in HL; simpl in HL. lia.
    - exists t. assert (L : zlen t = if q + 1 <? 2 then 2 else 30).
      { rewrite HL. destruct (q <? 2) eqn:A, (q + 1 <? 2) eqn:B; auto; caseb; exfalso; lia. }
      split; auto. replace (Z.of_nat (length t) <? q + 1 + 1) with false; auto.
      symmetry. apply Z.ltb_ge. fold (zlen t). rewrite L. destruct (q + 1 <? 2) eqn:B; caseb; lia. }
  destruct X as (t' & X1 & X2 & X3). cbv zeta in X1. rewrite X1. cbn [bind].
  fold (zlen t'). assert (q + 1 < zlen t') by (rewrite X2; destruct (q + 1 <? 2) eqn:B; caseb; lia).
  rewrite (proj2 (Z.ltb_lt _ _)) by lia.
  eexists. split; [reflexivity|]. split.
  - unfold zlen. rewrite upd_length. fold (zlen t'). auto.
  - intros n Hn. destruct (n =? q + 1) eqn:E; caseb.
    + subst n. rewrite nth_upd_eq; auto. unfold zlen in H. lia.
    + rewrite nth_upd_neq by lia. apply X3. lia.
Qed.

Lemma read_headers_ok : forall es t q f, 0 <= q -> q + zlen es <= 29 -> tinv q f t ->
  exists t', read_headers t (number_from (q + 1) es) = Ok t' /\
    tinv (q + zlen es) (fun n => if (q <? n) && (n <=? q + zlen es)
       then nth_error es (Z.to_nat (n - q - 1)) else f n) t'.
Proof.
  induction es as [|e es IH]; intros t q f Hq Hl T; simpl.
  - exists t. split; auto. unfold zlen; simpl. destruct T as [T1 T2]. split.
    + rewrite Z.add_0_r; auto.
    + intros n Hn. rewrite T2 by lia. destruct ((q <? n) && (n <=? q + 0)) eqn:E; auto. caseb; lia.
  - assert (ZS : zlen (e :: es) = zlen es + 1) by (unfold zlen; cbn [length]; lia).
    destruct (read_header_step t q e f) as (t1 & A1 & A2); auto.
    { unfold zlen in *. lia. }
    simpl in A1. rewrite A1. simpl.
    destruct (IH t1 (q + 1) _ ltac:(lia) ltac:(lia) A2) as (t2 & B1 & B2 & B3).
    exists t2. split; auto. rewrite ZS. replace (q + (zlen es + 1)) with (q + 1 + zlen es) by lia. split; auto.
    intros n Hn. rewrite B3 by lia.
    destruct (q + 1 <? n) eqn:E1, (n <=? q + 1 + zlen es) eqn:E2, (q <? n) eqn:E3; simpl; caseb; try lia.
    + replace (Z.to_nat (n - q - 1)) with (S (Z.to_nat (n - (q + 1) - 1))) by lia. reflexivity.
    + replace n with (q + 1) by lia. rewrite Z.eqb_refl. replace (Z.to_nat (q + 1 - q - 1)) with 0%nat by lia. reflexivity.
    + rewrite (proj2 (Z.eqb_neq _ _)) by lia. auto.
Qed.

Lemma tinv0 : tinv 0 (fun _ => None) table0.
Proof. split; auto. intros; lia. Qed.

Lemma number_from_app : forall es1 es2 n,
  number_from n (es1 ++ es2) = number_from n es1 ++ number_from (n + zlen es1) es2.
Proof.
  induction es1 as [|e es1 IH]; intros; simpl.
  - unfold zlen; simpl. rewrite Z.add_0_r. auto.
  - rewrite IH. do 3 f_equal. unfold zlen; cbn [length]. lia.
Qed.

Lemma read_headers_app : forall h1 h2 t, read_headers t (h1 ++ h2) =
  bind (read_headers t h1) (fun t' => read_headers t' h2).
Proof.
  induction h1 as [|h h1 IH]; intros; auto. cbn [app read_headers].
  destruct (read_header t h) as [t1| | |]; cbn [bind]; auto.
Qed.

(** More than 29 headers: the thirtieth is stored outside the table. *)
Lemma read_headers_over : forall es, 30 <= zlen es ->
  read_headers table0 (number_from 1 es) = UB.
Proof.
  intros es H.
  assert (E : exists es1 e es2, es = es1 ++ e :: es2 /\ zlen es1 = 29).
  { exists (firstn 29 es). destruct (skipn 29 es) as [|e es2] eqn:S.
    - exfalso. assert (L : length (skipn 29 es) = 0%nat) by (rewrite S; auto).
      rewrite skipn_length in L. unfold zlen in H. lia.
    - exists e, es2. split. rewrite <- S. symmetry. apply firstn_skipn.
      unfold zlen. rewrite firstn_length. unfold zlen in H. lia. }
  destruct E as (es1 & e & es2 & -> & L1).
  rewrite number_from_app, read_headers_app, L1.
  destruct (read_headers_ok es1 table0 0 _ ltac:(lia) ltac:(lia) tinv0) as (t & A1 & A2 & A3).
  change (0 + 1) with 1 in A1. rewrite A1. cbn [bind number_from read_headers].
  unfold read_header, grow. rewrite L1 in A2. cbn in A2. fold (zlen t). rewrite A2.
  replace (INT_MAX - 11 <? 1 + 29) with false by reflexivity.
  replace (1 + 29 <? 1) with false by reflexivity.
  replace (30 <? 1 + 29 + 1) with true by reflexivity.
  replace (10 * ((1 + 29 + 11) mod 10)) with 10 by reflexivity.
  replace (10 =? 0) with false by reflexivity. cbn [bind].
  rewrite resize_length. reflexivity.
Qed.

(** * The writer *)

Lemma find_dup_none : forall veq c seen n, num_ok c ->
  Forall (fun d => before d c /\ num_ok d) seen -> find_dup veq c n seen = (false, n + zlen seen).
Proof.
  induction seen as [|d seen IH]; intros n NC F; simpl.
  - unfold zlen; simpl. rewrite Z.add_0_r; auto.
  - inversion F as [|x y [H1 H2] H3]; subst.
    replace (_ && _ && _ && _ && _) with false.
    + rewrite IH; auto. unfold zlen; cbn [length]. f_equal. lia.
    + symmetry. unfold before, num_ok, cend in *.
      destruct (ccmp c =? ccmp d) eqn:E1; [|rewrite !andb_false_r; reflexivity].
      destruct (cvert c =? cvert d) eqn:E2; [|rewrite !andb_false_r; reflexivity].
      caseb. lia.
Qed.

Lemma mark_run_ok : forall fuel i hi n row, (Z.to_nat (hi - i) < fuel)%nat -> 0 <= i -> hi <= zlen row ->
  exists row', mark_run fuel i hi n row = Ok row' /\ length row' = length row /\
    forall j d, 0 <= j -> nth (Z.to_nat j) row' d = if (i <=? j) && (j <? hi) then n else nth (Z.to_nat j) row d.
Proof.
  induction fuel as [|fuel IH]; intros i hi n row HF Hi Hh; [lia|]. simpl.
  destruct (i <? hi) eqn:E; caseb.
  - replace ((0 <=? i) && (i <? Z.of_nat (length row))) with true.
    2:{ symmetry. apply andb_true_iff. rewrite Z.leb_le, Z.ltb_lt. unfold zlen in Hh. lia. }
    destruct (IH (i + 1) hi n (upd (Z.to_nat i) n row)) as (r & A1 & A2 & A3); try lia.
    { unfold zlen. rewrite upd_length. exact Hh. }
    exists r. rewrite upd_length in A2. split; auto. split; auto.
    intros j d Hj. rewrite A3; auto.
    destruct (Z.eq_dec i j) as [->|N].
    + rewrite nth_upd_eq by (unfold zlen in Hh; lia).
      destruct (j + 1 <=? j) eqn:B; caseb; [lia|]. simpl.
      rewrite Z.leb_refl. rewrite (proj2 (Z.ltb_lt j hi)) by lia. reflexivity.
    + rewrite nth_upd_neq by lia.
      destruct (i + 1 <=? j) eqn:B1, (i <=? j) eqn:B2; simpl; auto; caseb; lia.
  - exists row. split; auto. split; auto. intros j d Hj.
    destruct ((i <=? j) && (j <? hi)) eqn:B; auto. caseb; lia.
Qed.

Lemma nth_zlen : forall (rows : list (list Z)) i, zlen (nth i rows []) = nth i (map (fun r => zlen r) rows) 0.
Proof. intros. change 0 with (zlen (@nil Z)). rewrite map_nth. reflexivity. Qed.

Lemma mark_ok : forall nv c n rows, cell_ok nv c -> map (fun r => zlen r) rows = nv ->
  exists rows', mark c n rows = Ok rows' /\ map (fun r => zlen r) rows' = nv /\
    forall cp vt, num_at rows' cp vt = if covers c cp vt then n else num_at rows cp vt.
Proof.
  intros nv c n rows (C1 & C2 & C3 & C4 & C5 & C6) E. unfold mark.
  assert (LR : length rows = length nv) by (rewrite <- E, map_length; reflexivity).
  rewrite (proj2 (Z.leb_le 0 (ccmp c))) by lia. rewrite LR, (proj2 (Z.ltb_lt (ccmp c) _)) by lia. cbn [andb].
  rewrite <- E, <- nth_zlen in C4.
  destruct (mark_run_ok (S (Z.to_nat (cnum c))) (cvert c) (cend c) n (nth (Z.to_nat (ccmp c)) rows []))
    as (r & A1 & A2 & A3); try lia.
  { unfold cend. lia. }
  rewrite A1. cbn [bind]. eexists. split; [reflexivity|]. split.
  - rewrite <- E. apply nth_ext with (d := 0) (d' := 0).
    + rewrite !map_length, upd_length. reflexivity.
    + intros i Hi. rewrite <- !nth_zlen. destruct (Nat.eq_dec (Z.to_nat (ccmp c)) i) as [EI|N].
      * rewrite <- EI. rewrite nth_upd_eq by lia. unfold zlen. rewrite A2. reflexivity.
      * rewrite nth_upd_neq; auto.
  - intros cp vt. unfold num_at, covers.
    destruct (0 <=? cp) eqn:B1; caseb; simpl.
    2:{ destruct (ccmp c =? cp) eqn:B2; caseb; auto. lia. }
    destruct (0 <=? vt) eqn:B2; caseb; simpl.
    2:{ destruct (cvert c <=? vt) eqn:B3; caseb; [lia|]. rewrite andb_false_r. reflexivity. }
    destruct (ccmp c =? cp) eqn:B3; caseb; simpl.
    + subst cp. rewrite nth_upd_eq by lia. apply A3; auto.
    + rewrite nth_upd_neq by lia. reflexivity.
Qed.

(** number of the first cell covering a vertex *)
Fixpoint look_num (n : Z) (l : list cst) (cp vt : Z) : Z :=
  match l with
  | [] => 0
  | c :: l' => if covers c cp vt then n else look_num (n + 1) l' cp vt
  end.

Definition printed_cell (g : Z -> Z) (c : cst) : kind * vects := (ckind c, printed g (ckind c) (cvect c)).

Lemma look_num_none : forall l n cp vt, look l cp vt = None -> look_num n l cp vt = 0.
Proof. induction l as [|c l IH]; simpl; intros; auto. destruct (covers c cp vt); try discriminate. auto. Qed.

Lemma write_csts_ok : forall veq g nv l seen rows,
  wf nv (rev seen ++ l) -> map (fun r => zlen r) rows = nv ->
  (forall cp vt, look l cp vt <> None -> num_at rows cp vt = 0) ->
  exists f, write_csts veq g seen l rows = Ok f /\
    headers f = number_from (zlen seen + 1) (map (printed_cell g) l) /\
    map (fun r => zlen r) (vertnums f) = nv /\
    forall cp vt, num_at (vertnums f) cp vt =
      match look l cp vt with
      | Some _ => look_num (zlen seen + 1) l cp vt
      | None => num_at rows cp vt
      end.
Proof.
  intros veq g nv. induction l as [|c l IH]; intros seen rows W E Z0; simpl.
  - eexists. split; [reflexivity|]. simpl. auto.
  - destruct W as [W1 W2]. pose proof (proj1 (sorted_app _ _) W1) as (S1 & S2 & S3).
    apply Forall_app in W2. destruct W2 as [W2 W3]. inversion W3 as [|x y CO W4]; subst x y.
    assert (KU : negb (kind_eqb (ckind c) Unconstrained) = true).
    { destruct CO as (_&_&_&_&K&_). destruct (ckind c); try reflexivity; congruence. }
    rewrite KU.
    rewrite find_dup_none.
    2:{ destruct CO as (_&_&?&_). exact H. }
    2:{ apply Forall_forall. intros d Hd. rewrite Forall_forall in S3, W2.
        assert (Hr : In d (rev seen)) by (apply in_rev in Hd; auto).
        split. specialize (S3 d Hr). inversion S3; auto.
        destruct (W2 d Hr) as (_&_&?&_). exact H. }
    rewrite Z.add_0_l.
    destruct (mark_ok nv c (zlen seen + 1) rows CO E) as (rows' & M1 & M2 & M3).
    rewrite M1. cbn [bind].
    destruct S2 as [S2a S2b].
    destruct (IH (c :: seen) rows') as (f & F1 & F2 & F3 & F4).
    + simpl. rewrite <- app_assoc. split; auto. apply Forall_app; auto.
    + auto.
    + intros cp vt N. rewrite M3. destruct (covers c cp vt) eqn:CV.
      * exfalso. apply N. eapply look_rest_none; eauto.
      * apply Z0. simpl. rewrite CV. exact N.
    + rewrite F1. cbn [bind]. eexists. split; [reflexivity|]. simpl.
      assert (ZS : zlen (c :: seen) + 1 = zlen seen + 1 + 1) by (unfold zlen; cbn [length]; lia).
      rewrite ZS in *. split; [|split; auto].
      * rewrite F2. reflexivity.
      * intros cp vt. rewrite F4, M3. destruct (covers c cp vt) eqn:CV.
        -- rewrite (look_rest_none c l); auto.
        -- destruct (look l cp vt); auto.
Qed.

Lemma num_at_zero : forall nv cp vt, num_at (map (fun n => repeat 0 (Z.to_nat n)) nv) cp vt = 0.
Proof.
  intros. unfold num_at. destruct (_ && _); auto.
  change (@nil Z) with (repeat 0 (Z.to_nat 0)). rewrite (map_nth (fun n => repeat 0 (Z.to_nat n))).
  apply nth_repeat.
Qed.

Lemma plc_write_ok : forall veq g L, wf (nvs L) (csts L) -> Forall (fun n => 0 <= n) (nvs L) ->
  exists f, plc_write_constraints veq g L = Ok f /\
    headers f = number_from 1 (map (printed_cell g) (csts L)) /\
    map (fun r => zlen r) (vertnums f) = nvs L /\
    forall cp vt, num_at (vertnums f) cp vt = look_num 1 (csts L) cp vt.
Proof.
  intros veq g L W N. unfold plc_write_constraints.
  destruct (write_csts_ok veq g (nvs L) (csts L) [] (map (fun nv => repeat 0 (Z.to_nat nv)) (nvs L)))
    as (f & A1 & A2 & A3 & A4); auto.
  - rewrite map_map. rewrite <- (map_id (nvs L)) at 2. apply map_ext_in. intros n Hn.
    rewrite Forall_forall in N. specialize (N n Hn). unfold zlen. rewrite repeat_length. lia.
  - intros. apply num_at_zero.
  - exists f. split; auto. split; auto. split; auto. intros cp vt. rewrite A4.
    destruct (look (csts L) cp vt) eqn:E; auto. rewrite num_at_zero, look_num_none; auto.
Qed.

Lemma look_num_spec : forall l n cp vt, 0 < n ->
  match look l cp vt with
  | None => look_num n l cp vt = 0
  | Some s => exists c q, look_num n l cp vt = n + Z.of_nat q /\ nth_error l q = Some c /\
                covers c cp vt = true /\ setting c = s
  end.
Proof.
  induction l as [|c l IH]; intros n cp vt Hn; simpl; auto.
  destruct (covers c cp vt) eqn:CV.
  - exists c, 0%nat. simpl. rewrite Z.add_0_r. auto.
  - specialize (IH (n + 1) cp vt ltac:(lia)). destruct (look l cp vt); auto.
    destruct IH as (d & q & A & B & C & D). exists d, (S q). simpl. rewrite A. split; auto. lia.
Qed.
