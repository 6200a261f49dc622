(** Proofs about the constraint list model. *)
From Coq Require Import List ZArith Lia Bool.
From Verif Require Import Base PlcConstraints.
Import ListNotations.
Open Scope Z_scope.

Lemma kind_eqb_eq : forall a b, kind_eqb a b = true <-> a = b.
Proof. destruct a, b; simpl; split; congruence. Qed.

Lemma vects_eqb_eq : forall a b, vects_eqb a b = true <-> a = b.
Proof.
  intros [[a1 a2 a3] [a4 a5 a6]] [[b1 b2 b3] [b4 b5 b6]].
  unfold vects_eqb, vec3_eqb; simpl.
  rewrite !andb_true_iff, !Z.eqb_eq. split.
  - intros H. destruct H as [[[? ?] ?] [[? ?] ?]]. subst; reflexivity.
  - intros H. inversion H; subst; tauto.
Qed.

Lemma same_nonfixed_eq : forall k v c,
  same_nonfixed k v c = true <-> ckind c = k /\ k <> Fixed /\ cvect c = v.
Proof.
  intros. unfold same_nonfixed. rewrite !andb_true_iff, negb_true_iff, kind_eqb_eq, vects_eqb_eq.
  split; intros H.
  - destruct H as [[H1 H2] H3]. repeat split; auto. intro E; subst k.
    rewrite E in H2. simpl in H2. discriminate.
  - destruct H as [H1 [H2 H3]]. repeat split; auto.
    destruct k; simpl; auto; congruence.
Qed.

Definition covers (c : cst) (cp vt : Z) : bool :=
  (ccmp c =? cp) && (cvert c <=? vt) && (vt <? cend c).

Definition setting (c : cst) : kind * vects := (ckind c, cvect c).

Fixpoint look (l : list cst) (cp vt : Z) : option (kind * vects) :=
  match l with
  | [] => None
  | c :: l' => if covers c cp vt then Some (setting c) else look l' cp vt
  end.

Lemma look_is : forall l cp vt,
  look l cp vt = option_map setting (is_constrained_list l cp vt).
Proof.
  induction l; simpl; intros; auto. unfold covers. destruct (_ && _ && _); auto.
Qed.

(** order between cells *)
Definition before (c d : cst) : Prop :=
  ccmp c < ccmp d \/ (ccmp c = ccmp d /\ cend c <= cvert d).

Fixpoint sorted (l : list cst) : Prop :=
  match l with
  | [] => True
  | c :: l' => Forall (before c) l' /\ sorted l'
  end.

Definition cell_ok (nv : list Z) (c : cst) : Prop :=
  0 <= ccmp c < Z.of_nat (length nv) /\ 0 <= cvert c /\ 1 <= cnum c /\
  cend c <= nth (Z.to_nat (ccmp c)) nv 0 /\
  ckind c <> Unconstrained /\ (ckind c = Fixed -> cnum c = 1).

Definition wf (nv : list Z) (l : list cst) : Prop := sorted l /\ Forall (cell_ok nv) l.

Lemma cell_ok_mk : forall nv c cmp vert, ccmp c = cmp -> cvert c = vert ->
  0 <= cmp < Z.of_nat (length nv) -> 0 <= vert -> vert < cend c ->
  cend c <= nth (Z.to_nat cmp) nv 0 -> ckind c <> Unconstrained ->
  (ckind c = Fixed -> cnum c = 1) -> cell_ok nv c.
Proof. intros; subst. unfold cell_ok. repeat (split; [first [assumption|unfold cend in *; lia]|]). assumption. Qed.

Lemma sorted_app : forall l1 l2,
  sorted (l1 ++ l2) <-> sorted l1 /\ sorted l2 /\ Forall (fun c => Forall (before c) l2) l1.
Proof.
  induction l1; simpl; intros.
  - split; auto. tauto.
  - rewrite IHl1, Forall_app. split.
    + intros [[H1 H2] [H3 [H4 H5]]]. repeat split; auto.
    + intros [[H1 H2] [H3 H4]]. inversion H4; subst. auto.
Qed.

Lemma look_app : forall l1 l2 cp vt,
  look (l1 ++ l2) cp vt = match look l1 cp vt with Some x => Some x | None => look l2 cp vt end.
Proof. induction l1; simpl; intros; auto. destruct (covers a cp vt); auto. Qed.

Lemma covers_true : forall c cp vt,
  covers c cp vt = true <-> ccmp c = cp /\ cvert c <= vt < cend c.
Proof. intros; unfold covers. rewrite !andb_true_iff, Z.eqb_eq, Z.leb_le, Z.ltb_lt. tauto. Qed.

Lemma look_none : forall l cp vt,
  Forall (fun c => ~ (ccmp c = cp /\ cvert c <= vt < cend c)) l -> look l cp vt = None.
Proof.
  induction l; simpl; intros; auto. inversion H; subst.
  destruct (covers a cp vt) eqn:E; auto. apply covers_true in E. tauto.
Qed.

(** [c] precedes the cells in [rest] by starting vertex *)
Definition starts_before (c d : cst) : Prop :=
  ccmp c < ccmp d \/ (ccmp c = ccmp d /\ cvert c <= cvert d).

Definition num_ok (c : cst) : Prop := 1 <= cnum c.

Lemma before_start : forall c d, num_ok c -> before c d -> starts_before c d.
Proof. unfold num_ok, before, starts_before, cend; intros; lia. Qed.

Lemma before_trans : forall c d e, num_ok d -> before c d -> before d e -> before c e.
Proof. unfold num_ok, before, cend; intros; lia. Qed.


(** other components never carry the same non-fixed constraint *)
Definition no_twin (cmp : Z) (k : kind) (v : vects) (l : list cst) : Prop :=
  k <> Fixed -> Forall (fun d => ckind d = k -> cvect d = v -> ccmp d = cmp) l.

Ltac caseb :=
  repeat match goal with
  | H : _ && _ = true |- _ => apply andb_true_iff in H; destruct H
  | H : (_ =? _) = true |- _ => apply Z.eqb_eq in H
  | H : (_ <=? _) = true |- _ => apply Z.leb_le in H
  | H : (_ <? _) = true |- _ => apply Z.ltb_lt in H
  | H : (_ =? _) = false |- _ => apply Z.eqb_neq in H
  | H : (_ <=? _) = false |- _ => apply Z.leb_gt in H
  | H : (_ <? _) = false |- _ => apply Z.ltb_ge in H
  end.

Lemma overrun1_spec : forall nv rest c c1 r1,
  overrun1 c rest = (c1, r1) ->
  1 <= cnum c -> 0 <= ccmp c < Z.of_nat (length nv) -> 0 <= cvert c ->
  cend c <= nth (Z.to_nat (ccmp c)) nv 0 ->
  sorted rest -> Forall (cell_ok nv) rest -> Forall (starts_before c) rest ->
  ccmp c1 = ccmp c /\ cvert c1 = cvert c /\ ckind c1 = ckind c /\ cvect c1 = cvect c /\
  cend c <= cend c1 <= nth (Z.to_nat (ccmp c)) nv 0 /\
  (ckind c = Fixed -> cnum c1 = cnum c) /\
  sorted r1 /\ Forall (cell_ok nv) r1 /\ Forall (before c1) r1 /\
  (forall P : cst -> Prop, (forall a b, setting a = setting b -> ccmp a = ccmp b -> P a -> P b) ->
      Forall P rest -> Forall P r1) /\
  (forall cp vt, (if covers c1 cp vt then Some (setting c) else look r1 cp vt)
               = (if covers c cp vt then Some (setting c) else look rest cp vt)).
Proof.
  intros nv. induction rest as [|n rest IH]; intros c c1 r1 E Hn Hc Hv He Hs Hok Hb; simpl in E.
  - inversion E; subst. repeat split; auto; try lia.
  - inversion Hok as [|? ? Hn_ok Hok']; subst. inversion Hb as [|? ? Hbn Hb']; subst.
    destruct Hs as [Hs1 Hs2].
    destruct ((ccmp n =? ccmp c) && (cvert n <? cend c)) eqn:E1.
    + caseb. destruct (cend n <=? cend c) eqn:E2; caseb.
      * (* subsumed *)
        destruct (IH _ _ _ E Hn Hc Hv He Hs2 Hok' Hb')
          as (A1 & A2 & A3 & A4 & A5 & A6 & A7 & A8 & A9 & A10 & A11).
        repeat (split; [assumption|]). split.
        { intros P HP HF. inversion HF; subst. apply A10; auto. }
        intros cp vt. rewrite A11. simpl.
        destruct (covers c cp vt) eqn:C; auto.
        destruct (covers n cp vt) eqn:C'; auto.
        exfalso. apply covers_true in C'.
        assert (covers c cp vt = true); [|congruence]. apply covers_true.
        unfold starts_before in Hbn. lia.
      * destruct (same_nonfixed (ckind c) (cvect c) n) eqn:E3.
        -- apply same_nonfixed_eq in E3. destruct E3 as (K1 & K2 & K3).
           destruct Hn_ok as (O1 & O2 & O3 & O4 & O5 & O6).
           unfold starts_before in Hbn.
           match goal with H: ccmp n = ccmp c |- _ => rewrite H in O4 end.
           assert (EE : cend (mkCst (ckind c) (cvect c) (ccmp c) (cvert c) (cend n - cvert c)) = cend n)
             by (unfold cend at 1; simpl; lia).
           destruct (IH _ _ _ E) as (A1 & A2 & A3 & A4 & A5 & A6 & A7 & A8 & A9 & A10 & A11);
             try rewrite EE; simpl in *; try assumption; try lia.
           { rewrite EE in A5. repeat (split; [first [assumption|lia]|]).
             split; [intros; congruence|].
             repeat (split; [assumption|]). split.
             { intros P HP HF. inversion HF; subst. apply A10; auto. }
             intros cp vt. unfold setting in *; simpl in *. rewrite A11.
             destruct (covers c cp vt) eqn:C.
             - apply covers_true in C.
               replace (covers _ cp vt) with true; auto. symmetry. apply covers_true. rewrite EE; simpl. lia.
             - destruct (covers n cp vt) eqn:C'.
               + apply covers_true in C'.
                 replace (covers (mkCst _ _ _ _ _) cp vt) with true.
                 2:{ symmetry. apply covers_true. rewrite EE; simpl. lia. }
                 congruence.
               + replace (covers (mkCst _ _ _ _ _) cp vt) with false; auto.
                 symmetry. apply not_true_iff_false. intro T.
                 apply not_true_iff_false in C. apply not_true_iff_false in C'.
                 rewrite covers_true in T, C, C'. rewrite EE in T. simpl in T. lia. }
        -- (* shorten *)
           inversion E; subst c1 r1. clear E.
           destruct Hn_ok as (O1 & O2 & O3 & O4 & O5 & O6).
           unfold starts_before in Hbn.
           set (n' := mkCst (ckind n) (cvect n) (ccmp n) (cend c) (cnum n - (cend c - cvert n))).
           assert (En : cend n' = cend n) by (unfold cend, n'; simpl; unfold cend; lia).
           repeat (split; [first [reflexivity|lia|tauto]|]).
           split. { simpl. split; auto. eapply Forall_impl; [|exact Hs1].
             intros a. unfold before. rewrite En. simpl. auto. }
           split. { constructor; auto. 
             split; [exact O1|]. split; [unfold n'; simpl; unfold cend; lia|].
             split; [unfold n'; simpl; unfold cend in *; lia|].
             split; [rewrite En; exact O4|]. split; [exact O5|].
             intros F. specialize (O6 F). unfold n'; simpl. unfold cend in *. lia. }
           split. { constructor.
             - right. simpl. lia.
             - eapply Forall_impl; [|exact Hs1]. intros a. unfold before. lia. }
           split. { intros P HP HF. inversion HF; subst. constructor; auto.
             eapply HP; [| |eassumption]; reflexivity. }
           intros cp vt. simpl.
           destruct (covers c cp vt) eqn:C; auto.
           change (setting n') with (setting n).
           assert (CC : covers n' cp vt = covers n cp vt).
           { apply not_true_iff_false in C. rewrite covers_true in C.
             destruct (covers n cp vt) eqn:C'.
             - apply covers_true. apply covers_true in C'. rewrite En. simpl. lia.
             - apply not_true_iff_false. apply not_true_iff_false in C'.
               rewrite covers_true in *. rewrite En. simpl. lia. }
           rewrite CC. reflexivity.
    + inversion E; subst c1 r1. clear E.
      assert (Hbe : before c n).
      { unfold starts_before in Hbn. apply andb_false_iff in E1. unfold before.
        destruct E1; caseb; lia. }
      repeat (split; [first [reflexivity|lia|tauto|assumption]|]).
      split. { simpl; auto. }
      split. { constructor; auto. }
      split. { constructor; auto. eapply Forall_impl; [|exact Hs1].
        intros a Ha. eapply before_trans; [|exact Hbe|exact Ha].
        destruct Hn_ok as (?&?&?&?). assumption. }
      split; auto.
Qed.

Lemma overrun2_spec : forall nv rest c c1 r1,
  overrun2 c rest = (c1, r1) ->
  1 <= cnum c -> 0 <= ccmp c < Z.of_nat (length nv) -> 0 <= cvert c ->
  cend c <= nth (Z.to_nat (ccmp c)) nv 0 ->
  sorted rest -> Forall (cell_ok nv) rest -> Forall (before c) rest ->
  no_twin (ccmp c) (ckind c) (cvect c) rest ->
  ccmp c1 = ccmp c /\ cvert c1 = cvert c /\ ckind c1 = ckind c /\ cvect c1 = cvect c /\
  cend c <= cend c1 <= nth (Z.to_nat (ccmp c)) nv 0 /\
  (ckind c = Fixed -> cnum c1 = cnum c) /\
  (ckind c = Unconstrained -> c1 = c /\ r1 = rest) /\
  sorted r1 /\ Forall (cell_ok nv) r1 /\ Forall (before c1) r1 /\
  (forall P : cst -> Prop, Forall P rest -> Forall P r1) /\
  (forall cp vt, (if covers c1 cp vt then Some (setting c) else look r1 cp vt)
               = (if covers c cp vt then Some (setting c) else look rest cp vt)).
Proof.
  intros nv. induction rest as [|n rest IH]; intros c c1 r1 E Hn Hc Hv He Hs Hok Hb Hnt; simpl in E.
  - inversion E; subst. repeat split; auto; try lia.
  - inversion Hok as [|? ? Hn_ok Hok']; subst. inversion Hb as [|? ? Hbn Hb']; subst.
    destruct Hs as [Hs1 Hs2].
    destruct ((cvert n =? cend c) && same_nonfixed (ckind c) (cvect c) n) eqn:E1.
    + caseb. match goal with H : same_nonfixed _ _ _ = true |- _ => apply same_nonfixed_eq in H end.
      destruct H0 as (K1 & K2 & K3).
      assert (Hcmp : ccmp n = ccmp c).
      { specialize (Hnt K2). inversion Hnt; subst. auto. }
      destruct Hn_ok as (O1 & O2 & O3 & O4 & O5 & O6).
      assert (EE : cend (mkCst (ckind c) (cvect c) (ccmp c) (cvert c) (cend n - cvert c)) = cend n)
             by (unfold cend at 1; simpl; lia).
      destruct (IH _ _ _ E) as (A1 & A2 & A3 & A4 & A5 & A6 & A6b & A7 & A8 & A9 & A10 & A11);
             try rewrite EE; simpl in *; try assumption; try lia.
      { unfold cend in *; lia. }
      { congruence. }
      { eapply Forall_impl; [|exact Hs1]. intros a. unfold before. rewrite EE. simpl. lia. }
      { intro X. specialize (Hnt X). inversion Hnt; subst; auto. }
      rewrite EE in A5.
      assert (NU : ckind c <> Unconstrained) by congruence.
      repeat (split; [first [assumption|unfold cend in *; lia|tauto]|]).
      split.
      { intros P HF. inversion HF; subst. apply A10; auto. }
      intros cp vt. unfold setting in *; simpl in *. rewrite A11.
      destruct (covers c cp vt) eqn:C.
      * apply covers_true in C.
        replace (covers _ cp vt) with true; auto. symmetry. apply covers_true. rewrite EE; simpl.
        unfold cend in *; lia.
      * destruct (covers n cp vt) eqn:C'.
        -- apply covers_true in C'.
           replace (covers (mkCst _ _ _ _ _) cp vt) with true.
           2:{ symmetry. apply covers_true. rewrite EE; simpl. unfold cend in *; lia. }
           congruence.
        -- replace (covers (mkCst _ _ _ _ _) cp vt) with false; auto.
           symmetry. apply not_true_iff_false. intro T.
           apply not_true_iff_false in C. apply not_true_iff_false in C'.
           rewrite covers_true in T, C, C'. rewrite EE in T. simpl in T. lia.
    + inversion E; subst c1 r1. clear E.
      repeat (split; [first [reflexivity|lia|tauto|assumption]|]).
      split. { simpl; auto. }
      repeat split; auto.
Qed.

Lemma overrun_check_spec : forall nv rest c,
  1 <= cnum c -> 0 <= ccmp c < Z.of_nat (length nv) -> 0 <= cvert c ->
  cend c <= nth (Z.to_nat (ccmp c)) nv 0 ->
  sorted rest -> Forall (cell_ok nv) rest -> Forall (starts_before c) rest ->
  no_twin (ccmp c) (ckind c) (cvect c) rest ->
  exists c1 r1, overrun_check c rest = c1 :: r1 /\
  ccmp c1 = ccmp c /\ cvert c1 = cvert c /\ ckind c1 = ckind c /\ cvect c1 = cvect c /\
  cend c <= cend c1 <= nth (Z.to_nat (ccmp c)) nv 0 /\
  (ckind c = Fixed -> cnum c1 = cnum c) /\
  sorted r1 /\ Forall (cell_ok nv) r1 /\ Forall (before c1) r1 /\
  (forall P : cst -> Prop, (forall a b, setting a = setting b -> ccmp a = ccmp b -> P a -> P b) ->
      Forall P rest -> Forall P r1) /\
  (forall cp vt, (if covers c1 cp vt then Some (setting c) else look r1 cp vt)
               = (if covers c cp vt then Some (setting c) else look rest cp vt)).
Proof.
  intros nv rest c Hn Hc Hv He Hs Hok Hb Hnt. unfold overrun_check.
  destruct (overrun1 c rest) as [c1 r1] eqn:E1.
  destruct (overrun1_spec nv _ _ _ _ E1 Hn Hc Hv He Hs Hok Hb)
    as (A1 & A2 & A3 & A4 & A5 & A6 & A7 & A8 & A9 & A10 & A11).
  destruct (overrun2 c1 r1) as [c2 r2] eqn:E2.
  destruct (overrun2_spec nv _ _ _ _ E2) as (B1 & B2 & B3 & B4 & B5 & B6 & B6b & B7 & B8 & B9 & B10 & B11);
    rewrite ?A1, ?A2, ?A3, ?A4 in *; auto; try lia.
  { unfold cend in *; rewrite A2 in *; lia. }
  { intro X. apply A10; auto. intros a b S1 S2. inversion S1 as [[S3 S4]].
    intros Hx Hy Hz. rewrite <- S2. apply Hx; congruence. }
  exists c2, r2. repeat (split; [first [assumption|congruence|lia]|]).
  split. { intros F. rewrite B6, A6; auto. }
  repeat (split; [assumption|]).
  split. { intros P HP HF. apply B10. eapply A10; eauto. }
  intros cp vt. rewrite <- A11. specialize (B11 cp vt). unfold setting in *.
  rewrite A3, A4 in B11. exact B11.
Qed.

Lemma seek_spec : forall cmp vert l passed p r,
  seek cmp vert passed l = (p, r) ->
  exists mid, p = rev mid ++ passed /\ l = mid ++ r /\
    Forall (fun c => ccmp c < cmp \/ (ccmp c = cmp /\ cend c <= vert)) mid /\
    match r with [] => True
    | c :: _ => cmp < ccmp c \/ (ccmp c = cmp /\ vert < cend c) end.
Proof.
  induction l as [|c l IH]; intros passed p r E; simpl in E.
  - inversion E; subst. exists []; simpl; auto.
  - destruct ((ccmp c <? cmp) || ((ccmp c =? cmp) && (cend c <=? vert))) eqn:B.
    + destruct (IH _ _ _ E) as (mid & E1 & E2 & E3 & E4).
      exists (c :: mid). simpl. subst. repeat split; auto.
      * rewrite <- app_assoc. reflexivity.
      * constructor; auto. apply orb_true_iff in B. destruct B; caseb; [left; lia| right; lia].
    + inversion E; subst. exists []. simpl. repeat split; auto.
      apply orb_false_iff in B. destruct B as [B1 B2]. caseb.
      apply andb_false_iff in B2. destruct B2; caseb; lia.
Qed.

(** What a single call must do to the map. *)
Definition upd_map (m : Z -> Z -> option (kind * vects)) (cmp vert num : Z) (k : kind) (v : vects)
  (cp vt : Z) : option (kind * vects) :=
  if (cp =? cmp) && (vert <=? vt) && (vt <? vert + num)
  then (if kind_eqb k Unconstrained then None else Some (k, v))
  else m cp vt.

Lemma covers_mk : forall k v cmp vert num cp vt,
  covers (mkCst k v cmp vert num) cp vt = (cp =? cmp) && (vert <=? vt) && (vt <? vert + num).
Proof. intros. unfold covers; simpl. rewrite Z.eqb_sym. reflexivity. Qed.

Lemma twin_inv : forall cmp k v a b, setting a = setting b -> ccmp a = ccmp b ->
  (ckind a = k -> cvect a = v -> ccmp a = cmp) -> (ckind b = k -> cvect b = v -> ccmp b = cmp).
Proof. unfold setting; intros. inversion H. rewrite <- H0. apply H1; congruence. Qed.

Lemma look_rest_none : forall (c : cst) l cp vt,
  Forall (before c) l -> covers c cp vt = true -> look l cp vt = None.
Proof.
  intros. apply look_none. apply covers_true in H0.
  eapply Forall_impl; [|eassumption]. intros a; unfold before. lia.
Qed.

Lemma look_in : forall l cp vt s, look l cp vt = Some s -> exists c, In c l /\ covers c cp vt = true.
Proof.
  induction l; simpl; intros. discriminate.
  destruct (covers a cp vt) eqn:E. eauto. destruct (IHl _ _ _ H) as (c & ? & ?); eauto.
Qed.

Lemma look_setting : forall l cp vt s, look l cp vt = Some s ->
  exists d, In d l /\ covers d cp vt = true /\ setting d = s.
Proof.
  induction l; simpl; intros. discriminate.
  destruct (covers a cp vt) eqn:E. inversion H; subst. eauto.
  destruct (IHl _ _ _ H) as (c & ? & ? & ?); eauto.
Qed.

Theorem set_cst_list_ok : forall nv l cmp vert num k v,
  wf nv l ->
  0 <= cmp < Z.of_nat (length nv) -> 0 <= vert -> 1 <= num ->
  vert + num <= nth (Z.to_nat cmp) nv 0 -> (k = Fixed -> num = 1) ->
  no_twin cmp k v l ->
  wf nv (set_cst_list l cmp vert num k v) /\
  (forall cp vt, look (set_cst_list l cmp vert num k v) cp vt =
                 upd_map (look l) cmp vert num k v cp vt) /\
  (forall P : cst -> Prop, (forall a b, setting a = setting b -> ccmp a = ccmp b -> P a -> P b) ->
      P (mkCst k v cmp vert num) -> Forall P l -> Forall P (set_cst_list l cmp vert num k v)).
Proof.
  intros nv l cmp vert num k v [Hsort Hcell] Hcmp Hvert Hnum Hend Hfix Htwin.
  unfold set_cst_list.
  destruct (seek cmp vert [] l) as [passed rest] eqn:Es.
  destruct (seek_spec _ _ _ _ _ _ Es) as (mid & Ep & El & Hmid & Hrest).
  rewrite app_nil_r in Ep. subst l passed. clear Es.
  apply sorted_app in Hsort. destruct Hsort as (Sm & Sr & Smr).
  apply Forall_app in Hcell. destruct Hcell as (Cm & Cr).
  assert (Tm : k <> Fixed -> Forall (fun d => ckind d = k -> cvect d = v -> ccmp d = cmp) mid).
  { intro X. specialize (Htwin X). apply Forall_app in Htwin. tauto. }
  assert (Tr : no_twin cmp k v rest).
  { intro X. specialize (Htwin X). apply Forall_app in Htwin. tauto. }
  clear Htwin.
  set (new := mkCst k v cmp vert num).
  assert (Hnew : forall cp vt, covers new cp vt = (cp =? cmp) && (vert <=? vt) && (vt <? vert + num))
    by (intros; apply covers_mk).
  assert (Cnew : forall cp vt, covers new cp vt = true <-> cmp = cp /\ vert <= vt < vert + num).
  { intros. rewrite covers_true. unfold cend; simpl. tauto. }
  assert (Enew : cend new = vert + num) by reflexivity.
  (* mid never meets the new range *)
  assert (Mnew : forall cp vt, covers new cp vt = true -> look mid cp vt = None).
  { intros cp vt C. apply Cnew in C. apply look_none.
    eapply Forall_impl; [|exact Hmid]. intros a. simpl. lia. }
  (* generic closing lemma for results of the form mid ++ tail *)
  assert (Close : forall tail,
     sorted tail -> Forall (cell_ok nv) tail -> Forall (fun c => Forall (before c) tail) mid ->
     (forall cp vt, look tail cp vt = upd_map (look rest) cmp vert num k v cp vt) ->
     (forall P : cst -> Prop, (forall a b, setting a = setting b -> ccmp a = ccmp b -> P a -> P b) ->
      P new -> Forall P rest -> Forall P tail) ->
     wf nv (rev_append (rev mid) tail) /\
     (forall cp vt, look (rev_append (rev mid) tail) cp vt =
                 upd_map (look (mid ++ rest)) cmp vert num k v cp vt) /\
     (forall P : cst -> Prop, (forall a b, setting a = setting b -> ccmp a = ccmp b -> P a -> P b) ->
      P new -> Forall P (mid ++ rest) -> Forall P (rev_append (rev mid) tail))).
  { intros tail T1 T2 T3 T4 T5. rewrite rev_append_rev, rev_involutive. split.
    - split. apply sorted_app; auto. apply Forall_app; auto.
    - split.
      + intros cp vt. rewrite look_app, T4. unfold upd_map. rewrite look_app, <- Hnew.
        destruct (covers new cp vt) eqn:C.
        * rewrite Mnew; auto.
        * reflexivity.
      + intros P HP Pn HF. apply Forall_app in HF. destruct HF. apply Forall_app; split; auto. }
  (* placing a cell starting no earlier than every mid cell ends *)
  assert (MidBefore : forall d, ccmp d = cmp -> vert <= cvert d -> Forall (fun c => before c d) mid).
  { intros d D1 D2. eapply Forall_impl; [|exact Hmid]. intros a. simpl. unfold before. lia. }
  assert (B234 :
    let drop_if_unconstrained := fun l' => if kind_eqb k Unconstrained then tl l' else l' in
    let r := match rest with
    | [] => rev_append (rev mid) (if kind_eqb k Unconstrained then [] else [new])
    | c :: rest' =>
        if same_nonfixed k v c && (ccmp c =? cmp) && (cvert c <=? vert + num) then
          rev_append (rev mid) (overrun_check (extend c vert num) rest')
        else if (cmp <? ccmp c) || (vert + num <=? cvert c) then
          rev_append (rev mid) (if kind_eqb k Unconstrained then rest else new :: rest)
        else if cvert c <? vert then
          if vert + num <? cend c then
            let c1 := mkCst (ckind c) (cvect c) (ccmp c) (cvert c) (vert - cvert c) in
            let c2 := mkCst (ckind c) (cvect c) (ccmp c) (vert + num)
                            (cnum c - (vert + num - cvert c)) in
            rev_append (rev mid)
              (c1 :: (if kind_eqb k Unconstrained then c2 :: rest' else new :: c2 :: rest'))
          else
            let c1 := mkCst (ckind c) (cvect c) (ccmp c) (cvert c) (vert - cvert c) in
            rev_append (rev mid) (c1 :: drop_if_unconstrained (overrun_check new rest'))
        else
          rev_append (rev mid) (drop_if_unconstrained (overrun_check new rest))
    end in
    wf nv r /\
     (forall cp vt, look r cp vt = upd_map (look (mid ++ rest)) cmp vert num k v cp vt) /\
     (forall P : cst -> Prop, (forall a b, setting a = setting b -> ccmp a = ccmp b -> P a -> P b) ->
      P new -> Forall P (mid ++ rest) -> Forall P r)).
  { intros dropu. unfold dropu; clear dropu.
    assert (Newok : k <> Unconstrained -> cell_ok nv new).
    { intros NU. repeat split; simpl; auto; try lia; unfold cend; simpl; lia. }
    destruct rest as [|c rest'].
    - simpl. apply Close.
      + destruct (kind_eqb k Unconstrained); simpl; auto.
      + destruct (kind_eqb k Unconstrained) eqn:KU; auto. constructor; auto. apply Newok.
        intro; subst. simpl in KU. discriminate.
      + destruct (kind_eqb k Unconstrained).
        * eapply Forall_impl; [|exact Hmid]; auto.
        * eapply Forall_impl; [|apply (MidBefore new); simpl; auto; lia]. intros; constructor; auto.
      + intros cp vt. unfold upd_map. destruct (kind_eqb k Unconstrained); simpl look; rewrite <- ?Hnew.
        destruct (covers new cp vt); auto.
        destruct (covers new cp vt); auto.
      + intros P HP Pn _. destruct (kind_eqb k Unconstrained); auto.
    - inversion Cr as [|? ? Cc Cr']; subst. destruct Sr as [Sc Sr'].
      assert (Smc : Forall (fun a => before a c) mid).
      { eapply Forall_impl; [|exact Smr]. intros a Ha. inversion Ha; auto. }
      destruct Cc as (O1 & O2 & O3 & O4 & O5 & O6).
      destruct (same_nonfixed k v c && (ccmp c =? cmp) && (cvert c <=? vert + num)) eqn:B2.
      + (* branch 2 : extend cst *)
        caseb. match goal with H : same_nonfixed _ _ _ = true |- _ => apply same_nonfixed_eq in H;
          destruct H as (K1 & K2 & K3) end.
        assert (NU : k <> Unconstrained) by congruence.
        set (c' := extend c vert num).
        assert (Ec' : cend c' = Z.max (vert + num) (cend c)) by (unfold c', extend, cend; simpl; lia).
        assert (Vc' : cvert c' = Z.min vert (cvert c)) by reflexivity.
        assert (Mc' : ccmp c' = cmp) by (unfold c'; simpl; lia).
        destruct (overrun_check_spec nv rest' c') as
          (c1 & r1 & Q0 & Q1 & Q2 & Q3 & Q4 & Q5 & Q6 & Q7 & Q8 & Q9 & Q10 & Q11); auto; try lia.
        { unfold cend in Ec'; lia. }
        { rewrite Mc', Ec'. subst cmp. lia. }
        { eapply Forall_impl; [|exact Sc]. intros a. unfold before, starts_before.
          rewrite Mc', Vc'. unfold cend in *. lia. }
        { rewrite Mc'. replace (ckind c') with k by (unfold c'; simpl; auto).
          replace (cvect c') with v by (unfold c'; simpl; auto).
          intro X. specialize (Tr X). inversion Tr; auto. }
        rewrite Q0. apply Close.
        * simpl; auto.
        * constructor; auto. eapply cell_ok_mk; [exact Q1|exact Q2|..].
          -- lia.
          -- lia.
          -- unfold cend in *; lia.
          -- tauto.
          -- rewrite Q3. unfold c'; simpl. auto.
          -- rewrite Q3. unfold c'; simpl. congruence.
        * assert (Fm : Forall (fun a => before a c1) mid).
          { apply Forall_forall. intros a Ha. rewrite Forall_forall in Hmid, Smc.
            specialize (Hmid a Ha). specialize (Smc a Ha). unfold before in *.
            rewrite Q1, Mc', Q2, Vc'. lia. }
          apply Forall_forall. intros a Ha. constructor.
          -- rewrite Forall_forall in Fm. auto.
          -- rewrite Forall_forall in Fm. specialize (Fm a Ha).
             eapply Forall_impl; [|exact Q9]. intros b Hb. eapply before_trans; [|exact Fm|exact Hb].
             unfold num_ok, cend in *. rewrite Q2, Vc' in *. lia.
        * intros cp vt. simpl. specialize (Q11 cp vt).
          replace (setting c1) with (setting c') by (unfold setting; congruence).
          rewrite Q11. unfold upd_map. rewrite <- Hnew.
          assert (KU : kind_eqb k Unconstrained = false).
          { destruct k; auto. congruence. }
          rewrite KU. simpl.
          replace (setting c') with (k, v) by (unfold setting, c'; simpl; congruence).
          replace (setting c) with (k, v) by (unfold setting; congruence).
          destruct (covers new cp vt) eqn:Cn.
          -- replace (covers c' cp vt) with true; auto. symmetry. apply covers_true.
             apply Cnew in Cn. lia.
          -- replace (covers c' cp vt) with (covers c cp vt); auto.
             apply not_true_iff_false in Cn. rewrite Cnew in Cn.
             apply eq_true_iff_eq. rewrite !covers_true. rewrite Ec', Mc', Vc'.
             unfold cend in *. lia.
        * intros P HP Pn HF. pose proof (Forall_inv HF) as HF1. pose proof (Forall_inv_tail HF) as HF2. constructor; auto.
          eapply HP; [| |exact Pn]; simpl; try congruence.
          unfold setting; simpl. rewrite Q3, Q4. unfold c'; simpl. congruence.
      + destruct ((cmp <? ccmp c) || (vert + num <=? cvert c)) eqn:B3.
        * (* branch 3 *)
          assert (Bn : ccmp c > cmp \/ (ccmp c = cmp /\ vert + num <= cvert c)).
          { apply orb_true_iff in B3. destruct B3; caseb; lia. }
          assert (Bnew : Forall (before new) (c :: rest')).
          { constructor. unfold before, cend; simpl; lia.
            eapply Forall_impl; [|exact Sc]. intros a. unfold before, cend; simpl. unfold cend. lia. }
          apply Close.
          -- destruct (kind_eqb k Unconstrained); simpl; auto.
          -- destruct (kind_eqb k Unconstrained) eqn:KU; auto. constructor; auto. apply Newok.
             intro; subst. simpl in KU. discriminate.
          -- destruct (kind_eqb k Unconstrained); auto.
             assert (X := MidBefore new eq_refl (Z.le_refl _)).
             rewrite Forall_forall in *. intros a Ha. constructor; auto.
          -- intros cp vt. unfold upd_map. rewrite <- Hnew.
             destruct (covers new cp vt) eqn:Cn.
             ++ destruct (kind_eqb k Unconstrained).
                ** eapply look_rest_none; eauto.
                ** simpl. rewrite Cn. reflexivity.
             ++ destruct (kind_eqb k Unconstrained); auto. simpl. rewrite Cn. reflexivity.
          -- intros P HP Pn HF. destruct (kind_eqb k Unconstrained); auto.
        * apply orb_false_iff in B3. destruct B3 as [B3 B3']. caseb.
          assert (Ecmp : ccmp c = cmp) by lia.
          assert (Hce : vert < cend c) by lia.
          destruct (cvert c <? vert) eqn:B4; caseb.
          -- set (c1 := mkCst (ckind c) (cvect c) (ccmp c) (cvert c) (vert - cvert c)).
             assert (Ec1 : cend c1 = vert) by (unfold cend, c1; simpl; lia).
             assert (Okc1 : cell_ok nv c1).
             { eapply cell_ok_mk; try reflexivity; simpl; auto; try lia.
               intros F. specialize (O6 F). unfold cend in *. lia. }
             destruct (vert + num <? cend c) eqn:B5; caseb.
             ++ (* middle *)
                set (c2 := mkCst (ckind c) (cvect c) (ccmp c) (vert + num) (cnum c - (vert + num - cvert c))).
                assert (Ec2 : cend c2 = cend c) by (unfold cend, c2; simpl; lia).
                assert (Okc2 : cell_ok nv c2).
                { eapply cell_ok_mk; try reflexivity; simpl; auto; try lia.
                  intros F. specialize (O6 F). unfold cend in *. lia. }
                assert (Bc2 : Forall (before c2) rest').
                { eapply Forall_impl; [|exact Sc]. intros a. unfold before. rewrite Ec2. auto. }
                assert (Bc1 : Forall (before c1) (c2 :: rest')).
                { constructor. unfold before. rewrite Ec1. simpl. lia.
                  eapply Forall_impl; [|exact Sc]. intros a. unfold before. rewrite Ec1. simpl. lia. }
                apply Close.
                ** destruct (kind_eqb k Unconstrained); simpl; auto.
                   repeat split; auto.
                   --- constructor; auto. unfold before. rewrite Ec1. simpl. lia.
                   --- constructor; [unfold before, cend; simpl; lia|].
                       eapply Forall_impl; [|exact Sc]. intros a. unfold before, cend; simpl. unfold cend in *. lia.
                ** assert (NewF : kind_eqb k Unconstrained = false -> cell_ok nv new).
                   { intros KU. apply Newok. intro KZ; rewrite KZ in KU; discriminate. }
                   destruct (kind_eqb k Unconstrained) eqn:KU; auto.
                ** rewrite Forall_forall in *. intros a Ha.
                   assert (Bac : before a c1).
                   { specialize (Smc a Ha). unfold before in *. simpl. auto. }
                   assert (Ban : before a new).
                   { specialize (MidBefore new eq_refl (Z.le_refl _)). rewrite Forall_forall in MidBefore. auto. }
                   assert (Ba : forall b, In b (c2 :: rest') -> before a b).
                   { intros b Hb. specialize (Bc1 b Hb). eapply before_trans; [|exact Bac|exact Bc1].
                     unfold num_ok; simpl. lia. }
                   destruct (kind_eqb k Unconstrained); apply Forall_forall; intros b Hb; simpl in Hb;
                     (destruct Hb as [Hb|Hb]; [rewrite <- Hb; auto|]); [apply Ba; auto|].
                   destruct Hb as [Hb|Hb]; [rewrite <- Hb; auto|]. apply Ba; auto.
                ** intros cp vt. unfold upd_map. rewrite <- Hnew.
                   assert (L2 : look (c1 :: c2 :: rest') cp vt =
                                if covers new cp vt then None else look (c :: rest') cp vt).
                   { simpl. change (setting c1) with (setting c). change (setting c2) with (setting c).
                     destruct (covers new cp vt) eqn:Cn.
                     - replace (covers c1 cp vt) with false.
                       replace (covers c2 cp vt) with false.
                       eapply (look_rest_none c); auto.
                       apply covers_true. apply Cnew in Cn. unfold cend in *; simpl in *. lia.
                       symmetry. apply not_true_iff_false. rewrite covers_true. apply Cnew in Cn.
                       unfold cend in *; simpl in *. lia.
                       symmetry. apply not_true_iff_false. rewrite covers_true. apply Cnew in Cn.
                       unfold cend in *; simpl in *. lia.
                     - apply not_true_iff_false in Cn. rewrite Cnew in Cn.
                       destruct (covers c cp vt) eqn:Cc'.
                       + apply covers_true in Cc'.
                         destruct (covers c1 cp vt) eqn:X1; auto.
                         replace (covers c2 cp vt) with true; auto. symmetry.
                         apply covers_true. apply not_true_iff_false in X1. rewrite covers_true in X1.
                         unfold cend in *; simpl in *. lia.
                       + apply not_true_iff_false in Cc'. rewrite covers_true in Cc'.
                         replace (covers c1 cp vt) with false.
                         replace (covers c2 cp vt) with false. reflexivity.
                         symmetry. apply not_true_iff_false. rewrite covers_true.
                         unfold cend in *; simpl in *. lia.
                         symmetry. apply not_true_iff_false. rewrite covers_true.
                         unfold cend in *; simpl in *. lia. }
                   destruct (kind_eqb k Unconstrained).
                   --- rewrite L2. reflexivity.
                   --- replace (look (c1 :: new :: c2 :: rest') cp vt) with
                        (if covers new cp vt then Some (k,v) else look (c1 :: c2 :: rest') cp vt).
                       rewrite L2. destruct (covers new cp vt); auto.
                       simpl. destruct (covers new cp vt) eqn:Cn; auto.
                       replace (covers c1 cp vt) with false; auto.
                       symmetry. apply not_true_iff_false. rewrite covers_true. apply Cnew in Cn.
                       unfold cend in *; simpl in *. lia.
                ** intros P HP Pn HF. pose proof (Forall_inv HF) as HF1. pose proof (Forall_inv_tail HF) as HF2.
                   assert (P c1) by (eapply HP; [| |eassumption]; reflexivity).
                   assert (P c2) by (eapply HP; [| |eassumption]; reflexivity).
                   destruct (kind_eqb k Unconstrained); repeat constructor; auto.
             ++ (* shorten c, attach new *)
                assert (Snew : Forall (starts_before new) rest').
                { eapply Forall_impl; [|exact Sc]. intros a. unfold before, starts_before; simpl. lia. }
                assert (Tr' : no_twin (ccmp new) (ckind new) (cvect new) rest').
                { intro X. specialize (Tr X). inversion Tr; auto. }
                destruct (overrun_check_spec nv rest' new) as
                  (n1 & r1 & Q0 & Q1 & Q2 & Q3 & Q4 & Q5 & Q6 & Q7 & Q8 & Q9 & Q10 & Q11); auto.
                simpl in Q1, Q2, Q3, Q4, Q5, Q6, Q11.
                rewrite Q0. simpl tl.
                assert (N1 : num_ok n1).
                { unfold num_ok, cend in *. simpl in *. lia. }
                assert (Bc1n : before c1 n1) by (unfold before; rewrite Ec1, Q1, Q2; simpl; lia).
                assert (Bc1r : Forall (before c1) r1).
                { eapply Forall_impl; [|exact Q9]. intros b Hb. eapply before_trans; eauto. }
                apply Close.
                ** destruct (kind_eqb k Unconstrained); simpl; auto.
                ** destruct (kind_eqb k Unconstrained) eqn:KU; constructor; auto. constructor; auto.
                   eapply cell_ok_mk; [exact Q1|exact Q2|..]; auto.
                   --- unfold cend in *; simpl in *; lia.
                   --- tauto.
                   --- rewrite Q3. intro KZ; rewrite KZ in KU; discriminate.
                   --- rewrite Q3. intros F. rewrite Q6; auto.
                ** rewrite Forall_forall in *. intros a Ha.
                   assert (Bac : before a c1).
                   { specialize (Smc a Ha). unfold before in *. simpl. auto. }
                   assert (Ba : forall b, In b (n1 :: r1) -> before a b).
                   { intros b Hb. eapply before_trans; [|exact Bac|].
                     unfold num_ok; simpl. lia. destruct Hb as [Hb|Hb]; [rewrite <- Hb; auto|auto]. }
                   destruct (kind_eqb k Unconstrained); apply Forall_forall; intros b Hb; simpl in Hb;
                     (destruct Hb as [Hb|Hb]; [rewrite <- Hb; auto|]); apply Ba; simpl; auto.
                ** intros cp vt. unfold upd_map. rewrite <- Hnew.
                   specialize (Q11 cp vt).
                   change (setting c1) with (setting c) in *.
                   assert (X1 : covers new cp vt = true -> covers c1 cp vt = false).
                   { intros Cn. apply not_true_iff_false. rewrite covers_true. apply Cnew in Cn.
                     unfold cend in *; simpl in *. lia. }
                   assert (X2 : covers new cp vt = false -> covers c1 cp vt = covers c cp vt).
                   { intros Cn. apply not_true_iff_false in Cn. rewrite Cnew in Cn.
                     apply eq_true_iff_eq. rewrite !covers_true. unfold cend in *; simpl in *. lia. }
                   destruct (kind_eqb k Unconstrained) eqn:KU.
                   --- (* unconstrained: overrun1 cannot extend, and r1 is free of the range *)
                       simpl. change (setting c1) with (setting c).
                       destruct (covers new cp vt) eqn:Cn.
                       +++ rewrite X1; auto. eapply look_rest_none; [exact Q9|].
                           apply covers_true. apply Cnew in Cn. rewrite Q1, Q2. rewrite Enew in Q5. lia.
                       +++ rewrite X2; auto. destruct (covers c cp vt); auto.
                           destruct (covers n1 cp vt) eqn:C1.
                           { (* n1 extends new only by joining an equal cell: impossible for unconstrained *)
                             exfalso. apply kind_eqb_eq in KU. subst k.
                             symmetry in Q11. apply look_setting in Q11 as Hl.
                             destruct Hl as (d & Hd1 & Hd2 & Hd3).
                             rewrite Forall_forall in Cr'. specialize (Cr' d Hd1).
                             destruct Cr' as (?&?&?&?&NU&?). inversion Hd3. congruence. }
                           exact Q11.
                   --- simpl. change (setting c1) with (setting c).
                       replace (setting n1) with (setting new) by (unfold setting; simpl; congruence).
                       destruct (covers new cp vt) eqn:Cn.
                       +++ rewrite X1; auto.
                       +++ rewrite X2; auto. destruct (covers c cp vt); auto.
                ** intros P HP Pn HF. pose proof (Forall_inv HF) as HF1. pose proof (Forall_inv_tail HF) as HF2.
                   assert (P c1) by (eapply HP; [| |eassumption]; reflexivity).
                   assert (P n1) by (eapply HP; [| |exact Pn]; unfold setting; simpl; congruence).
                   assert (Forall P r1) by (eapply Q10; eauto).
                   destruct (kind_eqb k Unconstrained); repeat constructor; auto.
          -- (* starts no earlier: insert before *)
             assert (Snew : Forall (starts_before new) (c :: rest')).
             { constructor. unfold starts_before; simpl; lia.
               eapply Forall_impl; [|exact Sc]. intros a. unfold before, starts_before; simpl.
               unfold cend in *. lia. }
             destruct (overrun_check_spec nv (c :: rest') new) as
                  (n1 & r1 & Q0 & Q1 & Q2 & Q3 & Q4 & Q5 & Q6 & Q7 & Q8 & Q9 & Q10 & Q11); auto.
             { simpl; auto. }
             simpl in Q1, Q2, Q3, Q4, Q5, Q6.
             rewrite Q0. simpl tl.
             assert (N1 : num_ok n1).
             { unfold num_ok, cend in *. simpl in *. lia. }
             assert (Bmn : Forall (fun a => before a n1) mid).
             { apply MidBefore; try rewrite Q2; lia. }
             apply Close.
             ++ destruct (kind_eqb k Unconstrained); simpl; auto.
             ++ destruct (kind_eqb k Unconstrained) eqn:KU; auto. constructor; auto.
                eapply cell_ok_mk; [exact Q1|exact Q2|..]; auto.
                ** unfold cend in *; simpl in *; lia.
                ** tauto.
                ** rewrite Q3. intro KZ; rewrite KZ in KU; discriminate.
                ** rewrite Q3. intros F. rewrite Q6; auto.
             ++ rewrite Forall_forall in *. intros a Ha.
                assert (Ba : forall b, In b r1 -> before a b).
                { intros b Hb. eapply before_trans; [exact N1| |]. apply Bmn; auto. apply Q9; auto. }
                destruct (kind_eqb k Unconstrained); apply Forall_forall; intros b Hb; auto.
                destruct Hb as [Hb|Hb]; [rewrite <- Hb; auto|]; apply Ba; simpl; auto.
             ++ intros cp vt. unfold upd_map. rewrite <- Hnew.
                specialize (Q11 cp vt).
                destruct (kind_eqb k Unconstrained) eqn:KU.
                ** destruct (covers new cp vt) eqn:Cn.
                   --- eapply look_rest_none; [exact Q9|].
                       apply covers_true. apply Cnew in Cn. rewrite Q1, Q2. rewrite Enew in Q5. lia.
                   --- destruct (covers n1 cp vt) eqn:C1; [|exact Q11].
                       exfalso. apply kind_eqb_eq in KU. subst k.
                       symmetry in Q11. apply look_setting in Q11 as Hl.
                       destruct Hl as (d & Hd1 & Hd2 & Hd3).
                       rewrite Forall_forall in Cr. specialize (Cr d Hd1).
                       destruct Cr as (?&?&?&?&NU&?). inversion Hd3. congruence.
                ** cbn [look].
                   replace (setting n1) with (setting new) by (unfold setting; simpl; congruence).
                   rewrite Q11. reflexivity.
             ++ intros P HP Pn HF.
                assert (P n1) by (eapply HP; [| |exact Pn]; unfold setting; simpl; congruence).
                assert (Forall P r1) by (eapply Q10; eauto).
                destruct (kind_eqb k Unconstrained); repeat constructor; auto. }
  destruct (rev mid) as [|p passed'] eqn:Erev.
  - exact B234.
  - destruct (same_nonfixed k v p && (ccmp p =? cmp) && (vert <=? cend p)) eqn:B1; [|exact B234].
    clear B234. caseb.
    match goal with H : same_nonfixed _ _ _ = true |- _ => apply same_nonfixed_eq in H;
          destruct H as (K1 & K2 & K3) end.
    assert (Em : mid = rev passed' ++ [p]).
    { rewrite <- (rev_involutive mid), Erev. reflexivity. }
    set (pre := rev passed') in *. subst mid.
    replace passed' with (rev pre) by (unfold pre; apply rev_involutive).
    clear Close Erev.
    apply Forall_app in Hmid. destruct Hmid as [Hpre Hp]. inversion Hp as [|? ? Hp' _]; subst.
    apply Forall_app in Cm. destruct Cm as [Cpre Cp]. inversion Cp as [|? ? Cp' _]; subst.
    apply sorted_app in Sm. destruct Sm as (Spre & _ & Spp).
    apply Forall_app in Smr. destruct Smr as [Spr Spr']. inversion Spr' as [|? ? Spr'' _]; subst.
    destruct Cp' as (O1 & O2 & O3 & O4 & O5 & O6).
    assert (Epv : cend p = vert) by lia.
    set (p' := extend p vert num).
    assert (Ep' : cend p' = vert + num) by (unfold p', extend; unfold cend at 1; simpl; unfold cend in *; lia).
    assert (Vp' : cvert p' = cvert p) by (unfold p', extend; simpl; unfold cend in *; lia).
    assert (Mp' : ccmp p' = ccmp p) by reflexivity.
    destruct (overrun_check_spec nv rest p') as
      (c1 & r1 & Q0 & Q1 & Q2 & Q3 & Q4 & Q5 & Q6 & Q7 & Q8 & Q9 & Q10 & Q11); auto; try lia.
    { unfold cend in *; lia. }
    { rewrite Mp'. lia. }
    { eapply Forall_impl; [|exact Spr'']. intros a. unfold before, starts_before.
      rewrite Mp', Vp'. unfold cend in *; lia. }
    rewrite Q0.
    assert (Bpre : Forall (fun a => before a c1) pre).
    { rewrite Forall_forall in *. intros a Ha. specialize (Spp a Ha). inversion Spp; subst.
      unfold before in *. rewrite Q1, Q2, Mp', Vp'. auto. }
    assert (N1 : num_ok c1) by (unfold num_ok, cend in *; lia).
    assert (KU : kind_eqb (ckind p) Unconstrained = false) by (destruct (ckind p); auto; congruence).
    rewrite rev_append_rev, rev_involutive.
    split; [split|split].
    + apply sorted_app. split; auto. split. simpl; auto.
      rewrite Forall_forall in *. intros a Ha. apply Forall_forall. intros b [Hb|Hb]; subst; auto.
      eapply before_trans; [exact N1| |]. apply Bpre; auto. apply Q9; auto.
    + apply Forall_app. split; auto. constructor; auto.
      eapply cell_ok_mk; [exact Q1|exact Q2|..].
      * rewrite Mp'. lia.
      * lia.
      * unfold cend in *; lia.
      * tauto.
      * rewrite Q3. unfold p'; simpl. congruence.
      * rewrite Q3. unfold p'; simpl. congruence.
    + intros cp vt. rewrite look_app. unfold upd_map. rewrite KU, <- Hnew.
      rewrite look_app. rewrite look_app. simpl.
      replace (setting c1) with (setting p') by (unfold setting; congruence).
      rewrite Q11. change (setting p') with (setting p).
      assert (X : covers p' cp vt = covers p cp vt || covers new cp vt).
      { apply eq_true_iff_eq. rewrite orb_true_iff, !covers_true.
        rewrite Mp', Vp', Ep'. unfold cend at 2. unfold new; simpl. rewrite Epv. unfold cend in *. lia. }
      rewrite X.
      destruct (covers new cp vt) eqn:Cn.
      * rewrite orb_true_r. specialize (Mnew _ _ Cn). rewrite look_app in Mnew.
        destruct (look pre cp vt). discriminate. reflexivity.
      * rewrite orb_false_r. destruct (look pre cp vt); auto. destruct (covers p cp vt); auto.
    + intros P HP Pn HF. apply Forall_app in HF. destruct HF as [HF1 HF2].
      apply Forall_app in HF1. destruct HF1 as [HF0 HF1].
      apply Forall_app. split; auto. constructor.
      * inversion HF1; subst. eapply HP; [| |eassumption]; try congruence.
        unfold setting. rewrite Q3, Q4. reflexivity.
      * eapply Q10; eauto.
Qed.
