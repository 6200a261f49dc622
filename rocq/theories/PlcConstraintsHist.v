(** Histories of constraint calls and the abstract map they should implement. *)
From Coq Require Import List ZArith Lia Bool.
From Verif Require Import Base PlcConstraints PlcConstraintsProofs.
Import ListNotations.
Open Scope Z_scope.
Open Scope res_scope.

(** * Specification (does not mention the list algorithm) *)

(** The calls a user can make. *)
Inductive call :=
| CallFixed (cmp vert : Z) (point : vec3)
| CallLine (cmp vert num : Z) (tangent point : vec3)
| CallPlane (cmp vert num : Z) (normal : vec3) (dist : Z)
| CallUnconstrain (cmp vert num : Z)
| CallRemove (k : kind) (v : vects)
| CallRemoveAll.

(** What the user sees: for each (component, vertex), the constraint on it. *)
Definition cmap := Z -> Z -> option (kind * vects).

Definition in_run (cmp vert num cp vt : Z) : bool :=
  (cp =? cmp) && (vert <=? vt) && (vt <? vert + num).

Section Spec.
(** tolerance comparison of constraint vectors (plc_M_vecteq), arbitrary *)
Variable veq : vects -> vects -> bool.

Definition spec_call (c : call) (m : cmap) : cmap := fun cp vt =>
  match c with
  | CallFixed cmp vert p => if in_run cmp vert 1 cp vt then Some (Fixed, (p, V3 0 0 0)) else m cp vt
  | CallLine cmp vert num t p => if in_run cmp vert num cp vt then Some (Line, (t, p)) else m cp vt
  | CallPlane cmp vert num n d => if in_run cmp vert num cp vt then Some (Plane, (n, V3 d 0 0)) else m cp vt
  | CallUnconstrain cmp vert num => if in_run cmp vert num cp vt then None else m cp vt
  | CallRemove k v =>
      match m cp vt with
      | Some (k', v') => if kind_eqb k' k && veq v' v then None else Some (k', v')
      | None => None
      end
  | CallRemoveAll => None
  end.

Definition spec_run (h : list call) : cmap := fold_left (fun m c => spec_call c m) h (fun _ _ => None).

(** Arguments naming existing vertices. *)
Definition legal_run (nv : list Z) (cmp vert num : Z) : Prop :=
  0 <= cmp < Z.of_nat (length nv) /\ 0 <= vert /\ 1 <= num /\
  vert + num <= nth (Z.to_nat cmp) nv 0.

Definition legal (nv : list Z) (c : call) : Prop :=
  match c with
  | CallFixed cmp vert _ => legal_run nv cmp vert 1
  | CallLine cmp vert num _ _ => legal_run nv cmp vert num
  | CallPlane cmp vert num _ _ => legal_run nv cmp vert num
  | CallUnconstrain cmp vert num => legal_run nv cmp vert num
  | CallRemove k _ => k <> Unconstrained
  | CallRemoveAll => True
  end.

(** line/plane data put on a component by a call *)
Definition puts (c : call) (k : kind) (v : vects) (cmp : Z) : Prop :=
  match c with
  | CallLine c0 _ _ t p => k = Line /\ v = (t, p) /\ cmp = c0
  | CallPlane c0 _ _ n d => k = Plane /\ v = (n, V3 d 0 0) /\ cmp = c0
  | _ => False
  end.

(** No line or plane constraint is put, with identical data, on two different components. *)
Definition separated (h : list call) : Prop :=
  forall a b k v c1 c2, In a h -> In b h -> puts a k v c1 -> puts b k v c2 -> c1 = c2.

(** * The implementation *)
Definition do_call (L : curve) (c : call) : res curve :=
  match c with
  | CallFixed cmp vert p => plc_set_fixed L cmp vert p
  | CallLine cmp vert num t p => plc_constrain_to_line L cmp vert num t p
  | CallPlane cmp vert num n d => plc_constrain_to_plane L cmp vert num n d
  | CallUnconstrain cmp vert num => plc_unconstrain L cmp vert num
  | CallRemove k v => do r <- plc_remove_constraint veq L k v; Ok (fst r)
  | CallRemoveAll => Ok (plc_remove_all_constraints L)
  end.

Fixpoint run (L : curve) (h : list call) : res curve :=
  match h with
  | [] => Ok L
  | c :: h' => do L' <- do_call L c; run L' h'
  end.

(** what plc_is_constrained tells the user *)
Definition constraint_at (L : curve) (cp vt : Z) : option (kind * vects) :=
  option_map (fun c => (ckind c, cvect c)) (plc_is_constrained L cp vt).

(** shape of the public list L->cst: sorted by component and vertex, disjoint runs of
    existing vertices *)
Definition list_ok (L : curve) : Prop :=
  (forall i j c d, (i < j)%nat -> nth_error (csts L) i = Some c -> nth_error (csts L) j = Some d ->
     ccmp c < ccmp d \/ (ccmp c = ccmp d /\ cvert c + cnum c <= cvert d)) /\
  (forall c, In c (csts L) -> legal_run (nvs L) (ccmp c) (cvert c) (cnum c) /\
     ckind c <> Unconstrained /\ (ckind c = Fixed -> cnum c = 1)).

Lemma wf_list_ok : forall L, wf (nvs L) (csts L) <-> list_ok L.
Proof.
  intros [nv l]; simpl. unfold wf, list_ok; simpl. split.
  - intros [S C]. split.
    + clear C. induction l as [|a l IH]; intros i j c d Hij Hi Hj.
      * destruct i; discriminate.
      * destruct S as [S1 S2]. destruct j; [lia|]. destruct i; simpl in *.
        -- inversion Hi; subst. rewrite Forall_forall in S1. apply nth_error_In in Hj. apply (S1 _ Hj).
        -- apply (IH S2 i j c d); auto; lia.
    + intros c Hc. rewrite Forall_forall in C. destruct (C c Hc) as (?&?&?&?&?&?).
      unfold legal_run. auto.
  - intros [S C]. split.
    + clear C. induction l as [|a l IH]; simpl; auto. split.
      * apply Forall_forall. intros d Hd. apply In_nth_error in Hd. destruct Hd as [j Hj].
        apply (S 0%nat (Datatypes.S j) a d); auto. lia.
      * apply IH. intros i j c d Hij Hi Hj. apply (S (Datatypes.S i) (Datatypes.S j)); auto. lia.
    + apply Forall_forall. intros c Hc. destruct (C c Hc) as ((?&?&?&?)&?&?).
      unfold cell_ok, cend. tauto.
Qed.

Lemma legal_asserts : forall L cmp vert num k v,
  legal_run (nvs L) cmp vert num -> (k = Fixed -> num = 1) ->
  plc_set_constraint L cmp vert num k v =
  Ok (mkCurve (nvs L) (set_cst_list (csts L) cmp vert num k v)).
Proof.
  intros L cmp vert num k v (H1 & H2 & H3 & H4) HF. unfold plc_set_constraint.
  rewrite (proj2 (Z.leb_le 0 cmp)) by lia.
  rewrite (proj2 (Z.ltb_lt cmp _)) by lia.
  rewrite (proj2 (Z.leb_le 0 vert)) by lia.
  rewrite (proj2 (Z.ltb_lt vert _)) by lia.
  rewrite (proj2 (Z.leb_le 1 num)) by lia.
  rewrite (proj2 (Z.leb_le _ _)) by lia.
  destruct k; simpl; auto. rewrite HF; auto.
Qed.

Lemma remove_spec : forall k v l,
  let r := fst (remove_cst_list veq k v l) in
  (forall c, In c r -> In c l) /\ (sorted l -> sorted r) /\
  (forall cp vt, sorted l -> look r cp vt =
     match look l cp vt with
     | Some (k', v') => if kind_eqb k' k && veq v' v then None else Some (k', v')
     | None => None end).
Proof.
  induction l as [|c l IH]; simpl; auto.
  destruct (remove_cst_list veq k v l) as [r n]. simpl in IH. destruct IH as (I1 & I2 & I3).
  assert (FB : sorted (c :: l) -> Forall (before c) r).
  { intros [S1 S2]. rewrite Forall_forall in *. auto. }
  destruct (kind_eqb (ckind c) k && veq (cvect c) v) eqn:E; simpl.
  - split; [auto|split].
    + intros [S1 S2]; auto.
    + intros cp vt [S1 S2]. destruct (covers c cp vt) eqn:C.
      * unfold setting. rewrite E. eapply look_rest_none; [apply FB; simpl; auto|auto].
      * apply I3; auto.
  - split; [|split].
    + intros d [D|D]; auto.
    + intros S; split. apply FB; auto. apply I2. apply S.
    + intros cp vt [S1 S2]. destruct (covers c cp vt) eqn:C; auto.
      unfold setting. rewrite E. reflexivity.
Qed.

Definition from_history (h : list call) (c : cst) : Prop :=
  ckind c = Fixed \/ exists a, In a h /\ puts a (ckind c) (cvect c) (ccmp c).

Lemma set_step : forall h L cmp vert num k v,
  wf (nvs L) (csts L) -> Forall (from_history h) (csts L) ->
  separated h ->
  (k = Fixed \/ k = Unconstrained \/ exists a, In a h /\ puts a k v cmp) ->
  legal_run (nvs L) cmp vert num -> (k = Fixed -> num = 1) ->
  exists L', plc_set_constraint L cmp vert num k v = Ok L' /\ nvs L' = nvs L /\
    wf (nvs L') (csts L') /\ Forall (from_history h) (csts L') /\
    forall cp vt, look (csts L') cp vt = upd_map (look (csts L)) cmp vert num k v cp vt.
Proof.
  intros h L cmp vert num k v W F S K LR HF.
  rewrite legal_asserts; auto. eexists; split; [reflexivity|]. simpl.
  destruct LR as (L1 & L2 & L3 & L4).
  assert (NT : no_twin cmp k v (csts L)).
  { intros NF. rewrite Forall_forall in *. intros d Hd K1 K2.
    destruct K as [K|[K|(a & Ha & Hp)]]; [congruence| |].
    - exfalso. destruct W as [_ W]. rewrite Forall_forall in W. destruct (W d Hd) as (?&?&?&?&NU&?). congruence.
    - destruct (F d Hd) as [F1|(b & Hb & Hpb)]; [congruence|].
      rewrite K1, K2 in Hpb. exact (S b a k v _ _ Hb Ha Hpb Hp). }
  destruct (set_cst_list_ok (nvs L) (csts L) cmp vert num k v) as (A & B & C); auto.
  repeat split; auto; try apply A.
  destruct (kind_eqb k Unconstrained) eqn:KU.
  - apply kind_eqb_eq in KU. subst k.
    (* every cell of the result comes from the old list: prove with a predicate that
       holds trivially of unconstrained cells *)
    assert (X : Forall (fun c => ckind c = Unconstrained \/ from_history h c)
                       (set_cst_list (csts L) cmp vert num Unconstrained v)).
    { apply C.
      - intros a b E1 E2. inversion E1. unfold from_history. rewrite H0, H1, E2. auto.
      - left; reflexivity.
      - eapply Forall_impl; [|exact F]. auto. }
    destruct A as [_ A]. rewrite Forall_forall in *. intros c Hc.
    destruct (X c Hc) as [X1|]; auto. destruct (A c Hc) as (?&?&?&?&NU&?). congruence.
  - apply C; auto.
    + intros a b E1 E2. inversion E1. unfold from_history. rewrite H0, H1, E2. auto.
    + destruct K as [K|[K|K]].
      * left; auto.
      * subst k. discriminate.
      * right. exact K.
Qed.

Lemma run_ok : forall h0 h L m,
  (forall c, In c h -> In c h0) -> separated h0 ->
  wf (nvs L) (csts L) -> Forall (from_history h0) (csts L) ->
  (forall cp vt, look (csts L) cp vt = m cp vt) ->
  (forall c, In c h -> legal (nvs L) c) ->
  exists L', run L h = Ok L' /\ nvs L' = nvs L /\ wf (nvs L') (csts L') /\
    forall cp vt, look (csts L') cp vt = fold_left (fun m c => spec_call c m) h m cp vt.
Proof.
  intros h0. induction h as [|c h IH]; intros L m Hin Sep W F M Leg; simpl.
  - exists L; auto.
  - assert (Step : exists L1, do_call L c = Ok L1 /\ nvs L1 = nvs L /\ wf (nvs L1) (csts L1) /\
        Forall (from_history h0) (csts L1) /\
        forall cp vt, look (csts L1) cp vt = spec_call c m cp vt).
    { assert (Lc := Leg c (or_introl eq_refl)).
      assert (Hc := Hin c (or_introl eq_refl)).
      destruct c; simpl in Lc |- *.
      - destruct (set_step h0 L cmp vert 1 Fixed (point, zero3)) as (L1 & A & B & C & D & E); auto.
        exists L1. repeat split; auto; try apply C. intros. rewrite E. unfold upd_map, in_run.
        rewrite M. reflexivity.
      - destruct (set_step h0 L cmp vert num Line (tangent, point)) as (L1 & A & B & C & D & E); auto.
        { right; right. eexists; split; eauto. simpl; auto. } { discriminate. }
        exists L1. repeat split; auto; try apply C. intros. rewrite E. unfold upd_map, in_run.
        rewrite M. reflexivity.
      - destruct (set_step h0 L cmp vert num Plane (normal, V3 dist 0 0)) as (L1 & A & B & C & D & E); auto.
        { right; right. eexists; split; eauto. simpl; auto. } { discriminate. }
        exists L1. repeat split; auto; try apply C. intros. rewrite E. unfold upd_map, in_run.
        rewrite M. reflexivity.
      - destruct (set_step h0 L cmp vert num Unconstrained (zero3, zero3)) as (L1 & A & B & C & D & E); auto.
        { discriminate. }
        exists L1. repeat split; auto; try apply C. intros. rewrite E. unfold upd_map, in_run.
        rewrite M. reflexivity.
      - unfold plc_remove_constraint.
        replace (negb (kind_eqb k Unconstrained)) with true by (destruct k; auto; congruence).
        pose proof (remove_spec k v (csts L)) as R.
        destruct (remove_cst_list veq k v (csts L)) as [r n]. simpl in *.
        destruct R as (R1 & R2 & R3). destruct W as [W1 W2].
        eexists; split; [reflexivity|]; simpl. split; [reflexivity|]. split; [|split].
        + split; auto. rewrite Forall_forall in *; auto.
        + rewrite Forall_forall in *; auto.
        + intros. rewrite R3, M; auto.
      - eexists; split; [reflexivity|]; simpl. repeat split; auto. }
    destruct Step as (L1 & A & B & C & D & E). rewrite A. simpl.
    destruct (IH L1 (spec_call c m)) as (L' & A' & B' & C' & D'); auto.
    { intros; apply Hin; simpl; auto. }
    { rewrite B. intros; apply Leg; simpl; auto. }
    exists L'. repeat split; auto; try apply C'. congruence.
Qed.
End Spec.

(** Number of vertices freed by plc_remove_constraint. *)
Definition all_verts (nv : list Z) : list (Z * Z) :=
  flat_map (fun cp => map (fun vt => (Z.of_nat cp, Z.of_nat vt))
                          (seq 0 (Z.to_nat (nth cp nv 0)))) (seq 0 (length nv)).

Definition count (p : Z * Z -> bool) (l : list (Z * Z)) : Z := Z.of_nat (length (filter p l)).

Lemma count_app : forall p a b, count p (a ++ b) = count p a + count p b.
Proof. intros; unfold count. rewrite filter_app, app_length. lia. Qed.

Lemma count_ext : forall p q l, (forall x, p x = q x) -> count p l = count q l.
Proof.
  intros; unfold count. do 2 f_equal. induction l; simpl; auto. rewrite H, IHl. reflexivity.
Qed.

Lemma count_or : forall p q l, (forall x, p x = true -> q x = false) ->
  count (fun x => p x || q x) l = count p l + count q l.
Proof.
  intros p q l H. unfold count. induction l as [|a l IH]; cbn [filter]; auto.
  destruct (p a) eqn:P; cbn [orb].
  - rewrite (H a P). cbn [length]. lia.
  - destruct (q a); cbn [length]; lia.
Qed.

Lemma count_run : forall cp lo hi n, 0 <= lo -> hi <= Z.of_nat n -> lo <= hi ->
  count (fun x => (fst x =? cp) && (lo <=? snd x) && (snd x <? hi))
        (map (fun vt => (cp, Z.of_nat vt)) (seq 0 n)) = hi - lo.
Proof.
  intros cp lo hi n. revert lo hi. induction n; intros lo hi H1 H2 H3.
  - unfold count; simpl. lia.
  - rewrite seq_S, map_app, count_app. simpl.
    destruct (Z.eq_dec hi (Z.of_nat (S n))).
    + destruct (Z.eq_dec lo hi).
      * rewrite (count_ext _ (fun x => (fst x =? cp) && (lo <=? snd x) && (snd x <? lo))).
        2:{ intros x; subst; auto. }
        replace (count _ (map _ _)) with 0.
        { unfold count; simpl. rewrite Z.eqb_refl. simpl.
          destruct (lo <=? Z.of_nat n) eqn:E; caseb; simpl; try lia. }
        symmetry. unfold count. replace (filter _ _) with (@nil (Z*Z)); auto.
        symmetry. generalize (seq 0 n). intros l; induction l; simpl; auto.
        rewrite Z.eqb_refl. simpl. destruct (lo <=? Z.of_nat a) eqn:E1; simpl; auto.
        destruct (Z.of_nat a <? lo) eqn:E2; auto. caseb; lia.
      * assert (C1 : count (fun x => (fst x =? cp) && (lo <=? snd x) && (snd x <? hi))
                (map (fun vt => (cp, Z.of_nat vt)) (seq 0 n)) = Z.of_nat n - lo).
        { rewrite <- (IHn lo (Z.of_nat n)) by lia.
          unfold count. do 2 f_equal. apply filter_ext_in. intros [a b] Hab. simpl.
          apply in_map_iff in Hab. destruct Hab as (vt & E1 & E2). inversion E1; subst.
          apply in_seq in E2. do 1 f_equal.
          destruct (Z.of_nat vt <? Z.of_nat n) eqn:X, (Z.of_nat vt <? Z.of_nat (S n)) eqn:Y; caseb; auto; lia. }
        rewrite C1. unfold count; simpl. rewrite Z.eqb_refl; simpl.
        replace (lo <=? Z.of_nat n) with true by (symmetry; apply Z.leb_le; lia).
        replace (Z.of_nat n <? hi) with true by (symmetry; apply Z.ltb_lt; lia).
        simpl. lia.
    + rewrite IHn by lia. unfold count; simpl. rewrite Z.eqb_refl; simpl.
      replace (Z.of_nat n <? hi) with false by (symmetry; apply Z.ltb_ge; lia).
      rewrite andb_false_r. simpl. lia.
Qed.

Lemma count_zero : forall p l, (forall x, In x l -> p x = false) -> count p l = 0.
Proof.
  intros. unfold count. replace (filter p l) with (@nil (Z * Z)); auto.
  symmetry. induction l; simpl; auto. rewrite H by (simpl; auto). apply IHl; intros; apply H; simpl; auto.
Qed.

Lemma count_cell : forall nv c, cell_ok nv c ->
  count (fun x => covers c (fst x) (snd x)) (all_verts nv) = cnum c.
Proof.
  intros nv c (O1 & O2 & O3 & O4 & _).
  unfold all_verts.
  assert (G : forall n, (n <= length nv)%nat ->
    count (fun x => covers c (fst x) (snd x))
      (flat_map (fun cp => map (fun vt => (Z.of_nat cp, Z.of_nat vt)) (seq 0 (Z.to_nat (nth cp nv 0)))) (seq 0 n))
    = if ccmp c <? Z.of_nat n then cnum c else 0).
  { induction n; intros Hn.
    - simpl. unfold count; simpl. replace (ccmp c <? 0) with false; auto. symmetry; apply Z.ltb_ge; lia.
    - rewrite seq_S, flat_map_app, count_app. rewrite IHn by lia. simpl. rewrite app_nil_r.
      destruct (Z.eq_dec (ccmp c) (Z.of_nat n)) as [e|e].
      + replace (ccmp c <? Z.of_nat n) with false by (symmetry; apply Z.ltb_ge; lia).
        replace (ccmp c <? Z.pos (Pos.of_succ_nat n)) with true by (symmetry; apply Z.ltb_lt; lia).
        rewrite (count_ext _ (fun x => (fst x =? Z.of_nat n) && (cvert c <=? snd x) && (snd x <? cend c))).
        2:{ intros [a b]. unfold covers; simpl. rewrite e, (Z.eqb_sym a). reflexivity. }
        rewrite count_run; unfold cend in *; try lia.
        rewrite e, Nat2Z.id in O4. lia.
      + rewrite (count_zero _ (map _ _)).
        * destruct (ccmp c <? Z.of_nat n) eqn:A, (ccmp c <? Z.pos (Pos.of_succ_nat n)) eqn:B; caseb; lia.
        * intros [a b] Hab. apply in_map_iff in Hab. destruct Hab as (vt & E & _). inversion E; subst.
          apply not_true_iff_false. rewrite covers_true. simpl. lia. }
  rewrite G by lia. replace (ccmp c <? Z.of_nat (length nv)) with true; auto. symmetry; apply Z.ltb_lt; lia.
Qed.

Definition matches (veq : vects -> vects -> bool) (k : kind) (v : vects) (s : option (kind * vects)) : bool :=
  match s with Some (k', v') => kind_eqb k' k && veq v' v | None => false end.

Lemma remove_count : forall veq k v nv l, wf nv l ->
  snd (remove_cst_list veq k v l) =
  count (fun x => matches veq k v (look l (fst x) (snd x))) (all_verts nv).
Proof.
  intros veq k v nv. induction l as [|c l IH]; intros [S C]; simpl.
  - symmetry. apply count_zero. auto.
  - destruct S as [S1 S2]. inversion C as [|? ? C1 C2]; subst.
    specialize (IH (conj S2 C2)). destruct (remove_cst_list veq k v l) as [r n]. simpl in IH.
    assert (D : forall x, covers c (fst x) (snd x) = true -> matches veq k v (look l (fst x) (snd x)) = false).
    { intros x Hx. erewrite look_rest_none; eauto. }
    destruct (kind_eqb (ckind c) k && veq (cvect c) v) eqn:E; simpl.
    + rewrite (count_ext _ (fun x => covers c (fst x) (snd x) || matches veq k v (look l (fst x) (snd x)))).
      2:{ intros x. destruct (covers c (fst x) (snd x)); auto. }
      rewrite count_or by exact D. rewrite count_cell by auto. lia.
    + rewrite IH. apply count_ext. intros x.
      destruct (covers c (fst x) (snd x)) eqn:Cv; auto.
      rewrite (D x Cv). simpl. auto.
Qed.
