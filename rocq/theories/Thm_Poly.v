(** C50: polynomial arithmetic. *)
From Coq Require Import List Bool ZArith Lia Sorted Permutation.
From Verif Require Import Base Sorting Poly PolySpec.
Import ListNotations.
Open Scope Z_scope.

(** ** the order of terms *)
Lemma mono_le_spec : forall a b, mono_le a b = true <-> key_lt a b \/ (same_key a b /\ coeff a <= coeff b).
Proof.
  intros a b. unfold mono_le, monomial_cmp, key_lt, same_key. rewrite Z.leb_le.
  destruct (Z.eqb_spec (lexp a) (lexp b)); cbn [negb]; [destruct (Z.eqb_spec (mexp a) (mexp b)); cbn [negb]|]; lia.
Qed.
Lemma le_total : forall a b, mono_le a b = false -> mono_le b a = true.
Proof.
  intros a b H. apply mono_le_spec. assert (N : ~ mono_le a b = true) by congruence. rewrite mono_le_spec in N.
  unfold key_lt, same_key in *. lia.
Qed.
Lemma le_trans : forall a b c, mono_le a b = true -> mono_le b c = true -> mono_le a c = true.
Proof. intros a b c. rewrite !mono_le_spec. unfold key_lt, same_key. lia. Qed.
Lemma le_antisym : forall a b, mono_le a b = true -> mono_le b a = true -> a = b.
Proof.
  intros [c l m] [c' l' m']. rewrite !mono_le_spec. unfold key_lt, same_key. cbn. intros. f_equal; lia.
Qed.
Lemma cmp_zero : forall a b, monomial_cmp a b = 0 <-> a = b.
Proof.
  intros [c l m] [c' l' m']. unfold monomial_cmp. cbn.
  destruct (Z.eqb_spec l l'); cbn [negb]; [destruct (Z.eqb_spec m m'); cbn [negb]|]; (split; [intro; f_equal; lia|intro E; inversion E; lia]).
Qed.
Lemma sorted_perm_eq : forall A B, Permutation A B -> isort mono_le A = isort mono_le B.
Proof.
  intros A B P. apply (sorted_unique mono_le le_antisym); try apply (isort_sorted mono_le le_total le_trans).
  etransitivity; [apply isort_perm|]. etransitivity; [exact P|]. symmetry. apply isort_perm.
Qed.

(** ** collecting equal terms *)
Lemma coef_app : forall p q l m, coef (p ++ q) l m = coef p l m + coef q l m.
Proof. induction p as [|t p IH]; intros; cbn [app coef fold_right]; [reflexivity|]. fold (coef (p ++ q) l m). fold (coef p l m). rewrite IH. lia. Qed.
Lemma coef_cons : forall t p l m, coef (t :: p) l m = (if (lexp t =? l) && (mexp t =? m) then coeff t else 0) + coef p l m.
Proof. reflexivity. Qed.
Lemma coef_perm : forall p q, Permutation p q -> forall l m, coef p l m = coef q l m.
Proof. intros p q P l m. induction P; rewrite ?coef_cons in *; lia. Qed.
Lemma collect_coef : forall rest cur l m, coef (collect cur rest) l m = coef (cur :: rest) l m.
Proof.
  induction rest as [|x rest IH]; intros cur l m; [reflexivity|]. cbn [collect].
  destruct (Z.eqb_spec (mexp x) (mexp cur)) as [Em|Nm]; [destruct (Z.eqb_spec (lexp x) (lexp cur)) as [El|Nl]|]; cbn [andb].
  - rewrite IH, !coef_cons. cbn [coeff lexp mexp]. rewrite Em, El. destruct (_ && _); lia.
  - rewrite !(coef_cons cur), IH. reflexivity.
  - rewrite !(coef_cons cur), IH. reflexivity.
Qed.
Lemma collect_keys : forall rest cur k, (exists t, In t (collect cur rest) /\ same_key t k) <-> (exists t, In t (cur :: rest) /\ same_key t k).
Proof.
  induction rest as [|x rest IH]; intros cur k; [reflexivity|]. cbn [collect].
  destruct (Z.eqb_spec (mexp x) (mexp cur)) as [Em|Nm]; [destruct (Z.eqb_spec (lexp x) (lexp cur)) as [El|Nl]|]; cbn [andb].
  - rewrite IH. split; intros [t [[<-|Ht] K]].
    + exists cur. split; [simpl; auto|exact K].
    + exists t. split; [simpl; auto|exact K].
    + eexists. split; [left; reflexivity|exact K].
    + destruct Ht as [<-|Ht]; [|exists t; split; [simpl; auto|exact K]].
      eexists. split; [left; reflexivity|]. unfold same_key in *. cbn [lexp mexp]. lia.
  - split; intros [t [[<-|Ht] K]]; try (exists cur; split; [simpl; auto|exact K]).
    + destruct (proj1 (IH x k)) as [t' [Ht' K']]; [exists t; auto|]. exists t'. split; [right; exact Ht'|exact K'].
    + destruct (proj2 (IH x k)) as [t' [Ht' K']]; [exists t; auto|]. exists t'. split; [right; exact Ht'|exact K'].
  - split; intros [t [[<-|Ht] K]]; try (exists cur; split; [simpl; auto|exact K]).
    + destruct (proj1 (IH x k)) as [t' [Ht' K']]; [exists t; auto|]. exists t'. split; [right; exact Ht'|exact K'].
    + destruct (proj2 (IH x k)) as [t' [Ht' K']]; [exists t; auto|]. exists t'. split; [right; exact Ht'|exact K'].
Qed.
Definition key_le (a b : mono) : Prop := key_lt a b \/ same_key a b.
Lemma collect_sorted : forall rest cur, StronglySorted key_le (cur :: rest) -> StronglySorted key_lt (collect cur rest).
Proof.
  induction rest as [|x rest IH]; intros cur S; [repeat constructor|]. cbn [collect].
  inversion S as [|? ? S1 F1]; subst. inversion S1 as [|? ? S2 F2]; subst. inversion F1 as [|? ? Hx F1']; subst.
  destruct (Z.eqb_spec (mexp x) (mexp cur)) as [Em|Nm]; [destruct (Z.eqb_spec (lexp x) (lexp cur)) as [El|Nl]|]; cbn [andb].
  - apply IH. constructor; auto.
  - constructor; auto. apply Forall_forall. intros t Ht.
    destruct (proj1 (collect_keys rest x t)) as [t' [Ht' K]]; [exists t; split; auto; split; auto|].
    assert (L : key_le x t'). { destruct Ht' as [<-|Ht']; [right; split; auto|]. rewrite Forall_forall in F2. auto. }
    unfold key_le, key_lt, same_key in *. lia.
  - constructor; auto. apply Forall_forall. intros t Ht.
    destruct (proj1 (collect_keys rest x t)) as [t' [Ht' K]]; [exists t; split; auto; split; auto|].
    assert (L : key_le x t'). { destruct Ht' as [<-|Ht']; [right; split; auto|]. rewrite Forall_forall in F2. auto. }
    unfold key_le, key_lt, same_key in *. lia.
Qed.
Lemma ss_weaken : forall {A} (R R' : A -> A -> Prop) l, (forall x y, R x y -> R' x y) -> StronglySorted R l -> StronglySorted R' l.
Proof. intros A R R' l H S. induction S as [|x l S IH F]; constructor; auto. eapply Forall_impl; [|exact F]. auto. Qed.
Lemma strict_coef : forall P, StronglySorted key_lt P -> forall t, In t P -> coef P (lexp t) (mexp t) = coeff t.
Proof.
  intros P S. induction S as [|x P S IH F]; intros t Ht; [destruct Ht|]. rewrite coef_cons. rewrite Forall_forall in F.
  destruct Ht as [<-|Ht].
  - rewrite !Z.eqb_refl. cbn [andb].
    assert (Z0 : coef P (lexp x) (mexp x) = 0).
    { clear IH S. induction P as [|y P IHP]; [reflexivity|]. rewrite coef_cons, IHP by (intros z Hz; apply F; simpl; auto).
      assert (K : key_lt x y) by (apply F; simpl; auto). unfold key_lt in K.
      destruct (Z.eqb_spec (lexp y) (lexp x)), (Z.eqb_spec (mexp y) (mexp x)); cbn [andb]; lia. }
    lia.
  - rewrite IH by auto. pose proof (F t Ht) as K. unfold key_lt in K.
    destruct (Z.eqb_spec (lexp x) (lexp t)), (Z.eqb_spec (mexp x) (mexp t)); cbn [andb]; lia.
Qed.
Lemma strict_unique : forall P Q, StronglySorted key_lt P -> StronglySorted key_lt Q ->
  (forall k, (exists t, In t P /\ same_key t k) <-> (exists t, In t Q /\ same_key t k)) ->
  (forall l m, coef P l m = coef Q l m) -> P = Q.
Proof.
  intros P Q SP SQ K C.
  assert (sub : forall P Q, StronglySorted key_lt P -> StronglySorted key_lt Q ->
    (forall k, (exists t, In t P /\ same_key t k) <-> (exists t, In t Q /\ same_key t k)) ->
    (forall l m, coef P l m = coef Q l m) -> forall t, In t P -> In t Q).
  { clear. intros P Q SP SQ K C t Ht. destruct (proj1 (K t)) as [t' [Ht' [E1 E2]]]; [exists t; split; auto; split; auto|].
    assert (t' = t); [|subst; auto]. destruct t as [c l m], t' as [c' l' m']. cbn in E1, E2. subst. f_equal.
    pose proof (strict_coef P SP _ Ht) as A. pose proof (strict_coef Q SQ _ Ht') as B. cbn in A, B. rewrite C in A. lia. }
  assert (nd : forall P, StronglySorted key_lt P -> NoDup P).
  { clear. intros P S. induction S as [|x P S IH F]; constructor; auto. intro H. rewrite Forall_forall in F. apply F in H.
    unfold key_lt in H. lia. }
  assert (W : forall x y, key_lt x y -> lep mono_le x y) by (intros x y H; apply mono_le_spec; auto).
  apply (sorted_unique mono_le le_antisym); try (eapply ss_weaken; [exact W|assumption]).
  apply NoDup_Permutation; auto. intro t. split; [apply sub; auto|apply sub; auto].
  intro k. symmetry. apply K.
Qed.

(** ** products *)
Lemma raw_coef_r : forall A B l m, coef (raw_product A B) l m = convolve A (coef B) l m.
Proof.
  intros A B l m. unfold raw_product. induction A as [|a A IH]; [reflexivity|]. cbn [flat_map convolve fold_right].
  rewrite coef_app, IH. f_equal. clear IH. induction B as [|b B IH]; [cbn; lia|]. cbn [map]. rewrite !coef_cons, IH. cbn [mono_mul coeff lexp mexp].
  rewrite Z.mul_add_distr_l. f_equal.
  destruct (Z.eqb_spec (lexp a + lexp b) l), (Z.eqb_spec (lexp b) (l - lexp a)), (Z.eqb_spec (mexp a + mexp b) m), (Z.eqb_spec (mexp b) (m - mexp a)); cbn [andb]; lia.
Qed.
Lemma raw_perm_comm : forall A B, Permutation (raw_product A B) (raw_product B A).
Proof.
  intros A B. unfold raw_product. induction A as [|a A IH]; cbn [flat_map].
  - induction B; cbn; auto.
  - etransitivity; [apply Permutation_app_head, IH|]. clear IH. induction B as [|b B IH]; cbn [map flat_map app]; auto.
    assert (E : mono_mul a b = mono_mul b a) by (unfold mono_mul; f_equal; lia). rewrite <- E. apply perm_skip.
    etransitivity; [|apply Permutation_app_head; exact IH].
    rewrite !app_assoc. apply Permutation_app_tail, Permutation_app_comm.
Qed.
Lemma raw_assoc : forall A B C, raw_product (raw_product A B) C = raw_product A (raw_product B C).
Proof.
  intros A B C. unfold raw_product. induction A as [|a A IH]; [reflexivity|]. cbn [flat_map]. rewrite flat_map_app, IH. f_equal. clear IH.
  induction B as [|b B IH]; [reflexivity|]. cbn [map flat_map]. rewrite map_app, IH. f_equal. rewrite map_map. apply map_ext. intro c.
  unfold mono_mul. cbn [coeff lexp mexp]. f_equal; lia.
Qed.
Lemma raw_in : forall A B t, In t (raw_product A B) <-> exists a b, In a A /\ In b B /\ t = mono_mul a b.
Proof.
  intros A B t. unfold raw_product. rewrite in_flat_map. split.
  - intros [a [Ha H]]. apply in_map_iff in H. destruct H as [b [<- Hb]]. eauto.
  - intros (a & b & Ha & Hb & ->). exists a. split; auto. apply in_map. auto.
Qed.
Lemma product_is : forall A B, A <> [] -> B <> [] -> exists P, product A B = Ok P /\ StronglySorted key_lt P /\
  (forall l m, coef P l m = coef (raw_product A B) l m) /\
  (forall k, (exists t, In t P /\ same_key t k) <-> (exists t, In t (raw_product A B) /\ same_key t k)).
Proof.
  intros A B NA NB. unfold product. pose proof (isort_perm mono_le (raw_product A B)) as P.
  pose proof (isort_sorted mono_le le_total le_trans (raw_product A B)) as S.
  destruct (isort mono_le (raw_product A B)) as [|x rest].
  - exfalso. apply Permutation_nil in P. destruct A as [|a A]; [congruence|]. destruct B; [congruence|]. discriminate.
  - exists (collect x rest). split; auto. split; [|split].
    + apply collect_sorted. eapply ss_weaken; [|exact S]. intros u v H. apply mono_le_spec in H. unfold key_le. tauto.
    + intros l m. rewrite collect_coef. apply coef_perm, P.
    + intro k. rewrite collect_keys. split; intros [t [Ht K]]; exists t; split; auto;
        [eapply Permutation_in; [exact P|auto]|eapply Permutation_in; [symmetry; exact P|auto]].
Qed.

(** The product has the coefficients of the product of the two Laurent polynomials, one term for each pair
    of exponents that occurs as a sum, in increasing order of exponents. *)
Theorem product_multiplies : forall A B, A <> [] -> B <> [] -> exists P, product A B = Ok P /\
  (forall l m, coef P l m = convolve A (coef B) l m) /\ StronglySorted key_lt P /\
  (forall l m, (exists t, In t P /\ lexp t = l /\ mexp t = m) <->
     (exists a b, In a A /\ In b B /\ lexp a + lexp b = l /\ mexp a + mexp b = m)).
Proof.
  intros A B NA NB. destruct (product_is A B NA NB) as (P & E & S & C & K). exists P. split; auto. split; [|split; auto].
  - intros l m. rewrite C. apply raw_coef_r.
  - intros l m. specialize (K (mkM 0 l m)). unfold same_key in K. cbn [lexp mexp] in K. rewrite K. split.
    + intros (t & Ht & E1 & E2). apply raw_in in Ht. destruct Ht as (a & b & Ha & Hb & ->). exists a, b. auto.
    + intros (a & b & Ha & Hb & E1 & E2). exists (mono_mul a b). split; [apply raw_in; eauto|]. auto.
Qed.
Print Assumptions product_multiplies.

(** the coefficients of the product depend only on those of the factors *)
Lemma convolve_ext : forall p g h l m, (forall l m, g l m = h l m) -> convolve p g l m = convolve p h l m.
Proof. intros p g h l m H. induction p as [|t p IH]; [reflexivity|]. cbn [convolve fold_right]. fold (convolve p g l m). fold (convolve p h l m). rewrite IH, H. reflexivity. Qed.
Lemma raw_coef_ext : forall A A' B B', (forall l m, coef A l m = coef A' l m) -> (forall l m, coef B l m = coef B' l m) ->
  forall l m, coef (raw_product A B) l m = coef (raw_product A' B') l m.
Proof.
  intros A A' B B' HA HB l m. rewrite raw_coef_r, (convolve_ext _ _ (coef B')) by auto. rewrite <- raw_coef_r.
  rewrite (coef_perm _ _ (raw_perm_comm A B')), (coef_perm _ _ (raw_perm_comm A' B')).
  rewrite !raw_coef_r. apply convolve_ext. auto.
Qed.
Theorem product_extensional : forall A A' B B' P P',
  (forall l m, coef A l m = coef A' l m) -> (forall l m, coef B l m = coef B' l m) ->
  product A B = Ok P -> product A' B' = Ok P' -> forall l m, coef P l m = coef P' l m.
Proof.
  intros A A' B B' P P' HA HB EP EP' l m.
  assert (X : forall A B P, product A B = Ok P -> A <> [] /\ B <> []).
  { clear. intros A B P E. split; intros ->; [discriminate|]. unfold product in E.
    replace (raw_product A []) with (@nil mono) in E; [discriminate|]. induction A; auto. }
  destruct (X _ _ _ EP) as [N1 N2]. destruct (X _ _ _ EP') as [N3 N4].
  destruct (product_is A B N1 N2) as (Q & E & _ & C & _). rewrite EP in E. inversion E; subst Q.
  destruct (product_is A' B' N3 N4) as (Q' & E' & _ & C' & _). rewrite EP' in E'. inversion E'; subst Q'.
  rewrite C, C'. apply raw_coef_ext; auto.
Qed.
Print Assumptions product_extensional.

(** multiplication is commutative and associative, as stored terms *)
Theorem product_comm : forall A B, product A B = product B A.
Proof. intros A B. unfold product. rewrite (sorted_perm_eq _ _ (raw_perm_comm A B)). reflexivity. Qed.
Print Assumptions product_comm.
Lemma keys_raw : forall A A' B B', (forall k, (exists t, In t A /\ same_key t k) <-> (exists t, In t A' /\ same_key t k)) ->
  (forall k, (exists t, In t B /\ same_key t k) <-> (exists t, In t B' /\ same_key t k)) ->
  forall k, (exists t, In t (raw_product A B) /\ same_key t k) -> (exists t, In t (raw_product A' B') /\ same_key t k).
Proof.
  intros A A' B B' HA HB k (t & Ht & K). apply raw_in in Ht. destruct Ht as (a & b & Ha & Hb & ->).
  destruct (proj1 (HA a)) as (a' & Ha' & [A1 A2]); [exists a; split; auto; split; auto|].
  destruct (proj1 (HB b)) as (b' & Hb' & [B1 B2]); [exists b; split; auto; split; auto|].
  exists (mono_mul a' b'). split; [apply raw_in; eauto|]. unfold same_key in *. cbn [mono_mul lexp mexp] in *. lia.
Qed.
Theorem product_assoc : forall A B C, A <> [] -> B <> [] -> C <> [] -> exists AB BC P,
  product A B = Ok AB /\ product B C = Ok BC /\ product AB C = Ok P /\ product A BC = Ok P.
Proof.
  intros A B C NA NB NC.
  destruct (product_is A B NA NB) as (AB & E1 & S1 & C1 & K1). destruct (product_is B C NB NC) as (BC & E2 & S2 & C2 & K2).
  assert (ne : forall A B P, A <> [] -> B <> [] ->
    (forall k, (exists t, In t P /\ same_key t k) <-> (exists t, In t (raw_product A B) /\ same_key t k)) -> P <> []).
  { clear. intros A B P NA NB K ->. destruct A as [|a A]; [congruence|]. destruct B as [|b B]; [congruence|].
    destruct (proj2 (K (mono_mul a b))) as [t [[] _]]. exists (mono_mul a b). split; [apply raw_in; exists a, b; simpl; auto|split; auto]. }
  assert (NAB : AB <> []) by (eapply (ne A B); eauto). assert (NBC : BC <> []) by (eapply (ne B C); eauto).
  destruct (product_is AB C NAB NC) as (P & E3 & S3 & C3 & K3). destruct (product_is A BC NA NBC) as (Q & E4 & S4 & C4 & K4).
  exists AB, BC, P. split; auto. split; auto. split; auto. rewrite E4. f_equal. symmetry.
  apply strict_unique; auto.
  - intro k. rewrite K3, K4.
    assert (R : (exists t, In t (raw_product AB C) /\ same_key t k) <-> (exists t, In t (raw_product (raw_product A B) C) /\ same_key t k)).
    { split; apply keys_raw; auto; try reflexivity. intro k'. symmetry. apply K1. }
    assert (R2 : (exists t, In t (raw_product A BC) /\ same_key t k) <-> (exists t, In t (raw_product A (raw_product B C)) /\ same_key t k)).
    { split; apply keys_raw; auto; try reflexivity. intro k'. symmetry. apply K2. }
    rewrite R, R2, raw_assoc. reflexivity.
  - intros l m. rewrite C3, C4. rewrite (raw_coef_ext AB (raw_product A B) C C) by auto.
    rewrite (raw_coef_ext A A BC (raw_product B C)) by auto. rewrite raw_assoc. reflexivity.
Qed.
Print Assumptions product_assoc.
(** 1 is neutral *)
Theorem product_one : forall A, A <> [] -> StronglySorted key_lt A -> product A [mkM 1 0 0] = Ok A.
Proof.
  intros A NA S. destruct (product_is A [mkM 1 0 0] NA ltac:(discriminate)) as (P & E & SP & C & K).
  assert (R : raw_product A [mkM 1 0 0] = A).
  { clear. unfold raw_product. induction A as [|a A IH]; [reflexivity|]. cbn [flat_map]. rewrite IH. cbn [map app]. f_equal.
    destruct a as [c l m]. unfold mono_mul. cbn [coeff lexp mexp]. f_equal; lia. }
  rewrite R in *. rewrite E. f_equal. apply strict_unique; auto.
Qed.
Print Assumptions product_one.

(** polynomials_eq holds exactly for lists with the same terms *)
Theorem eq_same_terms : forall A B, polynomials_eq A B = true <-> Permutation A B.
Proof.
  intros A B. unfold polynomials_eq. destruct (Nat.eqb_spec (length A) (length B)) as [L|L]; cbn [negb].
  - assert (Z : forall A B, length A = length B -> (all_zero A B = true <-> A = B)).
    { clear. induction A as [|a A IH]; intros [|b B] L; cbn in L; try discriminate; [tauto|]. cbn [all_zero].
      rewrite andb_true_iff, Z.eqb_eq, cmp_zero, IH by auto. split; [intros [-> ->]; auto|intro E; inversion E; auto]. }
    rewrite Z by (rewrite !isort_length; auto). split.
    + intro E. rewrite <- (isort_perm mono_le A), <- (isort_perm mono_le B), E. reflexivity.
    + apply sorted_perm_eq.
  - split; [discriminate|]. intro P. apply Permutation_length in P. congruence.
Qed.
Print Assumptions eq_same_terms.
(** so for polynomials in normal form, with one non-zero term for each pair of exponents, it decides whether
    all coefficients agree *)
Theorem eq_decides : forall A B,
  ForallOrdPairs (fun a b => ~ same_key a b) A -> ForallOrdPairs (fun a b => ~ same_key a b) B ->
  (forall t, In t A -> coeff t <> 0) -> (forall t, In t B -> coeff t <> 0) ->
  (polynomials_eq A B = true <-> forall l m, coef A l m = coef B l m).
Proof.
  assert (Uq : forall P, ForallOrdPairs (fun a b => ~ same_key a b) P -> forall t, In t P -> coef P (lexp t) (mexp t) = coeff t).
  { intros P S. induction S as [|x P F S IH]; intros t Ht; [destruct Ht|]. rewrite coef_cons. rewrite Forall_forall in F.
    destruct Ht as [<-|Ht].
    - rewrite !Z.eqb_refl. cbn [andb].
      assert (Z0 : coef P (lexp x) (mexp x) = 0).
      { clear IH S. induction P as [|y P IHP]; [reflexivity|]. rewrite coef_cons, IHP by (intros z Hz; apply F; simpl; auto).
        assert (K : ~ same_key x y) by (apply F; simpl; auto). unfold same_key in K.
        destruct (Z.eqb_spec (lexp y) (lexp x)), (Z.eqb_spec (mexp y) (mexp x)); cbn [andb]; lia. }
      lia.
    - rewrite IH by auto. pose proof (F t Ht) as K. unfold same_key in K.
      destruct (Z.eqb_spec (lexp x) (lexp t)), (Z.eqb_spec (mexp x) (mexp t)); cbn [andb]; lia. }
  assert (Z0 : forall P l m, coef P l m <> 0 -> exists t, In t P /\ lexp t = l /\ mexp t = m).
  { intros P l m. induction P as [|x P IH]; [cbn; congruence|]. rewrite coef_cons.
    destruct (Z.eqb_spec (lexp x) l), (Z.eqb_spec (mexp x) m); cbn [andb]; intro H.
    - exists x. simpl. auto.
    - destruct IH as (t & Ht & E); [lia|]. exists t. simpl. auto.
    - destruct IH as (t & Ht & E); [lia|]. exists t. simpl. auto.
    - destruct IH as (t & Ht & E); [lia|]. exists t. simpl. auto. }
  assert (sub : forall A B, ForallOrdPairs (fun a b => ~ same_key a b) A -> ForallOrdPairs (fun a b => ~ same_key a b) B ->
    (forall t, In t A -> coeff t <> 0) -> (forall l m, coef A l m = coef B l m) -> forall t, In t A -> In t B).
  { intros A B UA UB NA C t Ht. pose proof (Uq A UA t Ht) as E. pose proof (NA t Ht) as N.
    destruct (Z0 B (lexp t) (mexp t)) as (t' & Ht' & E1 & E2); [rewrite <- C; congruence|].
    pose proof (Uq B UB t' Ht') as E'. rewrite E1, E2, <- C, E in E'.
    assert (t = t'); [|subst; auto]. destruct t as [c l m], t' as [c1 l1 m1]. cbn in *. congruence. }
  assert (nd : forall P, ForallOrdPairs (fun a b => ~ same_key a b) P -> NoDup P).
  { intros P S. induction S as [|x P F S IH]; constructor; auto. intro H. rewrite Forall_forall in F. apply (F x H). split; auto. }
  intros A B UA UB NA NB. rewrite eq_same_terms. split; [intros P l m; apply coef_perm; auto|].
  intro C. apply NoDup_Permutation; auto. intro t. split; eapply sub; eauto.
Qed.
Print Assumptions eq_decides.

(** Terms that cancel stay, with coefficient 0: (1 + a)(1 - a) is not equal, for polynomials_eq, to 1 - a^2
    (although its coefficients are right). *)
Theorem cancelled_terms_refuted : exists A B C P, product A B = Ok P /\ (forall l m, coef P l m = coef C l m) /\
  In (mkM 0 1 0) P /\ polynomials_eq P C = false.
Proof.
  exists [mkM 1 0 0; mkM 1 1 0], [mkM 1 0 0; mkM (-1) 1 0], [mkM 1 0 0; mkM (-1) 2 0].
  exists [mkM 1 0 0; mkM 0 1 0; mkM (-1) 2 0]. split; [reflexivity|]. split; [|split; [simpl; auto|reflexivity]].
  intros l m. cbn [coef fold_right lexp mexp coeff]. repeat destruct (_ && _); reflexivity.
Qed.
Print Assumptions cancelled_terms_refuted.
(** With positive coefficients nothing cancels. *)
Theorem positive_product : forall A B P, (forall t, In t A -> 0 < coeff t) -> (forall t, In t B -> 0 < coeff t) ->
  product A B = Ok P -> forall t, In t P -> 0 < coeff t.
Proof.
  intros A B P HA HB E.
  assert (HR : forall t, In t (isort mono_le (raw_product A B)) -> 0 < coeff t).
  { intros t Ht. apply (Permutation_in _ (isort_perm mono_le (raw_product A B))) in Ht. apply raw_in in Ht.
    destruct Ht as (a & b & Ha & Hb & ->). cbn [mono_mul coeff]. apply Z.mul_pos_pos; auto. }
  unfold product in E. destruct (isort mono_le (raw_product A B)) as [|x rest]; [discriminate|]. inversion E; subst. clear E.
  revert x HR. induction rest as [|y rest IH]; intros x HR t Ht; cbn [collect] in Ht.
  - destruct Ht as [<-|[]]. apply HR. simpl. auto.
  - destruct ((mexp y =? mexp x) && (lexp y =? lexp x)).
    + eapply IH; [|exact Ht]. intros z [<-|Hz]; [|apply HR; simpl; auto]. cbn [coeff].
      pose proof (HR x (or_introl eq_refl)). pose proof (HR y (or_intror (or_introl eq_refl))). lia.
    + destruct Ht as [<-|Ht]; [apply HR; simpl; auto|]. eapply IH; [|exact Ht]. intros z Hz. apply HR. right. exact Hz.
Qed.
Print Assumptions positive_product.
(** The zero polynomial, without terms, cannot be multiplied. *)
Theorem zero_product_refuted : forall A, product [] A = UB /\ product A [] = UB.
Proof. intro A. rewrite (product_comm A []). split; reflexivity. Qed.
Print Assumptions zero_product_refuted.

Example product_example :
  product [mkM 1 0 1; mkM 2 (-1) 0] [mkM 1 1 0; mkM 3 0 (-1)] =
  Ok [mkM 6 (-1) (-1); mkM 5 0 0; mkM 1 1 1].
Proof. reflexivity. Qed.
