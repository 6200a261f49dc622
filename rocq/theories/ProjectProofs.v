(** From lists of crossings to diagrams: proofs. *)
From Coq Require Import List NArith ZArith QArith Qabs Lia Lqa Bool Arith Permutation Sorted.
From Verif Require Import Base ListAux Iterators Sorting Pd PdSpec PdProofs Relabel Strands OverUnderSpec Nearest Thm_Nearest Project ProjectSpec.
Import ListNotations.
Open Scope nat_scope.
Open Scope res_scope.

(** ** numbered lists *)
Lemma numbered_in : forall {A} (l : list A) i k x, In (k, x) (numbered i l) <-> i <= k /\ nth_error l (k - i) = Some x.
Proof.
  intros A. induction l as [|a l IH]; intros i k x; cbn [numbered In].
  - split; [intros []|]. intros (_ & H). destruct (k - i); discriminate H.
  - rewrite IH. split.
    + intros [E|(Hk & E)]; [apply pair_equal_spec in E as (-> & ->); rewrite Nat.sub_diag; auto|]. split; [lia|]. replace (k - i) with (S (k - (i + 1))) by lia. exact E.
    + intros (Hk & E). destruct (Nat.eq_dec i k) as [->|N]; [left; rewrite Nat.sub_diag in E; injection E as ->; auto|]. right. split; [lia|]. replace (k - i) with (S (k - (i + 1))) in E by lia. exact E.
Qed.
Definition lower_of (ix : nat * xrec) : xstrand := mkXs (fst ix) (lower_cmp (snd ix)) (lower_s (snd ix)) false.
Definition upper_of (ix : nat * xrec) : xstrand := mkXs (fst ix) (upper_cmp (snd ix)) (upper_s (snd ix)) true.
Lemma in_strands : forall cs v, In v (strands_of cs) <-> passage cs v.
Proof.
  intros cs v. unfold strands_of. rewrite in_flat_map. split.
  - intros ((i, x) & Hi & H). apply numbered_in in Hi as (_ & Hi). rewrite Nat.sub_0_r in Hi. exists x. destruct H as [<-|[<-|[]]]; cbn; auto.
  - intros (x & Hx & H). exists (xs_num v, x). split; [apply numbered_in; rewrite Nat.sub_0_r; split; [lia|auto]|]. destruct v as [i c s [|]]; cbn in *; destruct H as (-> & ->); auto.
Qed.
Definition vkey (v : xstrand) : nat * bool := (xs_num v, xs_upper v).
Lemma strands_keys : forall cs i, NoDup (map vkey (flat_map (fun ix => [lower_of ix; upper_of ix]) (numbered i cs))) /\
  forall v, In v (flat_map (fun ix => [lower_of ix; upper_of ix]) (numbered i cs)) -> i <= xs_num v.
Proof.
  induction cs as [|x cs IH]; intros i; cbn [numbered flat_map app map]; [split; [constructor|intros v []]|]. destruct (IH (i + 1)) as (N & B). split.
  - assert (NI : forall b, ~ In (i, b) (map vkey (flat_map (fun ix => [lower_of ix; upper_of ix]) (numbered (i + 1) cs)))).
    { intros b H. apply in_map_iff in H as (v & E & H). apply B in H. unfold vkey in E. apply pair_equal_spec in E as (E & _). lia. }
    constructor; [|constructor; [apply NI|auto]]. intros [E|H]; [discriminate E|exact (NI _ H)].
  - intros v [<-|[<-|H]]; cbn; auto. apply B in H. lia.
Qed.
Lemma strands_nodup_key : forall cs, NoDup (map vkey (strands_of cs)).
Proof. intros cs. exact (proj1 (strands_keys cs 0)). Qed.
Lemma nodup_map_inv : forall {A B} (f : A -> B) l, NoDup (map f l) -> NoDup l /\ forall x y, In x l -> In y l -> f x = f y -> x = y.
Proof.
  intros A B f l. induction l as [|a l IH]; intros N; cbn [map] in N; [split; [constructor|intros x y []]|]. inversion N as [|? ? N1 N2]; subst. destruct (IH N2) as (I1 & I2). split.
  - constructor; auto. intros H. apply N1. apply in_map. auto.
  - intros x y [<-|Hx] [<-|Hy] E; auto; exfalso; apply N1; [rewrite E|rewrite <- E]; apply in_map; auto.
Qed.
Lemma strands_nodup : forall cs, NoDup (strands_of cs).
Proof. intros cs. exact (proj1 (nodup_map_inv vkey _ (strands_nodup_key cs))). Qed.
Lemma strands_key : forall cs v w, passage cs v -> passage cs w -> vkey v = vkey w -> v = w.
Proof. intros cs v w Hv Hw. apply (proj2 (nodup_map_inv vkey _ (strands_nodup_key cs))); apply in_strands; auto. Qed.
Lemma strands_length : forall cs, length (strands_of cs) = 2 * length cs.
Proof. intros cs. unfold strands_of.  assert (K : forall i, length (flat_map (fun ix => [lower_of ix; upper_of ix]) (numbered i cs)) = 2 * length cs) by (induction cs as [|x cs IH]; intros i; cbn [numbered flat_map app length]; auto; rewrite IH; lia). exact (K 0). Qed.

(** ** sorting the passages *)
Definition before (a b : xstrand) : Prop := xs_cmp b < xs_cmp a \/ xs_cmp a = xs_cmp b /\ (xs_s a < xs_s b)%Q.
Definition not_after (a b : xstrand) : Prop := xs_cmp b < xs_cmp a \/ xs_cmp a = xs_cmp b /\ (xs_s a <= xs_s b)%Q.
Lemma tenth_pos : forall k, (0 < tenth k)%Q.
Proof. intros k. reflexivity. Qed.
Lemma strand_consistent : forall cs, apart_or_tied cs -> consistent strand_compare not_after (strands_of cs).
Proof.
  intros cs AP. split.
  - intros x y z _ _ _ [H|(H1 & H2)] [K|(K1 & K2)]; unfold not_after; [left; lia|left; lia|left; lia|]. right. split; [congruence|lra].
  - intros x y Hx Hy. apply in_strands in Hx, Hy. unfold strand_compare, not_after. destruct (Nat.eqb_spec (xs_cmp x) (xs_cmp y)) as [E|E]; cbn [negb].
    + destruct (Qltb (Qabs (xs_s x - xs_s y)) (tenth 8)) eqn:Q.
      * apply Qltb_lt in Q. destruct (AP x y Hx Hy E) as [K|K]; [lra|]. split; intros _; right; split; auto; rewrite K; lra.
      * destruct (Qltb (xs_s x) (xs_s y)) eqn:Q'; [apply Qltb_lt in Q'|apply Qltb_ge in Q']; split; intros H; try lia; right; split; auto; lra.
    + split; intros H; left; lia.
Qed.
Lemma apart_weaken : forall cs, apart cs -> apart_or_tied cs.
Proof.
  intros cs AP v w Hv Hw E. destruct (Bool.bool_dec (xs_upper v) (xs_upper w)) as [U|U]; [destruct (Nat.eq_dec (xs_num v) (xs_num w)) as [I|I]|].
  - right. assert (v = w) by (apply (strands_key cs); auto; unfold vkey; congruence). subst w. reflexivity.
  - left. apply AP; auto. congruence.
  - left. apply AP; auto. congruence.
Qed.
Section Sorted.
Context (cs : list xrec) (srt : sorter) (SR : sorts_all srt) (AP : apart cs).
Let S := srt xstrand strand_compare (strands_of cs).
Lemma S_perm : Permutation S (strands_of cs).
Proof. apply (SR _ _ _ _ (strand_consistent cs (apart_weaken _ AP))). Qed.
Lemma S_in : forall v, In v S <-> passage cs v.
Proof. intros v. rewrite <- in_strands. split; apply Permutation_in; [|symmetry]; apply S_perm. Qed.
Lemma S_nodup : NoDup S.
Proof. eapply Permutation_NoDup; [symmetry; apply S_perm|apply strands_nodup]. Qed.
Lemma apart_before : forall v w, passage cs v -> passage cs w -> v <> w -> not_after v w -> before v w.
Proof.
  intros v w Hv Hw N [H|(H1 & H2)]; [left; auto|]. right. split; auto. pose proof (AP v w Hv Hw H1 N) as K. pose proof (tenth_pos 8). destruct (Qlt_le_dec (xs_s v) (xs_s w)) as [L|L]; auto. exfalso.
  assert (E : (xs_s v - xs_s w == 0)%Q) by lra. rewrite E in K. cbn in K. lra.
Qed.
Lemma strong_strict : forall (l : list xstrand), (forall v, In v l -> passage cs v) -> NoDup l -> StronglySorted not_after l -> StronglySorted before l.
Proof.
  intros l P N H. induction H as [|x l H IH F]; constructor.
  - inversion N; subst. apply IH; auto. intros v Hv. apply P. right; auto.
  - inversion N as [|? ? N1 N2]; subst. rewrite Forall_forall in *. intros y Hy. apply apart_before; auto; [apply P; left; auto|apply P; right; auto|]. intros ->. contradiction.
Qed.
Lemma S_sorted : StronglySorted before S.
Proof. apply strong_strict; [apply S_in|apply S_nodup|]. apply (SR _ _ _ _ (strand_consistent cs (apart_weaken _ AP))). Qed.
Lemma compare_before : forall u v w, passage cs v -> passage cs w -> xs_cmp u = xs_cmp v -> xs_s u = xs_s v -> before v w -> (strand_compare u w < 0)%Z.
Proof.
  intros u v w Hv Hw E1 E2 B. unfold strand_compare. rewrite E1, E2. destruct B as [B|(B1 & B2)].
  - destruct (Nat.eqb_spec (xs_cmp v) (xs_cmp w)) as [E|E]; cbn [negb]; lia.
  - rewrite B1, Nat.eqb_refl. cbn [negb]. assert (N : v <> w) by (intros ->; lra). pose proof (AP v w Hv Hw B1 N) as K. apply Qltb_ge in K. rewrite K. apply Qltb_lt in B2. rewrite B2. lia.
Qed.
Lemma compare_after : forall u v w, passage cs v -> passage cs w -> xs_cmp u = xs_cmp v -> xs_s u = xs_s v -> before w v -> (0 < strand_compare u w)%Z.
Proof.
  intros u v w Hv Hw E1 E2 B. unfold strand_compare. rewrite E1, E2. destruct B as [B|(B1 & B2)].
  - destruct (Nat.eqb_spec (xs_cmp v) (xs_cmp w)) as [E|E]; cbn [negb]; lia.
  - rewrite B1, Nat.eqb_refl. cbn [negb]. assert (N : v <> w) by (intros ->; lra). pose proof (AP v w Hv Hw (eq_sym B1) N) as K. apply Qltb_ge in K. rewrite K.
    assert (Q : Qltb (xs_s v) (xs_s w) = false) by (apply Qltb_ge; lra). rewrite Q. lia.
Qed.
Lemma compare_same : forall u v, xs_cmp u = xs_cmp v -> xs_s u = xs_s v -> strand_compare u v = 0%Z.
Proof. intros u v E1 E2. unfold strand_compare. rewrite E1, E2, Nat.eqb_refl. cbn [negb]. assert (Q : Qltb (Qabs (xs_s v - xs_s v)) (tenth 8) = true); [|rewrite Q; auto]. apply Qltb_lt. assert (Z : (xs_s v - xs_s v == 0)%Q) by lra. rewrite Z. reflexivity. Qed.
Lemma no_double : double_crossing S = false.
Proof.
  assert (K : forall l, (forall v, In v l -> passage cs v) -> StronglySorted before l -> double_crossing l = false).
  { induction l as [|a l IH]; intros P H; auto. destruct l as [|b l]; auto. cbn [double_crossing]. inversion H as [|? ? H1 H2]; subst. apply orb_false_iff. split.
    - apply Z.eqb_neq. assert (B : before a b) by (rewrite Forall_forall in H2; apply H2; left; auto). pose proof (compare_after b b a (P b ltac:(right; left; auto)) (P a ltac:(left; auto)) eq_refl eq_refl B). lia.
    - apply IH; auto. intros v Hv. apply P. right; auto. }
  apply K; [apply S_in|apply S_sorted].
Qed.
Lemma bsearch_finds : forall {A} (cmp : A -> Z) l k y, nth_error l k = Some y -> cmp y = 0%Z ->
  (forall j x, j < k -> nth_error l j = Some x -> (0 < cmp x)%Z) -> (forall j x, k < j -> nth_error l j = Some x -> (cmp x < 0)%Z) ->
  forall fuel lo hi, lo <= k < hi -> hi <= length l -> hi - lo < fuel -> bsearch fuel cmp l lo hi = Ok (Some y).
Proof.
  intros A cmp l k y Hk Z0 B1 B2. induction fuel as [|f IH]; intros lo hi H1 H2 H3; [lia|]. cbn [bsearch]. destruct (Nat.ltb_spec lo hi) as [L|L]; [|lia].
  assert (M : lo <= (lo + hi) / 2 < hi) by (split; [apply Nat.div_le_lower_bound|apply Nat.div_lt_upper_bound]; lia). set (mid := (lo + hi) / 2) in *.
  destruct (nth_error l mid) as [x|] eqn:Hx; [|apply nth_error_None in Hx; lia]. rewrite (proj2 (get_ok _ _ _ _) Hx). cbn [bind]. destruct (Nat.lt_trichotomy mid k) as [C|[C|C]].
  - pose proof (B1 _ _ C Hx) as P. rewrite (proj2 (Z.ltb_ge _ _)) by lia. rewrite (proj2 (Z.ltb_lt _ _)) by lia. apply IH; lia.
  - rewrite C in Hx. assert (x = y) by congruence. subst x. rewrite Z0. cbn. reflexivity.
  - pose proof (B2 _ _ C Hx) as P. rewrite (proj2 (Z.ltb_lt _ _)) by lia. apply IH; lia.
Qed.
Lemma sorted_nth : forall {A} (P : A -> A -> Prop) l, StronglySorted P l -> forall i j x y, i < j -> nth_error l i = Some x -> nth_error l j = Some y -> P x y.
Proof.
  intros A P l H. induction H as [|a l H IH F]; intros i j x y L Hx Hy; [destruct i; discriminate Hx|]. destruct j as [|j]; [lia|]. destruct i as [|i].
  - cbn in Hx, Hy. injection Hx as <-. rewrite Forall_forall in F. apply F. eapply nth_error_In; eauto.
  - cbn in Hx, Hy. apply (IH i j); auto. lia.
Qed.
Lemma found : forall v, passage cs v -> find_strand S (xs_cmp v) (xs_s v) = Ok v.
Proof.
  intros v Hv. unfold find_strand. assert (IV := proj2 (S_in v) Hv). apply In_nth_error in IV as (k & Hk). assert (Lk : k < length S) by (apply nth_error_Some; congruence).
  rewrite (bsearch_finds _ S k v Hk); auto; try lia.
  - apply compare_same; auto.
  - intros j x Hj Hx. apply (compare_after _ v); auto; [apply S_in; eapply nth_error_In; eauto|]. eapply sorted_nth; [apply S_sorted|exact Hj|auto|auto].
  - intros j x Hj Hx. apply (compare_before _ v); auto; [apply S_in; eapply nth_error_In; eauto|]. eapply sorted_nth; [apply S_sorted|exact Hj|auto|auto].
Qed.

(** ** the references of a component *)
Definition ref (v : xstrand) : nat * Q := (xs_num v, xs_s v).
Definition on (c : nat) (v : xstrand) : bool := xs_cmp v =? c.
Lemma refs_strands : forall c, refs_of cs c = map ref (filter (on c) (strands_of cs)).
Proof.
  intros c. assert (K : forall l i, flat_map (fun ix => (if lower_cmp (snd ix) =? c then [(fst ix, lower_s (snd ix))] else []) ++ (if upper_cmp (snd ix) =? c then [(fst ix, upper_s (snd ix))] else [])) (numbered i l) =
    map ref (filter (on c) (flat_map (fun ix => [lower_of ix; upper_of ix]) (numbered i l)))); [|exact (K cs 0)].
  induction l as [|x l IH]; intros i; [reflexivity|]. cbn [numbered flat_map app filter fst snd]. rewrite IH. change (on c (lower_of (i, x))) with (lower_cmp x =? c). change (on c (upper_of (i, x))) with (upper_cmp x =? c).
  destruct (lower_cmp x =? c), (upper_cmp x =? c); reflexivity.
Qed.
Lemma refs_sorted : forall c, exists Y, srt (nat * Q)%type reference_compare (refs_of cs c) = map ref Y /\ route cs c Y.
Proof.
  intros c. assert (C : consistent reference_compare (fun a b => snd a <= snd b)%Q (refs_of cs c)).
  { split; [intros x y z _ _ _ H K; apply (Qle_trans _ (snd y)); auto|]. intros x y _ _. unfold reference_compare. destruct (Qltb (snd x) (snd y)) eqn:Q; [apply Qltb_lt in Q|apply Qltb_ge in Q]; split; intros H; try lia; lra. }
  destruct (SR _ _ _ _ C) as (P & ST). rewrite refs_strands in P. destruct (Permutation_map_inv _ _ P) as (Y & E & PY). exists Y. split; [rewrite refs_strands; exact E|].
  assert (IY : forall v, In v Y <-> passage cs v /\ xs_cmp v = c).
  { intros v. rewrite <- PY, filter_In, in_strands. unfold on. rewrite Nat.eqb_eq. tauto. }
  split; auto.
  assert (NY : NoDup Y) by (eapply Permutation_NoDup; [exact PY|apply NoDup_filter, strands_nodup]).
  rewrite refs_strands, E in ST. clear P E C PY. induction Y as [|y Y IH]; [constructor|]. cbn [map] in ST. inversion ST as [|? ? ST1 ST2]; subst. inversion NY as [|? ? N1 N2]; subst.
  assert (IY' : forall v, In v (y :: Y) -> passage cs v /\ xs_cmp v = c) by (intros v Hv; apply IY; auto).
  constructor.
  - clear - ST1 N2 IY' AP. assert (IZ : forall v, In v Y -> passage cs v /\ xs_cmp v = c) by (intros v Hv; apply IY'; right; auto). clear IY'.
    induction Y as [|z Y IH]; [constructor|]. cbn [map] in ST1. inversion ST1 as [|? ? T1 T2]; subst. inversion N2 as [|? ? M1 M2]; subst. constructor; [apply IH; auto; intros; apply IZ; right; auto|].
    rewrite Forall_forall in *. intros w Hw. specialize (T2 _ (in_map ref _ _ Hw)). cbn in T2. destruct (IZ z ltac:(left; auto)) as (A1 & A2). destruct (IZ w ltac:(right; auto)) as (B1 & B2).
    destruct (apart_before z w A1 B1 ltac:(intros ->; contradiction) ltac:(right; split; [congruence|auto])) as [F|(_ & F)]; [lia|auto].
  - rewrite Forall_forall in *. intros w Hw. specialize (ST2 _ (in_map ref _ _ Hw)). cbn in ST2. destruct (IY' y ltac:(left; auto)) as (A1 & A2). destruct (IY' w ltac:(right; auto)) as (B1 & B2).
    destruct (apart_before y w A1 B1 ltac:(intros ->; contradiction) ltac:(right; split; [congruence|auto])) as [F|(_ & F)]; [lia|auto].
Qed.
Fixpoint preds (p : xstrand) (Y : list xstrand) : list xstrand := match Y with [] => [] | y :: Y' => p :: preds y Y' end.
Lemma temp_is : forall c Y p, (forall v, In v (p :: Y) -> passage cs v /\ xs_cmp v = c) -> temp_edges S c (xs_s p) (map ref Y) = Ok (combine Y (preds p Y)).
Proof.
  intros c. induction Y as [|y Y IH]; intros p H; cbn [map temp_edges preds combine]; auto. unfold ref at 1. destruct (H p ltac:(left; auto)) as (A1 & A2). destruct (H y ltac:(right; left; auto)) as (B1 & B2).
  replace (find_strand S c (xs_s y)) with (find_strand S (xs_cmp y) (xs_s y)) by (rewrite B2; auto). replace (find_strand S c (xs_s p)) with (find_strand S (xs_cmp p) (xs_s p)) by (rewrite A2; auto). rewrite !found by auto. cbn [bind].
  rewrite IH by (intros v Hv; apply H; right; auto). reflexivity.
Qed.
Definition nov : xstrand := mkXs 0 0 0 false.
Definition rot (Y : list xstrand) : list xstrand := preds (last Y nov) Y.
Lemma last_in : forall {A} (l : list A) d, l <> [] -> In (last l d) l.
Proof. intros A l d. induction l as [|a l IH]; intros N; [congruence|]. destruct l as [|b l]; [left; auto|]. right. apply IH. discriminate. Qed.
Lemma last_map_ref : forall Y, last (map ref Y) (0, 0%Q) = ref (last Y nov).
Proof. induction Y as [|a Y IH]; auto. destruct Y as [|b Y]; auto. Qed.
Lemma all_temp_is : forall Ys c, (forall k Y, nth_error Ys k = Some Y -> Y <> [] /\ forall v, In v Y -> passage cs v /\ xs_cmp v = c + k) ->
  all_temp_edges S c (map (map ref) Ys) = Ok (concat (map (fun Y => combine Y (rot Y)) Ys)).
Proof.
  induction Ys as [|Y Ys IH]; intros c H; cbn [map all_temp_edges concat]; auto. destruct (H 0 Y eq_refl) as (NE & HY). rewrite Nat.add_0_r in HY. rewrite last_map_ref. cbn [ref snd].
  rewrite temp_is by (intros v [<-|Hv]; apply HY; auto; apply last_in; auto). cbn [bind]. rewrite IH; [reflexivity|]. intros k Y' Hk. destruct (H (Datatypes.S k) Y' Hk) as (A & B). split; auto. intros v Hv. specialize (B v Hv). split; [apply B|]. destruct B. lia.
Qed.
End Sorted.
