(** C66: nearest points and vertices. *)
From Coq Require Import List NArith ZArith QArith Qround Lia Lqa Bool Arith Permutation Sorted.
From Verif Require Import Base Iterators Sorting Pd PdSpec PdProofs Nearest.
Import ListNotations.
Open Scope nat_scope.
Open Scope res_scope.

(** ** specification *)
(** point [i] of [l] is as near to [q] as any *)
Definition nearest (q : vec) (l : list vec) (i : nat) : Prop :=
  exists v, nth_error l i = Some v /\ forall j w, nth_error l j = Some w -> (sq_dist q v <= sq_dist q w)%Q.
(** what is asked of qsort: the elements, in the order of their keys *)
Definition sorts (srt : (nat -> Q) -> list nat -> list nat) : Prop :=
  forall key l, Permutation (srt key l) l /\ StronglySorted (fun i j => key i <= key j)%Q (srt key l).

(** ** comparing all points *)
Lemma Qltb_lt : forall a b, Qltb a b = true <-> (a < b)%Q.
Proof. intros a b. unfold Qltb. rewrite negb_true_iff. split; intros H. - apply Qnot_le_lt. intros K. apply Qle_bool_iff in K. congruence. - apply not_true_is_false. intros K. apply Qle_bool_iff in K. lra. Qed.
Lemma Qltb_ge : forall a b, Qltb a b = false <-> (b <= a)%Q.
Proof. intros a b. unfold Qltb. rewrite negb_false_iff. apply Qle_bool_iff. Qed.
Lemma exhaustive_from_spec : forall q l done best bestpos,
  match best with
  | None => done = []
  | Some b => exists v, nth_error done bestpos = Some v /\ b = sq_dist q v /\ (forall j w, nth_error done j = Some w -> (b <= sq_dist q w)%Q) /\ (forall j w, j < bestpos -> nth_error done j = Some w -> (b < sq_dist q w)%Q)
  end -> done ++ l <> [] ->
  exists v, nth_error (done ++ l) (exhaustive_from q l (length done) best bestpos) = Some v /\
    (forall j w, nth_error (done ++ l) j = Some w -> (sq_dist q v <= sq_dist q w)%Q) /\
    (forall j w, j < exhaustive_from q l (length done) best bestpos -> nth_error (done ++ l) j = Some w -> (sq_dist q v < sq_dist q w)%Q).
Proof.
  intros q l. induction l as [|x l IH]; intros done best bestpos H NE.
  - rewrite app_nil_r in *. cbn [exhaustive_from]. destruct best as [b|]; [|congruence]. destruct H as (v & H1 & -> & H2 & H3). exists v. auto.
  - cbn [exhaustive_from]. replace (done ++ x :: l) with ((done ++ [x]) ++ l) in * by (rewrite <- app_assoc; reflexivity).
    assert (LD : length done + 1 = length (done ++ [x])) by (rewrite app_length; reflexivity). rewrite LD.
    assert (NX : forall j w, nth_error (done ++ [x]) j = Some w -> nth_error done j = Some w \/ w = x).
    { intros j w Hj. destruct (Nat.ltb_spec j (length done)) as [Lt|Ge]; [left; rewrite nth_error_app1 in Hj by auto; auto|]. rewrite nth_error_app2 in Hj by auto. destruct (j - length done) as [|k]; [right; cbn in Hj; congruence|destruct k; discriminate Hj]. }
    destruct best as [b|].
    + destruct H as (v & H1 & -> & H2 & H3). destruct (Qltb (sq_dist q x) (sq_dist q v)) eqn:Q.
      * apply Qltb_lt in Q. apply IH; auto. exists x. split; [rewrite nth_error_app2, Nat.sub_diag by auto; reflexivity|]. split; auto. split.
        -- intros j w Hj. destruct (NX _ _ Hj) as [K| ->]; [apply H2 in K; lra|lra].
        -- intros j w Lj Hj. rewrite nth_error_app1 in Hj by auto. apply H2 in Hj. lra.
      * apply Qltb_ge in Q. assert (LB : bestpos < length done) by (apply nth_error_Some; congruence). apply IH; auto. exists v. split; [rewrite nth_error_app1; auto|]. split; auto. split.
        -- intros j w Hj. destruct (NX _ _ Hj) as [K| ->]; [apply H2 in K; lra|lra].
        -- intros j w Lj Hj. rewrite nth_error_app1 in Hj by lia. apply (H3 j); auto.
    + subst done. apply IH; auto. exists x. split; [reflexivity|]. split; auto. split; [|intros j w Lj; cbn in Lj; lia].
      intros j w Hj. destruct (NX _ _ Hj) as [K| ->]; [destruct j; discriminate K|lra].
Qed.
(** The exhaustive search returns the first of the nearest points. *)
Theorem exhaustive_nearest : forall q l, l <> [] -> nearest q l (exhaustive_nearest_neighbor q l) /\
  forall j, nearest q l j -> exhaustive_nearest_neighbor q l <= j.
Proof.
  intros q l NE. destruct (exhaustive_from_spec q l [] None 0 eq_refl NE) as (v & H1 & H2 & H3). cbn [app length] in *. fold (exhaustive_nearest_neighbor q l) in *. split; [exists v; auto|].
  intros j (w & K1 & K2). destruct (Nat.le_gt_cases (exhaustive_nearest_neighbor q l) j) as [L|L]; auto. pose proof (H3 j w L K1). pose proof (K2 _ _ H1). lra.
Qed.

(** ** searching in the sorted points *)
Lemma sqr_nonneg : forall a, (0 <= sqr a)%Q.
Proof. intros a. unfold sqr. destruct (Qlt_le_dec a 0); nra. Qed.
Lemma coord_dist : forall j q v, (sqr (coord j v - coord j q) <= sq_dist q v)%Q /\ (sqr (coord j q - coord j v) <= sq_dist q v)%Q.
Proof.
  intros j q v. unfold sq_dist. pose proof (sqr_nonneg (vx q - vx v)). pose proof (sqr_nonneg (vy q - vy v)). pose proof (sqr_nonneg (vz q - vz v)).
  assert (S : forall a b, (sqr (b - a) == sqr (a - b))%Q) by (intros; unfold sqr; ring).
  destruct j as [|[|j]]; cbn [coord]; split; rewrite ?(S (vx q)), ?(S (vy q)), ?(S (vz q)); lra.
Qed.
Lemma below_false : forall a D, below_dist a D = false -> (0 <= a)%Q /\ (D <= sqr a)%Q.
Proof. intros a D H. unfold below_dist in H. apply orb_false_iff in H as (H1 & H2). apply Qltb_ge in H1, H2. auto. Qed.
Lemma sqr_mono : forall a b, (0 <= a)%Q -> (a <= b)%Q -> (sqr a <= sqr b)%Q.
Proof. intros a b H K. unfold sqr. nra. Qed.

Section Scan.
Context (q : vec) (buf : list vec) (dim : nat).
Definition key_of (i : nat) : Q := coord dim (nth i buf (mkVec 0 0 0)).
Definition held (b : Q * nat) (seen : list nat) : Prop :=
  In (snd b) seen /\ fst b = sq_dist q (nth (snd b) buf (mkVec 0 0 0)) /\ forall i, In i seen -> (fst b <= sq_dist q (nth i buf (mkVec 0 0 0)))%Q.
Lemma scan_held : forall off l b seen, Forall (fun i => i < length buf) l -> held b seen ->
  (forall c, off c = (c - coord dim q)%Q) /\ StronglySorted (fun i j => key_of i <= key_of j)%Q l \/
  (forall c, off c = (coord dim q - c)%Q) /\ StronglySorted (fun i j => key_of j <= key_of i)%Q l ->
  exists b', scan_sorted q buf off dim l b = Ok b' /\ held b' (seen ++ l).
Proof.
  intros off l. induction l as [|i l IH]; intros b seen F H O; cbn [scan_sorted].
  - exists b. rewrite app_nil_r. auto.
  - inversion F as [|? ? F1 F2]; subst. assert (NE : nth_error buf i = Some (nth i buf (mkVec 0 0 0))) by (apply nth_error_nth'; auto). rewrite (proj2 (get_ok _ _ _ _) NE). cbn [bind]. set (v := nth i buf (mkVec 0 0 0)) in *.
    destruct (below_dist (off (coord dim v)) (fst b)) eqn:B.
    + destruct (IH (if Qltb (sq_dist q v) (fst b) then (sq_dist q v, i) else b) (seen ++ [i])) as (b' & E & K); auto.
      * destruct H as (H1 & H2 & H3). destruct (Qltb (sq_dist q v) (fst b)) eqn:Q; [apply Qltb_lt in Q|apply Qltb_ge in Q].
        -- split; [apply in_or_app; right; left; auto|]. split; auto. cbn [fst]. intros j Hj. apply in_app_or in Hj as [Hj|[<-|[]]]; [apply H3 in Hj; lra|unfold v; lra].
        -- split; [apply in_or_app; auto|]. split; auto. intros j Hj. apply in_app_or in Hj as [Hj|[<-|[]]]; auto.
      * destruct O as [(O1 & O2)|(O1 & O2)]; inversion O2; auto.
      * exists b'. rewrite <- app_assoc in K. auto.
    + exists b. split; auto. destruct H as (H1 & H2 & H3). split; [apply in_or_app; auto|]. split; auto. apply below_false in B as (B1 & B2).
      intros j Hj. apply in_app_or in Hj as [Hj|Hj]; auto. set (w := nth j buf (mkVec 0 0 0)).
      destruct O as [(O1 & O2)|(O1 & O2)]; inversion O2 as [|? ? O3 O4]; subst; rewrite O1 in B1, B2; destruct (coord_dist dim q w) as (C1 & C2).
      * assert (K : (coord dim v <= coord dim w)%Q) by (destruct Hj as [<-|Hj]; [unfold v, w; lra|rewrite Forall_forall in O4; exact (O4 j Hj)]).
        assert (Z : (coord dim v - coord dim q <= coord dim w - coord dim q)%Q) by lra. pose proof (sqr_mono _ _ B1 Z). lra.
      * assert (K : (coord dim w <= coord dim v)%Q) by (destruct Hj as [<-|Hj]; [unfold v, w; lra|rewrite Forall_forall in O4; exact (O4 j Hj)]).
        assert (Z : (coord dim q - coord dim v <= coord dim q - coord dim w)%Q) by lra. pose proof (sqr_mono _ _ B1 Z). lra.
Qed.
End Scan.

Lemma bisect_ok : forall fuel x key so low high, low <= high -> high < length so -> high - low < fuel -> (forall i, In i so -> exists k, key i = Ok k) ->
  exists s, bisect fuel x key so low high = Ok s /\ low <= s <= high.
Proof.
  induction fuel as [|f IH]; intros x key so low high L H F K; [lia|]. cbn [bisect]. destruct (Nat.ltb_spec 1 (high - low)) as [G|G]; [|exists low; split; auto; lia].
  set (mid := (high + low) / 2). assert (M : low < mid /\ mid < high) by (unfold mid; split; [apply Nat.div_le_lower_bound|apply Nat.div_lt_upper_bound]; lia).
  destruct (nth_error so mid) as [i|] eqn:Q; [|apply nth_error_None in Q; lia]. rewrite (proj2 (get_ok _ _ _ _) Q). cbn [bind]. destruct (K i (nth_error_In _ _ Q)) as (k & ->). cbn [bind].
  destruct (Qltb k x); [destruct (IH x key so mid high) as (s & E & B)|destruct (IH x key so low mid) as (s & E & B)]; auto; try lia; exists s; split; auto; lia.
Qed.
Lemma sorted_skipn : forall {A} (P : A -> A -> Prop) k l, StronglySorted P l -> StronglySorted P (skipn k l).
Proof. intros A P. induction k as [|k IH]; intros l S; auto. destruct l as [|x l]; auto. cbn [skipn]. inversion S; auto. Qed.
Lemma sorted_firstn : forall {A} (P : A -> A -> Prop) k l, StronglySorted P l -> StronglySorted P (firstn k l).
Proof. intros A P. induction k as [|k IH]; intros l S; [constructor|]. destruct l as [|x l]; auto. cbn [firstn]. inversion S as [|? ? S1 S2]; subst. constructor; auto. rewrite Forall_forall in *. intros y Hy. apply S2. rewrite <- (firstn_skipn k l). apply in_or_app; auto. Qed.
Lemma sorted_snoc : forall {A} (P : A -> A -> Prop) l x, StronglySorted P l -> Forall (fun y => P y x) l -> StronglySorted P (l ++ [x]).
Proof. intros A P l x S. induction S as [|y l S IH F]; intros G; cbn [app]; [repeat constructor|]. inversion G; subst. constructor; auto. apply Forall_app. split; auto. Qed.
Lemma sorted_rev : forall {A} (P : A -> A -> Prop) l, StronglySorted P l -> StronglySorted (fun x y => P y x) (rev l).
Proof. intros A P l S. induction S as [|x l S IH F]; cbn [rev]; [constructor|]. apply sorted_snoc; auto. rewrite Forall_forall in *. intros y Hy. apply F. apply in_rev. auto. Qed.

(** the sorted indices of the first [n] points at [p] *)
Definition sorted_for (mem : memory) (p n dim : nat) (so : list nat) : Prop :=
  Permutation so (seq 0 n) /\ StronglySorted (fun i j => key_of (mem p) dim i <= key_of (mem p) dim j)%Q so.
Lemma search_nearest : forall mem q n p dim so, 0 < n -> n <= length (mem p) -> sorted_for mem p n dim so ->
  exists i, nn_search mem q n p dim so = Ok i /\ nearest q (firstn n (mem p)) i.
Proof.
  intros mem q n p dim so Hn Hl (P & S). assert (LS : length so = n) by (rewrite (Permutation_length P); apply seq_length).
  assert (IN : forall i, In i so <-> i < n) by (intros i; rewrite P, in_seq; lia).
  set (key := key_at (mem p) dim).
  assert (KY : forall i, In i so -> exists k, key i = Ok k).
  { intros i Hi. apply IN in Hi. destruct (nth_error (mem p) i) as [v|] eqn:Q; [|apply nth_error_None in Q; lia]. unfold key, key_at. rewrite (proj2 (get_ok _ _ _ _) Q). cbn [bind]. eauto. }
  unfold nn_search. cbv zeta. fold key.
  destruct (nth_error so 0) as [i0|] eqn:Q0; [|apply nth_error_None in Q0; lia]. rewrite (proj2 (get_ok _ _ _ _) Q0). cbn [bind]. destruct (KY i0 (nth_error_In _ _ Q0)) as (k0 & ->). cbn [bind].
  match goal with |- exists i, bind ?e _ = _ /\ _ => assert (ST : exists s, e = Ok s /\ s < n) end.
  { destruct (Qltb _ k0); [exists 0; auto|]. destruct (nth_error so (n - 1)) as [i1|] eqn:Q1; [|apply nth_error_None in Q1; lia]. rewrite (proj2 (get_ok _ _ _ _) Q1). cbn [bind]. destruct (KY i1 (nth_error_In _ _ Q1)) as (k1 & ->). cbn [bind].
    destruct (Qltb k1 _); [exists (n - 1); split; auto; lia|]. destruct (bisect_ok (n + 1) (coord dim q) key so 0 (n - 1)) as (s & E & B); auto; try lia. exists s. split; auto. lia. }
  destruct ST as (s & -> & Ls). cbn [bind]. destruct (nth_error so s) as [i|] eqn:Qs; [|apply nth_error_None in Qs; lia]. rewrite (proj2 (get_ok _ _ _ _) Qs). cbn [bind].
  assert (Hi : i < n) by (apply IN; eapply nth_error_In; eauto). assert (NI : forall j, j < n -> nth_error (mem p) j = Some (nth j (mem p) (mkVec 0 0 0))) by (intros j Hj; apply nth_error_nth'; lia).
  rewrite (proj2 (get_ok _ _ _ _) (NI i Hi)). cbn [bind].
  assert (FS : forall l, incl l so -> Forall (fun j => j < length (mem p)) l) by (intros l Hincl; apply Forall_forall; intros j Hj; apply Hincl, IN in Hj; lia).
  destruct (scan_held q (mem p) dim (fun c => c - coord dim q)%Q (skipn s (firstn n so)) (sq_dist q (nth i (mem p) (mkVec 0 0 0)), i) [i]) as (b1 & E1 & H1).
  { apply FS. intros j Hj. rewrite <- LS, firstn_all in Hj. rewrite <- (firstn_skipn s so). apply in_or_app; auto. }
  { split; [left; auto|]. split; auto. intros j [<-|[]]. cbn [fst]. lra. }
  { left. split; auto. rewrite <- LS, firstn_all. apply sorted_skipn; auto. }
  rewrite E1. cbn [bind].
  destruct (scan_held q (mem p) dim (fun c => coord dim q - c)%Q (rev (firstn (s + 1) so)) b1 _ ltac:(apply FS; intros j Hj; apply in_rev in Hj; rewrite <- (firstn_skipn (s + 1) so); apply in_or_app; auto) H1) as (b2 & E2 & H2).
  { right. split; auto. apply sorted_rev, sorted_firstn; auto. }
  rewrite E2. cbn [bind]. exists (snd b2). split; auto. destruct H2 as (A1 & A2 & A3).
  assert (CV : forall j, j < n -> In j (([i] ++ skipn s (firstn n so)) ++ rev (firstn (s + 1) so))).
  { intros j Hj. apply IN in Hj. rewrite <- (firstn_skipn s so) in Hj. apply in_app_or in Hj as [Hj|Hj].
    - apply in_or_app. right. apply in_rev. rewrite rev_involutive. replace (firstn s so) with (firstn s (firstn (s + 1) so)) in Hj by (rewrite firstn_firstn; f_equal; lia). rewrite <- (firstn_skipn s (firstn (s + 1) so)). apply in_or_app; auto.
    - apply in_or_app. left. apply in_or_app. right. rewrite <- LS, firstn_all. auto. }
  assert (LB : snd b2 < n).
  { apply IN. apply in_app_or in A1 as [A1|A1]; [apply in_app_or in A1 as [[<-|[]]|A1]|].
    - apply IN; auto.
    - rewrite <- LS, firstn_all in A1. rewrite <- (firstn_skipn s so). apply in_or_app; auto.
    - apply in_rev in A1. rewrite <- (firstn_skipn (s + 1) so). apply in_or_app; auto. }
  assert (NF : forall j w, nth_error (firstn n (mem p)) j = Some w -> j < n /\ w = nth j (mem p) (mkVec 0 0 0)).
  { intros j w Hj. assert (j < length (firstn n (mem p))) by (apply nth_error_Some; congruence). rewrite firstn_length in *. assert (Lj : j < n) by lia. split; auto.
    rewrite <- (firstn_skipn n (mem p)). rewrite app_nth1 by (rewrite firstn_length; lia). symmetry. apply nth_error_nth. auto. }
  exists (nth (snd b2) (mem p) (mkVec 0 0 0)). split.
  - rewrite <- (NI _ LB). rewrite <- (firstn_skipn n (mem p)) at 2. symmetry. apply nth_error_app1. rewrite firstn_length. lia.
  - intros j w Hj. apply NF in Hj as (Lj & ->). rewrite <- A2. apply A3. auto.
Qed.

(** ** the searches with saved data *)
(** [size p] is the number of points at address [p] *)
Definition sized (mem : memory) (size : nat -> nat) : Prop := forall p, 0 < size p <= length (mem p).
Definition pc_good (mem : memory) (size : nat -> nat) (t : pcdata) : Prop :=
  (N.of_nat (size (pc_check t)) < 5000)%N \/ exists so, pc_sorted t = Some so /\ sorted_for mem (pc_check t) (size (pc_check t)) (pc_dim t) so.
Definition pcs_good (mem : memory) (size : nat -> nat) (pc : option (option pcdata)) : Prop :=
  match pc with Some (Some t) => pc_good mem size t | _ => True end.
Lemma neighbour_step : forall srt mem size q p pc, sorts srt -> 0 < size p <= length (mem p) -> pcs_good mem size pc ->
  exists i pc', plc_nearest_neighbor srt mem q (size p) p pc = Ok (i, pc', match pc with Some (Some t) => negb (pc_check t =? p) | _ => false end) /\
    nearest q (firstn (size p) (mem p)) i /\ pcs_good mem size pc' /\ (pc <> None -> exists t, pc' = Some (Some t) /\ pc_check t = p).
Proof.
  intros srt mem size q p pc SR SZ G. unfold plc_nearest_neighbor.
  assert (PT : points mem p (size p) = Ok (firstn (size p) (mem p))) by (unfold points; destruct (Nat.leb_spec (size p) (length (mem p))); [auto|lia]).
  assert (NE : firstn (size p) (mem p) <> []) by (intros Q; apply (f_equal (@length _)) in Q; rewrite firstn_length in Q; cbn in Q; lia).
  set (stale := match pc with Some (Some t) => negb (pc_check t =? p) | _ => false end).
  assert (PC : (pc = None /\ stale = false) \/ (exists t, pc = Some (Some t) /\ pc_check t = p /\ stale = false) \/ ((if stale then Some None else pc) = Some None /\ pc <> None /\ match pc with Some (Some t) => if pc_check t =? p then Some t else None | _ => None end = None)).
  { unfold stale. destruct pc as [[t|]|]; [destruct (Nat.eqb_spec (pc_check t) p) as [E|E]; cbn [negb]|..]; [right; left; eauto| |right; right|left; auto]; [right; right; repeat split; auto; discriminate|repeat split; auto; discriminate]. }
  destruct (N.ltb_spec (N.of_nat (size p)) 5000) as [SM|BG].
  - rewrite PT. cbn [bind]. eexists _, _. split; [reflexivity|]. split; [apply exhaustive_nearest; auto|].
    destruct PC as [(-> & ->)|[(t & -> & E & ->)|(-> & NN & _)]].
    + split; [exact I|]. congruence.
    + split; [exact G|]. eauto.
    + split; [left; exact SM|]. eauto.
  - assert (NEW : exists dim so, (do pts <- points mem p (size p); do dim <- max_dimension pts; Ok (mkPc p dim (Some (srt (fun i => coord dim (nth i pts (mkVec 0 0 0))) (seq 0 (size p)))))) = Ok (mkPc p dim (Some so)) /\ sorted_for mem p (size p) dim so).
    { rewrite PT. cbn [bind]. unfold max_dimension. destruct (firstn (size p) (mem p)) as [|a l] eqn:F; [congruence|]. rewrite <- F. cbn [bind]. match goal with |- exists dim so, Ok (mkPc p ?x _) = _ /\ _ => generalize x end. intros dim. exists dim. eexists. split; [reflexivity|].
      destruct (SR (fun i => coord dim (nth i (firstn (size p) (mem p)) (mkVec 0 0 0))) (seq 0 (size p))) as (P & S). split; auto.
      assert (KE : forall i, In i (seq 0 (size p)) -> nth i (firstn (size p) (mem p)) (mkVec 0 0 0) = nth i (mem p) (mkVec 0 0 0)).
      { intros i Hi. apply in_seq in Hi. rewrite <- (firstn_skipn (size p) (mem p)) at 2. rewrite app_nth1; auto. rewrite firstn_length. lia. }
      assert (IN : forall i, In i (srt (fun i => coord dim (nth i (firstn (size p) (mem p)) (mkVec 0 0 0))) (seq 0 (size p))) -> In i (seq 0 (size p))) by (intros i Hi; rewrite P in Hi; auto).
      clear P. induction S as [|x l' S IH Fa]; [constructor|]. constructor; [apply IH; intros; apply IN; right; auto|]. rewrite Forall_forall in *. intros y Hy. unfold key_of. specialize (Fa y Hy). cbn beta in Fa. rewrite !KE in Fa by (apply IN; cbn; auto). exact Fa. }
    destruct PC as [(-> & ->)|[(t & -> & E & ->)|(-> & NN & ->)]].
    + destruct NEW as (dim & so & -> & SF). cbn [bind pc_sorted pc_dim]. destruct (search_nearest mem q (size p) p dim so ltac:(lia) ltac:(lia) SF) as (i & -> & NR). cbn [bind]. eexists _, _. split; [reflexivity|]. split; auto. split; [exact I|congruence].
    + destruct (Nat.eqb_spec (pc_check t) p) as [_|N]; [|congruence]. cbn [bind]. destruct G as [G|(so & SO & SF)]; [rewrite E in G; lia|]. rewrite SO. rewrite E in SF.
      destruct (search_nearest mem q (size p) p (pc_dim t) so ltac:(lia) ltac:(lia) SF) as (i & -> & NR). cbn [bind]. eexists _, _. split; [reflexivity|]. split; auto. split; [right; exists so; rewrite E; auto|eauto].
    + destruct NEW as (dim & so & -> & SF). cbn [bind pc_sorted pc_dim]. destruct (search_nearest mem q (size p) p dim so ltac:(lia) ltac:(lia) SF) as (i & -> & NR). cbn [bind]. eexists _, _. split; [reflexivity|]. split; auto. split; [right; exists so; auto|eauto].
Qed.

(** A single search, with or without asking for the data to be saved, finds a nearest point. *)
Theorem neighbour_nearest : forall srt mem q n p pc, sorts srt -> 0 < n <= length (mem p) -> pc = None \/ pc = Some None ->
  exists i pc', plc_nearest_neighbor srt mem q n p pc = Ok (i, pc', false) /\ nearest q (firstn n (mem p)) i.
Proof.
  intros srt mem q n p pc SR SZ H. destruct (neighbour_step srt mem (fun _ => n) q p pc SR SZ) as (i & pc' & E & NR & _); [destruct H as [->| ->]; exact I|].
  exists i, pc'. rewrite E. split; auto. destruct H as [->| ->]; reflexivity.
Qed.
(** a history of searches, for the points [fst] in the buffers at the addresses [snd], that hand the same pc_data on *)
Fixpoint searches (srt : (nat -> Q) -> list nat -> list nat) (mem : memory) (size : nat -> nat) (pc : option (option pcdata)) (qs : list (vec * nat)) : res (list nat) :=
  match qs with
  | [] => Ok []
  | (q, p) :: qs' =>
      do r <- plc_nearest_neighbor srt mem q (size p) p pc;
      do is <- searches srt mem size (snd (fst r)) qs';
      Ok (fst (fst r) :: is)
  end.
(** As long as the buffers do not change, every search of every history finds a nearest point, whichever buffers are searched in whichever order. *)
Theorem history_nearest : forall srt mem size qs, sorts srt -> sized mem size -> forall pc, pc = None \/ pc = Some None ->
  exists is, searches srt mem size pc qs = Ok is /\ Forall2 (fun qp i => nearest (fst qp) (firstn (size (snd qp)) (mem (snd qp))) i) qs is.
Proof.
  intros srt mem size qs SR SZ. assert (K : forall pc, pcs_good mem size pc -> exists is, searches srt mem size pc qs = Ok is /\ Forall2 (fun qp i => nearest (fst qp) (firstn (size (snd qp)) (mem (snd qp))) i) qs is).
  { induction qs as [|(q, p) qs IH]; intros pc G; cbn [searches]; [exists []; auto|]. destruct (neighbour_step srt mem size q p pc SR (SZ p) G) as (i & pc' & -> & NR & G' & _). cbn [bind fst snd].
    destruct (IH pc' G') as (is & -> & F). cbn [bind]. exists (i :: is). auto. }
  intros pc [->| ->]; apply K; exact I.
Qed.

(** ** nearest vertices *)
(** vertex [vt] of component [cp] is at [v] and as near to [q] as any vertex of the curve *)
Definition vertex_at (mem : memory) (L : curve) (cp vt : nat) (v : vec) : Prop :=
  exists p nv, nth_error (cv_comps L) cp = Some (p, nv) /\ nth_error (firstn nv (mem p)) vt = Some v.
Definition nearest_vertex (mem : memory) (q : vec) (L : curve) (cp vt : nat) (v : vec) : Prop :=
  vertex_at mem L cp vt v /\ forall cp' vt' w, vertex_at mem L cp' vt' w -> (sq_dist q v <= sq_dist q w)%Q.
(** the curve at address [a] has its components at the addresses [curves a] *)
Definition curve_at (curves : nat -> list nat) (size : nat -> nat) (a : nat) : curve := mkCurve a (map (fun p => (p, size p)) (curves a)).
Definition vpc_good (mem : memory) (size : nat -> nat) (curves : nat -> list nat) (pc : option (option vpcdata)) : Prop :=
  match pc with
  | Some (Some t) => length (vp_comp t) = length (curves (vp_check t)) /\ Forall (fun o => pcs_good mem size (Some o)) (vp_comp t)
  | _ => True
  end.
Lemma nv_loop_step : forall srt mem size q ps data, sorts srt -> sized mem size -> length data = length ps -> Forall (fun o => pcs_good mem size (Some o)) data ->
  exists bs ds e, nv_loop srt mem q (map (fun p => (p, size p)) ps) data = Ok (bs, ds, e) /\ length ds = length ps /\ Forall (fun o => pcs_good mem size (Some o)) ds /\
    Forall2 (fun p b => nth_error (firstn (size p) (mem p)) (fst b) = Some (snd b) /\ forall j w, nth_error (firstn (size p) (mem p)) j = Some w -> (sq_dist q (snd b) <= sq_dist q w)%Q) ps bs.
Proof.
  intros srt mem size q ps. induction ps as [|p ps IH]; intros data SR SZ L F; cbn [map nv_loop].
  - destruct data; [|discriminate L]. exists [], [], false. auto.
  - destruct data as [|t data]; [discriminate L|]. inversion F as [|? ? F1 F2]; subst. destruct (neighbour_step srt mem size q p (Some t) SR (SZ p) F1) as (i & pc' & -> & (v & NV & NR) & G' & K). cbn [bind].
    destruct (K ltac:(discriminate)) as (t' & -> & _).
    assert (NM : nth_error (mem p) i = Some v).
    { rewrite <- (firstn_skipn (size p) (mem p)). rewrite nth_error_app1; auto. apply nth_error_Some. congruence. }
    rewrite (proj2 (get_ok _ _ _ _) NM). cbn [bind]. destruct (IH data SR SZ ltac:(cbn in L; lia) F2) as (bs & ds & e & -> & L' & F' & H). cbn [bind]. eexists _, _, _. split; [reflexivity|].
    split; [cbn; lia|]. split; [constructor; auto|]. constructor; auto.
Qed.
Lemma forall2_length : forall A B (P : A -> B -> Prop) l m, Forall2 P l m -> length l = length m.
Proof. intros A B P l m H. induction H; cbn; auto. Qed.
Lemma vertex_step : forall srt mem size curves q a pc, sorts srt -> sized mem size -> curves a <> [] -> vpc_good mem size curves pc ->
  exists cp vt v pc' e, plc_nearest_vertex srt mem q (curve_at curves size a) pc = Ok ((cp, vt, v), pc', e) /\ nearest_vertex mem q (curve_at curves size a) cp vt v /\ vpc_good mem size curves pc'.
Proof.
  intros srt mem size curves q a pc SR SZ NE G. unfold plc_nearest_vertex. cbn [cv_addr cv_comps curve_at].
  match goal with |- context[vp_comp ?x] => set (cpd := x) end.
  assert (GC : vp_check cpd = a /\ length (vp_comp cpd) = length (curves a) /\ Forall (fun o => pcs_good mem size (Some o)) (vp_comp cpd)).
  { assert (D : vp_check (mkVpc a (repeat None (length (map (fun p => (p, size p)) (curves a))))) = a /\ length (vp_comp (mkVpc a (repeat None (length (map (fun p => (p, size p)) (curves a)))))) = length (curves a) /\
        Forall (fun o => pcs_good mem size (Some o)) (vp_comp (mkVpc a (repeat None (length (map (fun p => (p, size p)) (curves a))))))).
    { cbn [vp_check vp_comp]. rewrite repeat_length, map_length. split; auto. split; auto. apply Forall_forall. intros o Ho. apply repeat_spec in Ho. subst o. exact I. }
    unfold cpd. destruct pc as [[t|]|]; auto. destruct (Nat.eqb_spec (vp_check t) a) as [E|E]; auto. destruct G as (G1 & G2). rewrite E in G1. auto. }
  destruct GC as (G0 & G1 & G2). destruct (nv_loop_step srt mem size q (curves a) _ SR SZ G1 G2) as (bs & ds & e & -> & L & F & H). cbn [bind].
  assert (LB : length bs = length (curves a)) by (symmetry; eapply forall2_length; eauto).
  assert (NB : map snd bs <> []) by (intros Q; apply map_eq_nil in Q; subst bs; cbn in LB; destruct (curves a); [congruence|discriminate LB]).
  destruct (exhaustive_nearest q (map snd bs) NB) as ((v & NV & NR) & _). set (best := exhaustive_nearest_neighbor q (map snd bs)) in *.
  destruct (nth_error bs best) as [b|] eqn:QB; [|rewrite nth_error_map, QB in NV; discriminate NV]. rewrite nth_error_map, QB in NV. cbn in NV. injection NV as <-.
  rewrite (proj2 (get_ok _ _ _ _) QB). cbn [bind]. eexists _, _, _, _, _. split; [reflexivity|].
  assert (PT : forall c p b, nth_error (curves a) c = Some p -> nth_error bs c = Some b -> nth_error (firstn (size p) (mem p)) (fst b) = Some (snd b) /\ forall j w, nth_error (firstn (size p) (mem p)) j = Some w -> (sq_dist q (snd b) <= sq_dist q w)%Q).
  { clear - H. induction H as [|p b ps bs H1 H2 IH]; intros [|c] p' b' E1 E2; cbn in E1, E2; try discriminate; [injection E1 as <-; injection E2 as <-; auto|eauto]. }
  split.
  - split.
    + destruct (nth_error (curves a) best) as [p|] eqn:QP; [|apply nth_error_None in QP; assert (best < length bs) by (apply nth_error_Some; congruence); lia].
      exists p, (size p). cbn [cv_comps curve_at]. rewrite nth_error_map, QP. split; auto. apply (PT best p b); auto.
    + intros cp' vt' w (p & nv & E1 & E2). cbn [cv_comps curve_at] in E1. rewrite nth_error_map in E1. destruct (nth_error (curves a) cp') as [p'|] eqn:QP; [|discriminate E1]. cbn in E1. injection E1 as <- <-.
      assert (cp' < length bs) by (rewrite LB; apply nth_error_Some; congruence). destruct (nth_error bs cp') as [b'|] eqn:QB'; [|apply nth_error_None in QB'; lia].
      destruct (PT cp' p' b' QP QB') as (_ & K). specialize (K vt' w E2). specialize (NR cp' (snd b') ltac:(rewrite nth_error_map, QB'; reflexivity)). lra.
  - destruct pc; [|exact I]. cbn [vpc_good vp_check vp_comp]. rewrite G0. auto.
Qed.
Fixpoint vertex_searches (srt : (nat -> Q) -> list nat -> list nat) (mem : memory) (size : nat -> nat) (curves : nat -> list nat) (pc : option (option vpcdata)) (qs : list (vec * nat)) : res (list (nat * nat * vec)) :=
  match qs with
  | [] => Ok []
  | (q, a) :: qs' =>
      do r <- plc_nearest_vertex srt mem q (curve_at curves size a) pc;
      do rs <- vertex_searches srt mem size curves (snd (fst r)) qs';
      Ok (fst (fst r) :: rs)
  end.
(** As long as the curves do not change, every search of every history, on whichever curves, returns the component, the number and the place of a
    nearest vertex. *)
Theorem history_nearest_vertex : forall srt mem size curves qs, sorts srt -> sized mem size -> (forall a, curves a <> []) -> forall pc, pc = None \/ pc = Some None ->
  exists rs, vertex_searches srt mem size curves pc qs = Ok rs /\
    Forall2 (fun qa r => nearest_vertex mem (fst qa) (curve_at curves size (snd qa)) (fst (fst r)) (snd (fst r)) (snd r)) qs rs.
Proof.
  intros srt mem size curves qs SR SZ NE. assert (K : forall pc, vpc_good mem size curves pc -> exists rs, vertex_searches srt mem size curves pc qs = Ok rs /\
    Forall2 (fun qa r => nearest_vertex mem (fst qa) (curve_at curves size (snd qa)) (fst (fst r)) (snd (fst r)) (snd r)) qs rs).
  { induction qs as [|(q, a) qs IH]; intros pc G; cbn [vertex_searches]; [exists []; auto|]. destruct (vertex_step srt mem size curves q a pc SR SZ (NE a) G) as (cp & vt & v & pc' & e & -> & NR & G'). cbn [bind fst snd].
    destruct (IH pc' G') as (rs & -> & F). cbn [bind]. exists ((cp, vt, v) :: rs). auto. }
  intros pc [->| ->]; apply K; exact I.
Qed.

(** ** saved data that no longer fit *)
(** If fewer than 5000 points were searched and then 5000 or more at the same address, the program follows a null pointer. *)
Theorem neighbour_grown_refuted : forall srt mem q q' n n' p, (N.of_nat n < 5000)%N -> (5000 <= N.of_nat n')%N -> 0 < n <= length (mem p) ->
  exists i pc, plc_nearest_neighbor srt mem q n p (Some None) = Ok (i, pc, false) /\ plc_nearest_neighbor srt mem q' n' p pc = UB.
Proof.
  intros srt mem q q' n n' p H H' (H1 & H2). unfold plc_nearest_neighbor at 1. rewrite (proj2 (N.ltb_lt _ _) H). unfold points. rewrite (proj2 (Nat.leb_le _ _) H2). cbn [bind]. eexists _, _. split; [reflexivity|].
  unfold plc_nearest_neighbor. cbn [pc_check]. rewrite Nat.eqb_refl. cbn [negb]. rewrite (proj2 (N.ltb_ge _ _) H'). reflexivity.
Qed.
(** If the points at an address change, the saved order is used all the same: here the points move along a line until the first and the last have
    changed places, and the search returns the farthest point instead of the nearest. *)
Definition many : nat := N.to_nat 5000.
Definition line (f : nat -> Z) : list vec := map (fun i => mkVec (inject_Z (f i)) 0 0) (seq 0 many).
Lemma line_points : forall f, points (fun _ => line f) 0 many = Ok (line f).
Proof. intros f. assert (L : length (line f) = many) by (unfold line; rewrite map_length, seq_length; reflexivity). unfold points. rewrite L, Nat.leb_refl. f_equal. Qed.
Lemma sorted_seq : forall n a l, Permutation l (seq a n) -> StronglySorted le l -> l = seq a n.
Proof.
  induction n as [|n IH]; intros a l P S; cbn [seq] in *; [apply Permutation_nil; symmetry; auto|].
  destruct l as [|x l]; [apply Permutation_length in P; discriminate P|]. inversion S as [|? ? S1 S2]; subst. rewrite Forall_forall in S2.
  assert (X : In x (a :: seq (a + 1) n)) by (rewrite Nat.add_1_r, <- P; left; auto). assert (Y : In a (x :: l)) by (rewrite P; left; auto).
  assert (x = a).
  { assert (a <= x) by (destruct X as [<-|X]; auto; apply in_seq in X; lia). destruct Y as [->|Y]; auto. apply S2 in Y. lia. }
  subst x. f_equal. apply IH; auto. apply Permutation_cons_inv in P. auto.
Qed.
Lemma line_sorted : forall srt, sorts srt -> srt (fun i => coord 0 (nth i (line Z.of_nat) (mkVec 0 0 0))) (seq 0 many) = seq 0 many.
Proof.
  intros srt SR. destruct (SR (fun i => coord 0 (nth i (line Z.of_nat) (mkVec 0 0 0))) (seq 0 many)) as (P & S). apply sorted_seq; auto.
  assert (IN : forall i, In i (srt (fun i => coord 0 (nth i (line Z.of_nat) (mkVec 0 0 0))) (seq 0 many)) -> nth i (line Z.of_nat) (mkVec 0 0 0) = mkVec (inject_Z (Z.of_nat i)) 0 0).
  { intros i Hi. rewrite P in Hi. apply in_seq in Hi. unfold line. apply nth_error_nth. rewrite nth_error_map. assert (Q : nth_error (seq 0 many) i = Some i) by (rewrite (nth_error_nth' _ 0) by (rewrite seq_length; lia); rewrite seq_nth by lia; reflexivity). rewrite Q. reflexivity. }
  clear P. induction S as [|x l' S IH Fa]; [constructor|]. constructor; [apply IH; intros; apply IN; right; auto|]. rewrite Forall_forall in *. intros y Hy. specialize (Fa y Hy). cbn beta in Fa. rewrite !IN in Fa by (cbn; auto). cbn [coord vx] in Fa. rewrite <- Zle_Qle in Fa. lia.
Qed.
Definition by_key (key : nat -> Q) : list nat -> list nat := isort (fun i j => Qle_bool (key i) (key j)).
Lemma by_key_sorts : sorts by_key.
Proof.
  intros key l. split; [apply isort_perm|]. pose proof (isort_sorted (fun i j => Qle_bool (key i) (key j))) as S. unfold by_key.
  assert (SS : StronglySorted (lep (fun i j => Qle_bool (key i) (key j))) (isort (fun i j => Qle_bool (key i) (key j)) l)).
  { apply S.
    - intros x y H. apply Qle_bool_iff. destruct (Qlt_le_dec (key x) (key y)) as [K|K]; [|auto]. exfalso. assert (Z : Qle_bool (key x) (key y) = true) by (apply Qle_bool_iff; lra). congruence.
    - intros x y z H1 H2. apply Qle_bool_iff. apply Qle_bool_iff in H1, H2. lra. }
  induction SS as [|x l' SS IH F]; constructor; auto. rewrite Forall_forall in *. intros y Hy. apply Qle_bool_iff. exact (F y Hy).
Qed.
Theorem neighbour_changed_refuted : forall srt, sorts srt -> exists mem mem' q i pc j,
  plc_nearest_neighbor srt mem q many 0 (Some None) = Ok (i, pc, false) /\
  plc_nearest_neighbor srt mem' q many 0 pc = Ok (j, pc, false) /\ ~ nearest q (mem' 0) j.
Proof.
  intros srt SR. exists (fun _ => line Z.of_nat), (fun _ => line (fun i => 4999 - Z.of_nat i)%Z), (mkVec 0 0 0), 0, (Some (Some (mkPc 0 0 (Some (seq 0 many))))), 0.
  assert (B : (N.of_nat many <? 5000)%N = false) by (unfold many; rewrite N2Nat.id; reflexivity). split; [|split].
  - unfold plc_nearest_neighbor. rewrite B, line_points. cbn [bind].
    assert (D : max_dimension (line Z.of_nat) = Ok 0) by (vm_compute; reflexivity). rewrite D. cbn [bind pc_sorted pc_dim]. rewrite line_sorted by auto.
    assert (E : nn_search (fun _ => line Z.of_nat) (mkVec 0 0 0) many 0 0 (seq 0 many) = Ok 0) by (vm_compute; reflexivity). rewrite E. reflexivity.
  - unfold plc_nearest_neighbor. rewrite B. cbn [pc_check Nat.eqb negb bind pc_sorted pc_dim].
    assert (E : nn_search (fun _ => line (fun i => 4999 - Z.of_nat i)%Z) (mkVec 0 0 0) many 0 0 (seq 0 many) = Ok 0) by (vm_compute; reflexivity). rewrite E. reflexivity.
  - intros (v & H1 & H2). assert (V : nth_error (line (fun i => 4999 - Z.of_nat i)%Z) 0 = Some (mkVec (inject_Z 4999) 0 0)) by (vm_compute; reflexivity). rewrite V in H1. injection H1 as <-.
    specialize (H2 (N.to_nat 4999) (mkVec 0 0 0)). assert (Q : nth_error (line (fun i => 4999 - Z.of_nat i)%Z) (N.to_nat 4999) = Some (mkVec 0 0 0)) by (vm_compute; reflexivity). specialize (H2 Q). unfold Qle in H2. vm_compute in H2. apply H2. reflexivity.
Qed.
(** An empty curve has no nearest vertex; asking for it reads outside of an array. *)
Theorem vertex_empty_refuted : forall srt mem q a pc, pc = None \/ pc = Some None -> plc_nearest_vertex srt mem q (mkCurve a []) pc = UB.
Proof. intros srt mem q a pc [->| ->]; reflexivity. Qed.

(** ** examples *)
Definition square (p : nat) : list vec := [mkVec 0 0 0; mkVec 1 0 (inject_Z (Z.of_nat p)); mkVec 1 1 0; mkVec 0 1 0].
Example square_history : sized square (fun _ => 4) /\ searches by_key square (fun _ => 4) (Some None) [(mkVec 2 2 0, 0); (mkVec 1 0 3, 3); (mkVec (1 # 3) (3 # 4) 0, 0)] = Ok [2; 1; 3].
Proof. split; [intros p; cbn; lia|vm_compute; reflexivity]. Qed.
Example square_vertices : vertex_searches by_key square (fun _ => 4) (fun a => [a; a + 1]) None [(mkVec 1 0 5, 4); (mkVec 1 0 5, 5)] = Ok [(1, 1, mkVec 1 0 5); (0, 1, mkVec 1 0 5)].
Proof. vm_compute. reflexivity. Qed.
Example line_found : exists so, sorted_for (fun _ => line Z.of_nat) 0 many 0 so /\ nn_search (fun _ => line Z.of_nat) (mkVec (9999 # 4) 1 0) many 0 0 so = Ok (N.to_nat 2500).
Proof.
  exists (seq 0 many). split; [|vm_compute; reflexivity]. destruct (by_key_sorts (fun i => coord 0 (nth i (line Z.of_nat) (mkVec 0 0 0))) (seq 0 many)) as (P & S). rewrite line_sorted in P, S by exact by_key_sorts. split; auto.
Qed.

Print Assumptions exhaustive_nearest.
Print Assumptions neighbour_nearest.
Print Assumptions history_nearest.
Print Assumptions history_nearest_vertex.
Print Assumptions neighbour_grown_refuted.
Print Assumptions neighbour_changed_refuted.
Print Assumptions vertex_empty_refuted.
