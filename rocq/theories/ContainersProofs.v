From Coq Require Import List ZArith Lia Bool Arith Sorted.
From Verif Require Import Base Containers ContainersSpec.
Import ListNotations.
Open Scope Z_scope.

Section Rep.
Context {A : Type} (null : A).

(** the container represents the stack *)
Definition rep (bound : Z) (c : container) (s : list A) : Prop :=
  c_nelts c = Z.of_nat (length s) /\ 100 <= c_initsize c /\
  c_initsize c <= c_bufsize c /\ Z.of_nat (length (c_elt c)) = c_bufsize c /\
  Z.of_nat (length s) < c_bufsize c /\ c_bufsize c + c_initsize c < bound /\
  firstn (length s) (c_elt c) = s.

Lemma u32_small : forall x, 0 <= x < 4294967296 -> u32 x = x.
Proof. intros. unfold u32. apply Z.mod_small. auto. Qed.

Lemma firstn_upd_snoc : forall (l : list A) n x, (n < length l)%nat ->
  firstn (S n) (upd n x l) = firstn n l ++ [x].
Proof.
  induction l as [|a l IH]; intros [|n] x H; cbn [length] in H; try lia.
  - destruct l; reflexivity.
  - cbn [upd firstn app]. f_equal. apply IH. lia.
Qed.

Lemma firstn_upd_ge : forall (l : list A) n m x, (n <= m)%nat -> firstn n (upd m x l) = firstn n l.
Proof.
  induction l as [|a l IH]; intros [|n] [|m] x H; cbn [upd firstn]; auto; try lia.
  f_equal. apply IH. lia.
Qed.

Lemma nth_firstn_last : forall (l : list A) s x d, firstn (length (s ++ [x])) l = s ++ [x] ->
  nth (length s) l d = x.
Proof.
  intros l s x d H. rewrite app_length in H. cbn [length] in H.
  rewrite <- (firstn_skipn (length s + 1) l), H. rewrite <- app_assoc.
  rewrite app_nth2 by lia. rewrite Nat.sub_diag. reflexivity.
Qed.

Lemma add_rep : forall b c s x, b * 8 < 4294967296 -> rep b c s ->
  exists c', pd_addto_container null c x = Ok c' /\ 
    rep (b + (if c_nelts c =? c_bufsize c - 1 then c_initsize c else 0)) c' (s ++ [x]) /\
    c_initsize c' = c_initsize c /\
    (c_bufsize c' <= c_bufsize c \/ c_bufsize c' = Z.of_nat (length s) + 1 + c_initsize c).
Proof.
  intros b c s x Hb (R1 & R2 & R3 & R4 & R5 & R6 & R7). unfold pd_addto_container.
  rewrite (u32_small (c_bufsize c - 1)) by lia.
  destruct (c_nelts c =? c_bufsize c - 1) eqn:E.
  - apply Z.eqb_eq in E. unfold grow_container.
    rewrite (u32_small (c_bufsize c + c_initsize c)) by lia.
    rewrite (u32_small (_ * 8)) by lia. rewrite Z.div_mul by lia.
    rewrite (proj2 (Z.eqb_neq _ 0)) by lia. rewrite Z.ltb_irrefl. cbn [bind c_nelts c_elt c_bufsize c_initsize].
    assert (LN : Z.to_nat (c_nelts c) = length s) by lia.
    rewrite LN.
    assert (LF : length (firstn (length s) (c_elt c)) = length s) by (rewrite firstn_length; lia).
    rewrite (proj2 (Z.ltb_lt _ _)) by (rewrite app_length, repeat_length, LF; lia).
    eexists. split; [reflexivity|]. unfold rep. cbn [c_nelts c_elt c_bufsize c_initsize].
    rewrite R1, u32_small by lia.
    split; [|split; [auto|right; lia]].
    rewrite !app_length. cbn [length]. rewrite upd_length, app_length, repeat_length, LF.
    repeat (split; [lia|]).
    rewrite Nat.add_1_r. rewrite firstn_upd_snoc by (rewrite app_length, repeat_length, LF; lia).
    f_equal. rewrite firstn_app, LF, Nat.sub_diag. cbn [firstn]. rewrite app_nil_r.
    rewrite firstn_all2 by lia. auto.
  - apply Z.eqb_neq in E. cbn [bind]. rewrite (proj2 (Z.ltb_lt _ _)) by lia.
    eexists. split; [reflexivity|]. unfold rep. cbn [c_nelts c_elt c_bufsize c_initsize].
    rewrite R1, u32_small by lia. rewrite !app_length. cbn [length]. rewrite upd_length.
    split; [|split; [auto|left; lia]].
    repeat (split; [lia|]). rewrite Nat.add_1_r. replace (Z.to_nat (Z.of_nat (length s))) with (length s) by lia.
    rewrite firstn_upd_snoc by lia. f_equal. auto.
Qed.

Lemma pop_rep : forall b c s x, b < 4294967296 -> rep b c (s ++ [x]) ->
  exists c', pd_pop_container null c = Ok (x, c') /\ rep b c' s /\ c_bufsize c' = c_bufsize c /\
    c_initsize c' = c_initsize c.
Proof.
  intros b c s x Hb (R1 & R2 & R3 & R4 & R5 & R6 & R7). unfold pd_pop_container.
  rewrite app_length in R1, R5. cbn [length] in R1, R5.
  replace (c_nelts c - 1) with (Z.of_nat (length s)) by lia.
  rewrite u32_small by lia. rewrite (proj2 (Z.ltb_lt _ _)) by lia.
  rewrite Nat2Z.id. rewrite (nth_firstn_last _ _ _ _ R7).
  eexists. split; [reflexivity|]. unfold rep. cbn [c_nelts c_elt c_bufsize c_initsize].
  rewrite upd_length. split; [|split; reflexivity]. repeat (split; [first [lia|reflexivity]|]).
  rewrite app_length in R7. cbn [length] in R7.
  assert (R8 : firstn (length s) (c_elt c) = s).
  { replace (length s) with (Nat.min (length s) (length s + 1)) at 1 by lia.
    rewrite <- firstn_firstn, R7, firstn_app, Nat.sub_diag, firstn_all2 by lia.
    cbn [firstn]. apply app_nil_r. }
  rewrite firstn_upd_ge by lia. auto.
Qed.

Lemma elt_rep : forall b c s i x, rep b c s -> nth_error s i = Some x ->
  pd_container_elt null c (Z.of_nat i) = Ok x.
Proof.
  intros b c s i x (R1 & R2 & R3 & R4 & R5 & R6 & R7) H. unfold pd_container_elt.
  assert (i < length s)%nat by (apply nth_error_Some; congruence).
  rewrite (proj2 (Z.ltb_lt _ (c_nelts c))) by lia. rewrite (proj2 (Z.ltb_lt _ _)) by lia.
  rewrite Nat2Z.id. f_equal. apply nth_error_nth.
  rewrite <- (firstn_skipn (length s) (c_elt c)), R7. rewrite nth_error_app1; auto.
Qed.

Lemma cont_run_ok : forall h c s m, Forall (fun o => match o with Elt i => 0 <= i | _ => True end) h ->
  c_bufsize c <= m + 1 + c_initsize c -> Z.of_nat (length s) <= m ->
  (m + Z.of_nat (length h) + 2 * c_initsize c + 2) * 8 < 4294967296 ->
  rep (m + 2 * c_initsize c + 2) c s ->
  cont_run null c h = ideal_run s h.
Proof.
  induction h as [|o h IH]; intros c s m F B M Q R; cbn [cont_run ideal_run]; auto.
  inversion F as [|? ? F1 F2]; subst. cbn [length] in Q.
  pose proof R as (R1 & R2 & R3 & R4 & R5 & R6 & R7).
  destruct o as [x| |i|]; cbn [cont_step ideal_step].
  - destruct (add_rep (m + 2 * c_initsize c + 2) c s x) as (c' & A1 & A2 & A3 & A4); auto; try lia.
    rewrite A1. cbn [bind fst snd]. rewrite (IH c' (s ++ [x]) (m + 1)); auto; try lia.
    + rewrite app_length. cbn [length]. lia.
    + rewrite A3. destruct A2 as (S1 & S2 & S3 & S4 & S5 & S6 & S7).
      unfold rep. rewrite A3 in *. repeat (split; auto; try lia).
  - destruct (rev s) as [|x r] eqn:RV.
    + assert (s = []) by (rewrite <- (rev_involutive s), RV; reflexivity). subst s.
      unfold pd_pop_container. rewrite R1. cbn [length].
      change (u32 (Z.of_nat 0 - 1)) with 4294967295. cbv zeta.
      rewrite (proj2 (Z.ltb_ge 4294967295 (Z.of_nat (length (c_elt c))))) by lia. reflexivity.
    + assert (ES : s = rev r ++ [x]) by (rewrite <- (rev_involutive s), RV; reflexivity).
      rewrite ES in R. destruct (pop_rep (m + 2 * c_initsize c + 2) c (rev r) x ltac:(lia) R) as (c' & A1 & A2 & A3 & A4).
      rewrite A1. cbn [bind fst snd]. rewrite (IH c' (rev r) m); auto; try lia.
      * rewrite ES, app_length in M. lia.
      * rewrite A4. auto.
  - unfold pd_container_elt. rewrite R1. rewrite (proj2 (Z.leb_le 0 i)) by lia. cbn [andb].
    destruct (i <? Z.of_nat (length s)) eqn:E; cbn [bind].
    + apply Z.ltb_lt in E. rewrite (proj2 (Z.ltb_lt i _)) by lia. cbn [bind].
      destruct (nth_error s (Z.to_nat i)) as [x|] eqn:N; [|apply nth_error_None in N; lia].
      cbn [bind fst snd].
      pose proof (elt_rep _ c s _ _ R N) as EL. unfold pd_container_elt in EL. rewrite Z2Nat.id in EL by lia.
      rewrite R1, (proj2 (Z.ltb_lt i _)), (proj2 (Z.ltb_lt i _)) in EL by lia. inversion EL as [EL'].
      rewrite EL'. rewrite (IH c s m); auto. lia.
    + reflexivity.
  - unfold pd_container_nelts. rewrite R1. cbn [bind fst snd]. rewrite (IH c s m); auto. lia.
Qed.

Lemma new_rep : forall n, 0 <= n -> let i := Z.max 100 n in
  rep (2 * i + 2) (pd_new_container null n) [] /\ c_initsize (pd_new_container null n) = i /\
  c_bufsize (pd_new_container null n) = i.
Proof.
  intros n H i. unfold pd_new_container.
  assert (E : (if n <? 100 then 100 else n) = i).
  { unfold i. destruct (n <? 100) eqn:E; [apply Z.ltb_lt in E|apply Z.ltb_ge in E]; lia. }
  rewrite E. unfold rep. cbn [c_nelts c_elt c_bufsize c_initsize length firstn].
  rewrite repeat_length. repeat split; try lia.
Qed.

(** pushes into a container that is not nearly full keep the same block *)
Lemma push_many : forall n c s x, rep 4294967296 c s ->
  Z.of_nat (length s) + Z.of_nat n <= c_bufsize c - 1 ->
  forall h, exists c', rep 4294967296 c' (s ++ repeat x n) /\ c_bufsize c' = c_bufsize c /\
    c_initsize c' = c_initsize c /\
    cont_run null c (repeat (Push x) n ++ h) = bind (cont_run null c' h) (fun l => Ok (repeat OUnit n ++ l)).
Proof.
  induction n as [|n IH]; intros c s x R H h.
  - exists c. cbn [repeat app]. rewrite app_nil_r. repeat (split; auto).
    destruct (cont_run null c h); auto.
  - assert (STEP : exists c1, pd_addto_container null c x = Ok c1 /\ rep 4294967296 c1 (s ++ [x]) /\
      c_bufsize c1 = c_bufsize c /\ c_initsize c1 = c_initsize c).
    { destruct R as (R1 & R2 & R3 & R4 & R5 & R6 & R7). unfold pd_addto_container.
      rewrite (u32_small (c_bufsize c - 1)) by lia. rewrite (proj2 (Z.eqb_neq _ _)) by lia. cbn [bind].
      rewrite (proj2 (Z.ltb_lt _ _)) by lia. eexists. split; [reflexivity|].
      unfold rep. cbn [c_nelts c_elt c_bufsize c_initsize].
      rewrite R1, u32_small by lia. rewrite !app_length. cbn [length]. rewrite upd_length.
      split; [|split; auto].
      repeat (split; [lia|]). rewrite Nat.add_1_r. replace (Z.to_nat (Z.of_nat (length s))) with (length s) by lia.
      rewrite firstn_upd_snoc by lia. f_equal. auto. }
    destruct STEP as (c1 & A1 & A2 & A3 & A4).
    destruct (IH c1 (s ++ [x]) x A2 ltac:(rewrite app_length; cbn [length]; lia) h) as (c' & B1 & B2 & B3 & B4).
    exists c'. rewrite <- app_assoc in B1. cbn [app repeat] in *. split; auto. split; [congruence|]. split; [congruence|].
    cbn [cont_run cont_step]. rewrite A1. cbn [bind fst snd]. rewrite B4.
    destruct (cont_run null c' h); auto.
Qed.

End Rep.

(** * Sorted buffers *)

Open Scope nat_scope.

Definition incr (l : list nat) : Prop := StronglySorted lt l.

Lemma incr_cons : forall l x y, incr (y :: l) -> x < y -> incr (x :: y :: l).
Proof.
  intros l x y H L. inversion H as [|? ? H1 H2]; subst. constructor; auto. constructor; auto.
  eapply Forall_impl; [|exact H2]. cbn. intros; lia.
Qed.

Lemma incr_nth : forall l i j x y, incr l -> i < j -> nth_error l i = Some x -> nth_error l j = Some y -> x < y.
Proof.
  induction l as [|a l IH]; intros i j x y H Hij Hi Hj; [destruct i; discriminate|].
  inversion H; subst. destruct j; [lia|]. destruct i; cbn [nth_error] in *.
  - inversion Hi; subst. rewrite Forall_forall in H3. apply H3. eapply nth_error_In; eauto.
  - eapply (IH i j); eauto. lia.
Qed.

Lemma bsearch_ok : forall fuel key buf l u, incr buf -> u <= length buf -> u - l < fuel -> l <= u ->
  (forall i x, nth_error buf i = Some x -> i < l -> x < key) ->
  (forall i x, nth_error buf i = Some x -> u <= i -> key < x) ->
  (exists p, bsearch fuel key buf l u = Ok (Some p) /\ nth_error buf p = Some key) \/
  (bsearch fuel key buf l u = Ok None /\ ~ In key buf).
Proof.
  induction fuel as [|f IH]; intros key buf l u S U F LU HL HU; [lia|]. cbn [bsearch].
  destruct (l <? u) eqn:E.
  - apply Nat.ltb_lt in E.
    assert (D : l <= (l + u) / 2 < u).
    { split. apply Nat.div_le_lower_bound; lia. apply Nat.div_lt_upper_bound; lia. }
    remember ((l + u) / 2) as idx.
    destruct (nth_error buf idx) as [x|] eqn:N; [|apply nth_error_None in N; lia].
    unfold pd_idx_cmp. destruct (Nat.compare_spec key x) as [C|C|C].
    + subst x. left. eauto.
    + apply IH; auto; try lia. intros i y Hi Hle.
      destruct (Nat.eq_dec i idx) as [->|]; [congruence|].
      pose proof (incr_nth buf idx i x y S ltac:(lia) N Hi). lia.
    + apply IH; auto; try lia. intros i y Hi Hlt.
      destruct (Nat.eq_dec i idx) as [->|]; [congruence|].
      pose proof (incr_nth buf i idx y x S ltac:(lia) Hi N). lia.
  - apply Nat.ltb_ge in E. right. split; auto. intros HI. apply In_nth_error in HI.
    destruct HI as [i Hi]. destruct (Nat.lt_ge_cases i l).
    + specialize (HL i key Hi H). lia.
    + specialize (HU i key Hi ltac:(lia)). lia.
Qed.

Lemma bsearch_all_ok : forall key buf, incr buf ->
  (exists p, bsearch_all key buf = Ok (Some p) /\ nth_error buf p = Some key) \/
  (bsearch_all key buf = Ok None /\ ~ In key buf).
Proof.
  intros. unfold bsearch_all. apply bsearch_ok; auto; try lia.
  intros i x Hx Hi. apply nth_error_None in Hi. congruence.
Qed.

Lemma insert_loop_ok : forall l ins prev, incr (prev :: l) -> ~ In ins (prev :: l) -> prev < ins ->
  let (r, ahead) := insert_loop ins prev l in
  let out := r ++ (if ahead then [] else [ins]) in
  incr (prev :: out) /\ length out = S (length l) /\ forall y, In y out <-> (y = ins \/ In y l).
Proof.
  induction l as [|x l IH]; intros ins prev S NI PL; cbn [insert_loop].
  - cbn. split; [|split; auto].
    + constructor. repeat constructor. repeat constructor; auto.
    + intros y. intuition.
  - inversion S as [|? ? S1 S2]; subst. inversion S2; subst.
    destruct (Nat.lt_trichotomy ins x) as [T|[T|T]].
    + assert (L0 : insert_loop ins x l = (l, false)).
      { clear IH. assert (G : forall l p, incr (p :: l) -> ins < p -> insert_loop ins p l = (l, false)).
        { clear. induction l as [|y l IH]; intros p S H; cbn [insert_loop]; auto.
          inversion S as [|? ? S1 S2]; subst. inversion S2; subst.
          rewrite (IH y); auto; [|lia].
          rewrite (proj2 (Nat.ltb_ge p ins)) by lia. reflexivity. }
        apply G; auto. }
      rewrite L0. rewrite (proj2 (Nat.ltb_lt prev ins)), (proj2 (Nat.ltb_lt ins x)) by lia. cbn [andb].
      rewrite app_nil_r. split; [|split; auto].
      * apply incr_cons; auto. apply incr_cons; auto.
      * intros y; cbn. intuition.
    + exfalso. apply NI. cbn; auto.
    + specialize (IH ins x S1 ltac:(cbn in *; tauto) T).
      destruct (insert_loop ins x l) as [r ahead].
      rewrite (proj2 (Nat.ltb_ge ins x)) by lia. rewrite andb_false_r.
      cbv zeta in *. destruct IH as (I1 & I2 & I3). cbn [app]. split; [|split].
      * apply incr_cons; auto.
      * cbn [length]. lia.
      * intros y. cbn [In]. rewrite I3. tauto.
Qed.

Lemma sortedbuf_insert_ok : forall buf ins, buf <> [] -> incr buf ->
  exists buf', pd_sortedbuf_insert (Some buf) ins = Ok (Some buf') /\ incr buf' /\ buf' <> [] /\
    forall y, In y buf' <-> (y = ins \/ In y buf).
Proof.
  intros [|x l] ins NE S; [congruence|]. cbn [pd_sortedbuf_insert].
  destruct (bsearch_all_ok ins (x :: l) S) as [(p & B1 & B2)|(B1 & B2)]; rewrite B1; cbn [bind].
  - exists (x :: l). repeat (split; auto). intros [->|]; auto. eapply nth_error_In; eauto.
  - destruct (ins <? x) eqn:E.
    + apply Nat.ltb_lt in E. exists (ins :: x :: l). split; auto. split; [|split; [discriminate|]].
      * apply incr_cons; auto.
      * intros y; cbn. intuition.
    + apply Nat.ltb_ge in E. assert (x < ins). { destruct (Nat.eq_dec x ins); [subst; exfalso; apply B2; cbn; auto|lia]. }
      pose proof (insert_loop_ok l ins x S B2 H) as IL.
      destruct (insert_loop ins x l) as [r ahead]. cbv zeta in IL. destruct IL as (I1 & I2 & I3).
      cbn [length]. rewrite I2, Nat.eqb_refl. eexists. split; [reflexivity|]. split; auto. split; [discriminate|].
      intros y. cbn [In]. rewrite I3. tauto.
Qed.
