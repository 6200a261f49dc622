From Coq Require Import List ZArith Lia Bool Arith Sorted Permutation.
From Verif Require Import Base Containers PdStore PdStoreSpec.
Import ListNotations.
Open Scope nat_scope.

Lemma kcmp_refl : forall a, kcmp a a = Eq.
Proof. induction a; cbn; auto. rewrite Nat.compare_refl. auto. Qed.

Lemma kcmp_eq : forall a b, kcmp a b = Eq <-> a = b.
Proof.
  split; [|intros ->; apply kcmp_refl].
  revert b. induction a as [|x a IH]; intros [|y b]; cbn; try discriminate; auto.
  destruct (Nat.compare_spec x y); try discriminate. intros H'. subst. f_equal. auto.
Qed.

Lemma kcmp_opp : forall a b, kcmp b a = CompOpp (kcmp a b).
Proof.
  induction a as [|x a IH]; intros [|y b]; cbn; auto.
  rewrite (Nat.compare_antisym x y). destruct (Nat.compare x y); cbn; auto.
Qed.

Lemma kcmp_trans : forall a b c, kcmp a b = Lt -> kcmp b c = Lt -> kcmp a c = Lt.
Proof.
  induction a as [|x a IH]; intros [|y b] [|z c]; cbn; try discriminate; auto.
  destruct (Nat.compare_spec x y); destruct (Nat.compare_spec y z); destruct (Nat.compare_spec x z);
    try discriminate; auto; try lia. intros; eauto.
Qed.

Definition klt {V} (a b : key * V) : Prop := kcmp (fst a) (fst b) = Lt.
Definition ksorted {V} (m : list (key * V)) : Prop := StronglySorted klt m.
Definition isorted {P} (m : list (nat * P)) : Prop := StronglySorted (fun a b => fst a < fst b) m.

Lemma get_put_same : forall V (m : judySL (V:=V)) k v, jsl_get (jsl_put m k v) k = Some v.
Proof.
  intros V m k v. induction m as [|(j, w) m IH]; cbn [jsl_put jsl_get].
  - rewrite kcmp_refl; auto.
  - destruct (kcmp k j) eqn:E; cbn [jsl_get]; rewrite ?kcmp_refl; auto. rewrite E. auto.
Qed.

Lemma get_put_other : forall V (m : judySL (V:=V)) k k' v, k' <> k -> jsl_get (jsl_put m k v) k' = jsl_get m k'.
Proof.
  intros V m k k' v N. induction m as [|(j, w) m IH]; cbn [jsl_put jsl_get].
  - destruct (kcmp k' k) eqn:E; auto. apply kcmp_eq in E. congruence.
  - destruct (kcmp k j) eqn:E; cbn [jsl_get].
    + apply kcmp_eq in E. subst j. destruct (kcmp k' k) eqn:E2; auto. apply kcmp_eq in E2. congruence.
    + destruct (kcmp k' k) eqn:E2; auto. apply kcmp_eq in E2. congruence.
    + rewrite IH. auto.
Qed.

Lemma put_in : forall V (m : judySL (V:=V)) k v x, In x (jsl_put m k v) -> x = (k, v) \/ In x m.
Proof.
  intros V m k v x. induction m as [|(j, w) m IH]; cbn [jsl_put]; [cbn; intuition|].
  destruct (kcmp k j); cbn [In]; intuition.
Qed.

Lemma put_sorted : forall V (m : judySL (V:=V)) k v, ksorted m -> ksorted (jsl_put m k v).
Proof.
  intros V m k v S. induction m as [|(j, w) m IH]; cbn [jsl_put]; [repeat constructor|].
  inversion S as [|? ? S1 S2]; subst. destruct (kcmp k j) eqn:E.
  - apply kcmp_eq in E. subst. constructor; auto.
  - constructor; auto. constructor; auto. eapply Forall_impl; [|exact S2].
    intros [a b] H. unfold klt in *. cbn in *. eapply kcmp_trans; eauto.
  - constructor; [apply IH; exact S1|]. apply Forall_forall. intros x Hx. apply put_in in Hx. destruct Hx as [->|Hx].
    + unfold klt; cbn. rewrite kcmp_opp, E. reflexivity.
    + rewrite Forall_forall in S2. auto.
Qed.

Lemma get_in : forall V (m : judySL (V:=V)) k v, ksorted m -> In (k, v) m -> jsl_get m k = Some v.
Proof.
  intros V m k v S. induction m as [|(j, w) m IH]; cbn [In jsl_get]; [tauto|].
  inversion S as [|? ? S1 S2]; subst. intros [H|H].
  - inversion H; subst. rewrite kcmp_refl. auto.
  - rewrite Forall_forall in S2. specialize (S2 _ H). unfold klt in S2. cbn in S2.
    rewrite kcmp_opp, S2. cbn. auto.
Qed.

Lemma get_some_in : forall V (m : judySL (V:=V)) k v, jsl_get m k = Some v -> In (k, v) m.
Proof.
  intros V m k v. induction m as [|(j, w) m IH]; cbn [In jsl_get]; [discriminate|].
  destruct (kcmp k j) eqn:E; auto. apply kcmp_eq in E. subst. intros H; inversion H; auto.
Qed.

Lemma next_split : forall V (m1 : judySL (V:=V)) k v m2, ksorted (m1 ++ (k, v) :: m2) ->
  jsl_next (m1 ++ (k, v) :: m2) k = match m2 with [] => None | x :: _ => Some x end.
Proof.
  intros V m1 k v m2. induction m1 as [|(j, w) m1 IH]; cbn [app jsl_next]; intros S.
  - rewrite kcmp_refl. inversion S as [|? ? S1 S2]; subst. destruct m2 as [|(j, w) m2]; auto.
    cbn [jsl_next]. inversion S2; subst. unfold klt in H1. cbn in H1. rewrite H1. auto.
  - inversion S as [|? ? S1 S2]; subst. rewrite Forall_forall in S2.
    specialize (S2 (k, v) ltac:(apply in_or_app; cbn; auto)). unfold klt in S2. cbn in S2.
    rewrite kcmp_opp, S2. cbn. auto.
Qed.

Lemma jl_next_split : forall P (a1 : judyL (P:=P)) i v a2, isorted (a1 ++ (i, v) :: a2) ->
  jl_next (a1 ++ (i, v) :: a2) i = match a2 with [] => None | x :: _ => Some x end.
Proof.
  intros P a1 i v a2. induction a1 as [|(j, w) m1 IH]; cbn [app jl_next]; intros S.
  - rewrite Nat.ltb_irrefl. inversion S as [|? ? S1 S2]; subst. destruct a2 as [|(j, w) m2]; auto.
    cbn [jl_next]. inversion S2; subst. cbn in H1. rewrite (proj2 (Nat.ltb_lt _ _)); auto.
  - inversion S as [|? ? S1 S2]; subst. rewrite Forall_forall in S2.
    specialize (S2 (i, v) ltac:(apply in_or_app; cbn; auto)). cbn in S2.
    rewrite (proj2 (Nat.ltb_ge _ _)) by lia. auto.
Qed.

Section Store.
Context {D P : Type} (hash : D -> key) (pack : D -> P) (unpack : P -> D) (iso isot : D -> D -> bool).
Notation addto := (pd_addto_pdstor hash pack unpack iso isot).

Lemma keyb_true : forall a b, keyb a b = true <-> a = b.
Proof. intros. unfold keyb. destruct (list_eq_dec Nat.eq_dec a b); intuition discriminate. Qed.
Lemma keyb_refl : forall a, keyb a a = true.
Proof. intros. apply keyb_true. auto. Qed.

Lemma number_app : forall X (l l' : list X) n, number n (l ++ l') = number n l ++ number (n + length l) l'.
Proof.
  induction l as [|x l IH]; intros l' n; cbn [number app length].
  - rewrite Nat.add_0_r. auto.
  - rewrite IH. do 3 f_equal. lia.
Qed.
Lemma number_length : forall X (l : list X) n, length (number n l) = length l.
Proof. induction l; intros; cbn; auto. Qed.
Lemma number_fst_ge : forall X (l : list X) n, Forall (fun a => n <= fst a) (number n l).
Proof.
  induction l as [|x l IH]; intros n; cbn [number]; constructor; cbn; auto.
  eapply Forall_impl; [|apply (IH (S n))]. cbn; intros; lia.
Qed.
Lemma number_isorted : forall X (l : list X) n, isorted (number n l).
Proof.
  induction l as [|x l IH]; intros n; cbn [number]; constructor; auto. apply IH.
  eapply Forall_impl; [|apply (number_fst_ge _ l (S n))]. cbn. intros; lia.
Qed.
Lemma number_map : forall X Y (f : X -> Y) l n, number n (map f l) = map (fun a => (fst a, f (snd a))) (number n l).
Proof. induction l as [|x l IH]; intros n; cbn; f_equal; auto. Qed.

Lemma jl_insert_end : forall (l : list P) n p,
  jl_insert (number n l) (n + length l) p = Some (number n l ++ [(n + length l, p)]).
Proof.
  induction l as [|x l IH]; intros n p; cbn [number jl_insert length app]; auto.
  rewrite (proj2 (Nat.compare_gt_iff _ n)) by lia.
  replace (n + S (length l)) with (S n + length l) by lia. rewrite IH. auto.
Qed.

(** scanning the numbered list of packed codes *)
Lemma scan_spec : forall eq d (l : list D) n last, 
  (forall u, scan unpack iso isot eq d (number n (map pack l)) last = inl u ->
     exists i r, u = n + i /\ nth_error l i = Some r /\ same iso isot eq (stored pack unpack r) d = true /\
       forall j q, j < i -> nth_error l j = Some q -> same iso isot eq (stored pack unpack q) d = false) /\
  (forall u, scan unpack iso isot eq d (number n (map pack l)) last = inr u ->
     u = (if l then last else n + length l - 1) /\
     forall r, In r l -> same iso isot eq (stored pack unpack r) d = false).
Proof.
  intros eq d l. induction l as [|r l IH]; intros n last; cbn [map number scan].
  - split; intros u H; inversion H; subst. split; auto. intros ? [].
  - fold (stored pack unpack r). destruct (same iso isot eq (stored pack unpack r) d) eqn:E.
    + split; intros u H; inversion H; subst. exists 0, r. repeat (split; auto). intros; lia.
    + destruct (IH (S n) n) as [A B]. split; intros u H.
      * destruct (A u H) as (i & q & I1 & I2 & I3 & I4). exists (S i), q. split; [lia|]. split; auto. split; auto.
        intros [|j] q' Hj Hq; cbn in Hq; [congruence|]. eapply (I4 j); eauto. lia.
      * destruct (B u H) as [B1 B2]. split.
        -- destruct l; cbn [length] in *; subst; lia.
        -- intros q [<-|Hq]; auto.
Qed.

(** The store holds exactly the accepted codes, numbered under their hashes. *)
Definition holds (s : pdstor) (reps : list D) : Prop :=
  ksorted (hmap s) /\
  (forall k, match jsl_get (hmap s) k with
             | Some a => under hash k reps <> [] /\ a = number 1 (map pack (under hash k reps))
             | None => under hash k reps = [] end) /\
  nelts s = u32 (Z.of_nat (length reps)).

Lemma existsb_under : forall eq d reps, existsb (fun r => stands_for hash pack unpack iso isot eq r d) reps =
  existsb (fun r => same iso isot eq (stored pack unpack r) d) (under hash (hash d) reps).
Proof.
  intros eq d reps. unfold under, stands_for. induction reps as [|r reps IH]; cbn [filter existsb]; auto.
  rewrite IH. destruct (keyb (hash r) (hash d)); auto.
Qed.

Lemma under_app : forall k l l', under hash k (l ++ l') = under hash k l ++ under hash k l'.
Proof. intros. unfold under. apply filter_app. Qed.

Lemma u32_succ : forall n, u32 (u32 (Z.of_nat n) + 1)%Z = u32 (Z.of_nat (S n)).
Proof. intros. unfold u32. rewrite Zplus_mod_idemp_l. f_equal. lia. Qed.

Lemma add_holds : forall s reps d eq, holds s reps ->
  exists s' u, addto s d eq = Ok (s', u) /\ holds s' (accept hash pack unpack iso isot reps (d, eq)) /\
    it_ptr s' = None /\ it_hash s' = [] /\ it_uid s' = 0 /\
    (if existsb (fun r => stands_for hash pack unpack iso isot eq r d) reps
     then hmap s' = hmap s /\ nelts s' = nelts s /\
          exists r, 1 <= u /\ nth_error (under hash (hash d) reps) (u - 1) = Some r /\
            stands_for hash pack unpack iso isot eq r d = true
     else u = S (length (under hash (hash d) reps))).
Proof.
  intros s reps d eq (H1 & H2 & H3). unfold pd_addto_pdstor. cbn [hmap init_iter].
  pose proof (H2 (hash d)) as G. set (L := under hash (hash d) reps) in *.
  assert (EA : match jsl_get (hmap s) (hash d) with Some a => a | None => [] end = number 1 (map pack L)).
  { destruct (jsl_get (hmap s) (hash d)) as [a|]; [tauto|]. rewrite G. reflexivity. }
  rewrite EA. clear EA.
  assert (EF : match number 1 (map pack L) with [] => inr 0 | _ => scan unpack iso isot eq d (number 1 (map pack L)) 0 end
    = scan unpack iso isot eq d (number 1 (map pack L)) 0).
  { destruct (number 1 (map pack L)); auto. }
  rewrite EF. clear EF.
  destruct (scan_spec eq d L 1 0) as [A B]. unfold accept. cbn [fst snd]. rewrite existsb_under.
  fold L. destruct (scan unpack iso isot eq d (number 1 (map pack L)) 0) as [u|u] eqn:SC.
  - destruct (A u eq_refl) as (i & r & I1 & I2 & I3 & I4).
    assert (EX : existsb (fun r => same iso isot eq (stored pack unpack r) d) L = true).
    { apply existsb_exists. exists r. split; auto. eapply nth_error_In; eauto. }
    rewrite EX. eexists _, _. split; [reflexivity|]. split; [repeat (split; auto)|].
    split; auto. split; auto. split; auto. split; auto. split; auto. exists r. split; [lia|]. subst u.
    replace (1 + i - 1) with i by lia. split; auto. unfold stands_for. rewrite I3.
    apply nth_error_In in I2. unfold L, under in I2. apply filter_In in I2. destruct I2 as [_ I2]. rewrite I2. auto.
  - destruct (B u eq_refl) as [B1 B2].
    assert (EX : existsb (fun r => same iso isot eq (stored pack unpack r) d) L = false).
    { destruct (existsb _ L) eqn:E; auto. apply existsb_exists in E. destruct E as (r & R1 & R2).
      rewrite (B2 r R1) in R2. discriminate. }
    rewrite EX. assert (EU : S u = 1 + length (map pack L)).
    { rewrite map_length. subst u. destruct L; cbn [length]; lia. }
    rewrite EU, jl_insert_end. eexists _, _. split; [reflexivity|]. split; [|split; auto; split; auto; split; auto; rewrite map_length; auto].
    split; [|split]; cbn [hmap nelts].
    + apply put_sorted; auto.
    + intros k. destruct (list_eq_dec Nat.eq_dec k (hash d)) as [->|N].
      * rewrite get_put_same. rewrite under_app. fold L.
        replace (under hash (hash d) [d]) with [d] by (unfold under; cbn [filter]; rewrite keyb_refl; auto).
        split; [destruct L; discriminate|]. rewrite map_app, number_app. reflexivity.
      * rewrite get_put_other by auto. rewrite under_app.
        replace (under hash k [d]) with (@nil D). rewrite app_nil_r. apply H2.
        unfold under. cbn [filter]. destruct (keyb (hash d) k) eqn:E; auto. apply keyb_true in E. congruence.
    + change (nelts (init_iter s)) with (nelts s). rewrite H3, app_length. cbn [length]. rewrite Nat.add_1_r. apply u32_succ.
Qed.

Lemma new_holds : holds pd_new_pdstor [].
Proof. split; [constructor|split; auto]; cbn; auto. Qed.

(** the positions of accepted codes never change *)
Lemma accept_prefix : forall h reps, exists t, fold_left (accept hash pack unpack iso isot) h reps = reps ++ t.
Proof.
  induction h as [|x h IH]; intros reps; cbn [fold_left].
  - exists []. rewrite app_nil_r. auto.
  - destruct (IH (accept hash pack unpack iso isot reps x)) as [t E]. rewrite E. unfold accept.
    destruct (existsb _ reps); eauto. rewrite <- app_assoc. eauto.
Qed.

Lemma nth_under_app : forall k reps t i r, nth_error (under hash k reps) i = Some r ->
  nth_error (under hash k (reps ++ t)) i = Some r.
Proof.
  intros. rewrite under_app, nth_error_app1; auto. apply nth_error_Some. congruence.
Qed.

Lemma add_all_holds : forall h s reps, holds s reps ->
  exists s' us, add_all hash pack unpack iso isot s h = Ok (s', us) /\
    holds s' (fold_left (accept hash pack unpack iso isot) h reps) /\
    length us = length h /\
    forall i u d eq, nth_error us i = Some u -> nth_error h i = Some (d, eq) ->
      exists r, 1 <= u /\ nth_error (under hash (hash d) (fold_left (accept hash pack unpack iso isot) h reps)) (u - 1) = Some r /\
        (r = d \/ stands_for hash pack unpack iso isot eq r d = true).
Proof.
  induction h as [|(d, eq) h IH]; intros s reps H; cbn [add_all fold_left].
  - exists s, []. repeat (split; auto). intros [|i]; discriminate.
  - destruct (add_holds s reps d eq H) as (s1 & u & A1 & A2 & A3 & A4 & A5 & A6). rewrite A1. cbn [bind fst].
    destruct (IH s1 _ A2) as (s2 & us & B1 & B2 & B3 & B4). rewrite B1. cbn [bind fst snd].
    exists s2, (u :: us). split; auto. split; auto. split; [cbn; auto|].
    intros [|i] v d' eq' Hv Hd; cbn [nth_error] in Hv, Hd; [|eapply B4; eauto].
    inversion Hv; subst v. inversion Hd; subst d' eq'. clear Hv Hd.
    destruct (accept_prefix h (accept hash pack unpack iso isot reps (d, eq))) as [t E]. rewrite E.
    unfold accept in *. cbn [fst snd] in *.
    destruct (existsb (fun r => stands_for hash pack unpack iso isot eq r d) reps).
    + destruct A6 as (_ & _ & r & R1 & R2 & R3). exists r. split; auto. split; auto. apply nth_under_app; auto.
    + subst u. exists d. split; [lia|]. split; auto. apply nth_under_app.
      rewrite under_app, nth_error_app2 by lia. replace (S _ - 1 - _) with 0 by lia.
      unfold under. cbn [filter]. rewrite keyb_refl. reflexivity.
Qed.

(** ** Iteration *)

Definition entries (m : @judySL (@judyL P)) : list (nat * D) :=
  flat_map (fun x => map (fun e => (fst e, unpack (snd e))) (snd x)) m.

Lemma visit_rest_ok : forall fuel (s : pdstor) m1 k a1 i p a2 m2,
  hmap s = m1 ++ (k, a1 ++ (i, p) :: a2) :: m2 -> ksorted (hmap s) ->
  Forall (fun x => snd x <> [] /\ isorted (snd x) /\ fst x <> []) (hmap s) ->
  it_ptr s = Some k -> it_hash s = k -> it_uid s = i ->
  length a2 + length (entries m2) < fuel ->
  visit_rest unpack fuel s = Ok (init_iter s, map (fun e => (fst e, unpack (snd e))) a2 ++ entries m2).
Proof.
  induction fuel as [|fuel IH]; intros s m1 k a1 i p a2 m2 EM KS FA EP EH EU LF; [lia|].
  cbn [visit_rest]. unfold pd_stor_nextelt. rewrite EP, EH, EU.
  assert (KIN : In (k, a1 ++ (i, p) :: a2) (hmap s)) by (rewrite EM; apply in_or_app; cbn; auto).
  rewrite Forall_forall in FA. pose proof (FA _ KIN) as (F1 & F2 & F3). cbn [fst snd] in F1, F2, F3.
  rewrite (get_in _ _ _ _ KS KIN). destruct k as [|kc k']; [congruence|]. cbn [negb].
  rewrite jl_next_split by auto. destruct a2 as [|(j, q) a2].
  - rewrite EM at 1. rewrite next_split by (rewrite <- EM; auto).
    destruct m2 as [|(k2, a) m2]; [reflexivity|].
    assert (KIN2 : In (k2, a) (hmap s)) by (rewrite EM; apply in_or_app; cbn; auto).
    pose proof (FA _ KIN2) as (G1 & G2 & G3). cbn [fst snd] in G1, G2, G3.
    destruct a as [|(i2, p2) a]; [congruence|]. cbn [jl_first]. cbn [Nat.leb bind snd fst].
    rewrite (IH _ (m1 ++ [(kc :: k', a1 ++ [(i, p)])]) k2 [] i2 p2 a m2).
    + cbn [bind fst snd entries flat_map map app]. reflexivity.
    + cbn [hmap app]. rewrite EM, <- app_assoc. reflexivity.
    + auto.
    + apply Forall_forall; auto.
    + auto.
    + auto.
    + auto.
    + cbn [entries flat_map map app length snd] in LF. rewrite app_length, map_length in LF. fold (entries m2) in LF. lia.
  - cbn [bind snd fst]. rewrite (IH _ m1 (kc :: k') (a1 ++ [(i, p)]) j q a2 m2).
    + reflexivity.
    + cbn [hmap]. rewrite EM, <- app_assoc. reflexivity.
    + auto.
    + apply Forall_forall; auto.
    + auto.
    + auto.
    + auto.
    + cbn [length] in LF. lia.
Qed.

Lemma visit_ok : forall fuel (s : pdstor), ksorted (hmap s) ->
  Forall (fun x => snd x <> [] /\ isorted (snd x) /\ fst x <> []) (hmap s) ->
  length (entries (hmap s)) <= fuel -> 
  visit unpack fuel s = Ok (init_iter s, entries (hmap s)).
Proof.
  intros fuel s KS FA LF. unfold visit, pd_stor_firstelt. cbn [hmap init_iter].
  destruct (hmap s) as [|(k, a) m] eqn:EM; [cbn; unfold init_iter; rewrite EM; reflexivity|].
  cbn [jsl_first]. inversion FA as [|? ? (F1 & F2 & F3) F4]; subst. cbn [fst snd] in F1, F2, F3.
  assert (EK : match kcmp [] k with Gt => jsl_first m [] | _ => Some (k, a) end = Some (k, a)).
  { destruct k; reflexivity. }
  rewrite EK. destruct a as [|(i, p) a]; [congruence|]. cbn [jl_first Nat.leb bind snd fst].
  rewrite (visit_rest_ok fuel _ [] k [] i p a m); auto.
  - cbn [bind fst snd entries flat_map map app]. unfold init_iter. cbn [hmap nelts]. rewrite EM. reflexivity.
  - cbn [entries flat_map map app length snd fst] in LF. rewrite app_length, map_length in LF. fold (entries m) in LF. lia.
Qed.

(** ** Which keys and how many *)

Lemma holds_struct : forall s reps, holds s reps -> Forall (fun r => hash r <> []) reps ->
  Forall (fun x => snd x <> [] /\ isorted (snd x) /\ fst x <> []) (hmap s) /\
  hmap s = map (fun k => (k, number 1 (map pack (under hash k reps)))) (map fst (hmap s)) /\
  (forall k, In k (map fst (hmap s)) <-> exists r, In r reps /\ hash r = k).
Proof.
  intros s reps (H1 & H2 & H3) NE.
  assert (A : forall k a, In (k, a) (hmap s) -> under hash k reps <> [] /\ a = number 1 (map pack (under hash k reps))).
  { intros k a I. specialize (H2 k). rewrite (get_in _ _ _ _ H1 I) in H2. auto. }
  assert (N : forall k, under hash k reps <> [] -> exists r, In r reps /\ hash r = k).
  { intros k U. destruct (under hash k reps) as [|r l] eqn:E; [congruence|].
    assert (I : In r (under hash k reps)) by (rewrite E; cbn; auto). unfold under in I.
    apply filter_In in I. destruct I as [I1 I2]. apply keyb_true in I2. eauto. }
  split; [|split].
  - apply Forall_forall. intros (k, a) I. destruct (A k a I) as [B1 B2]. cbn [fst snd].
    split; [|split].
    + subst a. destruct (under hash k reps); [congruence|discriminate].
    + subst a. apply number_isorted.
    + destruct (N k B1) as (r & R1 & <-). rewrite Forall_forall in NE. auto.
  - clear H1 H2. induction (hmap s) as [|(k, a) m IH]; cbn [map fst]; auto. f_equal.
    + f_equal. apply A. cbn; auto.
    + apply IH. intros. apply A. cbn; auto.
  - intros k. split.
    + intros I. apply in_map_iff in I. destruct I as ((k', a) & <- & I). apply N. apply (A _ _ I).
    + intros (r & R1 & R2). specialize (H2 k). destruct (jsl_get (hmap s) k) as [a|] eqn:G.
      * apply in_map_iff. exists (k, a). split; auto. apply get_some_in. auto.
      * exfalso. assert (In r (under hash k reps)). unfold under. apply filter_In. split; auto. apply keyb_true; auto.
        rewrite H2 in H. inversion H.
Qed.

Lemma ksorted_nodup : forall V (m : list (key * V)), ksorted m -> NoDup (map fst m).
Proof.
  intros V m S. induction S; cbn [map]; constructor; auto. intros I. apply in_map_iff in I.
  destruct I as (x & X1 & X2). rewrite Forall_forall in H. specialize (H x X2). unfold klt in H.
  rewrite X1, kcmp_refl in H. discriminate.
Qed.

(** gathering the classes of a list by distinct keys that cover it permutes it *)
Lemma classes_permute : forall ks (l : list D), NoDup ks -> (forall r, In r l -> In (hash r) ks) ->
  Permutation (flat_map (fun k => under hash k l) ks) l.
Proof.
  intros ks l ND. induction l as [|r l IH]; intros C.
  - clear. induction ks; cbn; auto.
  - assert (IHc := IH (fun r' I => C r' (or_intror I))). clear IH.
    assert (In (hash r) ks) by (apply C; cbn; auto).
    apply in_split in H. destruct H as (k1 & k2 & EK). subst ks.
    assert (E : forall k', ~ In (hash r) k' -> flat_map (fun k => under hash k (r :: l)) k' = flat_map (fun k => under hash k l) k').
    { clear. induction k' as [|x k' IH]; intros N; cbn [flat_map]; auto. rewrite IH by (cbn in N; tauto).
      f_equal. unfold under. cbn [filter]. destruct (keyb (hash r) x) eqn:E; auto. apply keyb_true in E. subst. cbn in N. tauto. }
    apply NoDup_remove_2 in ND as ND2.
    rewrite flat_map_app in *. cbn [flat_map] in *.
    rewrite (E k1), (E k2) by (intros X; apply ND2, in_or_app; auto).
    unfold under at 2. cbn [filter]. rewrite keyb_refl. fold (under hash (hash r) l).
    etransitivity; [|apply perm_skip; exact IHc]. cbn [app]. symmetry. apply Permutation_middle.
Qed.

Lemma entries_of : forall (s : pdstor) reps,
  hmap s = map (fun k => (k, number 1 (map pack (under hash k reps)))) (map fst (hmap s)) ->
  entries (hmap s) = flat_map (fun k => number 1 (map (stored pack unpack) (under hash k reps))) (map fst (hmap s)).
Proof.
  intros s reps E. rewrite E at 1. unfold entries. clear E. generalize (map fst (hmap s)) as ks.
  induction ks as [|k ks IH]; cbn [map flat_map snd]; auto. rewrite IH. f_equal.
  rewrite <- number_map, map_map. reflexivity.
Qed.

Lemma map_snd_number : forall X (l : list X) n, map snd (number n l) = l.
Proof. induction l; intros; cbn; f_equal; auto. Qed.

Lemma map_snd_entries : forall reps ks,
  map snd (flat_map (fun k => number 1 (map (stored pack unpack) (under hash k reps))) ks) =
  map (stored pack unpack) (flat_map (fun k => under hash k reps) ks).
Proof.
  intros reps. induction ks as [|k ks IH]; cbn [flat_map]; auto. rewrite !map_app, IH, map_snd_number. reflexivity.
Qed.

Lemma stats_ok : forall (m : @judySL (@judyL P)) nh ne,
  stats_loop m (u32 nh) (u32 ne) =
  (u32 (nh + Z.of_nat (length m)), u32 (ne + Z.of_nat (length (entries m)))).
Proof.
  induction m as [|(k, a) m IH]; intros nh ne; cbn [stats_loop entries flat_map length snd].
  - rewrite !Z.add_0_r. auto.
  - replace (u32 (u32 nh + 1)%Z) with (u32 (nh + 1)%Z) by (unfold u32; rewrite Zplus_mod_idemp_l; auto).
    replace (u32 (u32 ne + u32 (Z.of_nat (length a)))%Z) with (u32 (ne + Z.of_nat (length a))%Z)
      by (unfold u32; rewrite <- Zplus_mod; auto).
    rewrite IH. rewrite app_length, map_length. fold (entries m). f_equal; f_equal; lia.
Qed.

Lemma search_ok : forall I (isos : D -> D -> list I) d (l : list D) n,
  match search_loop unpack isos d (number n (map pack l)) with
  | Some (u, q, is) => exists i r, u = n + i /\ nth_error l i = Some r /\ q = stored pack unpack r /\
       is = isos d q /\ is <> []
  | None => forall r, In r l -> isos d (stored pack unpack r) = []
  end.
Proof.
  intros I isos d l. induction l as [|r l IH]; intros n; cbn [map number search_loop].
  - intros ? [].
  - fold (stored pack unpack r). destruct (isos d (stored pack unpack r)) as [|x is] eqn:E.
    + specialize (IH (S n)). destruct (search_loop unpack isos d (number (S n) (map pack l))) as [((u, q), is)|].
      * destruct IH as (i & r' & I1 & I2). exists (S i), r'. split; [lia|]. auto.
      * intros q [<-|Hq]; auto.
    + exists 0, r. split; [lia|]. repeat (split; auto). discriminate.
Qed.

End Store.
