(** What the enumerations of the isomorphism search run through. *)
From Coq Require Import List ZArith Lia Bool Arith Permutation Factorial Sorted.
From Verif Require Import Base Sorting Iterators PermData Perm PermProofs Pd PdCross PdIso IsoSpec.
From Verif Require IteratorsProofs Thm_Iterators ApplyProofs PdStore PdStoreProofs Thm_Perm.
Import ListNotations.
Open Scope nat_scope.
Open Scope res_scope.

(** * Loops *)
Lemma fold_inv : forall A B (f : A -> B -> res A) (P : list B -> A -> Prop) l a, P [] a ->
  (forall pre x post a, l = pre ++ x :: post -> P pre a -> exists a', f a x = Ok a' /\ P (pre ++ [x]) a') ->
  exists a', fold_ok f l a = Ok a' /\ P l a'.
Proof.
  intros A B f P l. assert (G : forall post pre a, l = pre ++ post -> P pre a ->
    (forall pre x post a, l = pre ++ x :: post -> P pre a -> exists a', f a x = Ok a' /\ P (pre ++ [x]) a') ->
    exists a', fold_ok f post a = Ok a' /\ P l a').
  { induction post as [|x post IH]; intros pre a E H S; cbn [fold_ok].
    - rewrite app_nil_r in E. subst. eauto.
    - destruct (S pre x post a E H) as (a1 & -> & H1). cbn [bind]. apply (IH (pre ++ [x])); auto. rewrite <- app_assoc. auto. }
  intros a H S. apply (G l [] a); auto.
Qed.
Lemma fold_seq : forall A (f : A -> nat -> res A) (P : nat -> A -> Prop) n a, P 0 a ->
  (forall k a, k < n -> P k a -> exists a', f a k = Ok a' /\ P (S k) a') -> exists a', fold_ok f (seq 0 n) a = Ok a' /\ P n a'.
Proof.
  intros A f P n a H S. destruct (fold_inv A nat f (fun l a => P (length l) a) (seq 0 n) a H) as (a' & E & K).
  - intros pre x post b E HP. assert (x = length pre).
    { pose proof (f_equal (fun l => nth (length pre) l 0) E) as X. cbn beta in X. rewrite nth_middle in X. rewrite seq_nth in X; [auto|].
      pose proof (f_equal (@length nat) E) as L. rewrite seq_length, app_length in L. cbn in L. lia. }
    pose proof (f_equal (@length nat) E) as L. rewrite seq_length, app_length in L. cbn in L. subst x.
    destruct (S (length pre) b) as (b' & E' & H'); [lia|auto|]. exists b'. rewrite app_length. cbn. rewrite Nat.add_1_r. auto.
  - rewrite seq_length in K. eauto.
Qed.
Lemma map_ok_all : forall A B (f : A -> res B) (g : A -> B) l, (forall x, In x l -> f x = Ok (g x)) -> map_ok f l = Ok (map g l).
Proof.
  induction l as [|x l IH]; intros H; cbn [map_ok map]; auto. rewrite (H x) by (cbn; auto). cbn [bind]. rewrite IH by (intros; apply H; cbn; auto). reflexivity.
Qed.
Lemma map_ok_ex : forall A B (f : A -> res B) (P : A -> B -> Prop) l, (forall x, In x l -> exists y, f x = Ok y /\ P x y) ->
  exists r, map_ok f l = Ok r /\ Forall2 P l r.
Proof.
  induction l as [|x l IH]; intros H; cbn [map_ok]; [eauto|]. destruct (H x) as (y & E & HP); [cbn; auto|]. rewrite E. cbn [bind].
  destruct IH as (r & Er & F); [intros; apply H; cbn; auto|]. rewrite Er. cbn [bind]. eauto.
Qed.

(** * Lists without repetitions *)
Lemma adjacent_distinct : forall A (key : A -> list nat) l, NoDup (map key l) -> adjacent (fun a b => negb (list_eqb (key a) (key b))) l = true.
Proof.
  intros A key. induction l as [|a l IH]; intros N; auto. inversion N; subst. destruct l as [|b l]; auto.
  change (negb (list_eqb (key a) (key b)) && adjacent (fun a b => negb (list_eqb (key a) (key b))) (b :: l) = true).
  rewrite IH by auto. rewrite andb_true_r. apply negb_true_iff. destruct (list_eqb (key a) (key b)) eqn:E; auto.
  apply list_eqb_eq in E. exfalso. apply H1. rewrite E. cbn. auto.
Qed.
Lemma unique_true : forall A (key : A -> list nat) l, l <> [] -> NoDup (map key l) -> unique_by key l = Ok true.
Proof.
  intros A key l NE N. unfold unique_by. assert (adjacent (fun a b => negb (list_eqb (key a) (key b))) (by_key key l) = true).
  { apply adjacent_distinct. unfold by_key. eapply Permutation_NoDup; [|exact N]. apply Permutation_map. symmetry. apply isort_perm. }
  destruct l; [congruence|]. rewrite H. reflexivity.
Qed.

(** * The successive states of a multi-index *)
Lemma calls_front : forall A (incr : A -> res A) k x, IteratorsProofs.calls incr (S k) x = do y <- incr x; IteratorsProofs.calls incr k y.
Proof.
  induction k as [|k IH]; intros x.
  - cbn. destruct (incr x); reflexivity.
  - change (IteratorsProofs.calls incr (S (S k)) x) with (bind (IteratorsProofs.calls incr (S k) x) incr). rewrite IH.
    destruct (incr x); reflexivity.
Qed.
Lemma states_calls : forall A (incr : A -> res A) (s : nat -> A) n x, (forall k, IteratorsProofs.calls incr k x = Ok (s k)) ->
  states incr n x = Ok (map s (seq 0 n)).
Proof.
  intros A incr s n. revert s. induction n as [|n IH]; intros s x H; cbn [states seq map]; auto.
  pose proof (H 0) as H0. cbn in H0. injection H0 as ->. pose proof (H 1) as H1. cbn in H1. rewrite H1. cbn [bind].
  rewrite (IH (fun k => s (S k))).
  - cbn [bind]. rewrite <- seq_shift, map_map. reflexivity.
  - intros k. specialize (H (S k)). rewrite calls_front in H. rewrite H1 in H. exact H.
Qed.

Section States.
Context (obj : Type) (incr : obj -> res obj) (nvals : obj -> nat) (orbit : obj -> nat -> obj).
Definition turns_ok (o : obj) : Prop :=
  1 <= nvals o /\ orbit o 0 = o /\ orbit o (nvals o) = o /\ (forall i, i < nvals o -> incr (orbit o i) = Ok (orbit o (i + 1))) /\
  forall i j, i < nvals o -> j < nvals o -> orbit o i = orbit o j -> i = j.
Definition state_of (o s : obj) : Prop := exists i, i < nvals o /\ s = orbit o i.

Lemma lexless_irrefl : forall l, ~ IteratorsProofs.lexless l l.
Proof. induction l as [|x l IH]; cbn; [auto|]. intros [H|(_ & H)]; [lia|auto]. Qed.

Lemma all_states_spec : forall objs, Forall turns_ok objs -> (Z.of_nat (Thm_Iterators.product (map nvals objs)) < 2 ^ 32)%Z ->
  exists l, all_states incr nvals objs = Ok l /\ NoDup l /\ l <> [] /\ forall v, In v l <-> Forall2 state_of objs v.
Proof.
  intros objs F W. rewrite Forall_forall in F.
  destruct (Thm_Iterators.multidx_odometer obj incr nvals objs orbit) as (st & RUN & BX & LX & ALL & _).
  { intros o Ho. destruct (F o Ho) as (H1 & H2 & H3 & H4 & _). auto. }
  set (N := Thm_Iterators.product (map nvals objs)) in *.
  assert (NP : 1 <= N).
  { unfold N. clear - F. induction objs as [|o l IH]; [cbn; lia|]. destruct (F o) as (H & _); [cbn; auto|].
    change (1 <= nvals o * Thm_Iterators.product (map nvals l)).
    assert (1 <= Thm_Iterators.product (map nvals l)); [|nia]. apply IH. intros; apply F; cbn; auto. }
  set (out := fun ds => map (fun p : obj * nat => orbit (fst p) (snd p)) (combine objs ds)).
  assert (INJ : forall a b, Forall2 (fun o d => d < nvals o) objs a -> Forall2 (fun o d => d < nvals o) objs b -> out a = out b -> a = b).
  { unfold out. clear - F. intros a b A. revert b. induction A as [|o d objs a Hd A IH]; intros b B E; inversion B; subst; auto.
    cbn in E. injection E as E1 E2. f_equal.
    - destruct (F o) as (_ & _ & _ & _ & I); [cbn; auto|]. apply I; auto.
    - apply IH; auto. intros; apply F; cbn; auto. }
  exists (map (fun k => out (st k)) (seq 0 N)). split; [|split; [|split]].
  - unfold all_states. rewrite Thm_Iterators.multidx_nvals_product. fold N. rewrite Z.mod_small by (split; [apply Nat2Z.is_nonneg|exact W]). rewrite Nat2Z.id.
    rewrite (states_calls _ _ _ N _ RUN). cbn [bind]. rewrite map_map. f_equal. apply map_ext. intros k. unfold out. rewrite map_map. reflexivity.
  - apply (NoDup_nth _ []). rewrite map_length, seq_length. intros i j Hi Hj E.
    rewrite !(nth_indep _ [] (out (st 0))) in E by (rewrite map_length, seq_length; auto).
    rewrite !(map_nth (fun k => out (st k))) in E. rewrite !seq_nth in E by auto. cbn [Nat.add] in E.
    apply INJ in E; auto. destruct (Nat.lt_trichotomy i j) as [L|[L|L]]; auto; exfalso.
    + apply (lexless_irrefl (st i)). rewrite E at 2. apply LX. lia.
    + apply (lexless_irrefl (st j)). rewrite <- E at 2. apply LX. lia.
  - destruct N; [lia|discriminate].
  - intros v. rewrite in_map_iff. split.
    + intros (k & <- & _). unfold out. generalize (BX k). generalize (st k). clear. intros ds B. induction B as [|o d objs ds Hd B IH]; cbn; constructor; auto. exists d. auto.
    + intros H. assert (exists ds, Forall2 (fun o d => d < nvals o) objs ds /\ v = out ds) as (ds & B & ->).
      { unfold out. clear - H. induction H as [|o s objs v (d & Hd & ->) H (ds & B & ->)]; [exists []; auto|]. exists (d :: ds). auto. }
      destruct (ALL ds B) as (k & Hk & <-). exists k. split; auto. apply in_seq. lia.
Qed.
End States.

(** the dihedral groups *)
Lemma dihedral_turns : forall n, 1 <= n -> turns_ok dihedral pd_increment_dihedral pd_ndihedrals (fun o i => IteratorsProofs.dstate (length (dmap o)) i) (pd_new_dihedral n).
Proof.
  intros n Hn. destruct (Thm_Iterators.dihedral_iterator n Hn) as (st & RUN & _ & _ & _ & _ & DIF & BACK & NV & _).
  assert (E : forall k, st k = IteratorsProofs.dstate n k).
  { intros k. specialize (RUN k). rewrite IteratorsProofs.dihedral_calls in RUN by auto. congruence. }
  unfold turns_ok. rewrite NV. assert (L : length (dmap (pd_new_dihedral n)) = n) by (cbn; apply seq_length). rewrite L.
  split; [lia|]. split; [|split; [|split]].
  - rewrite <- E. specialize (RUN 0). cbn in RUN. congruence.
  - rewrite <- E. auto.
  - intros i Hi. rewrite Nat.add_1_r. apply IteratorsProofs.dihedral_step; auto.
  - intros i j Hi Hj H. rewrite <- !E in H. destruct (Nat.lt_trichotomy i j) as [X|[X|X]]; auto; exfalso.
    + apply (DIF i j); auto.
    + apply (DIF j i); auto.
Qed.
(** what the maps of the dihedral group are *)
Lemma dihedral_member : forall n dh, 1 <= n -> state_of dihedral pd_ndihedrals (fun o i => IteratorsProofs.dstate (length (dmap o)) i) (pd_new_dihedral n) dh ->
  length (dmap dh) = n /\ Permutation (seq 0 n) (dmap dh) /\ sign_like (dor dh) /\
  exists r, r < n /\ forall k, k < n -> nth k (dmap dh) 0 = match dor dh with Pos => (k + r) mod n | _ => n - 1 - (k + r) mod n end.
Proof.
  intros n dh Hn (i & Hi & ->). destruct (Thm_Iterators.dihedral_iterator n Hn) as (st & RUN & LEN & P1 & P2 & PER & _ & _ & NV & _).
  assert (E : forall k, st k = IteratorsProofs.dstate n k).
  { intros k. specialize (RUN k). rewrite IteratorsProofs.dihedral_calls in RUN by auto. congruence. }
  assert (L : length (dmap (pd_new_dihedral n)) = n) by (cbn; apply seq_length). rewrite L, <- E. rewrite NV in Hi.
  split; auto. split; auto. destruct (Nat.lt_ge_cases i n) as [H|H].
  - destruct (P1 i H) as (-> & K). split; [left; auto|]. exists i. auto.
  - replace i with (n + (i - n)) by lia. destruct (P2 (i - n) ltac:(lia)) as (-> & K). split; [right; auto|].
    set (j := i - n) in *. assert (Hj : j < n) by (unfold j; lia).
    exists ((j + (n - 1)) mod n). split; [apply Nat.mod_upper_bound; lia|]. intros k Hk. specialize (K k Hk).
    rewrite Nat.add_mod_idemp_r by lia.
    assert (B : nth k (dmap (st (n + j))) 0 < n).
    { assert (In (nth k (dmap (st (n + j))) 0) (seq 0 n)) as I; [|apply in_seq in I; lia].
      eapply Permutation_in; [symmetry; apply PER|]. apply nth_In. rewrite LEN. auto. }
    set (v := nth k (dmap (st (n + j))) 0) in *.
    assert (K' : exists q, v + k + j = n * q). { apply Nat.mod_divides in K; [|lia]. auto. } destruct K' as (q & K').
    assert (X : (k + (j + (n - 1))) mod n = n - 1 - v); [|lia].
    symmetry. apply (Nat.mod_unique _ n q); [lia|]. nia.
Qed.
Lemma dihedral_all : forall n r o, r < n -> sign_like o -> exists dh, state_of dihedral pd_ndihedrals (fun o i => IteratorsProofs.dstate (length (dmap o)) i) (pd_new_dihedral n) dh /\
  dor dh = o /\ length (dmap dh) = n /\ forall k, k < n -> nth k (dmap dh) 0 = match o with Pos => (k + r) mod n | _ => n - 1 - (k + r) mod n end.
Proof.
  intros n r o Hr SO. destruct (Thm_Iterators.dihedral_iterator n ltac:(lia)) as (st & RUN & LEN & P1 & P2 & PER & _ & _ & NV & _).
  assert (E : forall k, st k = IteratorsProofs.dstate n k).
  { intros k. specialize (RUN k). rewrite IteratorsProofs.dihedral_calls in RUN by lia. congruence. }
  assert (L : length (dmap (pd_new_dihedral n)) = n) by (cbn; apply seq_length).
  assert (S : forall i, i < 2 * n -> state_of dihedral pd_ndihedrals (fun o i => IteratorsProofs.dstate (length (dmap o)) i) (pd_new_dihedral n) (st i)).
  { intros i Hi. exists i. rewrite NV, L. auto. }
  destruct SO as [->| ->].
  - exists (st r). destruct (P1 r Hr) as (E1 & K). split; [apply S; lia|]. auto.
  - set (j := (r + 1) mod n). assert (Hj : j < n) by (apply Nat.mod_upper_bound; lia).
    destruct (P2 j Hj) as (E1 & K). exists (st (n + j)). split; [apply S; lia|]. split; auto. split; auto.
    intros k Hk. specialize (K k Hk).
    assert (B : nth k (dmap (st (n + j))) 0 < n).
    { assert (In (nth k (dmap (st (n + j))) 0) (seq 0 n)) as I; [|apply in_seq in I; lia].
      eapply Permutation_in; [symmetry; apply PER|]. apply nth_In. rewrite LEN. auto. }
    set (v := nth k (dmap (st (n + j))) 0) in *. unfold j in K. rewrite Nat.add_mod_idemp_r in K by lia.
    assert (K' : exists q, v + k + (r + 1) = n * q). { apply Nat.mod_divides in K; [|lia]. auto. } destruct K' as (q & K').
    assert (X : (k + r) mod n = n - 1 - v); [|lia].
    destruct q as [|q]; [lia|]. rewrite Nat.mul_succ_r in K'. symmetry. apply (Nat.mod_unique _ n q); lia.
Qed.

(** the symmetric groups *)
Definition perm_orbit (o : perm) (k : nat) : perm := mkPerm (nth (k mod fact (pn o)) (all_perms (pn o)) []) (pidx (pn o) k).
Lemma nvals_fact : forall n, 1 <= n <= 12 -> perm_nvals (pd_new_perm n) = fact n.
Proof.
  intros n H. assert (PN : pn (pd_new_perm n) = n) by (unfold pn; simpl; apply seq_length). unfold perm_nvals.
  rewrite nperms_spec, PN by lia. rewrite Z.mod_small; [apply Nat2Z.id|]. split; [lia|].
  pose proof (fact_le n 12 ltac:(lia)) as FF. apply inj_le in FF.
  assert (E : Z.of_nat (fact 12) = 479001600%Z).
  { change (fact 12) with (12 * (11 * (10 * (9 * (8 * (7 * (6 * fact 5))))))). rewrite !Nat2Z.inj_mul. reflexivity. }
  rewrite E in FF. change (2 ^ 32)%Z with 4294967296%Z. lia.
Qed.
Lemma perm_turns : forall n, 1 <= n <= 12 -> turns_ok perm pd_increment_perm perm_nvals perm_orbit (pd_new_perm n).
Proof.
  intros n Hn. pose proof (fact_neq_0 n) as F0. assert (PN : pn (pd_new_perm n) = n) by (unfold pn; simpl; apply seq_length).
  unfold turns_ok, perm_orbit. rewrite nvals_fact, PN by auto. split; [lia|]. split; [|split; [|split]].
  - rewrite Nat.mod_0_l by auto. rewrite all_perms_0. unfold pd_new_perm, pidx.
    destruct (n <=? 6); auto. rewrite Nat.mod_0_l; auto.
  - rewrite Nat.mod_same by auto. rewrite all_perms_0. unfold pd_new_perm, pidx.
    destruct (n <=? 6); auto. rewrite Nat.mod_same; auto.
  - intros i Hi. pose proof (run_perm_nth n (S i) ltac:(lia)) as R. cbn [run_perm] in R.
    rewrite run_perm_nth in R by lia. cbn [bind] in R. rewrite Nat.add_1_r. exact R.
  - intros i j Hi Hj E. injection E as E _. rewrite !Nat.mod_small in E by auto.
    destruct (Nat.lt_trichotomy i j) as [X|[X|X]]; auto; exfalso.
    + pose proof (all_perms_lt n i j ltac:(lia)) as LT. rewrite E in LT. revert LT. apply lexlt_irrefl.
    + pose proof (all_perms_lt n j i ltac:(lia)) as LT. rewrite E in LT. revert LT. apply lexlt_irrefl.
Qed.
Lemma perm_member : forall n p, 1 <= n <= 12 -> (state_of perm perm_nvals perm_orbit (pd_new_perm n) p -> Permutation (seq 0 n) (pmap p)).
Proof.
  intros n p Hn (i & Hi & ->). rewrite nvals_fact in Hi by auto. assert (PN : pn (pd_new_perm n) = n) by (unfold pn; simpl; apply seq_length).
  unfold perm_orbit. rewrite PN. cbn [pmap]. apply all_perms_nth. rewrite Nat.mod_small; auto.
Qed.
Lemma perm_same : forall n p q, 1 <= n <= 12 -> state_of perm perm_nvals perm_orbit (pd_new_perm n) p -> state_of perm perm_nvals perm_orbit (pd_new_perm n) q -> pmap p = pmap q -> p = q.
Proof.
  intros n p q Hn (i & Hi & ->) (j & Hj & ->) E. pose proof (perm_turns n Hn) as (_ & _ & _ & _ & I).
  rewrite nvals_fact in * by auto. assert (PN : pn (pd_new_perm n) = n) by (unfold pn; simpl; apply seq_length).
  unfold perm_orbit in E. cbn [pmap] in E. rewrite PN in E. rewrite !Nat.mod_small in E by auto. f_equal.
    destruct (Nat.lt_trichotomy i j) as [X|[X|X]]; auto; exfalso.
    + pose proof (all_perms_lt n i j ltac:(lia)) as LT. rewrite E in LT. revert LT. apply lexlt_irrefl.
    + pose proof (all_perms_lt n j i ltac:(lia)) as LT. rewrite E in LT. revert LT. apply lexlt_irrefl.
Qed.
Lemma perm_all : forall n m, 1 <= n <= 12 -> Permutation (seq 0 n) m -> exists p, state_of perm perm_nvals perm_orbit (pd_new_perm n) p /\ pmap p = m.
Proof.
  intros n m Hn P. destruct (all_perms_index n m P) as (i & Hi & E). assert (PN : pn (pd_new_perm n) = n) by (unfold pn; simpl; apply seq_length).
  exists (perm_orbit (pd_new_perm n) i). split.
  - exists i. rewrite nvals_fact; auto.
  - unfold perm_orbit. rewrite PN. cbn [pmap]. rewrite Nat.mod_small; auto.
Qed.

(** * Groups of components *)
Lemma grow_concat : forall rest i last cur, concat (grow rest i last cur) = cur ++ seq i (length rest).
Proof.
  induction rest as [|s rest IH]; intros i last cur; cbn [grow].
  - cbn. auto.
  - destruct (s =? last); cbn [concat]; rewrite IH; cbn [length seq]; rewrite <- ?app_assoc; auto.
Qed.
Lemma grow_nonempty : forall rest i last cur, cur <> [] -> ~ In [] (grow rest i last cur).
Proof.
  induction rest as [|s rest IH]; intros i last cur N; cbn [grow].
  - intros [E|[]]. auto.
  - destruct (s =? last).
    + apply IH. intros E. destruct cur; discriminate.
    + intros [E|I]; [auto|]. revert I. apply IH. discriminate.
Qed.
Lemma grow_same : forall (sz : nat -> nat) rest i last cur, (forall x, In x cur -> sz x = last) -> (forall k, k < length rest -> sz (i + k) = nth k rest 0) ->
  forall g x y, In g (grow rest i last cur) -> In x g -> In y g -> sz x = sz y.
Proof.
  intros sz. induction rest as [|s rest IH]; intros i last cur C R g x y G X Y; cbn [grow] in G.
  - destruct G as [<-|[]]. rewrite !C; auto.
  - assert (Ri : sz i = s) by (specialize (R 0 ltac:(cbn; lia)); rewrite Nat.add_0_r in R; auto).
    assert (R' : forall k, k < length rest -> sz (S i + k) = nth k rest 0).
    { intros k Hk. specialize (R (S k) ltac:(cbn; lia)). replace (S i + k) with (i + S k) by lia. auto. }
    destruct (Nat.eqb_spec s last) as [E|E].
    + apply (IH (S i) s (cur ++ [i])) with (g := g); auto. intros z Z. apply in_app_or in Z as [Z|[<-|[]]]; auto. rewrite E. auto.
    + destruct G as [<-|G]; [rewrite !C; auto|]. apply (IH (S i) s [i]) with (g := g); auto. intros z [<-|[]]. auto.
Qed.
Lemma grow_together : forall (sz : nat -> nat) rest i last cur, (forall x, In x cur -> sz x = last) -> (forall k, k < length rest -> sz (i + k) = nth k rest 0) ->
  StronglySorted (fun a b => b <= a) (last :: rest) ->
  forall x y, In x (cur ++ seq i (length rest)) -> In y (cur ++ seq i (length rest)) -> sz x = sz y -> exists g, In g (grow rest i last cur) /\ In x g /\ In y g.
Proof.
  intros sz. induction rest as [|s rest IH]; intros i last cur C R SS x y X Y E; cbn [grow].
  - cbn in X, Y. rewrite app_nil_r in X, Y. exists cur. cbn. auto.
  - assert (Ri : sz i = s) by (specialize (R 0 ltac:(cbn; lia)); rewrite Nat.add_0_r in R; auto).
    assert (R' : forall k, k < length rest -> sz (S i + k) = nth k rest 0).
    { intros k Hk. specialize (R (S k) ltac:(cbn; lia)). replace (S i + k) with (i + S k) by lia. auto. }
    inversion SS as [|? ? SS' F]; subst. cbn [length seq] in X, Y.
    destruct (Nat.eqb_spec (sz i) last) as [Es|Es].
    + apply (IH (S i) (sz i) (cur ++ [i])); auto.
      * intros z Z. apply in_app_or in Z as [Z|[<-|[]]]; auto. rewrite Es. auto.
      * rewrite <- app_assoc. auto.
      * rewrite <- app_assoc. auto.
    + assert (LT : forall z, In z (i :: seq (S i) (length rest)) -> sz z < last).
      { intros z [<-|Z]; [inversion F; lia|]. apply in_seq in Z. replace z with (S i + (z - S i)) by lia. rewrite R' by lia.
        inversion SS' as [|? ? _ F']; subst. inversion F; subst. rewrite Forall_forall in F'. specialize (F' (nth (z - S i) rest 0)).
        assert (nth (z - S i) rest 0 <= sz i); [|lia]. apply F'. apply nth_In. lia. }
      apply in_app_or in X, Y. destruct X as [X|X], Y as [Y|Y].
      * exists cur. cbn. auto.
      * specialize (LT y Y). rewrite (C x X) in E. lia.
      * specialize (LT x X). rewrite (C y Y) in E. lia.
      * destruct (IH (S i) (sz i) [i]) with (x := x) (y := y) as (g & G & GX & GY); auto.
        { intros z [<-|[]]. auto. }
        exists g. cbn. auto.
Qed.

(** * Component permutations *)
Record good_perm (n : nat) (p : perm) : Prop := {
  gp_perm : is_perm p; gp_canon : canonical p; gp_n : pn p = n; gp_idx : 6 < pn p -> pc_idx p = 0 }.
Lemma good_perm_ok : forall n p, 1 <= n -> good_perm n p -> pd_perm_ok p = Ok true.
Proof.
  intros n p Hn [P C N I]. destruct (Thm_Perm.perm_ok_exact p) as (b & E & K); [lia| |].
  - intros H. specialize (C H). rewrite <- all_perms_length. apply nth_error_Some. congruence.
  - rewrite E. f_equal. apply K. auto.
Qed.
Lemma new_perm_good : forall n, good_perm n (pd_new_perm n).
Proof.
  intros n. assert (PN : pn (pd_new_perm n) = n) by (unfold pn; simpl; apply seq_length). constructor; auto.
  - unfold is_perm. rewrite PN. reflexivity.
  - intros _. rewrite PN. unfold pd_new_perm. cbn [pc_idx pmap]. rewrite (nth_error_nth' _ []) by (rewrite all_perms_length; pose proof (fact_neq_0 n); lia).
    rewrite all_perms_0. auto.
Qed.
Lemma good_perm_bij : forall n p, good_perm n p -> length (pmap p) = n /\ (forall x, x < n -> nth x (pmap p) 0 < n) /\ forall x y, x < n -> y < n -> nth x (pmap p) 0 = nth y (pmap p) 0 -> x = y.
Proof.
  intros n p [P _ N _]. assert (L : length (pmap p) = n) by exact N. split; auto. pose proof (is_perm_NoDup p P) as ND. split.
  - intros x Hx. assert (In (nth x (pmap p) 0) (seq 0 (pn p))) as I; [|apply in_seq in I; lia].
    eapply Permutation_in; [symmetry; exact P|]. apply nth_In. lia.
  - intros x y Hx Hy. apply (NoDup_nth (pmap p) 0); auto; lia.
Qed.
Lemma get_lt : forall T (l : list T) i d, i < length l -> get l i = Ok (nth i l d).
Proof. intros T l i d H. unfold get. rewrite (nth_error_nth' l d) by auto. reflexivity. Qed.
Lemma put_lt : forall T i (v : T) l, i < length l -> put i v l = Ok (upd i v l).
Proof. intros T i v l H. unfold put. destruct (Nat.ltb_spec i (length l)); [auto|lia]. Qed.

Lemma assign_group_spec : forall n m g p, good_perm n m -> NoDup g -> g <> [] -> (forall x, In x g -> x < n /\ nth x (pmap m) 0 = x) ->
  Permutation (seq 0 (length g)) (pmap p) ->
  exists m', assign_group m (g, p) = Ok m' /\ good_perm n m' /\
    (forall k, k < length g -> nth (nth k g 0) (pmap m') 0 = nth (nth k (pmap p) 0) g 0) /\
    (forall x, ~ In x g -> nth x (pmap m') 0 = nth x (pmap m) 0).
Proof.
  intros n m g p GM ND NE FX PP. destruct (good_perm_bij n m GM) as (LM & RM & IM).
  assert (LP : length (pmap p) = length g) by (apply Permutation_length in PP; rewrite seq_length in PP; auto).
  assert (RP : forall k, k < length g -> nth k (pmap p) 0 < length g).
  { intros k Hk. assert (In (nth k (pmap p) 0) (seq 0 (length g))) as I; [|apply in_seq in I; lia]. eapply Permutation_in; [symmetry; exact PP|]. apply nth_In. lia. }
  assert (NP : NoDup (pmap p)) by (eapply Permutation_NoDup; [exact PP|apply seq_NoDup]).
  unfold assign_group.
  match goal with |- exists m', bind (fold_ok ?F _ _) _ = _ /\ _ =>
    destruct (fold_seq _ F (fun j l => length l = n /\ (forall k, k < j -> nth (nth k g 0) l 0 = nth (nth k (pmap p) 0) g 0) /\
      (forall x, (forall k, k < j -> x <> nth k g 0) -> nth x l 0 = nth x (pmap m) 0)) (length g) (pmap m)) as (l & E & L & K1 & K2) end.
  { split; auto. split; [intros k Hk; lia|auto]. }
  { intros k l Hk (L & K1 & K2). rewrite (get_lt _ g k 0) by auto. cbn [bind]. rewrite (get_lt _ (pmap p) k 0) by lia. cbn [bind].
    rewrite (get_lt _ g _ 0) by auto. cbn [bind]. assert (B : nth k g 0 < length l) by (rewrite L; apply FX, nth_In; auto).
    rewrite put_lt by auto. eexists. split; [reflexivity|]. split; [rewrite upd_length; auto|]. split.
    - intros j Hj. destruct (Nat.eq_dec j k) as [->|N]; [apply nth_upd_eq; auto|]. rewrite nth_upd_neq; [apply K1; lia|].
      intros X. apply N. apply (NoDup_nth g 0); auto; lia.
    - intros x Hx. rewrite nth_upd_neq; [apply K2; intros; apply Hx; lia|]. intros X. apply (Hx k); [lia|auto]. }
  rewrite E. cbn [bind].
  assert (K2' : forall x, ~ In x g -> nth x l 0 = nth x (pmap m) 0) by (intros x Hx; apply K2; intros k Hk ->; apply Hx, nth_In; auto).
  assert (K1' : forall x, In x g -> exists k, k < length g /\ x = nth k g 0 /\ nth x l 0 = nth (nth k (pmap p) 0) g 0 /\ In (nth x l 0) g).
  { intros x I. apply In_nth with (d := 0) in I as (k & Hk & <-). exists k. rewrite K1 by auto. repeat split; auto. apply nth_In. auto. }
  assert (PM : is_perm (mkPerm l (pc_idx m))).
  { apply is_perm_intro.
    - apply (NoDup_nth l 0). rewrite L. intros x y Hx Hy H. destruct (in_dec Nat.eq_dec x g) as [X|X], (in_dec Nat.eq_dec y g) as [Y|Y].
      + destruct (K1' x X) as (i & Hi & -> & Ei & _). destruct (K1' y Y) as (j & Hj & -> & Ej & _). rewrite Ei, Ej in H.
        apply (NoDup_nth g 0) in H; auto. apply (NoDup_nth (pmap p) 0) in H; auto; try lia. congruence.
      + exfalso. destruct (K1' x X) as (i & Hi & _ & _ & I). rewrite H, K2' in I by auto. destruct (FX _ I) as (B & FI). apply IM in FI; auto. rewrite FI in I. auto.
      + exfalso. destruct (K1' y Y) as (i & Hi & _ & _ & I). rewrite <- H, K2' in I by auto. destruct (FX _ I) as (B & FI). apply IM in FI; auto. rewrite FI in I. auto.
      + rewrite !K2' in H by auto. auto.
    - apply Forall_forall. intros v V. rewrite L. apply In_nth with (d := 0) in V as (x & Hx & <-). rewrite L in Hx.
      destruct (in_dec Nat.eq_dec x g) as [X|X]; [destruct (K1' x X) as (_ & _ & _ & _ & I); apply FX; auto|rewrite K2' by auto; auto]. }
  destruct (regen_ok l (pc_idx m) PM) as (i & E2 & C & Z).
  { rewrite L. destruct g as [|x g]; [congruence|]. destruct (FX x); [cbn; auto|]. lia. }
  exists (mkPerm l i). split; auto. split; [constructor; auto|]. auto.
Qed.

Lemma combine_in_l : forall T U (a : list T) (b : list U) x y, In (x, y) (combine a b) -> In x a.
Proof. intros. eapply in_combine_l; eauto. Qed.
Lemma combine_app_l : forall T U (a : list T) (b : list U) pre x y post, length a = length b -> combine a b = pre ++ (x, y) :: post ->
  exists a1 a2, a = a1 ++ x :: a2 /\ (forall z w, In (z, w) pre -> In z a1).
Proof.
  induction a as [|u a IH]; intros b pre x y post L E; [destruct pre; discriminate|]. destruct b as [|v b]; [discriminate|]. cbn in E. destruct pre as [|q pre].
  - injection E as <- <- E. exists [], a. split; [auto|intros z w []].
  - injection E as <- E. destruct (IH b pre x y post) as (a1 & a2 & -> & H); [cbn in L; lia|auto|]. exists (u :: a1), a2. split; auto. intros z w [W|W]; [injection W as -> ->; cbn; auto|right; eauto].
Qed.

Lemma NoDup_app_l : forall T (a b : list T), NoDup (a ++ b) -> NoDup a.
Proof. induction a as [|x a IH]; intros b N; constructor; cbn in N; inversion N; subst; [intros I; apply H1, in_or_app; auto|eauto]. Qed.
Lemma NoDup_app_disj : forall T (a b : list T), NoDup (a ++ b) -> forall x, In x a -> In x b -> False.
Proof. induction a as [|y a IH]; intros b N x Ia Ib; [destruct Ia|]. cbn in N. inversion N; subst. destruct Ia as [->|Ia]; [apply H1, in_or_app; auto|eauto]. Qed.

Section Groups.
Context (n : nat) (sz : nat -> nat) (grps : list (list nat)).
Context (GC : concat grps = seq 0 n) (GN : ~ In [] grps) (GP : grps <> []).
Context (GS : forall g x y, In g grps -> In x g -> In y g -> sz x = sz y).
Context (GT : forall x y, x < n -> y < n -> sz x = sz y -> exists g, In g grps /\ In x g /\ In y g).
Context (GB : Forall (fun g => length g <= 12) grps).
Context (GW : (Z.of_nat (Thm_Iterators.product (map (fun g => fact (length g)) grps)) < 2 ^ 32)%Z).

Lemma grp_lt : forall g x, In g grps -> In x g -> x < n.
Proof. intros g x G X. assert (I : In x (seq 0 n)) by (rewrite <- GC; apply in_concat; eauto). apply in_seq in I. lia. Qed.
Lemma grp_nodup : forall g, In g grps -> NoDup g.
Proof.
  intros g G. assert (N : NoDup (concat grps)) by (rewrite GC; apply seq_NoDup). clear - G N. induction grps as [|h l IH]; [destruct G|]. cbn in N.
  destruct G as [->|G]; [eapply NoDup_app_l; eauto|apply IH; auto; eapply NoDup_app_r; eauto].
Qed.

Definition of_states (ps : list perm) (cp : perm) : Prop :=
  good_perm n cp /\ forall g p, In (g, p) (combine grps ps) -> forall k, k < length g -> nth (nth k g 0) (pmap cp) 0 = nth (nth k (pmap p) 0) g 0.

Lemma assign_all : forall ps, Forall2 (fun g p => Permutation (seq 0 (length g)) (pmap p)) grps ps ->
  exists cp, fold_ok assign_group (combine grps ps) (pd_new_perm n) = Ok cp /\ of_states ps cp.
Proof.
  intros ps F. assert (LP : length grps = length ps) by (symmetry; eapply IteratorsProofs.Forall2_length; eauto).
  assert (FP : forall g p, In (g, p) (combine grps ps) -> Permutation (seq 0 (length g)) (pmap p)).
  { clear - F. induction F as [|g p gs ps H F IH]; intros g' p' I; [destruct I|]. destruct I as [E|I]; [injection E as <- <-; auto|auto]. }
  destruct (fold_inv _ _ assign_group (fun pre m => good_perm n m /\
     (forall g p, In (g, p) pre -> forall k, k < length g -> nth (nth k g 0) (pmap m) 0 = nth (nth k (pmap p) 0) g 0) /\
     (forall x, x < n -> (forall g p, In (g, p) pre -> ~ In x g) -> nth x (pmap m) 0 = x)) (combine grps ps) (pd_new_perm n)) as (cp & E & G & K & _).
  - split; [apply new_perm_good|]. split; [intros g p []|]. intros x Hx _. cbn. rewrite seq_nth; auto.
  - intros pre (g, p) post m E (GM & K1 & K2).
    assert (I : In (g, p) (combine grps ps)) by (rewrite E; apply in_or_app; cbn; auto).
    pose proof (combine_in_l _ _ _ _ _ _ I) as Ig.
    destruct (combine_app_l _ _ _ _ _ _ _ _ LP E) as (a1 & a2 & EA & PRE).
    assert (DJ : forall h q x, In (h, q) pre -> In x h -> In x g -> False).
    { intros h q x Ih Xh Xg. assert (N : NoDup (concat grps)) by (rewrite GC; apply seq_NoDup). rewrite EA, concat_app in N. cbn in N.
      apply PRE in Ih. assert (X1 : In x (concat a1)) by (apply in_concat; eauto). assert (X2 : In x (g ++ concat a2)) by (apply in_or_app; auto).
      revert X1 X2. clear - N. intros X1 X2. induction (concat a1) as [|z l IH]; [destruct X1|]. cbn in N. inversion N; subst. destruct X1 as [->|X1]; [apply H1, in_or_app; auto|auto]. }
    destruct (assign_group_spec n m g p) as (m' & E' & G' & Q1 & Q2); auto.
    + apply grp_nodup; auto.
    + intros ->. auto.
    + intros x X. split; [eapply grp_lt; eauto|]. apply K2; [eapply grp_lt; eauto|]. intros h q Ih Xh. eapply DJ; eauto.
    + exists m'. split; auto. split; auto. split.
      * intros h q Ih k Hk. apply in_app_or in Ih as [Ih|[Ih|[]]].
        -- rewrite Q2; [apply (K1 h q); auto|]. intros X. eapply DJ; eauto. apply nth_In; auto.
        -- injection Ih as <- <-. apply Q1; auto.
      * intros x Hx H. rewrite Q2; [apply K2; auto; intros h q Ih; apply (H h q), in_or_app; auto|].
        apply (H g p). apply in_or_app. cbn. auto.
  - exists cp. split; auto. split; auto.
Qed.

Lemma comp_perm_sizes : forall ps cp, Forall2 (fun g p => Permutation (seq 0 (length g)) (pmap p)) grps ps -> of_states ps cp ->
  forall x, x < n -> sz (nth x (pmap cp) 0) = sz x.
Proof.
  intros ps cp F (_ & K) x Hx. assert (I : In x (concat grps)) by (rewrite GC; apply in_seq; lia). apply in_concat in I as (g & Ig & Ix).
  assert (exists p, In (g, p) (combine grps ps) /\ Permutation (seq 0 (length g)) (pmap p)) as (p & Ip & PP).
  { clear - F Ig. induction F as [|h p gs ps H F IH]; [destruct Ig|]. destruct Ig as [->|Ig]; [exists p; cbn; auto|]. destruct (IH Ig) as (q & Iq & H'). exists q. cbn. auto. }
  apply In_nth with (d := 0) in Ix as (k & Hk & <-). rewrite (K g p Ip k Hk). apply (GS g); auto; apply nth_In; auto.
  assert (In (nth k (pmap p) 0) (seq 0 (length g))) as I; [|apply in_seq in I; lia]. eapply Permutation_in; [symmetry; exact PP|]. apply nth_In.
  apply Permutation_length in PP. rewrite seq_length in PP. lia.
Qed.

Lemma comp_perm_same : forall ps qs cp cq, Forall2 (fun g p => state_of perm perm_nvals perm_orbit (pd_new_perm (length g)) p) grps ps ->
  Forall2 (fun g p => state_of perm perm_nvals perm_orbit (pd_new_perm (length g)) p) grps qs ->
  of_states ps cp -> of_states qs cq -> pmap cp = pmap cq -> ps = qs.
Proof.
  intros ps qs cp cq F F' (_ & K) (_ & K') E. rewrite <- E in K'. clear E cq.
  assert (ND : forall g, In g grps -> NoDup g) by apply grp_nodup. clear GC GS GT GW GP. revert qs F' K'. revert K ND GN GB.
  induction F as [|g p gs ps H F IH]; intros K ND GN GB qs F' K'; inversion F' as [|? q ? qs' H' F'' ]; subst; auto.
  inversion GB; subst. assert (NG : g <> []) by (intros ->; apply GN; cbn; auto).
  assert (B : 1 <= length g <= 12) by (split; [destruct g; [congruence|cbn; lia]|auto]).
  f_equal.
  - apply (perm_same (length g)); auto. pose proof (perm_member _ _ B H) as P1. pose proof (perm_member _ _ B H') as P2.
    assert (L1 : length (pmap p) = length g) by (apply Permutation_length in P1; rewrite seq_length in P1; auto).
    assert (L2 : length (pmap q) = length g) by (apply Permutation_length in P2; rewrite seq_length in P2; auto).
    apply nth_ext with (d := 0) (d' := 0); [lia|]. intros k Hk. rewrite L1 in Hk.
    assert (R : forall m, Permutation (seq 0 (length g)) m -> length m = length g -> nth k m 0 < length g).
    { intros m PM LM. assert (In (nth k m 0) (seq 0 (length g))) as I; [|apply in_seq in I; lia]. eapply Permutation_in; [symmetry; exact PM|]. apply nth_In. lia. }
    apply (NoDup_nth g 0); auto; [apply ND; cbn; auto|]. rewrite <- (K g p (or_introl eq_refl) k Hk). apply (K' g q (or_introl eq_refl) k Hk).
  - apply IH.
    + intros h r I. apply (K h r). cbn. auto.
    + intros h I. apply ND. cbn. auto.
    + intros I. apply GN. cbn. auto.
    + assumption.
    + assumption.
    + intros h r I. apply (K' h r). cbn. auto.
Qed.

Lemma comp_perm_all : forall f, (forall x, x < n -> f x < n) -> (forall x y, x < n -> y < n -> f x = f y -> x = y) -> (forall x, x < n -> sz (f x) = sz x) ->
  exists ps, Forall2 (fun g p => state_of perm perm_nvals perm_orbit (pd_new_perm (length g)) p) grps ps /\
    forall g p, In (g, p) (combine grps ps) -> forall k, k < length g -> f (nth k g 0) = nth (nth k (pmap p) 0) g 0.
Proof.
  intros f RF IF SF.
  assert (CL : forall g x, In g grps -> In x g -> In (f x) g).
  { intros g x G X. pose proof (grp_lt g x G X) as Hx. destruct (GT (f x) x) as (h & Ih & H1 & H2); auto.
    assert (h = g); [|subst; auto]. assert (N : NoDup (concat grps)) by (rewrite GC; apply seq_NoDup). clear - N G X Ih H2.
    induction grps as [|a l IH]; [destruct G|]. cbn in N. destruct G as [->|G], Ih as [->|Ih]; auto.
    - exfalso. apply (NoDup_app_disj _ _ _ N x); auto. apply in_concat; eauto.
    - exfalso. apply (NoDup_app_disj _ _ _ N x); auto. apply in_concat; eauto.
    - apply IH; auto. eapply NoDup_app_r; eauto. }
  assert (ONE : forall g, In g grps -> exists p, state_of perm perm_nvals perm_orbit (pd_new_perm (length g)) p /\
    forall k, k < length g -> f (nth k g 0) = nth (nth k (pmap p) 0) g 0).
  { intros g G. assert (NG : g <> []) by (intros ->; auto). rewrite Forall_forall in GB. specialize (GB g G). pose proof (grp_nodup g G) as NDg.
    assert (B : 1 <= length g <= 12) by (split; [destruct g; [congruence|cbn; lia]|auto]).
    assert (exists h : nat -> nat, forall k, k < length g -> h k < length g /\ nth (h k) g 0 = f (nth k g 0)) as (h & HH).
    { clear - CL G. assert (C : forall k, k < length g -> exists j, j < length g /\ nth j g 0 = f (nth k g 0)).
      { intros k Hk. apply In_nth. apply CL; auto. apply nth_In; auto. }
      revert C. generalize (length g) at 1 3. intros m. induction m as [|m IH]; intros C; [exists (fun k => k); intros; lia|].
      destruct IH as (h & H); [auto|]. destruct (C m) as (j & J); [lia|]. exists (fun k => if k =? m then j else h k). intros k Hk.
      destruct (Nat.eqb_spec k m) as [->|N]; auto. apply H. lia. }
    destruct (perm_all (length g) (map h (seq 0 (length g))) B) as (p & HP & EP).
    { apply IteratorsProofs.perm_of_inj; [intros; apply HH; auto|]. intros i j Hi Hj E. destruct (HH i Hi) as (_ & Ei). destruct (HH j Hj) as (_ & Ej).
      rewrite E, Ej in Ei. apply IF in Ei; [|eapply grp_lt; eauto; apply nth_In; auto|eapply grp_lt; eauto; apply nth_In; auto]. apply (NoDup_nth g 0) in Ei; auto. }
    exists p. split; auto. intros k Hk. rewrite EP, IteratorsProofs.nth_map_seq by auto. symmetry. apply HH; auto. }
  clear - ONE. induction grps as [|g l IH]; [exists []; split; [constructor|intros g p []]|].
  destruct IH as (ps & F & K); [intros; apply ONE; cbn; auto|]. destruct (ONE g) as (p & HP & KP); [cbn; auto|].
  exists (p :: ps). split; auto. intros h q [E|I]; [injection E as <- <-; auto|eauto].
Qed.

Lemma forall2_map : forall T U V (R : T -> V -> Prop) (f : U -> T) l m, Forall2 R (map f l) m <-> Forall2 (fun x => R (f x)) l m.
Proof.
  intros T U V R f. induction l as [|x l IH]; intros m; split; intros H; inversion H; subst; constructor; auto; apply IH; auto.
Qed.
Lemma forall2_nodup : forall T U V (P : T -> U -> Prop) (key : U -> V) a l, Forall2 P a l -> NoDup a ->
  (forall x y u v, In x a -> In y a -> P x u -> P y v -> key u = key v -> x = y) -> NoDup (map key l).
Proof.
  intros T U V P key a l F. induction F as [|x u a l H F IH]; intros N I; cbn; constructor.
  - inversion N; subst. rewrite in_map_iff. intros (v & E & Iv). clear IH. assert (exists y, In y a /\ P y v) as (y & Iy & Py).
    { clear - F Iv. induction F as [|y w a l H F IH]; [destruct Iv|]. destruct Iv as [->|Iv]; [exists y; cbn; auto|]. destruct (IH Iv) as (z & Z & Pz). exists z. cbn. auto. }
    assert (x = y) by (eapply I; eauto; cbn; auto). subst. auto.
  - inversion N; subst. apply IH; auto. intros. eapply I; eauto; cbn; auto.
Qed.
Lemma forall2_in_r : forall T U (P : T -> U -> Prop) a l u, Forall2 P a l -> In u l -> exists x, In x a /\ P x u.
Proof.
  intros T U P a l u F. induction F as [|y w a l H F IH]; intros Iv; [destruct Iv|]. destruct Iv as [->|Iv]; [exists y; cbn; auto|]. destruct (IH Iv) as (z & Z & Pz). exists z. cbn. auto.
Qed.
Lemma forall2_in_l : forall T U (P : T -> U -> Prop) a l x, Forall2 P a l -> In x a -> exists u, In u l /\ P x u.
Proof.
  intros T U P a l x F. induction F as [|y w a l H F IH]; intros Iv; [destruct Iv|]. destruct Iv as [->|Iv]; [exists w; cbn; auto|]. destruct (IH Iv) as (z & Z & Pz). exists z. cbn. auto.
Qed.

Lemma states_perm : forall ps, Forall2 (fun g p => state_of perm perm_nvals perm_orbit (pd_new_perm (length g)) p) grps ps ->
  Forall2 (fun g p => Permutation (seq 0 (length g)) (pmap p)) grps ps.
Proof.
  intros ps F. clear - F GB GN. induction F as [|g p gs ps H F IH]; constructor.
  - apply perm_member; auto. inversion GB; subst. split; auto. destruct g; [exfalso; apply GN; cbn; auto|cbn; lia].
  - apply IH; [intros I; apply GN; cbn; auto|inversion GB; auto].
Qed.

Theorem compperms_spec : exists l, pd_build_compperms grps = Ok l /\ pd_compperms_ok l = Ok (by_key pmap l) /\ NoDup (map pmap l) /\
  (forall cp, In cp l -> good_perm n cp /\ forall x, x < n -> sz (nth x (pmap cp) 0) = sz x) /\
  (forall f, (forall x, x < n -> f x < n) -> (forall x y, x < n -> y < n -> f x = f y -> x = y) -> (forall x, x < n -> sz (f x) = sz x) ->
    exists cp, In cp l /\ forall x, x < n -> nth x (pmap cp) 0 = f x).
Proof.
  assert (PS : list_sum (map (@length nat) grps) = n).
  { pose proof (f_equal (@length nat) GC) as L. rewrite seq_length in L. rewrite <- L. clear. induction grps as [|g l IH]; cbn; auto. rewrite app_length. auto. }
  destruct (all_states_spec perm pd_increment_perm perm_nvals perm_orbit (map (fun g => pd_new_perm (length g)) grps)) as (sts & E & ND & NE & ALL).
  - apply Forall_forall. intros o I. apply in_map_iff in I as (g & <- & G). rewrite Forall_forall in GB. apply perm_turns. split; auto.
    destruct g; [exfalso; auto|cbn; lia].
  - rewrite map_map. erewrite map_ext_in; [exact GW|]. intros g G. rewrite Forall_forall in GB. apply nvals_fact. split; auto.
    destruct g; [exfalso; auto|cbn; lia].
  - assert (ALL' : forall v, In v sts <-> Forall2 (fun g p => state_of perm perm_nvals perm_orbit (pd_new_perm (length g)) p) grps v).
    { intros v. rewrite ALL. apply forall2_map. }
    destruct (map_ok_ex _ _ (fun ps => fold_ok assign_group (combine grps ps) (pd_new_perm n)) of_states sts) as (l & EL & F).
    { intros ps I. apply assign_all. apply states_perm, ALL'; auto. }
    assert (ND' : NoDup (map pmap l)).
    { eapply forall2_nodup; eauto. intros x y u v Ix Iy Hx Hy Ek. eapply comp_perm_same; eauto; apply ALL'; auto. }
    assert (NL : l <> []) by (intros ->; inversion F; subst; congruence).
    assert (GD : forall cp, In cp l -> good_perm n cp /\ forall x, x < n -> sz (nth x (pmap cp) 0) = sz x).
    { intros cp I. destruct (forall2_in_r _ _ _ _ _ _ F I) as (ps & Ips & H). split; [apply H|]. eapply comp_perm_sizes; eauto. apply states_perm, ALL'; auto. }
    exists l. split; [unfold pd_build_compperms; rewrite PS, E; cbn [bind]; auto|]. split; [|split; [auto|split; [exact GD|]]].
    + unfold pd_compperms_ok. assert (A : all_ok pd_perm_ok l = Ok true).
      { apply PdProofs.all_ok_spec. intros cp I. destruct (GD cp I) as (G & _). apply (good_perm_ok n); auto.
        destruct grps as [|g gs]; [congruence|].
        pose proof (f_equal (@length nat) GC) as L. rewrite seq_length in L. cbn in L. rewrite app_length in L. destruct g; [exfalso; apply GN; cbn; auto|cbn in L; lia]. }
      rewrite A. cbn [bind]. rewrite unique_true by auto. reflexivity.
    + intros f R1 R2 R3. destruct (comp_perm_all f R1 R2 R3) as (ps & Fp & K). destruct (forall2_in_l _ _ _ _ _ ps F) as (cp & I & H); [apply ALL'; auto|].
      exists cp. split; auto. intros x Hx. destruct H as (_ & H). assert (Ix : In x (concat grps)) by (rewrite GC; apply in_seq; lia). apply in_concat in Ix as (g & Ig & Ix).
      apply In_nth with (d := 0) in Ix as (k & Hk & <-).
      assert (exists p, In (g, p) (combine grps ps)) as (p & Ip).
      { clear - Fp Ig. induction Fp as [|h p gs ps H F IH]; [destruct Ig|]. destruct Ig as [->|Ig]; [exists p; cbn; auto|]. destruct (IH Ig) as (q & Iq). exists q. cbn. auto. }
      rewrite (H g p Ip k Hk). symmetry. apply (K g p); auto.
Qed.
End Groups.
