(** Proofs about the permutation iterator: Knuth's successor is the lexicographic successor. *)
From Coq Require Import List ZArith Lia Bool Arith Permutation Sorted Factorial.
From Verif Require Import Base PermData Perm.
Import ListNotations.

(** Lexicographic order on lists. *)
Fixpoint lexlt (a b : list nat) : Prop :=
  match a, b with
  | x :: a', y :: b' => x < y \/ (x = y /\ lexlt a' b')
  | _, _ => False
  end.

Lemma lexlt_irrefl : forall a, ~ lexlt a a.
Proof. induction a; simpl; auto. intros [H|[_ H]]; auto. lia. Qed.

Lemma lexlt_trans : forall a b c, lexlt a b -> lexlt b c -> lexlt a c.
Proof.
  induction a; destruct b, c; simpl; try contradiction; auto.
  intros [H|[-> H]] [K|[-> K]]; try (left; lia). right; split; eauto.
Qed.

Lemma lexlt_total : forall a b, length a = length b -> a = b \/ lexlt a b \/ lexlt b a.
Proof.
  induction a as [|x a IH]; destruct b as [|y b]; simpl; intros L; try lia; auto.
  destruct (lt_eq_lt_dec x y) as [[H| ->]|H]; auto.
  destruct (IH b ltac:(lia)) as [->|[H|H]]; auto.
Qed.

Lemma lexlt_app : forall p a b, lexlt (p ++ a) (p ++ b) <-> lexlt a b.
Proof.
  induction p; simpl; intros; [tauto|]. rewrite IHp. split; auto. intros [H|[_ H]]; auto. lia.
Qed.

Definition desc := StronglySorted gt.
Definition asc := StronglySorted lt.

Lemma desc_max : forall d r, desc d -> Permutation d r -> ~ lexlt d r.
Proof.
  induction d as [|a d IH]; intros r D P; simpl; auto.
  destruct r as [|b r]; auto. apply StronglySorted_inv in D. destruct D as [D1 D2].
  rewrite Forall_forall in D2. intros [H|[<- H]].
  - assert (I : In b (a :: d)) by (eapply Permutation_in; [symmetry; eauto|simpl; auto]).
    destruct I as [->|I]; [lia|]. specialize (D2 b I). lia.
  - apply Permutation_cons_inv in P. eapply IH; eauto.
Qed.

Lemma asc_min : forall d r, asc d -> Permutation d r -> ~ lexlt r d.
Proof.
  induction d as [|a d IH]; intros r D P; simpl; auto.
  - destruct r; auto.
  - destruct r as [|b r]; simpl; auto. apply StronglySorted_inv in D. destruct D as [D1 D2].
    rewrite Forall_forall in D2. intros [H|[<- H]].
    + assert (I : In b (a :: d)) by (eapply Permutation_in; [symmetry; eauto|simpl; auto]).
      destruct I as [->|I]; [lia|]. specialize (D2 b I). lia.
    + apply Permutation_cons_inv in P. eapply IH; eauto.
Qed.

Lemma no_between : forall pre x y s1 s2 r,
  desc (s1 ++ y :: s2) -> x < y -> Forall (fun z => z < x) s2 ->
  asc (rev (s1 ++ x :: s2)) ->
  Permutation (pre ++ x :: s1 ++ y :: s2) r ->
  lexlt (pre ++ x :: s1 ++ y :: s2) r -> lexlt r (pre ++ y :: rev (s1 ++ x :: s2)) -> False.
Proof.
  intros pre x y s1 s2. induction pre as [|a pre IH]; intros r D XY F A P L1 L2; simpl in *.
  - destruct r as [|z r]; simpl in *; auto.
    assert (I : In z (x :: s1 ++ y :: s2)) by (eapply Permutation_in; [symmetry; eauto|simpl; auto]).
    destruct L1 as [L1|[<- L1]].
    + destruct L2 as [L2|[-> L2]].
      * destruct I as [I|I]; [lia|]. apply in_app_or in I.
        assert (forall w, In w s1 -> w > y).
        { intros w Hw. clear -D Hw. induction s1 as [|b s1 IH]; simpl in *; [tauto|].
          apply StronglySorted_inv in D. destruct D as [D1 D2]. rewrite Forall_forall in D2.
          destruct Hw as [->|Hw]; auto. apply D2. apply in_or_app; simpl; auto. }
        rewrite Forall_forall in F.
        destruct I as [I|[I|I]]; [specialize (H _ I); lia|lia|specialize (F _ I); lia].
      * eapply asc_min; [exact A| |exact L2].
        apply (Permutation_cons_inv (a := y)).
        rewrite <- P. rewrite <- Permutation_rev.
        change (Permutation ((y :: s1) ++ x :: s2) (x :: s1 ++ y :: s2)).
        etransitivity; [symmetry; apply Permutation_middle|]. apply perm_skip. simpl. apply Permutation_middle.
    + eapply desc_max; [exact D| |exact L1]. eapply Permutation_cons_inv; eauto.
  - destruct r as [|b r]; auto.
    destruct L1 as [L1|[-> L1]]; destruct L2 as [L2|[H2 L2]]; try lia.
    apply Permutation_cons_inv in P. exact (IH r D XY F A P L1 L2).
Qed.

(** ** Index form of the algorithm *)

Lemma find_k_some : forall a c k, find_k a c = Some k ->
  k < c /\ nth k a 0 < nth (k + 1) a 0 /\ forall j, k < j < c -> nth (j + 1) a 0 <= nth j a 0.
Proof.
  induction c as [|c IH]; simpl; intros k H; [discriminate|].
  destruct (nth c a 0 <? nth (c + 1) a 0) eqn:E.
  - inversion H; subst. apply Nat.ltb_lt in E. repeat split; auto. intros; lia.
  - apply Nat.ltb_ge in E. destruct (IH k H) as (A & B & C). repeat split; auto.
    intros j Hj. destruct (Nat.eq_dec j c); [subst; auto|apply C; lia].
Qed.

Lemma find_k_none : forall a c, find_k a c = None ->
  forall j, j < c -> nth (j + 1) a 0 <= nth j a 0.
Proof.
  induction c as [|c IH]; simpl; intros H j Hj; [lia|].
  destruct (nth c a 0 <? nth (c + 1) a 0) eqn:E; [discriminate|]. apply Nat.ltb_ge in E.
  destruct (Nat.eq_dec j c); [subst; auto|apply IH; auto; lia].
Qed.

Lemma find_l_spec : forall a k l, k + 1 <= l ->
  let r := find_l a k l in
  k + 1 <= r <= l /\ (forall j, r < j <= l -> nth j a 0 <= nth k a 0) /\
  (r = k + 1 \/ nth k a 0 < nth r a 0).
Proof.
  induction l as [|l IH]; intros H; [lia|].
  cbn [find_l]. destruct ((k + 1 <? S l) && (nth (S l) a 0 <=? nth k a 0)) eqn:E.
  - apply andb_true_iff in E. destruct E as [E1 E2]. apply Nat.ltb_lt in E1. apply Nat.leb_le in E2.
    destruct IH as (A & B & C); [lia|]. cbv zeta. repeat split; auto; try lia.
    intros j Hj. destruct (Nat.eq_dec j (S l)); [subst; auto|apply B; lia].
  - cbv zeta. repeat split; auto; try (intros; lia).
    apply andb_false_iff in E. destruct E as [E|E];
      [apply Nat.ltb_ge in E; left; lia|apply Nat.leb_gt in E; auto].
Qed.

Lemma desc_of_nth : forall l, NoDup l ->
  (forall j, j + 1 < length l -> nth (j + 1) l 0 <= nth j l 0) -> desc l.
Proof.
  intros l N H. apply Sorted_StronglySorted. { intros a b c; lia. }
  induction l as [|a l IH]; constructor.
  - apply IH. { inversion N; auto. }
    intros j Hj. apply (H (S j)). simpl; lia.
  - destruct l as [|b l]; constructor.
    specialize (H 0 ltac:(simpl; lia)). simpl in H.
    inversion N; subst. simpl in *. assert (a <> b) by (intros ->; tauto). lia.
Qed.

Lemma asc_rev : forall l, desc l -> asc (rev l).
Proof.
  induction l as [|a l IH]; intros D; simpl; [constructor|].
  apply StronglySorted_inv in D. destruct D as [D1 D2]. specialize (IH D1).
  rewrite Forall_forall in D2.
  assert (G : forall m, asc m -> (forall z, In z m -> z < a) -> asc (m ++ [a])).
  { clear. induction m as [|b m IH]; intros A H; simpl. repeat constructor.
    apply StronglySorted_inv in A. destruct A as [A1 A2]. rewrite Forall_forall in A2.
    constructor. apply IH; auto. intros; apply H; simpl; auto.
    apply Forall_forall. intros z Hz. apply in_app_or in Hz. simpl in Hz.
    destruct Hz as [Hz|[<-|[]]]; auto. apply H; simpl; auto. }
  apply G; auto. intros z Hz. apply in_rev in Hz. specialize (D2 z Hz). lia.
Qed.

Lemma upd_app_mid : forall (p : list nat) x q v, upd (length p) v (p ++ x :: q) = p ++ v :: q.
Proof. induction p; simpl; intros; auto. rewrite IHp; auto. Qed.

Lemma upd_at : forall (p : list nat) x q v i, i = length p -> upd i v (p ++ x :: q) = p ++ v :: q.
Proof. intros; subst; apply upd_app_mid. Qed.

Lemma nth_at : forall (p : list nat) x q i, i = length p -> nth i (p ++ x :: q) 0 = x.
Proof. intros; subst. rewrite app_nth2, Nat.sub_diag; auto. Qed.

Lemma swap_at : forall p x m y q i j, i = length p -> j = length p + 1 + length m ->
  swap (p ++ x :: m ++ y :: q) i j = p ++ y :: m ++ x :: q.
Proof.
  intros p x m y q i j Hi Hj. unfold swap. rewrite (nth_at p x) by auto.
  replace (p ++ x :: m ++ y :: q) with ((p ++ x :: m) ++ y :: q) by (rewrite <- app_assoc; auto).
  rewrite nth_at by (rewrite app_length; simpl; lia).
  rewrite <- app_assoc. simpl. rewrite upd_at by auto.
  replace (p ++ y :: m ++ y :: q) with ((p ++ y :: m) ++ y :: q) by (rewrite <- app_assoc; auto).
  rewrite upd_at by (rewrite app_length; simpl; lia). rewrite <- app_assoc. reflexivity.
Qed.

Lemma reverse_loop_spec : forall fuel p s q, length s <= 2 * fuel ->
  reverse_loop fuel (p ++ s ++ q) (length p) (length p + length s - 1) = p ++ rev s ++ q.
Proof.
  induction fuel as [|f IH]; intros p s q H.
  - destruct s; simpl in *; [auto|lia].
  - simpl reverse_loop. destruct s as [|a s].
    + destruct (length p <? length p + length (@nil nat) - 1) eqn:E; auto.
      apply Nat.ltb_lt in E. simpl in E. lia.
    + destruct (exists_last (l := a :: s)) as (s' & b & E); [discriminate|].
      destruct s' as [|a' m].
      * inversion E; subst. simpl. replace (length p + 1 - 1) with (length p) by lia.
        rewrite Nat.ltb_irrefl. reflexivity.
      * inversion E; subst a' s. clear E.
        replace (length p <? length p + length (a :: m ++ [b]) - 1) with true
          by (symmetry; apply Nat.ltb_lt; simpl; rewrite app_length; simpl; lia).
        replace (p ++ (a :: m ++ [b]) ++ q) with (p ++ a :: m ++ b :: q)
          by (simpl; rewrite <- app_assoc; auto).
        rewrite swap_at; [|auto|simpl; rewrite app_length; simpl; lia].
        replace (p ++ b :: m ++ a :: q) with ((p ++ [b]) ++ m ++ a :: q) by (rewrite <- app_assoc; auto).
        replace (length p + 1) with (length (p ++ [b])) by (rewrite app_length; auto).
        replace (length p + length (a :: m ++ [b]) - 1 - 1) with (length (p ++ [b]) + length m - 1)
          by (simpl; rewrite !app_length; simpl; lia).
        rewrite IH by (simpl in H; rewrite app_length in H; simpl in H; lia).
        simpl. rewrite rev_app_distr. simpl. rewrite <- !app_assoc. reflexivity.
Qed.

Lemma nth_skipn0 : forall i j (l : list nat), nth j (skipn i l) 0 = nth (i + j) l 0.
Proof. induction i; destruct l; simpl; intros; auto. destruct j; auto. Qed.

Lemma NoDup_app_r : forall (a b : list nat), NoDup (a ++ b) -> NoDup b.
Proof. induction a; simpl; intros b H; auto. inversion H; auto. Qed.

(** The successor computed by the code, in decomposed form. *)
Lemma next_map_some : forall a k, NoDup a -> find_k a (length a - 1) = Some k ->
  exists pre x s1 y s2, a = pre ++ x :: s1 ++ y :: s2 /\ length pre = k /\
    desc (s1 ++ y :: s2) /\ x < y /\ Forall (fun z => z < x) s2 /\
    next_map a = pre ++ y :: rev (s1 ++ x :: s2).
Proof.
  intros a k N E. pose proof (find_k_some _ _ _ E) as (K1 & K2 & K3).
  destruct (find_l_spec a k (length a - 1)) as (L1 & L2 & L3); [lia|].
  set (l := find_l a k (length a - 1)) in *.
  assert (L4 : nth k a 0 < nth l a 0) by (destruct L3 as [->|]; auto).
  destruct (nth_split a 0 (n := k)) as (pre & suf & A1 & Lp); [lia|].
  assert (Ls : length suf = length a - k - 1) by (rewrite A1, app_length; simpl; lia).
  assert (Nsf : forall j, nth j suf 0 = nth (k + 1 + j) a 0).
  { intros j. rewrite A1. rewrite app_nth2 by lia. rewrite Lp.
    replace (k + 1 + j - k) with (S j) by lia. reflexivity. }
  pose (m := l - (k + 1)).
  destruct (nth_split suf 0 (n := m)) as (s1 & s2 & A2 & L1s); [unfold m; lia|].
  assert (Y : nth m suf 0 = nth l a 0).
  { rewrite Nsf. f_equal. unfold m; lia. }
  rewrite Y in A2.
  assert (Ns2 : forall j, nth j s2 0 = nth (m + 1 + j) suf 0).
  { intros j. rewrite A2. rewrite app_nth2 by lia. rewrite L1s.
    replace (m + 1 + j - m) with (S j) by lia. reflexivity. }
  assert (Ls2 : length suf = m + 1 + length s2) by (rewrite A2, app_length; simpl; lia).
  assert (Nsuf : NoDup suf).
  { rewrite A1 in N. apply NoDup_remove_1 in N. apply NoDup_app_r in N; auto. }
  assert (Dsuf : desc suf).
  { apply desc_of_nth; auto. intros j Hj. rewrite !Nsf.
    replace (k + 1 + (j + 1)) with (k + 1 + j + 1) by lia. apply K3. lia. }
  exists pre, (nth k a 0), s1, (nth l a 0), s2.
  assert (A3 : a = pre ++ nth k a 0 :: s1 ++ nth l a 0 :: s2) by (rewrite <- A2; exact A1).
  split; [exact A3|]. split; [auto|]. split; [rewrite <- A2; auto|]. split; [auto|].
  assert (F2 : Forall (fun z => z < nth k a 0) s2).
  { apply Forall_forall. intros z Hz.
    assert (z <= nth k a 0).
    { apply In_nth with (d := 0) in Hz. destruct Hz as (i & Hi & <-).
      rewrite Ns2, Nsf. apply L2. unfold m in *. lia. }
    assert (z <> nth k a 0).
    { intros ->. rewrite A3 in N at 1. apply NoDup_remove_2 in N. apply N.
      apply in_or_app; right. apply in_or_app; right. simpl; auto. }
    lia. }
  split; [auto|].
  unfold next_map. rewrite E. fold l.
  rewrite A3 at 2. rewrite swap_at; [|auto|rewrite L1s, Lp; unfold m; lia].
  assert (X : pre ++ nth l a 0 :: s1 ++ nth k a 0 :: s2 =
              (pre ++ [nth l a 0]) ++ (s1 ++ nth k a 0 :: s2) ++ [])
    by (rewrite app_nil_r, <- app_assoc; auto).
  rewrite X.
  assert (La : length a = length pre + 1 + length (s1 ++ nth k a 0 :: s2)).
  { rewrite A3 at 1. repeat (rewrite app_length; simpl). lia. }
  replace (k + 1) with (length (pre ++ [nth l a 0])) by (rewrite app_length; simpl; lia).
  replace (length a - 1) with (length (pre ++ [nth l a 0]) + length (s1 ++ nth k a 0 :: s2) - 1)
    by (rewrite (app_length pre); simpl; lia).
  rewrite reverse_loop_spec by lia. rewrite app_nil_r, <- app_assoc. reflexivity.
Qed.

Lemma next_map_succ : forall a k, NoDup a -> find_k a (length a - 1) = Some k ->
  Permutation a (next_map a) /\ lexlt a (next_map a) /\
  forall r, Permutation a r -> lexlt a r -> lexlt r (next_map a) -> False.
Proof.
  intros a k N E. destruct (next_map_some a k N E) as (pre & x & s1 & y & s2 & A & L & D & XY & F & NX).
  rewrite NX. split; [|split].
  - rewrite A. apply Permutation_app_head. rewrite <- Permutation_rev.
    change (y :: s1 ++ x :: s2) with ((y :: s1) ++ x :: s2).
    etransitivity; [|apply Permutation_middle]. apply perm_skip. simpl. symmetry. apply Permutation_middle.
  - rewrite A. apply lexlt_app. simpl; auto.
  - intros r P L1 L2. rewrite A in P, L1. eapply no_between; eauto.
    apply asc_rev. clear - D XY F.
    induction s1 as [|b s1 IH]; simpl in *.
    + apply StronglySorted_inv in D. destruct D as [D1 D2]. constructor; auto.
    + apply StronglySorted_inv in D. destruct D as [D1 D2]. constructor; [apply IH; exact D1|].
      rewrite Forall_forall in D2. apply Forall_forall. intros z Hz. apply in_app_or in Hz.
      destruct Hz as [Hz|[<-|Hz]].
      * apply D2; apply in_or_app; auto.
      * assert (b > y) by (apply D2; apply in_or_app; simpl; auto). lia.
      * apply D2; apply in_or_app; simpl; auto.
Qed.

Lemma find_k_none_max : forall a, NoDup a -> find_k a (length a - 1) = None ->
  forall r, Permutation a r -> ~ lexlt a r.
Proof.
  intros a N E r P. apply desc_max; auto. apply desc_of_nth; auto.
  intros j Hj. eapply find_k_none; eauto. lia.
Qed.

(** ** The sorted list of all permutations of an ascending list *)

(** all ways to choose one element, in order, with the remaining ones *)
Fixpoint choices (l : list nat) : list (nat * list nat) :=
  match l with
  | [] => []
  | x :: l' => (x, l') :: map (fun p => (fst p, x :: snd p)) (choices l')
  end.

Fixpoint lexperms (n : nat) (l : list nat) : list (list nat) :=
  match n with
  | 0 => [[]]
  | S n' => flat_map (fun p => map (cons (fst p)) (lexperms n' (snd p))) (choices l)
  end.

Lemma choices_perm : forall l p, In p (choices l) -> Permutation l (fst p :: snd p).
Proof.
  induction l as [|x l IH]; simpl; intros p H; [tauto|].
  destruct H as [<-|H]; simpl; auto.
  apply in_map_iff in H. destruct H as (q & <- & Hq). simpl.
  rewrite (IH q Hq) at 1. apply perm_swap.
Qed.

Lemma choices_all : forall l x, In x l -> exists r, In (x, r) (choices l).
Proof.
  induction l as [|y l IH]; simpl; intros x H; [tauto|].
  destruct H as [<-|H]; [eauto|]. destruct (IH x H) as [r Hr].
  exists (y :: r). right. apply in_map_iff. exists (x, r); auto.
Qed.

Lemma choices_length : forall l, length (choices l) = length l.
Proof. induction l; simpl; auto. rewrite map_length. lia. Qed.

Lemma choices_fst : forall l, map fst (choices l) = l.
Proof. induction l; simpl; auto. rewrite map_map. simpl. f_equal. exact IHl. Qed.

Lemma lexperms_in : forall n l p, length l = n -> NoDup l ->
  (In p (lexperms n l) <-> Permutation l p).
Proof.
  induction n as [|n IH]; intros l p L N; simpl.
  - destruct l; [|discriminate]. split.
    + intros [<-|[]]; auto.
    + intros H. apply Permutation_nil in H. auto.
  - rewrite in_flat_map. split.
    + intros (q & Hq & Hp). apply in_map_iff in Hp. destruct Hp as (t & <- & Ht).
      pose proof (choices_perm _ _ Hq) as C.
      assert (NoDup (fst q :: snd q)) by (eapply Permutation_NoDup; eauto).
      apply IH in Ht; [rewrite C; auto| |inversion H; auto].
      apply Permutation_length in C. simpl in C. lia.
    + intros P. destruct p as [|x p].
      { apply Permutation_sym, Permutation_nil in P. subst; discriminate. }
      assert (In x l) by (eapply Permutation_in; [symmetry; eauto|simpl; auto]).
      destruct (choices_all l x H) as [r Hr]. exists (x, r); split; auto.
      pose proof (choices_perm _ _ Hr) as C. simpl in *.
      assert (NoDup (x :: r)) by (eapply Permutation_NoDup; eauto).
      apply in_map. apply IH.
      * apply Permutation_length in C. simpl in C. lia.
      * inversion H0; auto.
      * apply (Permutation_cons_inv (a := x)). rewrite <- C. auto.
Qed.

Lemma lexperms_length : forall n l, length l = n -> length (lexperms n l) = fact n.
Proof.
  induction n as [|n IH]; intros l L; simpl; auto.
  assert (G : forall c, (forall p, In p c -> length (snd p) = n) ->
     length (flat_map (fun p : nat * list nat => map (cons (fst p)) (lexperms n (snd p))) c)
     = length c * fact n).
  { induction c as [|p c IHc]; simpl; intros H; auto.
    rewrite app_length, map_length, IH, IHc; auto. }
  rewrite G.
  - rewrite choices_length, L. simpl. lia.
  - intros p Hp. apply choices_perm, Permutation_length in Hp. simpl in Hp. lia.
Qed.

Lemma asc_choices : forall l, asc l -> forall p, In p (choices l) -> asc (snd p).
Proof.
  induction l as [|x l IH]; simpl; intros A p H; [tauto|].
  apply StronglySorted_inv in A. destruct A as [A1 A2].
  destruct H as [<-|H]; simpl; auto.
  apply in_map_iff in H. destruct H as (q & <- & Hq). simpl. constructor; [apply IH; auto|].
  apply choices_perm in Hq. apply Forall_forall; rewrite Forall_forall in A2; intros z Hz. apply A2.
  eapply Permutation_in; [symmetry; exact Hq|simpl; auto].
Qed.

Lemma ssorted_app : forall (R : list nat -> list nat -> Prop) a b, StronglySorted R a -> StronglySorted R b ->
  (forall x y, In x a -> In y b -> R x y) -> StronglySorted R (a ++ b).
Proof.
  induction a as [|x a IH]; simpl; intros b A B H; auto.
  apply StronglySorted_inv in A. destruct A as [A1 A2]. constructor; auto.
  apply Forall_forall; rewrite Forall_forall in A2; intros z Hz. apply in_app_or in Hz. destruct Hz; auto.
Qed.

Lemma ssorted_map_cons : forall x l, StronglySorted lexlt l -> StronglySorted lexlt (map (cons x) l).
Proof.
  induction l as [|a l IH]; simpl; intros S; [constructor|].
  apply StronglySorted_inv in S. destruct S as [S1 S2]. constructor; auto.
  apply Forall_forall; rewrite Forall_forall in S2; intros z Hz. apply in_map_iff in Hz. destruct Hz as (w & <- & Hw).
  simpl; right; split; auto.
Qed.

Lemma lexperms_sorted : forall n l, length l = n -> asc l -> StronglySorted lexlt (lexperms n l).
Proof.
  induction n as [|n IH]; intros l L A; simpl.
  - repeat constructor.
  - assert (G : forall c, (forall p, In p c -> length (snd p) = n /\ asc (snd p)) -> asc (map fst c) ->
      StronglySorted lexlt (flat_map (fun p : nat * list nat => map (cons (fst p)) (lexperms n (snd p))) c)).
    { induction c as [|p c IHc]; simpl; intros H S; [constructor|].
      apply StronglySorted_inv in S. destruct S as [S1 S2].
      apply ssorted_app.
      - apply ssorted_map_cons. apply IH; apply H; auto.
      - apply IHc; auto.
      - intros x y Hx Hy. apply in_map_iff in Hx. destruct Hx as (x' & <- & _).
        apply in_flat_map in Hy. destruct Hy as (q & Hq & Hy). apply in_map_iff in Hy.
        destruct Hy as (y' & <- & _). simpl. left. rewrite Forall_forall in S2.
        apply S2. apply in_map; auto. }
    apply G.
    + intros p Hp. split; [|eapply asc_choices; eauto].
      apply choices_perm, Permutation_length in Hp. simpl in Hp; lia.
    + rewrite choices_fst; auto.
Qed.

Lemma asc_seq : forall n s, asc (seq s n).
Proof.
  induction n; intros s; simpl; constructor; auto. apply IHn.
  apply Forall_forall. intros z Hz. apply in_seq in Hz. lia.
Qed.

Lemma ssorted_nth : forall (l : list (list nat)) i j d, StronglySorted lexlt l -> i < j < length l ->
  lexlt (nth i l d) (nth j l d).
Proof.
  induction l as [|a l IH]; simpl; intros i j d S H; [lia|].
  apply StronglySorted_inv in S. destruct S as [S1 S2]. rewrite Forall_forall in S2.
  destruct j; [lia|]. destruct i.
  - apply S2. apply nth_In. lia.
  - apply IH; auto. lia.
Qed.

Definition all_perms (n : nat) : list (list nat) := lexperms n (seq 0 n).

Lemma all_perms_in : forall n p, In p (all_perms n) <-> Permutation (seq 0 n) p.
Proof. intros. apply lexperms_in. apply seq_length. apply seq_NoDup. Qed.

Lemma all_perms_length : forall n, length (all_perms n) = fact n.
Proof. intros. apply lexperms_length. apply seq_length. Qed.

Lemma all_perms_sorted : forall n, StronglySorted lexlt (all_perms n).
Proof. intros. apply lexperms_sorted. apply seq_length. apply asc_seq. Qed.

Lemma all_perms_lt : forall n i j, i < j < fact n -> lexlt (nth i (all_perms n) []) (nth j (all_perms n) []).
Proof. intros. apply ssorted_nth. apply all_perms_sorted. rewrite all_perms_length; auto. Qed.

Lemma all_perms_nth : forall n i, i < fact n -> Permutation (seq 0 n) (nth i (all_perms n) []).
Proof. intros. apply all_perms_in. apply nth_In. rewrite all_perms_length; auto. Qed.

Lemma all_perms_index : forall n p, Permutation (seq 0 n) p ->
  exists i, i < fact n /\ nth i (all_perms n) [] = p.
Proof.
  intros n p P. apply all_perms_in in P. apply In_nth with (d := []) in P.
  rewrite all_perms_length in P. exact P.
Qed.

Lemma all_perms_0 : forall n, nth 0 (all_perms n) [] = seq 0 n.
Proof.
  intros n. destruct (all_perms_index n (seq 0 n) (Permutation_refl _)) as (i & Hi & E).
  destruct i; auto. exfalso.
  pose proof (all_perms_lt n 0 (S i) ltac:(lia)) as L. rewrite E in L.
  eapply asc_min; [apply (asc_seq n 0)| |exact L]. apply all_perms_nth. lia.
Qed.

Lemma next_map_nth : forall n i, i < fact n ->
  next_map (nth i (all_perms n) []) = nth (S i mod fact n) (all_perms n) [].
Proof.
  intros n i Hi. set (a := nth i (all_perms n) []).
  assert (P : Permutation (seq 0 n) a) by (apply all_perms_nth; auto).
  assert (N : NoDup a) by (eapply Permutation_NoDup; [eauto|apply seq_NoDup]).
  assert (La : length a = n) by (apply Permutation_length in P; rewrite seq_length in P; auto).
  destruct (find_k a (length a - 1)) as [k|] eqn:E.
  - destruct (next_map_succ a k N E) as (Q & L & B).
    destruct (all_perms_index n (next_map a)) as (j & Hj & Ej); [rewrite P; auto|].
    assert (i < j).
    { destruct (lt_eq_lt_dec i j) as [[?|?]|?]; auto; exfalso.
      - subst j. fold a in Ej. rewrite <- Ej in L. eapply lexlt_irrefl; eauto.
      - pose proof (all_perms_lt n j i ltac:(lia)) as X. rewrite Ej in X. fold a in X.
        eapply lexlt_irrefl. eapply lexlt_trans; eauto. }
    assert (j = S i).
    { destruct (Nat.eq_dec j (S i)); auto. exfalso.
      apply (B (nth (S i) (all_perms n) [])).
      - rewrite <- P. apply all_perms_nth; lia.
      - apply all_perms_lt; lia.
      - rewrite <- Ej. apply all_perms_lt; lia. }
    subst j. rewrite Nat.mod_small by auto. auto.
  - assert (S i = fact n).
    { destruct (Nat.eq_dec (S i) (fact n)); auto. exfalso.
      eapply (find_k_none_max a N E (nth (S i) (all_perms n) [])).
      - rewrite <- P. apply all_perms_nth; lia.
      - apply all_perms_lt; lia. }
    rewrite H, Nat.mod_same by (apply fact_neq_0). rewrite all_perms_0.
    unfold next_map. rewrite E, La. reflexivity.
Qed.

(** ** The precomputed tables are the sorted lists *)
Lemma pc_perm_ok : forall n, 1 <= n <= 6 -> pc_perm n = all_perms n /\ n_pc_perms n = fact n.
Proof.
  intros n H.
  assert (n = 1 \/ n = 2 \/ n = 3 \/ n = 4 \/ n = 5 \/ n = 6) as C by lia.
  destruct C as [-> | [-> | [-> | [-> | [-> | ->]]]]]; split; vm_compute; reflexivity.
Qed.

(** ** Iteration *)
Fixpoint run_perm (k : nat) (p : perm) : res perm :=
  match k with
  | 0 => Ok p
  | S k' => bind (run_perm k' p) pd_increment_perm
  end.

Definition pidx (n k : nat) : nat := if n <=? 6 then k mod fact n else 0.

Lemma mod_succ : forall k m, m <> 0 -> (k mod m + 1) mod m = S k mod m.
Proof. intros. rewrite Nat.add_mod_idemp_l by auto. f_equal. lia. Qed.

Lemma run_perm_nth : forall n k, 1 <= n ->
  run_perm k (pd_new_perm n) = Ok (mkPerm (nth (k mod fact n) (all_perms n) []) (pidx n k)).
Proof.
  intros n k Hn. pose proof (fact_neq_0 n) as F0. induction k as [|k IH]; cbn [run_perm].
  - rewrite Nat.mod_0_l by auto. rewrite all_perms_0. unfold pd_new_perm, pidx.
    destruct (n <=? 6); auto. rewrite Nat.mod_0_l; auto.
  - rewrite IH. cbn [bind]. unfold pd_increment_perm.
    assert (Hk : k mod fact n < fact n) by (apply Nat.mod_upper_bound; auto).
    assert (Ln : pn (mkPerm (nth (k mod fact n) (all_perms n) []) (pidx n k)) = n).
    { unfold pn; simpl. pose proof (all_perms_nth n _ Hk) as P. apply Permutation_length in P.
      rewrite seq_length in P; auto. }
    rewrite Ln. unfold max_pc_perm, pidx. cbn [pc_idx pmap]. destruct (n <=? 6) eqn:E.
    + apply Nat.leb_le in E. destruct (pc_perm_ok n ltac:(lia)) as [T1 T2]. rewrite T1, T2.
      destruct (fact n =? 0) eqn:Z0; [apply Nat.eqb_eq in Z0; lia|].
      rewrite mod_succ by auto.
      assert (HS : S k mod fact n < fact n) by (apply Nat.mod_upper_bound; auto).
      rewrite nth_error_nth' with (d := []) by (rewrite all_perms_length; auto).
      rewrite firstn_all2; auto.
      pose proof (all_perms_nth n _ HS) as P. apply Permutation_length in P. rewrite seq_length in P. lia.
    + rewrite next_map_nth by auto.
      replace (S (k mod fact n)) with (k mod fact n + 1) by lia. rewrite mod_succ by auto. reflexivity.
Qed.

(** ** Group laws *)
Definition is_perm (p : perm) : Prop := Permutation (seq 0 (pn p)) (pmap p).

Lemma gather_ok : forall a b, Forall (fun x => x < length a) b ->
  gather a b = Ok (map (fun x => nth x a 0) b).
Proof.
  induction b as [|x b IH]; simpl; intros F; auto. inversion F; subst.
  rewrite nth_error_nth' with (d := 0) by auto. rewrite IH by auto. reflexivity.
Qed.

Lemma gather_nth : forall a b m, gather a b = Ok m ->
  length m = length b /\ forall i, i < length b -> nth i m 0 = nth (nth i b 0) a 0.
Proof.
  induction b as [|x b IH]; simpl; intros m H.
  - inversion H; subst; simpl; split; auto. intros; lia.
  - destruct (nth_error a x) eqn:E; [|discriminate].
    apply bind_ok in H. destruct H as (r & H1 & H2). inversion H2; subst.
    destruct (IH r H1) as [A B]. simpl. split; [lia|]. intros [|i] Hi.
    + symmetry. apply nth_error_nth; auto.
    + apply B. lia.
Qed.

Lemma perm_entries : forall p, is_perm p -> Forall (fun x => x < pn p) (pmap p).
Proof.
  intros p P. apply Forall_forall. intros x Hx.
  apply (Permutation_in x (Permutation_sym P)) in Hx. apply in_seq in Hx. lia.
Qed.

Lemma nth_seq : forall n i, i < n -> nth i (seq 0 n) 0 = i.
Proof. intros. rewrite seq_nth; auto. Qed.

Lemma NoDup_nth_inj : forall (l : list nat) i j, NoDup l -> i < length l -> j < length l ->
  nth i l 0 = nth j l 0 -> i = j.
Proof. intros l i j N. rewrite NoDup_nth in N. apply N. Qed.

Lemma is_perm_intro : forall m c, NoDup m -> Forall (fun x => x < length m) m -> is_perm (mkPerm m c).
Proof.
  intros m c N F. unfold is_perm, pn; simpl. symmetry.
  apply NoDup_Permutation_bis; auto.
  - rewrite seq_length; auto.
  - intros x Hx. rewrite Forall_forall in F. apply in_seq. specialize (F x Hx). lia.
Qed.

Lemma is_perm_NoDup : forall p, is_perm p -> NoDup (pmap p).
Proof. intros p H. eapply Permutation_NoDup; [exact H|apply seq_NoDup]. Qed.

Lemma gather_perm : forall A B, is_perm A -> is_perm B -> pn A = pn B ->
  exists m, gather (pmap A) (pmap B) = Ok m /\ length m = pn A /\ forall c, is_perm (mkPerm m c).
Proof.
  intros A B PA PB E.
  pose proof (perm_entries B PB) as F. unfold pn in *.
  rewrite gather_ok by (rewrite E; auto). eexists; split; [reflexivity|]. rewrite map_length.
  split; [lia|]. intros c. apply is_perm_intro.
  - assert (NB := is_perm_NoDup B PB). assert (NA := is_perm_NoDup A PA).
    assert (F' : Forall (fun x => x < length (pmap A)) (pmap B)) by (rewrite E; exact F).
    revert F' NB. generalize (pmap B). clear F. intros b F NB.
    induction b as [|x b IH]; simpl; constructor; inversion F; inversion NB; subst; auto.
    intros I. apply in_map_iff in I. destruct I as (y & Ey & Hy).
    rewrite Forall_forall in H2. apply NoDup_nth_inj in Ey; auto. subst; auto.
  - rewrite map_length. apply Forall_forall. intros y Hy. apply in_map_iff in Hy.
    destruct Hy as (x & <- & Hx). rewrite Forall_forall in F. specialize (F x Hx).
    pose proof (perm_entries A PA) as FA. rewrite Forall_forall in FA. unfold pn in FA. rewrite <- E.
    apply FA. apply nth_In. lia.
Qed.

Lemma list_eqb_eq : forall a b, list_eqb a b = true <-> a = b.
Proof.
  induction a; destruct b; simpl; split; intros H; try discriminate; auto.
  - apply andb_true_iff in H. destruct H as [H1 H2]. apply Nat.eqb_eq in H1. apply IHa in H2. congruence.
  - inversion H; subst. rewrite Nat.eqb_refl. simpl. apply IHa. auto.
Qed.

Lemma find_row_some : forall r t, In r t -> exists i, find_row r t = Some i /\ nth_error t i = Some r.
Proof.
  induction t as [|x t IH]; simpl; intros H; [tauto|].
  destruct (list_eqb r x) eqn:E.
  - apply list_eqb_eq in E. subst. exists 0; auto.
  - destruct H as [->|H].
    + assert (list_eqb r r = true) by (apply list_eqb_eq; auto). congruence.
    + destruct (IH H) as (i & A & B). rewrite A. exists (S i); auto.
Qed.

(** pc_idx is the position in the table (and 0 for large n): the state the iterator has *)
Definition canonical (p : perm) : Prop :=
  pn p <= 6 -> nth_error (all_perms (pn p)) (pc_idx p) = Some (pmap p).

Lemma regen_ok : forall m c, is_perm (mkPerm m c) -> 1 <= length m ->
  exists i, pd_regenerate_pcidx (mkPerm m c) = Ok (mkPerm m i) /\ canonical (mkPerm m i) /\
    (6 < length m -> i = 0).
Proof.
  intros m c P L. unfold pd_regenerate_pcidx. change (pn (mkPerm m c)) with (length m). unfold max_pc_perm.
  destruct (6 <? length m) eqn:E.
  - exists 0. split; auto. split; auto. intros H. unfold pn in H; simpl in H. apply Nat.ltb_lt in E. lia.
  - apply Nat.ltb_ge in E. destruct (pc_perm_ok (length m) ltac:(lia)) as [T _]. rewrite T.
    destruct (find_row_some m (all_perms (length m))) as (i & A & B).
    { apply all_perms_in. exact P. }
    exists i. cbn [pmap]. rewrite A. split; auto. split; [|lia]. intros _. exact B.
Qed.

Lemma canonical_unique : forall m i j, length m <= 6 -> 1 <= length m ->
  canonical (mkPerm m i) -> canonical (mkPerm m j) -> i = j.
Proof.
  intros m i j L L1 Ci Cj. unfold canonical, pn in *; simpl in *. specialize (Ci L). specialize (Cj L).
  destruct (lt_eq_lt_dec i j) as [[H| ]|H]; auto; exfalso.
  - pose proof (all_perms_lt (length m) i j) as X.
    rewrite (nth_error_nth _ _ [] Ci), (nth_error_nth _ _ [] Cj) in X.
    apply (lexlt_irrefl m). apply X. split; auto. rewrite <- all_perms_length. apply nth_error_Some. congruence.
  - pose proof (all_perms_lt (length m) j i) as X.
    rewrite (nth_error_nth _ _ [] Ci), (nth_error_nth _ _ [] Cj) in X.
    apply (lexlt_irrefl m). apply X. split; auto. rewrite <- all_perms_length. apply nth_error_Some. congruence.
Qed.

Lemma compose_ok : forall A B, is_perm A -> is_perm B -> pn A = pn B -> 1 <= pn A ->
  exists C, pd_compose_perms A B = Ok C /\ is_perm C /\ pn C = pn A /\ canonical C /\
    (6 < pn C -> pc_idx C = 0) /\
    forall x, x < pn A -> nth x (pmap C) 0 = nth (nth x (pmap B) 0) (pmap A) 0.
Proof.
  intros A B PA PB E L. unfold pd_compose_perms. rewrite E, Nat.eqb_refl.
  destruct (gather_perm A B PA PB E) as (m & G & Lm & P). rewrite G. cbn [bind].
  destruct (regen_ok m 0 (P 0)) as (i & R & C & Z0); [lia|].
  rewrite R. exists (mkPerm m i). split; auto. split; [apply P|]. split; [unfold pn in *; simpl; lia|].
  split; auto. split; [exact Z0|]. simpl. intros x Hx. apply gather_nth in G. destruct G as [_ G].
  apply G. unfold pn in *. lia.
Qed.

Lemma is_e_eq : forall p, pd_perm_is_e p = true <-> pmap p = seq 0 (pn p).
Proof. intros. apply list_eqb_eq. Qed.

Lemma list_ext0 : forall a b : list nat, length a = length b ->
  (forall i, i < length a -> nth i a 0 = nth i b 0) -> a = b.
Proof. intros. eapply nth_ext; eauto. Qed.

(** scatter writes i at position m[i] *)
Lemma scatter_ok : forall m i acc, Forall (fun x => x < length acc) m ->
  exists r, scatter m i acc = Ok r /\ length r = length acc /\
   (NoDup m -> (forall j, j < length m -> nth (nth j m 0) r 0 = i + j) /\
    forall x, ~ In x m -> nth x r 0 = nth x acc 0).
Proof.
  induction m as [|x m IH]; intros i acc F; simpl.
  - exists acc. split; auto. split; auto. intros _. split; auto. intros; lia.
  - inversion F as [|? ? F1 F2]; subst. rewrite (proj2 (Nat.ltb_lt _ _) F1).
    destruct (IH (S i) (upd x i acc)) as (r & A & B & C); [rewrite upd_length; auto|].
    exists r. split; auto. rewrite upd_length in B. split; auto. intros N. inversion N as [|? ? N1 N2]; subst.
    destruct (C N2) as [C1 C2]. split.
    + intros [|j] Hj.
      * rewrite C2 by auto. rewrite nth_upd_eq by auto. lia.
      * rewrite C1 by lia. lia.
    + intros y Hy. rewrite C2 by tauto. apply nth_upd_neq. intros ->; tauto.
Qed.

Lemma perm_surj : forall p x, is_perm p -> x < pn p -> exists j, j < pn p /\ nth j (pmap p) 0 = x.
Proof.
  intros p x P Hx. assert (I : In x (pmap p)).
  { eapply Permutation_in; [exact P|]. apply in_seq. lia. }
  apply In_nth with (d := 0) in I. exact I.
Qed.

Lemma inverse_ok : forall A, is_perm A -> 1 <= pn A ->
  exists I, pd_inverse_perm A = Ok I /\ is_perm I /\ pn I = pn A /\ canonical I /\
    (6 < pn I -> pc_idx I = 0) /\
    (forall x, x < pn A -> nth (nth x (pmap A) 0) (pmap I) 0 = x) /\
    (forall x, x < pn A -> nth (nth x (pmap I) 0) (pmap A) 0 = x).
Proof.
  intros A P L. unfold pd_inverse_perm.
  destruct (scatter_ok (pmap A) 0 (seq 0 (pn A))) as (r & S1 & S2 & S3).
  { rewrite seq_length. apply perm_entries; auto. }
  rewrite seq_length in S2. destruct (S3 (is_perm_NoDup A P)) as [S4 _]. rewrite S1. cbn [bind].
  assert (Q : forall x, x < pn A -> nth x r 0 < pn A /\ nth (nth x r 0) (pmap A) 0 = x).
  { intros x Hx. destruct (perm_surj A x P Hx) as (j & Hj & <-). rewrite S4 by auto. auto. }
  assert (PI : forall c, is_perm (mkPerm r c)).
  { intros c. apply is_perm_intro.
    - apply (NoDup_nth r 0). intros i j Hi Hj E. rewrite S2 in *.
      destruct (Q i Hi) as [_ Qi]. destruct (Q j Hj) as [_ Qj]. congruence.
    - apply Forall_forall. intros y Hy. apply In_nth with (d := 0) in Hy. destruct Hy as (x & Hx & <-).
      rewrite S2 in *. apply Q; auto. }
  destruct (regen_ok r 0 (PI 0)) as (i & R & C & Z0); [lia|]. rewrite R.
  exists (mkPerm r i). split; auto. split; [apply PI|]. split; auto. split; auto. split; auto.
  simpl. split.
  - intros x Hx. rewrite S4 by (exact Hx). reflexivity.
  - intros x Hx. apply Q; auto.
Qed.

(** ** Powers and period *)
Fixpoint apply_n (k : nat) (m : list nat) (x : nat) : nat :=
  match k with 0 => x | S k' => nth (apply_n k' m x) m 0 end.

Lemma apply_n_comm : forall k m x, apply_n k m (nth x m 0) = nth (apply_n k m x) m 0.
Proof. induction k; simpl; intros; auto. rewrite IHk; auto. Qed.

Lemma apply_n_bound : forall A k x, is_perm A -> x < pn A -> apply_n k (pmap A) x < pn A.
Proof.
  intros A k x P H. induction k; simpl; auto.
  pose proof (perm_entries A P) as F. rewrite Forall_forall in F. apply F. apply nth_In. exact IHk.
Qed.

Definition power_is_id (A : perm) (k : nat) : Prop := forall x, x < pn A -> apply_n k (pmap A) x = x.

Lemma period_loop_spec : forall A left Apow period, is_perm A -> is_perm Apow -> pn Apow = pn A ->
  (forall x, x < pn A -> nth x (pmap Apow) 0 = apply_n period (pmap A) x) ->
  match period_loop A left Apow period with
  | Ok k => period <= k <= period + left /\ power_is_id A k /\ forall j, period <= j < k -> ~ power_is_id A j
  | Fail => forall j, period <= j <= period + left -> ~ power_is_id A j
  | _ => False
  end.
Proof.
  intros A. induction left as [|left IH]; intros Apow period PA PW E H; cbn [period_loop].
  - destruct (pd_perm_is_e Apow) eqn:IE.
    + apply is_e_eq in IE. split; [lia|]. split; [|intros; lia].
      intros x Hx. rewrite <- H by auto. rewrite IE. rewrite E. apply nth_seq; auto.
    + intros j Hj I. assert (j = period) by lia. subst j.
      assert (pd_perm_is_e Apow = true); [|congruence]. apply is_e_eq. apply list_ext0.
      * rewrite seq_length; auto.
      * intros i Hi. change (i < pn Apow) in Hi. rewrite E in *. rewrite nth_seq, H by auto. apply I; auto.
  - assert (NE : pd_perm_is_e Apow = false -> ~ power_is_id A period).
    { intros IE I. assert (pd_perm_is_e Apow = true); [|congruence]. apply is_e_eq. apply list_ext0.
      * rewrite seq_length; auto.
      * intros i Hi. change (i < pn Apow) in Hi. rewrite E in *. rewrite nth_seq, H by auto. apply I; auto. }
    destruct (pd_perm_is_e Apow) eqn:IE.
    + apply is_e_eq in IE. split; [lia|]. split; [|intros; lia].
      intros x Hx. rewrite <- H by auto. rewrite IE. rewrite E. apply nth_seq; auto.
    + specialize (NE eq_refl). unfold pd_stareq_perm. rewrite E, Nat.eqb_refl.
      destruct (gather_perm Apow A PW PA E) as (m & G & Lm & P). rewrite G. cbn [bind].
      pose proof (gather_nth _ _ _ G) as [_ GN].
      specialize (IH (mkPerm m (pc_idx Apow)) (S period) PA (P _)).
      assert (pn (mkPerm m (pc_idx Apow)) = pn A) by (unfold pn in *; simpl; lia).
      specialize (IH H0).
      assert (HH : forall x, x < pn A -> nth x (pmap (mkPerm m (pc_idx Apow))) 0 = apply_n (S period) (pmap A) x).
      { intros x Hx. simpl. rewrite GN by exact Hx. rewrite H.
        - rewrite apply_n_comm. reflexivity.
        - pose proof (perm_entries A PA) as F. rewrite Forall_forall in F. apply F. apply nth_In. exact Hx. }
      specialize (IH HH).
      destruct (period_loop A left (mkPerm m (pc_idx Apow)) (S period)); try contradiction.
      * destruct IH as (I1 & I2 & I3). split; [lia|]. split; auto.
        intros j Hj. destruct (Nat.eq_dec j period); [subst; auto|apply I3; lia].
      * intros j Hj. destruct (Nat.eq_dec j period); [subst; auto|apply IH; lia].
Qed.

(** ** pd_nperms *)
Lemma nperms_loop_spec : forall n k,
  nperms_loop n (Z.of_nat (fact k) mod 2 ^ 32) (Z.of_nat (k + 1)) = (Z.of_nat (fact (k + n)) mod 2 ^ 32)%Z.
Proof.
  induction n as [|n IH]; intros k; cbn [nperms_loop].
  - rewrite Nat.add_0_r. reflexivity.
  - replace (k + S n) with (S k + n) by lia. rewrite <- IH. f_equal; [|lia].
    rewrite Z.mul_mod_idemp_l by lia. f_equal. rewrite Nat.add_1_r. change (fact (S k)) with (S k * fact k). lia.
Qed.

Lemma nperms_spec : forall p, 1 <= pn p -> pd_nperms p = (Z.of_nat (fact (pn p)) mod 2 ^ 32)%Z.
Proof.
  intros p H. unfold pd_nperms. destruct (pn p <=? max_pc_perm) eqn:E.
  - apply Nat.leb_le in E. unfold max_pc_perm in E. destruct (pc_perm_ok (pn p) ltac:(lia)) as [_ ->].
    rewrite Z.mod_small; auto. split; [lia|].
    pose proof (fact_le (pn p) 6 ltac:(lia)) as F. change (fact 6) with 720 in F.
    change (2 ^ 32)%Z with 4294967296%Z. lia.
  - exact (nperms_loop_spec (pn p) 0).
Qed.
