(** What the table of knot types contains.  Each fact about all rows is decided by a function that is proved sound and computed. *)
From Coq Require Import List NArith ZArith Lia Bool Arith Ascii String Sorted Permutation.
From Verif Require Import Base Sorting TextIO Poly PolySpec Thm_Poly PolyText PolyTextSpec PolyTextProofs Thm_PolyText KtTable Classify ClassifySpec ClassifyProofs.
Import List ListNotations.
Open Scope list_scope.
Open Scope nat_scope.

Fixpoint all_pairs {A} (f : A -> A -> bool) (l : list A) : bool := match l with [] => true | x :: l' => forallb (f x) l' && all_pairs f l' end.
Lemma all_pairs_nth : forall {A} (f : A -> A -> bool) l, all_pairs f l = true -> forall i j a b, i < j -> nth_error l i = Some a -> nth_error l j = Some b -> f a b = true.
Proof.
  intros A f. induction l as [|x l IH]; intros H i j a b L Ea Eb; [destruct i; discriminate|]. cbn [all_pairs] in H. apply andb_true_iff in H as (H1 & H2). destruct j as [|j]; [lia|]. cbn in Eb. destruct i as [|i]; cbn in Ea; [injection Ea as <-; rewrite forallb_forall in H1; apply H1; eapply nth_error_In; eauto|]. apply (IH H2 i j); auto; lia.
Qed.
Section Table.
Variable db : list knottype.
Definition prime_in (r : knottype) (f : factor) : Prop := In r db /\ factors r = [f].
(** ** the texts are tables *)
Fixpoint split_on (c : nat) (t : text) : list text :=
  match t with
  | [] => [[]]
  | x :: t' => match split_on c t' with h :: l => if x =? c then [] :: h :: l else (x :: h) :: l | [] => [] end
  end.
Fixpoint parse_tokens (ts : list text) (neg : list Z) : option row :=
  match ts with
  | [] => None
  | (91 :: t) :: ts' => match scan_int t with
                        | Some z => Some (mkRow neg z (map (fun t => match scan_int t with Some z => z | None => 0%Z end) ts'))
                        | None => None
                        end
  | t :: ts' => match scan_int t with Some z => parse_tokens ts' (neg ++ [z]) | None => None end
  end.
Definition double (t : text) : bool := count_occ Nat.eq_dec t 91 =? 2.
Definition parse_row (t : text) : option row := parse_tokens (split_on 32 (if double t then removelast (tl t) else t)) [].
Fixpoint all_rows (ts : list text) : option (list row) :=
  match ts with
  | [] => Some []
  | t :: ts' => match parse_row t, all_rows ts' with Some r, Some rs => Some (r :: rs) | _, _ => None end
  end.
Fixpoint before (ts : list text) : nat := match ts with [] => 0 | t :: ts' => if double t then 0 else S (before ts') end.
Definition parse_table (t : text) : option table :=
  let ts := removelast (split_on 78 t) in match all_rows ts with Some rs => Some (mkTable rs (before ts)) | None => None end.
Definition text_eqb (a b : text) : bool := Z.eqb (strcmp a b) 0.
Lemma text_eqb_eq : forall a b, text_eqb a b = true <-> a = b.
Proof. intros a b. unfold text_eqb. rewrite Z.eqb_eq. apply strcmp_zero. Qed.
Definition small_b (z : Z) : bool := Z.leb (-2147483647) z && Z.leb z 2147483647.
Definition row_good (r : knottype) : bool :=
  match parse_table (k_homfly r) with
  | Some T => text_eqb (k_homfly r) (table_text T) && (t_before T <? length (t_rows T)) && forallb small_b (entries T) && (nonzeros T <=? spaces (table_text T))
  | None => false
  end && (length (k_cr r) =? k_nf r) && (length (k_ind r) =? k_nf r) && (length (k_sym r) =? k_nf r) && (length (k_homfly r) <? 1024).
Lemma row_reads : forallb row_good db = true -> forall r, In r db -> exists T p, k_homfly r = table_text T /\ t_before T < length (t_rows T) /\
  lmpoly_to_polynomial (k_homfly r) = Ok p /\ normal p /\ (forall l m, coef p l m = entry T l m) /\
  length (k_cr r) = k_nf r /\ length (k_ind r) = k_nf r /\ length (k_sym r) = k_nf r /\ length (k_homfly r) < 1024.
Proof.
  intros G r H. rewrite forallb_forall in G. specialize (G r H). unfold row_good in G. apply andb_true_iff in G as (G & G5). apply andb_true_iff in G as (G & G4). apply andb_true_iff in G as (G & G3). apply andb_true_iff in G as (G & G2).
  destruct (parse_table (k_homfly r)) as [T|]; [|discriminate]. apply andb_true_iff in G as (G & C4). apply andb_true_iff in G as (G & C3). apply andb_true_iff in G as (C1 & C2).
  apply text_eqb_eq in C1. apply Nat.ltb_lt in C2, G5. apply Nat.leb_le in C4. apply Nat.eqb_eq in G2, G3, G4.
  assert (SM : Forall small (entries T)). { apply Forall_forall. rewrite forallb_forall in C3. intros z Hz. specialize (C3 z Hz). unfold small_b in C3. apply andb_true_iff in C3 as (A & B). apply Z.leb_le in A, B. unfold small. lia. }
  destruct (homfly_text_read T C2 SM C4) as (p & E & N & C). exists T, p. rewrite <- C1 in E. repeat split; auto; apply N.
Qed.
Definition pof (r : knottype) : poly := match lmpoly_to_polynomial (k_homfly r) with Ok p => p | _ => [] end.
Lemma pof_read : forall r p, lmpoly_to_polynomial (k_homfly r) = Ok p -> pof r = p.
Proof. intros r p E. unfold pof. rewrite E. auto. Qed.

(** ** different texts are different polynomials *)
Definition mono_eqb (a b : mono) : bool := Z.eqb (coeff a) (coeff b) && Z.eqb (lexp a) (lexp b) && Z.eqb (mexp a) (mexp b).
Fixpoint poly_eqb (p q : poly) : bool :=
  match p, q with
  | [], [] => true
  | a :: p', b :: q' => mono_eqb a b && poly_eqb p' q'
  | _, _ => false
  end.
Lemma mono_eqb_eq : forall a b, mono_eqb a b = true <-> a = b.
Proof.
  intros [a b c] [a' b' c']. unfold mono_eqb. cbn. rewrite !andb_true_iff, !Z.eqb_eq. split; [intros ((-> & ->) & ->); auto|intros E; injection E as -> -> ->; auto].
Qed.
Lemma poly_eqb_eq : forall p q, poly_eqb p q = true <-> p = q.
Proof.
  induction p as [|a p IH]; intros [|b q]; cbn [poly_eqb]; split; intros H; auto; try discriminate.
  - apply andb_true_iff in H as (A & B). apply mono_eqb_eq in A. apply IH in B. congruence.
  - injection H as -> ->. apply andb_true_iff. split; [apply mono_eqb_eq|apply IH]; auto.
Qed.
Definition texts_differ : bool :=
  let l := map (fun r => (pof r, k_homfly r)) db in
  all_pairs (fun a b => negb (poly_eqb (fst a) (fst b)) || text_eqb (snd a) (snd b)) l.
Lemma poly_text : texts_differ = true -> forall r r', In r db -> In r' db -> pof r = pof r' -> k_homfly r = k_homfly r'.
Proof.
  intros D r r' H H' E. unfold texts_differ in D. apply In_nth_error in H as (i & Hi), H' as (j & Hj).
  assert (K : forall i j r r', i < j -> nth_error db i = Some r -> nth_error db j = Some r' -> pof r = pof r' -> k_homfly r = k_homfly r').
  { clear - D. intros i j r r' L Hi Hj E. pose proof (all_pairs_nth _ _ D i j (pof r, k_homfly r) (pof r', k_homfly r') L) as Q. rewrite !nth_error_map, Hi, Hj in Q. specialize (Q eq_refl eq_refl). cbn [fst snd] in Q. apply (proj2 (poly_eqb_eq _ _)) in E. rewrite E in Q. apply text_eqb_eq. exact Q. }
  destruct (Nat.lt_trichotomy i j) as [L|[L|L]]; [apply (K i j); auto|congruence|symmetry; apply (K j i); auto].
Qed.

(** ** connected sums *)
Definition nz (p : poly) : poly := filter (fun t => negb (Z.eqb (coeff t) 0)) p.
Lemma nz_coef : forall p l m, coef (nz p) l m = coef p l m.
Proof.
  induction p as [|t p IH]; intros l m; auto. unfold nz in *. cbn [filter]. rewrite coef_cons. destruct (Z.eqb_spec (coeff t) 0) as [E|E]; cbn [negb]; [rewrite IH, E; destruct (_ && _); lia|rewrite coef_cons, IH; auto].
Qed.
Definition pmul (p q : poly) : poly := match product p q with Ok P => nz P | _ => [] end.
Lemma pmul_coef : forall p q l m, coef (pmul p q) l m = convolve p (coef q) l m.
Proof.
  intros p q l m. destruct p as [|a p]; [reflexivity|]. destruct q as [|b q].
  - unfold pmul. destruct (zero_product_refuted (a :: p)) as (_ & E). rewrite E. cbn [coef fold_right]. symmetry. generalize (a :: p) as w. induction w as [|t w IH]; auto. cbn [convolve fold_right]. fold (convolve w (coef []) l m). rewrite IH. cbn. lia.
  - destruct (product_multiplies (a :: p) (b :: q)) as (P & E & C & _); try discriminate. unfold pmul. rewrite E, nz_coef. apply C.
Qed.
Definition pmuls (ps : list poly) : poly := fold_right pmul [mkM 1 0 0] ps.
Lemma pmuls_coef : forall ps l m, coef (pmuls ps) l m = product_coef ps l m.
Proof.
  induction ps as [|p ps IH]; intros l m; cbn [pmuls fold_right product_coef].
  - cbn. rewrite (Z.eqb_sym l 0), (Z.eqb_sym m 0). change (match l with 0%Z => true | _ => false end) with (Z.eqb 0 l). change (match m with 0%Z => true | _ => false end) with (Z.eqb 0 m). destruct (_ && _); reflexivity.
  - rewrite pmul_coef. apply convolve_ext. auto.
Qed.
Definition factor_eqb (f g : factor) : bool := (f_cr f =? f_cr g) && (f_ind f =? f_ind g) && String.eqb (f_sym f) (f_sym g).
Lemma factor_eqb_eq : forall f g, factor_eqb f g = true <-> f = g.
Proof.
  intros [a b c] [a' b' c']. unfold factor_eqb. cbn [f_cr f_ind f_sym]. rewrite !andb_true_iff, !Nat.eqb_eq, String.eqb_eq. split; [intros ((-> & ->) & ->); auto|intros E; injection E as -> -> ->; auto].
Qed.
(** the prime rows with their factors and polynomials *)
Definition primes : list (factor * (knottype * poly)) := flat_map (fun r => match factors r with [f] => [(f, (r, pof r))] | _ => [] end) db.
Lemma primes_in : forall f r p, In (f, (r, p)) primes <-> prime_in r f /\ p = pof r.
Proof.
  intros f r p. unfold primes. rewrite in_flat_map. unfold prime_in. split.
  - intros (r' & H & I). destruct (factors r') as [|f' [|]] eqn:E; try (destruct I; fail). destruct I as [I|[]]. injection I as <- <- <-. auto.
  - intros ((H & E) & ->). exists r. split; auto. rewrite E. left. auto.
Qed.
Definition find_prime (pr : list (factor * (knottype * poly))) (f : factor) : option (knottype * poly) :=
  match find (fun x => factor_eqb (fst x) f) pr with Some x => Some (snd x) | None => None end.
Fixpoint find_all (pr : list (factor * (knottype * poly))) (fs : list factor) : option (list (knottype * poly)) :=
  match fs with
  | [] => Some []
  | f :: fs' => match find_prime pr f, find_all pr fs' with Some x, Some l => Some (x :: l) | _, _ => None end
  end.
Lemma find_all_spec : forall fs l, find_all primes fs = Some l -> Forall2 prime_in (map fst l) fs /\ map snd l = map pof (map fst l).
Proof.
  induction fs as [|f fs IH]; intros l E; cbn [find_all] in E; [injection E as <-; split; auto; constructor|]. destruct (find_prime primes f) as [x|] eqn:Ef; [|discriminate]. destruct (find_all primes fs) as [l'|] eqn:El; [|discriminate]. injection E as <-.
  destruct (IH l' eq_refl) as (A & B). unfold find_prime in Ef. destruct (find (fun x => factor_eqb (fst x) f) primes) as [[g [r p]]|] eqn:Eg; [|discriminate]. injection Ef as <-. apply find_some in Eg as (I & Q). apply factor_eqb_eq in Q. cbn [fst] in Q. subst g. apply primes_in in I as (I & ->).
  cbn [map fst snd]. split; [constructor; auto|]. f_equal. auto.
Qed.
Definition sums_multiply : bool :=
  let pr := primes in forallb (fun r => match find_all pr (factors r) with Some l => poly_eqb (pof r) (pmuls (map snd l)) | None => false end) db.
Lemma row_product : sums_multiply = true -> forall r, In r db -> exists rs, Forall2 prime_in rs (factors r) /\ forall l m, coef (pof r) l m = product_coef (map pof rs) l m.
Proof.
  intros S r H. unfold sums_multiply in S. rewrite forallb_forall in S. specialize (S r H). destruct (find_all primes (factors r)) as [l|] eqn:E; [|discriminate].
  apply find_all_spec in E as (A & B). apply poly_eqb_eq in S. exists (map fst l). split; auto. intros x y. rewrite S, pmuls_coef, B. reflexivity.
Qed.

(** ** mirror images *)
Definition mirror (p : poly) : poly := isort mono_le (map (fun t => mkM (coeff t) (- lexp t) (mexp t)) p).
Lemma mirror_coef : forall p l m, coef (mirror p) l m = coef p (- l) m.
Proof.
  intros p l m. unfold mirror. rewrite (coef_perm _ _ (isort_perm mono_le _)). induction p as [|t p IH]; auto. cbn [map]. rewrite !coef_cons. cbn [lexp mexp coeff]. rewrite IH.
  replace (Z.eqb (- lexp t) l) with (Z.eqb (lexp t) (- l)); auto. destruct (Z.eqb_spec (lexp t) (- l)), (Z.eqb_spec (- lexp t) l); auto; lia.
Qed.
Definition tags_right : bool :=
  let l := map (fun x => (fst x, (snd (snd x), mirror (snd (snd x))))) primes in
  forallb (fun a => forallb (fun b => negb ((f_cr (fst a) =? f_cr (fst b)) && (f_ind (fst a) =? f_ind (fst b))) ||
    poly_eqb (if Bool.eqb (reflected (fst a)) (reflected (fst b)) then fst (snd a) else snd (snd a)) (fst (snd b))) l) l.
Lemma tag_poly : tags_right = true -> forall r r' f f', prime_in r f -> prime_in r' f' -> f_cr f = f_cr f' -> f_ind f = f_ind f' ->
  if Bool.eqb (reflected f) (reflected f') then pof r = pof r' else forall l m, coef (pof r') l m = coef (pof r) (- l) m.
Proof.
  intros D r r' f f' H H' Ec Ei. unfold tags_right in D. set (g := fun x : factor * (knottype * poly) => (fst x, (snd (snd x), mirror (snd (snd x))))) in D. rewrite forallb_forall in D.
  specialize (D _ (in_map g _ _ (proj2 (primes_in f r (pof r)) (conj H eq_refl)))). rewrite forallb_forall in D. specialize (D _ (in_map g _ _ (proj2 (primes_in f' r' (pof r')) (conj H' eq_refl)))). unfold g in D. cbn [fst snd] in D.
  rewrite Ec, Ei, !Nat.eqb_refl in D. cbn [andb negb orb] in D. destruct (Bool.eqb (reflected f) (reflected f')); apply poly_eqb_eq in D; auto. intros l m. rewrite <- D. apply mirror_coef.
Qed.
Fixpoint nats_eqb (a b : list nat) : bool := match a, b with [], [] => true | x :: a', y :: b' => (x =? y) && nats_eqb a' b' | _, _ => false end.
Lemma nats_eqb_eq : forall a b, nats_eqb a b = true -> a = b.
Proof. induction a as [|x a IH]; intros [|y b] H; auto; try discriminate. cbn in H. apply andb_true_iff in H as (A & B). apply Nat.eqb_eq in A. f_equal; auto. Qed.
Definition mirrors_present : bool :=
  let l := map (fun r => (r, pof r)) db in
  forallb (fun a => let q := mirror (snd a) in existsb (fun b => nats_eqb (k_cr (fst a)) (k_cr (fst b)) && nats_eqb (k_ind (fst a)) (k_ind (fst b)) && poly_eqb q (snd b)) l) l.
Lemma row_mirror : mirrors_present = true -> forall r, In r db -> exists r', In r' db /\ k_cr r' = k_cr r /\ k_ind r' = k_ind r /\ forall l m, coef (pof r') l m = coef (pof r) (- l) m.
Proof.
  intros D r H. unfold mirrors_present in D. rewrite forallb_forall in D. specialize (D _ (in_map (fun r => (r, pof r)) _ _ H)). cbv beta zeta in D. apply existsb_exists in D as ((r' & p') & I & D). apply in_map_iff in I as (r2 & E & I). injection E as -> <-. cbn [fst snd] in D.
  apply andb_true_iff in D as (D & D3). apply andb_true_iff in D as (D1 & D2). apply nats_eqb_eq in D1, D2. apply poly_eqb_eq in D3. exists r'. repeat split; auto. intros l m. rewrite <- D3. apply mirror_coef.
Qed.

(** ** all connected sums with at most 12 crossings *)
Fixpoint remove_one (x : factor) (l : list factor) : option (list factor) :=
  match l with
  | [] => None
  | y :: l' => if factor_eqb x y then Some l' else match remove_one x l' with Some l'' => Some (y :: l'') | None => None end
  end.
Fixpoint perm_b (a b : list factor) : bool :=
  match a with
  | [] => match b with [] => true | _ => false end
  | x :: a' => match remove_one x b with Some b' => perm_b a' b' | None => false end
  end.
Lemma remove_one_perm : forall x l l', remove_one x l = Some l' -> Permutation l (x :: l').
Proof.
  induction l as [|y l IH]; intros l' E; cbn [remove_one] in E; [discriminate|]. destruct (factor_eqb x y) eqn:F; [apply factor_eqb_eq in F; injection E as <-; subst; auto|]. destruct (remove_one x l) as [l''|]; [|discriminate]. injection E as <-. rewrite (IH l'' eq_refl). apply perm_swap.
Qed.
Lemma remove_one_in : forall x l, In x l -> exists l', remove_one x l = Some l'.
Proof.
  induction l as [|y l IH]; intros H; [destruct H|]. cbn [remove_one]. destruct (factor_eqb x y) eqn:F; eauto. destruct H as [->|H]; [rewrite (proj2 (factor_eqb_eq x x)) in F by auto; discriminate|]. destruct (IH H) as (l' & ->). eauto.
Qed.
Lemma perm_b_iff : forall a b, perm_b a b = true <-> Permutation a b.
Proof.
  induction a as [|x a IH]; intros b; cbn [perm_b].
  - destruct b as [|y b]; split; intros H; auto; try discriminate. apply Permutation_nil in H. discriminate.
  - split; intros H.
    + destruct (remove_one x b) as [b'|] eqn:E; [|discriminate]. apply remove_one_perm in E. apply IH in H. rewrite H. symmetry. auto.
    + destruct (remove_one_in x b) as (b' & E); [eapply Permutation_in; [exact H|left; auto]|]. rewrite E. apply IH. apply remove_one_perm in E. apply (Permutation_cons_inv (a := x)). rewrite H. auto.
Qed.
Definition knots : list factor := flat_map (fun r => match factors r with [f] => if f_cr f =? 0 then [] else [f] | _ => [] end) db.
Lemma knots_in : forall r f, prime_in r f -> 0 < f_cr f -> In f knots.
Proof. intros r f (H & E) P. unfold knots. apply in_flat_map. exists r. split; auto. rewrite E. rewrite (proj2 (Nat.eqb_neq (f_cr f) 0)) by lia. left. auto. Qed.
Definition knots_large : bool := forallb (fun f => 3 <=? f_cr f) knots.
Lemma knots_three : knots_large = true -> forall f, In f knots -> 3 <= f_cr f.
Proof. unfold knots_large. intros C f H. rewrite forallb_forall in C. apply Nat.leb_le. auto. Qed.
Fixpoint lists_upto (kn : list factor) (d n : nat) : list (list factor) :=
  [] :: match d with
        | 0 => []
        | S d' => flat_map (fun f => if f_cr f <=? n then map (cons f) (lists_upto kn d' (n - f_cr f)) else []) kn
        end.
Lemma lists_upto_all : forall kn fs d n, (forall f, In f fs -> In f kn) -> length fs <= d -> crossings fs <= n -> In fs (lists_upto kn d n).
Proof.
  intros kn. induction fs as [|f fs IH]; intros d n F L C; [destruct d; left; auto|]. destruct d as [|d]; [cbn in L; lia|]. unfold crossings in *. cbn [length map list_sum fold_right] in L, C. change (fold_right Nat.add 0 (map f_cr fs)) with (list_sum (map f_cr fs)) in C. cbn [lists_upto]. right. apply in_flat_map. exists f. split; [apply F; left; auto|]. rewrite (proj2 (Nat.leb_le _ _)) by lia.
  apply in_map. apply IH; [intros; apply F; right; auto|lia|lia].
Qed.
Definition sums_present : bool :=
  let kn := knots in let db := map (fun r => (factors r, crossings (factors r))) db in
  forallb (fun fs => match fs with [] => true | _ => let n := crossings fs in existsb (fun x => (snd x =? n) && perm_b (fst x) fs) db end) (lists_upto kn 4 12).
Lemma long_sum : forall fs, (forall f, In f fs -> 3 <= f_cr f) -> 3 * length fs <= crossings fs.
Proof. induction fs as [|f fs IH]; intros H; [cbn; lia|]. unfold crossings in *. cbn [map list_sum fold_right length]. change (fold_right Nat.add 0 (map f_cr fs)) with (list_sum (map f_cr fs)). specialize (IH (fun g G => H g (or_intror G))). specialize (H f (or_introl eq_refl)). lia. Qed.
Lemma sum_present : knots_large = true -> sums_present = true -> forall fs, fs <> [] -> (forall f, In f fs -> exists r, prime_in r f /\ 0 < f_cr f) -> crossings fs <= 12 -> exists r, In r db /\ Permutation (factors r) fs.
Proof.
  intros KL S fs NE F C. assert (K : forall f, In f fs -> In f knots) by (intros f H; destruct (F f H) as (r & R & P); eapply knots_in; eauto).
  assert (L : length fs <= 4) by (pose proof (long_sum fs (fun f H => knots_three KL f (K f H))); lia). unfold sums_present in S. rewrite forallb_forall in S. specialize (S fs (lists_upto_all knots fs 4 12 K L C)). destruct fs as [|f fs]; [congruence|]. cbv zeta in S.
  apply existsb_exists in S as (x & I & S). apply in_map_iff in I as (r & <- & I). apply andb_true_iff in S as (_ & S). cbn [fst] in S. apply perm_b_iff in S. eauto.
Qed.
Definition rows_unique : bool :=
  all_pairs (fun x y => negb ((snd x =? snd y) && perm_b (fst x) (fst y))) (map (fun r => (factors r, crossings (factors r))) db).
Lemma crossings_perm : forall a b, Permutation a b -> crossings a = crossings b.
Proof. intros a b P. unfold crossings, list_sum. induction P; cbn [map fold_right] in *; lia. Qed.
Lemma row_unique : rows_unique = true -> forall i j r r', nth_error db i = Some r -> nth_error db j = Some r' -> Permutation (factors r) (factors r') -> i = j.
Proof.
  intros U. assert (K : forall i j r r', i < j -> nth_error db i = Some r -> nth_error db j = Some r' -> Permutation (factors r) (factors r') -> False).
  { intros i j r r' L Ei Ej P. unfold rows_unique in U. pose proof (all_pairs_nth _ _ U i j (factors r, crossings (factors r)) (factors r', crossings (factors r')) L) as Q.
    rewrite !nth_error_map, Ei, Ej in Q. specialize (Q eq_refl eq_refl). cbn [fst snd] in Q. rewrite (crossings_perm _ _ P), Nat.eqb_refl in Q. apply (proj2 (perm_b_iff _ _)) in P. rewrite P in Q. discriminate. }
  intros i j r r' Ei Ej P. destruct (Nat.lt_trichotomy i j) as [L|[L|L]]; auto; exfalso; [apply (K i j r r')|apply (K j i r' r)]; auto. symmetry. auto.
Qed.
(** ** all prime knots with at most 10 crossings *)
Definition how_many : list nat := [1; 0; 0; 1; 1; 2; 3; 7; 21; 49; 165].
Definition names_present : bool :=
  let l := map (fun x => (f_cr (fst x), f_ind (fst x))) primes in
  forallb (fun c => forallb (fun i => existsb (fun x => (fst x =? c) && (snd x =? i)) l) (seq 1 (nth c how_many 0))) (seq 0 11) &&
  forallb (fun x => (1 <=? snd x) && (snd x <=? nth (fst x) how_many 0)) l.
Lemma names : names_present = true -> forall c i, (exists r f, prime_in r f /\ f_cr f = c /\ f_ind f = i) <-> 1 <= i <= nth c how_many 0.
Proof.
  intros N c i. unfold names_present in N. cbv zeta in N. apply andb_true_iff in N as (N1 & N2). rewrite forallb_forall in N1, N2. split.
  - intros (r & f & P & <- & <-). specialize (N2 _ (in_map (fun x => (f_cr (fst x), f_ind (fst x))) _ _ (proj2 (primes_in f r (pof r)) (conj P eq_refl)))). cbn [fst snd] in N2. apply andb_true_iff in N2 as (A & B). apply Nat.leb_le in A, B. lia.
  - intros L. assert (Lc : c < 11). { destruct (Nat.lt_ge_cases c 11); auto. rewrite nth_overflow in L by (cbn; lia). lia. }
    specialize (N1 c ltac:(apply in_seq; lia)). rewrite forallb_forall in N1. specialize (N1 i ltac:(apply in_seq; lia)). apply existsb_exists in N1 as (x & I & E). apply in_map_iff in I as ((f & r & p) & <- & I). apply primes_in in I as (I & _). cbn [fst snd] in E. apply andb_true_iff in E as (A & B). apply Nat.eqb_eq in A, B. eauto.
Qed.
End Table.

(** ** the table at hand *)
Lemma rows_good : forallb row_good ktdb = true. Proof. vm_cast_no_check (eq_refl true). Qed.
Lemma texts_differ_true : texts_differ ktdb = true. Proof. vm_cast_no_check (eq_refl true). Qed.
Lemma sums_multiply_true : sums_multiply ktdb = true. Proof. vm_cast_no_check (eq_refl true). Qed.
Lemma tags_right_true : tags_right ktdb = true. Proof. vm_cast_no_check (eq_refl true). Qed.
Lemma mirrors_present_true : mirrors_present ktdb = true. Proof. vm_cast_no_check (eq_refl true). Qed.
Lemma sums_present_true : sums_present ktdb = true. Proof. vm_cast_no_check (eq_refl true). Qed.
Lemma rows_unique_true : rows_unique ktdb = true. Proof. vm_cast_no_check (eq_refl true). Qed.
Lemma names_present_true : names_present ktdb = true. Proof. vm_cast_no_check (eq_refl true). Qed.
Lemma knots_large_true : knots_large ktdb = true. Proof. vm_cast_no_check (eq_refl true). Qed.
