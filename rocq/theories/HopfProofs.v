(** Proofs about random polygons from pairs of complex vectors. *)
From Coq Require Import Reals List Bool Lra Lia Psatz.
From Verif Require Import Base Sampler SamplerProofs Hopf.
Import ListNotations.
Open Scope R_scope.
Open Scope res_scope.

Lemma cx_eq : forall a b, re a = re b -> im a = im b -> a = b. Proof. intros [] []; cbn; intros; subst; auto. Qed.
Lemma v3_eq : forall a b, c0 a = c0 b -> c1 a = c1 b -> c2 a = c2 b -> a = b. Proof. intros [] []; cbn; intros; subst; auto. Qed.

(** ** the Hermitian product *)
Lemma hdot_conj : forall A B, hdot B A = conj (hdot A B).
Proof. induction A as [|a A IH]; intros [|b B]; try (apply cx_eq; cbn; lra). cbn [hdot]. rewrite IH. apply cx_eq; cbn; lra. Qed.
Lemma hdot_self_im : forall A, im (hdot A A) = 0.
Proof. intros A. pose proof (f_equal im (hdot_conj A A)) as H. cbn in H. lra. Qed.
Lemma hdot_self_nonneg : forall A, 0 <= re (hdot A A).
Proof. induction A as [|a A IH]; cbn [hdot]; cbn; [lra|]. cbn in *. nra. Qed.
Lemma hdot_self_zero : forall A, re (hdot A A) = 0 -> Forall (fun a => a = cz) A.
Proof.
  induction A as [|a A IH]; intros H; constructor; cbn [hdot] in H; cbn in H; pose proof (hdot_self_nonneg A) as P; cbn in P.
  - apply cx_eq; cbn; nra.
  - apply IH. nra.
Qed.
Lemma hdot_scale_l : forall s A B, hdot (cscale s A) B = cmul s (hdot A B).
Proof. intros s. induction A as [|a A IH]; intros [|b B]; cbn [cscale map hdot]; try (apply cx_eq; cbn; lra). fold (cscale s A). rewrite IH. apply cx_eq; cbn; ring. Qed.
Lemma hdot_scale_r : forall s A B, hdot A (cscale s B) = cmul (conj s) (hdot A B).
Proof. intros s A B. rewrite (hdot_conj (cscale s B) A), hdot_scale_l, (hdot_conj A B). apply cx_eq; cbn; ring. Qed.
Lemma reduce_length : forall s A B, length A = length B -> length (reduce s A B) = length B.
Proof. intros s. induction A as [|a A IH]; intros [|b B] L; try discriminate; auto. cbn. f_equal. apply IH. auto. Qed.
Lemma hdot_reduce : forall s A B C, length A = length B -> hdot C (reduce s A B) = csub (hdot C B) (cmul (conj s) (hdot C A)).
Proof.
  intros s. induction A as [|a A IH]; intros [|b B] [|c C] L; try discriminate; try (apply cx_eq; cbn; lra). cbn [hdot reduce]. rewrite IH by (cbn in L; lia). apply cx_eq; cbn; ring.
Qed.
Lemma reduce_zero : forall s A B, length A = length B -> Forall (fun x => x = cz) (reduce s A B) -> B = cscale s A.
Proof.
  intros s. induction A as [|a A IH]; intros [|b B] L H; try discriminate; auto. cbn [reduce] in H. inversion H as [|? ? H1 H2]; subst. cbn [cscale map]. f_equal; [|apply IH; auto].
  apply (f_equal re) in H1 as Hr. apply (f_equal im) in H1 as Hi. cbn in Hr, Hi. apply cx_eq; cbn; lra.
Qed.
Lemma reduce_none : forall A B, length A = length B -> reduce cz A B = B.
Proof. induction A as [|a A IH]; intros [|b B] L; try discriminate; auto. cbn [reduce]. rewrite IH by (cbn in L; lia). f_equal. apply cx_eq; cbn; ring. Qed.
Lemma cscale_one : forall A, cscale (mkC 1 0) A = A.
Proof. induction A as [|a A IH]; auto. cbn. f_equal; [apply cx_eq; cbn; ring|exact IH]. Qed.
Lemma cscale_cscale : forall s t A, cscale s (cscale t A) = cscale (cmul s t) A.
Proof. intros. unfold cscale. rewrite map_map. apply map_ext. intros a. apply cx_eq; cbn; ring. Qed.

Definition nonzero (A : list cx) : Prop := exists a, In a A /\ a <> cz.
Lemma nonzero_pos : forall A, nonzero A -> 0 < re (hdot A A).
Proof.
  intros A (a & I & N). pose proof (hdot_self_nonneg A) as P. destruct (Rle_lt_or_eq_dec _ _ P) as [H|H]; auto. symmetry in H. apply hdot_self_zero in H. rewrite Forall_forall in H. specialize (H a I). contradiction.
Qed.
Lemma rsqrt_pos : forall x, 0 < x -> exists r, rsqrt x = Ok r /\ 0 < r /\ r * r = x.
Proof. intros x H. unfold rsqrt. destruct (Rlt_dec x 0); [lra|]. exists (sqrt x). split; [auto|]. split; [apply sqrt_lt_R0; auto|apply sqrt_sqrt; lra]. Qed.
Lemma rdiv_ok : forall a b, b <> 0 -> rdiv a b = Ok (a / b).
Proof. intros a b H. unfold rdiv. destruct (Req_EM_T b 0); auto. contradiction. Qed.
Lemma normalize_ok : forall A, nonzero A -> exists k, 0 < k /\ normalize A = Ok (cscale (mkC k 0) A) /\ re (hdot (cscale (mkC k 0) A) (cscale (mkC k 0) A)) = 1.
Proof.
  intros A N. apply nonzero_pos in N. destruct (rsqrt_pos _ N) as (r & E & P & S). exists (1 / r). split; [apply Rdiv_lt_0_compat; lra|]. split.
  - unfold normalize. rewrite E. cbn [bind]. rewrite rdiv_ok by lra. reflexivity.
  - rewrite hdot_scale_l, hdot_scale_r. cbn. rewrite (hdot_self_im A), <- S. field. lra.
Qed.
Lemma normalize_zero : forall A, ~ nonzero A -> normalize A = UB.
Proof.
  intros A N. assert (H : re (hdot A A) = 0).
  { assert (F : Forall (fun a => a = cz) A). { apply Forall_forall. intros a I. destruct (Req_EM_T (re a) 0) as [E|E]; [destruct (Req_EM_T (im a) 0) as [E'|E']; [apply cx_eq; auto|]|]; exfalso; apply N; exists a; split; auto; intros ->; cbn in *; lra. }
    clear N. induction F as [|a A Ha F IH]; auto. subst a. cbn [hdot]. cbn in *. lra. }
  unfold normalize. rewrite H. unfold rsqrt. destruct (Rlt_dec 0 0); [lra|]. cbn [bind]. rewrite sqrt_0. unfold rdiv. destruct (Req_EM_T 0 0); [auto|lra].
Qed.
Lemma normalize_unit : forall A, re (hdot A A) = 1 -> normalize A = Ok A.
Proof. intros A H. unfold normalize. rewrite H. replace 1 with (1 * 1) at 1 by ring. rewrite rsqrt_square by lra. cbn [bind]. rewrite rdiv_ok by lra. cbn [bind]. replace (1 / 1) with 1 by field. rewrite cscale_one. auto. Qed.

(** ** the edges *)
Definition norm3 (v : V3) : R := sqrt (c0 v * c0 v + c1 v * c1 v + c2 v * c2 v).
Fixpoint vsum (es : list V3) : V3 := match es with [] => vz | e :: es' => vadd e (vsum es') end.
Fixpoint lsum (es : list V3) : R := match es with [] => 0 | e :: es' => norm3 e + lsum es' end.
Lemma hopf_norm : forall a b, norm3 (hopfImap a b) = re a * re a + im a * im a + (re b * re b + im b * im b).
Proof. intros a b. unfold norm3, hopfImap. cbn. rewrite <- (sqrt_square (re a * re a + im a * im a + (re b * re b + im b * im b))) by nra. f_equal. ring. Qed.
Lemma edges_sum : forall A B, length A = length B -> vsum (hopf_edges A B) = mkV (re (hdot A A) - re (hdot B B)) (2 * im (hdot A B)) (2 * re (hdot A B)).
Proof.
  induction A as [|a A IH]; intros [|b B] L; try discriminate; [apply v3_eq; cbn; lra|]. cbn [hopf_edges vsum hdot]. rewrite IH by (cbn in L; lia). apply v3_eq; cbn; ring.
Qed.
Lemma edges_length : forall A B, length A = length B -> lsum (hopf_edges A B) = re (hdot A A) + re (hdot B B).
Proof. induction A as [|a A IH]; intros [|b B] L; try discriminate; [cbn; lra|]. cbn [hopf_edges lsum hdot]. rewrite IH by (cbn in L; lia). rewrite hopf_norm. cbn. ring. Qed.
Lemma edges_number : forall A B, length A = length B -> length (hopf_edges A B) = length A.
Proof. induction A as [|a A IH]; intros [|b B] L; try discriminate; auto. cbn. f_equal. apply IH. auto. Qed.
Lemma fold_vsum : forall es v, fold_left vadd es v = vadd v (vsum es).
Proof. induction es as [|e es IH]; intros v; cbn [fold_left vsum]; [apply v3_eq; cbn; ring|]. rewrite IH. apply v3_eq; cbn; ring. Qed.

(** ** the preimage of an edge *)
Definition pre (e : V3) : cx * cx :=
  if Req_EM_T (norm3 e + c0 e) 0 then (cz, mkC (sqrt (norm3 e)) 0)
  else let q := sqrt ((norm3 e + c0 e) / 2) in (mkC q 0, mkC (c2 e / (2 * q)) (- c1 e / (2 * q))).
Lemma norm3_square : forall v, norm3 v * norm3 v = c0 v * c0 v + c1 v * c1 v + c2 v * c2 v.
Proof. intros v. unfold norm3. apply sqrt_sqrt. nra. Qed.
Lemma norm3_nonneg : forall v, 0 <= norm3 v. Proof. intros. apply sqrt_pos. Qed.
Lemma pre_ok : forall e, hopfImap (fst (pre e)) (snd (pre e)) = e /\ im (fst (pre e)) = 0 /\ (c1 e = 0 -> im (snd (pre e)) = 0).
Proof.
  intros e. pose proof (norm3_square e) as S. pose proof (norm3_nonneg e) as P. assert (G : 0 <= norm3 e + c0 e) by nra. unfold pre. destruct (Req_EM_T (norm3 e + c0 e) 0) as [Z|Z]; cbn [fst snd].
  - split; [|split; auto]. assert (Y : c1 e = 0) by nra. assert (Y' : c2 e = 0) by nra. pose proof (sqrt_sqrt (norm3 e) P) as Q. apply v3_eq; cbn; nra.
  - set (q := sqrt ((norm3 e + c0 e) / 2)). assert (Q : q * q = (norm3 e + c0 e) / 2) by (apply sqrt_sqrt; lra). assert (QP : 0 < q) by (apply sqrt_lt_R0; lra). split; [|split; [auto|]].
    + apply v3_eq; cbn.
      * assert (K : c2 e / (2 * q) * (c2 e / (2 * q)) + - c1 e / (2 * q) * (- c1 e / (2 * q)) = (norm3 e - c0 e) / 2).
        { transitivity ((c1 e * c1 e + c2 e * c2 e) / (4 * (q * q))); [field; lra|]. rewrite Q. replace (c1 e * c1 e + c2 e * c2 e) with ((norm3 e - c0 e) * (norm3 e + c0 e)) by nra. field. lra. }
        nra.
      * field. lra.
      * field. lra.
    + intros Y. cbn. rewrite Y. field. lra.
Qed.
Lemma pre_edges : forall es, hopf_edges (map (fun e => fst (pre e)) es) (map (fun e => snd (pre e)) es) = es.
Proof. induction es as [|e es IH]; auto. cbn. rewrite IH. f_equal. apply pre_ok. Qed.

(** ** vertices *)
Definition vsub (a b : V3) : V3 := mkV (c0 a - c0 b) (c1 a - c1 b) (c2 a - c2 b).
Fixpoint diffs (v : V3) (vs : list V3) : list V3 := match vs with [] => [] | w :: vs' => vsub w v :: diffs w vs' end.
Lemma sums_diffs : forall vs v, sums v (diffs v vs) = vs.
Proof. induction vs as [|w vs IH]; intros v; auto. cbn [diffs sums]. assert (E : vadd v (vsub w v) = w) by (apply v3_eq; cbn; ring). rewrite E, IH. auto. Qed.
Lemma diffs_sums : forall es v, diffs v (sums v es) = es.
Proof. induction es as [|e es IH]; intros v; auto. cbn [sums diffs]. rewrite IH. f_equal. apply v3_eq; cbn; ring. Qed.
Lemma sums_length : forall es v, length (sums v es) = length es.
Proof. induction es; intros; cbn; auto. Qed.
Lemma diffs_length : forall vs v, length (diffs v vs) = length vs.
Proof. induction vs; intros; cbn; auto. Qed.
Lemma diffs_last : forall vs v, vadd v (vsum (diffs v vs)) = last vs v.
Proof.
  induction vs as [|w vs IH]; intros v; [apply v3_eq; cbn; ring|]. cbn [diffs vsum]. assert (E : last (w :: vs) v = last vs w). { destruct vs as [|x vs]; auto. change (last (x :: vs) v = last (x :: vs) w). clear. revert x. induction vs; intros x; auto. change (last (a :: vs) v = last (a :: vs) w). auto. }
  rewrite E, <- IH. apply v3_eq; cbn; ring.
Qed.

(** ** the draws *)
Definition draws (l : list R) (k : nat) : R := nth k l 0.
Lemma pairs_nth : forall {T} (f h : T -> R) qs i, (i < length qs)%nat -> forall d, nth (2 * i) (flat_map (fun q => [f q; h q]) qs) 0 = f (nth i qs d) /\ nth (2 * i + 1) (flat_map (fun q => [f q; h q]) qs) 0 = h (nth i qs d).
Proof.
  intros T f h. induction qs as [|q qs IH]; intros i L d; [cbn in L; lia|]. destruct i as [|i]; [split; reflexivity|]. replace (2 * S i)%nat with (S (S (2 * i))) by lia. cbn [flat_map app nth Nat.add]. apply IH. cbn in L. lia.
Qed.
Lemma pairs_length : forall {T} (f h : T -> R) qs, length (flat_map (fun q => [f q; h q]) qs) = (2 * length qs)%nat.
Proof. intros. induction qs as [|q qs IH]; auto. cbn [flat_map app length]. rewrite IH. lia. Qed.
Lemma map_seq_nth : forall {T U} (f : T -> U) (qs : list T) d, map (fun i => f (nth i qs d)) (seq 0 (length qs)) = map f qs.
Proof.
  intros T U f qs d. apply nth_ext with (d := f d) (d' := f d); [rewrite !map_length, seq_length; auto|]. intros i L. rewrite map_length, seq_length in L.
  rewrite (map_nth f). rewrite (nth_indep _ (f d) (f (nth 0 qs d))) by (rewrite map_length, seq_length; auto). rewrite (map_nth (fun i => f (nth i qs d)) (seq 0 (length qs)) 0%nat). rewrite seq_nth by auto. auto.
Qed.
Lemma space_draws : forall qs : list (cx * cx), exists g, space_A (length qs) g = map fst qs /\ space_B (length qs) g = map snd qs.
Proof.
  intros qs. exists (draws (flat_map (fun q => [re (fst q); im (fst q)]) qs ++ flat_map (fun q => [re (snd q); im (snd q)]) qs)). unfold space_A, space_B, draws. split.
  - rewrite <- (map_seq_nth fst qs (cz, cz)). apply map_ext_in. intros i I. apply in_seq in I. rewrite !app_nth1 by (rewrite pairs_length; lia).
    destruct (pairs_nth (fun q : cx * cx => re (fst q)) (fun q => im (fst q)) qs i ltac:(lia) (cz, cz)) as (E1 & E2). rewrite E1, E2. destruct (nth i qs (cz, cz)) as [[] ?]; reflexivity.
  - rewrite <- (map_seq_nth snd qs (cz, cz)). apply map_ext_in. intros i I. apply in_seq in I. rewrite !app_nth2 by (rewrite pairs_length; lia). rewrite !pairs_length. rewrite !(Nat.add_comm (2 * length qs)), !Nat.add_sub.
    destruct (pairs_nth (fun q : cx * cx => re (snd q)) (fun q => im (snd q)) qs i ltac:(lia) (cz, cz)) as (E1 & E2). rewrite E1, E2. destruct (nth i qs (cz, cz)) as [? []]; reflexivity.
Qed.
Lemma plane_draws : forall qs : list (cx * cx), Forall (fun q => im (fst q) = 0 /\ im (snd q) = 0) qs -> exists g, plane_A (length qs) g = map fst qs /\ plane_B (length qs) g = map snd qs.
Proof.
  intros qs F. rewrite Forall_forall in F. exists (draws (flat_map (fun q => [re (fst q); re (snd q)]) qs)). unfold plane_A, plane_B, draws. split.
  - rewrite <- (map_seq_nth fst qs (cz, cz)). apply map_ext_in. intros i I. apply in_seq in I.
    destruct (pairs_nth (fun q : cx * cx => re (fst q)) (fun q => re (snd q)) qs i ltac:(lia) (cz, cz)) as (E1 & E2). rewrite E1. destruct (F (nth i qs (cz, cz)) (nth_In qs (cz, cz) (proj2 I))) as (Z & _). apply cx_eq; cbn; auto.
  - rewrite <- (map_seq_nth snd qs (cz, cz)). apply map_ext_in. intros i I. apply in_seq in I.
    destruct (pairs_nth (fun q : cx * cx => re (fst q)) (fun q => re (snd q)) qs i ltac:(lia) (cz, cz)) as (E1 & E2). rewrite E2. destruct (F (nth i qs (cz, cz)) (nth_In qs (cz, cz) (proj2 I))) as (_ & Z). apply cx_eq; cbn; auto.
Qed.
