(** Lemmas about Measure.v. *)
From Coq Require Import Reals List Bool Lra Lia Psatz ZArith.
From Verif Require Import Base Sampler SamplerProofs Hopf HopfProofs Fan FanProofs Rotate RotateProofs Closure ClosureProofs Measure Thm_Hopf Thm_Rotate Thm_Closure.
Import ListNotations.
Open Scope R_scope.
Open Scope res_scope.

Lemma mdist_distance : forall a b, mdist a b = distance a b. Proof. reflexivity. Qed.
Lemma sq_dist_distance : forall a b, sq_dist a b = distance a b * distance a b.
Proof. intros. unfold distance. rewrite sqrt_sqrt; [reflexivity|]. pose proof (Rle_0_sqr (c0 a - c0 b)). pose proof (Rle_0_sqr (c1 a - c1 b)). pose proof (Rle_0_sqr (c2 a - c2 b)). lra. Qed.
Lemma distance_sym : forall a b, distance a b = distance b a.
Proof. intros. unfold distance. f_equal. unfold Rsqr. ring. Qed.

(** ** reading vertices *)
Definition reads (s : arc) (ws : list V3) : Prop := forall k, (k < length ws)%nat -> cell s (Z.of_nat k) = Ok (nth k ws vz).
Lemma reads_verts : forall s, reads s (verts s).
Proof.
  intros s k K. unfold cell. destruct (Z.eqb_spec (Z.of_nat k) (-1)); [lia|]. destruct (Z.eqb_spec (Z.of_nat k) (Z.of_nat (length (verts s)))); [lia|]. destruct (Z.ltb_spec (Z.of_nat k) 0); [lia|]. rewrite Nat2Z.id. rewrite (nth_error_nth' _ vz) by auto. auto.
Qed.
Lemma cell_end : forall s, (1 <= length (verts s))%nat -> opened s = false -> cell s (Z.of_nat (length (verts s))) = Ok (nth 0 (verts s) vz).
Proof.
  intros s N O. unfold cell. destruct (Z.eqb_spec (Z.of_nat (length (verts s))) (-1)); [lia|]. rewrite Z.eqb_refl, O. cbn. destruct (verts s); [cbn in N; lia|auto].
Qed.
Lemma cell_end_open : forall s, (2 <= length (verts s))%nat -> opened s = true -> cell s (Z.of_nat (length (verts s))) = Ok (nth (length (verts s) - 2) (verts s) vz).
Proof.
  intros s N O. unfold cell. destruct (Z.eqb_spec (Z.of_nat (length (verts s))) (-1)); [lia|]. rewrite Z.eqb_refl, O. destruct (Z.ltb_spec (Z.of_nat (length (verts s)) - 2) 0); [lia|]. replace (Z.to_nat (Z.of_nat (length (verts s)) - 2)) with (length (verts s) - 2)%nat by lia. rewrite (nth_error_nth' _ vz) by lia. auto.
Qed.
Lemma reads_more : forall s x, cell s (Z.of_nat (length (verts s))) = Ok x -> reads s (verts s ++ [x]).
Proof.
  intros s x E k K. rewrite app_length in K. cbn in K. destruct (Nat.eq_dec k (length (verts s))) as [->|N]; [rewrite nth_middle; auto|]. rewrite app_nth1 by lia. apply reads_verts. lia.
Qed.

(** ** lengths along a list *)
Definition seg (ws : list V3) (a n : nat) : R := match skipn a ws with [] => 0 | v :: r => path_length v (firstn n r) end.
Lemma seg_0 : forall ws a, seg ws a 0 = 0. Proof. intros. unfold seg. destruct (skipn a ws); auto. Qed.
Lemma seg_S : forall ws a n, (S a < length ws)%nat -> seg ws a (S n) = distance (nth a ws vz) (nth (S a) ws vz) + seg ws (S a) n.
Proof.
  induction ws as [|w ws IH]; intros a n L; [cbn in L; lia|]. destruct a as [|a]; [destruct ws as [|w' ws]; [cbn in L; lia|reflexivity]|]. cbn in L. assert (K := IH a n ltac:(lia)). unfold seg in *. cbn [skipn nth] in *. exact K.
Qed.
Lemma seg_add : forall ws n m a, (a + n + m < length ws)%nat -> seg ws a (n + m) = seg ws a n + seg ws (a + n) m.
Proof.
  intros ws. induction n as [|n IH]; intros m a L; [rewrite seg_0, Nat.add_0_r; cbn; ring|]. cbn [Nat.add]. rewrite !seg_S, IH by lia. replace (a + S n)%nat with (S a + n)%nat by lia. ring.
Qed.
Lemma seg_app : forall ws x n a, (a + n < length ws)%nat -> seg (ws ++ [x]) a n = seg ws a n.
Proof.
  intros ws x. induction n as [|n IH]; intros a L; [rewrite !seg_0; auto|]. rewrite !seg_S by (try rewrite app_length; lia). rewrite IH by lia. rewrite !app_nth1 by lia. auto.
Qed.
Lemma seg_all : forall v vs, seg (v :: vs) 0 (length vs) = path_length v vs.
Proof. intros. unfold seg. cbn. rewrite firstn_all. auto. Qed.

Lemma edge_reads : forall s ws k, reads s ws -> (S k < length ws)%nat -> edge s (Z.of_nat k) = Ok (distance (nth k ws vz) (nth (S k) ws vz)).
Proof. intros s ws k R K. unfold edge. rewrite (R k) by lia. cbn [bind]. replace (Z.of_nat k + 1)%Z with (Z.of_nat (S k)) by lia. rewrite (R (S k)) by lia. reflexivity. Qed.
Lemma s_loop_ok : forall s ws, reads s ws -> forall n v acc, (v + n < length ws)%nat -> s_loop s n (Z.of_nat v) acc = Ok (acc + seg ws v n).
Proof.
  intros s ws R. induction n as [|n IH]; intros v acc L; [cbn; rewrite seg_0; f_equal; ring|]. cbn [s_loop]. rewrite (edge_reads s ws) by (auto; lia). cbn [bind]. replace (Z.of_nat v + 1)%Z with (Z.of_nat (S v)) by lia. rewrite IH by lia. rewrite seg_S by lia. f_equal. ring.
Qed.
Lemma ring_length : forall s, opened s = false -> (1 <= length (verts s))%nat -> seg (verts s ++ [nth 0 (verts s) vz]) 0 (length (verts s)) = component_length s.
Proof.
  intros [o vs] O N. cbn [opened verts] in *. subst o. destruct vs as [|v vs]; [cbn in N; lia|]. cbn [nth app]. unfold component_length. cbn [verts opened perimeter]. rewrite <- path_app. rewrite <- seg_all. rewrite app_length. cbn [length]. f_equal. lia.
Qed.

Lemma subarc_split : forall s v1 v2 m n v a b, subarc_loop s v1 v2 (n + m) v a b = do l <- subarc_loop s v1 v2 n v a b; subarc_loop s v1 v2 m (v + Z.of_nat n) (fst l) (snd l).
Proof.
  intros s v1 v2 m. induction n as [|n IH]; intros v a b; [cbn; f_equal; lia|]. cbn [Nat.add subarc_loop]. destruct (edge s v); auto. cbn [bind]. replace (v + Z.of_nat (S n))%Z with (v + 1 + Z.of_nat n)%Z by lia. destruct (_ && _); apply IH.
Qed.
Lemma subarc_in : forall s ws v1 v2, reads s ws -> forall n v a b, (v + n < length ws)%nat -> (v1 <= Z.of_nat v)%Z -> (Z.of_nat (v + n) <= v2)%Z -> subarc_loop s v1 v2 n (Z.of_nat v) a b = Ok (a + seg ws v n, b).
Proof.
  intros s ws v1 v2 R. induction n as [|n IH]; intros v a b L A B; [cbn; rewrite seg_0, Rplus_0_r; auto|]. cbn [subarc_loop]. rewrite (edge_reads s ws) by (auto; lia). cbn [bind]. destruct (Z.leb_spec v1 (Z.of_nat v)); [|lia]. destruct (Z.ltb_spec (Z.of_nat v) v2); [|lia]. cbn [andb]. replace (Z.of_nat v + 1)%Z with (Z.of_nat (S v)) by lia. rewrite IH by lia. rewrite seg_S by lia. do 2 f_equal. ring.
Qed.
Lemma subarc_out : forall s ws v1 v2, reads s ws -> forall n v a b, (v + n < length ws)%nat -> (Z.of_nat (v + n) <= v1 \/ v2 <= Z.of_nat v)%Z -> subarc_loop s v1 v2 n (Z.of_nat v) a b = Ok (a, b + seg ws v n).
Proof.
  intros s ws v1 v2 R. induction n as [|n IH]; intros v a b L A; [cbn; rewrite seg_0, Rplus_0_r; auto|]. cbn [subarc_loop]. rewrite (edge_reads s ws) by (auto; lia). cbn [bind]. destruct (Z.leb_spec v1 (Z.of_nat v)); destruct (Z.ltb_spec (Z.of_nat v) v2); cbn [andb]; try lia; replace (Z.of_nat v + 1)%Z with (Z.of_nat (S v)) by lia; rewrite IH by lia; rewrite seg_S by lia; do 2 f_equal; ring.
Qed.

(** ** the diameter *)
Definition grows (l : list (V3 * V3)) (d d' : R) : Prop := d <= d' /\ (d' = d \/ exists u v, In (u, v) l /\ d' = distance u v) /\ forall u v, In (u, v) l -> distance u v <= d'.
Lemma grows_nil : forall d, grows [] d d. Proof. intros d. split; [lra|]. split; [auto|]. intros u v []. Qed.
Lemma grows_app : forall l l' d d' d'', grows l d d' -> grows l' d' d'' -> grows (l ++ l') d d''.
Proof.
  intros l l' d d' d'' (A & B & C) (A' & B' & C'). split; [lra|]. split.
  - destruct B' as [->|(u & v & I & E)]; [|right; exists u, v; split; [apply in_app_iff; auto|auto]]. destruct B as [B|(u & v & I & E)]; [auto|right; exists u, v; split; [apply in_app_iff; auto|auto]].
  - intros u v I. apply in_app_iff in I. destruct I as [I|I]; [specialize (C u v I); lra|auto].
Qed.
Definition points (L : list arc) : list V3 := flat_map verts L.
Lemma farthest_grows : forall v ws d, grows (map (pair v) ws) d (farthest v ws d).
Proof.
  intros v. induction ws as [|w ws IH]; intros d; [apply grows_nil|]. unfold farthest. cbn [fold_left map]. apply (grows_app [(v, w)] (map (pair v) ws) d (if Rlt_dec d (mdist v w) then mdist v w else d)); [|apply IH].
  unfold mdist. fold (mdist v w). change (mdist v w) with (distance v w). destruct (Rlt_dec d (distance v w)); split; try lra; split.
  - right. exists v, w. split; [left; auto|auto].
  - intros a b [E|[]]. injection E as -> ->. lra.
  - auto.
  - intros a b [E|[]]. injection E as -> ->. lra.
Qed.
Lemma rest_grows : forall v rest d, grows (map (pair v) (points rest)) d (fold_left (fun d s => farthest v (verts s) d) rest d).
Proof. intros v. induction rest as [|s rest IH]; intros d; [apply grows_nil|]. unfold points. cbn [flat_map fold_left]. rewrite map_app. eapply grows_app; [apply farthest_grows|apply IH]. Qed.
Fixpoint pairs_strand (vs : list V3) (rest : list arc) : list (V3 * V3) := match vs with [] => [] | v :: vs' => (map (pair v) (v :: vs') ++ map (pair v) (points rest)) ++ pairs_strand vs' rest end.
Fixpoint pairs_loop (L : list arc) : list (V3 * V3) := match L with [] => [] | s :: L' => pairs_strand (verts s) L' ++ pairs_loop L' end.
Lemma strand_grows : forall vs rest d, grows (pairs_strand vs rest) d (diameter_strand vs rest d).
Proof. induction vs as [|v vs IH]; intros rest d; [apply grows_nil|]. cbn [pairs_strand diameter_strand]. eapply grows_app; [|apply IH]. eapply grows_app; [apply farthest_grows|apply rest_grows]. Qed.
Lemma loop_grows : forall L d, grows (pairs_loop L) d (diameter_loop L d).
Proof. induction L as [|s L IH]; intros d; [apply grows_nil|]. cbn. eapply grows_app; [apply strand_grows|apply IH]. Qed.
Lemma pairs_strand_in : forall rest vs u v, In (u, v) (pairs_strand vs rest) -> In u vs /\ (In v vs \/ In v (points rest)).
Proof.
  intros rest. induction vs as [|w vs IH]; intros u v I; [destruct I|]. cbn [pairs_strand] in I. apply in_app_iff in I. destruct I as [I|I]; [apply in_app_iff in I; destruct I as [I|I]; apply in_map_iff in I; destruct I as (x & E & I); injection E as -> ->; split; auto; left; auto|]. destruct (IH u v I) as (A & [B|B]); split; cbn; auto.
Qed.
Lemma pairs_in : forall L u v, In (u, v) (pairs_loop L) -> In u (points L) /\ In v (points L).
Proof.
  induction L as [|s L IH]; intros u v I; [destruct I|]. cbn in I. unfold points. cbn [flat_map]. rewrite !in_app_iff. apply in_app_iff in I. destruct I as [I|I]; [apply pairs_strand_in in I; tauto|]. apply IH in I. tauto.
Qed.
Lemma strand_same : forall rest vs u v, In u vs -> In v vs -> In (u, v) (pairs_strand vs rest) \/ In (v, u) (pairs_strand vs rest).
Proof.
  intros rest. induction vs as [|w vs IH]; intros u v U V; [destruct U|]. cbn [pairs_strand]. rewrite !in_app_iff. destruct U as [->|U]; [left; left; left; apply in_map; auto|]. destruct V as [->|V]; [right; left; left; apply in_map; right; auto|]. destruct (IH u v U V); auto.
Qed.
Lemma strand_rest : forall rest vs u v, In u vs -> In v (points rest) -> In (u, v) (pairs_strand vs rest).
Proof. intros rest. induction vs as [|w vs IH]; intros u v U V; [destruct U|]. cbn [pairs_strand]. rewrite !in_app_iff. destruct U as [->|U]; [left; right; apply in_map; auto|]. right. auto. Qed.
Lemma pairs_all : forall L u v, In u (points L) -> In v (points L) -> In (u, v) (pairs_loop L) \/ In (v, u) (pairs_loop L).
Proof.
  induction L as [|s L IH]; intros u v U V; [destruct U|]. unfold points in U, V. cbn [flat_map] in U, V. apply in_app_iff in U. apply in_app_iff in V. fold (points L) in U, V. cbn [pairs_loop]. rewrite !in_app_iff.
  destruct U as [U|U], V as [V|V].
  - destruct (strand_same L (verts s) u v U V); auto.
  - left. left. apply strand_rest; auto.
  - right. left. apply strand_rest; auto.
  - destruct (IH u v U V); auto.
Qed.

(** ** sums *)
Definition sum_of {T} (f : T -> R) (l : list T) : R := fold_right (fun x a => f x + a) 0 l.
Lemma sum_cons : forall {T} (f : T -> R) x l, sum_of f (x :: l) = f x + sum_of f l. Proof. reflexivity. Qed.
Lemma sum_nil : forall {T} (f : T -> R), sum_of f [] = 0. Proof. reflexivity. Qed.
Lemma sum_ext : forall {T} (f g : T -> R) l, (forall x, In x l -> f x = g x) -> sum_of f l = sum_of g l.
Proof. intros T f g. induction l as [|x l IH]; intros E; [auto|]. rewrite !sum_cons, (E x) by (left; auto). rewrite IH; auto. intros y I. apply E. right. auto. Qed.
Lemma sum_lin : forall {T} (f g : T -> R) a b l, sum_of (fun x => a * f x + b * g x) l = a * sum_of f l + b * sum_of g l.
Proof. intros T f g a b. induction l as [|x l IH]; [rewrite !sum_nil; ring|]. rewrite !sum_cons, IH. ring. Qed.
Lemma sum_const : forall {T} a (l : list T), sum_of (fun _ => a) l = a * INR (length l).
Proof. intros T a. induction l as [|x l IH]; [cbn; ring|]. rewrite !sum_cons, IH. cbn [length]. rewrite S_INR. ring. Qed.
Lemma sum_app : forall {T} (f : T -> R) l l', sum_of f (l ++ l') = sum_of f l + sum_of f l'.
Proof. intros T f. induction l as [|x l IH]; intros l'; [rewrite sum_nil; cbn [app]; ring|]. cbn [app]. rewrite !sum_cons, IH. ring. Qed.
Lemma sum_plus : forall {T} (f g : T -> R) l, sum_of (fun x => f x + g x) l = sum_of f l + sum_of g l.
Proof. intros T f g. induction l as [|x l IH]; [rewrite !sum_nil; ring|]. rewrite !sum_cons, IH. ring. Qed.
Lemma num_points : forall L, num_verts L = length (points L).
Proof. induction L as [|s L IH]; auto. change (length (verts s) + num_verts L = length (verts s ++ points L))%nat. rewrite app_length. congruence. Qed.
Lemma fold_points : forall {A} (f : A -> V3 -> A) L a, fold_left (fun a s => fold_left f (verts s) a) L a = fold_left f (points L) a.
Proof. intros A f. induction L as [|s L IH]; intros a; auto. unfold points. cbn. rewrite fold_left_app. apply IH. Qed.
Lemma fold_sum : forall {T} (f : T -> R) l a, fold_left (fun g v => g + f v) l a = a + sum_of f l.
Proof. intros T f. induction l as [|x l IH]; intros a; [rewrite sum_nil; cbn; ring|]. cbn [fold_left]. rewrite IH, sum_cons. ring. Qed.
Lemma fold_com : forall k l a, fold_left (fun com v => vadd com (scale_vect k v)) l a = mkV (c0 a + k * sum_of c0 l) (c1 a + k * sum_of c1 l) (c2 a + k * sum_of c2 l).
Proof. intros k. induction l as [|x l IH]; intros a; [destruct a; cbn; apply v3_eq; cbn; ring|]. cbn [fold_left]. rewrite IH, !sum_cons. apply v3_eq; cbn [c0 c1 c2 vadd scale_vect]; ring. Qed.
(** squares of differences from a value, and of all pairs *)
Lemma var_sum : forall {T} (f : T -> R) m l, sum_of (fun x => (m - f x) * (m - f x)) l = INR (length l) * (m * m) - 2 * m * sum_of f l + sum_of (fun x => f x * f x) l.
Proof. intros T f m. induction l as [|x l IH]; [cbn; ring|]. rewrite !sum_cons, IH. cbn [length]. rewrite S_INR. ring. Qed.
Lemma pair_sum : forall {T} (f : T -> R) l l', sum_of (fun x => sum_of (fun y => (f x - f y) * (f x - f y)) l') l = INR (length l') * sum_of (fun x => f x * f x) l - 2 * sum_of f l * sum_of f l' + INR (length l) * sum_of (fun x => f x * f x) l'.
Proof.
  intros T f l l'. induction l as [|x l IH]; [rewrite !sum_nil; cbn; ring|]. rewrite !sum_cons, IH, var_sum. cbn [length]. rewrite S_INR. ring.
Qed.
Lemma sum_combine : forall (F : V3 -> V3 -> R) (a b : list V3), sum_of (fun ab => F (fst ab) (snd ab)) (combine a b) = sum_of (fun i => F (nth i a vz) (nth i b vz)) (seq 0 (Nat.min (length a) (length b))).
Proof.
  intros F. induction a as [|x a IH]; intros b; [auto|]. destruct b as [|y b]; [auto|]. cbn [combine length Nat.min seq]. rewrite !sum_cons. f_equal. rewrite IH. rewrite <- seq_shift. generalize (seq 0 (Nat.min (length a) (length b))). induction l as [|i l IHl]; auto. cbn [map]. rewrite !sum_cons, IHl. auto.
Qed.
Lemma nth_drop : forall {T} (d : T) k l i, nth i (skipn k l) d = nth (k + i) l d.
Proof. intros T d. induction k as [|k IH]; intros l i; auto. destruct l; [destruct i; auto|]. cbn. apply IH. Qed.
