(** C49: the chord systems of the triangulation builders. *)
From Coq Require Import List Bool Arith Lia Sorted Permutation.
From Verif Require Import Base Sorting Pd KAscent Triang TriangSpec TriangProofs.
Import ListNotations.
Open Scope nat_scope.

(** the crossing test finds exactly the pairs of chords that cross or coincide *)
Theorem crossing_test : forall a b, fst a <> snd a -> fst b <> snd b ->
  (chords_cross a b = true <-> same a b \/ crosses a b).
Proof. exact chords_cross_spec. Qed.
Print Assumptions crossing_test.

(** the check of a chord system accepts exactly the systems without crossing or repeated chords *)
Theorem system_check : forall cs, Forall (fun c => fst c <> snd c) cs ->
  (chord_system_ok cs = true <-> ForallOrdPairs (fun c d => ~ crosses c d /\ ~ same c d) cs).
Proof.
  intros cs F. unfold chord_system_ok. rewrite system_ok_from by exact F.
  split; [tauto|]. intro H. split; auto.
Qed.
Print Assumptions system_check.

(** n-3 is the largest number of diagonals without crossings *)
Theorem at_most : forall n cs, 3 <= n -> Forall (diagonal n) cs ->
  ForallOrdPairs (fun c d => ~ crosses c d /\ ~ same c d) cs -> length cs <= n - 3.
Proof.
  intros n cs H F P. pose proof (good_bound n n (seq 0 n) cs) as B. rewrite seq_length in B. apply B; auto.
  - apply cyc_seq. lia.
  - split; auto. rewrite Forall_forall in *. intros c Hc. apply sep_diagonal. auto.
Qed.
Print Assumptions at_most.

Theorem fan_triangulates : forall n, 4 <= n -> triangulation n (fan_chords n) /\ chord_system_ok (fan_chords n) = true.
Proof.
  intros n H.
  assert (D : Forall (diagonal n) (fan_chords n)).
  { apply Forall_forall. intros c Hc. apply in_map_iff in Hc. destruct Hc as [i [<- Hi]]. apply in_seq in Hi.
    unfold diagonal. cbn [fst snd]. rewrite Nat.mod_small by lia.
    destruct (Nat.eq_dec (i + 2 + 1) n) as [E|E]; [lia|]. rewrite Nat.mod_small by lia. lia. }
  assert (P : ForallOrdPairs (fun c d => ~ crosses c d /\ ~ same c d) (fan_chords n)).
  { assert (G : forall m s, ForallOrdPairs (fun c d => ~ crosses c d /\ ~ same c d) (map (fun i => (0, i + 2)) (seq s m)));
      [|apply G]. clear.
    induction m as [|m IH]; intro s; [constructor|]. cbn [seq map]. constructor; [|apply IH]. apply Forall_forall.
    intros c Hc. apply in_map_iff in Hc. destruct Hc as [i [<- Hi]]. apply in_seq in Hi. split.
    - intros [M _]. apply M. left. reflexivity.
    - unfold same. cbn [fst snd]. intros [E|E]; inversion E; lia. }
  split; [split; [unfold fan_chords; rewrite map_length, seq_length; auto|auto]|].
  apply system_check; auto. rewrite Forall_forall in *. intros c Hc. apply (D c Hc).
Qed.
Print Assumptions fan_triangulates.

(** the chords of the teeth run from n-1-k/2 to 1+(k+1)/2 *)
Lemma teeth_shape : forall m k last, teeth_from m k last =
  map (fun i => (fst last - ((k + i) / 2 - (k - 1) / 2), snd last + ((k + i + 1) / 2 - k / 2))) (seq 0 m) \/ k = 0.
Proof.
  induction m as [|m IH]; intros k last; [left; reflexivity|]. destruct k as [|k]; [right; reflexivity|]. left.
  cbn [teeth_from seq map]. cbv zeta.
  match goal with |- _ :: teeth_from m ?k' ?c = _ => destruct (IH k' c) as [E|E]; [|lia] end.
  rewrite E. clear E IH. rewrite <- seq_shift, map_map.
  assert (H2 : forall z, (z mod 2 = 0 /\ z = 2 * (z / 2)) \/ (z mod 2 = 1 /\ z = 2 * (z / 2) + 1)).
  { intro z. pose proof (Nat.div_mod z 2 ltac:(lia)). pose proof (Nat.mod_upper_bound z 2 ltac:(lia)). lia. }
  f_equal.
  - pose proof (H2 (S k)). pose proof (H2 (S k + 0)). pose proof (H2 (S k + 0 + 1)). pose proof (H2 (S k - 1)).
    destruct (Nat.eqb_spec (S k mod 2) 0) as [E|E]; cbn [negb]; destruct last as [l0 l1]; cbn [fst snd]; f_equal; lia.
  - apply map_ext. intro i.
    pose proof (H2 (S k)). pose proof (H2 (S k + S i)). pose proof (H2 (S k + S i + 1)). pose proof (H2 (S k - 1)).
    pose proof (H2 (S k + 1)). pose proof (H2 (S k + 1 - 1)). replace (S k + 1 + i) with (S k + S i) by lia.
    destruct (Nat.eqb_spec (S k mod 2) 0) as [E|E]; cbn [negb]; destruct last as [l0 l1]; cbn [fst snd]; f_equal; lia.
Qed.
Lemma teeth_eq : forall n, 4 <= n ->
  teeth_chords n = Ok (map (fun k => (n - 1 - k / 2, 1 + (k + 1) / 2)) (seq 0 (n - 3))).
Proof.
  intros n H. unfold teeth_chords. destruct (Nat.leb_spec n 3) as [K|_]; [lia|]. f_equal.
  replace (n - 3) with (S (n - 4)) by lia. cbn [seq map]. f_equal; [f_equal; change (0 / 2) with 0; change ((0 + 1) / 2) with 0; lia|].
  destruct (teeth_shape (n - 4) 1 (n - 1, 1)) as [E|E]; [|discriminate]. rewrite E. rewrite <- seq_shift, map_map.
  apply map_ext. intro i. cbn [fst snd]. change ((1 - 1) / 2) with 0. change (1 / 2) with 0. rewrite !Nat.sub_0_r.
  replace (1 + i) with (S i) by lia. reflexivity.
Qed.
Theorem teeth_triangulates : forall n, 4 <= n ->
  exists cs, teeth_chords n = Ok cs /\ triangulation n cs /\ chord_system_ok cs = true.
Proof.
  intros n H. eexists. split; [apply teeth_eq; auto|].
  assert (H2 : forall z, z = 2 * (z / 2) \/ z = 2 * (z / 2) + 1).
  { intro z. pose proof (Nat.div_mod z 2 ltac:(lia)). pose proof (Nat.mod_upper_bound z 2 ltac:(lia)). lia. }
  assert (D : Forall (diagonal n) (map (fun k => (n - 1 - k / 2, 1 + (k + 1) / 2)) (seq 0 (n - 3)))).
  { apply Forall_forall. intros c Hc. apply in_map_iff in Hc. destruct Hc as [k [<- Hk]]. apply in_seq in Hk.
    unfold diagonal. cbn [fst snd]. pose proof (H2 k). pose proof (H2 (k + 1)).
    rewrite (Nat.mod_small (1 + (k + 1) / 2 + 1)) by lia.
    split; [lia|]. split; [lia|]. split; [lia|]. split; [|lia].
    destruct (Nat.eq_dec (k / 2) 0) as [E|E].
    - rewrite E. replace (n - 1 - 0 + 1) with n by lia. rewrite Nat.mod_same by lia. lia.
    - rewrite Nat.mod_small by lia. lia. }
  assert (P : ForallOrdPairs (fun c d => ~ crosses c d /\ ~ same c d) (map (fun k => (n - 1 - k / 2, 1 + (k + 1) / 2)) (seq 0 (n - 3)))).
  { assert (G : forall m s, s + m <= n - 3 ->
      ForallOrdPairs (fun c d => ~ crosses c d /\ ~ same c d) (map (fun k => (n - 1 - k / 2, 1 + (k + 1) / 2)) (seq s m)));
      [|apply G; lia].
    induction m as [|m IH]; intros s B; [constructor|]. cbn [seq map]. constructor; [|apply IH; lia]. apply Forall_forall.
    intros c Hc. apply in_map_iff in Hc. destruct Hc as [i [<- Hi]]. apply in_seq in Hi.
    pose proof (H2 s). pose proof (H2 (s + 1)). pose proof (H2 i). pose proof (H2 (i + 1)). split.
    - unfold crosses, meet, inside. cbn [fst snd]. lia.
    - unfold same. cbn [fst snd]. intros [E|E]; pose proof (f_equal fst E) as E0; pose proof (f_equal snd E) as E1; cbn [fst snd] in E0, E1; clear E; lia. }
  split; [split; [rewrite map_length, seq_length; auto|auto]|].
  apply system_check; auto. rewrite Forall_forall in *. intros c Hc. apply (D c Hc).
Qed.
Print Assumptions teeth_triangulates.

(** Whatever gsl_rng_uniform_int returns within its range, the random splitting stays inside its buffers
    and returns a triangulation; [Fuel] stands for an impossible or exhausted list of draws. *)
Theorem random_triangulates : forall n draws, 4 <= n ->
  match random_chords n draws with
  | Ok (cs, _) => triangulation n cs /\ chord_system_ok cs = true
  | Fuel => True
  | Fail | UB => False
  end.
Proof.
  intros n draws H. unfold random_chords.
  pose proof (worker_good n n (n - 3) [] (seq 0 n) draws) as W. rewrite seq_length in W.
  specialize (W (cyc_seq n ltac:(lia)) ltac:(lia) ltac:(cbn [length]; lia)).
  destruct (random_worker n (n - 3) [] (seq 0 n) draws) as [[cs dr]| | |]; auto.
  destruct W as (cs' & -> & L & G). cbn [app].
  assert (T : triangulation n cs') by (apply good_triangulation; auto; lia).
  split; auto. destruct T as (_ & D & P). apply system_check; auto.
  rewrite Forall_forall in *. intros c Hc. apply (D c Hc).
Qed.
Print Assumptions random_triangulates.

(** every triangulation is the result of some draws, up to the order and direction of its chords *)
Theorem random_reaches_all : forall n cs, 4 <= n -> triangulation n cs ->
  exists draws cs' cs'', random_chords n draws = Ok (cs'', []) /\ Permutation cs cs' /\ Forall2 same cs' cs''.
Proof.
  intros n cs H T. apply good_triangulation in T; [|lia]. destruct T as [L G].
  destruct (worker_onto n n (seq 0 n) cs) as (draws & cs'' & (cs' & P & F) & W); auto; rewrite ?seq_length; try lia.
  { apply cyc_seq. lia. }
  exists draws, cs', cs''. split; auto. unfold random_chords. rewrite <- (app_nil_r draws).
  rewrite W; rewrite ?seq_length; auto.
Qed.
Print Assumptions random_reaches_all.

(** the spiral is the triangulation obtained by always drawing 0 *)
Theorem spiral_triangulates : forall n, 4 <= n ->
  exists cs, spiral_chords n = Ok cs /\ random_chords n (repeat 0 (2 * (n - 3))) = Ok (cs, []) /\
    triangulation n cs /\ chord_system_ok cs = true.
Proof.
  intros n H.
  destruct (spiral_worker (n - 3) n (seq 1 (n - 1)) 0 (repeat true n) (n - 3) [] n) as (cs & E1 & E2).
  - cbn [length]. rewrite seq_length. lia.
  - replace (0 :: seq 1 (n - 1)) with (seq 0 n); [apply cyc_seq; lia|]. destruct n; [lia|]. cbn [seq]. rewrite Nat.sub_succ, Nat.sub_0_r. reflexivity.
  - apply repeat_length.
  - intros y Hy. assert (E : nth y (repeat true n) false = true).
    { clear -Hy. revert y Hy. induction n as [|n IH]; intros y Hy; [lia|]. destruct y; auto. apply IH. lia. }
    rewrite E. split; auto. intros _. destruct y; [left; auto|right]. apply in_seq. lia.
  - cbn [length]. rewrite seq_length. lia.
  - cbn [length]. lia.
  - exists cs. assert (R : random_chords n (repeat 0 (2 * (n - 3))) = Ok (cs, [])).
    { unfold random_chords. replace (seq 0 n) with (0 :: seq 1 (n - 1)); [exact E2|]. destruct n; [lia|]. cbn [seq]. rewrite Nat.sub_succ, Nat.sub_0_r. reflexivity. }
    split; [|split; auto].
    + unfold spiral_chords. destruct (Nat.leb_spec n 3); [lia|]. exact E1.
    + pose proof (random_triangulates n (repeat 0 (2 * (n - 3))) H) as T. rewrite R in T. exact T.
Qed.
Print Assumptions spiral_triangulates.

(** For the triangle, which has no diagonals, the spiral and the teeth write outside their empty buffers,
    although the fan and the random triangulation handle it. *)
Theorem triangle_refuted : spiral_chords 3 = UB /\ teeth_chords 3 = UB /\ fan_chords 3 = [] /\ random_chords 3 [] = Ok ([], []).
Proof. repeat split; reflexivity. Qed.
Print Assumptions triangle_refuted.

Example hexagon : random_chords 6 [1; 1; 0; 0; 0; 0] = Ok ([(1, 4); (1, 3); (4, 0)], []) /\
  spiral_chords 6 = Ok [(0, 2); (2, 4); (4, 0)] /\ teeth_chords 6 = Ok [(5, 1); (5, 2); (4, 2)].
Proof. repeat split; reflexivity. Qed.
