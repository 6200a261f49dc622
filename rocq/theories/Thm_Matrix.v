(** C82: lu_decmp and solve_linear solve systems of three linear equations. *)
From Coq Require Import Reals List Bool Arith Lra Lia Psatz.
From Verif Require Import Base Sampler SamplerProofs Hopf HopfProofs Fan Matrix.
Import ListNotations.
Open Scope R_scope.
Open Scope res_scope.

(** ** what is asked *)
Definition apply_matrix (A : matrix) (x : V3) : V3 :=
  mkV (A 0%nat 0%nat * c0 x + A 0%nat 1%nat * c1 x + A 0%nat 2%nat * c2 x) (A 1%nat 0%nat * c0 x + A 1%nat 1%nat * c1 x + A 1%nat 2%nat * c2 x) (A 2%nat 0%nat * c0 x + A 2%nat 1%nat * c1 x + A 2%nat 2%nat * c2 x).
Definition determinant (A : matrix) : R :=
  A 0%nat 0%nat * (A 1%nat 1%nat * A 2%nat 2%nat - A 1%nat 2%nat * A 2%nat 1%nat) - A 0%nat 1%nat * (A 1%nat 0%nat * A 2%nat 2%nat - A 1%nat 2%nat * A 2%nat 0%nat) + A 0%nat 2%nat * (A 1%nat 0%nat * A 2%nat 1%nat - A 1%nat 1%nat * A 2%nat 0%nat).
Definition zero_row (A : matrix) (i : nat) : Prop := A i 0%nat = 0 /\ A i 1%nat = 0 /\ A i 2%nat = 0.

(** ** proofs *)
Lemma row_big_zero : forall A i, 0 <= row_big A i /\ (row_big A i = 0 <-> zero_row A i).
Proof.
  intros A i. unfold row_big, loop, zero_row. cbn [Nat.sub seq fold_left]. assert (G : forall x, 0 <= Rabs x /\ (Rabs x = 0 <-> x = 0)). { intros x. split; [apply Rabs_pos|]. split; [|intros ->; apply Rabs_R0]. unfold Rabs. destruct (Rcase_abs x); lra. }
  destruct (G (A i 0%nat)) as (P0 & Q0). destruct (G (A i 1%nat)) as (P1 & Q1). destruct (G (A i 2%nat)) as (P2 & Q2). rewrite <- Q0, <- Q1, <- Q2. clear Q0 Q1 Q2 G. destruct (Rlt_dec 0 _); destruct (Rlt_dec _ (Rabs (A i 1%nat))); destruct (Rlt_dec _ (Rabs (A i 2%nat))); repeat split; intros; lra.
Qed.
Lemma scalings_ok : forall rows A v, (forall i, In i rows -> ~ zero_row A i) -> exists w, scalings rows A v = Ok (Some w) /\ forall i, (In i rows -> 0 < w i) /\ (~ In i rows -> w i = v i).
Proof.
  induction rows as [|i rows IH]; intros A v Z; cbn [scalings]; [exists v; split; [auto|]; intros i; split; [intros []|auto]|]. destruct (row_big_zero A i) as (P & Q). destruct (Req_EM_T (row_big A i) 0) as [E|E]; [exfalso; apply (Z i); [left; auto|tauto]|]. rewrite rdiv_ok by auto. cbn [bind].
  destruct (IH A (set1 v i (1 / row_big A i))) as (w & F & W); [intros; apply Z; right; auto|]. exists w. split; [auto|]. intros k. destruct (in_dec Nat.eq_dec k rows) as [I|I].
  - split; [intros _; apply W; auto|intros N; exfalso; apply N; right; auto].
  - rewrite (proj2 (W k) I). unfold set1. destruct (Nat.eqb_spec k i) as [->|N].
    + split; [intros _; unfold Rdiv; rewrite Rmult_1_l; apply Rinv_0_lt_compat; lra|intros NI; exfalso; apply NI; left; auto].
    + split; [intros [|]; [congruence|tauto]|auto].
Qed.
Lemma scaled_zero : forall v x, 0 < v -> x <> 0 -> 0 < v * Rabs x.
Proof. intros. apply Rmult_lt_0_compat; [auto|apply Rabs_pos_lt; auto]. Qed.
Lemma scaled_pos : forall v x, 0 < v -> 0 <= v * Rabs x.
Proof. intros. apply Rmult_le_pos; [lra|apply Rabs_pos]. Qed.
Lemma scaled_back : forall v x, 0 < v * Rabs x -> x <> 0.
Proof. intros v x H ->. rewrite Rabs_R0 in H. lra. Qed.
Ltac small a := let H := fresh in assert (H : (a = 0 \/ a = 1 \/ a = 2)%nat) by lia; destruct H as [->|[->| ->]].

(** the search for a pivot in the three columns *)
Lemma search0 : forall v c im, 0 < v 0%nat -> 0 < v 1%nat -> 0 < v 2%nat -> ~ (c 0%nat 0%nat = 0 /\ c 1%nat 0%nat = 0 /\ c 2%nat 0%nat = 0) ->
  exists c' b i, search 0 v c im = (c', b, i) /\ (forall a k, c' a k = c a k) /\ (i < 3)%nat /\ c i 0%nat <> 0.
Proof.
  intros v c im V0 V1 V2 NZ. unfold search, loop. cbn [Nat.sub seq fold_left].
  assert (E0 : forall c i, set2 c i 0 (less_dot c i 0 0) i 0%nat = c i 0%nat) by (intros; unfold set2; rewrite Nat.eqb_refl; reflexivity).
  assert (E1 : forall c i a k, set2 c i 0 (less_dot c i 0 0) a k = c a k). { intros d i a k. unfold set2. destruct (Nat.eqb_spec a i) as [->|]; [|auto]. destruct (Nat.eqb_spec k 0) as [->|]; auto. }
  pose proof (scaled_pos (v 0%nat) (c 0%nat 0%nat) V0) as S0. pose proof (scaled_pos (v 1%nat) (c 1%nat 0%nat) V1) as S1. pose proof (scaled_pos (v 2%nat) (c 2%nat 0%nat) V2) as S2.
  assert (NZ' : 0 < v 0%nat * Rabs (c 0%nat 0%nat) \/ 0 < v 1%nat * Rabs (c 1%nat 0%nat) \/ 0 < v 2%nat * Rabs (c 2%nat 0%nat)).
  { destruct (Req_dec (c 0%nat 0%nat) 0); [|left; apply scaled_zero; auto]. destruct (Req_dec (c 1%nat 0%nat) 0); [|right; left; apply scaled_zero; auto]. destruct (Req_dec (c 2%nat 0%nat) 0); [tauto|right; right; apply scaled_zero; auto]. }
  cbv zeta. rewrite E0. destruct (Rle_dec 0 _) as [|N]; [|lra]. rewrite !E0, !E1. destruct (Rle_dec _ (v 1%nat * _)) as [L1|L1]; rewrite !E0, !E1; destruct (Rle_dec _ (v 2%nat * _)) as [L2|L2]; eexists; eexists; eexists; (split; [reflexivity|]); (split; [intros; rewrite !E1; reflexivity|]); (split; [lia|]);
    [apply (scaled_back (v 2%nat))|apply (scaled_back (v 1%nat))|apply (scaled_back (v 2%nat))|apply (scaled_back (v 0%nat))]; lra.
Qed.
Lemma search1 : forall v c im, 0 < v 1%nat -> 0 < v 2%nat -> ~ (c 1%nat 1%nat - c 1%nat 0%nat * c 0%nat 1%nat = 0 /\ c 2%nat 1%nat - c 2%nat 0%nat * c 0%nat 1%nat = 0) ->
  exists c' b i, search 1 v c im = (c', b, i) /\ (forall a k, c' a k = if Nat.eqb k 1 && (Nat.eqb a 1 || Nat.eqb a 2) then c a 1%nat - c a 0%nat * c 0%nat 1%nat else c a k) /\ (i = 1 \/ i = 2)%nat /\ c i 1%nat - c i 0%nat * c 0%nat 1%nat <> 0.
Proof.
  intros v c im V1 V2 NZ. set (x1 := c 1%nat 1%nat - c 1%nat 0%nat * c 0%nat 1%nat) in *. set (x2 := c 2%nat 1%nat - c 2%nat 0%nat * c 0%nat 1%nat) in *.
  pose proof (scaled_pos (v 1%nat) x1 V1) as S1. pose proof (scaled_pos (v 2%nat) x2 V2) as S2.
  assert (NZ' : 0 < v 1%nat * Rabs x1 \/ 0 < v 2%nat * Rabs x2). { destruct (Req_dec x1 0); [|left; apply scaled_zero; auto]. destruct (Req_dec x2 0); [tauto|right; apply scaled_zero; auto]. }
  unfold search, loop. cbn [Nat.sub seq fold_left]. cbv zeta. change (set2 c 1 1 (less_dot c 1 1 1) 1%nat 1%nat) with x1. destruct (Rle_dec 0 _) as [|N]; [|lra].
  set (d := set2 c 1 1 (less_dot c 1 1 1)). change (set2 d 2 1 (less_dot d 2 1 1) 2%nat 1%nat) with x2.
  assert (EQ : forall a k, set2 d 2 1 (less_dot d 2 1 1) a k = if Nat.eqb k 1 && (Nat.eqb a 1 || Nat.eqb a 2) then c a 1%nat - c a 0%nat * c 0%nat 1%nat else c a k).
  { intros a k. destruct (Nat.eqb_spec k 1) as [->|NK].
    - destruct (Nat.eq_dec a 1) as [->|N1]; [reflexivity|]. destruct (Nat.eq_dec a 2) as [->|N2]; [reflexivity|]. unfold d, set2. rewrite (proj2 (Nat.eqb_neq a 1) N1), (proj2 (Nat.eqb_neq a 2) N2). reflexivity.
    - unfold d, set2. rewrite (proj2 (Nat.eqb_neq k 1) NK), !andb_false_r. reflexivity. }
  destruct (Rle_dec _ (v 2%nat * _)) as [L2|L2]; eexists; eexists; eexists; (split; [reflexivity|]); (split; [exact EQ|]); (split; [auto|]); [apply (scaled_back (v 2%nat))|apply (scaled_back (v 1%nat))]; fold x1 x2; lra.
Qed.
Lemma search2 : forall v c im, 0 < v 2%nat -> exists b, search 2 v c im = (set2 c 2 2 (c 2%nat 2%nat - c 2%nat 0%nat * c 0%nat 2%nat - c 2%nat 1%nat * c 1%nat 2%nat), b, 2%nat).
Proof.
  intros v c im V2. unfold search, loop. cbn [Nat.sub seq fold_left]. cbv zeta. change (less_dot c 2 2 2) with (c 2%nat 2%nat - c 2%nat 0%nat * c 0%nat 2%nat - c 2%nat 1%nat * c 1%nat 2%nat). change (set2 c 2 2 ?x 2%nat 2%nat) with x.
  set (x := _ - _ - _). pose proof (scaled_pos (v 2%nat) x V2). destruct (Rle_dec 0 _) as [|N]; [eauto|]. exfalso. apply N. auto.
Qed.

(** the first column: row [p] comes to the top *)
Definition perm3 (p q r : nat) (e : R) : Prop := (p = 0 /\ q = 1 /\ r = 2)%nat /\ e = 1 \/ (p = 1 /\ q = 0 /\ r = 2)%nat /\ e = -1 \/ (p = 2 /\ q = 1 /\ r = 0)%nat /\ e = -1.
Lemma column0 : forall A v, 0 < v 0%nat -> 0 < v 1%nat -> 0 < v 2%nat -> ~ (A 0%nat 0%nat = 0 /\ A 1%nat 0%nat = 0 /\ A 2%nat 0%nat = 0) ->
  exists s im p q r e, column 0 0 (mkLU A v (fun i => i) 1) = Ok (s, im) /\ perm3 p q r e /\ A p 0%nat <> 0 /\
    cvt s 0%nat 0%nat = A p 0%nat /\ cvt s 0%nat 1%nat = A p 1%nat /\ cvt s 0%nat 2%nat = A p 2%nat /\
    cvt s 1%nat 0%nat = A q 0%nat * (1 / A p 0%nat) /\ cvt s 1%nat 1%nat = A q 1%nat /\ cvt s 1%nat 2%nat = A q 2%nat /\
    cvt s 2%nat 0%nat = A r 0%nat * (1 / A p 0%nat) /\ cvt s 2%nat 1%nat = A r 1%nat /\ cvt s 2%nat 2%nat = A r 2%nat /\
    0 < vv s 1%nat /\ 0 < vv s 2%nat /\ index s 0%nat = p /\ index s 1%nat = q /\ index s 2%nat = r /\ sgn s = e.
Proof.
  intros A v V0 V1 V2 NZ. unfold column. change (upper 0 (cvt (mkLU A v (fun i => i) 1))) with A. cbn [vv index sgn]. destruct (search0 v A 0 V0 V1 V2 NZ) as (c & b & i & -> & EC & LI & PV). small i; cbn [Nat.eqb negb cvt vv index sgn].
  - destruct (Req_EM_T (c 0%nat 0%nat) 0) as [E|_]; [rewrite EC in E; tauto|]. rewrite rdiv_ok by (rewrite EC; auto). cbn [bind]. eexists. eexists. exists 0%nat, 1%nat, 2%nat, 1. split; [reflexivity|]. split; [left; auto|]. cbn. rewrite !EC. repeat split; auto.
  - change (swap_rows c 1 0 0%nat 0%nat) with (c 1%nat 0%nat). destruct (Req_EM_T (c 1%nat 0%nat) 0) as [E|_]; [rewrite EC in E; tauto|]. change (swap_rows c 1 0 0%nat 0%nat) with (c 1%nat 0%nat). rewrite rdiv_ok by (rewrite EC; auto). cbn [bind]. eexists. eexists. exists 1%nat, 0%nat, 2%nat, (-1). split; [reflexivity|]. split; [right; left; auto|]. cbn. rewrite !EC. repeat split; auto; lra.
  - change (swap_rows c 2 0 0%nat 0%nat) with (c 2%nat 0%nat). destruct (Req_EM_T (c 2%nat 0%nat) 0) as [E|_]; [rewrite EC in E; tauto|]. change (swap_rows c 2 0 0%nat 0%nat) with (c 2%nat 0%nat). rewrite rdiv_ok by (rewrite EC; auto). cbn [bind]. eexists. eexists. exists 2%nat, 1%nat, 0%nat, (-1). split; [reflexivity|]. split; [right; right; auto|]. cbn. rewrite !EC. repeat split; auto; lra.
Qed.
(** the second column: the other two rows stay ([q] = 1) or are exchanged *)
Lemma column1 : forall s im, 0 < vv s 1%nat -> 0 < vv s 2%nat -> let x i := cvt s i 1%nat - cvt s i 0%nat * cvt s 0%nat 1%nat in ~ (x 1%nat = 0 /\ x 2%nat = 0) ->
  exists t im' q r e, column 1 im s = Ok (t, im') /\ ((q = 1 /\ r = 2)%nat /\ e = 1 \/ (q = 2 /\ r = 1)%nat /\ e = -1) /\ x q <> 0 /\
    (forall k, (k < 3)%nat -> cvt t 0%nat k = cvt s 0%nat k) /\
    cvt t 1%nat 0%nat = cvt s q 0%nat /\ cvt t 1%nat 1%nat = x q /\ cvt t 1%nat 2%nat = cvt s q 2%nat /\
    cvt t 2%nat 0%nat = cvt s r 0%nat /\ cvt t 2%nat 1%nat = x r * (1 / x q) /\ cvt t 2%nat 2%nat = cvt s r 2%nat /\
    0 < vv t 2%nat /\ index t 0%nat = index s 0%nat /\ index t 1%nat = index s q /\ index t 2%nat = index s r /\ sgn t = e * sgn s.
Proof.
  intros s im V1 V2 x NZ. unfold column. set (u := upper 1 (cvt s)). assert (EU : forall a k, u a k = cvt s a k). { intros a k. unfold u, upper, loop. cbn [Nat.sub seq fold_left]. unfold set2. destruct (Nat.eqb_spec a 0) as [->|]; [|auto]. destruct (Nat.eqb_spec k 1) as [->|]; auto. }
  clearbody u. destruct (search1 (vv s) u im V1 V2) as (c & b & i & E & EC & LI & PV); [rewrite !EU; exact NZ|]. rewrite E. rewrite !EU in PV. fold (x i) in PV.
  assert (C11 : forall a, (a = 1 \/ a = 2)%nat -> c a 1%nat = x a) by (intros a [->| ->]; rewrite EC; cbn; rewrite !EU; reflexivity). assert (CO : forall a k, (a = 0 \/ k <> 1)%nat -> c a k = cvt s a k). { intros a k H. rewrite EC. destruct (Nat.eqb_spec k 1); [|apply EU]. destruct H as [->|]; [apply EU|tauto]. }
  destruct LI as [->| ->]; cbn [Nat.eqb negb cvt vv index sgn].
  - destruct (Req_EM_T (c 1%nat 1%nat) 0) as [Z|_]; [rewrite C11 in Z by auto; tauto|]. rewrite rdiv_ok by (rewrite C11; auto). cbn [bind]. eexists. eexists. exists 1%nat, 2%nat, 1. split; [reflexivity|]. split; [left; auto|]. cbn. rewrite !C11 by auto. rewrite !CO by auto. repeat split; auto; try ring; intros k K; small k; cbn; apply CO; auto.
  - change (swap_rows c 2 1 1%nat 1%nat) with (c 2%nat 1%nat). destruct (Req_EM_T (c 2%nat 1%nat) 0) as [Z|_]; [rewrite C11 in Z by auto; tauto|]. change (swap_rows c 2 1 1%nat 1%nat) with (c 2%nat 1%nat). rewrite rdiv_ok by (rewrite C11; auto). cbn [bind]. eexists. eexists. exists 2%nat, 1%nat, (-1). split; [reflexivity|]. split; [right; auto|]. cbn. rewrite !C11 by auto. rewrite !CO by auto. repeat split; auto; try ring; intros k K; small k; cbn; apply CO; auto.
Qed.
Lemma column2 : forall s im, 0 < vv s 2%nat -> let y := cvt s 1%nat 2%nat - cvt s 1%nat 0%nat * cvt s 0%nat 2%nat in let x := cvt s 2%nat 2%nat - cvt s 2%nat 0%nat * cvt s 0%nat 2%nat - cvt s 2%nat 1%nat * y in x <> 0 ->
  exists t, column 2 im s = Ok (t, 2%nat) /\ (forall a k, (a < 3)%nat -> (k < 2)%nat -> cvt t a k = cvt s a k) /\ cvt t 0%nat 2%nat = cvt s 0%nat 2%nat /\ cvt t 1%nat 2%nat = y /\ cvt t 2%nat 2%nat = x /\ index t = index s /\ sgn t = sgn s.
Proof.
  intros s im V2 y x NX. unfold column. set (u := upper 2 (cvt s)). assert (EU : forall a k, u a k = if Nat.eqb a 1 && Nat.eqb k 2 then y else cvt s a k). { intros a k. unfold u, upper, loop. cbn [Nat.sub seq fold_left]. unfold set2 at 1. destruct (Nat.eqb a 1 && Nat.eqb k 2); [reflexivity|]. unfold set2. destruct (Nat.eqb_spec a 0) as [->|]; [|auto]. destruct (Nat.eqb_spec k 2) as [->|]; auto. }
  clearbody u. destruct (search2 (vv s) u im V2) as (b & ->). cbn [Nat.eqb negb cvt vv index sgn]. assert (XE : u 2%nat 2%nat - u 2%nat 0%nat * u 0%nat 2%nat - u 2%nat 1%nat * u 1%nat 2%nat = x) by (rewrite !EU; reflexivity). rewrite XE. change (set2 u 2 2 x 2%nat 2%nat) with x. destruct (Req_EM_T x 0); [tauto|]. eexists. split; [reflexivity|]. cbn [cvt index sgn]. unfold set2. split; [|cbn; rewrite !EU; auto 10].
  intros a k LA LK. rewrite EU. rewrite (proj2 (Nat.eqb_neq k 2)) by lia. rewrite !andb_false_r. auto.
Qed.
Lemma solve_ok : forall LU idx b, LU 0%nat 0%nat <> 0 -> LU 1%nat 1%nat <> 0 -> LU 2%nat 2%nat <> 0 -> (forall i, (i < 3)%nat -> (idx i < 3)%nat) ->
  exists x, solve_linear LU idx b = Ok x /\
    let r0 := LU 0%nat 0%nat * c0 x + LU 0%nat 1%nat * c1 x + LU 0%nat 2%nat * c2 x in
    let r1 := LU 1%nat 1%nat * c1 x + LU 1%nat 2%nat * c2 x in
    r0 = coord b (idx 0%nat) /\ LU 1%nat 0%nat * r0 + r1 = coord b (idx 1%nat) /\ LU 2%nat 0%nat * r0 + LU 2%nat 1%nat * r1 + LU 2%nat 2%nat * c2 x = coord b (idx 2%nat).
Proof.
  intros LU idx b N0 N1 N2 I. unfold solve_linear. cbn [forallb]. rewrite !(proj2 (Nat.ltb_lt _ _)) by (apply I; lia). cbn [andb negb].
  set (B := loop 0 3 _ _). assert (B0 : B 0%nat = coord b (idx 0%nat)) by reflexivity. assert (B1 : B 1%nat = coord b (idx 1%nat) - LU 1%nat 0%nat * B 0%nat) by reflexivity. assert (B2 : B 2%nat = coord b (idx 2%nat) - LU 2%nat 0%nat * B 0%nat - LU 2%nat 1%nat * B 1%nat) by reflexivity. clearbody B.
  cbn [back]. do 3 (rewrite rdiv_ok by auto; cbn [bind]). eexists. split; [reflexivity|]. unfold loop, set1. cbn [Nat.sub Nat.add seq fold_left Nat.eqb c0 c1 c2]. rewrite B0 in *. rewrite B1 in *. rewrite B2. repeat split; field; auto.
Qed.

Theorem lu_solves : forall A, determinant A <> 0 ->
  exists LU idx d, lu_decmp A = Ok (Some (LU, idx, d), None) /\ (d = 1 \/ d = -1) /\ determinant A = d * LU 0%nat 0%nat * LU 1%nat 1%nat * LU 2%nat 2%nat /\
    forall b, exists x, solve_linear LU idx b = Ok x /\ forall y, y = x <-> apply_matrix A y = b.
Proof.
  intros A DN. unfold lu_decmp.
  assert (NR : forall i, In i [0; 1; 2]%nat -> ~ zero_row A i). { intros i I (E0 & E1 & E2). apply DN. unfold determinant. cbn in I. destruct I as [<-|[<-|[<-|[]]]]; rewrite E0, E1, E2; ring. }
  destruct (scalings_ok [0; 1; 2]%nat A (fun _ => 0) NR) as (v & -> & W). cbn [bind].
  destruct (column0 A v) as (s & im & p & q & r & e & -> & PM & PV & s00 & s01 & s02 & s10 & s11 & s12 & s20 & s21 & s22 & V1 & V2 & i0 & i1 & i2 & sg); [apply W; cbn; auto|apply W; cbn; auto|apply W; cbn; auto| |]. { intros (E0 & E1 & E2). apply DN. unfold determinant. rewrite E0, E1, E2. ring. }
  cbn [bind fst snd]. set (lq := A q 0%nat * (1 / A p 0%nat)) in *. set (lr := A r 0%nat * (1 / A p 0%nat)) in *. assert (EQ : A q 0%nat = lq * A p 0%nat) by (unfold lq; field; auto). assert (ER : A r 0%nat = lr * A p 0%nat) by (unfold lr; field; auto).
  assert (DD : determinant A = e * (A p 0%nat * ((A q 1%nat - lq * A p 1%nat) * (A r 2%nat - lr * A p 2%nat) - (A q 2%nat - lq * A p 2%nat) * (A r 1%nat - lr * A p 1%nat)))).
  { transitivity (e * (A p 0%nat * (A q 1%nat * A r 2%nat - A q 2%nat * A r 1%nat) - A p 1%nat * (A q 0%nat * A r 2%nat - A q 2%nat * A r 0%nat) + A p 2%nat * (A q 0%nat * A r 1%nat - A q 1%nat * A r 0%nat))).
    - unfold determinant. destruct PM as [((-> & -> & ->) & ->)|[((-> & -> & ->) & ->)|((-> & -> & ->) & ->)]]; ring.
    - rewrite EQ, ER. ring. }
  clearbody lq lr. destruct (column1 s im V1 V2) as (t & im' & m & k & e' & -> & PM' & PV' & t0 & t10 & t11 & t12 & t20 & t21 & t22 & W2 & j0 & j1 & j2 & sg').
  { rewrite s11, s10, s01, s21, s20. intros (Z1 & Z2). apply DN. rewrite DD. replace (A r 1%nat - lr * A p 1%nat) with 0 by lra. replace (A q 1%nat - lq * A p 1%nat) with 0 by lra. ring. }
  cbn [bind fst snd].
  assert (NE : e <> 0) by (destruct PM as [(_ & ->)|[(_ & ->)|(_ & ->)]]; lra).
  assert (XN : cvt t 2%nat 2%nat - cvt t 2%nat 0%nat * cvt t 0%nat 2%nat - cvt t 2%nat 1%nat * (cvt t 1%nat 2%nat - cvt t 1%nat 0%nat * cvt t 0%nat 2%nat) <> 0).
  { rewrite t0, t10, t12, t20, t21, t22 by lia. intros Z. apply DN. rewrite DD. rewrite s02 in Z. destruct PM' as [((-> & ->) & ->)|((-> & ->) & ->)]; rewrite ?s00, ?s01, ?s02, ?s10, ?s11, ?s12, ?s20, ?s21, ?s22 in *.
    - set (x1 := A q 1%nat - lq * A p 1%nat) in *. set (x2 := A r 1%nat - lr * A p 1%nat) in *. replace (x1 * (A r 2%nat - lr * A p 2%nat) - (A q 2%nat - lq * A p 2%nat) * x2) with (x1 * (A r 2%nat - lr * A p 2%nat - x2 * (1 / x1) * (A q 2%nat - lq * A p 2%nat))) by (field; auto). rewrite Z. ring.
    - set (x1 := A q 1%nat - lq * A p 1%nat) in *. set (x2 := A r 1%nat - lr * A p 1%nat) in *. replace (x1 * (A r 2%nat - lr * A p 2%nat) - (A q 2%nat - lq * A p 2%nat) * x2) with (- x2 * (A q 2%nat - lq * A p 2%nat - x1 * (1 / x2) * (A r 2%nat - lr * A p 2%nat))) by (field; auto). rewrite Z. ring. }
  destruct (column2 t im' W2 XN) as (w & -> & w0 & w02 & w12 & w22 & jj & sg''). assert (NX : cvt w 2%nat 2%nat <> 0) by (rewrite w22; exact XN).
  cbn [bind fst snd]. eexists. eexists. eexists. split; [reflexivity|].
  pose proof (w0 0%nat 0%nat ltac:(lia) ltac:(lia)) as w00. pose proof (w0 0%nat 1%nat ltac:(lia) ltac:(lia)) as w01. pose proof (w0 1%nat 0%nat ltac:(lia) ltac:(lia)) as w10. pose proof (w0 1%nat 1%nat ltac:(lia) ltac:(lia)) as w11. pose proof (w0 2%nat 0%nat ltac:(lia) ltac:(lia)) as w20. pose proof (w0 2%nat 1%nat ltac:(lia) ltac:(lia)) as w21. clear w0.
  rewrite t0 in w00, w01, w02 by lia. rewrite t0 in w12, w22 by lia. rewrite s00 in w00. rewrite s01 in w01. rewrite s02 in w02, w12, w22. rewrite t10, t12 in *. rewrite t20, t22 in *. rewrite t21 in *. rewrite t11 in w11. rewrite sg', sg in sg''.
  split; [|split].
  - rewrite sg''. destruct PM' as [(_ & ->)|(_ & ->)]; destruct PM as [(_ & ->)|[(_ & ->)|(_ & ->)]]; lra.
  - rewrite sg'', w00, w11, w22, DD. destruct PM' as [((-> & ->) & ->)|((-> & ->) & ->)]; rewrite ?s01, ?s10, ?s11, ?s12, ?s20, ?s21, ?s22 in *; field; auto.
  - intros b. destruct (solve_ok (cvt w) (index w) b) as (x & E & F0 & F1 & F2); [rewrite w00; auto|rewrite w11; auto|auto| |].
    { intros i Hi. rewrite jj. small i; [rewrite j0, i0|rewrite j1|rewrite j2]; destruct PM' as [((-> & ->) & _)|((-> & ->) & _)]; rewrite ?i1, ?i2; destruct PM as [((-> & -> & ->) & _)|[((-> & -> & ->) & _)|((-> & -> & ->) & _)]]; lia. }
    exists x. split; [auto|].
    assert (RP : A p 0%nat * c0 x + A p 1%nat * c1 x + A p 2%nat * c2 x = coord b p /\ A q 0%nat * c0 x + A q 1%nat * c1 x + A q 2%nat * c2 x = coord b q /\ A r 0%nat * c0 x + A r 1%nat * c1 x + A r 2%nat * c2 x = coord b r).
    { rewrite jj in F0, F1, F2. rewrite j0, i0 in F0. rewrite j1 in F1. rewrite j2 in F2. rewrite w00, w01, w02 in F0, F1, F2. rewrite w10, w11, w12 in F1. rewrite w11, w12, w20, w21, w22 in F2. destruct PM' as [((-> & ->) & _)|((-> & ->) & _)]; rewrite ?s01, ?s10, ?s11, ?s12, ?s20, ?s21, ?s22, ?i1, ?i2 in *; (split; [exact F0|]); split; rewrite ?EQ, ?ER; first [rewrite <- F1; ring|rewrite <- F2; field; auto]. }
    assert (AX : apply_matrix A x = b). { destruct RP as (R0 & R1 & R2). apply v3_eq; unfold apply_matrix; cbn [c0 c1 c2]; destruct PM as [((-> & -> & ->) & _)|[((-> & -> & ->) & _)|((-> & -> & ->) & _)]]; cbn [coord] in *; auto. }
    intros y. split; [intros ->; exact AX|]. intros AY. rewrite <- AX in AY. unfold apply_matrix in AY. injection AY as Y0 Y1 Y2. clear - DN Y0 Y1 Y2.
    assert (G : forall d, determinant A * d = 0 -> d = 0) by (intros d H; apply Rmult_integral in H; tauto). unfold determinant in G.
    set (d0 := c0 y - c0 x). set (d1 := c1 y - c1 x). set (d2 := c2 y - c2 x). assert (E0 : A 0%nat 0%nat * d0 + A 0%nat 1%nat * d1 + A 0%nat 2%nat * d2 = 0) by (unfold d0, d1, d2; lra). assert (E1 : A 1%nat 0%nat * d0 + A 1%nat 1%nat * d1 + A 1%nat 2%nat * d2 = 0) by (unfold d0, d1, d2; lra). assert (E2 : A 2%nat 0%nat * d0 + A 2%nat 1%nat * d1 + A 2%nat 2%nat * d2 = 0) by (unfold d0, d1, d2; lra).
    apply v3_eq; apply Rminus_diag_uniq; [change (d0 = 0)|change (d1 = 0)|change (d2 = 0)]; apply G; clear G; clearbody d0 d1 d2.
    + transitivity ((A 1%nat 1%nat * A 2%nat 2%nat - A 1%nat 2%nat * A 2%nat 1%nat) * (A 0%nat 0%nat * d0 + A 0%nat 1%nat * d1 + A 0%nat 2%nat * d2) - (A 0%nat 1%nat * A 2%nat 2%nat - A 0%nat 2%nat * A 2%nat 1%nat) * (A 1%nat 0%nat * d0 + A 1%nat 1%nat * d1 + A 1%nat 2%nat * d2) + (A 0%nat 1%nat * A 1%nat 2%nat - A 0%nat 2%nat * A 1%nat 1%nat) * (A 2%nat 0%nat * d0 + A 2%nat 1%nat * d1 + A 2%nat 2%nat * d2)); [ring|rewrite E0, E1, E2; ring].
    + transitivity (- (A 1%nat 0%nat * A 2%nat 2%nat - A 1%nat 2%nat * A 2%nat 0%nat) * (A 0%nat 0%nat * d0 + A 0%nat 1%nat * d1 + A 0%nat 2%nat * d2) + (A 0%nat 0%nat * A 2%nat 2%nat - A 0%nat 2%nat * A 2%nat 0%nat) * (A 1%nat 0%nat * d0 + A 1%nat 1%nat * d1 + A 1%nat 2%nat * d2) - (A 0%nat 0%nat * A 1%nat 2%nat - A 0%nat 2%nat * A 1%nat 0%nat) * (A 2%nat 0%nat * d0 + A 2%nat 1%nat * d1 + A 2%nat 2%nat * d2)); [ring|rewrite E0, E1, E2; ring].
    + transitivity ((A 1%nat 0%nat * A 2%nat 1%nat - A 1%nat 1%nat * A 2%nat 0%nat) * (A 0%nat 0%nat * d0 + A 0%nat 1%nat * d1 + A 0%nat 2%nat * d2) - (A 0%nat 0%nat * A 2%nat 1%nat - A 0%nat 1%nat * A 2%nat 0%nat) * (A 1%nat 0%nat * d0 + A 1%nat 1%nat * d1 + A 1%nat 2%nat * d2) + (A 0%nat 0%nat * A 1%nat 1%nat - A 0%nat 1%nat * A 1%nat 0%nat) * (A 2%nat 0%nat * d0 + A 2%nat 1%nat * d1 + A 2%nat 2%nat * d2)); [ring|rewrite E0, E1, E2; ring].
Qed.
Print Assumptions lu_solves.

(** A matrix with a row of zeros is refused. *)
Theorem lu_zero_row : forall A i, (i < 3)%nat -> zero_row A i -> lu_decmp A = Ok (None, Some false).
Proof.
  intros A i LI Z. unfold lu_decmp. assert (G : forall rows v, In i rows -> scalings rows A v = Ok None). { induction rows as [|k rows IH]; intros v I; [destruct I|]. destruct I as [<-|I]; cbn [scalings].
    - destruct (Req_EM_T (row_big A k) 0) as [|N]; [auto|]. exfalso. apply N. apply (proj2 (row_big_zero A k)). auto.
    - destruct (Req_EM_T (row_big A k) 0) as [|N]; [auto|]. rewrite rdiv_ok by auto. cbn [bind]. auto. }
  rewrite G by (small i; cbn; auto). auto.
Qed.
Print Assumptions lu_zero_row.
(** Other matrices without an inverse are not refused: a factorization is returned, and nothing is written to ok. *)
Lemma column_goes : forall j im s, exists r, column j im s = Ok r.
Proof.
  intros j im s. unfold column. destruct (search j (vv s) (upper j (cvt s)) im) as ((c & b) & i). set (t := if negb _ then _ else _). clearbody t. destruct (Nat.eqb j 2); [eauto|].
  assert (N : (if Req_EM_T (cvt t j j) 0 then set2 (cvt t) j j TINY else cvt t) j j <> 0). { destruct (Req_EM_T (cvt t j j) 0); [|auto]. unfold set2. rewrite Nat.eqb_refl. cbn [andb]. unfold TINY. apply Rinv_neq_0_compat. lra. }
  rewrite rdiv_ok by exact N. cbn [bind]. eauto.
Qed.
Theorem lu_singular_refuted : forall A, (forall i, (i < 3)%nat -> ~ zero_row A i) -> determinant A = 0 -> exists LU idx d, lu_decmp A = Ok (Some (LU, idx, d), None).
Proof.
  intros A NZ _. unfold lu_decmp. destruct (scalings_ok [0; 1; 2]%nat A (fun _ => 0)) as (v & -> & _); [intros i I; apply NZ; cbn in I; lia|]. cbn [bind]. destruct (column_goes 0 0 (mkLU A v (fun i => i) 1)) as (r & ->). cbn [bind]. destruct (column_goes 1 (snd r) (fst r)) as (r1 & ->). cbn [bind]. destruct (column_goes 2 (snd r1) (fst r1)) as (r2 & ->). cbn [bind]. eauto.
Qed.
Print Assumptions lu_singular_refuted.
Example ones_accepted : let A : matrix := fun _ _ => 1 in (forall i, (i < 3)%nat -> ~ zero_row A i) /\ determinant A = 0.
Proof. cbv zeta. split; [intros i _ (E & _); lra|unfold determinant; ring]. Qed.
(** The hypothesis of [lu_solves], for a matrix whose rows must be exchanged. *)
Example needs_pivot : determinant (build_matrix (mkV 0 2 1) (mkV 1 0 0) (mkV 3 1 1)) = -1.
Proof. unfold determinant. cbn. ring. Qed.
(** plc_matrix_vector_multiply, and the matrix with given rows *)
Theorem multiply_rows : forall r0 r1 r2 x, let row r := c0 r * c0 x + c1 r * c1 x + c2 r * c2 x in
  matrix_vector_multiply (build_matrix r0 r1 r2) x = mkV (row r0) (row r1) (row r2) /\ forall A, matrix_vector_multiply A x = apply_matrix A x.
Proof. intros. assert (G : forall A, matrix_vector_multiply A x = apply_matrix A x). { intros A. unfold matrix_vector_multiply, apply_matrix, loop. cbn [Nat.sub seq fold_left]. apply v3_eq; cbn; ring. } split; [rewrite G; reflexivity|auto]. Qed.
Print Assumptions multiply_rows.
