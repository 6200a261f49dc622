(** Property theorems C05, C06, C07: containers and sorted buffers. *)
From Coq Require Import List ZArith Lia Bool Arith Sorted.
From Verif Require Import Base Containers ContainersSpec ContainersProofs.
Import ListNotations.
Open Scope Z_scope.

(** C05.  Whatever the initial size asked for, every history of pushes, pops, indexed
    reads and size queries returns what the ideal stack returns (including the failed
    assertion on an index out of range), and never touches memory outside the block, as
    long as the block stays below 2^32 bytes. *)
Theorem container_is_a_stack : forall (A : Type) (null : A) (n : Z) (h : list (cop A)),
  0 <= n -> 8 * (Z.of_nat (length h) + 2 * Z.max 100 n + 2) < 4294967296 ->
  Forall (fun o => match o with Elt i => 0 <= i | _ => True end) h ->
  cont_run null (pd_new_container null n) h = ideal_run [] h.
Proof.
  intros A null n h Hn B F. destruct (new_rep null n Hn) as (R1 & R2 & R3). cbv zeta in *.
  apply (cont_run_ok null h _ _ 0); auto; rewrite ?R2, ?R3; cbn [length]; try lia.
  unfold rep in *. rewrite R2, R3 in *. repeat (split; [lia|]). apply R1.
Qed.

(** The ideal stack itself never goes wrong when no more is popped than was pushed and
    indices are in range, so the theorem above then says: no assertion, no bad access. *)
Example container_example :
  ideal_run [] [Push 7; Push 8; Elt 0; Pop; Nelts; Push 9; Elt 1; Elt 2] = Fail /\
  ideal_run [] [Push 7; Push 8; Elt 0; Pop; Nelts; Push 9; Elt 1] =
    Ok [OUnit; OUnit; OElt 7; OElt 8; ONum 1; OUnit; OElt 9] /\
  cont_run 0 (pd_new_container 0 3) [Push 7; Push 8; Elt 0; Pop; Nelts; Push 9; Elt 1] =
    Ok [OUnit; OUnit; OElt 7; OElt 8; ONum 1; OUnit; OElt 9].
Proof. vm_compute. auto. Qed.

(** The condition on sizes cannot be dropped: with 2^28 cells requested, the first growth
    computes a byte count of 2^32, which is 0 in the unsigned int that holds it. *)
Lemma growth_overflow : forall n N, n = 268435456 -> Z.of_nat N = 268435455 ->
  cont_run 0 (pd_new_container 0 n) (repeat (Push 5) N ++ [Push 5]) = UB.
Proof.
  intros n N En EN.
  destruct (new_rep 0 n ltac:(lia)) as (R1 & R2 & R3). cbv zeta in *.
  remember (pd_new_container 0 n) as c0. clear Heqc0.
  assert (R : rep 4294967296 c0 []).
  { unfold rep in *. rewrite R2, R3 in *. intuition lia. }
  destruct (push_many 0 N c0 [] 5 R) with (h := [Push 5]) as (c' & A1 & A2 & A3 & A4).
  { rewrite R3, EN. cbn [length]. lia. }
  rewrite A4. cbn [cont_run cont_step]. unfold pd_addto_container.
  destruct A1 as (S1 & _). cbn [app] in S1. rewrite repeat_length, EN in S1.
  assert (M : Z.max 100 n = 268435456) by lia. rewrite M in *.
  rewrite S1, A2, R3. change (u32 (268435456 - 1)) with 268435455. rewrite Z.eqb_refl.
  unfold grow_container. rewrite A2, A3, R2, R3. reflexivity.
Qed.

Theorem container_growth_overflow_refuted :
  exists n h, 0 <= n < 4294967296 /\
    (exists o, ideal_run ([] : list Z) h = Ok o) /\ cont_run 0 (pd_new_container 0 n) h = UB.
Proof.
  assert (exists N, Z.of_nat N = 268435455) as [N EN] by (exists (Z.to_nat 268435455); apply Z2Nat.id; lia).
  exists 268435456, (repeat (Push 5) N ++ [Push 5]). split; [lia|]. split.
  - assert (G : forall n s, exists o, ideal_run (s : list Z) (repeat (Push 5) n ++ [Push 5]) = Ok o).
    { induction n as [|n IH]; intros s; cbn [repeat app ideal_run ideal_step bind fst snd]; eauto.
      destruct (IH (s ++ [5])) as [o Ho]. rewrite Ho. cbn [bind]. eauto. }
    apply G.
  - apply growth_overflow; auto.
Qed.

(** C06.  Popping a container that holds nothing reads outside the block, after any
    history that leaves it empty. *)
Theorem pop_empty_unsafe : forall (A : Type) (null : A) (n : Z) (h : list (cop A)),
  0 <= n -> 8 * (Z.of_nat (length h) + 2 * Z.max 100 n + 3) < 4294967296 ->
  Forall (fun o => match o with Elt i => 0 <= i | _ => True end) h ->
  (exists out, ideal_run [] (h ++ [Nelts]) = Ok (out ++ [ONum 0])) ->
  cont_run null (pd_new_container null n) (h ++ [Pop]) = UB.
Proof.
  intros A null n h Hn B F (out & E). rewrite container_is_a_stack; auto.
  - assert (G : forall h (s : list A) out, ideal_run s (h ++ [Nelts]) = Ok (out ++ [ONum 0]) ->
              ideal_run s (h ++ [Pop]) = UB).
    { clear. induction h as [|o h IH]; intros s out E.
      - cbn in E. destruct s as [|x s]; auto. exfalso. injection E as E.
        destruct out as [|a out]; [cbn in E; inversion E|].
        cbn [app] in E. injection E as _ E. destruct out; discriminate.
      - cbn [app ideal_run] in *. destruct (ideal_step s o) as [r| | |]; cbn [bind] in *; try discriminate.
        destruct (ideal_run (fst r) (h ++ [Nelts])) as [l| | |] eqn:E2; cbn [bind] in E; try discriminate.
        injection E as E. destruct out as [|a out].
        + cbn [app] in E. destruct l; [|discriminate].
          exfalso. clear - E2. revert r E2. induction h as [|o h IH]; intros r E2; cbn [app ideal_run ideal_step bind] in E2.
          * discriminate.
          * destruct (ideal_step (fst r) o) as [q| | |]; cbn [bind] in E2; try discriminate.
            destruct (ideal_run (fst q) (h ++ [Nelts])); cbn [bind] in E2; discriminate.
        + cbn [app] in E. inversion E; subst. rewrite (IH _ _ E2). reflexivity. }
    eapply G; eauto.
  - rewrite app_length. cbn [length]. lia.
  - apply Forall_app. split; auto.
Qed.

Example pop_empty_example :
  ideal_run [] ([Push 3; Pop] ++ [Nelts]) = Ok ([OUnit; OElt 3] ++ [ONum 0]) /\
  cont_run 0 (pd_new_container 0 0) ([Push 3; Pop] ++ [Pop]) = UB /\
  cont_run 0 (pd_new_container 0 0) ([] ++ [Pop]) = UB.
Proof. vm_compute. auto. Qed.

(** C07. *)
Fixpoint insert_all (buf : option (list nat)) (xs : list nat) : res (option (list nat)) :=
  match xs with
  | [] => Ok buf
  | x :: xs' => bind (pd_sortedbuf_insert buf x) (fun b => insert_all b xs')
  end.

Theorem sortedbuf_is_a_set : forall xs, xs <> [] ->
  exists buf, insert_all None xs = Ok (Some buf) /\ StronglySorted lt buf /\
    (forall y, In y buf <-> In y xs) /\
    (forall y, exists b, pd_sortedbuf_contains buf y = Ok b /\ (b = true <-> In y xs)).
Proof.
  intros [|x xs] NE; [congruence|]. cbn [insert_all pd_sortedbuf_insert bind].
  assert (G : forall xs buf, buf <> [] -> incr buf ->
    exists buf', insert_all (Some buf) xs = Ok (Some buf') /\ incr buf' /\
       (forall y, In y buf' <-> In y buf \/ In y xs)).
  { clear. induction xs as [|x xs IH]; intros buf NE S; cbn [insert_all].
    - exists buf. repeat (split; auto). cbn. intuition.
    - destruct (sortedbuf_insert_ok buf x NE S) as (b1 & E1 & S1 & N1 & I1). rewrite E1. cbn [bind].
      destruct (IH b1 N1 S1) as (b2 & E2 & S2 & I2). exists b2. repeat (split; auto).
      + intros H. apply I2 in H. rewrite I1 in H. cbn. intuition.
      + intros H. apply I2. rewrite I1. cbn in H. intuition. }
  destruct (G xs [x]) as (buf & E & S & I). discriminate. repeat constructor.
  exists buf. split; auto. split; auto.
  assert (I' : forall y, In y buf <-> In y (x :: xs)) by (intros y; rewrite I; cbn; intuition).
  split; auto. intros y. unfold pd_sortedbuf_contains.
  destruct (bsearch_all_ok y buf S) as [(p & B1 & B2)|(B1 & B2)]; rewrite B1; cbn [bind]; eexists; (split; [reflexivity|]).
  - split; auto. intros _. apply I'. eapply nth_error_In; eauto.
  - split; [discriminate|]. intros H. exfalso. apply B2, I'. auto.
Qed.

Example sortedbuf_example :
  insert_all None [5; 1; 9; 5; 7; 0]%nat = Ok (Some [0; 1; 5; 7; 9]%nat).
Proof. reflexivity. Qed.

(** C07, the unsorted search: the first position holding the value, or none. *)
Theorem buf_contains_first : forall buf x,
  match pd_buf_contains buf x with
  | Some p => nth_error buf p = Some x /\ forall q, (q < p)%nat -> nth_error buf q <> Some x
  | None => ~ In x buf
  end.
Proof.
  intros buf x. unfold pd_buf_contains.
  assert (G : forall buf j, match pd_buf_contains_from j buf x with
    | Some p => (j <= p)%nat /\ nth_error buf (p - j) = Some x /\ forall q, (q < p - j)%nat -> nth_error buf q <> Some x
    | None => ~ In x buf end).
  { clear. induction buf as [|a buf IH]; intros j; cbn [pd_buf_contains_from]; auto.
    destruct (Nat.eqb_spec a x) as [->|N].
    - rewrite Nat.sub_diag. repeat (split; auto). intros; lia.
    - specialize (IH (S j)). destruct (pd_buf_contains_from (S j) buf x) as [p|].
      + destruct IH as (A & B & C). split; [lia|]. replace (p - j)%nat with (S (p - S j)) by lia.
        split; auto. intros [|q] H; cbn; [congruence|]. apply C. lia.
      + cbn. intuition. }
  specialize (G buf O). destruct (pd_buf_contains_from 0 buf x); auto.
  rewrite Nat.sub_0_r in G. tauto.
Qed.

Print Assumptions container_is_a_stack.
Print Assumptions container_growth_overflow_refuted.
Print Assumptions pop_empty_unsafe.
Print Assumptions sortedbuf_is_a_set.
Print Assumptions buf_contains_first.
