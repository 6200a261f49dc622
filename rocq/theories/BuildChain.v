(** pd_build_simple_chain. *)
From Coq Require Import List ZArith Lia Bool Arith Permutation Relations.
From Verif Require Import Base ListAux Iterators Pd PdSpec Relabel RelabelProofs Build BuildSpec Layout Table BuildTorus BuildTwist.
Import ListNotations.
Open Scope nat_scope.

Section Chain.
Context (n : nat) (Hn : 3 <= n).
Notation N := (2 * (n - 1)).
Definition chain_A (i p : nat) : nat :=
  match p with
  | 0 => 4 * i
  | 1 => if i =? 0 then 1 else 4 * i + 3
  | 2 => if i =? n - 2 then 2 else 4 * i + 5
  | _ => if i =? n - 2 then 3 else 4 * i + 4
  end.
Definition chain_B (i p : nat) : nat :=
  match p with
  | 0 => if i =? 0 then 0 else 4 * i + 2
  | 1 => if i =? n - 2 then 3 else 4 * i + 6
  | 2 => if i =? n - 2 then 2 else 4 * i + 5
  | _ => if i =? 0 then 1 else 4 * i + 3
  end.
Definition chain_V (c p : nat) : nat := if Nat.even c then chain_A (Nat.div2 c) p else chain_B (Nat.div2 c) p.
Lemma V_A : forall i p, chain_V (2 * i) p = chain_A i p.
Proof. intros. unfold chain_V. rewrite Nat.div2_double, Nat.even_mul. reflexivity. Qed.
Lemma V_B : forall i p, chain_V (2 * i + 1) p = chain_B i p.
Proof. intros. unfold chain_V. rewrite Nat.add_1_r, Nat.div2_succ_double, Nat.even_succ, Nat.odd_mul. reflexivity. Qed.
Lemma two_kinds : forall c, c < N -> exists i, i <= n - 2 /\ (c = 2 * i \/ c = 2 * i + 1).
Proof. intros c Hc. destruct (Nat.Even_or_Odd c) as [(i & E)|(i & E)]; exists i; lia. Qed.

Ltac rows := repeat match goal with
  | |- context [chain_V (2 * ?i) ?p] => rewrite (V_A i p)
  | |- context [chain_V (2 * ?i + 1) ?p] => rewrite (V_B i p)
  end.
Ltac tw := unfold turn; cbn [fst snd Nat.modulo Nat.divmod Nat.add Nat.sub]; wiring; rows; unfold chain_A, chain_B; eqbs; lia.

Lemma w_hook1 : forall i, i <= n - 2 -> twire N chain_V (2 * i, 1) (2 * i + 1, 3).
Proof. intros i Hi. tw. Qed.
Lemma w_hook2 : forall i, i <= n - 2 -> twire N chain_V (2 * i, 2) (2 * i + 1, 2).
Proof. intros i Hi. tw. Qed.
Lemma w_next1 : forall i, i < n - 2 -> twire N chain_V (2 * i, 3) (2 * (i + 1), 0).
Proof. intros i Hi. tw. Qed.
Lemma w_next2 : forall i, i < n - 2 -> twire N chain_V (2 * i + 1, 1) (2 * (i + 1) + 1, 0).
Proof. intros i Hi. tw. Qed.
Lemma w_first : twire N chain_V (2 * 0, 0) (2 * 0 + 1, 0).
Proof. tw. Qed.
Lemma w_last : twire N chain_V (2 * (n - 2), 3) (2 * (n - 2) + 1, 1).
Proof. tw. Qed.
Lemma chain_wires_ok : forall s t, In (s, t) (chain_wires n) -> twire N chain_V s t.
Proof.
  intros s t I. unfold chain_wires in I. apply in_app_or in I as [I|I]; [|apply in_app_or in I as [I|I]].
  - apply in_flat_map in I as (i & J & I). apply in_seq in J. destruct I as [I|[I|[]]]; apply pair_equal_spec in I as (<- & <-); [apply w_hook1|apply w_hook2]; lia.
  - apply in_flat_map in I as (i & J & I). apply in_seq in J. destruct I as [I|[I|[]]]; apply pair_equal_spec in I as (<- & <-).
    + replace (2 * i + 2) with (2 * (i + 1)) by lia. apply w_next1. lia.
    + replace (2 * i + 3) with (2 * (i + 1) + 1) by lia. apply w_next2. lia.
  - destruct I as [I|[I|[]]]; apply pair_equal_spec in I as (<- & <-); [apply w_first|apply w_last].
Qed.
Definition chain_faces : list (list (nat * nat)) :=
  [(2 * 0, 1); (2 * 0 + 1, 0)] :: [(2 * (n - 2), 3); (2 * (n - 2) + 1, 2)] ::
  (map (fun i => (2 * i, 0)) (seq 0 (n - 1)) ++ map (fun i => (2 * (n - 2 - i) + 1, 1)) (seq 0 (n - 1))) ::
  map (fun i => [(2 * (i + 1), 1); (2 * i, 3); (2 * i + 1, 2); (2 * (i + 1) + 1, 0)]) (seq 0 (n - 2)) ++
  map (fun i => [(2 * i, 2); (2 * i + 1, 3)]) (seq 0 (n - 1)).
Definition chain_col (e : nat) : nat :=
  match e with 0 => 0 | 1 => 1 | 2 => n - 2 | 3 => n - 1 | _ =>
    match e mod 4 with 0 | 2 => e / 4 | 3 => e / 4 + 1 | _ => e / 4 - 1 end end.
(** one edge of each ring *)
Definition ring_edge (j : nat) : nat := if j =? n - 1 then 3 else 4 * j.

Inductive edge_kind (e : nat) : Prop :=
| ek_first : e = 0 -> edge_kind e
| ek_one : e = 1 -> edge_kind e
| ek_two : e = 2 -> edge_kind e
| ek_three : e = 3 -> edge_kind e
| ek0 : forall i, 1 <= i <= n - 2 -> e = 4 * i -> edge_kind e
| ek2 : forall i, 1 <= i <= n - 2 -> e = 4 * i + 2 -> edge_kind e
| ek3 : forall i, 1 <= i <= n - 2 -> e = 4 * i + 3 -> edge_kind e
| ek5 : forall i, i < n - 2 -> e = 4 * i + 5 -> edge_kind e.
Lemma kinds : forall e, e < 2 * N -> edge_kind e.
Proof.
  intros e He. destruct (Nat.eq_dec e 0); [apply ek_first; auto|]. destruct (Nat.eq_dec e 1); [apply ek_one; auto|]. destruct (Nat.eq_dec e 2); [apply ek_two; auto|].
  destruct (Nat.eq_dec e 3); [apply ek_three; auto|]. pose proof (Nat.div_mod e 4 ltac:(lia)) as D. pose proof (Nat.mod_upper_bound e 4 ltac:(lia)) as M.
  destruct (small4 _ M) as [Z|[Z|[Z|Z]]]; rewrite Z in D; [apply (ek0 e (e / 4))|apply (ek5 e (e / 4 - 1))|apply (ek2 e (e / 4))|apply (ek3 e (e / 4))]; lia.
Qed.
Lemma col_4 : forall i a, a < 4 -> 1 <= i -> chain_col (4 * i + a) = match a with 0 | 2 => i | 3 => i + 1 | _ => i - 1 end.
Proof.
  intros i a Ha Hi. unfold chain_col. destruct (4 * i + a) as [|[|[|[|m]]]] eqn:E; try lia. rewrite <- E.
  assert (M : (4 * i + a) mod 4 = a) by (rewrite Nat.add_comm, Nat.mul_comm, Nat.mod_add, Nat.mod_small by lia; auto).
  assert (D : (4 * i + a) / 4 = i) by (rewrite Nat.add_comm, Nat.mul_comm, Nat.div_add, Nat.div_small by lia; auto).
  rewrite M, D. reflexivity.
Qed.
Lemma col_at0 : forall i, chain_col (4 * i) = i.
Proof. intros [|i]; [reflexivity|]. rewrite <- (Nat.add_0_r (4 * S i)). apply col_4; lia. Qed.
Lemma col_at2 : forall i, 1 <= i -> chain_col (4 * i + 2) = i.
Proof. intros. apply col_4; lia. Qed.
Lemma col_at3 : forall i, 1 <= i -> chain_col (4 * i + 3) = i + 1.
Proof. intros. apply col_4; lia. Qed.
Lemma col_at5 : forall i, chain_col (4 * i + 5) = i.
Proof. intros. replace (4 * i + 5) with (4 * (i + 1) + 1) by lia. rewrite col_4; lia. Qed.
Lemma chain_col_ok : forall i, i <= n - 2 ->
  chain_col (chain_A i 0) = i /\ chain_col (chain_A i 2) = i /\ chain_col (chain_A i 1) = i + 1 /\ chain_col (chain_A i 3) = i + 1 /\
  chain_col (chain_B i 0) = i /\ chain_col (chain_B i 2) = i /\ chain_col (chain_B i 1) = i + 1 /\ chain_col (chain_B i 3) = i + 1.
Proof.
  intros i Hi. cbn [chain_A chain_B]. rewrite col_at0.
  assert (Z4 : chain_col (4 * i + 4) = i + 1) by (replace (4 * i + 4) with (4 * (i + 1)) by lia; apply col_at0).
  assert (Z6 : chain_col (4 * i + 6) = i + 1) by (replace (4 * i + 6) with (4 * (i + 1) + 2) by lia; apply col_at2; lia).
  assert (Z0 : i = 0 -> chain_col 0 = i) by (intros ->; reflexivity). assert (Z1 : i = 0 -> chain_col 1 = i + 1) by (intros ->; reflexivity).
  assert (Z2 : i = n - 2 -> chain_col 2 = i) by (intros ->; reflexivity). assert (Z3 : i = n - 2 -> chain_col 3 = i + 1) by (intros ->; cbn; lia).
  pose proof (col_at5 i) as Z5. pose proof (col_at3 i) as Z3'. pose proof (col_at2 i) as Z2'.
  destruct (Nat.eqb_spec i 0), (Nat.eqb_spec i (n - 2)); repeat split; auto; try (apply Z3'; lia); apply Z2'; lia.
Qed.
Lemma acrossA : forall i p, i <= n - 2 -> p < 4 -> tacross N chain_V (chain_A i p) (chain_A i ((p + 2) mod 4)).
Proof. intros i p Hi Hp. exists (2 * i), p. rewrite !V_A. repeat split; auto; lia. Qed.
Lemma acrossB : forall i p, i <= n - 2 -> p < 4 -> tacross N chain_V (chain_B i p) (chain_B i ((p + 2) mod 4)).
Proof. intros i p Hi Hp. exists (2 * i + 1), p. rewrite !V_B. repeat split; auto; lia. Qed.
Lemma to_ring : forall e, e < 2 * N -> clos_refl_sym_trans nat (tacross N chain_V) e (ring_edge (chain_col e)).
Proof.
  intros e He. destruct (kinds e He) as [-> | -> | -> | -> |i Hi -> |i Hi -> |i Hi -> |i Hi ->].
  - cbn [chain_col]. unfold ring_edge. eqbs; [lia|]. apply rst_refl.
  - cbn [chain_col]. unfold ring_edge. eqbs; [lia|]. pose proof (acrossA 0 1 ltac:(lia) ltac:(lia)) as T. cbn in T. destruct (n - 2) eqn:E; [lia|]. apply rst_step. exact T.
  - cbn [chain_col]. unfold ring_edge. eqbs; [lia|]. pose proof (acrossA (n - 2) 2 ltac:(lia) ltac:(lia)) as T. cbn [chain_A Nat.modulo Nat.divmod Nat.add Nat.sub fst snd] in T. rewrite Nat.eqb_refl in T. apply rst_step. exact T.
  - cbn [chain_col]. unfold ring_edge. rewrite Nat.eqb_refl. apply rst_refl.
  - rewrite col_at0. unfold ring_edge. eqbs; [lia|]. apply rst_refl.
  - rewrite col_at2 by lia. unfold ring_edge. eqbs; [lia|]. pose proof (acrossA (i - 1) 3 ltac:(lia) ltac:(lia)) as T1. pose proof (acrossB (i - 1) 1 ltac:(lia) ltac:(lia)) as T2.
    cbn [chain_A chain_B Nat.modulo Nat.divmod Nat.add Nat.sub fst snd] in T1, T2. destruct (Nat.eqb_spec (i - 1) (n - 2)); [lia|].
    replace (4 * i + 2) with (4 * (i - 1) + 6) by lia. replace (4 * i) with (4 * (i - 1) + 4) by lia. eapply rst_trans; [apply rst_step; exact T2|apply rst_sym, rst_step; exact T1].
  - rewrite col_at3 by lia. unfold ring_edge. pose proof (acrossA i 1 ltac:(lia) ltac:(lia)) as T. cbn [chain_A Nat.modulo Nat.divmod Nat.add Nat.sub fst snd] in T.
    destruct (Nat.eqb_spec i 0); [lia|]. destruct (Nat.eqb_spec i (n - 2)), (Nat.eqb_spec (i + 1) (n - 1)); try lia; [apply rst_step; exact T|].
    replace (4 * (i + 1)) with (4 * i + 4) by lia. apply rst_step. exact T.
  - rewrite col_at5. unfold ring_edge. eqbs; [lia|]. pose proof (acrossA i 2 ltac:(lia) ltac:(lia)) as T. cbn [chain_A Nat.modulo Nat.divmod Nat.add Nat.sub fst snd] in T.
    destruct (Nat.eqb_spec i (n - 2)); [lia|]. apply rst_step. exact T.
Qed.
Lemma tws : forall s t, twire N chain_V s t -> twire N chain_V t s.
Proof. intros s t (D & A & B & E). repeat split; auto; apply A || apply B. Qed.

Lemma chain_table : table N chain_V n chain_faces chain_col.
Proof.
  assert (SQ : seq 0 (n - 1) = 0 :: seq 1 (n - 2)) by (replace (n - 1) with (S (n - 2)) by lia; reflexivity).
  assert (SL : seq 0 (n - 1) = seq 0 (S (n - 2))) by (f_equal; lia).
  assert (FACT : forall c, c < N -> exists i, i <= n - 2 /\ ((c = 2 * i /\ forall p, chain_V c p = chain_A i p) \/ (c = 2 * i + 1 /\ forall p, chain_V c p = chain_B i p))).
  { intros c Hc. destruct (two_kinds c Hc) as (i & Hi & [->| ->]); exists i; split; auto; [left|right]; split; auto; intros p; [apply V_A|apply V_B]. }
  constructor; try lia.
  - intros c p Hc Hp. destruct (FACT c Hc) as (i & Hi & [(_ & E)|(_ & E)]); rewrite E; unfold chain_A, chain_B; destruct (small4 p Hp) as [->|[->|[->| ->]]]; eqbs; lia.
  - intros e He.
    assert (X : exists s t, twire N chain_V s t /\ chain_V (fst s) (snd s) = e).
    { destruct (kinds e He) as [-> | -> | -> | -> |i Hi -> |i Hi -> |i Hi -> |i Hi ->].
      - do 2 eexists. split; [exact w_first|]. cbn [fst snd]. rewrite V_A. reflexivity.
      - do 2 eexists. split; [exact (w_hook1 0 ltac:(lia))|]. cbn [fst snd]. rewrite V_A. reflexivity.
      - do 2 eexists. split; [exact (w_hook2 (n - 2) ltac:(lia))|]. cbn [fst snd]. rewrite V_A. cbn [chain_A]. rewrite Nat.eqb_refl. reflexivity.
      - do 2 eexists. split; [exact w_last|]. cbn [fst snd]. rewrite V_A. cbn [chain_A]. rewrite Nat.eqb_refl. reflexivity.
      - do 2 eexists. split; [exact (w_next1 (i - 1) ltac:(lia))|]. cbn [fst snd]. rewrite V_A. unfold chain_A. eqbs; lia.
      - do 2 eexists. split; [exact (w_next2 (i - 1) ltac:(lia))|]. cbn [fst snd]. rewrite V_B. unfold chain_B. eqbs; lia.
      - do 2 eexists. split; [exact (w_hook1 i ltac:(lia))|]. cbn [fst snd]. rewrite V_A. unfold chain_A. eqbs; lia.
      - do 2 eexists. split; [exact (w_hook2 i ltac:(lia))|]. cbn [fst snd]. rewrite V_A. unfold chain_A. eqbs; lia. }
    destruct X as (s & t & (D & A & B & E) & Q). exists s, t. split; auto. split; auto. split; auto. split; auto. congruence.
  - intros c Hc. destruct (FACT c Hc) as (i & Hi & [(_ & E)|(_ & E)]); rewrite !E; unfold chain_A, chain_B; eqbs; lia.
  - intros f I. unfold chain_faces in I. destruct I as [<-|[<-|[<-|I]]]; [| | |apply in_app_or in I as [I|I]].
    + split; [discriminate|]. apply cyclic2; [exact w_first|exact (tws _ _ (w_hook1 0 ltac:(lia)))].
    + split; [discriminate|]. apply cyclic2; [exact (w_hook2 (n - 2) ltac:(lia))|exact (tws _ _ w_last)].
    + split; [rewrite SQ; discriminate|].
      assert (L : linked (fun s t => twire N chain_V (turn s) t) (map (fun i => (2 * i, 0)) (seq 0 (n - 1)) ++ map (fun i => (2 * (n - 2 - i) + 1, 1)) (seq 0 (n - 1)))).
      { apply (linked_app _ _ _ _ (0, 0)).
        - apply linked_seq. intros i L1 L2. apply w_next1. lia.
        - apply linked_seq. intros i L1 L2. unfold turn. cbn [fst snd]. replace (n - 2 - i) with (n - 2 - (i + 1) + 1) by lia. exact (tws _ _ (w_next2 (n - 2 - (i + 1)) ltac:(lia))).
        - right. assert (B : exists t, map (fun i => (2 * (n - 2 - i) + 1, 1)) (seq 0 (n - 1)) = (2 * (n - 2 - 0) + 1, 1) :: t) by (rewrite SQ; eexists; reflexivity). destruct B as (t & ->).
          rewrite SL, last_seq. rewrite Nat.sub_0_r. exact w_last. }
      assert (E : last (map (fun i => (2 * i, 0)) (seq 0 (n - 1)) ++ map (fun i => (2 * (n - 2 - i) + 1, 1)) (seq 0 (n - 1))) (2 * 0, 0) = (2 * 0 + 1, 1)).
      { rewrite last_app by (rewrite SQ; discriminate). rewrite SL, last_seq. f_equal. lia. }
      revert L E. rewrite SQ at 1 3 5. cbn [map app]. intros L E. apply linked_cyclic; auto. rewrite E. exact (tws _ _ w_first).
    + apply in_map_iff in I as (i & <- & J). apply in_seq in J. split; [discriminate|]. apply cyclic4.
      * exact (tws _ _ (w_next1 i ltac:(lia))).
      * exact (w_hook2 i ltac:(lia)).
      * exact (w_next2 i ltac:(lia)).
      * exact (tws _ _ (w_hook1 (i + 1) ltac:(lia))).
    + apply in_map_iff in I as (i & <- & J). apply in_seq in J. split; [discriminate|]. apply cyclic2; [exact (w_hook1 i ltac:(lia))|exact (tws _ _ (w_hook2 i ltac:(lia)))].
  - unfold chain_faces. cbn [concat app length]. rewrite concat_app, !app_length, !map_length, !seq_length. rewrite (length_flat2 _ _ 4), (length_flat2 _ _ 2), !seq_length by reflexivity. lia.
  - intros c p Hc Hp. unfold chain_faces. cbn [concat app]. rewrite concat_app. destruct (two_kinds c Hc) as (i & Hi & [->| ->]).
    + destruct (small4 p Hp) as [->|[->|[->| ->]]].
      * do 4 right. rewrite <- app_assoc. apply in_or_app. left. apply in_map_iff. exists i. split; auto. apply in_seq. lia.
      * destruct (Nat.eq_dec i 0) as [->|]; [left; auto|]. do 4 right. apply in_or_app. right. apply in_or_app. left. apply in_concat. eexists. split; [apply in_map_iff; exists (i - 1); split; [reflexivity|apply in_seq; lia]|].
        left. f_equal. lia.
      * do 4 right. apply in_or_app. right. apply in_or_app. right. apply in_concat. eexists. split; [apply in_map_iff; exists i; split; [reflexivity|apply in_seq; lia]|]. left. auto.
      * destruct (Nat.eq_dec i (n - 2)) as [->|]; [right; right; left; auto|]. do 4 right. apply in_or_app. right. apply in_or_app. left. apply in_concat. eexists. split; [apply in_map_iff; exists i; split; [reflexivity|apply in_seq; lia]|].
        right. left. auto.
    + destruct (small4 p Hp) as [->|[->|[->| ->]]].
      * destruct (Nat.eq_dec i 0) as [->|]; [right; left; auto|]. do 4 right. apply in_or_app. right. apply in_or_app. left. apply in_concat. eexists. split; [apply in_map_iff; exists (i - 1); split; [reflexivity|apply in_seq; lia]|].
        right. right. right. left. f_equal. lia.
      * do 4 right. apply in_or_app. left. apply in_or_app. right. apply in_map_iff. exists (n - 2 - i). split; [f_equal; lia|apply in_seq; lia].
      * destruct (Nat.eq_dec i (n - 2)) as [->|]; [right; right; right; left; auto|]. do 4 right. apply in_or_app. right. apply in_or_app. left. apply in_concat. eexists. split; [apply in_map_iff; exists i; split; [reflexivity|apply in_seq; lia]|].
        right. right. left. auto.
      * do 4 right. apply in_or_app. right. apply in_or_app. right. apply in_concat. eexists. split; [apply in_map_iff; exists i; split; [reflexivity|apply in_seq; lia]|]. right. left. auto.
  - intros s I. unfold chain_faces in I. cbn [concat app] in I. rewrite concat_app in I. inv_places; subst; unfold tplace; cbn [fst snd]; try lia; inv_places; subst; cbn [fst snd]; lia.
  - unfold chain_faces. cbn [length]. rewrite app_length, !map_length, !seq_length. lia.
  - intros f I. unfold chain_faces in I. inv_places; subst; cbn [length]; rewrite ?app_length, ?map_length, ?seq_length; lia.
  - intros c Hc. destruct (FACT c Hc) as (i & Hi & [(_ & E)|(_ & E)]); rewrite !E; destruct (chain_col_ok i Hi) as (K1 & K2 & K3 & K4 & K5 & K6 & K7 & K8); split; congruence.
  - intros e He. destruct (kinds e He) as [-> | -> | -> | -> |i Hi -> |i Hi -> |i Hi -> |i Hi ->]; [cbn; lia|cbn; lia|cbn; lia|cbn; lia|rewrite col_at0; lia|rewrite col_at2; lia|rewrite col_at3; lia|rewrite col_at5; lia].
  - intros i Hi. exists (ring_edge i). unfold ring_edge. destruct (Nat.eqb_spec i (n - 1)); [split; [lia|cbn [chain_col]; lia]|]. split; [lia|apply col_at0].
  - intros e e' He He' Q. eapply rst_trans; [apply to_ring; auto|]. rewrite Q. apply rst_sym, to_ring; auto.
  - intros c Hc. destruct (two_kinds c ltac:(lia)) as (i & Hi & [->| ->]).
    + exists (2 * (i - 1)), 0, 3. rewrite !V_A. unfold chain_A. repeat split; try lia. eqbs; lia.
    + exists (2 * i), 3, 1. rewrite V_A, V_B. repeat split; lia.
  - replace N with ((n - 1) * 2) by lia. rewrite Nat.div_mul; lia.
Qed.

(** the last two crossings are written two places further on; three rings are numbered differently *)
Definition chain_r (c : nat) : nat := if n =? 3 then (if c =? 2 then 2 else 0) else if c <? 2 * (n - 2) then 0 else 2.
Definition chain_sg (c : nat) : nat := if n =? 3 then match c with 0 => 1 | 1 => 0 | 2 => 3 | 3 => 2 | _ => c end else c.
Definition chain_pi (e : nat) : nat := if n =? 3 then match e with 1 => 5 | 2 => 3 | 3 => 6 | 5 => 1 | 6 => 2 | _ => e end else e.
Definition chain_pi' (e : nat) : nat := if n =? 3 then match e with 1 => 5 | 2 => 6 | 3 => 2 | 5 => 1 | 6 => 3 | _ => e end else e.
Definition chain_X (c : nat) : crossing :=
  if n =? 3 then match c with 0 => pd_build_cross 0 2 1 5 | 1 => pd_build_cross 0 5 1 4 | 2 => pd_build_cross 2 6 3 7 | _ => pd_build_cross 3 6 4 7 end
  else if c <? 2 * (n - 2) then pd_build_cross (chain_V c 0) (chain_V c 1) (chain_V c 2) (chain_V c 3)
  else pd_build_cross (chain_V c 2) (chain_V c 3) (chain_V c 0) (chain_V c 1).
Definition chain_early : list (nat * crossing) := if n =? 3 then [] else
  [(0, pd_build_cross 0 1 5 4); (1, pd_build_cross 0 6 5 1)] ++
    flat_map (fun i => [(2 * i, pd_build_cross (4 * i) (4 * i + 3) (4 * i + 5) (4 * i + 4));
                        (2 * i + 1, pd_build_cross (4 * i + 2) (4 * i + 6) (4 * i + 5) (4 * i + 3))]) (seq 1 (n - 2)).
Definition chain_late : list (nat * crossing) := if n =? 3 then chain_writes 3 else
  [(2 * n - 4, pd_build_cross 2 3 (4 * n - 8) (4 * n - 5)); (2 * n - 3, pd_build_cross 2 (4 * n - 5) (4 * n - 6) 3)].
Lemma chain_split : chain_writes n = chain_early ++ chain_late.
Proof. unfold chain_writes, chain_early, chain_late. destruct (Nat.eqb_spec n 3); [reflexivity|]. rewrite <- !app_assoc. reflexivity. Qed.
Lemma chain_late_ok : forall c x, In (c, x) chain_late -> c < N /\ x = chain_X c.
Proof.
  intros c x I. unfold chain_late, chain_X in *. destruct (Nat.eqb_spec n 3) as [E|E].
  - destruct I as [I|[I|[I|[I|[]]]]]; apply pair_equal_spec in I as (<- & <-); split; auto; lia.
  - destruct I as [I|[I|[]]]; apply pair_equal_spec in I as (<- & <-); (split; [lia|]); (match goal with |- context [?a <? ?b] => destruct (Nat.ltb_spec a b) end; [lia|]).
    + replace (2 * n - 4) with (2 * (n - 2)) by lia. rewrite !V_A. cbn [chain_A]. eqbs; try lia. f_equal; lia.
    + replace (2 * n - 3) with (2 * (n - 2) + 1) by lia. rewrite !V_B. cbn [chain_B]. eqbs; try lia. f_equal; lia.
Qed.
Lemma chain_early_ok : forall c x, In (c, x) chain_early -> ~ In c (map fst chain_late) -> x = chain_X c.
Proof.
  intros c x I NI. unfold chain_early, chain_late, chain_X in *. destruct (Nat.eqb_spec n 3) as [E|E]; [destruct I|]. cbn [map fst In] in NI.
  apply in_app_or in I as [I|I].
  - destruct I as [I|[I|[]]]; apply pair_equal_spec in I as (<- & <-); (match goal with |- context [?a <? ?b] => destruct (Nat.ltb_spec a b) end; [|lia]).
    + change (chain_V 0) with (chain_V (2 * 0)). rewrite !V_A. cbn [chain_A]. eqbs; try lia. reflexivity.
    + change (chain_V 1) with (chain_V (2 * 0 + 1)). rewrite !V_B. cbn [chain_B]. eqbs; try lia. reflexivity.
  - apply in_flat_map in I as (i & J & I). apply in_seq in J.
    destruct I as [I|[I|[]]]; apply pair_equal_spec in I as (<- & <-); (match goal with |- context [?a <? ?b] => destruct (Nat.ltb_spec a b) end; [|exfalso; apply NI; lia]).
    + rewrite !V_A. cbn [chain_A]. eqbs; try lia. reflexivity.
    + rewrite !V_B. cbn [chain_B]. eqbs; try lia. reflexivity.
Qed.
Lemma chain_early_lt : forall w, In w chain_early -> fst w < N.
Proof.
  intros (c, x) I. cbn [fst]. unfold chain_early in I. destruct (n =? 3); [destruct I|]. apply in_app_or in I as [I|I].
  - destruct I as [I|[I|[]]]; apply pair_equal_spec in I as (<- & <-); lia.
  - apply in_flat_map in I as (i & J & I). apply in_seq in J. destruct I as [I|[I|[]]]; apply pair_equal_spec in I as (<- & <-); lia.
Qed.
Lemma chain_early_all : forall c, c < N -> ~ In c (map fst chain_late) -> In (c, chain_X c) chain_early.
Proof.
  intros c Hc NI. assert (X : exists x, In (c, x) chain_early).
  { unfold chain_early, chain_late in *. destruct (Nat.eqb_spec n 3) as [E|E].
    - exfalso. apply NI. rewrite E in *. cbn. lia.
    - destruct (two_kinds c Hc) as (i & Hi & [->| ->]).
      + destruct i as [|i]; [eexists; left; reflexivity|]. eexists. apply in_or_app. right. apply in_flat_map. exists (S i). split; [apply in_seq; lia|left; reflexivity].
      + destruct i as [|i]; [eexists; right; left; reflexivity|]. eexists. apply in_or_app. right. apply in_flat_map. exists (S i). split; [apply in_seq; lia|right; left; reflexivity]. }
  destruct X as (x & I). rewrite <- (chain_early_ok c x I NI). exact I.
Qed.
Lemma chain_ok : n <= 64 -> built_as (pd_build_simple_chain n) N n (chain_wires n).
Proof.
  intros K64. unfold pd_build_simple_chain. destruct (Nat.eqb_spec n 0); [lia|]. destruct (Nat.eqb_spec n 1); [lia|]. destruct (Nat.eqb_spec n 2); [lia|]. cbn [negb].
  rewrite chain_split, (with_crossings_ok N chain_early chain_late chain_X); [|lia| | | |].
  - cbn [bind]. apply (table_built N chain_V chain_sg chain_r chain_pi chain_pi') with (FS := chain_faces) (col := chain_col).
    + unfold chain_sg. destruct (Nat.eqb_spec n 3) as [E|E]; [|split; auto]. rewrite E. split; [intros [|[|[|[|i]]]]; cbn; lia|intros [|[|[|[|i]]]] [|[|[|[|j]]]]; cbn; lia].
    + intros c Hc. unfold chain_r. destruct (n =? 3); [destruct (c =? 2)|destruct (c <? 2 * (n - 2))]; lia.
    + intros e He. unfold chain_pi, chain_pi'. destruct (Nat.eqb_spec n 3) as [E|E]; [|auto]. rewrite E in *. do 8 (destruct e as [|e]; [cbn; lia|]). lia.
    + intros e He. unfold chain_pi, chain_pi'. destruct (Nat.eqb_spec n 3) as [E|E]; [|auto]. rewrite E in *. do 8 (destruct e as [|e]; [cbn; lia|]). lia.
    + intros c p Hc Hp. unfold chain_r, chain_sg, chain_pi, chain_X. destruct (Nat.eqb_spec n 3) as [E|E].
      * assert (Z : n - 2 = 1) by lia. assert (Hc4 : c < 4) by lia. unfold chain_V, chain_A, chain_B. rewrite Z.
        destruct (small4 c Hc4) as [->|[->|[->| ->]]], (small4 p Hp) as [->|[->|[->| ->]]]; reflexivity.
      * destruct (c <? 2 * (n - 2)); destruct (small4 p Hp) as [->|[->|[->| ->]]]; reflexivity.
    + apply chain_table.
    + auto.
    + apply chain_wires_ok.
  - intros (c, x) I. cbn [fst]. apply in_app_or in I as [I|I]; [apply (chain_early_lt _ I)|apply (chain_late_ok _ _ I)].
  - apply chain_early_all.
  - apply chain_early_ok.
  - intros c x I. apply chain_late_ok in I. apply I.
Qed.
Lemma chain_refused : 65 <= n -> forall d', pd_build_simple_chain n <> Ok d'.
Proof.
  intros K65 d'. unfold pd_build_simple_chain. destruct (Nat.eqb_spec n 0); [lia|]. destruct (Nat.eqb_spec n 1); [lia|]. destruct (Nat.eqb_spec n 2); [lia|]. cbn [negb].
  rewrite chain_split, (with_crossings_ok N chain_early chain_late chain_X); [|lia| | | |].
  - cbn [bind]. apply (table_refused N chain_V chain_sg chain_r chain_pi chain_pi') with (k := n) (FS := chain_faces) (col := chain_col).
    + unfold chain_sg. destruct (Nat.eqb_spec n 3) as [E|E]; [|split; auto]. rewrite E. split; [intros [|[|[|[|i]]]]; cbn; lia|intros [|[|[|[|i]]]] [|[|[|[|j]]]]; cbn; lia].
    + intros c Hc. unfold chain_r. destruct (n =? 3); [destruct (c =? 2)|destruct (c <? 2 * (n - 2))]; lia.
    + intros e He. unfold chain_pi, chain_pi'. destruct (Nat.eqb_spec n 3) as [E|E]; [|auto]. rewrite E in *. do 8 (destruct e as [|e]; [cbn; lia|]). lia.
    + intros e He. unfold chain_pi, chain_pi'. destruct (Nat.eqb_spec n 3) as [E|E]; [|auto]. rewrite E in *. do 8 (destruct e as [|e]; [cbn; lia|]). lia.
    + intros c p Hc Hp. unfold chain_r, chain_sg, chain_pi, chain_X. destruct (Nat.eqb_spec n 3) as [E|E].
      * assert (Z : n - 2 = 1) by lia. assert (Hc4 : c < 4) by lia. unfold chain_V, chain_A, chain_B. rewrite Z.
        destruct (small4 c Hc4) as [->|[->|[->| ->]]], (small4 p Hp) as [->|[->|[->| ->]]]; reflexivity.
      * destruct (c <? 2 * (n - 2)); destruct (small4 p Hp) as [->|[->|[->| ->]]]; reflexivity.
    + apply chain_table.
    + auto.
  - intros (c, x) I. cbn [fst]. apply in_app_or in I as [I|I]; [apply (chain_early_lt _ I)|apply (chain_late_ok _ _ I)].
  - apply chain_early_all.
  - apply chain_early_ok.
  - intros c x I. apply chain_late_ok in I. apply I.
Qed.
End Chain.
