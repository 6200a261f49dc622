(** pd_build_unknot. *)
From Coq Require Import List ZArith Lia Bool Arith Permutation Relations.
From Verif Require Import Base ListAux Iterators Pd PdSpec Relabel RelabelProofs Build BuildSpec Layout Table BuildTorus BuildTwist.
Import ListNotations.
Open Scope nat_scope.

Section Plait.
Context (n : nat) (Hn : 2 <= n).
Definition plait_V (c p : nat) : nat :=
  match p with
  | 0 => 2 * c
  | 1 => if c =? 0 then 0 else 2 * c + 1
  | 2 => if c =? n - 1 then 1 else 2 * c + 3
  | _ => if c =? n - 1 then 1 else 2 * c + 2
  end.
Ltac tw := unfold turn; cbn [fst snd Nat.modulo Nat.divmod Nat.add Nat.sub]; wiring; unfold plait_V; eqbs; lia.

Lemma plait_wires_ok : forall s t, In (s, t) (plait_wires (n - 1)) -> twire n plait_V s t.
Proof.
  intros s t I. unfold plait_wires in I. apply in_app_or in I as [I|I].
  - apply in_flat_map in I as (i & J & I). apply in_seq in J. destruct I as [I|[I|[]]]; apply pair_equal_spec in I as (<- & <-); tw.
  - destruct I as [I|[I|[]]]; apply pair_equal_spec in I as (<- & <-); tw.
Qed.
Definition plait_faces : list (list (nat * nat)) :=
  [(0, 1)] :: [(n - 1, 3)] :: (map (fun i => (i, 0)) (seq 0 n) ++ map (fun i => (n - 1 - i, 2)) (seq 0 n)) ::
  map (fun i => [(i, 3); (i + 1, 1)]) (seq 0 (n - 1)).
Lemma plait_conn : forall j, j + 1 < n -> clos_refl_sym_trans nat (tacross n plait_V) 0 (2 * j + 2) /\ clos_refl_sym_trans nat (tacross n plait_V) 0 (2 * j + 3).
Proof.
  induction j as [|j IH]; intros Hj.
  - split; apply rst_step; [exists 0, 1|exists 0, 0]; unfold plait_V; cbn [Nat.modulo Nat.divmod Nat.add Nat.sub fst snd]; eqbs; repeat split; lia.
  - destruct (IH ltac:(lia)) as (I1 & I2). split; [eapply rst_trans; [exact I2|]|eapply rst_trans; [exact I1|]]; apply rst_step; [exists (j + 1), 1|exists (j + 1), 0];
      unfold plait_V; cbn [Nat.modulo Nat.divmod Nat.add Nat.sub fst snd]; eqbs; repeat split; cbn; lia.
Qed.
Lemma plait_table : table n plait_V 1 plait_faces (fun _ => 0).
Proof.
  assert (SQ : seq 0 n = 0 :: seq 1 (n - 1)) by (clear - Hn; destruct n as [|m]; [lia|cbn [seq]; rewrite Nat.sub_succ, Nat.sub_0_r; reflexivity]).
  assert (SL : seq 0 n = seq 0 (S (n - 1))) by (f_equal; lia).
  constructor; try lia.
  - intros c p Hc Hp. unfold plait_V. destruct (small4 p Hp) as [->|[->|[->| ->]]]; eqbs; lia.
  - intros e He.
    assert (X : exists s t, In (s, t) (plait_wires (n - 1)) /\ plait_V (fst s) (snd s) = e).
    { unfold plait_wires. destruct (Nat.eq_dec e 0) as [->|]; [do 2 eexists; split; [apply in_or_app; right; left; reflexivity|reflexivity]|].
      destruct (Nat.eq_dec e 1) as [->|]; [do 2 eexists; split; [apply in_or_app; right; right; left; reflexivity|cbn [fst snd plait_V]; eqbs; lia]|].
      pose proof (Nat.div_mod e 2 ltac:(lia)) as D. pose proof (Nat.mod_upper_bound e 2 ltac:(lia)) as M. set (i := e / 2) in *.
      destruct (e mod 2) as [|[|m]] eqn:EM; [| |lia].
      - exists (i - 1, 3), (i - 1 + 1, 0). split; [apply in_or_app; left; apply in_flat_map; exists (i - 1); split; [apply in_seq; lia|left; auto]|]. cbn [fst snd]. unfold plait_V. eqbs; lia.
      - exists (i - 1, 2), (i - 1 + 1, 1). split; [apply in_or_app; left; apply in_flat_map; exists (i - 1); split; [apply in_seq; lia|right; left; auto]|]. cbn [fst snd]. unfold plait_V. eqbs; lia. }
    destruct X as (s & t & I & Q). destruct (plait_wires_ok s t I) as (D & A & B & E). exists s, t. split; auto. split; auto. split; auto. split; auto. congruence.
  - intros c Hc. unfold plait_V. eqbs; lia.
  - intros f I. unfold plait_faces in I. destruct I as [<-|[<-|[<-|I]]].
    + split; [discriminate|]. apply cyclic1; tw.
    + split; [discriminate|]. apply cyclic1; tw.
    + split; [rewrite SQ; discriminate|].
      assert (L : linked (fun s t => twire n plait_V (turn s) t) (map (fun i => (i, 0)) (seq 0 n) ++ map (fun i => (n - 1 - i, 2)) (seq 0 n))).
      { apply (linked_app _ _ _ _ (0, 0)).
        - apply linked_seq. intros i L1 L2. tw.
        - apply linked_seq. intros i L1 L2. tw.
        - right. assert (B : exists t, map (fun i => (n - 1 - i, 2)) (seq 0 n) = (n - 1 - 0, 2) :: t) by (rewrite SQ; eexists; reflexivity). destruct B as (t & ->). rewrite SL, last_seq. tw. }
      assert (E : last (map (fun i => (i, 0)) (seq 0 n) ++ map (fun i => (n - 1 - i, 2)) (seq 0 n)) (0, 0) = (0, 2)).
      { rewrite last_app by (rewrite SQ; discriminate). rewrite SL, last_seq. f_equal. lia. }
      revert L E. rewrite SQ at 1 3 5. cbn [map app]. intros L E. apply linked_cyclic; auto. rewrite E. tw.
    + apply in_map_iff in I as (i & <- & J). apply in_seq in J. split; [discriminate|]. apply cyclic2; tw.
  - unfold plait_faces. cbn [concat app length]. rewrite !app_length, !map_length, !seq_length. rewrite (length_flat2 _ _ 2), seq_length by reflexivity. lia.
  - intros c p Hc Hp. unfold plait_faces. cbn [concat app]. destruct (small4 p Hp) as [->|[->|[->| ->]]].
    + do 2 right. rewrite <- app_assoc. apply in_or_app. left. apply in_map_iff. exists c. split; auto. apply in_seq. lia.
    + destruct (Nat.eq_dec c 0) as [->|]; [left; auto|]. do 2 right. apply in_or_app. right. apply in_concat. exists [(c - 1, 3); (c - 1 + 1, 1)].
      split; [apply in_map_iff; exists (c - 1); split; auto; apply in_seq; lia|right; left; f_equal; lia].
    + do 2 right. apply in_or_app. left. apply in_or_app. right. apply in_map_iff. exists (n - 1 - c). split; [f_equal; lia|apply in_seq; lia].
    + destruct (Nat.eq_dec c (n - 1)) as [->|]; [right; left; auto|]. do 2 right. apply in_or_app. right. apply in_concat. exists [(c, 3); (c + 1, 1)].
      split; [apply in_map_iff; exists c; split; auto; apply in_seq; lia|left; auto].
  - intros s I. unfold plait_faces in I. cbn [concat app] in I. inv_places; subst; unfold tplace; cbn [fst snd]; try lia; inv_places; subst; cbn [fst snd]; lia.
  - unfold plait_faces. cbn [length]. rewrite map_length, seq_length. lia.
  - intros f I. unfold plait_faces in I. inv_places; subst; cbn [length]; rewrite ?app_length, ?map_length, ?seq_length; lia.
  - auto.
  - intros i Hi. exists 0. lia.
  - assert (A : forall e, e < 2 * n -> clos_refl_sym_trans nat (tacross n plait_V) 0 e).
    { intros e He. destruct (Nat.eq_dec e 0) as [->|]; [apply rst_refl|]. destruct (Nat.eq_dec e 1) as [->|].
      - destruct (plait_conn (n - 2) ltac:(lia)) as (K & _). eapply rst_trans; [exact K|]. apply rst_step. exists (n - 1), 0. unfold plait_V; cbn [Nat.modulo Nat.divmod Nat.add Nat.sub fst snd]; eqbs; repeat split; lia.
      - pose proof (Nat.div_mod e 2 ltac:(lia)) as D. pose proof (Nat.mod_upper_bound e 2 ltac:(lia)) as M. destruct (plait_conn (e / 2 - 1) ltac:(lia)) as (K1 & K2).
        destruct (e mod 2) as [|[|m]] eqn:EM; [| |lia].
        + replace e with (2 * (e / 2 - 1) + 2) by lia. exact K1.
        + replace e with (2 * (e / 2 - 1) + 3) by lia. exact K2. }
    intros e e' He He' _. eapply rst_trans; [apply rst_sym; apply A; auto|apply A; auto].
  - intros c Hc. exists (c - 1), 0, 3. split; [lia|]. split; [lia|]. split; [lia|]. unfold plait_V. eqbs; lia.
Qed.

(** the last crossing is written two places further on *)
Definition plait_r (c : nat) : nat := if c =? n - 1 then 2 else 0.
Definition plait_X (c : nat) : crossing := if c =? n - 1 then pd_build_cross (plait_V c 2) (plait_V c 3) (plait_V c 0) (plait_V c 1) else pd_build_cross (plait_V c 0) (plait_V c 1) (plait_V c 2) (plait_V c 3).
Lemma plait_writes_ok : forall c x, In (c, x) (unknot_writes n) -> c < n /\ x = plait_X c.
Proof.
  intros c x I. unfold unknot_writes in I. unfold plait_X, plait_V. apply in_app_or in I as [I|I].
  - destruct I as [I|[I|[]]]; apply pair_equal_spec in I as (<- & <-); (split; [lia|]); eqbs; try lia; f_equal; lia.
  - apply in_map_iff in I as (i & Q & J). apply in_seq in J. apply pair_equal_spec in Q as (<- & <-). split; [lia|]. eqbs; try lia. f_equal; lia.
Qed.
Lemma plait_writes_all : forall c, c < n -> exists x, In (c, x) (unknot_writes n).
Proof.
  intros c Hc. unfold unknot_writes. destruct (Nat.eq_dec c 0) as [->|]; [eexists; left; reflexivity|]. destruct (Nat.eq_dec c (n - 1)) as [->|]; [eexists; right; left; reflexivity|].
  eexists. apply in_or_app. right. apply in_map_iff. exists c. split; [reflexivity|apply in_seq; lia].
Qed.
Lemma plait_ok : built_as (pd_build_unknot n) n 1 (plait_wires (n - 1)).
Proof.
  unfold pd_build_unknot. destruct (Nat.eqb_spec n 0); [lia|]. destruct (Nat.eqb_spec n 1); [lia|].
  rewrite <- (app_nil_r (unknot_writes n)). rewrite (with_crossings_ok n (unknot_writes n) [] plait_X); auto.
  - cbn [bind]. apply (table_built n plait_V (fun c => c) plait_r (fun e => e) (fun e => e)) with (FS := plait_faces) (col := fun _ => 0).
    + split; auto.
    + intros c Hc. unfold plait_r. destruct (c =? n - 1); lia.
    + auto.
    + auto.
    + intros c p Hc Hp. unfold plait_r, plait_X. destruct (c =? n - 1); destruct (small4 p Hp) as [->|[->|[->| ->]]]; reflexivity.
    + apply plait_table.
    + lia.
    + apply plait_wires_ok.
  - rewrite app_nil_r. intros (c, x) I. apply plait_writes_ok in I. apply I.
  - intros c Hc _. destruct (plait_writes_all c Hc) as (x & I). destruct (plait_writes_ok c x I) as (_ & <-). auto.
  - intros c x I _. apply plait_writes_ok in I. apply I.
  - intros c x [].
Qed.
End Plait.
