(** pd_build_twist_knot. *)
From Coq Require Import List ZArith Lia Bool Arith Permutation Relations.
From Verif Require Import Base ListAux Iterators Pd PdSpec Relabel RelabelProofs Build BuildSpec Layout Table BuildTorus.
Import ListNotations.
Open Scope nat_scope.

Ltac eqbs := repeat match goal with
  | |- context [?a =? ?b] => destruct (Nat.eqb_spec a b)
  | H : context [?a =? ?b] |- _ => destruct (Nat.eqb_spec a b)
  end.
Ltac wiring := unfold twire, tplace; cbn [fst snd turn]; split; [intros ?Q; apply pair_equal_spec in Q; lia|]; split; [lia|]; split; [lia|].

Section Twist.
Context (n : nat) (Hn : 1 <= n).
Notation N := (n + 2).
Definition twist_V (c p : nat) : nat :=
  if c =? 0 then match p with 0 => 0 | 1 => 1 | 2 => 2 | _ => 2 * n + 2 end
  else if c =? 1 then match p with 0 => 0 | 1 => 2 * n + 3 | 2 => 3 | _ => 1 end
  else match p with 0 => 2 * c - 2 | 1 => 2 * c - 1 | 2 => 2 * c + 1 | _ => 2 * c end.
Ltac tw := unfold turn; cbn [fst snd Nat.modulo Nat.divmod Nat.add Nat.sub]; wiring; unfold twist_V; eqbs; lia.

Lemma twist_wires_ok : forall s t, In (s, t) (twist_wires n) -> twire N twist_V s t.
Proof.
  intros s t I. unfold twist_wires in I. apply in_app_or in I as [I|I].
  - apply in_flat_map in I as (i & J & I). apply in_seq in J. destruct I as [I|[I|[]]]; apply pair_equal_spec in I as (<- & <-); tw.
  - destruct I as [I|[I|[I|[I|[I|[I|[]]]]]]]; apply pair_equal_spec in I as (<- & <-); tw.
Qed.

Definition twist_faces : list (list (nat * nat)) :=
  [(0, 1); (1, 0)] :: [(0, 0); (n + 1, 3); (1, 1)] :: [(0, 2); (1, 3); (2, 1)] ::
  ((0, 3) :: map (fun i => (i, 0)) (seq 2 n)) :: ((1, 2) :: map (fun i => (n + 1 - i, 2)) (seq 0 n)) ::
  map (fun i => [(i, 3); (i + 1, 1)]) (seq 2 (n - 1)).

Lemma twist_conn : forall j, j <= n -> clos_refl_sym_trans nat (tacross N twist_V) 0 (2 * j + 2) /\ clos_refl_sym_trans nat (tacross N twist_V) 0 (2 * j + 3).
Proof.
  induction j as [|j IH]; intros Hj.
  - split; apply rst_step; [exists 0, 0|exists 1, 0]; cbn; repeat split; lia.
  - destruct (IH ltac:(lia)) as (I1 & I2). split; [eapply rst_trans; [exact I2|]|eapply rst_trans; [exact I1|]]; apply rst_step; [exists (j + 2), 1|exists (j + 2), 0];
      unfold twist_V; cbn [Nat.modulo Nat.divmod Nat.add Nat.sub fst snd]; eqbs; repeat split; cbn; try lia.
Qed.
Lemma twist_table : table N twist_V 1 twist_faces (fun _ => 0).
Proof.
  constructor; try lia.
  - intros c p Hc Hp. unfold twist_V. destruct (small4 p Hp) as [->|[->|[->| ->]]]; eqbs; lia.
  - intros e He.
    assert (X : exists s t, In (s, t) (twist_wires n) /\ twist_V (fst s) (snd s) = e).
    { unfold twist_wires. destruct (Nat.eq_dec e 0) as [->|]; [do 2 eexists; split; [apply in_or_app; right; left; reflexivity|reflexivity]|].
      destruct (Nat.eq_dec e 1) as [->|]; [do 2 eexists; split; [apply in_or_app; right; right; left; reflexivity|reflexivity]|].
      destruct (Nat.eq_dec e 2) as [->|]; [do 2 eexists; split; [apply in_or_app; right; do 2 right; left; reflexivity|reflexivity]|].
      destruct (Nat.eq_dec e 3) as [->|]; [do 2 eexists; split; [apply in_or_app; right; do 3 right; left; reflexivity|reflexivity]|].
      destruct (Nat.eq_dec e (2 * n + 2)) as [->|]; [do 2 eexists; split; [apply in_or_app; right; do 4 right; left; reflexivity|reflexivity]|].
      destruct (Nat.eq_dec e (2 * n + 3)) as [->|]; [do 2 eexists; split; [apply in_or_app; right; do 5 right; left; reflexivity|reflexivity]|].
      pose proof (Nat.div_mod e 2 ltac:(lia)) as D. pose proof (Nat.mod_upper_bound e 2 ltac:(lia)) as M. set (i := e / 2) in *.
      destruct (e mod 2) as [|[|m]] eqn:EM; [| |lia].
      - exists (i, 3), (i + 1, 0). split; [apply in_or_app; left; apply in_flat_map; exists i; split; [apply in_seq; lia|left; auto]|]. cbn [fst snd]. unfold twist_V. eqbs; lia.
      - exists (i, 2), (i + 1, 1). split; [apply in_or_app; left; apply in_flat_map; exists i; split; [apply in_seq; lia|right; left; auto]|]. cbn [fst snd]. unfold twist_V. eqbs; lia. }
    destruct X as (s & t & I & Q). destruct (twist_wires_ok s t I) as (D & A & B & E). exists s, t. split; auto. split; auto. split; auto. split; auto. congruence.
  - intros c Hc. unfold twist_V. eqbs; lia.
  - intros f I. unfold twist_faces in I. destruct I as [<-|[<-|[<-|[<-|[<-|I]]]]].
    + split; [discriminate|]. apply cyclic2; tw.
    + split; [discriminate|]. apply cyclic3; tw.
    + split; [discriminate|]. apply cyclic3; tw.
    + split; [discriminate|]. apply linked_cyclic.
      * apply (linked_app _ _ [(0, 3)] _ (0, 0)); [cbn; auto| |].
        -- apply linked_seq. intros i L1 L2. tw.
        -- right. destruct n; [lia|]. cbn [seq map last]. tw.
      * change ((0, 3) :: map (fun i => (i, 0)) (seq 2 n)) with ([(0, 3)] ++ map (fun i => (i, 0)) (seq 2 n)). rewrite last_app by (destruct n; [lia|discriminate]).
        replace (seq 2 n) with (seq 2 (S (n - 1))) by (f_equal; lia). rewrite last_seq. tw.
    + split; [discriminate|]. apply linked_cyclic.
      * apply (linked_app _ _ [(1, 2)] _ (0, 0)); [cbn; auto| |].
        -- apply linked_seq. intros i L1 L2. tw.
        -- right. replace (seq 0 n) with (0 :: seq 1 (n - 1)) by (clear - Hn; destruct n as [|m]; [lia|cbn [seq]; rewrite Nat.sub_succ, Nat.sub_0_r; reflexivity]). cbn [map last]. tw.
      * change ((1, 2) :: map (fun i => (n + 1 - i, 2)) (seq 0 n)) with ([(1, 2)] ++ map (fun i => (n + 1 - i, 2)) (seq 0 n)). rewrite last_app by (destruct n; [lia|discriminate]).
        replace (seq 0 n) with (seq 0 (S (n - 1))) by (f_equal; lia). rewrite last_seq. tw.
    + apply in_map_iff in I as (i & <- & J). apply in_seq in J. split; [discriminate|]. apply cyclic2; tw.
  - unfold twist_faces. cbn [concat app length]. rewrite !app_length. cbn [length]. rewrite !app_length, !map_length, !seq_length. rewrite (length_flat2 _ _ 2), seq_length by reflexivity. lia.
  - intros c p Hc Hp. unfold twist_faces. cbn [concat app]. 
    destruct (Nat.eq_dec c 0) as [->|]; [destruct (small4 p Hp) as [->|[->|[->| ->]]]; cbn; tauto|].
    destruct (Nat.eq_dec c 1) as [->|]; [destruct (small4 p Hp) as [->|[->|[->| ->]]]; try (cbn; tauto)|].
    { do 9 right. apply in_or_app. right. left. auto. }
    destruct (small4 p Hp) as [->|[->|[->| ->]]].
    + do 9 right. apply in_or_app. left. apply in_map_iff. exists c. split; auto. apply in_seq. lia.
    + destruct (Nat.eq_dec c 2) as [->|]; [cbn; tauto|]. do 9 right. apply in_or_app. right. right. apply in_or_app. right. apply in_concat. exists [(c - 1, 3); (c - 1 + 1, 1)].
      split; [apply in_map_iff; exists (c - 1); split; auto; apply in_seq; lia|right; left; f_equal; lia].
    + do 9 right. apply in_or_app. right. right. apply in_or_app. left. apply in_map_iff. exists (n + 1 - c). split; [f_equal; lia|apply in_seq; lia].
    + destruct (Nat.eq_dec c (n + 1)) as [->|]; [cbn; tauto|]. do 9 right. apply in_or_app. right. right. apply in_or_app. right. apply in_concat. exists [(c, 3); (c + 1, 1)].
      split; [apply in_map_iff; exists c; split; auto; apply in_seq; lia|left; auto].
  - intros s I. unfold twist_faces in I. cbn [concat app] in I. inv_places; subst; unfold tplace; cbn [fst snd]; try lia; inv_places; subst; cbn [fst snd]; lia.
  - unfold twist_faces. cbn [length]. rewrite map_length, seq_length. lia.
  - intros f I. unfold twist_faces in I. inv_places; subst; cbn [length]; rewrite ?map_length, ?seq_length; lia.
  - auto.
  - intros i Hi. exists 0. lia.
  - assert (A : forall e, e < 2 * N -> clos_refl_sym_trans nat (tacross N twist_V) 0 e).
    { intros e He. destruct (Nat.eq_dec e 0) as [->|]; [apply rst_refl|]. destruct (Nat.eq_dec e 1) as [->|].
      - destruct (twist_conn n ltac:(lia)) as (K & _). eapply rst_trans; [exact K|]. apply rst_step. exists 0, 3. cbn. repeat split; lia.
      - pose proof (Nat.div_mod e 2 ltac:(lia)) as D. pose proof (Nat.mod_upper_bound e 2 ltac:(lia)) as M. destruct (twist_conn (e / 2 - 1) ltac:(lia)) as (K1 & K2).
        destruct (e mod 2) as [|[|m]] eqn:EM; [| |lia].
        + replace e with (2 * (e / 2 - 1) + 2) by lia. exact K1.
        + replace e with (2 * (e / 2 - 1) + 3) by lia. exact K2. }
    intros e e' He He' _. eapply rst_trans; [apply rst_sym; apply A; auto|apply A; auto].
  - intros c Hc. destruct (Nat.eq_dec c 1) as [->|]; [exists 0, 0, 0; cbn; lia|]. destruct (Nat.eq_dec c 2) as [->|]; [exists 0, 0, 2; cbn; lia|].
    exists (c - 1), 0, 3. split; [lia|]. split; [lia|]. split; [lia|]. unfold twist_V. eqbs; lia.
Qed.

(** the three crossings of the shortest twist knot are numbered differently *)
Definition twist_sg (c : nat) : nat := if n =? 1 then match c with 0 => 1 | 1 => 0 | _ => c end else c.
Definition twist_X (c : nat) : crossing := let c := twist_sg c in pd_build_cross (twist_V c 0) (twist_V c 1) (twist_V c 2) (twist_V c 3).
Lemma twist_writes_ok : forall c x, In (c, x) (twist_writes n) -> c < N /\ x = twist_X c.
Proof.
  intros c x I. unfold twist_writes in I. cbv zeta in I. unfold twist_X, twist_sg. destruct (Nat.eqb_spec N 3) as [E|E].
  - assert (E1 : n = 1) by lia. clear E. rewrite E1 in *. destruct I as [I|[I|[I|[]]]]; apply pair_equal_spec in I as (<- & <-); (split; [lia|]); cbn [Nat.eqb]; unfold twist_V; cbn [Nat.eqb]; f_equal; lia.
  - destruct (Nat.eqb_spec n 1); [lia|]. cbv zeta. apply in_app_or in I as [I|I].
    + destruct I as [I|[I|[]]]; apply pair_equal_spec in I as (<- & <-); (split; [lia|]); unfold twist_V; cbn [Nat.eqb]; f_equal; lia.
    + apply in_map_iff in I as (i & Q & J). apply in_seq in J. apply pair_equal_spec in Q as (<- & <-). split; [lia|]. unfold twist_V. eqbs; try lia. f_equal; lia.
Qed.
Lemma twist_writes_all : forall c, c < N -> exists x, In (c, x) (twist_writes n).
Proof.
  intros c Hc. unfold twist_writes. cbv zeta. destruct (Nat.eqb_spec N 3) as [E|E].
  - destruct c as [|[|[|c]]]; [eexists; left; reflexivity|eexists; right; left; reflexivity|eexists; right; right; left; reflexivity|lia].
  - destruct c as [|[|c]]; [eexists; left; reflexivity|eexists; right; left; reflexivity|]. eexists. apply in_or_app. right. apply in_map_iff. exists (c + 1). split; [f_equal; lia|apply in_seq; lia].
Qed.
Lemma twist_ok : built_as (pd_build_twist_knot n) N 1 (twist_wires n).
Proof.
  unfold pd_build_twist_knot. destruct (Nat.ltb_spec n 1); [lia|]. cbn [negb].
  rewrite <- (app_nil_r (twist_writes n)). rewrite (with_crossings_ok N (twist_writes n) [] twist_X); [|lia| | | |].
  - cbn [bind]. apply (table_built N twist_V twist_sg (fun _ => 0) (fun e => e) (fun e => e)) with (FS := twist_faces) (col := fun _ => 0).
    + unfold twist_sg. destruct (Nat.eqb_spec n 1) as [->|]; [|split; auto]. split; [intros [|[|[|i]]]; cbn; lia|intros [|[|[|i]]] [|[|[|j]]]; cbn; lia].
    + intros; lia.
    + auto.
    + auto.
    + intros c p Hc Hp. rewrite Nat.add_0_r, Nat.mod_small by auto. unfold twist_X. assert (Q : twist_sg (twist_sg c) = c) by (unfold twist_sg; destruct (n =? 1); [destruct c as [|[|c]]|]; reflexivity).
      cbv zeta. rewrite Q. destruct (small4 p Hp) as [->|[->|[->| ->]]]; reflexivity.
    + apply twist_table.
    + lia.
    + apply twist_wires_ok.
  - rewrite app_nil_r. intros (c, x) I. apply twist_writes_ok in I. apply I.
  - intros c Hc _. destruct (twist_writes_all c Hc) as (x & I). destruct (twist_writes_ok c x I) as (_ & <-). auto.
  - intros c x I _. apply twist_writes_ok in I. apply I.
  - intros c x [].
Qed.
End Twist.
