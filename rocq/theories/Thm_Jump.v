(** C57: the jump of the random number generator skips exactly 2^128 draws. *)
From Coq Require Import List NArith Arith Lia.
From Verif Require Import Base Xoshiro XoshiroProofs XoshiroJump.
Import ListNotations.
Open Scope nat_scope.

Section General.
  Context (K : N) (jump : xstate -> xstate) (J : forall s, fits s -> jump s = N.iter K step s).
  Lemma iter_fits : forall s k, fits s -> fits (N.iter k step s).
  Proof.
    intros s k F. induction k as [|k IH] using N.peano_ind; [exact F|].
    rewrite N.iter_succ.
    apply step_fits. auto.
  Qed.
  Lemma jumps_general : forall k s, fits s ->
    fits (N.iter k jump s) /\ N.iter k jump s = N.iter (k * K) step s.
  Proof.
    intros k s F. induction k as [|k IH] using N.peano_ind; [split; [exact F|reflexivity]|].
    destruct IH as [IF IE].
    rewrite N.iter_succ.
    rewrite J by auto. rewrite IE, <- N.iter_add.
    replace (K + k * K)%N with (N.succ k * K)%N by (rewrite N.mul_succ_l; apply N.add_comm).
    split; [apply iter_fits; auto|reflexivity].
  Qed.
  Lemma injective_general : forall s t, fits s -> fits t -> jump s = jump t -> s = t.
  Proof.
    intros s t Fs Ft. rewrite !J by auto. clear J. revert s t Fs Ft.
    induction K as [|k IH] using N.peano_ind; intros s t Fs Ft H; [exact H|].
    replace (N.succ k) with (k + 1)%N in H by lia. rewrite !N.iter_add in H. cbn [N.iter Pos.iter] in H.
    apply IH in H; auto using step_fits. rewrite <- (unstep_step s), <- (unstep_step t), H; auto.
  Qed.
End General.

(** From every state of four 64-bit words, plc_xoshiro_jump leaves the
    generator in the state it would have after 2^128 calls of
    plc_xoshiro_next. *)
Theorem jump_skips : forall s, fits s -> xoshiro_jump s = N.iter (2 ^ 128) step s.
Proof. exact jump_is. Qed.
Print Assumptions jump_skips.

(** k jumps skip k * 2^128 draws, so the streams of successive jumps are the
    blocks of 2^128 draws of one stream. *)
Theorem jumps_skip : forall k s, fits s ->
  fits (N.iter k xoshiro_jump s) /\ N.iter k xoshiro_jump s = N.iter (k * 2 ^ 128) step s.
Proof. exact (jumps_general _ _ jump_is). Qed.
Print Assumptions jumps_skip.

(** The jump is a permutation of the states, and commutes with drawing. *)
Theorem jump_injective : forall s t, fits s -> fits t -> xoshiro_jump s = xoshiro_jump t -> s = t.
Proof. exact (injective_general _ _ jump_is). Qed.
Print Assumptions jump_injective.

(** The seeded generators meet the hypothesis. *)
Example jump_hyp : forall seed, fits (xoshiro_init seed).
Proof. intro seed. repeat split; apply word_splitmix. Qed.
