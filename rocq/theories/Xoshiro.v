(** Model of the random number generator of src/plc_xoshiro.c (the same code is in src/plcRandomSap.c,
    lines 28-114, with the jump function not commented out). *)
From Coq Require Import List NArith ZArith QArith.
From Verif Require Import Base.
Import ListNotations.
Open Scope N_scope.

(** uint64_t *)
Definition wmod : N := 2 ^ 64.
Definition word (x : N) : Prop := x < wmod.
Definition shl (x : N) (k : N) : N := N.shiftl x k mod wmod.
Definition wadd (x y : N) : N := (x + y) mod wmod.
Definition wmul (x y : N) : N := (x * y) mod wmod.

Record xstate := mkX { x0 : N; x1 : N; x2 : N; x3 : N }.

(** rotl, src/plc_xoshiro.c lines 64-66 *)
Definition rotl (x : N) (k : N) : N := N.lor (shl x k) (N.shiftr x (64 - k)).
(** next, lines 68-85: the result and the new state *)
Definition next (s : xstate) : N * xstate :=
  let result := wadd (x0 s) (x3 s) in
  let t := shl (x1 s) 17 in
  let s2 := N.lxor (x2 s) (x0 s) in
  let s3 := N.lxor (x3 s) (x1 s) in
  let s1 := N.lxor (x1 s) s2 in
  let s0 := N.lxor (x0 s) s3 in
  let s2 := N.lxor s2 t in
  let s3 := rotl s3 45 in
  (result, mkX s0 s1 s2 s3).
Definition step (s : xstate) : xstate := snd (next s).

(** plc_xoshiro_init, lines 37-56 *)
Definition splitmix (z : N) : N :=
  let z := wmul (N.lxor z (N.shiftr z 30)) 0xBF58476D1CE4E5B9 in
  let z := wmul (N.lxor z (N.shiftr z 27)) 0x94D049BB133111EB in
  N.lxor z (N.shiftr z 31).
Definition gamma : N := 0x9E3779B97F4A7C15.
Definition xoshiro_init (init : N) : xstate :=
  let i1 := wadd init gamma in
  let i2 := wadd i1 gamma in
  let i3 := wadd i2 gamma in
  let i4 := wadd i3 gamma in
  mkX (splitmix i1) (splitmix i2) (splitmix i3) (splitmix i4).

(** plc_xoshiro_uniform, lines 86-90: the product with 2^-52 is exact, so a rational number *)
Definition xoshiro_uniform (s : xstate) : Q * xstate :=
  let r := fst (next s) in
  ((Z.of_N (N.shiftr r 12) # Z.to_pos (2 ^ 52))%Q, snd (next s)).

(** plc_xoshiro_jump, src/plcRandomSap.c lines 87-110 *)
Definition JUMP : list N := [0x180ec6d33cfd0aba; 0xd5a61266f0c9392c; 0xa9582618e03fc9aa; 0x39abdc4529b1661c].
Definition xor_state (a b : xstate) : xstate :=
  mkX (N.lxor (x0 a) (x0 b)) (N.lxor (x1 a) (x1 b)) (N.lxor (x2 a) (x2 b)) (N.lxor (x3 a) (x3 b)).
Definition zero_state : xstate := mkX 0 0 0 0.
(** the two loops: [acc] holds s0..s3 and [s] the generator *)
Fixpoint jump_bits (w : N) (bits : list nat) (acc s : xstate) : xstate * xstate :=
  match bits with
  | [] => (acc, s)
  | b :: bits' => jump_bits w bits' (if N.testbit w (N.of_nat b) then xor_state acc s else acc) (step s)
  end.
Fixpoint jump_words (bits : list nat) (ws : list N) (acc s : xstate) : xstate * xstate :=
  match ws with
  | [] => (acc, s)
  | w :: ws' => let r := jump_bits w bits acc s in jump_words bits ws' (fst r) (snd r)
  end.
Definition bit_list : list nat := seq 0 64.
Definition xoshiro_jump (s : xstate) : xstate := fst (jump_words bit_list JUMP zero_state s).
