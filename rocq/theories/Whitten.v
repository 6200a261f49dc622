(** Model of the Whitten group operations on curves (src/plwhitten.c). *)
From Coq Require Import List ZArith Lia Bool Arith.
From Verif Require Import Base Pd PdCross PlcConstraints PlcStrands.
Import ListNotations.
Open Scope nat_scope.
Open Scope res_scope.

(** perm, lines 66-77, from index [i] on with [n] entries left *)
Fixpoint perm_scan (n i : nat) (p : list Z) (ind : Z) : res Z :=
  match n with
  | 0 => Ok ind
  | S n' => do a <- get p i; if Z.eqb a ind then get p (i + 1) else perm_scan n' (i + 1) p ind
  end.
(** iperm, lines 79-90, from index [i] on downwards *)
Fixpoint iperm_scan (i : nat) (p : list Z) (ind : Z) : res Z :=
  match i with
  | 0 => Ok ind
  | S i' => do a <- get p i; if Z.eqb a ind then get p i' else iperm_scan i' p ind
  end.

Section Whitten.
(** vertices, colors, and the change of sign of the third coordinate of a vertex *)
Context {V K : Type} (flip : V -> V).
(** the loop on lines 139-143; cell [i + 1] of the buffer is vt[i] *)
Fixpoint flips (n i : nat) (b : list V) : res (list V) :=
  match n with
  | 0 => Ok b
  | S n' => do v <- get b (i + 1); flips n' (i + 1) (upd (i + 1) (flip v) b)
  end.
Definition mirror_strand (s : strand V K) : res (strand V K) :=
  do b <- flips (Z.to_nat (s_nv s)) 0 (s_buf s);
  Ok (mkStrand (s_nv s) (s_open s) b (s_clr s)).
(** the mirror images of the vectors of a constraint, lines 151-164; here the entries stand for numbers, whose sign is changed *)
Definition flip3 (v : vec3) : vec3 := V3 (vx v) (vy v) (- vz v).
Definition mirror_cst (c : cst) : cst :=
  let '(a, b) := cvect c in
  mkCst (ckind c) (flip3 a, match ckind c with Line => flip3 b | _ => b end) (ccmp c) (cvert c) (cnum c).
(** the loops on lines 185-194 and 199-205: entries [i + off] and [nv - i - 1 + off] are exchanged, [k] times *)
Fixpoint swaps {A} (off nv k i : nat) (l : list A) : res (list A) :=
  match k with
  | 0 => Ok l
  | S k' =>
      do a <- get l (i + off);
      do b <- get l (nv - i - 1 + off);
      swaps off nv k' (i + 1) (upd (nv - i - 1 + off) a (upd (i + off) b l))
  end.
(** lines 177-207 *)
Definition reverse_strand (s : strand V K) : res (strand V K) :=
  let nv := Z.to_nat (s_nv s) in
  do b <- swaps 1 nv (nv / 2) 0 (s_buf s);
  do c <- (if length (s_clr s) =? nv then swaps 0 nv (nv / 2) 0 (s_clr s) else Ok (s_clr s));
  Ok (mkStrand (s_nv s) (s_open s) b c).
(** lines 211-215: all constraints are changed *)
Definition turn_cst (nv : Z) (c : cst) : cst := mkCst (ckind c) (cvect c) (ccmp c) ((nv - 1) - (cvert c + cnum c))%Z (cnum c).
(** the loop on lines 173-219 *)
Fixpoint reversals (eps : list Z) (cp : nat) (ss : list (strand V K)) (cs : list cst) : res (list (strand V K) * list cst) :=
  match ss with
  | [] => Ok ([], cs)
  | s :: ss' =>
      do e <- get eps cp;
      do q <- (if Z.eqb e (-1) then do s' <- reverse_strand s; Ok (s', map (turn_cst (s_nv s)) cs) else Ok (s, cs));
      do r <- reversals eps (cp + 1) ss' (snd q);
      Ok (fst q :: fst r, snd r)
  end.
(** no entry occurs twice *)
Fixpoint distinct (l : list Z) : bool := match l with [] => true | a :: l' => negb (existsb (Z.eqb a) l') && distinct l' end.
(** plc_whitten, lines 92-227.  If [perm] gives one component twice, two components share their vertices from then on:
    [UB] here. *)
Definition plc_whitten (L : plcurve V K) (mirror : Z) (eps perm : list Z) : res (plcurve V K) :=
  let nc := length (strands L) in
  do js <- map_ok (fun i => perm_scan (2 * nc) 0 perm (Z.of_nat i)) (seq 0 nc);
  if distinct js then
    do ss <- map_ok (fun j => if Z.ltb j 0 then UB else get (strands L) (Z.to_nat j)) js;
    do cs <- map_ok (fun c => do k <- iperm_scan (2 * nc) perm (ccmp c); Ok (mkCst (ckind c) (cvect c) k (cvert c) (cnum c))) (pcsts L);
    do ss <- (if Z.eqb mirror (-1) then map_ok mirror_strand ss else Ok ss);
    let cs := if Z.eqb mirror (-1) then map mirror_cst cs else cs in
    do L1 <- plc_fix_wrap (mkPlc ss cs);
    do q <- reversals eps 0 (strands L1) (pcsts L1);
    plc_fix_wrap (mkPlc (fst q) (snd q))
  else UB.
End Whitten.
