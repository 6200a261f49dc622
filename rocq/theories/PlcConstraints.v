(** Model of the constraint list of a plCurve (src/plCurve.c lines 445-776). *)
From Coq Require Import List ZArith Lia Bool.
From Verif Require Import Base.
Import ListNotations.
Open Scope Z_scope.
Open Scope res_scope.

(** enum plc_cst_kind, src/plCurve.h lines 111-116. *)
Inductive kind := Unconstrained | Fixed | Line | Plane.

Definition kind_eqb (a b : kind) : bool :=
  match a, b with
  | Unconstrained, Unconstrained | Fixed, Fixed | Line, Line | Plane, Plane => true
  | _, _ => false
  end.

(** plc_vector (src/plCurve.h): three coordinates.  Simplification: a double is
    represented by the integer value of its 8 bytes, the thing [memcmp] compares;
    the code modelled here never does arithmetic on coordinates. *)
Record vec3 := V3 { vx : Z; vy : Z; vz : Z }.

(** The field [vect[2]] of a constraint (src/plCurve.h line 120). *)
Definition vects := (vec3 * vec3)%type.

Definition vec3_eqb (a b : vec3) : bool :=
  (vx a =? vx b) && (vy a =? vy b) && (vz a =? vz b).

(** [memcmp(a,b,sizeof(vect)) == 0]. *)
Definition vects_eqb (a b : vects) : bool :=
  vec3_eqb (fst a) (fst b) && vec3_eqb (snd a) (snd b).

(** struct plc_constraint_type, src/plCurve.h lines 118-125; the [next] pointer is
    the list structure. *)
Record cst := mkCst { ckind : kind; cvect : vects; ccmp : Z; cvert : Z; cnum : Z }.

Definition cend (c : cst) : Z := cvert c + cnum c.

(** [memcmp(a->vect,b->vect,...) == 0 && a->kind == b->kind && kind != fixed],
    the test at src/plCurve.c lines 490-492, 510-512, 571-575, 583-587. *)
Definition same_nonfixed (k : kind) (v : vects) (c : cst) : bool :=
  kind_eqb (ckind c) k && negb (kind_eqb k Fixed) && vects_eqb (cvect c) v.

(** First loop of overrun_check, src/plCurve.c lines 476-506: [c] is the cell the
    argument points to, [rest] the cells after it. *)
Fixpoint overrun1 (c : cst) (rest : list cst) : cst * list cst :=
  match rest with
  | [] => (c, [])
  | n :: rest' =>
      if (ccmp n =? ccmp c) && (cvert n <? cend c) then
        if cend n <=? cend c then
          overrun1 c rest'                                   (* lines 480-486 *)
        else if same_nonfixed (ckind c) (cvect c) n then
          overrun1 (mkCst (ckind c) (cvect c) (ccmp c) (cvert c) (cend n - cvert c)) rest'
                                                             (* lines 490-498 *)
        else
          (c, mkCst (ckind n) (cvect n) (ccmp n) (cend c)
                    (cnum n - (cend c - cvert n)) :: rest')  (* lines 501-503; the
                  loop condition is false afterwards because n->vert = end of c *)
      else (c, n :: rest')
  end.

(** Second loop of overrun_check, src/plCurve.c lines 508-518. *)
Fixpoint overrun2 (c : cst) (rest : list cst) : cst * list cst :=
  match rest with
  | [] => (c, [])
  | n :: rest' =>
      if (cvert n =? cend c) && same_nonfixed (ckind c) (cvect c) n then
        overrun2 (mkCst (ckind c) (cvect c) (ccmp c) (cvert c) (cend n - cvert c)) rest'
      else (c, n :: rest')
  end.

(** overrun_check, src/plCurve.c lines 472-519: returns the cell and its tail. *)
Definition overrun_check (c : cst) (rest : list cst) : list cst :=
  let (c1, r1) := overrun1 c rest in
  let (c2, r2) := overrun2 c1 r1 in
  c2 :: r2.

(** The seek loop, src/plCurve.c lines 550-556.  [passed] holds the cells passed,
    most recent first, so its head is [pcst]. *)
Fixpoint seek (cmp vert : Z) (passed l : list cst) : list cst * list cst :=
  match l with
  | [] => (passed, [])
  | c :: l' =>
      if (ccmp c <? cmp) || ((ccmp c =? cmp) && (cend c <=? vert))
      then seek cmp vert (c :: passed) l'
      else (passed, l)
  end.

(** Lines 578-580 and 589-591: enlarge a cell to cover [vert, vert+num). *)
Definition extend (c : cst) (vert num : Z) : cst :=
  let v := Z.min vert (cvert c) in
  mkCst (ckind c) (cvect c) (ccmp c) v (Z.max (vert + num) (cend c) - v).

(** The constraint-list part of plc_set_constraint, src/plCurve.c lines 543-648.
    The result is the new value of [L->cst]. *)
Definition set_cst_list (l : list cst) (cmp vert num : Z) (k : kind) (v : vects) : list cst :=
  let (passed, rest) := seek cmp vert [] l in
  let new := mkCst k v cmp vert num in
  let drop_if_unconstrained (l' : list cst) :=           (* lines 627-633, 640-645 *)
    if kind_eqb k Unconstrained then tl l' else l' in
  let branch234 :=
    match rest with
    | [] =>                                              (* lines 593-598, cst == NULL *)
        rev_append passed (if kind_eqb k Unconstrained then [] else [new])
    | c :: rest' =>
        if same_nonfixed k v c && (ccmp c =? cmp) && (cvert c <=? vert + num) then
          rev_append passed (overrun_check (extend c vert num) rest')   (* lines 582-592 *)
        else if (cmp <? ccmp c) || (vert + num <=? cvert c) then        (* lines 593-598 *)
          rev_append passed (if kind_eqb k Unconstrained then rest else new :: rest)
        else if cvert c <? vert then                                    (* lines 606-634 *)
          if vert + num <? cend c then                                  (* lines 608-618 *)
            let c1 := mkCst (ckind c) (cvect c) (ccmp c) (cvert c) (vert - cvert c) in
            let c2 := mkCst (ckind c) (cvect c) (ccmp c) (vert + num)
                            (cnum c - (vert + num - cvert c)) in
            rev_append passed
              (c1 :: (if kind_eqb k Unconstrained then c2 :: rest' else new :: c2 :: rest'))
          else                                                          (* lines 619-633 *)
            let c1 := mkCst (ckind c) (cvect c) (ccmp c) (cvert c) (vert - cvert c) in
            rev_append passed (c1 :: drop_if_unconstrained (overrun_check new rest'))
        else                                                            (* lines 635-646 *)
          rev_append passed (drop_if_unconstrained (overrun_check new rest))
    end in
  match passed with
  | p :: passed' =>
      if same_nonfixed k v p && (ccmp p =? cmp) && (vert <=? cend p) then
        rev_append passed' (overrun_check (extend p vert num) rest)     (* lines 570-581 *)
      else branch234
  | [] => branch234
  end.

(** A curve, as far as constraints are concerned: the vertex counts of its components
    ([L->nc] is their number) and the constraint list. *)
Record curve := mkCurve { nvs : list Z; csts : list cst }.

(** Zero vectors used by the wrappers (src/plCurve.c lines 662, 694-695): the bytes
    of 0.0 are zero. *)
Definition zero3 : vec3 := V3 0 0 0.

(** plc_set_constraint, src/plCurve.c lines 522-655, with its input assertions. *)
Definition plc_set_constraint (L : curve) (cmp vert num : Z) (k : kind) (v : vects)
  : res curve :=
  assert (0 <=? cmp);
  assert (cmp <? Z.of_nat (length (nvs L)));
  assert (0 <=? vert);
  assert (vert <? nth (Z.to_nat cmp) (nvs L) 0);
  assert (1 <=? num);
  assert (vert + num <=? nth (Z.to_nat cmp) (nvs L) 0);
  assert (negb (kind_eqb k Fixed) || (num =? 1));
  Ok (mkCurve (nvs L) (set_cst_list (csts L) cmp vert num k v)).

(** plc_set_fixed, src/plCurve.c lines 658-666. *)
Definition plc_set_fixed (L : curve) (cmp vert : Z) (point : vec3) : res curve :=
  plc_set_constraint L cmp vert 1 Fixed (point, zero3).

(** plc_constrain_to_line, src/plCurve.c lines 668-677. *)
Definition plc_constrain_to_line (L : curve) (cmp vert num : Z) (tangent point : vec3) :=
  plc_set_constraint L cmp vert num Line (tangent, point).

(** plc_constrain_to_plane, src/plCurve.c lines 679-689. *)
Definition plc_constrain_to_plane (L : curve) (cmp vert num : Z) (normal : vec3) (dist : Z) :=
  plc_set_constraint L cmp vert num Plane (normal, V3 dist 0 0).

(** plc_unconstrain, src/plCurve.c lines 691-698. *)
Definition plc_unconstrain (L : curve) (cmp vert num : Z) :=
  plc_set_constraint L cmp vert num Unconstrained (zero3, zero3).

(** plc_remove_constraint, src/plCurve.c lines 705-736.  [veq] is the tolerance
    comparison plc_M_vecteq applied to both vectors, left arbitrary.
    Result: the list and the number of vertices freed. *)
Fixpoint remove_cst_list (veq : vects -> vects -> bool) (k : kind) (v : vects)
  (l : list cst) : list cst * Z :=
  match l with
  | [] => ([], 0)
  | c :: l' =>
      let (r, n) := remove_cst_list veq k v l' in
      if kind_eqb (ckind c) k && veq (cvect c) v then (r, cnum c + n) else (c :: r, n)
  end.

Definition plc_remove_constraint (veq : vects -> vects -> bool) (L : curve) (k : kind)
  (v : vects) : res (curve * Z) :=
  assert (negb (kind_eqb k Unconstrained));
  let (r, n) := remove_cst_list veq k v (csts L) in
  Ok (mkCurve (nvs L) r, n).

(** plc_remove_all_constraints, src/plCurve.c lines 739-751. *)
Definition plc_remove_all_constraints (L : curve) : curve := mkCurve (nvs L) [].

(** plc_is_constrained, src/plCurve.c lines 754-776: the first cell covering the
    vertex (None = returns false). *)
Fixpoint is_constrained_list (l : list cst) (cp vt : Z) : option cst :=
  match l with
  | [] => None
  | c :: l' =>
      if (ccmp c =? cp) && (cvert c <=? vt) && (vt <? cend c) then Some c
      else is_constrained_list l' cp vt
  end.

Definition plc_is_constrained (L : curve) (cp vt : Z) : option cst :=
  is_constrained_list (csts L) cp vt.
