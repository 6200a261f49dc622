(** Model of pd_storage.c: a two-level map hash -> uid -> packed diagram, with iteration
    state kept inside the store. *)
From Coq Require Import List ZArith Lia Bool Arith.
From Verif Require Import Base Containers.
Import ListNotations.
Open Scope nat_scope.
Open Scope res_scope.

(** A hash is a C string: the list of its bytes before the terminating zero. *)
Definition key := list nat.

(** strcmp order, which is the order of JudySL. *)
Fixpoint kcmp (a b : key) : comparison :=
  match a, b with
  | [], [] => Eq
  | [], _ => Lt
  | _, [] => Gt
  | x :: a', y :: b' => match Nat.compare x y with Eq => kcmp a' b' | c => c end
  end.

(** * The Judy arrays used (libJudy, external): association lists in index order. *)

Section JudyL.
Context {P : Type}.
Definition judyL := list (nat * P).
(** JLF: first entry with index >= i. *)
Fixpoint jl_first (a : judyL) (i : nat) : option (nat * P) :=
  match a with [] => None | (j, p) :: a' => if i <=? j then Some (j, p) else jl_first a' i end.
(** JLN: first entry with index > i. *)
Fixpoint jl_next (a : judyL) (i : nat) : option (nat * P) :=
  match a with [] => None | (j, p) :: a' => if i <? j then Some (j, p) else jl_next a' i end.
(** JLI followed by storing [p]; [None] when the index was already present. *)
Fixpoint jl_insert (a : judyL) (i : nat) (p : P) : option judyL :=
  match a with
  | [] => Some [(i, p)]
  | (j, q) :: a' =>
      match Nat.compare i j with
      | Lt => Some ((i, p) :: (j, q) :: a')
      | Eq => None
      | Gt => match jl_insert a' i p with Some r => Some ((j, q) :: r) | None => None end
      end
  end.
End JudyL.

Section JudySL.
Context {V : Type}.
Definition judySL := list (key * V).
(** JSLF: first entry with index >= k. *)
Fixpoint jsl_first (a : judySL) (k : key) : option (key * V) :=
  match a with
  | [] => None
  | (j, v) :: a' => match kcmp k j with Gt => jsl_first a' k | _ => Some (j, v) end
  end.
(** JSLN: first entry with index > k. *)
Fixpoint jsl_next (a : judySL) (k : key) : option (key * V) :=
  match a with
  | [] => None
  | (j, v) :: a' => match kcmp k j with Lt => Some (j, v) | _ => jsl_next a' k end
  end.
(** JSLG: the value under k. *)
Fixpoint jsl_get (a : judySL) (k : key) : option V :=
  match a with
  | [] => None
  | (j, v) :: a' => match kcmp k j with Eq => Some v | _ => jsl_get a' k end
  end.
(** JSLI and assignment of a new value. *)
Fixpoint jsl_put (a : judySL) (k : key) (v : V) : judySL :=
  match a with
  | [] => [(k, v)]
  | (j, w) :: a' =>
      match kcmp k j with
      | Lt => (k, v) :: (j, w) :: a'
      | Eq => (k, v) :: a'
      | Gt => (j, w) :: jsl_put a' k v
      end
  end.
End JudySL.

Section PdStor.
(** D: diagrams; P: packed diagrams. [hash] is the text in pd->hash, [pack]/[unpack] are
    pd_pack/pd_unpack, [iso] and [isot] are pd_isomorphic and pd_diagram_isotopic. *)
Context {D P : Type} (hash : D -> key) (pack : D -> P) (unpack : P -> D)
  (iso isot : D -> D -> bool).

(** pd_equivalence_t *)
Inductive equivalence := NONE | ISOMORPHISM | DIAGRAM_ISOTOPY.

(** pd_stor_t, src/pd_storage.c lines 41-58.  [it_ptr] is iter_PValue_hash: the hash whose
    value the pointer points to, or None for NULL. *)
Record pdstor := mkStor {
  hmap : @judySL (@judyL P); nelts : Z; it_hash : key; it_uid : nat; it_ptr : option key }.

(** pdint_init_pdstor_iterstate, src/pd_storage.c lines 61-66. *)
Definition init_iter (s : pdstor) : pdstor := mkStor (hmap s) (nelts s) [] 0 None.

(** pd_new_pdstor, src/pd_storage.c lines 68-84. *)
Definition pd_new_pdstor : pdstor := mkStor [] 0 [] 0 None.

(** pd_stor_nelts, src/pd_storage.c lines 159-163. *)
Definition pd_stor_nelts (s : pdstor) : Z := nelts s.

(** the test in the loop, src/pd_storage.c lines 211-222 *)
Definition same (eq : equivalence) (stored d : D) : bool :=
  match eq with NONE => false | ISOMORPHISM => iso stored d | DIAGRAM_ISOTOPY => isot stored d end.

(** the search loop, src/pd_storage.c lines 199-259: either the uid of an equivalent
    stored code, or the last index present.  Simplification: walking a JudyL with JLF/JLN
    from index 0 is recursion over its entries. *)
Fixpoint scan (eq : equivalence) (d : D) (a : judyL) (last : nat) : nat + nat :=
  match a with
  | [] => inr last
  | (i, p) :: a' => if same eq (unpack p) d then inl i else scan eq d a' i
  end.

(** pd_addto_pdstor, src/pd_storage.c lines 165-314.  Returns the store and the uid
    written into the argument.  An empty JudyL is the NULL pointer. *)
Definition pd_addto_pdstor (s0 : pdstor) (d : D) (eq : equivalence) : res (pdstor * nat) :=
  let s := init_iter s0 in
  let a := match jsl_get (hmap s) (hash d) with Some a => a | None => [] end in
  let found := match a with [] => inr 0 | _ => scan eq d a 0 end in
  match found with
  | inl uid => Ok (s, uid)
  | inr last =>
      let new_uid := S last in
      match jl_insert a new_uid (pack d) with
      | None => Fail
      | Some a' => Ok (mkStor (jsl_put (hmap s) (hash d) a') (u32 (nelts s + 1)%Z) [] 0 None, new_uid)
      end
  end.

(** pd_stor_firstelt, src/pd_storage.c lines 316-355.  [None] is NULL; otherwise the uid
    given to the returned code and the code. *)
Definition pd_stor_firstelt (s0 : pdstor) : res (pdstor * option (nat * D)) :=
  let s := init_iter s0 in
  match jsl_first (hmap s) [] with
  | None => Ok (s, None)
  | Some (k, a) =>
      match jl_first a 0 with
      | None => Fail
      | Some (i, p) => Ok (mkStor (hmap s) (nelts s) k i (Some k), Some (i, unpack p))
      end
  end.

(** pd_stor_nextelt, src/pd_storage.c lines 357-424. *)
Definition pd_stor_nextelt (s : pdstor) : res (pdstor * option (nat * D)) :=
  match it_ptr s with
  | None => Fail
  | Some kp =>
      assert (negb (match it_hash s with [] => true | _ => false end));
      match jsl_get (hmap s) kp with
      | None => UB
      | Some a =>
          match jl_next a (it_uid s) with
          | Some (i, p) => Ok (mkStor (hmap s) (nelts s) (it_hash s) i (Some kp), Some (i, unpack p))
          | None =>
              match jsl_next (hmap s) (it_hash s) with
              | None => Ok (init_iter s, None)
              | Some (k, a') =>
                  match jl_first a' 0 with
                  | None => Fail
                  | Some (i, p) => Ok (mkStor (hmap s) (nelts s) k i (Some k), Some (i, unpack p))
                  end
              end
          end
      end
  end.

(** pd_search_pdstor_by_isomorphism, src/pd_storage.c lines 426-486.  [isos] is
    pd_build_isos (pd, stored) returning the list of isomorphisms. *)
Fixpoint search_loop {I : Type} (isos : D -> D -> list I) (d : D) (a : @judyL P) : option (nat * D * list I) :=
  match a with
  | [] => None
  | (i, p) :: a' =>
      match isos d (unpack p) with
      | [] => search_loop isos d a'
      | l => Some (i, unpack p, l)
      end
  end.
Definition pd_search_pdstor {I : Type} (isos : D -> D -> list I) (s : pdstor) (d : D)
  : res (option (nat * D * list I)) :=
  match jsl_get (hmap s) (hash d) with
  | None => Ok None
  | Some [] => Fail
  | Some a => Ok (search_loop isos d a)
  end.

(** pd_stor_stats, src/pd_storage.c lines 489-525: (nhashes, nelts).  Simplification: the
    walk over the JudySL is recursion over its entries; JLC counts entries. *)
Fixpoint stats_loop (m : @judySL (@judyL P)) (nh ne : Z) : Z * Z :=
  match m with
  | [] => (nh, ne)
  | (_, a) :: m' => stats_loop m' (u32 (nh + 1)%Z) (u32 (ne + u32 (Z.of_nat (length a)))%Z)
  end.
Definition pd_stor_stats (s : pdstor) : Z * Z := stats_loop (hmap s) 0 0.

(** The user's way of visiting a store: firstelt, then nextelt until NULL. *)
Fixpoint visit_rest (fuel : nat) (s : pdstor) : res (pdstor * list (nat * D)) :=
  match fuel with
  | O => Fuel
  | S f =>
      do r <- pd_stor_nextelt s;
      match snd r with
      | None => Ok (fst r, [])
      | Some e => do q <- visit_rest f (fst r); Ok (fst q, e :: snd q)
      end
  end.
Definition visit (fuel : nat) (s : pdstor) : res (pdstor * list (nat * D)) :=
  do r <- pd_stor_firstelt s;
  match snd r with
  | None => Ok (fst r, [])
  | Some e => do q <- visit_rest fuel (fst r); Ok (fst q, e :: snd q)
  end.

(** Histories: adding codes in order, each with its own equivalence mode, collecting the
    uids reported. *)
Fixpoint add_all (s : pdstor) (h : list (D * equivalence)) : res (pdstor * list nat) :=
  match h with
  | [] => Ok (s, [])
  | (d, eq) :: h' =>
      do r <- pd_addto_pdstor s d eq;
      do q <- add_all (fst r) h';
      Ok (fst q, snd r :: snd q)
  end.

(** ** Store files.  Simplification: the text is reduced to the header (three numbers, the
    streaming form with question marks, or something that does not parse) and the list of
    what pd_read makes of the successive blocks of text ([None] = pd_read returns NULL). *)
Inductive header := Counted (claimed actual nhashes : Z) | Streaming | Unparsable.

(** pd_write_pdstor, src/pd_storage.c lines 581-635: the header and the codes written, each
    with the uid it gets in the file. *)
Definition pd_write_pdstor (fuel : nat) (s : pdstor) : res (pdstor * header * list (nat * D)) :=
  let (nh, ne) := pd_stor_stats s in
  let h := Counted (pd_stor_nelts s) ne nh in
  if (ne =? 0)%Z then Ok (s, h, [])
  else
    do r <- visit fuel s;
    Ok (fst r, h, combine (seq 0 (length (snd r))) (map snd (snd r))).

(** the reading loop, src/pd_storage.c lines 763-788: [n] is nelts - elt; at the end of the
    blocks the loop either stops because of feof or gets NULL from pd_read. *)
Fixpoint read_loop (eq : equivalence) (n : Z) (body : list (option D)) (s : pdstor)
  : res (option pdstor) :=
  if (n <=? 0)%Z then Ok (Some s)
  else match body with
       | [] => Ok None
       | None :: _ => Ok None
       | Some d :: body' =>
           do r <- pd_addto_pdstor s d eq;
           read_loop eq (n - 1) body' (fst r)
       end.

(** pd_read_pdstor, src/pd_storage.c lines 695-811.  UINT_MAX is 4294967295.  When feof
    stops the loop, elt <> nelts and NULL is returned; when it does not, pd_read is called
    at the end of the file and returns NULL: [read_loop] answers NULL in both cases. *)
Definition pd_read_pdstor (verbose : bool) (eq : equivalence) (h : header) (body : list (option D))
  : res (option pdstor) :=
  match h with
  | Unparsable => Ok None
  | Streaming => read_loop eq 4294967295 body pd_new_pdstor
  | Counted claimed actual _ =>
      if negb (claimed =? actual)%Z && verbose then Ok None
      else read_loop eq claimed body pd_new_pdstor
  end.

(** pd_display_pdstor, src/pd_storage.c lines 527-579: only the first access matters here:
    the hash of the first element is read without a NULL check. *)
Definition pd_display_first (s : pdstor) : res (nat * D) :=
  do r <- pd_stor_firstelt s;
  match snd r with None => UB | Some e => Ok e end.

End PdStor.
Arguments mkStor {P}. Arguments hmap {P}. Arguments nelts {P}. Arguments it_hash {P}.
Arguments it_uid {P}. Arguments it_ptr {P}.
