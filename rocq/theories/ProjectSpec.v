(** Specification: the crossings of the projection of a polygon, and the diagrams they form. *)
From Coq Require Import List ZArith QArith Qabs Bool Arith Permutation Sorted.
From Verif Require Import Base Iterators Pd PdSpec Relabel Strands OverUnderSpec Nearest Project.
Import ListNotations.
Open Scope nat_scope.

(** ** polygons *)
(** edge [i] of component [c] runs from [a] to [b] *)
Definition edge_from_to (L : polygon) (c i : nat) (a b : vec) : Prop :=
  exists s, nth_error L c = Some s /\ nth_error (st_vt s) i = Some a /\ nth_error (st_vt s) ((i + 1) mod length (st_vt s)) = Some b.
(** the point at parameter [t] of the way from [a] to [b] *)
Definition between (a b : vec) (t : Q) : vec :=
  mkVec (vx a + t * (vx b - vx a)) (vy a + t * (vy b - vy a)) (vz a + t * (vz b - vz a)).
(** positive if one turns left from the direction of [a b] to the direction of [c d], both seen from above *)
Definition turn (a b c d : vec) : Q := ((vx b - vx a) * (vy d - vy c) - (vy b - vy a) * (vx d - vx c))%Q.
(** seen from above, the inner points at parameters [s] and [t] of [a b] and [c d] lie on each other, and the segments cross there *)
Definition cross_at (a b c d : vec) (s t : Q) : Prop :=
  (0 < s < 1 /\ 0 < t < 1 /\ vx (between a b s) == vx (between c d t) /\ vy (between a b s) == vy (between c d t) /\ ~ turn a b c d == 0)%Q.
(** edge [iu] of component [cu] passes over edge [il] of component [cl], at parameters [su] and [sl]; [left] tells whether the lower edge
    crosses to the left *)
Definition passes (L : polygon) (cu iu cl il : nat) (su sl : Q) (left : bool) : Prop :=
  exists a b c d, edge_from_to L cu iu a b /\ edge_from_to L cl il c d /\ cross_at a b c d su sl /\
    (vz (between c d sl) < vz (between a b su))%Q /\ (left = true <-> 0 < turn a b c d)%Q.
(** a record of such a crossing; its sign is positive when the lower strand crosses to the left *)
Definition record_of (x : xrec) (cu iu cl il : nat) (su sl : Q) (left : bool) : Prop :=
  upper_cmp x = cu /\ lower_cmp x = cl /\ (upper_s x == Qnat iu + su)%Q /\ (lower_s x == Qnat il + sl)%Q /\
  x_sign x = (if left then 1 else -1)%Z.
(** no two points of the curve on which edges cross, seen from above, have the same height *)
Definition no_touching (L : polygon) : Prop :=
  forall c i c' i' a b a' b' s t, edge_from_to L c i a b -> edge_from_to L c' i' a' b' -> cross_at a b a' b' s t ->
    ~ (vz (between a b s) == vz (between a' b' t))%Q.
(** [cc] lists all crossings of the projection, each once *)
Definition all_crossings (L : polygon) (cc : list xrec) : Prop :=
  (forall x, In x cc -> exists cu iu cl il su sl left, passes L cu iu cl il su sl left /\ record_of x cu iu cl il su sl left) /\
  (forall cu iu cl il su sl left, passes L cu iu cl il su sl left ->
     exists k x, nth_error cc k = Some x /\ record_of x cu iu cl il su sl left /\
       forall k' x' su' sl' left', nth_error cc k' = Some x' -> record_of x' cu iu cl il su' sl' left' -> (0 < su' < 1)%Q -> (0 < sl' < 1)%Q -> k' = k).

(** ** diagrams *)
(** a passage of a component, at a parameter, through crossing [xs_num], over or under *)
Definition passage (cs : list xrec) (v : xstrand) : Prop :=
  exists x, nth_error cs (xs_num v) = Some x /\
    if xs_upper v then xs_cmp v = upper_cmp x /\ xs_s v = upper_s x else xs_cmp v = lower_cmp x /\ xs_s v = lower_s x.
(** the passages of component [c] in the order in which they are met *)
Definition route (cs : list xrec) (c : nat) (l : list xstrand) : Prop :=
  (forall v, In v l <-> passage cs v /\ xs_cmp v = c) /\ StronglySorted (fun a b => xs_s a < xs_s b)%Q l.
(** edge [e] runs from passage [v] to passage [w] *)
Definition runs (d : pd) (e : nat) (v w : xstrand) : Prop :=
  exists E, edge_at d e E /\
    e_tail E = xs_num v /\ (if xs_upper v then over_at d (e_tail E) (e_tailpos E) else under_at d (e_tail E) (e_tailpos E)) /\
    e_head E = xs_num w /\ (if xs_upper w then over_at d (e_head E) (e_headpos E) else under_at d (e_head E) (e_headpos E)).
(** the edges [es], in this order, run from each passage to the next *)
Definition follows (d : pd) (es : list nat) (l : list xstrand) : Prop :=
  length es = length l /\
  forall k e v w, nth_error l k = Some v -> nth_error l ((k + 1) mod length l) = Some w -> nth_error es ((k + 1) mod length l) = Some e -> runs d e v w.
(** [d] is the diagram of [nc] components with crossings [cs]: crossing number [i] has the sign of record [i], and there is one strand
    for each component, which follows its route *)
Definition drawing (nc : nat) (cs : list xrec) (d : pd) : Prop :=
  ends_recorded d /\ goes_through d /\ two_ended d /\ ncross d = length cs /\
  (forall i x, nth_error cs i = Some x -> sign_at d i (if (0 <? x_sign x)%Z then Pos else Neg)) /\
  exists strands, length strands = nc /\ strand_partition d strands /\
    forall c es, nth_error strands c = Some es -> exists l, route cs c l /\ follows d es l.
(** the crossings are between components with numbers below [nc] *)
Definition within (nc : nat) (cs : list xrec) : Prop := forall x, In x cs -> lower_cmp x < nc /\ upper_cmp x < nc.
(** every component passes through a crossing *)
Definition all_visited (nc : nat) (cs : list xrec) : Prop := forall c, c < nc -> exists v, passage cs v /\ xs_cmp v = c.
(** the crossings that are used: a curl (the component passes first under and then over itself,
    with positive sign) is added to a single component without crossings *)
Definition curl : xrec := mkX 0 0 (33 # 100) (66 # 100) 1.
Definition completed (nc : nat) (cs cs' : list xrec) : Prop := cs' = cs /\ all_visited nc cs \/ cs = [] /\ nc = 1 /\ cs' = [curl].
(** different passages of a component are at least 1e-8 apart, or at least as far or at the same place *)
Definition apart (cs : list xrec) : Prop :=
  forall v w, passage cs v -> passage cs w -> xs_cmp v = xs_cmp w -> v <> w -> (tenth 8 <= Qabs (xs_s v - xs_s w))%Q.
Definition apart_or_tied (cs : list xrec) : Prop :=
  forall v w, passage cs v -> passage cs w -> xs_cmp v = xs_cmp w -> (tenth 8 <= Qabs (xs_s v - xs_s w))%Q \/ (xs_s v == xs_s w)%Q.

(** ** qsort *)
(** the comparison agrees with a transitive relation on the members of the list *)
Definition consistent {A} (cmp : A -> A -> Z) (le : A -> A -> Prop) (l : list A) : Prop :=
  (forall x y z, In x l -> In y l -> In z l -> le x y -> le y z -> le x z) /\
  (forall x y, In x l -> In y l -> ((cmp x y <= 0)%Z -> le x y) /\ ((0 <= cmp x y)%Z -> le y x)).
Definition sorts_all (srt : sorter) : Prop :=
  forall A (cmp : A -> A -> Z) le l, consistent cmp le l -> Permutation (srt A cmp l) l /\ StronglySorted le (srt A cmp l).

(** ** perturbations *)
(** [G] is [L] after some of the perturbations [nudge] *)
Inductive reached (nudge : nat -> polygon -> polygon) (L : polygon) : nat -> polygon -> Prop :=
| reached_start : reached nudge L 0 L
| reached_step : forall n G, reached nudge L n G -> reached nudge L (n + 1) (nudge n G).
Definition closed (L : polygon) : Prop := forall s, In s L -> st_open s = false.
