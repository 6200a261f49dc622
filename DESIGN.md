# Formal model of plCurve / plcTopology in Rocq — design

The code under study is the C library in `/repo/src` (plCurve, pd codes). This
document says, for each property in `properties.jsonl`, what is modelled and how
it is proved. The trusted base and the limits of the model are at the end.

## Modelling conventions

* Every C function we model is a total Gallina function. C outcomes are explicit:
  `Ok v` (normal return), `Fail` (a failed `assert`, `exit(1)` or an error exit) and
  `UB` (undefined behaviour: out-of-bounds access, use of an unset index ...).
  A loop is modelled by structural recursion or by fuel; running out of fuel is
  its own outcome and theorems prove that it does not happen.
* Buffers are lists, indices are `nat`, machine arithmetic that matters for a
  property (wrap-around, shifts, packing) is on `Z`/`N` with explicit modulus.
* Every definition cites the file and lines it models and says what it simplifies.
* Specification predicates live beside the model in small `..Spec` sections that
  do not mention the model's helpers; property theorems live in `Thm_*.v`, each
  followed by a concrete example meeting its hypotheses and `Print Assumptions`.
* Where the code violates the natural property we prove a `_refuted` theorem
  giving a concrete reachable counterexample, and the strongest true variant.

## Plan per property

(The Coq files are in `rocq/theories`.)

| id | model | proof |
|----|-------|-------|
| C01 | `pd_perm.c` increment as list function | next-permutation lemma: increment = lexicographic successor; orbit of identity is all of S_n by well-founded induction on lex order |
| C02 | compose / inverse / period | equational, lists as functions |
| C03 | `pd_cyclic.c`, `pd_dihedral.c` increment | closed form of the k-th iterate by induction |
| C04 | `pd_multidx.c` odometer over abstract cyclic iterators | mixed-radix counting argument |
| C05, C06 | `pd_container.c` with explicit capacity | invariant over operation histories |
| C07 | `pd_sortedbuf.c` incl. the binary search | invariant over insert histories |
| C08 | `pd_storage.c`, abstract equivalence, Judy arrays as sorted association lists | invariant over histories |
| C09–C11 | `pd_pack.c` bit level | round trip by induction on crossings; width lemma with `Z.log2_up` |
| C12–C14 | `pd_cross_ok`, `pd_edges_ok`, `pd_comps_ok`, `pd_faces_ok` | checker soundness (and completeness where true) against an independent specification; `_refuted` for coverage |
| C15 | `pd_regenerate_faces` | the turn map is a permutation; orbit decomposition by fuel bound |
| C16 | `pd_regenerate_crossings` | relabelling invariant |
| C17 | `pd_regenerate_edges/comps` | traversal invariant |
| C18 | `pd_copy` | structural |
| C19 | `pd_write`, `pd_read` over character lists with a model of printf/scanf conversions used | parser/printer inversion |
| C20, C21 | `pd_regenerate_hash`, `base64encode` | hash is a function of sorted invariants; codec injectivity |
| C22, C23, C37 | sign conventions, alternation, linking number | case analysis + sums |
| C24–C27 | `pd_isomorphisms.c` | group laws; soundness of the crossing-map check; completeness of the enumeration |
| C28, C29 | `pd_operations.c` through `pd_apply_edgemap` | relabelling algebra |
| C30–C34 | `pd_crossingmoves.c`, `pd_simplify.c` | index-map invariants |
| C35 | `pd_splitdiagram.c` flood | reachability |
| C36 | `pd_invariants.c` | swaps of bubble sort = inversions; interlacing parity |
| C38–C42 | constraint lists of `plCurve.c` | refinement to a map from vertices to constraints; `_refuted` for the cross-component merge and for the table growth in `plc_read` |
| C43–C45 | `plCurve.c` vertex numbering, wrap, add/drop component | arithmetic, lists |
| C46, C47 | `kascentpermutation.c` | insertion changes ascents by 0/1; inverse construction |
| C48 | `plcRandomSap.c` xoshiro | bit-vector algebra |
| C49 | triangulation builders | induction on polygon |
| C50 | `polynomials.c` product | coefficient semantics |
| C51, C52 | `pd_write_pdstor`, `pd_read_pdstor` over header and parsed codes | induction on the file |
| C53 | `plc_copy` | structural |
| C54 | `pd_regenerate` as a whole (`Thm_Regen.v`, `Unsigned.v`) | composition of the steps; canonical numbering |
| C55 | consequences of planarity: cycles separate, checkerboard colouring, parity (`Homology.v`, `Planar.v`, `Thm_Planar.v`) | rank computation over F2 in mathcomp |
| C56 | hypersimplex and cube-slice samplers (`Hypersimplex.v`) | rational arithmetic |
| C57 | xoshiro jump (`XoshiroJump.v`) | polynomial arithmetic over F2 with a certificate |
| C58 | `pd_read` on arbitrary text | inversion of the reader; `_refuted` for three kinds of malformed text |
| C59 | the store with the real packing, hash and isomorphism test (`Thm_StoreIso.v`) | instantiation of C08 by C10, C26 and the invariance of the hash |
| C60 | the isotopy part of `PdIso.v`, specification in `IsotopySpec.v` (`isotopy`: what a user means; `kept`: what the code builds) | `IsotopyProofs.v`: the rotations are enumerated completely and each edge map extends to at most one pair of crossing and face maps; `IsotopyMoves.v`: `isotopy` and `kept` agree unless a component has two edges; three refuted variants in `Thm_Isotopy.v` |
| C61 | `Bigon.v` (all of `pd_R2_bigon_elimination`, the splitting case included), specification in `RemoveSpec.v` (`crossings_removed`) and `BigonSpec.v` (`bigon`, `one_above`) | `FacePlaces.v`, `BigonSite.v`: what the neighbourhood of a bigon looks like; `BigonStrands.v`, `BigonCorners.v`: the program finds the two strands and the outer faces; `CutProofs.v`, `RemoveProofs.v`, `BigonCycles.v`, `BigonFrame.v`: leaving out crossings and sewing edges together keeps consistency, components, connectedness and Euler's formula; `BigonCase.v`, `Thm_Bigon.v`. Not proved: the splitting case and diagrams with two crossings |
| C62 | `Tangle.v` (`pd_tangle_new`, `pd_tangle_ok`, `pd_regenerate_tangle`, `pd_tangle_bdy_or`), specification in `TangleSpec.v` (`closed_curve`, `two_sides_of`, `boundary_found`, `lists_only`, `lists_all`) | `TangleSides.v`: a closed curve separates, from the homology of the dual diagram (`Homology.cycles_bound`); `TangleWalk.v`: strands enter and leave, by walking on until the boundary; `TangleInside.v`: the depth-first search stays inside and visits everything that it can reach, which is everything when no edge is a curl to the right; `TangleRegen.v`: the result passes the checks. The unrestricted claim about the contents is refuted (`tangle_contents_refuted`) |
| C63 | `CCode.v` (`pdcode_to_ccode`; reading and `conchk` in `pllmpoly02.c`), specification in `CCodeSpec.v` (`describes`, `code_text`) | `CCodeProofs.v`: the letters are those of the specification and the buffer is large enough; `CCodeRead.v`: round trip by induction on the lines, including the conversion of numbers to short and the 10239-character limit; `CCodeCheck.v`: the check walks along the strands of the diagram, one round for each; `CCodeFaith.v`: the code determines the diagram. Refuted outside the bounds: 250 crossings, unsigned diagrams |
| C64 | `Build.v` (the builders of torus knots, twist knots, plaited unknots and chains), specification in `BuildSpec.v` (`shaped`: the list of joined places; `built_as`) | `Layout.v`: a table of edges with a consistent set of faces and a connected colouring is regenerated to a valid diagram with the same joined places, whatever orientations are chosen; `Table.v`: the assignments give such a table; one file per family gives its strands, faces and connectedness for all sizes; `BuildAlt.v` reduces alternation to a parity argument on the joined places. Refuted: even twist knots do not alternate, chains of more than 64 rings |
| C65 | `KTheory.v` (writing and reading KnotTheory codes, with the twelve pictures for components of two edges), specification in `KTheorySpec.v` (`kt_code`) | `KTheoryText.v`: the scanner reads back the printed numbers; `KTheoryProofs.v`: invariant of the sweep (after k crossings the ends at the first k crossings are those of the diagram, turned to start at the lower strand), the guess of directions is right because edges are numbered along components of three or more edges, and no picture of a two-edge component matches; `KTheoryRegen.v`: regenerating turns the crossings back and leaves the diagram. Refuted: two-edge components, the code without crossings, numbers that are too large |
| C66 | `Nearest.v` (exhaustive search, choice of the search dimension, search in the sorted points, saved data of points and of curves) | `Thm_Nearest.v`: invariant of the scans (the best so far is the nearest of all seen; when a scan stops, all points beyond are farther in the search coordinate alone); invariant of the saved data (the saved order sorts the list at the saved address) over every history of searches; `sorts` is what is asked of qsort. Failing cases: lists changed under the saved data, curves without components |
| C67 | `Project.v` (`segment_side`, `locate_crossing`, `tag_as_trouble`, the loops over pairs of edges, `findcrossings`) | `ProjectSpec.v` says what crosses what, above and to which side; `ProjectGeo.v`: opposite sides on both segments are the same as a transversal crossing, edges that share an end do not cross, every other pair is looked at in exactly one order; `ProjectFind.v`: one record for each pair that crosses. `Thm_Project.v` |
| C68 | `Project.v` (`divide_crossings_by_component`, `assemble_pdcode`, the attempts of `pd_code_from_plCurve`) | `ProjectSpec.v` (`drawing`: one strand for each component, following its route through the crossings); `ProjectProofs.v`: sorting and binary search by the tolerant comparison find the right passages; `ProjectDraw.v`: the edges written at the crossings form the drawing; `ProjectAssemble.v`: regeneration keeps it. `Thm_Project.v` |
| C69 | `Whitten.v` (`perm`, `iperm`, `plc_whitten`; vertices are an arbitrary type with an operation that changes the sign of the third coordinate) | `WhittenSpec.v` (`writes_perm`: first occurrences are followed by images; `whitten_image`: the transformation rule in the comment of the code). The composition law follows from the action and from the uniqueness of wrapped components. `Thm_Whitten.v` |
| C70 | `PolyText.v` (`lmpoly_to_polynomial` with its bracket search, its count of blanks and its array bound, `poly_to_latex`, `poly_to_mathematica`, and their compositions) | `PolyTextSpec.v` (a table of rows with negative, zero and positive powers, its text, its entries; LaTeX and Mathematica forms). Reading by induction over rows and blocks; the written forms are uniquely decodable. `Thm_PolyText.v` |
| C71 | `KtTable.v` (the table `ktdb`, generated row by row from homfly.h), `Classify.v` (`homcmp`, the scan down and up from the row found, the special cases, `pd_classify`, `plc_classify`; `bsearch` and `lmpoly` are parameters) | `ClassifySpec.v` (order, contract of `bsearch`, factors, product of coefficients). The scan by induction over a sorted table; the facts about the table by checkers proved sound for every table and evaluated on this one by the kernel. `KtProofs.v`, `Thm_Classify.v` |
| C72 | `KtText.v` (`plc_write_knottype`, `plc_read_knottype` with the position of the pointer in the working copy) | Unique decodability of the names; undefined behaviour of reading by induction over the tokens. `Thm_KtText.v` |
| C73 | `Sap.v` (`plc_is_sap` and its internal version) | Pairwise distances in the theorem file. Induction over vertices and components. `Thm_Sap.v` |
| C74 | `Sampler.v` (`plc_random_equilateral_closed_self_avoiding_polygon` over the real numbers, with NaN and infinity as UB) | `Thm_Sampler.v` states what a polygon of pearls is. The frame stays orthonormal, the law of cosines gives the edges, by induction over the vertices and the trials. `SamplerProofs.v` |
| C75 | `Hopf.v` (`hopfImap`, `HermitianDot`, the orthonormalization, the self checks, and the four samplers) | `Thm_Hopf.v` states lengths and closedness of polygons. Hermitian linear algebra on lists; the Hopf map takes norms to lengths and orthogonality to closedness, and has explicit preimages. `HopfProofs.v` |
| C76 | `Fan.v` (`fantriangulation_action_angle`, the drawing of diagonals and angles, `plc_random_equilateral_closed_polygon`) | `Thm_Fan.v` states edges, diagonals and dihedral angles by coordinates. Invariant of the loop: a frame of the last vertex and the unit normal of its triangle; completeness by expanding the next vertex in that frame. `FanProofs.v` |
| C77 | `Rotate.v` (`plc_rotate_vect`, `plc_rotate`, `plc_pfm`) | `Thm_Rotate.v` states the rotation by Rodrigues' formula and what it does to a frame. The code computes the formula off the axis and moves by at most twice the epsilon otherwise; edges by the triangle inequality and the fixed points of the fold. `RotateProofs.v` |
| C78 | `Closure.v` (`plc_random_ftc_internal`, `plc_arclength`, `plc_translate`, `plc_loop_closure`) | `Thm_Closure.v` states lengths with the distances of `Thm_Hopf.v`. The arc is compared with its image under an exact rigid motion; the differences (the code leaves vectors below its tolerances alone) are summed along the arc. `ClosureProofs.v` |
| C79 | `Measure.v` (`plc_s`, `plc_subarc_length`, `plc_pointset_diameter`, `plc_center_of_mass`, `plc_gyradius`, `plc_mean_squared_chordlengths`, `plc_project`, `plc_random_rotate`) | `Thm_Measure.v` states lengths between vertices, means over lists and pairs, and rotations by inner and cross products. Loops by induction over segments; the diameter by an invariant over the list of pairs visited; sums of squares by algebra. `MeasureProofs.v` |
| C80 | `Geometry.v` (`plc_angle`, `plc_normal`, `plc_circumcenter`, `plc_3plane_intersection`, `plc_tetrahedron_inradius`, `plc_dihedral_angle`, `plc_turning_angle`, `plc_totalcurvature`) | `Thm_Geometry.v` states angles by acos of inner products, centers by distances, intersections by plane equations, inscribed spheres by the distances of an inner point from the faces, and dihedral angles by the rotation of one normal to the opposite of the other. atan2 by its quadrants; Lagrange's identity; Cramer's rule; expansion in an orthonormal frame. |
| C81 | `DeleteArc.v` (`plc_delete_arc`) on the buffers of `PlcStrands.v` | `Thm_DeleteArc.v` states the vertices that are left by `skipn` and `firstn` of the list of vertices, rotated for closed components. Invariant of the copy loops over buffers; the wrap-around vertices by the facts about `plc_fix_wrap`, extended to buffers that are longer than the component. |
| C82 | `Matrix.v` (`lu_decmp`, `solve_linear`, `plc_build_matrix`, `plc_matrix_vector_multiply`) | `Thm_Matrix.v` states the equations Ax = b and the determinant by its formula. One lemma for each column: which row comes to the top, that the pivot is not zero, and the entries after it; the determinant factors through the pivots. |
| C83 | `Stats.v` (`plc_edgelength_stats`, `plc_edges`, `plc_MR_curvature`, `plc_scale`) | `Thm_Stats.v` lists the edge lengths around each component and says what greatest, least and mean are; constraints are met by points, on lines and in planes. The loops are folds over that list; the curvature follows from the angle of C80 and the half-angle formulas; each kind of constraint is linear in the factor. |
| C84 | `Stats.v` (`plc_mean_tangent`) | `Thm_Stats.v` states the average of the two edges and what the direction of a vector is, which is unique. The chord between the neighbours is twice the average. |
| C85 | `CheckCst.v` (`plc_check_cst`, `Closest_line_point`, `Closest_plane_point`) | `Thm_CheckCst.v` says which vertices a constraint covers and uses `satisfies` of C83. The closest points are orthogonal projections, which are nearest by Pythagoras; the loops take the maximum of a list. |

## What is modelled

Per file of `/repo/src` (line numbers are in the comments of the model):

| source | model files | remarks |
|--------|-------------|---------|
| `plCurve.c` (constraints, vertex numbering, strands, components, VECT counts) | PlcConstraints, PlcVect, PlcStrands | coordinates are opaque values |
| `pd_perm.c`, `pd_cyclic.c`, `pd_dihedral.c`, `pd_multidx.c`, `pd_orientation.c` | Perm, PermData, Iterators | pc_idx tables included |
| `pd_container.c`, `pd_sortedbuf.c` | Containers | elements are opaque |
| `pd_storage.c` | PdStore | Judy arrays as sorted association lists; packing and the isomorphism test are parameters, instantiated in Thm_StoreIso |
| `pdcode.c` (checks, crossings, edges, components, faces, hash, regenerate, copy) | Pd, PdCross, PdEdges, PdComps, PdFaces, PdHash, PdRegen, Compact | |
| `pdcode.c` (`pd_write`, `pd_read`) | TextIO | texts as lists of bytes, the scanf directives used are interpreted; the C locale; what is left in the stream after NULL is not modelled |
| `pd_pack.c` | PdPack | bits as lists of Booleans |
| `pdcode.c` over/under, alternation, linking | OverUnder | |
| `pd_isomorphisms.c` | PdIso, IsoSpec, DiagIso | |
| `pd_operations.c` | PdOps | |
| `pd_crossingmoves.c` (loop addition and removal, bigon removal, connected sum), `pd_simplify.c` | Moves, Deloop, Bigon, Simplify, ConnectSum | |
| `pd_tangles.c` (making, checking and rebuilding tangles, directions on the boundary) | Tangle | tangle slides and flypes (lines 1040-3553) |
| `plcTopology.c` lines 98-281 (crossing codes), `pllmpoly02.c` (reading a code, `conchk`) | CCode | the computation of the polynomial |
| `pdcode_testcodes.c` lines 35-460 (builders), `pdcode.c` 45-79, 231-241 | Build | index arithmetic modulo 2^32 |
| `pdcode.c` 2811-2873, 3640-4273 (KnotTheory codes) | KTheory | %d read like %lu |
| `nearest_neighbor.c` | Nearest | exact rational coordinates; comparisons with a square root are comparisons of squares; DBL_MAX is infinity; freed memory not modelled |
| `plwhitten.c` | Whitten | sharing of a component by two entries is UB |
| `polynomials.c` (57-328) | PolyText | `lmpoly` (lmpoly02.c) itself is not modelled; a number outside of int, a full array and a full output buffer are UB; `sscanf` is modelled for texts that begin with a digit or a sign |
| `plcTopology.c` (1521-1712), `homfly.h` (24-1114) | Classify, KtTable | `lmpoly` with its time limit and `bsearch` are parameters; printing to stderr is left out |
| `plcTopology.c` (1713-1775) | KtText | the file is the text written; `strtok_r` as in the GNU library |
| `plcRandomSap.c` (143-213) | Sap | rational coordinates; messages are left out |
| `plcRandomSap.c` (216-430) | Sampler | real numbers; the buffer is the list of vertices placed so far |
| `plcRandomPolygon.c` (59-511) | Hopf | real numbers; the draws are an arbitrary sequence |
| `plcRandomPolygon.c` (797-962), `vector.c` (`plc_normalize_vect`, `plc_cross_prod`, `plc_vlincomb`) | Fan | real numbers |
| `plCurve.c` (2463-2605), `vector.c` (517-562) | Rotate | real numbers; the wrap-around cells hold what `plc_fix_wrap` puts there; symmetry groups and constraints are left out |
| `plcRandomPolygon.c` (995-1276), `plCurve.c` (1921-1952, 2607-2629) | Closure | real numbers; colors, constraints and the self check are left out |
| `plCurve.c` (230-256, 1514-1524, 1959-2003, 2407-2429, 2707-2894) | Measure | real numbers |
| `vector.c` (124-167, 249-514), `plCurve.c` (1587-1626, 1663-1717) | Geometry | real numbers; the constant PI of the code is pi |
| `plCurve.c` (739-751, 2896-3006) | DeleteArc | memory that is not freed and the quantifiers are left out |
| `matrix.c` (37-277) | Matrix | real numbers; arrays are functions of their indices |
| `plCurve.c` (257-296, 1478-1510, 1630-1659, 1882-1912, 2431-2466) | Stats | real numbers; wrap-around vertices as in Rotate; a constraint has its kind, two vectors and its range |
| `plCurve.c` (124-228, 298-340) | CheckCst | real numbers; the array of three coordinates and its index swaps are three cases |
| `plcTopology.c` lines 355-1510 (polygons to diagrams) | Project | exact rational arithmetic; the law of sines in `locate_crossing` is the exact solution of the linear equations, its `ok` flag a parameter; perturbations and the thickness test are parameters; qsort is a parameter with the contract `sorts_all` |
| `pd_invariants.c` | Interlace | `int` as Z |
| `pd_splitdiagram.c` | Split | |
| `polynomials.c` | Poly | coefficients and exponents as Z |
| `kascentpermutation.c` | KAscent | the draw and the table of probabilities are inputs |
| `plcToricSymplecticTriangulation.c` (chord systems) | Triang, Hypersimplex | doubles as rationals |
| `plcRandomSap.c` xoshiro | Xoshiro, XoshiroData | 64-bit words as N with explicit modulus |

Simplifications common to all of these: integers that count or index are `nat` (the
code uses `pd_idx_t`, unsigned 32 bit; where wrap-around can be observed it is
modelled), memory allocation always succeeds, verbosity (`PD_VERBOSE`) is off, a
failed `assert`, `exit` or `pd_error` is the outcome `Fail`, and a read or write
outside an array is `UB`. Random draws are inputs.

## Trusted base

* The kernel of Coq 8.16.1 (`coqc`, re-checked by `coqchk`), including its
  virtual machine, which evaluates the concrete examples, two certificates and the checks of the
  table of knots.
* `Print Assumptions` stands under every property theorem. It reports "Closed under
  the global context" for all of them except those about real numbers
  (`Thm_Sampler.v`, `Thm_Hopf.v`, `Thm_Fan.v`, `Thm_Rotate.v`, `Thm_Closure.v`, `Thm_Measure.v`, `Thm_Geometry.v`, `Thm_Matrix.v`, `Thm_Stats.v`, `Thm_CheckCst.v`), which list the three axioms of the standard library's
  `Reals`: `ClassicalDedekindReals.sig_not_dec`,
  `ClassicalDedekindReals.sig_forall_dec` and
  `FunctionalExtensionality.functional_extensionality_dep`. No axiom of any other
  library is used, and none is declared here.
* `Homology.v` uses mathcomp (matrices over F2) for one rank computation. `coqchk`
  lists the sealed names of mathcomp's own modules among its axioms; they are
  definitions behind module signatures and the theorems do not depend on them
  (`Print Assumptions` is closed).
* The reading of the C code: that each definition does what the cited lines do.
  The comments name every simplification. `seeded/LOG.jsonl` records wrong
  variants of the model and the theorems that rejected them.
* Not trusted, and not needed: tests, extraction, the C compiler.

## Not modelled

Floating-point rounding; the geometry of splines, octrope, minrad and the other random polygons; VECT numerics,
the HOMFLY engine (`lmpoly`), third-party code (Judy, planarity, argtable, GSL),
memory allocation failure, and `pd_embed.c`/`pd_avl.c` (not part of the build).
