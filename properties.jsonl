{"id": "C01", "title": "Permutation iterator enumerates S_n exactly once, in lexicographic order", "statement": "Starting from pd_new_perm(&n), repeatedly calling pd_increment_perm yields every permutation of {0..n-1} exactly once in lexicographic order before returning to the identity; the number of calls until the identity comes back is n!.", "quantifier": "every n >= 1 and every state the iterator can reach", "why_tests_cant": "n is unbounded and n! states per n; a test can only walk small n, while the successor logic (pivot, swap, reversal) has to be right at every one of them.", "anchors": ["src/pd_perm.c:pd_new_perm", "src/pd_perm.c:pd_increment_perm", "src/pd_perm.c:pd_nperms"]}
{"id": "C02", "title": "Permutation composition, inverse and period obey the group laws", "statement": "For permutations of the same size, pd_compose_perms is associative with pd_new_perm as unit, pd_inverse_perm is a two-sided inverse, pd_stareq_perm(A,B) leaves in A what pd_compose_perms(A,B) returns, and when pd_perm_period(A) returns k then k >= 1 is the least power with A^k = identity.", "quantifier": "all permutations of all sizes", "why_tests_cant": "infinitely many operand pairs and triples; wrong argument order is invisible on commuting examples.", "anchors": ["src/pd_perm.c:pd_compose_perms", "src/pd_perm.c:pd_stareq_perm", "src/pd_perm.c:pd_inverse_perm", "src/pd_perm.c:pd_perm_period"]}
{"id": "C03", "title": "Cyclic and dihedral iterators enumerate exactly the group action", "statement": "Starting from pd_new_cyclic(n) (pd_new_dihedral(n)) repeated increments visit exactly the n rotations (the n rotations and n reflections) of {0..n-1} once each and then return to the identity; each visited map is a bijection, and the *_ok check accepts every visited map (it does not, however, reject all other maps: an interleaving such as 1,3,0,2 passes).", "quantifier": "every n, every number of increments", "why_tests_cant": "unbounded n and the wrap-around step occurs once per 2n increments.", "anchors": ["src/pd_cyclic.c", "src/pd_dihedral.c"]}
{"id": "C04", "title": "Multi-index is an odometer over the product", "statement": "pd_increment_multidx, started at pd_new_multidx, visits every tuple of component states exactly once, last component fastest, and returns to the initial state after pd_multidx_nvals calls; it never produces an out-of-range component.", "quantifier": "every number of components and every list of component ranges, every number of calls", "why_tests_cant": "the state space is a product of unbounded ranges; carry propagation over arbitrarily many components cannot be enumerated.", "anchors": ["src/pd_multidx.c:pd_new_multidx", "src/pd_multidx.c:pd_increment_multidx", "src/pd_multidx.c:pd_multidx_nvals"]}
{"id": "C05", "title": "Container behaves as a sequence under any history", "statement": "After any sequence of pd_addto_container / pd_pop_container / pd_container_elt calls on a container from pd_new_container, the elements returned are those of an ideal stack with random access, and no write ever lands outside the allocated buffer, whatever the initial size and however often the buffer grew.", "quantifier": "every history of operations and every initial size request", "why_tests_cant": "histories are unbounded; growth happens at data-dependent moments.", "anchors": ["src/pd_container.c:pd_new_container", "src/pd_container.c:pd_addto_container", "src/pd_container.c:pd_pop_container", "src/pd_container.c:pd_container_elt"]}
{"id": "C06", "title": "Popping an empty container is not safe", "statement": "pd_pop_container on a container with zero elements wraps the element count and reads before the buffer: the sequence abstraction of the container holds only for histories that never pop more than was pushed.", "quantifier": "existential: a reachable state and call", "why_tests_cant": "shows the boundary of the container property; a test would hit undefined behaviour.", "anchors": ["src/pd_container.c:pd_pop_container"]}
{"id": "C07", "title": "Sorted buffer is a set", "statement": "Starting from an empty buffer, after any sequence of pd_sortedbuf_insert calls the buffer is strictly increasing, has no duplicates and contains exactly the inserted values; pd_sortedbuf_contains(x) answers true iff x was inserted.", "quantifier": "every sequence of inserted indices and every query", "why_tests_cant": "binary-search boundaries and insertion position range over unbounded arrays.", "anchors": ["src/pd_sortedbuf.c:pd_sortedbuf_insert", "src/pd_sortedbuf.c:pd_sortedbuf_contains", "src/pd_sortedbuf.c:pd_buf_contains"]}
{"id": "C08", "title": "pd store is a duplicate-free set with stable ids and complete iteration", "statement": "After any history of pd_addto_pdstor calls (with a fixed equivalence on diagrams), no two stored codes are equivalent under the chosen relation, every added code is equivalent to a stored one, adding an equivalent code returns the id of the stored one and leaves the store unchanged, ids under one hash are 1..k, nelts is the number of stored codes, and pd_stor_firstelt/nextelt visit each stored code exactly once.", "quantifier": "every history of insertions, for every equivalence relation that refines hash equality", "why_tests_cant": "quantifies over unbounded histories of an associative structure.", "anchors": ["src/pd_storage.c:pd_addto_pdstor", "src/pd_storage.c:pd_stor_firstelt", "src/pd_storage.c:pd_stor_nextelt", "src/pd_storage.c:pd_search_pdstor_by_isomorphism"]}
{"id": "C09", "title": "pd_unpack inverts pd_pack", "statement": "For every regenerated diagram with at least one crossing and with all crossing signs set, unpacking the packed form restores the crossing table (edges and signs), the head/tail table of the edges, the components, the faces and the hash; the capacity is reduced to the least possible and the uid reset. Diagrams with all signs unset come back with all crossings negative, partly signed ones are refused, and a diagram without crossings cannot be packed.", "quantifier": "every diagram of every size (crossing counts up to the index range)", "why_tests_cant": "the codec is bit-level with a width depending on log2 of the size; boundaries at every power of two.", "anchors": ["src/pd_pack.c:pd_pack", "src/pd_pack.c:pd_unpack", "src/pd_pack.c:pd_packbitstring", "src/pd_pack.c:pd_idx_bitencode"]}
{"id": "C10", "title": "Packed length is exact and indices always fit", "statement": "pd_packbits gives exactly the number of bits written by pd_pack, every edge number of an n-crossing diagram fits in pd_indexbits(n) bits, and bit strings of any length survive pack/unpack to 32-bit words.", "quantifier": "every crossing count n >= 1, every bit string", "why_tests_cant": "off-by-one errors in the width appear only at powers of two.", "anchors": ["src/pd_pack.c:pd_indexbits", "src/pd_pack.c:pd_packbits", "src/pd_pack.c:pd_packbitstring", "src/pd_pack.c:pd_unpackbitstring"]}
{"id": "C11", "title": "Packing forgets component tags", "statement": "A diagram with the same crossings and edges but different component tags packs to the same bits, so a diagram read back from a packed form (or from a pd store) may have tags different from those stored.", "quantifier": "existential: two diagrams", "why_tests_cant": "documents an information loss that no round-trip test on default tags shows.", "anchors": ["src/pd_pack.c:pd_pack", "src/pd_pack.c:pd_unpack"]}
{"id": "C12", "title": "pd_cross_ok / pd_edges_ok certify a 4-regular oriented incidence structure", "statement": "If pd_ok accepts a diagram then every edge number below nedges occurs exactly twice among the 4*ncross crossing slots, its record points at both ends to slots that hold it, strands go straight through crossings, nedges = 2*ncross (for ncross>0), and crossings are sorted. If moreover the two ends of every edge are different slots, every slot is the head of exactly one edge or the tail of exactly one edge; pd_ok does not check that condition itself.", "quantifier": "every diagram structure of every size accepted by pd_ok", "why_tests_cant": "the claim is about every accepted structure, including ones no generator produces.", "anchors": ["src/pdcode.c:pd_cross_ok", "src/pdcode.c:pd_edges_ok", "src/pdcode.c:pd_ok"]}
{"id": "C13", "title": "pd_comps_ok certifies a partition of the edges into oriented straight-ahead cycles", "statement": "If pd_ok accepts, the components partition the edges; within each component consecutive edges (cyclically) meet head-to-tail at opposite slots of one crossing and are numbered consecutively; tags are distinct. pd_ok checks neither that components are sorted by length nor that the least tag is at least 'A', and a component naming an edge that does not exist makes it read outside the edge table.", "quantifier": "every diagram accepted by pd_ok", "why_tests_cant": "as above.", "anchors": ["src/pdcode.c:pd_comps_ok"]}
{"id": "C14", "title": "pd_faces_ok certifies closed boundary walks but not completeness", "statement": "If pd_ok accepts, each face is a closed walk in which consecutive oriented edges turn left at each crossing, starts from a lowest edge, and faces are sorted; but pd_ok also accepts structures whose faces are missing or repeated (so the Euler count nfaces = ncross+2 is not implied), and divides by zero on an empty face.", "quantifier": "every accepted diagram (first half); existential (second half)", "why_tests_cant": "first half is universal; second half is a boundary that tests of generated diagrams never reach.", "anchors": ["src/pdcode.c:pd_faces_ok", "src/pdcode.c:pd_ok"]}
{"id": "C15", "title": "Face regeneration covers every oriented edge exactly once", "statement": "On every diagram whose crossings and edges are consistent, pd_regenerate_faces terminates; it either stops with an error or produces faces in which each (edge, orientation) pair occurs exactly once, each face is an orbit of the turn-at-the-crossing map, and the result passes the face check of pd_ok. It succeeds exactly when ncross+2 such faces exist, fit in the face table, and none is longer than the number of edges.", "quantifier": "every consistent crossing/edge structure of every size", "why_tests_cant": "termination and coverage of an orbit decomposition over all diagrams.", "anchors": ["src/pdcode.c:pd_regenerate_faces", "src/pdcode.c:pdint_next_edge_on_face"]}
{"id": "C16", "title": "Crossing regeneration is a relabelling to canonical form", "statement": "pd_regenerate_crossings rotates each crossing to start from its lowest edge, sorts the crossings, and rewrites the edges so that the diagram is the same up to renaming of crossings and rotation of slots: the multiset of cyclic edge quadruples with signs is unchanged, and head/tail consistency is preserved; a second call changes nothing.", "quantifier": "every consistent diagram", "why_tests_cant": "universal over diagrams, including repeated edges at one crossing.", "anchors": ["src/pdcode.c:pd_regenerate_crossings", "src/pdcode.c:pd_canonorder_cross"]}
{"id": "C17", "title": "Component regeneration renumbers edges consecutively along strands", "statement": "From any crossing table in which each edge number occurs exactly twice, pd_regenerate_edges and pd_regenerate_comps produce a head/tail table and a component list such that following edges straight through crossings traces each component in increasing edge number, each edge lies on exactly one component, and the crossing table is the old one with edges renamed by a bijection.", "quantifier": "every 4-valent crossing table", "why_tests_cant": "universal over combinatorial structures; orientation choices are data dependent.", "anchors": ["src/pdcode.c:pd_regenerate_edges", "src/pdcode.c:pd_regenerate_comps"]}
{"id": "C18", "title": "pd_copy preserves the diagram", "statement": "pd_copy returns a structure with the same uid, hash, tags, crossings, edges, components and faces and disjoint storage, for diagrams with at least one crossing; for a crossing-free diagram it instead returns a fresh unknot, losing tag and uid.", "quantifier": "every diagram", "why_tests_cant": "universal copy law plus a boundary case.", "anchors": ["src/pdcode.c:pd_copy", "src/pdcode.c:pd_copy_newsize"]}
{"id": "C19", "title": "Text format round trip", "statement": "pd_read applied to the text pd_write produced for a valid diagram with at least one crossing and a set hash restores uid, hash, crossings with signs, edges, components with tags and faces exactly.", "quantifier": "every valid diagram of every size", "why_tests_cant": "parsers and printers must agree on every number and every list length.", "anchors": ["src/pdcode.c:pd_write", "src/pdcode.c:pd_read_err"]}
{"id": "C20", "title": "Hash is a diagram invariant", "statement": "Diagrams related by an isomorphism (relabelling of crossings, edges, components, faces) get the same hash from pd_regenerate_hash, so a pd store never files isomorphic diagrams under different hashes.", "quantifier": "all pairs of isomorphic diagrams", "why_tests_cant": "quantifies over all relabellings.", "anchors": ["src/pdcode.c:pd_regenerate_hash"]}
{"id": "C21", "title": "Base-64 hash encoding is well formed", "statement": "The encoder turns every three bytes into four characters of the base-64 alphabet that stand for the same 24 bits, so different byte vectors get different texts; the text stored in a diagram is cut to 31 characters, which loses exactly the last six bits of the last of the 24 bytes.", "quantifier": "every byte string", "why_tests_cant": "universal injectivity.", "anchors": ["src/pdcode.c:base64encode", "src/pdcode.c:encodeblock"]}
{"id": "C22", "title": "Alternation test is correct", "statement": "pd_is_alternating answers true iff along every component over- and under-passes alternate, for diagrams with all signs set.", "quantifier": "every diagram", "why_tests_cant": "walk around components of any length.", "anchors": ["src/pdcode.c:pd_is_alternating"]}
{"id": "C23", "title": "Over/under strand queries agree with the sign convention", "statement": "pd_overstrand and pd_understrand return the incoming/outgoing pair of edges of the upper/lower strand; the two pairs together are the four slots of the crossing, each pair is opposite slots, and flipping the crossing sign swaps them.", "quantifier": "every crossing of every consistent diagram with sign set", "why_tests_cant": "eight local configurations times arbitrary labels.", "anchors": ["src/plcTopology.c:pd_overstrand", "src/plcTopology.c:pd_understrand", "src/plcTopology.c:pd_overunder_internal"]}
{"id": "C24", "title": "Isomorphism group operations", "statement": "pd_compose_isos, pd_stareq_iso and composition of edge, crossing and face maps are associative and respect inverses; applying a composed edge map equals applying the maps in turn; orientations multiply.", "quantifier": "all composable maps of every size", "why_tests_cant": "argument-order errors vanish on symmetric examples.", "anchors": ["src/pd_isomorphisms.c:pd_compose_isos", "src/pd_isomorphisms.c:pd_compose_edgemaps"]}
{"id": "C25", "title": "pd_isomorphic is sound", "statement": "If pd_isomorphic(A,B) is true then there are bijections of crossings and edges carrying A to B that preserve crossing adjacency (up to one global reversal of cyclic order) and map components to components.", "quantifier": "all pairs of diagrams", "why_tests_cant": "a false positive merges distinct diagrams; only a universal argument excludes it.", "anchors": ["src/pd_isomorphisms.c:pd_isomorphic", "src/pd_isomorphisms.c:pd_build_isos"]}
{"id": "C26", "title": "pd_isomorphic is complete and an equivalence", "statement": "For valid diagrams with connected projection, at most 12 components and fewer than 2^32 ways to turn and flip the components, pd_isomorphic answers true iff crossings and edges can be renamed to carry one to the other, all crossings keeping or all reversing their cyclic order; the relation is reflexive, symmetric and transitive; pd_build_isos lists every isomorphism exactly once, and pd_build_map_isomorphisms every orientation-preserving one. Without the bound the count wraps around and the behaviour is undefined.", "quantifier": "all pairs of valid diagrams", "why_tests_cant": "the search must enumerate every candidate edge map.", "anchors": ["src/pd_isomorphisms.c:pd_build_isos", "src/pd_isomorphisms.c:pd_build_edgemaps"]}
{"id": "C27", "title": "Cyclic buffer comparison", "statement": "The cyclic comparison used for crossings and faces answers true iff the buffers are not empty and one is a rotation of the other (of its reversal, for the negative orientation); the order test answers true iff one position follows the other on the cycle.", "quantifier": "all pairs of buffers of all lengths", "why_tests_cant": "universal over lengths and repeated entries.", "anchors": ["src/pd_isomorphisms.c:pdint_buffers_cycliceq", "src/pd_isomorphisms.c:pdint_in_cyclic_order"]}
{"id": "C28", "title": "Reversing a component twice restores the diagram", "statement": "pd_reorient_component(pd,c,NEG) applied twice gives back the crossings, signs, edges and components (up to canonical crossing order and face order); once, it reverses every edge of the component, flips exactly the signs of crossings between this component and others, and leaves all other edges alone.", "quantifier": "every diagram and component", "why_tests_cant": "self-crossings flip twice, others once: universal over shadow structure.", "anchors": ["src/pd_operations.c:pd_reorient_component"]}
{"id": "C29", "title": "Renumbering a component is a pure relabelling", "statement": "pd_renumber_component(pd,c,k) rotates the numbers of the edges of component c by k positions and changes nothing else; composing renumberings adds offsets.", "quantifier": "every diagram, component, offset", "why_tests_cant": "universal.", "anchors": ["src/pd_operations.c:pd_renumber_component", "src/pd_isomorphisms.c:pd_apply_edgemap"]}
{"id": "C30", "title": "Compacting copy keeps order and reports the index map", "statement": "pd_compacting_copy returns the surviving objects in their original order, and the index table sends each survivor to its new position and each deleted index to PD_UNSET_IDX, whatever the order and multiplicity of the deletion list.", "quantifier": "every source array and deletion list", "why_tests_cant": "deletion lists are arbitrary with duplicates.", "anchors": ["src/pd_crossingmoves.c:pd_compacting_copy", "src/pd_crossingmoves.c:pd_transform_and_compact_indices"]}
{"id": "C31", "title": "Adding an R1 loop adds one crossing and keeps the diagram consistent", "statement": "pd_R1_loop_addition returns a diagram with one more crossing and two more edges in which every edge still has exactly one head slot and one tail slot, and the rest of the diagram is unchanged.", "quantifier": "every consistent diagram, face and edge argument", "why_tests_cant": "universal over diagrams.", "anchors": ["src/pd_crossingmoves.c:pd_R1_loop_addition"]}
{"id": "C32", "title": "R1 loop deletion removes exactly the monogon", "statement": "pd_R1_loopdeletion at a crossing with a monogon face returns a diagram with one crossing fewer whose remaining strands are the old ones with the loop contracted.", "quantifier": "every diagram with a monogon", "why_tests_cant": "universal over diagrams.", "anchors": ["src/pd_crossingmoves.c:pd_R1_loopdeletion"]}
{"id": "C33", "title": "Loop simplification terminates with no monogons", "statement": "pd_simplify's de-looping terminates on every diagram and ends with no one-edge face, having performed at most ncross deletions.", "quantifier": "every diagram", "why_tests_cant": "termination.", "anchors": ["src/pd_simplify.c"]}
{"id": "C34", "title": "Connected sum", "statement": "pd_connect_sum(A,e,B,f) has ncross(A)+ncross(B) crossings, its edges are a bijective renumbering of the edges of A and B, all head/tail relations are those of A and B except that the heads of the two joined edges are exchanged, and components other than the joined ones survive unchanged.", "quantifier": "all pairs of diagrams with crossings, all pairs of edges", "why_tests_cant": "edge renumbering depends on the position of the joined edges.", "anchors": ["src/pd_crossingmoves.c:pd_connect_sum"]}
{"id": "C35", "title": "Splitting a diagram finds connected pieces", "statement": "pd_split_diagram returns one child per connected piece of the diagram: two crossings are in the same child iff they are connected through edges; the children together contain every crossing, edge and component (with its tag, signs and edge records) exactly once, circles without crossings included; and each child passes pd_ok.", "quantifier": "every consistent diagram", "why_tests_cant": "reachability over unbounded graphs.", "anchors": ["src/pd_splitdiagram.c:pdint_split_worker", "src/pd_splitdiagram.c:pd_split_diagram"]}
{"id": "C36", "title": "Interlacing count", "statement": "pd_interlaced_crossings counts exactly the pairs of crossings whose occurrences alternate along a component, with the documented sign weighting.", "quantifier": "every Gauss word", "why_tests_cant": "the implementation counts swaps of a bubble sort.", "anchors": ["src/pd_invariants.c:pdint_interlaced_comp"]}
{"id": "C37", "title": "Linking number is computed from inter-component crossings", "statement": "pd_linking_number(c1,c2) is half the signed count of crossings between the two components, is symmetric in its arguments, and reversing one component negates it.", "quantifier": "every diagram and component pair", "why_tests_cant": "universal.", "anchors": ["src/plcTopology.c:pd_linking_number", "src/plcTopology.c:pd_unsigned_linking_number"]}
{"id": "C38", "title": "Constraint lists implement a map from vertices to constraints", "statement": "After any history of plc_set_fixed / plc_constrain_to_line / plc_constrain_to_plane / plc_unconstrain calls on a curve, each vertex carries the constraint last set on it (or none), and the internal list stays ordered, non-overlapping and within the components.", "quantifier": "every history of constraint calls on every curve", "why_tests_cant": "overlap cases (subsume, split, shorten, merge) combine over unbounded histories.", "anchors": ["src/plCurve.c:plc_set_constraint", "src/plCurve.c:overrun_check", "src/plCurve.c:plc_is_constrained"]}
{"id": "C39", "title": "Setting a constraint on one component can destroy one on the next", "statement": "There is a two-component curve and a sequence of constraint calls after which a vertex of the second component, never mentioned by the last call, has lost its constraint.", "quantifier": "existential", "why_tests_cant": "shows the exact boundary of the previous property.", "anchors": ["src/plCurve.c:overrun_check"]}
{"id": "C40", "title": "Removing a constraint removes exactly that constraint", "statement": "plc_remove_constraint deletes precisely the constraints with the given kind and vectors from the list, returns the number of vertices freed, and leaves all others untouched; plc_remove_all_constraints leaves every vertex unconstrained.", "quantifier": "every constraint list", "why_tests_cant": "linked-list deletion at head, middle, tail and runs.", "anchors": ["src/plCurve.c:plc_remove_constraint", "src/plCurve.c:plc_remove_all_constraints"]}
{"id": "C41", "title": "Constraint numbers written to a VECT file identify the constraint of the vertex", "statement": "plc_write prints one numbered header per constraint of the curve, numbered 1, 2, 3, ... in list order, and beside each vertex the number of the header describing exactly that vertex's constraint, or nothing when the vertex is unconstrained; feeding those numbers back through the reader restores the constraint of every vertex, as long as there are at most 29 constraints.", "quantifier": "every curve with a well-formed constraint list, of any length", "why_tests_cant": "depends on the order, adjacency and number of the constraints.", "anchors": ["src/plCurve.c:plc_write", "src/plCurve.c:plc_read"]}
{"id": "C42", "title": "Reading a file with many constraints stays in bounds", "statement": "plc_read stores constraint number k inside the table it has allocated (this fails: the growth formula uses remainder instead of quotient).", "quantifier": "every constraint number in the input", "why_tests_cant": "only particular numbers trigger the out-of-bounds write.", "anchors": ["src/plCurve.c:plc_read"]}
{"id": "C43", "title": "Vertex numbering is a bijection", "statement": "plc_vertex_num maps pairs (component, vertex) bijectively to 0..plc_num_verts-1, plc_cp_num and plc_vt_num are its inverse, and out-of-range vertex numbers wrap on closed components and clamp on open ones.", "quantifier": "every curve, component and (possibly negative) vertex number", "why_tests_cant": "universal over component sizes.", "anchors": ["src/plCurve.c:plc_vertex_num", "src/plCurve.c:plc_cp_num", "src/plCurve.c:plc_vt_num"]}
{"id": "C44", "title": "Wrap-around vertices", "statement": "After plc_fix_wrap the vertex before the first and after the last of each closed component are the last and first; on open components they mirror the neighbours; in-range vertices do not change; calling it again changes nothing.", "quantifier": "every curve with at least two vertices per component", "why_tests_cant": "universal.", "anchors": ["src/plCurve.c:plc_fix_wrap"]}
{"id": "C45", "title": "Adding then dropping a component restores the curve's components", "statement": "plc_add_component at position k inserts the new strand at k and shifts the later ones; plc_drop_component(k) undoes it; but constraints keep their old component numbers, so they refer to a different strand after an insertion before them.", "quantifier": "every curve and position; existential for the constraint part", "why_tests_cant": "array shifting over arbitrary positions.", "anchors": ["src/plCurve.c:plc_add_component", "src/plCurve.c:plc_drop_component"]}
{"id": "C46", "title": "Random k-ascent permutation always has k ascents", "statement": "For 1 <= k <= n-1, whatever random numbers are drawn, random_k_ascent_permutation writes a permutation of 1..n with exactly k ascents and never writes outside its work area.", "quantifier": "all n, k and all random draws", "why_tests_cant": "the draws are arbitrary.", "anchors": ["src/kascentpermutation.c:random_k_ascent_permutation"]}
{"id": "C47", "title": "Every k-ascent permutation is produced by exactly one choice sequence", "statement": "The map from choice sequences to permutations with k ascents is a bijection, which is what makes the sampler uniform given the Eulerian branch probabilities.", "quantifier": "all n, k and all permutations with k ascents", "why_tests_cant": "uniformity is a counting statement over an unbounded family.", "anchors": ["src/kascentpermutation.c:random_k_ascent_permutation", "src/kascentpermutation.c:wperm_insert_at_ascent"]}
{"id": "C48", "title": "xoshiro state update is invertible and never reaches zero", "statement": "The state transition of plc_xoshiro_uniform's generator is a bijection on 256-bit states which fixes the zero state, so a nonzero seed never reaches zero; outputs are in [0,1); two initial seeds never produce the same state.", "quantifier": "all 2^256 states", "why_tests_cant": "state space cannot be enumerated.", "anchors": ["src/plcRandomSap.c:plc_xoshiro_next", "src/plcRandomSap.c:plc_xoshiro_init"]}
{"id": "C49", "title": "Polygon triangulations are valid", "statement": "The fan, spiral and random triangulation builders return n-3 pairwise non-crossing chords for an n-gon whatever the random draws, and the chord-crossing test is correct.", "quantifier": "all n >= 4 and all random draws", "why_tests_cant": "recursive construction on arbitrary sub-polygons.", "anchors": ["src/plcToricSymplecticTriangulation.c:tsmcmc_fan_triangulation", "src/plcToricSymplecticTriangulation.c:tsmcmc_random_triangulation", "src/plcToricSymplecticTriangulation.c:tsmcmc_chords_cross"]}
{"id": "C50", "title": "Polynomial product is multiplication", "statement": "product_polynomial represents the product of the Laurent polynomials represented by its arguments with one term for each pair of exponents, in increasing order; polynomials_eq decides equality of polynomials in normal form.", "quantifier": "all pairs of polynomials", "why_tests_cant": "term collection over arbitrary sparsity.", "anchors": ["src/polynomials.c:product_polynomial", "src/polynomials.c:polynomials_eq"]}
{"id": "C51", "title": "A store written to a file and read back is the same store", "statement": "After pd_write_pdstor and pd_read_pdstor with the same equivalence, every hash has the same codes (as pd_read restores them) with the same ids, and the element count is the same.", "quantifier": "every history of insertions, every equivalence relation that implies equal hashes and survives storage and text", "why_tests_cant": "every content and order of a store.", "anchors": ["src/pd_storage.c:pd_write_pdstor", "src/pd_storage.c:pd_read_pdstor"]}
{"id": "C52", "title": "A store file with a streaming header can never be read", "statement": "pd_read_pdstor recognises the header with question marks for counts that are not known, but then returns NULL whatever codes follow; a header whose two counts disagree is rejected only in verbose mode.", "quantifier": "every file body of fewer than 2^32-1 codes", "why_tests_cant": "every file.", "anchors": ["src/pd_storage.c:pd_read_pdstor"]}
{"id": "C53", "title": "Copying a curve gives an identical curve", "statement": "plc_copy returns a curve with the same components, vertices, colours and constraint list as its argument.", "quantifier": "every curve", "why_tests_cant": "every shape of curve and constraint list.", "anchors": ["src/plCurve.c:plc_copy"]}
{"id": "C54", "title": "pd_regenerate brings a diagram into a normal form without changing it", "statement": "On a consistent, planar diagram with signs, pd_regenerate only renames crossings and edges (orientation and signs survive), the result has canonical crossings, edges numbered along components, tags A, B, ..., all faces, and passes pd_ok when it has at most 64 components; a second call changes nothing. Without signs or edge records the strands are oriented afresh; a second call may then reverse them, and with 65 or more components the result fails pd_ok.", "quantifier": "every diagram of every size", "why_tests_cant": "all shapes of diagram and all initial numberings.", "anchors": ["src/pdcode.c:pd_regenerate"]}
{"id": "C55", "title": "Connected diagrams with the right number of faces lie on the sphere", "statement": "In a connected diagram with consistent edges whose faces are as many as Euler's formula asks, every closed set of edges separates the faces into two classes; so the faces have a checkerboard colouring, no face has an edge twice, different faces have different edges, no edge comes straight back to its crossing, no two crossings look alike, two components meet at an even number of crossings and the linking number is exactly half of the sum of the signs. Connectedness is needed: pd_ok accepts a disconnected diagram, part of which lies on a torus, for which all this fails.", "quantifier": "every connected diagram of every size", "why_tests_cant": "a statement about all diagrams on a sphere.", "anchors": ["src/pdcode.c:pd_ok", "src/pdcode.c:pd_faces_ok", "src/plcTopology.c:pd_linking_number"]}
{"id": "C56", "title": "Hypersimplex and cube slice samples lie where they should", "statement": "In exact arithmetic, whatever is drawn, hypersimplex_sample(k,n) with 1 <= k <= n-2 returns n-1 numbers in [0,1] whose sum is between k-1 and k, and the cube slice samplers return n numbers in [-1,1] with sum 0; Stanley's map undoes psi_inverse, so different points stay different. k = n-1 is not handled.", "quantifier": "all n, k, points of the simplex and random draws", "why_tests_cant": "the draws are arbitrary.", "anchors": ["src/hypersimplex_sampling.c:hypersimplex_sample", "src/hypersimplex_sampling.c:psi_inverse", "src/hypersimplex_sampling.c:hypercube_slice_sample", "src/hypersimplex_sampling.c:hypercube_slice_sample_old"]}
{"id": "C57", "title": "The jump of the random number generator skips exactly 2^128 draws", "statement": "From every state, plc_xoshiro_jump leaves the generator in the state it would reach after 2^128 calls of plc_xoshiro_next, as its comment promises; k jumps skip k * 2^128 draws, and different states stay different.", "quantifier": "all 2^256 states", "why_tests_cant": "2^128 draws cannot be made, let alone from 2^256 states.", "anchors": ["src/plcRandomSap.c:plc_xoshiro_jump", "src/plcRandomSap.c:plc_xoshiro_next"]}
{"id": "C58", "title": "pd_read returns only valid diagrams", "statement": "Whatever text it is given, if pd_read returns a diagram, the diagram passes pd_ok. Reading is not safe on every text: a hash of 32 legal characters, a crossing number out of range, or an end of file after the edges of a component makes it access memory outside its arrays or read a variable that was never set.", "quantifier": "every text of every length", "why_tests_cant": "all texts, well formed or not.", "anchors": ["src/pdcode.c:pd_read", "src/pdcode.c:pd_read_err"]}
{"id": "C59", "title": "A store of diagrams holds one diagram of each isomorphism class", "statement": "Adding any sequence of valid, signed, regenerated diagrams (connected projection, at most 12 components, packable) to an empty store with PD isomorphism as the equivalence succeeds; visiting the store then returns diagrams that were added, up to uid and spare room, no two of which are isomorphic, and every added diagram is isomorphic to one of them; two additions report the same hash and uid exactly when the diagrams are isomorphic.", "quantifier": "all sequences of such diagrams, of every length below 2^32", "why_tests_cant": "needs the packing round trip, the invariance of the hash and the completeness of the isomorphism search together, for every history of insertions.", "anchors": ["src/pd_storage.c:pd_addto_pdstor", "src/pd_storage.c:pd_stor_firstelt", "src/pd_storage.c:pd_stor_nextelt", "src/pd_pack.c:pd_pack", "src/pd_isomorphisms.c:pd_isomorphic"]}
{"id": "C60", "title": "The diagram-isotopy test is exact", "statement": "For two regenerated diagrams of connected projections with distinct component tags that agree (in the same order when there are at most six components) and whose rotations can be counted in 32 bits, the search for diagram isotopies returns every isomorphism that keeps the order of the edges along every component, the crossing signs and the tags exactly once and nothing else; the test answers yes for every pair of isotopic diagrams, and, when no component has exactly two edges, only for those.", "quantifier": "all pairs of such diagrams, of every size", "why_tests_cant": "there is no bound on the number of crossings or components; a missed or spurious isotopy shows up only on diagrams with the right symmetry, for instance with a component of two edges, whose direction the edge order does not determine.", "anchors": ["src/pd_isomorphisms.c:pd_build_diagram_isotopies", "src/pd_isomorphisms.c:pd_diagram_isotopic", "src/pd_isomorphisms.c:pd_is_diagram_isotopy", "src/pd_isomorphisms.c:pd_build_oriented_edgemaps"]}
{"id": "C61", "title": "Removing a bigon leaves the same link diagram without its two crossings", "statement": "In a valid connected diagram with more than two crossings, let a two-sided face have its two sides on strands of which one lies above the other at both crossings (or let both crossings be unsigned), and let the two outer corners of the bigon lie on different faces. Then pd_R2_bigon_elimination, given the two crossings in either order, returns exactly one diagram, which passes pd_ok: every other crossing is there with its sign and the cyclic order of its strands, every strand runs between the same crossings as before, every component keeps its tag and its remaining edges in order, and the faces are those of a planar diagram. If instead each strand lies above the other at one crossing (a clasp), the program stops with an error.", "quantifier": "all such diagrams of every size, all bigons, both orders of the crossings and both directions of the strands", "why_tests_cant": "the outer edges of the bigon can coincide in many ways, in diagrams of any size; a wrong relabelling is seen only on the right diagram.", "anchors": ["src/pd_crossingmoves.c:pd_R2_bigon_elimination", "src/pdcode.c:pd_face_and_pos", "src/pdcode.c:pd_next_edge", "src/pdcode.c:pd_previous_edge"]}
{"id": "C62", "title": "A closed curve cuts a tangle out of a diagram and rebuilding finds what lies inside", "statement": "On a valid connected diagram, every closed curve that visits distinct faces and crosses distinct edges has an inside and an outside, each crossing lying on one definite side, and crosses an even number of edges. Given the edges and faces along the curve, pd_regenerate_tangle succeeds and the result passes pd_tangle_ok: each boundary edge is recorded as running in or out as it does, there is exactly one strand for each edge that runs in, it runs straight on through the inside and ends at the boundary edge, with the number of edges and the component, that the record says, and everything listed as interior is inside. If no interior edge is a curl turning back on the right, all interior crossings and edges are listed, in increasing order. pd_tangle_bdy_or reports the direction of each boundary edge and stops on any other edge. A boundary that is empty or repeats an edge is refused.", "quantifier": "all valid connected diagrams of every size and all closed curves on them", "why_tests_cant": "the curve can be of any length and the inside of any size; that a curve separates is a theorem about the sphere, and the search for the interior misses crossings only in particular positions of a curl.", "anchors": ["src/pd_tangles.c:pd_tangle_new", "src/pd_tangles.c:pd_regenerate_tangle_err", "src/pd_tangles.c:tangle_contents_worker", "src/pd_tangles.c:pd_tangle_ok", "src/pd_tangles.c:pd_tangle_bdy_or"]}
{"id": "C63", "title": "The crossing code of a diagram describes it faithfully and is read back and accepted by the HOMFLY engine", "statement": "For every consistent signed diagram with at least one crossing, the crossing code that pdcode_to_ccode writes lists for each crossing its sign and, for each of the branches a, b, c, d taken clockwise from the upper exit, the crossing and branch at the other end of the edge; it is the only text of a code that describes the diagram, and two diagrams get the same code exactly when they differ only in the names of their edges and the places where their crossings start. With 2 to 249 crossings the polynomial program reads back exactly the signs and connections that were written, and its consistency check succeeds and leaves one minus the number of strands. One crossing is answered at once and more than 250 crossings are refused.", "quantifier": "all consistent signed diagrams with any number of crossings below 2^23", "why_tests_cant": "the numbers of crossings, edges and strands are unbounded; the limits on digits, bytes and buffers matter only for large diagrams.", "anchors": ["src/plcTopology.c:pd_millet_ewing_positions", "src/plcTopology.c:pdcode_to_ccode", "src/pllmpoly02.c:plc_lmpoly", "src/pllmpoly02.c:conchk"]}
{"id": "C64", "title": "The diagram builders build the families of diagrams they are named after", "statement": "For every number of crossings, twists or rings, the functions that build torus knots of type (2, q), twist knots, plaited unknots and chains return a valid diagram in regular form. Its crossings are joined as in the picture of that family: a closed two-strand braid, a twisted band whose ends are hooked into each other, a plait closed at both ends, and a row of rings each hooked into the next. It has the right number of components (one or two for the torus links, one for twist knots and unknots, one per ring), all crossings are positive, and the torus links and plaited unknots alternate. Arguments outside the announced range are refused. Twist knots alternate exactly for odd numbers of twists: with an even number the signs are all set positive and the result is not the alternating diagram of the twist knot. Chains of more than 64 rings make the program stop.", "quantifier": "all numbers of crossings, twists and rings", "why_tests_cant": "the tables of edges are given by arithmetic in the size and parity of the diagram; tests compare a few small sizes.", "anchors": ["src/pdcode_testcodes.c:pd_build_twist_knot", "src/pdcode_testcodes.c:pd_build_torus_knot", "src/pdcode_testcodes.c:pd_build_simple_chain", "src/pdcode_testcodes.c:pd_build_unknot", "src/pdcode.c:pd_code_new"]}
{"id": "C65", "title": "KnotTheory codes are written and read faithfully", "statement": "For every consistent signed diagram pd_write_KnotTheory writes the one planar diagram code of the KnotTheory package that describes it: for each crossing the edges counterclockwise from the one on which the lower strand comes in, counted from 1. For every diagram in regular form with 1 to 9990 crossings, in which every component has three or more edges, pd_read_KnotTheory applied to the code returns exactly that diagram, edges, crossings, signs, components, faces and hash, and leaves what follows the closing bracket unread. Whatever text is read, a diagram that is returned passes pd_ok and has all its signs.", "quantifier": "all consistent signed diagrams, all texts", "why_tests_cant": "directions and signs are guessed from the numbers of the edges; that the guess is right for every diagram with long components needs the numbering along the strands for all sizes.", "anchors": ["src/pdcode.c:pd_write_KnotTheory", "src/pdcode.c:pd_read_KnotTheory"]}
{"id": "C66", "title": "Nearest point and nearest vertex searches are exact under every history of saved data", "statement": "Given a point and a list of one or more points, plc_nearest_neighbor returns the index of a point of the list at the least distance; below 5000 points it is the first such index. Given a curve, plc_nearest_vertex returns the component, the number and the place of a vertex at the least distance. This holds for every sequence of searches that hand on the same precomputed data, on whichever lists and curves in whichever order, as long as these do not change between searches; the sorted order that is saved for 5000 or more points never costs the nearest point. When a list changes at the same address the claim fails: the old order is used without an error, and a list that grew beyond 5000 points makes the program follow a null pointer.", "quantifier": "all lists of points and curves of every size, all points, all histories of searches with handed-on data", "why_tests_cant": "the sorted search is used only from 5000 points on, and which points it skips depends on all coordinates; histories of saved data are unbounded.", "anchors": ["src/nearest_neighbor.c:plc_nearest_neighbor", "src/nearest_neighbor.c:plc_nearest_vertex", "src/nearest_neighbor.c:exhaustive_nearest_neighbor", "src/nearest_neighbor.c:max_dimension"]}
{"id": "C67", "title": "All crossings of the projection of a polygon are found, each once and correctly", "statement": "If the projection of a closed polygon along the z axis has been found clean (no pair of edges is tagged as trouble) and no two of its points that project to a crossing have the same height, then the list of crossings that pd_code_from_plCurve works with contains every place where two edges cross transversally, exactly once, with the strand that passes above, the two parameters and the sign that the geometry has, and contains nothing else.", "quantifier": "all closed polygons with any number of components and edges, in any position that passes the check", "why_tests_cant": "every pair of edges must be classified; tolerances, the treatment of neighbouring edges and of the closing edge and the choice of upper and lower are arithmetic on unbounded data.", "anchors": ["src/plcTopology.c:segment_side", "src/plcTopology.c:locate_crossing", "src/plcTopology.c:tag_as_trouble", "src/plcTopology.c:findcrossings", "src/plcTopology.c:crossing_compare"]}
{"id": "C68", "title": "A polygon is converted to the diagram of its projection", "statement": "Whatever diagram pd_code_from_plCurve returns passes pd_ok, has as many components as the polygon and is, up to the names of its edges and crossings, the diagram that the crossings of the projection of the polygon (after the small perturbations that were made) determine: its strands follow the components through the crossings in order, over and under as in space, with the right signs; a single component without crossings gets one curl. A polygon in general position is converted without perturbation, and the conversion succeeds if the diagram is connected and planar and has at most 64 components. If a strand passes twice through one point, there is no diagram rather than a wrong one; if one of several components has no crossing, the program stops.", "quantifier": "all closed polygons with any number of components and edges, all perturbations, all sorting functions that meet the contract of qsort", "why_tests_cant": "the number of crossings and the order in which the components meet them are unbounded; crossings are found again by binary search with a tolerance, and a wrong order or a wrong place at a crossing gives another valid diagram of another knot.", "anchors": ["src/plcTopology.c:pd_code_from_plCurve", "src/plcTopology.c:make_zprojection_generic", "src/plcTopology.c:divide_crossings_by_component", "src/plcTopology.c:assemble_pdcode", "src/plcTopology.c:crossing_strand_cmp"]}
{"id": "C69", "title": "Whitten group operations act on curves as the group does", "statement": "For every curve without constraints and every element of the Whitten group, given by a sign for the mirror image, a sign for each component and an array that writes a permutation, plc_whitten turns the curve into the one whose i-th component is component p(i) of the old one, with its vertices and per-vertex colors in the reverse order if the i-th sign is -1 and with its third coordinates negated if the mirror sign is -1; wrap-around vertices are right, and open and closed components stay so. Applying two elements one after the other gives exactly the curve that their product gives, and the unit changes nothing. For a curve with any constraint the array is read beyond its end.", "quantifier": "all curves with any number of components and vertices, all group elements, all arrays that write a permutation", "why_tests_cant": "numbers of components and vertices and the permutations are unbounded; the group law relates all pairs of operations.", "anchors": ["src/plwhitten.c:plc_whitten", "src/plwhitten.c:perm", "src/plwhitten.c:iperm"]}
{"id": "C70", "title": "HOMFLY polynomials are read from lmpoly and written without loss", "statement": "For every table of coefficients written in lmpoly's notation, the text pd_homfly makes of it is the LaTeX form of exactly the polynomial with those coefficients: every nonzero coefficient appears once, with its sign and both exponents, in increasing order of the exponents. The form determines the polynomial, so two diagrams get equal texts exactly if lmpoly found equal polynomials, however many zero rows and columns it wrote. The same holds for the form in Mathematica. The array for the terms has as many places as the text has spaces; tables with many rows of a single coefficient do not fit and are written beyond its end.", "quantifier": "all tables of integer coefficients with any number of rows and columns, on either side of the bracketed ones", "why_tests_cant": "exponents are found by counting blanks, brackets and letters in texts of unbounded length, and that two forms never coincide concerns all pairs of polynomials.", "anchors": ["src/polynomials.c:lmpoly_to_polynomial", "src/polynomials.c:initiallpower", "src/polynomials.c:poly_to_latex", "src/polynomials.c:poly_to_mathematica", "src/polynomials.c:lmpoly_to_latex", "src/plcTopology.c:pd_homfly"]}
{"id": "C71", "title": "Knots are classified by all rows of the table with their polynomial", "statement": "For every diagram with at least three crossings, pd_classify (and plc_classify for the diagram of a curve) returns exactly the rows of the table of knots whose HOMFLY text equals the one lmpoly found, all of them and in the order of the table, whichever of the equal rows the binary search meets first, and nothing if lmpoly fails. Each of the 1088 rows is the text of a polynomial the library can read; rows with the same polynomial have the same text; the polynomial of each sum is the product of those of its factors; tags and mirror images agree; the table has every sum of prime knots up to 10 crossings with at most 12 crossings, each once. A link with two crossings, however, is classified as the unknot, and whether the diagram passed in has been freed depends on its number of crossings.", "quantifier": "all diagrams, all answers of lmpoly, all binary searches that satisfy the contract of bsearch, all rows and all pairs of rows of the table, all multisets of factors up to 12 crossings", "why_tests_cant": "the result must be right for every row bsearch may hit and every diagram; the agreement of the table with the algebra concerns all rows, pairs of rows and sums.", "anchors": ["src/plcTopology.c:pd_classify", "src/plcTopology.c:plc_classify", "src/plcTopology.c:homcmp", "src/homfly.h:ktdb"]}
{"id": "C72", "title": "Names of knot types are written faithfully", "statement": "plc_write_knottype writes the names of all prime factors in order, joined by #, and the polynomial, and the text determines all of them. plc_read_knottype should read such names back; in fact for every nonempty text it frees a pointer into the middle of its working copy or reads beyond an array.", "quantifier": "all knot types with one to ten factors; all nonempty texts", "why_tests_cant": "numbers and texts are unbounded, and that no text can be read concerns all of them.", "anchors": ["src/plcTopology.c:plc_write_knottype", "src/plcTopology.c:plc_read_knottype"]}
{"id": "C73", "title": "The test for self-avoiding polygons", "statement": "plc_is_sap should answer true exactly if all vertices of the curve are at least (almost) 1 apart. It answers true for every curve. The internal test with messages answers correctly for every curve of one component, and false for every curve with two components that have vertices, however far apart these are.", "quantifier": "all curves with any number of components and vertices", "why_tests_cant": "the answers concern all pairs of vertices of curves of any size.", "anchors": ["src/plcRandomSap.c:plc_is_sap", "src/plcRandomSap.c:plc_is_sap_internal"]}
{"id": "C74", "title": "Sampled polygons are closed, equilateral and self-avoiding", "statement": "Whatever the state of the generator, plc_random_equilateral_closed_self_avoiding_polygon returns a closed polygon with the requested number of vertices, 5 to 25, all of whose edges (the closing one included) have length 1, whose vertices are pairwise at squared distance at least 1 - 1e-9, and which begins at the origin and goes on to (1,0,0). It never divides by zero or takes the square root of a negative number. Otherwise it stops: for other numbers of edges before anything is drawn, else only after 49999999 successive rejected trials.", "quantifier": "all states of the generator (more generally all generators with values in [0,1]), all numbers of edges, all numbers of rejected trials", "why_tests_cant": "every sequence of draws must lead to such a polygon, over all of the real numbers the draws can produce; tests see a few seeds.", "anchors": ["src/plcRandomSap.c:plc_random_equilateral_closed_self_avoiding_polygon", "src/plcRandomSap.c:plc_xoshiro_uniform"]}
{"id": "C75", "title": "Random polygons have length 2 and close up, and every such polygon can occur", "statement": "Whatever Gaussian numbers are drawn, plc_random_closed_polygon returns a closed polygon with the requested number of edges and total length exactly 2, plc_random_open_polygon an open one that starts at the origin, and the plane versions polygons in a coordinate plane, unless the vectors drawn are linearly dependent (then there is a division by zero). The self check never rejects. Conversely every closed polygon of length 2 that ends at the origin, and every open one that starts there, is the result of some draws: nothing is missed.", "quantifier": "all sequences of numbers drawn, all numbers of edges, all polygons of length 2", "why_tests_cant": "the closing condition and the length hold exactly for all real draws, and that every polygon can occur concerns uncountably many.", "anchors": ["src/plcRandomPolygon.c:plc_random_closed_polygon", "src/plcRandomPolygon.c:plc_random_closed_plane_polygon", "src/plcRandomPolygon.c:plc_random_open_polygon", "src/plcRandomPolygon.c:plc_random_open_plane_polygon", "src/plcRandomPolygon.c:hopfImap"]}
{"id": "C76", "title": "Equilateral polygons correspond to their diagonals and dihedral angles", "statement": "For all diagonals from the first vertex that satisfy the triangle inequalities (and are not below 1e-12) and all dihedral angles, the assembly gives a closed polygon with edges of length 1, exactly these diagonals and these dihedral angles; no square root of a negative number is taken. Conversely every closed equilateral polygon in standard position without vertices too close to the first is assembled from its diagonals and some angles. plc_random_equilateral_closed_polygon, for every generator with values in [0,1] and 3 to 3000 edges, returns a closed equilateral polygon or gives up after 9999 rounds, and all admissible diagonals and angles can be drawn; fewer than three edges read outside of an array.", "quantifier": "all diagonals and angles, all equilateral polygons, all generators and all numbers of edges", "why_tests_cant": "the edge lengths, diagonals and angles are exact statements about all real coordinates, and completeness concerns uncountably many polygons.", "anchors": ["src/plcRandomPolygon.c:fantriangulation_action_angle", "src/plcRandomPolygon.c:plc_random_equilateral_closed_polygon", "src/vector.c:plc_normalize_vect"]}
{"id": "C77", "title": "Rotations and fold moves are rigid", "statement": "plc_rotate_vect turns every vector around every axis (not shorter than the machine epsilon) by the given angle, keeps its length exactly, and two rotations around one axis add up. plc_rotate with an axis of length 1 takes every vertex of a curve where the rotation takes it and keeps all distances between vertices (points closer to the axis than the epsilon stay); with an axis of another length it does not: the axis is not normalized and lengths change. plc_pfm changes only the vertices strictly between two indices, turns these around the line through the two vertices, and keeps the lengths of all edges, also when an index means a neighbour across the closing edge or beyond an end; it stops if the two vertices coincide.", "quantifier": "all vectors, axes and angles; all curves and pairs of indices", "why_tests_cant": "exact statements about all real coordinates; which edges meet the fold depends on the indices, the wrap-around and on whether the component is open.", "anchors": ["src/vector.c:plc_rotate_vect", "src/plCurve.c:plc_rotate", "src/plCurve.c:plc_pfm"]}
{"id": "C78", "title": "Open curves are closed by random arcs to length 2", "statement": "plc_arclength is the sum of the lengths of all edges, with the closing edges of closed components. plc_random_ftc_internal gives, whatever is drawn, an arc with the right number of edges and the given length from the origin to the point at the given distance. plc_loop_closure closes an open component with such an arc: the result is closed, has the number of edges asked for, keeps the given vertices and the other components, and the total length is 2 up to the tolerances of the code; NULL is returned if the component is closed, if the missing length is less than the gap, or if there are fewer edges than vertices. A single closing edge with length to spare uses a null pointer, any component but the first cannot be closed with more than one edge, and no length with no gap divides by zero.", "quantifier": "all curves with any number of components, all numbers of edges, all draws", "why_tests_cant": "exact statements about all real coordinates and all random draws; the failing cases need a component index or lengths that no test uses.", "anchors": ["src/plcRandomPolygon.c:plc_random_ftc_internal", "src/plcRandomPolygon.c:plc_loop_closure", "src/plCurve.c:plc_arclength", "src/plCurve.c:plc_translate"]}
{"id": "C79", "title": "Measures of curves are what they are called", "statement": "plc_s is the length along a curve up to a vertex if the components before are closed (of an open component before, the last edge is counted twice). plc_subarc_length is the length between two vertices given in any order, on closed components the shorter way round. plc_pointset_diameter is the largest distance of two vertices. plc_center_of_mass is the mean of the vertices, and plc_gyradius half of the mean squared distance of all pairs. plc_mean_squared_chordlengths gives the mean squared distances of vertices a given number of steps apart, around closed components; skips that are too large divide by zero or read beyond a buffer. plc_project moves every vertex along the normal onto the plane. plc_random_rotate applies a rotation that takes the given unit vector to (0,0,1), but does nothing for (0,0,-1).", "quantifier": "all curves with any number of open and closed components, all vertices, skips, normal vectors and axes", "why_tests_cant": "exact equalities between different formulas for all real coordinates; the wrong cases need open components before others, skips beyond the length or one special axis.", "anchors": ["src/plCurve.c:plc_s", "src/plCurve.c:plc_subarc_length", "src/plCurve.c:plc_pointset_diameter", "src/plCurve.c:plc_center_of_mass", "src/plCurve.c:plc_gyradius", "src/plCurve.c:plc_mean_squared_chordlengths", "src/plCurve.c:plc_project", "src/plCurve.c:plc_random_rotate"]}
{"id": "C80", "title": "Angles, normals, centers and intersections are the geometric ones", "statement": "plc_angle is the angle in [0,pi] of two vectors that are not tiny. plc_normal is the right-handed unit normal of a triangle, and fails only if the triangle is degenerate. plc_circumcenter gives the point of the plane z=0 at equal distances from three of its points, and fails for points off the plane or on a line. plc_3plane_intersection is the one common point of three planes whose normals are independent. plc_tetrahedron_inradius is the radius of the sphere inside a tetrahedron that touches its four faces. plc_dihedral_angle is the angle in [0,2pi) by which one triangle is turned against the other around the common edge. plc_turning_angle is the angle between the edges at a vertex, with indices taken around closed components, and plc_totalcurvature the sum of all of them; edges so short that the product of their lengths is below 1e-12 count as not turning.", "quantifier": "all vectors, triangles, planes and tetrahedra that are not degenerate up to the stated tolerances; all curves with any number of open and closed components; all vertex indices, also negative ones", "why_tests_cant": "exact geometric characterizations for all real coordinates; a wrong sign or order shows only for particular orientations.", "anchors": ["src/vector.c:plc_angle", "src/vector.c:plc_normal", "src/vector.c:plc_circumcenter", "src/vector.c:plc_3plane_intersection", "src/vector.c:plc_tetrahedron_inradius", "src/vector.c:plc_dihedral_angle", "src/plCurve.c:plc_turning_angle", "src/plCurve.c:plc_totalcurvature"]}
{"id": "C81", "title": "plc_delete_arc removes the arc asked for and nothing else", "statement": "On a closed component, plc_delete_arc(L,cp,vt1,vt2) removes the vertices from vt1 forward to vt2, past the last vertex if vt1 > vt2, and leaves an open component that starts at the successor of vt2; if no vertex is left the component disappears. On an open component the vertices from vt1 to vt2 are removed, and the parts before and after, if not empty, become components; nothing is removed if vt1 > vt2. The other components keep their vertices, wrap-around vertices are right, constraints are removed and the curve given is not changed. An arc that lies entirely before or behind an open component makes the program write beyond its buffers, and colors are not cut, so that the result cannot be copied if there were as many as vertices.", "quantifier": "all curves with any number of components and vertices, all components and all pairs of vertices; for open components all pairs of integers", "why_tests_cant": "the cases depend on the order and place of the two vertices relative to the ends for every length; out-of-range writes need not be visible in a run.", "anchors": ["src/plCurve.c:plc_delete_arc", "src/plCurve.c:plc_drop_component", "src/plCurve.c:plc_add_component"]}
{"id": "C82", "title": "Linear systems are solved exactly, or the matrix has no inverse", "statement": "For every matrix A with nonzero determinant, lu_decmp succeeds, its d is 1 or -1 and d times the product of the diagonal is the determinant, and solve_linear with its result gives for every b the one vector x with Ax = b; rows are exchanged where needed. A matrix with a row of zeros is refused. Other matrices without inverse are not refused: a factorization is returned and ok is not written; ok is not written on success either. plc_matrix_vector_multiply multiplies the rows with the vector.", "quantifier": "all 3x3 real matrices and all right-hand sides", "why_tests_cant": "which rows are exchanged depends on comparisons of scaled entries for all real matrices; exact solutions are not seen with rounding.", "anchors": ["src/matrix.c:lu_decmp", "src/matrix.c:solve_linear", "src/matrix.c:plc_build_matrix", "src/matrix.c:plc_matrix_vector_multiply"]}
{"id": "C83", "title": "Statistics of edge lengths, curvature and scaling are what they are called", "statement": "plc_edgelength_stats gives the greatest, the least, the mean and the mean square of the lengths of all edges, closing edges included, and the mean is the length of the curve over plc_edges; if every edge is longer than 1e20 the least is wrongly 1e20, and a curve without edges divides by zero. plc_MR_curvature at a vertex that turns by theta is 2 tan(theta/2) over the length of the shorter edge (taken with a tolerance of DBL_EPSILON), 0 at the ends of open components, and the assertion fails exactly if the edges turn back (or vanish). plc_scale multiplies every vertex by alpha and so every edge length by |alpha|; the constraints keep their kinds and vertices and are met after scaling if they were before, and for alpha other than 0 only then.", "quantifier": "all curves, vertices, factors and lists of constraints", "why_tests_cant": "extrema and sums range over all curves, the formula for the curvature over all real angles, and constraints over all points, lines and planes.", "anchors": ["src/plCurve.c:plc_edgelength_stats", "src/plCurve.c:plc_edges", "src/plCurve.c:plc_MR_curvature", "src/plCurve.c:plc_scale"]}
{"id": "C84", "title": "The mean tangent is the direction of the length-weighted average of the two edges", "statement": "plc_mean_tangent at a vertex returns the unit vector in the direction of the average of the incoming and the outgoing edge, the longer one weighing more; at the ends of an open component it is the direction of the only edge; vertices of closed components wrap around. For the edges (0,0,6) and (8,0,0) it is (0.8,0,0.6), as documented.", "quantifier": "all components and vertices whose average edge is not shorter than DBL_EPSILON", "why_tests_cant": "the direction must be right for all real vertices and at both kinds of ends.", "anchors": ["src/plCurve.c:plc_mean_tangent", "src/vector.c:plc_normalize_vect"]}
{"id": "C85", "title": "Checking constraints returns how far the curve is from meeting them", "statement": "plc_check_cst returns the greatest distance of a constrained vertex from the point, line or plane of its constraint: every constrained vertex has a point within that distance where the constraint is met, and, unless the result is 0, some constrained vertex has no nearer one. So the result is 0 exactly if all constraints are met.", "quantifier": "all curves and all lists of constraints that lie within their components, with directions longer than the asserted minimum", "why_tests_cant": "the closest point must be closest among infinitely many, for all lines and planes in space and all three orders of coordinates the code chooses.", "anchors": ["src/plCurve.c:plc_check_cst", "src/plCurve.c:Closest_line_point", "src/plCurve.c:Closest_plane_point"]}
