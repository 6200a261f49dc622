{
 "claims": [
  {
   "property": "C01",
   "status": "proved",
   "theorems": [
    "perm_iterator_enumerates",
    "nperms_exact",
    "nperms_overflow_refuted",
    "perm_iterator_zero_refuted"
   ],
   "note": "Every n >= 1, both the table-driven and the computed branch; nperms exact for n <= 12, and refuted beyond; n = 0 refuted."
  },
  {
   "property": "C02",
   "status": "proved",
   "theorems": [
    "compose_is_composition",
    "compose_assoc",
    "compose_unit",
    "inverse_is_inverse",
    "stareq_is_compose",
    "stareq_stale_index_refuted",
    "period_is_order",
    "perm_ok_exact",
    "perm_ok_off_by_one_refuted"
   ],
   "note": ""
  },
  {
   "property": "C03",
   "status": "proved",
   "theorems": [
    "cyclic_iterator",
    "cyclic_ok_incomplete_refuted",
    "dihedral_iterator",
    "dihedral_ok_incomplete_refuted"
   ],
   "note": ""
  },
  {
   "property": "C04",
   "status": "proved",
   "theorems": [
    "multidx_odometer",
    "multidx_of_dihedrals",
    "multidx_of_perms",
    "multidx_nvals_product"
   ],
   "note": ""
  },
  {
   "property": "C05",
   "status": "proved",
   "theorems": [
    "container_is_a_stack",
    "container_growth_overflow_refuted"
   ],
   "note": "While the block stays below 2^32 bytes; refuted beyond."
  },
  {
   "property": "C06",
   "status": "proved",
   "theorems": [
    "pop_empty_unsafe"
   ],
   "note": "After every history leaving the container empty."
  },
  {
   "property": "C07",
   "status": "proved",
   "theorems": [
    "sortedbuf_is_a_set",
    "buf_contains_first"
   ],
   "note": ""
  },
  {
   "property": "C08",
   "status": "proved",
   "theorems": [
    "pdstor_contents",
    "pdstor_no_duplicates",
    "pdstor_none_keeps_all",
    "pdstor_add_known",
    "pdstor_search",
    "pdstor_empty_hash_refuted",
    "nextelt_after_add"
   ],
   "note": "The relation and the hash are arbitrary functions; pack/unpack are arbitrary functions. Codes with an empty hash string break the iteration (refuted)."
  },
  {
   "property": "C09",
   "status": "proved",
   "theorems": [
    "unpack_pack",
    "unpack_pack_regular",
    "unpack_pack_unsigned",
    "pack_unknot_refuted",
    "pack_partly_signed_refuted",
    "unpack_unsigned_refuted"
   ],
   "note": "For planar diagrams whose edges have two different ends; unsigned diagrams come back with negative crossings (defect found)."
  },
  {
   "property": "C10",
   "status": "proved",
   "theorems": [
    "indexbits_fit",
    "indexbits_least",
    "index_round_trip",
    "bitstring_round_trip",
    "bitstring_empty_refuted",
    "bitcode_fits",
    "pack_length"
   ],
   "note": ""
  },
  {
   "property": "C11",
   "status": "proved",
   "theorems": [
    "pack_ignores",
    "unpack_tags_refuted"
   ],
   "note": ""
  },
  {
   "property": "C12",
   "status": "proved",
   "theorems": [
    "cross_ok_exact",
    "edges_ok_exact",
    "pd_ok_incidence",
    "pd_ok_every_place",
    "pd_ok_two_ended_refuted"
   ],
   "note": ""
  },
  {
   "property": "C13",
   "status": "proved",
   "theorems": [
    "comps_ok_exact",
    "comps_ok_order_refuted",
    "comps_ok_wild_read_refuted"
   ],
   "note": ""
  },
  {
   "property": "C14",
   "status": "proved",
   "theorems": [
    "faces_ok_exact",
    "faces_ok_incomplete_refuted",
    "faces_ok_repeat_refuted",
    "faces_ok_empty_face_refuted"
   ],
   "note": ""
  },
  {
   "property": "C15",
   "status": "proved",
   "theorems": [
    "regenerate_faces_correct",
    "regenerate_faces_succeeds"
   ],
   "note": "For inputs whose edge records have two different ends. A successful call passes the face check; success is characterised exactly."
  },
  {
   "property": "C16",
   "status": "proved",
   "theorems": [
    "regenerate_crossings_relabels",
    "regenerate_crossings_canonical",
    "regenerate_crossings_fixed",
    "regenerate_crossings_valid",
    "regenerate_crossings_unknot_refuted"
   ],
   "note": "Canonical renumbering of crossings; the refuted theorem shows the abort on the zero-crossing unknot as found in the code."
  },
  {
   "property": "C17",
   "status": "proved",
   "theorems": [
    "regenerate_edges_correct",
    "regenerate_edges_succeeds",
    "regenerate_edges_forgets",
    "regenerate_edges_orientation_refuted",
    "regenerate_edges_across_refuted",
    "strands_exist",
    "regenerate_comps_correct",
    "regenerate_comps_overflow",
    "regenerate_comps_valid",
    "regenerate_comps_many_refuted",
    "regenerate_comps_idle",
    "regenerate_comps_twice",
    "regenerate_edges_comps",
    "regenerate_comps_overflow_refuted"
   ],
   "note": "Proved for every crossing table that names each edge twice; tables in which an edge returns straight across its crossing may make the code exit (refuted example), and more components than the array holds make it write out of bounds."
  },
  {
   "property": "C18",
   "status": "proved",
   "theorems": [
    "copy_same",
    "copy_many_components",
    "copy_unknot_refuted",
    "copy_no_crossings"
   ],
   "note": "Values only: that the copy shares no storage with the original is not expressible in a model of values."
  },
  {
   "property": "C19",
   "status": "proved",
   "theorems": [
    "pd_read_write",
    "pd_read_write_all",
    "regenerated_storable",
    "pd_read_write_unknot",
    "pd_read_untagged",
    "pd_read_no_hash_refuted",
    "pd_read_blank_tag_refuted"
   ],
   "note": "Valid diagrams with canonical crossings, a hash of 1 to 31 legal characters (the computed one if it contains 'unset'), uid and numbers in the range of their types and no white space as tag; several codes in one file. A diagram whose hash was never set, or with a white space tag, is not read back (refuted)."
  },
  {
   "property": "C20",
   "status": "proved",
   "theorems": [
    "hash_invariant",
    "hash_relabelled",
    "hash_ignores"
   ],
   "note": "For diagrams with complete sorted faces and sorted components; renaming of edges and faces arbitrary, faces may be reversed."
  },
  {
   "property": "C21",
   "status": "proved",
   "theorems": [
    "base64_correct",
    "base64_length",
    "base64_injective",
    "hash_text",
    "hash_text_cut",
    "hash_text_injective_refuted"
   ],
   "note": ""
  },
  {
   "property": "C22",
   "status": "proved",
   "theorems": [
    "is_alternating_correct",
    "is_alternating_unsigned",
    "alternating_even"
   ],
   "note": ""
  },
  {
   "property": "C23",
   "status": "proved",
   "theorems": [
    "strand_places",
    "strand_places_unique",
    "strand_edges",
    "crossing_change",
    "strands_bad_index"
   ],
   "note": ""
  },
  {
   "property": "C24",
   "status": "proved",
   "theorems": [
    "edgemap_composition",
    "edgemap_associative",
    "ormap_composition",
    "isos_move_things",
    "iso_composition",
    "iso_composition_in_place",
    "iso_associative",
    "iso_inverse",
    "iso_identity",
    "iso_period",
    "composed_edgemap_valid_refuted",
    "crossingless_isos_refuted",
    "apply_edgemap",
    "apply_composed",
    "apply_identity"
   ],
   "note": "Applying edge maps: for regenerated diagrams in which no two crossings look alike and maps that follow the strands."
  },
  {
   "property": "C25",
   "status": "proved",
   "theorems": [
    "build_isos_sound",
    "build_map_isos_sound",
    "isomorphic_sound",
    "map_isos_positive"
   ],
   "note": ""
  },
  {
   "property": "C26",
   "status": "proved",
   "theorems": [
    "isomorphic_decides",
    "map_isomorphic_decides",
    "build_isos_exact",
    "build_map_isos_exact",
    "isomorphic_refl",
    "isomorphic_sym",
    "isomorphic_trans",
    "isomorphic_wraps",
    "isomorphic_chain_refuted"
   ],
   "note": "bounds as in the statement; isomorphic_wraps shows what happens when the count is a multiple of 2^32"
  },
  {
   "property": "C27",
   "status": "proved",
   "theorems": [
    "cyclic_comparison",
    "cyclic_order"
   ],
   "note": ""
  },
  {
   "property": "C28",
   "status": "proved",
   "theorems": [
    "reorient_component",
    "reorient_twice",
    "reorient_positive",
    "reorient_keeps_over",
    "reorient_unknot_refuted"
   ],
   "note": "For regenerated diagrams; the crossingless unknot is out of bounds (refuted)."
  },
  {
   "property": "C29",
   "status": "proved",
   "theorems": [
    "renumber_component",
    "renumber_adds",
    "renumber_direction_refuted",
    "renumber_large_refuted"
   ],
   "note": "The offset is subtracted, not added as documented; offsets that wrap 32 bits stop the program (both refuted)."
  },
  {
   "property": "C30",
   "status": "proved",
   "theorems": [
    "compacting_copy",
    "compacting_copy_outside",
    "compacting_copy_order",
    "transform_and_compact"
   ],
   "note": ""
  },
  {
   "property": "C31",
   "status": "proved",
   "theorems": [
    "loop_addition",
    "loop_addition_regular",
    "loop_addition_unknot"
   ],
   "note": "Connected planar diagrams; the result is a relabelling of the diagram with the loop spliced in."
  },
  {
   "property": "C32",
   "status": "proved",
   "theorems": [
    "loop_deletion",
    "loop_deletion_last",
    "loop_deletion_none",
    "accepted_workable"
   ],
   "note": "Removal of a loop: the crossing table, edge records, components with tags, faces and planarity of the result, for every connected planar diagram; at a crossing without a loop the program stops."
  },
  {
   "property": "C33",
   "status": "proved",
   "theorems": [
    "simplify_reduces",
    "simplify_tags",
    "simplify_reduced",
    "components_few"
   ],
   "note": "Connected planar diagrams with at least one crossing, within as many passes as there are crossings; the result has no loop and no face with one edge, or is the unknot without crossings."
  },
  {
   "property": "C34",
   "status": "proved",
   "theorems": [
    "connect_sum_signed",
    "connect_sum_unsigned",
    "regenerate_unsigned_planar",
    "connect_sum_unknot_refuted"
   ],
   "note": "Connected planar diagrams with crossings. If no crossing has a sign, regenerating may turn whole strands around, and the theorem says so. With the unknot without crossings the function reads outside its tables (refuted)."
  },
  {
   "property": "C35",
   "status": "proved",
   "theorems": [
    "split_diagram",
    "split_connected",
    "split_single",
    "split_beside",
    "union_beside",
    "workable_drawn"
   ],
   "note": "Every disjoint union, in any numbering, of connected planar diagrams and circles without crossings: the function returns exactly these pieces with tags, each passing the checks."
  },
  {
   "property": "C36",
   "status": "proved",
   "theorems": [
    "interlaced_unsigned",
    "interlaced_signed",
    "interlaced_crossings",
    "interlaced_crossings_unsigned",
    "interlaced_applies",
    "order_signs_exist",
    "interlaced_unknot_refuted"
   ],
   "note": "Every diagram with consistent edges and components. On the unknot without crossings the count reads outside its array (refuted)."
  },
  {
   "property": "C37",
   "status": "proved",
   "theorems": [
    "linking_number",
    "unsigned_linking_number",
    "self_linking",
    "linking_symmetric",
    "linking_unsigned",
    "reorient_linking",
    "linking_number_exact"
   ],
   "note": ""
  },
  {
   "property": "C38",
   "status": "partial",
   "theorems": [
    "constraints_implement_map_partial",
    "constraints_implement_map_one_component"
   ],
   "note": "Full for histories that do not put identical line/plane data on two components; false without that restriction (C39)."
  },
  {
   "property": "C39",
   "status": "proved",
   "theorems": [
    "constraints_cross_component_refuted",
    "constraints_out_of_range_refuted"
   ],
   "note": "Existential: witness histories."
  },
  {
   "property": "C40",
   "status": "proved",
   "theorems": [
    "remove_constraint_exact",
    "remove_all_clears"
   ],
   "note": ""
  },
  {
   "property": "C41",
   "status": "proved",
   "theorems": [
    "write_numbers_identify",
    "vect_constraints_round_trip",
    "write_after_merge_refuted"
   ],
   "note": "Characters of the file abstracted to headers and per-vertex numbers; coordinate printing/reading is an arbitrary function. write_after_merge_refuted shows list_ok is needed."
  },
  {
   "property": "C42",
   "status": "proved",
   "theorems": [
    "read_table_overflow",
    "read_table_overflow_refuted",
    "read_first_header_bound"
   ],
   "note": "The natural property is refuted; the exact boundary is proved."
  },
  {
   "property": "C43",
   "status": "proved",
   "theorems": [
    "vertex_number_bijection",
    "vertex_number_wrap_clamp"
   ],
   "note": ""
  },
  {
   "property": "C44",
   "status": "proved",
   "theorems": [
    "fix_wrap_correct",
    "fix_wrap_single_vertex_refuted"
   ],
   "note": ""
  },
  {
   "property": "C45",
   "status": "proved",
   "theorems": [
    "add_then_drop",
    "add_component_constraints_refuted",
    "drop_component_constraints_refuted"
   ],
   "note": ""
  },
  {
   "property": "C46",
   "status": "proved",
   "theorems": [
    "k_ascent_always",
    "k_descent_always",
    "no_ascents_refuted"
   ],
   "note": "The table of probabilities is not in the sources; its documented range is used. k = 0 is outside it (refuted)."
  },
  {
   "property": "C47",
   "status": "proved",
   "theorems": [
    "k_ascent_bijection",
    "k_ascent_prefix",
    "eulerian_counts",
    "k_ascent_uniform",
    "probability_range"
   ],
   "note": "The probabilities are the documented ones, without rounding."
  },
  {
   "property": "C48",
   "status": "proved",
   "theorems": [
    "xoshiro_state",
    "xoshiro_bijection",
    "xoshiro_zero",
    "xoshiro_unit",
    "xoshiro_unit_onto",
    "xoshiro_seeds",
    "xoshiro_never_zero",
    "xoshiro_words_differ"
   ],
   "note": ""
  },
  {
   "property": "C49",
   "status": "proved",
   "theorems": [
    "crossing_test",
    "system_check",
    "at_most",
    "fan_triangulates",
    "teeth_triangulates",
    "random_triangulates",
    "random_reaches_all",
    "spiral_triangulates",
    "triangle_refuted"
   ],
   "note": "For n = 3 the spiral and teeth builders write outside their buffers (refuted)."
  },
  {
   "property": "C50",
   "status": "proved",
   "theorems": [
    "product_multiplies",
    "product_extensional",
    "product_comm",
    "product_assoc",
    "product_one",
    "positive_product",
    "eq_same_terms",
    "eq_decides",
    "cancelled_terms_refuted",
    "zero_product_refuted"
   ],
   "note": "Coefficients and exponents are unbounded integers. Cancelled terms are kept with coefficient 0, so equality of products by polynomials_eq needs a normal form (refuted without one)."
  },
  {
   "property": "C51",
   "status": "proved",
   "theorems": [
    "store_file_round_trip",
    "display_empty_refuted"
   ],
   "note": "Text abstracted to header and parsed codes."
  },
  {
   "property": "C52",
   "status": "proved",
   "theorems": [
    "streaming_store_never_read",
    "header_mismatch_refuted"
   ],
   "note": ""
  },
  {
   "property": "C53",
   "status": "proved",
   "theorems": [
    "plc_copy_identical"
   ],
   "note": ""
  },
  {
   "property": "C54",
   "status": "proved",
   "theorems": [
    "regenerate_signed",
    "regenerate_unsigned",
    "regenerate_unsigned_total",
    "regenerate_twice",
    "regenerate_unsigned_twice_refuted",
    "regenerate_many_refuted"
   ],
   "note": ""
  },
  {
   "property": "C55",
   "status": "proved",
   "theorems": [
    "cycles_separate",
    "checkerboard",
    "face_edges_distinct",
    "planar_no_edge_across",
    "faces_distinct",
    "planar_crossings_differ",
    "crossings_even",
    "linking_number_exact",
    "reorient_twice_connected",
    "apply_identity_connected",
    "ok_not_planar_refuted"
   ],
   "note": ""
  },
  {
   "property": "C56",
   "status": "proved",
   "theorems": [
    "hypersimplex_in_range",
    "psi_round_trip",
    "cube_slice_in_range",
    "cube_slice_accepts",
    "slice_old_in_range",
    "slice_old_odd_in_range",
    "last_hypersimplex_refuted"
   ],
   "note": "Doubles are modelled by rationals; k = n-1 reads outside the table (refuted)."
  },
  {
   "property": "C57",
   "status": "proved",
   "theorems": [
    "jump_skips",
    "jumps_skip",
    "jump_injective"
   ],
   "note": "The characteristic polynomial is checked by a certificate inside Coq; the proof holds for every state."
  },
  {
   "property": "C58",
   "status": "proved",
   "theorems": [
    "pd_read_valid",
    "pd_read_long_hash_refuted",
    "pd_read_unchecked_refuted",
    "pd_read_truncated_refuted"
   ],
   "note": "The refuted parts give texts on which pd_read has undefined behaviour."
  },
  {
   "property": "C59",
   "status": "proved",
   "theorems": [
    "filing_succeeds",
    "store_one_per_class"
   ],
   "note": "the store model of C08 instantiated with the models of pd_pack, pd_unpack and pd_isomorphic"
  },
  {
   "property": "C60",
   "status": "proved",
   "theorems": [
    "build_isotopies_exact",
    "isotopic_decides",
    "isotopic_complete",
    "isotopic_tags_refuted",
    "isotopic_missing_tag_refuted",
    "isotopic_two_edges_refuted"
   ],
   "note": "outside the stated bounds: tags in another order or missing make the program stop, and a component with two edges can be reversed unnoticed (the three _refuted theorems)"
  },
  {
   "property": "C61",
   "status": "proved",
   "theorems": [
    "bigon_removal",
    "bigon_clasp"
   ],
   "note": "the case in which both outer corners lie on one face (the diagram falls into two) and diagrams with two crossings are modelled but not part of the statement"
  },
  {
   "property": "C62",
   "status": "proved",
   "theorems": [
    "tangle_two_sides",
    "tangle_new_for",
    "tangle_found",
    "tangle_contents",
    "tangle_bdy_or",
    "tangle_refuses",
    "tangle_contents_refuted"
   ],
   "note": "tangle_contents_refuted: with a curl turning back on the right inside, interior crossings are missed and the result is accepted all the same"
  },
  {
   "property": "C63",
   "status": "proved",
   "theorems": [
    "ccode_written",
    "ccode_faithful",
    "ccode_text_faithful",
    "ccode_accepted",
    "ccode_one_crossing",
    "ccode_too_many",
    "ccode_empty",
    "check_overflow_refuted",
    "ccode_unsigned_refuted"
   ],
   "note": "check_overflow_refuted: with exactly 250 crossings the check writes beyond its array; ccode_unsigned_refuted: the code of an unsigned diagram describes no choice of signs and is accepted all the same; ccode_empty: without crossings there is no buffer"
  },
  {
   "property": "C64",
   "status": "proved",
   "theorems": [
    "wires_complete",
    "torus_built",
    "torus_refused",
    "twist_built",
    "twist_refused",
    "twist_even_refuted",
    "unknot_built",
    "unknot_small",
    "chain_built",
    "chain_small",
    "chain_long_refuted"
   ],
   "note": "twist_even_refuted: for even n all crossings are made positive, so the diagram does not alternate as the twist knot does; chain_long_refuted: chains of 65 or more rings fail in pd_ok because the one-byte tags do not increase"
  },
  {
   "property": "C65",
   "status": "proved",
   "theorems": [
    "kt_code_written",
    "kt_code_read",
    "kt_round_trip",
    "kt_read_valid",
    "kt_two_edges_refuted",
    "kt_no_crossings_refuted",
    "kt_stray_number_refuted"
   ],
   "note": "kt_two_edges_refuted: with components of two edges the signs can come back reversed (Hopf link); kt_no_crossings_refuted: the code written for a diagram without crossings is not read; kt_stray_number_refuted: an edge number that is too large makes the reader write outside of its array"
  },
  {
   "property": "C66",
   "status": "proved",
   "theorems": [
    "exhaustive_nearest",
    "neighbour_nearest",
    "history_nearest",
    "history_nearest_vertex",
    "neighbour_grown_refuted",
    "neighbour_changed_refuted",
    "vertex_empty_refuted"
   ],
   "note": "exact rational coordinates; neighbour_grown_refuted and neighbour_changed_refuted: saved data are recognised by the address alone, so a changed list gives a null pointer or a wrong answer without an error; vertex_empty_refuted: a curve without components"
  },
  {
   "property": "C67",
   "status": "proved",
   "theorems": [
    "crossings_found_exactly"
   ],
   "note": "exact rational arithmetic; the law of sines by which the code finds the parameters is modelled by the exact solution, and whether its angles and sides are large enough is a parameter of the theorem"
  },
  {
   "property": "C68",
   "status": "proved",
   "theorems": [
    "crossings_assembled",
    "triple_point_refused",
    "lone_component_fails",
    "polygon_diagram",
    "generic_polygon_converted"
   ],
   "note": "exact rational arithmetic; perturbations, the thickness test and qsort are parameters (sorts_all is what is asked of qsort); passages of a component are at least 1e-8 apart or equal; that the projection is planar is a hypothesis of success, not proved from the geometry"
  },
  {
   "property": "C69",
   "status": "proved",
   "theorems": [
    "whitten_acts",
    "whitten_composes",
    "whitten_unit",
    "whitten_constraints_refuted",
    "whitten_pairs_refuted",
    "whitten_reversed_constraints_refuted"
   ],
   "note": "curves without constraints; whitten_constraints_refuted: with a constraint the inverse permutation is sought beyond the end of the array; whitten_reversed_constraints_refuted: reversing one component moves the constraints of all, and by one too far; whitten_pairs_refuted: a permutation written as pairs (number, image) is not read as such"
  },
  {
   "property": "C70",
   "status": "proved",
   "theorems": [
    "homfly_text_read",
    "homfly_text_written",
    "homfly_text_decides",
    "latex_determines",
    "mathematica_determines",
    "homfly_text_room_refuted"
   ],
   "note": "lmpoly itself is not modelled: the theorems start from its output format; tables must leave room for their nonzero coefficients (nonzeros T <= spaces), and homfly_text_room_refuted shows that the claim fails without this"
  },
  {
   "property": "C71",
   "status": "proved",
   "theorems": [
    "classify_exact",
    "classify_small",
    "classify_hopf_refuted",
    "classify_frees_refuted",
    "table_rows_read",
    "table_texts_decide",
    "classify_by_polynomial",
    "table_sums_multiply",
    "table_tags",
    "table_mirrors",
    "table_primes",
    "table_complete",
    "table_no_repeats"
   ],
   "note": "lmpoly and bsearch are parameters (searches is the contract of bsearch on a table in order); polynomials of 1024 or more characters leave the copy without its end and are UB; classify_hopf_refuted: two-crossing links are classified as the unknot; classify_frees_refuted: whether the argument is freed depends on its crossings; the theorems about the table quantify over all its rows and are accepted by computation in the kernel"
  },
  {
   "property": "C72",
   "status": "proved",
   "theorems": [
    "knottype_written",
    "knottype_written_determines",
    "knottype_read_refuted"
   ],
   "note": "knottype_read_refuted: reading has undefined behaviour for every nonempty text, so there is no round trip to prove"
  },
  {
   "property": "C73",
   "status": "proved",
   "theorems": [
    "is_sap_always",
    "is_sap_refuted",
    "is_sap_verbose_one",
    "is_sap_verbose_two_refuted"
   ],
   "note": "exact rational arithmetic; is_sap_refuted: the exported test accepts everything"
  },
  {
   "property": "C74",
   "status": "proved",
   "theorems": [
    "sap_sampled",
    "sap_sampled_xoshiro",
    "sap_refused",
    "sap_gives_up"
   ],
   "note": "doubles are real numbers (rounding is left out), so these theorems rest on the axioms of the standard library's real numbers (sig_not_dec, sig_forall_dec, functional_extensionality_dep); the Example pentagon runs the sampler on concrete draws"
  },
  {
   "property": "C75",
   "status": "proved",
   "theorems": [
    "closed_polygon_sampled",
    "closed_polygon_degenerate",
    "closed_polygon_all",
    "closed_plane_polygon_sampled",
    "closed_plane_polygon_degenerate",
    "closed_plane_polygon_all",
    "open_polygon_sampled",
    "open_plane_polygon_sampled",
    "open_polygon_all",
    "open_plane_polygon_all"
   ],
   "note": "doubles are real numbers (axioms of the standard library's Reals); the numbers drawn are an arbitrary sequence; the distribution of the polygons is not modelled"
  },
  {
   "property": "C76",
   "status": "proved",
   "theorems": [
    "polygon_assembled",
    "every_polygon_assembled",
    "equilateral_sampled",
    "equilateral_sampled_xoshiro",
    "equilateral_drawn",
    "equilateral_refused"
   ],
   "note": "doubles are real numbers (axioms of the standard library's Reals); the distribution is not modelled; the constant TWOPI of the code is a little less than 2 pi, so equilateral_drawn covers angles up to it"
  },
  {
   "property": "C77",
   "status": "proved",
   "theorems": [
    "rotation_frame",
    "rotate_vect_rotates",
    "rotate_vect_short",
    "rotate_vect_length",
    "rotate_vect_sum",
    "rotate_rotates",
    "rotate_long_axis_refuted",
    "fold_move_rigid",
    "fold_move_refused"
   ],
   "note": "doubles are real numbers (axioms of the standard library's Reals); rotate_long_axis_refuted: plc_rotate does not normalize its axis; symmetry groups and constraints are left out"
  },
  {
   "property": "C78",
   "status": "proved",
   "theorems": [
    "arclength_right",
    "arc_sampled",
    "arc_too_short",
    "loop_closure_closes",
    "loop_closure_refused",
    "loop_closure_one_edge_refuted",
    "loop_closure_component_refuted",
    "loop_closure_no_length_refuted"
   ],
   "note": "doubles are real numbers (axioms of the standard library's Reals); the property is stated with the conditions under which it holds, and the _refuted theorems show that the code reaches undefined behaviour outside them; the distribution is not modelled"
  },
  {
   "property": "C79",
   "status": "proved",
   "theorems": [
    "arclength_position",
    "arclength_position_open_refuted",
    "subarc_shortest",
    "diameter_largest",
    "center_mean",
    "gyradius_pairs",
    "empty_curve_refused",
    "chords_open",
    "chords_closed",
    "chords_beyond_refuted",
    "project_orthogonal",
    "project_refused",
    "rotate_to_axis_rotates",
    "rotate_to_axis_down_refuted"
   ],
   "note": "doubles are real numbers (axioms of the standard library's Reals); the _refuted theorems show where the code differs: plc_s after open components, plc_random_rotate for (0,0,-1), skips beyond the length"
  },
  {
   "property": "C80",
   "status": "proved",
   "theorems": [
    "angle_right",
    "angle_flag",
    "turning_angle_right",
    "turning_angle_short_refuted",
    "total_curvature_right",
    "normal_right",
    "circumcenter_right",
    "circumcenter_refused",
    "three_planes_meet",
    "inradius_right",
    "dihedral_right"
   ],
   "note": "doubles are real numbers (axioms of the standard library's Reals); atan2 is modelled by atan and its quadrants, and the angles are specified by acos; turning_angle_short_refuted shows that two short edges (product of lengths at most 1e-12) are given the angle 0 whatever their angle is"
  },
  {
   "property": "C81",
   "status": "proved",
   "theorems": [
    "delete_closed",
    "delete_open",
    "delete_open_nothing",
    "delete_open_outside_refuted",
    "delete_colors_refuted"
   ],
   "note": "closed components are covered for vertices in range; the _refuted theorems show where the code differs: arcs outside an open component are undefined behaviour, and colors beyond the new number of vertices stay"
  },
  {
   "property": "C82",
   "status": "proved",
   "theorems": [
    "lu_solves",
    "lu_zero_row",
    "lu_singular_refuted",
    "multiply_rows"
   ],
   "note": "doubles are real numbers (axioms of the standard library's Reals); lu_singular_refuted shows that singular matrices without a zero row are factorized as if they had an inverse"
  },
  {
   "property": "C83",
   "status": "proved",
   "theorems": [
    "stats_right",
    "edges_total",
    "stats_huge_refuted",
    "stats_no_edges",
    "curvature_right",
    "curvature_ends",
    "scale_curve",
    "scale_constraints"
   ],
   "note": "doubles are real numbers (axioms of the standard library's Reals); stats_huge_refuted and stats_no_edges show where the code differs from its description"
  },
  {
   "property": "C84",
   "status": "proved",
   "theorems": [
    "tangent_right",
    "direction_unique"
   ],
   "note": "doubles are real numbers (axioms of the standard library's Reals)"
  },
  {
   "property": "C85",
   "status": "proved",
   "theorems": [
    "check_right",
    "check_zero"
   ],
   "note": "doubles are real numbers (axioms of the standard library's Reals); plc_fix_cst, which moves the vertices to the same closest points, is not modelled"
  }
 ]
}