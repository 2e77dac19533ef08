{"claims": [
 {"property": "C01", "status": "proved", "theorems": ["C01_complement", "C01_level_ok_wf", "C01_constant_refuted"], "note": "total on constant-free definitions; raises on a constant"},
 {"property": "C02", "status": "proved", "theorems": ["C02_copy", "C02_group_single", "C02_group_single_total", "C02_clean", "C02_level_update", "C02_check", "C02_check_total", "C02_join", "C02_join_total", "C02_group_single_refuted"], "note": ""},
 {"property": "C03", "status": "proved", "theorems": ["C03_append", "C03_append_const", "C03_append_const_refuted", "C03_append_wf"], "note": "constant receivers: refuted for ints/bools (raise)"},
 {"property": "C04", "status": "proved", "theorems": ["C04_substitute", "C04_substitute_int", "C04_substitute_total", "C04_evaluate"], "note": ""},
 {"property": "C05", "status": "partial", "theorems": ["C05_detector", "C05_simplify_partial", "C05_simplify_refuted", "C05_factorize_partial"], "note": "the full claim is false (C05_simplify_refuted); proved for every run without the neutral-update event"},
 {"property": "C06", "status": "proved", "theorems": ["C06_simplify_terminates", "C06_simplify_returns"], "note": ""},
 {"property": "C07", "status": "proved", "theorems": ["C07_parse", "C07_parse_shape", "C07_empty_union"], "note": "all grammatical MCNP texts; also finding: contradictory unions give an unwritable empty union"},
 {"property": "C08", "status": "proved", "theorems": ["C08_surfaces_exact", "C08_surfaces_nodup", "C08_depends_only"], "note": ""},
 {"property": "C09", "status": "proved", "theorems": ["C09_insert", "C09_insert_total", "C09_eval_with", "C09_add_cone_plane"], "note": ""},
 {"property": "C10", "status": "partial", "theorems": ["C10_dependence_partial", "C10_dependence_total", "C10_dependence_refuted", "C10_transpose"], "note": "Exact for every element except the two patterns 's2 always has the side of s1' / 'always the other side', for which the code is wrong (refuted)."},
 {"property": "C11", "status": "proved", "theorems": ["C11_constraint_set", "C11_constraint_set_total", "C11_box_allowed", "C11_irregular_refuted"], "note": "For tables without the two irregular patterns of C10; with one of them a witness shows that simplify deletes a cell that has points."},
 {"property": "C12", "status": "proved", "theorems": ["C12_fill_missing", "C12_build_sound", "C12_build_total", "C12_build_refuted"], "note": "The CAD kernel's cut and side answers are parameters; crash when all pieces are on one side is proved."},
 {"property": "C13", "status": "proved", "theorems": ["C13_solid_in_box"], "note": "For tables without irregular elements."},
 {"property": "C14", "status": "partial", "theorems": ["C14_remove_extra_partial", "C14_constant_subcell_refuted", "C14_plain_union_refuted"], "note": "Proved for the runs in which no sub-cell is found constant; otherwise refuted by witnesses (wrong result, crash)."},
 {"property": "C15", "status": "partial", "theorems": ["C15_void_partial", "C15_void_no_partial", "C15_lost_void_refuted", "C15_intersection_refuted", "C15_crash_refuted"], "note": "All modes; proved for the runs without the events reported by the strict run; each event is shown reachable with a wrong void cell."},
 {"property": "C16", "status": "partial", "theorems": ["C16_split", "C16_split_when", "C16_box_definition", "C16_void_cells_partial", "C16_everywhere_partial", "C16_enclosure_partial", "C16_turns_refuted", "C16_two_solids_refuted", "C16_missing_term_refuted", "C16_term_order_refuted"], "note": "A split partitions the box; the six planes define the half open box whatever is registered; every place of the outer box is in exactly one void cell or in a solid (runs without the C15 events, solids aligned with their boxes, fewer than 2^50 smallest cubes), and with the graveyard cells every place of space. Refuted beyond: the limit of 50 turns drops boxes; only the first solid of an intersection with an enclosure is kept; pieces not aligned with the terms of the definition stop the program or drop the wrong term."},
 {"property": "C17", "status": "proved", "theorems": ["C17_sequence_mcnp", "C17_sequence_serpent", "C17_openmc_xml", "C17_openmc_py"], "note": "definitions without constants and empty lists"},
 {"property": "C18", "status": "proved", "theorems": ["C18_remove_redundant"], "note": ""},
 {"property": "C19", "status": "proved", "theorems": ["C19_wrap_line", "C19_cell_def", "C19_hang_refuted", "C19_corrupt_refuted"], "note": "whenever break positions exist; without them the writer loops or corrupts the text (refuted theorems)"},
 {"property": "C20", "status": "proved", "theorems": ["C20_registry", "C20_unique_with_deletions", "C20_deletion_refuted"], "note": "All histories of additions and look-ups; with deletions uniqueness is proved and the IndexError of a stale cache is shown."},
 {"property": "C21", "status": "proved", "theorems": ["C21_add", "C21_distinct"], "note": "For an arbitrary comparison test."},
 {"property": "C22", "status": "proved", "theorems": ["C22_sorted_surfaces"], "note": ""},
 {"property": "C23", "status": "partial", "theorems": ["C23_plain", "C23_plain_succeeds_iff", "C23_plain_comments", "C23_null_solid_refuted", "C23_sorted", "C23_sorted_complete", "C23_sorted_comments", "C23_sorted_envelope_refuted", "C23_sorted_without_voids_refuted", "C23_sorted_loses_voids_refuted", "C23_void_ids", "C23_void_ids_fresh", "C23_void_ids_collide_refuted"], "note": "For runs that return, labels are consecutive and cells kept in order; exactly when a run returns is characterised; failures (envelope enclosures and sort_enclosure, null solids, id collisions) are shown with witnesses."},
 {"property": "C24", "status": "proved", "theorems": ["C24_check_accepts_exactly_trees", "C24_check_rejects_the_rest", "C24_levels_are_distances", "C24_levels_loop_forever_otherwise"], "note": "for every set of labels; the empty list is rejected (load_cad does not call the check then)"},
 {"property": "C25", "status": "partial", "theorems": ["C25_check_ignores_geometry", "C25_warns_on_overlap_or_not_embedded_refuted", "C25_not_embedded_accepted_refuted"], "note": "the claim is false of the code: check_enclosure gives the same answer for every geometry; proved for all geometries and label sets, with witnesses"},
 {"property": "C26", "status": "partial", "theorems": ["C26_join_concatenates", "C26_join_unique", "C26_files", "C26_first_file_empty_refuted", "C26_enclosures_of_later_files_lost_refuted", "C26_enclosure_ids_collide_refuted"], "note": "True when the first file is not empty and enclosures occur at most in the first file; refuted otherwise (solids/enclosures lost, equal ids)."},
 {"property": "C27", "status": "partial", "theorems": ["C27_minus_previous", "C27_disjoint", "C27_disjoint_first", "C27_same_union", "C27_returns", "C27_final_partial", "C27_enclosure_refuted", "C27_empty_refuted", "C27_inner_cell_refuted", "C27_inner_piece_refuted", "C27_union_piece_refuted"], "note": "The new definitions are proved disjoint with the same union for all cells and points; their reduction with the constraint tables is proved for the runs without the events of C05/C14 at the points of the box. Models with enclosures, cells or pieces swallowed by another cell make the function stop, and pieces that are unions keep overlapping (all shown)."},
 {"property": "C28", "status": "partial", "theorems": ["C28_regions_partial", "C28_merged_partial", "C28_total", "C28_merged_total", "C28_three_points_refuted", "C28_axis_points_refuted"], "note": "After any history of writers each written cell, read with the surface cards of that file in real arithmetic, is the same set of points as its CAD definition (points off the planes): C28_regions_partial without merged PHITS voids, C28_merged_partial for the PHITS file with one void cell after any history of other writers; provided the planes classified as PX/PY/PZ are exactly aligned and, with prnt3PPlane, an even number of earlier three-point writers and well placed points. Refuted with witnesses otherwise: each further file written with three-point planes inverts the cells, and three-point planes normal to an axis on the negative side are written with the wrong sense."},
 {"property": "C29", "status": "partial", "theorems": ["C29_independent_partial", "C29_phits_first_refuted", "C29_phits_merged_refuted", "C29_three_points_refuted"], "note": "Without three-point planes and with no PHITS in earlier calls every file equals that of a single fresh export. The full statement is false: PHITS changes MatInfo, comments and definitions of the void cells for later files; three-point planes are flipped again by each writer."},
 {"property": "C30", "status": "partial", "theorems": ["C30_boundary_partial", "C30_cone_plane_refuted", "C30_known_sphere_refuted"], "note": "The boundary is on the sphere iff it was new and nothing is registered after it; both failures shown."},
 {"property": "C31", "status": "proved", "theorems": ["C31_cylinder", "C31_cone", "C31_x_axis_refuted"], "note": "The coefficients are proved for every axis not along X (any length), every position, radius and tangent; along X the functions raise (the callers write CX/KX cards there)."},
 {"property": "C32", "status": "proved", "theorems": ["C32_points_to_coeffs", "C32_side_unique", "C32_collinear"], "note": "Real arithmetic: unit normal, plane through the points with the side given by the MCNP manual's rules; ZeroDivision exactly on collinear triples."},
 {"property": "C33", "status": "partial", "theorems": ["C33_tolerance", "C33_reflexive", "C33_reflexive_relative", "C33_symmetric", "C33_signed", "C33_close_sphere", "C33_close_plane", "C33_close_cylinder", "C33_close_torus", "C33_signed_cone", "C33_close_cone", "C33_cylinder_relative_refuted", "C33_cylinder_symmetric_refuted", "C33_plane_relative_refuted", "C33_cone_refuted", "C33_transitive_refuted", "C33_fuzzy_log_refuted"], "note": "Reflexive with absolute tolerances (and relative ones where the tolerance is not zero), symmetric except for cylinders with axes only nearly parallel (refuted) and planes with relative tolerances (refuted); surfaces found the same are proved close in signed distance, for cones up to the direction: opposite cones are taken for the same (refuted). Not transitive (refuted)."},
 {"property": "C34", "status": "partial", "theorems": ["C34_last_word_always_dropped", "C34_every_label_has_words", "C34_number_dropped", "C34_not_a_number_refuted", "C34_single_word_refuted", "C34_comment"], "note": "The last word is dropped whatever it is (refuted); the documented result holds when it is a number."},
 {"property": "C35", "status": "partial", "theorems": ["C35_skip", "C35_duplicate_refuted", "C35_negative_refuted", "C35_out_of_range", "C35_null_cells_removed"], "note": "Exact for distinct indices in 0..n-1; refuted for repeated and negative indices."},
 {"property": "C36", "status": "proved", "theorems": ["C36_evaluate_sound", "C36_evaluate_complete", "C36_evaluate_total", "C36_evaluate_kleene"], "note": "All definitions and partial assignments; the answer is exactly Kleene's three-valued value."},
 {"property": "C37", "status": "partial", "theorems": ["C37_substitute", "C37_clean", "C37_join_operators", "C37_factorize", "C37_check", "C37_complement", "C37_simplify_superset", "C37_simplify_partial", "C37_simplify_refuted", "C37_simplify_fails_refuted"], "note": "Every single operation keeps the region; simplify never loses a point, but can make an empty region non empty (shown) or raise AttributeError (shown); equality is proved for the runs in which no part of an intersection is found empty."},
 {"property": "C38", "status": "partial", "theorems": ["C38_intersection", "C38_union", "C38_definition", "C38_solid", "C38_solid_none", "C38_planes_forward", "C38_planes_reversed", "C38_plane_refuted", "C38_undefined_refuted", "C38_both_signs_refuted", "C38_torus_refuted", "C38_trc_refuted", "C38_no_planes_refuted", "C38_tilted_torus_refuted", "C38_part_partial", "C38_cell_partial", "C38_cell_solid_partial", "C38_unbounded_refuted", "C38_edge_refuted", "C38_reversed_refuted"], "note": "Box algebra, replacement of curved surfaces by planes, and the box of a one-level part by enumerating the points where planes meet are modelled and joined end to end (C38_cell_partial: the box of build_BoundBox is right when the planes are well placed, conditions good_part, and orientation Forward/Forward or Reversed/Reversed). Refuted in general: non-unit planes, both signs, Undefined orientation, elliptic torus, TRC, elliptic surfaces; a cell open towards a side of the universe that has six corners; a line through an edge of the universe box; the outside of a sphere a bit larger than the universe."},
 {"property": "C39", "status": "proved", "theorems": ["C39_complement", "C39_remove_operators", "C39_selected_cells", "C39_transformed_cells_refuted", "C39_circular_refuted"], "note": "Texts without comments and line breaks. Cells with TRCL or LIKE BUT keep their operators (refuted), circular definitions do not terminate (refuted); build_container does not remove operators at all (not modelled)."},
 {"property": "C40", "status": "partial", "theorems": ["C40_like_partial", "C40_like_zero_refuted", "C40_like_fill_refuted", "C40_levels", "C40_level_is_depth_partial", "C40_max_level_refuted", "C40_structure_outcome", "C40_unreachable_refuted", "C40_nested", "C40_cycle", "C40_universes_read", "C40_filters", "C40_set_filter", "C40_build_universe_partial", "C40_build_container_partial", "C40_all_levels_refuted", "C40_start_refuted", "C40_second_build_refuted", "C40_second_surfaces_refuted", "C40_gap_refuted", "C40_like_elsewhere_refuted", "C40_fill_transformation_refuted", "C40_like_container_refuted", "C40_xml_container_refuted", "C40_xml_universes_refuted", "C40_xml_filters_refuted", "C40_xml_keys_partial"], "note": "Model of LIKE n BUT, the level structure, nested universes, filters, the cells of a build (renumbered surfaces, TRCL copies) and the tree of universes. Proved for all cell lists: levels are least depths, exact outcome of the structure, exact nested universes, exact filters, and the tree of a first build from the root (from any universe if depths are unique). The claim that the level is one more than the maximum level is refuted; so are completeness of depth=-1, builds from other universes, second builds, and several LIKE, FILL and OpenMC cases. Missing: shapes, transformations as maps."},
 {"property": "C41", "status": "proved", "theorems": ["C41_round_trip"], "note": "definitions without constants and empty lists"},
 {"property": "C42", "status": "partial", "theorems": ["C42_assignment", "C42_parts", "C42_constructor", "C42_history", "C42_misspelt", "C42_simplify", "C42_file", "C42_file_early", "C42_file_export_late", "C42_rejection_no_effect", "C42_list_changed_later_refuted", "C42_default_lists_shared_refuted", "C42_defaults_shared_refuted", "C42_range_refuted", "C42_simplify_case_refuted", "C42_file_export_early_refuted", "C42_log_dir_refuted", "C42_load_rejected_refuted"], "note": "Heap model of the four configuration classes, CadToCsg construction, load_step_file/export_csg checks and from_json. Proved for all states/histories: exact acceptance, effects, no change on rejection, typing invariant over all histories, from_json succeeds iff the file is valid, with its effects and order. Partial because documented ranges hold only as types: _refuted theorems give negative/NaN tolerances, shared default objects and lists, late export errors, log directory in the default path, load_step_file changing the object before failing."},
 {"property": "C43", "status": "partial", "theorems": ["C43_enclosure_voids_partition", "C43_solid_filling_an_enclosure_refuted"], "note": "given that each region's void cells are the region minus its sons and selected solids (C15/C16) and the CAD kernel's intersection answers are right; refuted for a solid that fills an enclosure"},
 {"property": "C44", "status": "partial", "theorems": ["C44_no_solid_lost", "C44_attributes", "C44_ids", "C44_ids_collide_refuted", "C44_one_envelope", "C44_two_envelopes_refuted", "C44_two_envelopes_crash_refuted", "C44_solid_swallowed_refuted", "C44_cells"], "note": "No solid is ever lost; attributes and ids proved without envelopes / for uniform fusing; the failing interleavings are shown."},
 {"property": "C45", "status": "partial", "theorems": ["C45_nearest_label", "C45_top_level_refuted"], "note": "Proved for elements inside a group; refuted at the top of the tree."},
 {"property": "C46", "status": "partial", "theorems": ["C46_surface_side_partial", "C46_elliptic_cone_refuted", "C46_hyperboloid_refuted", "C46_ellipsoid_refuted", "C46_blind_refuted"], "note": "Proved for planes, spheres, cylinders, cans, cones, truncated cones, elliptic and hyperbolic cylinders, elliptic cans, paraboloids, tori and boxes. The code is wrong for elliptic cones (Z/Ra not squared), off-centre hyperboloids (centre subtracted twice) and ellipsoids (TypeError), and at the apex of a truncated cone and on the extended side of an elliptic can: refuted."},
 {"property": "C47", "status": "partial", "theorems": ["C47_surface_cards_partial", "C47_transformation", "C47_plane_normal_refuted", "C47_box_refuted", "C47_point_cylinder_refuted", "C47_point_cone_refuted", "C47_tr_refuted"], "note": "Proved for every deck of legal cards except: P with a non-unit normal plus TR, BOX/RPP plus TR, cards X/Y/Z giving a cylinder or a cone through a point of the axis, TR with m=-1: there the property is refuted. Real arithmetic; parsing of the card text is not in this model."},
 {"property": "C48", "status": "partial", "theorems": ["C48_gq_partial", "C48_sq", "C48_sense_refuted", "C48_cone_refuted", "C48_sphere_refuted", "C48_paraboloid_refuted"], "note": "Proved for elliptic, circular and hyperbolic cylinders with negative axis and hyperboloids of revolution, given a correct eigen-decomposition (numpy.linalg.eigh is an argument of the model). Refuted for the opposite sign of the card, cones, spheres/ellipsoids and paraboloids."},
 {"property": "C49", "status": "partial", "theorems": ["C49_mcnp", "C49_mcnp_tilted", "C49_mcnp_exact", "C49_mcnp_cone_sheet", "C49_openmc", "C49_openmc_py", "C49_serpent", "C49_openmc_py_torus", "C49_openmc_py_torus_refuted", "C49_serpent_cylinder_refuted", "C49_serpent_cone_refuted", "C49_tilted_torus_refuted", "C49_tilted_cone_refuted", "C49_openmc_cone_refuted", "C49_zero_tolerance_refuted"], "note": "Positive for cylinders, aligned cones, spheres and aligned tori (MCNP/PHITS, OpenMC); refuted for tilted cones (second sheet), OpenMC cones, tilted tori (no card), OpenMC Python tori, Serpent cones, Serpent cylinders along Z or tilted, and a zero angular tolerance. Decimals of the numbers are not modelled. Planes are in C28/C29."},
 {"property": "C50", "status": "partial", "theorems": ["C50_complete_partial", "C50_sound_partial", "C50_total_partial", "C50_lost_refuted", "C50_extra_refuted", "C50_far_refuted"], "note": "Proved for every kernel with the stated contract and all definitions where surfaces of a union of sub-sequences do not come back in a later factor (separate); no extra points if moreover the first boxes are Forward or Reversed boxes meet every shape. Refuted without: joinBase records a side that differs between the parts as None for ever (whole solid lost) or takes the side of one part for all (extra points); filterparts adds the whole factor for far Reversed parts. Not modelled: failures of the kernel, thin parts (taken to have no interior)."},
 {"property": "C51", "status": "partial", "theorems": ["C51_cell_partial", "C51_pieces_partial", "C51_zero_refuted", "C51_unknown_refuted", "C51_torus_refuted"], "note": "Proved for all pieces whose spheres, cones, tori and concave cylinders are found among the registered surfaces and whose tori have an axis along X, Y or Z, at all places where surfaces taken for the same agree. Refuted without: comparison with tolerances is not transitive and a face's surface may be found in no registered one (number 0 in the definition); unknown kinds give 0; tilted tori are left out. The answers of is_inverted, gen_plane and gen_torus_annex_* are inputs of the model."},
 {"property": "C52", "status": "partial", "theorems": ["C52_partition_partial", "C52_disjoint", "C52_ends", "C52_planes", "C52_quadrics", "C52_volume", "C52_cells", "C52_order", "C52_tolerance_partial", "C52_tolerance_refuted", "C52_lost_refuted", "C52_warning_refuted", "C52_empty_refuted"], "note": "Proved for every kernel with the contract: nothing but pieces of volume up to 0.01 is lost, pieces stay disjoint and inside, cutting ends, parts are uncut by their planes and quadrics at each stage, a silent single solid keeps its volume within 1%. Refuted: small pieces and even a whole solid of a cell are lost without a warning (the error code is overwritten by the next base or solid), splitTolerance in (0,1e-13) recurses for ever. The surfaces found on a shape are inputs of the model."},
 {"property": "C53", "status": "partial", "theorems": ["C53_ranges", "C53_cylinder_partial", "C53_cone_partial", "C53_sphere", "C53_same_faces", "C53_same_faces_refuted", "C53_turn_refuted", "C53_direction_refuted", "C53_narrow_refuted", "C53_tip_refuted", "C53_sphere_refuted"], "note": "Partial: the separation is proved when the faces taken for one surface are exactly on it, are parametrised from one direction, lie within one turn and (cones) keep off the tip. It is refuted, with witnesses, outside these conditions: ranges given in different turns, different reference directions, a narrower cone (angles are compared without absolute value), a face that reaches the tip (no plane at all); the groups of touching faces (spheres, same_faces) are sound but incomplete."},
 {"property": "C54", "status": "partial", "theorems": ["C54_groups", "C54_merge", "C54_merge_stacked_refuted", "C54_merge_nested_refuted", "C54_merge_past_refuted", "C54_u_narrow", "C54_u_wide_partial", "C54_u_wide_refuted", "C54_v_partial", "C54_v_wide_refuted", "C54_v_force_refuted", "C54_axis_refuted", "C54_sheet_partial", "C54_sheet_refuted"], "note": "Partial: grouping, merged range, planes and annex surface are right under the stated conditions and refuted, with witnesses, outside of them: faces stacked along the other parameter (the half torus is taken for closed), nested ranges, ranges past the full turn; a range over half a turn on a torus whose centre is off the axis through the origin (the normals use the position and not the direction from the centre); a cylinder for more than half a turn around the tube; forceCylinder; an axis between tor_angle and angle (unbound variable); the sheet when the first vertex is on the axis. The torus axis is taken exactly along a coordinate axis."},
 {"property": "C55", "status": "partial", "theorems": ["C55_cells_partial", "C55_solids", "C55_enclosure_refuted", "C55_inside_refuted", "C55_overlap_refuted", "C55_constant_refuted", "C55_simplify_refuted"], "note": "C55_cells_partial: for cells whose tilted cones are all among those recorded for the cell (its own cones, or the opposite ones of the cells in the box of the void), the written definition with two-sheeted cards equals the original one with the sheets of the solids. Refuted in general: void beside or inside an enclosure with a tilted cone, cells cut by forceNoOverlap, constant definitions (TypeError), voids simplified with a (right) constraint table, which can turn the sign of a cone. C55_solids: from registered surfaces, the tilted cones in the definition of a solid are all recorded for it, with the sign they have there (so the hypothesis of C55_cells_partial holds of every solid)."},
 {"property": "C56", "status": "partial", "theorems": ["C56_simplify", "C56_join", "C56_complement", "C56_void", "C56_no_overlap", "C56_parse", "C56_cell_def", "C56_unregistered_refuted", "C56_box_def", "C56_void_cells", "C56_graveyard", "C56_cones", "C56_text", "C56_cell_text_partial"], "note": "Proved for each step, for all inputs. cellDef: when the surfaces of the faces have been registered; otherwise refuted (number 0). The wrapped text: when it has places to cut (see C19). Voids of enclosure pieces: the step get_void is covered, the CAD cut of the pieces is not."},
 {"property": "C57", "status": "partial", "theorems": ["C57_known", "C57_cells_partial", "C57_cones_partial", "C57_numbers", "C57_written_partial"], "note": "C57_known: from registered surfaces through solids, voids, graveyard and apex planes every surface of every cell is registered, with any cones. C57_cells_partial (cones along X, Y, Z) and C57_cones_partial (any cones, with two-sheeted cards): at every place the cell of a solid is true exactly in the solid, and exactly one void or graveyard cell is true outside of the solids, none inside; so exactly one cell is true if the solids are disjoint. Missing: enclosures, forceNoOverlap, simplify = full, the runs with the events of C15 and the boxes of 2^50 or more smallest cubes (C16); tilted cones in a void cell must be recorded for it (see C55_simplify_refuted; those of the solids are: C55_solids), and the second surface of a torus face must not be found the same as a tilted cone. C57_numbers: solids keep their numbers, void and graveyard cells follow the last one without gap; only comment lines have no number. C57_written_partial (PropsWritten): the files (MCNP, Serpent, PHITS with all voids, OpenMC without the outer void), read with their own surface cards after any history of writers, have the same true cells in the same order as the definitions (hypotheses of C28 on the planes; conversion and export models joined by surface numbers and cells)."},
 {"property": "C58", "status": "partial", "theorems": ["C58_merged", "C58_partition_partial", "C58_written_partial"], "note": "C58_merged: for every conversion from registered surfaces (no hypothesis on geometry or void generation) the cell block consists of the solids with the same definitions and consecutive numbers from startCell, the inner void that excludes exactly these numbers, and the outer void, the only one marked as outside; wherever the void cells of the conversion are right the two void cells are right. C58_partition_partial: with the hypotheses of C57_cones_partial the file partitions space. C58_written_partial: the same for the file as written after simplify_planes, read with its surface cards (hypotheses of C28 on the planes). Missing: as in C57 (enclosures do not occur here) and C28. The surfaces of the conversion (C57) and of the export (C28) are two models joined by their numbers and the cells. The labels are given as core.py 559-593 does (C23); texts are C17/C19; a second PHITS export of the same object loses the inner void: C29_phits_merged_refuted."}
]}
