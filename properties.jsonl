{"id": "C01", "title": "Complement of a cell definition is its logical negation", "statement": "For every cell definition held in a BoolSequence whose nesting level is up to date, get_complementary() returns a definition that is true at exactly the points where the original is false; the receiver keeps its meaning.", "quantifier": "all Boolean definitions (any depth, any operators, any surface numbers) and all sidedness assignments of the surfaces", "why_tests_cant": "The space of nested definitions and point sidedness assignments is infinite; tests compare a few strings.", "anchors": ["src/geouned/GEOUNED/utils/boolean_function.py:BoolSequence.get_complementary", "src/geouned/GEOUNED/utils/boolean_function.py:BoolSequence.group_single"]}
{"id": "C02", "title": "Structural rewrites preserve the solid", "statement": "copy, group_single, clean, check and join_operators never change the set of points described by a definition, terminate on every input with up to date levels and never raise.", "quantifier": "all well formed definitions and all point assignments", "why_tests_cant": "Needs every nesting shape, including constants at any depth.", "anchors": ["src/geouned/GEOUNED/utils/boolean_function.py:BoolSequence.clean", "src/geouned/GEOUNED/utils/boolean_function.py:BoolSequence.check", "src/geouned/GEOUNED/utils/boolean_function.py:BoolSequence.join_operators", "src/geouned/GEOUNED/utils/boolean_function.py:BoolSequence.group_single", "src/geouned/GEOUNED/utils/boolean_function.py:BoolSequence.copy"]}
{"id": "C03", "title": "append is n-ary conjunction/disjunction", "statement": "Appending integers, booleans or sub-sequences to a non constant sequence yields the conjunction (AND) or disjunction (OR) of the old meaning with the appended items, including the s/-s contradiction short cut; appending to a constant sequence behaves as the operator demands.", "quantifier": "all receivers, all argument lists, all point assignments", "why_tests_cant": "All combinations of receivers, operators and argument lists.", "anchors": ["src/geouned/GEOUNED/utils/boolean_function.py:BoolSequence.append", "src/geouned/GEOUNED/utils/boolean_function.py:BoolSequence.assign"]}
{"id": "C04", "title": "Substituting or evaluating surfaces specialises the function", "statement": "substitute(var,val) and evaluate(values) return the Boolean function specialised to the given surface values: at every point that agrees with the given values, the result equals the original definition.", "quantifier": "all definitions, all variables/values, all point assignments", "why_tests_cant": "Requires all definitions and all partial assignments.", "anchors": ["src/geouned/GEOUNED/utils/boolean_function.py:BoolSequence.substitute", "src/geouned/GEOUNED/utils/boolean_function.py:BoolSequence.evaluate"]}
{"id": "C05", "title": "Shannon factorisation and simplify preserve the solid", "statement": "simplify() (with or without a constraint table) replaces a definition by one that has the same value at every point compatible with the table.", "quantifier": "all definitions, all set iteration orders, all constraint tables, all points compatible with the table", "why_tests_cant": "Simplification follows data dependent rewriting over hash ordered sets; no finite set of tests covers it.", "anchors": ["src/geouned/GEOUNED/utils/boolean_function.py:BoolSequence.simplify", "src/geouned/GEOUNED/utils/boolean_function.py:BoolSequence.simplify_sequence", "src/geouned/GEOUNED/utils/boolean_function.py:BoolSequence.factorize", "src/geouned/GEOUNED/utils/boolean_function.py:BoolSequence.get_sub_sequence", "src/geouned/GEOUNED/utils/boolean_function.py:BoolSequence.update"]}
{"id": "C06", "title": "Simplification terminates", "statement": "simplify() terminates on every definition: it either returns or raises after finitely many steps, whatever the iteration order and the constraint table.", "quantifier": "all definitions, orders and tables", "why_tests_cant": "Termination is a statement about all inputs.", "anchors": ["src/geouned/GEOUNED/utils/boolean_function.py:BoolSequence.simplify", "src/geouned/GEOUNED/utils/boolean_function.py:BoolSequence.join_operators"]}
{"id": "C07", "title": "Parsing a cell definition string yields the function it denotes", "statement": "BoolSequence(expr) denotes, for every expression of the MCNP cell grammar (signed integers, blank = intersection, ':' = union, parentheses), the Boolean function of the expression.", "quantifier": "all expressions of the grammar, arbitrary nesting, redundant parentheses and blanks", "why_tests_cant": "The grammar is infinite and the parser rewrites text by regular expressions.", "anchors": ["src/geouned/GEOUNED/utils/boolean_function.py:BoolSequence.set_def", "src/geouned/GEOUNED/utils/boolean_function.py:outer_terms", "src/geouned/GEOUNED/utils/boolean_function.py:redundant", "src/geouned/GEOUNED/utils/boolean_function.py:is_integer"]}
{"id": "C08", "title": "Surface inventory of a definition is exact", "statement": "get_surfaces_numbers() returns exactly the absolute values of the integers occurring in the definition, and the value of the definition at a point depends only on these surfaces.", "quantifier": "all definitions, all pairs of points agreeing on the surfaces", "why_tests_cant": "Non interference statement over all point pairs.", "anchors": ["src/geouned/GEOUNED/utils/boolean_function.py:BoolSequence.get_surfaces_numbers"]}
{"id": "C09", "title": "Inserting an auxiliary surface rewrites exactly the target literal", "statement": "insert_in_sequence(seq, target, new, op) replaces each occurrence of the signed literal target by (target op new), leaving every other literal unchanged: the result is the original function with literal target replaced by 'target op new'; add_cone_plane applied to all cells restricts cone literals to the sheet selected by the auxiliary plane.", "quantifier": "all definitions, target literals, new literals and operators", "why_tests_cant": "All definitions.", "anchors": ["src/geouned/GEOUNED/utils/boolean_function.py:insert_in_sequence", "src/geouned/GEOUNED/utils/boolean_function.py:substitute_integer_element", "src/geouned/GEOUNED/conversion/cell_definition.py:add_cone_plane"]}
{"id": "C10", "title": "Constraint table dependences are implications", "statement": "For every pair of surfaces with a recorded table of possible sidedness combinations, the dependence values reported for 'surface s is positive' and 's is negative' are exactly those forced by the table.", "quantifier": "all 16 sign tables and both rows/columns, all points compatible with the table", "why_tests_cant": "Soundness must hold for each point compatible with the recorded table; the code only sees flags.", "anchors": ["src/geouned/GEOUNED/utils/boolean_solids.py:CTelement.get_dependence", "src/geouned/GEOUNED/utils/boolean_solids.py:CTelement.get_transpose"]}
{"id": "C11", "title": "Constraint sets are sound", "statement": "get_constraint_set(name) returns for each truth value of the surface either None only if no compatible point gives the surface that value, or a dictionary of surface values that every compatible point with that value satisfies.", "quantifier": "all constraint tables, surfaces and compatible points", "why_tests_cant": "All tables of all sizes.", "anchors": ["src/geouned/GEOUNED/utils/boolean_solids.py:ConstraintTable.get_constraint_set", "src/geouned/GEOUNED/utils/boolean_solids.py:build_c_table_from_solids"]}
{"id": "C12", "title": "Completing a constraint table keeps it sound", "statement": "fill_missing_elements and combine_diag_elements only add entries that are consequences of existing entries: every point compatible with the original table stays compatible with the completed one.", "quantifier": "all tables, all compatible points", "why_tests_cant": "All tables.", "anchors": ["src/geouned/GEOUNED/utils/boolean_solids.py:ConstraintTable.fill_missing_elements", "src/geouned/GEOUNED/utils/boolean_solids.py:combine_diag_elements"]}
{"id": "C13", "title": "solid_in_box classification is sound", "statement": "When the box based evaluation of a solid against a constraint table says the solid is outside (False) or fills (True) the region, every compatible point agrees.", "quantifier": "all tables, all definitions, all compatible points", "why_tests_cant": "All tables and definitions.", "anchors": ["src/geouned/GEOUNED/utils/boolean_solids.py:ConstraintTable.solid_in_box"]}
{"id": "C14", "title": "Redundant surface removal keeps the cell", "statement": "remove_extra_surfaces removes sub-cells/surfaces from a definition without changing the cell inside the region described by the constraint table.", "quantifier": "all definitions and tables", "why_tests_cant": "All definitions and tables.", "anchors": ["src/geouned/GEOUNED/utils/boolean_solids.py:remove_extra_surfaces"]}
{"id": "C15", "title": "A void cell is the box minus the solids", "statement": "The definition produced for a void box is true exactly at the points inside the box (and its enclosure) that lie in none of the solids passed to it, for simplification mode 'no', and for modes using simplification under the soundness condition of simplify.", "quantifier": "all boxes, lists of solid definitions and points", "why_tests_cant": "Any number and shape of solids.", "anchors": ["src/geouned/GEOUNED/void/void_box_class.py:VoidBox.get_void_complementary", "src/geouned/GEOUNED/void/void_box_class.py:VoidBox.get_box_number"]}
{"id": "C16", "title": "Splitting a void box partitions it", "statement": "VoidBox.split cuts a box into two boxes that together cover the box, meet only on the cutting plane and have no point outside it; repeated splitting covers the enclosure unless the iteration cap is hit.", "quantifier": "all boxes, all split dimensions and all iteration counts", "why_tests_cant": "Continuous geometry and unbounded recursion.", "anchors": ["src/geouned/GEOUNED/void/void_box_class.py:VoidBox.split", "src/geouned/GEOUNED/void/void.py:get_void_def"]}
{"id": "C17", "title": "Written MCNP cell text denotes the cell", "statement": "The text produced by the MCNP/Serpent/PHITS sequence writer, read under the code's operator precedence, denotes the Boolean function of the definition; the OpenMC region text (with ' | ') does too.", "quantifier": "all definitions (any depth)", "why_tests_cant": "Infinite set of definitions.", "anchors": ["src/geouned/GEOUNED/write/functions.py:write_sequence_mcnp", "src/geouned/GEOUNED/write/functions.py:write_sequence_serpent", "src/geouned/GEOUNED/write/functions.py:write_sequence_phits", "src/geouned/GEOUNED/write/functions.py:write_sequence_OMCxml", "src/geouned/GEOUNED/write/functions.py:write_sequence_OMCpy"]}
{"id": "C18", "title": "Removing redundant parentheses keeps the meaning", "statement": "remove_redundant rewrites an MCNP cell expression into one with the same Boolean function.", "quantifier": "all grammatical expressions", "why_tests_cant": "Text rewriting over an infinite language.", "anchors": ["src/geouned/GEOUNED/write/string_functions.py:remove_redundant", "src/geouned/GEOUNED/write/string_functions.py:redundant"]}
{"id": "C19", "title": "Line wrapping loses nothing", "statement": "Wrapping a cell card keeps every token intact and in order: reading the wrapped lines back (joining continuation lines) yields the original token sequence, and lines respect the 80 column limit whenever a break position exists; the wrapping loop terminates.", "quantifier": "all card texts", "why_tests_cant": "All strings of all lengths.", "anchors": ["src/geouned/GEOUNED/write/functions.py:CardLine", "src/geouned/GEOUNED/write/functions.py:trim", "src/geouned/GEOUNED/write/functions.py:cut_line", "src/geouned/GEOUNED/write/string_functions.py"]}
{"id": "C20", "title": "Surface registry: unique consecutive identifiers", "statement": "Whatever the history of add/get/delete operations, identifiers in the surface dictionary are unique, consecutive from the start number, and get_surface(i) returns the surface with index i.", "quantifier": "all operation histories", "why_tests_cant": "Histories are unbounded and the look up uses a cache.", "anchors": ["src/geouned/GEOUNED/utils/functions.py:SurfacesDict"]}
{"id": "C21", "title": "Surface registry deduplicates", "statement": "Adding a surface that matches a registered one returns the existing index and adds nothing; otherwise a fresh index is issued; the first match in registration order is returned.", "quantifier": "all registries and candidate surfaces", "why_tests_cant": "All histories and candidates.", "anchors": ["src/geouned/GEOUNED/utils/functions.py:SurfacesDict.add_plane", "src/geouned/GEOUNED/utils/functions.py:SurfacesDict.add_cylinder", "src/geouned/GEOUNED/utils/functions.py:SurfacesDict.extend"]}
{"id": "C22", "title": "Written surface list is complete and ordered", "statement": "sorted_surfaces returns each registered surface exactly once in ascending index order.", "quantifier": "all surface dictionaries", "why_tests_cant": "All registries.", "anchors": ["src/geouned/GEOUNED/write/functions.py:sorted_surfaces"]}
{"id": "C23", "title": "Cell and void numbering", "statement": "After conversion, cell labels in the written file are consecutive from startCell, unique, and comments/enclosure cells are placed without losing or duplicating a cell.", "quantifier": "all lists of cells, voids and enclosures", "why_tests_cant": "All mixes of solids, enclosures and voids.", "anchors": ["src/geouned/GEOUNED/void/void_functions.py:update_void_list", "src/geouned/GEOUNED/core.py:CadToCsg", "src/geouned/GEOUNED/write/functions.py:sort_enclosure"]}
{"id": "C24", "title": "Enclosure tree validation", "statement": "check_enclosure accepts exactly the enclosure sets in which every parent chain ends at the root; for accepted sets set_enclosure_levels terminates and assigns each enclosure the distance to the root, each exactly once.", "quantifier": "all enclosure id/parent assignments", "why_tests_cant": "All graphs of all sizes, including cycles.", "anchors": ["src/geouned/GEOUNED/loadfile/load_functions.py:check_enclosure", "src/geouned/GEOUNED/loadfile/load_functions.py:set_enclosure_levels", "src/geouned/GEOUNED/loadfile/load_functions.py:remove_enclosure"]}
{"id": "C25", "title": "Nested enclosure geometry checks", "statement": "check_enclosure warns when sibling enclosures overlap or a child is not embedded in its parent.", "quantifier": "all enclosure trees", "why_tests_cant": "All trees.", "anchors": ["src/geouned/GEOUNED/loadfile/load_functions.py:check_enclosure"]}
{"id": "C26", "title": "Merging CAD files keeps every solid", "statement": "Loading several STEP files concatenates the solids and enclosures of all files, with unique identifiers.", "quantifier": "all lists of per file lists", "why_tests_cant": "All shapes of input lists.", "anchors": ["src/geouned/GEOUNED/core.py:CadToCsg.load_step_file", "src/geouned/GEOUNED/loadfile/load_functions.py:join_meta_lists"]}
{"id": "C27", "title": "Cells do not overlap after no_overlapping_cell", "statement": "With forceNoOverlap the definition of each cell is the original one minus the cells written before it that share surfaces/bounding box; the resulting cells are pairwise disjoint for sharing cells and have the same union.", "quantifier": "all lists of cell definitions, all points", "why_tests_cant": "All lists.", "anchors": ["src/geouned/GEOUNED/conversion/cell_definition.py:no_overlapping_cell", "src/geouned/GEOUNED/conversion/cell_definition.py:append_comp"]}
{"id": "C28", "title": "Plane sign normalisation keeps the geometry", "statement": "simplify_planes flips planes so their normals are positive and changes the sign of the literal in every definition, so each cell describes the same point set; applying it before each written format leaves the geometry unchanged.", "quantifier": "all surface lists, cell lists and sequences of writers", "why_tests_cant": "All histories of exports.", "anchors": ["src/geouned/GEOUNED/write/functions.py:change_surf_sign", "src/geouned/GEOUNED/write/mcnp_format.py:McnpInput.simplify_planes", "src/geouned/GEOUNED/write/phits_format.py", "src/geouned/GEOUNED/write/serpent_format.py"]}
{"id": "C29", "title": "Exporting several formats is independent of the order", "statement": "export_csg writes each requested format from the same model: writing one format does not change what another one contains.", "quantifier": "all sequences of export formats and calls", "why_tests_cant": "Histories of mutating exports.", "anchors": ["src/geouned/GEOUNED/write/write_files.py:write_geometry", "src/geouned/GEOUNED/write/phits_format.py", "src/geouned/GEOUNED/core.py:CadToCsg.export_csg"]}
{"id": "C30", "title": "OpenMC boundary surface", "statement": "In the OpenMC export the vacuum boundary is set on the surface that bounds the geometry (the graveyard sphere) and on no other.", "quantifier": "all surface registries and add cone plane settings", "why_tests_cant": "Depends on the history of surface creation.", "anchors": ["src/geouned/GEOUNED/write/openmc_format.py", "src/geouned/GEOUNED/core.py", "src/geouned/GEOUNED/void/void.py"]}
{"id": "C31", "title": "General quadric coefficients", "statement": "q_form_cyl and q_form_cone return quadric coefficients that vanish exactly on the cylinder/cone with the given axis, radius/angle and position, for every axis direction.", "quantifier": "all axes, positions, radii and angles over the reals", "why_tests_cant": "Continuum of inputs.", "anchors": ["src/geouned/GEOUNED/utils/q_form.py:q_form_cyl", "src/geouned/GEOUNED/utils/q_form.py:q_form_cone"]}
{"id": "C32", "title": "Plane through three points", "statement": "points_to_coeffs returns the plane containing the three points, for every non collinear triple, with a unit normal.", "quantifier": "all point triples over the reals", "why_tests_cant": "Continuum of inputs.", "anchors": ["src/geouned/GEOUNED/write/functions.py:points_to_coeffs"]}
{"id": "C33", "title": "Tolerance comparison relations", "statement": "is_in_tolerance and the is_same_* predicates are symmetric in their arguments when absolute tolerances are used and identify a surface with itself.", "quantifier": "all values and tolerances", "why_tests_cant": "Continuum of inputs.", "anchors": ["src/geouned/GEOUNED/utils/basic_functions_part1.py:is_in_tolerance", "src/geouned/GEOUNED/utils/basic_functions_part2.py"]}
{"id": "C34", "title": "Label and comment extraction", "statement": "The tree label of a solid is used to extract material, density and enclosure numbers; the last word of a label is dropped only when it is a number.", "quantifier": "all label strings", "why_tests_cant": "All strings.", "anchors": ["src/geouned/GEOUNED/loadfile/load_functions.py:get_label", "src/geouned/GEOUNED/loadfile/load_functions.py:get_comment_tree"]}
{"id": "C35", "title": "Skipping solids", "statement": "skip_solids removes exactly the solids whose indices are listed and keeps the others in order.", "quantifier": "all solid lists and index lists", "why_tests_cant": "All index lists including duplicates and negatives.", "anchors": ["src/geouned/GEOUNED/loadfile/load_step.py", "src/geouned/GEOUNED/core.py:CadToCsg"]}
{"id": "C36", "title": "GEOReverse: partial evaluation is sound", "statement": "In the CSG-to-CAD direction, evaluating a definition with surfaces known true/false/unknown returns True/False only when every completion agrees.", "quantifier": "all definitions and partial assignments", "why_tests_cant": "All definitions and completions.", "anchors": ["src/geouned/GEOReverse/Modules/Utils/booleanFunction.py:BoolSequence.evaluate"]}
{"id": "C37", "title": "GEOReverse: simplification preserves the region", "statement": "Reverse-side simplify/factorize/join operations keep the Boolean function.", "quantifier": "all definitions and points", "why_tests_cant": "All definitions.", "anchors": ["src/geouned/GEOReverse/Modules/Utils/booleanFunction.py:BoolSequence.simplify", "src/geouned/GEOReverse/Modules/Utils/booleanFunction.py:BoolSequence.joinOperators"]}
{"id": "C38", "title": "GEOReverse: bounding boxes over-approximate", "statement": "The box computed for a cell (NTcell.build_BoundBox) contains every point of the cell inside the external box when its orientation is Forward (no box: the cell has no such point), and every point outside the cell when it is Reversed (no box: there is no such point): intersection, union and complement of boxes, the planes put in the place of curved surfaces and the box of a set of planes are conservative.", "quantifier": "all cells, surfaces, universe boxes and points", "why_tests_cant": "Continuum of points and all definitions.", "anchors": ["src/geouned/GEOReverse/Modules/Utils/boundBox.py:myBox", "src/geouned/GEOReverse/Modules/Utils/boundBox.py:solid_plane_box", "src/geouned/GEOReverse/Modules/Utils/boundBox.py:plane_intersect", "src/geouned/GEOReverse/Modules/Objects.py:build_BoundBox"]}
{"id": "C39", "title": "GEOReverse: complement operator of MCNP cells", "statement": "Expanding '#(...)' and '#n' in a cell definition yields the logical negation of the referenced expression.", "quantifier": "all expressions", "why_tests_cant": "Infinite language.", "anchors": ["src/geouned/GEOReverse/Modules/remh.py"]}
{"id": "C40", "title": "GEOReverse: universes, levels and the tree of a build", "statement": "Reading a CSG file resolves LIKE n BUT cells entry by entry, finds the root and puts each universe at the level of its depth (one more than the maximum level of the universes whose cells it fills). Building a universe or a container cell gives exactly the cells that pass the filters, in order, each attached to the cell its universe fills, down to the depth asked for (-1: all), with the surfaces of its card moved by TRCL; builds can be repeated.", "quantifier": "all lists of cell cards and surfaces, all universe graphs (with or without repeated or cyclic nesting), all filters, depths and starting universes", "why_tests_cant": "Universe graphs are unbounded in size and depth; repeated nesting and the order of builds matter.", "anchors": ["src/geouned/GEOReverse/Modules/MCNPinput.py: GetLevelStructure, GetFilteredCells, selectCells, setExplicitCellDefinition, substituteLikeCell, getSubUniverses", "src/geouned/GEOReverse/Modules/XMLinput.py", "src/geouned/GEOReverse/Modules/buildCAD.py: BuildUniverseCells", "src/geouned/GEOReverse/core.py: build_universe, build_container, cell_filter, material_filter"]}
{"id": "C41", "title": "Round trip write/parse", "statement": "Writing a definition in MCNP syntax and parsing it again (CAD to CSG and back) yields an equivalent definition.", "quantifier": "all definitions", "why_tests_cant": "Infinite set of definitions.", "anchors": ["src/geouned/GEOUNED/write/functions.py:write_sequence_mcnp", "src/geouned/GEOUNED/utils/boolean_function.py:BoolSequence.set_def"]}
{"id": "C42", "title": "Options validation", "statement": "Settings/Options/Tolerances/NumericFormat setters accept exactly values of the documented type/range and leave the object unchanged on rejection.", "quantifier": "all values, all histories of assignments", "why_tests_cant": "All histories of assignments.", "anchors": ["src/geouned/GEOUNED/utils/data_classes.py"]}
{"id": "C43", "title": "Voids of nested enclosures cover the space outside the solids exactly once", "statement": "When the model has nested enclosures, every place of the universe box lies in exactly one void cell, or in a solid, or in an enclosure of type envelope: each solid is taken into account in every enclosure it touches, and each enclosure is removed from its parent.", "quantifier": "all enclosure trees, all sets of solids and every place", "why_tests_cant": "depends on every nesting and every way a solid can meet the enclosures", "anchors": ["src/geouned/GEOUNED/void/void_functions.py:assignEnclosure", "src/geouned/GEOUNED/void/void_functions.py:select_solids", "src/geouned/GEOUNED/void/void.py:void_generation", "src/geouned/GEOUNED/loadfile/load_functions.py:set_enclosure_levels"]}
{"id": "C44", "title": "Loading a STEP file keeps every solid with the attributes of its tree element", "statement": "Loading one CAD file yields cells that together contain every solid of the file exactly once, in order; each solid carries the comment/material/fill attributes of the tree element it belongs to, solids of one element (compSolids), enclosure or envelope form one cell, and the cell identifiers are unique.", "quantifier": "every number of solids, tree of elements, spline flags, compSolids setting and enclosure/envelope labelling", "why_tests_cant": "the fusing works in place with positions that shift; only particular interleavings of multi-solid elements break it", "anchors": ["src/geouned/GEOUNED/loadfile/load_step.py:load_cad", "src/geouned/GEOUNED/loadfile/load_functions.py:fuse_meta_obj,joinEnvelopes"]}
{"id": "C45", "title": "Material, fill and transform tags come from the nearest label", "statement": "The _m<n>_, _f<n>_ and _t<n>_ tags of a solid are taken from its own label if it has one, otherwise from the nearest ancestor in the tree that has one; the leftmost tag of that label counts.", "quantifier": "every label text and every depth of the tree", "why_tests_cant": "quantifies over all strings and all ancestor chains", "anchors": ["src/geouned/GEOUNED/loadfile/load_step.py:load_cad", "src/geouned/GEOUNED/loadfile/load_functions.py:get_label"]}
{"id": "C46", "title": "Side of a primitive surface", "statement": "For a CSG to CAD conversion, the side test of a point against a primitive surface returns negative for every point strictly inside it and positive for every point strictly outside it, for every kind of surface.", "quantifier": "every primitive surface with proper parameters and every point of space off the surface", "why_tests_cant": "There are fifteen kinds of surface and a continuum of parameters and points; a wrong formula only shows for some of them (off-centre, elliptic, at an apex).", "anchors": ["src/geouned/GEOReverse/Modules/splitFunction.py:surface_side", "src/geouned/GEOReverse/Modules/splitFunction.py:btwPPlanes"]}
{"id": "C47", "title": "MCNP surface cards become the surfaces they describe", "statement": "Every legal surface card of an MCNP input (P, S, C, K, T, X/Y/Z, macrobodies BOX RPP RCC REC TRC), with or without a TR transformation, gives a surface whose negative and positive sides are those of the MCNP manual, whatever other cards stand before or after it in the input.", "quantifier": "every list of legal surface cards with any parameters and any TR card (displacement, cosines, m)", "why_tests_cant": "The number of cards, their order, parameters and transformations are unbounded; state left by one card can corrupt another.", "anchors": ["src/geouned/GEOReverse/Modules/MCNPinput.py:Get_primitive_surfaces", "src/geouned/GEOReverse/Modules/MCNPinput.py:getTransMatrix", "src/geouned/GEOReverse/Modules/Objects.py:Plane.transform", "src/geouned/GEOReverse/Modules/Objects.py:Box.transform"]}
{"id": "C48", "title": "GQ and SQ cards become the quadric they describe", "statement": "A GQ or SQ card gives a surface with the same points and the same negative and positive sides as the quadratic form on the card.", "quantifier": "every GQ or SQ card whose quadratic part is diagonalised by any orthonormal eigenvector basis", "why_tests_cant": "Coefficients, eigenvalue order and eigenvector choice range over a continuum.", "anchors": ["src/geouned/GEOReverse/Modules/MCNPinput.py:gq2params", "src/geouned/GEOReverse/Modules/MCNPinput.py:conicSurface", "src/geouned/GEOReverse/Modules/MCNPinput.py:sq2params"]}
{"id": "C49", "title": "Surface cards denote the CAD surfaces", "statement": "For every cylinder, cone, sphere and torus of the model, the card (MCNP, PHITS, Serpent) or element (OpenMC) written for it has the number of the surface and, in cm, the same two sides as the surface in mm, up to the stated tolerances of alignment; surfaces that cannot be written are reported.", "quantifier": "all surfaces (positions, directions, radii, angles over the reals), all tolerances, all four codes", "why_tests_cant": "Continuum of surfaces, many branches.", "anchors": ["src/geouned/GEOUNED/write/functions.py:mcnp_surface", "src/geouned/GEOUNED/write/functions.py:open_mc_surface", "src/geouned/GEOUNED/write/functions.py:serpent_surface", "src/geouned/GEOUNED/write/functions.py:phits_surface"]}
{"id": "C50", "title": "GEOReverse: the solid of a cell is the cell", "statement": "Within the external box, the solid built for a cell of an MCNP input (buildShape: boxes of the parts, cutting with the surfaces, filtering by boxes, joining of unions) contains a point exactly when the point is in the cell's definition, and the construction ends without an exception, whatever the nesting of intersections and unions.", "quantifier": "all cell definitions (any nesting), all CAD kernels that satisfy their contract (box, slice, fuse, side of a point), all sound boxes of the parts, all points off the surfaces", "why_tests_cant": "Every Boolean tree and every arrangement of surfaces; the defects appear only for repeated surfaces in particular places.", "anchors": ["src/geouned/GEOReverse/Modules/buildSolidCell.py:BuildDepth", "src/geouned/GEOReverse/Modules/buildSolidCell.py:BuildSolidParts", "src/geouned/GEOReverse/Modules/buildSolidCell.py:filterparts", "src/geouned/GEOReverse/Modules/splitFunction.py:SplitSolid", "src/geouned/GEOReverse/Modules/splitFunction.py:joinBase", "src/geouned/GEOReverse/Modules/Objects.py:CadCell"]}
{"id": "C51", "title": "The definition of a cell is its solid, piece by piece", "statement": "The definition that cellDef gives to a cell from the faces of the pieces of its solid is true at a place exactly when the place is on the matter side of every face (and of the additional planes of concave faces and annex surfaces of torus faces) of one of the pieces; surfaces already registered keep their numbers; pieces left out of the cell have no matter; the cones reported are exactly those of the faces.", "quantifier": "all lists of pieces and faces, all orientations and inversions, all histories of the surface dictionary, all tolerances of comparison, all places", "why_tests_cant": "Any number of faces of any kind in any order, with shared and merged surfaces.", "anchors": ["src/geouned/GEOUNED/conversion/cell_definition.py:cellDef", "src/geouned/GEOUNED/conversion/cell_definition.py:get_id", "src/geouned/GEOUNED/utils/functions.py:SurfacesDict"]}
{"id": "C52", "title": "Decomposition partitions the solid", "statement": "Decomposing the solids of a cell (SplitSolid) ends, and every place of the solids is in exactly one of the pieces and no other place is in a piece; parts are cut until no surface of their kind cuts them; a loss of volume or of a piece is reported as a warning for the cell.", "quantifier": "all CAD kernels whose slices partition a shape, all shapes and tools, all tolerances, all places off the cutting surfaces", "why_tests_cant": "Any sequence of cuts and any kernel failure; losses happen only for particular volumes and orders of bases.", "anchors": ["src/geouned/GEOUNED/decompose/decom_one.py:SplitSolid", "src/geouned/GEOUNED/decompose/decom_one.py:split_component", "src/geouned/GEOUNED/decompose/decom_one.py:split_2nd_order", "src/geouned/GEOUNED/decompose/decom_one.py:split_2nd_order_planes", "src/geouned/GEOUNED/decompose/decom_one.py:sort_planes", "src/geouned/GEOUNED/utils/functions.py:split_bop", "src/geouned/GEOUNED/core.py:_decompose_solids"]}
{"id": "C53", "title": "The additional plane of a concave face separates its run of faces", "statement": "The plane added next to a concave cylindrical or conical face of a solid leaves on one side the face and every face of the same surface joined to it by a chain of faces that touch, passes through both ends of that run, and leaves the other faces of the surface strictly on the other side; it is missing only when the run goes all round or its ends coincide. The plane added next to a spherical face leaves the whole face and those that touch it strictly on one side.", "quantifier": "all solids, any number of faces with any angular ranges, all orders of the faces, all positions, axes, radii and angles, all shapes of the spherical faces", "why_tests_cant": "The ranges of any number of faces are merged through the seam of the parametrisation; errors appear only for particular orders, turns and reference directions.", "anchors": ["src/geouned/GEOUNED/conversion/cell_definition.py:gen_plane_cylinder", "src/geouned/GEOUNED/conversion/cell_definition.py:gen_plane_cone", "src/geouned/GEOUNED/conversion/cell_definition.py:gen_plane_sphere", "src/geouned/GEOUNED/conversion/cell_definition.py:get_closed_ranges", "src/geouned/GEOUNED/conversion/cell_definition.py:get_intervals", "src/geouned/GEOUNED/conversion/cell_definition.py:get_u_value_boundary", "src/geouned/GEOUNED/decompose/decom_one.py:same_faces"]}
{"id": "C54", "title": "The surfaces added to a toroidal face cut the torus at the face", "statement": "The toroidal faces of a solid are grouped into the pieces of each torus that touch; the angular range of a group is closed only when its faces go all round, and otherwise is the arc they cover. The plane (or the two planes) added around the axis keep the face and leave the opposite part of the torus (everything outside of the range, for two planes) on the other side. The plane, cylinder or cone added along the tube passes through both ends of the face, with the face on the reported side and the rest of the torus on the other. The sheet of a self-crossing torus is the one the face is on.", "quantifier": "all numbers of faces, all relations of touching, all ranges, all tori along a coordinate axis (centre, radii, direction), all angular ranges of the face and tolerances", "why_tests_cant": "The ranges and angles are continuous and periodic; the branches depend on sums of lengths, half turns, equal heights and radii; errors appear only for centres off the axis, ranges over half a turn or stacked faces.", "anchors": ["src/geouned/GEOUNED/conversion/cell_definition.py:gen_torus_annex_u_planes", "src/geouned/GEOUNED/conversion/cell_definition.py:gen_torus_annex_v_surface", "src/geouned/GEOUNED/utils/geometry_gu.py:SolidGu.same_torus_surf", "src/geouned/GEOUNED/utils/geometry_gu.py:SolidGu.separate_surfaces", "src/geouned/GEOUNED/utils/geometry_gu.py:SolidGu.merge_periodic_uv", "src/geouned/GEOUNED/utils/geometry_gu.py:TorusGu.degenerate_surface_type"]}
{"id": "C55", "title": "Cones that are not along X, Y or Z keep one sheet in the cells", "statement": "The cards of cones that are not along a coordinate axis have two sheets. Before the cells are written, a plane through the apex is added beside every such cone in every cell: with the two sheets of the cards, each written cell, of a solid or of the void, contains exactly the places that it contains with the one sheet of the solids. Surfaces already numbered keep their numbers, cells keep their place and id.", "quantifier": "all geometries, all lists of cells (solids, voids, comment lines), all definitions, all histories of the surfaces, all places", "why_tests_cant": "The result depends on which cones each cell contains, with which sign, how often and how deep they appear, on enclosures and on earlier planes with the same or opposite axis.", "anchors": ["src/geouned/GEOUNED/core.py:process_cones", "src/geouned/GEOUNED/conversion/cell_definition.py:add_cone_plane", "src/geouned/GEOUNED/void/void_box_class.py:VoidBox.get_void_complementary"]}
{"id": "C56", "title": "Cells refer only to surfaces that are defined", "statement": "Every surface number in a written cell is the number of exactly one surface of the model: no step of the conversion (translation of the faces, parsing, simplification with or without constraint tables, complement, void generation, forceNoOverlap, graveyard cells, apex planes of cones, writing) puts a number in a cell that is not the number of a registered surface, and the text of the cell in each format mentions those numbers only.", "quantifier": "all definitions, all constraint tables, all boxes and solids, all histories of registered surfaces, all formats", "why_tests_cant": "Numbers are moved between cells by boolean rewriting, by textual concatenation and parsing and through the dictionary of surfaces, in orders that depend on the sets of Python; a dangling number appears only for particular combinations.", "anchors": ["src/geouned/GEOUNED/utils/boolean_function.py:BoolSequence", "src/geouned/GEOUNED/conversion/cell_definition.py:cellDef,add_cone_plane,no_overlapping_cell", "src/geouned/GEOUNED/void/void_box_class.py:VoidBox.get_void_complementary", "src/geouned/GEOUNED/void/void.py:set_graveyard_cell", "src/geouned/GEOUNED/write/functions.py:write_mcnp_cell_def"]}
{"id": "C57", "title": "A whole conversion partitions space", "statement": "Starting from the registered surfaces and the faces of the pieces of the solids, the list of cells made by a conversion (solids, void cells, two graveyard cells) puts each place of space in the right cells: a place is in the cell of a solid exactly if it is in the solid, and in exactly one void or graveyard cell if it is in no solid, in none otherwise. This stays true when the card of a cone that is not along an axis has both sheets. All the surfaces of the cells are registered, and the cells have different numbers without gaps after the last solid.", "quantifier": "all lists of solids, all pieces and faces, all histories of registered surfaces, all places of space, all box and surface limits", "why_tests_cant": "A geometry has infinitely many places, and the steps share a dictionary of surfaces in which every step finds, adds and re-orients surfaces; the number of void boxes and their order depend on all the solids.", "anchors": ["src/geouned/GEOUNED/core.py:CadToCsg.start", "src/geouned/GEOUNED/conversion/cell_definition.py:cellDef,add_cone_plane", "src/geouned/GEOUNED/void/void.py:void_generation,get_void_def,set_graveyard_cell", "src/geouned/GEOUNED/void/void_functions.py:update_void_list", "src/geouned/GEOUNED/core.py:process_cones"]}
{"id": "C58", "title": "The PHITS input with one merged void cell is the same geometry", "statement": "For a STEP file without enclosures export_csg in PHITS format leaves out the generated void cells and writes one inner void cell: the inside of the graveyard sphere without the solid cells (#n for every solid number), and the outer void. The file contains every solid cell with its definition and number, the # list of the inner void is exactly the numbers of the solid cells, all numbers are different, and at every place where the void cells of the conversion are exact, exactly one of the two void cells is true outside of the solids and none inside: the PHITS file is the same partition of space as the files with all the void cells.", "quantifier": "for every conversion without enclosures (any solids, void options and startCell) and every place of space", "why_tests_cant": "a test looks at a few models and places; an off-by-one in the range of numbers or a void that is not in the sphere only shows for some number of solids, startCell or place", "anchors": ["src/geouned/GEOUNED/write/phits_format.py: write_phits_cell_block, write_phits_cells_uni_void_def", "src/geouned/GEOUNED/core.py: start (numbering of cells)", "src/geouned/GEOUNED/void/void.py: set_graveyard_cell"]}
