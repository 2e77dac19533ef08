# Formal model of GEOUNED in Rocq (Coq): design

Source: /repo (GEOUNED-org/GEOUNED, pinned), read as text only; nothing of it was run.
Model, specifications and proofs: `rocq/theories`. Build: `coq_makefile -f _CoqProject -o Makefile && make -j4` in `rocq`.

## How the model is made

- Python functions are total Gallina functions. Exceptions are values (`Prelude.res`: `Ok`, `Err e`, and `Fuel`
  for a run that has not ended within the fuel given). Where a function can loop or recurse without bound, fuel is an argument and
  the theorems say how much is enough, or that none is.
- Each definition cites the lines of /repo that it models; simplifications are in the same comment.
- Model files and proof files are separate. `*Spec.v` files have the notions that the statements use
  (truth of a definition at a point, grammar of texts, meaning of surface cards ...) and do not use the model's helpers, except its data types.
- Statements: `Props*.v`, one file per area, with the property number as prefix. `_partial`: the English
  property has more; what is missing is in the comment above. `_refuted`: the property (or the part named
  in the comment) is false of the code, with a concrete witness computed in Coq. `_ex`: a concrete case that meets the hypotheses.
- What the CAD kernel (FreeCAD/OpenCASCADE), numpy and the file system answer are arguments of the model, universally quantified.
- Floating point: geometry is over the real numbers (Coq Reals) or exact rationals, so rounding is not modelled.
  Comparisons with tolerances are as written, over exact numbers.
- Order of iteration over Python sets is an argument (an arbitrary oracle) where it can matter.
- Mutation tests: `seeded/LOG.jsonl`, one line per edit of the model, with the theorems that failed and those tightened.

## Properties

For each: the model, the specification, the method; then the result and what is missing.

- **C01 Complement of a cell definition is its logical negation** - proved. Model: BoolSeq. Specification: BoolSpec. BoolSequence as a tree (`node`) with its `level` field, every method a total function with errors as values; meaning by `eval` at a point (a truth value per surface). Induction on the tree under the level-consistency invariant. Result: total on constant-free definitions; raises on a constant
- **C02 Structural rewrites preserve the solid** - proved. Model: BoolSeq. Specification: BoolSpec. Same model; `join_operators`, `clean`, `group_single`, `level_update` are fuelled and the fuel is proved enough (size measure).
- **C03 append is n-ary conjunction/disjunction** - proved. Model: BoolSeq. Specification: BoolSpec. `append` branch by branch; equation on `eval`; receivers that are constants: the exception is proved. Result: constant receivers: refuted for ints/bools (raise)
- **C04 Substituting or evaluating surfaces specialises the function** - proved. Model: BoolSeq. Specification: BoolSpec. `substitute` and `evaluate`; equality of `eval` for all points that agree with the assignment.
- **C05 Shannon factorisation and simplify preserve the solid** - partial. Model: BoolSeq, BoolStrict. Specification: BoolSpec. `simplify`/`factorize` with the order of set iteration as an arbitrary oracle and an arbitrary constraint table; a strict copy of the run reports the event "update of a constant" and soundness is proved for all runs without it; witness for the rest. Result: the full claim is false (C05_simplify_refuted); proved for every run without the neutral-update event
- **C06 Simplification terminates** - proved. Model: BoolSeq. Specification: BoolSpec. Existence of fuel with a result, by induction on (remaining depth, size), for every oracle and table (BoolTotal*).
- **C07 Parsing a cell definition string yields the function it denotes** - proved. Model: CellText, ParseTerms, ParseInts. Specification: LexSpec. `outer_terms`, `redundant`, `set_def` on lists of characters; grammar of cell texts as an inductive tree with a printer; induction on that tree. Result: all grammatical MCNP texts; also finding: contradictory unions give an unwritable empty union
- **C08 Surface inventory of a definition is exact** - proved. Model: BoolEdit. Specification: BoolSpec. `get_surfaces_numbers` as a duplicate-free list; exact membership; non-interference of other surfaces.
- **C09 Inserting an auxiliary surface rewrites exactly the target literal** - proved. Model: BoolEdit. Specification: BoolSpec. `insert_in_sequence` on trees; semantics by substitution of literals. Aliasing of the inserted object is not in the model.
- **C10 Constraint table dependences are implications** - partial. Model: Ctable. Specification: CtSpec. `CTelement` with its four flags; all flag patterns, lifted to all points; the two irregular patterns are refuted. Result: Exact for every element except the two patterns 's2 always has the side of s1' / 'always the other side', for which the code is wrong (refuted).
- **C11 Constraint sets are sound** - proved. Model: Ctable, CtBuild. Specification: CtSpec. Constraint table as a finite map; soundness for all points compatible with it. Result: For tables without the two irregular patterns of C10; with one of them a witness shows that simplify deletes a cell that has points.
- **C12 Completing a constraint table keeps it sound** - proved. Model: CtBuild. Specification: CtSpec. `build_c_table_from_solids` and completion; answers of the CAD kernel are arguments. Result: The CAD kernel's cut and side answers are parameters; crash when all pieces are on one side is proved.
- **C13 solid_in_box classification is sound** - proved. Model: CtBuild. Specification: CtSpec. `solid_in_box`. Result: For tables without irregular elements.
- **C14 Redundant surface removal keeps the cell** - partial. Model: VoidCell. Specification: CtSpec, BoolSpec. `remove_extra_surfaces`; strict copy of the run as in C05. Result: Proved for the runs in which no sub-cell is found constant; otherwise refuted by witnesses (wrong result, crash).
- **C15 A void cell is the box minus the solids** - partial. Model: VoidCell. Specification: BoolSpec. `get_void_complementary` on top of C01–C14, all simplification modes. Result: All modes; proved for the runs without the events reported by the strict run; each event is shown reachable with a wrong void cell.
- **C16 Splitting a void box partitions it** - partial. Model: VoidBoxes, BoxDef, VoidAll. Specification: VoidBoxSpec, BoxSpec. Boxes over exact rationals; splitting, the queue of 50 turns, the six planes, the graveyard; partition of space by counting. Result: A split partitions the box; the six planes define the half open box whatever is registered; every place of the outer box is in exactly one void cell or in a solid (runs without the C15 events, solids aligned with their boxes, fewer than 2^50 smallest cubes), and with the graveyard cells every place of space. Refuted beyond: the limit of 50 turns drops boxes; only the first solid of an intersection with an enclosure is kept; pieces not aligned with the terms of the definition stop the program or drop the wrong term.
- **C17 Written MCNP cell text denotes the cell** - proved. Model: Writers. Specification: LexSpec. Writers of MCNP, PHITS, Serpent, OpenMC texts as functions to characters; a reference reader gives the meaning. Result: definitions without constants and empty lists
- **C18 Removing redundant parentheses keeps the meaning** - proved. Model: ParenModel. Specification: LexSpec. `remove_redundant` on characters.
- **C19 Line wrapping loses nothing** - proved. Model: Wrap. Specification: LexSpec. Line breaking; non-termination shown where there is no place to break. Result: whenever break positions exist; without them the writer loops or corrupts the text (refuted theorems)
- **C20 Surface registry: unique consecutive identifiers** - proved. Model: SurfDict. Specification: (in PropsSurf). State machine of SurfacesDict; invariant over all histories; the equality test of surfaces is an argument. Result: All histories of additions and look-ups; with deletions uniqueness is proved and the IndexError of a stale cache is shown.
- **C21 Surface registry deduplicates** - proved. Model: SurfDict. Specification: (in PropsSurf). As C20. Result: For an arbitrary comparison test.
- **C22 Written surface list is complete and ordered** - proved. Model: SurfDict. Specification: (in PropsSurf). `sorted_surfaces` on lists.
- **C23 Cell and void numbering** - partial. Model: Numbering. Specification: (in PropsNum). Numbering of cells, voids, enclosures, on lists. Result: For runs that return, labels are consecutive and cells kept in order; exactly when a run returns is characterised; failures (envelope enclosures and sort_enclosure, null solids, id collisions) are shown with witnesses.
- **C24 Enclosure tree validation** - proved. Model: Enclosures. Specification: EnclSpec. Loop of the enclosure tree; accepted iff every enclosure is reachable. Result: for every set of labels; the empty list is rejected (load_cad does not call the check then)
- **C25 Nested enclosure geometry checks** - partial. Model: Enclosures. Specification: EnclSpec. `check_enclosure` with the geometry as an argument; shown to ignore it. Result: the claim is false of the code: check_enclosure gives the same answer for every geometry; proved for all geometries and label sets, with witnesses
- **C26 Merging CAD files keeps every solid** - partial. Model: Loading. Specification: (in PropsLoad). `join_meta_lists`. Result: True when the first file is not empty and enclosures occur at most in the first file; refuted otherwise (solids/enclosures lost, equal ids).
- **C27 Cells do not overlap after no_overlapping_cell** - partial. Model: NoOverlap. Specification: BoolSpec. `no_overlapping_cell`/`append_comp` on trees. Result: The new definitions are proved disjoint with the same union for all cells and points; their reduction with the constraint tables is proved for the runs without the events of C05/C14 at the points of the box. Models with enclosures, cells or pieces swallowed by another cell make the function stop, and pieces that are unions keep overlapping (all shown).
- **C28 Plane sign normalisation keeps the geometry** - partial. Model: Vec3, Geom, Export. Specification: GeomSpec, ExportSpec. Planes, their cards and the sign changes of the writers over real numbers; state machine of exports. C28_merged_partial (ExportMerged): the first element of a definition changes its sign with the definition (headed), so cutting it (PHITS inner void) commutes with simplify_planes. Result: After any history of writers each written cell, read with the surface cards of that file in real arithmetic, is the same set of points as its CAD definition (points off the planes): C28_regions_partial without merged PHITS voids, C28_merged_partial for the PHITS file with one void cell after any history of other writers; provided the planes classified as PX/PY/PZ are exactly aligned and, with prnt3PPlane, an even number of earlier three-point writers and well placed points. Refuted with witnesses otherwise: each further file written with three-point planes inverts the cells, and three-point planes normal to an axis on the negative side are written with the wrong sense.
- **C29 Exporting several formats is independent of the order** - partial. Model: Export. Specification: ExportSpec. Same state machine; equality of files; witnesses of dependence. Result: Without three-point planes and with no PHITS in earlier calls every file equals that of a single fresh export. The full statement is false: PHITS changes MatInfo, comments and definitions of the void cells for later files; three-point planes are flipped again by each writer.
- **C30 OpenMC boundary surface** - partial. Model: SurfDict. Specification: (in PropsSurf). Index of the OpenMC boundary. Result: The boundary is on the sphere iff it was new and nothing is registered after it; both failures shown.
- **C31 General quadric coefficients** - proved. Model: SurfCards. Specification: SurfCardSpec. `q_form_cyl`, `q_form_cone` over real numbers. Result: The coefficients are proved for every axis not along X (any length), every position, radius and tangent; along X the functions raise (the callers write CX/KX cards there).
- **C32 Plane through three points** - proved. Model: Geom. Specification: GeomSpec. `points_to_coeffs` over real numbers with the rules of the MCNP manual for the side. Result: Real arithmetic: unit normal, plane through the points with the side given by the MCNP manual's rules; ZeroDivision exactly on collinear triples.
- **C33 Tolerance comparison relations** - partial. Model: Same. Specification: SameSpec. Comparison functions of planes, cylinders, cones, spheres, tori over real numbers. Result: Reflexive with absolute tolerances (and relative ones where the tolerance is not zero), symmetric except for cylinders with axes only nearly parallel (refuted) and planes with relative tolerances (refuted); surfaces found the same are proved close in signed distance, for cones up to the direction: opposite cones are taken for the same (refuted). Not transitive (refuted).
- **C34 Label and comment extraction** - partial. Model: Loading. Specification: (in PropsLoad). Label handling on strings. Result: The last word is dropped whatever it is (refuted); the documented result holds when it is a number.
- **C35 Skipping solids** - partial. Model: Loading. Specification: (in PropsLoad). Skipping of solids on lists. Result: Exact for distinct indices in 0..n-1; refuted for repeated and negative indices.
- **C36 GEOReverse: partial evaluation is sound** - proved. Model: RBool. Specification: (RBoolSpec). BoolSequence of GEOReverse; three-valued evaluation against Kleene. Result: All definitions and partial assignments; the answer is exactly Kleene's three-valued value.
- **C37 GEOReverse: simplification preserves the region** - partial. Model: RBool. Specification: (RBoolSpec). `simplify`, `factorize`, `clean` of GEOReverse. Result: Every single operation keeps the region; simplify never loses a point, but can make an empty region non empty (shown) or raise AttributeError (shown); equality is proved for the runs in which no part of an intersection is found empty.
- **C38 GEOReverse: bounding boxes over-approximate** - partial. Model: RBox, RPlanes, RVertex. Specification: RBoxSpec, RPlaneSpec, RVertexSpec. Box algebra, replacement of curved surfaces by planes, box of a one-level part from the points where planes meet (FreeCAD intersections exact), boxes of definitions and cells, over real numbers; the code of a part is also run with rationals (RVertexHom proves the same results) for the refutations. Result: Box algebra, replacement of curved surfaces by planes, and the box of a one-level part by enumerating the points where planes meet are modelled and joined end to end (C38_cell_partial: the box of build_BoundBox is right when the planes are well placed, conditions good_part, and orientation Forward/Forward or Reversed/Reversed). Refuted in general: non-unit planes, both signs, Undefined orientation, elliptic torus, TRC, elliptic surfaces; a cell open towards a side of the universe that has six corners; a line through an edge of the universe box; the outside of a sphere a bit larger than the universe.
- **C39 GEOReverse: complement operator of MCNP cells** - proved. Model: Remh. Specification: RemhSpec. Text removal of complements on characters; meaning by a grammar with `#`. Result: Texts without comments and line breaks. Cells with TRCL or LIKE BUT keep their operators (refuted), circular definitions do not terminate (refuted); build_container does not remove operators at all (not modelled).
- **C40 GEOReverse: universes, levels and the tree of a build** - partial. Model: Univ. Specification: UnivSpec. Cells as records, dictionaries as association lists; graph of nestings; trees of names. Result: Model of LIKE n BUT, the level structure, nested universes, filters, the cells of a build (renumbered surfaces, TRCL copies) and the tree of universes. Proved for all cell lists: levels are least depths, exact outcome of the structure, exact nested universes, exact filters, and the tree of a first build from the root (from any universe if depths are unique). The claim that the level is one more than the maximum level is refuted; so are completeness of depth=-1, builds from other universes, second builds, and several LIKE, FILL and OpenMC cases. Missing: shapes, transformations as maps.
- **C41 Round trip write/parse** - proved. Model: Writers, ParseTerms. Specification: LexSpec. Composition of C17 and C07. Result: definitions without constants and empty lists
- **C42 Options validation** - partial. Model: Config. Specification: ConfigSpec. Heap of Python objects; setters, constructors, from_json as state transformers; invariant over all histories. Result: Heap model of the four configuration classes, CadToCsg construction, load_step_file/export_csg checks and from_json. Proved for all states/histories: exact acceptance, effects, no change on rejection, typing invariant over all histories, from_json succeeds iff the file is valid, with its effects and order. Partial because documented ranges hold only as types: _refuted theorems give negative/NaN tolerances, shared default objects and lists, late export errors, log directory in the default path, load_step_file changing the object before failing.
- **C43 Voids of nested enclosures cover the space outside the solids exactly once** - partial. Model: Enclosures. Specification: EnclSpec. Tree of enclosures with regions as sets of points. Result: given that each region's void cells are the region minus its sons and selected solids (C15/C16) and the CAD kernel's intersection answers are right; refuted for a solid that fills an enclosure
- **C44 Loading a STEP file keeps every solid with the attributes of its tree element** - partial. Model: Loading. Specification: (in PropsLoad). Fusing of solids. Result: No solid is ever lost; attributes and ids proved without envelopes / for uniform fusing; the failing interleavings are shown.
- **C45 Material, fill and transform tags come from the nearest label** - partial. Model: Loading. Specification: (in PropsLoad). Labels of the tree of components. Result: Proved for elements inside a group; refuted at the top of the tree.
- **C46 Side of a primitive surface** - partial. Model: Prim. Specification: PrimSpec. Primitive surfaces of GEOReverse over real numbers: sign functions against the manual. Result: Proved for planes, spheres, cylinders, cans, cones, truncated cones, elliptic and hyperbolic cylinders, elliptic cans, paraboloids, tori and boxes. The code is wrong for elliptic cones (Z/Ra not squared), off-centre hyperboloids (centre subtracted twice) and ellipsoids (TypeError), and at the apex of a truncated cone and on the extended side of an elliptic can: refuted.
- **C47 MCNP surface cards become the surfaces they describe** - partial. Model: Cards. Specification: CardsSpec. Surface cards with transformations over real numbers. Result: Proved for every deck of legal cards except: P with a non-unit normal plus TR, BOX/RPP plus TR, cards X/Y/Z giving a cylinder or a cone through a point of the axis, TR with m=-1: there the property is refuted. Real arithmetic; parsing of the card text is not in this model.
- **C48 GQ and SQ cards become the quadric they describe** - partial. Model: Quadric. Specification: QuadricSpec. GQ cards with the eigen-decomposition an argument. Result: Proved for elliptic, circular and hyperbolic cylinders with negative axis and hyperboloids of revolution, given a correct eigen-decomposition (numpy.linalg.eigh is an argument of the model). Refuted for the opposite sign of the card, cones, spheres/ellipsoids and paraboloids.
- **C49 Surface cards denote the CAD surfaces** - partial. Model: SurfCards. Specification: SurfCardSpec. Written surface cards against the meaning of cards. Result: Positive for cylinders, aligned cones, spheres and aligned tori (MCNP/PHITS, OpenMC); refuted for tilted cones (second sheet), OpenMC cones, tilted tori (no card), OpenMC Python tori, Serpent cones, Serpent cylinders along Z or tilted, and a zero angular tolerance. Decimals of the numbers are not modelled. Planes are in C28/C29.
- **C50 GEOReverse: the solid of a cell is the cell** - partial. Model: Build. Specification: BuildSpec. The CAD kernel is a record of functions with a contract (`good_cad`), boxes are abstract; `BuildDepth` with its loops as fuelled functions, exceptions as values. For a fixed point: an invariant between a lower and an upper definition (the planes of an ancestor are used for its parts) and truth of the recorded sides outside the joined surfaces; induction on fuel. Fuel is proved enough. A kernel on integer points gives examples and witnesses. Result: Proved for every kernel with the stated contract and all definitions where surfaces of a union of sub-sequences do not come back in a later factor (separate); no extra points if moreover the first boxes are Forward or Reversed boxes meet every shape. Refuted without: joinBase records a side that differs between the parts as None for ever (whole solid lost) or takes the side of one part for all (extra points); filterparts adds the whole factor for far Reversed parts. Not modelled: failures of the kernel, thin parts (taken to have no interior).
- **C51 The definition of a cell is its solid, piece by piece** - partial. Model: CellDef. Specification: CellDefSpec. A face is a record of what the code asks of it; the loop over faces and pieces with the surface dictionary of SurfDict and the text parser of ParenModel. Invariant of the loop over faces: the texts collected mean exactly the conditions of the faces done, the dictionary only grows; the text is parsed with C07. Real dictionaries: any history of additions and look-ups. Result: Proved for all pieces whose spheres, cones, tori and concave cylinders are found among the registered surfaces and whose tori have an axis along X, Y or Z, at all places where surfaces taken for the same agree. Refuted without: comparison with tolerances is not transitive and a face's surface may be found in no registered one (number 0 in the definition); unknown kinds give 0; tilted tori are left out. The answers of is_inverted, gen_plane and gen_torus_annex_* are inputs of the model.
- **C52 Decomposition partitions the solid** - partial. Model: Decomp. Specification: DecompSpec. The CAD kernel is a record of functions (volume, slice which may fail, surfaces of a shape); the nested while loops with fuel, err codes as integers, tolerances as rationals. Conservation of the number of shapes that hold a place through every loop, up to a list of small shapes; a size that shrinks bounds the fuel; `split_bop` by induction on the power of ten. A kernel on intervals meets the contract and gives witnesses. Result: Proved for every kernel with the contract: nothing but pieces of volume up to 0.01 is lost, pieces stay disjoint and inside, cutting ends, parts are uncut by their planes and quadrics at each stage, a silent single solid keeps its volume within 1%. Refuted: small pieces and even a whole solid of a cell are lost without a warning (the error code is overwritten by the next base or solid), splitTolerance in (0,1e-13) recurses for ever. The surfaces found on a shape are inputs of the model.
- **C53 The additional plane of a concave face separates its run of faces** - partial. Model: AddPlane. Specification: AddPlaneSpec. Faces are the surface, area, parameter range and parametrisation reported by FreeCAD; angles and lengths are real numbers. get_intervals: the positions of the two ends of every face in the sorted list, an inductive description of the ranges from a position on, a loop invariant; the turn by cases on the first and last range; the side of a point is a product of three sines of half angles; for spheres, signs are carried along the chain of touching faces and fixed by the centres of mass. Result: Partial: the separation is proved when the faces taken for one surface are exactly on it, are parametrised from one direction, lie within one turn and (cones) keep off the tip. It is refuted, with witnesses, outside these conditions: ranges given in different turns, different reference directions, a narrower cone (angles are compared without absolute value), a face that reaches the tip (no plane at all); the groups of touching faces (spheres, same_faces) are sound but incomplete.
- **C54 The surfaces added to a toroidal face cut the torus at the face** - partial. Model: TorusAnnex. Specification: TorusSpec. A toroidal face is the surface, parameter ranges and parametrisation reported by FreeCAD. Grouping: loop invariant of the worklist (the done faces touch nothing left), classes of the chain relation. Merging: the sorted ranges are a chain; a gap longer than the tolerance is found first; two gaps cannot both be outside one arc. Planes: normals in polar form in the frame of the torus. Tube: in the half plane (distance to the axis, height) each annex surface is a line through the two ends, and the signed side is a constant times the product of three sines of half angles; the middle fixes the sign. Result: Partial: grouping, merged range, planes and annex surface are right under the stated conditions and refuted, with witnesses, outside of them: faces stacked along the other parameter (the half torus is taken for closed), nested ranges, ranges past the full turn; a range over half a turn on a torus whose centre is off the axis through the origin (the normals use the position and not the direction from the centre); a cylinder for more than half a turn around the tube; forceCylinder; an axis between tor_angle and angle (unbound variable); the sheet when the first vertex is on the axis. The torus axis is taken exactly along a coordinate axis.
- **C55 Cones that are not along X, Y or Z keep one sheet in the cells** - partial. Model: ConePlanes. Specification: ConeSpec. A cell is its id, void flag, list of ids of the cells in its box and definition; the surfaces are the dictionary of SurfDict with add_signed of CellDef. Invariant over the loop of cones: the definition stands for the original one with a set of cones replaced; the set grows by one cone per step. Counterexamples computed with get_void, with a right constraint table for simplify = full, and with the no-overlap model. C55_solids: SignText gives the literals of a parsed expression with their signs (the signed version of OnText), CellCones follows add_signed and add_cone through cellDef: every tilted literal has been appended to the cones with the same sign. Result: C55_cells_partial: for cells whose tilted cones are all among those recorded for the cell (its own cones, or the opposite ones of the cells in the box of the void), the written definition with two-sheeted cards equals the original one with the sheets of the solids. Refuted in general: void beside or inside an enclosure with a tilted cone, cells cut by forceNoOverlap, constant definitions (TypeError), voids simplified with a (right) constraint table, which can turn the sign of a cone. C55_solids: from registered surfaces, the tilted cones in the definition of a solid are all recorded for it, with the sign they have there (so the hypothesis of C55_cells_partial holds of every solid).
- **C56 Cells refer only to surfaces that are defined** - partial. Model: BoolSeq, BoolEdit, VoidCell, NoOverlap, CellDef, BoxDef, VoidAll, ConePlanes, Writers, ParenModel, Wrap. Specification: OnSpec (names_one, known, from), CellText (numbers, mentions). No new model: the functions of the other properties. For an arbitrary set Q of numbers, "all the literals are in Q" is preserved by every operation on definitions (OnProofs, OnProofs2), by printing, parsing, removal of parentheses and line cutting (the syntax tree carries its numbers), and with Q the numbers of the dictionary, which only grows, by cellDef, the boxes, the void loop, the graveyard and the apex planes (OnCell, OnModel). Result: Proved for each step, for all inputs. cellDef: when the surfaces of the faces have been registered; otherwise refuted (number 0). The wrapped text: when it has places to cut (see C19). Voids of enclosure pieces: the step get_void is covered, the CAD cut of the pieces is not.
- **C57 A whole conversion partitions space** - partial. Model: Start (the functions of CellDef, VoidAll, BoxDef, ConePlanes put together as core.py 440-620 does). Specification: CellDefSpec (piece_holds), BoxSpec (side, agrees, in_sphere), VoidBoxSpec (halfb), PropsStart.cell_true. Composition: cellDef for one solid after the other with the numbers taken from the first dictionary (C51, induction on the solids); the definitions are aligned with the bounding boxes of the kept pieces, so C16 gives the void cells and the graveyard; the log of the void loop is projected away; process_cones with aligned cones only looks surfaces up. Reach (ReachProofs): every step is a run of additions and look-ups. C57_known repeats C56 along the same run. C57_ex: two boxes with a common face, 41 void and graveyard cells, every place of space is in exactly one cell. C57_cones_partial: the same run, then ConeStart shows that the cells are sequences without constants inside, so the invariant of C55 (ConeProofs2) applies to process_cones; C57_cones_ex: a box cut by a cone about (1, 1, 0), and a box. That the cones of the solids are recorded is C55_solids. C57_written_partial (PropsWritten): plain_regions (ExportMerged), the Forall2 form of C28 for every format, then label_cells cell by cell. Result: C57_known: from registered surfaces through solids, voids, graveyard and apex planes every surface of every cell is registered, with any cones. C57_cells_partial (cones along X, Y, Z) and C57_cones_partial (any cones, with two-sheeted cards): at every place the cell of a solid is true exactly in the solid, and exactly one void or graveyard cell is true outside of the solids, none inside; so exactly one cell is true if the solids are disjoint. Missing: enclosures, forceNoOverlap, simplify = full, the runs with the events of C15 and the boxes of 2^50 or more smallest cubes (C16); tilted cones in a void cell must be recorded for it (see C55_simplify_refuted; those of the solids are: C55_solids), and the second surface of a torus face must not be found the same as a tilted cone. C57_numbers: solids keep their numbers, void and graveyard cells follow the last one without gap; only comment lines have no number. C57_written_partial (PropsWritten): the files (MCNP, Serpent, PHITS with all voids, OpenMC without the outer void), read with their own surface cards after any history of writers, have the same true cells in the same order as the definitions (hypotheses of C28 on the planes; conversion and export models joined by surface numbers and cells).
- **C58 The PHITS input with one merged void cell is the same geometry** - partial. Model: PhitsVoid (labels, core.py 559-593, for the cells of Start; the cell block of phits_format.py with phits_cell_uni of Export). Specification: PhitsVoid (phits_true: # is the outside of the cell with this number). The conversion ends with the two graveyard cells, whose definitions begin with -s and s for the sphere s (start_shape: process_cones leaves them alone); the list is cut in solids, rest, graveyard and the writer is followed on each part; s is not 0 by C57_known. C58_partition_partial: composition with C57_cones_partial. C58_written_partial: composition with C28_merged_partial, cell by cell (same_ocell). C58_ex, C58_written_ex: the 41 cells of C57_ex become two. Result: C58_merged: for every conversion from registered surfaces (no hypothesis on geometry or void generation) the cell block consists of the solids with the same definitions and consecutive numbers from startCell, the inner void that excludes exactly these numbers, and the outer void, the only one marked as outside; wherever the void cells of the conversion are right the two void cells are right. C58_partition_partial: with the hypotheses of C57_cones_partial the file partitions space. C58_written_partial: the same for the file as written after simplify_planes, read with its surface cards (hypotheses of C28 on the planes). Missing: as in C57 (enclosures do not occur here) and C28. The surfaces of the conversion (C57) and of the export (C28) are two models joined by their numbers and the cells. The labels are given as core.py 559-593 does (C23); texts are C17/C19; a second PHITS export of the same object loses the inner void: C29_phits_merged_refuted.

## What is modelled and what is not

Modelled, under src/geouned/GEOUNED: utils/boolean_function.py (all of BoolSequence); utils/functions.py: SurfacesDict, cell
text and writer helpers, GeounedSolid attributes used by numbering and loading; void/void.py, void/void_box_class.py and
void/void_functions.py (box splitting, void cells, enclosure tree and checks); conversion/cell_definition_functions.py and
conversion/cell_definition.py only through the definitions they give; cell_definition's no_overlapping_cell; decompose: only the use
of its results; write/*: cell texts, line wrapping, surface cards, numbering, the export state machine; loadfile/*: metadata of
solids, labels, joining of files, skipping; utils/basic_functions_part1/2 comparison functions and geometry helpers;
utils/data_classes.py and core.py configuration, from_json.
Under src/geouned/GEOReverse: Modules/Utils/booleanFunction.py, Modules/remh.py, Modules/Objects.py (primitive surfaces and
transformations), Modules/MCNPinput.py and XMLinput.py (surface cards, universes, filters), Modules/buildCAD.py and core.py (tree of
universes), Modules/Utils/boundBox.py and the box functions of buildSolidCell.py.

Not modelled: FreeCAD/OpenCASCADE shapes and their boolean operations (so: buildSolid, the cutting of a
universe by its container, volume and material extraction from shapes); parsing of surface and transformation cards from text
(Parser/*); output of CAD files; logging; floating point rounding and number formatting; Python object aliasing except where a
comment says so (C40, C42).

## Trusted base

- The kernel of Coq 8.16.1, with its `vm_compute` (used in witnesses and examples), and the standard library.
- The reading of /repo: the model is written by hand from the text of the code.
- No axioms are declared, nothing is admitted, no functors or module types. `Print Assumptions` of each theorem of MANIFEST.json gives the
  following (fun-ext = FunctionalExtensionality.functional_extensionality_dep, not-dec = ClassicalDedekindReals.sig_not_dec,
  forall-dec = ClassicalDedekindReals.sig_forall_dec, classic = Classical_Prop.classic; all of the standard library, through its real numbers).

- Closed under the global context (266 theorems): all theorems of MANIFEST.json not listed below.
- forall-dec, fun-ext (11): C32_side_unique, C33_tolerance, C33_fuzzy_log_refuted, C38_intersection, C38_union, C38_definition, C38_solid, C38_solid_none, C48_sq, C53_ranges, C53_sphere_refuted.
- forall-dec, fun-ext, not-dec (24): C31_cylinder, C31_cone, C31_x_axis_refuted, C32_points_to_coeffs, C32_collinear, C33_signed, C33_close_sphere, C33_signed_cone, C33_transitive_refuted, C38_part_partial, C47_transformation, C47_plane_normal_refuted, C47_box_refuted, C47_point_cylinder_refuted, C47_point_cone_refuted, C47_tr_refuted, C48_gq_partial, C48_sense_refuted, C48_cone_refuted, C48_sphere_refuted, C48_paraboloid_refuted, C53_cone_partial, C53_sphere, C54_sheet_partial.
- classic, forall-dec, fun-ext, not-dec (75): C28_regions_partial, C28_merged_partial, C28_total, C28_merged_total, C28_three_points_refuted, C28_axis_points_refuted, C29_independent_partial, C29_phits_first_refuted, C29_phits_merged_refuted, C29_three_points_refuted, C33_reflexive, C33_reflexive_relative, C33_symmetric, C33_close_plane, C33_close_cylinder, C33_close_torus, C33_close_cone, C33_cylinder_relative_refuted, C33_cylinder_symmetric_refuted, C33_plane_relative_refuted, C33_cone_refuted, C38_planes_forward, C38_planes_reversed, C38_plane_refuted, C38_undefined_refuted, C38_both_signs_refuted, C38_torus_refuted, C38_trc_refuted, C38_no_planes_refuted, C38_tilted_torus_refuted, C38_cell_partial, C38_cell_solid_partial, C38_unbounded_refuted, C38_edge_refuted, C38_reversed_refuted, C46_surface_side_partial, C46_elliptic_cone_refuted, C46_hyperboloid_refuted, C46_ellipsoid_refuted, C46_blind_refuted, C47_surface_cards_partial, C49_mcnp, C49_mcnp_tilted, C49_mcnp_exact, C49_mcnp_cone_sheet, C49_openmc, C49_openmc_py, C49_serpent, C49_openmc_py_torus, C49_openmc_py_torus_refuted, C49_serpent_cylinder_refuted, C49_serpent_cone_refuted, C49_tilted_torus_refuted, C49_tilted_cone_refuted, C49_openmc_cone_refuted, C49_zero_tolerance_refuted, C53_cylinder_partial, C53_turn_refuted, C53_direction_refuted, C53_narrow_refuted, C53_tip_refuted, C54_merge, C54_merge_stacked_refuted, C54_merge_nested_refuted, C54_merge_past_refuted, C54_u_narrow, C54_u_wide_partial, C54_u_wide_refuted, C54_v_partial, C54_v_wide_refuted, C54_v_force_refuted, C54_axis_refuted, C54_sheet_refuted, C57_written_partial, C58_written_partial.
