# proj.city — formal model in Rocq (Coq 8.16.1)

Source: `/repo` (C++14/17, ~10k lines), read as text; never built or run here. All paths below are relative to `/repo`.

## Method

* Every modelled C++ function is a total Gallina function whose comment cites file and lines.
* Results of functions that may fail are `outcome A := Ok a | Throw e | UB`. `Throw` carries the C++ exception class.
  `UB` is reserved for undefined behaviour (out-of-bounds iterator writes, null dereference, vector self-insertion…).
  No theorem treats `UB` as a normal value.
* `size_t` arithmetic wraps `mod 2^64` where the code can wrap.
* `double` is IEEE binary64, bit-exact, through the standard library's axiom-free `SpecFloat` (`spec_float`, prec 53, emax 1024);
  binary32 (lib3ds floats) through rounding to prec 24, emax 128.
* CGAL's exact kernel (`CGAL::Exact_predicates_exact_constructions_kernel`) number type is `Qc` (canonical rationals).
* Text is `list ascii`; `operator<<(double)` (`%g`, 6 digits) and `operator>>(double)` are modelled in exact integer arithmetic.
* External libraries (CGAL boolean operations and polyhedra, OGR/GDAL drivers, lib3ds, TinyXML, Boost.Filesystem, docopt) are not
  modelled internally. Where the project's logic depends on them, the operation is either a small explicit model of the documented
  behaviour (file system = finite map of paths, GDAL dataset = record of what was stored, OGR feature = record) or an argument
  of the model function (an oracle, universally quantified in the theorem, with its assumed contract as an explicit, named hypothesis
  for which a concrete inhabitant is exhibited).
* Property theorems live in `theories/Props_*.v` (names `Cxx_…`; the map from properties to theorems is `MANIFEST.json`, regenerated by
  `tools/manifest.py`). The specification vocabulary — what "rotation of", "polygon of a mesh", "tight box", "covers", … mean — is in
  the small files `theories/Spec_*.v`, written without the model's helpers. Each theorem has an `Example …` beside it showing a concrete,
  non-trivial case that meets its hypotheses (theorems without hypotheses, or whose witness is a `_refuted` twin, need none).
* A property which the code violates is stated with its exact guard (the positive half, proved) and a `_refuted` theorem with a
  witness outside the guard. These are findings, listed at the end.

## Properties and how each will be proved

* **C01** Bounding-box union is a least upper bound — Bbox record of six doubles; min/max exactly as std::min/std::max; order facts on SpecFloat compare.
* **C02** A constructed mesh's bounding box is tight — fold of `box + point.bbox()` over points; induction, NaN-aware invariant.
* **C03** Mesh assignment copies what a copy constructor copies (except, by defect, the box) — Mesh record + history machine (ctor, copy, move, assign, swap); invariant by induction over histories, refuted with an assign.
* **C04** Mesh sum concatenates geometry — Mesh sum; polygons = map nth points over faces; list induction, wrap bound explicit.
* **C05** Mesh sum is associative, with Mesh() as left identity only — Same model; list/monoid algebra; witness for the name.
* **C06** Bounding box of a mesh sum — Same model; fold induction.
* **C07** Self-addition of a non-empty mesh is undefined behaviour — Aliasing modelled by an explicit "same object" variant of +=; UB outcome.
* **C08** Face equality is equality up to rotation (for simple faces) — face_eqb as written (find first, rotate compare); rotation spec `exists k, b = rot k a`; NoDup argument; refuted witnesses.
* **C09** Orientation inversion and rotation of a face — invert/rotate on lists; directed edges multiset by Permutation.
* **C10** Face construction and index rewriting — ctor/overide/offset; list induction; modular arithmetic.
* **C11** Convexity test visits every corner — do-while loop as structural recursion; characterised by forall over cyclic corners.
* **C12** Fan triangulation preserves the boundary — fan; directed edge Permutation with cancelling diagonals by induction.
* **C13** Exporting a mesh to 3DS keeps only the first triangle of each face — Lib3dsMesh record; slots; induction.
* **C14** 3DS round trip of a triangle mesh — to_3ds then from_3ds; float rounding function; pointwise.
* **C15** 3DS size limits — buffer lengths explicit: UB when writing past; iff.
* **C16** Vector algebra on IEEE doubles — SpecFloat case analysis (commutativity/antisymmetry of rounding).
* **C17** Unit normal of a degenerate corner is NaN — SpecFloat computation: 0/0 = NaN.
* **C18** Text of a double is stable under save/load — print6/strtod in Z arithmetic; error analysis of two roundings (10^-6 vs 2^-53 relative).
* **C19** Text of an unsigned index round-trips — decimal printing/parsing of N; induction on digits; exactness of small integers.
* **C20** Reading lines inverts writing lines — getline loop; list induction.
* **C21** OFF round trip — writer/reader composition; token lemmas; C18/C19/C20.
* **C22** OFF files are stable after one save — from C21 and C18.
* **C23** OFF reader accepts only consistent files — inversion of the reader.
* **C24** OFF reader undefined behaviour boundary — characterisation of the UB outcome of the reader line functions.
* **C25** OFF reader does not validate indices — witness text, vm_compute.
* **C26** OBJ round trip preserves every polygon — writer/reader composition with shifts and renumbering.
* **C27** OBJ reader orders objects by name and keeps the first of equal names — sorted association list (std::map) invariant.
* **C28** OBJ index compaction — index_map invariant by induction over faces.
* **C29** OBJ reader undefined behaviour boundary — characterisation of line2pt / select outcomes.
* **C30** OBJ writer gives each mesh its own index range — prefix sums; induction.
* **C31** Excluding meshes by name partitions the handler's meshes — stable partition + fold of sums.
* **C32** File handlers respect their access modes — file-system map + mode map; outcome and state.
* **C33** Scene format names and extensions — finite tables, case-insensitive comparison.
* **C34** Scene directory write/read in OFF — file-system model; C21 per file; distinct names.
* **C35** 3DS node listing by level — get_nodes loop; induction on level.
* **C36** 3DS subtree mesh collection is complete and typed — rose tree post-order; induction on trees.
* **C37** 3DS node_meshes pads with empty meshes — as coded: pre-sized vector then insert at end.
* **C38** 3DS building mesh — fold of sums over sorted map.
* **C39** Scene tree metadata — XML document as tree; null = UB.
* **C40** Facet adjacency matrix is the adjacency relation — half-edge structure; validity predicate; matrix characterisation.
* **C41** Adjacency matrix text — text lemmas; integer square root; the side in doubles by root(round(n^2)) = n (`Rootsq_proofs`).
* **C42** Pruning terminates and leaves nothing to prune — join_facet as an abstract step removing one edge + the concrete loop; termination by edge count.
* **C43** Total edge length counts every edge twice — sum over half-edges versus over edges via opp involution.
* **C44** Affine transforms act on points only — point map; composition.
* **C45** Facet centroid is off the facet's plane — field algebra over Qc on a polygon fan.
* **C46** rotation_transform — as coded; UB on non-empty.
* **C47** Scene construction and pruning — lists.
* **C49** Plane height — Qc field.
* **C50** Point height of a print — Qc + kernel operations; sums rounded by the kernel (`rounded_sum`), binary64 instance in Props_height.
* **C51** Orthographic print of a surface — trace/filter; list induction.
* **C52** Summing prints never invents surface — kernel contract, invariant over histories.
* **C53** Brick bounding box encloses the print — bbox fold, invariant over histories; the domain test (in_domain) with boxes rounded outwards never rejects a point of the print (Props_domain).
* **C54** Upper envelope of two facets — kernel contract; two-facet case; refuted on strip kernel.
* **C55** Coverage of a sum — kernel contract; refuted on strip kernel.
* **C56** Print equality ignores order — is_permutation; Permutation up to equivalence.
* **C57** Footprint accumulation — case analysis.
* **C58** Projecting a scene — lists.
* **C59** Rasterisation is in bounds — Qc floor/ceil arithmetic.
* **C60** Pixel value is the mean of contributing facets — running mean invariant by induction.
* **C61** Vertical offset is applied once, to hit pixels only — list map; flag.
* **C62** Pixel access — mod 2^64 arithmetic.
* **C63** Raster equality ignores pixels — as coded; witness.
* **C64** Pixels correspond to ground squares only on aligned facets — Qc geometry on aligned boxes; witness otherwise.
* **C65** GeoTIFF round trip — dataset record.
* **C66** Raster text output — text.
* **C67** OGR ring round trip — list induction.
* **C68** Vector file round trip — feature record; Qc algebra; witness.
* **C70** Extreme points of collinear points — Qc order algebra; with rounding, an interval invariant that does not accumulate error along the list.
* **C71** Collinearity test looks at three points only — as coded; witness.
* **C72** Polygon centroid is the vertex mean — Qc sums.
* **C73** Command line: exit status — main as outcome handler.
* **C74** orthoproject pipeline decisions — argument map; decision function. GDAL failing: no driver, no file, null pointer used for images.
* **C75** cityformat decisions — argument map; decision function.
* **C76** Area of a print with holes — Qc sums; witness; the sums of doubles, with the exactness of sums of halves of integers below 2^52.
* **C77** Equality of points and meshes — from the face rotation characterisation (C08), list induction.
* **C78** GDAL drivers are registered only by writing — state machine over (registered, file system, open datasets); induction over histories.
* **C79** Scenes in OBJ files — composition of C26, C31 and the scene constructor; names form a permutation.
* **C80** Scenes in 3DS files — composition of C35, C36, C38, C39; case analysis of the fallback.
* **C81** Numbers read from text — a grammar of decimals as a relation, longest viable prefix, a finite automaton for the grammar in the proof; nearest double by minimality over all doubles; uniqueness.
* **C82** Numbers written to text — nearest six-digit decimal by minimality over all six-digit decimals, layout rules of %g as a relation.
* **C85** Export of a node — vertex numbering by position in storage; halfedge cycles; composition with C21/C26 round trips; CGAL soup operations as a record with a contract.
* **C86** Border length — halfedges after the border position as a permutation of border halves and their opposites; `next` permutes the border.
* **C87** Combinable facets — determinant zero iff a common plane (explicit normal), uniqueness of the plane through a true corner; fold invariant for the list without repetitions.
* **C88** Edge lengths — square root, sum and conversion shown correctly rounded (nearest double by minimality) on SpecFloat; closed edge list by index.
* **C83** Values — a reference semantics of variables (slots holding a value or moved from) against the special members of each class, by induction on histories.
* **C84** Handler lifetimes — a broken state (null, released or shared file) persists until undefined behaviour; well-kept states partition the files.
* **C89** Texts — the lines of the text against the OFF reader of C21; injectivity of the printed lines.
* **C90** Nodes of several meshes — Nef operations as a record with their documented meaning; induction on the union.
* **C91** OFF directories — induction on the listing; the file name test against a specification of extension and stem.
* **C92** Conversions — the reading (C79, C91), import and export (C85) and writing (C34, C32) theorems composed through the program of C75.
* **C93** Dual graph file — the measures of `Dual` in doubles against exact measures and nearest doubles; the text through the line reader; the programs through C74/C75.
* **C94** Areas — the triangle of the first corner, Gram determinant; running sums of doubles.
* **C95** Command line of orthoproject — docopt's algorithm on the usage text (`Docopt`), the pattern computed by the kernel; reading and matching characterised for all lines by induction; composed with C74.
* **C96** Command line of cityformat — the same, composed with C75.
* **C97** Heights at points with double coordinates — the rounding of every operation modelled; the threshold on c as an equivalence through the nearest double to c, integer planes by exactness of sums and products below 2^53.
* **C98** Adding a print to itself — the aliased call modelled with undefined behaviour wherever the vector being read changes; equivalence by induction over the facets, no exception because filtered facets are not vertical.
* **C99** Standard output — the programs again, as state with output (`Stdout`), shown to be those of `Cli` when the output is erased; every run is the greeting and a beginning of the messages, by cases on where it stops; the greeting decoded line by line.
* **C100** Pixel size — `std::stod` (glibc's `strtod` in the "C" locale) modelled in `Stod`; against the numbers of the C standard (`Spec_stod`): the number found is the longest prefix that is one, its double is correctly rounded; then the consequences for orthoproject, from the theorems of C74.
* **C101** Rasters on a binary lattice — the double version of `raster_of` (Raster.v over `doubles`) against the pixels of `Spec_raster`: sums, differences and products of lattice doubles are exact, and floor/ceil of their rounded quotients are those of the exact quotients (`Lattice_proofs`), so every pixel's square, and its counter, is the exact one; heights of horizontal facets are exact and so are means of one or two; for n heights the errors of the running mean's products, sums and quotients add up to at most (n+3) 2^-52 M (`Mean_proofs`, `Props_grid2`).
* **C102** A node's text — operator<<(ostream, UNode) with CGAL's OFF writer as the project's reference files show it (`Unodeout`); the lines exactly; the reader of C21–C25 applied to them: always refused, and read back once the empty lines are dropped.
* **C103** Running a program again — each action of the programs is shown to be *replayable*: the list of files it writes, written once more over any later state of the same disk, gives the same files (`replayed` in `Props_repeat`); composed along the programs of C74/C75.
* **C104** Conversions there and back — both runs of `cityformat` are the runs of C92; the file of the first is read back by C21/C27, and the coordinates by six-digit printing being idempotent (`reads_back` twice is once, for numbers that are zero or at least 1e-317); rotation of faces is followed through the exports.
* **C105** The images orthoproject stores — from C74's list of stored images, each is the data set of `to_gdal` on the raster of its print; its pixels are those of C101 and its geotransform is computed there; size, corner, spacing and pixels together are `shows` (`Spec_image`).
* **C106** The prints orthoproject makes come from the scene's files — an invariant over every way a brick is built (`built`): the planes of its facets are among those of the prints added; each print is `drawn` from one polygon of the mesh, by C51 over the surface that C85 gives; composed with the scene read (C34, C91) and the run (C74, C105). For block models the plane fixes the height of every centroid.

## Files

| layer | model | specification | proofs | properties |
|---|---|---|---|---|
| shadow types (points, vectors, boxes, faces, meshes) | `Base Dbl Shadow Shadow_hist` | `Spec_shadow Spec_arith` | `Dbl_facts Shadow_proofs Face_proofs Vec_proofs Face3ds_proofs Arith_proofs` | `Props_shadow Props_shadow2 Props_vector Props_mesheq` |
| text of numbers, OFF streams | `Decimal Streams` | `Spec_text Spec_num` | `Round_proofs Rn_proofs Scan_proofs Nearest_proofs Num_proofs Printnum_proofs Lines_proofs Off_proofs` | `Props_text Props_num` |
| OBJ streams | `Streams` | `Spec_text` | `Obj_proofs Objw_proofs` | `Props_obj` |
| file handlers, scenes, 3DS trees, XML, GDAL histories | `Handlers Gdal_hist` | `Spec_io Spec_scenes` | `Handlers_proofs Scenefile_proofs T3ds_proofs Xml_proofs Scenes_proofs` | `Props_io Props_scenes Props_gdal` |
| UNode / Scene | `Geom Surface` | `Spec_surface` | `Surface_proofs Facet_geom Prune_proofs Unode_proofs` | `Props_surface` |
| prints | `Projection Domain` (+ `Strip`, a concrete kernel) | `Spec_projection` | `Projection_proofs Envelope_proofs Print_proofs` | `Props_projection Props_domain` |
| rasters | `Raster` (+ `Rect`, a concrete kernel) | `Spec_raster` | `Raster_proofs Float_proofs Dq_proofs Lattice_proofs Mean_proofs` | `Props_raster Props_raster2 Props_grid Props_grid2` |
| OGR export | `Ogr` | `Spec_ogr` | – | `Props_ogr Props_ogr2` |
| utility algorithms | `Util` | `Spec_util` | – | `Props_util`, `Props_util2` |
| export of nodes, lengths, pruning helpers | `Export Edges` | `Spec_export Spec_edges Spec_ring` | `Sqrt_proofs Rootsq_proofs Sum_proofs Edges_proofs Ring_proofs` | `Props_export Props_edges Props_area` |
| prints added to themselves | `Selfadd` | `Spec_projection` | | `Props_self` |
| heights in doubles | `Height` | `Spec_projection Spec_num` | | `Props_height` |
| stream insertions; nodes of several meshes | `Textout Nef Unodeout` | | | `Props_textout Props_nef Props_unodeout` |
| measures of facets in doubles, dual graphs | `Dual Side` | `Spec_dual` | `Tiny_proofs` | `Props_dual Props_dual2 Props_centre Props_side` |
| running a program again | `Cli` | `Spec_repeat` | – | `Props_repeat` |
| there and back | `Cli`, `Export` | `Spec_back` | – | `Props_back`, `Props_back2` |
| images stored by orthoproject | `Cli`, `Raster` | `Spec_image` | – | `Props_image` |
| prints and the scene's files | `Projection`, `Export`, `Cli` | `Spec_origin` | – | `Props_origin` |
| standard output of the programs | `Stdout` | `Spec_stdout` | – | `Props_stdout` |
| the pixel size | `Stod` | `Spec_stod` | `Stod_proofs` | `Props_stod`, `Props_pixel` |
| the project's own unit tests run on the model | – | – | – | `Tests_repo` |
| the two programs; conversions | `Cli` | `Spec_cli Spec_convert` | – | `Props_cli Props_cli2 Props_convert` |
| command lines (docopt) | `Docopt` | `Spec_line` | `Docopt_proofs Line_proofs Exit_proofs Ortho_line Format_line` | `Props_line Props_line2` |

## Trusted base

* Coq 8.16.1's kernel (and `vm_compute`, which it includes) and the Coq standard library; a few files use mathcomp's `ssreflect` tactics.
* Axioms: `Print Assumptions` answers *Closed under the global context* for every theorem listed in `MANIFEST.json`. `vcheck` lists the
  seven `Coq.ssr.ssrunder.Under_rel.*` parameters because the standard library's ssreflect file declares them; no theorem uses them.
* The reading of the C++ as Gallina: each definition's comment cites the lines it models. This is a manual translation and is trusted.
* Compiler and platform: LP64, IEEE-754 binary64/binary32 with round to nearest even, no x87 excess precision, no FMA contraction.

### What is modelled, and how far

* **Exactly**: everything in `src/lib/shadow`, the OFF/OBJ/adjacency streams and `Line` in `src/include/io`, the format tables and mode
  checks of the handlers, the loops, branches and exceptions of the code in `scene`, `projection`, `algorithms`, `bin`.
* **C++ text input/output** (`operator<<`, `operator>>`, `getline`) in the "C" locale: six significant digits, no digit grouping. CGAL's OFF writer (C102) is laid out as in `ressources/tests/staff*.off`.
* **File system**: a finite map from paths to directories and byte contents. Not modelled: permissions, name-length limits, links,
  full disks, concurrent programs. Paths, relative or absolute,
  are lists of components (C74_path, C74_scene_path: a slash at the end of the scene's name is a component `.`, as in boost; of the output path's name it is ignored); no `//host` roots; the operating system's resolution of `.` is modelled at the end of the scene's path only, and `..` and links not at all.
* **CGAL kernel** (`Epeck`): exact rationals `Qc`. `to_double` is a kernel field and, where its value matters, the nearest double; sums and differences of doubles in prints (heights of a print, areas compared with epsilon) are rounded by a second field (`rnd_ok`: it leaves doubles alone), infinities excepted.
* **CGAL polygons and Boolean operations**: an argument `kernel` of the projection model; theorems name the laws they use
  (`kernel_ok`, `cut_ok`, …) and `Strip.v` and `Rect.v` give concrete kernels satisfying the laws. Bounding boxes of polygons are exact, except in `Domain.v`, where they may be rounded outwards arbitrarily.
* **CGAL polyhedra**: a half-edge structure given by facets and points (`Surface.v`); stitching, orientation and
  `Euler::join_face` follow their documented preconditions and effects; a violated precondition is `UB`.
* **lib3ds** files: the mesh and node records; the library's own file parsing is an oracle.
* **OGR/GDAL**: data sources as records of what was stored; the drivers are assumed to keep layers and bands as given. Incomplete
  files after a failed driver call are not recorded.
* **TinyXML**: documents as trees, null pointers as `UB`.
* **docopt**: in C73–C75 the argument map is an argument of the model; C95 and C96 compute it from the command line with a model of docopt.cpp's algorithm (`Docopt.v`) on the two literal usage texts. `std::stod` is an argument there, and modelled in `Stod.v` for C100 (libstdc++'s wrapper and the grammar and `errno` rules of glibc's `strtod`; underflow is reported when the result is inexact and, rounded to 53 bits with unbounded exponent, below the least normal double).
* **Not modelled**: `std::bad_alloc`, stack depth, the order in which unsequenced operands run (where it matters the outcome is `UB`),
  `std::cerr`, what the libraries print, the `tests` directory. `std::cout` is modelled in `Stdout.v` only (C99).

`Tests_repo.v` runs the model on the inputs of the project's own unit tests (`src/tests`, with the files of `ressources`) and
compares with the results those tests require: faces, vectors, boxes, 3DS meshes, the nine stitched OFF files, the OBJ files,
facet prints, the occlusion of the closed mesh, the printed texts. All agree. (`hammerhead.off`, 2560 vertices, was read,
printed, written and read again with the same agreement in a scratch file.) These are tests of the model's fidelity, not
claims: nothing rests on them.

## Findings (each proved in the model by the theorem named)

| finding | theorem |
|---|---|
| copy assignment of a mesh keeps the old bounding box | C03_assign_refuted |
| `a += a` on a non-empty mesh is undefined (self-insertion) | C07_self_addition |
| face `==` is not symmetric when an index repeats; degree 0 throws | C08_repeated_index_refuted, C08_degree_zero_throws |
| 3DS export keeps one triangle per face; reading back reverses degenerate triangles | C13_export_first_triangles, C14_degenerate_reversed |
| 3DS names of 63 or more characters overflow the buffer | C15_memory_safety |
| `p + (q - p) == q` fails for finite doubles; NaN normals | C16_translate_back_refuted, C17_degenerate_normal_is_nan |
| a mesh with a NaN coordinate is not equal to its copy | C77_nan_refuted |
| coordinates of OFF/OBJ files keep six digits; subnormal results differ | C18_lossy_refuted, C18_tiny_refuted |
| OFF: an empty line is an error, short vertex lines are undefined, indices are unchecked | C23_rejects_empty_line, C24_undefined_iff, C25_dangling_index |
| OBJ: negative or missing indices and four-coordinate vertices are undefined; writing an empty mesh list is undefined | C29_undefined_iff, C30_defined_iff_nonempty |
| raster and vector reading use drivers nobody registered: before the first permitted write every read throws | C78_no_read_before_a_write |
| a dataset is never closed when the import or export throws | C78_datasets_left_open |
| writing into a missing directory silently succeeds without writing | C32_off_write_modes, C32_obj_write_value, C32_3ds_values |
| "3DS" without ids: terrain nodes also become (empty) buildings; an illegible pivot silently gives the origin and 2154 | C80_3ds_scene, C80_example |
| a scene without a mesh named "terrain" cannot be read | C34_no_terrain_throws |
| 3DS: level listing wrong beyond level 1, other roots unreachable, unknown names undefined, padding with empty meshes | C35_levels_refuted, C36_undefined, C37_node_meshes_padding |
| a scene directory named with a slash at the end gets the results inside it instead of beside it, and the sum's files are called `..shp` and `..tiff` | C74_slash, C74_slash_example |
| orthoproject: an image that GDAL cannot create is a null pointer that is used | C74_images_fail |
| XML: a missing element is a null dereference | C39_missing_is_null |
| pruning: flat interior vertices violate CGAL's precondition; stitching after the loop leaves flat edges | C42_flat_interior_refuted, C42_stitch_refuted |
| total edge length is doubled | C43_doubled |
| the area of a facet with more than three sides is that of one triangle of it (unit square: 0.5), and its centroid is divided by that area | C94_polygon_refuted, C94_corner, C45_polygon_refuted |
| a facet whose first corner is straight makes the dual graph undefined (division by zero); pruning produces such facets | C93_straight_corner, C93_pruned_undefined |
| the usage text has no blank line before `Options:`, so docopt takes the option descriptions as part of the last usage pattern; only this puts `--cache` in the map | C95_arguments (`Ortho_line.ortho_defaults`) |
| the documented `--cache` of orthoproject is refused on every line, although the program requires the key | C95_cache, C95_exits, C74_cache_needed |
| `--scene`/`--labels` without `save` and `--pixel-size` without `rasterize` are accepted and ignored | C95_same, C95_arguments |
| cityformat documents its output as optional, but a conversion without output ends with an exception (status 0) before reading | C96_output_needed, C96_exits |
| a conversion whose writing fails prints the same on the standard output, and ends with the same status, as one that succeeds | C99_format_hides, C99_format_example |
| `cityformat --version` answers with the name orthoproject | C99_version |
| the text a node inserts into a stream is OFF, but the project's OFF reader refuses the text of every node (empty lines) | C102_refused |
| a decimal comma in the pixel size cuts off the fraction: `0,5` reads as 0 and no image is written, without a word | C100_comma, C100_program_zero, C100_programs |
| `nan` and negative pixel sizes are accepted and lead to undefined behaviour | C100_program_undefined, C100_programs |
| border_length counts the following sides too (twice the border for a triangle) and is undefined before normalize_border | C86_refuted, C86_not_normalized |
| combinable reports facets at an angle when the corner is straight | C87_straight_corner_refuted |
| circumferences ignore holes | C88_holes_refuted |
| a mesh with an infinite or NaN coordinate makes UNode(mesh) undefined; closed inward meshes are reversed | C85_not_finite, C85_inward |
| T3DSHandler copies its raw pointer (double free), frees null after a failed load | C84_copy_refuted, C84_load_refuted, C84_complete |
| a moved-from raster keeps its size but no pixels; a moved-from print keeps its box; a moved-from point has no coordinates, so neither has the reference point of a moved-from print, raster, node or scene | C83_raster_moved, C83_print_moved, C83_point_moved |
| a camera with rotations is undefined | C83_camera_rotations |
| a node whose meshes do not unite to a 2-manifold is silently empty | C90_vanishes_refuted |
| a newline in a mesh's name makes its text (and its OFF file) unreadable | C89_newline_refuted |
| a transformed surface keeps its old box | C44_box_stale |
| a facet's centroid lies off its plane | C45_off_plane |
| `rotation_transform` with any rotation is undefined | C46_undefined, C46_axis_undefined |
| upper envelope: facets are compared at one sample point; copies and losses on three or more facets | C54_many_facets, C55_overlaps, C55_coverage |
| print equality ignores planes/boxes as stated | C56_ignored |
| raster bounds test uses `&&`: doubles rounding throws or aliases | C59_double_refuted |
| raster of an empty footprint is undefined | C59_empty_undefined |
| 16-bit hit counter wraps | C60_many_facets_refuted |
| pixel access aliases columns; raster equality ignores pixels | C62_aliasing, C63_pixels_ignored |
| facets not aligned to the grid miss pixels they cover | C64_unaligned_refuted |
| EPSG read back from GeoTIFF is the geographic CS | C65_epsg_refuted |
| empty raster prints unbalanced brackets | C66_empty_refuted |
| OGR rings: closed input loses its last vertex, one vertex becomes none, empty throws | C67_closed_loses_last, C67_single_vertex, C67_empty_throws |
| vector export adds the reference elevation to the wrong coefficient | C68_elevation_refuted |
| extreme points wrong off a line, and among nearly equal distances; collinearity looks at three points; centroid leaves the box in doubles | C70_plane_refuted, C70_rounding_refuted, C71_fourth_refuted, C72_rounding_refuted |
| both programs report success after any exception | C73_failure_hidden, C73_format_failure_hidden |
| cityformat cannot write 3DS | C75_3ds |
| get_height at a point with double coordinates throws on planes that are not vertical (c below 2^-52), where the overload for exact points gives a height | C97_vertical, C97_overloads_refuted |
| `b += b` on a print modifies the vector it iterates over; `f += f` throws for a reference point with a NaN | C98_self_addition, C98_footprints |
| a facet away from the point makes the height of a print NaN when its plane's height there overflows | C97_elsewhere_refuted |
| print area adds the holes | C76_holes_added, C76_grid_refuted |
| UNode(name, points, polygons) takes the vectors by reference and leaves them reoriented | C85_soup |
