{"id": "C01", "title": "Bounding-box union is a least upper bound", "statement": "For NaN-free boxes a, b: (a + b) encloses both a and b, is enclosed by every box enclosing both, + is commutative and associative up to double ==, idempotent, and Bbox() is neutral.", "quantifier": "all pairs/triples of shadow::Bbox values whose six bounds are not NaN (infinities and signed zeros included)", "why_tests_cant": "needs every pair of IEEE doubles incl. infinities and signed zeros", "anchors": ["src/lib/shadow/bbox.cpp: Bbox::operator+=, operator+, Bbox::Bbox"]}
{"id": "C02", "title": "A constructed mesh's bounding box is tight", "statement": "For any list of points (even with NaN coordinates), the bbox() of a mesh built from it encloses every non-NaN coordinate, and each bound is either attained by some point or is the empty-box infinity when no non-NaN coordinate exists on that axis. NaN coordinates are ignored.", "quantifier": "all point lists of any length over all doubles, all face lists", "why_tests_cant": "unbounded lists of doubles", "anchors": ["src/lib/shadow/mesh.cpp: Mesh::compute_bbox, Mesh::Mesh", "src/lib/shadow/bbox.cpp"]}
{"id": "C03", "title": "Mesh assignment copies what a copy constructor copies (except, by defect, the box)", "statement": "Copy construction, move and swap transfer name, points, faces and bbox. Copy assignment transfers name, points and faces but leaves the target's previous bbox in place, so 'm.bbox() describes m.points' is an invariant of histories without copy assignment and is violated by a history with one.", "quantifier": "every history of mesh constructions, copies, moves, swaps, renames, assignments and sums over a store of meshes", "why_tests_cant": "invariant over unbounded operation histories", "anchors": ["src/lib/shadow/mesh.cpp: Mesh::operator=, Mesh::swap, Mesh::Mesh"]}
{"id": "C04", "title": "Mesh sum concatenates geometry", "statement": "For well-formed meshes a, b (every face index < number of points) a + b is well formed and its polygons, read as coordinate lists, are those of a followed by those of b; points and faces counts add; no index wraps as long as the total number of points is below 2^64.", "quantifier": "all pairs of well-formed meshes with total size < 2^64", "why_tests_cant": "unbounded meshes and index shifts", "anchors": ["src/lib/shadow/mesh.cpp: Mesh::operator+=, operator+", "src/lib/shadow/face.cpp: Face::offset"]}
{"id": "C05", "title": "Mesh sum is associative, with Mesh() as left identity only", "statement": "(a+b)+c and a+(b+c) have the same name, points and faces whenever the operands are non-empty meshes; Mesh()+m has m's name, points and faces; m+Mesh() keeps points and faces but appends '_' to the name.", "quantifier": "all triples of meshes", "why_tests_cant": "unbounded meshes", "anchors": ["src/lib/shadow/mesh.cpp: Mesh::operator+=, operator+"]}
{"id": "C06", "title": "Bounding box of a mesh sum", "statement": "If the left operand has at least one point, (a+b).bbox() is the union of both boxes; if it has none, the result keeps a's box (the code's self-assignment defect), so folding + over a list from Mesh() yields the union of all boxes except that of the first non-empty mesh.", "quantifier": "all meshes and all lists of meshes folded from Mesh()", "why_tests_cant": "unbounded lists", "anchors": ["src/lib/shadow/mesh.cpp: Mesh::operator+=, Mesh::operator=", "src/lib/io/io_3ds.cpp: mesh, level_terrain", "src/lib/io/io_obj.cpp: exclude_mesh"]}
{"id": "C07", "title": "Self-addition of a non-empty mesh is undefined behaviour", "statement": "m += m on a non-empty mesh inserts a vector's own range into itself (UB in C++); on an empty mesh it is a no-op; m + m is well defined because it works on a copy.", "quantifier": "all meshes, aliased and non-aliased operands", "why_tests_cant": "aliasing UB may appear to work in any test run", "anchors": ["src/lib/shadow/mesh.cpp:253-279"]}
{"id": "C08", "title": "Face equality is equality up to rotation (for simple faces)", "statement": "For faces with pairwise distinct indices, a == b iff b is a cyclic rotation of a; it is an equivalence and a != b is its negation. With repeated indices == is not symmetric and there are faces for which a == b and a != b are both true. Comparing two degree-0 faces throws.", "quantifier": "all faces of every degree", "why_tests_cant": "unbounded degrees and index values", "anchors": ["src/lib/shadow/face.cpp:252-283"]}
{"id": "C09", "title": "Orientation inversion and rotation of a face", "statement": "invert_orientation keeps the first index and reverses the rest, is an involution and reverses the set of directed edges; rotate(n) for 0<=n<=degree is cyclic shift by n, preserves directed edges and face equality, and rotate() degree times is the identity. On a degree-0 face invert_orientation and rotate are undefined behaviour.", "quantifier": "all faces and all shift amounts", "why_tests_cant": "unbounded degrees and shifts", "anchors": ["src/lib/shadow/face.cpp:114-125"]}
{"id": "C10", "title": "Face construction and index rewriting", "statement": "Face(vector) throws logic_error exactly when fewer than 3 indices are given, otherwise stores them unchanged; overide(i,j) returns whether i occurs and replaces exactly its first occurrence; offset(d) adds d modulo 2^64 to every index and offset by the complement undoes it.", "quantifier": "all index lists and offsets", "why_tests_cant": "unbounded lists; wrap-around", "anchors": ["src/lib/shadow/face.cpp:23-52,131-153"]}
{"id": "C11", "title": "Convexity test visits every corner", "statement": "is_convex throws out_of_range iff degree<3, or there are fewer coordinates than the degree, or (degree>3) an index it reads is out of range; a triangle is always reported convex; for degree>3 it returns true iff at every one of the degree corners (cyclically) the computed turn relative to the first corner's normal is strictly negative. On integer coordinates up to 2^11 the test is the exact integer one.", "quantifier": "all faces of every degree, all coordinate tables of doubles", "why_tests_cant": "unbounded degree, exceptions depend on evaluation order", "anchors": ["src/lib/shadow/face.cpp:155-202"]}
{"id": "C12", "title": "Fan triangulation preserves the boundary", "statement": "For a convex face of degree d, Face::to_3ds yields d-2 triangles (v0,vi,vi+1) with 16-bit indices; if all indices are < 65536, the directed edges of the triangles are the face's directed edges plus pairs of opposite diagonals. Non-convex faces throw logic_error. Each triangle carries the unit normal of its corners rounded to single precision.", "quantifier": "all faces accepted by is_convex", "why_tests_cant": "unbounded degree", "anchors": ["src/lib/shadow/face.cpp:204-236"]}
{"id": "C13", "title": "Exporting a mesh to 3DS keeps only the first triangle of each face", "statement": "Mesh::to_3ds announces sum(degree-2) faces but stores one triangle per face (the first of its fan), the remaining slots being zero; hence every face is exported completely iff all faces are triangles. Within the limits of 3DS the export succeeds iff every face of more than three corners is convex, and throws logic_error otherwise.", "quantifier": "all meshes whose faces are convex and that fit in 3DS limits", "why_tests_cant": "unbounded meshes", "anchors": ["src/lib/shadow/mesh.cpp:281-330"]}
{"id": "C14", "title": "3DS round trip of a triangle mesh", "statement": "For a mesh of triangles within 3DS limits, converting to Lib3dsMesh and back gives the same number of points and faces, coordinates rounded to binary32, and each face with the same first index and the same index set: identical if the recomputed determinant exceeds epsilon, orientation reversed otherwise. Degenerate triangles are always reversed. Axis-aligned integer meshes (coordinates up to 2^23) come back with the same polygons; the bounding box of the mesh read back is tight.", "quantifier": "all triangle meshes with <65536 points", "why_tests_cant": "all double coordinates; rounding", "anchors": ["src/lib/shadow/mesh.cpp:25-63,281-330", "src/lib/shadow/point.cpp:131-136"]}
{"id": "C15", "title": "3DS size limits", "statement": "to_3ds is memory-safe only for meshes with fewer than 65536 points and names shorter than 63 characters: otherwise it writes past the allocated point list or reads an unterminated name (undefined behaviour).", "quantifier": "all meshes", "why_tests_cant": "UB not observable by tests", "anchors": ["src/lib/shadow/mesh.cpp:281-330"]}
{"id": "C16", "title": "Vector algebra on IEEE doubles", "statement": "For all doubles (bit-exactly): Vector + is commutative, dot product symmetric, v - w and w - v are opposite, cross product is antisymmetric, all up to double == and NaN-agreement; but p + (q - p) == q can fail for finite points. On integer coordinates small enough for the exact result to be a double, sums, differences, dot and cross products, scaling and determinants are exact.", "quantifier": "all triples of IEEE binary64 values", "why_tests_cant": "2^64 values per coordinate", "anchors": ["src/lib/shadow/vector.cpp", "src/lib/shadow/point.cpp"]}
{"id": "C17", "title": "Unit normal of a degenerate corner is NaN", "statement": "normal_to(a,b,c) with an exactly zero computed cross product has NaN in every coordinate. For three integer points (coordinates up to 2^24) of an axis-aligned plane with non-zero cross product, it is exactly the unit axis vector with the sign of the cross product.", "quantifier": "all triples of points with zero computed cross product", "why_tests_cant": "all doubles", "anchors": ["src/lib/shadow/point.cpp:131-136"]}
{"id": "C18", "title": "Text of a double is stable under save/load", "statement": "Writing a finite double with the default stream format (6 significant digits) and reading it back gives a double that is written as the same characters; if the double equals a decimal of at most 6 significant digits it is read back exactly. There are doubles that are not preserved.", "quantifier": "all finite binary64 values (normal range for stability)", "why_tests_cant": "2^64 values", "anchors": ["src/lib/shadow/point.cpp:112-116", "src/include/io/Off_stream/off_stream.h:199-228"]}
{"id": "C19", "title": "Text of an unsigned index round-trips", "statement": "operator<< of a size_t followed by >> yields the same value, for every value below 2^64; and a decimal integer below 2^53 read as double and converted to size_t is exact.", "quantifier": "all size_t values", "why_tests_cant": "2^64 values", "anchors": ["src/include/io/Off_stream/off_stream.h", "src/include/io/Obj_stream/obj_stream.h:91-113"]}
{"id": "C20", "title": "Reading lines inverts writing lines", "statement": "readlines on text made of newline-terminated lines returns exactly these lines; a missing final newline changes nothing unless the last line is empty; no returned line contains a newline.", "quantifier": "all texts", "why_tests_cant": "unbounded strings", "anchors": ["src/include/io/Line/line.h:89-114"]}
{"id": "C21", "title": "OFF round trip", "statement": "For every mesh with finite coordinates, faces of degree >= 3 and indices < 2^64 and a name without newline: reading back what was written gives a mesh with the same faces (identical index lists), the same number of points with coordinates equal to the 6-digit text value of the originals, and the name of the file stem.", "quantifier": "all such meshes of any size", "why_tests_cant": "unbounded meshes", "anchors": ["src/include/io/Off_stream/off_stream.h:85-265", "src/lib/io/io_off.cpp"]}
{"id": "C22", "title": "OFF files are stable after one save", "statement": "Saving, loading and saving again produces the same bytes after the name comment.", "quantifier": "all such meshes with coordinates in the normal range", "why_tests_cant": "unbounded meshes and doubles", "anchors": ["src/include/io/Off_stream/off_stream.h"]}
{"id": "C23", "title": "OFF reader accepts only consistent files", "statement": "A successful read implies: first non-comment line is 'OFF', the declared numbers of points and faces equal those of the mesh, every face has degree >= 3, and the number of significant lines is 2 + points + faces. Any file containing an empty line is rejected with out_of_range (the emptiness test comes after the character access).", "quantifier": "all input texts", "why_tests_cant": "all texts", "anchors": ["src/include/io/Off_stream/off_stream.h:98-198"]}
{"id": "C24", "title": "OFF reader undefined behaviour boundary", "statement": "On accepted counts, the reader writes or reads out of bounds exactly when the size line has more than 3 integers, a point line has fewer than 3 numbers or a face line has more indices than announced (e.g. colours); a face line with fewer indices is silently padded with index 0.", "quantifier": "all input texts", "why_tests_cant": "UB is invisible to tests", "anchors": ["src/include/io/Off_stream/off_stream.h:181-265"]}
{"id": "C25", "title": "OFF reader does not validate indices", "statement": "There are files read successfully into a mesh whose faces refer to points that do not exist.", "quantifier": "existence over input texts", "why_tests_cant": "absence of a check", "anchors": ["src/include/io/Off_stream/off_stream.h:229-265"]}
{"id": "C26", "title": "OBJ round trip preserves every polygon", "statement": "For a non-empty list of well-formed meshes with distinct whitespace-free names, finite coordinates, faces of degree >= 3 and fewer than 2^53 points in total: reading back what was written gives one mesh per name whose polygons, as coordinate lists, are the 6-digit text values of the original polygons in order.", "quantifier": "all such lists of meshes", "why_tests_cant": "unbounded meshes", "anchors": ["src/include/io/Obj_stream/obj_stream.h"]}
{"id": "C27", "title": "OBJ reader orders objects by name and keeps the first of equal names", "statement": "The meshes returned by the OBJ reader have strictly increasing names; objects repeating an earlier name are dropped with their faces.", "quantifier": "all input texts", "why_tests_cant": "all texts", "anchors": ["src/include/io/Obj_stream/obj_stream.h:291-347"]}
{"id": "C28", "title": "OBJ index compaction", "statement": "In each object, indices are renumbered 0..k-1 in order of first use, consistently and injectively; the mesh has exactly k points, point new(i) being the file's point i, so polygons have the coordinates the file says and every index is valid.", "quantifier": "all sequences of face lines with valid indices", "why_tests_cant": "unbounded sequences", "anchors": ["src/include/io/Obj_stream/obj_stream.h:244-289", "src/include/algorithms/io_algorithms.h:11-20"]}
{"id": "C29", "title": "OBJ reader undefined behaviour boundary", "statement": "A face index larger than the number of points, or a vertex line with four coordinates, leads to an out-of-bounds access; index 0 silently denotes the origin; a vertex line with other than 3 or 4 numbers throws.", "quantifier": "all input texts", "why_tests_cant": "UB", "anchors": ["src/lib/algorithms/io_algorithms.cpp:27-46", "src/include/algorithms/io_algorithms.h:11-20", "src/include/io/Obj_stream/obj_stream.h"]}
{"id": "C30", "title": "OBJ writer gives each mesh its own index range", "statement": "In the written file face indices of the k-th mesh lie in (sum of previous point counts, sum including the k-th], for well-formed meshes, and denote the same points; writing an empty list of meshes is undefined behaviour.", "quantifier": "all lists of well-formed meshes", "why_tests_cant": "unbounded lists", "anchors": ["src/include/io/Obj_stream/obj_stream.h:91-176"]}
{"id": "C31", "title": "Excluding meshes by name partitions the handler's meshes", "statement": "exclude_mesh(n) leaves exactly the meshes not named n in their order and returns a mesh named n whose polygons are those of all meshes named n in order; nothing is lost or duplicated; a second call returns an empty mesh.", "quantifier": "all mesh lists and names", "why_tests_cant": "unbounded lists", "anchors": ["src/lib/io/io_obj.cpp:84-104"]}
{"id": "C32", "title": "File handlers respect their access modes", "statement": "OFF/OBJ/raster/vector read throws and leaves the file system unchanged unless mode read is set, and write likewise unless mode write is set; a 3DS handler cannot be constructed with both or neither modes; reading a path that is not a regular file throws. Missing mode keys mean false.", "quantifier": "all mode maps, paths and file system states", "why_tests_cant": "all maps", "anchors": ["src/lib/io/io_off.cpp", "src/lib/io/io_obj.cpp", "src/lib/io/io_3ds.cpp:12-44", "src/lib/io/io_raster.cpp", "src/lib/io/io_vector.cpp"]}
{"id": "C33", "title": "Scene format names and extensions", "statement": "scene_format maps exactly the four supported names to formats (and back through supported_formats) and throws otherwise; a handler for 3DS XML, 3DS or OBJ can be constructed iff the path extension equals the format's, ignoring case; OFF accepts any path.", "quantifier": "all strings and paths", "why_tests_cant": "all strings", "anchors": ["src/lib/io/io_scene.cpp:18-41,153-179"]}
{"id": "C34", "title": "Scene directory write/read in OFF", "statement": "Writing a scene as OFF to a fresh directory and reading it gives back every building mesh up to 6-digit rounding, once each, provided building names are distinct, not 'terrain', free of '/' and newline, and the terrain is named 'terrain'; with duplicate names the last one wins; without a file terrain.off reading throws.", "quantifier": "all scenes and directory listing orders", "why_tests_cant": "all scenes and listing orders", "anchors": ["src/lib/io/io_scene.cpp:45-151"]}
{"id": "C35", "title": "3DS node listing by level", "statement": "get_nodes(1) lists the children of the first root node in order. For level 0 it returns nothing and for level k it returns the level-1 list repeated k times, so it never lists the nodes at depth k for k<>1.", "quantifier": "all node trees and levels", "why_tests_cant": "unbounded trees and levels", "anchors": ["src/lib/io/io_3ds.cpp:221-248"]}
{"id": "C36", "title": "3DS subtree mesh collection is complete and typed", "statement": "node_meshes_by_type(name, types) returns, for each type letter in types, exactly the meshes of the nodes of that subtree whose mesh name starts with that letter, in post-order; types with no mesh are absent.", "quantifier": "all node forests, mesh tables and type sets", "why_tests_cant": "unbounded trees", "anchors": ["src/lib/io/io_3ds.cpp:174-191,276-289"]}
{"id": "C37", "title": "3DS node_meshes pads with empty meshes", "statement": "node_meshes(name, types) returns n empty meshes followed by the n meshes of the subtree (types in increasing letter order).", "quantifier": "all trees", "why_tests_cant": "unbounded trees", "anchors": ["src/lib/io/io_3ds.cpp:156-173"]}
{"id": "C38", "title": "3DS building mesh", "statement": "mesh(name, types) has that name and its polygons are the concatenation, per increasing type letter, of the polygons of the subtree's meshes of that type.", "quantifier": "all trees", "why_tests_cant": "unbounded trees", "anchors": ["src/lib/io/io_3ds.cpp:192-219"]}
{"id": "C39", "title": "Scene tree metadata", "statement": "pivot() is the Pivot element's offsets if present and otherwise the midpoint of the bounding box; epsg_index() is the declared code modulo 65536 or 2154 when unreadable; building_ids() lists the Id of every Building in document order; a missing element that is not checked is a null dereference.", "quantifier": "all XML element trees", "why_tests_cant": "unbounded trees", "anchors": ["src/lib/io/io_scene_tree.cpp"]}
{"id": "C40", "title": "Facet adjacency matrix is the adjacency relation", "statement": "facet_adjacency_matrix() is an n*n matrix, true at (i,j) iff i=j or facets i and j share an edge; it is symmetric with a true diagonal.", "quantifier": "all valid halfedge surfaces of any size", "why_tests_cant": "unbounded surfaces", "anchors": ["src/lib/scene/unode.cpp:441-497"]}
{"id": "C41", "title": "Adjacency matrix text", "statement": "Adjacency_stream prints an n*n matrix as n lines of n space-separated 0/1 and throws logic_error for a non-square vector; reading the tokens back recovers the matrix. The side found in doubles, by the rounded square root of the size, gives the same for every size below 2^63.", "quantifier": "all boolean vectors", "why_tests_cant": "unbounded sizes", "anchors": ["src/include/io/Adjacency_stream/adjacency_stream.h:58-71"]}
{"id": "C42", "title": "Pruning terminates; what it leaves", "statement": "The loop of prune always stops after at most (number of edges) joins, with a unique result. If it stops normally the surface is well formed, no edge between two facets has parallel incident normals, vertices, points, border edges and total vector area are unchanged and each join removed one edge and one facet. It is undefined exactly when it meets a flat edge with an end of degree < 3 or one facet on both sides - always the case for a flat surface with an interior vertex. Facet ids end as 0..n-1 in order. On a closed surface nothing prunable is left; because borders are stitched after the loop, two parallel facets along a duplicated border keep a prunable edge.", "quantifier": "all well-formed halfedge surfaces, all stitchings", "why_tests_cant": "termination over all inputs", "anchors": ["src/lib/algorithms/unode_algorithms.cpp:69-82", "src/lib/scene/unode.cpp:290-312,430-439"]}
{"id": "C43", "title": "Total edge length counts every edge twice", "statement": "total_edge_length adds the length of every edge twice: without rounding it is exactly twice the sum of the lengths of the edges; in doubles it is the running sum, in the order of the half-edges, of the rounded lengths, and exactly twice the sum when the lengths are integers and that is below 2^53.", "quantifier": "all halfedge surfaces", "why_tests_cant": "unbounded surfaces", "anchors": ["src/lib/algorithms/unode_algorithms.cpp:97-117"]}
{"id": "C44", "title": "Affine transforms act on points only", "statement": "affine_transform maps every vertex and leaves connectivity unchanged; successive transforms compose; translating by v then -v restores the points exactly; bbox() is not updated, so it is stale after any effective translation.", "quantifier": "all surfaces and transformations", "why_tests_cant": "all inputs", "anchors": ["src/lib/algorithms/unode_algorithms.cpp:30-54", "src/lib/scene/unode.cpp:160-163"]}
{"id": "C45", "title": "Facet centroid is off the facet", "statement": "For a planar facet with unit normal n at distance h from the origin, the shoelace sum of UNode::centroid divided by the facet's true area is a point at signed distance (2/3)h, in the facet's plane only if h=0, whose in-plane part is the area centroid. Where conversions to double are exact that is what UNode::centroid returns for a triangle; for a facet with more sides it divides by the area of the triangle of the first corner instead, so that the result is scaled by the ratio of the two areas (the centroid of the unit square at the origin is its corner (1,1)).", "quantifier": "all planar facets of all half-edge surfaces", "why_tests_cant": "all facets", "anchors": ["src/lib/scene/unode.cpp:380-398"]}
{"id": "C46", "title": "rotation_transform", "statement": "rotation_transform of an empty map is the identity; of any non-empty map it writes through the begin iterator of an empty vector: undefined behaviour, hence so is rotate(...).", "quantifier": "all rotation maps", "why_tests_cant": "UB", "anchors": ["src/lib/algorithms/util_algorithms.cpp:9-45"]}
{"id": "C47", "title": "Scene construction and pruning", "statement": "A scene built from meshes has one building per mesh in order with the mesh's name, the scene's pivot and epsg, and the terrain likewise; identifiers() lists the names in order; prune(false) leaves the terrain unchanged, prune keeps number, names, pivots and epsg. The construction succeeds iff the surface of every mesh can be built, and otherwise fails as the first mesh that cannot.", "quantifier": "all scenes", "why_tests_cant": "unbounded lists", "anchors": ["src/lib/scene/scene.cpp"]}
{"id": "C49", "title": "Plane height", "statement": "get_plane_height(p) throws overflow_error iff the supporting plane is vertical, otherwise the returned z puts (p,z) exactly on the plane; for a planar facet, the height at each projected vertex is the vertex's z.", "quantifier": "all planes and points (exact arithmetic)", "why_tests_cant": "all rationals", "anchors": ["src/lib/projection/face_projection.cpp:117-122", "src/lib/projection/utilities.cpp:7-26"]}
{"id": "C50", "title": "Point height of a print", "statement": "FacePrint::get_height is 0 outside and the plane height inside a non-degenerate facet; BrickPrint::get_height is the sum, rounded after each addition, over the facets containing the point in order (the exact sum where no partial sum needs rounding), hence the unique facet's height off the edges of a non-overlapping print but the sum of both on a shared edge; it throws if any facet is vertical and the point is covered.", "quantifier": "all prints and points", "why_tests_cant": "all inputs", "anchors": ["src/lib/projection/face_projection.cpp:130-137", "src/lib/projection/brick_projection.cpp:182-196"]}
{"id": "C51", "title": "Orthographic print of a surface", "statement": "orthoprint returns, in order, one facet print per facet whose plane is not vertical, with the facet's id, plane through its first three vertices and outline traced counter-clockwise when simple; a facet of two vertices, which pruning can leave, is never printed and never fails.", "quantifier": "all surfaces", "why_tests_cant": "unbounded surfaces", "anchors": ["src/lib/projection/utilities.cpp:7-54", "src/lib/projection/face_projection.cpp:29-38"]}
{"id": "C52", "title": "Summing prints never invents surface", "statement": "After any sequence of additions, every facet of the brick print has the id and plane of some added facet and its region is contained in that facet's region.", "quantifier": "all histories of += on prints", "why_tests_cant": "unbounded histories", "anchors": ["src/lib/projection/brick_projection.cpp:293-377"]}
{"id": "C53", "title": "Brick bounding box encloses the print", "statement": "After any history of += and filter, bbox() encloses the bounding box of every facet of the print and equals the union of the boxes of all facets ever added; in_domain tells exactly which points lie in it, and however CGAL rounds the boxes outwards no point the print contains is outside its domain, while a point outside has height 0.", "quantifier": "all histories", "why_tests_cant": "unbounded histories", "anchors": ["src/lib/projection/brick_projection.cpp:19-37,128-131,293-337"]}
{"id": "C54", "title": "Upper envelope of two facets", "statement": "Adding a facet to a print with one facet yields, at every point off the edges, the upper one of the two (and everything covered by either remains covered), when the two planes do not cross over any component of the overlap. With more facets the property fails: a facet split in two leaves both copies of a hidden facet; a facet sampled under at one point is dropped although visible elsewhere.", "quantifier": "all pairs of facets; existence of failing triples", "why_tests_cant": "all geometries", "anchors": ["src/lib/projection/brick_projection.cpp:162-180,293-377"]}
{"id": "C55", "title": "Coverage of a sum", "statement": "A point covered by the print before adding a facet stays covered when the added facet is disjoint from it or under it or is never fully hidden in the pass; but there are prints and facets where an unrelated facet of the print disappears.", "quantifier": "all prints and facets", "why_tests_cant": "all geometries", "anchors": ["src/lib/projection/brick_projection.cpp:293-377"]}
{"id": "C56", "title": "Print equality ignores order", "statement": "BrickPrint == holds iff the facets agree up to permutation (facet equality: border and plane), it is an equivalence; FootPrint == additionally compares reference point and epsg but not the name.", "quantifier": "all prints", "why_tests_cant": "unbounded permutations", "anchors": ["src/lib/projection/brick_projection.cpp:411-445", "src/lib/projection/scene_projection.cpp:170-181"]}
{"id": "C57", "title": "Footprint accumulation", "statement": "FootPrint += throws logic_error iff the left print is non-empty and reference point or epsg differ, in which case the left is unchanged; an empty left adopts the right one entirely; otherwise name, reference and epsg of the left are kept. Adding projections never throws, so that logic_error is the only exception; + gives the same sum on a copy of the left, and != is the negation of ==.", "quantifier": "all pairs of footprints", "why_tests_cant": "all inputs", "anchors": ["src/lib/projection/scene_projection.cpp:135-147"]}
{"id": "C58", "title": "Projecting a scene", "statement": "orthoproject returns one footprint per building in order, plus the terrain's last iff asked, each carrying the building's name, reference point and epsg.", "quantifier": "all scenes", "why_tests_cant": "unbounded lists", "anchors": ["src/lib/algorithms/scene_algorithms.cpp:98-117", "src/lib/projection/scene_projection.cpp:14-28"]}
{"id": "C59", "title": "Rasterisation is in bounds", "statement": "In exact arithmetic, for every footprint whose facets lie in its bounding box and every positive pixel size, rasterisation touches only pixels (i,j) with i<height, j<width: it never throws and never aliases another row.", "quantifier": "all footprints and pixel sizes", "why_tests_cant": "all reals", "anchors": ["src/lib/projection/face_projection.cpp:293-333", "src/lib/projection/raster_projection.cpp:19-39"]}
{"id": "C60", "title": "Pixel value is the mean of contributing facets", "statement": "In exact arithmetic after rasterising any sequence of facets each pixel holds the arithmetic mean of the heights contributed to it (0 if none) and its hit counter the number of contributions (below 32768). The rasters of a scene are those of its prints, in order.", "quantifier": "all sequences of facets", "why_tests_cant": "unbounded sequences", "anchors": ["src/lib/projection/face_projection.cpp:311-329"]}
{"id": "C61", "title": "Vertical offset is applied once, to hit pixels only", "statement": "vertical_offset adds the reference height to exactly the pixels with a non-zero hit count and is idempotent; unhit pixels are untouched.", "quantifier": "all rasters, any number of calls", "why_tests_cant": "unbounded histories", "anchors": ["src/lib/projection/raster_projection.cpp:237-246"]}
{"id": "C62", "title": "Pixel access", "statement": "at(i,j)/hit(i,j) return the pixel for i<height, j<width; they throw iff i*width+j (mod 2^64) >= height*width or i>height and j>width; in particular out-of-range columns silently alias the next row. A raster made without arguments has no pixel: every access throws, and storing it is undefined.", "quantifier": "all indices", "why_tests_cant": "2^128 index pairs", "anchors": ["src/lib/projection/raster_projection.cpp:157-180"]}
{"id": "C63", "title": "Raster equality ignores pixels", "statement": "RasterPrint == holds iff the metadata agree; rasters of the same metadata with different pixel values compare equal.", "quantifier": "all pairs of rasters", "why_tests_cant": "all images", "anchors": ["src/lib/projection/raster_projection.cpp:323-359"]}
{"id": "C64", "title": "Pixels correspond to ground squares only on aligned facets", "statement": "If a facet's bounding box corner lies on the raster grid, pixel (i,j) is hit iff the facet meets the ground square of that pixel; otherwise some facet meets a pixel's square without the pixel being hit.", "quantifier": "all facets and grids", "why_tests_cant": "all reals", "anchors": ["src/lib/projection/face_projection.cpp:293-333"]}
{"id": "C65", "title": "GeoTIFF round trip", "statement": "Reading a raster written by to_gdal gives the same size, pixel size, pixel values and planimetric reference, elevation reference 0, all hits 1 and no further vertical offset. An image is accepted exactly when it has geographic coefficients with square pixels (up to the machine epsilon) and a readable band; oblong pixels are a logic_error, the rest a runtime_error.", "quantifier": "all rasters with dimensions < 2^31", "why_tests_cant": "unbounded images", "anchors": ["src/lib/projection/raster_projection.cpp:40-73,248-289"]}
{"id": "C66", "title": "Raster text output", "statement": "operator<< prints the name, the reference point, the EPSG code and the sizes on a line each, then the matrix as height bracketed rows of width values, each value with six decimals, correctly rounded (ties to even).", "quantifier": "all rasters", "why_tests_cant": "unbounded sizes", "anchors": ["src/lib/projection/raster_projection.cpp:291-321"]}
{"id": "C67", "title": "OGR ring round trip", "statement": "Exporting a polygon ring and importing it returns the same vertices translated by the reference point, when it has at least two vertices and its first and last vertices differ; importing an empty ring throws length_error; holes keep their order.", "quantifier": "all rings", "why_tests_cant": "unbounded rings", "anchors": ["src/lib/projection/utilities.cpp:75-145"]}
{"id": "C68", "title": "Vector file round trip", "statement": "With reference point 0, a footprint written to and read from OGR has the same facets (id, border, plane). With a non-zero reference elevation the stored plane is wrong: the height read back is not the height plus the reference elevation. The layer written has the print's name and system, the five facet fields (and the three label fields, all None, if asked) and one feature per facet in order; a layer is read exactly when it has a system, at least five fields and polygons with an outer ring and no empty ring.", "quantifier": "all footprints with double coordinates", "why_tests_cant": "all inputs", "anchors": ["src/lib/projection/face_projection.cpp:39-59,270-291", "src/lib/projection/brick_projection.cpp:25-37,379-409"]}
{"id": "C70", "title": "Extreme points of collinear points", "statement": "extrem_points of at least two collinear points returns two of them at maximal distance; fewer than two throws out_of_range. Squared distances are rounded to doubles before they are compared: the two returned are at maximal distance when the squared distances are doubles, and otherwise no two points are farther apart by more than one part in 10^14 of the squared distance (so long as the squared distances neither underflow nor overflow); points closer than that may be confused.", "quantifier": "all collinear lists", "why_tests_cant": "unbounded lists", "anchors": ["src/lib/algorithms/util_algorithms.cpp:57-79"]}
{"id": "C71", "title": "Collinearity test looks at three points only", "statement": "check_collinearity throws iff fewer than 3 points, and equals collinearity of the first three; there are non-collinear lists accepted.", "quantifier": "all lists", "why_tests_cant": "unbounded lists", "anchors": ["src/lib/algorithms/util_algorithms.cpp:47-55"]}
{"id": "C72", "title": "Polygon centroid is the vertex mean", "statement": "centroid(polygon) is the mean of its vertices after removing consecutive duplicates; in exact arithmetic it is translation equivariant and lies within the vertices' bounding box; it differs from the area centroid on some polygons.", "quantifier": "all polygons", "why_tests_cant": "unbounded polygons", "anchors": ["src/lib/algorithms/util_algorithms.cpp:82-115"]}
{"id": "C73", "title": "Command line: exit status hides failures", "statement": "Once docopt has accepted the command line, both programs return status 0 whatever happens (unless behaviour is undefined): a missing argument, a missing scene file or any exception from the library ends in status 0 with the exception only printed. When docopt itself exits (help, version, bad usage) its status is passed on and nothing is read or written.", "quantifier": "all argument maps, all file systems, all failures", "why_tests_cant": "quantifies over every argument map and every state of the disk", "anchors": ["src/bin/orthoproject.cpp:136-181", "src/bin/cityformat.cpp:89-143"]}
{"id": "C74", "title": "orthoproject pipeline decisions", "statement": "orthoproject: if the argument map lacks a key it needs (among them --cache, which is never used afterwards) or has one of the wrong kind, the run ends with an exception and nothing is touched. Otherwise, without save nothing is written except, with --graphs, the dual graphs; only files under dual_graphs/, vectors/ and rasters/ beside the scene are created or changed; if the scene's name is given with a slash at the end (only an OFF directory can be), these lie in the scene's own directory, and the sum is called '.'. A finished run with save has stored exactly: one shape file per building's print (plus the terrain's with --terrain) with its attribute text file (areas of the facets, lengths of the edges), with --scene one shape file of the sum, and with a non-zero pixel size the raster of the sum (if --scene) and one raster per print; with --graphs the dual graph text of every building. Without the shape driver, or when the first shape cannot be created, the run reports an exception and stores nothing; an image that cannot be created is a null pointer that is used.", "quantifier": "all argument maps, all disks and scenes, any behaviour of GDAL", "why_tests_cant": "all combinations of options with every scene and disk", "anchors": ["src/bin/orthoproject.cpp:34-113,136-181"]}
{"id": "C75", "title": "cityformat decisions", "statement": "--formats only lists formats; otherwise the output path and format must be given or nothing is read; the scene is pruned iff --prune, duals saved iff --graphs, and always written in the output format (3DS outputs throw).", "quantifier": "all argument maps, all disks and scenes", "why_tests_cant": "all combinations of options with every scene and disk", "anchors": ["src/bin/cityformat.cpp:28-143", "src/lib/io/io_scene.cpp:117-151"]}
{"id": "C76", "title": "Area of a print with holes", "statement": "FacePrint::area() without holes is the (signed) area of the outline; with holes turned clockwise, as CGAL's Boolean operations return them, it is the outline's area PLUS the holes' areas, i.e. not the area of the facet. In doubles the area of each ring is rounded once and each difference once; a print whose vertices have integer coordinates and whose rings cover less than 2^52 gets the exact sum, and so does the area of a print of several facets, which adds them in order.", "quantifier": "all facet prints, exact and in doubles", "why_tests_cant": "a formula over all polygons with any number of holes", "anchors": ["src/lib/projection/face_projection.cpp: FacePrint::area", "src/lib/projection/brick_projection.cpp:213-237"]}
{"id": "C77", "title": "Equality of points and meshes", "statement": "Two points are equal iff their three coordinates compare equal as doubles, and != is the negation; vectors alike. Two meshes without degenerate faces are equal iff they have the same points in the same order and, in order, the same faces up to rotation of the first vertex; names and boxes do not count. On meshes with finite coordinates this is an equivalence; a mesh with a NaN coordinate is not equal to itself or to its copy.", "quantifier": "all points of doubles, all pairs and triples of meshes", "why_tests_cant": "all meshes, equivalence laws over unbounded lists", "anchors": ["src/lib/shadow/point.cpp:107-126", "src/lib/shadow/mesh.cpp:366-397", "src/lib/shadow/vector.cpp:134-137"]}
{"id": "C78", "title": "GDAL drivers are registered only by writing", "statement": "In a fresh process, RasterHandler::read and VectorHandler::read of an existing file with the read mode set throw runtime_error until some handler of either kind has performed write with its write mode set (even if that write threw); afterwards the result depends on GDAL only, forever. Refused reads and writes throw filesystem_error and change nothing. A dataset stays open exactly when a call throws after having opened or created it.", "quantifier": "all histories of raster/vector reads and writes, all file systems, all GDAL behaviours", "why_tests_cant": "a property of all histories of calls on global state", "anchors": ["src/lib/io/io_raster.cpp: RasterHandler::read, RasterHandler::write", "src/lib/io/io_vector.cpp: VectorHandler::read, VectorHandler::write"]}
{"id": "C79", "title": "Scenes in OBJ files", "statement": "Reading a scene from an OBJ file makes one building per object not named \"terrain\", in the reader's order, and a terrain that concatenates the objects named \"terrain\" (empty, without error, if there are none), pivot at the origin and EPSG 2154. Writing a scene with distinct blank-free names and reading it back yields the same buildings by name, in increasing name order, and the terrain, each with the same polygons up to the six digits written; only that file changes.", "quantifier": "all scenes with distinct names without blanks, all file systems, all surface builders", "why_tests_cant": "all scenes with any number of buildings and any coordinates", "anchors": ["src/lib/io/io_obj.cpp: WaveObjHandler(path, scene, modes), get_scene, exclude_mesh", "src/lib/io/io_scene.cpp: SceneHandler::read, SceneHandler::write"]}
{"id": "C80", "title": "Scenes in 3DS files", "statement": "With a scene tree (format \"3DS XML\"), the buildings are the ids of the tree in document order, each named by its id and made of the F meshes then the T meshes of the first node of that name (post-order); the terrain is named \"terrain\" and made of the M meshes of the TINRelief id; pivot and EPSG come from the tree. With format \"3DS\", every child of the first root node becomes a building, terrain nodes included (as empty buildings), the terrain gathers the M meshes of all of them, and pivot and EPSG come from the tree beside the file if it can be read and its pivot is legible, else silently origin and 2154.", "quantifier": "all 3DS node trees and mesh tables, all scene trees, all file systems", "why_tests_cant": "all trees of any depth and all mesh tables", "anchors": ["src/lib/io/io_3ds.cpp: T3DSHandler::get_scene, mesh, level_meshes, level_terrain", "src/lib/io/io_scene.cpp: SceneHandler::read"]}
{"id": "C81", "title": "Numbers read from text files", "statement": "Extracting a double from a stream (vertex lines of OFF and OBJ files) consumes the longest prefix that can be continued to a decimal number ([sign] digits [. digits] [e [sign] digits], at least one digit), fails unless that prefix itself is one (\"1e\" fails) and its absolute value is below 2^1024-2^970, and otherwise yields the double nearest to the exact value, ties to even, with the sign of the text. Extracting an index consumes an optionally signed integer, takes negative ones modulo 2^64 and fails from 2^64 on. A line of numbers yields the numbers before the first failure. The degree of a face is 0 when nothing can be read and 2^64-1 when the number is too large. A double used as an index is truncated, with undefined behaviour exactly when the result does not fit.", "quantifier": "all texts, all doubles", "why_tests_cant": "all texts; correct rounding over all decimals", "anchors": ["src/include/io/Off_stream/off_stream.h:181-265", "src/include/io/Obj_stream/obj_stream.h:55-113"]}
{"id": "C82", "title": "Numbers written to text files", "statement": "Writing a non-zero finite double with default stream settings produces the decimal with six significant digits nearest to its exact value (ties to even; these digits are unique), in plain notation when the decimal exponent is between -4 and 5 and in scientific notation with a signed exponent of at least two digits otherwise, without superfluous leading or trailing zeros; the text denotes exactly that decimal. Zeros are written 0 or -0, infinities and NaN as words that cannot be read back. Unsigned integers are written in decimal without leading zeros.", "quantifier": "all doubles, all unsigned integers", "why_tests_cant": "2^64 values", "anchors": ["src/lib/shadow/point.cpp:112-116", "src/lib/shadow/face.cpp:238-249", "src/include/io/Off_stream/off_stream.h:85-97"]}
{"id": "C85", "title": "A node exported as a mesh, and back", "statement": "Exporting a node (Mesh from a name and a surface) yields a mesh of the node's name with one point per vertex in storage order and one face per facet, whose corners name exactly the facet's boundary points in order from its halfedge() on; the mesh is well formed exactly when every facet has at least three sides; transforming the node transforms the exported points only. Making a node from a mesh that the polygon-soup orientation leaves alone and that is open or outward, and exporting it, gives an equal mesh of the same name; a closed inward mesh comes back with every face reversed; in every case the node holds the surface built from the oriented soup, reversed exactly if closed and inward, with its bounding box (the default box if it has no vertex). A node made from points and polygons is the same and leaves the caller's vectors oriented. A mesh with a coordinate that is not finite has undefined behaviour. Scenes of such nodes stored as OFF directories or OBJ files come back facet by facet with six-digit coordinates.", "quantifier": "all well-formed half-edge surfaces, all meshes, all results of CGAL's soup operations meeting their contract", "why_tests_cant": "all surfaces and all meshes", "anchors": ["src/lib/shadow/mesh.cpp:65-94", "src/lib/shadow/mesh.cpp:207-247", "src/lib/shadow/face.cpp:35-45", "src/lib/shadow/point.cpp:27-29", "src/lib/scene/unode.cpp:93-125"]}
{"id": "C86", "title": "Length of the border of a surface", "statement": "After normalize_border, border_length of a surface all of whose edges have a facet on some side is the length of its border plus, for every border side h, the length of the side that follows the inner half of h: never less than the border length, equal to it only if those sides all have length 0 (a triangle's border is counted twice), and 0 for a closed surface. Without normalize_border its behaviour is undefined. In doubles it is the running sum of the rounded lengths of those sides.", "quantifier": "all half-edge surfaces with border, all border positions", "why_tests_cant": "all surfaces", "anchors": ["src/lib/algorithms/unode_algorithms.cpp:17-28"]}
{"id": "C87", "title": "Combinable facets and pruning half-edges", "statement": "combinable(facet) reports, in order around the facet, the opposites of exactly those sides that lie between two facets and whose three following corners lie on one plane with the next point of the neighbour. For planar facets with a true corner there this holds exactly when both facets lie on one plane (in particular for every edge of a triangulated surface without degenerate triangles); at a straight corner facets at a right angle are reported too. pruning_halfedges returns reported half-edges only, no two along the same segment, one for every reported segment.", "quantifier": "all well-formed half-edge surfaces, all facets", "why_tests_cant": "all surfaces and all facet shapes", "anchors": ["src/lib/scene/unode.cpp:313-365"]}
{"id": "C88", "title": "Edge lengths and circumferences of prints", "statement": "edge_lengths of a polygon has one entry per edge, from each vertex to the next and from the last to the first: the correctly rounded root of the double nearest to the exact squared length (infinite only on overflow), exact whenever the length is a double and its square neither overflows nor underflows. The circumference of a polygon or print is these entries added from first to last with one correct rounding each; for polygons along the axes with integer coordinates (total below 2^53) it is the exact perimeter. A facet print counts its outer boundary only, a print the outer boundaries of the pieces of the union of its facets; holes never count.", "quantifier": "all polygons with rational coordinates, all prints", "why_tests_cant": "all polygons; correct rounding", "anchors": ["src/lib/algorithms/util_algorithms.cpp:117-153", "src/lib/projection/face_projection.cpp:198-201", "src/lib/projection/brick_projection.cpp:238-276", "src/lib/projection/scene_projection.cpp:101-108"]}
{"id": "C83", "title": "Copies, moves, assignments and swaps are those of values", "statement": "In every program that constructs, changes, copies, moves, assigns, move-assigns (also to itself), swaps and destroys any number of variables of a class (Point, Vector, Bbox, Face, FacePrint, BrickPrint, FootPrint, RasterPrint, Camera, UNode, Scene), each variable not moved from holds exactly the value it was last given, with all of its members, and no operation changes another variable; a moved-from variable is still there and may be assigned. Boxes keep their value when moved from; points and vectors lose their coordinates, and reading, adding or comparing them is undefined until they are assigned. A point can only be made from three coordinates: any other array throws logic_error. A moved-from raster keeps its size but any pixel access throws; a moved-from print keeps its box. A camera with a rotation is undefined behaviour.", "quantifier": "all histories of operations on any number of variables, all values, all contents the library may leave in moved-from members", "why_tests_cant": "all histories", "anchors": ["src/lib/shadow/point.cpp:12-110", "src/lib/shadow/vector.cpp:15-92", "src/lib/shadow/bbox.cpp:103-117", "src/lib/shadow/face.cpp:17-69", "src/lib/projection/face_projection.cpp:60-90", "src/lib/projection/brick_projection.cpp:38-71", "src/lib/projection/scene_projection.cpp:35-71", "src/lib/projection/raster_projection.cpp:74-96,142-155,207-235", "src/lib/projection/camera.cpp:23-74", "src/lib/scene/unode.cpp:26-41,129-158", "src/lib/scene/scene.cpp:33-67"]}
{"id": "C84", "title": "Lifetime of 3DS handlers", "statement": "A program that makes, copies, assigns, uses and destroys T3DSHandler objects and runs to the end of their lives is free of undefined behaviour exactly when it never copies a handler, never assigns one from another and every file it opened could be loaded; then every lib3ds file is released exactly once, and at any moment every file is held by exactly one handler or released.", "quantifier": "all histories of handler operations", "why_tests_cant": "all histories", "anchors": ["src/include/io/io_3ds.h:44", "src/lib/io/io_3ds.cpp:12-49"]}
{"id": "C89", "title": "Texts of meshes and prints", "statement": "Inserting a mesh into a stream writes an OFF file: read as OFF it gives what the mesh written by the OFF stream gives, hence (finite coordinates, no newline in the name, faces of three corners or more) the same faces, the points to six significant digits and a tight box. A vector shows its three numbers and a box its six (x, y, z bounds, minimum first) to six digits in order. The text of a footprint has the lines of its name, reference point, EPSG index, box and number of faces and four lines per face; it determines the name, EPSG index, face count, ids, and whatever CGAL's texts of the border and plane determine.", "quantifier": "all meshes, vectors, boxes and footprints, all one-line texts of CGAL's objects", "why_tests_cant": "all values", "anchors": ["src/lib/shadow/mesh.cpp:332-347", "src/lib/shadow/bbox.cpp:135-139", "src/lib/shadow/vector.cpp:128-132", "src/lib/projection/face_projection.cpp:335-340", "src/lib/projection/brick_projection.cpp:425-431", "src/lib/projection/scene_projection.cpp:161-169"]}
{"id": "C90", "title": "Nodes made of several meshes", "statement": "UNode(name, meshes, reference, EPSG) keeps its arguments; each mesh is oriented, built, stitched, its holes filled and turned outwards if closed; where the union of these is a 2-manifold, the surface of the node bounds exactly the points of the repaired meshes, otherwise the node is silently empty; the box is the surface's, or the default one if it is empty. Any coordinate that is not finite is undefined behaviour.", "quantifier": "all lists of meshes, all implementations of the Nef operations that satisfy their documented meaning", "why_tests_cant": "all meshes", "anchors": ["src/lib/scene/unode.cpp:42-92"]}
{"id": "C91", "title": "Scenes stored in OFF directories", "statement": "Reading a scene in OFF format succeeds exactly when the path is a directory that holds a readable terrain.off, and every regular file named *.off (whatever the case of the extension) other than terrain.* is a readable OFF file: the buildings are these files, in directory order, each named as its file without the extension, the terrain is named terrain, and every other entry is ignored. The first building that cannot be read decides the outcome with its own exception, then the terrain; a path that is no directory is a runtime_error.", "quantifier": "all directories, contents and listing orders, all surface builders", "why_tests_cant": "all directories and file contents", "anchors": ["src/lib/io/io_scene.cpp:45-115", "src/lib/io/io_off.cpp:20-50"]}
{"id": "C92", "title": "Conversions from end to end", "statement": "cityformat, without pruning and dual graphs, on a scene whose meshes CGAL takes as they are, ends well, prints no list of formats (its messages: C99) and changes only the output. To OFF: the output directory holds exactly one file per mesh, named after it, and each file is the OFF text of a mesh equal to the input's (name, points, faces up to rotation). To OBJ: the output file is the OBJ text of equal meshes, in the order of the input, terrain last. Instances: an OBJ file to OFF, an OFF directory to OBJ.", "quantifier": "all command lines asking for such a conversion, all input files and file systems", "why_tests_cant": "all scenes and file systems", "anchors": ["src/bin/cityformat.cpp:89-143", "src/lib/io/io_scene.cpp:45-151", "src/lib/scene/unode.cpp:93-109", "src/lib/shadow/mesh.cpp:65-94"]}
{"id": "C93", "title": "Dual graph file", "statement": "The dual graph of a node is a text of one line per facet, in order, then one line per facet of the adjacency matrix, then an empty line. The line of a facet gives, separated by spaces, its id, its number of sides, its area (that of the triangle of its first corner), its perimeter (the running sum of the rounded lengths of its sides), its centre (the shoelace sum over its sides divided by six areas) and its normal (the vector area divided by its rounded length), each as a double printed with six digits that a reader gets back. The text is written exactly when every first corner has an area that does not round to zero and no number overflows; otherwise the behaviour is undefined - also when a facet with positive area has a straight first corner, which pruning can produce from a node whose dual graph is defined. orthoproject --graphs and cityformat --graphs put that text in one file per building.", "quantifier": "all half-edge surfaces, all facets and exact coordinates; for the programs all command lines, inputs and file systems", "why_tests_cant": "all surfaces and coordinates", "anchors": ["src/lib/scene/unode.cpp:380-428", "src/lib/scene/unode.cpp:506-522", "src/lib/algorithms/scene_algorithms.cpp:12-27", "src/include/io/Adjacency_stream/adjacency_stream.h"]}
{"id": "C94", "title": "Area of facets and nodes", "statement": "The area of a triangular facet is the rounded square root of its squared area (a quarter of the Gram determinant of two sides, also the squared length of its vector area). The area of any facet is that of the triangle of its first corner, so a square of side 1 has area 1/2; the area of a node is the running sum of these areas in the order of the facets.", "quantifier": "all half-edge surfaces and facets", "why_tests_cant": "all surfaces", "anchors": ["src/lib/scene/unode.cpp:404-409", "src/lib/algorithms/unode_algorithms.cpp:84-95"]}
{"id": "C95", "title": "Command line of orthoproject", "statement": "orthoproject accepts a command line exactly when it consists of the scene, then 'save' and 'rasterize' in this order if wanted, and, anywhere and at most once each, --input-format with a value (required), --prune, --graphs, --terrain, --scene, --labels and --pixel-size with a value, every option in full or by a beginning no other option has, its value after '=' or as the next word. The program then works with exactly what the line says (one request per line; --scene and --labels have no effect without 'save', --pixel-size none without 'rasterize', 1 by default); the order of the options does not matter. --help and --version end with status 0, every other line without a word that may ask for help or the version with status -1, the documented option --cache included; then nothing changes. Whatever the line, files change only in dual_graphs, vectors and rasters beside the scene (inside it, if its name ends with a slash: C74), and not at all without 'save' and --graphs.", "quantifier": "all lists of words of a command line, all file systems, all answers of the libraries", "why_tests_cant": "all command lines", "anchors": ["src/bin/orthoproject.cpp:14-95", "src/bin/orthoproject.cpp:136-181"]}
{"id": "C96", "title": "Command line of cityformat", "statement": "cityformat accepts a command line exactly when it is --formats alone, or the scene, optionally 'output', optionally the output path, and, anywhere and at most once each, --input-format with a value (required), --prune, --graphs, --terrain and --output-format with a value. --formats prints the list of formats and with anything else is refused. A conversion gets exactly what the line says, with or without the word 'output', in any order of the options; without output path or output format, both optional in the usage text, it ends with an exception and nothing is read or written. --help and --version end with status 0, every other line without a word that may ask for help or the version with -1.", "quantifier": "all lists of words of a command line, all file systems, all answers of the libraries", "why_tests_cant": "all command lines", "anchors": ["src/bin/cityformat.cpp:9-70", "src/bin/cityformat.cpp:89-143"]}
{"id": "C97", "title": "Heights at points with double coordinates", "statement": "For a point with finite double coordinates, contains of a facet print and of a print answer exactly whether the point lies on the facet, or on some facet, without rounding; with an infinite or NaN coordinate they are undefined. get_height throws std::overflow_error exactly when the plane's c is in absolute value below 2^-52 - 2^-106, wherever the point is, so also on planes that are not vertical, where the overload for exact points gives a height. Where the plane has integer coefficients, the point integer coordinates and the numerator stays below 2^53, the height on the facet is the double nearest to the exact height, the same as that of the other overload. Elsewhere it is a zero as long as the height of the plane is finite, and NaN otherwise. The height of a print is zero where no facet lies, throws if some facet counts as vertical, and is otherwise the sum of the heights in order, exact for integer heights.", "quantifier": "all facets, prints and points, every exact kernel", "why_tests_cant": "all planes and all doubles, including the rounding of the threshold", "anchors": ["src/lib/projection/face_projection.cpp:123-137", "src/lib/projection/face_projection.cpp:264-268", "src/lib/projection/brick_projection.cpp:123-127", "src/lib/projection/brick_projection.cpp:197-211"]}
{"id": "C98", "title": "Adding a print to itself", "statement": "b += b on a BrickPrint runs over the vector it modifies. It is defined exactly when every facet that is neither empty nor degenerate overlaps the print made of those facets and lies under it; the facets are then those facets, unchanged and in order, the box is widened by theirs, and the result is the one of b + b, which works on a copy. In every other case the behaviour is undefined; it never throws. f += f on a FootPrint does nothing on an empty print, throws logic_error exactly when the reference point has a NaN coordinate (the print is then unchanged) and is otherwise defined exactly when the addition of the projection to itself is.", "quantifier": "all prints, every kernel", "why_tests_cant": "undefined behaviour of an aliased call may look right in a test; all prints", "anchors": ["src/lib/projection/brick_projection.cpp:293-337", "src/lib/projection/brick_projection.cpp:433-445", "src/lib/projection/scene_projection.cpp:135-147", "src/lib/projection/scene_projection.cpp:178-191"]}
{"id": "C99", "title": "What the programs print", "statement": "A program whose arguments are complete prints 'Parsing arguments... Done.' and a greeting that shows the arguments; then, while reading a scene with a tree file, one warning exactly if the code of the projection system is missing or not a number; then one line for each thing it was asked to save, announced before and ended by 'Done.' after. orthoproject: a run that ends well prints all of them; a run stopped by an exception ends with the announcement of the step it stopped in, and then exactly the earlier steps have been done (what is stored is a beginning of the shapes, then of the images, in order). So when something is to be saved, the output tells whether the run ended well, although the status does not. cityformat: an exception while writing leaves the same output as success. The greeting determines the arguments (pixel size up to six digits), for cityformat if the formats are single lines. --help prints the usage, a refused line an empty line and the usage, --version 'orthoproject' and the version, for cityformat too. Printing changes nothing else: files and end are those of the other properties.", "quantifier": "all command lines and argument maps, all input files, file systems and answers of the libraries, runs stopped anywhere", "why_tests_cant": "all runs, stopped at any point", "anchors": ["src/bin/orthoproject.cpp:66-88", "src/bin/orthoproject.cpp:97-181", "src/bin/cityformat.cpp:44-143", "src/lib/algorithms/scene_algorithms.cpp:12-133", "src/lib/io/io_scene_tree.cpp:79-86"]}
{"id": "C100", "title": "The pixel size is the longest number at the start of the text", "statement": "orthoproject takes the text of --pixel-size as follows: leading blanks are skipped, then the longest prefix that is a number in the sense of the C standard (decimal with optional fraction and exponent, hexadecimal with optional binary exponent, inf/infinity, nan) is taken and whatever follows is silently ignored; the pixel size is that number correctly rounded to a double; a number too large for a double, or below the normal doubles and not representable, is refused with std::out_of_range; a text without a number is refused with std::invalid_argument; a refusal leaves everything untouched and the program still exits with 0. Hence '1,5' is 1 and '0,5' is 0, which silently produces no image at all; 'nan' and a negative size no larger than the height of the first print are accepted and lead to undefined behaviour.", "quantifier": "every text given as pixel size, every scene, file system and GDAL", "why_tests_cant": "The texts are unboundedly many and the rounding must be right for every one of them; tests try a handful of well-formed sizes.", "anchors": ["src/bin/orthoproject.cpp:60-88", "src/lib/projection/raster_projection.cpp:19-39"]}
{"id": "C101", "title": "Rasters on a common binary lattice are what exact arithmetic gives", "statement": "If the corners of the boxes of the print and of its facets and the pixel size are multiples (by less than 2^51) of one power of two, rasterising in double arithmetic cannot fail or misplace anything: the construction succeeds, the raster has the size, and every pixel the number of hits, that exact arithmetic gives, and the reference point is the sum of the footprint's reference point and the top left corner of the box. If moreover the facets are horizontal, at heights that are multiples of one power of two, and no pixel cuts a facet in several pieces, then every pixel hit at most twice holds exactly the mean of the heights seen in it plus the reference height, and every pixel that is not hit holds 0; a pixel hit n times holds, for horizontal facets at any heights that are doubles of size at most M (between 2^-1020 and 2^960), the mean plus the reference height with an error of at most (n+3) 2^-52 M. (Without a common power of two the construction may throw std::out_of_range, C59.)", "quantifier": "every footprint, pixel size, power of two and CGAL intersection routine whose pieces lie in the pixel; every pixel", "why_tests_cant": "The claim is about every combination of coordinates and pixel size; rounding errors of division, multiplication and floor/ceil show only on particular values, which tests on a few scenes miss.", "anchors": ["src/lib/projection/raster_projection.cpp:19-39", "src/lib/projection/face_projection.cpp:293-333", "src/lib/projection/face_projection.cpp:123-180", "src/lib/algorithms/util_algorithms.cpp:90-115"]}
{"id": "C102", "title": "What a node inserts into a stream", "statement": "Inserting a node into a stream writes the comment '# Name: ' with its name, the keyword OFF, the numbers of vertices and facets and 0, an empty line, the vertices in order with six significant digits, a line for each facet with its number of corners, two blanks and the numbers of its vertices in order, and an empty line. The project's own OFF reader refuses the text of every node (std::out_of_range, because of the empty lines). Without the empty lines the text of a node whose name has no newline reads back as a mesh with the same facets and the coordinates in six digits; and two nodes with the same text have the same name, facets over the same vertex numbers, and coordinates printed alike.", "quantifier": "every node (every name, every surface)", "why_tests_cant": "The tests compare the text of one node with a stored file; that no node's text can be read, and that no two distinguishable nodes share a text, is about all surfaces.", "anchors": ["src/lib/scene/unode.cpp:499-503", "src/tests/test_urban_object.cpp:18-46", "src/include/io/Off_stream/off_stream.h:98-126"]}
{"id": "C103", "title": "Running a program again", "statement": "Running cityformat a second time with the same command line, on the disk a first successful run left, ends successfully with the same text on standard output, and no file or directory changes. Running orthoproject a second time ends successfully too: it stores the same shapes and images once more, in the same order under the same names, and changes no other file. This holds provided the first run left the scene's own files alone, the nodes' names are safe in file names, an unchanged directory is listed in the same order and, for OBJ output, the output's directory exists. For OFF and OBJ scenes orthoproject leaves the scene alone unless the scene is itself called dual_graphs, vectors or rasters, and cityformat leaves it alone if the output and the graphs lie apart from it.", "quantifier": "every command line, every file system, every scene, every outcome of the reader, pruner, projector and GDAL for which the first run ends successfully", "why_tests_cant": "The tests never run the programs; that a run is idempotent is about every scene and every file the first run leaves, including directories that exist already and files that are overwritten.", "anchors": ["src/bin/cityformat.cpp:28-143", "src/bin/orthoproject.cpp:28-181", "src/lib/io/io_scene.cpp:45-151"]}
{"id": "C104", "title": "Conversions there and back", "statement": "Converting a directory of OFF files to OBJ with cityformat, and that OBJ file back to a directory of OFF files, ends successfully both times; each building and the terrain has a file of its own name again, no other file is in the new directory, and that file holds the polygons of the original in the same order, each with the same corners in the same cyclic order (perhaps begun at another corner), every coordinate as printed in six digits and read again; being printed a second time changes it no more. Likewise an OBJ file with a terrain object, converted to OFF and back to OBJ: the objects' names are the same and each object has its polygons again. This holds if CGAL takes the meshes as they are at both steps, the names are distinct, without blanks and safe in file names, and the outputs' paths are free.", "quantifier": "every scene, every mesh, every coordinate that is zero or at least 1e-317 in size, every file system, every pair of command lines in which the second reads what the first wrote", "why_tests_cant": "The tests never convert anything back; loss on the way back (a vertex index off by the points of earlier objects, a mesh merged with another, a coordinate that drifts each time it is printed) shows only for particular numbers of objects, names and digits.", "anchors": ["src/bin/cityformat.cpp:28-143", "src/lib/io/io_scene.cpp:45-151", "src/include/io/Obj_stream/obj_stream.h", "src/include/io/Off_stream/off_stream.h"]}
{"id": "C105", "title": "The images orthoproject stores", "statement": "A run of orthoproject that ends without error, with a pixel size and with saving asked for, has stored, besides the images already there, one image per print, at rasters/NAME.tiff next to the input, in the order of the prints, and with --scene one more for the sum of the prints at the input's stem with .tiff; and no other. For a print of horizontal facets on a binary lattice (boxes and pixel size multiples of one power of two) each image has as many columns and rows as pixels fit in the print's box, starts at the top left corner of that box seen from the reference point (the closest doubles), has the asked pixel size and no rotation, and each pixel holds 0 where no facet is seen and otherwise the mean of the heights of the facets seen plus the reference height, to within (n+3) 2^-52 M for n heights of size at most M.", "quantifier": "every command line and argument map, every scene, every file system, every number of prints, facets and pixels, every pixel", "why_tests_cant": "The tests compare one raster of one print built in memory; that the file of each print, for every scene, is in the right place, right way up, not shifted by the reference point and not lost among the others can only be shown over all runs.", "anchors": ["src/bin/orthoproject.cpp:136-181", "src/lib/algorithms/scene_algorithms.cpp:56-96", "src/lib/projection/raster_projection.cpp", "src/lib/io/io_raster.cpp:52-84"]}
{"id": "C106", "title": "The prints orthoproject makes come from the scene's files", "statement": "A run of orthoproject that ends without error, without pruning, on an OFF directory or an OBJ file whose polygons CGAL takes as they are, has made exactly one print for each mesh of the files (the terrain's last, if asked for), under the mesh's name; has stored each; and every facet of the print lies in the plane of a polygon of that mesh and, the polygon-set operations being correct, covers only ground which that polygon covers seen from above. For a block model, every facet and every height given to a pixel of its image is the height of one of the mesh's horizontal polygons, so that each pixel of the stored image is 0 or, up to rounding, a mean of such heights, which lies between the lowest and the highest of them.", "quantifier": "every file system, every directory or OBJ file, every number of meshes, points and polygons, every argument map without pruning, every pixel", "why_tests_cant": "The tests compare a few prints of hand-made nodes; that no print mixes the planes, outlines or names of different polygons or buildings, whatever the scene, from the file read to the image stored, must hold for all scenes.", "anchors": ["src/bin/orthoproject.cpp:136-181", "src/lib/projection/utilities.cpp:7-53", "src/lib/projection/brick_projection.cpp", "src/lib/projection/scene_projection.cpp", "src/lib/io/io_scene.cpp:45-110"]}
