{
 "C03": "The invariant holds for histories without copy assignment; C03_assign_refuted is the defect at mesh.cpp:126.",
 "C05": "Associativity needs non-empty left and middle operands; witness otherwise.",
 "C06": "The fold loses the box of the first non-empty mesh (mesh.cpp:126 through 256); witness given.",
 "C08": "Exact on faces without repeated indices; witness that == and != are both true on a face with a repeated index.",
 "C13": "States what the code does: one triangle per face, zero slots after.",
 "C16": "Laws bit-exact; p+(q-p)==q refuted.",
 "C18": "Stable for zero or |x| >= 1e-317; subnormal witness 202403*2^-1074 otherwise. Error bound 6e-6 relative.",
 "C19": "2^53 bound is sharp (witness).",
 "C21": "The file-stem name is set by the file handler: see C32.",
 "C24": "Includes the header-count wrap modulo 2^64, counted as undefined in the model.",
 "C50": "Shared-edge doubling is the witness C50_shared_edge_refuted.",
 "C54": "Two facets: proved as stated. Many facets: proved when the new facet stays in one piece and is not inside the union; otherwise two witnesses (C54_pieces_refuted, C54_sample_refuted). CGAL operations are a hypothesis (kernel_ok) met by the concrete kernel strips.",
 "C55": "Witness C55_coverage_refuted: an unrelated facet disappears.",
 "C56": "Equivalence for rings without repeated vertices; CGAL's ring comparison is not symmetric otherwise (witness).",
 "C76": "Defect: hole areas are added (C76_area_refuted).",
 "C59": "Exact arithmetic, any kernel whose intersections have vertices. C59_double_refuted: with doubles a facet inside the box gets a column too many and rasterisation throws out_of_range. Empty footprints are undefined.",
 "C60": "The read of the hit counter and its increment are unsequenced in the code; the model reads first.",
 "C65": "The EPSG code read back is that of the geographic system (C65_epsg_refuted).",
 "C67": "Witness C67_rounding_refuted: exact coordinates that are not doubles are rounded on export.",
 "C68": "Witness C68_elevation_refuted: with a non-zero reference elevation the plane read back is wrong.",
 "C70": "C70_extreme: exact maximum when the squared distances are doubles; C70_rounded: maximum up to 2^-47 for every list on a line whose squared distances are zero or in the normal range; C70_rounding_refuted and C70_plane_refuted show neither restriction can be dropped.",
 "C72": "Exact arithmetic; in doubles the mean may leave the box (C72_rounding_refuted).",
 "C73": "docopt's result is an argument of the model. Messages: C99.",
 "C74": "C74_path: the paths the program makes of its texts. docopt's result and std::stod are arguments of the model; GDAL writes are recorded when they succeed, incomplete files are not. Attribute and dual-graph texts are proved for building names that are distinct and usable as file names.",
 "C75": "Same model; 3DS output always throws (C75_3ds).",
 "C77": "For faces without repeated or missing indices; NaN coordinates break reflexivity (C77_nan_refuted).",
 "C78": "GDAL itself is an argument; an empty driver table makes GDALOpen return null.",
 "C79": "build (CGAL surface construction) and to_mesh are arguments.",
 "C80": "lib3ds, TinyXML and CGAL surface construction are arguments; tree_* functions are characterised by C39.",
 "C81": "The C++ library's num_get and strtod (\"C\" locale) are modelled by Decimal.v; these theorems characterise the model by an independent grammar and by nearest-double minimality.",
 "C82": "The C++ library's num_put (printf %g, precision 6) is modelled by Decimal.v; the sign of a NaN is not modelled.",
 "C85": "CGAL's orient_polygon_soup / polygon_soup_to_polygon_mesh / is_outward_oriented / reverse_face_orientations are fields of a record; the theorems name the contract they use.",
 "C86": "The square root is an argument of the exact sums; C86_rounded is about doubles.",
 "C87": "CGAL's coplanar test is the exact determinant.",
 "C88": "CGAL's to_double is taken as the nearest double; Boolean set operations are the kernel argument.",
 "C83": "What is left in moved-from strings, arrays, vectors, polygons and surfaces is an arbitrary argument (a reference point left in a moved-from object is arbitrary; point objects themselves are modelled as the arrays they hold); Mesh, whose assignment drops the box, is in C03.",
 "C84": "lib3ds_file_free dereferences its argument; constructors that throw make no object.",
 "C89": "CGAL's texts of polygons, planes and boxes are arguments (assumed to be one line).",
 "C90": "CGAL's polygon soup, hole filling and Nef operations are records; the theorem names the laws it uses.",
 "C92": "Meshes taken as they are: CGAL's orientation leaves the soup alone and builds it face by face (hypothesis taken_as_is); others follow C85, C90.",
 "C93": "CGAL's face normal is the fan sum of cross products, its to_double the nearest double; its point and vector texts are three doubles separated by spaces. The ids are those stored: prune numbers the facets.",
 "C94": "approximate_sqrt is the square root of the nearest double.",
 "C95": "docopt.cpp (external, master branch) is modelled function by function on the literal usage texts; no short option but -h exists. std::stod is a parameter.",
 "C96": "docopt.cpp (external, master branch) is modelled function by function on the literal usage texts.",
 "C97": "The order of evaluation of the product's factors is not specified in C++; the model takes them from left to right, so a non-finite point is undefined before a vertical plane throws.",
 "C100": "glibc's strtod in the \"C\" locale is modelled; the programs never call setlocale.",
 "C101": "Double arithmetic (binary64) throughout, with the exact kernel's intersections abstract. The hypotheses exclude pixel sizes such as 0.3, for which C59_double_refuted shows the conclusion false. Means of three or more heights are not doubles in general: C101_means bounds the error of the running mean.",
 "C102": "The layout of CGAL's OFF writer is taken from the files the project's tests compare with (ressources/tests/staff*.off); to_double is an argument.",
 "C103": "The project's file system, GDAL, CGAL and listing order are as in C74/C75; that GDAL overwrites an existing shape or image of the same name is outside the model (both programs' shapes and images are recorded as the sequence of stores).",
 "C104": "Composes C91/C92 (what one conversion writes) with C21 and C26-C28 (what the readers return) and with the idempotence of printing in six digits. What CGAL does to a mesh is the parameter `soup_tools`; `taken_as_is` says it keeps the mesh, for the meshes read at each step; the examples show tools and scenes for which every hypothesis holds. From an OBJ file, the theorem asks for an object called terrain and a complete directory listing.",
 "C105": "Composes C74 (which images a run stores and where), C78 (what the image of a raster is) and C101 (what the raster of a print on a lattice is). `plain_print` is the condition on a print, `shows` what its image must be. CGAL's polygon sets are the kernel parameter K with cuts that have vertices and lie inside (met by the concrete kernel `rects`); GDAL is the model of C78. For prints off the lattice the theorem still gives the number, place and order of the images.",
 "C106": "Composes C34/C91 (the scene read from the files), C85 (the surface built from a mesh has its polygons), C51 (the print of a surface), C52/C58 (occlusion only cuts) and C74/C105 (what a run stores). The clause on the ground covered is conditional on `kernel_ok`, the specification of CGAL's polygon sets of C52; those on names, planes and heights are not. `taken_as_is` is the condition of C92 on the polygon-soup functions. OFF directories and OBJ files only; the image clause is for prints on a lattice (`plain_print`, C105). That every visible polygon has a facet (coverage) is C53."
}