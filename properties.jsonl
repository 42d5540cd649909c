{"id": "C01", "title": "Triangulation succeeds on every valid polygon set", "statement": "If every polygon has at least 3 vertices, there is at least one polygon, all vertices are distinct and no two edges meet except at the end point they share, then PolygonList::triangulate with a builder that does not fail returns Ok: no InternalError, no panic, no endless loop.", "quantifier": "every valid polygon list with exact coordinates, every random segment insertion order, every vertex relocation schedule", "why_tests_cant": "the insertion order is random and the space of polygon sets is unbounded; a test sees one order of one shape", "anchors": ["src/trapezoidation.rs: build, add_polygon, add_vertex, add_segment, triangulate_inner", "src/nexus.rs", "src/monotone.rs: build_fans"]}
{"id": "C02", "title": "Output area equals polygon area", "statement": "On a valid single polygon the areas of the returned triangles add up exactly to the polygon's (shoelace) area; on a valid polygon list they add up to the area of the even-odd interior.", "quantifier": "every valid polygon list, every insertion order", "why_tests_cant": "area identity has to hold for all shapes and all random orders", "anchors": ["src/trapezoidation.rs: triangulate_inner", "src/monotone.rs: build_fans"]}
{"id": "C03", "title": "Triangles tile the interior", "statement": "On a valid polygon list, a point that is on no polygon edge is inside by the even-odd rule exactly if it is in a returned closed triangle of positive area; if it is in such a triangle and on none of its edges it is in no other (no overlap, no gap, nothing outside, holes stay empty). A point on no polygon edge and no triangle edge is in exactly one returned triangle if it is inside, and in none otherwise.", "quantifier": "every valid polygon list, every insertion order, every point of the plane", "why_tests_cant": "needs all points of the plane and all random orders", "anchors": ["src/trapezoidation.rs: triangulate_inner", "src/monotone.rs: build_fans"]}
{"id": "C04", "title": "Triangles are counterclockwise by default", "statement": "On a valid polygon list every triangle handed to a builder with the default WINDING (Counterclockwise) has non-negative signed area, whatever the winding of the input polygons.", "quantifier": "every valid polygon list, every insertion order", "why_tests_cant": "four code paths (left/right chain, advancing/backtracking) times unbounded fan lengths", "anchors": ["src/monotone.rs: build_fans", "src/outputs/triangle_winding.rs: TriangleWinding"]}
{"id": "C05", "title": "Clockwise builders receive the same triangles, clockwise", "statement": "If the builder's WINDING is Clockwise (for example through FanFormat::reverse_winding) every triangle delivered is clockwise and the triangles still tile the polygon.", "quantifier": "every valid polygon list, every insertion order", "why_tests_cant": "the winding depends on the shape of every fan", "anchors": ["src/monotone.rs: build_fans", "src/outputs/formats/reverse_fan.rs: ReverseFanFormat"]}
{"id": "C06", "title": "Triangle count", "statement": "Triangulating a valid simple polygon with n vertices yields exactly n - 2 triangles; for a polygon list the number is fixed by the input and does not depend on the random order.", "quantifier": "every valid polygon list, every insertion order", "why_tests_cant": "holds per shape and per random order", "anchors": ["src/trapezoidation.rs: triangulate_inner", "src/monotone.rs: MonotoneBuilder::build, build_fans"]}
{"id": "C07", "title": "Output indices are input indices", "statement": "Every index delivered to a builder is one of the indices yielded by PolygonList::iter_indices.", "quantifier": "every input whatever its coordinates (crossing edges, duplicates, NaN), every insertion order", "why_tests_cant": "must hold for malformed inputs as well", "anchors": ["src/trapezoidation.rs: add_vertex, triangulate_inner", "src/monotone.rs"]}
{"id": "C08", "title": "Memory safety of unchecked indexing", "statement": "No call of trapezoidize/triangulate ever reads a vector out of bounds through the unchecked index operator.", "quantifier": "every input whatever its coordinates (including NaN and inconsistent comparisons), every insertion order, every prefix of the execution", "why_tests_cant": "out of bounds reads through get_unchecked are undefined behaviour and need not show up in a test", "anchors": ["src/idx.rs: Index<Idx<T>> for Vec<T>", "src/trapezoidation.rs: find_trapezoid_from_root"]}
{"id": "C09", "title": "Triangulation always terminates", "statement": "trapezoidize and triangulate return (with Ok or Err) on every input, valid or not.", "quantifier": "every input whatever its coordinates, every insertion order", "why_tests_cant": "a hang needs a particular order and shape", "anchors": ["src/trapezoidation.rs: find_trapezoid_from_root, add_segment, add_polygon, triangulate_inner", "src/monotone.rs: build_fans"]}
{"id": "C10", "title": "List output layout", "statement": "With IndexedListFormat the caller's list after success is its previous content followed by the three indices of each triangle, in delivery order, for the flat, array and tuple representations alike.", "quantifier": "every sequence of triangles, every initial content", "why_tests_cant": "arbitrary length sequences and initial contents", "anchors": ["src/outputs/list.rs", "src/outputs/formats/generic_list.rs", "src/outputs/formats/indexed_list.rs", "src/outputs/formats/fan_to_list.rs"]}
{"id": "C11", "title": "Fan output layout", "statement": "With IndexedFanFormat the caller's collection after success is its previous content followed by one entry per fan, each with at least three indices, in delivery order.", "quantifier": "every sequence of fans, every initial content", "why_tests_cant": "arbitrary length sequences and initial contents", "anchors": ["src/outputs/fan.rs", "src/outputs/formats/generic_fans.rs", "src/outputs/formats/indexed_fan.rs"]}
{"id": "C12", "title": "Fans and lists describe the same triangles", "statement": "For the same trapezoidation, the triangles of the list output are exactly the triangles obtained by expanding each fan of the fan output around its first vertex, in the same order and with the same winding.", "quantifier": "every trapezoidation, every fan sequence", "why_tests_cant": "unbounded number and length of fans", "anchors": ["src/outputs/formats/fan_to_list.rs: FanToListBuilder"]}
{"id": "C13", "title": "Deindexed output is the indexed output looked up", "statement": "DeindexedListFormat / DeindexedFanFormat return exactly the indexed output with every index replaced by PolygonList::get_vertex of it.", "quantifier": "every trapezoidation and polygon list", "why_tests_cant": "relation between two runs over all inputs", "anchors": ["src/outputs/formats/deindexed_list.rs", "src/outputs/formats/deindexed_fan.rs"]}
{"id": "C14", "title": "Delimited output can be decoded", "statement": "With DelimitedFanFormat on an initially empty collection, splitting the result at the delimiter gives back exactly the fans; the run fails with IndexMatchesDelimiter if and only if some delivered index equals the delimiter.", "quantifier": "every sequence of fans, every delimiter", "why_tests_cant": "decodability is a for-all statement over sequences", "anchors": ["src/outputs/formats/delimited_fan.rs: DelimitedFanBuilder"]}
{"id": "C15", "title": "Failure leaves fan collections unchanged", "statement": "If triangulation returns an error, a collection passed by mutable reference to IndexedFanFormat or DeindexedFanFormat has exactly the content it had before.", "quantifier": "every input, every failure point, every initial content", "why_tests_cant": "the failure can happen after any number of fans", "anchors": ["src/outputs/formats/generic_fans.rs: fail", "src/fan_builder_state.rs: complete"]}
{"id": "C16", "title": "Failure leaves list collections unchanged", "statement": "If triangulation returns an error, a list passed by mutable reference to IndexedListFormat or DeindexedListFormat has exactly the content it had before.", "quantifier": "every input, every failure point, every initial content and length", "why_tests_cant": "the failure can happen after any number of triangles, and initial length matters", "anchors": ["src/outputs/formats/generic_list.rs: fail", "src/outputs/list.rs: List for Vec<V>"]}
{"id": "C17", "title": "Failure leaves delimited collections unchanged", "statement": "If triangulation returns an error, a collection passed by mutable reference to DelimitedFanFormat has exactly the content it had before.", "quantifier": "every input, every failure point, every initial content", "why_tests_cant": "the failure can happen at the very first index or after any number of fans", "anchors": ["src/outputs/formats/delimited_fan.rs: DelimitedFanBuilder::new, fail", "src/fan_builder_state.rs: new_fan, complete"]}
{"id": "C18", "title": "Builder call protocol", "statement": "A FanFormat is initialized at most once and before any other builder call; after success build is called exactly once as the last call; an initialized builder that saw an error receives exactly one fail call and nothing else; no builder method is called after one that returned an error except fail.", "quantifier": "every input, every builder, every point at which the builder fails", "why_tests_cant": "quantifies over all builders and failure points", "anchors": ["src/fan_builder_state.rs", "src/monotone.rs: build_fans", "src/trapezoidation.rs: triangulate"]}
{"id": "C19", "title": "Builder errors are propagated", "statement": "If a builder call returns error e then triangulate returns FanBuilder(e); if triangulate returns FanBuilder(e) then e was returned by a builder call.", "quantifier": "every input, every builder, every failure point", "why_tests_cant": "quantifies over all builders and failure points", "anchors": ["src/fan_builder_state.rs", "src/errors.rs: TriangulationError"]}
{"id": "C20", "title": "A failing builder sees a prefix of the successful run", "statement": "The sequence of builder calls made before a failure does not depend on the builder (other than its winding): it is a prefix of the sequence the infallible builder of the same winding would receive from the same trapezoidation.", "quantifier": "every trapezoidation, every two builders of equal winding", "why_tests_cant": "relation between two runs with arbitrary builders", "anchors": ["src/monotone.rs: build_fans", "src/trapezoidation.rs: triangulate_inner"]}
{"id": "C21", "title": "Empty input reports NoVertices", "statement": "A polygon list that yields no index at all (any number of NewPolygon markers) makes triangulate return NoVertices and leaves the caller's storage untouched.", "quantifier": "every number of markers, every builder", "why_tests_cant": "any marker sequence", "anchors": ["src/trapezoidation.rs: build", "src/fan_builder_state.rs: complete"]}
{"id": "C22", "title": "Too small polygons report NotEnoughVertices", "statement": "trapezoidize returns NotEnoughVertices(n) exactly when, before any internal error, a maximal group of indices of size n in {1,2} is reached; no other group size gives this error.", "quantifier": "every input", "why_tests_cant": "position and size of the group are arbitrary", "anchors": ["src/trapezoidation.rs: build"]}
{"id": "C23", "title": "NewPolygon markers are idempotent", "statement": "Repeating NewPolygon markers, or adding them at the beginning or the end of the iteration, does not change the result.", "quantifier": "every input, every placement of extra markers", "why_tests_cant": "unbounded placements", "anchors": ["src/trapezoidation.rs: build", "src/inputs/polygon_list.rs: PolygonElement"]}
{"id": "C24", "title": "Nested vectors are enumerated completely", "statement": "Iterating a Vec<Vec<V>>-like polygon list yields, for each polygon i in order, the indices [i,0],[i,1],.. of all its vertices followed by NewPolygon, then ends; vertex_count is the number of indices yielded; get_vertex on every yielded index succeeds; read as polygons, with the vertices found there, the indices give back exactly the inner vectors that are not empty.", "quantifier": "every nested vector", "why_tests_cant": "arbitrary sizes including empty inner vectors", "anchors": ["src/inputs/polygon_list.rs: VecVecIter, PolygonList for D"]}
{"id": "C25", "title": "index_with only renames indices", "statement": "If both conversions succeed and are mutually inverse on the used indices then triangulating p.index_with() succeeds or fails exactly as p and yields the same output with each index converted.", "quantifier": "every input, every conversion pair", "why_tests_cant": "relation between two runs", "anchors": ["src/inputs/polygon_list.rs: IndexWith, IndexWithIter", "src/mappable.rs"]}
{"id": "C26", "title": "A trapezoidation can be reused", "statement": "Trapezoidation::triangulate does not change the trapezoidation: calling it again with the same format gives the same result, and with another format of equal winding the same triangles.", "quantifier": "every trapezoidation, every pair of formats", "why_tests_cant": "relation between runs", "anchors": ["src/trapezoidation.rs: Trapezoidation::triangulate"]}
{"id": "C27", "title": "The vertex order is a strict total order", "statement": "For exact coordinates the comparison of vertices (y first, then x) is a strict total order on distinct points.", "quantifier": "all points", "why_tests_cant": "infinitely many points", "anchors": ["src/inputs/vertex.rs: Coords PartialOrd"]}
{"id": "C28", "title": "The left-of-line test is the exact orientation test", "statement": "For exact coordinates, an edge (min,max) and a vertex strictly between them in vertex order or an edge sharing an end point, the side test says left exactly when the orientation determinant is positive, also for horizontal edges.", "quantifier": "all triples of points", "why_tests_cant": "infinitely many points, horizontal special cases", "anchors": ["src/math.rs: is_left_of_line"]}
{"id": "C29", "title": "Point location finds the containing trapezoid", "statement": "At every moment of the construction on a valid input, the search structure maps each not yet inserted vertex to the one trapezoid that contains it, also when started from its remembered node.", "quantifier": "every valid input, insertion order, relocation schedule, every moment", "why_tests_cant": "depends on all random choices", "anchors": ["src/trapezoidation.rs: find_trapezoid_from_root, add_polygon"]}
{"id": "C30", "title": "Size of the trapezoidation", "statement": "After successful trapezoidize of any input with n vertices in total there are exactly n nexuses, n segments and 2n + 1 trapezoids (linear memory).", "quantifier": "every input, every insertion order", "why_tests_cant": "all inputs", "anchors": ["src/trapezoidation.rs: add_vertex, add_segment"]}
{"id": "C31", "title": "Debug consistency checks never fire", "statement": "On valid input the debug-build consistency checks after each vertex and segment insertion never panic.", "quantifier": "every valid input, insertion order", "why_tests_cant": "all random orders", "anchors": ["src/trapezoidation.rs: check_consistency"]}
{"id": "C32", "title": "Independence from the random order", "statement": "For a valid polygon list the total area, the covered region and the number of triangles are the same for every random insertion order.", "quantifier": "every pair of insertion orders", "why_tests_cant": "relation over all permutations", "anchors": ["src/trapezoidation.rs: add_polygon (shuffle)"]}
{"id": "C33", "title": "Invariance under reversing and rotating the vertex lists and reordering the polygons", "statement": "For a valid polygon list, reversing polygons, starting from another vertex or listing the polygons in another order gives a valid list whose triangulation succeeds, covers the same region, has the same total area and number of triangles, and is still counterclockwise.", "quantifier": "every valid polygon list, every rotation, reversal and reordering, every pair of insertion orders", "why_tests_cant": "all rotations of all polygons", "anchors": ["src/trapezoidation.rs: build", "src/monotone.rs"]}
{"id": "C34", "title": "Single polygon equals one-element list", "statement": "Triangulating a Polygon directly gives the same result as triangulating the one-element list of it, with index j in place of [0,j].", "quantifier": "every polygon", "why_tests_cant": "relation between two runs", "anchors": ["src/inputs/polygon_list.rs: SinglePolygon, VecVecIter"]}
{"id": "C35", "title": "Only comparisons and side tests matter", "statement": "If the coordinate type's comparisons and side tests agree with exact arithmetic on the input vertices (as for small-integer valued floats) then the run behaves exactly like the exact run.", "quantifier": "every input, every coordinate type", "why_tests_cant": "relation between two arithmetics", "anchors": ["src/math.rs", "src/inputs/vertex.rs", "src/trapezoidation.rs"]}
{"id": "C36", "title": "Translation and scaling invariance", "statement": "Translating all vertices or scaling both axes by a positive factor (exact coordinates) does not change the returned indices.", "quantifier": "every input, translation and positive factor", "why_tests_cant": "relation between runs", "anchors": ["src/math.rs: is_left_of_line", "src/inputs/vertex.rs: Coords PartialOrd"]}
{"id": "C37", "title": "Each fan is locally triangulated with n - 2 triangles", "statement": "A monotone piece with n vertices whose vertices all lie on one side of its base edge is cut into exactly n - 2 triangles using only its own vertices, of total area equal to the piece's area, and the cutting stops.", "quantifier": "every monotone piece", "why_tests_cant": "all lengths and shapes", "anchors": ["src/monotone.rs: Monotone::build_fans"]}
{"id": "C38", "title": "The triangles form a conforming mesh with the polygons as outline", "statement": "On a valid polygon list, every directed side of a triangle that is not a polygon edge is used equally often in both directions, and every polygon edge is used exactly once more in the direction that has the interior on its left; in particular every polygon edge is a side of some triangle and no polygon edge is subdivided or lost. No directed side belongs to two triangles of positive area.", "quantifier": "every valid polygon list, every insertion order, every pair of vertices", "why_tests_cant": "relation over all triangles of all triangulations; a missing or doubled side in one configuration is easily not sampled", "anchors": ["src/trapezoidation.rs: triangulate_inner", "src/monotone.rs: build_fans"]}
{"id": "C39", "title": "The result is a function of the polygons alone", "statement": "On a valid polygon list the whole outcome - every call to the builder, in order, and hence the returned value - is the same for all random insertion orders of the segments and vertices, with and without debug assertions, and for every other description of the same polygons (order of the polygons, first vertex, direction); with other vertex indices the calls correspond one to one at the same positions.", "quantifier": "every valid polygon list, every pair of insertion orders, every other description, every fan format", "why_tests_cant": "the random order is internal state of the program that no test can enumerate; a dependence on it shows up only for some polygons and seeds", "anchors": ["src/trapezoidation.rs: TrapezoidationState::build", "src/trapezoidation.rs: triangulate_inner"]}
{"id": "C40", "title": "Floating point runs are exact on a bounded grid", "statement": "With f64 vertices all of whose coordinates are integer multiples n*2^g of one power of two with |n| <= 47453132 and -537 <= g <= 485 (f32: |n| <= 2047, -74 <= g <= 52), triangulate behaves exactly as on the exact positions: same outcome, same builder state, with every format and on every input, valid or not. In particular valid polygon lists of such vertices are triangulated: Ok, no clockwise triangle, the triangles tile the even-odd interior and have its area.", "quantifier": "every list of such vertices, every format, insertion order and step budget", "why_tests_cant": "rounding in the two products and four differences of the side test goes wrong only for particular bit patterns; sampling floats says nothing about all of them", "anchors": ["src/math.rs: is_left_of_line", "src/inputs/vertex.rs: Vertex"]}
{"id": "C41", "title": "Floating point runs on arbitrary valid polygons", "statement": "With arbitrary finite f64 coordinates, a polygon list that is valid in its exact positions is triangulated as in exact arithmetic: the run ends, returns Ok, with no clockwise triangle, and the outcome does not depend on the random insertion order.", "quantifier": "every valid polygon list of f64 vertices, every insertion order", "why_tests_cant": "the failures need nearly collinear points with particular rounding errors, which random or hand-made inputs rarely contain", "anchors": ["src/math.rs: is_left_of_line", "src/monotone.rs: build_fans"]}
{"id": "C42", "title": "Building the trapezoidation always ends", "statement": "trapezoidize returns (Ok, Err or a panic) on every input, valid or not: none of its loops (point location, descent along a new segment, walks of the relocation, relocation of the pending vertices, debug checks) makes more than (n+4)^2 iterations on n vertices.", "quantifier": "every list of polygons, every coordinate type (also rounding arithmetic and NaN), every insertion order and relocation schedule, both build profiles", "why_tests_cant": "the inputs that could make a point location or a walk go round in circles are degenerate in unforeseen ways; a test only shows that some inputs end", "anchors": ["src/trapezoidation.rs: find_trapezoid_from_root, add_vertex, add_segment, add_polygon", "src/nexus.rs: replace_trapezoid, add_segment, get_trapezoid"]}
{"id": "C43", "title": "Only the cutting of a piece can run forever", "statement": "With every builder, triangulate either ends, with an outcome that does not depend on the step budget, or runs forever; if it runs forever, then it is in build_fans: there is a chain of input vertices from which ears can be cut until at least three vertices are left and no three consecutive ones form an ear.", "quantifier": "every list of polygons, every coordinate type, every insertion order, every builder (failing or not, of either winding), both build profiles", "why_tests_cant": "non-termination cannot be observed by a test, let alone its only cause", "anchors": ["src/trapezoidation.rs: top_trapezoid, triangulate_inner", "src/monotone.rs: build_fans, can_triangulate, reset_position", "src/fan_builder_state.rs"]}
{"id": "C44", "title": "Crossing polygons are not accepted", "statement": "A polygon list with different vertices two of whose edges cross is never answered with Ok: what is accepted is valid, so no triangulation of crossing polygons is returned.", "quantifier": "every list of polygons with different vertices, every insertion order and relocation schedule, both build profiles", "why_tests_cant": "whether a crossing is noticed depends on the random insertion order and on the moment of the relocation, so tests with crossing input pass or fail at random and show nothing about the other orders", "anchors": ["src/lib.rs:51-56 (an invalid polygon set will likely yield InternalError)", "src/trapezoidation.rs:472-558 add_segment", "src/trapezoidation.rs:560-636 check_consistency", "src/trapezoidation.rs:365-434 relocation of pending vertices"]}
{"id": "C45", "title": "The documented preconditions suffice", "statement": "Polygons of at least three vertices each, all vertices different, no two edges crossing (the ends of each strictly on different sides of the other), are triangulated: triangulate returns Ok with every builder that does not fail.", "quantifier": "every such list of polygons, every insertion order, both build profiles", "why_tests_cant": "the failing inputs have a vertex exactly on another edge, which random coordinates never produce, and fail only for some insertion orders", "anchors": ["README.md:40-45", "src/lib.rs:51-56", "src/math.rs:5-13 is_left_of_line", "src/trapezoidation.rs:472-558 add_segment"]}
{"id": "C46", "title": "The triangles fill the closed region", "statement": "On a valid polygon list the union of the returned closed triangles of positive area is exactly the closed region: every point inside by the even-odd rule and every point of a polygon edge, including the vertices and the outlines of holes, and no other point.", "quantifier": "every valid polygon list, every point of the plane, every insertion order, both build profiles", "why_tests_cant": "points exactly on edges and at vertices are a null set that sampled points miss, and collinear vertices give zero-area triangles along an edge that seem to cover it", "anchors": ["src/trapezoidation.rs:683-882 triangulate_inner", "src/monotone.rs:87-176 build_fans"]}
{"id": "C47", "title": "Floating point runs are exact away from near-collinear triples", "statement": "With finite f64 vertices (|coordinate| <= 2^509, different abscissas and different ordinates at least 2^-510 apart) such that for any three vertices, the third at neither of the heights of the other two, the two products of the side test differ by more than 4*2^-53 times the sum of their absolute values (or both vanish), triangulate behaves exactly as on the exact positions: same outcome, with every format and on every input; it is also enough, for such a triple, that the four differences in the test are floats and the two products are equal (the three vertices are exactly on a line) or differ by more than 2^-53 times that sum; f32 likewise with 2^61, 2^-62 and 2^-24. In particular valid polygon lists of such vertices are triangulated: Ok, no clockwise triangle, the triangles tile the even-odd interior and have its area. When the coordinates are multiples n*2^g with |n| < 2^52 (f32: 2^23), the second condition is enough for all triples.", "quantifier": "every list of such vertices, no grid assumed except in the last sentence, every format, insertion order and step budget", "why_tests_cant": "a test on sampled floats almost never comes within a few rounding errors of a collinear triple, so it cannot tell where the boundary between exact and wrong runs lies (C41 gives failures just beyond it)", "anchors": ["src/math.rs: is_left_of_line", "src/inputs/vertex.rs: Vertex"]}
{"id": "C48", "title": "Quadratically many iterations", "statement": "On a valid polygon list with n vertices triangulate returns, with every builder (also a failing one), without any of its loops making more than 4(n+2)^2 iterations, and the outcome does not depend on a larger budget; the traversal of the trapezoids makes at most one iteration per trapezoid. For arbitrary coordinates, cutting a piece of L vertices into fans makes at most L^2 iterations or never ends.", "quantifier": "every valid polygon list (any number and size of polygons), builder, insertion order, debug or release; every piece and coordinate type for the second part", "why_tests_cant": "a test observes a running time on one input; it cannot exclude an input on which the restarting ear cutting loop or the traversal makes more than quadratically many rounds", "anchors": ["src/monotone.rs: Monotone::build_fans", "src/trapezoidation.rs: triangulate_inner", "src/trapezoidation.rs: top_trapezoid"]}
{"id": "C49", "title": "Documented running time", "statement": "The expected running time for a polygon with n vertices is O(n log* n): there is a factor c such that, for all large n, on a valid polygon with n vertices no loop makes more than c n log* n iterations, at least for some (hence on average over the) insertion orders.", "quantifier": "every factor, every number of vertices, every valid polygon, every insertion order", "why_tests_cant": "benchmarks on typical polygons are linear; a bound for all polygons cannot be measured, and a polygon violating it needs vertices that widen geometrically towards the middle", "anchors": ["README.md:50-52", "src/lib.rs:61-63", "src/monotone.rs:87-176 build_fans (the scan restarts at the other end of the chain for every fan)"]}
{"id": "C50", "title": "Sizes of the arrays and the number of query nodes", "statement": "On a valid polygon list with n vertices the construction ends, for every insertion order, with n nexuses, n segments and 2n+1 trapezoids, exactly the capacities the code reserves, and with at most (3n^2+9n+2)/2 query nodes, the number the code's TODO leaves open. For one valid polygon the number of query nodes averaged over all n! insertion orders is at most 10n+1. The reserved capacity of 4n query nodes is not an upper bound.", "quantifier": "every valid polygon list and insertion order; for the average every valid polygon and the complete list of orders", "why_tests_cant": "the average is over n! orders of arbitrarily large n, and no sample bounds the worst order", "anchors": ["src/trapezoidation.rs:186-214 (new, capacities)", "src/trapezoidation.rs:442-470 (add_vertex)", "src/trapezoidation.rs:472-558 (add_segment)", "src/trapezoidation.rs:290-439 (add_polygon, shuffle at 353-355)", "src/querynode.rs:90-115"]}
{"id": "C51", "title": "Expected logarithmic searches", "statement": "For a valid polygon with n vertices and a point off all its edges, the search from the root of the finished structure visits, averaged over all n! insertion orders, at most 13 + 12 log2 n nodes.", "quantifier": "every valid polygon, every such point, the complete list of insertion orders, both build profiles, every relocation schedule", "why_tests_cant": "it is an average over n! orders for every polygon and every point; sampled orders only estimate it for one polygon", "anchors": ["src/trapezoidation.rs:25-53 (find_trapezoid)", "src/trapezoidation.rs:290-439 (add_polygon, shuffle at 353-355)", "src/querynode.rs:90-115"]}
{"id": "C52", "title": "Expected running time of the trapezoidation", "statement": "For a valid polygon with n vertices the number of loop iterations made by the trapezoidation (elements read, segments added, query nodes visited, trapezoids split by segments, vertices and trapezoids met by re-locations), averaged over all n! insertion orders, is at most 125 n (log* n + 1), when re-locations happen after math_n(n, h) segments with math_n computed exactly, or in floating point with errors small compared to 1/n (in f64: up to 2^40 vertices and a log2 accurate to 2^-46).", "quantifier": "every valid polygon of any size, the complete list of insertion orders, both build profiles, every pacing within rounding to integers of n / log2^(h) n, every logarithm and division within the error bounds", "why_tests_cant": "an average over n! orders for every polygon; log* n is at most 5 for any polygon that fits in memory, so timings cannot tell the growth apart", "anchors": ["README.md:50-52", "src/lib.rs:61-63", "src/math.rs:15-21 (math_n)", "src/trapezoidation.rs:290-439 (add_polygon: shuffle, update schedule, relocation)", "src/trapezoidation.rs:25-53 (find_trapezoid)", "src/trapezoidation.rs:442-558 (add_vertex, add_segment)"]}
{"id": "C53", "title": "Running time of each further polygon or hole", "statement": "Adding a polygon or hole with n vertices to the trapezoidation takes expected O(n log* n) iterations, as documented for each polygon or hole, whatever polygons were added before it. (Refuted: for every bound there is a convex polygon and a triangular hole inside it that adds more iterations than the bound in every insertion order; and lists of polygons with N vertices in total that take at least N^2/32 iterations in every insertion order.)", "quantifier": "every valid list of polygons, every insertion order, both build profiles, every relocation schedule", "why_tests_cant": "a bound for all lists of polygons; a test times a few lists, and the growth appears only for families of lists where earlier polygons have many vertices", "anchors": ["README.md:52", "src/lib.rs:63", "src/trapezoidation.rs:290-439 (add_polygon)", "src/trapezoidation.rs:475-558 (add_segment: one iteration for each trapezoid crossed)"]}
{"id": "C54", "title": "Panics", "statement": "Without debug assertions no run panics, whatever the input (valid or not, any coordinates including NaN), the insertion order, the relocation schedule and the builder: every checked index is in range, the stack positions of the monotone pieces and the counter of pending vertices never underflow. So `trapezoidize` always returns Ok or Err, and `triangulate` returns a Result or goes on forever. Debug assertions change nothing but to panic, and only inside the trapezoidation.", "quantifier": "every iteration of elements, every index and coordinate type, every insertion order, every relocation schedule, every fan format; for the comparison both build profiles", "why_tests_cant": "the absence of an out-of-range index on invalid input is a statement about all inputs; fuzzing covers few of the degenerate positions, and most need a particular insertion order", "anchors": ["src/trapezoidation.rs:290-439 (add_polygon, counter at 363)", "src/trapezoidation.rs:442-558 (add_vertex, add_segment)", "src/trapezoidation.rs:560-635 (check_consistency)", "src/trapezoidation.rs:683-879 (triangulate_inner)", "src/monotone.rs:87-235 (build_fans and the two stacks)", "src/nexus.rs:136-289", "src/idx.rs:162-191", "src/fan_builder_state.rs:41-66 (debug_assert at 56)"]}
{"id": "C55", "title": "On valid input only the vertex order and the side tests matter", "statement": "Two valid polygon lists in the same index scheme whose vertices are ordered alike and whose side tests agree give the same result (and the same caller storage), although MonotoneBuilder also compares coordinates for equality to drop flat pieces. In particular shearing a valid list along the x axis, moving it and scaling the axes by positive factors changes nothing. On lists with a vertex touching an edge this is false.", "quantifier": "every two valid polygon lists, insertion order, relocation schedule, fan format, fuel; every shear, translation and pair of positive factors", "why_tests_cant": "relation between two runs on unboundedly many inputs", "anchors": ["src/monotone.rs:23-45 (add_vertex, build)", "src/math.rs:5-13", "src/inputs/vertex.rs (Coords PartialOrd)", "src/trapezoidation.rs:683-879 (triangulate_inner)"]}
{"id": "C56", "title": "The library's positive tests do not depend on the random order", "statement": "On the sample polygons of the test suite and the README (square, star, half frame and hollow square in f32, the france regression polygon in f64; IEEE arithmetic with rounding) every call succeeds with one and the same output, whatever the random insertion orders and the build profile; the assertions of the format tests (six triangles, different output with reversed winding, a delimiter in the output, error propagation with fail called) hold.", "quantifier": "every insertion order, build profile and sufficient step budget; for the single polygons also every relocation schedule; every delimiter that is no index; every error kind", "why_tests_cant": "each test run samples one of the 24 to 40320 insertion orders", "anchors": ["src/tests/triangulate.rs", "src/tests/regression.rs", "src/tests/format.rs", "src/tests/util/polygon.rs", "README.md:14-30"]}
{"id": "C57", "title": "The library's negative tests pass whatever the random order", "statement": "The polygons of src/tests/negative.rs are refused with an error or a panic in every insertion order: two vertices, overlapping polygons, and two triangles sharing a vertex.", "quantifier": "every insertion order, build profile, sufficient step budget; f32 arithmetic with rounding", "why_tests_cant": "each test run samples one insertion order; the order in which one of them never ends has probability 1/15", "anchors": ["src/tests/negative.rs:3-33", "src/monotone.rs:86-181 (build_fans)"]}
{"id": "C58", "title": "Polygon files are loaded faithfully, except for an unterminated last polygon", "statement": "load_polygon_list, on a text whose lines are, polygon after polygon, lines beginning with two numbers and then a blank line (further blank lines, spaces, tabs, carriage returns and further words allowed), returns exactly these polygons in order; rows after the last blank line are dropped without an error, whether or not the last one ends with a newline; the load fails exactly when some line is neither blank nor begins with two numbers; no polygon returned is empty. Loaded f32 polygons that are valid and meet the condition of C47 are triangulated in every insertion order, the triangles tiling the even-odd interior.", "quantifier": "every number parser, every text, every polygon list", "why_tests_cant": "the shipped files all end with a blank line and contain one kind of line ending, so no test sees the dropped polygon", "anchors": ["src/tests/util/load_polygon_list.rs: load_polygon_list", "src/tests/triangulate.rs: triangulate_geography"]}
{"id": "C59", "title": "Convex polygons are triangulated in floating point, in particular the regular polygons of the test suite", "statement": "A strictly convex polygon, of either orientation, is valid. If its vertices are f64 (f32) floats and every three of them in order span a triangle of twice the area more than 2^-48 (2^-19) times the square of a bound for the coordinates, rounding changes nothing: in every insertion order every builder that does not fail gets its output, and n-2 triangles, none clockwise, tile the polygon. The polygons of the test regular_polygons (vertex i of n at 100 sin, 100 cos of 2 pi i/n) are of this kind up to n = 10000 (the test goes to 500) if each coordinate is computed to within 2^-40.", "quantifier": "every n from 3 to 10000, every list of floats near the exact vertices, every insertion order, build profile, sufficient step budget; for the first parts every convex polygon", "why_tests_cant": "the test samples one insertion order for each n up to 500 with one library's sine and cosine, and checks only that no error is returned", "anchors": ["src/tests/triangulate.rs:36-54 (regular_polygons)", "src/math.rs:5 (is_left_of_line)"]}
{"id": "C60", "title": "The consistency check of debug builds takes a number of steps polynomial in the number of vertices", "statement": "After every vertex and segment inserted, debug builds walk the whole search structure (check_consistency_query_node) and count the nodes visited. For a valid polygon of n vertices the count is bounded by a polynomial in n. FALSE: trapezoids are merged, so the structure is a graph with shared nodes, but it is walked as a tree; for every k there is a valid polygon of 2k+1 vertices and an insertion order for which the check of the final state, in every run with that order, visits at least 2^(k/2) nodes.", "quantifier": "all k, index types, relocation schedules; refutation of every polynomial bound c * n^d over all valid polygons and orders", "why_tests_cant": "Orders are random and the tests' polygons small; on average the count stays small. No finite set of runs shows growth faster than every polynomial.", "anchors": ["src/trapezoidation.rs:467", "src/trapezoidation.rs:555", "src/trapezoidation.rs:560-592", "src/trapezoidation.rs:497-545"]}
{"id": "C61", "title": "Worst-case running time of the trapezoidation", "statement": "For a valid polygon with n vertices and every insertion order, the number of loop iterations made by the trapezoidation (counted as for C52) is at most (5 log* n + 11) n^2 when re-locations are paced by math_n (exactly, or in f64 with up to 2^40 vertices), and at most (5 n + 11) n^2 whatever the pacing. The square is needed: for every k there is a valid polygon of 3k+1 vertices and an insertion order for which the search structure gets at least k^2 nodes and the run makes at least k^2 - 12k - 4 iterations, so the bound on the average of C52 is not a bound for every order.", "quantifier": "every valid polygon of any size, every insertion order, both build profiles, every pacing", "why_tests_cant": "the worst of n! orders, for polygons of every size; random orders are close to the average of C52", "anchors": ["src/trapezoidation.rs:290-439 (add_polygon)", "src/trapezoidation.rs:25-53 (find_trapezoid)", "src/trapezoidation.rs:442-558 (add_vertex, add_segment)", "src/math.rs:15-21 (math_n)"]}
{"id": "C62", "title": "Total number of loop iterations of a whole call", "statement": "For a valid list of polygons with n vertices the triangulation phase makes at most 100 (n+1)^2 + 22 (n+1) + (n+4)^2 loop iterations in total, with every builder, also one that fails. For a single polygon the whole call of triangulate makes at most (5 log* n + 211) n^2 iterations for every insertion order when re-locations are paced as by math_n, and at most (5 n + 211) n^2 whatever the pacing. Counting changes nothing in the run, and the count is a step budget with which the run ends (release profile). The square is needed in every insertion order: for every odd n >= 3 there is a valid polygon with n vertices for which every call with a builder that does not fail makes more than (n-1)(n-3)/4 iterations.", "quantifier": "every valid input of any size, every insertion order, every builder, both build profiles; the counting and budget statements for every coordinate type and input", "why_tests_cant": "a bound over all polygons of all sizes, all n! orders and all builders; a measured time is neither an upper nor a lower bound for other inputs", "anchors": ["src/trapezoidation.rs:884-889 (triangulate)", "src/trapezoidation.rs:683-881 (triangulate_inner)", "src/monotone.rs:87-176 (build_fans)", "src/inputs/polygon_list.rs:177-179"]}
{"id": "C63", "title": "Which errors a call can report", "statement": "For every input, whatever the coordinates and indices (valid or not, exact or not), every insertion order, both build profiles and every builder: the trapezoidation reports only NotEnoughVertices (1 or 2) or one of four internal errors (a trapezoid not connected to a vertex, the lower end of an edge not found, no matching side, and, only if an index is repeated or the comparison of indices is not equality, an invalid connection of edge and vertex); the triangulation phase reports only internal errors out of a list of nine (Inner, InvalidI, InvalidTrapezoidation, EmptyStack, MonotoneStack, BranchStack, MonotoneShort with exactly 2 vertices, SingleMonotone, TopOfSegment). The other internal errors of the source are never reported: a vertex with more than two edges, an edge whose direction is asked for at a foreign vertex, a vertex with fewer than two edges at the end, no trapezoid containing a pending vertex, an edge node at the top of the query structure, vertices remaining after a piece is cut, partial pieces left at the end, and the two of the builder state. In every finished trapezoidation each vertex has exactly two edges and the topmost trapezoid is found. Ten of the errors that remain are reported for concrete inputs with distinct indices, the invalid connection for an input with a repeated one.", "quantifier": "every input, every coordinate type and comparison, every index type and comparison, every insertion order and pacing, every builder, both build profiles", "why_tests_cant": "that an error is unreachable is a statement about all inputs, valid and invalid, and all random orders; 2 million random runs also did not show two errors that are not excluded here", "anchors": ["src/nexus.rs:110-290", "src/trapezoidation.rs:383-439", "src/trapezoidation.rs:463-560", "src/trapezoidation.rs:664-680", "src/trapezoidation.rs:683-881", "src/monotone.rs:30-40", "src/monotone.rs:160-176", "src/fan_builder_state.rs:10-60"]}
{"id": "C64", "title": "What an error shows to a caller", "statement": "For every error a call can return, whatever message and backtrace an internal error carries and whatever Display and source the builder's error has: the text of NotEnoughVertices determines the number of vertices and differs from that of NoVertices; a call that refuses a polygon for its size shows one of two fixed texts; an internal error of either phase shows its message first; wrapping an error of the builder or of the trapezoidation in TriangulationError does not change the list of texts a reporter prints that walks along source(). For internal errors of the triangulation phase this list is their text twice. That an internal error can be found with source() is refuted: it can for those of the triangulation phase, not for those of the trapezoidation, and both occur.", "quantifier": "every error value, every error type of a builder, every message and backtrace; C64_call for every input, order, profile and builder", "why_tests_cant": "the repository has no test of errors.rs; statements about all numbers, all messages and all error types of builders", "anchors": ["src/errors.rs:15-49", "src/errors.rs:78-107"]}
