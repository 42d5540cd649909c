# Formal model of `triangulate` in Rocq

## What is modelled

The library is a pure function of (polygon list, random permutation per polygon, output format).  The model is
a function by function transcription into Gallina; every definition cites the lines it models:

| model file | source | content |
|---|---|---|
| `Base.v`   | `src/idx.rs`, `src/errors.rs` | outcomes, checked and unchecked vector access, error values |
| `Coord.v`  | `src/math.rs`, `src/inputs/vertex.rs` | coordinates, vertex order, side test |
| `Trap.v`   | `src/segment.rs`, `src/querynode.rs`, `src/trapezoid.rs`, `src/nexus.rs`, `src/trapezoidation.rs` (state) | construction of the trapezoidation |
| `Mono.v`   | `src/monotone.rs` | cutting monotone pieces into fans |
| `Tri.v`    | `src/trapezoidation.rs` (final), `src/fan_builder_state.rs` | traversal, builder protocol, `triangulate` |
| `Format.v` | `src/outputs/**` | the shipped formats and builders |
| `Float.v`  | `f32`, `f64` as coordinate types | the operations of `Coord.v` in IEEE 754 arithmetic |
| `Errors.v` | `src/errors.rs` | `Display` and `source` of the error types (messages and backtraces of internal errors are arguments) |
| `Input.v`  | `src/inputs/polygon_list.rs`, `src/mappable.rs` | polygon lists, nested vectors, `index_with` |

Decisions:

* **Coordinates** are an arbitrary type with an operations record (`CoordOps`: partial comparison, `==`, `<`, `-`,
  `*`, zero), so structural theorems hold for any coordinate type, including floats with NaN.  Geometric theorems are
  about the exact instance (rational numbers `Q`).  C35 states how results transfer between coordinate types: only the
  answers of the comparisons and of the side test on the given points matter.
* **Floats**: `f32` and `f64` are the instances `FOps 24 128` and `FOps 53 1024` built from the standard library's
  executable specification of IEEE 754 (`Coq.Floats.SpecFloat`: rounding to nearest even, subnormals, infinities, NaN);
  no axiom, no primitive floats.  C40 and C47 say when such a run agrees with the exact one, C41 that in general it does not.
* **Outcomes**: `Ok`, `Err`, `Panic` (checked index out of range, debug assertion), `Ub` (unchecked read out of range:
  `Index<Idx<T>> for Vec<T>` and `get_unchecked`), `Fuel`.  Every vector access is modelled with the access
  actually used at that place.
* **Loops** take fuel; theorems either hold for every fuel or say "for all sufficiently large fuel", so `Fuel`
  never hides a result.  An endless loop is "`Fuel` for every fuel".
* **Randomness**: `thread_rng` shuffles are an argument (a list of orders, one per polygon); theorems quantify over all
  of them.  `math_n` (floating point logarithms deciding when vertices are re-located) is an arbitrary function;
  C52 needs its values and models them over the real numbers, with and without errors (`RealPace.v`).
* **Debug assertions** are a boolean argument; theorems hold for both values.
* **Formats/builders** are records of functions over an explicit builder state; the storage the caller lent by `&mut`
  stays observable after any outcome (this is what rollback properties are about).
* **Files**: `load_polygon_list` (the loader of the geography test and the benchmark) is modelled on the bytes of a file; number parsing is
  an argument, I/O errors and bytes outside ASCII are left out.
* **Not modelled**: `_debugging` feature (SVG output), `Debug` text, `Display` other than in `src/errors.rs`, backtraces, allocation failure, stack overflow
  (only `check_consistency_query_node`, in debug builds, recurses deeply),
  `usize` overflow (the one subtraction of counters, `pending_vertices -= added`, is shown not to underflow: C54), the message strings of internal errors (each site has its own constructor instead), reading
  coordinates through user code that answers differently on different calls (`get_vertex` is a function).

## Specification of the geometric properties

Written with nothing but points, lists and rationals, independent of the model's helpers (`Plane.v`, `EvenOdd.v`,
`Outcome.v`, `Cover.v`, `Sides.v`, `Inv.v`):

* a polygon list is *valid* if every polygon has at least three vertices, all listed vertices are different points, and
  a rational point lying on two different edges is an end of both (`valid`);
* *inside* is the even-odd rule: number of edges crossed by a ray; *interior* (closed area) is the shoelace sum of the
  polygons, counted positively or negatively by nesting depth;
* a list of triangles *covers* the region if off the outline inside points are exactly the points of the closed
  non-flat triangles, and the open triangles are disjoint; it *fills* the region if the union of its closed non-flat
  triangles is the inside together with all points of the edges.

## Proof structure

| files | content |
|---|---|
| `Trace.v` `Protocol.v` `FormatFacts.v` `FormatRuns.v` `Builders.v` `BuilderProofs.v` `Runs.v` | the driver factors through a trace of builder calls; formats run on arbitrary traces (C10-C20) |
| `Bounds.v` `Indices.v` | every stored index in range, every vertex from the input (C07, C08, C30) |
| `Basic.v` `Plane.v` `ValidRuns.v` `Endless.v` | markers, iteration, order, side test; endless loop witness (C09, C21-C28) |
| `Sim.v` `SimFacts.v` `SimRuns.v` | two runs in lock step (C25, C34, C35, C36) |
| `MonoProof.v` `MonoGeom.v` | `build_fans` on one piece (C37) |
| `Lanes.v` `Geo.v` `Region.v` | plane geometry: height `ht` after a shear making all heights distinct, abscissa of an edge at a height, regions |
| `TrapInv.v` `AddVertex.v` `Recut.v` `Cuts.v` `LaneOps.v` `SegStep.v` `AddSegment.v` `Segment.v` | invariant of the trapezoidation and its preservation by both insertions, including the consistency checks of debug builds |
| `Walk.v` `Polygons.v` `Build.v` `Locate.v` | relocation, whole polygons, the finished trapezoidation (C29, C31) |
| `Faces.v` `Open.v` `Traverse.v` | the traversal never errs; frontier invariant |
| `Sweep.v` `Tile.v` `Whole.v` `Outline.v` `Budget.v` | conservation law along the traversal: any antisymmetric edge sum over the triangles equals the sum over the outline; linear step budget |
| `EvenOdd.v` `Nest.v` `Near.v` `Outcome.v` `Area.v` | crossing numbers, nesting, area; what `triangulate` returns (C01-C04) |
| `Graph.v` `Count.v` `Single.v` `Corner.v` `Number.v` | number of triangles (C06) |
| `Cover.v` `Sides.v` `Inv.v` `Closed.v` | closed cover, also of the edges, conforming sides, other descriptions of the same polygons (C03, C32, C33, C38, C46) |
| `Canon.v` `Bisim.v` `Same.v` | the trapezoids of a finished trapezoidation are determined by the points and edges; traversals of two trapezoidations that correspond up to numbering make the same calls (C39) |
| `ValidB.v` `Float.v` `FloatRuns.v` `FloatErr.v` `FloatLine.v` `FloatWit.v` | test for validity; float arithmetic without rounding on a bounded grid; bounds for the rounding errors; equal products round alike, so exact collinearity is kept; witnesses where rounding breaks the run (C40, C41, C47) |
| `Visits.v` `Grown.v` `Stage.v` `Wave.v` | paths in the search structure; all states of one polygon's run; the trapezoid right of everything; a family where the paths to it grow like Fibonacci numbers (C60) |
| `Convex.v` `Circle.v` | convex polygons are valid; triangles between the vertices of a regular polygon, over the reals, have an area of at least `16 r^2/n^3` (C59) |
| `Clear.v` `Cross.v` `CrossGeo.v` | the walk of a segment that may cross others: with debug assertions what is accepted crosses nothing inserted (C44) |
| `Stuck.v` | a run whose budget for one piece is the square of its length and still runs out never ends (C09, C45) |
| `Doc.v` `CrossRun.v` | the documented preconditions and `valid`; a run with debug checks and no relocation of pending vertices accepts only valid polygons (C44, C45) |
| `Ends.v` `EndsFan.v` `EndsTri.v` | every loop of the trapezoidation ends on every input (rank of the nexuses, levels of the query structure); families of runs indexed by budgets: each part ends, within a number of iterations that is computed, or is stuck (C42, C43) |
| `Steps.v` | pieces met by the traversal are no longer than the number of iterations made; quadratic budget of the whole run (C48) |
| `Slow.v` `SlowFam.v` `Mountain.v` | zigzag chains on which `build_fans` restarts for every triangle, a family of them; a polygon that is a mountain is cut as one piece, in every run (C49) |
| `Depth.v` `Orders.v` `Random.v` `RandomSize.v` | search depth and size of the query structure along a run; averages over all insertion orders by backward analysis (C50, C51) |
| `Work.v` `WorkBudget.v` `WorkCount.v` `WalkAdj.v` `LoopWork.v` `RandomWork.v` | the construction with an iteration counter; what each part counts; cost of one run by order (C52) |
| `Averages.v` `WorkAverage.v` `Phases.v` `RealPace.v` | averages over orders of what depends on a first part of the order; cost of the paced loop; `math_n` over the reals (C52) |
| `Worst.v` `Comb.v` | depth of searches, sizes and number of re-locations in the worst order; a family and an order with quadratically many nodes (C61) |
| `TriWork.v` `TriBudget.v` | the triangulation with an iteration counter; a potential (square of what pieces still hold) that pays for all iterations; the counter as a step budget (C62) |
| `Faults.v` `FaultsTop.v` `FaultsPoly.v` `FaultsTri.v` | which errors each function can return, for arbitrary coordinates: numbers of edges per vertex, the topmost trapezoid in the query structure, the positions in pieces (C63) |
| `Mirror.v` | the clockwise and the counterclockwise run in lockstep: the fans of one are those of the other turned over, some with two vertices exchanged (C05) |
| `Flats.v` | on valid input no finished piece is flat, so the flags of `MonotoneBuilder` play no part; two traversals in lockstep without the flags |
| `Shear.v` | the states of a valid run, two valid runs that the predicates do not tell apart, shear preserves validity (C55) |
| `Panics.v` `PanicTri.v` `Profiles.v` | every checked index is in range in release builds, the piece stacks never underflow; debug runs are release runs or crashes (C54) |
| `Hole.v` `HoleFam.v` | a segment splits at least as many trapezoids as vertices see it; a convex polygon with slits for holes (C53) |
| `Prop*.v` | the property theorems, each with a concrete case and `Print Assumptions` |

## Trusted base

* Coq 8.16.1 kernel and `coqchk`.
* Axioms: `Print Assumptions` under every theorem in the `Prop*.v` files answers "Closed under the global
  context" (see the build log), except `C52_math_n`, `C52_expected`, `C52_computed`, `C52_f64` and `C61_f64`, which speak of real logarithms, and `C59_regular`, which
  speaks of real sines and cosines; these list the standard
  library's `ClassicalDedekindReals.sig_not_dec`, `ClassicalDedekindReals.sig_forall_dec`,
  `FunctionalExtensionality.functional_extensionality_dep` and `Classical_Prop.classic`.
* For C52 (and the pacing in C61): the shuffle is uniform (the average is over all orders); `math_n` is computed without rounding (`C52_expected`) or with logarithms off
  by at most 2^-46 and quotients off by a factor of at most 1 + 2^-52 (`C52_f64`; Rust does not specify the accuracy of `f64::log2`).
* For C40, C41, C47, C56-C59: that `SpecFloat` (with precision 24/53 and exponent bound 128/1024) describes the target's `f32`/`f64`.
* The faithfulness of the transcription (each definition cites its lines), and the reading of the properties in
  `properties.jsonl` as the statements in `Prop*.v`.

## Findings (claims that are false of the code)

* C05: builders that ask for clockwise triangles receive counterclockwise ones (`C05_clockwise_refuted`), and in
  backtracking fans of three or more triangles even wrong ones: for `[(1,4),(4,3),(2,2),(2,1),(1,1)]` the triangles cover
  only 7/9 of the area (`C05_area_refuted`).  What holds for them: the run ends with `Ok` (C01) and delivers the right
  number of triangles (`C06_any_winding`), whose indices come from the input (C07).  Exactly what goes wrong
  (`C05_fans_partial`): some fans are the right ones with the first and the third vertex exchanged, the exchange in
  `build_fans` (src/monotone.rs 114-116) being decided by the side of the chain where it should be decided by the
  direction of the fan.
* C09: a polygon with the same vertex twice in a row makes the construction loop for ever
  (`C09_termination_refuted`).  So does a heptagon of different vertices without crossing edges, one edge folding back over
  the next, in both build profiles (`C09_distinct_refuted`), and, without debug assertions, a pentagon that meets every
  documented precondition and has no overlapping edges either (`C45_hang_refuted`).
* C58: the test loader drops a last polygon that no blank line follows, without an error (`C58_last_dropped`); the shipped files all end
  with a blank line.
* C57: one of the crate's own tests, `overlapping_vertex` (src/tests/negative.rs 10-20), does not end in 48 of the 720 insertion
  orders, with debug assertions or without (`C57_overlapping_vertex_refuted`): the piece (1, 1), (-1, 1), (0, 0), (0, 0) loses its
  first triangle and the three vertices left are tried again and again.
* C41: with `f64` coordinates rounding in the side test breaks valid polygons with nearly collinear vertices: the triangle
  `[(0.3,0.0),(0.4,0.1),(0.8,0.5)]` is always refused with an internal error, `[(0.1,0.0),(0.4,0.6),(0.2,0.2)]` is returned
  clockwise or refused depending on the random order, `[(2.7,1.3),(3.1,1.5),(3.5,1.7),(7.5,3.7)]` makes `build_fans` loop
  for ever.
* C16: rollback of a flat `Vec` whose previous length is not a multiple of three cuts into the caller's data.
* C17: when the delimiter is an index of the very first triangle, what `initialize` pushed before failing stays.
* `FanToListFormat::initialize` drops the list builder without `fail` when its first `add_triangle` fails.
* Zero-area triangles are possible on valid input (collinear vertices), so C04 is "area not negative".
* C44: crossing polygons can be accepted: a pentagon without debug assertions, a hexagon even with them (a relocation of
  pending vertices walks along crossing edges and stores a wrong starting node).
* C45: a vertex on an edge of which it is not an end, which the documentation does not exclude, gives internal errors, or a
  panic with debug assertions, on some insertion orders.
* C49: the documented running time O(n log* n) does not hold: `build_fans` can make about n^2/4 iterations on one piece
  (chains whose width grows geometrically towards the middle), whatever the insertion order; C48 shows this is the worst.
  The claim does hold of the trapezoidation of a single polygon (C52).
* C53: the trapezoidation of a list of polygons is not near-linear either: a hole next to m vertices of an earlier polygon takes
  about m iterations for each long edge, whatever its own size and order; m slits side by side take about m^2.
* C50: the capacity `4 * num_segments` reserved for the query structure is not an upper bound; the structure is linear on
  average (at most 10n+1 nodes) but quadratic in the worst case.
* C64: `source()` of an error of the trapezoidation is `None`, so an internal error in it is not among the causes, while an internal
  error of the triangulation phase is, and a reporter prints its text twice.  (Also, by reading: the message at
  `src/trapezoidation.rs` 803 names the branch stack, but it is the stack of pieces that is empty.)
* In debug builds the consistency checks panic on some self-intersecting inputs, e.g.
  `[(3,0),(2,3),(1,0),(3,3)]`.

## Properties

| id | theorem file | proof idea |
|---|---|---|
| C01 | `PropTri.v` | invariant of the trapezoidation (regions, adjacency, search structure), walk of a segment through the trapezoids, frontier invariant of the traversal, mountain invariant of the pieces |
| C02, C03 | `PropTri.v`, `PropMesh.v` | conservation law instantiated with the shoelace term and with the signed crossing of a ray |
| C04 | `PropTri.v` | case analysis of `build_fans` on mountains |
| C05 | `PropBasic.v` `PropCount.v` `PropMirror.v` | refuted; partial: lockstep simulation of the clockwise and the counterclockwise run, fan by fan |
| C06 | `PropCount.v` | conservation law, angle count at the corners |
| C07, C08 | `PropBasic.v` | invariant: all stored indices in range, all vertices from the input; all coordinate types |
| C09 | `PropBasic.v` | refuted for invalid input |
| C10-C20 | `PropBuilders.v` | induction on the call sequence; driver factors through the trace |
| C21-C24, C27, C28, C30 | `PropBasic.v` | induction, arithmetic |
| C25, C26, C34-C36 | `PropSim.v` | two runs in lock step |
| C29, C31 | `PropTrap.v` | invariant of C01 |
| C32, C33, C38, C46 | `PropMesh.v` | consequences of the cover and of the conservation law |
| C37 | `PropMono.v` | invariant of the two stacks |
| C39 | `PropSame.v` | regions of the trapezoids are canonical, bisimulation of the traversals |
| C40, C41, C47 | `PropFloat.v` | exactness of float operations on a grid, or error bounds for them, then C35; computed witnesses, all insertion orders enumerated |
| C42, C43, C09 | `PropEnds.v` | trapezoidize ends with a quadratic budget; triangulate ends or is stuck in `build_fans`; valid inputs end with every builder |
| C48 | `PropSteps.v` | explicit budget: square of the length for one piece, one traversal step per trapezoid, C42 for the trapezoidation |
| C49 | `PropSlow.v` | refuted: a mountain with geometrically growing widths is one piece for every insertion order; `build_fans` makes one pass over the chain for each fan |
| C50, C51 | `PropQuery.v` | size of the query structure and length of a search, averaged over all insertion orders of one polygon: what the last segment adds is charged to it, and each segment is last equally often |
| C52 | `PropWork.v` | iterations of one run bounded by searches beyond the last re-location, segments crossed and walks; each averaged backwards; phases between re-locations cost O(n) each, log* n of them |
| C53 | `PropHole.v` | refuted: between the heights of two vertices that see an edge the trapezoid beside it changes; add_segment makes an iteration for each |
| C54 | `PropPanic.v` | invariants on stored indices and stack positions carried through every function; both profiles compared statement by statement |
| C55 | `PropShear.v` | no finished piece of a valid run is flat; lockstep simulation of two valid runs without the flags |
| C56, C57 | `PropTests.v` | single polygons: float predicates agree with the exact positions (computed), then C35 and C39; two polygons and the refused ones: all orders enumerated, the orders that hang by `Stuck.v` |
| C58 | `PropLoad.v` | `Load.v`: words and lines of a text, the loop by induction on the lines; then C24, C47 and C03 |
| C59 | `PropConvex.v` | convexity with a margin gives validity and the condition of C47; the margin of regular polygons from `sin x >= 0.7 x` for small `x`; what `sin_cos` returns is a hypothesis (`2^-40` near the exact value) |
| C60 | `PropVisits.v` | *false*: the debug check visits at least `2^(k/2)` nodes for a polygon of `2k+1` vertices in one order; the count is the number the function returns (`check_count`), `check_query` in `Trap.v` is the same walk without it |
| C61 | `PropWorst.v` | the cost of one run by order (as for C52) with the worst depth `3 m + 1` of a search and the worst number of trapezoids beside an edge; a paced run re-locates at most log* n times; conversely `k` vertical edges inserted one after the other in sight of a chain of `k` vertices (`Hole.v`) |
| C62 | `PropTotal.v` | the functions of `Mono.v` and `Tri.v` again with a counter beside the builder's state (`C62_counted`: the same run); each finished piece of length L costs at most L^2 + 2 L, each step of the traversal lengthens pieces by a bounded amount; with C61 for the first phase; the lower bound is that of C49 through `C62_budget`.  Not counted: work that is not a loop of the algorithm (growth of vectors, the builder's own work, the debug checks, see C60) |
| C63 | `PropFaults.v` | every vertex gets as many edges as are inserted at its position, so two at the end (also with repeated indices); the trapezoid above everything has no upper vertex and edges only split trapezoids with one; lengths of pieces as for C54.  the branch at the bottom of the stack is always outside.  `SingleMonotone` and `TopOfSegment` are in the proved list but no input is known that reports them |
| C64 | `PropErrors.v` | computation with the transcribed functions; decimal numerals are injective (standard library); with C63 for `C64_call` |
| C09, C45 | `PropHang.v` | endless runs on input within the documented preconditions; `Stuck.v` checks by computation that a run never ends |
| C44, C45 | `PropCross.v` | walk of a segment against the debug checks; documented preconditions plus `apart` equal `valid`; computed witnesses |
