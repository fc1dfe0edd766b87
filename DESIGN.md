# Formal model of Geometrix in Rocq (Coq 8.16.1)

## 1. How the model relates to the code

Geometrix is a header-only C++ template library.  Every algorithm is a
template over the coordinate type and over a `NumberComparisonPolicy`.  The
model instantiates the templates as follows.

* **Coordinates** are exact rationals (`Q`) wherever the code uses only
  `+ - * /` and comparisons.  Where the code takes square roots the model uses
  the standard library's reals (`R`).  Grid indices, fixed-point mantissas and
  counters are `Z`/`nat`.  Rounding of `double` is *not* modelled except where a
  file says so; a theorem over `Q` is a theorem about the algorithm run with an
  exact rational number type, which is a legal instantiation of the templates.
* **Comparison policy** is a record of five boolean functions.  The direct
  policy and the absolute-tolerance policy are both modelled; theorems about
  exact geometry use the direct policy, theorems that hold for every policy
  quantify over it.
* **Undefined behaviour** (division by zero, out-of-range access, reading an
  unset output) is a separate outcome (`None` or an `UB` constructor), never a
  default value.  Loops without an evident bound run on fuel, and running out of
  fuel is its own outcome that the theorems exclude.
* **Callbacks** (visitors) become lists of events, or arbitrary functions.

Each topic has up to four files in `rocq/theories`:
`XModel.v` (functions, each citing file and lines), `XSpec.v` (the small
specification), `XProof.v` (lemmas), `XProps.v` (only the property theorems,
closed by `exact`, with `Print Assumptions` below, and `Example`s showing the
hypotheses are satisfiable).

## 2. Trusted base

* The kernel of Coq 8.16.1 (and `coqchk`).
* The axioms printed by `Print Assumptions` under each theorem.  Theorems over
  `Z`, `Q`, `nat`, lists print "Closed under the global context".  Theorems over
  `R` print the standard library's axioms of the real numbers
  (`ClassicalDedekindReals.sig_forall_dec`, `ClassicalDedekindReals.sig_not_dec`,
  `FunctionalExtensionality.functional_extensionality_dep`) and, for some,
  `Classical_Prop.classic`.
* The reading of the C++ source: each model definition cites the lines it models.

## 3. Properties: what is modelled and how it is proved

| Id | Model | Proof |
|----|-------|-------|
| C01, C02 | the policies (direct, absolute, relative, fraction) over `Q` | case analysis + `lra` |
| C03, C04 | lexicographic comparison over coordinate lists | induction on the list; witness parametrised by the tolerance |
| C05, C49 | interval as pair of bounds plus emptiness test | induction on the insertion sequence; `lra` |
| C06-C09, C58, C59 | boxes as pairs of rational points; folds over the point list | induction, `lra`/`nra`, least-distance specification |
| C10-C12, C47, C53-C55 | the closed-form distance code with every branch | optimality by convexity inequalities, explicit certificates |
| C13, C14, C61 | branch-and-bound loop with an arbitrary min-selecting queue | loop invariant: every segment pair is covered by a queued range or already counted |
| C15-C22, C48, C50-C52, C56, C57, C60 | orientation, betweenness, angular order, line/segment/ray/box/plane intersection | both directions against point-set specifications |
| C23, C24, C62-C66 | balls, discs, capsules, moving balls over `R` with `sqrt` | algebra with `sqrt` lemmas; earliest root of a quadratic |
| C25-C27, C67-C70 | shoelace sum, crossing parity, triangle test, centroid, containment with border cases | induction on the vertex list; parity along a path; barycentric coordinates |
| C28-C31, C71-C73 | grids over `Z`/`Q`, hash grid as association map, integer line walk, voxel walk, flood fill | refinement, loop invariants |
| C32 | out-codes and clip loop | invariant: clipped segment = segment restricted to the box |
| C33 | kd-tree as inductive tree | induction on construction |
| C34, C88 | node_bsp_tree_2d: partition, point location, painter's traversal | tree invariant: every stored piece is on its splitting line; parity argument across lines |
| C35, C89-C91 | solid_leaf_bsp_tree: build with an arbitrary selector, location, distance, rays | tree invariant relating leaves to the side of the nearest wall |
| C36-C38, C79-C82 | polyline and polygon operations on lists | induction |
| C39, C40, C84 | mesh sampling, adjacency, triangle cache | convex combination algebra; relation reasoning |
| C41 | run-time LUP loops on matrices as functions | loop invariants over columns |
| C42, C83 | fixed-point mantissa operations over `Z` | `Z` division lemmas |
| C43, C75-C78 | angles over `R` with floor, atan2, rotations, slerp | `archimed`, trigonometric identities |
| C44 | memo table as sorted association list | refinement |
| C45, C85-C87 | separating axis tests of polygons, boxes and triangles, at rest and moving | completeness through support points (zonotopes, Farkas-type case analysis); refutations by witness |
| C46 | Graham scan | stack invariant; refutations by witness |
| C92 | half-edge list: vertices, components, walks | invariants of adding edges and of the walk; permutation of sides |
| C93, C94 | visiting loops with an arbitrary stateful visitor | induction on the sides; prefix of the complete list of hits |
| C95, C96 | pairs of sides, memo table for pairs, loops with holes | index arithmetic modulo n; spikes excluded by geometry |
| C97 | set of contact points on a segment, mid points classified | sorted set invariant; between neighbouring points the border contains all or nothing; parity along a path |
| C98 | matrices as index functions over any field, determinant by recursive cofactor expansion | equal to mathcomp's determinant by induction on the dimension (minor = row and column removed), then mathcomp's matrix theory |
| C99 | loops over sides comparing squared lengths, dot and exterior products | the first side fixes the rotation; induction along the points (two products with a nonzero side determine the next) |
| C100 | recursion on index ranges with outcomes for assertion, division by zero and endless recursion | strong induction on the range; increasing chains of kept indices |
| C101 | three search loops over sides | loop invariant: first best side so far |
| C102 | walk along the border over the reals | progress: some side has positive length and is passed in every round; length adds up to the extent |
| C103 | the set as its iteration list with equal_range and insert; the two loops with their case lists | positions along the line reduce every test to one dimension; range separation and hull invariants, then induction on the history |
| C104 | the loops over indices with a distinct outcome for division by zero | area formula for the circumscribed circle; sums over consecutive triples |
| C105 | the three loops | all cut by one generic loop with a list of flags; invariant on the part under construction |
| C106 | both loops; a pushed point is Some p or None when it was never written | Cramer for the two shifted lines; the signs of both parameters follow from Cauchy-Schwarz |
| C107 | sweep line as a list, the tree's search path an arbitrary oracle, event map as a sorted list, comparators that may find the slope unset | order of the sweep line between neighbouring events (angles around a common point), every crossing ahead is queued or separated; then induction on the events left |
| C108 | set of contact points with the three sides; four projections | the points put in the set are the extreme points of the common part (sides are faces); separating axes by following the line of the segment into the triangle |
| C109 | search over the sides, then the code's cases on the projection parameter | the first nearest side never has its nearest point at its first vertex (the side before has it too); at a nearest corner the point is in the outer wedge |
| C110 | the four corners of the box in the polygon, then the loop over the sides with the segment/box test | if no side meets the box, the box is on one side of the border: point_in_polygon is constant along a segment that does not meet the border |
| C111 | ray against the enlarged box, region of the point reached, side or corner tests | change of frame to the corner of the box; in a corner region any contact has an earlier or equal contact with one of the two sides from the corner |
| C112 | the code's determinants, the special cases, the two ray tests (scale of the directions arbitrary) | along the segment both determinants are linear; where the range is entered the first one is zero |
| C113 | the search loop with its stack, the visitor's range of directions, adjacency and common side of MeshModel | invariant of the item on the line of sight: the direction of the vertex is strictly inside its range; every item on the stack is visited in the end; on meshes without cycles an invariant of every item: the triangles walked through fill its range of directions up to its side, or (at a border vertex) near that vertex, so that the range is empty behind; the walk has no repetition, so the search ends; an endless cycle of three items |
| C114 | the clipping, the ordering of the ends, the strips and the loop of orientation_segment_traversal, rows and columns modulo 2^32 | sign of the line at the cell corner as loop invariant, a monotone chain of cells ending in the cell of the right end; reversal of the segment; a strip against the direction wraps around |
| C115 | the loop, the advance rules and the final nested tests of convex_polygon_polygon_intersection, over the models of segment_segment_intersection and point_in_polygon | a measure with one reset; invariant that the first visit is common; separating and antiparallel edges; no edges meet when disjoint or strictly nested; the search is followed through the pairs of edges by their angles: within half a turn it cannot pass the row or column of a pair that meets, so none is returned for disjoint polygons only. When the interiors meet the visits form a chain that turns left around a common interior point; after a full turn its hull contains every common point (Caratheodory). Polygons that only touch: no direction leads inside both, so an edge of one separates them from the first meeting on; from there the walk goes around the other polygon only and adds no vertex. The positions are combined by deciding membership in hulls, without classical axioms |
| C116 | the loop of sphere_polyline_intersect with an arbitrary stopping visitor, over the two-root segment_sphere_intersection of C63 | induction over the edges: the calls so far are exactly the edges met so far |
| C74 | the boundary walks of a polygon (over the walk of C72), the map of column bounds, the scan, with an arbitrary order of the map | invariant: the map holds the lowest and highest marked row of each marked column; a vertical line through a point of a convex polygon leaves it above and below, where cells are marked; points on a column line are moved a little |
| C117 | the same with mark_hole_boundary and the scan with the sets of hole rows | a skipped cell with a point outside the hole is met by the hole's boundary; vertical edges on a column line are marked in the column on their right |
| C118 | the access functions of every expression node as a view: kind, dimensions, and the answer for each component (a number or the reason there is none), over any ordered field | induction on the derivation of the textbook meaning |
| C119 | <<= reads all components before it writes; = += -= write each component before the next is evaluated | an expression without x does not change when x is written; a componentwise one keeps component i while the others are written |
| C120 | nodes that refer to their operands, a declaration that keeps its outermost node and destroys the others, evaluation by following references | older nodes never change; the outermost node of a flat declaration refers to older nodes only, of a nested one to a destroyed node |
| C121 | the recursive term calculators as recursions on the list of coordinates, over the reals | the product of the sines of the upper angles times the radius is the radius of the lower coordinates, by induction on the dimension; uniqueness of the angle of a direction |
| C122 | the branches on the solution of the 2 by 2 system, exact rationals | the parameters stay in [0, 1]; for parallel segments the squared distance is a square of an affine function plus a constant |
| C123 | the spigot loop with int overflow as a distinct outcome and exact fractions | the value of the mixed-radix state is pi times a power of ten up to a bounded error, for every size; nine groups of digits pinned by integer bounds; the fraction never gets smaller afterwards |
| C124 | the loop over the edges with the side of the previous vertex, the two lists of vertices pushed; assertion failures as a distinct outcome | the loop as a relation of seven edge cases; a sum over edges that is additive at a cut and vanishes on the other side is the same for the part and the polygon (instances: border, list of passages through a parallel plane); for convex polygons the crossing point of every diagonal lies between two crossing points of the border, and weighted averages are regrouped along those |
| C125 | the random classes as the set of values they can return given the contract of boost::uniform_int; hsv2rgb over exact numbers, conversion to uint8_t undefined out of range | division with remainder; the six sectors of the hue against the formula with one remainder and two minima |
| C126 | the ordered set of cuts, split and the sorting of the pieces, function by function, over exact numbers, for any untrimmed copy (its computation is C106); polyline intersections are those of C94/C95 | places on a polyline as numbers; the set order is their order; one loop invariant for the pieces; completeness of the cuts from C95 |
| C127 | point_on_polyline_length_characteristics and is_between over the reals | induction over the sides, the state before and after the index is found |
| C128 | bounding_box_intersection, distance_compare, the compare functors of utilities.hpp and polygon_with_holes_as_segment_range over exact numbers | order facts; induction over a ring and over the holes |
| C129 | vector_projection over the reals in any dimension; the exterior products in the plane and in space | algebra, Cramer's rule for the plane condition |
| C130 | scored_segment_selector_policy with the classify of C34; the factor 0.8 exact | the loop keeps the first position of least cost |
| C131 | the homogeneous adaptor and the matrix products over the reals, any dimension | finite sums |
| C132 | numbers with the state of their scale policy, the operators with integers on both sides, <cmath> functions as functions on the rationals, limits | reduction to C42 and C83 through the conversion of the integer |
| C133 | the three policies on Coq's primitive floats | Flocq: comparisons of rounded results; the rounded difference of two doubles is zero only for equal ones |
| C134 | get_orientation on primitive floats | monotone rounding; exact operations (Sterbenz, integers); all cases of infinities and NaN |
| C135 | squared distance and distance on primitive floats | case analysis of signs; relative error of each operation |
| C136 | numbers with a type (unit and representation), the default policy and the map of policies | the entry found is the one meant; reduction to coherence (C01) |
| C137 | get_bounds on primitive floats, starting from the infinities | invariant of the running minimum and maximum; rounding of the difference |
| C138 | point_in_polygon on primitive floats | sign of rounded differences and products; exactness for integers; parity under rotation |
| C139 | grid_traits and the dense grid on primitive floats with unsigned 32-bit counts | monotone rounding and truncation; relative error of each operation |
| C140 | magnitude and normalize on primitive floats | relative error of each operation; monotone rounding of the square root and of the product with the reciprocal; sign symmetry of rounding |
| C141 | interval on primitive floats, default bounds the infinities | order of all doubles that are numbers as order of reals; invariant of the insertion sequence; monotone rounding |
| C142 | lexicographical comparison and equality of coordinate lists of primitive floats | order of all doubles that are numbers as order of reals; induction on the dimension |
| C143 | axis_aligned_bounding_box on coordinate lists of primitive floats | the same order, coordinate by coordinate; rounding of the difference for the tolerance |
| C144 | the intersection functions of C18 to C20 with the absolute tolerance policy | the parameters of the common point; the four products of the nearly parallel case are parts of the denominator; case split on which coordinate each betweenness test uses |
| C145 | the loops over sides of C93 to C95 with the absolute tolerance policy | induction on the list of sides over C144's never missed |
| C146 | segment_segment_intersection on points of primitive floats | numerators and denominator are exact integers below 2^53; a quotient of such integers is at least 2^-52 away from zero and one unless equal, and so is its rounding; error of the point by Flocq |

## 4. Findings: where the faithful model violates what one would expect

Each line names the theorems that exhibit the violation on the model (exact
arithmetic unless said otherwise).  The corresponding positive theorem carries
the hypothesis that excludes the case.

* `C01_negative_tolerance_refuted`: the absolute-tolerance policy accepts a negative tolerance; then nothing equals itself.
* `C05_expand_with_policy_refuted`: interval expand(v, cmp) on an empty interval keeps the sentinel bound.
* `C07_tolerant_bounds_refuted`: bounds found with a tolerance can miss points by up to the tolerance.
* `C09_box_box_distance_3d_refuted`: the 3D box-box distance subtracts a y from a z coordinate.
* `C12_tolerant_minimality_refuted`: tolerant segment-segment closest points are not the closest.
* `C14_polygon_distance_refuted`: polygon-polygon distance ignores closing edges of polygons of six or more points.
* `C16_degenerate_segment_refuted`: is_between with A = B only looks at y.
* `C18_collinear_touch_reported_endpoint_refuted`, `C18_degenerate_segment_refuted`: collinear end contacts are called overlapping; a degenerate first segment gives false positives.
* `C20_ray_segment_type_refuted`: the ray-segment overload without outputs is wrong for parallel, not collinear input.
* `C21_tolerant_ray_box_refuted`: tolerant ray-box test misses hits.
* `C22_segment_box_epsilon_refuted`: segment-box test reports segments that pass a corner at a distance.
* `C24_ray_sphere_tolerance_refuted`: tolerant ray-ball test takes the root of a negative number.
* `C27_clockwise_refuted`, `C27_in_space_refuted`: point_in_triangle rejects everything for clockwise triangles, and its 3D version accepts a whole line.
* `C28_wrap_refuted`: the grid cell count wraps to zero at exactly 2^32-1 cells.
* `C30_overflow_refuted`: integer line walk overflows int for index differences of 2^30 or more.
* `C32_tolerance_refuted`: clipping with a tolerance accepts a segment that misses the window.
* `C33_empty_refuted`, `C33_only_range_refuted`: kd_tree of no points is undefined; a range search reports points outside the range.
* `C34_border_refuted`, `C34_extension_refuted`: BSP point location: a border point reported inside; points on the extension of an edge reported boundary.
* `C36_beyond_refuted`: polyline_split drops the last edge when asked for the whole length or more.
* `C37_zero_size_refuted`: split_segment never ends for size zero.
* `C38_fold_refuted`: remove_collinear_points loses points where the polyline folds back.
* `C39_double_refuted`: in double precision the mesh's integral can end below one, and the sample index runs past the end.
* `C40_nonmanifold_refuted`: the adjacency matrix of a non-manifold mesh is not symmetric.
* `C41_run_time_refuted`: the run-time LUP decomposition accepts a singular last pivot; solving then divides by zero.
* `C45_counterclockwise_refuted`, `C45_quadrilaterals_refuted`, `C45_endless_refuted`: separating-axis test of polygons: wrong for contained counterclockwise polygons and for quadrilaterals, and can loop for ever.
* `C46_lowest_refuted`, `C46_first_ray_refuted`: Graham scan: the lowest point is not brought first; two points on the first ray read past the stack.
* `C47_point_distance_refuted`: point distance in five or more dimensions ignores the last coordinate.
* `C48_segment_compare_refuted`: the order of segments depends on their direction.
* `C49_intersects_closed_refuted`, `C49_mul_negative_scalar_refuted`, `C49_sub_interval_refuted`, `C49_div_negative_scalar_refuted`, `C49_scalar_minus_interval_refuted`: intervals: touching is not intersecting, negative factors and differences are wrong.
* `C51_t_junction_refuted`: oriented intersection reports T-junctions as not meeting.
* `C52_x_of_y_vertical_refuted`: x_of_y is undefined for vertical lines.
* `C53_repeated_vertex_closest_point_refuted`: closest point on a polyline divides by zero at a repeated vertex.
* `C55_segment_obb_distance_refuted`: segment to oriented box distance uses a diagonal in place of an edge.
* `C56_ray_line_behind_reference_refuted`, `C56_parallel_line_refuted`: ray-line test rejects points behind the reference point and accepts all parallel lines.
* `C57_crossing_is_interior_refuted`: 3D segment intersection reports a contact at an end as a crossing.
* `C62_touching_refuted`: touching balls that do not approach are reported as a miss.
* `C63_point_segment_refuted`: the two-root segment-ball overload divides by zero for a point segment.
* `C65_at_rest_refuted`: a disc at rest that overlaps an end of the segment is reported as not intersecting.
* `C66_inside_refuted`, `C66_parallel_refuted`: capsule: inner segments reported as missing, parallel ones divide by zero.
* `C68_doubled_edge_refuted`: points on doubled edges are not reported as border.
* `C70_polygon_offset_refuted`: polygon offset is wrong with repeated points.
* `C72_end_cell_refuted`: the voxel walk need not visit the half-open cell of the end point.
* `C76_rotation_lengths_refuted`, `C77_lengths_refuted`, `C78_slerp_opposite_refuted`: rotation, bisector and slerp need unit vectors that are not opposite.
* `C79_first_vertex_refuted`, `C79_last_vertex_refuted`, `C79_identified_refuted`, `C80_closing_refuted`: cleaning polygons: straight first and last vertices stay, wrong indices are identified, an equal closing pair stays.
* `C81_negative_refuted`, `C82_single_point_refuted`, `C82_middle_undefined_refuted`: clipping by a negative length grows the polyline; length of a one-point polygon and mid point without length are undefined.
* `C83_to_float_refuted`, `C83_binary_runtime_refuted`, `C83_convert_traits_refuted`, `C83_compare_rounded_refuted`: fixed-point conversions lose the fraction, the run-time binary policy divides by the exponent, comparison with floats compares rounded values.
* `C84_degenerate_refuted`: a degenerate triangle is returned for points outside of it.
* `C87_quadrilaterals_refuted`: moving polygons with more than three corners: wrong reports.
* `C88_on_line_refuted`: painter's traversal leaves out segments when seen from their own line.
* `C89_between_refuted`, `C91_on_line_refuted`, `C91_border_refuted`: solid-leaf tree: a point between collinear walls reported boundary; rays from a wall line miss walls; border-only rays from the solid hit nothing real.
* `C92_merge_refuted`, `C92_endless_refuted`, `C92_copy_refuted`: half-edge list: segments lost, endless loop, copies that cannot recalculate.
* `C93_one_point_refuted`, `C94_all_sides_refuted`, `C95_straight_refuted`, `C95_flat_triangle_refuted`, `C96_outside_hole_refuted`: one-point polygons read out of range; later sides of a polyline never visited; straight vertices reported as self-intersection; flat triangles called simple; holes outside accepted.
* `C99_repeated_refuted`, `C99_one_point_refuted`: congruence: a bend at a repeated point is not seen; one-point polygons read out of range.
* `C100_tolerance_refuted`, `C100_assertion_refuted`, `C100_closed_refuted`: polyline simplification: the half-open ranges leave out points farther than the tolerance, the assertion fails for a bend at the second point, closed polylines divide by zero.
* `C101_one_point_refuted`, `C102_endless_refuted`: border segment search reads one-point polygons out of range; the walk never ends when all vertices equal the point.
* `C103_zero_length_refuted`: adding a zero-length segment inside a member on a horizontal line erases the member.
* `C105_always_right_refuted`: a polyline that turns right everywhere is given two inflection points (its second and its last point), one that turns left everywhere none.
* `C106_straight_refuted`, `C106_turn_back_refuted`: polyline offset: vertices on a straight stretch become uninitialised points; the untrimmed offset has no points where the polyline turns straight back.
* `C107_single_point_refuted`: segment sweep: a single-point segment stays in the sweep line for ever and hides a crossing of two other segments.
* `C108_clockwise_refuted`, `C108_single_point_refuted`, `C108_flat_triangle_refuted`: segment/triangle: ends inside a clockwise triangle are overlooked; a single point on the line of a side outside the triangle is reported as the whole side; a triangle without area passes the test for disjoint segments on its line.
* `C109_before_start_refuted`: side of a polyline: before the start of a polyline with two sides or more the corner at the second point decides, although the first point is the nearest.
* `C111_too_early_refuted`, `C111_too_late_refuted`: moving disc against a box: when the centre starts inside the box enlarged by the radius, the exit of the ray is classified instead of its entry; contact is reported at time 0 for a disc that does not touch the box, and a disc inside the box is reported to meet it only when it leaves.
* `C112_behind_refuted`, `C112_with_points_overlooks_refuted`, `C112_wrong_points_refuted`: range between two rays: a segment joining the two rays behind the origin is reported as in the range; the overload with points overlooks segments that leave the range at their own end or cross an acute range from behind, and writes points where the segment crosses the line of a ray behind the origin.
* `C113_endless_refuted`: visible vertices of a mesh: the search circles for ever around an interior vertex of the mesh on the border of the visible range.
* `C114_falling_in_column_refuted`: walk guided by cell corners: on a segment that falls from left to right within one column the row index is increased instead of decreased, so the walk makes about 2^32 calls.
* `C115_first_inside_second_refuted`: convex polygon intersection, first polygon strictly inside the second: the loop over its points is bounded by the size of the second polygon, so it reads out of range or leaves vertices out.
* `C115_vertex_is_overlapping_refuted`: convex polygon intersection: polygons that touch in one vertex can be reported as face, where the comment of the enumeration says overlapping.
* `C116_inside_refuted`: sphere against a polyline: only the surface is tested, a polyline entirely inside the ball gives no call and the result false.
* `C74_larger_polygon_refuted`: filling a polygon on a grid: only columns in which the boundary was met are filled; a polygon that covers the whole region visits no cell, and one that partly leaves the region is filled incompletely.
* `C117_two_holes_refuted`: filling a polygon with holes: in a column the scan looks only at the first hole not yet skipped; if that hole ends at or below the polygon's first row, or is overtaken by another hole, the later holes are not skipped and their inner cells are visited.
* `C118_matrix_times_number_refuted`: matrix * number asks for element (row, column) of the number and the value of the matrix (operands swapped, multiplication.hpp:194-197): it never compiles.
* `C118_matrix_times_vector_refuted`, `C118_matrix_times_point_refuted`: matrix * vector (or point) has the dimension of the right operand: a 3 by 2 matrix times a 2-vector has 2 components; a 2 by 3 matrix times a 3-vector does not compile.
* `C118_tensor_of_vectors_refuted`, `C118_tensor_vector_matrix_refuted`: vector & vector and vector & matrix with more columns than rows do not compile (row_dimension_of a vector; type_at with the column used as row index).
* `C118_dimension_one_refuted`: scalar products of dimension 1 (the recursion of detail/dot_product.hpp does not end) and the inverse of a 1 by 1 matrix do not compile.
* `C118_dimensions_unchecked_refuted`: vector + vector does not check dimensions: the longer left operand is cut silently, a shorter left operand is read past its end.
* `C119_cross_refuted`, `C119_norm_refuted`: v = v ^ w, v = norm(v) and the like assign component by component from the lazy expression, so later components are computed from new ones (geometry_test/product_tests.hpp does v4 = norm(v4)*100.); <<= is safe.
* `C120_nested_refuted`: auto e = a + b + c; keeps references to destroyed temporaries; only expressions with one operator on variables or named expressions may be stored.
* `C121_neutral_refuted`: converting a Cartesian point to polar through a neutral one keeps the Cartesian numbers.
* `C121_integer_refuted`: polar coordinates of a point with integer coordinates have angles cut to whole radians.
* `C122_crossing_refuted`, `C122_collinear_refuted`, `C122_symmetry_refuted`, `C122_point_refuted`: eberly_segment_segment_distance_sqrd takes the signed area for its square as determinant and mixes up the regions: crossing segments have distance 1, collinear ones 9 apart have squared distance 1, the answer depends on the order of the segments, a segment that is a point gives NaN or a wrong distance.
* `C123_seven_refuted`, `C123_overflow_refuted`: calculate_pi pads a group of digits below 1000 on the wrong side and stores one digit of the last group, so most precisions give wrong digits (7 digits: 3.141005); above about 15000 digits its int variables can overflow although the assertion admits them.
* `C113_hidden_refuted`: visible vertices of a mesh: seen from a point in line with two vertices, a side that touches the range only at its border does not narrow it, and a vertex behind a wall is reported.
* `C124_repeated_vertex_refuted`, `C124_single_vertex_refuted`: cutting a polygon by a plane: a vertex touching the plane from behind appears twice in the back part, and a polygon behind the plane with a vertex on it gets a front part of one vertex.
* `C125_limit_refuted`, `C125_zero_refuted`, `C125_negative_hue_refuted`: random_index_generator(n) is documented for [0,n) but can return n (random_element then returns the end of the range); a random integer below 0 divides by zero; a slightly negative hue gives black.
* `C126_unchecked_refuted`: liu_polyline_offset compares only pieces with the original: a parallel copy that does not meet itself is returned although it runs through the original polyline.
* `C127_zero_side_refuted`: is_between holds for any point at the height of a side of length zero, so that a polyline with a repeated point reports points that are not on it.
* `C128_distance_order_refuted`, `C128_distance_tolerance_refuted`, `C128_coordinate_order_refuted`, `C128_segment_range_refuted`: distance_compare ignores the last of five coordinates and under a tolerance is no order sorting may use; coordinate_less_compare, offered for "less than order", sorts downwards; a ring of one point is read past its end.
* `C129_area_space_refuted`: exterior_product_area in space is documented as the magnitude of the cross product but returns the sum of its coordinates: it is zero on some perpendicular vectors.
* `C130_cost_refuted`: the scored selector of node_bsp_tree_2d calls classify with its arguments swapped: it rates what the other lines do to a segment, and may choose the line that cuts most.
* `C131_compose_refuted`: with a last row other than 0,...,0,1 the product of matrices is not the composition of the transformations: no division by the homogeneous coordinate takes place.
* `C132_mixed_scale_refuted`: fixed_point numbers with different run-time scales are added and compared by mantissa: 1.00 + 1.0 is 1.10.
* `C132_integer_type_refuted`: an integer combined with a fixed_point is scaled in its own type first: 1.00 + short(400) throws although the sum fits.
* `C132_integer_left_refuted`: an integer on the left of - or / becomes a number of the default run-time scale: with four digits 3 - 1.0000 is -97.00.
* `C132_function_fraction_refuted`: the functions on fixed_point work on the conversion to double, which drops the fraction: ceil(1.50) is 1.00 and floor(-1.50) is -1.00.
* `C132_function_scale_refuted`: the functions on fixed_point return a number of the default run-time scale, not that of the argument.
* `C133_equal_infinities_refuted`: with a tolerance, positive infinity is neither equal to, below nor above itself, so a default box or bound compared with infinity gets no answer.
* `C134_wrong_side_refuted`: the orientation of three points of doubles can be the wrong side and changes when the points are shifted cyclically: (0.5+, 0.5+), (12, 12), (24, 24).
* `C135_underflow_refuted`, `C135_overflow_refuted`: the distance of doubles underflows to zero for points 2^-600 apart and overflows to infinity for points 2^600 apart.
* `C136_mixed_types_refuted`: mapped_tolerance_comparison_policy looks only at the type of the first operand: with a policy for lengths in double, a length in int is less than one in double while that one is equal to it.
* `C137_order_refuted`: with a tolerance get_bounds can exclude a point by up to the tolerance, and the bounds depend on the order of the points.
* `C138_left_refuted`: on doubles point_in_polygon reports a point left of all vertices as inside because of rounding (coordinates -2^-60 beside 1), and reversing the polygon changes the answer.
* `C139_in_cell_refuted`, `C139_columns_wrap_refuted`: on doubles a contained point can lie outside the box get_cell_aabb reports for its cell; with 2^32 columns the column count wraps to zero and no point has a cell.
* `C89_no_boundary_refuted`: the uncalled point_in_solid_space_no_boundary can report a point of the empty space as solid, between two walls on one line that face opposite ways.
* `C140_axis_refuted`, `C140_range_refuted`: on doubles normalize of (49,0) gives 1-2^-53 and not 1; of (2^-600,0) the assertion on the length fails; of (2^600,0) it gives the zero vector.
* `C141_expand_policy_refuted`, `C141_exact_sum_refuted`, `C141_difference_refuted`: intervals of doubles: expand with a policy leaves a default interval empty when values fall; the sum is not rounded outwards and can miss the exact sum; the difference can be empty.
* `C142_tolerance_refuted`, `C142_nan_refuted`: the order of points of doubles is no strict weak order with a tolerance or with NaNs: equivalence is not transitive.
* `C143_nan_refuted`: a point of NaNs is reported inside every box of doubles by every policy, and every point inside a box with NaN corners.
* `C139_rows_wrap_refuted`: grid_traits.hpp:36-64: the number of rows is likewise the index of ymax plus one in 32 bits. With ymax - ymin = 4294967295 cells it wraps to zero, and grid_2d allocates columns with no cell: no contained point has a cell..
* `C19_invalid_type_refuted`: line_intersection.hpp:104-152: with an absolute tolerance line_segment_intersect can return e_invalid_intersection although the line crosses the segment and the point is written. The end point test compares the numerator, an area, with the tolerance, the crossing test the parameter; a parameter within the tolerance of 0 whose numerator is not leaves the initial value. segment_segment_intersection has a further test and never does so (C18_never_invalid)..
* `C144_overlap_far_refuted`: segment_segment_intersection.hpp:24-146 with utilities.hpp:134-213: with an absolute tolerance two short parallel segments are reported as overlapping however far apart they are, because the test of three points on a line compares an area with the tolerance.
* `C144_ray_missed_refuted`: ray_segment_intersection.hpp:26-120: with an absolute tolerance a ray misses a segment that it crosses in its middle at a small angle, because the nearly parallel branch then asks whether the origin of the ray is on the line of the segment.
* `C145_rectangle_refuted`: is_polygon_simple.hpp with segment_segment_intersection.hpp:24-146: with an absolute tolerance a rectangle of any width is answered not to be simple when its area is at most the tolerance.
* `C146_missed_refuted`: segment_segment_intersection.hpp:148-203: on doubles with integer coordinates below 2^29 a segment that starts at the midpoint of another is answered not to meet it, because the products are rounded.

## 5. What is not modelled

* Rounding of floating-point numbers, except where a theorem says so (C39, C133 to C135, C137 to C143).
* Compile-time machinery: traits, tags, concepts, access and construction
  policies, fusion adaptors, dimensions and units.  The
  model starts from the arithmetic these end up doing; for expression templates
  the choice of the operation by the operands' kinds is modelled (C118).
* Headers that do not compile when instantiated, so that there is no behaviour
  to model: `point_in_circumcircle.hpp`, `triangle_complex.hpp`,
  `polyline_polygon_intersection.hpp`, `split_self_intersections.hpp` (returns
  `true` where a vector is expected), `segment_polygon_intersect` of
  `segment_polygon_intersection.hpp`, `line_aabb` intersection.
* `moving_sphere_polygon_intersection.hpp` has no body but a failing assertion.
* Third-party code: Boost graph, allocator and random generators are modelled by
  their documented behaviour where a modelled function uses them (C39, C92);
  `glu_mesh_factory.hpp` is not modelled; nor is `predicates.hpp` (Shewchuk's
  adaptive predicates): its functions are written with old-style C parameter
  declarations, which no C++ compiler accepts, and nothing includes it.
* `trapezoidal_decomposition.hpp`: its include is commented out in the tests and it does
  not compile (explicit specialisations inside a class, missing `typename`).
* The segment sweep (C107) reserves space for 3n events; more queued events reallocate
  the map while a reference to the current event is held.  Memory is not modelled, so the
  theorems say nothing about that case.
* `convex_hull_divide_and_conquer.hpp` (backslashes in its includes, `merge` indexes a hull
  that is still empty) and `rational_utilities.hpp` (`get<0>` of a dependent type without
  `template`) cannot be used as they stand.
* `coqchk` lists, besides the axioms of section 6, sealed items of mathcomp's own
  modules (`finfun`, `finset`, `perm`, ...): they are opaque definitions of that
  library, loaded by the matrix files (C98), not assumptions of any theorem here;
  `Print Assumptions` reports the C98 theorems closed.

## 6. Axioms per theorem

Generated from the output of `Print Assumptions` (which also stands below each
theorem in the sources).

**Closed under the global context** (no axioms) (502 theorems):

C01_absolute_policy_coherent, C01_absolute_policy_meaning, C01_direct_policy_coherent, C01_fraction_policy_coherent, C01_fraction_policy_meaning, C01_negative_tolerance_refuted, C01_relative_policy_coherent, C01_relative_policy_meaning, C02_tolerant_equality_transitive_iff_zero, C02_tolerant_less_is_strict_partial_order, C03_lexicographical_is_dictionary_order, C03_lexicographical_transitive, C03_lexicographical_trichotomy, C03_point_equality, C03_reverse_lexicographical_2d, C03_reverse_lexicographical_3d, C03_variadic_compare, C04_tolerant_point_order_cycles, C04_tolerant_point_order_not_weak, C05_expand_gives_hull, C05_expand_least, C05_expand_order_irrelevant, C05_expand_with_policy_nonempty, C05_expand_with_policy_refuted, C06_boxes_intersect_iff_common_point, C06_contains_iff_subset, C06_corners, C06_expand_is_least_upper_bound, C06_point_in_box, C07_bounds_of_range, C07_bounds_tight, C07_segment_box, C07_tolerant_bounds_miss_at_most_tolerance, C07_tolerant_bounds_refuted, C08_point_box_distance, C08_point_box_distance_3d, C08_point_box_distance_zero_iff_inside, C09_box_box_distance, C09_box_box_distance_3d, C09_box_box_distance_3d_refuted, C09_box_box_distance_symmetric_zero, C10_point_segment_distance_is_minimum, C10_point_segment_distance_is_minimum_n, C11_closest_point_of_segment, C11_closest_point_of_segment_n, C11_parameter_of_projection, C11_two_point_overload_closest, C11_two_point_overload_undefined_iff_degenerate, C12_closest_points_of_two_segments, C12_segment_segment_distance_is_minimum, C12_tolerant_closest_points_on_segments, C12_tolerant_minimality_refuted, C13_no_edge_is_infinitely_far, C13_polyline_distance_exact, C13_same_as_brute_force, C14_large_polygons_ignore_closing_edges, C14_large_polygons_upper_bound, C14_polygon_distance_refuted, C14_small_polygons_exact, C15_orientation_interiority, C15_orientation_names_the_side, C15_orientation_symmetry, C15_orientation_transitivity, C16_degenerate_segment_refuted, C16_is_between_closed, C16_is_between_open, C17_vector_between, C18_collinear_touch_reported_endpoint_refuted, C18_crossing_iff_interior_point, C18_degenerate_segment_refuted, C18_never_invalid, C18_non_crossing_iff_disjoint, C18_segment_intersection_exact, C19_invalid_type_refuted, C19_line_line, C19_line_line_with_parameters, C19_line_segment, C20_non_crossing_iff_disjoint, C20_ray_segment, C20_ray_segment_type_agrees, C20_ray_segment_type_refuted, C21_ray_box_entrance_exit, C21_ray_box_iff_meets, C21_ray_box_single_point, C21_tolerant_ray_box_refuted, C22_polyline_box_exact, C22_segment_box_epsilon_complete, C22_segment_box_epsilon_refuted, C22_segment_box_exact, C22_segment_box_exact_space, C25_affine, C25_area_is_absolute, C25_area_is_sum_of_fan_triangles, C25_cut, C25_defined_iff_nonempty, C25_reversal, C25_rotation, C26_constant_off_the_boundary, C26_convex, C26_crossing_parity, C26_fewer_than_three_points, C26_outside_bounding_box, C26_parity_of_ray_crossings, C26_reversal, C26_rotation, C26_unbounded_component, C27_clockwise_refuted, C27_clockwise_rejects_everything, C27_counter_clockwise, C27_degenerate_accepts_the_line, C27_in_space, C27_in_space_refuted, C27_tolerant_keeps_the_triangle, C28_cell_geometry, C28_cells_cover, C28_cells_disjoint, C28_lookup, C28_wrap_refuted, C29_access_by_point, C29_history, C29_references_stay_valid, C30_digital_line, C30_overflow_refuted, C30_segment, C31_life, C31_visits_component, C32_accepts_iff_meets, C32_clip_exact, C32_ends_inside, C32_inside_unchanged, C32_tolerance_refuted, C33_empty_refuted, C33_only_range_refuted, C33_order, C33_policies, C33_range_search_complete, C33_visits_cells, C34_border_refuted, C34_convex, C34_convex_region, C34_extension_refuted, C34_locate, C34_locate_generic, C34_stored, C34_terminates, C35_rules, C35_score, C35_split, C35_terminates, C38_fold_refuted, C38_polyline, C38_polyline_vertices, C40_adjacency, C40_adjacent_side, C40_manifold, C40_nonmanifold_refuted, C41_decomposition, C41_run_time, C41_run_time_refuted, C41_solve, C41_throws_iff_singular, C42_add, C42_compare, C42_div, C42_div_zero, C42_fmod, C42_increment, C42_mul, C42_neg_abs, C42_sub, C44_memoize, C45_counterclockwise_refuted, C45_endless_refuted, C45_extreme_index_of_triangle, C45_quadrilaterals_refuted, C45_triangles, C45_true_means_overlap, C46_first_ray_refuted, C46_hull, C46_lowest_refuted, C46_returns, C47_point_distance_dims_1_to_4, C47_point_distance_high_dim_ignores_last, C47_point_distance_refuted, C48_segment_compare_refuted, C48_segment_compare_uses_first_point_only, C48_segment_interval_compare_meaning, C48_segment_interval_compare_strict_order, C49_add_interval_image, C49_add_scalar_image, C49_clamp_nearest, C49_div_negative_scalar_refuted, C49_div_positive_scalar_image, C49_div_scalar_undefined, C49_intersects_closed_misses_only_touching, C49_intersects_closed_refuted, C49_intersects_closed_sound, C49_intersects_direct, C49_intersects_right_open, C49_intersects_tolerance, C49_min_max, C49_mul_negative_scalar_refuted, C49_mul_positive_scalar_image, C49_scalar_minus_interval_refuted, C49_sign, C49_sub_interval_refuted, C49_sub_scalar_image, C49_sub_single_value, C50_angle_compare_strict_weak_order, C51_oriented_crossing, C51_t_junction_refuted, C52_vertical_horizontal, C52_x_of_y, C52_x_of_y_vertical_refuted, C52_y_of_x, C53_point_polygon_closest_point, C53_point_polygon_collection_closest_point, C53_point_polygon_distance, C53_point_polyline_closest_point, C53_point_polyline_distance, C53_repeated_vertex_closest_point_refuted, C54_segment_polygon_closest_point, C54_segment_polygon_distance, C54_segment_polyline_closest_point, C54_segment_polyline_distance, C55_point_line_distance, C55_point_obb_closest_point, C55_point_obb_distance, C55_segment_obb_distance_measured, C55_segment_obb_distance_refuted, C56_parallel_line_refuted, C56_ray_line_behind_reference_refuted, C56_ray_line_exact, C56_ray_line_nonparallel, C57_crossing_is_interior_refuted, C57_degenerate_segment_undefined, C57_non_crossing_iff_disjoint, C57_segment_intersection_in_space, C58_ball_box, C58_disc_box, C58_disc_box_point, C58_disc_obb, C59_oriented_boxes_exact, C60_parallel_undefined, C60_segment_plane, C61_common_start_leaves_outputs_unset, C61_large_polygons_ignore_closing_edges, C61_polyline_closest_points, C61_small_polygons, C61_small_polylines_always_assign, C67_centroid_is_weighted_mean, C67_triangle, C67_undefined_iff_zero_area, C68_border_of_simple_polygons, C68_border_parity, C68_doubled_edge_refuted, C68_vertex, C69_hull_is_half_plane_intersection, C69_point_in_convex_polygon, C69_point_in_convex_quadrilateral, C70_concave, C70_next_prev_inverse, C70_point_sequences_equal, C70_polygon_offset, C70_polygon_offset_refuted, C70_polygon_segments, C70_polygons_equal, C70_polyline_segments, C71_history, C72_end_cell_refuted, C72_walk, C73_stoppable, C74_boundary_outside, C74_filled_polygon, C74_larger_polygon_refuted, C79_first_vertex_refuted, C79_identified_count, C79_identified_refuted, C79_last_vertex_refuted, C79_polygon, C79_polygon_area, C79_polygon_vertices, C80_clean_polyline, C80_closing_refuted, C80_identified, C80_polygon, C80_polyline, C80_vertices, C82_single_point_refuted, C83_binary_runtime_refuted, C83_compare_rounded_refuted, C83_convert_traits_refuted, C83_from_rational, C83_integer_round_trip, C83_to_float_refuted, C83_to_float_truncates, C86_moving_boxes, C87_moving_triangles, C87_quadrilaterals_refuted, C88_on_line_refuted, C88_painters, C88_painters_stored, C89_between_refuted, C89_convex, C89_convex_room, C89_exact, C89_locate, C89_no_boundary, C89_no_boundary_refuted, C89_no_walls, C90_min_distance, C91_border_refuted, C91_on_line_refuted, C91_ray, C92_chains, C92_copy_refuted, C92_endless_refuted, C92_histories, C92_merge_refuted, C93_one_point_refuted, C93_polygon_border, C93_polyline, C94_all_sides_refuted, C94_polylines, C95_flat_triangle_refuted, C95_memoized, C95_self, C95_simple, C95_straight_refuted, C95_triangle, C96_holes, C96_outside_hole_refuted, C97_polygon, C97_polyline, C97_projects, C98_determinant, C98_identity, C98_inverse, C98_product, C98_singular, C98_trace, C99_moved, C99_one_point_refuted, C99_polygons, C99_polylines, C99_repeated_refuted, C100_assertion_refuted, C100_closed_refuted, C100_farthest, C100_flat, C100_result, C100_tolerance_refuted, C101_closest, C101_combined, C101_containing, C101_one_point_refuted, C103_additions, C103_history, C103_zero_length_refuted, C107_every_pair, C107_single_point_refuted, C107_sweep, C108_clockwise_refuted, C108_flat_triangle_refuted, C108_points, C108_points_clockwise, C108_single_point_refuted, C108_test, C109_before_start_refuted, C109_given_side, C109_nearest_corner_is_outer, C109_side_of_a_polyline_partial, C109_too_short, C110_convex, C110_epsilon_complete, C110_polygon_box_exact, C110_single_point_undefined, C112_behind_refuted, C112_points_exact_partial, C112_segment_in_range_partial, C112_with_points_defined, C112_with_points_overlooks_refuted, C112_with_points_sound_partial, C112_wrong_points_refuted, C113_endless_refuted, C113_hidden_refuted, C113_no_cycle, C113_sight_inside, C113_visible_vertices_complete_partial, C113_visible_vertices_exact_partial, C114_corner_walk, C114_falling_in_column_refuted, C115_answer, C115_contact, C115_corners_visited, C115_disjoint, C115_first_inside_second_refuted, C115_none_iff_disjoint, C115_overlap_exact, C115_second_inside_first, C115_terminates, C115_vertex_is_overlapping_refuted, C117_filled_with_holes, C117_one_hole_left_out, C117_two_holes_refuted, C118_dimension_one_refuted, C118_dimensions_unchecked_refuted, C118_matrix_times_number_refuted, C118_matrix_times_point_refuted, C118_matrix_times_vector_refuted, C118_no_direction, C118_no_more, C118_refused, C118_refused_function, C118_singular, C118_tensor_of_vectors_refuted, C118_tensor_vector_matrix_refuted, C118_unique, C118_value, C119_assign, C119_assign_point, C119_compound, C119_cross_refuted, C119_norm_refuted, C119_shift, C120_flat_declarations, C120_nested_refuted, C122_collinear_refuted, C122_crossing_refuted, C122_never_less_partial, C122_parallel_partial, C122_point_refuted, C122_symmetry_refuted, C123_defined, C123_overflow_refuted, C124_border_exact, C124_classify, C124_convex_exact, C124_cut_total, C124_repeated_vertex_refuted, C124_single_vertex_refuted, C124_winding, C125_channel_unique, C125_even, C125_hsv, C125_limit_refuted, C125_negative_hue_refuted, C125_random_element, C125_random_integer, C125_zero_refuted, C126_apart, C126_cover, C126_trim, C128_boxes, C128_coordinate_order_refuted, C128_distance_order, C128_distance_order_refuted, C128_distance_tolerance_refuted, C128_pairs, C128_segment_range, C128_segment_range_refuted, C128_segments_pass, C130_cost_refuted, C130_scored, C130_selects, C132_construct, C132_function_fraction_refuted, C132_function_scale_refuted, C132_function_whole, C132_function_whole_part, C132_integer, C132_integer_fails, C132_integer_left, C132_integer_left_refuted, C132_integer_order, C132_integer_type_refuted, C132_limits, C132_mixed_scale_refuted, C132_same_scale, C132_same_scale_order, C132_stream, C136_chosen, C136_coherent, C136_comparable, C136_mixed_types_refuted, C136_one_tolerance, C136_registrations, C136_tolerance_reaches_all, C144_line_segment_not_missed, C144_line_segment_point, C144_overlap_far_refuted, C144_ray_missed_refuted, C144_ray_segment_meaning, C144_segments_meaning, C144_segments_not_missed, C145_polylines, C145_rectangle_refuted, C145_segment_border, C145_segment_polyline, C145_self, C145_simple, C145_simple_holes

**`ClassicalDedekindReals.sig_forall_dec`, `ClassicalDedekindReals.sig_not_dec`, `FunctionalExtensionality.functional_extensionality_dep`** (91 theorems):

C17_vector_between_angles, C23_circle_circle, C24_ray_sphere, C24_ray_sphere_tolerance_refuted, C36_before, C36_beyond_refuted, C36_lengths, C36_position, C36_split, C37_pieces_small, C37_split_segment, C37_zero_size_refuted, C39_every_position, C39_random_position, C43_heading, C43_range_0_2pi, C43_range_minus_pi_to_pi, C50_angle_compare_is_polar_order, C50_point_angle_compare, C50_pseudo_angle, C62_moving_spheres, C62_touching_refuted, C63_point_segment_refuted, C63_segment_sphere, C63_segment_sphere_two, C65_at_rest_refuted, C65_moving_sphere_segment, C66_inside_refuted, C66_parallel_refuted, C66_segment_capsule, C76_rotation_lengths_refuted, C76_rotation_lists, C76_rotation_rigid, C76_rotation_turns, C77_bisect, C77_bisect_not_antiparallel, C77_lengths_refuted, C78_is_antiparallel, C78_lerp, C81_back, C81_ends, C81_front, C81_front_vertices, C81_negative_refuted, C81_nothing_left, C82_length, C82_middle, C82_middle_undefined_refuted, C82_perimeter, C84_degenerate_refuted, C84_find_triangle, C85_tolerance, C102_endless_refuted, C102_half, C102_nothing, C102_subsequence, C104_backwards, C104_bound, C104_curvature_of_the_circle, C104_defined, C104_every_circle, C104_motion, C104_totals, C104_totals_undefined, C105_always_right_refuted, C105_inflection_points, C105_never_right, C105_split_at_inflections, C105_split_by_total, C106_offset, C106_parallel, C106_straight_refuted, C106_turn_back_refuted, C106_undefined, C106_untrimmed, C111_aligned_box_partial, C111_oriented_box_partial, C111_too_early_refuted, C111_too_late_refuted, C116_inside_refuted, C116_sphere_polyline, C121_to_cartesian, C126_unchecked_refuted, C127_off, C127_on, C127_zero_side_refuted, C129_area_space, C129_area_space_refuted, C129_cross, C129_projection, C129_projection_zero

**`ClassicalDedekindReals.sig_forall_dec`, `ClassicalDedekindReals.sig_not_dec`, `Classical_Prop.classic`, `FunctionalExtensionality.functional_extensionality_dep`** (16 theorems):

C50_every_vector_has_a_polar_angle, C75_angle_between_points, C75_vector_angle, C78_slerp, C78_slerp_ends, C78_slerp_opposite_refuted, C78_slerp_same, C85_triangle_box, C121_access, C121_integer_refuted, C121_neutral_refuted, C121_round_trip, C121_to_polar, C123_digits, C123_seven_refuted, C123_too_large

**`ClassicalDedekindReals.sig_forall_dec`, `FunctionalExtensionality.functional_extensionality_dep`** (13 theorems):

C39_constructible, C39_triangles, C64_moving_sphere_plane, C76_rotation_maps, C129_area_plane, C129_volume, C131_compose, C131_compose_refuted, C131_difference, C131_identity, C131_point, C131_rigid, C131_vector

**`ClassicalDedekindReals.sig_forall_dec`, `ClassicalDedekindReals.sig_not_dec`, `Classical_Prop.classic`, `FloatAxioms.Prim2SF_SF2Prim`, `FloatAxioms.Prim2SF_valid`, `FloatAxioms.SF2Prim_Prim2SF`, `FloatAxioms.abs_spec`, `FloatAxioms.eqb_spec`, `FloatAxioms.leb_spec`, `FloatAxioms.ltb_spec`, `FloatAxioms.opp_spec`, `FloatAxioms.sub_spec`, `FunctionalExtensionality.functional_extensionality_dep`, `PrimFloat.abs`, `PrimFloat.div`, `PrimFloat.eqb`, `PrimFloat.float`, `PrimFloat.frshiftexp`, `PrimFloat.ldshiftexp`, `PrimFloat.leb`, `PrimFloat.ltb`, `PrimFloat.normfr_mantissa`, `PrimFloat.of_uint63`, `PrimFloat.opp`, `PrimFloat.sub`, `PrimInt63.eqb`, `PrimInt63.int`, `PrimInt63.land`, `PrimInt63.lor`, `PrimInt63.lsl`, `PrimInt63.lsr`, `PrimInt63.sub`** (12 theorems):

C133_between, C133_infinite, C133_tolerance, C133_zero_tolerance, C137_bounds, C137_direct, C137_tolerance, C141_expand_policy, C141_intersects_policy, C141_intersects_tolerance, C143_symmetric, C143_tolerance

**`ClassicalDedekindReals.sig_forall_dec`, `ClassicalDedekindReals.sig_not_dec`, `Classical_Prop.classic`, `FloatAxioms.Prim2SF_SF2Prim`, `FloatAxioms.Prim2SF_valid`, `FloatAxioms.SF2Prim_Prim2SF`, `FloatAxioms.abs_spec`, `FloatAxioms.eqb_spec`, `FloatAxioms.leb_spec`, `FloatAxioms.ltb_spec`, `FunctionalExtensionality.functional_extensionality_dep`, `PrimFloat.abs`, `PrimFloat.div`, `PrimFloat.eqb`, `PrimFloat.float`, `PrimFloat.frshiftexp`, `PrimFloat.ldshiftexp`, `PrimFloat.leb`, `PrimFloat.ltb`, `PrimFloat.normfr_mantissa`, `PrimFloat.of_uint63`, `PrimFloat.opp`, `PrimInt63.eqb`, `PrimInt63.int`, `PrimInt63.land`, `PrimInt63.lor`, `PrimInt63.lsl`, `PrimInt63.lsr`, `PrimInt63.sub`** (7 theorems):

C133_direct, C141_expand, C141_expand_order, C143_boxes, C143_contains, C143_expand, C143_point

**`ClassicalDedekindReals.sig_forall_dec`, `ClassicalDedekindReals.sig_not_dec`, `Classical_Prop.classic`, `FloatAxioms.Prim2SF_SF2Prim`, `FloatAxioms.Prim2SF_valid`, `FloatAxioms.SF2Prim_Prim2SF`, `FloatAxioms.abs_spec`, `FloatAxioms.eqb_spec`, `FloatAxioms.leb_spec`, `FloatAxioms.ltb_spec`, `FloatAxioms.mul_spec`, `FloatAxioms.opp_spec`, `FloatAxioms.sub_spec`, `FunctionalExtensionality.functional_extensionality_dep`, `PrimFloat.abs`, `PrimFloat.div`, `PrimFloat.eqb`, `PrimFloat.float`, `PrimFloat.frshiftexp`, `PrimFloat.ldshiftexp`, `PrimFloat.leb`, `PrimFloat.ltb`, `PrimFloat.mul`, `PrimFloat.normfr_mantissa`, `PrimFloat.of_uint63`, `PrimFloat.opp`, `PrimFloat.sub`, `PrimInt63.eqb`, `PrimInt63.int`, `PrimInt63.land`, `PrimInt63.lor`, `PrimInt63.lsl`, `PrimInt63.lsr`, `PrimInt63.sub`** (6 theorems):

C134_coinciding, C134_exchange, C134_integer_side, C134_near_points, C134_point_side, C134_vector_side

**`ClassicalDedekindReals.sig_forall_dec`, `FunctionalExtensionality.functional_extensionality_dep`, `PrimFloat.abs`, `PrimFloat.div`, `PrimFloat.eqb`, `PrimFloat.float`, `PrimFloat.frshiftexp`, `PrimFloat.leb`, `PrimFloat.ltb`, `PrimFloat.mul`, `PrimFloat.normfr_mantissa`, `PrimFloat.sub`, `PrimInt63.eqb`, `PrimInt63.int`, `PrimInt63.land`, `PrimInt63.lsr`** (4 theorems):

C134_wrong_side_refuted, C138_left_refuted, C139_columns_wrap_refuted, C139_rows_wrap_refuted

**`ClassicalDedekindReals.sig_forall_dec`, `ClassicalDedekindReals.sig_not_dec`, `Classical_Prop.classic`, `FloatAxioms.Prim2SF_SF2Prim`, `FloatAxioms.Prim2SF_valid`, `FloatAxioms.SF2Prim_Prim2SF`, `FloatAxioms.abs_spec`, `FloatAxioms.add_spec`, `FloatAxioms.div_spec`, `FloatAxioms.eqb_spec`, `FloatAxioms.leb_spec`, `FloatAxioms.ltb_spec`, `FloatAxioms.mul_spec`, `FloatAxioms.opp_spec`, `FloatAxioms.sub_spec`, `FunctionalExtensionality.functional_extensionality_dep`, `PrimFloat.abs`, `PrimFloat.add`, `PrimFloat.div`, `PrimFloat.eqb`, `PrimFloat.float`, `PrimFloat.frshiftexp`, `PrimFloat.ldshiftexp`, `PrimFloat.leb`, `PrimFloat.ltb`, `PrimFloat.mul`, `PrimFloat.normfr_mantissa`, `PrimFloat.of_uint63`, `PrimFloat.opp`, `PrimFloat.sub`, `PrimInt63.eqb`, `PrimInt63.int`, `PrimInt63.land`, `PrimInt63.lor`, `PrimInt63.lsl`, `PrimInt63.lsr`, `PrimInt63.sub`** (4 theorems):

C146_as_exact, C146_common_points, C146_segment_polyline, C146_simple

**`ClassicalDedekindReals.sig_forall_dec`, `ClassicalDedekindReals.sig_not_dec`, `Classical_Prop.classic`, `FloatAxioms.Prim2SF_SF2Prim`, `FloatAxioms.Prim2SF_valid`, `FloatAxioms.SF2Prim_Prim2SF`, `FloatAxioms.abs_spec`, `FloatAxioms.add_spec`, `FloatAxioms.eqb_spec`, `FloatAxioms.leb_spec`, `FloatAxioms.ltb_spec`, `FloatAxioms.mul_spec`, `FloatAxioms.opp_spec`, `FloatAxioms.sub_spec`, `FunctionalExtensionality.functional_extensionality_dep`, `PrimFloat.abs`, `PrimFloat.add`, `PrimFloat.div`, `PrimFloat.eqb`, `PrimFloat.float`, `PrimFloat.frshiftexp`, `PrimFloat.ldshiftexp`, `PrimFloat.leb`, `PrimFloat.ltb`, `PrimFloat.mul`, `PrimFloat.normfr_mantissa`, `PrimFloat.of_uint63`, `PrimFloat.opp`, `PrimFloat.sub`, `PrimInt63.eqb`, `PrimInt63.int`, `PrimInt63.land`, `PrimInt63.lor`, `PrimInt63.lsl`, `PrimInt63.lsr`, `PrimInt63.sub`** (3 theorems):

C133_fits, C133_mirrored, C142_tolerance

**`ClassicalDedekindReals.sig_forall_dec`, `ClassicalDedekindReals.sig_not_dec`, `Classical_Prop.classic`, `FloatAxioms.Prim2SF_SF2Prim`, `FloatAxioms.Prim2SF_valid`, `FloatAxioms.SF2Prim_Prim2SF`, `FloatAxioms.abs_spec`, `FloatAxioms.add_spec`, `FloatAxioms.div_spec`, `FloatAxioms.eqb_spec`, `FloatAxioms.mul_spec`, `FloatAxioms.opp_spec`, `FloatAxioms.sqrt_spec`, `FloatAxioms.sub_spec`, `FunctionalExtensionality.functional_extensionality_dep`, `PrimFloat.abs`, `PrimFloat.add`, `PrimFloat.div`, `PrimFloat.eqb`, `PrimFloat.float`, `PrimFloat.frshiftexp`, `PrimFloat.ldshiftexp`, `PrimFloat.ltb`, `PrimFloat.mul`, `PrimFloat.normfr_mantissa`, `PrimFloat.of_uint63`, `PrimFloat.opp`, `PrimFloat.sqrt`, `PrimFloat.sub`, `PrimInt63.eqb`, `PrimInt63.int`, `PrimInt63.land`, `PrimInt63.lor`, `PrimInt63.lsl`, `PrimInt63.lsr`, `PrimInt63.sub`** (3 theorems):

C140_at_most_one, C140_direction, C140_unit

**`ClassicalDedekindReals.sig_forall_dec`, `ClassicalDedekindReals.sig_not_dec`, `Classical_Prop.classic`, `FloatAxioms.Prim2SF_SF2Prim`, `FloatAxioms.Prim2SF_valid`, `FloatAxioms.SF2Prim_Prim2SF`, `FloatAxioms.abs_spec`, `FloatAxioms.eqb_spec`, `FloatAxioms.ltb_spec`, `FunctionalExtensionality.functional_extensionality_dep`, `PrimFloat.abs`, `PrimFloat.div`, `PrimFloat.eqb`, `PrimFloat.float`, `PrimFloat.frshiftexp`, `PrimFloat.ldshiftexp`, `PrimFloat.leb`, `PrimFloat.ltb`, `PrimFloat.normfr_mantissa`, `PrimFloat.of_uint63`, `PrimFloat.opp`, `PrimInt63.eqb`, `PrimInt63.int`, `PrimInt63.land`, `PrimInt63.lor`, `PrimInt63.lsl`, `PrimInt63.lsr`, `PrimInt63.sub`** (3 theorems):

C142_equivalent, C142_meaning, C142_strict_weak_order

**`ClassicalDedekindReals.sig_forall_dec`, `ClassicalDedekindReals.sig_not_dec`, `Classical_Prop.classic`, `FloatAxioms.Prim2SF_SF2Prim`, `FloatAxioms.Prim2SF_valid`, `FloatAxioms.SF2Prim_Prim2SF`, `FloatAxioms.eqb_spec`, `FloatAxioms.leb_spec`, `FloatAxioms.ltb_spec`, `FloatAxioms.sub_spec`, `FunctionalExtensionality.functional_extensionality_dep`, `PrimFloat.abs`, `PrimFloat.add`, `PrimFloat.div`, `PrimFloat.eqb`, `PrimFloat.float`, `PrimFloat.frshiftexp`, `PrimFloat.ldshiftexp`, `PrimFloat.leb`, `PrimFloat.ltb`, `PrimFloat.mul`, `PrimFloat.normfr_mantissa`, `PrimFloat.of_uint63`, `PrimFloat.opp`, `PrimFloat.sub`, `PrimInt63.eqb`, `PrimInt63.int`, `PrimInt63.land`, `PrimInt63.lor`, `PrimInt63.lsl`, `PrimInt63.lsr`, `PrimInt63.sub`** (2 theorems):

C133_nan, C143_nan_refuted

**`ClassicalDedekindReals.sig_forall_dec`, `ClassicalDedekindReals.sig_not_dec`, `Classical_Prop.classic`, `FloatAxioms.Prim2SF_SF2Prim`, `FloatAxioms.Prim2SF_valid`, `FloatAxioms.SF2Prim_Prim2SF`, `FloatAxioms.abs_spec`, `FloatAxioms.add_spec`, `FloatAxioms.eqb_spec`, `FloatAxioms.mul_spec`, `FloatAxioms.opp_spec`, `FloatAxioms.sqrt_spec`, `FloatAxioms.sub_spec`, `FunctionalExtensionality.functional_extensionality_dep`, `PrimFloat.abs`, `PrimFloat.add`, `PrimFloat.div`, `PrimFloat.eqb`, `PrimFloat.float`, `PrimFloat.frshiftexp`, `PrimFloat.ldshiftexp`, `PrimFloat.ltb`, `PrimFloat.mul`, `PrimFloat.normfr_mantissa`, `PrimFloat.of_uint63`, `PrimFloat.opp`, `PrimFloat.sqrt`, `PrimFloat.sub`, `PrimInt63.eqb`, `PrimInt63.int`, `PrimInt63.land`, `PrimInt63.lor`, `PrimInt63.lsl`, `PrimInt63.lsr`, `PrimInt63.sub`** (2 theorems):

C135_distance_error, C140_length

**`ClassicalDedekindReals.sig_forall_dec`, `FunctionalExtensionality.functional_extensionality_dep`, `PrimFloat.abs`, `PrimFloat.div`, `PrimFloat.eqb`, `PrimFloat.float`, `PrimFloat.frshiftexp`, `PrimFloat.leb`, `PrimFloat.ltb`, `PrimFloat.normfr_mantissa`, `PrimFloat.opp`, `PrimFloat.sub`, `PrimInt63.eqb`, `PrimInt63.int`, `PrimInt63.land`, `PrimInt63.lsr`** (2 theorems):

C137_order_refuted, C142_tolerance_refuted

**`ClassicalDedekindReals.sig_forall_dec`, `ClassicalDedekindReals.sig_not_dec`, `Classical_Prop.classic`, `FloatAxioms.Prim2SF_SF2Prim`, `FloatAxioms.Prim2SF_valid`, `FloatAxioms.SF2Prim_Prim2SF`, `FloatAxioms.abs_spec`, `FloatAxioms.eqb_spec`, `FloatAxioms.leb_spec`, `FloatAxioms.ltb_spec`, `FloatAxioms.mul_spec`, `FloatAxioms.sub_spec`, `FunctionalExtensionality.functional_extensionality_dep`, `PrimFloat.abs`, `PrimFloat.div`, `PrimFloat.eqb`, `PrimFloat.float`, `PrimFloat.frshiftexp`, `PrimFloat.ldshiftexp`, `PrimFloat.leb`, `PrimFloat.ltb`, `PrimFloat.mul`, `PrimFloat.normfr_mantissa`, `PrimFloat.of_uint63`, `PrimFloat.opp`, `PrimFloat.sub`, `PrimInt63.eqb`, `PrimInt63.int`, `PrimInt63.land`, `PrimInt63.lor`, `PrimInt63.lsl`, `PrimInt63.lsr`, `PrimInt63.sub`** (2 theorems):

C138_integer_exact, C138_outside

**`ClassicalDedekindReals.sig_forall_dec`, `ClassicalDedekindReals.sig_not_dec`, `Classical_Prop.classic`, `FloatAxioms.Prim2SF_SF2Prim`, `FloatAxioms.Prim2SF_valid`, `FloatAxioms.SF2Prim_Prim2SF`, `FloatAxioms.abs_spec`, `FloatAxioms.div_spec`, `FloatAxioms.eqb_spec`, `FloatAxioms.leb_spec`, `FloatAxioms.ltb_spec`, `FloatAxioms.mul_spec`, `FloatAxioms.sub_spec`, `FunctionalExtensionality.functional_extensionality_dep`, `PrimFloat.abs`, `PrimFloat.div`, `PrimFloat.eqb`, `PrimFloat.float`, `PrimFloat.frshiftexp`, `PrimFloat.ldshiftexp`, `PrimFloat.leb`, `PrimFloat.ltb`, `PrimFloat.mul`, `PrimFloat.normfr_mantissa`, `PrimFloat.of_uint63`, `PrimFloat.opp`, `PrimFloat.sub`, `PrimInt63.eqb`, `PrimInt63.int`, `PrimInt63.land`, `PrimInt63.lor`, `PrimInt63.lsl`, `PrimInt63.lsr`, `PrimInt63.sub`** (2 theorems):

C139_cell_exists, C139_index_in_range

**`ClassicalDedekindReals.sig_forall_dec`, `ClassicalDedekindReals.sig_not_dec`, `Classical_Prop.classic`, `FloatAxioms.Prim2SF_SF2Prim`, `FloatAxioms.Prim2SF_valid`, `FloatAxioms.SF2Prim_Prim2SF`, `FloatAxioms.abs_spec`, `FloatAxioms.div_spec`, `FloatAxioms.eqb_spec`, `FloatAxioms.ltb_spec`, `FloatAxioms.mul_spec`, `FloatAxioms.sub_spec`, `FunctionalExtensionality.functional_extensionality_dep`, `PrimFloat.abs`, `PrimFloat.div`, `PrimFloat.eqb`, `PrimFloat.float`, `PrimFloat.frshiftexp`, `PrimFloat.ldshiftexp`, `PrimFloat.ltb`, `PrimFloat.mul`, `PrimFloat.normfr_mantissa`, `PrimFloat.of_uint63`, `PrimFloat.opp`, `PrimFloat.sub`, `PrimInt63.eqb`, `PrimInt63.int`, `PrimInt63.land`, `PrimInt63.lor`, `PrimInt63.lsl`, `PrimInt63.lsr`, `PrimInt63.sub`** (2 theorems):

C139_index_close, C139_monotone

**`ClassicalDedekindReals.sig_forall_dec`, `FunctionalExtensionality.functional_extensionality_dep`, `PrimFloat.abs`, `PrimFloat.add`, `PrimFloat.div`, `PrimFloat.eqb`, `PrimFloat.float`, `PrimFloat.frshiftexp`, `PrimFloat.ltb`, `PrimFloat.mul`, `PrimFloat.normfr_mantissa`, `PrimFloat.sqrt`, `PrimInt63.eqb`, `PrimInt63.int`, `PrimInt63.land`, `PrimInt63.lsr`** (2 theorems):

C140_axis_refuted, C140_range_refuted

**`PrimFloat.eqb`, `PrimFloat.float`, `PrimFloat.leb`, `PrimFloat.ltb`** (2 theorems):

C142_nan_refuted, C142_sequence_equals

**`PrimFloat.add`, `PrimFloat.div`, `PrimFloat.float`, `PrimFloat.ltb`** (1 theorems):

C39_double_refuted

**`FloatAxioms.Prim2SF_SF2Prim`, `FloatAxioms.Prim2SF_valid`, `FloatAxioms.SF2Prim_Prim2SF`, `FloatAxioms.leb_spec`, `FloatAxioms.ltb_spec`, `PrimFloat.abs`, `PrimFloat.div`, `PrimFloat.eqb`, `PrimFloat.float`, `PrimFloat.frshiftexp`, `PrimFloat.ldshiftexp`, `PrimFloat.leb`, `PrimFloat.ltb`, `PrimFloat.normfr_mantissa`, `PrimFloat.of_uint63`, `PrimFloat.opp`, `PrimFloat.sub`, `PrimInt63.eqb`, `PrimInt63.int`, `PrimInt63.land`, `PrimInt63.lor`, `PrimInt63.lsl`, `PrimInt63.lsr`, `PrimInt63.sub`** (1 theorems):

C133_equal_infinities_refuted

**`ClassicalDedekindReals.sig_forall_dec`, `ClassicalDedekindReals.sig_not_dec`, `Classical_Prop.classic`, `FloatAxioms.Prim2SF_SF2Prim`, `FloatAxioms.Prim2SF_valid`, `FloatAxioms.SF2Prim_Prim2SF`, `FloatAxioms.abs_spec`, `FloatAxioms.eqb_spec`, `FloatAxioms.ltb_spec`, `FloatAxioms.mul_spec`, `FloatAxioms.opp_spec`, `FloatAxioms.sub_spec`, `FunctionalExtensionality.functional_extensionality_dep`, `PrimFloat.abs`, `PrimFloat.div`, `PrimFloat.eqb`, `PrimFloat.float`, `PrimFloat.frshiftexp`, `PrimFloat.ldshiftexp`, `PrimFloat.leb`, `PrimFloat.ltb`, `PrimFloat.mul`, `PrimFloat.normfr_mantissa`, `PrimFloat.of_uint63`, `PrimFloat.opp`, `PrimFloat.sub`, `PrimInt63.eqb`, `PrimInt63.int`, `PrimInt63.land`, `PrimInt63.lor`, `PrimInt63.lsl`, `PrimInt63.lsr`, `PrimInt63.sub`** (1 theorems):

C134_integer_exact

**`ClassicalDedekindReals.sig_forall_dec`, `ClassicalDedekindReals.sig_not_dec`, `Classical_Prop.classic`, `FloatAxioms.Prim2SF_SF2Prim`, `FloatAxioms.Prim2SF_valid`, `FloatAxioms.SF2Prim_Prim2SF`, `FloatAxioms.abs_spec`, `FloatAxioms.add_spec`, `FloatAxioms.eqb_spec`, `FloatAxioms.leb_spec`, `FloatAxioms.mul_spec`, `FloatAxioms.opp_spec`, `FloatAxioms.sqrt_spec`, `FloatAxioms.sub_spec`, `FunctionalExtensionality.functional_extensionality_dep`, `PrimFloat.abs`, `PrimFloat.add`, `PrimFloat.div`, `PrimFloat.eqb`, `PrimFloat.float`, `PrimFloat.frshiftexp`, `PrimFloat.ldshiftexp`, `PrimFloat.leb`, `PrimFloat.ltb`, `PrimFloat.mul`, `PrimFloat.normfr_mantissa`, `PrimFloat.of_uint63`, `PrimFloat.opp`, `PrimFloat.sqrt`, `PrimFloat.sub`, `PrimInt63.eqb`, `PrimInt63.int`, `PrimInt63.land`, `PrimInt63.lor`, `PrimInt63.lsl`, `PrimInt63.lsr`, `PrimInt63.sub`** (1 theorems):

C135_distance

**`ClassicalDedekindReals.sig_forall_dec`, `ClassicalDedekindReals.sig_not_dec`, `Classical_Prop.classic`, `FloatAxioms.Prim2SF_SF2Prim`, `FloatAxioms.Prim2SF_valid`, `FloatAxioms.SF2Prim_Prim2SF`, `FloatAxioms.abs_spec`, `FloatAxioms.add_spec`, `FloatAxioms.eqb_spec`, `FloatAxioms.mul_spec`, `FloatAxioms.opp_spec`, `FloatAxioms.sub_spec`, `FunctionalExtensionality.functional_extensionality_dep`, `PrimFloat.abs`, `PrimFloat.add`, `PrimFloat.div`, `PrimFloat.eqb`, `PrimFloat.float`, `PrimFloat.frshiftexp`, `PrimFloat.ldshiftexp`, `PrimFloat.ltb`, `PrimFloat.mul`, `PrimFloat.normfr_mantissa`, `PrimFloat.of_uint63`, `PrimFloat.opp`, `PrimFloat.sub`, `PrimInt63.eqb`, `PrimInt63.int`, `PrimInt63.land`, `PrimInt63.lor`, `PrimInt63.lsl`, `PrimInt63.lsr`, `PrimInt63.sub`** (1 theorems):

C135_error

**`ClassicalDedekindReals.sig_forall_dec`, `FunctionalExtensionality.functional_extensionality_dep`, `PrimFloat.abs`, `PrimFloat.add`, `PrimFloat.div`, `PrimFloat.eqb`, `PrimFloat.float`, `PrimFloat.frshiftexp`, `PrimFloat.ltb`, `PrimFloat.mul`, `PrimFloat.normfr_mantissa`, `PrimFloat.sqrt`, `PrimFloat.sub`, `PrimInt63.eqb`, `PrimInt63.int`, `PrimInt63.land`, `PrimInt63.lsr`** (1 theorems):

C135_underflow_refuted

**`PrimFloat.abs`, `PrimFloat.add`, `PrimFloat.eqb`, `PrimFloat.float`, `PrimFloat.mul`, `PrimFloat.sqrt`, `PrimFloat.sub`** (1 theorems):

C135_overflow_refuted

**`PrimFloat.float`** (1 theorems):

C137_none

**`PrimFloat.float`, `PrimFloat.leb`, `PrimFloat.ltb`, `PrimFloat.mul`, `PrimFloat.sub`** (1 theorems):

C138_rotation

**`ClassicalDedekindReals.sig_forall_dec`, `ClassicalDedekindReals.sig_not_dec`, `Classical_Prop.classic`, `FloatAxioms.Prim2SF_SF2Prim`, `FloatAxioms.Prim2SF_valid`, `FloatAxioms.SF2Prim_Prim2SF`, `FloatAxioms.abs_spec`, `FloatAxioms.add_spec`, `FloatAxioms.div_spec`, `FloatAxioms.eqb_spec`, `FloatAxioms.ltb_spec`, `FloatAxioms.mul_spec`, `FloatAxioms.of_uint63_spec`, `FloatAxioms.opp_spec`, `FloatAxioms.sub_spec`, `FunctionalExtensionality.functional_extensionality_dep`, `PrimFloat.abs`, `PrimFloat.add`, `PrimFloat.div`, `PrimFloat.eqb`, `PrimFloat.float`, `PrimFloat.frshiftexp`, `PrimFloat.ldshiftexp`, `PrimFloat.ltb`, `PrimFloat.mul`, `PrimFloat.normfr_mantissa`, `PrimFloat.of_uint63`, `PrimFloat.opp`, `PrimFloat.sub`, `PrimInt63.add`, `PrimInt63.eqb`, `PrimInt63.int`, `PrimInt63.land`, `PrimInt63.leb`, `PrimInt63.lor`, `PrimInt63.lsl`, `PrimInt63.lsr`, `PrimInt63.ltb`, `PrimInt63.sub`, `Uint63.add_spec`, `Uint63.eqb_correct`, `Uint63.eqb_refl`, `Uint63.leb_spec`, `Uint63.lor_spec`, `Uint63.lsl_spec`, `Uint63.lsr_spec`, `Uint63.ltb_spec`, `Uint63.of_to_Z`, `Uint63.sub_spec`** (1 theorems):

C139_centroid

**`ClassicalDedekindReals.sig_forall_dec`, `FunctionalExtensionality.functional_extensionality_dep`, `PrimFloat.abs`, `PrimFloat.add`, `PrimFloat.div`, `PrimFloat.eqb`, `PrimFloat.float`, `PrimFloat.frshiftexp`, `PrimFloat.leb`, `PrimFloat.ltb`, `PrimFloat.mul`, `PrimFloat.normfr_mantissa`, `PrimFloat.of_uint63`, `PrimFloat.sub`, `PrimInt63.eqb`, `PrimInt63.int`, `PrimInt63.land`, `PrimInt63.lor`, `PrimInt63.lsl`, `PrimInt63.lsr`, `PrimInt63.sub`** (1 theorems):

C139_in_cell_refuted

**`ClassicalDedekindReals.sig_forall_dec`, `ClassicalDedekindReals.sig_not_dec`, `Classical_Prop.classic`, `FloatAxioms.Prim2SF_SF2Prim`, `FloatAxioms.Prim2SF_valid`, `FloatAxioms.SF2Prim_Prim2SF`, `FloatAxioms.abs_spec`, `FloatAxioms.add_spec`, `FloatAxioms.eqb_spec`, `FloatAxioms.mul_spec`, `FloatAxioms.of_uint63_spec`, `FunctionalExtensionality.functional_extensionality_dep`, `PrimFloat.abs`, `PrimFloat.add`, `PrimFloat.div`, `PrimFloat.eqb`, `PrimFloat.float`, `PrimFloat.frshiftexp`, `PrimFloat.ldshiftexp`, `PrimFloat.ltb`, `PrimFloat.mul`, `PrimFloat.normfr_mantissa`, `PrimFloat.of_uint63`, `PrimFloat.opp`, `PrimFloat.sub`, `PrimInt63.add`, `PrimInt63.eqb`, `PrimInt63.int`, `PrimInt63.land`, `PrimInt63.leb`, `PrimInt63.lor`, `PrimInt63.lsl`, `PrimInt63.lsr`, `PrimInt63.ltb`, `PrimInt63.sub`, `Uint63.add_spec`, `Uint63.eqb_correct`, `Uint63.eqb_refl`, `Uint63.leb_spec`, `Uint63.lor_spec`, `Uint63.lsl_spec`, `Uint63.lsr_spec`, `Uint63.ltb_spec`, `Uint63.of_to_Z`, `Uint63.sub_spec`** (1 theorems):

C139_cells_tile

**`ClassicalDedekindReals.sig_forall_dec`, `ClassicalDedekindReals.sig_not_dec`, `Classical_Prop.classic`, `FloatAxioms.Prim2SF_SF2Prim`, `FloatAxioms.Prim2SF_valid`, `FloatAxioms.SF2Prim_Prim2SF`, `FloatAxioms.abs_spec`, `FloatAxioms.add_spec`, `FloatAxioms.eqb_spec`, `FloatAxioms.mul_spec`, `FloatAxioms.of_uint63_spec`, `FloatAxioms.opp_spec`, `FunctionalExtensionality.functional_extensionality_dep`, `PrimFloat.abs`, `PrimFloat.add`, `PrimFloat.div`, `PrimFloat.eqb`, `PrimFloat.float`, `PrimFloat.frshiftexp`, `PrimFloat.ldshiftexp`, `PrimFloat.ltb`, `PrimFloat.mul`, `PrimFloat.normfr_mantissa`, `PrimFloat.of_uint63`, `PrimFloat.opp`, `PrimFloat.sub`, `PrimInt63.add`, `PrimInt63.eqb`, `PrimInt63.int`, `PrimInt63.land`, `PrimInt63.leb`, `PrimInt63.lor`, `PrimInt63.lsl`, `PrimInt63.lsr`, `PrimInt63.ltb`, `PrimInt63.sub`, `Uint63.add_spec`, `Uint63.eqb_correct`, `Uint63.eqb_refl`, `Uint63.leb_spec`, `Uint63.lor_spec`, `Uint63.lsl_spec`, `Uint63.lsr_spec`, `Uint63.ltb_spec`, `Uint63.of_to_Z`, `Uint63.sub_spec`** (1 theorems):

C139_corner_close

**`ClassicalDedekindReals.sig_forall_dec`, `ClassicalDedekindReals.sig_not_dec`, `Classical_Prop.classic`, `FloatAxioms.Prim2SF_SF2Prim`, `FloatAxioms.Prim2SF_valid`, `FloatAxioms.SF2Prim_Prim2SF`, `FloatAxioms.mul_spec`, `FloatAxioms.opp_spec`, `FunctionalExtensionality.functional_extensionality_dep`, `PrimFloat.abs`, `PrimFloat.add`, `PrimFloat.div`, `PrimFloat.eqb`, `PrimFloat.float`, `PrimFloat.frshiftexp`, `PrimFloat.ldshiftexp`, `PrimFloat.ltb`, `PrimFloat.mul`, `PrimFloat.normfr_mantissa`, `PrimFloat.of_uint63`, `PrimFloat.opp`, `PrimFloat.sqrt`, `PrimInt63.eqb`, `PrimInt63.int`, `PrimInt63.land`, `PrimInt63.lor`, `PrimInt63.lsl`, `PrimInt63.lsr`, `PrimInt63.sub`** (1 theorems):

C140_opposite

**`ClassicalDedekindReals.sig_forall_dec`, `ClassicalDedekindReals.sig_not_dec`, `Classical_Prop.classic`, `FloatAxioms.Prim2SF_SF2Prim`, `FloatAxioms.Prim2SF_valid`, `FloatAxioms.SF2Prim_Prim2SF`, `FloatAxioms.abs_spec`, `FloatAxioms.eqb_spec`, `FloatAxioms.ltb_spec`, `FloatAxioms.opp_spec`, `FloatAxioms.sub_spec`, `FunctionalExtensionality.functional_extensionality_dep`, `PrimFloat.abs`, `PrimFloat.div`, `PrimFloat.eqb`, `PrimFloat.float`, `PrimFloat.frshiftexp`, `PrimFloat.ldshiftexp`, `PrimFloat.leb`, `PrimFloat.ltb`, `PrimFloat.normfr_mantissa`, `PrimFloat.of_uint63`, `PrimFloat.opp`, `PrimFloat.sub`, `PrimInt63.eqb`, `PrimInt63.int`, `PrimInt63.land`, `PrimInt63.lor`, `PrimInt63.lsl`, `PrimInt63.lsr`, `PrimInt63.sub`** (1 theorems):

C141_expand_policy_refuted

**`ClassicalDedekindReals.sig_forall_dec`, `ClassicalDedekindReals.sig_not_dec`, `Classical_Prop.classic`, `FloatAxioms.Prim2SF_SF2Prim`, `FloatAxioms.Prim2SF_valid`, `FloatAxioms.SF2Prim_Prim2SF`, `FloatAxioms.abs_spec`, `FloatAxioms.eqb_spec`, `FloatAxioms.ltb_spec`, `FunctionalExtensionality.functional_extensionality_dep`, `PrimFloat.abs`, `PrimFloat.div`, `PrimFloat.eqb`, `PrimFloat.float`, `PrimFloat.frshiftexp`, `PrimFloat.ldshiftexp`, `PrimFloat.ltb`, `PrimFloat.normfr_mantissa`, `PrimFloat.of_uint63`, `PrimFloat.opp`, `PrimInt63.eqb`, `PrimInt63.int`, `PrimInt63.land`, `PrimInt63.lor`, `PrimInt63.lsl`, `PrimInt63.lsr`, `PrimInt63.sub`** (1 theorems):

C141_intersects

**`PrimFloat.float`, `PrimFloat.ltb`** (1 theorems):

C141_intersects_symmetric

**`ClassicalDedekindReals.sig_forall_dec`, `ClassicalDedekindReals.sig_not_dec`, `Classical_Prop.classic`, `FloatAxioms.Prim2SF_SF2Prim`, `FloatAxioms.Prim2SF_valid`, `FloatAxioms.SF2Prim_Prim2SF`, `FloatAxioms.abs_spec`, `FloatAxioms.add_spec`, `FloatAxioms.eqb_spec`, `FloatAxioms.leb_spec`, `FloatAxioms.ltb_spec`, `FunctionalExtensionality.functional_extensionality_dep`, `PrimFloat.abs`, `PrimFloat.add`, `PrimFloat.div`, `PrimFloat.eqb`, `PrimFloat.float`, `PrimFloat.frshiftexp`, `PrimFloat.ldshiftexp`, `PrimFloat.leb`, `PrimFloat.ltb`, `PrimFloat.normfr_mantissa`, `PrimFloat.of_uint63`, `PrimFloat.opp`, `PrimInt63.eqb`, `PrimInt63.int`, `PrimInt63.land`, `PrimInt63.lor`, `PrimInt63.lsl`, `PrimInt63.lsr`, `PrimInt63.sub`** (1 theorems):

C141_sum

**`ClassicalDedekindReals.sig_forall_dec`, `ClassicalDedekindReals.sig_not_dec`, `Classical_Prop.classic`, `FloatAxioms.Prim2SF_SF2Prim`, `FloatAxioms.Prim2SF_valid`, `FloatAxioms.SF2Prim_Prim2SF`, `FloatAxioms.abs_spec`, `FloatAxioms.add_spec`, `FloatAxioms.div_spec`, `FloatAxioms.eqb_spec`, `FloatAxioms.leb_spec`, `FloatAxioms.ltb_spec`, `FloatAxioms.mul_spec`, `FloatAxioms.sub_spec`, `FunctionalExtensionality.functional_extensionality_dep`, `PrimFloat.abs`, `PrimFloat.add`, `PrimFloat.div`, `PrimFloat.eqb`, `PrimFloat.float`, `PrimFloat.frshiftexp`, `PrimFloat.ldshiftexp`, `PrimFloat.leb`, `PrimFloat.ltb`, `PrimFloat.mul`, `PrimFloat.normfr_mantissa`, `PrimFloat.of_uint63`, `PrimFloat.opp`, `PrimFloat.sub`, `PrimInt63.eqb`, `PrimInt63.int`, `PrimInt63.land`, `PrimInt63.lor`, `PrimInt63.lsl`, `PrimInt63.lsr`, `PrimInt63.sub`** (1 theorems):

C141_scalar

**`ClassicalDedekindReals.sig_forall_dec`, `FunctionalExtensionality.functional_extensionality_dep`, `PrimFloat.abs`, `PrimFloat.add`, `PrimFloat.div`, `PrimFloat.eqb`, `PrimFloat.float`, `PrimFloat.frshiftexp`, `PrimFloat.leb`, `PrimFloat.ltb`, `PrimFloat.normfr_mantissa`, `PrimInt63.eqb`, `PrimInt63.int`, `PrimInt63.land`, `PrimInt63.lsr`** (1 theorems):

C141_exact_sum_refuted

**`PrimFloat.abs`, `PrimFloat.eqb`, `PrimFloat.float`, `PrimFloat.leb`, `PrimFloat.sub`** (1 theorems):

C141_difference_refuted

**`ClassicalDedekindReals.sig_forall_dec`, `ClassicalDedekindReals.sig_not_dec`, `Classical_Prop.classic`, `FloatAxioms.Prim2SF_SF2Prim`, `FloatAxioms.Prim2SF_valid`, `FloatAxioms.SF2Prim_Prim2SF`, `FloatAxioms.abs_spec`, `FloatAxioms.eqb_spec`, `FloatAxioms.leb_spec`, `FloatAxioms.ltb_spec`, `FloatAxioms.sub_spec`, `FunctionalExtensionality.functional_extensionality_dep`, `PrimFloat.abs`, `PrimFloat.div`, `PrimFloat.eqb`, `PrimFloat.float`, `PrimFloat.frshiftexp`, `PrimFloat.ldshiftexp`, `PrimFloat.leb`, `PrimFloat.ltb`, `PrimFloat.normfr_mantissa`, `PrimFloat.of_uint63`, `PrimFloat.opp`, `PrimFloat.sub`, `PrimInt63.eqb`, `PrimInt63.int`, `PrimInt63.land`, `PrimInt63.lor`, `PrimInt63.lsl`, `PrimInt63.lsr`, `PrimInt63.sub`** (1 theorems):

C141_difference

**`ClassicalDedekindReals.sig_forall_dec`, `FunctionalExtensionality.functional_extensionality_dep`, `PrimFloat.abs`, `PrimFloat.add`, `PrimFloat.div`, `PrimFloat.eqb`, `PrimFloat.float`, `PrimFloat.frshiftexp`, `PrimFloat.leb`, `PrimFloat.ltb`, `PrimFloat.mul`, `PrimFloat.normfr_mantissa`, `PrimFloat.opp`, `PrimFloat.sub`, `PrimInt63.eqb`, `PrimInt63.int`, `PrimInt63.land`, `PrimInt63.lsr`** (1 theorems):

C146_missed_refuted

**`ClassicalDedekindReals.sig_forall_dec`, `ClassicalDedekindReals.sig_not_dec`, `Classical_Prop.classic`, `FloatAxioms.Prim2SF_SF2Prim`, `FloatAxioms.Prim2SF_valid`, `FloatAxioms.SF2Prim_Prim2SF`, `FloatAxioms.abs_spec`, `FloatAxioms.eqb_spec`, `FloatAxioms.leb_spec`, `FloatAxioms.mul_spec`, `FloatAxioms.sub_spec`, `FunctionalExtensionality.functional_extensionality_dep`, `PrimFloat.abs`, `PrimFloat.div`, `PrimFloat.eqb`, `PrimFloat.float`, `PrimFloat.frshiftexp`, `PrimFloat.ldshiftexp`, `PrimFloat.leb`, `PrimFloat.ltb`, `PrimFloat.mul`, `PrimFloat.normfr_mantissa`, `PrimFloat.of_uint63`, `PrimFloat.opp`, `PrimFloat.sub`, `PrimInt63.eqb`, `PrimInt63.int`, `PrimInt63.land`, `PrimInt63.lor`, `PrimInt63.lsl`, `PrimInt63.lsr`, `PrimInt63.sub`** (1 theorems):

C146_between

## 7. How to read seeded/LOG.jsonl

Each line is one edit of the model in a scratch copy.  `proofs_failed` lists the proofs that no
longer go through; `theorems_failed` lists the property theorems whose proofs rest on one of them.
A failed proof shows that the script no longer goes through, not by itself that the claim is false:
scripts can fail on the shape of an edited definition alone.  This was checked by re-proving on the
edited model for three edits of C115 (the notes say so) and turned out to be the case for all three;
the other entries have not been re-checked in this way, so `theorems_failed` is an upper bound on
what the theorems detect.  A theorem can also be listed because it shares a lemma with the claim that broke, while its
own claim is still true of the edited program; and an empty list with a note means that the edit
survived or that the build did not finish, as the note says.
