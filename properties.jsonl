{"id": "C01", "title": "Comparison policies are coherent", "statement": "For the direct policy, the absolute- and relative-tolerance policies with any non-negative tolerance, and the fraction-tolerance policy, of any two numbers exactly one of less_than, equals, greater_than holds; less_than_or_equal is (less_than or equals); greater_than_or_equal is (greater_than or equals); greater_than is less_than with the arguments swapped; equals is reflexive and symmetric; less_than implies the numbers really are in that order. With a negative tolerance (which the constructor accepts) no number equals itself.", "quantifier": "all pairs of numbers and all non-negative tolerances", "why_tests_cant": "an infinite two-parameter domain with a moving tolerance boundary; tests sample it", "anchors": ["geometrix/numeric/number_comparison_policy.hpp: direct_comparison_policy, absolute_tolerance_comparison_policy, relative_tolerance_comparison_policy, fraction_tolerance_comparison_policy", "geometrix/utility/floating_point_comparison.hpp: equals_within_tolerance, safe_division"]}
{"id": "C02", "title": "Tolerant less_than is a strict partial order but tolerant equality is not transitive", "statement": "Under the absolute-tolerance policy less_than is irreflexive, asymmetric and transitive; incomparability (equals) is transitive exactly when the tolerance is zero, so for every positive tolerance the order is not a strict weak order.", "quantifier": "all triples of numbers and all tolerances", "why_tests_cant": "the failing triples depend on the tolerance; a test shows one triple for one tolerance", "anchors": ["geometrix/numeric/number_comparison_policy.hpp: absolute_tolerance_comparison_policy::less_than/equals"]}
{"id": "C03", "title": "lexicographical_compare orders points", "statement": "With the direct policy lexicographical_compare on points is a strict total order up to coordinate equality and agrees with the dictionary order of the coordinates; reverse_lexicographical_point_compare is its mirror image; numeric_sequence_equals is the equivalence it induces.", "quantifier": "all triples of points of any common dimension", "why_tests_cant": "total-order laws quantify over all triples; std::set/flat_map correctness depends on them for all data", "anchors": ["geometrix/utility/utilities.hpp: lexicographical_compare, lexicographical_comparer, reverse_lexicographical_point_compare", "geometrix/tensor/numeric_sequence_compare.hpp: numeric_sequence_equals"]}
{"id": "C04", "title": "Tolerant lexicographical order is not a strict weak order", "statement": "For every positive tolerance there are points p,q,r that are pairwise equivalent p~q, q~r but p<r under lexicographical_comparer with the absolute-tolerance policy, and there is a three-point cycle p<q<r<p, so ordered containers keyed by it have no guarantee.", "quantifier": "all positive tolerances", "why_tests_cant": "a universal statement over tolerances", "anchors": ["geometrix/utility/utilities.hpp: lexicographical_comparer"]}
{"id": "C05", "title": "interval expand is the hull", "statement": "expand(v) of an interval, empty or not, gives the smallest interval containing the old contents and v, and any sequence of expansions from the empty interval yields exactly [min,max] of the inserted values.", "quantifier": "all intervals and all finite sequences of inserted values", "why_tests_cant": "unbounded sequences and the empty-interval corner", "anchors": ["geometrix/numeric/interval.hpp: interval::expand, is_empty"]}
{"id": "C06", "title": "AABB intersection and containment mean shared points", "statement": "aabb.intersects(other) is true exactly when some point lies in both closed boxes; aabb.intersects(point) exactly when the point is in the closed box; contains(other) exactly when every point of other is in the box.", "quantifier": "all pairs of well-formed boxes and all points", "why_tests_cant": "existential over a continuum of points on one side", "anchors": ["geometrix/primitive/axis_aligned_bounding_box.hpp: intersects, contains"]}
{"id": "C07", "title": "Bounds of a point sequence are tight", "statement": "get_bounds / make_aabb over a non-empty point sequence returns the smallest closed box containing all its points: every point is inside, and each of the four sides touches a point.", "quantifier": "all non-empty point sequences of any length", "why_tests_cant": "unbounded length", "anchors": ["geometrix/primitive/point_sequence_utilities.hpp: get_bounds, update_bound", "geometrix/primitive/axis_aligned_bounding_box.hpp: make_aabb"]}
{"id": "C08", "title": "Distance from a point to a box", "statement": "point_aabb_distance_sqrd is the minimum squared distance from the point to the points of the box, and point_aabb_closest_point lies in the box and attains it.", "quantifier": "all points and all well-formed boxes", "why_tests_cant": "minimum over a continuum", "anchors": ["geometrix/algorithm/distance/point_aabb_distance.hpp"]}
{"id": "C09", "title": "Distance between two boxes", "statement": "aabb_aabb_distance_sqrd is the minimum squared distance between a point of one box and a point of the other, is symmetric, and is zero exactly when the boxes intersect.", "quantifier": "all pairs of well-formed boxes", "why_tests_cant": "minimum over a continuum; used as the pruning bound of the polyline distance search", "anchors": ["geometrix/algorithm/distance/aabb_aabb_distance.hpp"]}
{"id": "C10", "title": "Distance from a point to a segment", "statement": "point_segment_distance_sqrd is the minimum of the squared distances from the point to the points of the closed segment, including when the segment is a single point.", "quantifier": "all points and all segments, degenerate ones included", "why_tests_cant": "minimum over a continuum", "anchors": ["geometrix/algorithm/distance/point_segment_distance.hpp"]}
{"id": "C11", "title": "Closest point on a segment", "statement": "point_segment_closest_point returns a point of the segment no farther from the query point than any other point of the segment; the segment overload does so for degenerate segments too, while the two-point overload divides by zero exactly when the two points coincide.", "quantifier": "all points and all segments", "why_tests_cant": "optimality quantifies over all points of the segment", "anchors": ["geometrix/algorithm/distance/point_segment_closest_point.hpp"]}
{"id": "C12", "title": "Closest points of two segments", "statement": "segment_segment_closest_point returns parameters in [0,1] and points on the two segments whose distance is minimal among all pairs of points of the two segments, for every configuration including parallel and degenerate segments.", "quantifier": "all pairs of segments", "why_tests_cant": "optimality over a two-parameter continuum with many branch combinations", "anchors": ["geometrix/algorithm/distance/segment_segment_closest_point.hpp"]}
{"id": "C13", "title": "Polyline distance search equals exhaustive search", "statement": "polyline_polyline_distance_sqrd, whatever order its priority queue pops equally-distant entries in, returns the least segment-to-segment squared distance over all pairs of segments of the two polylines.", "quantifier": "all pairs of polylines with at least two points each and all tie-breaking orders of the queue", "why_tests_cant": "unbounded sizes and pruning schedules", "anchors": ["geometrix/algorithm/distance/polyline_polyline_distance.hpp"]}
{"id": "C14", "title": "Polygon distance search ignores closing edges of large polygons", "statement": "polygon_polygon_distance_sqrd equals the exhaustive minimum over all edge pairs when either polygon is below the size cut-off, and above the cut-off equals the exhaustive minimum over the open chains only, never looking at the edge from the last vertex to the first; the full claim is refuted by a witness.", "quantifier": "all pairs of polygons", "why_tests_cant": "unbounded sizes", "anchors": ["geometrix/algorithm/distance/polygon_polygon_distance.hpp"]}
{"id": "C15", "title": "Orientation predicate laws", "statement": "get_orientation(A,B,C) with the direct policy says left, right or collinear exactly when C is strictly left of, strictly right of, or on the directed line from A to B (A and B distinct); it is invariant under cyclic rotation and translation of the points and reversed by swapping two of them, and it satisfies the interiority and transitivity laws that hull and triangulation code relies on.", "quantifier": "all triples of points", "why_tests_cant": "continuum of inputs", "anchors": ["geometrix/algorithm/orientation.hpp: get_orientation", "geometrix/utility/utilities.hpp: is_collinear"]}
{"id": "C16", "title": "is_between means membership of the segment", "statement": "is_between(A,B,C,true) with the direct policy is true exactly when C is A+t(B-A) for some t in [0,1], provided A and B differ; with includeBounds=false exactly when 0<t<1; when A equals B it answers by the y coordinate alone.", "quantifier": "all triples of points", "why_tests_cant": "continuum and degenerate cases", "anchors": ["geometrix/utility/utilities.hpp: is_between, is_collinear_point_between"]}
{"id": "C17", "title": "is_vector_between means angular betweenness", "statement": "is_vector_between(a,b,c,includeBounds) is true exactly when c lies strictly inside the counter-clockwise sweep from a to b, or points along a or b and includeBounds is set, for all non-zero vectors.", "quantifier": "all triples of non-zero vectors", "why_tests_cant": "all quadrant/straddle combinations over a continuum", "anchors": ["geometrix/utility/utilities.hpp: is_vector_between"]}
{"id": "C18", "title": "Segment intersection decides set intersection", "statement": "For non-degenerate segments segment_segment_intersection returns e_non_crossing exactly when the closed segments share no point; e_crossing exactly when they meet in one point interior to both; every reported point lies on both segments; collinear contact at a single endpoint is reported as e_overlapping with two equal points.", "quantifier": "all pairs of non-degenerate segments", "why_tests_cant": "existence of a common point over a continuum; many degenerate configurations", "anchors": ["geometrix/algorithm/intersection/segment_segment_intersection.hpp"]}
{"id": "C19", "title": "Line intersection", "statement": "line_line_intersect returns e_crossing exactly when the two lines (each through two distinct points) meet in exactly one point, and the returned point lies on both lines with the returned parameters; e_overlapping exactly when the lines coincide; e_non_crossing exactly when disjoint. line_segment_intersect likewise restricts the second line to the segment.", "quantifier": "all quadruples of points", "why_tests_cant": "continuum", "anchors": ["geometrix/algorithm/line_intersection.hpp"]}
{"id": "C20", "title": "Ray/segment intersection", "statement": "ray_segment_intersection (the overload with output points) reports e_non_crossing exactly when the ray and the segment are disjoint and otherwise the smallest ray parameter at which the ray meets the segment; the overload without outputs reports e_overlapping for every parallel non-collinear segment in front of the ray, so the two overloads disagree.", "quantifier": "all rays and all non-degenerate segments", "why_tests_cant": "continuum", "anchors": ["geometrix/algorithm/intersection/ray_segment_intersection.hpp"]}
{"id": "C21", "title": "Ray/box slab test", "statement": "ray_aabb_intersection is true exactly when the ray meets the closed box, and the returned parameters are the least and greatest ray parameters inside the box.", "quantifier": "all rays with a non-zero direction and all well-formed boxes", "why_tests_cant": "continuum; axis-parallel corner cases", "anchors": ["geometrix/algorithm/intersection/ray_aabb_intersection.hpp"]}
{"id": "C22", "title": "Segment/box separating axis test", "statement": "With the rounding pad set to zero segment_aabb_intersection is true exactly when the closed segment meets the closed box; with any non-negative pad it is never false when they meet.", "quantifier": "all segments and all well-formed boxes", "why_tests_cant": "continuum", "anchors": ["geometrix/algorithm/intersection/segment_aabb_intersection.hpp"]}
{"id": "C23", "title": "Circle intersection", "statement": "circle_circle_intersection with the direct policy classifies two circles of positive radius correctly, and the returned points are exactly the points on both circles.", "quantifier": "all pairs of circles with positive radii", "why_tests_cant": "continuum", "anchors": ["geometrix/algorithm/intersection/circle_circle_intersection.hpp"]}
{"id": "C24", "title": "Ray/sphere intersection", "statement": "ray_sphere_intersection for a unit direction is true exactly when the ray meets the closed ball, and t is the least such parameter.", "quantifier": "all rays and balls", "why_tests_cant": "continuum", "anchors": ["geometrix/algorithm/intersection/ray_sphere_intersection.hpp"]}
{"id": "C25", "title": "Signed area", "statement": "get_signed_area is the sum of the signed areas of the triangles spanned by any reference point and the edges; it is invariant under translation and cyclic rotation of the vertex list, negated by reversal, multiplied by the determinant under affine maps and additive when a polygon is cut along a diagonal. get_area is its absolute value.", "quantifier": "all vertex lists of any length", "why_tests_cant": "unbounded length", "anchors": ["geometrix/primitive/point_sequence_utilities.hpp: get_signed_area, get_area"]}
{"id": "C26", "title": "point_in_polygon is crossing parity", "statement": "point_in_polygon returns the parity of the number of half-open edges met by the rightward ray. Two points joined by a path avoiding the edges get the same answer, a segment crossing k edges properly changes it k times, points outside the bounding box (or connected to it) are outside, the answer does not depend on the starting vertex or direction, and on strictly convex polygons it is true inside and false outside.", "quantifier": "all polygons of any size, simple or not, and all points", "why_tests_cant": "unbounded size and a continuum of points", "anchors": ["geometrix/algorithm/point_in_polygon.hpp: point_in_polygon"]}
{"id": "C27", "title": "point_in_triangle", "statement": "point_in_triangle is true exactly for the convex combinations of the corners of a counter-clockwise triangle; clockwise triangles reject every point and degenerate ones accept their whole line. The overload in space additionally accepts every point of the line through the second and third corner.", "quantifier": "all triangles and points in the plane and, for points of the triangle's plane, in space", "why_tests_cant": "continuum", "anchors": ["geometrix/algorithm/point_in_polygon.hpp: point_in_triangle"]}
{"id": "C28", "title": "Grid cell lookup is in range and correct", "statement": "For every grid with positive cell width and fewer than 2^32-1 cell widths a side: is_contained is membership in the closed region; every point of the region gets indices below the grid's width and height and lies in the half-open cell with those indices; half-open cells partition the plane; cell corners, polygon, box and centroid describe that cell. At exactly 2^32-1 cell widths the count wraps to zero.", "quantifier": "all grids and all points of the region", "why_tests_cant": "continuum and truncation boundaries", "anchors": ["geometrix/algorithm/grid_traits.hpp"]}
{"id": "C29", "title": "hash_grid_2d behaves as a map from cells to data", "statement": "Every history of get_cell/find_cell/erase/clear calls on hash_grid_2d returns what a finite map from index pairs to cells would: find_cell returns null exactly when the cell was never created or was erased since, and cell contents persist until erased.", "quantifier": "all operation histories", "why_tests_cant": "unbounded histories", "anchors": ["geometrix/algorithm/hash_grid_2d.hpp"]}
{"id": "C30", "title": "Bresenham traversal", "statement": "The cells visited by bresenham_grid_traversal between two cells with indices below 2^30 form an 8-connected chain starting at the first cell and ending at the last, of length max(|dx|,|dy|)+1, monotone in both axes, each within half a cell of the ideal line, with no int overflow on the way; bresenham_segment_traversal does this between the cells of the segment's end points. Beyond 2^30 the error term can overflow.", "quantifier": "all pairs of cells", "why_tests_cant": "unbounded distance; error accumulation", "anchors": ["geometrix/algorithm/bresenham_grid_traversal.hpp"]}
{"id": "C31", "title": "Flood fill visits a connected component once", "statement": "The flood traversal of floodfill_grid_traversal_helper from a seed cell always ends; it answers false and visits nothing from a boundary cell; otherwise it calls the visitor exactly once for every not yet visited cell of the seed's 4-connected component of equal colour and for no other cell, and recolours exactly that component. Over the life of a helper (boundary cells marked and traversals in any order) no cell is visited twice.", "quantifier": "all grids, colourings, seeds and histories of fewer than 2^32-1 traversals", "why_tests_cant": "all shapes of regions and unbounded histories", "anchors": ["geometrix/algorithm/floodfill_grid_traversal.hpp"]}
{"id": "C32", "title": "Cohen-Sutherland clipping is exact", "statement": "For every segment and window cohen_sutherland_line_clip with exact comparisons ends, and accepts exactly the segments that meet the window; the new ends are then inside the window and the part of the segment inside it is exactly the piece between them; a segment inside is unchanged. With a tolerance it can accept a segment that misses the window and move an end off the segment.", "quantifier": "all segments and windows", "why_tests_cant": "nine-region case analysis over a continuum", "anchors": ["geometrix/algorithm/cohen_sutherland_line_clipping.hpp"]}
{"id": "C33", "title": "kd_tree range search", "statement": "Building a kd_tree from a non-empty list of points ends, whatever std::nth_element does within its contract, and keeps exactly the given points; kd_tree::search then visits every stored point inside the query range, and only points of leaves whose cell meets the range, each stored occurrence at most once. An empty list is undefined behaviour, and leaves are not filtered, so points outside the range can be visited.", "quantifier": "all non-empty point lists with repetitions, all query ranges, all comparison policies that are strict weak orders, all behaviours of nth_element allowed by its contract", "why_tests_cant": "unbounded trees, unspecified partition order", "anchors": ["geometrix/algorithm/kd_tree.hpp: kd_tree, search, traverse_subtrees", "geometrix/algorithm/median_partitioning_strategy.hpp"]}
{"id": "C34", "title": "node_bsp_tree_2d stores exactly its segments and locates points", "statement": "Building a node_bsp_tree_2d from segments of positive length, and inserting more, ends for every selector that picks one of the segments. The stored segments are pieces of the given ones and cover exactly the same points, and at every node the segments below lie on the two sides of its line. For every region that is to the left of the given boundary segments, a point on none of the segments that is located inside is in the region, one located outside is not; on no line of a segment the answer is always one of these two. For strictly convex counterclockwise polygons inside, boundary and outside are exact for every point. (For other polygons a border point that a splitting line touches can be reported inside, and points on the extension of a segment can be reported as boundary.)", "quantifier": "all finite lists of segments of positive length, all selectors, all sequences of insertions, all points, all regions with the given boundary", "why_tests_cant": "The recursion cuts segments without bound, the tree depends on the selector, and the points at which a wrong branch is taken are a null set.", "anchors": ["geometrix/algorithm/node_bsp_tree_2d.hpp:node_bsp_tree_2d", "geometrix/algorithm/node_bsp_tree_2d.hpp:locate_point", "geometrix/algorithm/node_bsp_tree_2d.hpp:insert"]}
{"id": "C35", "title": "Solid-leaf partition trees are always built, and cuts lose nothing", "statement": "solid_leaf_bsp_tree built from any non-degenerate segments finishes with any selection rule that picks a segment not used before; the rules of the library do that, and the scored rule picks an unused segment of least score. A segment that straddles a splitting line is cut into exactly a part in front and a part behind, which together are the segment.", "quantifier": "all lists of non-degenerate segments, all selection rules that pick an unused segment, all lines and straddling segments; exact arithmetic", "why_tests_cant": "The recursion depends on the geometry of every cut; tests see a few inputs only.", "anchors": ["geometrix/algorithm/solid_leaf_bsp_tree.hpp: solid_leaf_bsp_tree, build_tree, split_simplex", "geometrix/algorithm/hyperplane_partition_policies.hpp: partition_policies::autopartition_policy, scored_selector_policy", "geometrix/algorithm/classify_simplex_to_plane.hpp: classify_simplex_to_plane"]}
{"id": "C36", "title": "polyline_split preserves the curve", "statement": "For 0<=pos<length polyline_split returns two polylines that share the split point, whose concatenation is the original vertex list with the split point inserted unless it is a vertex, and whose lengths are pos and length-pos; polyline_point_at_position finds the same edge and point. Before the start the first result is the first point; for pos>=length the final segment is lost.", "quantifier": "all polylines in any dimension and all positions", "why_tests_cant": "unbounded length, continuum", "anchors": ["geometrix/algorithm/point_sequence/polyline_split.hpp: polyline_split, polyline_point_at_position"]}
{"id": "C37", "title": "split_segment pieces", "statement": "For every non-zero maximum size, split_segment returns the segment cut into 2^k equal consecutive pieces from start to end, with the smallest k for which the pieces are no longer than the maximum; it never terminates for a zero maximum and distinct end points.", "quantifier": "all segments in any dimension and all sizes", "why_tests_cant": "unbounded recursion depth", "anchors": ["geometrix/algorithm/split_segment.hpp"]}
{"id": "C38", "title": "Collinear point removal from polylines", "statement": "remove_collinear_points_polyline keeps the first and last vertex, returns a subsequence of the input in which no inner vertex is collinear with its neighbours, and covers the same set of points whenever the polyline nowhere folds back on itself; where it folds back, points can be lost.", "quantifier": "all polylines", "why_tests_cant": "unbounded length", "anchors": ["geometrix/algorithm/point_sequence/remove_collinear_points.hpp: remove_collinear_points_polyline"]}
{"id": "C39", "title": "Mesh construction and random positions", "statement": "A mesh stores exactly the input triples with distinct corners, oriented counterclockwise; mesh_2d::get_random_position returns, for any random numbers in [0,1], a point of the triangle in whose share of the cumulated areas the first number falls, so triangles are chosen in proportion to their area and every point of every triangle of positive area can be drawn.", "quantifier": "all point lists, index lists in range and random draws in [0,1]", "why_tests_cant": "continuum of draws and unbounded meshes", "anchors": ["geometrix/algorithm/mesh_2d.hpp: mesh_2d_base, get_random_position"]}
{"id": "C40", "title": "Mesh adjacency", "statement": "The mesh adjacency matrix has an entry for a side exactly if another side runs through the same edge the other way, the entry is a triangle with such a side, and if no directed edge occurs twice the matrix is exactly the sharing relation and symmetric. get_triangle_adjacent_side returns the first shared side or none.", "quantifier": "all triangle index lists", "why_tests_cant": "unbounded meshes", "anchors": ["geometrix/algorithm/mesh_2d.hpp: create_adjacency_matrix, get_triangle_adjacent_side"]}
{"id": "C41", "title": "LUP decomposition and solve", "statement": "lup_decomposition of a square matrix of any size throws exactly when the matrix is singular; otherwise the returned permutation is a permutation of the row indices, the permuted matrix equals the product of the unit lower and the upper triangular factors packed in the result, all multipliers have absolute value at most one and all pivots are non-zero, and lup_solve then returns the solution of the original system for every right hand side. The run-time variant of the loops leaves out the last column and accepts singular matrices, on which lup_solve divides by zero.", "quantifier": "all square matrices of every dimension over the rationals and all right hand sides", "why_tests_cant": "unbounded dimension, continuum of entries", "anchors": ["geometrix/algebra/lup_decomposition.hpp", "geometrix/algebra/detail/preprocessed/lup_decomposition.hpp"]}
{"id": "C42", "title": "Fixed-point arithmetic", "statement": "fixed_point addition, subtraction, negation, absolute value, increment and decrement are exact or reported as overflow by the integer type; multiplication and division differ from the exact result by less than one unit in the last place in the direction fixed by the scaling policy; fmod is the exact remainder; comparisons order the represented values; dividing by zero is reported.", "quantifier": "all pairs of representable numbers, all scales and scaling policies, all word sizes", "why_tests_cant": "full domain of the mantissas", "anchors": ["geometrix/numeric/fixed_point.hpp", "geometrix/numeric/fixed_point_traits.hpp", "geometrix/numeric/detail/fixed_point.hpp"]}
{"id": "C43", "title": "Angle normalisation", "statement": "normalize_angle_0_2pi maps every real angle to a value in [0,2pi] that differs by an integer multiple of 2pi, leaves angles in [0,2pi] alone and returns less than 2pi otherwise; normalize_angle_minus_pi_to_pi does the same into (-pi,pi]; both keep sine and cosine.", "quantifier": "all real angles", "why_tests_cant": "continuum", "anchors": ["geometrix/utility/utilities.hpp: normalize_angle_0_2pi, normalize_angle_minus_pi_to_pi"]}
{"id": "C44", "title": "memoize caches faithfully", "statement": "memoize returns, for every call sequence, what the wrapped pure function returns, and computes it at most once per distinct argument; this also holds when the wrapped function calls the memoized one recursively on smaller arguments.", "quantifier": "all call histories and all wrapped functions, recursive ones included", "why_tests_cant": "unbounded histories", "anchors": ["geometrix/utility/memoize.hpp"]}
{"id": "C45", "title": "Separating axis test of convex polygons", "statement": "For strictly convex polygons given clockwise, an answer 'intersect' of the separating axis test means that the polygons really have a common point. For clockwise triangles the answer is exact: the search for the farthest point ends at a farthest point and the test says 'intersect' if and only if the triangles share a point. (For counterclockwise polygons, for clockwise quadrilaterals, and for termination with larger polygons the code does not keep this promise.)", "quantifier": "all strictly convex polygons of any number of points, all triangles, all directions", "why_tests_cant": "Depends on every pair of polygons; a wrong choice of farthest vertex shows only for particular vertex orders and directions.", "anchors": ["geometrix/algorithm/intersection/separating_axis_convex_polygons.hpp", "geometrix/algorithm/intersection/detail/separating_axis_common.hpp"]}
{"id": "C46", "title": "Convex hull by Graham's scan", "statement": "If the first of the given points is the lowest one (rightmost of the lowest), all others are above it or to its left at the same height, and exactly one point has the least angle around it, then the scan returns, for every order std::sort may give to points of equal angle, a chain that goes clockwise around the convex hull: its vertices are given points, no point is outside of any edge, every point is in the hull of the vertices, and the chain turns strictly right at its inner vertices. (If the lowest point is not given first, or several points share the least angle, the code does not keep this promise.)", "quantifier": "all finite lists of points with these properties, all admissible results of std::sort", "why_tests_cant": "Every finite point set and every order of equivalent points; collinear points on one ray behave differently depending on the order the sort happens to give them.", "anchors": ["geometrix/algorithm/convex_hull_graham.hpp:graham_scan::get_convex_hull", "geometrix/algorithm/convex_hull_graham.hpp:graham_scan::find_lowest"]}
{"id": "C47", "title": "Point-point squared distance in every dimension", "statement": "point_point_distance_sqrd of two points of dimension one to four is the sum of the squared coordinate differences. For every dimension from five on the result does not depend on the last coordinate at all, so it is not the squared distance.", "quantifier": "all pairs of points of every dimension", "why_tests_cant": "unbounded family of dimensions and real-valued coordinates; the upstream tests only use dimensions two and three", "anchors": ["geometrix/algorithm/distance/point_point_distance.hpp: point_point_distance_sqrd"]}
{"id": "C48", "title": "Orders on segments", "statement": "segment_interval_compare (exact policy) is irreflexive and transitive and holds exactly when the lexicographically greater end of the first segment precedes the lexicographically smaller end of the second. lexicographical_segment_compare, documented as comparing segments, answers by the first points alone: the second point of the first segment is never read, so reversing a segment changes its place in the order.", "quantifier": "all segments of every dimension", "why_tests_cant": "order laws quantify over all triples of segments", "anchors": ["geometrix/utility/utilities.hpp: segment_interval_compare, lexicographical_segment_compare"]}
{"id": "C49", "title": "Interval intersection and arithmetic", "statement": "intersects of two right-open intervals is true exactly when they share a value; for closed intervals it can only miss pairs that touch at one end point. Adding, subtracting, scaling or dividing an interval by a (positive, for the last two) number maps it to the image set; clamp returns the nearest value of the range, min_copy and max_copy the smaller and greater value, sign 1 from zero on and else -1. Scaling or dividing by a negative number, subtracting two intervals and subtracting an interval from a number do not give the image set.", "quantifier": "all intervals and numbers", "why_tests_cant": "quantifies over all real end points, including touching and empty intervals", "anchors": ["geometrix/numeric/interval.hpp: interval::intersects, interval arithmetic operators", "geometrix/utility/utilities.hpp: clamp, min_copy, max_copy, sign"]}
{"id": "C50", "title": "Angular sorting of vectors and points", "statement": "vector_angle_compare orders non-zero vectors by their counter-clockwise angle in [0,2pi) from the reference vector, point_angle_compare orders points by the angle about the origin point, and pseudo_angle is a number in [0,4) that is increasing in the polar angle. The order is a strict weak order whose ties are exactly the vectors of the same direction.", "quantifier": "all non-zero vectors and reference vectors", "why_tests_cant": "order laws over all triples of vectors", "anchors": ["geometrix/utility/vector_angle_compare.hpp: vector_angle_compare, pseudo_angle", "geometrix/utility/point_angle_compare.hpp: point_angle_compare"]}
{"id": "C51", "title": "Oriented segment crossing", "statement": "oriented_intersection reports a left-to-right (right-to-left) crossing exactly when the first segment starts strictly left (right) of the second's line, ends strictly on the other side, and the segments share a point. A segment that merely ends on the other one is reported as non crossing.", "quantifier": "all pairs of segments with the second one non-degenerate", "why_tests_cant": "all real configurations", "anchors": ["geometrix/algorithm/orientation.hpp: oriented_intersection"]}
{"id": "C52", "title": "Lines as functions of a coordinate", "statement": "y_of_x returns the unique y with (x,y) on the line for every non-vertical line; x_of_y returns the unique x for every line that is neither vertical nor horizontal, and divides by zero for vertical lines although the answer exists.", "quantifier": "all lines and coordinates", "why_tests_cant": "all real inputs", "anchors": ["geometrix/utility/utilities.hpp: get_slope, y_of_x, x_of_y"]}
{"id": "C53", "title": "Point to polyline and polygon", "statement": "point_polyline_distance_sqrd and point_polygon_distance_sqrd return the least squared distance from the point to the polyline or polygon border (closing edge included). The closest-point versions return a point of the border at that distance when no two consecutive vertices coincide; when the nearest edge is a repeated vertex they divide by zero. The collection version does the same over all polygons of the collection.", "quantifier": "all points, all polylines with at least two points, all non-empty polygons and polygon collections", "why_tests_cant": "minimum over a continuum for sequences of unbounded length", "anchors": ["geometrix/algorithm/distance/point_polyline_distance.hpp", "geometrix/algorithm/distance/point_polygon_distance.hpp", "geometrix/algorithm/distance/point_polyline_closest_point.hpp", "geometrix/algorithm/distance/point_polygon_closest_point.hpp"]}
{"id": "C54", "title": "Segment to polyline and polygon", "statement": "segment_polyline_distance_sqrd and segment_polygon_distance_sqrd return the least squared distance between the segment and the polyline or polygon border; the closest-point versions also return the index of an edge, the two parameters and the two points that realise it.", "quantifier": "all segments, all polylines with at least two points and all non-empty polygons", "why_tests_cant": "minimum over a continuum for sequences of unbounded length", "anchors": ["geometrix/algorithm/distance/segment_polyline_distance.hpp", "geometrix/algorithm/distance/segment_polygon_distance.hpp", "geometrix/algorithm/distance/segment_polyline_closest_point.hpp", "geometrix/algorithm/distance/segment_polygon_closest_point.hpp"]}
{"id": "C55", "title": "Lines and oriented boxes", "statement": "point_line_distance is the distance from the point to the line and the signed version is positive exactly on the left of the line. point_obb_distance_sqrd is the least squared distance from the point to the oriented box, and point_obb_closest_point a point of the box realising it. segment_obb_distance_sqrd should be the least squared distance from the segment to the box border, but it measures three sides and a diagonal.", "quantifier": "all points and segments, all lines with unit direction, all boxes with orthonormal axes and non-negative half extents", "why_tests_cant": "minimum over a continuum", "anchors": ["geometrix/algorithm/distance/point_line_distance.hpp", "geometrix/algorithm/distance/point_obb_distance.hpp", "geometrix/algorithm/distance/segment_obb_distance.hpp"]}
{"id": "C56", "title": "Ray against a line", "statement": "For a nonzero direction and a line with nonzero direction, ray_line_intersection reports 'overlapping' exactly when ray and line are parallel; it reports an intersection exactly when they are parallel or the ray meets the part of the line ahead of the line's reference point, and then the parameter and point are exact. (So it differs from 'the ray and the line have a common point' in two ways: points behind the reference point are missed, and parallel disjoint lines count as hit.)", "quantifier": "all rays and all lines with nonzero direction", "why_tests_cant": "equivalence over a continuum of rays and lines", "anchors": ["geometrix/algorithm/intersection/ray_line_intersection.hpp"]}
{"id": "C57", "title": "Segment intersection in space", "statement": "segment_segment_intersection on segments in three dimensions reports no crossing exactly when the segments have no common point, otherwise the common point or the common segment; a crossing should be interior to both segments.", "quantifier": "all pairs of non-degenerate segments in space", "why_tests_cant": "equivalence over a continuum", "anchors": ["geometrix/algorithm/intersection/segment_segment_intersection.hpp"]}
{"id": "C58", "title": "Discs and balls against boxes", "statement": "sphere_aabb_intersection and sphere_obb_intersection return true exactly when the closed disc or ball and the closed box have a common point; the overload with a point returns the box point closest to the centre.", "quantifier": "all discs and balls, all axis-aligned boxes and all oriented planar boxes with orthonormal axes", "why_tests_cant": "equivalence over a continuum", "anchors": ["geometrix/algorithm/intersection/sphere_aabb_intersection.hpp", "geometrix/algorithm/intersection/sphere_obb_intersection.hpp"]}
{"id": "C59", "title": "Oriented boxes", "statement": "obb_obb_intersection returns true exactly when the two oriented boxes have a common point.", "quantifier": "all pairs of planar oriented boxes with orthonormal axes and non-negative half widths", "why_tests_cant": "completeness of the separating axis test over a continuum of boxes", "anchors": ["geometrix/algorithm/intersection/obb_obb_intersection.hpp"]}
{"id": "C60", "title": "Segment against a plane", "statement": "segment_plane_intersection returns true exactly when the segment and the plane have a common point and then returns that point and its parameter; for a segment parallel to the plane it divides by zero.", "quantifier": "all segments and planes", "why_tests_cant": "equivalence over a continuum", "anchors": ["geometrix/algorithm/intersection/segment_plane_intersection.hpp"]}
{"id": "C61", "title": "Closest points of two polylines or polygons", "statement": "polyline_polyline_closest_point returns the least squared distance; the segment indices, parameters and points it assigns describe a pair of points at that distance. It leaves every output unassigned when no pair of edges is strictly closer than the two first points, for instance whenever the polylines start at a common point. polygon_polygon_closest_point is exact when one polygon has fewer than six points and otherwise ignores the closing edges.", "quantifier": "all pairs of polylines with at least two points (polygons: non-empty) and all tie-breaking orders of the queue", "why_tests_cant": "unbounded sizes and pruning schedules", "anchors": ["geometrix/algorithm/distance/polyline_polyline_closest_point.hpp", "geometrix/algorithm/distance/polygon_polygon_closest_point.hpp"]}
{"id": "C62", "title": "First contact of two moving balls", "statement": "moving_sphere_sphere_intersection returns the first time t >= 0 at which two uniformly moving balls meet, and when it assigns the point q that point lies on both surfaces; it answers false only if they never meet. Exception: balls that exactly touch at the start and are not approaching are reported as not intersecting.", "quantifier": "all centres, radii and velocities in any dimension", "why_tests_cant": "continuous motion: every real time must be considered", "anchors": ["geometrix/algorithm/intersection/moving_sphere_sphere_intersection.hpp"]}
{"id": "C63", "title": "Segment against ball", "statement": "segment_sphere_intersection returns the least parameter in [0,1] whose point lies in the ball, and that point; the overload with two results returns exactly the parameters at which the supporting line meets the surface and flags those on the segment. The latter divides by zero for a segment that is a single point.", "quantifier": "all segments and balls in any dimension", "why_tests_cant": "tangency and containment over a continuum of configurations", "anchors": ["geometrix/algorithm/intersection/segment_sphere_intersection.hpp"]}
{"id": "C64", "title": "Moving ball against plane", "statement": "moving_sphere_plane_intersection reports an intersection exactly when the moving ball ever meets the plane, with the first time of contact and the foot of the centre at that time, and its away flag says whether the centre recedes from the plane.", "quantifier": "all balls, velocities and planes with unit normal in any dimension", "why_tests_cant": "continuous motion", "anchors": ["geometrix/algorithm/intersection/moving_sphere_plane_intersection.hpp"]}
{"id": "C65", "title": "Moving disc against segment", "statement": "moving_sphere_segment_intersection in the plane reports the first time a moving disc touches the segment and the point of contact, choosing the right end of the segment when the first contact with its line misses it. It fails for a disc that starts out touching an end exactly without approaching it, and for a disc at rest overlapping an end.", "quantifier": "all discs, non-zero velocities and proper segments in the plane", "why_tests_cant": "continuous motion and a case split on which feature is hit first", "anchors": ["geometrix/algorithm/intersection/moving_sphere_segment_intersection.hpp"]}
{"id": "C66", "title": "Segment against capsule", "statement": "segment_capsule_intersection returns the least parameter at which the segment is within the radius of the capsule's axis segment, and that point, when the segment is not parallel to the axis and does not start beside the axis within the radius. A segment inside the capsule is reported as missing it, and a segment parallel to the axis divides by zero.", "quantifier": "all segments, axes and radii in any dimension", "why_tests_cant": "continuum of configurations with a case split between side and end caps", "anchors": ["geometrix/algorithm/intersection/segment_capsule_intersection.hpp"]}
{"id": "C67", "title": "Centroid", "statement": "get_centroid is the area-weighted mean of the centroids of the fan triangles from any reference point, the mean of the corners for a triangle, and divides by zero exactly when the signed area is zero.", "quantifier": "all vertex lists", "why_tests_cant": "unbounded length", "anchors": ["geometrix/primitive/point_sequence_utilities.hpp: get_centroid"]}
{"id": "C68", "title": "Containment with border and vertex cases", "statement": "point_polygon_containment_or_on_border answers vertex exactly at a vertex; elsewhere border exactly when an odd number of edges pass through the point (on simple polygons: exactly on the boundary), and interior or exterior as point_in_polygon does. Points on two coincident edges are not reported as border.", "quantifier": "all polygons and points", "why_tests_cant": "unbounded size and a continuum of points", "anchors": ["geometrix/algorithm/point_in_polygon.hpp: point_polygon_containment_or_on_border"]}
{"id": "C69", "title": "Containment in convex polygons", "statement": "point_in_convex_polygon ends without leaving the vertex range and is true exactly on the convex hull of a strictly convex counter-clockwise polygon; so is point_in_convex_quadrilateral.", "quantifier": "all strictly convex polygons of any size and all points", "why_tests_cant": "unbounded size and a continuum of points", "anchors": ["geometrix/algorithm/point_in_polygon.hpp: point_in_convex_polygon, point_in_convex_quadrilateral"]}
{"id": "C70", "title": "Polygon indices, segments and equality", "statement": "next_index and prev_index are inverse cyclic shifts; polygon_as_segment_range lists the edges in order (a polygon of one point is read out of range) and polyline_as_segment_range those of a polyline; polygons_equal compares up to the given rotation; polygon_polygon_offset finds the rotation when points are distinct (with repeated points it may return a wrong one); is_point_concave is true unless the vertex turns strictly left.", "quantifier": "all polygons", "why_tests_cant": "unbounded length", "anchors": ["geometrix/primitive/point_sequence_utilities.hpp: next_index, prev_index, polygon_as_segment_range, polyline_as_segment_range, polygons_equal, polygon_polygon_offset, is_point_concave"]}
{"id": "C71", "title": "grid_2d reads back what was last written to the cell", "statement": "After any sequence of writes through points of the grid's region, none of which is undefined, reading grid_2d through any point of the region returns the value last written through a point of the same half-open cell, or the default value if there was none.", "quantifier": "all grids, all write histories, all points of the region", "why_tests_cant": "unbounded histories over a continuum of points", "anchors": ["geometrix/algorithm/grid_2d.hpp"]}
{"id": "C72", "title": "Voxel walk along a segment", "statement": "fast_voxel_grid_traversal ends within width+height steps for every segment, visits nothing when the segment misses the grid's region, and otherwise visits cells of the grid such that every point of the segment in the region is in a visited cell (cells taken with their border), every visited cell has a point of the segment, successive cells share an edge, no cell is visited twice, and the first one is where the segment enters the region. (The end point's own half-open cell may be missed when the end point lies on a cell border.)", "quantifier": "all grids and all segments, clipped or not", "why_tests_cant": "continuum of segments, eight directions, ties at cell corners", "anchors": ["geometrix/algorithm/fast_voxel_grid_traversal.hpp: fast_voxel_grid_traversal"]}
{"id": "C73", "title": "Stoppable voxel walk", "statement": "stoppable_fast_voxel_grid_traversal calls the visitor with the cells of fast_voxel_grid_traversal in the same order, up to and including the first call answered false.", "quantifier": "all grids, segments, comparison policies and visitors, including visitors whose answer depends on earlier calls", "why_tests_cant": "all visitors and segments", "anchors": ["geometrix/algorithm/fast_voxel_grid_traversal.hpp: stoppable_fast_voxel_grid_traversal"]}
{"id": "C74", "title": "Filling a convex polygon on a grid", "statement": "floodfill_grid_traversal of a convex polygon calls the visitor at most once for each cell; each visited cell is in the grid and, with its border, has a point of the polygon; every point of the polygon is in a visited cell, with its border.", "quantifier": "all grids, all convex polygons (points in either order) with their points in the grid's region, every order in which the unordered map lists the columns; exact arithmetic", "why_tests_cant": "ranges over polygons of any size and position and all iteration orders of the hash map", "anchors": ["geometrix/algorithm/floodfill_grid_traversal.hpp: floodfill_grid_traversal, mark_boundary, update_bound, scan, visit_cell", "geometrix/algorithm/fast_voxel_grid_traversal.hpp: fast_voxel_grid_traversal"]}
{"id": "C75", "title": "Angle of a vector", "statement": "vector_angle of a non-zero vector is the one angle in (-pi,pi] whose direction is the vector's; angle_from_a_to_b(A,B) is the angle at which B is seen from A.", "quantifier": "all non-zero vectors, all pairs of distinct points", "why_tests_cant": "continuum, four quadrants and axes", "anchors": ["geometrix/utility/utilities.hpp: vector_angle, angle_from_a_to_b"]}
{"id": "C76", "title": "Rotations", "statement": "The matrix make_rotation_matrix(v1,v2) of two unit vectors turns every vector by the angle from v1 to v2; rotate_point, rotate_points and rotate_translate_points keep all distances and orientations, and send the centre to itself (plus the translation). For vectors that are not unit vectors the result is scaled.", "quantifier": "all unit vectors, points, centres and point lists", "why_tests_cant": "continuum", "anchors": ["geometrix/algorithm/rotation.hpp"]}
{"id": "C77", "title": "Angle bisector", "statement": "For unit vectors, bisect(lo,hi) is the unit vector half way along the counter-clockwise turn from lo to hi, including turns of exactly half and a full turn; bisect_not_antiparallel agrees except at those. For vectors of different lengths the result is not the bisector.", "quantifier": "all pairs of unit vectors", "why_tests_cant": "continuum, special cases at half and full turns", "anchors": ["geometrix/arithmetic/vector/bisect.hpp"]}
{"id": "C78", "title": "Interpolated directions", "statement": "slerp of two unit vectors that are neither equal nor opposite is a unit vector at t times their angle from the first and (1-t) times from the second, starts at the first and ends at the second; equal vectors give themselves; opposite ones divide by zero. vector_lerp is the unit vector along the linear interpolation. is_antiparallel holds exactly for negative multiples.", "quantifier": "all unit vectors of any dimension and all parameters", "why_tests_cant": "continuum, any dimension", "anchors": ["geometrix/arithmetic/vector/slerp.hpp", "geometrix/arithmetic/vector/lerp.hpp", "geometrix/arithmetic/vector/is_antiparallel.hpp"]}
{"id": "C79", "title": "Collinear point removal from polygons", "statement": "remove_collinear_points_polygon returns a subsequence of the vertices, starting with the same vertex, that encloses the same signed area (as does clean_polygon); if the boundary nowhere folds back, no inner vertex of the result is collinear with its neighbours and the boundary covers the same points. A straight first vertex is kept, and a straight last vertex can be. identify_collinear_points_polygon lists as many indices as vertices are removed, but not those of the removed vertices.", "quantifier": "all polygons", "why_tests_cant": "unbounded length, wrap around", "anchors": ["geometrix/algorithm/point_sequence/remove_collinear_points.hpp: remove_collinear_points_polygon, identify_collinear_points_polygon"]}
{"id": "C80", "title": "Removing repeated vertices", "statement": "coalesce_adjacent_points_polyline and _polygon return a subsequence of the vertices starting with the first, with no vertex equal to its predecessor; the polyline still ends at the same point and passes through the same points, the polygon encloses the same area, but its last vertex may still equal its first. identify_adjacent_points_polygon lists exactly the indices dropped.", "quantifier": "all polylines and polygons, all distances", "why_tests_cant": "unbounded length", "anchors": ["geometrix/algorithm/point_sequence/remove_collinear_points.hpp: coalesce_adjacent_points_polyline, coalesce_adjacent_points_polygon, identify_adjacent_points_polygon"]}
{"id": "C81", "title": "Clipping the ends of a polyline", "statement": "clip_polyline_front(poly,l), clip_polyline_back and clip_polyline_ends return, for 0<=l less than the length (half the length for both ends), the part of the polyline that remains after removing arc length l from that end: its length, its end points, its vertices and all its points are as expected; when everything is clipped no length remains. A negative length makes the polyline grow beyond its end.", "quantifier": "all polylines in any dimension and all lengths", "why_tests_cant": "unbounded length, continuum, edge cases at vertices and repeated points", "anchors": ["geometrix/algorithm/point_sequence/clip_polyline_ends.hpp"]}
{"id": "C82", "title": "Lengths and mid points", "statement": "polyline_length is the sum of the edge lengths, polygon_length includes the closing edge, and polyline_mid_point is the point at half the length of every polyline of positive length. polygon_length of a single point indexes out of range and the mid point of a polyline without length divides by zero.", "quantifier": "all polylines and polygons in any dimension", "why_tests_cant": "unbounded length", "anchors": ["geometrix/algorithm/point_sequence/length.hpp", "geometrix/algorithm/point_sequence/polyline_mid_point.hpp"]}
{"id": "C83", "title": "Fixed-point conversions", "statement": "Constructing a fixed_point from a number rounds according to the scaling policy and converting an integer there and back is the identity; converting to a floating type cuts off the fraction, the binary run-time policy divides by the exponent instead of the power of two, conversion between fixed-point types loses the fraction, and comparing with a float compares the rounded values.", "quantifier": "all rationals and integers in range, all scales", "why_tests_cant": "continuum of inputs, every scale", "anchors": ["geometrix/numeric/fixed_point.hpp", "geometrix/numeric/fixed_point_traits.hpp", "geometrix/numeric/detail/fixed_point.hpp"]}
{"id": "C84", "title": "Finding the triangle of a point through the grid cache", "statement": "mesh_2d::find_triangle is defined for every query point, returns the first triangle that contains the point (if that triangle has positive area) and returns none only for points outside all triangles; the grid cache never loses a triangle.", "quantifier": "all meshes with two different points less than 2^32 - 4 units wide and high, and all query points", "why_tests_cant": "continuum of points and unbounded meshes", "anchors": ["geometrix/algorithm/mesh_2d.hpp: triangle_grid_cache, find_triangle", "geometrix/algorithm/eberly_triangle_aabb_intersection.hpp"]}
{"id": "C85", "title": "Triangle against box is exact", "statement": "The separating axis test of a triangle and an axis aligned box answers true exactly if they have a common point, degenerate triangles included; with a non-negative tolerance it never misses a common point.", "quantifier": "all triangles, boxes and tolerances", "why_tests_cant": "continuum", "anchors": ["geometrix/algorithm/eberly_triangle_aabb_intersection.hpp: eberly_triangle_aabb_intersection_2d"]}
{"id": "C86", "title": "First and last contact of moving oriented boxes", "statement": "For two oriented boxes moving with constant velocities the reported first and last contact times delimit exactly the set of non-negative times at which the boxes share a point, the first contact is within the given time limit, and when nothing is reported the boxes share no point up to the limit.", "quantifier": "all boxes with orthonormal axes and non-negative half extents, all velocities, all non-negative limits and all times", "why_tests_cant": "The times range over a continuum, and the claim that nothing happens before the limit quantifies over all of it.", "anchors": ["geometrix/algorithm/intersection/moving_obb_obb_intersection.hpp", "geometrix/algorithm/intersection/detail/separating_axis_common.hpp"]}
{"id": "C87", "title": "First and last contact of moving triangles", "statement": "For two non-degenerate triangles of either orientation moving with constant velocities the reported first and last contact times delimit exactly the set of non-negative times at which the triangles share a point, the first contact is within the limit, and when nothing is reported they share no point up to the limit. (For polygons with more corners the code does not keep this promise.)", "quantifier": "all non-degenerate triangles, velocities, non-negative limits and times", "why_tests_cant": "The times range over a continuum, and the claim that nothing happens before the limit quantifies over all of it.", "anchors": ["geometrix/algorithm/intersection/moving_separating_axis_convex_polygons.hpp", "geometrix/algorithm/intersection/detail/separating_axis_common.hpp"]}
{"id": "C88", "title": "Painter's traversal is back to front", "statement": "From a viewpoint on no line of a given segment, painters_traversal of a node_bsp_tree_2d visits every stored segment exactly once, and no segment hides any part of a segment visited after it. From any viewpoint only stored segments are visited. (From a viewpoint on the line of a splitting segment the segments on that line are left out.)", "quantifier": "all trees made by construction and insertion with any selectors, all viewpoints", "why_tests_cant": "The order must be right for every pair of the unboundedly many segments and every viewpoint.", "anchors": ["geometrix/algorithm/node_bsp_tree_2d.hpp:painters_traversal"]}
{"id": "C89", "title": "point_in_solid_space tells empty space, solid and walls apart", "statement": "For walls with the empty space on their left, point_in_solid_space answers on_boundary for every point of a wall; off the walls it never answers in_solid in the empty space nor in_empty_space in the solid. If no two walls are on one line the three answers are exact, for instance for every convex room. (With two walls on one line, a point of that line between them can be reported on_boundary.)", "quantifier": "all walls that bound an empty space, all selection rules, all points; exact arithmetic", "why_tests_cant": "Points on the line of a wall are answered by merging two subtrees; whether the merge is right depends on every cut made before.", "anchors": ["geometrix/algorithm/solid_leaf_bsp_tree.hpp: point_in_solid_space"]}
{"id": "C90", "title": "The distance to the walls found by the tree is the least one", "statement": "get_min_distance_sqrd_to_solid returns the least squared distance from the point to all walls, and the index it gives names a wall at that distance, although subtrees are skipped.", "quantifier": "all lists of non-degenerate walls, all trees built for them, all points", "why_tests_cant": "A wrong pruning rule only shows for particular arrangements of walls and query points.", "anchors": ["geometrix/algorithm/solid_leaf_bsp_tree.hpp: get_min_distance_sqrd_to_solid"]}
{"id": "C91", "title": "Rays stop at the first entry into the solid", "statement": "For a ray that starts in the empty space, off the walls, and does not go to the left of a wall line through its origin, ray_intersection ends; a hit is at a positive parameter on a wall, the ray is in the empty space or on walls before it, the index is that of a wall with the hit on it and is defined if the hit is on one wall line only; without a hit the ray never enters the solid. (From an origin on the line of a wall and to its left, walls are missed; the border-only query from inside the solid reports points on no wall.)", "quantifier": "all walls with an empty space to their left and no two on one line, all trees built for them, all origins and directions as stated", "why_tests_cant": "The traversal order and parameter intervals depend on the tree and the ray; the failing origins form lines that random tests never meet.", "anchors": ["geometrix/algorithm/solid_leaf_bsp_tree.hpp: ray_intersection, ray_intersection_only_border, find_closest_hit"]}
{"id": "C92", "title": "Segments are joined to the chains they form", "statement": "For segments of which no two start at the same point and no two end at the same point, make_dcel ends and its polylines and polygons are the segments joined end to start: the sides of the open and closed chains are the segments, each exactly once, and no point is passed twice. The same holds however add_edge and calculate_point_sequences calls are interleaved. (When two segments end at one point, segments are lost or the calculation never ends; a copy of the list cannot recalculate.)", "quantifier": "all lists of segments as stated in any order, all interleavings of the calls; exact arithmetic", "why_tests_cant": "The result depends on the order in which segments arrive and on the connectivity of the whole set; the endless loop needs a particular branching.", "anchors": ["geometrix/algorithm/doubly_connected_edge_list.hpp: doubly_connected_edge_list, add_edge, calculate_point_sequences, get_polygons, get_polylines, make_dcel"]}
{"id": "C93", "title": "Segments against polylines and polygon borders", "statement": "segment_polyline_intersect and segment_polygon_border_intersect answer true exactly when the segment has a point in common with the polyline or border. The visitor is told the sides that meet the segment, in order of the sides, each with the true type and common points, up to and including the first one at which it asks to stop. (The border version reads out of range for a polygon of one point.)", "quantifier": "all segments of positive length, all polylines and polygons without repeated neighbouring points, all visitors including ones with state; exact arithmetic", "why_tests_cant": "Order, completeness and early stopping must hold for every number of sides, every position and every behaviour of the visitor.", "anchors": ["geometrix/algorithm/intersection/segment_polyline_intersection.hpp: segment_polyline_intersect", "geometrix/algorithm/intersection/segment_polygon_intersection.hpp: segment_polygon_border_intersect"]}
{"id": "C94", "title": "Polyline against polyline", "statement": "polyline_polyline_intersect answers true exactly when the two polylines have a common point. The visitor is told true intersections of the first side of the first polyline that meets the second, in order, from the first on until it asks to stop. (Later sides are not visited even if it never asks to stop.)", "quantifier": "all polylines without repeated neighbouring points, all visitors; exact arithmetic", "why_tests_cant": "The answer must hold for every pair of sizes and positions and every visitor.", "anchors": ["geometrix/algorithm/intersection/polyline_polyline_intersection.hpp: polyline_polyline_intersect"]}
{"id": "C95", "title": "Self-intersection and simplicity", "statement": "polyline_self_intersection reports exactly the pairs of sides, not neighbours, with a common point and the pairs of neighbouring sides on one line, each with its true common points. is_polygon_simple answers true exactly when different sides have no common point but for the vertex where one ends and the next begins (polygons of four or more points, triangles not on a line); the memoized version gives the same answer. (A straight vertex counts as a self-intersection; a triangle flattened to a line is called simple.)", "quantifier": "all polylines and polygons without repeated neighbouring points; exact arithmetic", "why_tests_cant": "All pairs of sides of polygons of every size are involved, with wrap-around at the closing side.", "anchors": ["geometrix/algorithm/point_sequence/self_intersection.hpp: polyline_self_intersection", "geometrix/algorithm/point_sequence/is_polygon_simple.hpp: is_polygon_simple, is_polygon_simple_memoized"]}
{"id": "C96", "title": "Polygons with holes", "statement": "is_polygon_with_holes_simple answers true exactly when the outer polygon and every hole are simple and no two of them have a border point in common. (It does not ask whether the holes are inside.)", "quantifier": "all outer polygons and all lists of holes of four or more points without repeated neighbouring points; exact arithmetic", "why_tests_cant": "Any number of holes of any size, all pairs of them.", "anchors": ["geometrix/algorithm/point_sequence/is_polygon_simple.hpp: is_polygon_with_holes_simple"]}
{"id": "C97", "title": "Leaving a polygon, and containment in a polygon", "statement": "For a simple polygon: a segment that meets the border is said to project outside exactly when one of its points is not in the closed region (the border and the points inside by the even-odd rule). A polyline is said to be contained exactly when all its points are in the closed region, and another polygon exactly when its whole border is.", "quantifier": "all simple polygons, all segments of positive length, all polylines and polygons without repeated neighbouring points; exact arithmetic", "why_tests_cant": "Segments that run along sides, pass through vertices or touch the border from inside or outside must all be classified, for every polygon.", "anchors": ["geometrix/algorithm/intersection/segment_projects_outside_polygon.hpp: segment_projects_outside_polygon", "geometrix/algorithm/point_sequence/polygon_polyline_containment.hpp: polygon_polyline_containment", "geometrix/algorithm/point_sequence/polygon_polygon_containment.hpp: polygon_polygon_containment"]}
{"id": "C98", "title": "Determinant, inverse, product and trace of matrices", "statement": "determinant returns the Leibniz sum over permutations; a matrix product element is row against column and determinants multiply; for a square matrix of dimension two or more with nonzero determinant, inverse_at_index returns the elements of the one matrix that inverts it on both sides; with determinant zero it throws, and no inverse exists; trace returns the sum of the diagonal and is the same for both orders of a product; multiplying by the identity matrix changes nothing.", "quantifier": "all square matrices of every dimension over every field (exact arithmetic); the library itself stops at dimension 10", "why_tests_cant": "Cofactor signs and index offsets of minors of minors must be right for every entry and dimension; samples check single matrices.", "anchors": ["geometrix/arithmetic/detail/determinant.hpp: determinant", "geometrix/arithmetic/matrix_arithmetic.hpp: matrix_product_element, adjugate_at_index, inverse_at_index", "geometrix/tensor/matrix_minor_adaptor.hpp: matrix_minor", "geometrix/arithmetic/matrix/trace.hpp: trace", "geometrix/algebra/detail/dot_product.hpp: dot_product", "geometrix/tensor/identity_matrix.hpp: identity_matrix"]}
{"id": "C99", "title": "Congruence of polylines and polygons", "statement": "are_polylines_congruent and are_polygons_congruent answer true exactly when a rotation and a shift put the first sequence, point by point, onto the second (mirror images and other starting points do not count). A moved copy is always found congruent. (Repeated neighbouring points hide a bend; a polygon of one point is read out of range.)", "quantifier": "all polylines and polygons without repeated neighbouring points in the first one; exact comparison", "why_tests_cant": "Local equalities at every corner must add up to one motion for sequences of every length.", "anchors": ["geometrix/algorithm/point_sequence/is_congruent.hpp: are_polylines_congruent, are_polygons_congruent"]}
{"id": "C100", "title": "Polyline simplification", "statement": "ramer_douglas_peucker_algorithm returns a selection of the points in order, from the first to the last; the points left out between neighbours a and c of the selection are within the tolerance of the line through a and the point before c (through a and c if c is the last). If all points are within the tolerance of the line through the ends, the ends remain; otherwise a farthest point is kept. (The tolerance to the result itself is not kept, built with assertions three points with a bend stop the program, and closed polylines divide by zero.)", "quantifier": "all polylines of two or more different points, all tolerances that are not negative; exact arithmetic", "why_tests_cant": "The recursion splits at data-dependent points; order, ends and the tolerance of each gap must hold for all shapes and sizes.", "anchors": ["geometrix/algorithm/point_sequence/ramer_douglas_peucker_algorithm.hpp: ramer_douglas_peucker_algorithm", "geometrix/algorithm/distance/point_line_distance.hpp: point_line_distance"]}
{"id": "C101", "title": "The border segment a point is on or closest to", "statement": "find_containing_polygon_border_segment returns the first side that has the point on it, none only if the point is not on the border; find_closest_polygon_border_segment returns the first of the sides with the least distance; the combined search returns the same as the closest search, and for points on the border all three agree. (A polygon of one point is read out of range.)", "quantifier": "all polygons of two or more points without repeated neighbouring points, all points; exact comparison", "why_tests_cant": "First-of-ties over any number of sides with wrap-around, for every position of the point.", "anchors": ["geometrix/algorithm/point_sequence/find_subsequence.hpp: find_containing_polygon_border_segment, find_closest_polygon_border_segment, find_containing_or_closest_polygon_border_segment"]}
{"id": "C102", "title": "The stretch of a polygon's border around a point", "statement": "polygon_subsequence returns, for a positive extent, the path that starts where a clockwise walk of that length along the border from p ends, runs through the vertices passed and ends where the counterclockwise walk of that length ends, p itself left out unless it is a vertex; all its points are on the border; each half has exactly the wanted length and the walk always ends. For an extent that is not positive the result is empty. (With all vertices equal to p it never ends.)", "quantifier": "all polygons with not all vertices equal, all points on a side, all extents, also longer than the perimeter; real arithmetic, any dimension", "why_tests_cant": "Walks may go around the polygon any number of times; termination and exact length hold for all extents.", "anchors": ["geometrix/algorithm/point_sequence/find_subsequence.hpp: polygon_subsequence, detail::polygon_subsequence_half, detail::polygon_incrementer"]}
{"id": "C103", "title": "Sets of collinear segments under union and difference", "statement": "After any history of collinear_segment_union and collinear_segment_difference calls with segments of one line, starting from the empty set, no assertion fires; the members are segments of positive length, stored in order along the line, and no two share even an end point; and the covered points are exactly those that were added and not removed since, except possibly at the end points of removed segments. Without removals the end points are included. (Adding a zero-length segment inside a member of a horizontal line erases that member.)", "quantifier": "all finite histories of additions of segments with different end points and removals of any segments, in either direction of travel, on any line of the plane; exact comparison", "why_tests_cant": "The relative positions of the new segment and an unbounded number of stored ones, in both orientations, and the order of calls cannot be enumerated.", "anchors": ["geometrix/utility/utilities.hpp: segment_interval_compare, collinear_segment_union, collinear_segment_difference"]}
{"id": "C104", "title": "Curvature of a polyline", "statement": "The signed curvature at an inner point is plus (left turn) or minus (right turn) one over the radius of the circle through the point and its neighbours, 0 for collinear points and at both ends, and undefined exactly when two of the three points coincide. The total (absolute) curvature is the sum over the inner points of the mean of the two adjacent side lengths times the (absolute) curvature; it is unchanged by rotations and shifts; walking backwards negates the total and keeps the absolute total, which bounds the size of the other.", "quantifier": "all polylines of any length in the plane; real arithmetic", "why_tests_cant": "Identities over the reals with square roots, for any number of points.", "anchors": ["geometrix/algorithm/point_sequence/curvature.hpp: polyline_signed_curvature_at_index, polyline_total_curvature_over_index, polyline_total_curvature, polyline_total_absolute_curvature"]}
{"id": "C105", "title": "Inflection points and cutting a polyline by curvature", "statement": "inflection_points lists, in increasing order, exactly the indices where turning right begins or ends, the first and last point counting as not turning right (so a polyline that always turns right is given two inflection points, one that always turns left none). split_polyline_by_inflection_points returns the parts between consecutive inflection points; split_by_total_curvature cuts each time the bends since the last cut first add up to more than the limit. Consecutive parts share the cut point and together run through all points in order.", "quantifier": "all polylines with two or more points in which three consecutive points are pairwise different; all limits; real arithmetic", "why_tests_cant": "Number of points and cuts is unbounded.", "anchors": ["geometrix/algorithm/point_sequence/curvature.hpp: inflection_points, split_polyline_by_inflection_points, split_by_total_curvature"]}
{"id": "C106", "title": "Parallel copies of a polyline", "statement": "polyline_offset returns as many points as the polyline has; the first and last lie straight beside the first and last point at the wanted signed distance, and at every bend the point has that signed distance from the lines of both adjacent sides, so every side of the copy is parallel to its original. Where the polyline goes straight on or straight back the point is indeterminate. Fewer than two points fail an assertion; a side of length zero is divided by zero. The other offset (liu_polyline_offset before trimming) keeps straight vertices, uses the common point of the two parallel lines where the bend opens away or that point lies over both sides, and otherwise the ends of both shifted sides; where the polyline turns straight back it gives no point.", "quantifier": "all polylines of any length, both sides, all real distances (also negative); real arithmetic", "why_tests_cant": "A statement about real geometry for any number of vertices and any angles.", "anchors": ["geometrix/algorithm/point_sequence/polyline_offset.hpp: polyline_offset, detail::polyline_offset_impl, detail::untrimmed_offset, detail::classify_xpoint_type", "geometrix/algorithm/line_intersection.hpp: line_line_intersect", "geometrix/arithmetic/vector/perp.hpp: oriented_normal"]}
{"id": "C107", "title": "The segment sweep finds every intersection", "statement": "bentley_ottmann_segment_intersection (for floating coordinates) ends and calls the visitor for points from left to right (upwards on one abscissa), each point once, with exactly the segments that pass through it, at least two. Every reported point is an end of a segment or the only common point of two segments; every end lying on two or more segments and every only common point of two segments is reported. So two segments are reported together exactly when they have a common point (several segments through one point, upright segments, overlapping and repeated segments included). A segment that is a single point is never removed from the sweep line and can hide crossings.", "quantifier": "all finite lists of segments with two different ends, all shapes of the search trees used for the sweep line; exact arithmetic", "why_tests_cant": "The sweep line is only ordered while no crossing is missed; that holds for every configuration (degenerate ones included) only by an invariant over all events.", "anchors": ["geometrix/algorithm/bentley_ottmann_sweep.hpp", "geometrix/algorithm/bentley_ottmann_segment_intersection.hpp: bentley_ottmann_segment_intersection, process_new_events, sweep_line_order_compare"]}
{"id": "C108", "title": "Segment against triangle", "statement": "For a segment with two different ends and a counter-clockwise triangle, segment_triangle_intersect with an output array returns 0 exactly when they have no common point, 1 with the common point when there is exactly one, and 2 with the two ends of the common part otherwise; for a clockwise triangle the same holds when no end of the segment is strictly inside. The overload without output is true exactly when there is a common point, for every triangle with an area (either orientation) and every segment, single points included.", "quantifier": "all segments and triangles of the plane within the stated conditions; exact arithmetic", "why_tests_cant": "continuum of positions, with contacts at corners, along sides and at the ends of the segment", "anchors": ["geometrix/algorithm/intersection/segment_triangle_intersection.hpp: segment_triangle_intersect (both overloads)"]}
{"id": "C109", "title": "Which side of a polyline a point is on", "statement": "For a polyline of at least two points without zero-length sides, point_polyline_orientation always answers; it answers collinear exactly on the polyline or on the extension of a side that is nearest; elsewhere it answers the side (left or right) at the point of the polyline nearest to the given point: of the line of the side when that point is inside a side, of the corner when it is an inner vertex, and of the first or last line at the two ends.", "quantifier": "all points and all polylines of any length; exact arithmetic", "why_tests_cant": "polylines of any length and shape; the interesting cases (nearest point is a corner, on a straight stretch, at an end) are lower-dimensional sets", "anchors": ["geometrix/algorithm/point_sequence/point_polyline_orientation.hpp: point_polyline_orientation (both overloads)"]}
{"id": "C110", "title": "Polygon against box", "statement": "polygon_aabb_intersection of a polygon of at least two vertices and an axis-aligned box answers true exactly when the box contains a point on the border of the polygon or a point that point_in_polygon accepts; for a strictly convex counter-clockwise polygon exactly when the box meets its convex hull. With the epsilon term of the segment test no intersection is missed.", "quantifier": "all polygons of any number of vertices, simple or not, and all boxes; exact arithmetic", "why_tests_cant": "the polygon may lie inside the box, the box inside the polygon, or their borders may cross at any pair of sides; there is no bound on the number of sides", "anchors": ["geometrix/algorithm/intersection/polygon_aabb_intersection.hpp: polygon_aabb_intersection"]}
{"id": "C111", "title": "Moving disc against a box", "statement": "moving_sphere_aabb_intersection and moving_sphere_obb_intersection in the plane: for a disc moving with a constant non-zero velocity, the answer is a hit exactly when the disc meets the box at some time from now on; the time reported is the first such time and the point reported belongs to the box and to the disc at that time.", "quantifier": "all discs, velocities and boxes, aligned with the axes or turned; exact real arithmetic", "why_tests_cant": "the first contact may be with any side or corner, at any time, from any direction, and corner contacts are grazing contacts of measure zero", "anchors": ["geometrix/algorithm/intersection/moving_sphere_aabb_intersection.hpp: moving_sphere_aabb_intersection", "geometrix/algorithm/intersection/moving_sphere_obb_intersection.hpp: moving_sphere_obb_intersection", "geometrix/algorithm/intersection/ray_aabb_intersection.hpp: ray_aabb_intersection"]}
{"id": "C112", "title": "Segment against the range between two rays", "statement": "is_segment_in_range_2d(segment, lo, hi, origin) for a range from lo to hi of less than half a turn answers true exactly when the segment has a point in the closed range; the overload with output points answers the same and writes points of the common part.", "quantifier": "all segments, degenerate ones included, all origins and all pairs of directions turning left by less than half a turn; exact arithmetic", "why_tests_cant": "a continuum of segments; the cases that matter (an end on a ray, both ends on the lines of the rays, the rays crossed in either order) are lower-dimensional", "anchors": ["geometrix/algorithm/is_segment_in_range.hpp: is_segment_in_range_2d (both overloads)"]}
{"id": "C113", "title": "Vertices of a mesh visible from a point", "statement": "Searching a mesh with visible_vertices_mesh_search from a point inside a triangle ends and collects exactly the vertices of the mesh that can be seen from the point within the mesh.", "quantifier": "all meshes of counter-clockwise triangles in which every side belongs to at most one triangle per direction, all origins, all start triangles, any number of triangles; exact arithmetic", "why_tests_cant": "the search is a history of unbounded length over arbitrary meshes; the range carried along depends on every side crossed before; not ending cannot be observed by a test", "anchors": ["geometrix/algorithm/mesh_2d.hpp: mesh_2d::search", "geometrix/algorithm/visible_vertices_mesh_search.hpp: visible_vertices_mesh_search"]}
{"id": "C114", "title": "Cells along a segment, guided by cell corners", "statement": "orientation_segment_traversal calls the visitor for a chain of distinct grid cells that joins the cells of the two ends of the part of the segment inside the region, covers every point of that part and contains only cells that have a point of it; it makes no call when the segment misses the region. This holds unless the part inside stays in one column of cells and falls from left to right; in that case the row index runs upwards and wraps around.", "quantifier": "all grids, all segments in either direction, inside, across or outside the region; exact comparisons", "why_tests_cant": "the set of cells depends on every crossing of the segment with the grid lines and corners, over unbounded numbers of cells; the wrap-around takes 2^32 calls", "anchors": ["geometrix/algorithm/orientation_grid_traversal.hpp: orientation_segment_traversal"]}
{"id": "C115", "title": "Common part of two convex polygons", "statement": "convex_polygon_polygon_intersection ends for every two polygons; for convex polygons in counter-clockwise order it returns none exactly when they have no common point, visits only common points, returns face, with the two ends as last visits, only when the common part is a segment (or a point), and otherwise overlapping with visits whose convex hull is the common part, so that every corner of it is visited. The exception is a first polygon strictly inside the second with a different number of points, where points are read out of range or left out.", "quantifier": "all pairs of convex polygons of any number of points, in any position: apart, nested, crossing, touching; exact comparisons (termination: any comparison policy and any point sequences)", "why_tests_cant": "the advance rules depend on the relative directions of every pair of edges, over polygons of unbounded size; the nested and touching cases are rare in random tests", "anchors": ["geometrix/algorithm/intersection/convex_polygon_polygon_intersection.hpp: convex_polygon_polygon_intersection"]}
{"id": "C116", "title": "Sphere against a polyline", "statement": "sphere_polyline_intersect calls the visitor, in order along the polyline, exactly for the edges that have a point on the surface of the sphere, with the parameters and points of the surface on the line of the edge and flags saying which of them are on the edge; it goes on until the visitor asks to stop or the edges are used up, and returns whether it made a call.", "quantifier": "all spheres, all polylines of any length without repeated successive points, all visitors whatever their answers depend on; real arithmetic", "why_tests_cant": "ranges over polylines of unbounded length, all real positions and arbitrary stopping behaviour of the visitor", "anchors": ["geometrix/algorithm/intersection/sphere_polyline_intersection.hpp: sphere_polyline_intersect", "geometrix/algorithm/intersection/segment_sphere_intersection.hpp: segment_sphere_intersection"]}
{"id": "C117", "title": "Filling a convex polygon with convex holes on a grid", "statement": "floodfill_grid_traversal of a convex polygon with convex holes calls the visitor at most once for each cell; each visited cell is in the grid and has a point of the polygon or of the boundary of a hole; every point of the polygon that is not inside a hole is in a visited cell; with one hole inside the polygon no cell is visited that is inside the hole with its border.", "quantifier": "all grids, all convex polygons and lists of convex holes in either orientation with their points in the region, in any mutual position, every order of the hash map", "why_tests_cant": "ranges over any number and position of holes, polygons of any size and all iteration orders", "anchors": ["geometrix/algorithm/floodfill_grid_traversal.hpp: floodfill_grid_traversal, mark_hole_boundary, scan"]}
{"id": "C118", "title": "Value of a linear algebra expression", "statement": "An expression built with + - * / ^ & and with det, trans, inv, mag, norm, abs, rec from numbers, vectors, points and matrices has the kind and dimensions of its textbook meaning, and each of its components is that of the meaning; the inverse of a singular matrix throws, norm of a null vector fails its assertion, and sums, differences and quotients of kinds that do not go together are refused.", "quantifier": "all expressions of any depth, all dimensions, all values of the variables, any ordered field and any square root function", "why_tests_cant": "ranges over all expression trees, dimensions and values", "anchors": ["geometrix/algebra/expression_generator.hpp: domain, operators, expr access policies", "geometrix/algebra/functions: addition, subtraction, multiplication, division, dot_product, matrix_product, cross_product, tensor_product, negate, absolute_value, reciprocal, magnitude, normalize, determinant, transpose, inverse", "geometrix/arithmetic/tensor_arithmetic.hpp: tensor_product_element", "geometrix/arithmetic/vector/magnitude.hpp: magnitude"]}
{"id": "C119", "title": "Assignment of an expression to a variable", "statement": "x <<= e gives x the value e had before, also when x occurs in e; x = e, x += e and x -= e (component by component) do so when component i of e needs no component of x but the i-th; no other variable changes.", "quantifier": "all expressions, variables, dimensions and values", "why_tests_cant": "ranges over all expressions in which the assigned variable may occur", "anchors": ["geometrix/algebra/expression_generator.hpp: operator <<=", "geometrix/tensor/detail/numeric_sequence_n.hpp: operator =, +=, -=", "geometrix/tensor/detail/vector_n.hpp: constructor, operator ="]}
{"id": "C120", "title": "Expressions given a name and used later", "statement": "In a program of declarations auto d = e and assignments x <<= e in which each declaration has one operator on variables and earlier names, a name stands for its text with the values the variables have at the time of use and no destroyed object is read; after a declaration with an operator below another operator, every later use of its name reads a destroyed object.", "quantifier": "all programs of any length, all expressions, all values", "why_tests_cant": "ranges over all programs; reading a destroyed temporary often gives the right answer in a test", "anchors": ["geometrix/algebra/functions/binary_function.hpp: GEOMETRIX_PROTO_DEFINE_BINARY_OPERATOR", "geometrix/algebra/functions/unary_function.hpp: GEOMETRIX_LINEAR_ALGEBRA_UNARY_FUNCTION"]}
{"id": "C121", "title": "Cartesian and polar coordinates of a point", "statement": "Building a Cartesian point from a polar one gives the point with radius and angles as stated; building a polar point from a Cartesian one gives its only polar coordinates with radius not negative, first angle in (-pi, pi], other angles in [0, pi] and unused angles 0; each conversion undoes the other; asking for a single coordinate in another frame gives that coordinate of the converted point.", "quantifier": "all dimensions from 2 on and all coordinates", "why_tests_cant": "ranges over all dimensions and real coordinates", "anchors": ["geometrix/space/cartesian_polar_transformation.hpp: term_calculator, transform, transform_coordinate", "geometrix/space/polar_cartesian_transformation.hpp: term_calculator, transform, transform_coordinate", "geometrix/space/reference_frame_transformation.hpp: transform", "geometrix/space/polar_access_traits.hpp: get", "geometrix/space/cartesian_access_traits.hpp: get"]}
{"id": "C122", "title": "Second squared distance of two segments", "statement": "eberly_segment_segment_distance_sqrd gives the least squared distance between a point of the one segment and a point of the other.", "quantifier": "all pairs of segments of the plane", "why_tests_cant": "ranges over all pairs of segments; the one test in the repository has the two nearest end points", "anchors": ["geometrix/algorithm/distance/eberly_segment_segment_distance.hpp: eberly_segment_segment_distance_sqrd"]}
{"id": "C123", "title": "Pi with a chosen number of digits", "statement": "Asked for P digits over exact fractions, the calculator of pi returns pi cut after its P-th digit exactly when P is one of 1-6, 8, 9, 12, 13, 16, 17, 20, 21, 24, 25, 28, 29, 32, 34; for every P from 36 on for which it returns, the result is more than 2/10^32 above pi; it returns (no int overflows) for every P up to 15339.", "quantifier": "all numbers of digits from 1 on", "why_tests_cant": "ranges over all precisions, and the comparison is with the real number pi", "anchors": ["geometrix/numeric/integral_constant_pi_calculator.hpp: calculate_pi"]}
{"id": "C124", "title": "Cut of a polygon by a plane", "statement": "Cutting a polygon in space by a plane yields a front and a back polygon: strictly in front of the plane the border of the front part is the border of the polygon, and the front part winds around every point there as often as the polygon does; strictly behind the same holds of the back part; each part stays on its side. The parts of a convex polygon are exactly the points of it on the closed sides (the back part is empty if no vertex is behind). A polygon is classified as straddling, in front, behind or on the plane by where its vertices are.", "quantifier": "every polygon with at least one vertex (convex or not, flat or not, repeated vertices, vertices on the plane), every plane, every point; exact numbers", "why_tests_cant": "All polygons of all sizes, all positions of every vertex relative to the plane, and all points of space; the degenerate positions (vertices on the plane, edges in it) come in unboundedly many combinations.", "anchors": ["geometrix/algorithm/solid_leaf_bsp_tree.hpp: bsp_detail::split_simplex (polygon overload)", "geometrix/algorithm/classify_simplex_to_plane.hpp: classify_point_to_plane, classify_simplex_to_plane", "geometrix/algorithm/intersection/segment_plane_intersection.hpp: segment_plane_intersection"]}
{"id": "C125", "title": "Random indices, random integers and colours", "statement": "A random element taken with the size less one as limit is always an element and every element can come; a random integer below N is any of 0..N-1, each coming from M/N or M/N+1 of the M engine values; the colour computed from hue, saturation and value is the one of the usual formula in every channel, rounded down to 0..255.", "quantifier": "every range size, every limit N, every engine value; every hue from 0 on, every saturation and value in [0,1] (exact numbers)", "why_tests_cant": "Every engine state and every triple of real parameters; the borders between the six sectors of the hue and the rare engine values are missed by samples.", "anchors": ["geometrix/utility/random_generator.hpp: random_index_generator, random_integer_generator, random_element", "geometrix/utility/golden_ratio_color_generator.hpp: hsv2rgb"]}
{"id": "C126", "title": "Trimming of a parallel polyline", "statement": "In the trimmed parallel copy of a polyline (liu_polyline_offset), a copy without self-intersections is returned as it is; otherwise it is cut exactly at its self-intersections into pieces that follow one another from its first to its last point, cover it and nothing else, and have only end points in common unless the copy runs along itself; returned are exactly the pieces that have no point in common with the original polyline, in their order.", "quantifier": "every polyline without sides of length zero as untrimmed copy, of any length and with any number of crossings and overlaps, and every original polyline (exact numbers)", "why_tests_cant": "The crossings can be at vertices, on one another, several on one side, or along a whole stretch; the order of the cuts depends on all of them. Tests look at a few shapes.", "anchors": ["geometrix/algorithm/point_sequence/polyline_offset.hpp: liu_polyline_offset, detail::self_intersection_set, detail::point_closer_to_vertex_cmp, detail::split, detail::liu_polyline_offset_impl"]}
{"id": "C127", "title": "The place of a point on a polyline", "statement": "For a point on a polyline of the plane, point_on_polyline_length_characteristics returns the least arc length at which the polyline is at that point, the length that remains (the two add up to the whole), and the index of the first side through the point; for a point not on the polyline it returns the whole length, nothing and no index.", "quantifier": "every polyline of the plane without repeated consecutive points, of any number of sides, and every point (real numbers)", "why_tests_cant": "Points may lie on several sides, on vertices and where the polyline crosses itself; only a proof covers them all.", "anchors": ["geometrix/algorithm/point_sequence/length.hpp: point_on_polyline_length_characteristics", "geometrix/utility/utilities.hpp: is_between, is_collinear, is_collinear_point_between"]}
{"id": "C128", "title": "Helpers for boxes, orderings and side ranges", "statement": "bounding_box_intersection of two diagonals answers whether the two closed boxes have a common point, and never rejects two segments that do (under any policy that accepts a >= b when it holds). distance_compare orders points of up to four coordinates by their distance from a fixed point, as a strict weak order; pair_first_compare and pair_second_compare order pairs by one component and keep a strict weak order one. polygon_with_holes_as_segment_range lists exactly the sides of the outer ring and then of each hole, in order.", "quantifier": "all points, points of any dimension, all component orders, all rings of any length", "why_tests_cant": "The claims range over all inputs and all lengths of rings; the failing cases (five coordinates, a ring of one point) are not in the tests.", "anchors": ["geometrix/algorithm/bounding_box_intersection.hpp: bounding_box_intersection", "geometrix/algorithm/distance/distance_compare.hpp: distance_compare", "geometrix/utility/utilities.hpp: coordinate_less_compare, pair_first_compare, pair_second_compare", "geometrix/algorithm/polygon_with_holes_as_segment_range.hpp"]}
{"id": "C129", "title": "Products and projections of vectors", "statement": "vector_projection(v1, v2) is the multiple of v2 nearest to v1, with a remainder perpendicular to v2, and is undefined exactly for the zero vector. exterior_product_area is the signed area in the plane, zero exactly on parallel vectors. The cross product is perpendicular to both vectors with the area as its length. exterior_product_volume is the signed volume: one on the unit box, linear, alternating, and zero exactly when the three vectors lie in one plane.", "quantifier": "all real vectors (projection: of every dimension)", "why_tests_cant": "Algebraic identities over all real vectors; the tests check a handful of axis-parallel ones, on which the wrong area in space happens to be right.", "anchors": ["geometrix/algebra/vector_projection.hpp: vector_projection", "geometrix/algebra/exterior_product.hpp: exterior_product_area, exterior_product_volume", "geometrix/algebra/functions/cross_product.hpp"]}
{"id": "C130", "title": "The scored choice of a splitting segment", "statement": "The scored selector of node_bsp_tree_2d returns one of the given segments, so that the trees built with it are right (C34, C88). It returns the first segment of least cost, where the cost is 0.8 times the number of other segments whose line cuts it plus 0.2 times the imbalance between the lines it is in front of and behind.", "quantifier": "every non-empty list of segments, of any length, degenerate ones included", "why_tests_cant": "Every list of segments and every position of the best one; the tests only build one tree.", "anchors": ["geometrix/algorithm/node_bsp_tree_2d.hpp: partition_policies::scored_segment_selector_policy"]}
{"id": "C131", "title": "Transformations in homogeneous coordinates", "statement": "A square matrix of size n+1 times as_positional_homogeneous(p) applies the upper left n by n part to p and adds the last column; times as_vectoral_homogeneous(v) it applies the upper left part alone. The difference of moved points is the moved difference; the product of two matrices does one after the other when the last row of the first is 0,...,0,1; the identity moves nothing; a matrix whose upper left part has perpendicular unit columns keeps distances.", "quantifier": "all real matrices, points and vectors, of every dimension", "why_tests_cant": "All matrices and all dimensions; the tests use three fixed ones.", "anchors": ["geometrix/tensor/homogeneous_adaptor.hpp: homogeneous_adaptor, as_positional_homogeneous, as_vectoral_homogeneous", "geometrix/algebra/functions/dot_product.hpp", "geometrix/arithmetic/matrix_arithmetic.hpp"]}
{"id": "C132", "title": "Fixed-point numbers mixed with plain numbers, functions and limits", "statement": "fixed_point numbers of one scale add and subtract exactly, multiply and divide with rounding and compare as their values do. With a plain integer on the right all four operations and all comparisons are those of the values, the product without rounding, whenever the scaled integer fits the format and its own type; otherwise there is no result. An integer on the left works too when the number has the default scale. A mathematical function gives the rounded value at whole numbers. Writing and reading back restores exactly the whole numbers. min, max and epsilon are the least and greatest number and the distance of neighbours.", "quantifier": "all scales, formats, rounding policies, numbers, integers and functions", "why_tests_cant": "All numbers, scales and types; the repository has no test of fixed_point.", "anchors": ["geometrix/numeric/fixed_point.hpp: fixed_point, numeric_limits, sqrt, ceil, floor", "geometrix/numeric/detail/friend_ordered_field_operators.hpp", "geometrix/numeric/fixed_point_traits.hpp"]}
{"id": "C133", "title": "Comparison policies on doubles", "statement": "On finite doubles the direct policy answers as the numbers do. The absolute and relative tolerance policies give exactly one of less, equal and greater, <= and >= are the combinations, and exchanging the operands exchanges the answers, with rounding and overflow of the difference included. With tolerance zero the absolute policy is the direct one. Numbers within the tolerance are equal; equal numbers are within it up to one rounding; numbers between equal ones are equal; less stays less when the numbers move apart. An infinity is beyond every finite number and NaN compares in no way.", "quantifier": "all finite doubles and tolerances; infinities and NaN where stated", "why_tests_cant": "All pairs of doubles: 2^128 of them.", "anchors": ["geometrix/numeric/number_comparison_policy.hpp: absolute_tolerance_comparison_policy, direct_comparison_policy, relative_tolerance_comparison_policy", "geometrix/utility/floating_point_comparison.hpp: absolute_value"]}
{"id": "C134", "title": "Orientation test on doubles", "statement": "get_orientation of two vectors of doubles never reports the wrong side, whatever is rounded away or overflows; at worst it reports collinear. The same holds for three points when the coordinate differences are doubles, so for coordinates within a factor of two of the first point's and for integers up to 2^52. For integers up to 2^25 the test is exact. Exchanging the second and third point turns the answer for all doubles, and coinciding points are always collinear.", "quantifier": "all finite doubles (exchange: all doubles), the direct policy and all absolute tolerances that are not negative", "why_tests_cant": "All sextuples of doubles; the rounding errors are rare and adversarial.", "anchors": ["geometrix/algorithm/orientation.hpp: get_orientation, detail::orientation"]}
{"id": "C135", "title": "Distance of points of doubles", "statement": "The distance of two points of doubles does not depend on their order, is not negative and is zero between equal points. The squared distance, unless it overflows, differs from the exact one by at most five roundings of it and the smallest doubles; the distance, by at most seven.", "quantifier": "all finite doubles", "why_tests_cant": "All quadruples of doubles.", "anchors": ["geometrix/algorithm/distance/point_point_distance.hpp: point_point_distance, point_point_distance_sqrd"]}
{"id": "C136", "title": "Comparison by the policy of a type", "statement": "mapped_tolerance_comparison_policy compiles exactly for numbers of one unit, plain numbers counting as dimensionless, and compares them by the policy registered for the type of the first operand, or the default, all five answers alike. The order of the registrations and those of other types do not matter. For types with the same policy the answers fit together whenever that policy's do. Constructed from one tolerance, every policy gets it.", "quantifier": "all policies, registrations, types, units and numbers", "why_tests_cant": "All combinations of types, policies and numbers; the tests try two types and a few numbers.", "anchors": ["geometrix/numeric/number_comparison_policy.hpp: mapped_tolerance_comparison_policy, policy_resolver, are_comparable"]}
{"id": "C137", "title": "Bounds of points of doubles", "statement": "get_bounds of finitely many finite points returns coordinates of the points, and by the comparison policy no point lies outside. With the direct policy they are exactly the least and greatest coordinates; with an absolute tolerance a point lies outside by at most the tolerance and one part in 2^51 of it.", "quantifier": "all non-empty sequences of finite points of doubles, all finite non-negative tolerances", "why_tests_cant": "All sequences of all doubles; tests try a few.", "anchors": ["geometrix/primitive/point_sequence_utilities.hpp: get_bounds"]}
{"id": "C138", "title": "Point in polygon on doubles", "statement": "On doubles, point_in_polygon answers false for a point level with or right of all vertices, level with or above all of them, or below all of them. For integer coordinates up to 2^25 it answers as exact arithmetic does. It does not depend on the vertex the polygon starts with, for all doubles.", "quantifier": "all points and polygons of doubles (of magnitude up to 2^1022 for the first part)", "why_tests_cant": "Rounding behaviour over all doubles and all polygons.", "anchors": ["geometrix/algorithm/point_in_polygon.hpp: point_in_polygon"]}
{"id": "C139", "title": "Grid indices on doubles", "statement": "For a grid built on doubles, a contained point has indices below the numbers of columns and rows, so its cell exists in the dense grid; indices grow with the coordinates; the index differs from the exact position by at most a part in 2^50; the centre of a cell has the indices of that cell.", "quantifier": "all grids built from finite bounds and a positive cell width, all points of doubles (range limits on the cell width for the last two)", "why_tests_cant": "Off-by-one of a rounded division can occur at any double.", "anchors": ["geometrix/algorithm/grid_traits.hpp: grid_traits", "geometrix/algorithm/grid_2d.hpp: grid_2d"]}
{"id": "C140", "title": "Length and direction of vectors of doubles", "statement": "On doubles, magnitude is right to one part in 2^50 and never below a component. normalize returns a vector with no component beyond 1 (so acos of a component is defined), of length 1 to a part in 2^48, whose components keep their signs and which leaves the line of the vector by at most a part in 2^51. The opposite vector has the same magnitude and the opposite normalised vector, exactly.", "quantifier": "all vectors of finite doubles with components up to 2^400 of which one is at least 2^-400; the last part for all doubles", "why_tests_cant": "Rounding of a square root, a division and products over all doubles: a component of 1 and one unit beyond would be met by few inputs.", "anchors": ["geometrix/arithmetic/vector/normalize.hpp: normalize", "geometrix/arithmetic/vector/magnitude.hpp: magnitude, magnitude_sqrd"]}
{"id": "C141", "title": "Intervals of doubles", "statement": "An interval grown from the default one by any doubles reaches from the least to the greatest that is not a NaN, whatever their order; without numbers it is empty. intersects is exact and symmetric; with a tolerance it never answers yes where the plain form says no. Sums of intervals, and intervals shifted, scaled by a non-negative or divided by a positive number, contain the doubles computed by the same operation on their members, overflow included.", "quantifier": "all sequences of doubles, NaNs and infinities among them; all intervals with finite bounds", "why_tests_cant": "All doubles and all orders of insertion; rounding at every bound.", "anchors": ["geometrix/numeric/interval.hpp: interval"]}
{"id": "C142", "title": "Order of points of doubles", "statement": "On doubles, lexicographical_comparer with the direct policy puts a point before another exactly when it is smaller in the first coordinate that differs. It is a strict weak order on points without NaNs (infinities and negative zero allowed), and two points are equivalent exactly when all coordinates are equal, which is what numeric_sequence_equals answers. With a tolerance no two points come before each other, and points the policy finds equal are not ordered.", "quantifier": "all points of doubles of every dimension", "why_tests_cant": "A failure of transitivity depends on three points of doubles together; containers then misbehave without notice.", "anchors": ["geometrix/utility/utilities.hpp: lexicographical_comparer, lexicographically_less_than", "geometrix/tensor/numeric_sequence_compare.hpp: numeric_sequence_equals"]}
{"id": "C143", "title": "Boxes of doubles", "statement": "On doubles, a box with the direct policy reports exactly the points in the closed box; two boxes intersect exactly when a point of doubles lies in both; contains is inclusion; expand gives the least box around both. Exchanging the boxes never changes the answer. With an absolute tolerance no point of the box is lost and a point reported is outside by at most the tolerance and one part in 2^52 of it.", "quantifier": "all boxes of doubles of every dimension with ordered bounds, infinities included; finite for the last part", "why_tests_cant": "All doubles in all dimensions, touching boxes, infinities and NaNs.", "anchors": ["geometrix/primitive/axis_aligned_bounding_box.hpp: axis_aligned_bounding_box::intersects, contains, expand"]}
{"id": "C144", "title": "Intersections under an absolute tolerance", "statement": "With an absolute tolerance, segment_segment_intersection never misses a common point of two segments, nearly parallel and degenerate ones included. For segments not nearly parallel the point it reports is on both lines and at most the tolerance, as a part of each segment, beyond the ends; crossing means more than the tolerance away from all four ends; non-crossing means no common point. The same holds for line_segment_intersect, and for ray_segment_intersection with a segment not nearly parallel to the ray.", "quantifier": "all tolerances that are not negative, all segments, lines and rays with rational coordinates", "why_tests_cant": "The failing inputs are segments whose product of lengths and angle is near the tolerance, a set that examples do not cover.", "anchors": ["geometrix/algorithm/intersection/segment_segment_intersection.hpp: segment_segment_intersection", "geometrix/algorithm/line_intersection.hpp: line_segment_intersect", "geometrix/algorithm/intersection/ray_segment_intersection.hpp: ray_segment_intersection", "geometrix/utility/utilities.hpp: is_between, is_collinear"]}
{"id": "C145", "title": "Polylines and polygons under an absolute tolerance", "statement": "With an absolute tolerance, a segment that meets a side of a polyline or of a polygon border gets the answer true, and a visitor that never stops is told every side it meets; polylines with a common point get the answer true; polyline_self_intersection reports any two sides that meet and do not follow each other; a polygon that is_polygon_simple accepts has no two sides, other than neighbours, with a common point, and with holes accepted no two loops touch.", "quantifier": "all tolerances that are not negative, all polylines and polygons of any size with rational coordinates, sides of length zero included, all visitors", "why_tests_cant": "Missing a crossing needs a particular pair of sides near the tolerance, among polygons of any size.", "anchors": ["geometrix/algorithm/intersection/segment_polyline_intersection.hpp: segment_polyline_intersect", "geometrix/algorithm/intersection/polyline_polyline_intersection.hpp: polyline_polyline_intersect", "geometrix/algorithm/point_sequence/is_polygon_simple.hpp: is_polygon_simple"]}
{"id": "C146", "title": "Intersection of segments of doubles", "statement": "For points of doubles with integer coordinates up to 2^24 and the direct policy, segment_segment_intersection gives the type that exact arithmetic gives: no common point, one point inside both segments, one point at an end, or an overlap. A point it writes is at most 2^-25 away from the common point in each coordinate, and the ends of an overlap are exact. So is_between is membership of the segment, segment_polyline_intersect tells whether a segment and a polyline have a common point, and is_polygon_simple is exact for polygons of at least four points.", "quantifier": "all segments, polylines and polygons of any size whose points are doubles with integer coordinates of absolute value up to 2^24", "why_tests_cant": "A wrong answer needs a rounding of the numerators or of the quotient to cross zero or one; only an error analysis over all inputs excludes it.", "anchors": ["geometrix/algorithm/intersection/segment_segment_intersection.hpp: segment_segment_intersection", "geometrix/utility/utilities.hpp: is_collinear, is_between, is_collinear_point_between", "geometrix/algorithm/point_sequence/is_polygon_simple.hpp: is_polygon_simple", "geometrix/algorithm/intersection/segment_polyline_intersection.hpp: segment_polyline_intersect"]}
