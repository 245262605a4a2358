{"id": "C01", "title": "Addition and subtraction of wide integers are exact modulo the result width", "statement": "a+b and a-b on compound integers of any widths and signedness, including in-place += and -=, return the words of the mathematical sum or difference reduced modulo 2^(64*max words); when the mathematical result fits the result type the value is exact.", "quantifier": "for every word count N>=1, every pair of operand widths and signedness, and every word contents", "why_tests_cant": "the operand space is 2^(64*(Na+Nb)) and carry chains of every length matter; the GMP test samples 1000 random pairs of one width", "anchors": ["include/poly_ops/large_ints.hpp: add, sub, ar_add, ar_sub, addcarry, subborrow, operator+, operator-, operator+=, operator-="]}
{"id": "C02", "title": "Negation and absolute value are two's complement", "statement": "-x is the additive inverse modulo 2^(64N); abs(x) is the mathematical absolute value read as an unsigned number for every x, including the most negative value; negative(x) is true exactly when the value is below zero.", "quantifier": "for every N>=1 and every N-word value", "why_tests_cant": "boundary values exist for each of unboundedly many widths", "anchors": ["include/poly_ops/large_ints.hpp: compound_xint::operator-, abs, negative"]}
{"id": "C03", "title": "Comparison of wide integers is the mathematical order", "statement": "a<=>b and a==b between compound integers of possibly different word counts and of signedness combinations the library supports give the order and equality of the represented mathematical integers.", "quantifier": "for every pair of widths, every supported signedness pair and every word contents", "why_tests_cant": "a wrong extension word shows only for specific top words at specific width differences", "anchors": ["include/poly_ops/large_ints.hpp: cmp, eq, operator<=>, operator=="]}
{"id": "C04", "title": "Shifts are multiplication and floor division by powers of two", "statement": "x<<k is x*2^k modulo 2^(64N) for every k; x>>k with k<64N is floor(x/2^k) for signed and unsigned x, also when done in place.", "quantifier": "for every N>=1, every value and every shift amount in the stated range", "why_tests_cant": "amount, word boundary and sign interact; tests use a dozen constants", "anchors": ["include/poly_ops/large_ints.hpp: _shift_right, _shift_left, shift_right, shift_left"]}
{"id": "C05", "title": "Products of wide integers never lose bits", "statement": "mul(a,b) and a*b return the exact mathematical product for every mix of built-in and compound, signed and unsigned operands.", "quantifier": "for every pair of operand widths and signedness and all word contents", "why_tests_cant": "quadratically many partial products and carries; sign corrections only matter for negative operands of particular widths", "anchors": ["include/poly_ops/large_ints.hpp: mul, mul1x1, umulnx1, offset_mul_add, offset_add, operator*"]}
{"id": "C06", "title": "Truncating division satisfies the division law", "statement": "divmod(a,b) with b non-zero returns quot and rem with a = quot*b + rem, |rem| < |b| and rem having the sign of a (C semantics), for every dividend width and divisor width, except that the single unrepresentable quotient MIN/-1 wraps.", "quantifier": "for every dividend width N, every divisor width and all non-zero divisors", "why_tests_cant": "the shift-subtract and word-by-word long division loops run a data-dependent number of iterations", "anchors": ["include/poly_ops/large_ints.hpp: divmod, udivmod_shift_sub, udivmod_long, operator/"]}
{"id": "C07", "title": "Euclidean division yields a remainder in [0,|b|) that satisfies the division law", "statement": "divmod and unmul with modulo_t::euclid return quot and rem with a = quot*b + rem and 0 <= rem < |b|.", "quantifier": "for all dividends and all non-zero divisors", "why_tests_cant": "exact multiples and negative divisors are measure-zero for random tests and the shipped tests assert only single remainders", "anchors": ["include/poly_ops/large_ints.hpp: divmod, unmul, modulo_t::euclid"]}
{"id": "C08", "title": "The portable add-with-carry agrees with the compiler-builtin one", "statement": "building without GCC/Clang/MSVC carry intrinsics gives the same sums, differences and carries as building with them.", "quantifier": "for all word pairs and both carry-in values", "why_tests_cant": "the portable branch is not compiled on the tested compilers", "anchors": ["include/poly_ops/large_ints.hpp: _addcarry, _addcarry_to, _subborrow, _subborrow_to"]}
{"id": "C09", "title": "The portable 64x64 multiplication agrees with the compiler-builtin one", "statement": "building without a 128-bit integer type gives the same double-word products, signed and unsigned.", "quantifier": "for all pairs of words and both signedness", "why_tests_cant": "2^128 inputs, and the branch is not compiled on the tested compilers", "anchors": ["include/poly_ops/large_ints.hpp: mul1x1"]}
{"id": "C10", "title": "Widening and narrowing conversions preserve the value", "statement": "constructing a wider compound integer from a narrower one or from a built-in integer preserves the mathematical value; narrowing, or casting to a built-in type, keeps the value modulo the target width.", "quantifier": "for every source width, destination width, signedness and contents", "why_tests_cant": "sign-extension errors are specific to width pairs; no test casts to a 128-bit built-in", "anchors": ["include/poly_ops/large_ints.hpp: compound_xint constructors, cast, compi_hi, extended_word"]}
{"id": "C11", "title": "Hexadecimal compound literals denote their digits", "statement": "0x..._compi has the value of its hexadecimal digits as a non-negative number, for any number of digits and leading zeros.", "quantifier": "for every digit string", "why_tests_cant": "literals of every length modulo the word size need to be tried", "anchors": ["include/poly_ops/large_ints.hpp: operator\"\"_compi"]}
{"id": "C12", "title": "The narrowed quotient of unmul is exact whenever it fits", "statement": "unmul<N>(a,b) returns the true quotient and remainder of a/b whenever the quotient fits in N words, so a point computed as start + (t*num)/den inside a segment is never corrupted.", "quantifier": "for every dividend width, N, and non-zero divisor with fitting quotient", "why_tests_cant": "truncation of the upper words is silent", "anchors": ["include/poly_ops/large_ints.hpp: unmul", "include/poly_ops/clip.hpp: intersects", "include/poly_ops/polydraw.hpp: intersects, x_intercept"]}
{"id": "C13", "title": "The orientation test is exact", "statement": "triangle_winding(p1,p2,p3) has the sign of the exact signed area of the triangle, is zero exactly for collinear points, is invariant under cyclic rotation, and negated by swapping two points; no intermediate overflows when coordinates are below 2^(W-2) in magnitude for W-bit coordinates.", "quantifier": "for all triples of points in the stated coordinate range and all coordinate widths W", "why_tests_cant": "near-degenerate triples with huge coordinates are needed and overflow is UB that may pass silently", "anchors": ["include/poly_ops/base.hpp: triangle_winding"]}
{"id": "C14", "title": "winding_dir is twice the signed area", "statement": "winding_dir(loop) equals the shoelace sum over the closed polygon, does not depend on which vertex is listed first, flips sign when the loop is reversed, is translation invariant and zero for an empty loop.", "quantifier": "for all loops of any length", "why_tests_cant": "unbounded loop length", "anchors": ["include/poly_ops/base.hpp: winding_dir, winding_dir_sink"]}
{"id": "C15", "title": "Points are ordered by a strict total order", "statement": "the ordering used to group coincident points compares lexicographically and is irreflexive, transitive and total, so sorting groups equal points together.", "quantifier": "for all points", "why_tests_cant": "transitivity is a three-fold universal", "anchors": ["include/poly_ops/base.hpp: point_less", "include/poly_ops/clip.hpp: loop_point comparison"]}
{"id": "C16", "title": "Sweep events are processed in a well-defined order", "statement": "the event order used by the boolean operations is a strict weak order in which two events are equivalent only if they are the same event, and at one x coordinate segment ends come before segment starts.", "quantifier": "for all events", "why_tests_cant": "transitivity over mixed event types", "anchors": ["include/poly_ops/clip.hpp: event_cmp, event, event_type_t"]}
{"id": "C17", "title": "Two segments are reported as intersecting exactly when they meet", "statement": "for non-parallel segments that do not share an endpoint of the polygon graph, the intersection routine reports true exactly when the closed segments have a common point in exact arithmetic.", "quantifier": "for all quadruples of points", "why_tests_cant": "touching configurations are measure-zero for random tests", "anchors": ["include/poly_ops/clip.hpp: intersects"]}
{"id": "C18", "title": "Computed intersection points are within one unit and inside the bounding boxes", "statement": "the reported integer intersection point differs from the exact rational crossing by less than one in each coordinate, whatever random rounding is chosen, equals the exact point when it is integral, and lies inside the bounding boxes of both segments.", "quantifier": "for all intersecting segment pairs and all random rounding choices", "why_tests_cant": "rounding direction is randomised; bounding-box escape needs extreme slopes", "anchors": ["include/poly_ops/clip.hpp: intersects, rand_bool"]}
{"id": "C19", "title": "Endpoint touching is classified exactly", "statement": "when segments meet at an end of one of them the routine reports that end and returns exactly that stored point, without rounding.", "quantifier": "for all segment pairs", "why_tests_cant": "degenerate configurations", "anchors": ["include/poly_ops/clip.hpp: intersects, at_edge_t"]}
{"id": "C20", "title": "Overlap of parallel segments is detected exactly", "statement": "for parallel segments the routine reports an overlap exactly when they are collinear and share more than the permitted touching, and the returned split point is an endpoint lying on the other segment.", "quantifier": "for all parallel segment pairs", "why_tests_cant": "collinear overlap has many sub-cases and is measure-zero", "anchors": ["include/poly_ops/clip.hpp: intersects_parallel"]}
{"id": "C21", "title": "The vertical ray test counts crossings consistently", "statement": "the upward-ray test used for winding numbers answers whether a vertical ray from the point crosses the segment under a half-open convention, so that a vertex shared by two consecutive edges is counted exactly once; hence the accumulated winding number of a closed loop around a point not on it equals the topological winding number.", "quantifier": "for all closed loops and all query points", "why_tests_cant": "unbounded loops and shared-vertex degeneracies", "anchors": ["include/poly_ops/clip.hpp: line_segment_up_ray_intersection"]}
{"id": "C22", "title": "The combined two-sided ray test equals two single tests", "statement": "the optimised routine that tests an edge from both of its ends at once returns the same answers as two separate ray tests.", "quantifier": "for all pairs of segments", "why_tests_cant": "the shipped check is a debug assertion evaluated only on sampled inputs", "anchors": ["include/poly_ops/clip.hpp: dual_line_segment_up_ray_intersection"]}
{"id": "C23", "title": "Edges kept by an operation are exactly the boundary of the requested region", "statement": "for union, intersection, xor and difference, given the subject and clip winding numbers on both sides of an edge, the edge is kept exactly when membership in the requested region (positive winding meaning inside) differs on its two sides, it is oriented so that the inside is on the fixed side, and otherwise is discarded.", "quantifier": "for all winding numbers of both sets, both set memberships of the edge and both directions", "why_tests_cant": "winding numbers are unbounded integers", "anchors": ["include/poly_ops/clip.hpp: line_balance::result, bool_op, line_state_t"]}
{"id": "C24", "title": "normalize keeps every boundary between regions of different winding sign class", "statement": "for the normalize operation the kept/reversed/discarded state of an edge is the one determined by the winding numbers of the regions on its two sides, so that nested same-direction loops are output as nested loops.", "quantifier": "for all winding numbers", "why_tests_cant": "unbounded winding numbers", "anchors": ["include/poly_ops/clip.hpp: line_balance::result, bool_op::normalize"]}
{"id": "C25", "title": "Kept edges balance at every vertex", "statement": "at every point the number of output edges arriving equals the number leaving, so all output edges can be joined into closed loops.", "quantifier": "for every planar arrangement of closed input loops, every operation and every vertex", "why_tests_cant": "quantifies over all arrangements", "anchors": ["include/poly_ops/clip.hpp: clipper::do_op, line_balance::result, follow_balance"]}
{"id": "C26", "title": "Input loops are stored as closed cycles without repeated neighbours", "statement": "adding a loop stores its points in order as one closed cycle with consecutive duplicates removed, including between last and first, and loops with fewer than three remaining points contribute nothing.", "quantifier": "for all finite point sequences", "why_tests_cant": "arbitrary duplicate patterns, including runs at the seam", "anchors": ["include/poly_ops/clip.hpp: clipper::point_sink, clipper::add_loops"]}
{"id": "C27", "title": "Adding a loop does not depend on previously added loops", "statement": "the points stored for a loop are the same whether or not other loops were added before it.", "quantifier": "for all pairs of loops", "why_tests_cant": "requires a coincidence between two loops", "anchors": ["include/poly_ops/clip.hpp: clipper::point_sink::finalize_prev"]}
{"id": "C28", "title": "Adding a loop never reads outside stored points", "statement": "adding any finite sequence of points, including empty and single-point sequences, has no undefined behaviour.", "quantifier": "for all finite point sequences and all prior states", "why_tests_cant": "an out-of-bounds read of reserved vector memory passes silently", "anchors": ["include/poly_ops/clip.hpp: clipper::point_sink"]}
{"id": "C29", "title": "Point trackers see one notification per stored point in order", "statement": "the tracker receives exactly one point_added call for each stored point, in index order, before the operation runs, and none for discarded loops.", "quantifier": "for all sequences of added loops", "why_tests_cant": "discards and duplicates interact with batching", "anchors": ["include/poly_ops/clip.hpp: i_point_tracker, clipper::point_sink"]}
{"id": "C30", "title": "Original indices count every input point", "statement": "the original index reported for an input point is its position in the concatenation of all added loops, counting duplicates and discarded loops.", "quantifier": "for all sequences of loops", "why_tests_cant": "positions depend on entire history", "anchors": ["include/poly_ops/clip.hpp: clipper::add_loops, next_orig_i, point_sink"]}
{"id": "C31", "title": "A clipper can be reused", "statement": "after execute, adding a loop behaves as on an empty clipper; executing an identical sequence of inputs on a reused or reset clipper yields the same output as on a fresh one.", "quantifier": "for all histories of calls", "why_tests_cant": "needs comparison over all histories; depends on hidden generator state", "anchors": ["include/poly_ops/clip.hpp: clipper::reset, clipper::execute, clipper::add_loop"]}
{"id": "C32", "title": "The set of original indices of a merged point is the sorted union", "statement": "when points merge, the recorded originals of the result are the union of both sets, sorted and duplicate-free.", "quantifier": "for all finite sets of indices", "why_tests_cant": "set sizes and storage modes (inline versus heap) vary", "anchors": ["include/poly_ops/mini_flat_set.hpp: mini_flat_set::merge, insert(range)", "include/poly_ops/offset.hpp: origin_point_tracker"]}
{"id": "C33", "title": "Inserting one value into a small flat set makes it a member", "statement": "after insert(v) the set contains v and everything it contained before; empty() is true exactly for the set without members.", "quantifier": "for all sets and values", "why_tests_cant": "the defect depends on the current size", "anchors": ["include/poly_ops/mini_flat_set.hpp: mini_flat_set::insert, mini_flat_set::empty"]}
{"id": "C34", "title": "A strided range visits exactly its elements", "statement": "iterating a strided range of length n visits start, start+stride, ..., start+(n-1)*stride in order and stops, for positive and negative strides; random access agrees with repeated increments.", "quantifier": "for all starts, non-zero strides and lengths", "why_tests_cant": "unbounded lengths and negative strides", "anchors": ["include/poly_ops/strided_itr.hpp: strided_itr, make_strided_range, blob_to_point_range"]}
{"id": "C35", "title": "Strided iterators satisfy the random-access iterator laws", "statement": "(it+n)-it equals n and it+(jt-it) equals jt; ordering is consistent with the sign of the distance.", "quantifier": "for all iterators, distances and strides", "why_tests_cant": "algebraic law over all strides", "anchors": ["include/poly_ops/strided_itr.hpp: strided_itr::operator-, operator<=>"]}
{"id": "C36", "title": "The event queue delivers every event once in order despite insertions behind the sweep position", "statement": "when events are added at or before already processed positions the queue undoes the processed events in exact reverse order back to the insertion point and then delivers all events in order; whenever an event is delivered, the events delivered and not undone form a prefix of the sorted sequence of all events added.", "quantifier": "for all finite sequences of add and next calls", "why_tests_cant": "unbounded interleavings", "anchors": ["include/poly_ops/clip.hpp: events_t::next, events_t::incorporate_new, rewind"]}
{"id": "C37", "title": "The sweep-line set stays sorted", "statement": "insertion into the sweep-line set and erasure from it keep iteration in comparison order, iteration visits each element exactly once in both directions, and the element count changes by one.", "quantifier": "for all trees, values and comparators that are strict weak orders on the stored values", "why_tests_cant": "tree shapes are unbounded; rebalancing cases are shape-specific", "anchors": ["include/poly_ops/sweep_set.hpp: sweep_set::insert, erase, begin, end", "include/poly_ops/rbtree_algorithms.hpp: insert_unique_check, insert_commit, next_node, prev_node"]}
{"id": "C38", "title": "The sweep-line set is always balanced", "statement": "after any sequence of insertions and erasures the tree is a red-black tree, so its height is at most 2*log2(n+1).", "quantifier": "for all sequences of operations", "why_tests_cant": "all shapes", "anchors": ["include/poly_ops/rbtree_algorithms.hpp: rebalance_after_insertion, rebalance_after_erasure, rotate_left, rotate_right"]}
{"id": "C39", "title": "Erasing a node returns its successor and leaves other nodes valid", "statement": "erase unlinks exactly the given node, returns the following element, and iterators to all other elements remain valid and keep their values.", "quantifier": "for all trees and all nodes", "why_tests_cant": "node identity is preserved by relinking rather than copying", "anchors": ["include/poly_ops/sweep_set.hpp: sweep_set::erase", "include/poly_ops/rbtree_algorithms.hpp: erase"]}
{"id": "C40", "title": "Inserting before a given position places the element there", "statement": "insert_before puts the new element immediately before the given iterator in iteration order.", "quantifier": "for all trees and positions", "why_tests_cant": "position-dependent branch", "anchors": ["include/poly_ops/sweep_set.hpp: sweep_set::insert_before", "include/poly_ops/rbtree_algorithms.hpp: insert_before_check"]}
{"id": "C41", "title": "Every kept output point belongs to exactly one output loop", "statement": "the output loops partition the kept points: no point is missing or repeated, each loop closes, and its reported size is the number of points obtained by iterating it.", "quantifier": "for all permutations formed by the next-links", "why_tests_cant": "unbounded cycles", "anchors": ["include/poly_ops/clip.hpp: find_loops, proto_loop_iterator, temp_polygon_proxy::size"]}
{"id": "C42", "title": "The output hierarchy is a forest containing every loop once", "statement": "with hierarchical output every loop appears exactly once as a top-level loop or an inner loop of exactly one parent, provided each loop's recorded enclosing loop is another loop and enclosure is acyclic.", "quantifier": "for all numbers of loops and enclosure relations", "why_tests_cant": "unbounded nesting", "anchors": ["include/poly_ops/clip.hpp: arrange_loops, temp_polygon_proxy::inner_loops"]}
{"id": "C43", "title": "Breaking and rejoining kept edges preserves the multiset of edges", "statement": "the step that joins dangling ends of kept edges connects each dangling end to a dangling start at the same coordinates, uses each once, and thus changes no edge geometry.", "quantifier": "for all balanced sets of dangling ends", "why_tests_cant": "many coincident points in arbitrary order", "anchors": ["include/poly_ops/clip.hpp: clipper::do_op, breaks_t, follow_balance"]}
{"id": "C44", "title": "Output lines never cross", "statement": "in the output of any operation two line segments may share endpoints or coincide but never cross.", "quantifier": "for all inputs in range", "why_tests_cant": "documented guarantee over all inputs; rounding creates new crossings", "anchors": ["include/poly_ops/clip.hpp: clipper::self_intersection, check_intersection, split_segment"]}
{"id": "C45", "title": "Splitting a segment keeps loops closed", "statement": "splitting a segment at a computed point inserts exactly one vertex between its two ends in the same loop, keeps every loop a closed cycle, and notifies the tracker of the new point.", "quantifier": "for all loop graphs and segments", "why_tests_cant": "unbounded loop graphs", "anchors": ["include/poly_ops/clip.hpp: split_segment, check_intersection"]}
{"id": "C46", "title": "The sweep order of segments is consistent", "statement": "for two segments that overlap in x and do not cross, the sweep order puts first the one that is lower at every common x; the relation is irreflexive and never holds in both directions.", "quantifier": "for all segment pairs", "why_tests_cant": "touching and vertical segments", "anchors": ["include/poly_ops/clip.hpp: sweep_cmp"]}
{"id": "C47", "title": "Scan lines stay inside the image", "statement": "the rasteriser calls back only with y in [0,height), and 0 <= x1 <= x2 <= width-1 region bounds.", "quantifier": "for all polygons and image sizes", "why_tests_cant": "coordinates far outside the image and empty images", "anchors": ["include/poly_ops/polydraw.hpp: clamp, to_coord, scan_line_sweep_state, rasterizer::draw"]}
{"id": "C48", "title": "Edge crossings of a scan line are exact", "statement": "the x position of an edge on a scan line is the exact rational point represented as whole part plus fraction in [0,1).", "quantifier": "for all non-horizontal edges and all y in their range", "why_tests_cant": "exact fractions with negative coordinates", "anchors": ["include/poly_ops/polydraw.hpp: x_intercept, whole_and_frac"]}
{"id": "C49", "title": "The rasteriser detects exactly the interior crossings", "statement": "the rasteriser's pairwise test reports a crossing exactly when the two edges cross strictly in their interiors, with the exact rational y of the crossing.", "quantifier": "for all pairs of edges", "why_tests_cant": "touching configurations and sign combinations", "anchors": ["include/poly_ops/polydraw.hpp: intersects, fraction"]}
{"id": "C50", "title": "Exact fractions compare as rationals", "statement": "fractions and whole-plus-fraction numbers with any sign of denominator compare as the rational numbers they denote.", "quantifier": "for all fractions with non-zero denominators", "why_tests_cant": "sign combinations and equal values with different denominators", "anchors": ["include/poly_ops/polydraw.hpp: fraction, whole_and_frac"]}
{"id": "C51", "title": "The rasteriser fill rules are the documented ones", "statement": "a span is filled according to the chosen rule (even-odd, non-zero, positive, negative as provided) of the winding number accumulated over edges to its left.", "quantifier": "for all winding numbers", "why_tests_cant": "unbounded integers", "anchors": ["include/poly_ops/polydraw.hpp: fill_rule_t, should_fill"]}
{"id": "C52", "title": "The rasteriser's event order is consistent", "statement": "rasteriser events are ordered by a strict weak order, by exact y first.", "quantifier": "for all events", "why_tests_cant": "transitivity with fractions", "anchors": ["include/poly_ops/polydraw.hpp: event_cmp"]}
{"id": "C53", "title": "Rasteriser loops are stored closed without repeated neighbours", "statement": "adding a loop to the rasteriser stores the non-horizontal edges information of a closed polygon with consecutive duplicates removed.", "quantifier": "for all finite point sequences", "why_tests_cant": "seam duplicates", "anchors": ["include/poly_ops/polydraw.hpp: point_sink, rasterizer::add_loops"]}
{"id": "C54", "title": "Offsetting attributes each generated point to its source vertices", "statement": "each point generated by an offset is reported with the input index or indices it came from, and indices of later loops continue after those of earlier loops.", "quantifier": "for all loops including those with duplicate points", "why_tests_cant": "duplicates shift indices", "anchors": ["include/poly_ops/offset.hpp: add_offset, _add_offset_closed, _add_offset_open, origin_point_tracker"]}
{"id": "C55", "title": "Offsetting a lone point gives a polygon", "statement": "offsetting an input that reduces to a single point by a positive amount gives a polygon with at least three points.", "quantifier": "for all positive magnitudes and step sizes", "why_tests_cant": "depends on magnitude/step ratio", "anchors": ["include/poly_ops/offset.hpp: offset_lone_point"]}
{"id": "C56", "title": "Offsetting tolerates repeated points", "statement": "offsetting a closed or open sequence with arbitrary consecutive duplicates never presents two equal consecutive points to the corner construction.", "quantifier": "for all finite point sequences", "why_tests_cant": "arbitrary duplicate patterns", "anchors": ["include/poly_ops/offset.hpp: _add_offset_closed, _add_offset_open, add_offset_point"]}
{"id": "C57", "title": "Conversion of wide integers to floating point has the right scale", "statement": "converting a compound integer to floating point gives the value up to rounding.", "quantifier": "for all widths and values", "why_tests_cant": "only widths above two words are affected", "anchors": ["include/poly_ops/large_ints.hpp: compound_xint::operator double, unsigned_to_float"]}
{"id": "C58", "title": "Rounding of whole-plus-fraction numbers", "statement": "rounding a whole number plus a fraction in [0,1) gives a nearest integer.", "quantifier": "for all whole parts and fractions", "why_tests_cant": "the function is not called by any public operation", "anchors": ["include/poly_ops/polydraw.hpp: whole_and_frac"]}
{"id": "C59", "title": "A scan line sees exactly the edges it crosses", "statement": "when the spans of a row are made, the edges taken into account are exactly the input edges whose upper end is at or above the row and whose lower end is below it, each once; rows come in ascending order and no row with such an edge is left out.", "quantifier": "for all polygons and image sizes", "why_tests_cant": "depends on the interplay of start, end and swap events in arbitrary input", "anchors": ["include/poly_ops/polydraw.hpp: scan_line_sweep_state::next, events_t, swap_and_check"]}
{"id": "C60", "title": "Rasterising ends", "statement": "producing the scan lines of any set of polygons ends.", "quantifier": "for all polygons and image sizes", "why_tests_cant": "needs several edges that meet in one point in a special order", "anchors": ["include/poly_ops/polydraw.hpp: swap_and_check, check_intersection_after_swap"]}
{"id": "C61", "title": "A point tracker only gets indices of points it was told about", "statement": "every index given to new_point_between and point_merge is that of a point announced before by point_added or new_point_between.", "quantifier": "for all inputs, operations and kinds of output", "why_tests_cant": "quantifies over all inputs; only an index past the end is visible, and only to a tracker that checks", "anchors": ["include/poly_ops/clip.hpp: i_point_tracker, follow_balance, insert_anchor_point, clipper::do_op"]}
{"id": "C62", "title": "A discarded point is never used again", "statement": "a point given to point_merge as the one discarded is not a point of the output.", "quantifier": "for all inputs and operations", "why_tests_cant": "quantifies over all inputs; only some shapes reuse a point", "anchors": ["include/poly_ops/clip.hpp: i_point_tracker, follow_balance, insert_anchor_point, clipper::do_op"]}
{"id": "C63", "title": "No operation fails", "statement": "executing an operation on any loops within the range of coordinates ends without a failed assertion or a read outside of an array.", "quantifier": "for all lists of loops, with any repetitions of points", "why_tests_cant": "needs rare repetitions of points", "anchors": ["include/poly_ops/clip.hpp: clipper::point_sink, clipper::do_op, clipper::execute"]}
{"id": "C64", "title": "Every marked line is judged exactly once", "statement": "in an operation, after the edges are split, the second sweep never fails and gives each edge that was marked for judging exactly one result, which follows from the numbers of edges of each input set passing above and below its first end point; no other edge gets a result and no coordinates change.", "quantifier": "for all lists of loops whose neighbouring points differ, all operations, and all orders the balanced tree may give to edges", "why_tests_cant": "needs every arrangement of edges, including vertical and coincident ones", "anchors": ["include/poly_ops/clip.hpp: clipper::calc_line_bal, line_balance", "include/poly_ops/clip.hpp: clipper::self_intersection"]}
{"id": "C65", "title": "Edges are kept as the winding numbers demand", "statement": "the edges after splitting are the edges of a family of closed polygons, and each edge that is judged is kept, kept reversed or dropped exactly as the winding numbers of the two input sets on both sides of it demand for the requested operation.", "quantifier": "for all lists of loops whose neighbouring points differ, all operations, and every judged edge", "why_tests_cant": "the edge is judged at one of infinitely many positions by a count of edges; agreement with winding numbers holds for all of them only by an argument about closed curves", "anchors": ["include/poly_ops/clip.hpp: line_balance, clipper::calc_line_bal"]}
{"id": "C66", "title": "Counting finds every equivalent element", "statement": "count(key) returns the number of elements of the set that are neither before nor after the key, and leaves the set unchanged.", "quantifier": "for all sets, comparison functions and keys for which the elements before the key come first and those after it last", "why_tests_cant": "the search descends a tree of any shape and keeps the bound of the deepest turn on either side", "anchors": ["include/poly_ops/rbtree_algorithms.hpp: equal_range, count, lower_bound_loop, upper_bound_loop"]}
{"id": "C67", "title": "The output encloses exactly the selected points", "statement": "when every edge of closed input loops, split wherever they meet, is judged, the edges put into the output wind exactly once around every point that the requested operation selects, given how often the input loops of the two sets wind around it, and not at all around every other point.", "quantifier": "for all closed families of edges that only meet at common ends (coinciding edges included), all operations, and all rational points that are on no edge", "why_tests_cant": "there are infinitely many points, and every judgement has to agree with all the others along the whole boundary", "anchors": ["include/poly_ops/clip.hpp: line_balance, clipper::calc_line_bal, line_segment_up_ray_intersection"]}
{"id": "C68", "title": "Polygons that do not cross: the whole operation is right", "statement": "a boolean operation on polygons whose edges meet nowhere but at their ends (polygons may touch at vertices, share whole edges, be nested or repeated) runs to its end without a failed assertion, adds no point, and gives polygons that wind exactly once around every point the operation selects by the winding numbers of the subject and clip polygons, and not at all around every other point.", "quantifier": "for all lists of polygons in both sets with that property, all operations, all random states, and all rational points that are on no edge", "why_tests_cant": "the claim covers all polygons of any size with any number of coincident edges and common vertices, and every point of the plane", "anchors": ["include/poly_ops/clip.hpp: clipper::add_loop, clipper::self_intersection, clipper::calc_line_bal, clipper::do_op"]}
{"id": "C69", "title": "Splitting and judging always come to an end", "statement": "for closed loops none of whose edges has length zero, the sweep that splits the edges where they meet ends without a failed assertion, the split loops have at most as many points as the edges have unit steps (|dx|+|dy|) in all, and the sweep that judges the split edges then ends without failure too.", "quantifier": "for all such loops with any number of crossings, overlaps and touching points, all random states, and all correct sort functions and sweep searches", "why_tests_cant": "every split sends the sweep back to events it has already handled, so that it ends at all needs a measure that holds for every input", "anchors": ["include/poly_ops/clip.hpp: clipper::self_intersection, clipper::split_segment, clipper::check_intersection, clipper::calc_line_bal", "include/poly_ops/clip.hpp: events_t::next, events_t::incorporate_new"]}
{"id": "C70", "title": "Any polygons: the result encloses what the operation selects", "statement": "for any polygons, a boolean operation runs to its end without a failed assertion and gives polygons that wind exactly once around every point the operation selects by the winding numbers of the loops after splitting, and not at all around every other point; if every point at which an edge was split lies on that edge, the winding numbers are those of the polygons that were added.", "quantifier": "for all lists of polygons in both sets with any crossings and overlaps, all operations, all random states, and all rational points that are on no edge", "why_tests_cant": "the claim covers polygons of any size with any number of crossings and overlapping edges, and every point of the plane", "anchors": ["include/poly_ops/clip.hpp: clipper::add_loop, clipper::self_intersection, clipper::calc_line_bal, clipper::do_op"]}
{"id": "C71", "title": "Polygons that cross at grid points: the whole operation is right", "statement": "a boolean operation on polygons whose non-parallel edges meet only at points with whole coordinates (they may cross, overlap, touch and coincide in any number) and none of whose edges goes back along the edge before it runs to its end without a failed assertion; after splitting any two lines have the same ends or meet only where both end; and the result winds exactly once around every point the operation selects by the winding numbers of the subject and clip polygons, and not at all around every other point.", "quantifier": "for all lists of polygons in both sets with that property, all operations, all random states, all correct sort functions and sweep searches, and all rational points that are on no edge", "why_tests_cant": "the sweep goes back after every split, so what it knows about neighbouring lines holds only by an argument over every possible history; the claim also covers every point of the plane", "anchors": ["include/poly_ops/clip.hpp: clipper::self_intersection, clipper::check_intersection, clipper::split_segment, clipper::calc_line_bal, clipper::do_op", "include/poly_ops/clip.hpp: events_t::next, events_t::incorporate_new"]}
{"id": "C72", "title": "Hierarchical output: every loop inside the closest loop around it", "statement": "when hierarchical output is asked for, a whole operation on any polygons produces the tree of its result loops without a failed assertion: the top level has the loops with no other loop around them, and every other loop is an inner loop of the closest loop around it", "quantifier": "for all lists of polygons in both sets, all operations, all random states, and all correct ways of sorting the samples by loop", "why_tests_cant": "the lines above a sample are recorded while judging, renumbered by anchors, followed through reversals and joins, and only then counted per loop; that the counts are winding numbers of the final loops, and that these nest, is a statement about every arrangement", "anchors": ["include/poly_ops/clip.hpp: calc_line_bal, follow_balance, replace_line_indices_with_loop_indices, arrange_loops, loop_hierarchy", "include/poly_ops/clip.hpp: clipper::execute"]}
{"id": "C73", "title": "Drawing raises no assertion when edges cross two at a time", "statement": "drawing polygons in which no third edge passes through a point where two edges cross ends, and none of the checks the rasteriser makes while it runs (that every event up to a row has been handled by the end of the row, and that the edges of the row are in order) fails", "quantifier": "for all lists of polygons with that property, all image sizes, and all correct sort functions", "why_tests_cant": "the checks are only compiled in debug builds, and whether a crossing is found in time depends on the order of all corners and crossings of all polygons", "anchors": ["include/poly_ops/polydraw.hpp: rasterizer::scan_lines, check_intersection, after_swap, swap_and_check, consistent_order", "include/poly_ops/polydraw.hpp: event comparison and less_than_or_equal"]}
{"id": "C74", "title": "The result continues with the line that turns most clockwise", "statement": "where a line of the result ends in a point in which several unused lines of the result start, the operation goes on with the one of them that makes the greatest clockwise turn (in coordinates whose y axis points down)", "quantifier": "for all ends that are joined, all numbers and directions of lines that start there, and all coordinates", "why_tests_cant": "the choice is made by pairwise comparisons that depend on the order of the lines, and special directions (straight back, straight on) only meet in rare inputs with coinciding lines", "anchors": ["include/poly_ops/clip.hpp: clipper::do_op, matching of broken_starts and broken_ends", "include/poly_ops/clip.hpp: non_anchor_end_point, end_point"]}
{"id": "C75", "title": "Every point is used once in the output or reported as discarded once", "statement": "after an operation each point, be it of the input or created at an intersection, either is at exactly one place in exactly one loop of the output, or was named exactly once as the discarded point in a call of the tracker's point_merge, together with (for flat output) the point that follows it", "quantifier": "for all lists of polygons in both sets, all operations, all results of intersecting and all random states", "why_tests_cant": "which points are dropped depends on the judgement of every line and on the order in which lines are followed; a point that is neither output nor reported only shows in trackers that sum up over all points", "anchors": ["include/poly_ops/clip.hpp: follow_balance, clipper::do_op, find_loops", "include/poly_ops/clip.hpp: i_point_tracker::point_merge"]}
{"id": "C76", "title": "The origins of an output point are all the input points merged into it", "statement": "with an origin_point_tracker, the indices recorded for a point of the output are, in increasing order, exactly those of the input points that were discarded and from which the calls of point_merge lead to this point, and its own index if it is an input point", "quantifier": "for all lists of polygons in both sets, all operations, all results of intersecting and all random states", "why_tests_cant": "which indices arrive depends on the order in which all discarded lines are followed, and the sets change their storage with their size", "anchors": ["include/poly_ops/offset.hpp: origin_point_tracker", "include/poly_ops/clip.hpp: i_point_tracker::point_merge, follow_balance", "include/poly_ops/mini_flat_set.hpp: mini_flat_set::merge"]}
{"id": "C77", "title": "Offsetting adds exactly the outlines of the given lines", "statement": "add_offset leaves the clipper with the same stored points as adding, for each sequence, one polygon: every line of the sequence without repeated points moved sideways, followed by the points of an arc where the moved lines leave a gap; for an open sequence along the line and back; for a single point its circle. A following operation therefore gives what it gives for these polygons", "quantifier": "for all lists of open and closed sequences with repeated points anywhere, in both sets, all distances, and all positions that the trigonometric functions give", "why_tests_cant": "repeated points at the start, in the middle, at the end and across the closing edge each take a different path through the code, in all combinations", "anchors": ["include/poly_ops/offset.hpp: add_offset, _add_offset_open, _add_offset_closed, add_offset_point, offset_lone_point", "include/poly_ops/clip.hpp: point_sink"]}
{"id": "C78", "title": "Operands accepted without a cast keep their value", "statement": "the types that a wide integer of N words accepts in assignments and compound assignments, and converts from implicitly, are exactly the types all of whose values it can hold; converting an operand of such a type keeps its value, and any explicit conversion gives the value reduced to the type", "quantifier": "for all widths N, both signednesses, and all operands: wide integers of any width and signedness, built-in integers of any size, all values", "why_tests_cant": "tests cover a few pairs of types; the boundary between accepted and refused types depends on width, signedness and the extra word that unsigned types need in signed ones", "anchors": ["include/poly_ops/large_ints.hpp: safe_comp_or_single_i, int_count, compound_xint::compound_xint, compound_xint::operator="]}
{"id": "C79", "title": "The set tells which elements are in it", "statement": "unique() is false for an element that is in the set and true for one that is not, be it that init_node was called for it or that it was erased; empty() is true exactly for a set without elements; init_node of an element outside changes neither the set nor other elements", "quantifier": "for all sets of any size and shape, all elements and all comparison functions", "why_tests_cant": "the parent pointer of an element is written by every rotation and erasure, and debug and release builds differ in what they leave behind", "anchors": ["include/poly_ops/sweep_set.hpp: sweep_set::unique, sweep_set::empty, sweep_set::init_node, sweep_set::_erase"]}
