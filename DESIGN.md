# Design

Formal model of the C++ header library in /repo/include/poly_ops, written from the text of
the code (nothing was compiled or run).  Rocq/Coq 8.16.1, standard library only.

## Conventions

* Model files hold definitions only, each citing file and lines.  Spec files say what is
  claimed, without the helpers of the model.  Props files hold the theorems that count,
  followed by `Print Assumptions`, with Examples showing that the hypotheses can be met.
* Undefined behaviour, a failed assertion, a read outside of an array and running out of
  fuel are distinct outcomes (`UB`, `OutOfBounds`, `Bad` or `None`).
* Machine integers: where wrap-around matters words are `Z` with explicit `mod 2^64`.
  GeomMachine repeats the geometric predicates with every step checked for overflow.
* `..._partial` theorems prove a property under a stated restriction.  `..._refuted` theorems
  exhibit inputs for which the property, as users would state it, is false of the modelled code.
* Sorting functions, random bits, the place where the tree puts an element, and
  trigonometry are quantified parameters, restricted only by what the theorem states.

## Trusted base

* The kernel of Coq 8.16.1 (and `coqchk`), including `vm_compute`, which is used in Examples
  and in witnesses of refutations.
* Axioms: none.  `Print Assumptions` says "Closed under the global context" for every theorem
  in MANIFEST.json.
* That the model says what the C++ text says.  The simplifications are listed below and at
  the top of every Model file.
* That the specifications (files ending in Spec, and the definitions in Props files) say
  what the English statement says.

## What is modelled

* `large_ints.hpp`: LargeIntsModel. Word extraction, add and subtract with carry (built-in and
  portable), negation, comparison, shifts, multiplication (all branches), division (all
  branches, both modes), `unmul`, conversions, literals, scale of the conversion to floating
  point. The template recursion over words is recursion on the word count.
* `base.hpp`: GeomModel. Points, `triangle_winding`, `winding_dir`.
* `clip.hpp`: GeomModel (intersection, parallel overlap, ray tests, event and sweep order),
  GeomMachine (the same with overflow checks), FloatModel (the crossing in IEEE doubles),
  BalanceModel (line_balance, dual_line_balance), PointSinkModel (adding loops, tracker,
  reset), EventsModel (event queue), ClipModel (splitting sweep, judging sweep, do_op),
  OutModel (breaking, joining, merging, finding loops, hierarchy, output iterators).
* `rbtree_algorithms.hpp`, `sweep_set.hpp`: RBModel, RBCount. Pointers are indices into a heap.
* `mini_flat_set.hpp`: FlatSetModel. `strided_itr.hpp`: StridedModel.
* `polydraw.hpp`: RasterModel. The whole rasteriser including its sweep.
* `offset.hpp`: OffsetModel, OffsetSink. Which corners are built and which points and indices
  go into the clipper; positions are parameters. OriginModel: `origin_point_tracker`.

## Simplifications

* In ClipModel the sweep-line set is the list of its elements; where a new element goes is a
  parameter. RBProps proves that the tree behaves like such a list.
* Exact quotients replace doubles in `intersects`, except in FloatModel.
* In RasterModel coordinates do not overflow; RasterProps states the range.
* `std::sort`, `std::lower_bound`, `std::map`, `std::unique`, `std::inplace_merge` are replaced by
  what the standard guarantees.
* Indices are unbounded except in OffsetModel.

## Not modelled

Memory allocation and exceptions, template overload resolution and compile-time errors, the
Python binding (py/), rounding and trigonometry of `offset.hpp` beyond the number of steps of an
arc, the quality of the random generator, `tclipper` (the same code with a different
tracker), printing of debug data.

## Plan and result per property

* **C01** Addition and subtraction of wide integers are exact modulo the result width. Model: LargeIntsModel: operands (built-in or compound) with word extraction, add-with-carry and borrow chains. Proof: induction on the word count with a little-endian value function; statement over Z only. *Proved*: `C01_add`, `C01_sub`, `C01_width_exists`, `C01_add_assign`, `C01_sub_assign`, `C01_exact_when_fits`.
* **C02** Negation and absolute value are two's complement. Model: operator-, abs, negative (N=1 UB of the most negative value is an explicit outcome). Proof: corollary of C01 plus sign analysis. *Partial*: `C02_neg_partial`, `C02_negative`, `C02_abs_partial`, `C02_refuted`. Fails only for the most negative one-word signed value, where the code has undefined behaviour (C02_refuted).
* **C03** Comparison of wide integers is the mathematical order. Model: eq, cmp, subborrow_or. Proof: borrow chain lemma: borrow iff low part smaller, OR of difference words zero iff equal. *Proved*: `C03_compare`, `C03_equal`.
* **C04** Shifts are multiplication and floor division by powers of two. Model: _shift_right, _shift_left, both out-of-place and in-place as sequential array writes, amount >= 64N is UB. Proof: word-by-word characterisation, then value by induction. *Proved*: `C04_shift_right`, `C04_shift_right_assign`, `C04_shift_left`, `C04_shift_left_assign`, `C04_shift_right_bound`.
* **C05** Products of wide integers never lose bits. Model: mul with all branches, mul1x1, umulnx1, offset_add, offset_mul_add. Proof: value lemmas modulo B^n; refutation for the small unsigned branch. *Partial*: `C05_mul_partial`, `C05_mul_small_partial`, `C05_mul_unsigned_refuted`, `C05_mul_small_unsigned_refuted`. Unsigned products with exactly one single-word operand return nothing; small unsigned built-ins overflow.
* **C06** Truncating division satisfies the division law. Model: divmod with all branches (N=1, one-word divisor long division, shift-subtract). Proof: loop invariants a = q*b+r; refutation for the 2-word by unsigned word remainder. *Partial*: `C06_truncating_division_partial`, `C06_min_wraps`, `C06_remainder_refuted`, `C06_min_divisor_refuted`, `C06_min_wraps_refuted`. Three refuted corner cases are excluded from the partial theorem.
* **C07** Euclidean division yields a remainder in [0,|b|) that satisfies the division law. Model: same, euclid mode. Proof: exact law actually satisfied proved; stated property refuted with witnesses. *Partial*: `C07_euclid_divmod_partial`, `C07_euclid_unmul_partial`, `C07_euclid_actual_partial`, `C07_negative_divisor_refuted`, `C07_exact_refuted`. The law fails for negative divisors and for exact divisions of a negative number.
* **C08** The portable add-with-carry agrees with the compiler-builtin one. Model: portable _addcarry family. Proof: refuted by concrete words; correctness proved when carry-in is 0. *Partial*: `C08_adc_partial`, `C08_sbb_partial`, `C08_builtin_adc`, `C08_refuted`, `C08_sub_refuted`, `C08_inplace_refuted`. The portable fall-back loses a carry on one input.
* **C09** The portable 64x64 multiplication agrees with the compiler-builtin one. Model: portable mul1x1 halves version. Proof: exactness proof by nonlinear arithmetic on halves. *Proved*: `C09_mul1x1`.
* **C10** Widening and narrowing conversions preserve the value. Model: constructors, compi_hi, cast. Proof: value modulo 2^(64N); cast to 128-bit refuted. *Partial*: `C10_convert`, `C10_to_bool`, `C10_cast_partial`, `C10_cast_refuted`. Casts to 128-bit built-ins place the high word at bit 8.
* **C11** Hexadecimal compound literals denote their digits. Model: hex_value as a function on digit lists. Proof: induction on digits with position invariant. *Proved*: `C11_hex_literal`.
* **C12** The narrowed quotient of unmul is exact whenever it fits. Model: unmul. Proof: corollary of C06 with fitting hypothesis. *Partial*: `C12_unmul_partial`, `C12_unmul_refuted`. MIN/-1 into a wider quotient, the most negative one-word divisor on the divide-instruction path, and the unsigned-divisor remainder are excluded.
* **C13** The orientation test is exact. Model: triangle_winding over Z with explicit range checks of every intermediate (overflow = UB outcome). Proof: ring identities + interval bounds. *Proved*: `C13_orientation`, `C13_no_overflow`, `C13_bound_tight`.
* **C14** winding_dir is twice the signed area. Model: winding_dir_sink as fold. Proof: induction on loop, cyclic-shift and reversal lemmas. *Proved*: `C14_winding_dir`, `C14_no_overflow`, `C14_overflow_refuted`. The values are exact for unbounded integers; the machine accumulator is safe for a bounded number of points and can overflow otherwise (C14_overflow_refuted).
* **C15** Points are ordered by a strict total order. Model: point_less. Proof: order lemmas. *Proved*: `C15_point_order`.
* **C16** Sweep events are processed in a well-defined order. Model: event_cmp. Proof: lexicographic order lemmas. *Partial*: `C16_event_order_partial`, `C16_vertical_refuted`. Order laws proved; ends precede starts only for segments that are not vertical.
* **C17** Two segments are reported as intersecting exactly when they meet. Model: intersects on exact integers. Proof: rational parametrisation of segments, equivalence with t,u in [0,1]. *Proved*: `C17_intersects_iff`, `C17_no_overflow`.
* **C18** Computed intersection points are within one unit and inside the bounding boxes. Model: same, with an oracle for the rounding bits. Proof: floor/ceil bounds. *Partial*: `C18_intersection_point_partial`, `C18_double_refuted`. Proved for exact quotients; in double arithmetic an integral crossing can be misplaced outside a bounding box (C18_double_refuted).
* **C19** Endpoint touching is classified exactly. Model: same. Proof: case analysis. *Proved*: `C19_endpoint_touch`, `C19_endpoint_touch_double`.
* **C20** Overlap of parallel segments is detected exactly. Model: intersects_parallel. Proof: collinearity + interval reasoning. *Proved*: `C20_parallel_overlap`.
* **C21** The vertical ray test counts crossings consistently. Model: line_segment_up_ray_intersection (GeomModel, BalanceModel). Proof: per-edge potential: four times the ray hits are the quarter turns plus a difference of labels, which telescopes over closed polygons (WindProofs). *Proved*: `C21_winding_number`, `C21_half_open`, `C21_no_overflow`.
* **C22** The combined two-sided ray test equals two single tests. Model: dual_line_segment_up_ray_intersection. Proof: case analysis + nonlinear sign reasoning. *Proved*: `C22_dual_ray`.
* **C23** Edges kept by an operation are exactly the boundary of the requested region. Model: line_balance::check and result (BalanceModel), edges of closed polygons (WindSpec). Proof: the ray count of an edge is the winding number just beside it, shown with points that approach the edge at a growing scale (BalanceProofs). *Proved*: `C23_decision`, `C23_edge_boundary`, `C23_union_or_refuted`. Union counts the sum of both windings; reading it as 'inside either' fails for negative windings (C23_union_or_refuted). C23_edge_boundary covers edges without coincident partners.
* **C24** normalize keeps every boundary between regions of different winding sign class. Model: line_balance::result normalize branch. Proof: as C23. *Proved*: `C24_normalize`.
* **C25** Kept edges balance at every vertex. Model: line_balance on every line of a closed planar family (ArrangeSpec). Proof: the number of lines above a line is the same at both of its ends (ArrangeCore, ArrangeHit, ArrangeVertex); at a vertex the lines to the right and to the left form two stacks over the same lines, so jumps of any function of the windings cancel (ArrangeStack). *Proved*: `C25_balance`. for all closed families of lines that only meet at common ends (equal lines and vertical lines included), each line judged by the lines of its column: output lines, and lines to be reversed, balance at every point.
* **C26** Input loops are stored as closed cycles without repeated neighbours. Model: clipper point_sink state machine. Proof: compare with dedup specification; counterexample [A;B;C;A;A] refutes the seam part. *Partial*: `C26_stored_cycle_partial`, `C26_no_equal_neighbours`, `C26_trailing_repeat_refuted`. False when the first point is repeated more than once at the end (C26_trailing_repeat_refuted), when the first point equals the last stored point (C27) and for one point (C28).
* **C27** Adding a loop does not depend on previously added loops. Model: same. Proof: refuted with two loops; proved under the hypothesis that excludes the coincidence. *Partial*: `C27_independent_partial`, `C27_independent_refuted`. The statement is false: the duplicate test compares with the last point of the previous loop.
* **C28** Adding a loop never reads outside stored points. Model: same, out-of-bounds is an explicit outcome. Proof: refuted for single-point loop; proved safe otherwise. *Partial*: `C28_out_of_bounds_iff`, `C28_no_undefined_partial`, `C28_single_point_refuted`. The statement is false; C28_out_of_bounds_iff characterises exactly the sequences that read out of bounds.
* **C29** Point trackers see one notification per stored point in order. Model: same with tracker call log. Proof: invariant over sequences of loops. *Proved*: `C29_one_call_per_point`, `C29_discarded_silent`.
* **C30** Original indices count every input point. Model: same with original indices. Proof: invariant. *Proved*: `C30_original_index`, `C29_one_call_per_point`.
* **C31** A clipper can be reused. Model: clipper life-cycle state (lpoints, ran flag, generator). Proof: reset lemma; generator state part refuted. *Partial*: `C31_reuse_partial`, `C31_generator_refuted`, `C31_reuse_refuted`. The statement is false: reset does not reset the random number generator, so a repeated operation can give other points (C31_reuse_refuted, for a whole operation).
* **C32** The set of original indices of a merged point is the sorted union. Model: mini_flat_set range insert and merge with inline/heap representation. Proof: sortedness + membership. *Proved*: `C32_insert_range`, `C32_merge`, `C32_copies`. merge of a set with itself is not covered.
* **C33** Inserting one value into a small flat set makes it a member. Model: mini_flat_set insert(value), empty. Proof: refuted, with the exact condition under which it holds. *Partial*: `C33_insert_partial`, `C33_insert_second`, `C33_insert_second_refuted`, `C33_empty_inverted`, `C33_empty_refuted`. The size is not increased when the second value is inserted, and empty() is inverted.
* **C34** A strided range visits exactly its elements. Model: strided_itr over Z addresses. Proof: induction on length. *Proved*: `C34_visits`, `C34_random_access`, `C34_blob`.
* **C35** Strided iterators satisfy the random-access iterator laws. Model: same. Proof: refuted for stride not 1; proved for stride 1. *Partial*: `C35_laws_partial`, `C35_size`, `C35_distance_refuted`, `C35_order_refuted`. The distance is not divided by the stride; the order is reversed for negative strides.
* **C36** The event queue delivers every event once in order despite insertions behind the sweep position. Model: events_t as a state machine with current, new and undone events (EventsModel). Proof: invariant: what was delivered and not undone is a sorted prefix; a measure bounds the steps. *Proved*: `C36_next`, `C36_complete`, `C36_drains`, `C36_find`, `C36_event_order`.
* **C37** The sweep-line set stays sorted. Model: the tree as a heap of nodes with pointers (RBModel). Proof: refinement to functional trees (RBHeap, RBInsert, RBErase, RBRestore, RBNav). *Proved*: `C37_iteration`, `C37_insert_sorted`, `C37_erase_sorted`.
* **C38** The sweep-line set is always balanced. Model: same. Proof: red-black invariant preserved by both rebalancing loops; height bound. *Proved*: `C38_operations`, `C38_height`.
* **C39** Erasing a node returns its successor and leaves other nodes valid. Model: same. Proof: erase refinement: in-order sequence loses exactly that node. *Proved*: `C39_erase`.
* **C40** Inserting before a given position places the element there. Model: insert_before. Proof: in-order sequence gains the node at the position. *Proved*: `C40_insert_before`.
* **C41** Every kept output point belongs to exactly one output loop. Model: find_loops, proto_loop_iterator (OutModel). Proof: cycles of a permutation (CycleProofs). *Proved*: `C41_loops`. For every list of points whose links form a permutation. The reported size of a loop is the number of points met by going round it.
* **C42** The output hierarchy is a forest containing every loop once. Model: arrange_loops, loop_hierarchy (OutModel). Proof: forest lemma (TreeProofs). *Proved*: `C42_forest`, `C42_hierarchy`. C42_forest needs no assumption about what was recorded; C42_hierarchy shows that nested loops are arranged with every loop in the closest loop around it.
* **C43** Breaking and rejoining kept edges preserves the multiset of edges. Model: find_breaks, follow_balance, matching and joining of ends (OutModel). Proof: runs of points with one judgement, multisets of ends by position, links as a permutation (JoinProofs, LinkProofs, MatchProofs, FinishProofs). *Proved*: `C43_edges`, `C43_success`. C43_edges holds for every way the last stage can succeed; C43_success states the balance and the fuel that make it succeed.
* **C44** Output lines never cross. Model: ClipModel: the whole splitting sweep (SegProps, RndProps). Proof: order of lines between neighbours that were checked, carried along the history of events (SegOrder, SegPair, SegTrace, SegStep, SegClean). With rounded splits neighbours may be in order only up to a point between them where a line ends that is still to come; such pairs are kept as they are until the event of that end, where the lines around them settle them (RndTrace, RndCut, RndStep), over checks that split one or two lines (RndCheck, RndWeak) and over the whole loop with events taken back (RndForm, RndLoop, RndFinal). *Partial*: `C44_clean_partial`, `C44_again_partial`, `C71_split`, `C44_rounded_partial`. proved for all loops whose sweep adds no point (any number of coincident edges, common ends and vertical edges), with the code's own intersection test, comparison, event order and marks; and for the result of any run that a second sweep leaves unsplit. C44_rounded_partial covers sweeps with rounded crossing points, with any number of splits and any amount of taking back, provided that at no moment of the sweep a loop has an edge that goes back along the edge before it. Missing: sweeps in which that happens; for crossings at points with whole coordinates see C71.
* **C45** Splitting a segment keeps loops closed. Model: split_segment on loop graph. Proof: next/prev inverse invariant. *Proved*: `C45_split`. For any intersection points and any order of the sweep-line set; if an assertion fails or the fuel runs out nothing is claimed.
* **C46** The sweep order of segments is consistent. Model: sweep_cmp. Proof: trichotomy/asymmetry by case analysis on exact integers. *Proved*: `C46_sweep_order`, `C46_sweep_trans`, `C46_no_overflow`. Transitivity for non-crossing segments with a common x interval.
* **C47** Scan lines stay inside the image. Model: clamp, to_coord, scan_line_sweep_state bounds. Proof: interval reasoning. *Partial*: `C47_in_image`, `C47_order_partial`, `C47_order_refuted`, `C47_empty_width_refuted`. x1 <= x2 holds whenever the consistency assertion holds and fails otherwise (three edges meeting); an image of width 0 gives column 2^32-1.
* **C48** Edge crossings of a scan line are exact. Model: x_intercept, whole_and_frac. Proof: division law; euclid-mode defect bears on it. *Proved*: `C48_exact`, `C48_between`, `C48_ends`, `C48_pixel`. the position is one exact fraction.
* **C49** The rasteriser detects exactly the interior crossings. Model: polydraw intersects, fraction. Proof: sign reasoning; refutation at integral y. *Proved*: `C49_found`, `C49_height`.
* **C50** Exact fractions compare as rationals. Model: fraction/whole_and_frac comparisons. Proof: cross multiplication. *Partial*: `C50_fraction`, `C50_fraction_int`, `C50_whole`, `C50_whole_refuted`. crossings at negative whole heights are stored with the fraction d/d and compare wrongly.
* **C51** The rasteriser fill rules are the documented ones. Model: should_fill. Proof: case analysis for all integers. *Proved*: `C51_rules`, `C51_draw`, `C51_winding`, `C51_covered`, `C51_left_right`, `C51_not_crossing`, `C51_crossing`. for runs in which no assertion fails; C51_not_crossing shows that this is every run if no two edges cross, C51_crossing if no crossing is at a whole height and no third edge passes through one.
* **C52** The rasteriser's event order is consistent. Model: polydraw event_cmp. Proof: order lemmas, refutation for inconsistent representation if confirmed. *Partial*: `C52_order`, `C52_height`, `C52_same_height_refuted`. strict weak order with the exact height first; two equal heights are not always recognised as equal.
* **C53** Rasteriser loops are stored closed without repeated neighbours. Model: rasteriser point_sink. Proof: as C26. *Partial*: `C53_stored_partial`, `C53_edges`, `C53_trailing_repeat_refuted`. false for input that repeats the first point more than once at the end.
* **C54** Offsetting attributes each generated point to its source vertices. Model: offset control flow with trigonometry as an oracle producing lists of points. Proof: index invariant; refutation with leading duplicates. *Partial*: `C54_reported_partial`, `C54_closed_next`, `C54_closed_ends`, `C54_repeat_refuted`, `C54_leading_repeat_refuted`, `C54_open_wrap_refuted`, `C54_open_next_refuted`, `C54_lone_next_refuted`. Proved for sequences without equal neighbours. With repeated points indices are wrong, and after an open line the numbering continues one too low; both refuted with witnesses.
* **C55** Offsetting a lone point gives a polygon. Model: offset_lone_point count. Proof: refuted for small magnitudes. *Partial*: `C55_points_partial`, `C55_few_steps_refuted`, `C55_no_steps_refuted`. Exact count of points proved; false when the circle has three steps or fewer (magnitude 10, step size 20): two points are put and the polygon is discarded.
* **C56** Offsetting tolerates repeated points. Model: _add_offset_closed/_open. Proof: invariant that consecutive points differ. *Proved*: `C56_corners`, `C56_closed_shape`, `C56_open_shape_partial`, `C56_open_thrice_refuted`. Proved for all inputs. The further claim that repeats do not change the corners holds for closed sequences and fails for open ones whose last point stands there three times.
* **C57** Conversion of wide integers to floating point has the right scale. Model: unsigned_to_float scale over exact rationals. Proof: refuted for N=3; proved for N<=2. *Partial*: `C57_to_float_partial`, `C57_to_float_refuted`. Exact for one and two words (rounding not modelled); three or more words have the wrong scale.
* **C58** Rounding of whole-plus-fraction numbers. Model: whole_and_frac::round (RasterModel). Proof: witness; exactly when the result is a nearest integer. *Partial*: `C58_round_refuted`, `C58_round_partial`. false: an exact whole number is rounded up; right exactly when the fraction is at least a half.
* **C59** A scan line sees exactly the edges it crosses. Model: scan_all, the whole rasteriser (RasterModel). Proof: invariant of the sweep: the set is the edges that span the height (RasterRun). *Proved*: `C59_active`.
* **C60** Rasterising ends. Model: scan_all. Proof: three edges that cross in one point are swapped forever; a repeating state is exhibited; without crossings every event is handled once and the order of the sweep is kept from row to row (RasterEnds); with crossings that are not at whole heights and not met by a third edge the sweep always holds the order at the last event, every crossing of neighbours is in the queue, and a count of pending events and crossings falls (RasterCross). *Partial*: `C60_ends_refuted`, `C60_ends_partial`, `C60_crossing_partial`. false: three edges that cross in one point can be swapped forever; proved, with no failed assertion and a stated number of steps, if no two edges cross, and if no crossing is at a whole height and no third edge passes through one.
* **C61** A point tracker only gets indices of points it was told about. Model: do_op with logs of the tracker calls (ClipModel, OutModel). Proof: bounds of every index in the log; witness for hierarchical output. *Partial*: `C61_tracker_indices_partial`, `C61_tracker_indices_refuted`. The statement is false with hierarchical output: point_merge gets the indices of anchor points.
* **C62** A discarded point is never used again. Model: do_op. Proof: witness: one square minus another; otherwise merged points have the state discard, which only a line judged "discard, reversed" gives up, and only the difference judges so (DropProofs). *Partial*: `C62_discarded_refuted`, `C62_discarded_partial`, `C62_difference_partial`. The statement is false for the difference: the first point of a discarded reversed line can become a point of the output. Proved for all other operations, and for the difference that it can only happen to a marked point of the clip set.
* **C63** No operation fails. Model: do_op. Proof: witness: a loop that ends with its first point twice. *Partial*: `C63_no_failure_refuted`, `C63_no_failure_partial`. The statement is false: a loop that repeats its first point twice at the end makes joining the lines fail. Proved for loops that do not do so (nor have a single point or start where the one before ended) when edges cross at points with whole coordinates and none goes back along the one before it, or when no loop goes back along its own line at any moment of the sweep.
* **C64** Every marked line is judged exactly once. Model: calc_line_bal (ClipModel). Proof: the second sweep keeps the set of lines that span the current x, in any order; every judged line gets the whole column. *Proved*: `C64_judged`. For any answer of the tree about where edges go; the sweep is stopped only by the fuel of the model, and the exact amount needed is stated.
* **C65** Edges are kept as the winding numbers demand. Model: self_intersection and calc_line_bal. Proof: split loops stay closed, so the lines are the edges of closed polygons; then C23. *Partial*: `C65_family`, `C65_region_partial`. C65_family is complete. C65_region_partial covers an edge that no other edge overlaps, in a family without edges of zero length.
* **C66** Counting finds every equivalent element. Model: equal_range, count (RBCount). Proof: bounds of the search in the in-order sequence. *Proved*: `C66_count`. The key may be any value; the elements only have to be partitioned by it.
* **C67** The output encloses exactly the selected points. Model: line_balance on every line of a closed planar family. Proof: the count of lines above a line is the same above every point it spans (ArrangeColumn); the lines above a point form a stack whose jumps add up to the selection of the winding numbers there (ArrangeRegion); scaling gives rational points (RegionProofs). *Proved*: `C67_region`. for all closed families of lines that only meet at common ends and every rational point on no line; each line is judged by all lines of its column, which is what the sweep supplies by C64.
* **C68** Polygons that do not cross: the whole operation is right. Model: everything from add_loop to the loops of do_op (PointSinkModel, ClipModel, OutModel). Proof: lines that only meet at their ends are never split (SegMeet), so the sweep makes progress at every event and ends (SegProgress, SegTotal); its marks cover every change of judgement along a loop (WholeVertex, WholeRuns), so the judged points give the lines of C67 (WholeOut), which balance by C25 and are joined by C43 (WholeCore, WholeTotal); the stored points are closed loops with one mark each (WholeInput). *Proved*: `C68_region`. from the calls of add_loop to the loops of the result, with the code's own intersection test, comparison, event order, marks and judgements; the search of the sweep tree and the sort functions are any that do their job; fuel at least n(n+2) for n edges. Input loops: none with a single point, with its first point twice at its end or starting where the one before it ended (C26 to C28).
* **C69** Splitting and judging always come to an end. Model: self_intersection, split_segment, check_intersection, events_t, calc_line_bal (ClipModel, EventsModel). Proof: the number of unit steps of all edges is an invariant and bounds the number of points (TotalSplit); no step of the sweep fails (TotalRun); the points still to come and the events left to undo or to handle give a measure that every step lowers (TotalRun); judging then succeeds by C64 (TotalProps). *Proved*: `C69_split`, `C69_judged`. each split point lies in the box of the edge it splits and is neither of its ends, so the number of unit steps of all edges stays the same while the number of points grows; fuel of the splitting loop at least (T-n)(8T+2)+4T for n points and T steps.
* **C70** Any polygons: the result encloses what the operation selects. Model: add_loop, self_intersection, calc_line_bal, do_op (PointSinkModel, ClipModel, OutModel). Proof: splitting ends by C69; marks of the input stay and every split loop keeps one (GeneralProofs); the rest of the operation by the lemmas of C68 (WholeCore); a split at a point of the edge changes no winding number (ExactProofs), so by induction over the log of splits neither does the whole run (GeneralExact); the two conditions on the split loops follow from C44_rounded_partial when no loop goes back on the way (RndProps). *Partial*: `C70_region_partial`, `C70_rounded_partial`. under two conditions on the split loops: their edges only meet at their ends and are marked where they do (what C44 proves of sweeps that split nothing and C71 of crossings at points with whole coordinates); everything else - that splitting ends, that the operation succeeds, and that the result encloses exactly what is selected, from the split loops, and from the polygons if the splits are exact - is proved for all polygons. C70_rounded_partial replaces the two conditions by one: at no moment of the sweep does a loop go back along its own line.
* **C71** Polygons that cross at grid points: the whole operation is right. Model: add_loop, self_intersection, calc_line_bal, do_op (PointSinkModel, ClipModel, OutModel). Proof: the history of the events that are still valid, with the set of lines after each (DynTrace, DynOrder); what deleting a split line and its events does to it and which checks are still owed until the new lines are put in (DynCut, DynStep); one pass of the sweep keeps it (DynForm, DynLoop); crossings at whole points are split exactly (DynShape), so the lines at the end only meet at ends (DynFinal), and C70 gives the rest. *Proved*: `C71_split`, `C71_region`. no conditions on the run: only on the polygons (crossings at points with whole coordinates, no edge that goes back along the one before it). Fuel of the splitting loop as in C69.
* **C72** Hierarchical output: every loop inside the closest loop around it. Model: do_op with the tree, replace_line_indices_with_loop_indices, arrange_loops (ClipModel, OutModel). Proof: refuted by a run whose loops touch (TreeFailProps). For loops that do not touch: closed families of lines that do not touch are nested (TreeNest); the lines recorded above a line count how often another loop winds around its start (TreeHits); each recorded line becomes a point of the loop it is output in (TreeTrack); so the counts are the nesting and C42 gives the forest (TreeWhole, TreeCore), with C70 and C71 for the run (TreeProps). *Partial*: `C72_tree_refuted`, `C72_run_partial`, `C72_tree_partial`, `C72_rounded_partial`. false when loops of the result touch: normalizing one polygon that crosses itself gives three loops of which the second counts as inside the third and the third as inside the first but the second not as inside the first, and arrange_loops fails its assertion. Proved when different loops of the result have no coordinates in common: for all polygons whose edges cross at points with whole coordinates (C72_tree_partial), for rounded crossings when no loop goes back along its own line during the sweep (C72_rounded_partial), and for every run whose split loops only meet at their ends and are marked there (C72_run_partial), the hierarchy is built, holds every loop once, and puts each loop in the innermost loop around it.
* **C73** Drawing raises no assertion when edges cross two at a time. Model: scan_all with its checks (RasterModel). Proof: refuted by a run with a crossing at a corner's row; otherwise the invariant of C60 (RasterCross). *Partial*: `C73_assert_refuted`, `C73_assert_partial`. false: if two edges cross exactly at a row where a corner of another polygon lies, the swap is handled one row late and the checks at the end of the row fail (the scan lines are right). Proved if no crossing is at a whole height.
* **C74** The result continues with the line that turns most clockwise. Model: join_ends, choose_start (OutModel). Proof: refuted by a run; otherwise the turn as a rational number, which the pairwise comparison orders (TurnProofs), and induction over the lines and the ends. *Partial*: `C74_turn_refuted`, `C74_turn_partial`. false: if one of the lines goes straight back and another straight on, their comparison does not tell them apart, and a clockwise turn can be given up for the line straight on (reached by the symmetric difference of three triangles, one of them without area; the result is one loop that passes one point three times). Proved for every end where these two directions do not both occur.
* **C75** Every point is used once in the output or reported as discarded once. Model: do_op. Proof: refuted by a run of the difference; otherwise an invariant while lines are followed (merged points are the finished dropped ones), induction along the loops from judged points, a count of the loops found, and for hierarchies the same with the anchors inserted at once (AccountProofs). *Partial*: `C75_account_refuted`, `C75_account_partial`, `C75_tree_partial`, `C75_offset_partial`. false for the difference: lines of the clip set that are discarded in reverse lose their last point without a report, and a reported point can be used again. Proved for all other operations and for differences without polygons of the clip set, any polygons and any results of intersecting, for flat output and for hierarchies (where the anchors are further points, in no loop).
* **C76** The origins of an output point are all the input points merged into it. Model: origin_point_tracker (OriginModel), on FlatSetModel and do_op. Proof: refuted by a run; otherwise an invariant over the calls (the sets of points not yet discarded hold the indices that landed there, OriginProofs), with each point discarded at most once by C75. *Partial*: `C76_origins_refuted`, `C76_tree_refuted`, `C76_origins_partial`, `C76_offset_partial`. false: with hierarchical output the tracker is told to merge anchors, for which it has no sets (the union of two squares); with flat output lines are followed in the order of the sweep, so a point can be merged into one that has been merged before, and its indices are lost (the union of three rectangles). Proved for flat output of all operations but differences with polygons of the clip set: the tracker makes no error, records only indices that belong there, always the own index of a kept input point, exactly the indices that the merges in their order carry there, and all of them when no point is merged into one discarded before; the same after offsetting (C76_offset_partial), where for closed sequences without repeats the indices are those of the points that were moved.
* **C77** Offsetting adds exactly the outlines of the given lines. Model: offset_loop and the point sink (OffsetModel, PointSinkModel). Proof: refuted by a run; otherwise the corners built are those of the sequence without repeats (C56), so the points put are the outline, and what the sink stores does not depend on the indices (OutlineProofs); then C70 and C71 (OutlineWhole). *Partial*: `C77_outline_refuted`, `C77_outline_partial`, `C77_region_partial`, `C77_grid_partial`, `C77_rounded_partial`, `C77_range_partial`. false for an open line that ends with the same point three times: its outline is stored twice. Proved for all other sequences, with the positions of moved lines and arcs as arbitrary functions; C77_region_partial carries C70 over to offset sequences, C77_grid_partial C71 (outlines crossing at points with whole coordinates), and C77_rounded_partial C70_rounded_partial.
* **C78** Operands accepted without a cast keep their value. Model: safe_operand, int_count, to_words (LargeIntsModel). Proof: int_count is the least width that holds the type (ArithProofs); to_words reduces to the width (WordsProofs). *Proved*: `C78_safe`, `C78_value`, `C78_wraps`. types are described by signedness and number of words or bytes; built-in integers of 1 to 16 bytes.
* **C79** The set tells which elements are in it. Model: unique, init, erase (RBModel). Proof: elements have a parent since the nodes store a tree; cells outside the tree are not changed by erasing (RBErase). *Partial*: `C79_unique_refuted`, `C79_elements`, `C79_init`, `C79_erased`, `C79_debug`. false in builds with NDEBUG: unique() stays false for every erased element (C79_erased), because its parent is only cleared for debugging; C79_debug has the assignment and is right. The rest is proved in full.

## Findings

Each is a `..._refuted` theorem with a witness.  They are faults of the modelled code or
statements that users would expect and that do not hold.

* Wide integers: unsigned products with one single-word operand return nothing (C05); signed
  by unsigned division can give a wrong remainder, and the most negative divisor is undefined
  on platforms with the double-word divide (C06); Euclidean division breaks the law for
  negative divisors and for exact quotients (C07); the portable carry loses a carry (C08); a
  cast to 128 bits puts the high word at bit 8 (C10); the conversion to floating point has the
  wrong scale from three words on (C57).
* Predicates: `winding_dir` can overflow for many points (C14); vertical starts come before
  ends (C16); a crossing computed in doubles can be misplaced (C18).
* Input: a loop that ends with its first point twice keeps a line without length (C26, C53),
  which later makes joining fail (C63); the duplicate test looks at the previous loop (C27); a
  single point reads before the array (C28); the generator is not reset (C31).
* Containers: the second `insert` into a flat set does not count, `empty` is inverted (C33); the
  distance of strided iterators is not divided by the stride (C35).
* Rasteriser: three edges that meet in one point break the order and can be swapped forever
  (C47, C60); a crossing at the row of another polygon's corner is handled one row late, and
  the checks at the end of the row fail (C73); fractions d/d compare wrongly (C50, C52); `round` rounds whole numbers up (C58);
  an image of width 0 gives a wrapped column (C47).
* Offset: wrong original indices with repeated points and after open lines (C54); a circle of
  three steps or fewer is discarded (C55); an open line that ends three times at one point
  gets a spurious corner (C56).
* Trackers: `point_merge` gets indices of anchor points with hierarchical output (C61) and can
  name a point that stays in the output (C62).
* Tracking: in a difference points of the clip set are dropped without any call of
  `point_merge` (C75).
* Tracking: points can be merged into points that were discarded before, against the comment at
  `i_point_tracker::point_merge`; `origin_point_tracker` then loses their indices (C76).
  With hierarchical output it reads and writes beyond its sets even for the union of two squares.
* Joining: a line straight back and a line straight on are not told apart, so the greatest
  clockwise turn can be missed (C74).
* Hierarchical output: loops of one result can share points and lines, and then the lines
  above a sample need not nest; the assertion of `arrange_loops` fails (C72).

## Seeded faults

`seeded/LOG.jsonl` lists edits of the model that imitate faults, made in a scratch copy, with
the theorems that stopped proving.  Four of them first went unnoticed; theorems were
tightened or added (C74, C78) and the edits repeated.
