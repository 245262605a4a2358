{
 "claims": [
  {
   "property": "C01",
   "status": "proved",
   "theorems": [
    "C01_add",
    "C01_sub",
    "C01_width_exists",
    "C01_add_assign",
    "C01_sub_assign",
    "C01_exact_when_fits"
   ],
   "note": ""
  },
  {
   "property": "C02",
   "status": "partial",
   "theorems": [
    "C02_neg_partial",
    "C02_negative",
    "C02_abs_partial",
    "C02_refuted"
   ],
   "note": "Fails only for the most negative one-word signed value, where the code has undefined behaviour (C02_refuted)."
  },
  {
   "property": "C03",
   "status": "proved",
   "theorems": [
    "C03_compare",
    "C03_equal"
   ],
   "note": ""
  },
  {
   "property": "C04",
   "status": "proved",
   "theorems": [
    "C04_shift_right",
    "C04_shift_right_assign",
    "C04_shift_left",
    "C04_shift_left_assign",
    "C04_shift_right_bound"
   ],
   "note": ""
  },
  {
   "property": "C05",
   "status": "partial",
   "theorems": [
    "C05_mul_partial",
    "C05_mul_small_partial",
    "C05_mul_unsigned_refuted",
    "C05_mul_small_unsigned_refuted"
   ],
   "note": "Unsigned products with exactly one single-word operand return nothing; small unsigned built-ins overflow."
  },
  {
   "property": "C06",
   "status": "partial",
   "theorems": [
    "C06_truncating_division_partial",
    "C06_min_wraps",
    "C06_remainder_refuted",
    "C06_min_divisor_refuted",
    "C06_min_wraps_refuted"
   ],
   "note": "Three refuted corner cases are excluded from the partial theorem."
  },
  {
   "property": "C07",
   "status": "partial",
   "theorems": [
    "C07_euclid_divmod_partial",
    "C07_euclid_unmul_partial",
    "C07_euclid_actual_partial",
    "C07_negative_divisor_refuted",
    "C07_exact_refuted"
   ],
   "note": "The law fails for negative divisors and for exact divisions of a negative number."
  },
  {
   "property": "C08",
   "status": "partial",
   "theorems": [
    "C08_adc_partial",
    "C08_sbb_partial",
    "C08_builtin_adc",
    "C08_refuted",
    "C08_sub_refuted",
    "C08_inplace_refuted"
   ],
   "note": "The portable fall-back loses a carry on one input."
  },
  {
   "property": "C09",
   "status": "proved",
   "theorems": [
    "C09_mul1x1"
   ],
   "note": ""
  },
  {
   "property": "C10",
   "status": "partial",
   "theorems": [
    "C10_convert",
    "C10_to_bool",
    "C10_cast_partial",
    "C10_cast_refuted"
   ],
   "note": "Casts to 128-bit built-ins place the high word at bit 8."
  },
  {
   "property": "C11",
   "status": "proved",
   "theorems": [
    "C11_hex_literal"
   ],
   "note": ""
  },
  {
   "property": "C12",
   "status": "partial",
   "theorems": [
    "C12_unmul_partial",
    "C12_unmul_refuted"
   ],
   "note": "MIN/-1 into a wider quotient, the most negative one-word divisor on the divide-instruction path, and the unsigned-divisor remainder are excluded."
  },
  {
   "property": "C57",
   "status": "partial",
   "theorems": [
    "C57_to_float_partial",
    "C57_to_float_refuted"
   ],
   "note": "Exact for one and two words (rounding not modelled); three or more words have the wrong scale."
  },
  {
   "property": "C13",
   "status": "proved",
   "theorems": [
    "C13_orientation",
    "C13_no_overflow",
    "C13_bound_tight"
   ],
   "note": ""
  },
  {
   "property": "C14",
   "status": "proved",
   "theorems": [
    "C14_winding_dir",
    "C14_no_overflow",
    "C14_overflow_refuted"
   ],
   "note": "The values are exact for unbounded integers; the machine accumulator is safe for a bounded number of points and can overflow otherwise (C14_overflow_refuted)."
  },
  {
   "property": "C15",
   "status": "proved",
   "theorems": [
    "C15_point_order"
   ],
   "note": ""
  },
  {
   "property": "C16",
   "status": "partial",
   "theorems": [
    "C16_event_order_partial",
    "C16_vertical_refuted"
   ],
   "note": "Order laws proved; ends precede starts only for segments that are not vertical."
  },
  {
   "property": "C17",
   "status": "proved",
   "theorems": [
    "C17_intersects_iff",
    "C17_no_overflow"
   ],
   "note": ""
  },
  {
   "property": "C18",
   "status": "partial",
   "theorems": [
    "C18_intersection_point_partial",
    "C18_double_refuted"
   ],
   "note": "Proved for exact quotients; in double arithmetic an integral crossing can be misplaced outside a bounding box (C18_double_refuted)."
  },
  {
   "property": "C19",
   "status": "proved",
   "theorems": [
    "C19_endpoint_touch",
    "C19_endpoint_touch_double"
   ],
   "note": ""
  },
  {
   "property": "C20",
   "status": "proved",
   "theorems": [
    "C20_parallel_overlap"
   ],
   "note": ""
  },
  {
   "property": "C21",
   "status": "proved",
   "theorems": [
    "C21_winding_number",
    "C21_half_open",
    "C21_no_overflow"
   ],
   "note": ""
  },
  {
   "property": "C22",
   "status": "proved",
   "theorems": [
    "C22_dual_ray"
   ],
   "note": ""
  },
  {
   "property": "C23",
   "status": "proved",
   "theorems": [
    "C23_decision",
    "C23_edge_boundary",
    "C23_union_or_refuted"
   ],
   "note": "Union counts the sum of both windings; reading it as 'inside either' fails for negative windings (C23_union_or_refuted). C23_edge_boundary covers edges without coincident partners."
  },
  {
   "property": "C24",
   "status": "proved",
   "theorems": [
    "C24_normalize"
   ],
   "note": ""
  },
  {
   "property": "C46",
   "status": "proved",
   "theorems": [
    "C46_sweep_order",
    "C46_sweep_trans",
    "C46_no_overflow"
   ],
   "note": "Transitivity for non-crossing segments with a common x interval."
  },
  {
   "property": "C26",
   "status": "partial",
   "theorems": [
    "C26_stored_cycle_partial",
    "C26_no_equal_neighbours",
    "C26_trailing_repeat_refuted"
   ],
   "note": "False when the first point is repeated more than once at the end (C26_trailing_repeat_refuted), when the first point equals the last stored point (C27) and for one point (C28)."
  },
  {
   "property": "C27",
   "status": "partial",
   "theorems": [
    "C27_independent_partial",
    "C27_independent_refuted"
   ],
   "note": "The statement is false: the duplicate test compares with the last point of the previous loop."
  },
  {
   "property": "C28",
   "status": "partial",
   "theorems": [
    "C28_out_of_bounds_iff",
    "C28_no_undefined_partial",
    "C28_single_point_refuted"
   ],
   "note": "The statement is false; C28_out_of_bounds_iff characterises exactly the sequences that read out of bounds."
  },
  {
   "property": "C29",
   "status": "proved",
   "theorems": [
    "C29_one_call_per_point",
    "C29_discarded_silent"
   ],
   "note": ""
  },
  {
   "property": "C30",
   "status": "proved",
   "theorems": [
    "C30_original_index",
    "C29_one_call_per_point"
   ],
   "note": ""
  },
  {
   "property": "C31",
   "status": "partial",
   "theorems": [
    "C31_reuse_partial",
    "C31_generator_refuted",
    "C31_reuse_refuted"
   ],
   "note": "The statement is false: reset does not reset the random number generator, so a repeated operation can give other points (C31_reuse_refuted, for a whole operation)."
  },
  {
   "property": "C32",
   "status": "proved",
   "theorems": [
    "C32_insert_range",
    "C32_merge",
    "C32_copies"
   ],
   "note": "merge of a set with itself is not covered."
  },
  {
   "property": "C33",
   "status": "partial",
   "theorems": [
    "C33_insert_partial",
    "C33_insert_second",
    "C33_insert_second_refuted",
    "C33_empty_inverted",
    "C33_empty_refuted"
   ],
   "note": "The size is not increased when the second value is inserted, and empty() is inverted."
  },
  {
   "property": "C34",
   "status": "proved",
   "theorems": [
    "C34_visits",
    "C34_random_access",
    "C34_blob"
   ],
   "note": ""
  },
  {
   "property": "C35",
   "status": "partial",
   "theorems": [
    "C35_laws_partial",
    "C35_size",
    "C35_distance_refuted",
    "C35_order_refuted"
   ],
   "note": "The distance is not divided by the stride; the order is reversed for negative strides."
  },
  {
   "property": "C37",
   "status": "proved",
   "theorems": [
    "C37_iteration",
    "C37_insert_sorted",
    "C37_erase_sorted"
   ],
   "note": ""
  },
  {
   "property": "C38",
   "status": "proved",
   "theorems": [
    "C38_operations",
    "C38_height"
   ],
   "note": ""
  },
  {
   "property": "C39",
   "status": "proved",
   "theorems": [
    "C39_erase"
   ],
   "note": ""
  },
  {
   "property": "C40",
   "status": "proved",
   "theorems": [
    "C40_insert_before"
   ],
   "note": ""
  },
  {
   "property": "C36",
   "status": "proved",
   "theorems": [
    "C36_next",
    "C36_complete",
    "C36_drains",
    "C36_find",
    "C36_event_order"
   ],
   "note": ""
  },
  {
   "property": "C47",
   "status": "partial",
   "theorems": [
    "C47_in_image",
    "C47_order_partial",
    "C47_order_refuted",
    "C47_empty_width_refuted"
   ],
   "note": "x1 <= x2 holds whenever the consistency assertion holds and fails otherwise (three edges meeting); an image of width 0 gives column 2^32-1"
  },
  {
   "property": "C48",
   "status": "proved",
   "theorems": [
    "C48_exact",
    "C48_between",
    "C48_ends",
    "C48_pixel"
   ],
   "note": "the position is one exact fraction"
  },
  {
   "property": "C49",
   "status": "proved",
   "theorems": [
    "C49_found",
    "C49_height"
   ],
   "note": ""
  },
  {
   "property": "C50",
   "status": "partial",
   "theorems": [
    "C50_fraction",
    "C50_fraction_int",
    "C50_whole",
    "C50_whole_refuted"
   ],
   "note": "crossings at negative whole heights are stored with the fraction d/d and compare wrongly"
  },
  {
   "property": "C51",
   "status": "proved",
   "theorems": [
    "C51_rules",
    "C51_draw",
    "C51_winding",
    "C51_covered",
    "C51_left_right",
    "C51_not_crossing",
    "C51_crossing"
   ],
   "note": "for runs in which no assertion fails; C51_not_crossing shows that this is every run if no two edges cross, C51_crossing if no crossing is at a whole height and no third edge passes through one"
  },
  {
   "property": "C52",
   "status": "partial",
   "theorems": [
    "C52_order",
    "C52_height",
    "C52_same_height_refuted"
   ],
   "note": "strict weak order with the exact height first; two equal heights are not always recognised as equal"
  },
  {
   "property": "C53",
   "status": "partial",
   "theorems": [
    "C53_stored_partial",
    "C53_edges",
    "C53_trailing_repeat_refuted"
   ],
   "note": "false for input that repeats the first point more than once at the end"
  },
  {
   "property": "C58",
   "status": "partial",
   "theorems": [
    "C58_round_refuted",
    "C58_round_partial"
   ],
   "note": "false: an exact whole number is rounded up; right exactly when the fraction is at least a half"
  },
  {
   "property": "C59",
   "status": "proved",
   "theorems": [
    "C59_active"
   ],
   "note": ""
  },
  {
   "property": "C60",
   "status": "partial",
   "theorems": [
    "C60_ends_refuted",
    "C60_ends_partial",
    "C60_crossing_partial"
   ],
   "note": "false: three edges that cross in one point can be swapped forever; proved, with no failed assertion and a stated number of steps, if no two edges cross, and if no crossing is at a whole height and no third edge passes through one"
  },
  {
   "property": "C54",
   "status": "partial",
   "theorems": [
    "C54_reported_partial",
    "C54_closed_next",
    "C54_closed_ends",
    "C54_repeat_refuted",
    "C54_leading_repeat_refuted",
    "C54_open_wrap_refuted",
    "C54_open_next_refuted",
    "C54_lone_next_refuted"
   ],
   "note": "Proved for sequences without equal neighbours. With repeated points indices are wrong, and after an open line the numbering continues one too low; both refuted with witnesses."
  },
  {
   "property": "C55",
   "status": "partial",
   "theorems": [
    "C55_points_partial",
    "C55_few_steps_refuted",
    "C55_no_steps_refuted"
   ],
   "note": "Exact count of points proved; false when the circle has three steps or fewer (magnitude 10, step size 20): two points are put and the polygon is discarded."
  },
  {
   "property": "C56",
   "status": "proved",
   "theorems": [
    "C56_corners",
    "C56_closed_shape",
    "C56_open_shape_partial",
    "C56_open_thrice_refuted"
   ],
   "note": "Proved for all inputs. The further claim that repeats do not change the corners holds for closed sequences and fails for open ones whose last point stands there three times."
  },
  {
   "property": "C41",
   "status": "proved",
   "theorems": [
    "C41_loops"
   ],
   "note": "For every list of points whose links form a permutation. The reported size of a loop is the number of points met by going round it."
  },
  {
   "property": "C42",
   "status": "proved",
   "theorems": [
    "C42_forest",
    "C42_hierarchy"
   ],
   "note": "C42_forest needs no assumption about what was recorded; C42_hierarchy shows that nested loops are arranged with every loop in the closest loop around it."
  },
  {
   "property": "C45",
   "status": "proved",
   "theorems": [
    "C45_split"
   ],
   "note": "For any intersection points and any order of the sweep-line set; if an assertion fails or the fuel runs out nothing is claimed."
  },
  {
   "property": "C61",
   "status": "partial",
   "theorems": [
    "C61_tracker_indices_partial",
    "C61_tracker_indices_refuted"
   ],
   "note": "The statement is false with hierarchical output: point_merge gets the indices of anchor points."
  },
  {
   "property": "C62",
   "status": "partial",
   "theorems": [
    "C62_discarded_refuted",
    "C62_discarded_partial",
    "C62_difference_partial"
   ],
   "note": "The statement is false for the difference: the first point of a discarded reversed line can become a point of the output. Proved for all other operations, and for the difference that it can only happen to a marked point of the clip set."
  },
  {
   "property": "C63",
   "status": "partial",
   "theorems": [
    "C63_no_failure_refuted",
    "C63_no_failure_partial"
   ],
   "note": "The statement is false: a loop that repeats its first point twice at the end makes joining the lines fail. Proved for loops that do not do so (nor have a single point or start where the one before ended) when edges cross at points with whole coordinates and none goes back along the one before it, or when no loop goes back along its own line at any moment of the sweep."
  },
  {
   "property": "C64",
   "status": "proved",
   "theorems": [
    "C64_judged"
   ],
   "note": "For any answer of the tree about where edges go; the sweep is stopped only by the fuel of the model, and the exact amount needed is stated."
  },
  {
   "property": "C65",
   "status": "partial",
   "theorems": [
    "C65_family",
    "C65_region_partial"
   ],
   "note": "C65_family is complete. C65_region_partial covers an edge that no other edge overlaps, in a family without edges of zero length."
  },
  {
   "property": "C43",
   "status": "proved",
   "theorems": [
    "C43_edges",
    "C43_success"
   ],
   "note": "C43_edges holds for every way the last stage can succeed; C43_success states the balance and the fuel that make it succeed."
  },
  {
   "property": "C66",
   "status": "proved",
   "theorems": [
    "C66_count"
   ],
   "note": "The key may be any value; the elements only have to be partitioned by it."
  },
  {
   "property": "C25",
   "status": "proved",
   "theorems": [
    "C25_balance"
   ],
   "note": "for all closed families of lines that only meet at common ends (equal lines and vertical lines included), each line judged by the lines of its column: output lines, and lines to be reversed, balance at every point"
  },
  {
   "property": "C67",
   "status": "proved",
   "theorems": [
    "C67_region"
   ],
   "note": "for all closed families of lines that only meet at common ends and every rational point on no line; each line is judged by all lines of its column, which is what the sweep supplies by C64"
  },
  {
   "property": "C44",
   "status": "partial",
   "theorems": [
    "C44_clean_partial",
    "C44_again_partial",
    "C71_split",
    "C44_rounded_partial"
   ],
   "note": "proved for all loops whose sweep adds no point (any number of coincident edges, common ends and vertical edges), with the code's own intersection test, comparison, event order and marks; and for the result of any run that a second sweep leaves unsplit. C44_rounded_partial covers sweeps with rounded crossing points, with any number of splits and any amount of taking back, provided that at no moment of the sweep a loop has an edge that goes back along the edge before it. Missing: sweeps in which that happens; for crossings at points with whole coordinates see C71."
  },
  {
   "property": "C68",
   "status": "proved",
   "theorems": [
    "C68_region"
   ],
   "note": "from the calls of add_loop to the loops of the result, with the code's own intersection test, comparison, event order, marks and judgements; the search of the sweep tree and the sort functions are any that do their job; fuel at least n(n+2) for n edges. Input loops: none with a single point, with its first point twice at its end or starting where the one before it ended (C26 to C28)."
  },
  {
   "property": "C69",
   "status": "proved",
   "theorems": [
    "C69_split",
    "C69_judged"
   ],
   "note": "each split point lies in the box of the edge it splits and is neither of its ends, so the number of unit steps of all edges stays the same while the number of points grows; fuel of the splitting loop at least (T-n)(8T+2)+4T for n points and T steps."
  },
  {
   "property": "C70",
   "status": "partial",
   "theorems": [
    "C70_region_partial",
    "C70_rounded_partial"
   ],
   "note": "under two conditions on the split loops: their edges only meet at their ends and are marked where they do (what C44 proves of sweeps that split nothing and C71 of crossings at points with whole coordinates); everything else - that splitting ends, that the operation succeeds, and that the result encloses exactly what is selected, from the split loops, and from the polygons if the splits are exact - is proved for all polygons. C70_rounded_partial replaces the two conditions by one: at no moment of the sweep does a loop go back along its own line."
  },
  {
   "property": "C71",
   "status": "proved",
   "theorems": [
    "C71_split",
    "C71_region"
   ],
   "note": "no conditions on the run: only on the polygons (crossings at points with whole coordinates, no edge that goes back along the one before it). Fuel of the splitting loop as in C69."
  },
  {
   "property": "C72",
   "status": "partial",
   "theorems": [
    "C72_tree_refuted",
    "C72_run_partial",
    "C72_tree_partial",
    "C72_rounded_partial"
   ],
   "note": "false when loops of the result touch: normalizing one polygon that crosses itself gives three loops of which the second counts as inside the third and the third as inside the first but the second not as inside the first, and arrange_loops fails its assertion. Proved when different loops of the result have no coordinates in common: for all polygons whose edges cross at points with whole coordinates (C72_tree_partial), for rounded crossings when no loop goes back along its own line during the sweep (C72_rounded_partial), and for every run whose split loops only meet at their ends and are marked there (C72_run_partial), the hierarchy is built, holds every loop once, and puts each loop in the innermost loop around it."
  },
  {
   "property": "C73",
   "status": "partial",
   "theorems": [
    "C73_assert_refuted",
    "C73_assert_partial"
   ],
   "note": "false: if two edges cross exactly at a row where a corner of another polygon lies, the swap is handled one row late and the checks at the end of the row fail (the scan lines are right). Proved if no crossing is at a whole height."
  },
  {
   "property": "C74",
   "status": "partial",
   "theorems": [
    "C74_turn_refuted",
    "C74_turn_partial"
   ],
   "note": "false: if one of the lines goes straight back and another straight on, their comparison does not tell them apart, and a clockwise turn can be given up for the line straight on (reached by the symmetric difference of three triangles, one of them without area; the result is one loop that passes one point three times). Proved for every end where these two directions do not both occur."
  },
  {
   "property": "C75",
   "status": "partial",
   "theorems": [
    "C75_account_refuted",
    "C75_account_partial",
    "C75_tree_partial",
    "C75_offset_partial"
   ],
   "note": "false for the difference: lines of the clip set that are discarded in reverse lose their last point without a report, and a reported point can be used again. Proved for all other operations and for differences without polygons of the clip set, any polygons and any results of intersecting, for flat output and for hierarchies (where the anchors are further points, in no loop)."
  },
  {
   "property": "C76",
   "status": "partial",
   "theorems": [
    "C76_origins_refuted",
    "C76_tree_refuted",
    "C76_origins_partial",
    "C76_offset_partial"
   ],
   "note": "false: with hierarchical output the tracker is told to merge anchors, for which it has no sets (the union of two squares); with flat output lines are followed in the order of the sweep, so a point can be merged into one that has been merged before, and its indices are lost (the union of three rectangles). Proved for flat output of all operations but differences with polygons of the clip set: the tracker makes no error, records only indices that belong there, always the own index of a kept input point, exactly the indices that the merges in their order carry there, and all of them when no point is merged into one discarded before; the same after offsetting (C76_offset_partial), where for closed sequences without repeats the indices are those of the points that were moved."
  },
  {
   "property": "C77",
   "status": "partial",
   "theorems": [
    "C77_outline_refuted",
    "C77_outline_partial",
    "C77_region_partial",
    "C77_grid_partial",
    "C77_rounded_partial",
    "C77_range_partial"
   ],
   "note": "false for an open line that ends with the same point three times: its outline is stored twice. Proved for all other sequences, with the positions of moved lines and arcs as arbitrary functions; C77_region_partial carries C70 over to offset sequences, C77_grid_partial C71 (outlines crossing at points with whole coordinates), and C77_rounded_partial C70_rounded_partial."
  },
  {
   "property": "C78",
   "status": "proved",
   "theorems": [
    "C78_safe",
    "C78_value",
    "C78_wraps"
   ],
   "note": "types are described by signedness and number of words or bytes; built-in integers of 1 to 16 bytes."
  },
  {
   "property": "C79",
   "status": "partial",
   "theorems": [
    "C79_unique_refuted",
    "C79_elements",
    "C79_init",
    "C79_erased",
    "C79_debug"
   ],
   "note": "false in builds with NDEBUG: unique() stays false for every erased element (C79_erased), because its parent is only cleared for debugging; C79_debug has the assignment and is right. The rest is proved in full."
  }
 ]
}