{
 "claims": [
  {
   "property": "C01",
   "status": "proved",
   "theorems": [
    "C01_intersect_segments_points",
    "C01_intersect_segments_shape"
   ],
   "note": "exact arithmetic"
  },
  {
   "property": "C02",
   "status": "proved",
   "theorems": [
    "C02_unite_segments"
   ],
   "note": ""
  },
  {
   "property": "C03",
   "status": "proved",
   "theorems": [
    "C03_subtract_segments",
    "C03_difference_determined"
   ],
   "note": ""
  },
  {
   "property": "C04",
   "status": "proved",
   "theorems": [
    "C04_symmetric_subtract_segments",
    "C04_symmetric_difference_determined"
   ],
   "note": ""
  },
  {
   "property": "C05",
   "status": "proved",
   "theorems": [
    "C05_order_independent"
   ],
   "note": ""
  },
  {
   "property": "C06",
   "status": "proved",
   "theorems": [
    "C06_intersect_segment_with_multisegment"
   ],
   "note": ""
  },
  {
   "property": "C07",
   "status": "proved",
   "theorems": [
    "C07_subtract_segment_from_multisegment"
   ],
   "note": ""
  },
  {
   "property": "C08",
   "status": "proved",
   "theorems": [
    "C08_unite_segment_with_multisegment"
   ],
   "note": ""
  },
  {
   "property": "C09",
   "status": "proved",
   "theorems": [
    "C09_unite_multisegments"
   ],
   "note": "exact arithmetic; operands may have crossing segments of their own"
  },
  {
   "property": "C10",
   "status": "proved",
   "theorems": [
    "C10_symmetric_subtract_multisegments",
    "C10_symmetric_subtract_multisegment_from_segment"
   ],
   "note": ""
  },
  {
   "property": "C11",
   "status": "partial",
   "theorems": [
    "C11_intersect_multisegments_refuted",
    "C11_intersect_multisegments_partial",
    "C11_intersect_multisegments_sound_partial",
    "C11_intersect_multisegments_solid_partial"
   ],
   "note": "false as stated: the coupling filter (C21) drops segments passing the box of the other operand through its corners; refuted with a witness. Proved: exactness when no overlapping segment is of that kind, soundness always, and an exact description of the result for boxes with interior"
  },
  {
   "property": "C12",
   "status": "partial",
   "theorems": [
    "C12_subtract_multisegments_refuted",
    "C12_subtract_multisegment_from_segment_refuted",
    "C12_subtract_multisegments_partial",
    "C12_subtract_multisegment_from_segment_partial"
   ],
   "note": "false as stated for the same reason as C11; everything but the absence of common sub-segments is proved unconditionally, that one for subtrahend segments not passing the box of the minuend through its corners"
  },
  {
   "property": "C13",
   "status": "proved",
   "theorems": [
    "C13_complete_intersect_multisegments",
    "C13_complete_intersect_segment_with_multisegment"
   ],
   "note": ""
  },
  {
   "property": "C14",
   "status": "partial",
   "theorems": [
    "C14_segments_to_multisegment_refuted",
    "C14_segments_to_multisegment_partial",
    "C14_segments_to_multisegment_sound_partial"
   ],
   "note": "false as stated: overlapping input segments may lose points for some shapes of the balanced tree (witness with the lower median as the root of every subtree). Proved for segments crossing arbitrarily without overlaps. For any segments and any shape of the tree: no exception is raised and every point of the result lies on one of the segments; what is missing is the converse, which is false"
  },
  {
   "property": "C15",
   "status": "partial",
   "theorems": [
    "C15_segments_to_multisegment_refuted",
    "C15_segments_to_multisegment_partial"
   ],
   "note": "false as stated: overlapping input segments may stay overlapping in the result for some shapes of the balanced tree. Proved for segments crossing arbitrarily without overlaps. What holds for overlapping segments is C49"
  },
  {
   "property": "C16",
   "status": "proved",
   "theorems": [
    "C16_linear_operations_total",
    "C16_segment_operations_total"
   ],
   "note": "termination is bounded by an explicit number of iterations; the result does not depend on the containers"
  },
  {
   "property": "C17",
   "status": "proved",
   "theorems": [
    "C17_linear_operations_arranged"
   ],
   "note": ""
  },
  {
   "property": "C18",
   "status": "proved",
   "theorems": [
    "C18_mix_canonical",
    "C18_linear_mix_canonical",
    "C18_segments_canonical",
    "C18_points_canonical",
    "C18_polygons_canonical",
    "C18_regions_canonical",
    "C18_canonical_unique"
   ],
   "note": ""
  },
  {
   "property": "C19",
   "status": "proved",
   "theorems": [
    "C19_intersects_with",
    "C19_disjoint_with",
    "C19_is_subset_of",
    "C19_within_of",
    "C19_touches_with",
    "C19_edges_overlap_with",
    "C19_coupled_with",
    "C19_coupled_with_flat"
   ],
   "note": "touches/edges_overlap/coupled equivalences for boxes with interior; for flat boxes the direction that matters for filtering"
  },
  {
   "property": "C20",
   "status": "proved",
   "theorems": [
    "C20_intersects_with_segment",
    "C20_filter"
   ],
   "note": ""
  },
  {
   "property": "C21",
   "status": "partial",
   "theorems": [
    "C21_coupled_with_segment_refuted",
    "C21_coupled_with_segment_partial",
    "C21_coupled_with_segment_exact_partial"
   ],
   "note": "false as stated (refuted with a witness); holds exactly for box-friendly segments"
  },
  {
   "property": "C22",
   "status": "proved",
   "theorems": [
    "C22_edges",
    "C22_rotation",
    "C22_reversal",
    "C22_direction"
   ],
   "note": "Edges of model contour_oriented_edges. Rotation needs distinct vertices; reversal and direction need a proper turn at the least vertex (otherwise the code takes the contour for a clockwise one)."
  },
  {
   "property": "C23",
   "status": "proved",
   "theorems": [
    "C23_drops_straight",
    "C23_complete",
    "C23_applies",
    "C23_complete_refuted"
   ],
   "note": "For lists which fold back completeness is refuted (C23_complete_refuted); contours with non-overlapping edges do not fold back (C23_applies)."
  },
  {
   "property": "C24",
   "status": "proved",
   "theorems": [
    "C24_connectivity",
    "C24_next_event"
   ],
   "note": "Model of events_to_connectivity and _to_next_event_id."
  },
  {
   "property": "C25",
   "status": "proved",
   "theorems": [
    "C25_each_edge_once",
    "C25_regions"
   ],
   "note": "Holeless tracing (events_to_regions) for paired, grouped by start, non-overlapping events."
  },
  {
   "property": "C26",
   "status": "proved",
   "theorems": [
    "C26_linear_pieces",
    "C26_mixed_pieces",
    "C26_holeless_pieces",
    "C26_holey_pieces"
   ],
   "note": "linear.py, mixed.py, holeless.py and holey.py sweeps; mixed and holeless ones for any operands without overlapping segments of their own, holey ones for valid polygons"
  },
  {
   "property": "C27",
   "status": "proved",
   "theorems": [
    "C27_sweep_line_order",
    "C27_mixed_order",
    "C27_holeless_order",
    "C27_holey_order"
   ],
   "note": "linear.py, mixed.py, holeless.py and holey.py sweeps, every state found at the beginning of their loops"
  },
  {
   "property": "C28",
   "status": "proved",
   "theorems": [
    "C28_intersect_multisegment_with_multipolygon",
    "C28_intersect_segment_with_multipolygon",
    "C28_intersect_multisegment_with_polygon",
    "C28_intersect_segment_with_polygon"
   ],
   "note": "All four combinations of segment/multisegment and polygon/multipolygon; polygons may have holes; functions of package orient are quantified over under the assumption right_locators (met by reference_locators), queue tie-breaks and tree shapes are arbitrary; exact arithmetic."
  },
  {
   "property": "C29",
   "status": "proved",
   "theorems": [
    "C29_subtract_multipolygon_from_multisegment",
    "C29_subtract_multipolygon_from_segment",
    "C29_subtract_polygon_from_multisegment",
    "C29_subtract_polygon_from_segment",
    "C29_no_pieces_on_boundary_refuted"
   ],
   "note": "All four functions, locators of orient assumed right (witness: reference_locators). The statement as given is proved together with a bound of what is left along boundaries (along_outer). The stronger claim, that no piece of the result runs along the boundary of the shaped operand, is refuted: polygons a hole of which contains the box of the linear operand are dropped, so segments along this hole stay, whereas the sweep drops segments along boundaries."
  },
  {
   "property": "C30",
   "status": "proved",
   "theorems": [
    "C30_unite_multisegment_with_multipolygon",
    "C30_unite_segment_with_multipolygon",
    "C30_unite_multisegment_with_polygon",
    "C30_unite_segment_with_polygon"
   ],
   "note": "All four combinations of segment/multisegment and polygon/multipolygon; polygons may have holes; functions of package orient are quantified over under the assumption right_locators (met by reference_locators), queue tie-breaks and tree shapes are arbitrary; exact arithmetic. Unions and symmetric differences are the same code."
  },
  {
   "property": "C31",
   "status": "proved",
   "theorems": [
    "C31_complete_intersect_multisegment_with_multipolygon",
    "C31_complete_intersect_segment_with_multipolygon",
    "C31_complete_intersect_multisegment_with_polygon",
    "C31_complete_intersect_segment_with_polygon"
   ],
   "note": "All four combinations of segment/multisegment and polygon/multipolygon; polygons may have holes; functions of package orient are quantified over under the assumption right_locators (met by reference_locators), queue tie-breaks and tree shapes are arbitrary; exact arithmetic."
  },
  {
   "property": "C32",
   "status": "proved",
   "theorems": [
    "C32_edge_classification"
   ],
   "note": "All four operations of holey.py (the intersection of holeless.py uses the same test and sweep). The crossing point must not be an endpoint of a segment the operands are cut into; exact arithmetic, all queue tie-breaks and tree shapes."
  },
  {
   "property": "C33",
   "status": "proved",
   "theorems": [
    "C33_selected_boundary",
    "C33_traced_regions"
   ],
   "note": "All four operations of holey.py; for holeless.py also the regions traced from the selected edges. Stated for operands reaching the sweep."
  },
  {
   "property": "C34",
   "status": "proved",
   "theorems": [
    "C34_linear_separate",
    "C34_multisegment_multipolygon",
    "C34_multisegment_polygon",
    "C34_segment_multipolygon",
    "C34_segment_polygon",
    "C34_polygons",
    "C34_polygon_multipolygon",
    "C34_multipolygons",
    "C34_regions",
    "C34_region_multiregion",
    "C34_multiregions",
    "C34_segment_multisegment"
   ],
   "note": "All operations having such a branch: two multisegments and a segment with a multisegment, linear geometries with shapes, regions, polygons. Borders of united polygons are sorted by their first vertices as in the code."
  },
  {
   "property": "C35",
   "status": "proved",
   "theorems": [
    "C35_same_operand",
    "C35_other_operand"
   ],
   "note": ""
  },
  {
   "property": "C36",
   "status": "proved",
   "theorems": [
    "C36_intersects_with_polygon",
    "C36_intersects_with_region",
    "C36_within_of_region",
    "C36_coupled_with_polygon",
    "C36_coupled_with_region"
   ],
   "note": "Locators of orient assumed right (witness: reference_locators). Selections by coupled_* are proved to keep everything having inner points in the box; they may keep more."
  },
  {
   "property": "C37",
   "status": "proved",
   "theorems": [
    "C37_intersect_regions",
    "C37_intersect_region_with_multiregion",
    "C37_intersect_multiregions"
   ],
   "note": "End to end from the boxes to unpacking. Membership is stated in the even-odd sense over all returned contours; that the returned contours are not nested in one another is not stated."
  },
  {
   "property": "C38",
   "status": "proved",
   "theorems": [
    "C38_intersect_polygons",
    "C38_intersect_polygon_with_multipolygon",
    "C38_intersect_multipolygons",
    "C38_subtract_polygons",
    "C38_subtract_multipolygon_from_polygon",
    "C38_subtract_polygon_from_multipolygon",
    "C38_subtract_multipolygons",
    "C38_symmetric_subtract_polygons",
    "C38_symmetric_subtract_multipolygon_from_polygon",
    "C38_symmetric_subtract_multipolygons",
    "C38_unite_polygons",
    "C38_unite_polygon_with_multipolygon",
    "C38_unite_multipolygons"
   ],
   "note": "All 13 operations on polygons and multipolygons."
  },
  {
   "property": "C39",
   "status": "partial",
   "theorems": [
    "C39_subtract_polygons_points_refuted",
    "C39_subtract_polygons_points_partial",
    "C39_complete_intersect_polygons_points_partial",
    "C39_complete_intersect_polygon_with_multipolygon_points_partial",
    "C39_complete_intersect_multipolygons_points_partial",
    "C39_intersect_polygons_points_partial",
    "C39_intersect_polygon_with_multipolygon_points_partial",
    "C39_intersect_multipolygons_points_partial",
    "C39_subtract_polygons_all_partial",
    "C39_subtract_multipolygon_from_polygon_points_partial",
    "C39_subtract_polygon_from_multipolygon_points_partial",
    "C39_subtract_multipolygons_points_partial",
    "C39_symmetric_subtract_polygons_points_partial",
    "C39_symmetric_subtract_multipolygon_from_polygon_points_partial",
    "C39_symmetric_subtract_multipolygons_points_partial",
    "C39_unite_polygons_points_partial",
    "C39_unite_polygon_with_multipolygon_points_partial",
    "C39_unite_multipolygons_points_partial"
   ],
   "note": "False as stated: a witness where a hole is assigned to a wrong polygon. Proved for all 16 operations on polygons and multipolygons when the polygons returned are valid; C42 and C43 give conditions on operands under which they are."
  },
  {
   "property": "C40",
   "status": "proved",
   "theorems": [
    "C40_complete_intersect_regions",
    "C40_complete_intersect_region_with_multiregion",
    "C40_complete_intersect_multiregions",
    "C40_complete_intersect_polygons",
    "C40_complete_intersect_polygon_with_multipolygon",
    "C40_complete_intersect_multipolygons"
   ],
   "note": "Exact, for all orders of events with equal keys; polygons returned are described by the even-odd rule over their contours (see C39 on grouping of contours into polygons)."
  },
  {
   "property": "C41",
   "status": "proved",
   "theorems": [
    "C41_linear_kept",
    "C41_merge_kept",
    "C41_mixed_kept",
    "C41_holeless_kept",
    "C41_holey_kept",
    "C41_linear_ordered",
    "C41_merge_ordered",
    "C41_mixed_ordered",
    "C41_holeless_ordered",
    "C41_holey_ordered"
   ],
   "note": "sweeps of linear.py (operations and merging), mixed.py, holeless.py and holey.py; every state found at the beginning of their loops, and every division made on the way to the next one"
  },
  {
   "property": "C42",
   "status": "proved",
   "theorems": [
    "C42_intersect_polygons",
    "C42_intersect_polygon_with_multipolygon",
    "C42_intersect_multipolygons",
    "C42_subtract_polygons",
    "C42_subtract_multipolygon_from_polygon",
    "C42_subtract_polygon_from_multipolygon",
    "C42_subtract_multipolygons",
    "C42_unite_polygons",
    "C42_unite_polygon_with_multipolygon",
    "C42_unite_multipolygons"
   ],
   "note": "intersections, differences and unions of polygons and multipolygons"
  },
  {
   "property": "C43",
   "status": "proved",
   "theorems": [
    "C43_complete_intersect_polygons",
    "C43_complete_intersect_polygon_with_multipolygon",
    "C43_complete_intersect_multipolygons",
    "C43_intersect_polygons",
    "C43_intersect_polygon_with_multipolygon",
    "C43_intersect_multipolygons",
    "C43_subtract_polygons",
    "C43_subtract_multipolygon_from_polygon",
    "C43_subtract_polygon_from_multipolygon",
    "C43_subtract_multipolygons",
    "C43_symmetric_subtract_polygons",
    "C43_symmetric_subtract_multipolygon_from_polygon",
    "C43_symmetric_subtract_multipolygons",
    "C43_unite_polygons",
    "C43_unite_polygon_with_multipolygon",
    "C43_unite_multipolygons"
   ],
   "note": "all binary operations on polygons and multipolygons"
  },
  {
   "property": "C44",
   "status": "proved",
   "theorems": [
    "C44_border_left",
    "C44_hole_left",
    "C44_one_way",
    "C44_complete_intersect_polygons",
    "C44_complete_intersect_polygon_with_multipolygon",
    "C44_complete_intersect_multipolygons",
    "C44_intersect_polygons",
    "C44_intersect_polygon_with_multipolygon",
    "C44_intersect_multipolygons",
    "C44_subtract_polygons",
    "C44_subtract_multipolygon_from_polygon",
    "C44_subtract_polygon_from_multipolygon",
    "C44_subtract_multipolygons",
    "C44_symmetric_subtract_polygons",
    "C44_symmetric_subtract_multipolygon_from_polygon",
    "C44_symmetric_subtract_multipolygons",
    "C44_unite_polygons",
    "C44_unite_polygon_with_multipolygon",
    "C44_unite_multipolygons",
    "C44_complete_intersect_polygons_first",
    "C44_complete_intersect_polygon_with_multipolygon_first",
    "C44_complete_intersect_multipolygons_first",
    "C44_intersect_polygons_first",
    "C44_intersect_polygon_with_multipolygon_first",
    "C44_intersect_multipolygons_first",
    "C44_subtract_polygons_first",
    "C44_subtract_multipolygon_from_polygon_first",
    "C44_subtract_polygon_from_multipolygon_first",
    "C44_subtract_multipolygons_first",
    "C44_symmetric_subtract_polygons_first",
    "C44_symmetric_subtract_multipolygon_from_polygon_first",
    "C44_symmetric_subtract_multipolygons_first",
    "C44_unite_polygons_first",
    "C44_unite_polygon_with_multipolygon_first",
    "C44_unite_multipolygons_first"
   ],
   "note": "all binary operations on polygons and multipolygons; orientation (first vertices) of contours of operands is assumed where operands may be returned unchanged (C44_example_unchanged)"
  },
  {
   "property": "C45",
   "status": "proved",
   "theorems": [
    "C45_complete_intersect_polygons",
    "C45_complete_intersect_polygon_with_multipolygon",
    "C45_complete_intersect_multipolygons",
    "C45_intersect_polygons",
    "C45_intersect_polygon_with_multipolygon",
    "C45_intersect_multipolygons",
    "C45_subtract_polygons",
    "C45_subtract_multipolygon_from_polygon",
    "C45_subtract_polygon_from_multipolygon",
    "C45_subtract_multipolygons",
    "C45_symmetric_subtract_polygons",
    "C45_symmetric_subtract_multipolygon_from_polygon",
    "C45_symmetric_subtract_multipolygons",
    "C45_unite_polygons",
    "C45_unite_polygon_with_multipolygon",
    "C45_unite_multipolygons"
   ],
   "note": "All 16 operations on (multi)polygons. For all valid operands the region bounded by contours of the result is exactly the set of points reached from inside of the result (reached_result); for operands in a mild position (see C43) the polygons are valid and the same holds for their points (closed_result). Points of intersections which are not reached from inside (common boundary points) are returned by complete_intersect_* as segments and points, see C40."
  },
  {
   "property": "C46",
   "status": "proved",
   "theorems": [
    "C46_intersect_regions",
    "C46_intersect_region_with_multiregion",
    "C46_intersect_multiregions",
    "C46_complete_intersect_regions",
    "C46_complete_intersect_region_with_multiregion",
    "C46_complete_intersect_multiregions"
   ],
   "note": "All six intersections of (multi)regions in any position, no position of operands is excluded. Common points not reached from inside are returned by the complete_ variants as segments and points, see C40."
  },
  {
   "property": "C47",
   "status": "proved",
   "theorems": [
    "C47_canonical_unique",
    "C47_intersect_regions",
    "C47_intersect_region_with_multiregion",
    "C47_intersect_multiregions",
    "C47_complete_intersect_regions",
    "C47_complete_intersect_region_with_multiregion",
    "C47_complete_intersect_multiregions",
    "C47_same_common",
    "C47_complete_same_common",
    "C47_intersect_regions_swap",
    "C47_intersect_multiregions_swap",
    "C47_contained",
    "C47_associative"
   ],
   "note": "All six intersections of (multi)regions in any position. Laws are stated for intersect_multiregions (the other two non-complete functions are this one applied to single regions) as equality of returned values, for the complete_ variants as equality of their polygons; points and segments returned by the complete_ variants besides polygons are not compared (see C40). Associativity assumes that intermediate results have regions, since an empty multiregion is not a valid operand."
  },
  {
   "property": "C48",
   "status": "proved",
   "theorems": [
    "C48_unite_multisegments",
    "C48_symmetric_subtract_multisegments",
    "C48_symmetric_subtract_multisegment_from_segment",
    "C48_complete_intersect_multisegments",
    "C48_complete_intersect_segment_with_multisegment",
    "C48_unite_redrawn",
    "C48_symmetric_subtract_redrawn",
    "C48_complete_intersect_redrawn",
    "C48_intersect_reordered",
    "C48_unite_swap",
    "C48_symmetric_subtract_swap",
    "C48_intersect_swap",
    "C48_complete_intersect_swap",
    "C48_segments_to_multisegment",
    "C48_segments_to_multisegment_redrawn",
    "C48_segments_to_multisegment_again",
    "C48_segments_to_multisegment_union"
   ],
   "note": "Operands with separate boxes are merged by unite_ and symmetric_subtract_ without a sweep, see C34; swapping is proved for them too. For intersect_multisegments only swapping and reordering, since some common segments are missing in its results (C11), and for subtract_multisegments nothing here (C12). For segments_to_multisegment only segments without overlaps (C14, C15)."
  },
  {
   "property": "C49",
   "status": "proved",
   "theorems": [
    "C49_segments_to_multisegment"
   ],
   "note": "for every oracle of the queue and the tree; bound of the number of steps is a part of the proof. Completeness is out of its scope, see C14 and C15"
  },
  {
   "property": "C50",
   "status": "proved",
   "theorems": [
    "C50_unite_multisegments",
    "C50_symmetric_subtract_multisegments",
    "C50_subtract_multisegments",
    "C50_subtract_multisegment_from_segment",
    "C50_intersect_multisegments",
    "C50_complete_intersect_multisegments",
    "C50_intersect_multisegment_with_multipolygon",
    "C50_subtract_multipolygon_from_multisegment",
    "C50_unite_multisegment_with_multipolygon",
    "C50_symmetric_subtract_multipolygon_from_multisegment",
    "C50_complete_intersect_multisegment_with_multipolygon",
    "C50_intersect_segment_with_polygon",
    "C50_subtract_polygon_from_segment",
    "C50_unite_segment_with_polygon",
    "C50_symmetric_subtract_polygon_from_segment",
    "C50_complete_intersect_segment_with_polygon",
    "C50_intersect_segment_with_multipolygon",
    "C50_subtract_multipolygon_from_segment",
    "C50_unite_segment_with_multipolygon",
    "C50_symmetric_subtract_multipolygon_from_segment",
    "C50_complete_intersect_segment_with_multipolygon",
    "C50_intersect_multisegment_with_polygon",
    "C50_subtract_polygon_from_multisegment",
    "C50_unite_multisegment_with_polygon",
    "C50_symmetric_subtract_polygon_from_multisegment",
    "C50_complete_intersect_multisegment_with_polygon",
    "C50_symmetric_subtract_multisegment_from_segment",
    "C50_complete_intersect_segment_with_multisegment",
    "C50_sorted",
    "C50_difference_sorted"
   ],
   "note": "for all operations of segments and multisegments with each other, polygons and multipolygons which sweep; those done without a sweep (of two segments, and intersection, difference and union of a segment and a multisegment) are the subject of C01-C08. Conditional on a result being returned, see C51 for the rest. Shaped operations are not covered"
  },
  {
   "property": "C51",
   "status": "proved",
   "theorems": [
    "C51_multisegments",
    "C51_segment_and_multisegment",
    "C51_multisegment_and_multipolygon",
    "C51_segment_and_polygon",
    "C51_segment_and_multipolygon",
    "C51_multisegment_and_polygon"
   ],
   "note": "the outcome Unordered of the model is a queue with no least event, there the code takes what its heap has on the top and goes on; it is shown to require overlapping segments of the first operand. Shaped operations are not covered"
  }
 ]
}
