{"id": "C01", "title": "intersect_segments is exact", "statement": "For any two segments, the points of intersect_segments(first, second) are exactly the points lying on both segments; it is EMPTY when there are none, a Multipoint of one point when there is one, and a Segment otherwise.", "quantifier": "all pairs of non-degenerate segments with exact (rational) coordinates", "why_tests_cant": "coordinates range over an infinite field and the code branches on exact collinearity/coincidence, which random tests almost never hit", "anchors": ["clipping/planar.py:intersect_segments", "clipping/core/linear.py:intersect_segments", "clipping/core/linear.py:_intersect_segments_overlap"]}
{"id": "C02", "title": "unite_segments is exact", "statement": "For any two segments, the points of unite_segments(first, second) are exactly the points lying on at least one of them, and the segments of the result neither cross nor overlap.", "quantifier": "all pairs of non-degenerate segments", "why_tests_cant": "coordinates range over an infinite field and the code branches on exact collinearity/coincidence, which random tests almost never hit", "anchors": ["clipping/planar.py:unite_segments", "clipping/core/linear.py:unite_segments", "clipping/core/linear.py:_unite_segments_cross", "clipping/core/linear.py:_unite_segments_overlap", "clipping/core/linear.py:_unite_segments_touch"]}
{"id": "C03", "title": "subtract_segments is the closure of the set difference", "statement": "The result of subtract_segments(minuend, subtrahend) contains every point of the minuend that is not in the subtrahend, contains only points of the minuend, and shares no sub-segment with the subtrahend.", "quantifier": "all pairs of non-degenerate segments", "why_tests_cant": "coordinates range over an infinite field and the code branches on exact collinearity/coincidence, which random tests almost never hit", "anchors": ["clipping/planar.py:subtract_segments", "clipping/core/linear.py:subtract_segments", "clipping/core/linear.py:_subtract_segments_composite", "clipping/core/linear.py:_subtract_segments_overlap"]}
{"id": "C04", "title": "symmetric_subtract_segments is the closure of the symmetric difference", "statement": "The result of symmetric_subtract_segments(first, second) contains every point lying on exactly one of the operands, only points of the operands, and shares no sub-segment with the common part of the operands.", "quantifier": "all pairs of non-degenerate segments", "why_tests_cant": "coordinates range over an infinite field and the code branches on exact collinearity/coincidence, which random tests almost never hit", "anchors": ["clipping/planar.py:symmetric_subtract_segments", "clipping/core/linear.py:symmetric_subtract_segments", "clipping/core/linear.py:_symmetric_subtract_segments_overlap", "clipping/core/linear.py:_subtract_segments_composite"]}
{"id": "C05", "title": "Two-segment operations do not depend on endpoint order or operand order", "statement": "Reversing the endpoints of either operand does not change the point set of any of the four two-segment operations, and swapping operands does not change the point set of intersection, union and symmetric difference.", "quantifier": "all pairs of non-degenerate segments and all endpoint reversals", "why_tests_cant": "coordinates range over an infinite field and the code branches on exact collinearity/coincidence, which random tests almost never hit", "anchors": ["clipping/core/linear.py:intersect_segments", "clipping/core/linear.py:unite_segments", "clipping/core/linear.py:subtract_segments", "clipping/core/linear.py:symmetric_subtract_segments"]}
{"id": "C06", "title": "intersect_segment_with_multisegment returns exactly the common sub-segments", "statement": "For a segment and a valid multisegment, the result of intersect_segment_with_multisegment contains exactly the points lying on a sub-segment shared by the segment and a segment of the multisegment; isolated common points are dropped.", "quantifier": "all segments and all multisegments of any size", "why_tests_cant": "coordinates range over an infinite field and the code branches on exact collinearity/coincidence, which random tests almost never hit", "anchors": ["clipping/planar.py:intersect_segment_with_multisegment", "clipping/core/linear.py:_intersect_segment_with_multisegment"]}
{"id": "C07", "title": "subtract_segment_from_multisegment is the closure of the set difference", "statement": "For a valid multisegment, the result contains every point of the multisegment not on the segment, only points of the multisegment, and shares no sub-segment with the segment.", "quantifier": "all segments and all valid multisegments of any size", "why_tests_cant": "coordinates range over an infinite field and the code branches on exact collinearity/coincidence, which random tests almost never hit; the loop stops early on containment, so correctness depends on validity of the unvisited tail", "anchors": ["clipping/planar.py:subtract_segment_from_multisegment", "clipping/core/linear.py:_subtract_segment_from_multisegment"]}
{"id": "C08", "title": "unite_segment_with_multisegment is exact", "statement": "For a valid multisegment the points of the result are exactly the points on the segment or on the multisegment, and the segments of the result neither cross nor overlap.", "quantifier": "all segments and all valid multisegments of any size", "why_tests_cant": "coordinates range over an infinite field and the code branches on exact collinearity/coincidence, which random tests almost never hit", "anchors": ["clipping/planar.py:unite_segment_with_multisegment", "clipping/core/linear.py:unite_segment_with_multisegment"]}
{"id": "C09", "title": "unite_multisegments is exact", "statement": "For two operands none of which has overlapping segments of its own, the points of unite_multisegments(first, second) are exactly the points lying on at least one operand.", "quantifier": "all pairs of multisegments of any size, all tie-breaking orders of the priority queue and all shapes of the balanced tree", "why_tests_cant": "coordinates range over an infinite field and the code branches on exact collinearity/coincidence, which random tests almost never hit; a plane sweep with in-place splitting has unboundedly many event interleavings", "anchors": ["clipping/planar.py:unite_multisegments", "clipping/core/linear.py:Union.compute", "clipping/core/events_queue.py:LinearEventsQueue.detect_intersection", "clipping/core/sweep_line.py:BinarySweepLineKey"]}
{"id": "C10", "title": "symmetric_subtract_multisegments is the closure of the symmetric difference", "statement": "The result of symmetric_subtract_multisegments (and of symmetric_subtract_multisegment_from_segment) contains every point lying on exactly one operand, only points of the operands, and shares no sub-segment with the common part of the operands.", "quantifier": "all pairs of multisegments of any size, all queue tie-breaks and tree shapes", "why_tests_cant": "coordinates range over an infinite field and the code branches on exact collinearity/coincidence, which random tests almost never hit", "anchors": ["clipping/planar.py:symmetric_subtract_multisegments", "clipping/planar.py:symmetric_subtract_multisegment_from_segment", "clipping/core/linear.py:SymmetricDifference.compute"]}
{"id": "C11", "title": "intersect_multisegments returns exactly the common sub-segments", "statement": "The result of intersect_multisegments contains exactly the points lying on a sub-segment shared by both operands.", "quantifier": "all pairs of valid multisegments of any size, all queue tie-breaks and tree shapes", "why_tests_cant": "coordinates range over an infinite field and the code branches on exact collinearity/coincidence, which random tests almost never hit", "anchors": ["clipping/planar.py:intersect_multisegments", "clipping/core/linear.py:Intersection.compute", "clipping/core/linear.py:Intersection.sweep", "clipping/core/bounding.py:to_coupled_segments"]}
{"id": "C12", "title": "subtract_multisegments is the closure of the set difference", "statement": "The result of subtract_multisegments (and subtract_multisegment_from_segment) contains every point of the minuend not in the subtrahend, only points of the minuend, and shares no sub-segment with the subtrahend.", "quantifier": "all pairs of valid multisegments of any size, all queue tie-breaks and tree shapes", "why_tests_cant": "coordinates range over an infinite field and the code branches on exact collinearity/coincidence, which random tests almost never hit", "anchors": ["clipping/planar.py:subtract_multisegments", "clipping/planar.py:subtract_multisegment_from_segment", "clipping/core/linear.py:Difference.compute", "clipping/core/linear.py:Difference.sweep", "clipping/core/bounding.py:to_coupled_segments"]}
{"id": "C13", "title": "complete_intersect_multisegments is exact", "statement": "The points of complete_intersect_multisegments(first, second) (and of complete_intersect_segment_with_multisegment) are exactly the points lying on both operands: shared sub-segments in the linear part and all other common points in the discrete part.", "quantifier": "all pairs of valid multisegments of any size, all queue tie-breaks and tree shapes", "why_tests_cant": "coordinates range over an infinite field and the code branches on exact collinearity/coincidence, which random tests almost never hit", "anchors": ["clipping/planar.py:complete_intersect_multisegments", "clipping/planar.py:complete_intersect_segment_with_multisegment", "clipping/core/linear.py:CompleteIntersection"]}
{"id": "C14", "title": "segments_to_multisegment preserves the point set", "statement": "The points of segments_to_multisegment(segments) are exactly the points lying on at least one of the given segments.", "quantifier": "all sequences of segments of any length, crossing arbitrarily", "why_tests_cant": "coordinates range over an infinite field and the code branches on exact collinearity/coincidence, which random tests almost never hit", "anchors": ["clipping/planar.py:segments_to_multisegment", "clipping/core/linear.py:_merge_segments", "clipping/core/events_queue.py:NaryEventsQueue", "clipping/core/sweep_line.py:NarySweepLineKey"]}
{"id": "C15", "title": "segments_to_multisegment produces a valid multisegment", "statement": "No two segments of segments_to_multisegment(segments) cross or overlap, even when the given segments do.", "quantifier": "all sequences of segments of any length, crossing and overlapping arbitrarily, all tree shapes", "why_tests_cant": "coordinates range over an infinite field and the code branches on exact collinearity/coincidence, which random tests almost never hit", "anchors": ["clipping/planar.py:segments_to_multisegment", "clipping/core/linear.py:_merge_segments", "clipping/core/events_queue.py:NaryEventsQueue.detect_intersection", "clipping/core/sweep_line.py:NarySweepLine"]}
{"id": "C16", "title": "Linear sweeps terminate and raise nothing on valid operands", "statement": "unite/symmetric_subtract/intersect/subtract/complete_intersect_multisegments terminate and raise no exception when no operand has overlapping segments of its own.", "quantifier": "all pairs of such multisegments of any size, all queue tie-breaks and tree shapes", "why_tests_cant": "termination for every input cannot be observed by running finitely many inputs", "anchors": ["clipping/core/linear.py:Operation.sweep", "clipping/core/linear.py:Operation.process_event", "clipping/core/events_queue.py:LinearEventsQueue.detect_intersection"]}
{"id": "C17", "title": "Results of linear sweeps are canonical", "statement": "Segments returned by the sweep-based multisegment operations are non-degenerate, go from the lexicographically smaller to the greater endpoint, are sorted, contain no duplicates, and meet only in common endpoints, and the geometry is in its simplest form; except for operands with disjoint bounding boxes (union and symmetric difference) and for a minuend returned unchanged.", "quantifier": "all pairs of valid multisegments of any size, all queue tie-breaks and tree shapes", "why_tests_cant": "coordinates range over an infinite field and the code branches on exact collinearity/coincidence, which random tests almost never hit", "anchors": ["clipping/core/linear.py:Union.compute", "clipping/core/linear.py:Intersection.compute", "clipping/core/linear.py:Difference.compute", "clipping/core/linear.py:SymmetricDifference.compute"]}
{"id": "C18", "title": "Results collapse to the simplest geometry", "statement": "An operation result is EMPTY iff it has no component, a lone segment/polygon is returned bare, Multisegment/Multipolygon results built by unpacking have at least two elements, and a Mix has at least two non-empty components, with the components in the discrete/linear/shaped slots.", "quantifier": "all component lists of any length", "why_tests_cant": "must hold for every combination of component counts", "anchors": ["clipping/core/unpacking.py:unpack_linear_mix", "clipping/core/unpacking.py:unpack_mix", "clipping/core/unpacking.py:unpack_points", "clipping/core/unpacking.py:unpack_segments", "clipping/core/unpacking.py:unpack_polygons", "clipping/core/unpacking.py:unpack_regions"]}
{"id": "C19", "title": "Bounding box predicates mean what their names say", "statement": "disjoint_with holds iff the boxes share no point (and is the negation of intersects_with), is_subset_of iff every point of one box is in the other, within_of iff every point of it is in the interior, touches_with/coupled_with iff the common points are / are not confined as documented.", "quantifier": "all pairs of boxes", "why_tests_cant": "coordinates range over an infinite field and the code branches on exact collinearity/coincidence, which random tests almost never hit", "anchors": ["clipping/core/bounding.py:disjoint_with", "clipping/core/bounding.py:intersects_with", "clipping/core/bounding.py:is_subset_of", "clipping/core/bounding.py:within_of", "clipping/core/bounding.py:touches_with", "clipping/core/bounding.py:edges_overlap_with", "clipping/core/bounding.py:coupled_with"]}
{"id": "C20", "title": "Pre-filtering for complete intersection never loses points", "statement": "to_intersecting_segments keeps exactly the segments having a common point with the box, in their original order, so complete intersections lose no common point by filtering.", "quantifier": "all boxes and all segment lists", "why_tests_cant": "coordinates range over an infinite field and the code branches on exact collinearity/coincidence, which random tests almost never hit", "anchors": ["clipping/core/bounding.py:intersects_with_segment", "clipping/core/bounding.py:to_intersecting_segments", "clipping/core/bounding.py:split_intersecting_segments"]}
{"id": "C21", "title": "Pre-filtering for intersection and difference keeps every segment that meets the box in more than one point", "statement": "coupled_with_segment(box, segment) holds whenever the box and the segment have more than one point in common.", "quantifier": "all boxes and all segments", "why_tests_cant": "coordinates range over an infinite field and the code branches on exact collinearity/coincidence, which random tests almost never hit", "anchors": ["clipping/core/bounding.py:coupled_with_segment", "clipping/core/bounding.py:to_coupled_segments"]}
{"id": "C22", "title": "Contour edges are oriented independently of the input orientation", "statement": "The oriented edges used for a contour are all its edges, each exactly once, form a closed cycle, and the set of oriented edges is the same for a contour and for the contour with reversed or rotated vertices; borders are traversed counterclockwise and holes clockwise.", "quantifier": "all contours of any number of distinct vertices (reversal and direction: not straight at their least vertex)", "why_tests_cant": "must hold for every vertex count, rotation and orientation", "anchors": ["clipping/core/utils.py:contour_to_oriented_edges_endpoints", "clipping/core/utils.py:to_contour_orientation", "clipping/core/utils.py:polygon_to_oriented_edges_endpoints"]}
{"id": "C23", "title": "Shrinking collinear vertices is lossless and complete", "statement": "Removing collinear vertices never fails and drops vertices one by one, each collinear with its current neighbours; if the contour never turns back along its own edge (in particular if its edges do not overlap) the resulting contour has the same points, at least three vertices, and no vertex collinear with its neighbours.", "quantifier": "all vertex lists of any length; completeness for all those not folding back (it is refuted for the others)", "why_tests_cant": "index arithmetic with in-place deletion must be right for every list length and every pattern of collinear runs", "anchors": ["clipping/core/utils.py:shrink_collinear_vertices"]}
{"id": "C24", "title": "Contour tracing visits each endpoint group as one cycle", "statement": "The connectivity used to trace result contours is a permutation of the result events whose cycles are exactly the groups of events with the same start point, so looking for the next unprocessed event at an endpoint always terminates and finds one iff there is one.", "quantifier": "all event lists of any length", "why_tests_cant": "cyclic index arithmetic must be right for every group size and composition", "anchors": ["clipping/core/event.py:events_to_connectivity", "clipping/core/holeless.py:_to_next_event_id", "clipping/core/holey.py:_to_next_event_id"]}
{"id": "C25", "title": "Tracing of result regions consumes every boundary edge exactly once", "statement": "Tracing of selected boundary edges into contours terminates without exceptions, every edge ends up in exactly one contour and exactly once; if every point is an endpoint of an even number of them, all contours are closed walks, and the returned regions have exactly the points of the edges.", "quantifier": "all selected edge sets of any size without overlaps", "why_tests_cant": "must hold for every configuration of touching contours", "anchors": ["clipping/core/holeless.py:Operation.events_to_regions"]}
{"id": "C26", "title": "Sweep subdivides operands losslessly", "statement": "In every sweep-based operation (linear, mixed, holeless, holey) the segments the operands are cut into cover exactly the points of the operands' segments/edges, each piece lies in one source segment and keeps its operand and orientation, and afterwards two pieces share no point but common endpoints unless they are the same segment coming from different operands (an intersection or difference stops early: this is then said of the pieces whose right endpoints are not beyond the abscissa it stops after, against all the pieces); the events returned by a sweep are those in reach, each of them once.", "quantifier": "all operands of any size, all queue tie-breaks and tree shapes", "why_tests_cant": "coordinates range over an infinite field and the code branches on exact collinearity/coincidence, which random tests almost never hit", "anchors": ["clipping/core/events_queue.py:ShapedEventsQueue.detect_intersection", "clipping/core/events_queue.py:MixedEventsQueue.detect_intersection", "clipping/core/events_queue.py:LinearEventsQueue.detect_intersection", "clipping/core/event.py:LeftHoleyEvent.divide"]}
{"id": "C27", "title": "The sweep line order is consistent", "statement": "At every moment of a sweep over valid operands the segments on the sweep line are strictly ordered by the comparison used by the tree, so that lookups, neighbours and removals do not depend on the shape of the tree.", "quantifier": "all reachable sweep states", "why_tests_cant": "key comparisons change while segments are being cut in place; only an invariant over all reachable states excludes corruption", "anchors": ["clipping/core/sweep_line.py:BinarySweepLineKey.__lt__", "clipping/core/sweep_line.py:BinarySweepLine"]}
{"id": "C28", "title": "Intersection of linear geometry with a polygon is exact", "statement": "The result of intersect_segment_with_polygon / intersect_multisegment_with_polygon (and multipolygon variants) contains exactly the points of the linear operand's sub-segments lying in the (closed) shaped operand.", "quantifier": "all valid linear and shaped operands of any size", "why_tests_cant": "coordinates range over an infinite field and the code branches on exact collinearity/coincidence, which random tests almost never hit", "anchors": ["clipping/core/mixed.py:Intersection", "clipping/planar.py:intersect_segment_with_polygon", "clipping/planar.py:intersect_multisegment_with_multipolygon"]}
{"id": "C29", "title": "Difference of linear geometry with a polygon is exact", "statement": "The result of subtract_polygon_from_segment / subtract_polygon_from_multisegment (and multipolygon variants) contains every point of the linear operand outside of the shaped one, only points of the linear operand, and no point in the interior of the shaped operand.", "quantifier": "all valid linear and shaped operands of any size", "why_tests_cant": "coordinates range over an infinite field and the code branches on exact collinearity/coincidence, which random tests almost never hit", "anchors": ["clipping/core/mixed.py:Difference", "clipping/planar.py:subtract_polygon_from_segment", "clipping/planar.py:subtract_multipolygon_from_multisegment"]}
{"id": "C30", "title": "Union and symmetric difference of linear geometry with a polygon", "statement": "unite_*_with_polygon / symmetric_subtract_polygon_from_* return the shaped operand unchanged together with exactly the part of the linear operand outside of it; the shaped operand alone is returned iff nothing of the linear operand sticks out.", "quantifier": "all valid linear and shaped operands of any size", "why_tests_cant": "coordinates range over an infinite field and the code branches on exact collinearity/coincidence, which random tests almost never hit", "anchors": ["clipping/core/mixed.py:Union", "clipping/planar.py:unite_segment_with_polygon", "clipping/planar.py:symmetric_subtract_polygon_from_segment"]}
{"id": "C31", "title": "Complete intersection of linear geometry with a polygon is exact", "statement": "complete_intersect_*_with_polygon returns exactly the common points: sub-segments of the linear operand in the closed shaped operand, and as points the common points not covered by them.", "quantifier": "all valid linear and shaped operands of any size", "why_tests_cant": "coordinates range over an infinite field and the code branches on exact collinearity/coincidence, which random tests almost never hit", "anchors": ["clipping/core/mixed.py:CompleteIntersection", "clipping/planar.py:complete_intersect_segment_with_polygon"]}
{"id": "C32", "title": "Edge classification of shaped operations", "statement": "In every shaped operation (intersection, union, difference, symmetric difference) a piece of an operand's boundary is selected for the result boundary iff the result's membership (the boolean combination of the operands' memberships) differs between its two sides, and coincident pieces of both operands are selected at most once.", "quantifier": "all combinations of orientation, containment and overlap flags", "why_tests_cant": "must hold for each operation and every flag combination at once", "anchors": ["clipping/core/holey.py:Union.from_shaped_result", "clipping/core/holey.py:Difference.from_shaped_result", "clipping/core/holey.py:Intersection.from_shaped_result", "clipping/core/holey.py:SymmetricDifference.from_shaped_result", "clipping/core/holeless.py:Intersection.from_shaped_result"]}
{"id": "C33", "title": "Selected boundary of shaped operations bounds the right region", "statement": "A point off the operands' boundaries is inside (by the even-odd rule) of the selected result edges iff the boolean operation holds of its memberships in the operands.", "quantifier": "all valid shaped operands of any size and all points off the boundaries", "why_tests_cant": "coordinates range over an infinite field and the code branches on exact collinearity/coincidence, which random tests almost never hit", "anchors": ["clipping/core/holey.py:Operation.compute_fields", "clipping/core/holeless.py:Operation.compute_fields", "clipping/core/holey.py:Operation.sweep"]}
{"id": "C34", "title": "Operands with disjoint bounding boxes are combined without sweeping", "statement": "When bounding boxes are disjoint, intersections return EMPTY, differences return the minuend unchanged, unions and symmetric differences return all elements of both operands and nothing else, sorted; in each case this is what the set operation yields.", "quantifier": "all operands with disjoint bounding boxes", "why_tests_cant": "must agree with the general path for every pair of disjoint boxes", "anchors": ["clipping/core/linear.py:Union.compute", "clipping/core/linear.py:Difference.compute", "clipping/core/linear.py:SymmetricDifference.compute", "clipping/core/holey.py:Union.compute", "clipping/core/holey.py:Difference.compute", "clipping/core/holey.py:Intersection.compute", "clipping/core/mixed.py:Union.compute", "clipping/core/mixed.py:Difference.compute"]}
{"id": "C35", "title": "Overlapping segments of one operand are rejected, never mis-clipped silently by detection", "statement": "When the sweep compares two overlapping segments of the same operand it raises ValueError, and it never raises for segments of one operand that do not overlap.", "quantifier": "all pairs of segments of the same operand", "why_tests_cant": "coordinates range over an infinite field and the code branches on exact collinearity/coincidence, which random tests almost never hit", "anchors": ["clipping/core/events_queue.py:LinearEventsQueue.detect_intersection", "clipping/core/events_queue.py:MixedEventsQueue.detect_intersection", "clipping/core/events_queue.py:ShapedEventsQueue.detect_intersection"]}
{"id": "C36", "title": "Selection of polygons and regions by a bounding box loses nothing", "statement": "intersects_with_polygon / intersects_with_region hold exactly for boxes having a common point with the (closed) polygon or region, within_of_region exactly for boxes all points of which are inner ones; coupled_with_polygon / coupled_with_region hold whenever an inner point of the polygon or region belongs to the box, so to_intersecting_* and to_coupled_* never drop a shape which the operation depends on.", "quantifier": "all well-formed boxes (for coupled_* with at least two points), all valid polygons and simple contours of any size", "why_tests_cant": "coordinates range over an infinite field and the code branches on exact collinearity/coincidence, which random tests almost never hit", "anchors": ["clipping/core/bounding.py:intersects_with_polygon", "clipping/core/bounding.py:intersects_with_region", "clipping/core/bounding.py:within_of_region", "clipping/core/bounding.py:coupled_with_polygon", "clipping/core/bounding.py:coupled_with_region"]}
{"id": "C37", "title": "Intersections of regions are exact", "statement": "intersect_regions, intersect_region_with_multiregion and intersect_multiregions return, for any tie-breaking of the priority queue and any shape of the tree, the same canonical geometry consisting of polygons without holes only: their edges lie along edges of the operands, off the edges of the operands a point is enclosed by the returned contours (even-odd) iff it belongs to both operands, and no returned contour has a redundant vertex or folds back.", "quantifier": "all simple contours and valid non-empty multiregions of any size, all rational coordinates, all correct point/segment locators", "why_tests_cant": "coordinates range over an infinite field and the code branches on exact collinearity/coincidence; the result is a statement about all points of the plane", "anchors": ["clipping/core/holeless.py:Intersection", "clipping/planar.py:intersect_regions", "clipping/planar.py:intersect_region_with_multiregion", "clipping/planar.py:intersect_multiregions"]}
{"id": "C38", "title": "Operations on polygons return contours which bound the result", "statement": "intersect_*, subtract_*, symmetric_subtract_* and unite_* for polygons and multipolygons return, for any tie-breaking of the priority queue and any shape of the tree, the same canonical geometry consisting of polygons only: all of their contours are simple, edges of the contours do not overlap each other and lie along edges of the operands, and off the edges of the operands a point is enclosed by an odd number of the contours iff it belongs to the result of the set operation on the operands. No contour has a redundant vertex unless operands are returned unchanged.", "quantifier": "all valid polygons and valid non-empty multipolygons (at least two polygons for the minuend multipolygon) of any size, all rational coordinates, all correct point/segment locators", "why_tests_cant": "coordinates range over an infinite field and the code branches on exact collinearity/coincidence; the result is a statement about all points of the plane", "anchors": ["clipping/core/holey.py:Operation.events_to_polygons", "clipping/core/holey.py:Intersection", "clipping/core/holey.py:Difference", "clipping/core/holey.py:SymmetricDifference", "clipping/core/holey.py:Union", "clipping/planar.py:intersect_polygons", "clipping/planar.py:subtract_polygons", "clipping/planar.py:symmetric_subtract_polygons", "clipping/planar.py:unite_polygons"]}
{"id": "C39", "title": "Points of polygons returned are the points of the result", "statement": "A point off the edges of the operands belongs to one of the polygons returned by an operation on polygons iff it belongs to the result of the set operation on the operands, i.e. each contour is returned as a border or as a hole of the polygon it lies in.", "quantifier": "all valid polygons and multipolygons of any size, all rational coordinates", "why_tests_cant": "coordinates range over an infinite field and the code branches on exact collinearity/coincidence; the result is a statement about all points of the plane", "anchors": ["clipping/core/holey.py:_compute_relations", "clipping/core/holey.py:Operation.compute_event_fields", "clipping/core/holey.py:Operation.events_to_polygons"]}
{"id": "C40", "title": "Complete intersections of regions and of polygons are exact", "statement": "complete_intersect_regions, complete_intersect_region_with_multiregion, complete_intersect_multiregions, complete_intersect_polygons, complete_intersect_polygon_with_multipolygon and complete_intersect_multipolygons return, for any tie-breaking of the priority queue and any shape of the tree, the same canonical geometry. A point belongs to both operands iff it is one of the returned points, lies on one of the returned segments or is on or inside (even-odd) the returned contours. The returned segments are proper, neither overlap nor cross each other, lie on both boundaries and have no inner points in the returned polygons. The returned points are distinct, lie on both boundaries, and are neither on the segments nor in the polygons.", "quantifier": "all simple contours, valid non-empty multiregions, valid polygons and valid non-empty multipolygons of any size, all rational coordinates, all correct point/segment locators", "why_tests_cant": "coordinates range over an infinite field and the code branches on exact collinearity/coincidence; the result is a statement about all points of the plane", "anchors": ["clipping/core/holeless.py:CompleteIntersection", "clipping/core/holey.py:CompleteIntersection", "clipping/core/event.py:wholly_in_complete_intersection", "clipping/planar.py:complete_intersect_regions", "clipping/planar.py:complete_intersect_region_with_multiregion", "clipping/planar.py:complete_intersect_multiregions", "clipping/planar.py:complete_intersect_polygons", "clipping/planar.py:complete_intersect_polygon_with_multipolygon", "clipping/planar.py:complete_intersect_multipolygons"]}
{"id": "C41", "title": "Events waiting in a queue do not change their order", "statement": "At every moment of a sweep keys of events in the queue are compared consistently: for valid operands they are in a strict total order, and when arbitrary segments are merged, where events can have equal keys, in a strict weak order. Processing of an event, which divides segments whose events may be in the queue, changes the result of no comparison of two events queued by then, so the heap built by earlier comparisons stays a heap and the least event is the one popped.", "quantifier": "all reachable sweep states of all kinds of sweeps over proper segments, overlapping ones included for the order being kept", "why_tests_cant": "keys are compared by endpoints which are changed in place by divisions while they are in the heap; only an invariant over all reachable states excludes corruption", "anchors": ["clipping/core/events_queue.py:BinaryEventsQueueKey.__lt__", "clipping/core/events_queue.py:NaryEventsQueueKey.__lt__", "clipping/core/events_queue.py:LinearEventsQueue.detect_intersection", "clipping/core/event.py:LeftBinaryEvent.divide"]}
{"id": "C42", "title": "Polygons returned for operands in a general position are valid and exact", "statement": "If contours of each operand have no common points, and vertices of one operand do not lie on edges of the other, then intersect_polygons, intersect_polygon_with_multipolygon, intersect_multipolygons, subtract_polygons, subtract_multipolygon_from_polygon, subtract_polygon_from_multipolygon, subtract_multipolygons, unite_polygons, unite_polygon_with_multipolygon and unite_multipolygons return valid polygons: holes lie in borders of their polygons and apart from each other, polygons do not overlap. Moreover no two contours of the result have a common point. A point off edges of operands is in one of the returned polygons iff it is in the intersection, difference or union of operands.", "quantifier": "all valid polygons and valid non-empty multipolygons of any size in a general position (minuends being multipolygons have at least two polygons), all rational coordinates, all correct point/segment locators, all tie-breakings of the priority queue and shapes of the tree", "why_tests_cant": "the nesting of contours is decided by links left by the sweep for any arrangement of contours; the result is a statement about all points of the plane for infinitely many operands", "anchors": ["clipping/core/holey.py:Operation.events_to_polygons", "clipping/core/holey.py:_compute_relations", "clipping/core/holey.py:Operation.process_event", "clipping/core/event.py:LeftHoleyEvent", "clipping/planar.py:intersect_polygons", "clipping/planar.py:intersect_polygon_with_multipolygon", "clipping/planar.py:intersect_multipolygons", "clipping/planar.py:subtract_polygons", "clipping/planar.py:subtract_multipolygon_from_polygon", "clipping/planar.py:subtract_polygon_from_multipolygon", "clipping/planar.py:subtract_multipolygons", "clipping/planar.py:unite_polygons", "clipping/planar.py:unite_polygon_with_multipolygon", "clipping/planar.py:unite_multipolygons"]}
{"id": "C43", "title": "Polygons returned for operands in a mild position are valid and exact", "statement": "Say that an edge begins in its lexicographically least endpoint and finishes in the other one. If, whenever an edge of a polygon of operands begins strictly inside of an edge of a polygon of operands, some edge of one of these two polygons finishes in this point or begins there without going above the latter edge, then complete_intersect_polygons, complete_intersect_polygon_with_multipolygon, complete_intersect_multipolygons, intersect_polygons, intersect_polygon_with_multipolygon, intersect_multipolygons, subtract_polygons, subtract_multipolygon_from_polygon, subtract_polygon_from_multipolygon, subtract_multipolygons, symmetric_subtract_polygons, symmetric_subtract_multipolygon_from_polygon, symmetric_subtract_multipolygons, unite_polygons, unite_polygon_with_multipolygon and unite_multipolygons return valid polygons: holes lie in borders of their polygons and do not overlap each other, polygons do not overlap. Operands may have parts of edges in common, contours may touch themselves and each other. A point off edges of operands is in one of the returned polygons iff it is in the intersection, difference, symmetric difference or union of operands.", "quantifier": "all valid polygons and valid non-empty multipolygons of any size in a mild position (minuends being multipolygons have at least two polygons), all rational coordinates, all correct point/segment locators, all tie-breakings of the priority queue and shapes of the tree", "why_tests_cant": "contours are cut out of one graph of edges with vertices of any degree and are nested by links left by the sweep; the result is a statement about all points of the plane for infinitely many operands", "anchors": ["clipping/core/holey.py:Operation.events_to_polygons", "clipping/core/holey.py:_compute_relations", "clipping/core/holey.py:Operation.process_event", "clipping/core/event.py:LeftHoleyEvent", "clipping/planar.py:complete_intersect_polygons", "clipping/planar.py:complete_intersect_polygon_with_multipolygon", "clipping/planar.py:complete_intersect_multipolygons", "clipping/planar.py:intersect_polygons", "clipping/planar.py:intersect_polygon_with_multipolygon", "clipping/planar.py:intersect_multipolygons", "clipping/planar.py:subtract_polygons", "clipping/planar.py:subtract_multipolygon_from_polygon", "clipping/planar.py:subtract_polygon_from_multipolygon", "clipping/planar.py:subtract_multipolygons", "clipping/planar.py:symmetric_subtract_polygons", "clipping/planar.py:symmetric_subtract_multipolygon_from_polygon", "clipping/planar.py:symmetric_subtract_multipolygons", "clipping/planar.py:unite_polygons", "clipping/planar.py:unite_polygon_with_multipolygon", "clipping/planar.py:unite_multipolygons"]}
{"id": "C44", "title": "Contours of returned polygons are oriented and start with their least vertices", "statement": "The polygons returned by complete_intersect_polygons, complete_intersect_polygon_with_multipolygon, complete_intersect_multipolygons, intersect_polygons, intersect_polygon_with_multipolygon, intersect_multipolygons, subtract_polygons, subtract_multipolygon_from_polygon, subtract_polygon_from_multipolygon, subtract_multipolygons, symmetric_subtract_polygons, symmetric_subtract_multipolygon_from_polygon, symmetric_subtract_multipolygons, unite_polygons, unite_polygon_with_multipolygon and unite_multipolygons have simple borders followed counterclockwise and simple holes followed clockwise, so that the polygon is on the left of each of its edges (a contour is never followed both ways), and the first vertex of each contour is the lexicographically least one. Intersections have this property whatever is the orientation of contours of operands; differences may be the minuend itself and unions and symmetric differences may consist of polygons of operands, so these have it when contours of the minuend or of both operands are oriented (start) this way.", "quantifier": "all valid polygons and valid non-empty multipolygons of any size in any position (minuends being multipolygons have at least two polygons), all rational coordinates, all correct point/segment locators, all tie-breakings of the priority queue and shapes of the tree", "why_tests_cant": "the direction of a contour follows from the order of events at its least vertex and from the depth found by links left by the sweep; it is claimed for infinitely many operands with vertices of any degree", "anchors": ["clipping/core/holey.py:Operation.events_to_polygons", "clipping/core/holey.py:_compute_relations", "clipping/core/holey.py:_contour_events_to_vertices", "clipping/core/utils.py:shrink_collinear_vertices", "clipping/planar.py:complete_intersect_polygons", "clipping/planar.py:complete_intersect_polygon_with_multipolygon", "clipping/planar.py:complete_intersect_multipolygons", "clipping/planar.py:intersect_polygons", "clipping/planar.py:intersect_polygon_with_multipolygon", "clipping/planar.py:intersect_multipolygons", "clipping/planar.py:subtract_polygons", "clipping/planar.py:subtract_multipolygon_from_polygon", "clipping/planar.py:subtract_polygon_from_multipolygon", "clipping/planar.py:subtract_multipolygons", "clipping/planar.py:symmetric_subtract_polygons", "clipping/planar.py:symmetric_subtract_multipolygon_from_polygon", "clipping/planar.py:symmetric_subtract_multipolygons", "clipping/planar.py:unite_polygons", "clipping/planar.py:unite_polygon_with_multipolygon", "clipping/planar.py:unite_multipolygons"]}
{"id": "C45", "title": "Points of returned polygons on edges of operands", "statement": "Polygons returned by the operations on (multi)polygons (complete_intersect_*, intersect_*, subtract_*, symmetric_subtract_* and unite_* of polygons and multipolygons) are closed: any point of the plane, those on edges and vertices of operands included, belongs to the region bounded by contours of the result (lies on a contour or is inside by the even-odd rule) exactly when it may be reached by a segment all further points of which are off edges of the operands and belong to the result of the set operation. E.g. points of a common edge belong to the union of polygons lying on both sides of it and do not belong to polygons of their intersection. For operands in a mild position the polygons returned are valid and the same holds for points of these polygons. So the set of points returned is completely determined by the sets of points of operands.", "quantifier": "all valid polygons and valid non-empty multipolygons of any size (minuends being multipolygons have at least two polygons), all points of the plane with rational coordinates, all rational coordinates, all correct point/segment locators, all tie-breakings of the priority queue and shapes of the tree", "why_tests_cant": "it is claimed for all points of infinitely many boundaries, points where any number of edges meet, touch or overlap included", "anchors": ["clipping/core/holey.py:Operation.events_to_polygons", "clipping/core/holey.py:Difference.from_shaped_result", "clipping/core/holey.py:Intersection.from_shaped_result", "clipping/core/holey.py:SymmetricDifference.from_shaped_result", "clipping/core/holey.py:Union.from_shaped_result", "clipping/planar.py:complete_intersect_polygons", "clipping/planar.py:complete_intersect_polygon_with_multipolygon", "clipping/planar.py:complete_intersect_multipolygons", "clipping/planar.py:intersect_polygons", "clipping/planar.py:intersect_polygon_with_multipolygon", "clipping/planar.py:intersect_multipolygons", "clipping/planar.py:subtract_polygons", "clipping/planar.py:subtract_multipolygon_from_polygon", "clipping/planar.py:subtract_polygon_from_multipolygon", "clipping/planar.py:subtract_multipolygons", "clipping/planar.py:symmetric_subtract_polygons", "clipping/planar.py:symmetric_subtract_multipolygon_from_polygon", "clipping/planar.py:symmetric_subtract_multipolygons", "clipping/planar.py:unite_polygons", "clipping/planar.py:unite_polygon_with_multipolygon", "clipping/planar.py:unite_multipolygons"]}
{"id": "C46", "title": "Intersections of regions return valid regions", "statement": "The polygons returned by intersect_regions, intersect_region_with_multiregion, intersect_multiregions and their complete_ variants have no holes and their borders form a valid multiregion: they are simple, have no inner points in common and share points of boundaries at separate points only (no parts of edges). Each border is followed counterclockwise from its lexicographically least vertex and lies in a single region of the first operand and a single region of the second, so regions of an operand having common vertices are never merged into one. A point of the plane, those on edges of operands included, belongs to the returned regions exactly when it may be reached by a segment all further points of which are off edges of operands and belong to both operands. So results may be operands of further operations.", "quantifier": "all simple contours and valid non-empty multiregions of any size in any position (shared vertices, touching and overlapping edges included), all points with rational coordinates, all correct point/segment locators, all tie-breakings of the priority queue and shapes of the tree", "why_tests_cant": "contours are traced through vertices where any number of edges meet by choosing the next event in an order; that none of the choices joins separate regions or splits one of them is claimed for infinitely many operands", "anchors": ["clipping/core/holeless.py:Operation.events_to_regions", "clipping/core/holeless.py:Intersection", "clipping/core/holeless.py:CompleteIntersection", "clipping/core/utils.py:shrink_collinear_vertices", "clipping/planar.py:intersect_regions", "clipping/planar.py:intersect_region_with_multiregion", "clipping/planar.py:intersect_multiregions", "clipping/planar.py:complete_intersect_regions", "clipping/planar.py:complete_intersect_region_with_multiregion", "clipping/planar.py:complete_intersect_multiregions"]}
{"id": "C47", "title": "Intersections of regions depend on the points of operands only", "statement": "The polygons returned by intersect_regions, intersect_region_with_multiregion, intersect_multiregions and their complete_ variants are in a canonical form: without holes, borders valid, counterclockwise, from least vertices, without vertices on straight lines with their neighbours, listed in the order of their first vertices and, for equal first vertices, of directions of first edges. There is exactly one sequence of polygons in this form covering the points reached from inside of the intersection, so the returned value is determined by the sets of points of operands: it depends neither on the order of operands, nor on the order, orientation, first vertices and additional straight vertices of their regions, nor on the external queue, tree and locators. Intersecting is commutative and, as long as intermediate results have regions, associative; canonical regions inside of the other operand are returned as they are (so intersecting a result with any of its operands or with itself returns it again). The complete_ variants return the same polygons.", "quantifier": "all simple contours and valid non-empty multiregions of any size in any position, all correct point/segment locators, all tie-breakings of the priority queue and shapes of the tree", "why_tests_cant": "equality of values returned for all representations of the same sets of points, over infinitely many of them; events are processed in a different order for swapped operands with overlapping edges", "anchors": ["clipping/core/holeless.py:Operation.events_to_regions", "clipping/core/holeless.py:Intersection", "clipping/core/holeless.py:CompleteIntersection", "clipping/core/utils.py:shrink_collinear_vertices", "clipping/planar.py:intersect_regions", "clipping/planar.py:intersect_region_with_multiregion", "clipping/planar.py:intersect_multiregions", "clipping/planar.py:complete_intersect_regions", "clipping/planar.py:complete_intersect_region_with_multiregion", "clipping/planar.py:complete_intersect_multiregions"]}
{"id": "C48", "title": "Multisegment operations cut segments exactly at their nodes; results do not depend on order and direction", "statement": "Nodes of operands are endpoints of their segments and points where two of the segments meet without overlapping; fragments are the parts of segments between neighbouring nodes, directed from the least endpoint. For multisegments with touching bounding boxes unite_multisegments returns exactly the fragments of both operands, symmetric_subtract_multisegments (and symmetric_subtract_multisegment_from_segment) exactly the fragments of one operand only, sorted and without repetitions. complete_intersect_multisegments (and complete_intersect_segment_with_multisegment) returns exactly the common fragments, sorted, and, sorted, the common points lying on no common sub-segment. segments_to_multisegment returns exactly the fragments of segments without overlaps: the same for reordered and reversed ones, the same again for its own results, and the same as unite_multisegments for two parts of such segments. Hence no segment is cut where nothing meets it and none is left uncut at a meeting point, whatever the queue and the tree do. The values returned by unite_, symmetric_subtract_, intersect_ and complete_intersect_multisegments are the same for swapped operands; for reordered segments of operands with touching boxes (any boxes for intersections); and, except for intersect_multisegments, where it is not claimed, for reversed ones.", "quantifier": "all multisegments (lists of segments for segments_to_multisegment) whose own segments do not overlap (crossing is allowed), of any size; all tie-breakings of the priority queue and shapes of the tree", "why_tests_cant": "equality with a set described by points, for infinitely many configurations with any number of segments through one point and any overlaps; swapped and reordered operands are processed in different orders with different divisions", "anchors": ["clipping/core/linear.py:Union", "clipping/core/linear.py:SymmetricDifference", "clipping/core/linear.py:Intersection", "clipping/core/linear.py:CompleteIntersection", "clipping/core/linear.py:Operation.sweep", "clipping/core/linear.py:_merge_segments", "clipping/planar.py:segments_to_multisegment", "clipping/core/events_queue.py:LinearEventsQueue.detect_intersection", "clipping/planar.py:unite_multisegments", "clipping/planar.py:symmetric_subtract_multisegments", "clipping/planar.py:symmetric_subtract_multisegment_from_segment", "clipping/planar.py:intersect_multisegments", "clipping/planar.py:complete_intersect_multisegments", "clipping/planar.py:complete_intersect_segment_with_multisegment"]}
{"id": "C49", "title": "Merging of any segments never fails and invents nothing", "statement": "segments_to_multisegment terminates and raises no exception for any non-degenerate segments, however they cross and overlap. The result is empty, a segment or a multisegment; its segments are sorted and directed from the least endpoint, each of them is a part of one of the given segments, and each of its endpoints is a node: an endpoint of a given segment or a point where two of them meet without overlapping. That the result covers the given segments (C14) and has no overlaps (C15) is not claimed here, both are false for some shapes of the tree.", "quantifier": "all sequences of non-degenerate segments of any length, crossing and overlapping arbitrarily; all tie-breakings of the priority queue and shapes of the tree", "why_tests_cant": "overlapping segments break the order of the sweep line, so termination and absence of exceptions cannot follow from it; tests sample few inputs and only the default tree", "anchors": ["clipping/planar.py:segments_to_multisegment", "clipping/core/linear.py:merge_segments", "clipping/core/linear.py:_merge_segments", "clipping/core/events_queue.py:NaryEventsQueue.detect_intersection", "clipping/core/events_queue.py:NaryEventsQueueKey"]}
{"id": "C50", "title": "Operations of segments invent nothing even for invalid operands", "statement": "Whenever an operation of multisegments, or of a multisegment and a multipolygon, or a swept operation of a single segment or polygon in place of these, returns a result, every segment of the result is a segment of an operand left as it is, or a part of one, directed from the least endpoint, whose both endpoints are nodes: endpoints of segments or edges of operands, or points where two of them meet without overlapping. Segments of intersections are parts of segments of both multisegments (of the multisegment, with polygons), segments of differences are parts of the minuend, segments of mixed unions and symmetric differences are parts of the multisegment, whose polygons are returned unchanged. Points of complete intersections are nodes lying on both operands. Operands need not be valid: segments may overlap, contours may cross themselves, holes may be anywhere. Segments of unions, symmetric differences and intersections of multisegments are sorted, and those of differences too unless the minuend is returned as it is.", "quantifier": "all multisegments and multipolygons without degenerate segments and edges, valid or not; all answers of the external tests of boxes against polygons, even wrong ones; all tie-breakings of the priority queue and shapes of the tree; results only, exceptions are the subject of C51", "why_tests_cant": "tests generate valid operands; for invalid ones the order of the sweep line is broken, so that nothing proved of it can be relied on", "anchors": ["clipping/core/linear.py:Difference.compute", "clipping/core/linear.py:Intersection.compute", "clipping/core/linear.py:CompleteIntersection.compute", "clipping/core/linear.py:SymmetricDifference.compute", "clipping/core/linear.py:Union.compute", "clipping/core/mixed.py:Difference.compute", "clipping/core/mixed.py:Intersection.compute", "clipping/core/mixed.py:CompleteIntersection.compute", "clipping/core/mixed.py:Union.compute", "clipping/core/events_queue.py:LinearEventsQueue.detect_intersection", "clipping/core/events_queue.py:MixedEventsQueue.detect_intersection"]}
{"id": "C51", "title": "Operations of segments end for invalid operands", "statement": "Every operation of multisegments, of a segment and a multisegment, and of a segment or a multisegment and a polygon or a multipolygon, except for those done without a sweep, ends within a number of iterations polynomial in the size of operands, and if it fails then with ValueError and no other exception, for any operands without degenerate segments and edges. If segments of the first operand (of the multisegment) overlap, comparison of events can cease to be an order; this is the only other outcome, and it is not modelled further.", "quantifier": "all multisegments and multipolygons without degenerate segments and edges, valid or not; all answers of the external tests of boxes against polygons; all tie-breakings of the priority queue and shapes of the tree", "why_tests_cant": "termination is a statement of all inputs; tests generate valid operands only", "anchors": ["clipping/core/linear.py:Difference.compute", "clipping/core/linear.py:Intersection.compute", "clipping/core/linear.py:CompleteIntersection.compute", "clipping/core/linear.py:SymmetricDifference.compute", "clipping/core/linear.py:Union.compute", "clipping/core/mixed.py:Difference.compute", "clipping/core/mixed.py:Intersection.compute", "clipping/core/mixed.py:CompleteIntersection.compute", "clipping/core/mixed.py:Union.compute", "clipping/core/events_queue.py:LinearEventsQueue.detect_intersection", "clipping/core/events_queue.py:MixedEventsQueue.detect_intersection", "clipping/core/events_queue.py:BinaryEventsQueueKey"]}
