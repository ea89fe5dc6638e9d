(** Model of /repo/clipping/core/mixed.py and of the functions of planar.py
    delegating to it. *)
From Verif Require Import QcTac Geom Spec Pair Bounding Sweep Linear Labelled Contour Filter.

(** event.py 180-184: LeftMixedEvent.outside *)
Definition mixed_outside (e : left_event) : bool := negb (l_other e) && negb (l_is_overlap e).
(** mixed.py 139-140, 282-283: from_result of Difference and Union *)
Definition mixed_out (e : left_event) : bool := l_first e && mixed_outside e.
(** mixed.py 195-196, 237-238: from_result of CompleteIntersection and Intersection *)
Definition mixed_in (e : left_event) : bool := l_first e && negb (mixed_outside e).

(** mixed.py 78-86: fill_queue *)
Definition fill_mixed (segments : list segment) (polygons : list polygon) : state :=
  fold_left (fun s p => register false (polygon_oriented_edges p) s) polygons (register true segments empty_state).

(** Bodies of the loops of mixed.py 148-154 (Difference: left events of right
    ones), 206-210 (CompleteIntersection: all events), 248-253 and 290-294
    (Intersection and Union: left events) *)
Definition step_mixed (out : event -> state -> list event) (result : left_event -> bool) (o : oracle) (n : nat)
    (ev : event) (s : state) : res (state * list event) :=
  bind_res (process_labelled Mixed false result o n ev s) (fun '(s', _) => Ok (s', out ev s')).
Definition out_right (ev : event) (s : state) : list event :=
  match ev with EL _ => [] | ER r => [EL (r_left (rgt s r))] end.
Definition out_left (ev : event) (s : state) : list event :=
  match ev with EL i => [EL i] | ER _ => [] end.
Definition out_all (ev : event) (s : state) : list event := [ev].

(** Number of registered segments. *)
Definition edges_count (polygons : list polygon) : nat := length (flat_map polygon_oriented_edges polygons).
(** mixed.py 142-155, 198-211, 240-254, 285-295: sweep *)
Definition sweep_mixed (out : event -> state -> list event) (result : left_event -> bool) (o : oracle)
    (stop : point -> bool) (segments : list segment) (polygons : list polygon) : res (state * list event) :=
  run Mixed (step_mixed out result o) stop o (enough (length segments + edges_count polygons)) 0
      (fill_mixed segments polygons) [].

(** utils.py 70-73: to_polygons_x_max; the code fails on an empty sequence,
    where it is never called *)
Definition points_x_max (ps : list point) : option Qc :=
  match ps with
  | [] => None
  | p :: r => Some (fold_left (fun m q => Qc_max m (px q)) r (px p))
  end.
Definition polygons_x_max (polygons : list polygon) : option Qc :=
  points_x_max (flat_map (fun p => vertices (border p)) polygons).

(** Boxes of both operands; ground raises ValueError for an empty one. *)
Definition with_mixed_boxes {A} (segments : list segment) (polygons : list polygon) (f : box -> box -> res A) : res A :=
  match segments_box segments, polygons_box polygons with
  | Some a, Some b => f a b
  | _, _ => Err ValueError
  end.
(** Endpoints of the events of the result among swept ones, in order of sweeping. *)
Definition resulting (swept : state * list event) : list segment :=
  let '(s, events) := swept in
  map (ev_segment s) (filter (fun ev => l_result (lft s (left_of s ev))) events).

(** mixed.py 120-155: Difference.compute; [value] is the linear operand *)
Definition mixed_difference (x : locators) (o : oracle) (value : geometry) (segments : list segment)
    (polygons : list polygon) : res geometry :=
  with_mixed_boxes segments polygons (fun segments_box shaped_box =>
    if disjoint_with segments_box shaped_box then Ok value
    else
      match to_coupled_polygons x segments_box polygons with
      | [] => Ok value
      | polygons =>
          bind_res (sweep_mixed out_right mixed_out o (beyond (segments_x_max segments)) segments polygons)
                   (fun swept => Ok (unpack_segments (resulting swept)))
      end).

(** [min(to_segments_x_max(segments), to_polygons_x_max(polygons)) < point.x] *)
Definition mixed_stop (segments : list segment) (polygons : list polygon) : point -> bool :=
  beyond (x_max_min (segments_x_max segments) (polygons_x_max polygons)).
(** Operands of the intersections left by the boxes, mixed.py 163-174, 219-230 *)
Definition intersecting_parts {A} (x : locators) (empty : A) (segments : list segment) (polygons : list polygon)
    (f : list segment -> list polygon -> res A) : res A :=
  with_mixed_boxes segments polygons (fun linear_box shaped_box =>
    if disjoint_with linear_box shaped_box then Ok empty
    else
      match to_intersecting_segments shaped_box segments with
      | [] => Ok empty
      | segments =>
          match to_intersecting_polygons x linear_box polygons with
          | [] => Ok empty
          | polygons => f segments polygons
          end
      end).

(** mixed.py 214-254: Intersection.compute *)
Definition mixed_intersection (x : locators) (o : oracle) (segments : list segment) (polygons : list polygon) : res geometry :=
  intersecting_parts x GEmpty segments polygons (fun segments polygons =>
    bind_res (sweep_mixed out_left mixed_in o (mixed_stop segments polygons) segments polygons)
             (fun swept => Ok (unpack_segments (resulting swept)))).

(** mixed.py 175-190: points and segments among swept events *)
Definition mixed_points (s : state) (events : list event) : list point :=
  map fst (filter (fun g => negb (existsb (fun ev => l_result (lft s (left_of s ev))) (snd g)
                                  || all_equal (map (ev_first s) (snd g))))
                  (group_by pt_eqb (ev_start s) events)).
Definition mixed_complete_parts (swept : state * list event) : list point * list segment :=
  let '(s, events) := swept in
  let events := sort_by (binary_key_ltb s) events in
  (mixed_points s events, resulting (s, filter is_left events)).
(** mixed.py 158-211: CompleteIntersection.compute *)
Definition mixed_complete_intersection (x : locators) (o : oracle) (segments : list segment) (polygons : list polygon)
    : res geometry :=
  intersecting_parts x GEmpty segments polygons (fun segments polygons =>
    bind_res (sweep_mixed out_all mixed_in o (mixed_stop segments polygons) segments polygons)
             (fun swept => let '(points, segments) := mixed_complete_parts swept in
                           Ok (unpack_linear_mix (unpack_points points) (unpack_segments segments)))).

(** mixed.py 257-295: Union.compute; [linear] and [shaped] are the operands *)
Definition mixed_union (x : locators) (o : oracle) (linear shaped : geometry) (segments : list segment)
    (polygons : list polygon) : res geometry :=
  with_mixed_boxes segments polygons (fun linear_box shaped_box =>
    if disjoint_with linear_box shaped_box then Ok (GMix GEmpty linear shaped)
    else
      let '(result_segments, segments) := split_intersecting_segments shaped_box segments in
      let polygons := to_intersecting_polygons x linear_box polygons in
      bind_res (sweep_mixed out_left mixed_out o no_stop segments polygons)
               (fun swept =>
                  match unpack_segments (resulting swept ++ result_segments) with
                  | GEmpty => Ok shaped
                  | linear => Ok (GMix GEmpty linear shaped)
                  end)).
(** mixed.py 298 *)
Definition mixed_symmetric_difference := mixed_union.

(** planar.py 650-722, 990-1079, 1700-1758, 2012-2114: complete intersections *)
Definition complete_intersect_segment_with_polygon x o (s : segment) (p : polygon) :=
  mixed_complete_intersection x o [s] [p].
Definition complete_intersect_segment_with_multipolygon x o (s : segment) (ps : list polygon) :=
  mixed_complete_intersection x o [s] ps.
Definition complete_intersect_multisegment_with_polygon x o (ss : list segment) (p : polygon) :=
  mixed_complete_intersection x o ss [p].
Definition complete_intersect_multisegment_with_multipolygon x o (ss : list segment) (ps : list polygon) :=
  mixed_complete_intersection x o ss ps.
(** planar.py 725-790, 1082-1164, 1761-1813, 2117-2200: intersections *)
Definition intersect_segment_with_polygon x o (s : segment) (p : polygon) := mixed_intersection x o [s] [p].
Definition intersect_segment_with_multipolygon x o (s : segment) (ps : list polygon) := mixed_intersection x o [s] ps.
Definition intersect_multisegment_with_polygon x o (ss : list segment) (p : polygon) := mixed_intersection x o ss [p].
Definition intersect_multisegment_with_multipolygon x o (ss : list segment) (ps : list polygon) :=
  mixed_intersection x o ss ps.
(** planar.py 793-861, 1167-1237, 1816-1870, 2203-2277: differences *)
Definition subtract_polygon_from_segment x o (s : segment) (p : polygon) := mixed_difference x o (GSegment s) [s] [p].
Definition subtract_multipolygon_from_segment x o (s : segment) (ps : list polygon) :=
  mixed_difference x o (GSegment s) [s] ps.
Definition subtract_polygon_from_multisegment x o (ss : list segment) (p : polygon) :=
  mixed_difference x o (GMultisegment ss) ss [p].
Definition subtract_multipolygon_from_multisegment x o (ss : list segment) (ps : list polygon) :=
  mixed_difference x o (GMultisegment ss) ss ps.
(** planar.py 928-987, 1320-1396, 1943-2009, 2363-2443: unions *)
Definition unite_segment_with_polygon x o (s : segment) (p : polygon) :=
  mixed_union x o (GSegment s) (GPolygon p) [s] [p].
Definition unite_segment_with_multipolygon x o (s : segment) (ps : list polygon) :=
  mixed_union x o (GSegment s) (GMultipolygon ps) [s] ps.
Definition unite_multisegment_with_polygon x o (ss : list segment) (p : polygon) :=
  mixed_union x o (GMultisegment ss) (GPolygon p) ss [p].
Definition unite_multisegment_with_multipolygon x o (ss : list segment) (ps : list polygon) :=
  mixed_union x o (GMultisegment ss) (GMultipolygon ps) ss ps.
(** planar.py 864-925, 1240-1317, 1873-1940, 2280-2360: symmetric differences *)
Definition symmetric_subtract_polygon_from_segment x o (s : segment) (p : polygon) :=
  mixed_symmetric_difference x o (GSegment s) (GPolygon p) [s] [p].
Definition symmetric_subtract_multipolygon_from_segment x o (s : segment) (ps : list polygon) :=
  mixed_symmetric_difference x o (GSegment s) (GMultipolygon ps) [s] ps.
Definition symmetric_subtract_polygon_from_multisegment x o (ss : list segment) (p : polygon) :=
  mixed_symmetric_difference x o (GMultisegment ss) (GPolygon p) ss [p].
Definition symmetric_subtract_multipolygon_from_multisegment x o (ss : list segment) (ps : list polygon) :=
  mixed_symmetric_difference x o (GMultisegment ss) (GMultipolygon ps) ss ps.
