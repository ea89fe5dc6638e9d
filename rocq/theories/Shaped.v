(** Model of /repo/clipping/core/holeless.py, of the sweeps of holey.py and of
    the functions of planar.py delegating to holeless.py. *)
From Verif Require Import QcTac Geom Spec SpecShape SpecSides Pair Bounding Sweep Linear Labelled Contour Filter Mixed Tracing.

(** event.py 257-292, 367-414: properties of LeftHolelessEvent and LeftHoleyEvent *)
Definition kind_eqb (a b : overlap_kind) : bool :=
  match a, b with
  | NONE, NONE | SAME_ORIENTATION, SAME_ORIENTATION | DIFFERENT_ORIENTATION, DIFFERENT_ORIENTATION => true
  | _, _ => false
  end.
Definition shaped_inside (e : left_event) : bool := l_other e && kind_eqb (l_kind e) NONE.
Definition shaped_outside (e : left_event) : bool := negb (l_other e) && kind_eqb (l_kind e) NONE.
Definition is_common_polyline_component (e : left_event) : bool := kind_eqb (l_kind e) DIFFERENT_ORIENTATION.
Definition is_common_region_boundary (e : left_event) : bool := kind_eqb (l_kind e) SAME_ORIENTATION.
Definition shaped_overlap (e : left_event) : bool := negb (kind_eqb (l_kind e) NONE).
(** event.py 299-304, 416-421: wholly_in_complete_intersection *)
Definition wholly_in_complete_intersection (e : left_event) : bool := l_result e || is_common_polyline_component e.

(** from_shaped_result of the operations: holeless.py 200-202 and 254-256,
    holey.py 255-258 and 346-349 (intersections), 303-306 (Difference), 390-391
    (SymmetricDifference), 408-411 (Union) *)
Definition in_intersection (e : left_event) : bool :=
  shaped_inside e || (negb (l_first e) && is_common_region_boundary e).
Definition in_difference (e : left_event) : bool :=
  if l_first e then shaped_outside e else shaped_inside e || is_common_polyline_component e.
Definition in_symmetric_difference (e : left_event) : bool := negb (shaped_overlap e).
Definition in_union (e : left_event) : bool :=
  shaped_outside e || (negb (l_first e) && is_common_region_boundary e).

(** holeless.py 130-160, holey.py 155-185: an event is appended to the processed
    ones unless it is a left event already found on the sweep line; the moment of
    appending differs but nothing reads the list in between *)
Definition step_shaped (holey : bool) (result : left_event -> bool) (o : oracle) (n : nat) (ev : event) (s : state)
  : res (state * list event) :=
  bind_res (process_labelled Shaped holey result o n ev s) (fun '(s', found) => Ok (s', if found then [ev] else [])).

(** holeless.py 113-124: fill_queue *)
Definition region_edges (r : contour) : list segment := contour_oriented_edges (vertices r) false.
Definition fill_regions (first second : list contour) : state :=
  fold_left (fun s r => register false (region_edges r) s) second
    (fold_left (fun s r => register true (region_edges r) s) first empty_state).
(** utils.py 64-67: to_regions_x_max; the code fails on an empty sequence, where
    it is never called *)
Definition regions_x_max (regions : list contour) : option Qc := points_x_max (flat_map vertices regions).
(** Number of registered segments. *)
Definition regions_count (regions : list contour) : nat := length (flat_map region_edges regions).
(** holeless.py 204-219, 240-253: sweep *)
Definition sweep_regions (result : left_event -> bool) (o : oracle) (first second : list contour)
  : res (state * list event) :=
  run Shaped (step_shaped false result o) (beyond (x_max_min (regions_x_max first) (regions_x_max second))) o
      (enough (regions_count first + regions_count second)) 0 (fill_regions first second) [].

(** holey.py 138-149: fill_queue *)
Definition fill_polygons (first second : list polygon) : state :=
  fold_left (fun s p => register false (polygon_oriented_edges p) s) second
    (fold_left (fun s p => register true (polygon_oriented_edges p) s) first empty_state).

(** Identifiers of starts of popped events, the last assigned ones being the
    first: [event.start_id = current_endpoint_id] *)
Definition start_ids := list (event * nat).
(** holey.py 195-203, 270-281, 315-324, 363-373: the loop of the sweeps, like
    [run] but with the current endpoint and its identifier *)
Fixpoint run_ids (step : nat -> event -> state -> res (state * list event)) (stop : point -> bool) (o : oracle)
    (fuel n : nat) (s : state) (current_endpoint : point) (current_endpoint_id : nat) (ids : start_ids)
    (acc : list event) : res (state * list event * start_ids) :=
  match queue s with
  | [] => Ok (s, acc, ids)
  | _ =>
    match fuel with
    | O => Err OutOfFuel
    | S f =>
      match pop Shaped (o_pick o n) s with
      | Err e => Err e
      | Ok (ev, s1) =>
          if stop (ev_start s1 ev) then Ok (s1, acc, ids)
          else
            let moved := negb (pt_eqb (ev_start s1 ev) current_endpoint) in
            let endpoint := if moved then ev_start s1 ev else current_endpoint in
            let id := if moved then S current_endpoint_id else current_endpoint_id in
            match step n ev s1 with
            | Err e => Err e
            | Ok (s2, out) => run_ids step stop o f (S n) s2 endpoint id ((ev, id) :: ids) (acc ++ out)
            end
      end
    end
  end.
(** holey.py 187-203 (Union and SymmetricDifference), 260-281, 308-324,
    351-373: sweep; popping from an empty queue raises IndexError.  The loop
    starts after the first event, which is never compared with the bound. *)
Definition sweep_holey (result : left_event -> bool) (o : oracle) (stop : point -> bool) (fuel : nat) (s : state)
  : res (state * list event * start_ids) :=
  match queue s with
  | [] => Err IndexError
  | _ =>
    match fuel with
    | O => Err OutOfFuel
    | S f =>
      match pop Shaped (o_pick o 0) s with
      | Err e => Err e
      | Ok (ev, s1) =>
          match step_shaped true result o 0 ev s1 with
          | Err e => Err e
          | Ok (s2, out) =>
              run_ids (step_shaped true result o) stop o f 1 s2 (ev_start s1 ev) 0 [(ev, 0%nat)] out
          end
      end
    end
  end.
Definition sweep_polygons (result : left_event -> bool) (o : oracle) (stop : point -> bool) (first second : list polygon)
  : res (state * list event * start_ids) :=
  sweep_holey result o stop (enough (edges_count first + edges_count second)) (fill_polygons first second).

(** holey.py 260-281 and 351-373 (intersections), 308-324 (Difference), 187-203
    (SymmetricDifference and Union): sweep *)
Definition sweep_intersection (o : oracle) (first second : list polygon) :=
  sweep_polygons in_intersection o (beyond (x_max_min (polygons_x_max first) (polygons_x_max second))) first second.
Definition sweep_difference (o : oracle) (first second : list polygon) :=
  sweep_polygons in_difference o (beyond (polygons_x_max first)) first second.
Definition sweep_symmetric_difference (o : oracle) (first second : list polygon) :=
  sweep_polygons in_symmetric_difference o no_stop first second.
Definition sweep_union (o : oracle) (first second : list polygon) := sweep_polygons in_union o no_stop first second.

(** Rule of an operation choosing events of the result, the abscissa after
    which its sweep stops, and the sweep itself. *)
Definition op_test (op : operation) : left_event -> bool :=
  match op with Meet => in_intersection | Minus => in_difference | Differ => in_symmetric_difference | Join => in_union end.
Definition op_x_max (op : operation) (first second : list polygon) : option Qc :=
  match op with Meet => x_max_min (polygons_x_max first) (polygons_x_max second) | Minus => polygons_x_max first | _ => None end.
Definition op_sweep (op : operation) : oracle -> list polygon -> list polygon -> res (state * list event * start_ids) :=
  match op with Meet => sweep_intersection | Minus => sweep_difference | Differ => sweep_symmetric_difference | Join => sweep_union end.
(** Edges of the result: segments of left events with [from_shaped_result]. *)
Definition result_edges (s : state) (events : list event) : list segment :=
  map (ev_segment s) (filter (fun ev => is_left ev && l_result (lft s (left_of s ev))) events).
(** A segment the sweep has cut the operands into. *)
Definition made_by (s : state) (sg : segment) : Prop := exists i, (i < length (lefts s))%nat /\ sg = seg_of s i.

(** [event.opposite] *)
Definition opposite (s : state) (ev : event) : event :=
  match ev with EL i => ER (l_right (lft s i)) | ER r => EL (r_left (rgt s r)) end.
Fixpoint position_of (ev : event) (l : list event) : option nat :=
  match l with
  | [] => None
  | x :: r => if event_eqb x ev then Some 0%nat else option_map S (position_of ev r)
  end.
(** holeless.py 79-84, holey.py 98-100: identifiers of the sorted events are their
    positions.  An event whose opposite one is not there would read an identifier
    left from elsewhere; that is an error here and never happens (ShapedThms.v). *)
Fixpoint to_traced (s : state) (all l : list event) : res (list traced) :=
  match l with
  | [] => Ok []
  | ev :: r =>
      match position_of (opposite s ev) all with
      | None => Err IndexError
      | Some i => bind_res (to_traced s all r) (fun rest =>
                    Ok (Traced (ev_start s ev) (ev_start s (opposite s ev)) (is_left ev) i :: rest))
      end
  end.
(** holeless.py 79-82: the events of the result, sorted *)
Definition result_events (s : state) (events : list event) : list event :=
  sort_by (binary_key_ltb s) (filter (fun ev => l_result (lft s (left_of s ev))) events).
(** holeless.py 78-111: events_to_regions *)
Definition events_to_regions (s : state) (events : list event) : res (list contour) :=
  let events := result_events s events in
  bind_res (to_traced s events events) trace_regions.

(** Boxes of both operands; ground raises ValueError for an empty one. *)
Definition with_region_boxes {A} (first second : list contour) (f : box -> box -> res A) : res A :=
  match contours_box first, contours_box second with
  | Some a, Some b => f a b
  | _, _ => Err ValueError
  end.
(** Operands of the intersections left by the boxes, holeless.py 166-179, 225-239 *)
Definition meeting_regions {A} (keep : box -> list contour -> list contour) (empty : A) (first second : list contour)
    (f : list contour -> list contour -> res A) : res A :=
  with_region_boxes first second (fun first_box second_box =>
    if disjoint_with first_box second_box then Ok empty
    else
      match keep second_box first with
      | [] => Ok empty
      | first =>
          match keep first_box second with
          | [] => Ok empty
          | second => f first second
          end
      end).
(** holeless.py 222-256: Intersection.compute *)
Definition region_intersection (x : locators) (o : oracle) (first second : list contour) : res geometry :=
  meeting_regions (to_coupled_regions x) GEmpty first second (fun first second =>
    bind_res (sweep_regions in_intersection o first second) (fun '(s, events) =>
      bind_res (events_to_regions s events) (fun regions => Ok (unpack_regions regions)))).

(** holeless.py 180-197, holey.py 232-251: points and segments among sorted events *)
Definition shaped_points (s : state) (events : list event) : list point :=
  map fst (filter (fun g => negb (existsb (fun ev => wholly_in_complete_intersection (lft s (left_of s ev))) (snd g)
                                  || all_equal (map (ev_first s) (snd g))))
                  (group_by pt_eqb (ev_start s) events)).
Definition shaped_segments (s : state) (events : list event) : list segment :=
  map (ev_segment s)
      (filter (fun ev => is_left ev && ev_first s ev && is_common_polyline_component (lft s (left_of s ev))) events).
(** holeless.py 163-219: CompleteIntersection.compute *)
Definition region_complete_intersection (x : locators) (o : oracle) (first second : list contour) : res geometry :=
  meeting_regions (to_intersecting_regions x) GEmpty first second (fun first second =>
    bind_res (sweep_regions in_intersection o first second) (fun '(s, events) =>
      let events := sort_by (binary_key_ltb s) events in
      bind_res (events_to_regions s events) (fun regions =>
        Ok (unpack_mix (unpack_points (shaped_points s events)) (unpack_segments (shaped_segments s events))
                       (unpack_regions regions))))).

(** planar.py 2446-2506, 2561-2641, 2710-2818: complete intersections; a
    multiregion is a sequence of contours *)
Definition complete_intersect_regions x o (first second : contour) :=
  region_complete_intersection x o [first] [second].
Definition complete_intersect_region_with_multiregion x o (region : contour) (multiregion : list contour) :=
  region_complete_intersection x o [region] multiregion.
Definition complete_intersect_multiregions x o (first second : list contour) :=
  region_complete_intersection x o first second.
(** planar.py 2509-2558, 2644-2707, 2821-2905: intersections *)
Definition intersect_regions x o (first second : contour) := region_intersection x o [first] [second].
Definition intersect_region_with_multiregion x o (region : contour) (multiregion : list contour) :=
  region_intersection x o [region] multiregion.
Definition intersect_multiregions x o (first second : list contour) := region_intersection x o first second.
