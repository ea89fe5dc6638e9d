(** Model of /repo/clipping/core/holey.py after the sweep and of the functions
    of planar.py delegating to it. *)
From Verif Require Import QcTac Geom Spec SpecShape SpecSides Pair Bounding Sweep Linear Labelled Contour Filter Mixed Tracing Shaped.

(** Events of the result as read by the code below: [h_event] at the position
    equal to its identifier, [h_start_id] its start_id. *)
Record holey_event := HoleyEvent { h_event : event; h_traced : traced; h_start_id : nat }.
Definition no_holey : holey_event := HoleyEvent (EL 0) no_traced 0.
Definition hev (evs : list holey_event) (i : nat) : holey_event := nth i evs no_holey.
(** event.py 377-379, 450-452: end_id *)
Definition h_end_id (evs : list holey_event) (i : nat) : nat := h_start_id (hev evs (t_opposite (h_traced (hev evs i)))).

(** Fields from_in_to_out and contour_id of left events, for those they are
    assigned to. *)
Definition marks := list (nat * (bool * nat)).
Fixpoint mark_of (m : marks) (i : nat) : option (bool * nat) :=
  match m with
  | [] => None
  | (j, x) :: m => if Nat.eqb i j then Some x else mark_of m i
  end.

(** Lists indexed by identifiers of contours. *)
Record relations := Relations {
  are_internal : list bool;
  depths : list nat;
  hole_ids : list (list nat);
  parents : list (option nat)
}.
Definition no_relations : relations := Relations [] [] [] [].
Definition add_relations (r : relations) (internal : bool) (depth : nat) (parent : option nat) : relations :=
  Relations (are_internal r ++ [internal]) (depths r ++ [depth]) (hole_ids r ++ [[]]) (parents r ++ [parent]).
Definition add_hole (r : relations) (contour_id hole_id : nat) : relations :=
  Relations (are_internal r) (depths r) (update (hole_ids r) contour_id (fun l => l ++ [hole_id])) (parents r).

(** holey.py 414-441: _compute_relations; a right event has no field
    below_event_from_shaped_result, a list has no position None *)
Definition compute_relations (s : state) (m : marks) (ev : event) (contour_id : nat) (r : relations) : res relations :=
  match ev with
  | ER _ => Err AttributeError
  | EL i =>
      match l_below (lft s i) with
      | None => Ok (add_relations r false 0 None)
      | Some b =>
          match mark_of m b with
          | None => Err TypeError
          | Some (from_in_to_out, below_contour_id) =>
              let internal := nth below_contour_id (are_internal r) false in
              let depth := nth below_contour_id (depths r) 0%nat in
              if negb from_in_to_out
              then
                if negb internal
                then Ok (add_relations (add_hole r below_contour_id contour_id) true (S depth) (Some below_contour_id))
                else Ok (add_relations r false 0 None)
              else if internal
              then
                match nth below_contour_id (parents r) None with
                | None => Err TypeError
                | Some parent => Ok (add_relations (add_hole r parent contour_id) true depth (Some parent))
                end
              else Ok (add_relations r false 0 None)
          end
      end
  end.

(** [visited_endpoints_positions]; [None] is UNDEFINED_INDEX *)
Definition positions := list (option nat).
Definition set_position (v : positions) (i : nat) (x : option nat) : positions := update v i (fun _ => x).
(** holey.py 473-476: the positions are forgotten *)
Definition forget (v : positions) (ids : list nat) : res positions :=
  let v := fold_left (fun v i => set_position v i None) ids v in
  if forallb (fun x => match x with None => true | Some _ => false end) v then Ok v else Err AssertionError.
(** holey.py 455-472: the loop following the events of a contour *)
Fixpoint follow_contour (fuel : nat) (evs : list holey_event) (connectivity : list nat) (processed : list bool)
    (contour_start : point) (cursor : nat) (result : list nat) (visited : positions) (visited_ids : list nat)
  : res (list nat * positions) :=
  match fuel with
  | O => Err OutOfFuel
  | S f =>
      if pt_eqb (t_end (h_traced (hev evs cursor))) contour_start
      then bind_res (forget visited visited_ids) (fun v => Ok (result, v))
      else
        let end_id := h_end_id evs cursor in
        bind_res
          match nth_error visited end_id with
          | None => Err IndexError
          | Some None => Ok (result, set_position visited end_id (Some (length result)))
          | Some (Some 0%nat) => Err AssertionError
          | Some (Some position) => Ok (firstn position result, visited)
          end
          (fun '(result, visited) =>
             let visited_ids := visited_ids ++ [end_id] in
             match next_event (t_opposite (h_traced (hev evs cursor))) processed connectivity with
             | Err e => Err e
             | Ok None => bind_res (forget visited visited_ids) (fun v => Ok (result, v))
             | Ok (Some event_id) =>
                 follow_contour f evs connectivity processed contour_start event_id (result ++ [event_id]) visited visited_ids
             end)
  end.
(** holey.py 444-476: _to_contour_events *)
Definition to_contour_events (evs : list holey_event) (connectivity : list nat) (processed : list bool) (event_id : nat)
    (visited : positions) : res (list nat * positions) :=
  if t_left (h_traced (hev evs event_id))
  then
    let start_id := h_start_id (hev evs event_id) in
    follow_contour (S (length evs)) evs connectivity processed (t_start (h_traced (hev evs event_id))) event_id
      [event_id] (set_position visited start_id (Some 0%nat)) [start_id]
  else Err AssertionError.

(** holey.py 479-490: _process_contour_events *)
Definition process_contour_events (s : state) (evs : list holey_event) (contour_events : list nat) (contour_id : nat)
    (processed : list bool) (m : marks) : list bool * marks :=
  fold_left (fun '(processed, m) i =>
    (mark (mark processed i) (t_opposite (h_traced (hev evs i))),
     (left_of s (h_event (hev evs i)), (negb (is_left (h_event (hev evs i))), contour_id)) :: m))
    contour_events (processed, m).

(** holey.py 206-210: _contour_events_to_vertices *)
Definition contour_events_to_vertices (evs : list holey_event) (contour_events : list nat) : res (list point) :=
  shrink_collinear_vertices
    (t_start (h_traced (hev evs (hd 0%nat contour_events)))
     :: map (fun i => t_end (h_traced (hev evs i))) (removelast contour_events)).

(** [vertices[:1] + vertices[:0:-1]] *)
Definition turned (vs : list point) : list point := match vs with [] => [] | v :: r => v :: rev r end.

(** holey.py 108-123: the loop over the events; [ids] are the identifiers still
    to be looked at *)
Fixpoint trace_holey (s : state) (evs : list holey_event) (connectivity : list nat) (ids : list nat)
    (processed : list bool) (visited : positions) (m : marks) (r : relations) (contours : list contour)
  : res (relations * list contour) :=
  match ids with
  | [] => Ok (r, contours)
  | event_id :: ids =>
      if nth event_id processed false then trace_holey s evs connectivity ids processed visited m r contours
      else
        let contour_id := length contours in
        bind_res (compute_relations s m (h_event (hev evs event_id)) contour_id r) (fun r =>
          bind_res (to_contour_events evs connectivity processed event_id visited) (fun '(contour_events, visited) =>
            let '(processed, m) := process_contour_events s evs contour_events contour_id processed m in
            bind_res (contour_events_to_vertices evs contour_events) (fun vertices =>
              let vertices := if Nat.odd (nth contour_id (depths r) 0%nat) then turned vertices else vertices in
              trace_holey s evs connectivity ids processed visited m r (contours ++ [Contour vertices]))))
  end.

(** holey.py 124-136: polygons made of the contours *)
Definition no_contour : contour := Contour [].
Definition polygon_of (r : relations) (contours : list contour) (contour_id : nat) : polygon :=
  Polygon (nth contour_id contours no_contour)
          (map (fun hole_id => nth hole_id contours no_contour) (nth contour_id (hole_ids r) [])).
Definition to_polygons (r : relations) (contours : list contour) : list polygon :=
  flat_map (fun contour_id =>
      if nth contour_id (are_internal r) false
      then map (polygon_of r contours) (nth contour_id (hole_ids r) [])
      else [polygon_of r contours contour_id])
    (seq 0 (length contours)).

(** [event.start_id]; only events popped by the sweep have one *)
Fixpoint start_id_of (ids : start_ids) (ev : event) : option nat :=
  match ids with
  | [] => None
  | (x, id) :: ids => if event_eqb ev x then Some id else start_id_of ids ev
  end.
(** Events with their identifiers; an event without start_id would have
    UNDEFINED_INDEX there, which is an error here and never happens. *)
Fixpoint to_holey (ids : start_ids) (events : list event) (evs : list traced) : res (list holey_event) :=
  match events, evs with
  | ev :: events, t :: evs =>
      match start_id_of ids ev with
      | None => Err IndexError
      | Some id => bind_res (to_holey ids events evs) (fun rest => Ok (HoleyEvent ev t id :: rest))
      end
  | _, _ => Ok []
  end.
(** holey.py 88-136: events_to_polygons *)
Definition events_to_polygons (s : state) (events : list event) (ids : start_ids) : res (list polygon) :=
  let events := filter (fun ev => l_result (lft s (left_of s ev))) events in
  match events with
  | [] => Ok []
  | e0 :: _ =>
      match start_id_of ids (last events e0) with
      | None => Err AssertionError
      | Some max_endpoint_id =>
          if forallb (fun ev => match start_id_of ids ev with Some id => (id <=? max_endpoint_id)%nat | None => true end) events
          then
            let events := sort_by (binary_key_ltb s) events in
            bind_res (to_traced s events events) (fun evs =>
              bind_res (to_holey ids events evs) (fun hevs =>
                bind_res (events_to_connectivity evs) (fun connectivity =>
                  bind_res (trace_holey s hevs connectivity (seq 0 (length hevs)) (repeat false (length hevs))
                              (repeat None (S max_endpoint_id)) [] no_relations [])
                    (fun '(r, contours) => Ok (to_polygons r contours)))))
          else Err AssertionError
      end
  end.

(** Boxes of both operands; ground raises ValueError for an empty one. *)
Definition with_polygon_boxes {A} (first second : list polygon) (f : box -> box -> res A) : res A :=
  match polygons_box first, polygons_box second with
  | Some a, Some b => f a b
  | _, _ => Err ValueError
  end.
Definition swept_polygons (swept : res (state * list event * start_ids)) : res (list polygon) :=
  bind_res swept (fun '(s, events, ids) => events_to_polygons s events ids).
(** Operands of the intersections left by the boxes, holey.py 218-231, 332-344 *)
Definition meeting_polygons {A} (keep : box -> list polygon -> list polygon) (empty : A) (first second : list polygon)
    (f : list polygon -> list polygon -> res A) : res A :=
  with_polygon_boxes first second (fun first_box second_box =>
    if disjoint_with first_box second_box then Ok empty
    else
      match keep second_box first with
      | [] => Ok empty
      | first =>
          match keep first_box second with
          | [] => Ok empty
          | second => f first second
          end
      end).
(** holey.py 213-281: CompleteIntersection.compute *)
Definition polygon_complete_intersection (x : locators) (o : oracle) (first second : list polygon) : res geometry :=
  meeting_polygons (to_intersecting_polygons x) GEmpty first second (fun first second =>
    bind_res (sweep_intersection o first second) (fun '(s, events, ids) =>
      let events := sort_by (binary_key_ltb s) events in
      bind_res (events_to_polygons s events ids) (fun polygons =>
        Ok (unpack_mix (unpack_points (shaped_points s events)) (unpack_segments (shaped_segments s events))
                       (unpack_polygons polygons))))).
(** holey.py 284-324: Difference.compute; [value] is the first operand *)
Definition polygon_difference (x : locators) (o : oracle) (value : geometry) (first second : list polygon) : res geometry :=
  with_polygon_boxes first second (fun first_box second_box =>
    if disjoint_with first_box second_box then Ok value
    else
      match to_coupled_polygons x first_box second with
      | [] => Ok value
      | second => bind_res (swept_polygons (sweep_difference o first second)) (fun polygons => Ok (unpack_polygons polygons))
      end).
(** holey.py 327-373: Intersection.compute *)
Definition polygon_intersection (x : locators) (o : oracle) (first second : list polygon) : res geometry :=
  meeting_polygons (to_coupled_polygons x) GEmpty first second (fun first second =>
    bind_res (swept_polygons (sweep_intersection o first second)) (fun polygons => Ok (unpack_polygons polygons))).
(** utils.py 60-61: to_first_border_vertex; contours of ground have vertices *)
Definition first_border_vertex (p : polygon) : point := at_ (vertices (border p)) 0.
Definition disjoint_polygons (first second : list polygon) : geometry :=
  GMultipolygon (sort_by (fun a b => pt_ltb (first_border_vertex a) (first_border_vertex b)) (first ++ second)).
(** holey.py 376-391: SymmetricDifference.compute *)
Definition polygon_symmetric_difference (o : oracle) (first second : list polygon) : res geometry :=
  with_polygon_boxes first second (fun first_box second_box =>
    if disjoint_with first_box second_box then Ok (disjoint_polygons first second)
    else bind_res (swept_polygons (sweep_symmetric_difference o first second)) (fun polygons => Ok (unpack_polygons polygons))).
(** holey.py 394-411: Union.compute *)
Definition polygon_union (o : oracle) (first second : list polygon) : res geometry :=
  with_polygon_boxes first second (fun first_box second_box =>
    if disjoint_with first_box second_box then Ok (disjoint_polygons first second)
    else bind_res (swept_polygons (sweep_union o first second)) (fun polygons => Ok (unpack_polygons polygons))).

(** planar.py 2908-3305: operations on polygons *)
Definition complete_intersect_polygons x o (first second : polygon) := polygon_complete_intersection x o [first] [second].
Definition intersect_polygons x o (first second : polygon) := polygon_intersection x o [first] [second].
Definition subtract_polygons x o (minuend subtrahend : polygon) := polygon_difference x o (GPolygon minuend) [minuend] [subtrahend].
Definition symmetric_subtract_polygons o (first second : polygon) := polygon_symmetric_difference o [first] [second].
Definition unite_polygons o (first second : polygon) := polygon_union o [first] [second].
(** planar.py 3308-4093: operations on a polygon and a multipolygon *)
Definition complete_intersect_polygon_with_multipolygon x o (shape : polygon) (multipolygon : list polygon) :=
  polygon_complete_intersection x o [shape] multipolygon.
Definition intersect_polygon_with_multipolygon x o (shape : polygon) (multipolygon : list polygon) :=
  polygon_intersection x o [shape] multipolygon.
Definition subtract_multipolygon_from_polygon x o (minuend : polygon) (subtrahend : list polygon) :=
  polygon_difference x o (GPolygon minuend) [minuend] subtrahend.
Definition subtract_polygon_from_multipolygon x o (minuend : list polygon) (subtrahend : polygon) :=
  polygon_difference x o (GMultipolygon minuend) minuend [subtrahend].
Definition symmetric_subtract_multipolygon_from_polygon o (shape : polygon) (multipolygon : list polygon) :=
  polygon_symmetric_difference o [shape] multipolygon.
Definition unite_polygon_with_multipolygon o (shape : polygon) (multipolygon : list polygon) :=
  polygon_union o [shape] multipolygon.
(** planar.py 4096-4875: operations on multipolygons *)
Definition complete_intersect_multipolygons x o (first second : list polygon) := polygon_complete_intersection x o first second.
Definition intersect_multipolygons x o (first second : list polygon) := polygon_intersection x o first second.
Definition subtract_multipolygons x o (minuend subtrahend : list polygon) :=
  polygon_difference x o (GMultipolygon minuend) minuend subtrahend.
Definition symmetric_subtract_multipolygons o (first second : list polygon) := polygon_symmetric_difference o first second.
Definition unite_multipolygons o (first second : list polygon) := polygon_union o first second.
