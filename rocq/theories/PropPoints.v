(** Property C39, all operations on polygons and multipolygons.  Here [o] stands
    for any behaviour of the external priority queue and tree.  Missing in each of the
    theorems: conditions on operands under which polygons returned are valid (for
    these see C42 and C43). *)
From Verif Require Import QcTac Geom Spec SpecShape SpecSides SpecLocate SpecNest GeomFacts Pair Sweep Contour Filter Mixed Shaped Holey HoleyProps Locate Rectangle Examples SimpleCheck PropShaped HoleyNest PropHoley NestProps PropNest PropMild PointProps.

Theorem C39_complete_intersect_polygons_points_partial : forall x, right_locators x -> forall first second, valid_polygon first -> valid_polygon second ->
  exists g, (forall o, complete_intersect_polygons x o first second = Ok g) /\ (valid_polygons (polygons_of g) ->
    forall p, ~ on_segments p (flat_map polygon_edges ([first] ++ [second])) -> (in_polygons (polygons_of g) p <-> member Meet (in_polygons [first] p) (in_polygons [second] p))).
Proof. exact complete_intersect_polygons_points. Qed.
Print Assumptions C39_complete_intersect_polygons_points_partial.
Theorem C39_complete_intersect_polygon_with_multipolygon_points_partial : forall x, right_locators x -> forall shape multipolygon, valid_polygon shape -> valid_polygons multipolygon -> multipolygon <> [] ->
  exists g, (forall o, complete_intersect_polygon_with_multipolygon x o shape multipolygon = Ok g) /\ (valid_polygons (polygons_of g) ->
    forall p, ~ on_segments p (flat_map polygon_edges ([shape] ++ multipolygon)) -> (in_polygons (polygons_of g) p <-> member Meet (in_polygons [shape] p) (in_polygons multipolygon p))).
Proof. exact complete_intersect_polygon_with_multipolygon_points. Qed.
Print Assumptions C39_complete_intersect_polygon_with_multipolygon_points_partial.
Theorem C39_complete_intersect_multipolygons_points_partial : forall x, right_locators x -> forall first second, valid_polygons first -> valid_polygons second -> first <> [] -> second <> [] ->
  exists g, (forall o, complete_intersect_multipolygons x o first second = Ok g) /\ (valid_polygons (polygons_of g) ->
    forall p, ~ on_segments p (flat_map polygon_edges (first ++ second)) -> (in_polygons (polygons_of g) p <-> member Meet (in_polygons first p) (in_polygons second p))).
Proof. exact complete_intersect_multipolygons_points. Qed.
Print Assumptions C39_complete_intersect_multipolygons_points_partial.
Theorem C39_intersect_polygons_points_partial : forall x, right_locators x -> forall first second, valid_polygon first -> valid_polygon second ->
  exists g, (forall o, intersect_polygons x o first second = Ok g) /\ (valid_polygons (polygons_of g) ->
    forall p, ~ on_segments p (flat_map polygon_edges ([first] ++ [second])) -> (in_polygons (polygons_of g) p <-> member Meet (in_polygons [first] p) (in_polygons [second] p))).
Proof. exact intersect_polygons_points. Qed.
Print Assumptions C39_intersect_polygons_points_partial.
Theorem C39_intersect_polygon_with_multipolygon_points_partial : forall x, right_locators x -> forall shape multipolygon, valid_polygon shape -> valid_polygons multipolygon -> multipolygon <> [] ->
  exists g, (forall o, intersect_polygon_with_multipolygon x o shape multipolygon = Ok g) /\ (valid_polygons (polygons_of g) ->
    forall p, ~ on_segments p (flat_map polygon_edges ([shape] ++ multipolygon)) -> (in_polygons (polygons_of g) p <-> member Meet (in_polygons [shape] p) (in_polygons multipolygon p))).
Proof. exact intersect_polygon_with_multipolygon_points. Qed.
Print Assumptions C39_intersect_polygon_with_multipolygon_points_partial.
Theorem C39_intersect_multipolygons_points_partial : forall x, right_locators x -> forall first second, valid_polygons first -> valid_polygons second -> first <> [] -> second <> [] ->
  exists g, (forall o, intersect_multipolygons x o first second = Ok g) /\ (valid_polygons (polygons_of g) ->
    forall p, ~ on_segments p (flat_map polygon_edges (first ++ second)) -> (in_polygons (polygons_of g) p <-> member Meet (in_polygons first p) (in_polygons second p))).
Proof. exact intersect_multipolygons_points. Qed.
Print Assumptions C39_intersect_multipolygons_points_partial.
Theorem C39_subtract_polygons_all_partial : forall x, right_locators x -> forall minuend subtrahend, valid_polygon minuend -> valid_polygon subtrahend ->
  exists g, (forall o, subtract_polygons x o minuend subtrahend = Ok g) /\ (valid_polygons (polygons_of g) ->
    forall p, ~ on_segments p (flat_map polygon_edges ([minuend] ++ [subtrahend])) -> (in_polygons (polygons_of g) p <-> member Minus (in_polygons [minuend] p) (in_polygons [subtrahend] p))).
Proof. exact subtract_polygons_points. Qed.
Print Assumptions C39_subtract_polygons_all_partial.
Theorem C39_subtract_multipolygon_from_polygon_points_partial : forall x, right_locators x -> forall minuend subtrahend, valid_polygon minuend -> valid_polygons subtrahend -> subtrahend <> [] ->
  exists g, (forall o, subtract_multipolygon_from_polygon x o minuend subtrahend = Ok g) /\ (valid_polygons (polygons_of g) ->
    forall p, ~ on_segments p (flat_map polygon_edges ([minuend] ++ subtrahend)) -> (in_polygons (polygons_of g) p <-> member Minus (in_polygons [minuend] p) (in_polygons subtrahend p))).
Proof. exact subtract_multipolygon_from_polygon_points. Qed.
Print Assumptions C39_subtract_multipolygon_from_polygon_points_partial.
Theorem C39_subtract_polygon_from_multipolygon_points_partial : forall x, right_locators x -> forall minuend subtrahend, valid_polygons minuend -> valid_polygon subtrahend -> (2 <= length minuend)%nat ->
  exists g, (forall o, subtract_polygon_from_multipolygon x o minuend subtrahend = Ok g) /\ (valid_polygons (polygons_of g) ->
    forall p, ~ on_segments p (flat_map polygon_edges (minuend ++ [subtrahend])) -> (in_polygons (polygons_of g) p <-> member Minus (in_polygons minuend p) (in_polygons [subtrahend] p))).
Proof. exact subtract_polygon_from_multipolygon_points. Qed.
Print Assumptions C39_subtract_polygon_from_multipolygon_points_partial.
Theorem C39_subtract_multipolygons_points_partial : forall x, right_locators x -> forall minuend subtrahend, valid_polygons minuend -> valid_polygons subtrahend -> (2 <= length minuend)%nat -> subtrahend <> [] ->
  exists g, (forall o, subtract_multipolygons x o minuend subtrahend = Ok g) /\ (valid_polygons (polygons_of g) ->
    forall p, ~ on_segments p (flat_map polygon_edges (minuend ++ subtrahend)) -> (in_polygons (polygons_of g) p <-> member Minus (in_polygons minuend p) (in_polygons subtrahend p))).
Proof. exact subtract_multipolygons_points. Qed.
Print Assumptions C39_subtract_multipolygons_points_partial.
Theorem C39_symmetric_subtract_polygons_points_partial : forall first second, valid_polygon first -> valid_polygon second ->
  exists g, (forall o, symmetric_subtract_polygons o first second = Ok g) /\ (valid_polygons (polygons_of g) ->
    forall p, ~ on_segments p (flat_map polygon_edges ([first] ++ [second])) -> (in_polygons (polygons_of g) p <-> member Differ (in_polygons [first] p) (in_polygons [second] p))).
Proof. exact symmetric_subtract_polygons_points. Qed.
Print Assumptions C39_symmetric_subtract_polygons_points_partial.
Theorem C39_symmetric_subtract_multipolygon_from_polygon_points_partial : forall shape multipolygon, valid_polygon shape -> valid_polygons multipolygon -> multipolygon <> [] ->
  exists g, (forall o, symmetric_subtract_multipolygon_from_polygon o shape multipolygon = Ok g) /\ (valid_polygons (polygons_of g) ->
    forall p, ~ on_segments p (flat_map polygon_edges ([shape] ++ multipolygon)) -> (in_polygons (polygons_of g) p <-> member Differ (in_polygons [shape] p) (in_polygons multipolygon p))).
Proof. exact symmetric_subtract_multipolygon_from_polygon_points. Qed.
Print Assumptions C39_symmetric_subtract_multipolygon_from_polygon_points_partial.
Theorem C39_symmetric_subtract_multipolygons_points_partial : forall first second, valid_polygons first -> valid_polygons second -> first <> [] -> second <> [] ->
  exists g, (forall o, symmetric_subtract_multipolygons o first second = Ok g) /\ (valid_polygons (polygons_of g) ->
    forall p, ~ on_segments p (flat_map polygon_edges (first ++ second)) -> (in_polygons (polygons_of g) p <-> member Differ (in_polygons first p) (in_polygons second p))).
Proof. exact symmetric_subtract_multipolygons_points. Qed.
Print Assumptions C39_symmetric_subtract_multipolygons_points_partial.
Theorem C39_unite_polygons_points_partial : forall first second, valid_polygon first -> valid_polygon second ->
  exists g, (forall o, unite_polygons o first second = Ok g) /\ (valid_polygons (polygons_of g) ->
    forall p, ~ on_segments p (flat_map polygon_edges ([first] ++ [second])) -> (in_polygons (polygons_of g) p <-> member Join (in_polygons [first] p) (in_polygons [second] p))).
Proof. exact unite_polygons_points. Qed.
Print Assumptions C39_unite_polygons_points_partial.
Theorem C39_unite_polygon_with_multipolygon_points_partial : forall shape multipolygon, valid_polygon shape -> valid_polygons multipolygon -> multipolygon <> [] ->
  exists g, (forall o, unite_polygon_with_multipolygon o shape multipolygon = Ok g) /\ (valid_polygons (polygons_of g) ->
    forall p, ~ on_segments p (flat_map polygon_edges ([shape] ++ multipolygon)) -> (in_polygons (polygons_of g) p <-> member Join (in_polygons [shape] p) (in_polygons multipolygon p))).
Proof. exact unite_polygon_with_multipolygon_points. Qed.
Print Assumptions C39_unite_polygon_with_multipolygon_points_partial.
Theorem C39_unite_multipolygons_points_partial : forall first second, valid_polygons first -> valid_polygons second -> first <> [] -> second <> [] ->
  exists g, (forall o, unite_multipolygons o first second = Ok g) /\ (valid_polygons (polygons_of g) ->
    forall p, ~ on_segments p (flat_map polygon_edges (first ++ second)) -> (in_polygons (polygons_of g) p <-> member Join (in_polygons first p) (in_polygons second p))).
Proof. exact unite_multipolygons_points. Qed.
Print Assumptions C39_unite_multipolygons_points_partial.

(** Rectangles crossing each other: what is left of the first one is returned as
    two polygons, which are valid by C43. *)
Example C39_example_valid : right_locators reference_locators /\ valid_polygon (rectangle 0 0 6 2) /\ valid_polygon (rectangle 2 (-1) 4 3) /\ mild_position [rectangle 0 0 6 2] [rectangle 2 (-1) 4 3].
Proof.
  split; [exact reference_right|]. split; [apply plain_valid, simple_by_check; vm_compute; reflexivity|]. split; [apply plain_valid, simple_by_check; vm_compute; reflexivity|].
  apply mild_by_test. vm_compute. reflexivity.
Qed.
Example C39_example_right : shown_polygons (subtract_polygons reference_locators ex_oracle (rectangle 0 0 6 2) (rectangle 2 (-1) 4 3)) = (Some [([(0, 0); (2, 0); (2, 2); (0, 2)], []); ([(4, 0); (6, 0); (6, 2); (4, 2)], [])])%Q.
Proof. vm_compute. reflexivity. Qed.
