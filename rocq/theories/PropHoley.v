(** Properties C38 and C39: operations on polygons.  Here [o] stands for any
    behaviour of the external priority queue and tree. *)
From Coq Require Import Permutation.
From Verif Require Import QcTac Geom Spec SpecShape SpecSides SpecLocate Pair Sweep Contour Filter Mixed Shaped Holey HoleyProps Locate Rectangle Examples PropShaped HoleyNest.

(** C38 *)
Theorem C38_intersect_polygons : forall x, right_locators x -> forall first second, 
  valid_polygon first -> valid_polygon second -> 
  exists g, (forall o, intersect_polygons x o first second = Ok g) /\ canonical g
  /\ no_straight_vertices (polygons_of g)
  /\ points_of g = [] /\ segments_of g = [] /\ bounds_result Meet [first] [second] (polygons_of g).
Proof. exact intersect_polygons_correct. Qed.
Print Assumptions C38_intersect_polygons.
Theorem C38_intersect_polygon_with_multipolygon : forall x, right_locators x -> forall shape multipolygon, 
  valid_polygon shape -> valid_polygons multipolygon -> multipolygon <> [] ->
  exists g, (forall o, intersect_polygon_with_multipolygon x o shape multipolygon = Ok g) /\ canonical g
  /\ no_straight_vertices (polygons_of g)
  /\ points_of g = [] /\ segments_of g = [] /\ bounds_result Meet [shape] multipolygon (polygons_of g).
Proof. exact intersect_polygon_multipolygon_correct. Qed.
Print Assumptions C38_intersect_polygon_with_multipolygon.
Theorem C38_intersect_multipolygons : forall x, right_locators x -> forall first second, 
  valid_polygons first -> valid_polygons second -> first <> [] -> second <> [] ->
  exists g, (forall o, intersect_multipolygons x o first second = Ok g) /\ canonical g
  /\ no_straight_vertices (polygons_of g)
  /\ points_of g = [] /\ segments_of g = [] /\ bounds_result Meet first second (polygons_of g).
Proof. exact intersect_multipolygons_correct. Qed.
Print Assumptions C38_intersect_multipolygons.
Theorem C38_subtract_polygons : forall x, right_locators x -> forall minuend subtrahend, 
  valid_polygon minuend -> valid_polygon subtrahend -> 
  exists g, (forall o, subtract_polygons x o minuend subtrahend = Ok g) /\ canonical g
  /\ (g = GPolygon minuend \/ no_straight_vertices (polygons_of g))
  /\ points_of g = [] /\ segments_of g = [] /\ bounds_result Minus [minuend] [subtrahend] (polygons_of g).
Proof. exact subtract_polygons_correct. Qed.
Print Assumptions C38_subtract_polygons.
Theorem C38_subtract_multipolygon_from_polygon : forall x, right_locators x -> forall minuend subtrahend, 
  valid_polygon minuend -> valid_polygons subtrahend -> subtrahend <> [] ->
  exists g, (forall o, subtract_multipolygon_from_polygon x o minuend subtrahend = Ok g) /\ canonical g
  /\ (g = GPolygon minuend \/ no_straight_vertices (polygons_of g))
  /\ points_of g = [] /\ segments_of g = [] /\ bounds_result Minus [minuend] subtrahend (polygons_of g).
Proof. exact subtract_multipolygon_polygon_correct. Qed.
Print Assumptions C38_subtract_multipolygon_from_polygon.
Theorem C38_subtract_polygon_from_multipolygon : forall x, right_locators x -> forall minuend subtrahend, 
  valid_polygons minuend -> valid_polygon subtrahend -> (2 <= length minuend)%nat ->
  exists g, (forall o, subtract_polygon_from_multipolygon x o minuend subtrahend = Ok g) /\ canonical g
  /\ (g = GMultipolygon minuend \/ no_straight_vertices (polygons_of g))
  /\ points_of g = [] /\ segments_of g = [] /\ bounds_result Minus minuend [subtrahend] (polygons_of g).
Proof. exact subtract_polygon_multipolygon_correct. Qed.
Print Assumptions C38_subtract_polygon_from_multipolygon.
Theorem C38_subtract_multipolygons : forall x, right_locators x -> forall minuend subtrahend, 
  valid_polygons minuend -> valid_polygons subtrahend -> (2 <= length minuend)%nat -> subtrahend <> [] ->
  exists g, (forall o, subtract_multipolygons x o minuend subtrahend = Ok g) /\ canonical g
  /\ (g = GMultipolygon minuend \/ no_straight_vertices (polygons_of g))
  /\ points_of g = [] /\ segments_of g = [] /\ bounds_result Minus minuend subtrahend (polygons_of g).
Proof. exact subtract_multipolygons_correct. Qed.
Print Assumptions C38_subtract_multipolygons.
Theorem C38_symmetric_subtract_polygons : forall first second, 
  valid_polygon first -> valid_polygon second -> 
  exists g, (forall o, symmetric_subtract_polygons o first second = Ok g) /\ canonical g
  /\ (Permutation (polygons_of g) ([first] ++ [second]) \/ no_straight_vertices (polygons_of g))
  /\ points_of g = [] /\ segments_of g = [] /\ bounds_result Differ [first] [second] (polygons_of g).
Proof. exact symmetric_subtract_polygons_correct. Qed.
Print Assumptions C38_symmetric_subtract_polygons.
Theorem C38_symmetric_subtract_multipolygon_from_polygon : forall shape multipolygon, 
  valid_polygon shape -> valid_polygons multipolygon -> multipolygon <> [] ->
  exists g, (forall o, symmetric_subtract_multipolygon_from_polygon o shape multipolygon = Ok g) /\ canonical g
  /\ (Permutation (polygons_of g) ([shape] ++ multipolygon) \/ no_straight_vertices (polygons_of g))
  /\ points_of g = [] /\ segments_of g = [] /\ bounds_result Differ [shape] multipolygon (polygons_of g).
Proof. exact symmetric_subtract_multipolygon_polygon_correct. Qed.
Print Assumptions C38_symmetric_subtract_multipolygon_from_polygon.
Theorem C38_symmetric_subtract_multipolygons : forall first second, 
  valid_polygons first -> valid_polygons second -> first <> [] -> second <> [] ->
  exists g, (forall o, symmetric_subtract_multipolygons o first second = Ok g) /\ canonical g
  /\ (Permutation (polygons_of g) (first ++ second) \/ no_straight_vertices (polygons_of g))
  /\ points_of g = [] /\ segments_of g = [] /\ bounds_result Differ first second (polygons_of g).
Proof. exact symmetric_subtract_multipolygons_correct. Qed.
Print Assumptions C38_symmetric_subtract_multipolygons.
Theorem C38_unite_polygons : forall first second, 
  valid_polygon first -> valid_polygon second -> 
  exists g, (forall o, unite_polygons o first second = Ok g) /\ canonical g
  /\ (Permutation (polygons_of g) ([first] ++ [second]) \/ no_straight_vertices (polygons_of g))
  /\ points_of g = [] /\ segments_of g = [] /\ bounds_result Join [first] [second] (polygons_of g).
Proof. exact unite_polygons_correct. Qed.
Print Assumptions C38_unite_polygons.
Theorem C38_unite_polygon_with_multipolygon : forall shape multipolygon, 
  valid_polygon shape -> valid_polygons multipolygon -> multipolygon <> [] ->
  exists g, (forall o, unite_polygon_with_multipolygon o shape multipolygon = Ok g) /\ canonical g
  /\ (Permutation (polygons_of g) ([shape] ++ multipolygon) \/ no_straight_vertices (polygons_of g))
  /\ points_of g = [] /\ segments_of g = [] /\ bounds_result Join [shape] multipolygon (polygons_of g).
Proof. exact unite_polygon_multipolygon_correct. Qed.
Print Assumptions C38_unite_polygon_with_multipolygon.
Theorem C38_unite_multipolygons : forall first second, 
  valid_polygons first -> valid_polygons second -> first <> [] -> second <> [] ->
  exists g, (forall o, unite_multipolygons o first second = Ok g) /\ canonical g
  /\ (Permutation (polygons_of g) (first ++ second) \/ no_straight_vertices (polygons_of g))
  /\ points_of g = [] /\ segments_of g = [] /\ bounds_result Join first second (polygons_of g).
Proof. exact unite_multipolygons_correct. Qed.
Print Assumptions C38_unite_multipolygons.

(** Frames with overlapping edges. *)
Example C38_example_valid : right_locators reference_locators /\ valid_polygon ex_left /\ valid_polygon ex_right.
Proof. split; [exact reference_right|]. split; apply frame_valid; repeat split. Qed.
Definition shown_polygons (r : res geometry) : option (list (list (Q * Q) * list (list (Q * Q)))) :=
  match r with Ok g => Some (map (fun q => (map show_point (vertices (border q)), map (fun c => map show_point (vertices c)) (holes q))) (polygons_of g)) | Err _ => None end.
Example C38_example_intersection : shown_polygons (intersect_polygons reference_locators ex_oracle ex_left ex_right)
  = Some [([(2, 0); (4, 0); (4, 1); (2, 1)], []); ([(2, 3); (4, 3); (4, 4); (2, 4)], [])]%Q.
Proof. vm_compute. reflexivity. Qed.
Example C38_example_difference : shown_polygons (subtract_polygons reference_locators ex_oracle ex_left ex_right) = (Some [([(0, 0); (2, 0); (2, 1); (1, 1); (1, 3); (2, 3); (2, 4); (0, 4)], []); ([(3, 1); (4, 1); (4, 3); (3, 3)], [])])%Q.
Proof. vm_compute. reflexivity. Qed.
Example C38_example_symmetric_difference : shown_polygons (symmetric_subtract_polygons ex_oracle ex_left ex_right) = (Some [([(0, 0); (2, 0); (2, 1); (1, 1); (1, 3); (2, 3); (2, 4); (0, 4)], []); ([(2, 1); (4, 1); (4, 3); (2, 3)], []); ([(4, 0); (6, 0); (6, 4); (4, 4); (4, 3); (5, 3); (5, 1); (4, 1)], [])])%Q.
Proof. vm_compute. reflexivity. Qed.
Example C38_example_union : shown_polygons (unite_polygons ex_oracle ex_left ex_right) = (Some [([(0, 0); (6, 0); (6, 4); (0, 4)], [[(1, 1); (1, 3); (2, 3); (2, 1)]; [(4, 1); (4, 3); (5, 3); (5, 1)]])])%Q.
Proof. vm_compute. reflexivity. Qed.
Example C38_example_multipolygons : shown_polygons (subtract_multipolygons reference_locators ex_oracle [ex_left; frame (z 8) (z 0) (z 12) (z 4) (z 9) (z 1) (z 11) (z 3)] [ex_right; frame (z 7) (z 0) (z 13) (z 4) (z 8) (z 1) (z 12) (z 3)]) = (Some [([(0, 0); (2, 0); (2, 1); (1, 1); (1, 3); (2, 3); (2, 4); (0, 4)], []); ([(3, 1); (4, 1); (4, 3); (3, 3)], []); ([(8, 1); (9, 1); (9, 3); (8, 3)], []); ([(11, 1); (12, 1); (12, 3); (11, 3)], [])])%Q.
Proof. vm_compute. reflexivity. Qed.

(** C39: points of polygons returned are the ones of the result.  This does not
    hold: the start of a hole's edge may be in the middle of an edge below it,
    which is then divided there, and the polygon found for the hole by the part before the
    division is not the one the hole lies in. *)
Theorem C39_subtract_polygons_points_refuted : exists minuend subtrahend g p, valid_polygon minuend /\ valid_polygon subtrahend
  /\ (forall o, subtract_polygons reference_locators o minuend subtrahend = Ok g)
  /\ ~ on_segments p (flat_map polygon_edges ([minuend] ++ [subtrahend]))
  /\ in_polygons (polygons_of g) p /\ ~ in_polygons [minuend] p.
Proof. exact nest_wrong. Qed.
Print Assumptions C39_subtract_polygons_points_refuted.
Example C39_example_wrong : shown_polygons (subtract_polygons reference_locators ex_oracle nest_square nest_arch) = (Some [([(0, 0); (4, 0); (6, 6); (9, 6); (9, 0); (10, 0); (10, 10); (0, 10)], [[(4, 0); (6, 2); (6, 1)]]); ([(4, 0); (8, 0); (8, 3); (6, 4)], [])])%Q.
Proof. vm_compute. reflexivity. Qed.
(** Missing here: conditions on operands under which polygons returned are valid. *)
Theorem C39_subtract_polygons_points_partial : forall x, right_locators x -> forall o minuend subtrahend g, valid_polygon minuend -> valid_polygon subtrahend ->
  subtract_polygons x o minuend subtrahend = Ok g -> valid_polygons (polygons_of g) ->
  forall p, ~ on_segments p (flat_map polygon_edges ([minuend] ++ [subtrahend])) ->
  (in_polygons (polygons_of g) p <-> in_polygons [minuend] p /\ ~ in_polygons [subtrahend] p).
Proof. exact subtract_polygons_points. Qed.
Print Assumptions C39_subtract_polygons_points_partial.
