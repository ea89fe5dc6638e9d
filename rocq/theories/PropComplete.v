(** Property C40: complete intersections of regions and of polygons.  Here [o]
    stands for any behaviour of the external priority queue and tree. *)
From Verif Require Import QcTac Geom Spec SpecShape SpecSides SpecLocate Pair Sweep Contour Filter Mixed Shaped Holey Locate Rectangle Examples PropShaped ShapedProps PropHoley SimpleCheck CompleteProps.

Theorem C40_complete_intersect_regions : forall x, right_locators x -> forall first second,
  simple_contour (vertices first) -> simple_contour (vertices second) ->
  exists g, (forall o, complete_intersect_regions x o first second = Ok g) /\ canonical g
  /\ complete_common (in_contour first) (in_contour second) (contour_edges (vertices first)) (contour_edges (vertices second)) g
  /\ Forall (fun q => holes q = [] /\ never_folds (vertices (border q))
                      /\ forall j, (j < length (vertices (border q)))%nat -> ~ straight (vertices (border q)) j) (polygons_of g).
Proof. exact complete_intersect_regions_correct. Qed.
Print Assumptions C40_complete_intersect_regions.
Theorem C40_complete_intersect_region_with_multiregion : forall x, right_locators x -> forall region multiregion,
  simple_contour (vertices region) -> valid_regions multiregion -> multiregion <> [] ->
  exists g, (forall o, complete_intersect_region_with_multiregion x o region multiregion = Ok g) /\ canonical g
  /\ complete_common (in_contour region) (in_regions multiregion) (contour_edges (vertices region))
       (flat_map (fun c => contour_edges (vertices c)) multiregion) g
  /\ Forall (fun q => holes q = [] /\ never_folds (vertices (border q))
                      /\ forall j, (j < length (vertices (border q)))%nat -> ~ straight (vertices (border q)) j) (polygons_of g).
Proof. exact complete_intersect_region_multiregion_correct. Qed.
Print Assumptions C40_complete_intersect_region_with_multiregion.
Theorem C40_complete_intersect_multiregions : forall x, right_locators x -> forall first second,
  valid_regions first -> valid_regions second -> first <> [] -> second <> [] ->
  exists g, (forall o, complete_intersect_multiregions x o first second = Ok g) /\ canonical g
  /\ complete_common (in_regions first) (in_regions second) (flat_map (fun c => contour_edges (vertices c)) first)
       (flat_map (fun c => contour_edges (vertices c)) second) g
  /\ Forall (fun q => holes q = [] /\ never_folds (vertices (border q))
                      /\ forall j, (j < length (vertices (border q)))%nat -> ~ straight (vertices (border q)) j) (polygons_of g).
Proof. exact complete_intersect_multiregions_correct. Qed.
Print Assumptions C40_complete_intersect_multiregions.
Theorem C40_complete_intersect_polygons : forall x, right_locators x -> forall first second,
  valid_polygon first -> valid_polygon second ->
  exists g, (forall o, complete_intersect_polygons x o first second = Ok g) /\ canonical g
  /\ complete_common (in_polygon first) (in_polygon second) (polygon_edges first) (polygon_edges second) g
  /\ bounds_result Meet [first] [second] (polygons_of g) /\ no_straight_vertices (polygons_of g).
Proof. exact complete_intersect_polygons_correct. Qed.
Print Assumptions C40_complete_intersect_polygons.
Theorem C40_complete_intersect_polygon_with_multipolygon : forall x, right_locators x -> forall shape multipolygon,
  valid_polygon shape -> valid_polygons multipolygon -> multipolygon <> [] ->
  exists g, (forall o, complete_intersect_polygon_with_multipolygon x o shape multipolygon = Ok g) /\ canonical g
  /\ complete_common (in_polygon shape) (in_polygons multipolygon) (polygon_edges shape) (flat_map polygon_edges multipolygon) g
  /\ bounds_result Meet [shape] multipolygon (polygons_of g) /\ no_straight_vertices (polygons_of g).
Proof. exact complete_intersect_polygon_multipolygon_correct. Qed.
Print Assumptions C40_complete_intersect_polygon_with_multipolygon.
Theorem C40_complete_intersect_multipolygons : forall x, right_locators x -> forall first second,
  valid_polygons first -> valid_polygons second -> first <> [] -> second <> [] ->
  exists g, (forall o, complete_intersect_multipolygons x o first second = Ok g) /\ canonical g
  /\ complete_common (in_polygons first) (in_polygons second) (flat_map polygon_edges first) (flat_map polygon_edges second) g
  /\ bounds_result Meet first second (polygons_of g) /\ no_straight_vertices (polygons_of g).
Proof. exact complete_intersect_multipolygons_correct. Qed.
Print Assumptions C40_complete_intersect_multipolygons.

(** A frame, and a shape sharing a point, a segment and a square with it. *)
Definition ex_clamp : contour := Contour [pt 4 0; pt 7 0; pt 7 5; pt 3 5; pt 3 3; pt 5 3; pt 5 2; pt 4 2; pt 4 1; pt 5 1].
Definition ex_plate : contour := rectangle (z 0) (z 0) (z 4) (z 4).
Example C40_example_valid : right_locators reference_locators /\ simple_contour (vertices ex_clamp) /\ simple_contour (vertices ex_plate)
  /\ valid_polygon (Polygon ex_clamp []) /\ valid_polygon ex_left.
Proof.
  assert (S : simple_contour (vertices ex_clamp)) by (apply simple_by_check; vm_compute; reflexivity).
  split; [exact reference_right|]. split; [exact S|]. split; [apply rectangle_simple; reflexivity|]. split; [|apply frame_valid; repeat split].
  exact (Forall_inv (proj1 (solid_valid [ex_clamp] (single_region ex_clamp S)))).
Qed.
Definition shown_mix (r : res geometry) :=
  match r with
  | Ok g => Some (map show_point (points_of g), map (fun s => (show_point (s_start s), show_point (s_end s))) (segments_of g),
                  map (fun q => map show_point (vertices (border q))) (polygons_of g))
  | Err _ => None
  end.
Example C40_example_polygons : shown_mix (complete_intersect_polygons reference_locators ex_oracle ex_left (Polygon ex_clamp []))
  = Some ([(4, 0)], [((4, 1), (4, 2))], [[(3, 3); (4, 3); (4, 4); (3, 4)]])%Q.
Proof. vm_compute. reflexivity. Qed.
Example C40_example_regions : shown_mix (complete_intersect_regions reference_locators ex_oracle ex_clamp ex_plate)
  = Some ([(4, 0)], [((4, 1), (4, 2))], [[(3, 3); (4, 3); (4, 4); (3, 4)]])%Q.
Proof. vm_compute. reflexivity. Qed.
