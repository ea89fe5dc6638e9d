(** Property C37: intersections of regions.  Here [o] stands for any behaviour of
    the external priority queue and tree. *)
From Verif Require Import QcTac Geom Spec SpecShape SpecLocate Pair Sweep Contour Filter Shaped ShapedProps RegionProps Locate Rectangle Examples.

(** C37 *)
Theorem C37_intersect_regions : forall x first second, right_locators x ->
  simple_contour (vertices first) -> simple_contour (vertices second) ->
  exists g, (forall o, intersect_regions x o first second = Ok g)
  /\ canonical g /\ points_of g = [] /\ segments_of g = []
  /\ Forall (fun q => holes q = [] /\ never_folds (vertices (border q))
                      /\ forall j, (j < length (vertices (border q)))%nat -> ~ straight (vertices (border q)) j) (polygons_of g)
  /\ (forall p, on_segments p (flat_map polygon_edges (polygons_of g)) ->
        on_segments p (flat_map (fun c => contour_edges (vertices c)) ([first] ++ [second])))
  /\ forall p, ~ on_segments p (flat_map (fun c => contour_edges (vertices c)) ([first] ++ [second])) ->
       (inside (flat_map polygon_edges (polygons_of g)) p = true <-> in_regions [first] p /\ in_regions [second] p).
Proof. exact intersect_regions_correct. Qed.
Print Assumptions C37_intersect_regions.
Theorem C37_intersect_region_with_multiregion : forall x region multiregion, right_locators x ->
  simple_contour (vertices region) -> valid_regions multiregion -> multiregion <> [] ->
  exists g, (forall o, intersect_region_with_multiregion x o region multiregion = Ok g)
  /\ canonical g /\ points_of g = [] /\ segments_of g = []
  /\ Forall (fun q => holes q = [] /\ never_folds (vertices (border q))
                      /\ forall j, (j < length (vertices (border q)))%nat -> ~ straight (vertices (border q)) j) (polygons_of g)
  /\ (forall p, on_segments p (flat_map polygon_edges (polygons_of g)) ->
        on_segments p (flat_map (fun c => contour_edges (vertices c)) ([region] ++ multiregion)))
  /\ forall p, ~ on_segments p (flat_map (fun c => contour_edges (vertices c)) ([region] ++ multiregion)) ->
       (inside (flat_map polygon_edges (polygons_of g)) p = true <-> in_regions [region] p /\ in_regions multiregion p).
Proof. exact intersect_region_multiregion_correct. Qed.
Print Assumptions C37_intersect_region_with_multiregion.
Theorem C37_intersect_multiregions : forall x first second, right_locators x ->
  valid_regions first -> valid_regions second -> first <> [] -> second <> [] ->
  exists g, (forall o, intersect_multiregions x o first second = Ok g)
  /\ canonical g /\ points_of g = [] /\ segments_of g = []
  /\ Forall (fun q => holes q = [] /\ never_folds (vertices (border q))
                      /\ forall j, (j < length (vertices (border q)))%nat -> ~ straight (vertices (border q)) j) (polygons_of g)
  /\ (forall p, on_segments p (flat_map polygon_edges (polygons_of g)) ->
        on_segments p (flat_map (fun c => contour_edges (vertices c)) (first ++ second)))
  /\ forall p, ~ on_segments p (flat_map (fun c => contour_edges (vertices c)) (first ++ second)) ->
       (inside (flat_map polygon_edges (polygons_of g)) p = true <-> in_regions first p /\ in_regions second p).
Proof. exact intersect_multiregions_correct. Qed.
Print Assumptions C37_intersect_multiregions.

(** Rectangles with overlapping edges, and one touching the result. *)
Definition ex_strip : contour := rectangle (z 0) (z 0) (z 4) (z 2).
Definition ex_cube : contour := rectangle (z 2) (z 0) (z 6) (z 3).
Definition ex_touching : contour := rectangle (z 1) (z (-2)) (z 2) (z 0).
Example C37_example_valid : right_locators reference_locators /\ simple_contour (vertices ex_strip) /\ simple_contour (vertices ex_cube)
  /\ simple_contour (vertices ex_touching).
Proof. split; [exact reference_right|]. split; [|split]; apply rectangle_simple; reflexivity. Qed.
Example C37_example_regions : valid_regions [ex_strip] /\ valid_regions [ex_cube].
Proof. split; apply single_region, rectangle_simple; reflexivity. Qed.
Definition shown (r : res geometry) : option (list (list (Q * Q))) :=
  match r with Ok g => Some (map (fun q => map show_point (vertices (border q))) (polygons_of g)) | Err _ => None end.
Example C37_example : shown (intersect_regions reference_locators ex_oracle ex_strip ex_cube) = Some [[(2, 0); (4, 0); (4, 2); (2, 2)]]%Q
  /\ shown (intersect_regions reference_locators ex_oracle ex_strip ex_touching) = Some []
  /\ shown (intersect_region_with_multiregion reference_locators ex_oracle ex_strip [ex_touching; ex_cube]) = Some [[(2, 0); (4, 0); (4, 2); (2, 2)]]%Q
  /\ shown (intersect_multiregions reference_locators ex_oracle [ex_touching; ex_cube] [ex_strip]) = Some [[(2, 0); (4, 0); (4, 2); (2, 2)]]%Q.
Proof. vm_compute. repeat split. Qed.
