(** Property C36: selection of polygons and regions by a box. *)
From Verif Require Import QcTac Geom Spec SpecShape SpecLocate Bounding Filter CoupledThms Locate Rectangle Examples.

(** C36 *)
Theorem C36_intersects_with_polygon : forall x b g, right_locators x -> wf_box b -> valid_polygon g ->
  (intersects_with_polygon x b g = true <-> exists p, in_box p b /\ in_polygon g p).
Proof. exact intersects_polygon_points. Qed.
Print Assumptions C36_intersects_with_polygon.
Theorem C36_intersects_with_region : forall x b c, right_locators x -> wf_box b -> simple_contour (vertices c) ->
  (intersects_with_region x b c = true <-> exists p, in_box p b /\ in_contour c p).
Proof. exact intersects_region_points. Qed.
Print Assumptions C36_intersects_with_region.
Theorem C36_within_of_region : forall x b c, right_locators x -> wf_box b -> simple_contour (vertices c) ->
  (within_of_region x b c = true <-> forall p, in_box p b -> inside_contour c p).
Proof. exact within_region_points. Qed.
Print Assumptions C36_within_of_region.
(** Polygons and regions with inner points in a box are never left out as
    uncoupled; the box is not a single point. *)
Theorem C36_coupled_with_polygon : forall x b g p, right_locators x ->
  wf_box b -> min_x b < max_x b \/ min_y b < max_y b -> valid_polygon g ->
  in_box p b -> inside_polygon g p -> coupled_with_polygon x b g = true.
Proof. exact coupled_polygon_kept. Qed.
Print Assumptions C36_coupled_with_polygon.
Theorem C36_coupled_with_region : forall x b c p, right_locators x ->
  wf_box b -> min_x b < max_x b \/ min_y b < max_y b -> simple_contour (vertices c) ->
  in_box p b -> inside_contour c p -> coupled_with_region x b c = true.
Proof. exact coupled_region_kept. Qed.
Print Assumptions C36_coupled_with_region.
(** The square [0, 4] x [0, 4] with the hole [1, 3] x [1, 3], boxes in the hole,
    across it, outside. *)
Definition ex_holey : polygon := frame (z 0) (z 0) (z 4) (z 4) (z 1) (z 1) (z 3) (z 3).
Example C36_example_valid : right_locators reference_locators /\ valid_polygon ex_holey.
Proof. split; [exact reference_right|apply frame_valid; repeat split]. Qed.
Example C36_example : let check b := (intersects_with_polygon reference_locators b ex_holey, intersects_with_region reference_locators b (border ex_holey),
    within_of_region reference_locators b (border ex_holey), coupled_with_polygon reference_locators b ex_holey, coupled_with_region reference_locators b (border ex_holey)) in
  map check [Box (Q2Qc (3 # 2)) (z 2) (z 2) (z 2); Box (z 1) (z 2) (z 1) (z 3); Box (z 2) (z 5) (z 2) (z 2); Box (z 4) (z 5) (z 1) (z 2); Box (z 5) (z 6) (z 1) (z 2)]
  = [(false, true, true, false, true); (true, true, true, false, true); (true, true, false, true, true); (true, true, false, true, true); (false, false, false, false, false)].
Proof. vm_compute. reflexivity. Qed.
