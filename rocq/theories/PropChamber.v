(** Property C46: intersections of regions return valid regions.  Here [o]
    stands for any behaviour of the external priority queue and tree. *)
From Verif Require Import QcTac Geom Spec SpecShape SpecSides SpecLocate SpecTurn SpecReach SpecChamber GeomFacts Pair Sweep Contour Filter Mixed Shaped MixedProps ShapedProps RegionProps Locate Rectangle Examples SimpleCheck PropRegion ChamberProps.

Theorem C46_intersect_regions : forall x, right_locators x -> forall first second, simple_contour (vertices first) -> simple_contour (vertices second) ->
  exists g, (forall o, intersect_regions x o first second = Ok g) /\ region_result [first] [second] (polygons_of g).
Proof. exact intersect_regions_valid. Qed.
Print Assumptions C46_intersect_regions.
Theorem C46_intersect_region_with_multiregion : forall x, right_locators x -> forall region multiregion, simple_contour (vertices region) -> valid_regions multiregion -> multiregion <> [] ->
  exists g, (forall o, intersect_region_with_multiregion x o region multiregion = Ok g) /\ region_result [region] multiregion (polygons_of g).
Proof. exact intersect_region_with_multiregion_valid. Qed.
Print Assumptions C46_intersect_region_with_multiregion.
Theorem C46_intersect_multiregions : forall x, right_locators x -> forall first second, valid_regions first -> valid_regions second -> first <> [] -> second <> [] ->
  exists g, (forall o, intersect_multiregions x o first second = Ok g) /\ region_result first second (polygons_of g).
Proof. exact intersect_multiregions_valid. Qed.
Print Assumptions C46_intersect_multiregions.
Theorem C46_complete_intersect_regions : forall x, right_locators x -> forall first second, simple_contour (vertices first) -> simple_contour (vertices second) ->
  exists g, (forall o, complete_intersect_regions x o first second = Ok g) /\ region_result [first] [second] (polygons_of g).
Proof. exact complete_intersect_regions_valid. Qed.
Print Assumptions C46_complete_intersect_regions.
Theorem C46_complete_intersect_region_with_multiregion : forall x, right_locators x -> forall region multiregion, simple_contour (vertices region) -> valid_regions multiregion -> multiregion <> [] ->
  exists g, (forall o, complete_intersect_region_with_multiregion x o region multiregion = Ok g) /\ region_result [region] multiregion (polygons_of g).
Proof. exact complete_intersect_region_with_multiregion_valid. Qed.
Print Assumptions C46_complete_intersect_region_with_multiregion.
Theorem C46_complete_intersect_multiregions : forall x, right_locators x -> forall first second, valid_regions first -> valid_regions second -> first <> [] -> second <> [] ->
  exists g, (forall o, complete_intersect_multiregions x o first second = Ok g) /\ region_result first second (polygons_of g).
Proof. exact complete_intersect_multiregions_valid. Qed.
Print Assumptions C46_complete_intersect_multiregions.

(** Regions with dents which meet at a point and with overlapping edges: two
    regions with a common vertex are returned. *)
Definition ex_top : contour := Contour [pt 0 0; pt 4 0; pt 4 3; pt 2 1; pt 0 3].
Definition ex_bottom : contour := Contour [pt 0 0; pt 2 1; pt 4 0; pt 4 3; pt 0 3].
Example C46_example_valid : right_locators reference_locators /\ simple_contour (vertices ex_top) /\ simple_contour (vertices ex_bottom).
Proof. split; [exact reference_right|]. split; apply simple_by_check; vm_compute; reflexivity. Qed.
Example C46_example : shown (intersect_regions reference_locators ex_oracle ex_top ex_bottom) = Some [[(0, 0); (2, 1); (0, 3)]; [(2, 1); (4, 0); (4, 3)]]%Q
  /\ shown (complete_intersect_regions reference_locators ex_oracle ex_top ex_bottom) = Some [[(0, 0); (2, 1); (0, 3)]; [(2, 1); (4, 0); (4, 3)]]%Q.
Proof. vm_compute. split; reflexivity. Qed.
(** The regions returned form an operand again: the part of them in a strip. *)
Example C46_example_again : exists rs, valid_regions rs /\ length rs = 2%nat /\ (exists g, (forall o, intersect_multiregions reference_locators o rs [ex_strip] = Ok g) /\ region_result rs [ex_strip] (polygons_of g))
  /\ shown (intersect_multiregions reference_locators ex_oracle rs [ex_strip]) = Some [[(0, 0); (2, 1); (1, 2); (0, 2)]; [(2, 1); (4, 0); (4, 2); (3, 2)]]%Q.
Proof.
  destruct C46_example_valid as (L & S1 & S2). destruct (C46_intersect_regions _ L _ _ S1 S2) as (g & R & _ & V & _).
  assert (E : intersect_regions reference_locators ex_oracle ex_top ex_bottom = Ok g) by apply R.
  assert (Eb : map border (polygons_of g) = match intersect_regions reference_locators ex_oracle ex_top ex_bottom with Ok g => map border (polygons_of g) | _ => [] end) by (rewrite E; reflexivity).
  assert (Le : length (map border (polygons_of g)) = 2%nat) by (rewrite Eb; vm_compute; reflexivity).
  exists (map border (polygons_of g)). split; [exact V|]. split; [exact Le|]. split.
  - apply (C46_intersect_multiregions _ L); [exact V|apply single_region, rectangle_simple; reflexivity| |discriminate]. intro N. rewrite N in Le. discriminate Le.
  - rewrite Eb. vm_compute. reflexivity.
Qed.
