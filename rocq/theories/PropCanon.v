(** Property C47: intersections of regions return canonical regions, determined
    by the points of operands.  Here [o] and [o'] stand for any behaviours of
    the external priority queue and tree. *)
From Verif Require Import QcTac Geom Spec SpecShape SpecSides SpecLocate SpecTurn SpecReach SpecChamber SpecCanon GeomFacts Pair Sweep Contour Filter Mixed Shaped MixedProps ShapedProps RegionProps Locate Rectangle Examples SimpleCheck PropRegion CanonProps.

Theorem C47_canonical_unique : forall rs rs', canonical_regions rs -> canonical_regions rs' -> (forall p, in_regions rs p <-> in_regions rs' p) -> rs = rs'.
Proof. exact canonical_unique. Qed.
Print Assumptions C47_canonical_unique.
Theorem C47_intersect_regions : forall x, right_locators x -> forall first second, simple_contour (vertices first) -> simple_contour (vertices second) ->
  exists g, (forall o, intersect_regions x o first second = Ok g) /\ forall gs, polygons_of g = gs <-> canonical_result [first] [second] gs.
Proof. exact intersect_regions_sole. Qed.
Print Assumptions C47_intersect_regions.
Theorem C47_intersect_region_with_multiregion : forall x, right_locators x -> forall region multiregion, simple_contour (vertices region) -> valid_regions multiregion -> multiregion <> [] ->
  exists g, (forall o, intersect_region_with_multiregion x o region multiregion = Ok g) /\ forall gs, polygons_of g = gs <-> canonical_result [region] multiregion gs.
Proof. exact intersect_region_with_multiregion_sole. Qed.
Print Assumptions C47_intersect_region_with_multiregion.
Theorem C47_intersect_multiregions : forall x, right_locators x -> forall first second, valid_regions first -> valid_regions second -> first <> [] -> second <> [] ->
  exists g, (forall o, intersect_multiregions x o first second = Ok g) /\ forall gs, polygons_of g = gs <-> canonical_result first second gs.
Proof. exact intersect_multiregions_sole. Qed.
Print Assumptions C47_intersect_multiregions.
Theorem C47_complete_intersect_regions : forall x, right_locators x -> forall first second, simple_contour (vertices first) -> simple_contour (vertices second) ->
  exists g, (forall o, complete_intersect_regions x o first second = Ok g) /\ forall gs, polygons_of g = gs <-> canonical_result [first] [second] gs.
Proof. exact complete_intersect_regions_sole. Qed.
Print Assumptions C47_complete_intersect_regions.
Theorem C47_complete_intersect_region_with_multiregion : forall x, right_locators x -> forall region multiregion, simple_contour (vertices region) -> valid_regions multiregion -> multiregion <> [] ->
  exists g, (forall o, complete_intersect_region_with_multiregion x o region multiregion = Ok g) /\ forall gs, polygons_of g = gs <-> canonical_result [region] multiregion gs.
Proof. exact complete_intersect_region_with_multiregion_sole. Qed.
Print Assumptions C47_complete_intersect_region_with_multiregion.
Theorem C47_complete_intersect_multiregions : forall x, right_locators x -> forall first second, valid_regions first -> valid_regions second -> first <> [] -> second <> [] ->
  exists g, (forall o, complete_intersect_multiregions x o first second = Ok g) /\ forall gs, polygons_of g = gs <-> canonical_result first second gs.
Proof. exact complete_intersect_multiregions_sole. Qed.
Print Assumptions C47_complete_intersect_multiregions.
(** Equal common points of operands give equal results. *)
Theorem C47_same_common : forall x x', right_locators x -> right_locators x' -> forall a b a' b', valid_regions a -> valid_regions b -> valid_regions a' -> valid_regions b' ->
  a <> [] -> b <> [] -> a' <> [] -> b' <> [] -> (forall p, in_regions a p /\ in_regions b p <-> in_regions a' p /\ in_regions b' p) ->
  forall o o', intersect_multiregions x o a b = intersect_multiregions x' o' a' b'.
Proof. exact intersect_same. Qed.
Print Assumptions C47_same_common.
Theorem C47_complete_same_common : forall x x', right_locators x -> right_locators x' -> forall a b a' b', valid_regions a -> valid_regions b -> valid_regions a' -> valid_regions b' ->
  a <> [] -> b <> [] -> a' <> [] -> b' <> [] -> (forall p, in_regions a p /\ in_regions b p <-> in_regions a' p /\ in_regions b' p) ->
  forall o o' g g', complete_intersect_multiregions x o a b = Ok g -> intersect_multiregions x' o' a' b' = Ok g' -> polygons_of g = polygons_of g'.
Proof. exact complete_same. Qed.
Print Assumptions C47_complete_same_common.
(** Swapped operands. *)
Theorem C47_intersect_regions_swap : forall x, right_locators x -> forall a b, simple_contour (vertices a) -> simple_contour (vertices b) ->
  forall o o', intersect_regions x o a b = intersect_regions x o' b a.
Proof. exact intersect_regions_swap. Qed.
Print Assumptions C47_intersect_regions_swap.
Theorem C47_intersect_multiregions_swap : forall x, right_locators x -> forall a b, valid_regions a -> valid_regions b -> a <> [] -> b <> [] ->
  forall o o', intersect_multiregions x o a b = intersect_multiregions x o' b a.
Proof. exact intersect_multiregions_swap. Qed.
Print Assumptions C47_intersect_multiregions_swap.
(** Canonical regions inside of the other operand are returned as they are. *)
Theorem C47_contained : forall x, right_locators x -> forall a b, canonical_regions a -> valid_regions b -> a <> [] -> b <> [] -> (forall p, in_regions a p -> in_regions b p) ->
  exists g, (forall o, intersect_multiregions x o a b = Ok g) /\ polygons_of g = map (fun r => Polygon r []) a.
Proof. exact intersect_contained. Qed.
Print Assumptions C47_contained.
(** Three operands, in any order of steps. *)
Theorem C47_associative : forall x, right_locators x -> forall a b c, valid_regions a -> valid_regions b -> valid_regions c -> a <> [] -> b <> [] -> c <> [] ->
  forall o gab gbc, intersect_multiregions x o a b = Ok gab -> intersect_multiregions x o b c = Ok gbc -> polygons_of gab <> [] -> polygons_of gbc <> [] ->
  forall o', intersect_multiregions x o' (map border (polygons_of gab)) c = intersect_multiregions x o' a (map border (polygons_of gbc)).
Proof. exact intersect_assoc. Qed.
Print Assumptions C47_associative.

(** A triangle and a region with a dent up to its vertex: two regions with the
    same first vertex are returned, the lower one is the first. *)
Definition ex_wedge : contour := Contour [pt 4 3; pt 0 0; pt 4 (-3)].
Definition ex_dented : contour := Contour [pt 5 1; pt 0 0; pt 5 (-1); pt 5 (-4); pt (-2) (-4); pt (-2) 4; pt 5 4].
Example C47_example_valid : right_locators reference_locators /\ simple_contour (vertices ex_wedge) /\ simple_contour (vertices ex_dented).
Proof. split; [exact reference_right|]. split; apply simple_by_check; vm_compute; reflexivity. Qed.
Definition ex_lower : list (Q * Q) := [(0, 0); (4, -3 # 1); (4, -4 # 5)]%Q.
Definition ex_upper : list (Q * Q) := [(0, 0); (4, 4 # 5); (4, 3)]%Q.
Example C47_example : shown (intersect_regions reference_locators ex_oracle ex_wedge ex_dented) = Some [ex_lower; ex_upper]
  /\ shown (intersect_regions reference_locators ex_oracle2 ex_dented ex_wedge) = Some [ex_lower; ex_upper].
Proof. vm_compute. split; reflexivity. Qed.
(** The regions returned are canonical, so they are returned again. *)
Example C47_example_again : exists rs, canonical_regions rs /\ length rs = 2%nat
  /\ exists g, (forall o, intersect_multiregions reference_locators o rs [ex_wedge] = Ok g) /\ polygons_of g = map (fun r => Polygon r []) rs.
Proof.
  destruct C47_example_valid as (L & S1 & S2). destruct (C47_intersect_regions _ L _ _ S1 S2) as (g & R & D). destruct (proj1 (D _) eq_refl) as (_ & C & P).
  assert (E : intersect_regions reference_locators ex_oracle ex_wedge ex_dented = Ok g) by apply R.
  assert (Eb : map border (polygons_of g) = match intersect_regions reference_locators ex_oracle ex_wedge ex_dented with Ok g => map border (polygons_of g) | _ => [] end) by (rewrite E; reflexivity).
  assert (Le : length (map border (polygons_of g)) = 2%nat) by (rewrite Eb; vm_compute; reflexivity).
  exists (map border (polygons_of g)). split; [exact C|]. split; [exact Le|]. apply (C47_contained _ L); [exact C|exact (single_region _ S1)|intro N; rewrite N in Le; discriminate Le|discriminate|].
  destruct (ChamberProps.intersect_regions_valid _ L _ _ S1 S2) as (g' & R' & Hg & _). rewrite (R' ex_oracle) in E. injection E as ->.
  intros p (c & Hc & I). apply in_map_iff in Hc. destruct Hc as (q & <- & Hq). destruct (Hg q Hq) as (_ & _ & _ & c1 & c2 & [<-|[]] & _ & K). exists ex_wedge. split; [left; reflexivity|]. exact (proj1 (K p I)).
Qed.
