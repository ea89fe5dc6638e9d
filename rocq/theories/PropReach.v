(** Property C45: points of returned polygons on edges of operands.  Here [o]
    stands for any behaviour of the external priority queue and tree. *)
From Verif Require Import QcTac Geom Spec SpecShape SpecSides SpecLocate SpecNest SpecReach GeomFacts Pair Sweep Contour Filter Mixed Shaped Holey MixedProps HoleyProps CompleteProps Locate Rectangle Examples SimpleCheck PropShaped HoleyNest PropHoley NestProps PropNest PropMild Reach ReachProps.

Theorem C45_complete_intersect_polygons : forall x, right_locators x -> forall first second, valid_polygon first -> valid_polygon second ->
  exists g, (forall o, complete_intersect_polygons x o first second = Ok g) /\ reached_result Meet [first] [second] (polygons_of g) /\ (mild_position [first] [second] -> closed_result Meet [first] [second] (polygons_of g)).
Proof. exact complete_intersect_polygons_reached. Qed.
Print Assumptions C45_complete_intersect_polygons.
Theorem C45_complete_intersect_polygon_with_multipolygon : forall x, right_locators x -> forall shape multipolygon, valid_polygon shape -> valid_polygons multipolygon -> multipolygon <> [] ->
  exists g, (forall o, complete_intersect_polygon_with_multipolygon x o shape multipolygon = Ok g) /\ reached_result Meet [shape] multipolygon (polygons_of g) /\ (mild_position [shape] multipolygon -> closed_result Meet [shape] multipolygon (polygons_of g)).
Proof. exact complete_intersect_polygon_with_multipolygon_reached. Qed.
Print Assumptions C45_complete_intersect_polygon_with_multipolygon.
Theorem C45_complete_intersect_multipolygons : forall x, right_locators x -> forall first second, valid_polygons first -> valid_polygons second -> first <> [] -> second <> [] ->
  exists g, (forall o, complete_intersect_multipolygons x o first second = Ok g) /\ reached_result Meet first second (polygons_of g) /\ (mild_position first second -> closed_result Meet first second (polygons_of g)).
Proof. exact complete_intersect_multipolygons_reached. Qed.
Print Assumptions C45_complete_intersect_multipolygons.
Theorem C45_intersect_polygons : forall x, right_locators x -> forall first second, valid_polygon first -> valid_polygon second ->
  exists g, (forall o, intersect_polygons x o first second = Ok g) /\ reached_result Meet [first] [second] (polygons_of g) /\ (mild_position [first] [second] -> closed_result Meet [first] [second] (polygons_of g)).
Proof. exact intersect_polygons_reached. Qed.
Print Assumptions C45_intersect_polygons.
Theorem C45_intersect_polygon_with_multipolygon : forall x, right_locators x -> forall shape multipolygon, valid_polygon shape -> valid_polygons multipolygon -> multipolygon <> [] ->
  exists g, (forall o, intersect_polygon_with_multipolygon x o shape multipolygon = Ok g) /\ reached_result Meet [shape] multipolygon (polygons_of g) /\ (mild_position [shape] multipolygon -> closed_result Meet [shape] multipolygon (polygons_of g)).
Proof. exact intersect_polygon_with_multipolygon_reached. Qed.
Print Assumptions C45_intersect_polygon_with_multipolygon.
Theorem C45_intersect_multipolygons : forall x, right_locators x -> forall first second, valid_polygons first -> valid_polygons second -> first <> [] -> second <> [] ->
  exists g, (forall o, intersect_multipolygons x o first second = Ok g) /\ reached_result Meet first second (polygons_of g) /\ (mild_position first second -> closed_result Meet first second (polygons_of g)).
Proof. exact intersect_multipolygons_reached. Qed.
Print Assumptions C45_intersect_multipolygons.
Theorem C45_subtract_polygons : forall x, right_locators x -> forall minuend subtrahend, valid_polygon minuend -> valid_polygon subtrahend ->
  exists g, (forall o, subtract_polygons x o minuend subtrahend = Ok g) /\ reached_result Minus [minuend] [subtrahend] (polygons_of g) /\ (mild_position [minuend] [subtrahend] -> closed_result Minus [minuend] [subtrahend] (polygons_of g)).
Proof. exact subtract_polygons_reached. Qed.
Print Assumptions C45_subtract_polygons.
Theorem C45_subtract_multipolygon_from_polygon : forall x, right_locators x -> forall minuend subtrahend, valid_polygon minuend -> valid_polygons subtrahend -> subtrahend <> [] ->
  exists g, (forall o, subtract_multipolygon_from_polygon x o minuend subtrahend = Ok g) /\ reached_result Minus [minuend] subtrahend (polygons_of g) /\ (mild_position [minuend] subtrahend -> closed_result Minus [minuend] subtrahend (polygons_of g)).
Proof. exact subtract_multipolygon_from_polygon_reached. Qed.
Print Assumptions C45_subtract_multipolygon_from_polygon.
Theorem C45_subtract_polygon_from_multipolygon : forall x, right_locators x -> forall minuend subtrahend, valid_polygons minuend -> valid_polygon subtrahend -> (2 <= length minuend)%nat ->
  exists g, (forall o, subtract_polygon_from_multipolygon x o minuend subtrahend = Ok g) /\ reached_result Minus minuend [subtrahend] (polygons_of g) /\ (mild_position minuend [subtrahend] -> closed_result Minus minuend [subtrahend] (polygons_of g)).
Proof. exact subtract_polygon_from_multipolygon_reached. Qed.
Print Assumptions C45_subtract_polygon_from_multipolygon.
Theorem C45_subtract_multipolygons : forall x, right_locators x -> forall minuend subtrahend, valid_polygons minuend -> valid_polygons subtrahend -> (2 <= length minuend)%nat -> subtrahend <> [] ->
  exists g, (forall o, subtract_multipolygons x o minuend subtrahend = Ok g) /\ reached_result Minus minuend subtrahend (polygons_of g) /\ (mild_position minuend subtrahend -> closed_result Minus minuend subtrahend (polygons_of g)).
Proof. exact subtract_multipolygons_reached. Qed.
Print Assumptions C45_subtract_multipolygons.
Theorem C45_symmetric_subtract_polygons : forall first second, valid_polygon first -> valid_polygon second ->
  exists g, (forall o, symmetric_subtract_polygons o first second = Ok g) /\ reached_result Differ [first] [second] (polygons_of g) /\ (mild_position [first] [second] -> closed_result Differ [first] [second] (polygons_of g)).
Proof. exact symmetric_subtract_polygons_reached. Qed.
Print Assumptions C45_symmetric_subtract_polygons.
Theorem C45_symmetric_subtract_multipolygon_from_polygon : forall shape multipolygon, valid_polygon shape -> valid_polygons multipolygon -> multipolygon <> [] ->
  exists g, (forall o, symmetric_subtract_multipolygon_from_polygon o shape multipolygon = Ok g) /\ reached_result Differ [shape] multipolygon (polygons_of g) /\ (mild_position [shape] multipolygon -> closed_result Differ [shape] multipolygon (polygons_of g)).
Proof. exact symmetric_subtract_multipolygon_from_polygon_reached. Qed.
Print Assumptions C45_symmetric_subtract_multipolygon_from_polygon.
Theorem C45_symmetric_subtract_multipolygons : forall first second, valid_polygons first -> valid_polygons second -> first <> [] -> second <> [] ->
  exists g, (forall o, symmetric_subtract_multipolygons o first second = Ok g) /\ reached_result Differ first second (polygons_of g) /\ (mild_position first second -> closed_result Differ first second (polygons_of g)).
Proof. exact symmetric_subtract_multipolygons_reached. Qed.
Print Assumptions C45_symmetric_subtract_multipolygons.
Theorem C45_unite_polygons : forall first second, valid_polygon first -> valid_polygon second ->
  exists g, (forall o, unite_polygons o first second = Ok g) /\ reached_result Join [first] [second] (polygons_of g) /\ (mild_position [first] [second] -> closed_result Join [first] [second] (polygons_of g)).
Proof. exact unite_polygons_reached. Qed.
Print Assumptions C45_unite_polygons.
Theorem C45_unite_polygon_with_multipolygon : forall shape multipolygon, valid_polygon shape -> valid_polygons multipolygon -> multipolygon <> [] ->
  exists g, (forall o, unite_polygon_with_multipolygon o shape multipolygon = Ok g) /\ reached_result Join [shape] multipolygon (polygons_of g) /\ (mild_position [shape] multipolygon -> closed_result Join [shape] multipolygon (polygons_of g)).
Proof. exact unite_polygon_with_multipolygon_reached. Qed.
Print Assumptions C45_unite_polygon_with_multipolygon.
Theorem C45_unite_multipolygons : forall first second, valid_polygons first -> valid_polygons second -> first <> [] -> second <> [] ->
  exists g, (forall o, unite_multipolygons o first second = Ok g) /\ reached_result Join first second (polygons_of g) /\ (mild_position first second -> closed_result Join first second (polygons_of g)).
Proof. exact unite_multipolygons_reached. Qed.
Print Assumptions C45_unite_multipolygons.

(** Rectangles with a common edge and a point of it: the point belongs to both
    of them and is reached from inside of their union, but not from inside of their
    intersection. *)
Example C45_example_valid : right_locators reference_locators /\ valid_polygon (rectangle 0 0 4 4) /\ valid_polygon (rectangle 4 0 8 4) /\ mild_position [rectangle 0 0 4 4] [rectangle 4 0 8 4]
  /\ on_segments (pt 4 2) (polygon_edges (rectangle 0 0 4 4)) /\ on_segments (pt 4 2) (polygon_edges (rectangle 4 0 8 4)).
Proof.
  split; [exact reference_right|]. split; [apply plain_valid, simple_by_check; vm_compute; reflexivity|]. split; [apply plain_valid, simple_by_check; vm_compute; reflexivity|].
  split; [apply mild_by_test; vm_compute; reflexivity|]. split.
  - exists (Seg (pt 4 0) (pt 4 4)). split; [right; right; left; vm_compute; reflexivity|]. apply Sides.through_spec; [discriminate|vm_compute; reflexivity].
  - exists (Seg (pt 4 4) (pt 4 0)). split; [left; vm_compute; reflexivity|]. apply Sides.through_spec; [discriminate|vm_compute; reflexivity].
Qed.
Example C45_example_joined : reached (inner_member Join [rectangle 0 0 4 4] [rectangle 4 0 8 4]) (pt 4 2).
Proof.
  destruct C45_example_valid as (_ & V1 & V2 & _). destruct (C45_unite_polygons _ _ V1 V2) as (g & R & K & _). apply K. right.
  assert (E : (match unite_polygons ex_oracle (rectangle 0 0 4 4) (rectangle 4 0 8 4) with Ok g => inside (flat_map polygon_edges (polygons_of g)) (pt 4 2) | _ => false end) = true) by (vm_compute; reflexivity).
  rewrite (R ex_oracle) in E. exact E.
Qed.
Example C45_example_met : ~ reached (inner_member Meet [rectangle 0 0 4 4] [rectangle 4 0 8 4]) (pt 4 2).
Proof.
  destruct C45_example_valid as (L & V1 & V2 & M & _). destruct (C45_intersect_polygons _ L _ _ V1 V2) as (g & R & _ & K). destruct (K M) as (_ & C). intro H. apply C in H.
  assert (E : (match intersect_polygons reference_locators ex_oracle (rectangle 0 0 4 4) (rectangle 4 0 8 4) with Ok g => polygons_of g | _ => [] end) = []) by (vm_compute; reflexivity).
  rewrite (R ex_oracle) in E. rewrite E in H. destruct H as (q & [] & _).
Qed.
(** A rectangle without a part of it: points of the common boundary stay. *)
Example C45_example_subtracted : reached (inner_member Minus [rectangle 0 0 4 4] [rectangle 1 0 3 2]) (pt 2 2) /\ ~ reached (inner_member Minus [rectangle 0 0 4 4] [rectangle 1 0 3 2]) (pt 2 0).
Proof.
  destruct C45_example_valid as (L & V1 & _). destruct C43_example_shared as (_ & _ & V2 & _ & _ & _ & M & _). destruct (C45_subtract_polygons _ L _ _ V1 V2) as (g & R & K & _).
  assert (E : (match subtract_polygons reference_locators ex_oracle (rectangle 0 0 4 4) (rectangle 1 0 3 2) with
    | Ok g => existsb (fun s => negb (improper s) && passes_through s (pt 2 2)) (flat_map polygon_edges (polygons_of g))
        && negb (existsb (fun s => improper s || passes_through s (pt 2 0)) (flat_map polygon_edges (polygons_of g)) || inside (flat_map polygon_edges (polygons_of g)) (pt 2 0)) | _ => false end) = true) by (vm_compute; reflexivity).
  rewrite (R ex_oracle) in E. apply andb_prop in E. destruct E as (A & B). apply negb_true_iff, orb_false_iff in B. destruct B as (B & C). split.
  - apply K. left. apply existsb_exists in A. destruct A as (s & Hs & A). exists s. apply andb_prop in A. destruct A as (P & A). split; [exact Hs|]. apply Sides.through_spec; [exact (improper_not s P)|exact A].
  - intro H. apply K in H. destruct H as [(s & Hs & O)|H]; [|rewrite C in H; discriminate H].
    assert (T : existsb (fun s => improper s || passes_through s (pt 2 0)) (flat_map polygon_edges (polygons_of g)) = true); [|rewrite T in B; discriminate B].
    apply existsb_exists. exists s. split; [exact Hs|]. destruct (improper s) eqn:I; [reflexivity|]. apply Sides.through_spec; [apply improper_not; rewrite I; reflexivity|exact O].
Qed.
