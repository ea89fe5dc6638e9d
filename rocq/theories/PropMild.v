(** Property C43: polygons returned for operands in a mild position.  Here [o]
    stands for any behaviour of the external priority queue and tree. *)
From Verif Require Import QcTac Geom Spec SpecShape SpecSides SpecLocate SpecNest GeomFacts Relation PairFacts Pair Sweep Contour Filter Mixed Shaped Holey HoleyProps Locate Rectangle Examples PropShaped HoleyNest PropHoley Sides SimpleCheck Shapes NestProps PropNest.

Theorem C43_complete_intersect_polygons : forall x, right_locators x -> forall first second,
  valid_polygon first -> valid_polygon second -> mild_position [first] [second] ->
  exists g, (forall o, complete_intersect_polygons x o first second = Ok g) /\ exact_polygons Meet [first] [second] (polygons_of g).
Proof. exact complete_intersect_polygons_mild. Qed.
Print Assumptions C43_complete_intersect_polygons.
Theorem C43_complete_intersect_polygon_with_multipolygon : forall x, right_locators x -> forall shape multipolygon,
  valid_polygon shape -> valid_polygons multipolygon -> multipolygon <> [] -> mild_position [shape] multipolygon ->
  exists g, (forall o, complete_intersect_polygon_with_multipolygon x o shape multipolygon = Ok g) /\ exact_polygons Meet [shape] multipolygon (polygons_of g).
Proof. exact complete_intersect_polygon_multipolygon_mild. Qed.
Print Assumptions C43_complete_intersect_polygon_with_multipolygon.
Theorem C43_complete_intersect_multipolygons : forall x, right_locators x -> forall first second,
  valid_polygons first -> valid_polygons second -> first <> [] -> second <> [] -> mild_position first second ->
  exists g, (forall o, complete_intersect_multipolygons x o first second = Ok g) /\ exact_polygons Meet first second (polygons_of g).
Proof. exact complete_intersect_multipolygons_mild. Qed.
Print Assumptions C43_complete_intersect_multipolygons.
Theorem C43_intersect_polygons : forall x, right_locators x -> forall first second,
  valid_polygon first -> valid_polygon second -> mild_position [first] [second] ->
  exists g, (forall o, intersect_polygons x o first second = Ok g) /\ exact_polygons Meet [first] [second] (polygons_of g).
Proof. exact intersect_polygons_mild. Qed.
Print Assumptions C43_intersect_polygons.
Theorem C43_intersect_polygon_with_multipolygon : forall x, right_locators x -> forall shape multipolygon,
  valid_polygon shape -> valid_polygons multipolygon -> multipolygon <> [] -> mild_position [shape] multipolygon ->
  exists g, (forall o, intersect_polygon_with_multipolygon x o shape multipolygon = Ok g) /\ exact_polygons Meet [shape] multipolygon (polygons_of g).
Proof. exact intersect_polygon_multipolygon_mild. Qed.
Print Assumptions C43_intersect_polygon_with_multipolygon.
Theorem C43_intersect_multipolygons : forall x, right_locators x -> forall first second,
  valid_polygons first -> valid_polygons second -> first <> [] -> second <> [] -> mild_position first second ->
  exists g, (forall o, intersect_multipolygons x o first second = Ok g) /\ exact_polygons Meet first second (polygons_of g).
Proof. exact intersect_multipolygons_mild. Qed.
Print Assumptions C43_intersect_multipolygons.
Theorem C43_subtract_polygons : forall x, right_locators x -> forall minuend subtrahend,
  valid_polygon minuend -> valid_polygon subtrahend -> mild_position [minuend] [subtrahend] ->
  exists g, (forall o, subtract_polygons x o minuend subtrahend = Ok g) /\ exact_polygons Minus [minuend] [subtrahend] (polygons_of g).
Proof. exact subtract_polygons_mild. Qed.
Print Assumptions C43_subtract_polygons.
Theorem C43_subtract_multipolygon_from_polygon : forall x, right_locators x -> forall minuend subtrahend,
  valid_polygon minuend -> valid_polygons subtrahend -> subtrahend <> [] -> mild_position [minuend] subtrahend ->
  exists g, (forall o, subtract_multipolygon_from_polygon x o minuend subtrahend = Ok g) /\ exact_polygons Minus [minuend] subtrahend (polygons_of g).
Proof. exact subtract_multipolygon_polygon_mild. Qed.
Print Assumptions C43_subtract_multipolygon_from_polygon.
Theorem C43_subtract_polygon_from_multipolygon : forall x, right_locators x -> forall minuend subtrahend,
  valid_polygons minuend -> valid_polygon subtrahend -> (2 <= length minuend)%nat -> mild_position minuend [subtrahend] ->
  exists g, (forall o, subtract_polygon_from_multipolygon x o minuend subtrahend = Ok g) /\ exact_polygons Minus minuend [subtrahend] (polygons_of g).
Proof. exact subtract_polygon_multipolygon_mild. Qed.
Print Assumptions C43_subtract_polygon_from_multipolygon.
Theorem C43_subtract_multipolygons : forall x, right_locators x -> forall minuend subtrahend,
  valid_polygons minuend -> valid_polygons subtrahend -> (2 <= length minuend)%nat -> subtrahend <> [] -> mild_position minuend subtrahend ->
  exists g, (forall o, subtract_multipolygons x o minuend subtrahend = Ok g) /\ exact_polygons Minus minuend subtrahend (polygons_of g).
Proof. exact subtract_multipolygons_mild. Qed.
Print Assumptions C43_subtract_multipolygons.
Theorem C43_symmetric_subtract_polygons : forall first second,
  valid_polygon first -> valid_polygon second -> mild_position [first] [second] ->
  exists g, (forall o, symmetric_subtract_polygons o first second = Ok g) /\ exact_polygons Differ [first] [second] (polygons_of g).
Proof. exact symmetric_subtract_polygons_mild. Qed.
Print Assumptions C43_symmetric_subtract_polygons.
Theorem C43_symmetric_subtract_multipolygon_from_polygon : forall shape multipolygon,
  valid_polygon shape -> valid_polygons multipolygon -> multipolygon <> [] -> mild_position [shape] multipolygon ->
  exists g, (forall o, symmetric_subtract_multipolygon_from_polygon o shape multipolygon = Ok g) /\ exact_polygons Differ [shape] multipolygon (polygons_of g).
Proof. exact symmetric_subtract_multipolygon_polygon_mild. Qed.
Print Assumptions C43_symmetric_subtract_multipolygon_from_polygon.
Theorem C43_symmetric_subtract_multipolygons : forall first second,
  valid_polygons first -> valid_polygons second -> first <> [] -> second <> [] -> mild_position first second ->
  exists g, (forall o, symmetric_subtract_multipolygons o first second = Ok g) /\ exact_polygons Differ first second (polygons_of g).
Proof. exact symmetric_subtract_multipolygons_mild. Qed.
Print Assumptions C43_symmetric_subtract_multipolygons.
Theorem C43_unite_polygons : forall first second,
  valid_polygon first -> valid_polygon second -> mild_position [first] [second] ->
  exists g, (forall o, unite_polygons o first second = Ok g) /\ exact_polygons Join [first] [second] (polygons_of g).
Proof. exact unite_polygons_mild. Qed.
Print Assumptions C43_unite_polygons.
Theorem C43_unite_polygon_with_multipolygon : forall shape multipolygon,
  valid_polygon shape -> valid_polygons multipolygon -> multipolygon <> [] -> mild_position [shape] multipolygon ->
  exists g, (forall o, unite_polygon_with_multipolygon o shape multipolygon = Ok g) /\ exact_polygons Join [shape] multipolygon (polygons_of g).
Proof. exact unite_polygon_multipolygon_mild. Qed.
Print Assumptions C43_unite_polygon_with_multipolygon.
Theorem C43_unite_multipolygons : forall first second,
  valid_polygons first -> valid_polygons second -> first <> [] -> second <> [] -> mild_position first second ->
  exists g, (forall o, unite_multipolygons o first second = Ok g) /\ exact_polygons Join first second (polygons_of g).
Proof. exact unite_multipolygons_mild. Qed.
Print Assumptions C43_unite_multipolygons.

(** A frame and a triangle having a corner of the frame for a vertex and two
    more vertices on its edges: contours of operands touch each other. *)
Definition ex_inscribed : polygon := Polygon (Contour [pt 0 0; pt 10 4; pt 4 10]) [].
Example C43_example_valid : right_locators reference_locators /\ valid_polygon ex_wide /\ valid_polygon ex_inscribed /\ mild_position [ex_wide] [ex_inscribed] /\ ~ general_position [ex_wide] [ex_inscribed].
Proof.
  split; [exact reference_right|]. split; [apply frame_valid; repeat split|]. split; [|split].
  - assert (S : simple_contour (vertices (border ex_inscribed))) by (apply simple_by_check; vm_compute; reflexivity).
    split; [exact S|]. split; [constructor|]. split; [intros h p []|]. split; [intros h p []|]. split; [intros [|i] j h k _ E; discriminate E|].
    unfold polygon_edges. cbn [holes flat_map ex_inscribed]. rewrite app_nil_r. exact (simple_non_overlapping _ S).
  - apply mild_by_test; vm_compute; reflexivity.
  - intros (_ & _ & _ & A). apply (A (border ex_inscribed) (pt 0 0)); [left; reflexivity|left; reflexivity|]. exists (Seg (pt 0 10) (pt 0 0)). split; [left; vm_compute; reflexivity|apply (on_segment_end (Seg (pt 0 10) (pt 0 0)))].
Qed.
Example C43_example_symmetric : shown_polygons (symmetric_subtract_polygons ex_oracle ex_wide ex_inscribed)
  = Some [([(0, 0); (10, 0); (10, 4); (9, 18 # 5); (9, 1); (5 # 2, 1)], []); ([(0, 0); (1, 5 # 2); (1, 9); (18 # 5, 9); (4, 10); (0, 10)], []);
      ([(1, 1); (5 # 2, 1); (9, 18 # 5); (9, 5); (5, 9); (18 # 5, 9); (1, 5 # 2)], []); ([(4, 10); (5, 9); (9, 9); (9, 5); (10, 4); (10, 10)], [])]%Q.
Proof. vm_compute. reflexivity. Qed.
Example C43_example_union : shown_polygons (unite_polygons ex_oracle ex_wide ex_inscribed)
  = Some [([(0, 0); (10, 0); (10, 10); (0, 10)], [[(1, 5 # 2); (1, 9); (18 # 5, 9)]; [(5 # 2, 1); (9, 18 # 5); (9, 1)]; [(5, 9); (9, 9); (9, 5)]])]%Q.
Proof. vm_compute. reflexivity. Qed.
(** Rectangles having parts of edges in common. *)
Definition rectangle (x1 y1 x2 y2 : Z) : polygon := Polygon (Contour [pt x1 y1; pt x2 y1; pt x2 y2; pt x1 y2]) [].
Lemma plain_valid : forall vs, simple_contour vs -> valid_polygon (Polygon (Contour vs) []).
Proof.
  intros vs S. split; [exact S|]. split; [constructor|]. split; [intros h p []|]. split; [intros h p []|]. split; [intros [|i] j h k _ E; discriminate E|].
  unfold polygon_edges. cbn [holes flat_map border vertices]. rewrite app_nil_r. exact (simple_non_overlapping _ S).
Qed.
Example C43_example_shared : valid_polygon (rectangle 0 0 4 4) /\ valid_polygon (rectangle 4 2 8 6) /\ valid_polygon (rectangle 1 0 3 2) /\ valid_polygon (rectangle 1 4 3 6)
  /\ mild_position [rectangle 0 0 4 4] [rectangle 4 2 8 6] /\ mild_position [rectangle 0 0 4 4] [rectangle 1 4 3 6] /\ mild_position [rectangle 0 0 4 4] [rectangle 1 0 3 2]
  /\ overlap (Seg (pt 4 0) (pt 4 4)) (Seg (pt 4 6) (pt 4 2)) /\ overlap (Seg (pt 4 4) (pt 0 4)) (Seg (pt 1 4) (pt 3 4)).
Proof.
  split; [apply plain_valid, simple_by_check; vm_compute; reflexivity|]. split; [apply plain_valid, simple_by_check; vm_compute; reflexivity|]. split; [apply plain_valid, simple_by_check; vm_compute; reflexivity|]. split; [apply plain_valid, simple_by_check; vm_compute; reflexivity|].
  do 3 (split; [apply mild_by_test; vm_compute; reflexivity|]). split.
  - exists (pt 4 2), (pt 4 4). split; [discriminate|]. split; [|split; [|split]]; (apply Sides.through_spec; [discriminate|vm_compute; reflexivity]).
  - exists (pt 1 4), (pt 3 4). split; [discriminate|]. split; [|split; [|split]]; (apply Sides.through_spec; [discriminate|vm_compute; reflexivity]).
Qed.
Example C43_example_shared_union : shown_polygons (unite_polygons ex_oracle (rectangle 0 0 4 4) (rectangle 4 2 8 6))
  = Some [([(0, 0); (4, 0); (4, 2); (8, 2); (8, 6); (4, 6); (4, 4); (0, 4)], [])]%Q.
Proof. vm_compute. reflexivity. Qed.
Example C43_example_shared_within : shown_polygons (unite_polygons ex_oracle (rectangle 0 0 4 4) (rectangle 1 4 3 6))
  = Some [([(0, 0); (4, 0); (4, 4); (3, 4); (3, 6); (1, 6); (1, 4); (0, 4)], [])]%Q.
Proof. vm_compute. reflexivity. Qed.
Example C43_example_shared_difference : shown_polygons (subtract_polygons reference_locators ex_oracle (rectangle 0 0 4 4) (rectangle 1 0 3 2))
  = Some [([(0, 0); (1, 0); (1, 2); (3, 2); (3, 0); (4, 0); (4, 4); (0, 4)], [])]%Q.
Proof. vm_compute. reflexivity. Qed.
Example C43_example_shared_symmetric : shown_polygons (symmetric_subtract_polygons ex_oracle (rectangle 0 0 4 4) (rectangle 1 0 3 2))
  = Some [([(0, 0); (1, 0); (1, 2); (3, 2); (3, 0); (4, 0); (4, 4); (0, 4)], [])]%Q.
Proof. vm_compute. reflexivity. Qed.
