(** Property C42: polygons returned for operands in a general position.  Here
    [o] stands for any behaviour of the external priority queue and tree. *)
From Verif Require Import QcTac Geom Spec SpecShape SpecSides SpecLocate SpecNest GeomFacts Relation PairFacts Pair Sweep Contour Filter Mixed Shaped Holey HoleyProps Locate Rectangle Examples PropShaped HoleyNest PropHoley NestProps.

Theorem C42_intersect_polygons : forall x, right_locators x -> forall first second,
  valid_polygon first -> valid_polygon second -> general_position [first] [second] ->
  exists g, (forall o, intersect_polygons x o first second = Ok g) /\ exact_result Meet [first] [second] (polygons_of g).
Proof. exact intersect_polygons_nested. Qed.
Print Assumptions C42_intersect_polygons.
Theorem C42_intersect_polygon_with_multipolygon : forall x, right_locators x -> forall shape multipolygon,
  valid_polygon shape -> valid_polygons multipolygon -> multipolygon <> [] -> general_position [shape] multipolygon ->
  exists g, (forall o, intersect_polygon_with_multipolygon x o shape multipolygon = Ok g) /\ exact_result Meet [shape] multipolygon (polygons_of g).
Proof. exact intersect_polygon_multipolygon_nested. Qed.
Print Assumptions C42_intersect_polygon_with_multipolygon.
Theorem C42_intersect_multipolygons : forall x, right_locators x -> forall first second,
  valid_polygons first -> valid_polygons second -> first <> [] -> second <> [] -> general_position first second ->
  exists g, (forall o, intersect_multipolygons x o first second = Ok g) /\ exact_result Meet first second (polygons_of g).
Proof. exact intersect_multipolygons_nested. Qed.
Print Assumptions C42_intersect_multipolygons.
Theorem C42_subtract_polygons : forall x, right_locators x -> forall minuend subtrahend,
  valid_polygon minuend -> valid_polygon subtrahend -> general_position [minuend] [subtrahend] ->
  exists g, (forall o, subtract_polygons x o minuend subtrahend = Ok g) /\ exact_result Minus [minuend] [subtrahend] (polygons_of g).
Proof. exact subtract_polygons_nested. Qed.
Print Assumptions C42_subtract_polygons.
Theorem C42_subtract_multipolygon_from_polygon : forall x, right_locators x -> forall minuend subtrahend,
  valid_polygon minuend -> valid_polygons subtrahend -> subtrahend <> [] -> general_position [minuend] subtrahend ->
  exists g, (forall o, subtract_multipolygon_from_polygon x o minuend subtrahend = Ok g) /\ exact_result Minus [minuend] subtrahend (polygons_of g).
Proof. exact subtract_multipolygon_polygon_nested. Qed.
Print Assumptions C42_subtract_multipolygon_from_polygon.
Theorem C42_subtract_polygon_from_multipolygon : forall x, right_locators x -> forall minuend subtrahend,
  valid_polygons minuend -> valid_polygon subtrahend -> (2 <= length minuend)%nat -> general_position minuend [subtrahend] ->
  exists g, (forall o, subtract_polygon_from_multipolygon x o minuend subtrahend = Ok g) /\ exact_result Minus minuend [subtrahend] (polygons_of g).
Proof. exact subtract_polygon_multipolygon_nested. Qed.
Print Assumptions C42_subtract_polygon_from_multipolygon.
Theorem C42_subtract_multipolygons : forall x, right_locators x -> forall minuend subtrahend,
  valid_polygons minuend -> valid_polygons subtrahend -> (2 <= length minuend)%nat -> subtrahend <> [] -> general_position minuend subtrahend ->
  exists g, (forall o, subtract_multipolygons x o minuend subtrahend = Ok g) /\ exact_result Minus minuend subtrahend (polygons_of g).
Proof. exact subtract_multipolygons_nested. Qed.
Print Assumptions C42_subtract_multipolygons.
Theorem C42_unite_polygons : forall first second,
  valid_polygon first -> valid_polygon second -> general_position [first] [second] ->
  exists g, (forall o, unite_polygons o first second = Ok g) /\ exact_result Join [first] [second] (polygons_of g).
Proof. exact unite_polygons_nested. Qed.
Print Assumptions C42_unite_polygons.
Theorem C42_unite_polygon_with_multipolygon : forall shape multipolygon,
  valid_polygon shape -> valid_polygons multipolygon -> multipolygon <> [] -> general_position [shape] multipolygon ->
  exists g, (forall o, unite_polygon_with_multipolygon o shape multipolygon = Ok g) /\ exact_result Join [shape] multipolygon (polygons_of g).
Proof. exact unite_polygon_multipolygon_nested. Qed.
Print Assumptions C42_unite_polygon_with_multipolygon.
Theorem C42_unite_multipolygons : forall first second,
  valid_polygons first -> valid_polygons second -> first <> [] -> second <> [] -> general_position first second ->
  exists g, (forall o, unite_multipolygons o first second = Ok g) /\ exact_result Join first second (polygons_of g).
Proof. exact unite_multipolygons_nested. Qed.
Print Assumptions C42_unite_multipolygons.

(** Crossing frames: the union has three holes. *)
Definition ex_wide : polygon := frame (z 0) (z 0) (z 10) (z 10) (z 1) (z 1) (z 9) (z 9).
Definition ex_link : polygon := frame (z 3) (z 3) (z 13) (z 7) (z 4) (z 4) (z 12) (z 6).
Example C42_example_valid : right_locators reference_locators /\ valid_polygon ex_wide /\ valid_polygon ex_link /\ general_position [ex_wide] [ex_link].
Proof.
  split; [exact reference_right|]. split; [apply frame_valid; repeat split|]. split; [apply frame_valid; repeat split|].
  split; [|split; [|split]].
  - intros [|[|i]] [|[|j]] c d N Hc Hd; try congruence; try (destruct i; discriminate); try (destruct j; discriminate); injection Hc as <-; injection Hd as <-; apply no_common_off; vm_compute; reflexivity.
  - intros [|[|i]] [|[|j]] c d N Hc Hd; try congruence; try (destruct i; discriminate); try (destruct j; discriminate); injection Hc as <-; injection Hd as <-; apply no_common_off; vm_compute; reflexivity.
  - intros c p Hc Hp. apply off_by_test. revert Hp. revert p. apply Forall_forall. revert Hc. revert c. apply Forall_forall. repeat constructor.
  - intros c p Hc Hp. apply off_by_test. revert Hp. revert p. apply Forall_forall. revert Hc. revert c. apply Forall_forall. repeat constructor.
Qed.
Example C42_example_union : shown_polygons (unite_polygons ex_oracle ex_wide ex_link)
  = Some [([(0, 0); (10, 0); (10, 3); (13, 3); (13, 7); (10, 7); (10, 10); (0, 10)],
      [[(1, 1); (1, 9); (9, 9); (9, 7); (3, 7); (3, 3); (9, 3); (9, 1)]; [(4, 4); (4, 6); (9, 6); (9, 4)]; [(10, 4); (10, 6); (12, 6); (12, 4)]])]%Q.
Proof. vm_compute. reflexivity. Qed.
Example C42_example_intersection : shown_polygons (intersect_polygons reference_locators ex_oracle ex_wide ex_link)
  = Some [([(9, 3); (10, 3); (10, 4); (9, 4)], []); ([(9, 6); (10, 6); (10, 7); (9, 7)], [])]%Q.
Proof. vm_compute. reflexivity. Qed.
Example C42_example_difference : shown_polygons (subtract_polygons reference_locators ex_oracle ex_wide ex_link)
  = Some [([(0, 0); (10, 0); (10, 3); (9, 3); (9, 1); (1, 1); (1, 9); (9, 9); (9, 7); (10, 7); (10, 10); (0, 10)], []); ([(9, 4); (10, 4); (10, 6); (9, 6)], [])]%Q.
Proof. vm_compute. reflexivity. Qed.
