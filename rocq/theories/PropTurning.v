(** Property C44: contours of returned polygons are oriented and start with their
    least vertices.  Here [o] stands
    for any behaviour of the external priority queue and tree. *)
From Verif Require Import QcTac Geom Spec SpecShape SpecSides SpecLocate SpecNest SpecTurn GeomFacts Pair Sweep Contour Filter Mixed Shaped Holey HoleyProps Locate Rectangle Examples PropShaped HoleyNest PropHoley SimpleCheck Shapes NestProps PropNest PropMild Turning.

(** The polygon lies to the left of all edges of well oriented contours. *)
Theorem C44_border_left : forall c, counterclockwise c -> left_inside (contour_edges (vertices c)).
Proof. exact counterclockwise_left. Qed.
Print Assumptions C44_border_left.
Theorem C44_hole_left : forall c, clockwise c -> left_inside (map reversed (contour_edges (vertices c))).
Proof. exact clockwise_left. Qed.
Print Assumptions C44_hole_left.
(** No contour is followed both ways. *)
Theorem C44_one_way : forall c, counterclockwise c -> ~ clockwise c.
Proof. exact one_way. Qed.
Print Assumptions C44_one_way.

Theorem C44_complete_intersect_polygons : forall x, right_locators x -> forall first second,
  valid_polygon first -> valid_polygon second ->
  exists g, (forall o, complete_intersect_polygons x o first second = Ok g) /\ well_oriented (polygons_of g).
Proof. exact complete_intersect_polygons_oriented. Qed.
Print Assumptions C44_complete_intersect_polygons.
Theorem C44_complete_intersect_polygon_with_multipolygon : forall x, right_locators x -> forall shape multipolygon,
  valid_polygon shape -> valid_polygons multipolygon -> multipolygon <> [] ->
  exists g, (forall o, complete_intersect_polygon_with_multipolygon x o shape multipolygon = Ok g) /\ well_oriented (polygons_of g).
Proof. exact complete_intersect_polygon_multipolygon_oriented. Qed.
Print Assumptions C44_complete_intersect_polygon_with_multipolygon.
Theorem C44_complete_intersect_multipolygons : forall x, right_locators x -> forall first second,
  valid_polygons first -> valid_polygons second -> first <> [] -> second <> [] ->
  exists g, (forall o, complete_intersect_multipolygons x o first second = Ok g) /\ well_oriented (polygons_of g).
Proof. exact complete_intersect_multipolygons_oriented. Qed.
Print Assumptions C44_complete_intersect_multipolygons.
Theorem C44_intersect_polygons : forall x, right_locators x -> forall first second,
  valid_polygon first -> valid_polygon second ->
  exists g, (forall o, intersect_polygons x o first second = Ok g) /\ well_oriented (polygons_of g).
Proof. exact intersect_polygons_oriented. Qed.
Print Assumptions C44_intersect_polygons.
Theorem C44_intersect_polygon_with_multipolygon : forall x, right_locators x -> forall shape multipolygon,
  valid_polygon shape -> valid_polygons multipolygon -> multipolygon <> [] ->
  exists g, (forall o, intersect_polygon_with_multipolygon x o shape multipolygon = Ok g) /\ well_oriented (polygons_of g).
Proof. exact intersect_polygon_multipolygon_oriented. Qed.
Print Assumptions C44_intersect_polygon_with_multipolygon.
Theorem C44_intersect_multipolygons : forall x, right_locators x -> forall first second,
  valid_polygons first -> valid_polygons second -> first <> [] -> second <> [] ->
  exists g, (forall o, intersect_multipolygons x o first second = Ok g) /\ well_oriented (polygons_of g).
Proof. exact intersect_multipolygons_oriented. Qed.
Print Assumptions C44_intersect_multipolygons.
Theorem C44_subtract_polygons : forall x, right_locators x -> forall minuend subtrahend,
  valid_polygon minuend -> valid_polygon subtrahend -> well_oriented [minuend] ->
  exists g, (forall o, subtract_polygons x o minuend subtrahend = Ok g) /\ well_oriented (polygons_of g).
Proof. exact subtract_polygons_oriented. Qed.
Print Assumptions C44_subtract_polygons.
Theorem C44_subtract_multipolygon_from_polygon : forall x, right_locators x -> forall minuend subtrahend,
  valid_polygon minuend -> valid_polygons subtrahend -> subtrahend <> [] -> well_oriented [minuend] ->
  exists g, (forall o, subtract_multipolygon_from_polygon x o minuend subtrahend = Ok g) /\ well_oriented (polygons_of g).
Proof. exact subtract_multipolygon_polygon_oriented. Qed.
Print Assumptions C44_subtract_multipolygon_from_polygon.
Theorem C44_subtract_polygon_from_multipolygon : forall x, right_locators x -> forall minuend subtrahend,
  valid_polygons minuend -> valid_polygon subtrahend -> (2 <= length minuend)%nat -> well_oriented minuend ->
  exists g, (forall o, subtract_polygon_from_multipolygon x o minuend subtrahend = Ok g) /\ well_oriented (polygons_of g).
Proof. exact subtract_polygon_multipolygon_oriented. Qed.
Print Assumptions C44_subtract_polygon_from_multipolygon.
Theorem C44_subtract_multipolygons : forall x, right_locators x -> forall minuend subtrahend,
  valid_polygons minuend -> valid_polygons subtrahend -> (2 <= length minuend)%nat -> subtrahend <> [] -> well_oriented minuend ->
  exists g, (forall o, subtract_multipolygons x o minuend subtrahend = Ok g) /\ well_oriented (polygons_of g).
Proof. exact subtract_multipolygons_oriented. Qed.
Print Assumptions C44_subtract_multipolygons.
Theorem C44_symmetric_subtract_polygons : forall first second,
  valid_polygon first -> valid_polygon second -> well_oriented [first] -> well_oriented [second] ->
  exists g, (forall o, symmetric_subtract_polygons o first second = Ok g) /\ well_oriented (polygons_of g).
Proof. exact symmetric_subtract_polygons_oriented. Qed.
Print Assumptions C44_symmetric_subtract_polygons.
Theorem C44_symmetric_subtract_multipolygon_from_polygon : forall shape multipolygon,
  valid_polygon shape -> valid_polygons multipolygon -> multipolygon <> [] -> well_oriented [shape] -> well_oriented multipolygon ->
  exists g, (forall o, symmetric_subtract_multipolygon_from_polygon o shape multipolygon = Ok g) /\ well_oriented (polygons_of g).
Proof. exact symmetric_subtract_multipolygon_from_polygon_oriented. Qed.
Print Assumptions C44_symmetric_subtract_multipolygon_from_polygon.
Theorem C44_symmetric_subtract_multipolygons : forall first second,
  valid_polygons first -> valid_polygons second -> first <> [] -> second <> [] -> well_oriented first -> well_oriented second ->
  exists g, (forall o, symmetric_subtract_multipolygons o first second = Ok g) /\ well_oriented (polygons_of g).
Proof. exact symmetric_subtract_multipolygons_oriented. Qed.
Print Assumptions C44_symmetric_subtract_multipolygons.
Theorem C44_unite_polygons : forall first second,
  valid_polygon first -> valid_polygon second -> well_oriented [first] -> well_oriented [second] ->
  exists g, (forall o, unite_polygons o first second = Ok g) /\ well_oriented (polygons_of g).
Proof. exact unite_polygons_oriented. Qed.
Print Assumptions C44_unite_polygons.
Theorem C44_unite_polygon_with_multipolygon : forall shape multipolygon,
  valid_polygon shape -> valid_polygons multipolygon -> multipolygon <> [] -> well_oriented [shape] -> well_oriented multipolygon ->
  exists g, (forall o, unite_polygon_with_multipolygon o shape multipolygon = Ok g) /\ well_oriented (polygons_of g).
Proof. exact unite_polygon_with_multipolygon_oriented. Qed.
Print Assumptions C44_unite_polygon_with_multipolygon.
Theorem C44_unite_multipolygons : forall first second,
  valid_polygons first -> valid_polygons second -> first <> [] -> second <> [] -> well_oriented first -> well_oriented second ->
  exists g, (forall o, unite_multipolygons o first second = Ok g) /\ well_oriented (polygons_of g).
Proof. exact unite_multipolygons_oriented. Qed.
Print Assumptions C44_unite_multipolygons.

(** ** First vertices of contours *)
Theorem C44_complete_intersect_polygons_first : forall x, right_locators x -> forall first second,
  valid_polygon first -> valid_polygon second ->
  exists g, (forall o, complete_intersect_polygons x o first second = Ok g) /\ well_started (polygons_of g).
Proof. exact complete_intersect_polygons_started. Qed.
Print Assumptions C44_complete_intersect_polygons_first.
Theorem C44_complete_intersect_polygon_with_multipolygon_first : forall x, right_locators x -> forall shape multipolygon,
  valid_polygon shape -> valid_polygons multipolygon -> multipolygon <> [] ->
  exists g, (forall o, complete_intersect_polygon_with_multipolygon x o shape multipolygon = Ok g) /\ well_started (polygons_of g).
Proof. exact complete_intersect_polygon_multipolygon_started. Qed.
Print Assumptions C44_complete_intersect_polygon_with_multipolygon_first.
Theorem C44_complete_intersect_multipolygons_first : forall x, right_locators x -> forall first second,
  valid_polygons first -> valid_polygons second -> first <> [] -> second <> [] ->
  exists g, (forall o, complete_intersect_multipolygons x o first second = Ok g) /\ well_started (polygons_of g).
Proof. exact complete_intersect_multipolygons_started. Qed.
Print Assumptions C44_complete_intersect_multipolygons_first.
Theorem C44_intersect_polygons_first : forall x, right_locators x -> forall first second,
  valid_polygon first -> valid_polygon second ->
  exists g, (forall o, intersect_polygons x o first second = Ok g) /\ well_started (polygons_of g).
Proof. exact intersect_polygons_started. Qed.
Print Assumptions C44_intersect_polygons_first.
Theorem C44_intersect_polygon_with_multipolygon_first : forall x, right_locators x -> forall shape multipolygon,
  valid_polygon shape -> valid_polygons multipolygon -> multipolygon <> [] ->
  exists g, (forall o, intersect_polygon_with_multipolygon x o shape multipolygon = Ok g) /\ well_started (polygons_of g).
Proof. exact intersect_polygon_multipolygon_started. Qed.
Print Assumptions C44_intersect_polygon_with_multipolygon_first.
Theorem C44_intersect_multipolygons_first : forall x, right_locators x -> forall first second,
  valid_polygons first -> valid_polygons second -> first <> [] -> second <> [] ->
  exists g, (forall o, intersect_multipolygons x o first second = Ok g) /\ well_started (polygons_of g).
Proof. exact intersect_multipolygons_started. Qed.
Print Assumptions C44_intersect_multipolygons_first.
Theorem C44_subtract_polygons_first : forall x, right_locators x -> forall minuend subtrahend,
  valid_polygon minuend -> valid_polygon subtrahend -> well_started [minuend] ->
  exists g, (forall o, subtract_polygons x o minuend subtrahend = Ok g) /\ well_started (polygons_of g).
Proof. exact subtract_polygons_started. Qed.
Print Assumptions C44_subtract_polygons_first.
Theorem C44_subtract_multipolygon_from_polygon_first : forall x, right_locators x -> forall minuend subtrahend,
  valid_polygon minuend -> valid_polygons subtrahend -> subtrahend <> [] -> well_started [minuend] ->
  exists g, (forall o, subtract_multipolygon_from_polygon x o minuend subtrahend = Ok g) /\ well_started (polygons_of g).
Proof. exact subtract_multipolygon_polygon_started. Qed.
Print Assumptions C44_subtract_multipolygon_from_polygon_first.
Theorem C44_subtract_polygon_from_multipolygon_first : forall x, right_locators x -> forall minuend subtrahend,
  valid_polygons minuend -> valid_polygon subtrahend -> (2 <= length minuend)%nat -> well_started minuend ->
  exists g, (forall o, subtract_polygon_from_multipolygon x o minuend subtrahend = Ok g) /\ well_started (polygons_of g).
Proof. exact subtract_polygon_multipolygon_started. Qed.
Print Assumptions C44_subtract_polygon_from_multipolygon_first.
Theorem C44_subtract_multipolygons_first : forall x, right_locators x -> forall minuend subtrahend,
  valid_polygons minuend -> valid_polygons subtrahend -> (2 <= length minuend)%nat -> subtrahend <> [] -> well_started minuend ->
  exists g, (forall o, subtract_multipolygons x o minuend subtrahend = Ok g) /\ well_started (polygons_of g).
Proof. exact subtract_multipolygons_started. Qed.
Print Assumptions C44_subtract_multipolygons_first.
Theorem C44_symmetric_subtract_polygons_first : forall first second,
  valid_polygon first -> valid_polygon second -> well_started [first] -> well_started [second] ->
  exists g, (forall o, symmetric_subtract_polygons o first second = Ok g) /\ well_started (polygons_of g).
Proof. exact symmetric_subtract_polygons_started. Qed.
Print Assumptions C44_symmetric_subtract_polygons_first.
Theorem C44_symmetric_subtract_multipolygon_from_polygon_first : forall shape multipolygon,
  valid_polygon shape -> valid_polygons multipolygon -> multipolygon <> [] -> well_started [shape] -> well_started multipolygon ->
  exists g, (forall o, symmetric_subtract_multipolygon_from_polygon o shape multipolygon = Ok g) /\ well_started (polygons_of g).
Proof. exact symmetric_subtract_multipolygon_from_polygon_started. Qed.
Print Assumptions C44_symmetric_subtract_multipolygon_from_polygon_first.
Theorem C44_symmetric_subtract_multipolygons_first : forall first second,
  valid_polygons first -> valid_polygons second -> first <> [] -> second <> [] -> well_started first -> well_started second ->
  exists g, (forall o, symmetric_subtract_multipolygons o first second = Ok g) /\ well_started (polygons_of g).
Proof. exact symmetric_subtract_multipolygons_started. Qed.
Print Assumptions C44_symmetric_subtract_multipolygons_first.
Theorem C44_unite_polygons_first : forall first second,
  valid_polygon first -> valid_polygon second -> well_started [first] -> well_started [second] ->
  exists g, (forall o, unite_polygons o first second = Ok g) /\ well_started (polygons_of g).
Proof. exact unite_polygons_started. Qed.
Print Assumptions C44_unite_polygons_first.
Theorem C44_unite_polygon_with_multipolygon_first : forall shape multipolygon,
  valid_polygon shape -> valid_polygons multipolygon -> multipolygon <> [] -> well_started [shape] -> well_started multipolygon ->
  exists g, (forall o, unite_polygon_with_multipolygon o shape multipolygon = Ok g) /\ well_started (polygons_of g).
Proof. exact unite_polygon_with_multipolygon_started. Qed.
Print Assumptions C44_unite_polygon_with_multipolygon_first.
Theorem C44_unite_multipolygons_first : forall first second,
  valid_polygons first -> valid_polygons second -> first <> [] -> second <> [] -> well_started first -> well_started second ->
  exists g, (forall o, unite_multipolygons o first second = Ok g) /\ well_started (polygons_of g).
Proof. exact unite_multipolygons_started. Qed.
Print Assumptions C44_unite_multipolygons_first.

(** A frame without a side and a bar along it; they are followed counterclockwise. *)
Definition ex_open : polygon := Polygon (Contour [pt 0 0; pt 9 0; pt 9 2; pt 2 2; pt 2 7; pt 9 7; pt 9 9; pt 0 9]) [].
Definition ex_bar : polygon := Polygon (Contour [pt 8 (-1); pt 11 (-1); pt 11 10; pt 8 10]) [].
Lemma plain_oriented : forall vs, simple_contour vs -> left_turn (contour_edges vs) = true -> well_oriented [Polygon (Contour vs) []].
Proof. intros vs S T g [<-|[]]. split; [split; [exact S|exact (counterclockwise_by_check _ T)]|intros h []]. Qed.
Example C44_example_valid : valid_polygon ex_open /\ valid_polygon ex_bar /\ well_oriented [ex_open] /\ well_oriented [ex_bar] /\ well_started [ex_open] /\ well_started [ex_bar].
Proof.
  assert (S1 : simple_contour (vertices (border ex_open))) by (apply simple_by_check; vm_compute; reflexivity).
  assert (S2 : simple_contour (vertices (border ex_bar))) by (apply simple_by_check; vm_compute; reflexivity).
  split; [exact (plain_valid _ S1)|]. split; [exact (plain_valid _ S2)|]. split; [apply plain_oriented; [exact S1|vm_compute; reflexivity]|]. split; [apply plain_oriented; [exact S2|vm_compute; reflexivity]|].
  split; intros c [<-|[]] q Hq; cbn in Hq; repeat (destruct Hq as [<-|Hq]; [first [left; reflexivity|right; split; reflexivity]|]); destruct Hq.
Qed.
(** The hole of the union is followed clockwise. *)
Example C44_example_union : shown_polygons (unite_polygons ex_oracle ex_open ex_bar)
  = Some [([(0, 0); (8, 0); (8, -1); (11, -1); (11, 10); (8, 10); (8, 9); (0, 9)], [[(2, 2); (2, 7); (8, 7); (8, 2)]])]%Q.
Proof. vm_compute. reflexivity. Qed.
(** Operands followed clockwise are returned as they are when their boxes have
    no common points. *)
Definition ex_clockwise : polygon := Polygon (Contour [pt 20 0; pt 20 1; pt 21 0]) [].
Example C44_example_unchanged : valid_polygon ex_clockwise /\ ~ well_oriented [ex_clockwise]
  /\ unite_polygons ex_oracle ex_open ex_clockwise = Ok (GMultipolygon [ex_open; ex_clockwise]).
Proof.
  assert (S : simple_contour (vertices (border ex_clockwise))) by (apply simple_by_check; vm_compute; reflexivity).
  split; [exact (plain_valid _ S)|]. split; [|vm_compute; reflexivity]. intro W. destruct (W ex_clockwise (or_introl eq_refl)) as (C & _).
  apply (one_way _ C). split; [exact S|]. apply counterclockwise_by_check. vm_compute. reflexivity.
Qed.
