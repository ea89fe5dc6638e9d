(** Property C50: whatever the operands, operations of segments return only
    parts of the segments given, cut where segments meet; and C51: these operations
    end whatever the operands. *)
From Verif Require Import QcTac Geom Spec SpecShape SpecNode SpecCut Pair Bounding Sweep Linear Contour Filter Mixed PartProps PartMixed PartEnds Examples Locate.

(** C50: operations of multisegments. *)
Theorem C50_unite_multisegments : forall first second, Forall proper first -> Forall proper second ->
  forall o g, unite_multisegments o first second = Ok g ->
  points_of g = [] /\ polygons_of g = []
  /\ forall t, In t (segments_of g) -> In t (first ++ second) \/ cut (first ++ second) (first ++ second) t.
Proof. exact union_parts. Qed.
Print Assumptions C50_unite_multisegments.
Theorem C50_symmetric_subtract_multisegments : forall first second, Forall proper first -> Forall proper second ->
  forall o g, symmetric_subtract_multisegments o first second = Ok g ->
  points_of g = [] /\ polygons_of g = []
  /\ forall t, In t (segments_of g) -> In t (first ++ second) \/ cut (first ++ second) (first ++ second) t.
Proof. exact symmetric_parts. Qed.
Print Assumptions C50_symmetric_subtract_multisegments.
Theorem C50_subtract_multisegments : forall first second, Forall proper first -> Forall proper second ->
  forall o g, subtract_multisegments o first second = Ok g ->
  points_of g = [] /\ polygons_of g = []
  /\ forall t, In t (segments_of g) -> In t first \/ cut (first ++ second) first t.
Proof. exact (fun f s P1 P2 o g => difference_parts f s P1 P2 o (GMultisegment f) g eq_refl eq_refl eq_refl). Qed.
Print Assumptions C50_subtract_multisegments.
Theorem C50_subtract_multisegment_from_segment : forall s second, proper s -> Forall proper second ->
  forall o g, subtract_multisegment_from_segment o s second = Ok g ->
  points_of g = [] /\ polygons_of g = []
  /\ forall t, In t (segments_of g) -> In t [s] \/ cut (s :: second) [s] t.
Proof.
  exact (fun s k P1 P2 o g => difference_parts [s] k (Forall_cons s P1 (Forall_nil _)) P2 o (GSegment s) g eq_refl eq_refl eq_refl).
Qed.
Print Assumptions C50_subtract_multisegment_from_segment.
Theorem C50_intersect_multisegments : forall first second, Forall proper first -> Forall proper second ->
  forall o g, intersect_multisegments o first second = Ok g ->
  points_of g = [] /\ polygons_of g = []
  /\ forall t, In t (segments_of g) -> cut (first ++ second) first t /\ cut (first ++ second) second t.
Proof. exact intersection_parts. Qed.
Print Assumptions C50_intersect_multisegments.
Theorem C50_complete_intersect_multisegments : forall first second, Forall proper first -> Forall proper second ->
  forall o g, complete_intersect_multisegments o first second = Ok g ->
  polygons_of g = [] /\ (forall p, In p (points_of g) -> shared_node first second p)
  /\ forall t, In t (segments_of g) -> cut (first ++ second) first t /\ cut (first ++ second) second t.
Proof. exact complete_parts_of. Qed.
Print Assumptions C50_complete_intersect_multisegments.

(** C50: operations of multisegments and multipolygons, with any answers of
    the external tests of boxes against polygons. *)
Theorem C50_intersect_multisegment_with_multipolygon : forall ss ps, Forall proper ss -> Forall proper (flat_map polygon_edges ps) ->
  forall x o g, intersect_multisegment_with_multipolygon x o ss ps = Ok g ->
  points_of g = [] /\ polygons_of g = []
  /\ forall t, In t (segments_of g) -> cut (ss ++ flat_map polygon_edges ps) ss t.
Proof. exact mixed_intersection_parts. Qed.
Print Assumptions C50_intersect_multisegment_with_multipolygon.
Theorem C50_subtract_multipolygon_from_multisegment : forall ss ps, Forall proper ss -> Forall proper (flat_map polygon_edges ps) ->
  forall x o g, subtract_multipolygon_from_multisegment x o ss ps = Ok g ->
  points_of g = [] /\ polygons_of g = []
  /\ forall t, In t (segments_of g) -> In t ss \/ cut (ss ++ flat_map polygon_edges ps) ss t.
Proof. exact (fun ss ps P1 P2 x o g => mixed_difference_parts ss ps P1 P2 x o (GMultisegment ss) g eq_refl eq_refl eq_refl). Qed.
Print Assumptions C50_subtract_multipolygon_from_multisegment.
Theorem C50_unite_multisegment_with_multipolygon : forall ss ps, Forall proper ss -> Forall proper (flat_map polygon_edges ps) ->
  forall x o g, unite_multisegment_with_multipolygon x o ss ps = Ok g ->
  points_of g = [] /\ polygons_of g = ps
  /\ forall t, In t (segments_of g) -> In t ss \/ cut (ss ++ flat_map polygon_edges ps) ss t.
Proof.
  exact (fun ss ps P1 P2 x o g => mixed_union_parts ss ps P1 P2 x o (GMultisegment ss) (GMultipolygon ps) g eq_refl eq_refl eq_refl eq_refl eq_refl eq_refl).
Qed.
Print Assumptions C50_unite_multisegment_with_multipolygon.
Theorem C50_symmetric_subtract_multipolygon_from_multisegment : forall ss ps, Forall proper ss -> Forall proper (flat_map polygon_edges ps) ->
  forall x o g, symmetric_subtract_multipolygon_from_multisegment x o ss ps = Ok g ->
  points_of g = [] /\ polygons_of g = ps
  /\ forall t, In t (segments_of g) -> In t ss \/ cut (ss ++ flat_map polygon_edges ps) ss t.
Proof.
  exact (fun ss ps P1 P2 x o g => mixed_union_parts ss ps P1 P2 x o (GMultisegment ss) (GMultipolygon ps) g eq_refl eq_refl eq_refl eq_refl eq_refl eq_refl).
Qed.
Print Assumptions C50_symmetric_subtract_multipolygon_from_multisegment.
Theorem C50_complete_intersect_multisegment_with_multipolygon : forall ss ps, Forall proper ss -> Forall proper (flat_map polygon_edges ps) ->
  forall x o g, complete_intersect_multisegment_with_multipolygon x o ss ps = Ok g ->
  polygons_of g = [] /\ (forall p, In p (points_of g) -> shared_node ss (flat_map polygon_edges ps) p)
  /\ forall t, In t (segments_of g) -> cut (ss ++ flat_map polygon_edges ps) ss t.
Proof. exact mixed_complete_parts_of. Qed.
Print Assumptions C50_complete_intersect_multisegment_with_multipolygon.
(** A contour crossing itself. *)
Definition ex_bow : polygon := Polygon (Contour [pt 0 0; pt 4 4; pt 4 0; pt 0 4]) [].
Definition ex_through : list segment := [sg (-1) 2 5 2; sg 0 0 2 2; sg 0 1 9 1].
Example C50_example : Forall proper ex_through /\ Forall proper (flat_map polygon_edges [ex_bow]) /\ ~ simple_contour (vertices (border ex_bow)).
Proof.
  split; [repeat constructor; proper_tac|]. split; [cbn; repeat constructor; proper_tac|].
  intros (_ & _ & H). assert (E : contour_edges (vertices (border ex_bow)) = [sg 0 4 0 0; sg 0 0 4 4; sg 4 4 4 0; sg 4 0 0 4]) by reflexivity. rewrite E in H.
  destruct (H 1%nat 3%nat (sg 0 0 4 4) (sg 4 0 0 4) ltac:(discriminate) eq_refl eq_refl (pt 2 2) ltac:(on_tac (1#2)) ltac:(on_tac (1#2))) as ([K|K] & _);
    apply (f_equal (fun p => this (px p))) in K; vm_compute in K; discriminate K.
Qed.
Example C50_example_results :
  shown (intersect_multisegment_with_multipolygon reference_locators ex_oracle ex_through [ex_bow])
    = [((0, 0), (1, 1)); ((0, 1), (1, 1)); ((0, 2), (2, 2)); ((1, 1), (2, 2))]%Q
  /\ shown (subtract_multipolygon_from_multisegment reference_locators ex_oracle ex_through [ex_bow])
    = [((-1, 2), (0, 2)); ((1, 1), (3, 1)); ((3, 1), (4, 1)); ((2, 2), (4, 2)); ((4, 2), (5, 2)); ((4, 1), (9, 1))]%Q
  /\ shown_points (complete_intersect_multisegment_with_multipolygon reference_locators ex_oracle ex_through [ex_bow])
    = [(3, 1); (4, 1); (4, 2)]%Q.
Proof. vm_compute. repeat split; reflexivity. Qed.

(** C51: there is a result, or the code fails with ValueError; or the queue has
    no least event at some moment, which may happen only if segments of the
    first operand overlap and is not modelled further. *)
Theorem C51_multisegments : forall first second, Forall proper first -> Forall proper second -> forall o r,
  In r [unite_multisegments o first second; intersect_multisegments o first second; subtract_multisegments o first second;
        symmetric_subtract_multisegments o first second; complete_intersect_multisegments o first second] ->
  (exists g, r = Ok g) \/ r = Err ValueError \/ r = Err Unordered /\ ~ non_overlapping first.
Proof. exact linear_bounded. Qed.
Print Assumptions C51_multisegments.
Theorem C51_segment_and_multisegment : forall s second, proper s -> Forall proper second -> forall o r,
  In r [subtract_multisegment_from_segment o s second; symmetric_subtract_multisegment_from_segment o s second;
        complete_intersect_segment_with_multisegment o s second] ->
  (exists g, r = Ok g) \/ r = Err ValueError.
Proof. exact segment_bounded. Qed.
Print Assumptions C51_segment_and_multisegment.
Theorem C51_multisegment_and_multipolygon : forall ss ps, Forall proper ss -> Forall proper (flat_map polygon_edges ps) -> forall x o r,
  In r [unite_multisegment_with_multipolygon x o ss ps; intersect_multisegment_with_multipolygon x o ss ps;
        subtract_multipolygon_from_multisegment x o ss ps; symmetric_subtract_multipolygon_from_multisegment x o ss ps;
        complete_intersect_multisegment_with_multipolygon x o ss ps] ->
  (exists g, r = Ok g) \/ r = Err ValueError \/ r = Err Unordered /\ ~ non_overlapping ss.
Proof. exact mixed_bounded. Qed.
Print Assumptions C51_multisegment_and_multipolygon.
Theorem C51_segment_and_polygon : forall s p, proper s -> Forall proper (polygon_edges p) -> forall x o r,
  In r [unite_segment_with_polygon x o s p; intersect_segment_with_polygon x o s p; subtract_polygon_from_segment x o s p;
        symmetric_subtract_polygon_from_segment x o s p; complete_intersect_segment_with_polygon x o s p] ->
  (exists g, r = Ok g) \/ r = Err ValueError.
Proof. exact mixed_single_bounded. Qed.
Print Assumptions C51_segment_and_polygon.
(** All three outcomes are met. *)
Example C51_example :
  (exists g, unite_multisegments ex_oracle ex_first ex_second = Ok g)
  /\ unite_multisegments ex_oracle [sg 0 0 4 4; sg 1 1 6 6; sg 0 4 4 0] [sg 0 2 4 2] = Err ValueError
  /\ unite_multisegments ex_oracle [sg 0 0 4 4; sg 0 0 6 6; sg 0 4 4 0] [sg 0 2 4 2] = Err Unordered.
Proof.
  split; [|split; vm_compute; reflexivity].
  assert (E : match unite_multisegments ex_oracle ex_first ex_second with Ok _ => true | Err _ => false end = true) by (vm_compute; reflexivity).
  destruct (unite_multisegments ex_oracle ex_first ex_second) as [g|]; [exists g; reflexivity|discriminate E].
Qed.
