(** Property C34: operands with disjoint bounding boxes, except for
    two multisegments.  Here [o] stands for any behaviour of the external priority queue and
    tree, and [x] for any behaviour of external locators of points and segments. *)
From Coq Require Import Permutation Sorted.
From Verif Require Import QcTac Geom Spec SpecShape SpecSides SpecLocate Pair Bounding Sweep Linear Contour Filter Mixed Shaped Holey Rectangle Examples PropShaped PropComplete MixedProps ShapedProps SeparateThms.

Theorem C34_multisegment_multipolygon : forall x (ss : list segment) (ps : list polygon) a b, valid_polygons ps ->
  tight (fun p => on_segments p ss) a -> tight (in_polygons ps) b -> separate a b ->
  (forall o, intersect_multisegment_with_multipolygon x o ss ps = Ok GEmpty)
  /\ (forall o, complete_intersect_multisegment_with_multipolygon x o ss ps = Ok GEmpty)
  /\ (forall o, subtract_multipolygon_from_multisegment x o ss ps = Ok (GMultisegment ss))
  /\ (forall o, unite_multisegment_with_multipolygon x o ss ps = Ok (GMix GEmpty (GMultisegment ss) (GMultipolygon ps)))
  /\ (forall o, symmetric_subtract_multipolygon_from_multisegment x o ss ps = Ok (GMix GEmpty (GMultisegment ss) (GMultipolygon ps)))
  /\ (forall p, ~ (on_segments p ss /\ in_polygons ps p)).
Proof. exact apart_multisegment_multipolygon. Qed.
Print Assumptions C34_multisegment_multipolygon.
Theorem C34_multisegment_polygon : forall x (ss : list segment) (g : polygon) a b, valid_polygon g ->
  tight (fun p => on_segments p ss) a -> tight (in_polygons [g]) b -> separate a b ->
  (forall o, intersect_multisegment_with_polygon x o ss g = Ok GEmpty)
  /\ (forall o, complete_intersect_multisegment_with_polygon x o ss g = Ok GEmpty)
  /\ (forall o, subtract_polygon_from_multisegment x o ss g = Ok (GMultisegment ss))
  /\ (forall o, unite_multisegment_with_polygon x o ss g = Ok (GMix GEmpty (GMultisegment ss) (GPolygon g)))
  /\ (forall o, symmetric_subtract_polygon_from_multisegment x o ss g = Ok (GMix GEmpty (GMultisegment ss) (GPolygon g)))
  /\ (forall p, ~ (on_segments p ss /\ in_polygons [g] p)).
Proof. exact apart_multisegment_polygon. Qed.
Print Assumptions C34_multisegment_polygon.
Theorem C34_segment_multipolygon : forall x (s : segment) (ps : list polygon) a b, valid_polygons ps ->
  tight (fun p => on_segments p [s]) a -> tight (in_polygons ps) b -> separate a b ->
  (forall o, intersect_segment_with_multipolygon x o s ps = Ok GEmpty)
  /\ (forall o, complete_intersect_segment_with_multipolygon x o s ps = Ok GEmpty)
  /\ (forall o, subtract_multipolygon_from_segment x o s ps = Ok (GSegment s))
  /\ (forall o, unite_segment_with_multipolygon x o s ps = Ok (GMix GEmpty (GSegment s) (GMultipolygon ps)))
  /\ (forall o, symmetric_subtract_multipolygon_from_segment x o s ps = Ok (GMix GEmpty (GSegment s) (GMultipolygon ps)))
  /\ (forall p, ~ (on_segments p [s] /\ in_polygons ps p)).
Proof. exact apart_segment_multipolygon. Qed.
Print Assumptions C34_segment_multipolygon.
Theorem C34_segment_polygon : forall x (s : segment) (g : polygon) a b, valid_polygon g ->
  tight (fun p => on_segments p [s]) a -> tight (in_polygons [g]) b -> separate a b ->
  (forall o, intersect_segment_with_polygon x o s g = Ok GEmpty)
  /\ (forall o, complete_intersect_segment_with_polygon x o s g = Ok GEmpty)
  /\ (forall o, subtract_polygon_from_segment x o s g = Ok (GSegment s))
  /\ (forall o, unite_segment_with_polygon x o s g = Ok (GMix GEmpty (GSegment s) (GPolygon g)))
  /\ (forall o, symmetric_subtract_polygon_from_segment x o s g = Ok (GMix GEmpty (GSegment s) (GPolygon g)))
  /\ (forall p, ~ (on_segments p [s] /\ in_polygons [g] p)).
Proof. exact apart_segment_polygon. Qed.
Print Assumptions C34_segment_polygon.
Theorem C34_polygons : forall x (f g : polygon) a b, valid_polygon f -> valid_polygon g ->
  tight (in_polygons [f]) a -> tight (in_polygons [g]) b -> separate a b ->
  (forall o, intersect_polygons x o f g = Ok GEmpty)
  /\ (forall o, complete_intersect_polygons x o f g = Ok GEmpty)
  /\ (forall o, subtract_polygons x o f g = Ok (GPolygon f))
  /\ (exists hs, (forall o, unite_polygons o f g = Ok (GMultipolygon hs))
        /\ (forall o, symmetric_subtract_polygons o f g = Ok (GMultipolygon hs))
        /\ Permutation ([f] ++ [g]) hs
        /\ StronglySorted (fun g h => ~ plt (at_ (vertices (border h)) 0) (at_ (vertices (border g)) 0)) hs)
  /\ (forall p, ~ (in_polygons [f] p /\ in_polygons [g] p)).
Proof. exact apart_polygons. Qed.
Print Assumptions C34_polygons.
Theorem C34_polygon_multipolygon : forall x (f : polygon) (gs : list polygon) a b, valid_polygon f -> valid_polygons gs ->
  tight (in_polygons [f]) a -> tight (in_polygons gs) b -> separate a b ->
  (forall o, intersect_polygon_with_multipolygon x o f gs = Ok GEmpty)
  /\ (forall o, complete_intersect_polygon_with_multipolygon x o f gs = Ok GEmpty)
  /\ (forall o, subtract_multipolygon_from_polygon x o f gs = Ok (GPolygon f))
  /\ (forall o, subtract_polygon_from_multipolygon x o gs f = Ok (GMultipolygon gs))
  /\ (exists hs, (forall o, unite_polygon_with_multipolygon o f gs = Ok (GMultipolygon hs))
        /\ (forall o, symmetric_subtract_multipolygon_from_polygon o f gs = Ok (GMultipolygon hs))
        /\ Permutation ([f] ++ gs) hs
        /\ StronglySorted (fun g h => ~ plt (at_ (vertices (border h)) 0) (at_ (vertices (border g)) 0)) hs)
  /\ (forall p, ~ (in_polygons [f] p /\ in_polygons gs p)).
Proof. exact apart_polygon_multipolygon. Qed.
Print Assumptions C34_polygon_multipolygon.
Theorem C34_multipolygons : forall x (fs gs : list polygon) a b, valid_polygons fs -> valid_polygons gs ->
  tight (in_polygons fs) a -> tight (in_polygons gs) b -> separate a b ->
  (forall o, intersect_multipolygons x o fs gs = Ok GEmpty)
  /\ (forall o, complete_intersect_multipolygons x o fs gs = Ok GEmpty)
  /\ (forall o, subtract_multipolygons x o fs gs = Ok (GMultipolygon fs))
  /\ (exists hs, (forall o, unite_multipolygons o fs gs = Ok (GMultipolygon hs))
        /\ (forall o, symmetric_subtract_multipolygons o fs gs = Ok (GMultipolygon hs))
        /\ Permutation (fs ++ gs) hs
        /\ StronglySorted (fun g h => ~ plt (at_ (vertices (border h)) 0) (at_ (vertices (border g)) 0)) hs)
  /\ (forall p, ~ (in_polygons fs p /\ in_polygons gs p)).
Proof. exact apart_multipolygons. Qed.
Print Assumptions C34_multipolygons.
Theorem C34_regions : forall x (f g : contour) a b, simple_contour (vertices f) -> simple_contour (vertices g) ->
  tight (in_regions [f]) a -> tight (in_regions [g]) b -> separate a b ->
  (forall o, intersect_regions x o f g = Ok GEmpty)
  /\ (forall o, complete_intersect_regions x o f g = Ok GEmpty)
  /\ (forall p, ~ (in_regions [f] p /\ in_regions [g] p)).
Proof. exact apart_regions. Qed.
Print Assumptions C34_regions.
Theorem C34_region_multiregion : forall x (f : contour) (gs : list contour) a b, simple_contour (vertices f) -> valid_regions gs ->
  tight (in_regions [f]) a -> tight (in_regions gs) b -> separate a b ->
  (forall o, intersect_region_with_multiregion x o f gs = Ok GEmpty)
  /\ (forall o, complete_intersect_region_with_multiregion x o f gs = Ok GEmpty)
  /\ (forall p, ~ (in_regions [f] p /\ in_regions gs p)).
Proof. exact apart_region_multiregion. Qed.
Print Assumptions C34_region_multiregion.
Theorem C34_multiregions : forall x (fs gs : list contour) a b, valid_regions fs -> valid_regions gs ->
  tight (in_regions fs) a -> tight (in_regions gs) b -> separate a b ->
  (forall o, intersect_multiregions x o fs gs = Ok GEmpty)
  /\ (forall o, complete_intersect_multiregions x o fs gs = Ok GEmpty)
  /\ (forall p, ~ (in_regions fs p /\ in_regions gs p)).
Proof. exact apart_multiregions. Qed.
Print Assumptions C34_multiregions.
Theorem C34_segment_multisegment : forall (s : segment) (ss : list segment) a b, tight (fun p => on_segment p s) a -> tight (fun p => on_segments p ss) b -> separate a b ->
  (forall o, complete_intersect_segment_with_multisegment o s ss = Ok GEmpty)
  /\ (forall o, subtract_multisegment_from_segment o s ss = Ok (GSegment s))
  /\ (exists ts, (forall o, symmetric_subtract_multisegment_from_segment o s ss = Ok (GMultisegment ts))
        /\ Permutation (s :: ss) ts /\ StronglySorted (fun s t => ~ segment_lt t s) ts)
  /\ (forall p, ~ (on_segment p s /\ on_segments p ss)).
Proof. exact apart_segment_multisegment. Qed.
Print Assumptions C34_segment_multisegment.

(** The shape of the example for C40 and a frame to the right of it. *)
Definition ex_away : polygon := frame (z 8) (z 0) (z 12) (z 4) (z 9) (z 1) (z 11) (z 3).
Definition ex_clamp_box : box := Box (z 3) (z 7) (z 0) (z 5).
Definition ex_away_box : box := Box (z 8) (z 12) (z 0) (z 4).
Example C34_example_polygons : valid_polygon (Polygon ex_clamp []) /\ valid_polygon ex_away
  /\ tight (in_polygons [Polygon ex_clamp []]) ex_clamp_box /\ tight (in_polygons [ex_away]) ex_away_box /\ separate ex_clamp_box ex_away_box.
Proof.
  pose proof (proj1 (proj2 (proj2 (proj2 C40_example_valid)))) as V. assert (W : valid_polygon ex_away) by (apply frame_valid; repeat split).
  split; [exact V|]. split; [exact W|]. split; [|split].
  - apply box_tight; [exact (single_polygon_valid _ V)|]. apply some_box; vm_compute; reflexivity.
  - apply box_tight; [exact (single_polygon_valid _ W)|]. apply some_box; vm_compute; reflexivity.
  - intros p ((_ & A & _) & (B & _)). cbn in A, B. assert (L : z 7 < z 8) by (vm_compute; reflexivity). qlra.
Qed.
Example C34_example_segments : tight (fun p => on_segments p ex_first) ex_first_box /\ separate ex_first_box ex_away_box.
Proof.
  split; [exact (proj1 ex_separate)|]. intros p ((_ & A & _) & (B & _)). cbn in A, B. assert (L : z 4 < z 8) by (vm_compute; reflexivity). qlra.
Qed.
Example C34_example_regions : tight (in_regions [ex_clamp]) ex_clamp_box /\ tight (in_regions [border ex_away]) ex_away_box.
Proof.
  split.
  - apply region_box_tight; [apply single_region; exact (proj1 (proj2 C40_example_valid))|]. apply some_box; vm_compute; reflexivity.
  - apply region_box_tight; [apply single_region; exact (proj1 (proj1 (proj2 C34_example_polygons)))|]. apply some_box; vm_compute; reflexivity.
Qed.
