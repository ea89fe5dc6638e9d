(** Properties C50 and C51 for operations of single segments and polygons. *)
From Verif Require Import QcTac Geom Spec SpecShape SpecNode SpecCut Pair Bounding Sweep Linear Contour Filter Mixed PartOne Examples Locate PropPart.

Theorem C50_intersect_segment_with_polygon : forall s p, proper s -> Forall proper (polygon_edges p) ->
  forall x o g, intersect_segment_with_polygon x o s p = Ok g ->
  points_of g = [] /\ polygons_of g = [] /\ forall t, In t (segments_of g) -> cut ([s] ++ polygon_edges p) [s] t.
Proof. exact intersect_segment_with_polygon_one. Qed.
Print Assumptions C50_intersect_segment_with_polygon.
Theorem C50_subtract_polygon_from_segment : forall s p, proper s -> Forall proper (polygon_edges p) ->
  forall x o g, subtract_polygon_from_segment x o s p = Ok g ->
  points_of g = [] /\ polygons_of g = []
  /\ forall t, In t (segments_of g) -> In t [s] \/ cut ([s] ++ polygon_edges p) [s] t.
Proof. exact subtract_polygon_from_segment_one. Qed.
Print Assumptions C50_subtract_polygon_from_segment.
Theorem C50_unite_segment_with_polygon : forall s p, proper s -> Forall proper (polygon_edges p) ->
  forall x o g, unite_segment_with_polygon x o s p = Ok g ->
  points_of g = [] /\ polygons_of g = [p]
  /\ forall t, In t (segments_of g) -> In t [s] \/ cut ([s] ++ polygon_edges p) [s] t.
Proof. exact unite_segment_with_polygon_one. Qed.
Print Assumptions C50_unite_segment_with_polygon.
Theorem C50_symmetric_subtract_polygon_from_segment : forall s p, proper s -> Forall proper (polygon_edges p) ->
  forall x o g, symmetric_subtract_polygon_from_segment x o s p = Ok g ->
  points_of g = [] /\ polygons_of g = [p]
  /\ forall t, In t (segments_of g) -> In t [s] \/ cut ([s] ++ polygon_edges p) [s] t.
Proof. exact symmetric_subtract_polygon_from_segment_one. Qed.
Print Assumptions C50_symmetric_subtract_polygon_from_segment.
Theorem C50_complete_intersect_segment_with_polygon : forall s p, proper s -> Forall proper (polygon_edges p) ->
  forall x o g, complete_intersect_segment_with_polygon x o s p = Ok g ->
  polygons_of g = [] /\ (forall q, In q (points_of g) -> shared_node [s] (polygon_edges p) q)
  /\ forall t, In t (segments_of g) -> cut ([s] ++ polygon_edges p) [s] t.
Proof. exact complete_intersect_segment_with_polygon_one. Qed.
Print Assumptions C50_complete_intersect_segment_with_polygon.
Theorem C50_intersect_segment_with_multipolygon : forall s ps, proper s -> Forall proper (flat_map polygon_edges ps) ->
  forall x o g, intersect_segment_with_multipolygon x o s ps = Ok g ->
  points_of g = [] /\ polygons_of g = [] /\ forall t, In t (segments_of g) -> cut ([s] ++ flat_map polygon_edges ps) [s] t.
Proof. exact intersect_segment_with_multipolygon_one. Qed.
Print Assumptions C50_intersect_segment_with_multipolygon.
Theorem C50_subtract_multipolygon_from_segment : forall s ps, proper s -> Forall proper (flat_map polygon_edges ps) ->
  forall x o g, subtract_multipolygon_from_segment x o s ps = Ok g ->
  points_of g = [] /\ polygons_of g = []
  /\ forall t, In t (segments_of g) -> In t [s] \/ cut ([s] ++ flat_map polygon_edges ps) [s] t.
Proof. exact subtract_multipolygon_from_segment_one. Qed.
Print Assumptions C50_subtract_multipolygon_from_segment.
Theorem C50_unite_segment_with_multipolygon : forall s ps, proper s -> Forall proper (flat_map polygon_edges ps) ->
  forall x o g, unite_segment_with_multipolygon x o s ps = Ok g ->
  points_of g = [] /\ polygons_of g = ps
  /\ forall t, In t (segments_of g) -> In t [s] \/ cut ([s] ++ flat_map polygon_edges ps) [s] t.
Proof. exact unite_segment_with_multipolygon_one. Qed.
Print Assumptions C50_unite_segment_with_multipolygon.
Theorem C50_symmetric_subtract_multipolygon_from_segment : forall s ps, proper s -> Forall proper (flat_map polygon_edges ps) ->
  forall x o g, symmetric_subtract_multipolygon_from_segment x o s ps = Ok g ->
  points_of g = [] /\ polygons_of g = ps
  /\ forall t, In t (segments_of g) -> In t [s] \/ cut ([s] ++ flat_map polygon_edges ps) [s] t.
Proof. exact symmetric_subtract_multipolygon_from_segment_one. Qed.
Print Assumptions C50_symmetric_subtract_multipolygon_from_segment.
Theorem C50_complete_intersect_segment_with_multipolygon : forall s ps, proper s -> Forall proper (flat_map polygon_edges ps) ->
  forall x o g, complete_intersect_segment_with_multipolygon x o s ps = Ok g ->
  polygons_of g = [] /\ (forall q, In q (points_of g) -> shared_node [s] (flat_map polygon_edges ps) q)
  /\ forall t, In t (segments_of g) -> cut ([s] ++ flat_map polygon_edges ps) [s] t.
Proof. exact complete_intersect_segment_with_multipolygon_one. Qed.
Print Assumptions C50_complete_intersect_segment_with_multipolygon.
Theorem C50_intersect_multisegment_with_polygon : forall ss p, Forall proper ss -> Forall proper (polygon_edges p) ->
  forall x o g, intersect_multisegment_with_polygon x o ss p = Ok g ->
  points_of g = [] /\ polygons_of g = [] /\ forall t, In t (segments_of g) -> cut (ss ++ polygon_edges p) ss t.
Proof. exact intersect_multisegment_with_polygon_one. Qed.
Print Assumptions C50_intersect_multisegment_with_polygon.
Theorem C50_subtract_polygon_from_multisegment : forall ss p, Forall proper ss -> Forall proper (polygon_edges p) ->
  forall x o g, subtract_polygon_from_multisegment x o ss p = Ok g ->
  points_of g = [] /\ polygons_of g = []
  /\ forall t, In t (segments_of g) -> In t ss \/ cut (ss ++ polygon_edges p) ss t.
Proof. exact subtract_polygon_from_multisegment_one. Qed.
Print Assumptions C50_subtract_polygon_from_multisegment.
Theorem C50_unite_multisegment_with_polygon : forall ss p, Forall proper ss -> Forall proper (polygon_edges p) ->
  forall x o g, unite_multisegment_with_polygon x o ss p = Ok g ->
  points_of g = [] /\ polygons_of g = [p]
  /\ forall t, In t (segments_of g) -> In t ss \/ cut (ss ++ polygon_edges p) ss t.
Proof. exact unite_multisegment_with_polygon_one. Qed.
Print Assumptions C50_unite_multisegment_with_polygon.
Theorem C50_symmetric_subtract_polygon_from_multisegment : forall ss p, Forall proper ss -> Forall proper (polygon_edges p) ->
  forall x o g, symmetric_subtract_polygon_from_multisegment x o ss p = Ok g ->
  points_of g = [] /\ polygons_of g = [p]
  /\ forall t, In t (segments_of g) -> In t ss \/ cut (ss ++ polygon_edges p) ss t.
Proof. exact symmetric_subtract_polygon_from_multisegment_one. Qed.
Print Assumptions C50_symmetric_subtract_polygon_from_multisegment.
Theorem C50_complete_intersect_multisegment_with_polygon : forall ss p, Forall proper ss -> Forall proper (polygon_edges p) ->
  forall x o g, complete_intersect_multisegment_with_polygon x o ss p = Ok g ->
  polygons_of g = [] /\ (forall q, In q (points_of g) -> shared_node ss (polygon_edges p) q)
  /\ forall t, In t (segments_of g) -> cut (ss ++ polygon_edges p) ss t.
Proof. exact complete_intersect_multisegment_with_polygon_one. Qed.
Print Assumptions C50_complete_intersect_multisegment_with_polygon.
Theorem C50_symmetric_subtract_multisegment_from_segment : forall s second, proper s -> Forall proper second ->
  forall o g, symmetric_subtract_multisegment_from_segment o s second = Ok g ->
  points_of g = [] /\ polygons_of g = []
  /\ forall t, In t (segments_of g) -> In t (s :: second) \/ cut (s :: second) (s :: second) t.
Proof. exact symmetric_subtract_multisegment_from_segment_one. Qed.
Print Assumptions C50_symmetric_subtract_multisegment_from_segment.
Theorem C50_complete_intersect_segment_with_multisegment : forall s second, proper s -> Forall proper second ->
  forall o g, complete_intersect_segment_with_multisegment o s second = Ok g ->
  polygons_of g = [] /\ (forall q, In q (points_of g) -> shared_node [s] second q)
  /\ forall t, In t (segments_of g) -> cut (s :: second) [s] t /\ cut (s :: second) second t.
Proof. exact complete_intersect_segment_with_multisegment_one. Qed.
Print Assumptions C50_complete_intersect_segment_with_multisegment.
(** A segment through the contour crossing itself. *)
Example C50_example_one : proper (sg (-1) 1 9 1) /\ Forall proper (polygon_edges ex_bow).
Proof. split; [proper_tac|]. cbn. repeat constructor; proper_tac. Qed.
Example C50_example_one_results :
  shown (intersect_segment_with_polygon reference_locators ex_oracle (sg (-1) 1 9 1) ex_bow)
    = [((0, 1), (1, 1))]%Q
  /\ shown (subtract_polygon_from_segment reference_locators ex_oracle (sg (-1) 1 9 1) ex_bow)
    = [((-1, 1), (0, 1)); ((1, 1), (3, 1)); ((3, 1), (4, 1)); ((4, 1), (9, 1))]%Q.
Proof. vm_compute. split; reflexivity. Qed.

(** C51 *)
Theorem C51_segment_and_multipolygon : forall s ps, proper s -> Forall proper (flat_map polygon_edges ps) -> forall x o r,
  In r [unite_segment_with_multipolygon x o s ps; intersect_segment_with_multipolygon x o s ps; subtract_multipolygon_from_segment x o s ps;
        symmetric_subtract_multipolygon_from_segment x o s ps; complete_intersect_segment_with_multipolygon x o s ps] ->
  (exists g, r = Ok g) \/ r = Err ValueError.
Proof. exact segment_multipolygon_bounded. Qed.
Print Assumptions C51_segment_and_multipolygon.
Theorem C51_multisegment_and_polygon : forall ss p, Forall proper ss -> Forall proper (polygon_edges p) -> forall x o r,
  In r [unite_multisegment_with_polygon x o ss p; intersect_multisegment_with_polygon x o ss p; subtract_polygon_from_multisegment x o ss p;
        symmetric_subtract_polygon_from_multisegment x o ss p; complete_intersect_multisegment_with_polygon x o ss p] ->
  (exists g, r = Ok g) \/ r = Err ValueError \/ r = Err Unordered /\ ~ non_overlapping ss.
Proof. exact multisegment_polygon_bounded. Qed.
Print Assumptions C51_multisegment_and_polygon.
(** All three outcomes are met. *)
Definition outcome (r : res geometry) : option error := match r with Ok _ => None | Err e => Some e end.
Example C51_example_one :
  outcome (unite_segment_with_multipolygon reference_locators ex_oracle (sg (-1) 1 9 1)
             [ex_bow; Polygon (Contour [pt 0 1; pt 6 1; pt 3 3]) []]) = None
  /\ intersect_segment_with_multipolygon reference_locators ex_oracle (sg (-1) 1 9 1) [ex_bow; ex_bow] = Err ValueError
  /\ unite_multisegment_with_polygon reference_locators ex_oracle [sg (-1) 1 9 1; sg (-1) 1 8 1; sg 0 4 4 0] ex_bow = Err Unordered.
Proof. split; [|split]; vm_compute; reflexivity. Qed.
