(** Results and ends of operations of single segments and polygons.  Proof
    support only, no part of /repo is modelled here. *)
From Verif Require Import QcTac Geom Spec SpecShape SpecNode SpecCut Pair Bounding Sweep Linear Contour Filter Mixed PartProps PartMixed PartEnds.

Lemma one_edges : forall p, flat_map polygon_edges [p] = polygon_edges p.
Proof. intro p. apply app_nil_r. Qed.
Lemma intersect_segment_with_polygon_one : forall s p, proper s -> Forall proper (polygon_edges p) ->
  forall x o g, intersect_segment_with_polygon x o s p = Ok g ->
  points_of g = [] /\ polygons_of g = [] /\ forall t, In t (segments_of g) -> cut ([s] ++ polygon_edges p) [s] t.
Proof. intros s p P1 P2 x o g. rewrite <- (one_edges p) in *. exact (mixed_intersection_parts [s] [p] (Forall_cons s P1 (Forall_nil _)) P2 x o g). Qed.
Lemma subtract_polygon_from_segment_one : forall s p, proper s -> Forall proper (polygon_edges p) ->
  forall x o g, subtract_polygon_from_segment x o s p = Ok g ->
  points_of g = [] /\ polygons_of g = []
  /\ forall t, In t (segments_of g) -> In t [s] \/ cut ([s] ++ polygon_edges p) [s] t.
Proof. intros s p P1 P2 x o g. rewrite <- (one_edges p) in *. exact (mixed_difference_parts [s] [p] (Forall_cons s P1 (Forall_nil _)) P2 x o (GSegment s) g eq_refl eq_refl eq_refl). Qed.
Lemma unite_segment_with_polygon_one : forall s p, proper s -> Forall proper (polygon_edges p) ->
  forall x o g, unite_segment_with_polygon x o s p = Ok g ->
  points_of g = [] /\ polygons_of g = [p]
  /\ forall t, In t (segments_of g) -> In t [s] \/ cut ([s] ++ polygon_edges p) [s] t.
Proof. intros s p P1 P2 x o g. rewrite <- (one_edges p) in *. exact (mixed_union_parts [s] [p] (Forall_cons s P1 (Forall_nil _)) P2 x o (GSegment s) (GPolygon p) g eq_refl eq_refl eq_refl eq_refl eq_refl eq_refl). Qed.
Lemma symmetric_subtract_polygon_from_segment_one : forall s p, proper s -> Forall proper (polygon_edges p) ->
  forall x o g, symmetric_subtract_polygon_from_segment x o s p = Ok g ->
  points_of g = [] /\ polygons_of g = [p]
  /\ forall t, In t (segments_of g) -> In t [s] \/ cut ([s] ++ polygon_edges p) [s] t.
Proof. intros s p P1 P2 x o g. rewrite <- (one_edges p) in *. exact (mixed_union_parts [s] [p] (Forall_cons s P1 (Forall_nil _)) P2 x o (GSegment s) (GPolygon p) g eq_refl eq_refl eq_refl eq_refl eq_refl eq_refl). Qed.
Lemma complete_intersect_segment_with_polygon_one : forall s p, proper s -> Forall proper (polygon_edges p) ->
  forall x o g, complete_intersect_segment_with_polygon x o s p = Ok g ->
  polygons_of g = [] /\ (forall q, In q (points_of g) -> shared_node [s] (polygon_edges p) q)
  /\ forall t, In t (segments_of g) -> cut ([s] ++ polygon_edges p) [s] t.
Proof. intros s p P1 P2 x o g. rewrite <- (one_edges p) in *. exact (mixed_complete_parts_of [s] [p] (Forall_cons s P1 (Forall_nil _)) P2 x o g). Qed.
Lemma intersect_segment_with_multipolygon_one : forall s ps, proper s -> Forall proper (flat_map polygon_edges ps) ->
  forall x o g, intersect_segment_with_multipolygon x o s ps = Ok g ->
  points_of g = [] /\ polygons_of g = [] /\ forall t, In t (segments_of g) -> cut ([s] ++ flat_map polygon_edges ps) [s] t.
Proof. intros s ps P1 P2 x o g. exact (mixed_intersection_parts [s] ps (Forall_cons s P1 (Forall_nil _)) P2 x o g). Qed.
Lemma subtract_multipolygon_from_segment_one : forall s ps, proper s -> Forall proper (flat_map polygon_edges ps) ->
  forall x o g, subtract_multipolygon_from_segment x o s ps = Ok g ->
  points_of g = [] /\ polygons_of g = []
  /\ forall t, In t (segments_of g) -> In t [s] \/ cut ([s] ++ flat_map polygon_edges ps) [s] t.
Proof. intros s ps P1 P2 x o g. exact (mixed_difference_parts [s] ps (Forall_cons s P1 (Forall_nil _)) P2 x o (GSegment s) g eq_refl eq_refl eq_refl). Qed.
Lemma unite_segment_with_multipolygon_one : forall s ps, proper s -> Forall proper (flat_map polygon_edges ps) ->
  forall x o g, unite_segment_with_multipolygon x o s ps = Ok g ->
  points_of g = [] /\ polygons_of g = ps
  /\ forall t, In t (segments_of g) -> In t [s] \/ cut ([s] ++ flat_map polygon_edges ps) [s] t.
Proof. intros s ps P1 P2 x o g. exact (mixed_union_parts [s] ps (Forall_cons s P1 (Forall_nil _)) P2 x o (GSegment s) (GMultipolygon ps) g eq_refl eq_refl eq_refl eq_refl eq_refl eq_refl). Qed.
Lemma symmetric_subtract_multipolygon_from_segment_one : forall s ps, proper s -> Forall proper (flat_map polygon_edges ps) ->
  forall x o g, symmetric_subtract_multipolygon_from_segment x o s ps = Ok g ->
  points_of g = [] /\ polygons_of g = ps
  /\ forall t, In t (segments_of g) -> In t [s] \/ cut ([s] ++ flat_map polygon_edges ps) [s] t.
Proof. intros s ps P1 P2 x o g. exact (mixed_union_parts [s] ps (Forall_cons s P1 (Forall_nil _)) P2 x o (GSegment s) (GMultipolygon ps) g eq_refl eq_refl eq_refl eq_refl eq_refl eq_refl). Qed.
Lemma complete_intersect_segment_with_multipolygon_one : forall s ps, proper s -> Forall proper (flat_map polygon_edges ps) ->
  forall x o g, complete_intersect_segment_with_multipolygon x o s ps = Ok g ->
  polygons_of g = [] /\ (forall q, In q (points_of g) -> shared_node [s] (flat_map polygon_edges ps) q)
  /\ forall t, In t (segments_of g) -> cut ([s] ++ flat_map polygon_edges ps) [s] t.
Proof. intros s ps P1 P2 x o g. exact (mixed_complete_parts_of [s] ps (Forall_cons s P1 (Forall_nil _)) P2 x o g). Qed.
Lemma intersect_multisegment_with_polygon_one : forall ss p, Forall proper ss -> Forall proper (polygon_edges p) ->
  forall x o g, intersect_multisegment_with_polygon x o ss p = Ok g ->
  points_of g = [] /\ polygons_of g = [] /\ forall t, In t (segments_of g) -> cut (ss ++ polygon_edges p) ss t.
Proof. intros ss p P1 P2 x o g. rewrite <- (one_edges p) in *. exact (mixed_intersection_parts ss [p] P1 P2 x o g). Qed.
Lemma subtract_polygon_from_multisegment_one : forall ss p, Forall proper ss -> Forall proper (polygon_edges p) ->
  forall x o g, subtract_polygon_from_multisegment x o ss p = Ok g ->
  points_of g = [] /\ polygons_of g = []
  /\ forall t, In t (segments_of g) -> In t ss \/ cut (ss ++ polygon_edges p) ss t.
Proof. intros ss p P1 P2 x o g. rewrite <- (one_edges p) in *. exact (mixed_difference_parts ss [p] P1 P2 x o (GMultisegment ss) g eq_refl eq_refl eq_refl). Qed.
Lemma unite_multisegment_with_polygon_one : forall ss p, Forall proper ss -> Forall proper (polygon_edges p) ->
  forall x o g, unite_multisegment_with_polygon x o ss p = Ok g ->
  points_of g = [] /\ polygons_of g = [p]
  /\ forall t, In t (segments_of g) -> In t ss \/ cut (ss ++ polygon_edges p) ss t.
Proof. intros ss p P1 P2 x o g. rewrite <- (one_edges p) in *. exact (mixed_union_parts ss [p] P1 P2 x o (GMultisegment ss) (GPolygon p) g eq_refl eq_refl eq_refl eq_refl eq_refl eq_refl). Qed.
Lemma symmetric_subtract_polygon_from_multisegment_one : forall ss p, Forall proper ss -> Forall proper (polygon_edges p) ->
  forall x o g, symmetric_subtract_polygon_from_multisegment x o ss p = Ok g ->
  points_of g = [] /\ polygons_of g = [p]
  /\ forall t, In t (segments_of g) -> In t ss \/ cut (ss ++ polygon_edges p) ss t.
Proof. intros ss p P1 P2 x o g. rewrite <- (one_edges p) in *. exact (mixed_union_parts ss [p] P1 P2 x o (GMultisegment ss) (GPolygon p) g eq_refl eq_refl eq_refl eq_refl eq_refl eq_refl). Qed.
Lemma complete_intersect_multisegment_with_polygon_one : forall ss p, Forall proper ss -> Forall proper (polygon_edges p) ->
  forall x o g, complete_intersect_multisegment_with_polygon x o ss p = Ok g ->
  polygons_of g = [] /\ (forall q, In q (points_of g) -> shared_node ss (polygon_edges p) q)
  /\ forall t, In t (segments_of g) -> cut (ss ++ polygon_edges p) ss t.
Proof. intros ss p P1 P2 x o g. rewrite <- (one_edges p) in *. exact (mixed_complete_parts_of ss [p] P1 P2 x o g). Qed.
Lemma symmetric_subtract_multisegment_from_segment_one : forall s second, proper s -> Forall proper second ->
  forall o g, symmetric_subtract_multisegment_from_segment o s second = Ok g ->
  points_of g = [] /\ polygons_of g = []
  /\ forall t, In t (segments_of g) -> In t (s :: second) \/ cut (s :: second) (s :: second) t.
Proof. intros s second P1 P2. exact (symmetric_parts [s] second (Forall_cons s P1 (Forall_nil _)) P2). Qed.
Lemma complete_intersect_segment_with_multisegment_one : forall s second, proper s -> Forall proper second ->
  forall o g, complete_intersect_segment_with_multisegment o s second = Ok g ->
  polygons_of g = [] /\ (forall q, In q (points_of g) -> shared_node [s] second q)
  /\ forall t, In t (segments_of g) -> cut (s :: second) [s] t /\ cut (s :: second) second t.
Proof. intros s second P1 P2. exact (complete_parts_of [s] second (Forall_cons s P1 (Forall_nil _)) P2). Qed.
Lemma segment_multipolygon_bounded : forall s ps, proper s -> Forall proper (flat_map polygon_edges ps) -> forall x o r,
  In r [unite_segment_with_multipolygon x o s ps; intersect_segment_with_multipolygon x o s ps; subtract_multipolygon_from_segment x o s ps;
        symmetric_subtract_multipolygon_from_segment x o s ps; complete_intersect_segment_with_multipolygon x o s ps] ->
  (exists g, r = Ok g) \/ r = Err ValueError.
Proof.
  intros s ps P P2 x o r H. assert (P1 : Forall proper [s]) by (constructor; [exact P|constructor]). apply (single_ends _ s r P).
  repeat (destruct H as [<-|H]); [| | | | |destruct H].
  - exact (mixed_union_ends [s] ps P1 P2 x o (GSegment s) (GMultipolygon ps)).
  - exact (mixed_intersection_ends [s] ps P1 P2 x o).
  - exact (mixed_difference_ends [s] ps P1 P2 x o (GSegment s)).
  - exact (mixed_union_ends [s] ps P1 P2 x o (GSegment s) (GMultipolygon ps)).
  - exact (mixed_complete_ends [s] ps P1 P2 x o).
Qed.
Lemma multisegment_polygon_bounded : forall ss p, Forall proper ss -> Forall proper (polygon_edges p) -> forall x o r,
  In r [unite_multisegment_with_polygon x o ss p; intersect_multisegment_with_polygon x o ss p; subtract_polygon_from_multisegment x o ss p;
        symmetric_subtract_polygon_from_multisegment x o ss p; complete_intersect_multisegment_with_polygon x o ss p] ->
  (exists g, r = Ok g) \/ r = Err ValueError \/ r = Err Unordered /\ ~ non_overlapping ss.
Proof.
  intros ss p P1 Q x o r H. assert (P2 : Forall proper (flat_map polygon_edges [p])) by (rewrite one_edges; exact Q). apply ends_bounded.
  repeat (destruct H as [<-|H]); [| | | | |destruct H].
  - exact (mixed_union_ends ss [p] P1 P2 x o (GMultisegment ss) (GPolygon p)).
  - exact (mixed_intersection_ends ss [p] P1 P2 x o).
  - exact (mixed_difference_ends ss [p] P1 P2 x o (GMultisegment ss)).
  - exact (mixed_union_ends ss [p] P1 P2 x o (GMultisegment ss) (GPolygon p)).
  - exact (mixed_complete_ends ss [p] P1 P2 x o).
Qed.
