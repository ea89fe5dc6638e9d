(** Properties C18-C21: shape of results and bounding boxes. *)
From Verif Require Import QcTac Geom Spec Pair UnpackThms Bounding BoundingThms Examples.

(** C18 *)
Theorem C18_mix_canonical : forall ps ss gs,
  let g := unpack_mix (unpack_points ps) (unpack_segments ss) (unpack_polygons gs) in
  canonical g /\ points_of g = ps /\ segments_of g = ss /\ polygons_of g = gs.
Proof. exact unpack_mix_canonical. Qed.
Print Assumptions C18_mix_canonical.
Theorem C18_linear_mix_canonical : forall ps ss,
  let g := unpack_linear_mix (unpack_points ps) (unpack_segments ss) in
  canonical g /\ points_of g = ps /\ segments_of g = ss /\ polygons_of g = [].
Proof. exact unpack_linear_mix_canonical. Qed.
Print Assumptions C18_linear_mix_canonical.
Theorem C18_segments_canonical : forall ss,
  canonical (unpack_segments ss) /\ points_of (unpack_segments ss) = []
  /\ segments_of (unpack_segments ss) = ss /\ polygons_of (unpack_segments ss) = [].
Proof. exact unpack_segments_canonical. Qed.
Print Assumptions C18_segments_canonical.
Theorem C18_points_canonical : forall ps,
  canonical (unpack_points ps) /\ points_of (unpack_points ps) = ps
  /\ segments_of (unpack_points ps) = [] /\ polygons_of (unpack_points ps) = [].
Proof. exact unpack_points_canonical. Qed.
Print Assumptions C18_points_canonical.
Theorem C18_polygons_canonical : forall ps,
  canonical (unpack_polygons ps) /\ points_of (unpack_polygons ps) = []
  /\ segments_of (unpack_polygons ps) = [] /\ polygons_of (unpack_polygons ps) = ps.
Proof. exact unpack_polygons_canonical. Qed.
Print Assumptions C18_polygons_canonical.
Theorem C18_regions_canonical : forall rs,
  canonical (unpack_regions rs) /\ points_of (unpack_regions rs) = []
  /\ segments_of (unpack_regions rs) = [] /\ polygons_of (unpack_regions rs) = map (fun r => Polygon r []) rs.
Proof. exact unpack_regions_canonical. Qed.
Print Assumptions C18_regions_canonical.
(** Components determine the canonical form. *)
Theorem C18_canonical_unique : forall g g', canonical g -> canonical g' ->
  points_of g = points_of g' -> segments_of g = segments_of g' -> polygons_of g = polygons_of g' -> g = g'.
Proof. exact canonical_unique. Qed.
Print Assumptions C18_canonical_unique.
Example C18_example : unpack_mix (unpack_points [pt 0 0]) (unpack_segments [ex_a]) (unpack_polygons [])
  = GMix (GMultipoint [pt 0 0]) (GSegment ex_a) GEmpty.
Proof. exact eq_refl. Qed.

(** C19 *)
Theorem C19_intersects_with : forall a b, wf_box a -> wf_box b ->
  (intersects_with a b = true <-> exists p, in_box p a /\ in_box p b).
Proof. exact intersects_with_points. Qed.
Print Assumptions C19_intersects_with.
Theorem C19_disjoint_with : forall a b, wf_box a -> wf_box b ->
  (disjoint_with a b = true <-> forall p, ~ (in_box p a /\ in_box p b)).
Proof. exact disjoint_with_points. Qed.
Print Assumptions C19_disjoint_with.
Theorem C19_is_subset_of : forall a b, wf_box a ->
  (is_subset_of a b = true <-> forall p, in_box p a -> in_box p b).
Proof. exact is_subset_of_points. Qed.
Print Assumptions C19_is_subset_of.
Theorem C19_within_of : forall a b, wf_box a ->
  (within_of a b = true <-> forall p, in_box p a -> inside_box p b).
Proof. exact within_of_points. Qed.
Print Assumptions C19_within_of.
Theorem C19_touches_with : forall a b, solid_box a -> solid_box b ->
  (touches_with a b = true <->
   (exists p, in_box p a /\ in_box p b) /\ forall p, ~ (inside_box p a /\ inside_box p b)).
Proof. exact touches_with_points. Qed.
Print Assumptions C19_touches_with.
Theorem C19_edges_overlap_with : forall a b, solid_box a -> solid_box b ->
  (edges_overlap_with a b = true <->
   many (fun p => in_box p a /\ in_box p b) /\ forall p, ~ (inside_box p a /\ inside_box p b)).
Proof. exact edges_overlap_with_points. Qed.
Print Assumptions C19_edges_overlap_with.
Theorem C19_coupled_with : forall a b, solid_box a -> solid_box b ->
  (coupled_with a b = true <-> many (fun p => in_box p a /\ in_box p b)).
Proof. exact coupled_with_points. Qed.
Print Assumptions C19_coupled_with.
(** Boxes without interior (of horizontal or vertical segments) are never uncoupled wrongly. *)
Theorem C19_coupled_with_flat : forall a b, wf_box a -> wf_box b ->
  many (fun p => in_box p a /\ in_box p b) -> coupled_with a b = true.
Proof. exact coupled_with_sound. Qed.
Print Assumptions C19_coupled_with_flat.
Example C19_example : solid_box ex_box /\ solid_box ex_box2 /\ touches_with ex_box ex_box2 = true.
Proof. exact (conj (proj1 ex_solid) (conj (proj2 ex_solid) eq_refl)). Qed.

(** C20 *)
Theorem C20_intersects_with_segment : forall b s, wf_box b -> proper s ->
  (intersects_with_segment b s = true <-> exists p, in_box p b /\ on_segment p s).
Proof. exact intersects_with_segment_points. Qed.
Print Assumptions C20_intersects_with_segment.
Theorem C20_filter : forall b ss,
  to_intersecting_segments b ss = filter (intersects_with_segment b) ss
  /\ split_intersecting_segments b ss
     = (filter (fun s => negb (intersects_with_segment b s)) ss, filter (intersects_with_segment b) ss).
Proof. exact (fun b ss => conj eq_refl (split_filter b ss)). Qed.
Print Assumptions C20_filter.
Example C20_example : wf_box ex_box /\ proper ex_a /\ intersects_with_segment ex_box ex_a = true.
Proof. exact (conj ex_wf (conj (proj1 ex_proper) eq_refl)). Qed.

(** C21: the full statement
      [forall b s, wf_box b -> proper s -> many (fun p => in_box p b /\ on_segment p s) ->
         coupled_with_segment b s = true]
    is false of the code. *)
Theorem C21_coupled_with_segment_refuted : exists b s, solid_box b /\ proper s
  /\ many (fun p => inside_box p b /\ on_segment p s) /\ coupled_with_segment b s = false.
Proof. exact coupled_with_segment_wrong. Qed.
Print Assumptions C21_coupled_with_segment_refuted.
(** It holds for segments lying in the box, or crossing or following one of
    its edges inside of both; for boxes with interior for no other segments. *)
Theorem C21_coupled_with_segment_partial : forall b s, wf_box b -> proper s ->
  many (fun p => in_box p b /\ on_segment p s) -> box_friendly b s -> coupled_with_segment b s = true.
Proof. exact coupled_with_segment_kept. Qed.
Print Assumptions C21_coupled_with_segment_partial.
Theorem C21_coupled_with_segment_exact_partial : forall b s, solid_box b -> proper s ->
  many (fun p => in_box p b /\ on_segment p s) -> (coupled_with_segment b s = true <-> box_friendly b s).
Proof. exact coupled_with_segment_exact. Qed.
Print Assumptions C21_coupled_with_segment_exact_partial.
Example C21_example : solid_box ex_box /\ proper ex_d /\ many (fun p => in_box p ex_box /\ on_segment p ex_d) /\ box_friendly ex_box ex_d.
Proof. exact ex_friendly. Qed.
