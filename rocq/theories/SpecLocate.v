(** What is expected of the functions of package orient used by the modelled
    code: answers about points and segments against simple contours. *)
From Verif Require Import QcTac Geom Spec SpecShape Filter.

Definition edges (c : contour) : list segment := contour_edges (vertices c).
(** orient.planar.point_in_region *)
Definition locates_point (x : locators) (p : point) (c : contour) : Prop :=
  (point_in_region x p c = INTERIOR <-> inside_contour c p)
  /\ (point_in_region x p c = BOUNDARY <-> on_segments p (edges c)).
(** orient.planar.segment_in_region, segment_in_contour *)
Definition locates_segment (x : locators) (s : segment) (c : contour) : Prop :=
  (segment_in_region x s c = COMPONENT <-> forall p, on_segment p s -> on_segments p (edges c))
  /\ (segment_in_region x s c = WITHIN <-> forall p, on_segment p s -> inside_contour c p)
  /\ (segment_in_region x s c = ENCLOSED <->
        (forall p, on_segment p s -> in_contour c p)
        /\ (exists p, on_segment p s /\ inside_contour c p) /\ (exists p, on_segment p s /\ on_segments p (edges c)))
  /\ (segment_in_region x s c = CROSS <->
        (exists p, on_segment p s /\ inside_contour c p) /\ (exists p, on_segment p s /\ ~ in_contour c p))
  /\ (segment_in_contour x s c = OVERLAP <->
        (exists t, In t (edges c) /\ overlap s t) /\ (exists p, on_segment p s /\ ~ on_segments p (edges c))).
Definition right_locators (x : locators) : Prop :=
  (forall p c, simple_contour (vertices c) -> locates_point x p c)
  /\ (forall s c, proper s -> simple_contour (vertices c) -> locates_segment x s c).
