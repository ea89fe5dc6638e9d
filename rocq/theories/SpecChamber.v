(** Specification vocabulary for results of intersections of regions.
    Independent of the modelled code. *)
From Verif Require Import QcTac Geom Spec SpecShape SpecSides SpecTurn SpecReach.

(** Points common to two sequences of regions off edges of both. *)
Definition inner_common (first second : list contour) (p : point) : Prop :=
  ~ on_segments p (flat_map (fun c => contour_edges (vertices c)) (first ++ second)) /\ in_regions first p /\ in_regions second p.
(** Polygons [gs] have no holes.  Their borders are regions of a valid
    multiregion, each one is followed counterclockwise from its least vertex
    and lies in one region of the first operand and in one of the second.
    Their points, those on edges included, are exactly the points reached from
    inside of the intersection. *)
Definition region_result (first second : list contour) (gs : list polygon) : Prop :=
  (forall g, In g gs -> holes g = [] /\ counterclockwise (border g) /\ starts_least (border g)
     /\ exists c1 c2, In c1 first /\ In c2 second /\ forall p, in_contour (border g) p -> in_contour c1 p /\ in_contour c2 p)
  /\ valid_regions (map border gs)
  /\ forall p, in_regions (map border gs) p <-> reached (inner_common first second) p.
