(** Specification vocabulary for points of results on edges of operands.
    Independent of the modelled code. *)
From Verif Require Import QcTac Geom Spec SpecShape SpecSides SpecNest.

(** [p] may be reached by a segment all points of which, [p] aside, have the property. *)
Definition reached (R : point -> Prop) (p : point) : Prop :=
  exists q, q <> p /\ forall m, on_segment m (Seg p q) -> m <> p -> R m.
(** Points of the result of an operation off edges of operands. *)
Definition inner_member (op : operation) (first second : list polygon) (p : point) : Prop :=
  ~ on_segments p (flat_map polygon_edges (first ++ second)) /\ member op (in_polygons first p) (in_polygons second p).
(** Points of regions bounded by contours of [gs] taken together, those on edges
    included, are exactly the points reached from inside of the result of the operation. *)
Definition reached_result (op : operation) (first second gs : list polygon) : Prop :=
  forall p, in_region (flat_map polygon_edges gs) p <-> reached (inner_member op first second) p.
(** Polygons [gs] are valid ones; their points, those on edges included, are
    exactly the points reached from inside of the result of the operation. *)
Definition closed_result (op : operation) (first second gs : list polygon) : Prop :=
  valid_polygons gs /\ forall p, in_polygons gs p <-> reached (inner_member op first second) p.
