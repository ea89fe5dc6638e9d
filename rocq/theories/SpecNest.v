(** Specification vocabulary for contours of polygons without common points.
    Independent of the modelled code. *)
From Verif Require Import QcTac Geom Spec SpecShape SpecSides.

(** Contours pairwise without common points. *)
Definition separate_contours (cs : list contour) : Prop :=
  pairwise (fun c d => forall p, on_segments p (contour_edges (vertices c)) -> ~ on_segments p (contour_edges (vertices d))) cs.
(** Operands in a general position: contours of each of them have no common
    points, and vertices of one operand do not lie on edges of another. *)
Definition general_position (first second : list polygon) : Prop :=
  separate_contours (polygon_contours first) /\ separate_contours (polygon_contours second)
  /\ (forall c p, In c (polygon_contours first) -> In p (vertices c) -> ~ on_segments p (flat_map polygon_edges second))
  /\ (forall c p, In c (polygon_contours second) -> In p (vertices c) -> ~ on_segments p (flat_map polygon_edges first)).
(** Polygons [gs] are valid ones with separate contours having exactly points
    of the result of the operation, those on edges of operands aside. *)
Definition exact_result (op : operation) (first second gs : list polygon) : Prop :=
  valid_polygons gs /\ separate_contours (polygon_contours gs)
  /\ forall p, ~ on_segments p (flat_map polygon_edges (first ++ second)) -> (in_polygons gs p <-> member op (in_polygons first p) (in_polygons second p)).

(** The endpoint of a segment which is the least or the greatest of two, points
    are ordered by their abscissas and then by their ordinates. *)
Definition begins (p : point) (s : segment) : Prop := endpoint p s /\ forall q, endpoint q s -> q <> p -> plt p q.
Definition finishes (p : point) (s : segment) : Prop := endpoint p s /\ forall q, endpoint q s -> q <> p -> plt q p.
(** A segment [c] beginning in a point [p] of a segment [b] does not go to the
    left of [b] followed from its least endpoint: above [b], if [b] is not vertical. *)
Definition not_above (p : point) (c b : segment) : Prop := forall q u, endpoint q c -> finishes u b -> cross p u q <= 0.
(** Operands in a mild position: when an edge of a polygon [g] begins in a point
    strictly inside of an edge [b] of a polygon [h], some edge of one of these
    polygons finishes there, or begins there without going above [b]. *)
Definition mild_position (first second : list polygon) : Prop :=
  forall g h a b p, In g (first ++ second) -> In h (first ++ second) -> In a (polygon_edges g) -> In b (polygon_edges h) ->
    begins p a -> inside_segment p b ->
    exists c, (In c (polygon_edges g) \/ In c (polygon_edges h)) /\ (finishes p c \/ (begins p c /\ not_above p c b)).
(** Polygons [gs] are valid ones having exactly points of the result of the
    operation, those on edges of operands aside. *)
Definition exact_polygons (op : operation) (first second gs : list polygon) : Prop :=
  valid_polygons gs
  /\ forall p, ~ on_segments p (flat_map polygon_edges (first ++ second)) -> (in_polygons gs p <-> member op (in_polygons first p) (in_polygons second p)).
