(** Specification vocabulary for the orientation of contours.
    Independent of the modelled code. *)
From Verif Require Import QcTac Geom Spec SpecShape SpecSides.

(** Simple contours followed counterclockwise and clockwise: the turn at the
    least vertex is to the left, when the contour is followed backwards in the
    second case. *)
Definition counterclockwise (c : contour) : Prop :=
  simple_contour (vertices c) /\ counterclockwise_at_least (contour_edges (vertices c)).
Definition clockwise (c : contour) : Prop :=
  simple_contour (vertices c) /\ counterclockwise_at_least (map reversed (contour_edges (vertices c))).
(** Borders of polygons are followed counterclockwise and their holes clockwise. *)
Definition well_oriented (gs : list polygon) : Prop :=
  forall g, In g gs -> counterclockwise (border g) /\ forall h, In h (holes g) -> clockwise h.
(** The least vertex of a contour is the first one in the lists of vertices. *)
Definition starts_least (c : contour) : Prop :=
  match vertices c with [] => False | v :: vs => forall q, In q vs -> plt v q end.
Definition well_started (gs : list polygon) : Prop := forall c, In c (polygon_contours gs) -> starts_least c.
