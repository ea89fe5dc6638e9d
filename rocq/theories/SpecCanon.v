(** Specification vocabulary for the canonical form of regions.
    Independent of the modelled code. *)
From Verif Require Import QcTac Geom Spec SpecShape SpecSides SpecTurn SpecReach SpecChamber.

(** Contours without vertices lying on straight lines with their neighbours. *)
Definition angular (c : contour) : Prop := forall j, (j < length (vertices c))%nat -> ~ straight (vertices c) j.
(** The order of contours by first vertices; by directions of first edges, the
    lowest one is the first, for contours with the same first vertex. *)
Definition begins_before (c d : contour) : Prop :=
  let v := vertex (vertices c) 0 in let w := vertex (vertices d) 0 in
  plt v w \/ (v = w /\ 0 < cross v (vertex (vertices c) 1) (vertex (vertices d) 1)).
(** Valid regions, each one is followed counterclockwise from its least vertex
    and has no straight vertices, listed in this order. *)
Definition canonical_regions (rs : list contour) : Prop :=
  valid_regions rs
  /\ (forall r, In r rs -> counterclockwise r /\ starts_least r /\ angular r)
  /\ forall i j r k, (i < j)%nat -> nth_error rs i = Some r -> nth_error rs j = Some k -> begins_before r k.
(** Polygons without holes, their borders are canonical and cover exactly the
    points reached from inside of the intersection. *)
Definition canonical_result (first second : list contour) (gs : list polygon) : Prop :=
  (forall g, In g gs -> holes g = [])
  /\ canonical_regions (map border gs)
  /\ forall p, in_regions (map border gs) p <-> reached (inner_common first second) p.
