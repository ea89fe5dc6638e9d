(** Specification vocabulary for both sides of edges.  Independent of the
    modelled code. *)
From Verif Require Import QcTac Geom Spec SpecShape.

(** The point lies on the segment, as a test. *)
Definition passes_through (s : segment) (p : point) : bool :=
  Qc_eqb (cross (s_start s) (s_end s) p) 0
  && ((negb (lex_ltb p (s_start s)) && negb (lex_ltb (s_end s) p))
      || (negb (lex_ltb p (s_end s)) && negb (lex_ltb (s_start s) p))).
(** The even-odd rule with edges through [p] being counted, so a point of an
    edge is considered as lying slightly above of it. *)
Definition inside_above (es : list segment) (p : point) : bool :=
  Nat.odd (length (filter (fun s => passes_under s p || passes_through s p) es)).
(** Number of segments the point lies on. *)
Definition segments_through (es : list segment) (p : point) : nat :=
  length (filter (fun s => passes_through s p) es).

(** Set operations. *)
Inductive operation := Meet | Minus | Differ | Join.
Definition member (op : operation) (P Q : Prop) : Prop :=
  match op with Meet => P /\ Q | Minus => P /\ ~ Q | Differ => (P /\ ~ Q) \/ (~ P /\ Q) | Join => P \/ Q end.

(** Contours of polygons. *)
Definition polygon_contours (gs : list polygon) : list contour := flat_map (fun g => border g :: holes g) gs.
(** Contours without vertices lying on straight lines with their neighbours. *)
Definition no_straight_vertices (gs : list polygon) : Prop :=
  forall c, In c (polygon_contours gs) -> forall j, (j < length (vertices c))%nat -> ~ straight (vertices c) j.
(** Polygons [gs] are made of simple contours going along boundaries of
    operands without overlapping each other, and these contours together bound
    the result of the operation: a point off the boundaries belongs to it exactly when
    it is inside of an odd number of contours. *)
Definition bounds_result (op : operation) (first second gs : list polygon) : Prop :=
  (forall c, In c (polygon_contours gs) -> simple_contour (vertices c))
  /\ non_overlapping (flat_map polygon_edges gs)
  /\ (forall p, on_segments p (flat_map polygon_edges gs) -> on_segments p (flat_map polygon_edges (first ++ second)))
  /\ forall p, ~ on_segments p (flat_map polygon_edges (first ++ second)) ->
       (inside (flat_map polygon_edges gs) p = true <-> member op (in_polygons first p) (in_polygons second p)).
(** Geometry [g] has exactly points common for shapes with points [first] and
    [second]; [first_edges] and [second_edges] being edges of these shapes.  Its
    segments and points lie on both boundaries, they are not in its polygons
    (segments may touch them by endpoints) and its points are not on its segments. *)
Definition complete_common (first second : point -> Prop) (first_edges second_edges : list segment) (g : geometry) : Prop :=
  valid_multisegment (segments_of g) /\ NoDup (points_of g)
  /\ (forall p, on_segments p (segments_of g) \/ In p (points_of g) -> on_segments p first_edges /\ on_segments p second_edges)
  /\ (forall s p, In s (segments_of g) -> inside_segment p s -> ~ in_region (flat_map polygon_edges (polygons_of g)) p)
  /\ (forall p, In p (points_of g) -> ~ on_segments p (segments_of g) /\ ~ in_region (flat_map polygon_edges (polygons_of g)) p)
  /\ forall p, first p /\ second p <->
       In p (points_of g) \/ on_segments p (segments_of g) \/ in_region (flat_map polygon_edges (polygons_of g)) p.
(** The least box with the points. *)
Definition tight (S : point -> Prop) (b : box) : Prop :=
  (forall p, S p -> in_box p b)
  /\ (exists p, S p /\ px p = min_x b) /\ (exists p, S p /\ px p = max_x b)
  /\ (exists p, S p /\ py p = min_y b) /\ (exists p, S p /\ py p = max_y b).
