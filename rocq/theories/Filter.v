(** Model of the part of /repo/clipping/core/bounding.py selecting polygons
    and regions by their relation with a box.  Functions of package orient
    are external and given as an argument. *)
From Verif Require Import QcTac Geom Bounding.

(** orient.planar: point_in_region, segment_in_contour, segment_in_region *)
Record locators := Locators {
  point_in_region : point -> contour -> location;
  segment_in_contour : segment -> contour -> relation;
  segment_in_region : segment -> contour -> relation
}.

(** Context.contour_segments: every vertex is connected with the previous one *)
Definition contour_segments (c : contour) : list segment :=
  match rev (vertices c) with
  | [] => []
  | l :: _ => map (fun '(a, b) => Seg a b) (combine (l :: vertices c) (vertices c))
  end.
(** Context.contour_box followed by a predicate; contours of ground have at
    least three vertices, for a contour without vertices ground fails *)
Definition with_contour_box (c : contour) (f : box -> bool) : bool :=
  match contour_box c with Some b => f b | None => false end.
Definition is_one_of (r : relation) (l : list relation) : bool := existsb (relation_eqb r) l.
(** [context.segments_relation(edge, border_edge) is Relation.DISJOINT for all edges] *)
Definition edges_disjoint (b : box) (c : contour) : bool :=
  forallb (fun edge => forallb (fun border_edge => relation_eqb (segments_relation edge border_edge) DISJOINT)
                               (contour_segments c)) (to_edges b).

(** bounding.py 207-216: is_subset_of_region *)
Definition is_subset_of_region (x : locators) (b : box) (border : contour) : bool :=
  forallb (fun s => is_one_of (segment_in_region x s border) [COMPONENT; ENCLOSED; WITHIN]) (to_edges b).
(** bounding.py 219-230: within_of_region *)
Definition within_of_region (x : locators) (b : box) (border : contour) : bool :=
  forallb (fun v => location_eqb (point_in_region x v border) INTERIOR) (to_vertices b) && edges_disjoint b border.
(** bounding.py 233-241: is_subset_of_multiregion *)
Definition is_subset_of_multiregion (x : locators) (b : box) (multiregion : list contour) : bool :=
  existsb (fun region => with_contour_box region (fun region_box => is_subset_of b region_box)
                         && is_subset_of_region x b region) multiregion.

(** bounding.py 244-272: intersects_with_polygon *)
Definition intersects_with_polygon (x : locators) (b : box) (p : polygon) : bool :=
  with_contour_box (border p) (fun polygon_box =>
    if negb (intersects_with polygon_box b) then false
    else if is_subset_of polygon_box b || existsb (contains_point b) (vertices (border p)) then true
    else
      let locations := map (fun v => point_in_region x v (border p)) (to_vertices b) in
      if within_of b polygon_box && forallb (fun l => location_eqb l INTERIOR) locations && edges_disjoint b (border p)
      then negb (existsb (fun hole => with_contour_box hole (fun hole_box => within_of b hole_box)
                                      && within_of_region x b hole) (holes p))
      else existsb (fun l => negb (location_eqb l EXTERIOR)) locations
           || existsb (intersects_with_segment b) (contour_segments (border p))).
(** bounding.py 275-290: intersects_with_region *)
Definition intersects_with_region (x : locators) (b : box) (region : contour) : bool :=
  with_contour_box region (fun region_box =>
    intersects_with region_box b
    && (is_subset_of region_box b
        || existsb (contains_point b) (vertices region)
        || existsb (fun v => negb (location_eqb (point_in_region x v region) EXTERIOR)) (to_vertices b)
        || existsb (intersects_with_segment b) (contour_segments region))).
(** [segment_in_contour(...) is Relation.OVERLAP or segment_in_region(...) in (...)] *)
Definition edge_coupled (x : locators) (border : contour) (s : segment) : bool :=
  relation_eqb (segment_in_contour x s border) OVERLAP
  || is_one_of (segment_in_region x s border) [CROSS; COMPONENT; ENCLOSED].
(** bounding.py 293-321: coupled_with_polygon *)
Definition coupled_with_polygon (x : locators) (b : box) (p : polygon) : bool :=
  with_contour_box (border p) (fun polygon_box =>
    if negb (coupled_with polygon_box b) then false
    else if is_subset_of polygon_box b || existsb (covers_point b) (vertices (border p)) then true
    else
      let locations := map (fun v => point_in_region x v (border p)) (to_vertices b) in
      if existsb (fun l => location_eqb l INTERIOR) locations
      then negb (forallb (fun l => location_eqb l INTERIOR) locations)
           || negb (is_subset_of_multiregion x b (holes p))
      else if is_subset_of b polygon_box && is_subset_of_region x b (border p)
      then negb (is_subset_of_multiregion x b (holes p))
      else existsb (edge_coupled x (border p)) (to_edges b)).
(** bounding.py 324-345: coupled_with_region *)
Definition coupled_with_region (x : locators) (b : box) (region : contour) : bool :=
  with_contour_box region (fun region_box =>
    if negb (coupled_with region_box b) then false
    else if is_subset_of region_box b || existsb (covers_point b) (vertices region) then true
    else existsb (fun v => location_eqb (point_in_region x v region) INTERIOR) (to_vertices b)
         || (is_subset_of b region_box && is_subset_of_region x b region)
         || existsb (edge_coupled x region) (to_edges b)).

(** bounding.py 403-408, 411-416, 419-424, 427-432: to_intersecting_polygons,
    to_intersecting_regions, to_coupled_polygons, to_coupled_regions *)
Definition to_intersecting_polygons (x : locators) (b : box) (ps : list polygon) : list polygon :=
  filter (intersects_with_polygon x b) ps.
Definition to_intersecting_regions (x : locators) (b : box) (rs : list contour) : list contour :=
  filter (intersects_with_region x b) rs.
Definition to_coupled_polygons (x : locators) (b : box) (ps : list polygon) : list polygon :=
  filter (coupled_with_polygon x b) ps.
Definition to_coupled_regions (x : locators) (b : box) (rs : list contour) : list contour :=
  filter (coupled_with_region x b) rs.
