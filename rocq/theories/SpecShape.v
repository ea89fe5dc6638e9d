(** Specification vocabulary for contours, polygons and regions.
    Independent of the modelled code. *)
From Verif Require Import QcTac Geom Spec GeomFacts.

(** Vertices of a contour in cyclic order. *)
Definition vertex (vs : list point) (i : nat) : point := nth i vs (Pt 0 0).
Definition before (n i : nat) : nat := match i with O => (n - 1)%nat | S j => j end.
Definition after (n i : nat) : nat := if Nat.eqb (S i) n then O else S i.

(** Edges of a contour: every vertex is connected with the previous one. *)
Definition contour_edges (vs : list point) : list segment :=
  map (fun i => Seg (vertex vs (before (length vs) i)) (vertex vs i)) (seq 0 (length vs)).

(** A vertex lying on a straight line with its neighbours. *)
Definition straight (vs : list point) (i : nat) : Prop :=
  cross (vertex vs (before (length vs) i)) (vertex vs i) (vertex vs (after (length vs) i)) = 0.
(** A contour never turns back along the edge it came by. *)
Definition never_folds (vs : list point) : Prop :=
  (3 <= length vs)%nat /\
  forall i, (i < length vs)%nat -> straight vs i ->
    inside_segment (vertex vs i) (Seg (vertex vs (before (length vs) i)) (vertex vs (after (length vs) i))).

(** Some vertices of the first list dropped, the others kept in order. *)
Inductive subsequence {A} : list A -> list A -> Prop :=
| subsequence_nil : subsequence [] []
| subsequence_keep : forall x l r, subsequence l r -> subsequence (x :: l) (x :: r)
| subsequence_drop : forall x l r, subsequence l r -> subsequence (x :: l) r.

(** Dropping vertices one by one, each lying at that moment on a straight
    line with its neighbours. *)
Inductive straightened : list point -> list point -> Prop :=
| straightened_none : forall vs, straightened vs vs
| straightened_one : forall us p ws r, (3 <= length (us ++ p :: ws))%nat ->
    straight (us ++ p :: ws) (length us) -> straightened (us ++ ws) r -> straightened (us ++ p :: ws) r.

(** Following a list of positions from a position for a number of steps. *)
Fixpoint follow (k : nat) (c : list nat) (i : nat) : nat :=
  match k with O => i | S k => follow k c (nth i c O) end.
(** Points at positions between positions of the same point are that point. *)
Definition grouped (starts : list point) : Prop :=
  forall i j k, (i <= j)%nat -> (j <= k)%nat -> (k < length starts)%nat ->
    vertex starts i = vertex starts k -> vertex starts j = vertex starts i.

(** Every point occurs an even number of times. *)
Definition even_occurrences (ps : list point) : Prop :=
  forall p, Nat.even (count_occ pt_eq_dec ps p) = true.
(** Edges one after another, each starting where the previous one ends. *)
Fixpoint walk (e : segment) (es : list segment) : Prop :=
  match es with [] => True | f :: es => s_start f = s_end e /\ walk f es end.

Definition reversed (s : segment) : segment := Seg (s_end s) (s_start s).
(** The least vertex of a contour. *)
Definition least (vs : list point) (i : nat) : Prop :=
  (i < length vs)%nat /\ forall q, In q vs -> q = vertex vs i \/ plt (vertex vs i) q.
(** The contour turns at its least vertex. *)
Definition turns_at_least (vs : list point) : Prop := forall i, least vs i -> ~ straight vs i.
(** Edges going around the least of their endpoints counterclockwise. *)
Definition counterclockwise_at_least (es : list segment) : Prop :=
  forall u v w, In (Seg u v) es -> In (Seg v w) es ->
    (forall e, In e es -> (s_start e = v \/ plt v (s_start e)) /\ (s_end e = v \/ plt v (s_end e))) ->
    0 < cross u v w.

(** ** Regions bounded by edges *)
Definition lex_ltb (p q : point) : bool := Qc_ltb (px p) (px q) || (Qc_eqb (px p) (px q) && Qc_ltb (py p) (py q)).
(** The ray going from [p] downwards, shifted slightly to the right, meets the
    segment: [p] is not less than its least endpoint, less than its greatest
    one, and strictly above of it. *)
Definition passes_under (s : segment) (p : point) : bool :=
  (negb (lex_ltb p (s_start s)) && lex_ltb p (s_end s) && Qc_ltb 0 (cross (s_start s) (s_end s) p))
  || (negb (lex_ltb p (s_end s)) && lex_ltb p (s_start s) && Qc_ltb 0 (cross (s_end s) (s_start s) p)).
(** The even-odd rule.  Edges through [p] itself are not counted, so a point of
    an edge is considered as lying slightly below of it. *)
Definition inside (es : list segment) (p : point) : bool :=
  Nat.odd (length (filter (fun s => passes_under s p) es)).
Definition in_region (es : list segment) (p : point) : Prop := on_segments p es \/ inside es p = true.
Definition endpoints_of (es : list segment) : list point := flat_map (fun s => [s_start s; s_end s]) es.
(** The region is to the left of every edge: being slightly below of the edge
    is being inside exactly when the edge is directed downwards in the
    lexicographic order. *)
Definition left_inside (es : list segment) : Prop :=
  forall s m, In s es -> inside_segment m s -> (forall t, In t es -> t <> s -> ~ on_segment m t) ->
    (inside es m = true <-> plt (s_end s) (s_start s)).
(** Edges bounding a region lying to the left of them. *)
Definition region_boundary (es : list segment) : Prop :=
  non_overlapping es /\ even_occurrences (endpoints_of es) /\ left_inside es.
(** Points of the region off its boundary. *)
Definition interior (es : list segment) (p : point) : Prop := ~ on_segments p es /\ inside es p = true.
(** [p] is an endpoint of a part of a segment of [ss] lying in the region. *)
Definition on_part (p : point) (ss : list segment) (region : point -> Prop) : Prop :=
  exists s q, In s ss /\ p <> q /\ on_segment p s /\ on_segment q s /\ forall m, on_segment m (Seg p q) -> region m.

(** ** Shapes *)
(** ground's notion of a valid contour: at least three vertices, all
    different, and edges meeting in common endpoints only. *)
Definition simple_contour (vs : list point) : Prop :=
  (3 <= length vs)%nat /\ NoDup vs
  /\ pairwise (fun s t => forall p, on_segment p s -> on_segment p t -> endpoint p s /\ endpoint p t) (contour_edges vs).
(** Points of the region bounded by a contour, with and without the contour. *)
Definition in_contour (c : contour) (p : point) : Prop := in_region (contour_edges (vertices c)) p.
Definition inside_contour (c : contour) (p : point) : Prop := interior (contour_edges (vertices c)) p.
(** Points of a polygon, with and without its boundary. *)
Definition in_polygon (g : polygon) (p : point) : Prop :=
  in_contour (border g) p /\ forall h, In h (holes g) -> ~ inside_contour h p.
Definition inside_polygon (g : polygon) (p : point) : Prop :=
  inside_contour (border g) p /\ forall h, In h (holes g) -> ~ in_contour h p.
Definition polygon_edges (g : polygon) : list segment :=
  contour_edges (vertices (border g)) ++ flat_map (fun h => contour_edges (vertices h)) (holes g).
(** ground's notion of a valid polygon: contours are simple, holes lie in the
    border, holes have no common interior points, and edges of different
    contours do not overlap. *)
Definition valid_polygon (g : polygon) : Prop :=
  simple_contour (vertices (border g)) /\ Forall (fun h => simple_contour (vertices h)) (holes g)
  /\ (forall h p, In h (holes g) -> in_contour h p -> in_contour (border g) p)
  /\ (forall h p, In h (holes g) -> inside_contour h p -> inside_contour (border g) p)
  /\ pairwise (fun h k => forall p, ~ (inside_contour h p /\ in_contour k p)) (holes g)
  /\ non_overlapping (polygon_edges g).
(** ... and of a valid multipolygon (any number of polygons here): valid
    polygons without common interior points, edges of which do not overlap. *)
Definition valid_polygons (gs : list polygon) : Prop :=
  Forall valid_polygon gs
  /\ pairwise (fun g k => forall p, ~ (inside_polygon g p /\ in_polygon k p)) gs
  /\ non_overlapping (flat_map polygon_edges gs).
Definition in_polygons (gs : list polygon) (p : point) : Prop := exists g, In g gs /\ in_polygon g p.
Definition inside_polygons (gs : list polygon) (p : point) : Prop := exists g, In g gs /\ inside_polygon g p.

(** Regions without holes: simple contours without common interior points,
    edges of which do not overlap. *)
Definition valid_regions (rs : list contour) : Prop :=
  Forall (fun r => simple_contour (vertices r)) rs
  /\ pairwise (fun r k => forall p, ~ (inside_contour r p /\ in_contour k p)) rs
  /\ non_overlapping (flat_map (fun r => contour_edges (vertices r)) rs).
Definition in_regions (rs : list contour) (p : point) : Prop := exists r, In r rs /\ in_contour r p.
Definition inside_regions (rs : list contour) (p : point) : Prop := exists r, In r rs /\ inside_contour r p.

(** ** Segments against shapes *)
(** Geometry [g] consists of exactly sub-segments of [first] lying in the region. *)
Definition part_in (g : geometry) (first : list segment) (region : point -> Prop) : Prop :=
  points_of g = [] /\ polygons_of g = [] /\ valid_multisegment (segments_of g)
  /\ (forall p, in_geometry p g <-> on_part p first region).
(** ... of these sub-segments and of other points of [first] in the region. *)
Definition complete_part_in (g : geometry) (first : list segment) (region : point -> Prop) : Prop :=
  polygons_of g = [] /\ valid_multisegment (segments_of g) /\ NoDup (points_of g)
  /\ (forall p, on_segments p (segments_of g) <-> on_part p first region)
  /\ (forall p, In p (points_of g) <-> on_segments p first /\ region p /\ ~ on_part p first region)
  /\ (forall p, in_geometry p g <-> on_segments p first /\ region p).
(** Segments [ss] are the closure of the part of [first] outside of a shape
    with points [closed], [open] being ones off its boundary. *)
Definition part_out (ss first : list segment) (closed open : point -> Prop) : Prop :=
  Forall proper ss
  /\ (forall p, on_segments p first -> ~ closed p -> on_segments p ss)
  /\ (forall p, on_segments p ss -> on_segments p first)
  /\ (forall p, on_segments p ss -> ~ open p)
  /\ (forall s p, In s ss -> inside_segment p s -> ~ closed p).
(** Segments [ss] contain everything of [first] outside of such a shape,
    nothing but points of [first] and nothing off its boundary inside of it. *)
Definition part_off (ss first : list segment) (closed open : point -> Prop) : Prop :=
  Forall proper ss
  /\ (forall p, on_segments p first -> ~ closed p -> on_segments p ss)
  /\ (forall p, on_segments p ss -> on_segments p first)
  /\ (forall p, on_segments p ss -> ~ open p).
(** Pieces of [ss] lie along polygons having no inner points in the box of
    [first] only. *)
Definition along_outer (ss first : list segment) (polygons : list polygon) : Prop :=
  forall b s p g, bounds first b -> In s ss -> inside_segment p s -> In g polygons -> in_polygon g p ->
    forall q, in_box q b -> ~ inside_polygon g q.
(** Geometry [g] is the given shaped geometry with the part of [first] outside of it. *)
Definition united_with (g shaped : geometry) (first : list segment) (closed open : point -> Prop) : Prop :=
  points_of g = [] /\ polygons_of g = polygons_of shaped
  /\ part_out (segments_of g) first closed open
  /\ (valid_multisegment first -> valid_multisegment (segments_of g))
  /\ (g = shaped \/ exists linear, g = GMix GEmpty linear shaped)
  /\ (g = shaped <-> forall p, on_segments p first -> closed p).
