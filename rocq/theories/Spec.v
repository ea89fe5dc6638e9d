(** Specification vocabulary: point-set meaning of segments and of linear
    results.  Independent of the modelled code. *)
From Coq Require Import Sorted.
From Verif Require Import QcTac Geom.

(** Lexicographic order of points: by abscissa, then by ordinate. *)
Definition plt (p q : point) : Prop := px p < px q \/ (px p = px q /\ py p < py q).


(** [p] lies on the closed segment [s]. *)
Definition on_segment (p : point) (s : segment) : Prop :=
  exists t : Qc, 0 <= t /\ t <= 1 /\
    px p = px (s_start s) + t * (px (s_end s) - px (s_start s)) /\
    py p = py (s_start s) + t * (py (s_end s) - py (s_start s)).

Definition on_segments (p : point) (ss : list segment) : Prop :=
  exists s, In s ss /\ on_segment p s.

(** A segment of ground has distinct endpoints. *)
Definition proper (s : segment) : Prop := s_start s <> s_end s.

Definition endpoint (p : point) (s : segment) : Prop := p = s_start s \/ p = s_end s.
(** [p] lies on [s] and is not one of its endpoints. *)
Definition inside_segment (p : point) (s : segment) : Prop :=
  on_segment p s /\ p <> s_start s /\ p <> s_end s.

(** Two segments share a sub-segment: they have two distinct common points. *)
Definition overlap (s1 s2 : segment) : Prop :=
  exists p q, p <> q /\ on_segment p s1 /\ on_segment p s2
              /\ on_segment q s1 /\ on_segment q s2.

(** Two segments cross: some point is interior to both, but they do not overlap. *)
Definition crosses (s1 s2 : segment) : Prop :=
  ~ overlap s1 s2 /\ exists p, inside_segment p s1 /\ inside_segment p s2.

(** Elements at different positions of a list are related. *)
Definition pairwise {A} (R : A -> A -> Prop) (l : list A) : Prop :=
  forall i j x y, i <> j -> nth_error l i = Some x -> nth_error l j = Some y -> R x y.

(** ground's notion of a valid multisegment (any number of segments here):
    proper segments which neither cross nor overlap. *)
Definition valid_multisegment (ss : list segment) : Prop :=
  Forall proper ss /\ pairwise (fun a b => ~ overlap a b /\ ~ crosses a b) ss.

(** Segments without overlaps; unlike in a valid multisegment they may cross. *)
Definition non_overlapping (ss : list segment) : Prop :=
  Forall proper ss /\ pairwise (fun a b => ~ overlap a b) ss.

(** [p] lies on a sub-segment shared by an element of [ss1] and an element of [ss2]. *)
Definition on_common_segment (p : point) (ss1 ss2 : list segment) : Prop :=
  exists s1 s2, In s1 ss1 /\ In s2 ss2 /\ overlap s1 s2 /\ on_segment p s1 /\ on_segment p s2.

(** Geometries of ground that may be returned by the operations. *)
Inductive geometry :=
| GEmpty
| GMultipoint (ps : list point)
| GSegment (s : segment)
| GMultisegment (ss : list segment)
| GPolygon (p : polygon)
| GMultipolygon (ps : list polygon)
| GMix (discrete linear shaped : geometry).

(** Segments and isolated points of a result without shaped part. *)
Fixpoint segments_of (g : geometry) : list segment :=
  match g with
  | GSegment s => [s]
  | GMultisegment ss => ss
  | GMix d l s => segments_of d ++ segments_of l ++ segments_of s
  | _ => []
  end.
Fixpoint points_of (g : geometry) : list point :=
  match g with
  | GMultipoint ps => ps
  | GMix d l s => points_of d ++ points_of l ++ points_of s
  | _ => []
  end.

(** [p] belongs to the linear and discrete parts of [g]. *)
Definition in_geometry (p : point) (g : geometry) : Prop :=
  In p (points_of g) \/ on_segments p (segments_of g).

Fixpoint polygons_of (g : geometry) : list polygon :=
  match g with
  | GPolygon p => [p]
  | GMultipolygon ps => ps
  | GMix d l s => polygons_of d ++ polygons_of l ++ polygons_of s
  | _ => []
  end.

(** Result [g] is the closure of the difference of point sets of [first]
    and [second]: a linear geometry containing all the points of [first]
    outside of [second], only points of [first], and no sub-segment of [second]. *)
Definition closure_difference (g : geometry) (first second : list segment) : Prop :=
  points_of g = [] /\ polygons_of g = [] /\ Forall proper (segments_of g)
  /\ (forall p, on_segments p first -> ~ on_segments p second -> in_geometry p g)
  /\ (forall p, in_geometry p g -> on_segments p first)
  /\ (forall s t, In s (segments_of g) -> In t second -> ~ overlap s t).

(** Result [g] is the closure of the symmetric difference. *)
Definition closure_symmetric_difference (g : geometry) (first second : list segment) : Prop :=
  points_of g = [] /\ polygons_of g = [] /\ Forall proper (segments_of g)
  /\ (forall p, (on_segments p first /\ ~ on_segments p second
                 \/ on_segments p second /\ ~ on_segments p first) -> in_geometry p g)
  /\ (forall p, in_geometry p g -> on_segments p first \/ on_segments p second)
  /\ (forall s s1 s2 p q, In s (segments_of g) -> In s1 first -> In s2 second -> p <> q ->
        ~ (on_segment p s /\ on_segment p s1 /\ on_segment p s2
           /\ on_segment q s /\ on_segment q s1 /\ on_segment q s2)).

(** Result [g] consists of exactly the sub-segments common to [first] and [second]. *)
Definition common_sub_segments (g : geometry) (first second : list segment) : Prop :=
  points_of g = [] /\ polygons_of g = [] /\ Forall proper (segments_of g)
  /\ (forall p, in_geometry p g <-> on_common_segment p first second).

(** Result [g] is the intersection: common sub-segments as segments and all
    other common points as points. *)
Definition exact_intersection (g : geometry) (first second : list segment) : Prop :=
  polygons_of g = [] /\ Forall proper (segments_of g)
  /\ (forall p, in_geometry p g <-> on_segments p first /\ on_segments p second)
  /\ (forall p, on_segments p (segments_of g) <-> on_common_segment p first second)
  /\ (forall p, In p (points_of g) -> ~ on_common_segment p first second).

(** Result [g] is the union, cut so that its segments neither cross nor overlap. *)
Definition exact_union (g : geometry) (first second : list segment) : Prop :=
  points_of g = [] /\ polygons_of g = [] /\ valid_multisegment (segments_of g)
  /\ (forall p, in_geometry p g <-> on_segments p first \/ on_segments p second).

(** Boxes as point sets. *)
Definition in_box (p : point) (b : box) : Prop :=
  min_x b <= px p /\ px p <= max_x b /\ min_y b <= py p /\ py p <= max_y b.
Definition inside_box (p : point) (b : box) : Prop :=
  min_x b < px p /\ px p < max_x b /\ min_y b < py p /\ py p < max_y b.
(** Corners and boundary of a box. *)
Definition corner (p : point) (b : box) : Prop :=
  (px p = min_x b \/ px p = max_x b) /\ (py p = min_y b \/ py p = max_y b).
Definition on_box_boundary (p : point) (b : box) : Prop := in_box p b /\ ~ inside_box p b.
(** Boxes of ground have ordered bounds; boxes with interior. *)
Definition wf_box (b : box) : Prop := min_x b <= max_x b /\ min_y b <= max_y b.
Definition solid_box (b : box) : Prop := min_x b < max_x b /\ min_y b < max_y b.
(** The least box containing all the points of segments. *)
Definition bounds (ss : list segment) (b : box) : Prop :=
  (forall p, on_segments p ss -> in_box p b)
  /\ (exists p, on_segments p ss /\ px p = min_x b) /\ (exists p, on_segments p ss /\ px p = max_x b)
  /\ (exists p, on_segments p ss /\ py p = min_y b) /\ (exists p, on_segments p ss /\ py p = max_y b).
(** Boxes without common points. *)
Definition separate (a b : box) : Prop := forall p, ~ (in_box p a /\ in_box p b).
(** More than one common point. *)
Definition many (S : point -> Prop) : Prop := exists p q, p <> q /\ S p /\ S q.

(** Exactly for such segments having more than one common point with a box
    coupled_with_segment of bounding.py notices that. *)
Definition box_friendly (b : box) (s : segment) : Prop :=
  (forall p, on_segment p s -> in_box p b)
  \/ exists p, on_box_boundary p b /\ ~ corner p b /\ inside_segment p s.

(** Order of segments by their starts, then by their ends. *)
Definition segment_lt (a b : segment) : Prop :=
  plt (s_start a) (s_start b) \/ (s_start a = s_start b /\ plt (s_end a) (s_end b)).
(** Segments directed upwards in the lexicographic order, strictly sorted and
    meeting in common endpoints only. *)
Definition arranged (ss : list segment) : Prop :=
  (forall s, In s ss -> plt (s_start s) (s_end s))
  /\ StronglySorted segment_lt ss
  /\ (forall s t, In s ss -> In t ss -> s <> t ->
        forall p, on_segment p s -> on_segment p t -> endpoint p s /\ endpoint p t).

(** Simplest form of a geometry with given components. *)
Definition discrete_canonical (g : geometry) : Prop :=
  match g with GMultipoint ps => ps <> [] | _ => False end.
Definition linear_canonical (g : geometry) : Prop :=
  match g with
  | GSegment _ => True
  | GMultisegment ss => (2 <= length ss)%nat
  | _ => False
  end.
Definition shaped_canonical (g : geometry) : Prop :=
  match g with
  | GPolygon _ => True
  | GMultipolygon ps => (2 <= length ps)%nat
  | _ => False
  end.
Definition canonical (g : geometry) : Prop :=
  match g with
  | GEmpty => True
  | GMix d l s =>
      (discrete_canonical d /\ linear_canonical l /\ s = GEmpty)
      \/ (discrete_canonical d /\ l = GEmpty /\ shaped_canonical s)
      \/ (d = GEmpty /\ linear_canonical l /\ shaped_canonical s)
      \/ (discrete_canonical d /\ linear_canonical l /\ shaped_canonical s)
  | _ => discrete_canonical g \/ linear_canonical g \/ shaped_canonical g
  end.
