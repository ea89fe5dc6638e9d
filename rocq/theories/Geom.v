(** Executable models of the parts of the external package [ground] that
    /repo/clipping relies on (points, orientation, relation of segments,
    intersection point of segments, boxes).  [ground] itself is not part
    of /repo; its documented behaviour in exact arithmetic is what is
    written here, and [GeomFacts.v] proves the declarative
    characterisations of these functions. *)
From Verif Require Import QcTac.

(** ground.base Point: [x], [y]; ordering is lexicographic. *)
Record point := Pt { px : Qc; py : Qc }.

Definition pt_eqb (p q : point) : bool := Qc_eqb (px p) (px q) && Qc_eqb (py p) (py q).
Definition pt_ltb (p q : point) : bool :=
  Qc_ltb (px p) (px q) || (Qc_eqb (px p) (px q) && Qc_ltb (py p) (py q)).
Definition pt_leb (p q : point) : bool := negb (pt_ltb q p).

(** ground.base Segment: [start], [end]. *)
Record segment := Seg { s_start : point; s_end : point }.

(** ground.base Contour, Polygon, Box (the latter: min_x, max_x, min_y, max_y). *)
Record contour := Contour { vertices : list point }.
Record polygon := Polygon { border : contour; holes : list contour }.
Record box := Box { min_x : Qc; max_x : Qc; min_y : Qc; max_y : Qc }.

(** ground.base.Orientation, Relation, Location. *)
Inductive orientation := CLOCKWISE | COLLINEAR | COUNTERCLOCKWISE.
Definition orientation_eqb (a b : orientation) : bool :=
  match a, b with
  | CLOCKWISE, CLOCKWISE | COLLINEAR, COLLINEAR | COUNTERCLOCKWISE, COUNTERCLOCKWISE => true
  | _, _ => false
  end.

Inductive relation :=
  DISJOINT | TOUCH | CROSS | OVERLAP | COVER | ENCLOSES | COMPOSITE | EQUAL
| COMPONENT | ENCLOSED | WITHIN.
Definition relation_eqb (a b : relation) : bool :=
  match a, b with
  | DISJOINT, DISJOINT | TOUCH, TOUCH | CROSS, CROSS | OVERLAP, OVERLAP
  | COVER, COVER | ENCLOSES, ENCLOSES | COMPOSITE, COMPOSITE | EQUAL, EQUAL
  | COMPONENT, COMPONENT | ENCLOSED, ENCLOSED | WITHIN, WITHIN => true
  | _, _ => false
  end.

Inductive location := EXTERIOR | BOUNDARY | INTERIOR.
Definition location_eqb (a b : location) : bool :=
  match a, b with
  | EXTERIOR, EXTERIOR | BOUNDARY, BOUNDARY | INTERIOR, INTERIOR => true
  | _, _ => false
  end.

(** Context.angle_orientation(vertex, first_ray_point, second_ray_point). *)
Definition cross (a b c : point) : Qc :=
  (px b - px a) * (py c - py a) - (py b - py a) * (px c - px a).
Definition orient (a b c : point) : orientation :=
  if Qc_ltb (cross a b c) 0 then CLOCKWISE
  else if Qc_ltb 0 (cross a b c) then COUNTERCLOCKWISE
  else COLLINEAR.

(** Endpoints of a segment in lexicographic order. *)
Definition seg_lo (s : segment) : point :=
  if pt_ltb (s_end s) (s_start s) then s_end s else s_start s.
Definition seg_hi (s : segment) : point :=
  if pt_ltb (s_end s) (s_start s) then s_start s else s_end s.

(** Context.segments_relation(test, goal). *)
Definition segments_relation (test goal : segment) : relation :=
  let ts := seg_lo test in let te := seg_hi test in
  let gs := seg_lo goal in let ge := seg_hi goal in
  if pt_eqb ts gs && pt_eqb te ge then EQUAL
  else
    let ots := orient gs ge ts in let ote := orient gs ge te in
    let ogs := orient ts te gs in let oge := orient ts te ge in
    match ots, ote with
    | COLLINEAR, COLLINEAR =>
        if pt_ltb te gs || pt_ltb ge ts then DISJOINT
        else if pt_eqb te gs || pt_eqb ge ts then TOUCH
        else if pt_leb gs ts && pt_leb te ge then COMPONENT
        else if pt_leb ts gs && pt_leb ge te then COMPOSITE
        else OVERLAP
    | _, _ =>
        if orientation_eqb ots ote then DISJOINT
        else if orientation_eqb ogs oge && negb (orientation_eqb ogs COLLINEAR) then DISJOINT
        else if orientation_eqb ots COLLINEAR || orientation_eqb ote COLLINEAR
                || orientation_eqb ogs COLLINEAR || orientation_eqb oge COLLINEAR
        then TOUCH
        else CROSS
    end.

(** Context.segments_intersection(first, second): the common point of two
    segments having exactly one common point. *)
Definition segments_intersection (first second : segment) : point :=
  let a := s_start first in let b := s_end first in
  let c := s_start second in let d := s_end second in
  if pt_eqb a c || pt_eqb a d then a
  else if pt_eqb b c || pt_eqb b d then b
  else
    let da := cross c d a in let db := cross c d b in
    let t := da / (da - db) in
    Pt (px a + t * (px b - px a)) (py a + t * (py b - py a)).

(** Minimum / maximum on coordinates. *)
Definition Qc_min (a b : Qc) : Qc := if Qc_ltb b a then b else a.
Definition Qc_max (a b : Qc) : Qc := if Qc_ltb a b then b else a.

(** Context.segment_box. *)
Definition segment_box (s : segment) : box :=
  Box (Qc_min (px (s_start s)) (px (s_end s))) (Qc_max (px (s_start s)) (px (s_end s)))
      (Qc_min (py (s_start s)) (py (s_end s))) (Qc_max (py (s_start s)) (py (s_end s))).

Definition box_merge (a b : box) : box :=
  Box (Qc_min (min_x a) (min_x b)) (Qc_max (max_x a) (max_x b))
      (Qc_min (min_y a) (min_y b)) (Qc_max (max_y a) (max_y b)).

(** Context.segments_box; [None] is the error on an empty sequence. *)
Definition segments_box (ss : list segment) : option box :=
  match ss with
  | [] => None
  | s :: r => Some (fold_left (fun b s' => box_merge b (segment_box s')) r (segment_box s))
  end.

Definition point_box (p : point) : box := Box (px p) (px p) (py p) (py p).

(** Context.contour_box, contours_box, polygons_box (boxes of borders). *)
Definition points_box (ps : list point) : option box :=
  match ps with
  | [] => None
  | p :: r => Some (fold_left (fun b q => box_merge b (point_box q)) r (point_box p))
  end.
Definition contour_box (c : contour) : option box := points_box (vertices c).
Definition contours_box (cs : list contour) : option box := points_box (flat_map vertices cs).
Definition polygons_box (ps : list polygon) : option box := contours_box (map border ps).

(** Python's [sorted]/[list.sort]: stable sort by a strict [lt] (a
    comparison is only made through [__lt__]). *)
Section Sort.
  Context {A : Type} (ltb : A -> A -> bool).
  Fixpoint insert_sorted (x : A) (l : list A) : list A :=
    match l with
    | [] => [x]
    | y :: r => if ltb y x then y :: insert_sorted x r else x :: y :: r
    end.
  Definition sort_by (l : list A) : list A := fold_right insert_sorted [] l.
End Sort.

Definition sorted_points (l : list point) : list point := sort_by pt_ltb l.
