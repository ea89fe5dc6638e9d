(** Model of /repo/clipping/core/bounding.py: predicates on boxes and segments. *)
From Verif Require Import QcTac Geom.

(** bounding.py 20-39: disjoint_with *)
Definition disjoint_with (left right : box) : bool :=
  Qc_ltb (max_x right) (min_x left) || Qc_ltb (max_x left) (min_x right)
  || Qc_ltb (max_y right) (min_y left) || Qc_ltb (max_y left) (min_y right).

(** bounding.py 42-61: intersects_with *)
Definition intersects_with (left right : box) : bool :=
  Qc_leb (min_x right) (max_x left) && Qc_leb (min_x left) (max_x right)
  && Qc_leb (min_y right) (max_y left) && Qc_leb (min_y left) (max_y right).

(** bounding.py 87-108: touches_with *)
Definition touches_with (left right : box) : bool :=
  (Qc_eqb (min_x left) (max_x right) || Qc_eqb (max_x left) (min_x right))
  && (Qc_leb (min_y left) (max_y right) && Qc_leb (min_y right) (max_y left))
  || (Qc_leb (min_x left) (max_x right) && Qc_leb (min_x right) (max_x left))
  && (Qc_eqb (min_y left) (max_y right) || Qc_eqb (min_y right) (max_y left)).

(** bounding.py 111-132: edges_overlap_with *)
Definition edges_overlap_with (left right : box) : bool :=
  (Qc_eqb (min_x left) (max_x right) || Qc_eqb (max_x left) (min_x right))
  && (Qc_ltb (min_y left) (max_y right) && Qc_ltb (min_y right) (max_y left))
  || (Qc_ltb (min_x left) (max_x right) && Qc_ltb (min_x right) (max_x left))
  && (Qc_eqb (min_y left) (max_y right) || Qc_eqb (min_y right) (max_y left)).

(** bounding.py 64-84: coupled_with *)
Definition coupled_with (left right : box) : bool :=
  intersects_with left right
  && (negb (touches_with left right) || edges_overlap_with left right).

(** bounding.py 135-154: is_subset_of *)
Definition is_subset_of (test goal : box) : bool :=
  Qc_leb (min_x goal) (min_x test) && Qc_leb (max_x test) (max_x goal)
  && Qc_leb (min_y goal) (min_y test) && Qc_leb (max_y test) (max_y goal).

(** bounding.py 157-176: within_of *)
Definition within_of (test goal : box) : bool :=
  Qc_ltb (min_x goal) (min_x test) && Qc_ltb (max_x test) (max_x goal)
  && Qc_ltb (min_y goal) (min_y test) && Qc_ltb (max_y test) (max_y goal).

(** bounding.py 348-350: contains_point *)
Definition contains_point (b : box) (p : point) : bool :=
  (Qc_leb (min_x b) (px p) && Qc_leb (px p) (max_x b))
  && (Qc_leb (min_y b) (py p) && Qc_leb (py p) (max_y b)).

(** bounding.py 353-354: covers_point *)
Definition covers_point (b : box) (p : point) : bool :=
  Qc_ltb (min_x b) (px p) && Qc_ltb (px p) (max_x b)
  && (Qc_ltb (min_y b) (py p) && Qc_ltb (py p) (max_y b)).

(** bounding.py 367-371: to_vertices *)
Definition to_vertices (b : box) : list point :=
  [Pt (min_x b) (min_y b); Pt (max_x b) (min_y b); Pt (max_x b) (max_y b); Pt (min_x b) (max_y b)].

(** bounding.py 374-384: to_edges *)
Definition to_edges (b : box) : list segment :=
  [Seg (Pt (min_x b) (min_y b)) (Pt (max_x b) (min_y b));
   Seg (Pt (max_x b) (min_y b)) (Pt (max_x b) (max_y b));
   Seg (Pt (min_x b) (max_y b)) (Pt (max_x b) (max_y b));
   Seg (Pt (min_x b) (min_y b)) (Pt (min_x b) (max_y b))].

(** bounding.py 179-190: intersects_with_segment *)
Definition intersects_with_segment (b : box) (s : segment) : bool :=
  let sb := segment_box s in
  intersects_with sb b
  && (is_subset_of sb b
      || existsb (fun edge => negb (relation_eqb (segments_relation edge s) DISJOINT)) (to_edges b)).

(** bounding.py 193-204: coupled_with_segment *)
Definition coupled_with_segment (b : box) (s : segment) : bool :=
  let sb := segment_box s in
  coupled_with sb b
  && (is_subset_of sb b
      || existsb (fun edge => negb (relation_eqb (segments_relation edge s) TOUCH
                                    || relation_eqb (segments_relation edge s) DISJOINT)) (to_edges b)).

(** bounding.py 357-364: split_intersecting_segments, as the pair
    (segments disjoint with the box, segments intersecting it) *)
Definition split_intersecting_segments (b : box) (ss : list segment) : list segment * list segment :=
  fold_left (fun '(out, inn) s =>
    if intersects_with_segment b s then (out, inn ++ [s]) else (out ++ [s], inn)) ss ([], []).

(** bounding.py 387-392: to_intersecting_segments *)
Definition to_intersecting_segments (b : box) (ss : list segment) : list segment :=
  filter (intersects_with_segment b) ss.

(** bounding.py 395-400: to_coupled_segments *)
Definition to_coupled_segments (b : box) (ss : list segment) : list segment :=
  filter (coupled_with_segment b) ss.
