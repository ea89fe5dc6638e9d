(** Points of polygons returned by operations, whenever these are valid.  Proof
    support only, no part of /repo is modelled here. *)
From Verif Require Import QcTac Geom Spec SpecShape SpecSides SpecLocate SpecNest GeomFacts Pair Sweep Contour Filter Mixed Shaped Holey MixedProps HoleyProps CompleteProps Polygons Sides NestProps Shapes Reach.

Lemma bounds_points : forall op first second gs, bounds_result op first second gs -> valid_polygons gs ->
  forall p, ~ on_segments p (flat_map polygon_edges (first ++ second)) -> (in_polygons gs p <-> member op (in_polygons first p) (in_polygons second p)).
Proof.
  intros op first second gs (_ & Nov & On & M) V p N. rewrite <- (polygons_region gs V p), <- (M p N). split; [|intro I; right; exact I].
  intros [O|I]; [destruct (N (On p O))|exact I].
Qed.
Theorem complete_intersect_polygons_points : forall x, right_locators x -> forall first second, valid_polygon first -> valid_polygon second ->
  exists g, (forall o, complete_intersect_polygons x o first second = Ok g) /\ (valid_polygons (polygons_of g) ->
    forall p, ~ on_segments p (flat_map polygon_edges ([first] ++ [second])) -> (in_polygons (polygons_of g) p <-> member Meet (in_polygons [first] p) (in_polygons [second] p))).
Proof.
  intros x Hx a b H0 H1. destruct (complete_intersect_polygons_correct x Hx a b H0 H1) as (g & R & K).
  assert (W : bounds_result Meet [a] [b] (polygons_of g)) by (unfold polygons_only in K; apply K). exists g. split; [exact R|]. exact (bounds_points _ _ _ _ W).
Qed.
Theorem complete_intersect_polygon_with_multipolygon_points : forall x, right_locators x -> forall shape multipolygon, valid_polygon shape -> valid_polygons multipolygon -> multipolygon <> [] ->
  exists g, (forall o, complete_intersect_polygon_with_multipolygon x o shape multipolygon = Ok g) /\ (valid_polygons (polygons_of g) ->
    forall p, ~ on_segments p (flat_map polygon_edges ([shape] ++ multipolygon)) -> (in_polygons (polygons_of g) p <-> member Meet (in_polygons [shape] p) (in_polygons multipolygon p))).
Proof.
  intros x Hx a b H0 H1 H2. destruct (complete_intersect_polygon_multipolygon_correct x Hx a b H0 H1 H2) as (g & R & K).
  assert (W : bounds_result Meet [a] b (polygons_of g)) by (unfold polygons_only in K; apply K). exists g. split; [exact R|]. exact (bounds_points _ _ _ _ W).
Qed.
Theorem complete_intersect_multipolygons_points : forall x, right_locators x -> forall first second, valid_polygons first -> valid_polygons second -> first <> [] -> second <> [] ->
  exists g, (forall o, complete_intersect_multipolygons x o first second = Ok g) /\ (valid_polygons (polygons_of g) ->
    forall p, ~ on_segments p (flat_map polygon_edges (first ++ second)) -> (in_polygons (polygons_of g) p <-> member Meet (in_polygons first p) (in_polygons second p))).
Proof.
  intros x Hx a b H0 H1 H2 H3. destruct (complete_intersect_multipolygons_correct x Hx a b H0 H1 H2 H3) as (g & R & K).
  assert (W : bounds_result Meet a b (polygons_of g)) by (unfold polygons_only in K; apply K). exists g. split; [exact R|]. exact (bounds_points _ _ _ _ W).
Qed.
Theorem intersect_polygons_points : forall x, right_locators x -> forall first second, valid_polygon first -> valid_polygon second ->
  exists g, (forall o, intersect_polygons x o first second = Ok g) /\ (valid_polygons (polygons_of g) ->
    forall p, ~ on_segments p (flat_map polygon_edges ([first] ++ [second])) -> (in_polygons (polygons_of g) p <-> member Meet (in_polygons [first] p) (in_polygons [second] p))).
Proof.
  intros x Hx a b H0 H1. destruct (intersect_polygons_correct x Hx a b H0 H1) as (g & R & K).
  assert (W : bounds_result Meet [a] [b] (polygons_of g)) by (unfold polygons_only in K; apply K). exists g. split; [exact R|]. exact (bounds_points _ _ _ _ W).
Qed.
Theorem intersect_polygon_with_multipolygon_points : forall x, right_locators x -> forall shape multipolygon, valid_polygon shape -> valid_polygons multipolygon -> multipolygon <> [] ->
  exists g, (forall o, intersect_polygon_with_multipolygon x o shape multipolygon = Ok g) /\ (valid_polygons (polygons_of g) ->
    forall p, ~ on_segments p (flat_map polygon_edges ([shape] ++ multipolygon)) -> (in_polygons (polygons_of g) p <-> member Meet (in_polygons [shape] p) (in_polygons multipolygon p))).
Proof.
  intros x Hx a b H0 H1 H2. destruct (intersect_polygon_multipolygon_correct x Hx a b H0 H1 H2) as (g & R & K).
  assert (W : bounds_result Meet [a] b (polygons_of g)) by (unfold polygons_only in K; apply K). exists g. split; [exact R|]. exact (bounds_points _ _ _ _ W).
Qed.
Theorem intersect_multipolygons_points : forall x, right_locators x -> forall first second, valid_polygons first -> valid_polygons second -> first <> [] -> second <> [] ->
  exists g, (forall o, intersect_multipolygons x o first second = Ok g) /\ (valid_polygons (polygons_of g) ->
    forall p, ~ on_segments p (flat_map polygon_edges (first ++ second)) -> (in_polygons (polygons_of g) p <-> member Meet (in_polygons first p) (in_polygons second p))).
Proof.
  intros x Hx a b H0 H1 H2 H3. destruct (intersect_multipolygons_correct x Hx a b H0 H1 H2 H3) as (g & R & K).
  assert (W : bounds_result Meet a b (polygons_of g)) by (unfold polygons_only in K; apply K). exists g. split; [exact R|]. exact (bounds_points _ _ _ _ W).
Qed.
Theorem subtract_polygons_points : forall x, right_locators x -> forall minuend subtrahend, valid_polygon minuend -> valid_polygon subtrahend ->
  exists g, (forall o, subtract_polygons x o minuend subtrahend = Ok g) /\ (valid_polygons (polygons_of g) ->
    forall p, ~ on_segments p (flat_map polygon_edges ([minuend] ++ [subtrahend])) -> (in_polygons (polygons_of g) p <-> member Minus (in_polygons [minuend] p) (in_polygons [subtrahend] p))).
Proof.
  intros x Hx a b H0 H1. destruct (subtract_polygons_correct x Hx a b H0 H1) as (g & R & K).
  assert (W : bounds_result Minus [a] [b] (polygons_of g)) by (unfold polygons_only in K; apply K). exists g. split; [exact R|]. exact (bounds_points _ _ _ _ W).
Qed.
Theorem subtract_multipolygon_from_polygon_points : forall x, right_locators x -> forall minuend subtrahend, valid_polygon minuend -> valid_polygons subtrahend -> subtrahend <> [] ->
  exists g, (forall o, subtract_multipolygon_from_polygon x o minuend subtrahend = Ok g) /\ (valid_polygons (polygons_of g) ->
    forall p, ~ on_segments p (flat_map polygon_edges ([minuend] ++ subtrahend)) -> (in_polygons (polygons_of g) p <-> member Minus (in_polygons [minuend] p) (in_polygons subtrahend p))).
Proof.
  intros x Hx a b H0 H1 H2. destruct (subtract_multipolygon_polygon_correct x Hx a b H0 H1 H2) as (g & R & K).
  assert (W : bounds_result Minus [a] b (polygons_of g)) by (unfold polygons_only in K; apply K). exists g. split; [exact R|]. exact (bounds_points _ _ _ _ W).
Qed.
Theorem subtract_polygon_from_multipolygon_points : forall x, right_locators x -> forall minuend subtrahend, valid_polygons minuend -> valid_polygon subtrahend -> (2 <= length minuend)%nat ->
  exists g, (forall o, subtract_polygon_from_multipolygon x o minuend subtrahend = Ok g) /\ (valid_polygons (polygons_of g) ->
    forall p, ~ on_segments p (flat_map polygon_edges (minuend ++ [subtrahend])) -> (in_polygons (polygons_of g) p <-> member Minus (in_polygons minuend p) (in_polygons [subtrahend] p))).
Proof.
  intros x Hx a b H0 H1 H2. destruct (subtract_polygon_multipolygon_correct x Hx a b H0 H1 H2) as (g & R & K).
  assert (W : bounds_result Minus a [b] (polygons_of g)) by (unfold polygons_only in K; apply K). exists g. split; [exact R|]. exact (bounds_points _ _ _ _ W).
Qed.
Theorem subtract_multipolygons_points : forall x, right_locators x -> forall minuend subtrahend, valid_polygons minuend -> valid_polygons subtrahend -> (2 <= length minuend)%nat -> subtrahend <> [] ->
  exists g, (forall o, subtract_multipolygons x o minuend subtrahend = Ok g) /\ (valid_polygons (polygons_of g) ->
    forall p, ~ on_segments p (flat_map polygon_edges (minuend ++ subtrahend)) -> (in_polygons (polygons_of g) p <-> member Minus (in_polygons minuend p) (in_polygons subtrahend p))).
Proof.
  intros x Hx a b H0 H1 H2 H3. destruct (subtract_multipolygons_correct x Hx a b H0 H1 H2 H3) as (g & R & K).
  assert (W : bounds_result Minus a b (polygons_of g)) by (unfold polygons_only in K; apply K). exists g. split; [exact R|]. exact (bounds_points _ _ _ _ W).
Qed.
Theorem symmetric_subtract_polygons_points : forall first second, valid_polygon first -> valid_polygon second ->
  exists g, (forall o, symmetric_subtract_polygons o first second = Ok g) /\ (valid_polygons (polygons_of g) ->
    forall p, ~ on_segments p (flat_map polygon_edges ([first] ++ [second])) -> (in_polygons (polygons_of g) p <-> member Differ (in_polygons [first] p) (in_polygons [second] p))).
Proof.
  intros a b H0 H1. destruct (symmetric_subtract_polygons_correct a b H0 H1) as (g & R & K).
  assert (W : bounds_result Differ [a] [b] (polygons_of g)) by (unfold polygons_only in K; apply K). exists g. split; [exact R|]. exact (bounds_points _ _ _ _ W).
Qed.
Theorem symmetric_subtract_multipolygon_from_polygon_points : forall shape multipolygon, valid_polygon shape -> valid_polygons multipolygon -> multipolygon <> [] ->
  exists g, (forall o, symmetric_subtract_multipolygon_from_polygon o shape multipolygon = Ok g) /\ (valid_polygons (polygons_of g) ->
    forall p, ~ on_segments p (flat_map polygon_edges ([shape] ++ multipolygon)) -> (in_polygons (polygons_of g) p <-> member Differ (in_polygons [shape] p) (in_polygons multipolygon p))).
Proof.
  intros a b H0 H1 H2. destruct (symmetric_subtract_multipolygon_polygon_correct a b H0 H1 H2) as (g & R & K).
  assert (W : bounds_result Differ [a] b (polygons_of g)) by (unfold polygons_only in K; apply K). exists g. split; [exact R|]. exact (bounds_points _ _ _ _ W).
Qed.
Theorem symmetric_subtract_multipolygons_points : forall first second, valid_polygons first -> valid_polygons second -> first <> [] -> second <> [] ->
  exists g, (forall o, symmetric_subtract_multipolygons o first second = Ok g) /\ (valid_polygons (polygons_of g) ->
    forall p, ~ on_segments p (flat_map polygon_edges (first ++ second)) -> (in_polygons (polygons_of g) p <-> member Differ (in_polygons first p) (in_polygons second p))).
Proof.
  intros a b H0 H1 H2 H3. destruct (symmetric_subtract_multipolygons_correct a b H0 H1 H2 H3) as (g & R & K).
  assert (W : bounds_result Differ a b (polygons_of g)) by (unfold polygons_only in K; apply K). exists g. split; [exact R|]. exact (bounds_points _ _ _ _ W).
Qed.
Theorem unite_polygons_points : forall first second, valid_polygon first -> valid_polygon second ->
  exists g, (forall o, unite_polygons o first second = Ok g) /\ (valid_polygons (polygons_of g) ->
    forall p, ~ on_segments p (flat_map polygon_edges ([first] ++ [second])) -> (in_polygons (polygons_of g) p <-> member Join (in_polygons [first] p) (in_polygons [second] p))).
Proof.
  intros a b H0 H1. destruct (unite_polygons_correct a b H0 H1) as (g & R & K).
  assert (W : bounds_result Join [a] [b] (polygons_of g)) by (unfold polygons_only in K; apply K). exists g. split; [exact R|]. exact (bounds_points _ _ _ _ W).
Qed.
Theorem unite_polygon_with_multipolygon_points : forall shape multipolygon, valid_polygon shape -> valid_polygons multipolygon -> multipolygon <> [] ->
  exists g, (forall o, unite_polygon_with_multipolygon o shape multipolygon = Ok g) /\ (valid_polygons (polygons_of g) ->
    forall p, ~ on_segments p (flat_map polygon_edges ([shape] ++ multipolygon)) -> (in_polygons (polygons_of g) p <-> member Join (in_polygons [shape] p) (in_polygons multipolygon p))).
Proof.
  intros a b H0 H1 H2. destruct (unite_polygon_multipolygon_correct a b H0 H1 H2) as (g & R & K).
  assert (W : bounds_result Join [a] b (polygons_of g)) by (unfold polygons_only in K; apply K). exists g. split; [exact R|]. exact (bounds_points _ _ _ _ W).
Qed.
Theorem unite_multipolygons_points : forall first second, valid_polygons first -> valid_polygons second -> first <> [] -> second <> [] ->
  exists g, (forall o, unite_multipolygons o first second = Ok g) /\ (valid_polygons (polygons_of g) ->
    forall p, ~ on_segments p (flat_map polygon_edges (first ++ second)) -> (in_polygons (polygons_of g) p <-> member Join (in_polygons first p) (in_polygons second p))).
Proof.
  intros a b H0 H1 H2 H3. destruct (unite_multipolygons_correct a b H0 H1 H2 H3) as (g & R & K).
  assert (W : bounds_result Join a b (polygons_of g)) by (unfold polygons_only in K; apply K). exists g. split; [exact R|]. exact (bounds_points _ _ _ _ W).
Qed.
