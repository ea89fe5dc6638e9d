(** Points of polygons returned by operations, those on edges of operands
    included.  Proof support only, no part of /repo is modelled here. *)
From Verif Require Import QcTac Geom Spec SpecShape SpecSides SpecLocate SpecNest SpecReach GeomFacts Pair Sweep Contour Filter Mixed Shaped Holey MixedProps HoleyProps CompleteProps Polygons Sides NestProps Shapes Reach.

Lemma valid_proper : forall gs, valid_polygons gs -> Forall proper (flat_map polygon_edges gs).
Proof. intros gs V. exact (proj1 (proj2 (proj2 V))). Qed.
Lemma bounds_reached : forall op first second gs, valid_polygons first -> valid_polygons second -> bounds_result op first second gs -> reached_result op first second gs.
Proof.
  intros op first second gs V1 V2 (_ & Nov & On & M) p.
  apply (region_reached _ (flat_map polygon_edges (first ++ second)) (fun p => member op (in_polygons first p) (in_polygons second p))); [exact Nov|apply edges_even| |exact On|exact M].
  rewrite flat_map_app. apply Forall_app. split; apply valid_proper; assumption.
Qed.
Lemma reached_closed : forall op first second gs, reached_result op first second gs -> valid_polygons gs -> closed_result op first second gs.
Proof. intros op first second gs R V. split; [exact V|]. intro p. rewrite <- (polygons_region gs V p). exact (R p). Qed.
Theorem complete_intersect_polygons_reached : forall x, right_locators x -> forall first second, valid_polygon first -> valid_polygon second ->
  exists g, (forall o, complete_intersect_polygons x o first second = Ok g) /\ reached_result Meet [first] [second] (polygons_of g) /\ (mild_position [first] [second] -> closed_result Meet [first] [second] (polygons_of g)).
Proof.
  intros x Hx a b H0 H1. destruct (complete_intersect_polygons_correct x Hx a b H0 H1) as (g & R & K).
  assert (W : bounds_result Meet [a] [b] (polygons_of g)) by (unfold polygons_only in K; apply K). exists g. split; [exact R|].
  pose proof (bounds_reached _ _ _ _ (single_polygon_valid _ H0) (single_polygon_valid _ H1) W) as Q. split; [exact Q|]. intro M. apply (reached_closed _ _ _ _ Q).
  destruct (complete_intersect_polygons_mild x Hx a b H0 H1 M) as (g' & R' & (V & _)). pose proof (R some_oracle) as E. rewrite (R' some_oracle) in E. injection E as <-. exact V.
Qed.
Theorem complete_intersect_polygon_with_multipolygon_reached : forall x, right_locators x -> forall shape multipolygon, valid_polygon shape -> valid_polygons multipolygon -> multipolygon <> [] ->
  exists g, (forall o, complete_intersect_polygon_with_multipolygon x o shape multipolygon = Ok g) /\ reached_result Meet [shape] multipolygon (polygons_of g) /\ (mild_position [shape] multipolygon -> closed_result Meet [shape] multipolygon (polygons_of g)).
Proof.
  intros x Hx a b H0 H1 H2. destruct (complete_intersect_polygon_multipolygon_correct x Hx a b H0 H1 H2) as (g & R & K).
  assert (W : bounds_result Meet [a] b (polygons_of g)) by (unfold polygons_only in K; apply K). exists g. split; [exact R|].
  pose proof (bounds_reached _ _ _ _ (single_polygon_valid _ H0) H1 W) as Q. split; [exact Q|]. intro M. apply (reached_closed _ _ _ _ Q).
  destruct (complete_intersect_polygon_multipolygon_mild x Hx a b H0 H1 H2 M) as (g' & R' & (V & _)). pose proof (R some_oracle) as E. rewrite (R' some_oracle) in E. injection E as <-. exact V.
Qed.
Theorem complete_intersect_multipolygons_reached : forall x, right_locators x -> forall first second, valid_polygons first -> valid_polygons second -> first <> [] -> second <> [] ->
  exists g, (forall o, complete_intersect_multipolygons x o first second = Ok g) /\ reached_result Meet first second (polygons_of g) /\ (mild_position first second -> closed_result Meet first second (polygons_of g)).
Proof.
  intros x Hx a b H0 H1 H2 H3. destruct (complete_intersect_multipolygons_correct x Hx a b H0 H1 H2 H3) as (g & R & K).
  assert (W : bounds_result Meet a b (polygons_of g)) by (unfold polygons_only in K; apply K). exists g. split; [exact R|].
  pose proof (bounds_reached _ _ _ _ H0 H1 W) as Q. split; [exact Q|]. intro M. apply (reached_closed _ _ _ _ Q).
  destruct (complete_intersect_multipolygons_mild x Hx a b H0 H1 H2 H3 M) as (g' & R' & (V & _)). pose proof (R some_oracle) as E. rewrite (R' some_oracle) in E. injection E as <-. exact V.
Qed.
Theorem intersect_polygons_reached : forall x, right_locators x -> forall first second, valid_polygon first -> valid_polygon second ->
  exists g, (forall o, intersect_polygons x o first second = Ok g) /\ reached_result Meet [first] [second] (polygons_of g) /\ (mild_position [first] [second] -> closed_result Meet [first] [second] (polygons_of g)).
Proof.
  intros x Hx a b H0 H1. destruct (intersect_polygons_correct x Hx a b H0 H1) as (g & R & K).
  assert (W : bounds_result Meet [a] [b] (polygons_of g)) by (unfold polygons_only in K; apply K). exists g. split; [exact R|].
  pose proof (bounds_reached _ _ _ _ (single_polygon_valid _ H0) (single_polygon_valid _ H1) W) as Q. split; [exact Q|]. intro M. apply (reached_closed _ _ _ _ Q).
  destruct (intersect_polygons_mild x Hx a b H0 H1 M) as (g' & R' & (V & _)). pose proof (R some_oracle) as E. rewrite (R' some_oracle) in E. injection E as <-. exact V.
Qed.
Theorem intersect_polygon_with_multipolygon_reached : forall x, right_locators x -> forall shape multipolygon, valid_polygon shape -> valid_polygons multipolygon -> multipolygon <> [] ->
  exists g, (forall o, intersect_polygon_with_multipolygon x o shape multipolygon = Ok g) /\ reached_result Meet [shape] multipolygon (polygons_of g) /\ (mild_position [shape] multipolygon -> closed_result Meet [shape] multipolygon (polygons_of g)).
Proof.
  intros x Hx a b H0 H1 H2. destruct (intersect_polygon_multipolygon_correct x Hx a b H0 H1 H2) as (g & R & K).
  assert (W : bounds_result Meet [a] b (polygons_of g)) by (unfold polygons_only in K; apply K). exists g. split; [exact R|].
  pose proof (bounds_reached _ _ _ _ (single_polygon_valid _ H0) H1 W) as Q. split; [exact Q|]. intro M. apply (reached_closed _ _ _ _ Q).
  destruct (intersect_polygon_multipolygon_mild x Hx a b H0 H1 H2 M) as (g' & R' & (V & _)). pose proof (R some_oracle) as E. rewrite (R' some_oracle) in E. injection E as <-. exact V.
Qed.
Theorem intersect_multipolygons_reached : forall x, right_locators x -> forall first second, valid_polygons first -> valid_polygons second -> first <> [] -> second <> [] ->
  exists g, (forall o, intersect_multipolygons x o first second = Ok g) /\ reached_result Meet first second (polygons_of g) /\ (mild_position first second -> closed_result Meet first second (polygons_of g)).
Proof.
  intros x Hx a b H0 H1 H2 H3. destruct (intersect_multipolygons_correct x Hx a b H0 H1 H2 H3) as (g & R & K).
  assert (W : bounds_result Meet a b (polygons_of g)) by (unfold polygons_only in K; apply K). exists g. split; [exact R|].
  pose proof (bounds_reached _ _ _ _ H0 H1 W) as Q. split; [exact Q|]. intro M. apply (reached_closed _ _ _ _ Q).
  destruct (intersect_multipolygons_mild x Hx a b H0 H1 H2 H3 M) as (g' & R' & (V & _)). pose proof (R some_oracle) as E. rewrite (R' some_oracle) in E. injection E as <-. exact V.
Qed.
Theorem subtract_polygons_reached : forall x, right_locators x -> forall minuend subtrahend, valid_polygon minuend -> valid_polygon subtrahend ->
  exists g, (forall o, subtract_polygons x o minuend subtrahend = Ok g) /\ reached_result Minus [minuend] [subtrahend] (polygons_of g) /\ (mild_position [minuend] [subtrahend] -> closed_result Minus [minuend] [subtrahend] (polygons_of g)).
Proof.
  intros x Hx a b H0 H1. destruct (subtract_polygons_correct x Hx a b H0 H1) as (g & R & K).
  assert (W : bounds_result Minus [a] [b] (polygons_of g)) by (unfold polygons_only in K; apply K). exists g. split; [exact R|].
  pose proof (bounds_reached _ _ _ _ (single_polygon_valid _ H0) (single_polygon_valid _ H1) W) as Q. split; [exact Q|]. intro M. apply (reached_closed _ _ _ _ Q).
  destruct (subtract_polygons_mild x Hx a b H0 H1 M) as (g' & R' & (V & _)). pose proof (R some_oracle) as E. rewrite (R' some_oracle) in E. injection E as <-. exact V.
Qed.
Theorem subtract_multipolygon_from_polygon_reached : forall x, right_locators x -> forall minuend subtrahend, valid_polygon minuend -> valid_polygons subtrahend -> subtrahend <> [] ->
  exists g, (forall o, subtract_multipolygon_from_polygon x o minuend subtrahend = Ok g) /\ reached_result Minus [minuend] subtrahend (polygons_of g) /\ (mild_position [minuend] subtrahend -> closed_result Minus [minuend] subtrahend (polygons_of g)).
Proof.
  intros x Hx a b H0 H1 H2. destruct (subtract_multipolygon_polygon_correct x Hx a b H0 H1 H2) as (g & R & K).
  assert (W : bounds_result Minus [a] b (polygons_of g)) by (unfold polygons_only in K; apply K). exists g. split; [exact R|].
  pose proof (bounds_reached _ _ _ _ (single_polygon_valid _ H0) H1 W) as Q. split; [exact Q|]. intro M. apply (reached_closed _ _ _ _ Q).
  destruct (subtract_multipolygon_polygon_mild x Hx a b H0 H1 H2 M) as (g' & R' & (V & _)). pose proof (R some_oracle) as E. rewrite (R' some_oracle) in E. injection E as <-. exact V.
Qed.
Theorem subtract_polygon_from_multipolygon_reached : forall x, right_locators x -> forall minuend subtrahend, valid_polygons minuend -> valid_polygon subtrahend -> (2 <= length minuend)%nat ->
  exists g, (forall o, subtract_polygon_from_multipolygon x o minuend subtrahend = Ok g) /\ reached_result Minus minuend [subtrahend] (polygons_of g) /\ (mild_position minuend [subtrahend] -> closed_result Minus minuend [subtrahend] (polygons_of g)).
Proof.
  intros x Hx a b H0 H1 H2. destruct (subtract_polygon_multipolygon_correct x Hx a b H0 H1 H2) as (g & R & K).
  assert (W : bounds_result Minus a [b] (polygons_of g)) by (unfold polygons_only in K; apply K). exists g. split; [exact R|].
  pose proof (bounds_reached _ _ _ _ H0 (single_polygon_valid _ H1) W) as Q. split; [exact Q|]. intro M. apply (reached_closed _ _ _ _ Q).
  destruct (subtract_polygon_multipolygon_mild x Hx a b H0 H1 H2 M) as (g' & R' & (V & _)). pose proof (R some_oracle) as E. rewrite (R' some_oracle) in E. injection E as <-. exact V.
Qed.
Theorem subtract_multipolygons_reached : forall x, right_locators x -> forall minuend subtrahend, valid_polygons minuend -> valid_polygons subtrahend -> (2 <= length minuend)%nat -> subtrahend <> [] ->
  exists g, (forall o, subtract_multipolygons x o minuend subtrahend = Ok g) /\ reached_result Minus minuend subtrahend (polygons_of g) /\ (mild_position minuend subtrahend -> closed_result Minus minuend subtrahend (polygons_of g)).
Proof.
  intros x Hx a b H0 H1 H2 H3. destruct (subtract_multipolygons_correct x Hx a b H0 H1 H2 H3) as (g & R & K).
  assert (W : bounds_result Minus a b (polygons_of g)) by (unfold polygons_only in K; apply K). exists g. split; [exact R|].
  pose proof (bounds_reached _ _ _ _ H0 H1 W) as Q. split; [exact Q|]. intro M. apply (reached_closed _ _ _ _ Q).
  destruct (subtract_multipolygons_mild x Hx a b H0 H1 H2 H3 M) as (g' & R' & (V & _)). pose proof (R some_oracle) as E. rewrite (R' some_oracle) in E. injection E as <-. exact V.
Qed.
Theorem symmetric_subtract_polygons_reached : forall first second, valid_polygon first -> valid_polygon second ->
  exists g, (forall o, symmetric_subtract_polygons o first second = Ok g) /\ reached_result Differ [first] [second] (polygons_of g) /\ (mild_position [first] [second] -> closed_result Differ [first] [second] (polygons_of g)).
Proof.
  intros a b H0 H1. destruct (symmetric_subtract_polygons_correct a b H0 H1) as (g & R & K).
  assert (W : bounds_result Differ [a] [b] (polygons_of g)) by (unfold polygons_only in K; apply K). exists g. split; [exact R|].
  pose proof (bounds_reached _ _ _ _ (single_polygon_valid _ H0) (single_polygon_valid _ H1) W) as Q. split; [exact Q|]. intro M. apply (reached_closed _ _ _ _ Q).
  destruct (symmetric_subtract_polygons_mild a b H0 H1 M) as (g' & R' & (V & _)). pose proof (R some_oracle) as E. rewrite (R' some_oracle) in E. injection E as <-. exact V.
Qed.
Theorem symmetric_subtract_multipolygon_from_polygon_reached : forall shape multipolygon, valid_polygon shape -> valid_polygons multipolygon -> multipolygon <> [] ->
  exists g, (forall o, symmetric_subtract_multipolygon_from_polygon o shape multipolygon = Ok g) /\ reached_result Differ [shape] multipolygon (polygons_of g) /\ (mild_position [shape] multipolygon -> closed_result Differ [shape] multipolygon (polygons_of g)).
Proof.
  intros a b H0 H1 H2. destruct (symmetric_subtract_multipolygon_polygon_correct a b H0 H1 H2) as (g & R & K).
  assert (W : bounds_result Differ [a] b (polygons_of g)) by (unfold polygons_only in K; apply K). exists g. split; [exact R|].
  pose proof (bounds_reached _ _ _ _ (single_polygon_valid _ H0) H1 W) as Q. split; [exact Q|]. intro M. apply (reached_closed _ _ _ _ Q).
  destruct (symmetric_subtract_multipolygon_polygon_mild a b H0 H1 H2 M) as (g' & R' & (V & _)). pose proof (R some_oracle) as E. rewrite (R' some_oracle) in E. injection E as <-. exact V.
Qed.
Theorem symmetric_subtract_multipolygons_reached : forall first second, valid_polygons first -> valid_polygons second -> first <> [] -> second <> [] ->
  exists g, (forall o, symmetric_subtract_multipolygons o first second = Ok g) /\ reached_result Differ first second (polygons_of g) /\ (mild_position first second -> closed_result Differ first second (polygons_of g)).
Proof.
  intros a b H0 H1 H2 H3. destruct (symmetric_subtract_multipolygons_correct a b H0 H1 H2 H3) as (g & R & K).
  assert (W : bounds_result Differ a b (polygons_of g)) by (unfold polygons_only in K; apply K). exists g. split; [exact R|].
  pose proof (bounds_reached _ _ _ _ H0 H1 W) as Q. split; [exact Q|]. intro M. apply (reached_closed _ _ _ _ Q).
  destruct (symmetric_subtract_multipolygons_mild a b H0 H1 H2 H3 M) as (g' & R' & (V & _)). pose proof (R some_oracle) as E. rewrite (R' some_oracle) in E. injection E as <-. exact V.
Qed.
Theorem unite_polygons_reached : forall first second, valid_polygon first -> valid_polygon second ->
  exists g, (forall o, unite_polygons o first second = Ok g) /\ reached_result Join [first] [second] (polygons_of g) /\ (mild_position [first] [second] -> closed_result Join [first] [second] (polygons_of g)).
Proof.
  intros a b H0 H1. destruct (unite_polygons_correct a b H0 H1) as (g & R & K).
  assert (W : bounds_result Join [a] [b] (polygons_of g)) by (unfold polygons_only in K; apply K). exists g. split; [exact R|].
  pose proof (bounds_reached _ _ _ _ (single_polygon_valid _ H0) (single_polygon_valid _ H1) W) as Q. split; [exact Q|]. intro M. apply (reached_closed _ _ _ _ Q).
  destruct (unite_polygons_mild a b H0 H1 M) as (g' & R' & (V & _)). pose proof (R some_oracle) as E. rewrite (R' some_oracle) in E. injection E as <-. exact V.
Qed.
Theorem unite_polygon_with_multipolygon_reached : forall shape multipolygon, valid_polygon shape -> valid_polygons multipolygon -> multipolygon <> [] ->
  exists g, (forall o, unite_polygon_with_multipolygon o shape multipolygon = Ok g) /\ reached_result Join [shape] multipolygon (polygons_of g) /\ (mild_position [shape] multipolygon -> closed_result Join [shape] multipolygon (polygons_of g)).
Proof.
  intros a b H0 H1 H2. destruct (unite_polygon_multipolygon_correct a b H0 H1 H2) as (g & R & K).
  assert (W : bounds_result Join [a] b (polygons_of g)) by (unfold polygons_only in K; apply K). exists g. split; [exact R|].
  pose proof (bounds_reached _ _ _ _ (single_polygon_valid _ H0) H1 W) as Q. split; [exact Q|]. intro M. apply (reached_closed _ _ _ _ Q).
  destruct (unite_polygon_multipolygon_mild a b H0 H1 H2 M) as (g' & R' & (V & _)). pose proof (R some_oracle) as E. rewrite (R' some_oracle) in E. injection E as <-. exact V.
Qed.
Theorem unite_multipolygons_reached : forall first second, valid_polygons first -> valid_polygons second -> first <> [] -> second <> [] ->
  exists g, (forall o, unite_multipolygons o first second = Ok g) /\ reached_result Join first second (polygons_of g) /\ (mild_position first second -> closed_result Join first second (polygons_of g)).
Proof.
  intros a b H0 H1 H2 H3. destruct (unite_multipolygons_correct a b H0 H1 H2 H3) as (g & R & K).
  assert (W : bounds_result Join a b (polygons_of g)) by (unfold polygons_only in K; apply K). exists g. split; [exact R|].
  pose proof (bounds_reached _ _ _ _ H0 H1 W) as Q. split; [exact Q|]. intro M. apply (reached_closed _ _ _ _ Q).
  destruct (unite_multipolygons_mild a b H0 H1 H2 H3 M) as (g' & R' & (V & _)). pose proof (R some_oracle) as E. rewrite (R' some_oracle) in E. injection E as <-. exact V.
Qed.
