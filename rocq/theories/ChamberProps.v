(** Intersections of regions return valid regions.
    Proof support only, no part of /repo is modelled here. *)
From Coq Require Import Permutation.
From Verif Require Import QcTac Geom Spec SpecShape SpecSides SpecLocate SpecTurn SpecReach SpecChamber GeomFacts SortFacts Pair Bounding BoundingThms UnpackThms Relation Sweep Linear Labelled Contour Filter Mixed Tracing Shaped Holey LinearThms Shapes Polygons FilterThms MixedThms MixedProps Locate CoupledThms ShapedThms ShapedProps RegionProps HoleyProps CompleteProps NestProps Reach ReachProps Chambers.

(** Regions [rs] are valid, each one is in one region of each operand. *)
Definition walled (first second rs : list contour) : Prop :=
  valid_regions rs
  /\ (forall r, In r rs -> exists c1 c2, In c1 first /\ In c2 second /\ forall p, in_contour r p -> in_contour c1 p /\ in_contour c2 p)
  /\ (forall r, In r rs -> counterclockwise r) /\ (forall r, In r rs -> starts_least r).
Lemma walled_none : forall first second, walled first second [].
Proof.
  intros first second. split; [|split; [intros r []|split; intros r []]]. split; [constructor|]. split; [intros [|i] j a b _ K; discriminate K|]. split; [constructor|intros [|i] j a b _ K; discriminate K].
Qed.
Lemma walled_kept : forall first second first' second' rs, (forall c, In c first' -> In c first) -> (forall c, In c second' -> In c second) -> walled first' second' rs -> walled first second rs.
Proof.
  intros first second first' second' rs I1 I2 (A & B & C). split; [exact A|]. split; [|exact C]. intros r Hr. destruct (B r Hr) as (c1 & c2 & H1 & H2 & K). exists c1, c2. auto.
Qed.
Lemma solid_borders : forall rs, map border (map (fun r => Polygon r []) rs) = rs.
Proof. intro rs. rewrite map_map. apply map_id. Qed.
Lemma walled_result : forall first second rs, valid_regions first -> valid_regions second -> walled first second rs ->
  (forall p, on_segments p (contours_edges rs) -> on_segments p (contours_edges (first ++ second))) ->
  (forall p, ~ on_segments p (contours_edges (first ++ second)) -> (inside (contours_edges rs) p = true <-> in_regions first p /\ in_regions second p)) ->
  region_result first second (map (fun r => Polygon r []) rs).
Proof.
  intros first second rs V1 V2 (V & B & C & D) On In_. split; [|split; rewrite solid_borders; [exact V|]].
  - intros g Hg. apply in_map_iff in Hg. destruct Hg as (r & <- & Hr). split; [reflexivity|]. split; [exact (C r Hr)|]. split; [exact (D r Hr)|exact (B r Hr)].
  - intro p. assert (K : in_regions rs p <-> in_region (contours_edges rs) p).
    { rewrite <- (ShapedProps.solid_region rs p), <- (polygons_region (solid rs) (solid_valid rs V) p), ShapedProps.solid_edges. reflexivity. }
    rewrite K. apply (region_reached (contours_edges rs) (contours_edges (first ++ second)) (fun p => in_regions first p /\ in_regions second p)).
    + apply V.
    + rewrite <- ShapedProps.solid_edges. apply edges_even.
    + rewrite flat_map_app. apply Forall_app. split; [exact (proj1 (proj2 (proj2 V1)))|exact (proj1 (proj2 (proj2 V2)))].
    + exact On.
    + exact In_.
Qed.

Section Meet.
Variables (x : locators) (first second : list contour).
Hypothesis V1 : valid_regions first.
Hypothesis V2 : valid_regions second.
Hypothesis N1 : first <> [].
Hypothesis N2 : second <> [].
Theorem region_intersection_walled : exists rs, (forall o, region_intersection x o first second = Ok (unpack_regions rs)) /\ walled first second rs.
Proof.
  destruct (regions_box_some first V1 N1) as (a & Ea). destruct (regions_box_some second V2 N2) as (b & Eb).
  assert (R : forall o, region_intersection x o first second
    = if disjoint_with a b then Ok GEmpty
      else match to_coupled_regions x b first with [] => Ok GEmpty | first' =>
           match to_coupled_regions x a second with [] => Ok GEmpty | second' =>
             bind_res (sweep_regions in_intersection o first' second') (fun '(s, events) => bind_res (events_to_regions s events) (fun regions => Ok (unpack_regions regions))) end end).
  { intro o. unfold region_intersection, meeting_regions, with_region_boxes. rewrite Ea, Eb. reflexivity. }
  destruct (disjoint_with a b); [exists []; split; [exact R|apply walled_none]|].
  pose proof (valid_regions_filter (coupled_with_region x b) first V1) as V1'. pose proof (valid_regions_filter (coupled_with_region x a) second V2) as V2'.
  change (filter (coupled_with_region x b) first) with (to_coupled_regions x b first) in V1'. change (filter (coupled_with_region x a) second) with (to_coupled_regions x a second) in V2'.
  assert (I1 : forall g, In g (to_coupled_regions x b first) -> In g first) by (intros g Hg; apply filter_In in Hg; apply Hg).
  assert (I2 : forall g, In g (to_coupled_regions x a second) -> In g second) by (intros g Hg; apply filter_In in Hg; apply Hg).
  destruct (to_coupled_regions x b first) as [|r0 first']; [exists []; split; [exact R|apply walled_none]|].
  destruct (to_coupled_regions x a second) as [|t0 second']; [exists []; split; [exact R|apply walled_none]|].
  destruct (regions_sweep (r0 :: first') (t0 :: second') V1' V2' ltac:(discriminate) ltac:(discriminate)) as (s & pl & Hs & Sw).
  destruct (regions_chambers (r0 :: first') (t0 :: second') _ s pl V1' V2' Hs pl (Permutation_refl _)) as (rs & Er & W).
  exists rs. split; [intro o; rewrite R, Sw; cbn [bind_res]; rewrite Er; reflexivity|]. exact (walled_kept _ _ _ _ rs I1 I2 W).
Qed.
Theorem region_complete_walled : exists ps ss rs, (forall o, region_complete_intersection x o first second = Ok (complete_mix ps ss (solid rs))) /\ walled first second rs.
Proof.
  destruct (regions_box_some first V1 N1) as (a & Ea). destruct (regions_box_some second V2 N2) as (b & Eb).
  set (f := fun o first second => bind_res (sweep_regions in_intersection o first second) (fun '(s, events) =>
      let events := sort_by (binary_key_ltb s) events in
      bind_res (events_to_regions s events) (fun regions => Ok (unpack_mix (unpack_points (shaped_points s events)) (unpack_segments (shaped_segments s events)) (unpack_regions regions))))).
  assert (R : forall o, region_complete_intersection x o first second
    = if disjoint_with a b then Ok GEmpty
      else match to_intersecting_regions x b first with [] => Ok GEmpty | first' =>
           match to_intersecting_regions x a second with [] => Ok GEmpty | second' => f o first' second' end end).
  { intro o. unfold region_complete_intersection, meeting_regions, with_region_boxes. rewrite Ea, Eb. reflexivity. }
  destruct (disjoint_with a b); [exists [], [], []; split; [exact R|apply walled_none]|].
  pose proof (valid_regions_filter (intersects_with_region x b) first V1) as V1'. pose proof (valid_regions_filter (intersects_with_region x a) second V2) as V2'.
  change (filter (intersects_with_region x b) first) with (to_intersecting_regions x b first) in V1'. change (filter (intersects_with_region x a) second) with (to_intersecting_regions x a second) in V2'.
  assert (I1 : forall g, In g (to_intersecting_regions x b first) -> In g first) by (intros g Hg; apply filter_In in Hg; apply Hg).
  assert (I2 : forall g, In g (to_intersecting_regions x a second) -> In g second) by (intros g Hg; apply filter_In in Hg; apply Hg).
  destruct (to_intersecting_regions x b first) as [|r0 first']; [exists [], [], []; split; [exact R|apply walled_none]|].
  destruct (to_intersecting_regions x a second) as [|t0 second']; [exists [], [], []; split; [exact R|apply walled_none]|].
  destruct (regions_sweep (r0 :: first') (t0 :: second') V1' V2' ltac:(discriminate) ltac:(discriminate)) as (s & pl & Hs & Sw).
  destruct (regions_chambers (r0 :: first') (t0 :: second') _ s pl V1' V2' Hs (sort_by (binary_key_ltb s) pl) (sort_by_perm _ pl)) as (rs & Er & W).
  exists (shaped_points s (sort_by (binary_key_ltb s) pl)), (shaped_segments s (sort_by (binary_key_ltb s) pl)), rs.
  split; [intro o; rewrite R; unfold f; rewrite Sw; cbn [bind_res]; cbv zeta; rewrite Er; cbn [bind_res]; rewrite unpack_regions_polygons; reflexivity|]. exact (walled_kept _ _ _ _ rs I1 I2 W).
Qed.
End Meet.

Theorem intersect_multiregions_valid : forall x, right_locators x -> forall first second, valid_regions first -> valid_regions second -> first <> [] -> second <> [] ->
  exists g, (forall o, intersect_multiregions x o first second = Ok g) /\ region_result first second (polygons_of g).
Proof.
  intros x Hx first second V1 V2 N1 N2. destruct (region_intersection_walled x first second V1 V2 N1 N2) as (rs & R & W).
  destruct (region_intersection_correct x first second Hx V1 V2 N1 N2) as (rs' & R' & C). exists (unpack_regions rs). split; [exact R|].
  apply bound_regions in C. pose proof (R some_oracle) as E. rewrite (R' some_oracle) in E. injection E as E. rewrite E in C. destruct C as (_ & _ & _ & _ & On & I).
  destruct (unpack_regions_canonical rs) as (_ & _ & _ & U). rewrite U in *. rewrite RegionProps.solid_edges in On, I. exact (walled_result first second rs V1 V2 W On I).
Qed.
Theorem complete_intersect_multiregions_valid : forall x, right_locators x -> forall first second, valid_regions first -> valid_regions second -> first <> [] -> second <> [] ->
  exists g, (forall o, complete_intersect_multiregions x o first second = Ok g) /\ region_result first second (polygons_of g).
Proof.
  intros x Hx first second V1 V2 N1 N2. destruct (region_complete_walled x first second V1 V2 N1 N2) as (ps & ss & rs & R & W).
  destruct (region_complete_correct x first second Hx V1 V2 N1 N2) as (g & R' & C). exists (complete_mix ps ss (solid rs)). split; [exact R|].
  pose proof (R some_oracle) as E. rewrite (R' some_oracle) in E. injection E as E. subst g. destruct C as (_ & _ & _ & On & I).
  rewrite (proj2 (proj2 (proj2 (mix_parts ps ss (solid rs))))) in *. rewrite ShapedProps.solid_edges in On, I. exact (walled_result first second rs V1 V2 W On I).
Qed.
Theorem intersect_region_with_multiregion_valid : forall x, right_locators x -> forall region multiregion, simple_contour (vertices region) -> valid_regions multiregion -> multiregion <> [] ->
  exists g, (forall o, intersect_region_with_multiregion x o region multiregion = Ok g) /\ region_result [region] multiregion (polygons_of g).
Proof. intros x Hx r m V1 V2 N. exact (intersect_multiregions_valid x Hx [r] m (single_region r V1) V2 ltac:(discriminate) N). Qed.
Theorem complete_intersect_region_with_multiregion_valid : forall x, right_locators x -> forall region multiregion, simple_contour (vertices region) -> valid_regions multiregion -> multiregion <> [] ->
  exists g, (forall o, complete_intersect_region_with_multiregion x o region multiregion = Ok g) /\ region_result [region] multiregion (polygons_of g).
Proof. intros x Hx r m V1 V2 N. exact (complete_intersect_multiregions_valid x Hx [r] m (single_region r V1) V2 ltac:(discriminate) N). Qed.
Theorem intersect_regions_valid : forall x, right_locators x -> forall first second, simple_contour (vertices first) -> simple_contour (vertices second) ->
  exists g, (forall o, intersect_regions x o first second = Ok g) /\ region_result [first] [second] (polygons_of g).
Proof. intros x Hx a b V1 V2. exact (intersect_multiregions_valid x Hx [a] [b] (single_region a V1) (single_region b V2) ltac:(discriminate) ltac:(discriminate)). Qed.
Theorem complete_intersect_regions_valid : forall x, right_locators x -> forall first second, simple_contour (vertices first) -> simple_contour (vertices second) ->
  exists g, (forall o, complete_intersect_regions x o first second = Ok g) /\ region_result [first] [second] (polygons_of g).
Proof. intros x Hx a b V1 V2. exact (complete_intersect_multiregions_valid x Hx [a] [b] (single_region a V1) (single_region b V2) ltac:(discriminate) ltac:(discriminate)). Qed.
