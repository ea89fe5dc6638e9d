(** Complete intersections of regions and of polygons. *)
From Coq Require Import Permutation Sorted.
From Verif Require Import QcTac Geom Spec SpecShape SpecSides SpecLocate GeomFacts SortFacts Pair Bounding BoundingThms UnpackThms Relation Sweep Linear Labelled Contour Filter Mixed Tracing Shaped Holey LinearThms Shapes Polygons FilterThms MixedThms PairThms MixedProps Locate Rectangle CoupledThms MixedComplete EvenStraight SweepEnd ShapedThms ShapedComplete ShapedProps RegionProps HoleyLoop HoleyThms HoleyProps.

(** Contours [rs] of regions bound intersections of regions [first] and [second]. *)
Definition complete_mix (ps : list point) (ss : list segment) (gs : list polygon) : geometry :=
  unpack_mix (unpack_points ps) (unpack_segments ss) (unpack_polygons gs).
Lemma mix_parts : forall ps ss gs, canonical (complete_mix ps ss gs) /\ points_of (complete_mix ps ss gs) = ps
  /\ segments_of (complete_mix ps ss gs) = ss /\ polygons_of (complete_mix ps ss gs) = gs.
Proof. intros ps ss gs. exact (unpack_mix_canonical ps ss gs). Qed.
Lemma nothing_common : forall (first second : point -> Prop) e f, (forall p, ~ (first p /\ second p)) -> complete_common first second e f GEmpty.
Proof.
  intros first second e f N. split; [split; [constructor|intros [|i] j a b _ K; discriminate K]|]. split; [constructor|]. split; [intros p [(sg & [] & _)|[]]|].
  split; [intros s p []|]. split; [intros p []|]. intro p. split; [intro K; destruct (N p K)|]. intros [[]|[(sg & [] & _)|[(sg & [] & _)|K]]]. discriminate K.
Qed.
Lemma common_kept : forall (first first' second second' : point -> Prop) e e' f f' g,
  (forall p, first p /\ second p <-> first' p /\ second' p) -> (forall p, on_segments p e' -> on_segments p e) -> (forall p, on_segments p f' -> on_segments p f) ->
  complete_common first' second' e' f' g -> complete_common first second e f g.
Proof.
  intros first first' second second' e e' f f' g K Ie If (A & B & C & D & F & G). split; [exact A|]. split; [exact B|]. split; [intros p O; destruct (C p O); auto|].
  split; [exact D|]. split; [exact F|]. intro p. rewrite K. exact (G p).
Qed.
(** Parts of a sweep put together with polygons around its result. *)
Lemma swept_common : forall first second s pl ps, valid_polygons first -> valid_polygons second -> first <> [] -> second <> [] ->
  shaped_swept Meet (edges_of first) (edges_of second) (op_x_max Meet first second) s pl ->
  (forall q, inside (all_edges ps) q = inside (result_edges s pl) q) -> (forall q, on_segments q (all_edges ps) <-> on_segments q (result_edges s pl)) ->
  let events := sort_by (binary_key_ltb s) pl in
  complete_common (in_polygons first) (in_polygons second) (all_edges first) (all_edges second) (complete_mix (shaped_points s events) (shaped_segments s events) ps).
Proof.
  intros first second s pl ps V1 V2 N1 N2 H Ei Eo events. destruct (polygons_x_max_some first V1 N1) as (a & Ea). destruct (polygons_x_max_some second V2 N2) as (b & Eb).
  assert (Hx : op_x_max Meet first second = Some (Qc_min a b)) by (cbn; rewrite Ea, Eb; reflexivity).
  destruct (complete_parts _ _ _ _ _ H a b (polygons_x_max_in first a V1 Ea) (polygons_x_max_in second b V2 Eb) Hx) as (A & B & C & D & F & G). fold events in A, B, C, D, F, G.
  assert (Er : forall p, in_region (all_edges ps) p <-> in_region (result_edges s pl) p) by (intro p; unfold in_region; rewrite Ei, Eo; reflexivity).
  assert (To : forall p, on_segments p (edges_of first) /\ on_segments p (edges_of second) -> on_segments p (all_edges first) /\ on_segments p (all_edges second)).
  { intro p. rewrite <- (turned_on _ _ p (turned_polygons first)), <- (turned_on _ _ p (turned_polygons second)). tauto. }
  destruct (mix_parts (shaped_points s events) (shaped_segments s events) ps) as (_ & U2 & U3 & U4). unfold complete_common. rewrite U2, U3, U4.
  split; [exact A|]. split; [exact B|]. split; [intros p [O|I]; apply To; [exact (C p O)|destruct (F p I) as (O1 & O2 & _); split; assumption]|].
  split; [intros sg p Hs Is K; apply Er in K; exact (D sg p Hs Is K)|]. split; [intros p I; destruct (F p I) as (_ & _ & N3 & N4); split; [exact N3|intro K; apply Er in K; exact (N4 K)]|].
  intro p. rewrite Er, <- (oriented_region first V1), <- (oriented_region second V2). exact (G p).
Qed.

Section Polygons.
Variables (x : locators) (first second : list polygon).
Hypothesis Hx : right_locators x.
Hypothesis V1 : valid_polygons first.
Hypothesis V2 : valid_polygons second.
Hypothesis N1 : first <> [].
Hypothesis N2 : second <> [].
Definition complete_result (g : geometry) : Prop :=
  canonical g /\ complete_common (in_polygons first) (in_polygons second) (all_edges first) (all_edges second) g
  /\ bounds_result Meet first second (polygons_of g) /\ no_straight_vertices (polygons_of g).
Lemma complete_none : (forall p, ~ (in_polygons first p /\ in_polygons second p)) -> complete_result GEmpty.
Proof.
  intro N. split; [exact I|]. split; [exact (nothing_common _ _ _ _ N)|]. apply none_bounds. intros p _. exact (N p).
Qed.
Theorem polygon_complete_correct : exists g, (forall o, polygon_complete_intersection x o first second = Ok g) /\ complete_result g.
Proof.
  destruct (polygons_box_some first V1 N1) as (a & Ea). destruct (polygons_box_some second V2 N2) as (b & Eb).
  set (f := fun o first second => bind_res (sweep_intersection o first second) (fun '(s, events, ids) =>
      let events := sort_by (binary_key_ltb s) events in
      bind_res (events_to_polygons s events ids) (fun polygons => Ok (complete_mix (shaped_points s events) (shaped_segments s events) polygons)))).
  assert (R : forall o, polygon_complete_intersection x o first second
    = if disjoint_with a b then Ok GEmpty
      else match to_intersecting_polygons x b first with [] => Ok GEmpty | first' =>
           match to_intersecting_polygons x a second with [] => Ok GEmpty | second' => f o first' second' end end).
  { intro o. unfold polygon_complete_intersection, meeting_polygons, with_polygon_boxes. rewrite Ea, Eb. reflexivity. }
  destruct (disjoint_with a b) eqn:D.
  { exists GEmpty. split; [exact R|]. apply complete_none. intros p. exact (apart_boxes first second V1 V2 a b p Ea Eb D). }
  assert (Kp : forall p, in_polygons first p /\ in_polygons second p <-> in_polygons (to_intersecting_polygons x b first) p /\ in_polygons (to_intersecting_polygons x a second) p).
  { intro p. destruct (polygons_box_in first a p V1 Ea) as (Wa & Ka). destruct (polygons_box_in second b p V2 Eb) as (Wb & Kb). split; intros (A & B).
    - split; [exact (intersecting_kept x Hx first b p V1 Wb (Kb B) A)|exact (intersecting_kept x Hx second a p V2 Wa (Ka A) B)].
    - split; [exact (sub_in _ _ _ A)|exact (sub_in _ _ _ B)]. }
  pose proof (valid_polygons_filter (intersects_with_polygon x b) first V1) as V1'. pose proof (valid_polygons_filter (intersects_with_polygon x a) second V2) as V2'.
  change (filter (intersects_with_polygon x b) first) with (to_intersecting_polygons x b first) in V1'. change (filter (intersects_with_polygon x a) second) with (to_intersecting_polygons x a second) in V2'.
  assert (I1 : forall g, In g (to_intersecting_polygons x b first) -> In g first) by (intros g Hg; apply filter_In in Hg; apply Hg).
  assert (I2 : forall g, In g (to_intersecting_polygons x a second) -> In g second) by (intros g Hg; apply filter_In in Hg; apply Hg).
  assert (Ie : forall l l' : list polygon, (forall g, In g l' -> In g l) -> forall p, on_segments p (all_edges l') -> on_segments p (all_edges l)).
  { intros l l' Il p O. apply on_flat in O. destruct O as (g & Hg & O). apply on_flat. exists g. auto. }
  destruct (to_intersecting_polygons x b first) as [|r0 first'].
  { exists GEmpty. split; [exact R|]. apply complete_none. intros p K. apply (Kp p) in K. exact (no_polygons p (proj1 K)). }
  destruct (to_intersecting_polygons x a second) as [|t0 second'].
  { exists GEmpty. split; [exact R|]. apply complete_none. intros p K. apply (Kp p) in K. exact (no_polygons p (proj2 K)). }
  destruct (swept_bounds Meet (r0 :: first') (t0 :: second') V1' V2' ltac:(discriminate) ltac:(discriminate)) as (s & pl & Sw & Hs & Gs).
  destruct (Gs _ (or_intror eq_refl)) as (gs & Eg & B & S & Go & Gi).
  exists (complete_mix (shaped_points s (sort_by (binary_key_ltb s) pl)) (shaped_segments s (sort_by (binary_key_ltb s) pl)) gs).
  split; [intro o; rewrite R; unfold f; change (sweep_intersection o) with (op_sweep Meet o); rewrite Sw; cbn [bind_res]; cbv zeta; rewrite Eg; reflexivity|].
  split; [apply mix_parts|]. split.
  - apply (common_kept _ _ _ _ _ _ _ _ _ Kp (Ie _ _ I1) (Ie _ _ I2)). exact (swept_common _ _ s pl gs V1' V2' ltac:(discriminate) ltac:(discriminate) Hs Gi Go).
  - rewrite (proj2 (proj2 (proj2 (mix_parts _ _ gs)))). split; [|exact S]. refine (kept_bounds Meet first second _ _ gs I1 I2 (fun p _ => _) B). symmetry. exact (Kp p).
Qed.
End Polygons.

Section Regions.
Variables (x : locators) (first second : list contour).
Hypothesis Hx : right_locators x.
Hypothesis V1 : valid_regions first.
Hypothesis V2 : valid_regions second.
Hypothesis N1 : first <> [].
Hypothesis N2 : second <> [].
Definition complete_regions (g : geometry) : Prop :=
  canonical g /\ complete_common (in_regions first) (in_regions second) (contours_edges first) (contours_edges second) g
  /\ Forall (fun q => holes q = [] /\ never_folds (vertices (border q))
                      /\ forall j, (j < length (vertices (border q)))%nat -> ~ straight (vertices (border q)) j) (polygons_of g)
  /\ (forall p, on_segments p (all_edges (polygons_of g)) -> on_segments p (contours_edges (first ++ second)))
  /\ forall p, ~ on_segments p (contours_edges (first ++ second)) -> (inside (all_edges (polygons_of g)) p = true <-> in_regions first p /\ in_regions second p).
Lemma regions_none : (forall p, ~ (in_regions first p /\ in_regions second p)) -> complete_regions GEmpty.
Proof.
  intro N. split; [exact I|]. split; [exact (nothing_common _ _ _ _ N)|]. split; [constructor|]. split; [intros p (sg & [] & _)|]. intros p _. split; [discriminate|]. intro K. destruct (N p K).
Qed.
Theorem region_complete_correct : exists g, (forall o, region_complete_intersection x o first second = Ok g) /\ complete_regions g.
Proof.
  destruct (regions_box_some first V1 N1) as (a & Ea). destruct (regions_box_some second V2 N2) as (b & Eb).
  set (f := fun o first second => bind_res (sweep_regions in_intersection o first second) (fun '(s, events) =>
      let events := sort_by (binary_key_ltb s) events in
      bind_res (events_to_regions s events) (fun regions => Ok (unpack_mix (unpack_points (shaped_points s events)) (unpack_segments (shaped_segments s events)) (unpack_regions regions))))).
  assert (R : forall o, region_complete_intersection x o first second
    = if disjoint_with a b then Ok GEmpty
      else match to_intersecting_regions x b first with [] => Ok GEmpty | first' =>
           match to_intersecting_regions x a second with [] => Ok GEmpty | second' => f o first' second' end end).
  { intro o. unfold region_complete_intersection, meeting_regions, with_region_boxes. rewrite Ea, Eb. reflexivity. }
  destruct (disjoint_with a b) eqn:D.
  { exists GEmpty. split; [exact R|]. apply regions_none. intros p. exact (boxes_apart first second V1 V2 a b p Ea Eb D). }
  pose proof (fun p => kept_intersecting x first second Hx V1 V2 a b p Ea Eb) as Kp.
  pose proof (valid_regions_filter (intersects_with_region x b) first V1) as V1'. pose proof (valid_regions_filter (intersects_with_region x a) second V2) as V2'.
  change (filter (intersects_with_region x b) first) with (to_intersecting_regions x b first) in V1'. change (filter (intersects_with_region x a) second) with (to_intersecting_regions x a second) in V2'.
  assert (I1 : forall g, In g (to_intersecting_regions x b first) -> In g first) by (intros g Hg; apply filter_In in Hg; apply Hg).
  assert (I2 : forall g, In g (to_intersecting_regions x a second) -> In g second) by (intros g Hg; apply filter_In in Hg; apply Hg).
  assert (Ie : forall l l' : list contour, (forall g, In g l' -> In g l) -> forall p, on_segments p (contours_edges l') -> on_segments p (contours_edges l)).
  { intros l l' Il p O. apply on_flat in O. destruct O as (g & Hg & O). apply on_flat. exists g. auto. }
  destruct (to_intersecting_regions x b first) as [|r0 first'].
  { exists GEmpty. split; [exact R|]. apply regions_none. intros p K. apply (Kp p) in K. exact (no_regions p (proj1 K)). }
  destruct (to_intersecting_regions x a second) as [|t0 second'].
  { exists GEmpty. split; [exact R|]. apply regions_none. intros p K. apply (Kp p) in K. exact (no_regions p (proj2 K)). }
  destruct (regions_sweep (r0 :: first') (t0 :: second') V1' V2' ltac:(discriminate) ltac:(discriminate)) as (s & pl & Hs & Sw).
  set (first'' := r0 :: first') in *. set (second'' := t0 :: second') in *.
  destruct (regions_traced _ _ _ _ _ _ Hs (sort_by (binary_key_ltb s) pl) (sort_by_perm _ pl)) as (rs & Er & Ri & Ro & Rn).
  exists (complete_mix (shaped_points s (sort_by (binary_key_ltb s) pl)) (shaped_segments s (sort_by (binary_key_ltb s) pl)) (solid rs)).
  split; [intro o; rewrite R; unfold f; rewrite Sw; cbn [bind_res]; cbv zeta; rewrite Er; cbn [bind_res]; rewrite unpack_regions_polygons; reflexivity|].
  split; [apply mix_parts|].
  assert (Cc : complete_common (in_regions first) (in_regions second) (contours_edges first) (contours_edges second)
    (complete_mix (shaped_points s (sort_by (binary_key_ltb s) pl)) (shaped_segments s (sort_by (binary_key_ltb s) pl)) (solid rs))).
  { apply (common_kept _ (in_polygons (solid first'')) _ (in_polygons (solid second'')) _ (all_edges (solid first'')) _ (all_edges (solid second''))).
    - intro p. rewrite !solid_region. exact (Kp p).
    - rewrite ShapedProps.solid_edges. exact (Ie _ _ I1).
    - rewrite ShapedProps.solid_edges. exact (Ie _ _ I2).
    - apply (swept_common (solid first'') (solid second'') s pl (solid rs) (solid_valid _ V1') (solid_valid _ V2') ltac:(discriminate) ltac:(discriminate)).
      + cbn [op_x_max]. rewrite !solid_oriented, <- !solid_x_max. exact Hs.
      + rewrite ShapedProps.solid_edges. exact Ri.
      + rewrite ShapedProps.solid_edges. exact Ro. }
  split; [exact Cc|]. rewrite (proj2 (proj2 (proj2 (mix_parts _ _ (solid rs))))), ShapedProps.solid_edges. split.
  { apply Forall_forall. intros q Hq. apply in_map_iff in Hq. destruct Hq as (r & <- & Hr). split; [reflexivity|]. exact (proj1 (Forall_forall _ _) Rn r Hr). }
  assert (On : forall p, on_segments p (contours_edges rs) -> on_segments p (contours_edges (first ++ second))).
  { intros p K. apply Ro in K. apply (result_on _ _ _ _ _ _ Hs p) in K. apply solid_both in K. rewrite flat_map_app, on_segments_app in *. destruct K as [K|K]; [left; exact (Ie _ _ I1 p K)|right; exact (Ie _ _ I2 p K)]. }
  split; [exact On|]. intros p N. rewrite (proj2 (proj2 (proj2 (proj2 (proj2 Cc)))) p). destruct (mix_parts (shaped_points s (sort_by (binary_key_ltb s) pl)) (shaped_segments s (sort_by (binary_key_ltb s) pl)) (solid rs)) as (_ & U2 & U3 & U4).
  pose proof (proj1 (proj2 (proj2 Cc)) p) as Bd. rewrite U2, U3, U4, ShapedProps.solid_edges in *. rewrite flat_map_app, on_segments_app in N. unfold in_region.
  split; [intro K; right; right; right; exact K|]. intros [K|[K|[K|K]]].
  - destruct (Bd (or_intror K)). tauto.
  - destruct (Bd (or_introl K)). tauto.
  - apply On in K. rewrite flat_map_app, on_segments_app in K. tauto.
  - exact K.
Qed.
End Regions.

(** ** Operations of planar.py *)
Lemma common_same : forall (first first' second second' : point -> Prop) e e' f f' g,
  (forall p, first p <-> first' p) -> (forall p, second p <-> second' p) -> e = e' -> f = f' ->
  complete_common first' second' e' f' g -> complete_common first second e f g.
Proof.
  intros first first' second second' e e' f f' g A B -> ->. apply common_kept; [intro p; rewrite A, B; reflexivity|auto|auto].
Qed.
Lemma in_one_polygon : forall g p, in_polygon g p <-> in_polygons [g] p.
Proof. intros g p. split; [intro H; exists g; split; [left; reflexivity|exact H]|intros (q & [<-|[]] & H); exact H]. Qed.
Lemma in_one_region : forall c p, in_contour c p <-> in_regions [c] p.
Proof. intros c p. split; [intro H; exists c; split; [left; reflexivity|exact H]|intros (q & [<-|[]] & H); exact H]. Qed.
Lemma one_flat : forall {A} (f : A -> list segment) a, f a = flat_map f [a].
Proof. intros A f a. cbn. rewrite app_nil_r. reflexivity. Qed.
Section Planar.
Variable x : locators.
Hypothesis Hx : right_locators x.
Theorem complete_intersect_multipolygons_correct : forall first second, valid_polygons first -> valid_polygons second -> first <> [] -> second <> [] ->
  exists g, (forall o, complete_intersect_multipolygons x o first second = Ok g) /\ canonical g
  /\ complete_common (in_polygons first) (in_polygons second) (all_edges first) (all_edges second) g
  /\ bounds_result Meet first second (polygons_of g) /\ no_straight_vertices (polygons_of g).
Proof. intros first second V1 V2 N1 N2. exact (polygon_complete_correct x first second Hx V1 V2 N1 N2). Qed.
Theorem complete_intersect_polygon_multipolygon_correct : forall shape multipolygon, valid_polygon shape -> valid_polygons multipolygon -> multipolygon <> [] ->
  exists g, (forall o, complete_intersect_polygon_with_multipolygon x o shape multipolygon = Ok g) /\ canonical g
  /\ complete_common (in_polygon shape) (in_polygons multipolygon) (polygon_edges shape) (all_edges multipolygon) g
  /\ bounds_result Meet [shape] multipolygon (polygons_of g) /\ no_straight_vertices (polygons_of g).
Proof.
  intros a b V1 V2 N2. destruct (complete_intersect_multipolygons_correct [a] b (single_polygon_valid a V1) V2 ltac:(discriminate) N2) as (g & R & C & K & B). exists g. split; [exact R|]. split; [exact C|].
  split; [|exact B]. exact (common_same _ _ _ _ _ _ _ _ g (in_one_polygon a) (fun p => iff_refl _) (one_flat polygon_edges a) eq_refl K).
Qed.
Theorem complete_intersect_polygons_correct : forall first second, valid_polygon first -> valid_polygon second ->
  exists g, (forall o, complete_intersect_polygons x o first second = Ok g) /\ canonical g
  /\ complete_common (in_polygon first) (in_polygon second) (polygon_edges first) (polygon_edges second) g
  /\ bounds_result Meet [first] [second] (polygons_of g) /\ no_straight_vertices (polygons_of g).
Proof.
  intros a b V1 V2. destruct (complete_intersect_polygon_multipolygon_correct a [b] V1 (single_polygon_valid b V2) ltac:(discriminate)) as (g & R & C & K & B). exists g. split; [exact R|]. split; [exact C|].
  split; [|exact B]. exact (common_same _ _ _ _ _ _ _ _ g (fun p => iff_refl _) (in_one_polygon b) eq_refl (one_flat polygon_edges b) K).
Qed.
Theorem complete_intersect_multiregions_correct : forall first second, valid_regions first -> valid_regions second -> first <> [] -> second <> [] ->
  exists g, (forall o, complete_intersect_multiregions x o first second = Ok g) /\ canonical g
  /\ complete_common (in_regions first) (in_regions second) (contours_edges first) (contours_edges second) g
  /\ Forall (fun q => holes q = [] /\ never_folds (vertices (border q))
                      /\ forall j, (j < length (vertices (border q)))%nat -> ~ straight (vertices (border q)) j) (polygons_of g).
Proof. intros first second V1 V2 N1 N2. destruct (region_complete_correct x first second Hx V1 V2 N1 N2) as (g & R & C & K & F & _). exists g. auto. Qed.
Theorem complete_intersect_region_multiregion_correct : forall region multiregion, simple_contour (vertices region) -> valid_regions multiregion -> multiregion <> [] ->
  exists g, (forall o, complete_intersect_region_with_multiregion x o region multiregion = Ok g) /\ canonical g
  /\ complete_common (in_contour region) (in_regions multiregion) (contour_edges (vertices region)) (contours_edges multiregion) g
  /\ Forall (fun q => holes q = [] /\ never_folds (vertices (border q))
                      /\ forall j, (j < length (vertices (border q)))%nat -> ~ straight (vertices (border q)) j) (polygons_of g).
Proof.
  intros a b V1 V2 N2. destruct (complete_intersect_multiregions_correct [a] b (single_region a V1) V2 ltac:(discriminate) N2) as (g & R & C & K & B). exists g. split; [exact R|]. split; [exact C|].
  split; [|exact B]. exact (common_same _ _ _ _ _ _ _ _ g (in_one_region a) (fun p => iff_refl _) (one_flat (fun c => contour_edges (vertices c)) a) eq_refl K).
Qed.
Theorem complete_intersect_regions_correct : forall first second, simple_contour (vertices first) -> simple_contour (vertices second) ->
  exists g, (forall o, complete_intersect_regions x o first second = Ok g) /\ canonical g
  /\ complete_common (in_contour first) (in_contour second) (contour_edges (vertices first)) (contour_edges (vertices second)) g
  /\ Forall (fun q => holes q = [] /\ never_folds (vertices (border q))
                      /\ forall j, (j < length (vertices (border q)))%nat -> ~ straight (vertices (border q)) j) (polygons_of g).
Proof.
  intros a b V1 V2. destruct (complete_intersect_region_multiregion_correct a [b] V1 (single_region b V2) ltac:(discriminate)) as (g & R & C & K & B). exists g. split; [exact R|]. split; [exact C|].
  split; [|exact B]. exact (common_same _ _ _ _ _ _ _ _ g (fun p => iff_refl _) (in_one_region b) eq_refl (one_flat (fun c => contour_edges (vertices c)) b) K).
Qed.
End Planar.
