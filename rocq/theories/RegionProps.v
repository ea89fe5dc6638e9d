(** Intersections of regions. *)
From Coq Require Import Permutation.
From Verif Require Import QcTac Geom Spec SpecShape SpecSides SpecLocate GeomFacts Pair Bounding BoundingThms UnpackThms Relation Sweep Linear Labelled Contour Filter Mixed Tracing Shaped LinearThms Shapes Polygons FilterThms MixedProps Locate Rectangle CoupledThms ShapedThms ShapedProps.

Notation contours_edges rs := (flat_map (fun c => contour_edges (vertices c)) rs).
Lemma valid_regions_filter : forall f rs, valid_regions rs -> valid_regions (filter f rs).
Proof.
  intros f rs (A & B & C). split; [|split; [apply pairwise_filter, B|]].
  - rewrite Forall_forall in *. intros g Hg. apply filter_In in Hg. apply A, Hg.
  - apply (non_overlapping_prefix _ (contours_edges (filter (fun a => negb (f a)) rs))). rewrite <- flat_map_app.
    apply (non_overlapping_perm (contours_edges rs)); [|exact C]. apply Permutation_flat_map, filter_partition.
Qed.
Lemma regions_box_in : forall rs b, valid_regions rs -> contours_box rs = Some b -> wf_box b /\ (forall p, in_regions rs p -> in_box p b).
Proof.
  intros rs b (A & _) E. unfold contours_box in E. destruct (points_box_in _ _ E) as (W & I & _). split; [exact W|].
  intros p (r & Hr & J). rewrite Forall_forall in A. apply (contour_in_box r (A r Hr)); [|exact J]. intros v Hv. apply I. apply in_flat_map. exists r. split; assumption.
Qed.
Lemma regions_box_some : forall rs, valid_regions rs -> rs <> [] -> exists b, contours_box rs = Some b.
Proof.
  intros [|r rs] (A & _) N; [contradiction|]. apply points_box_some. cbn. apply Forall_inv in A. destruct A as (L & _). destruct (vertices r); [cbn in L; lia|]. discriminate.
Qed.
Lemma wide_points : forall b p q, in_box p b -> in_box q b -> p <> q -> wide_box b.
Proof.
  intros b p q (A1 & A2 & A3 & A4) (B1 & B2 & B3 & B4) N. split; [split; eapply Qcle_trans; eassumption|].
  destruct (Qclt_le_dec (min_x b) (max_x b)) as [L|L]; [left; exact L|]. destruct (Qclt_le_dec (min_y b) (max_y b)) as [M|M]; [right; exact M|exfalso].
  apply N. apply pt_ext; [clear - A1 A2 B1 B2 L; qlra|clear - A3 A4 B3 B4 M; qlra].
Qed.
Lemma regions_wide : forall rs b, valid_regions rs -> rs <> [] -> contours_box rs = Some b -> wide_box b.
Proof.
  intros rs b V N E. destruct (regions_box_in rs b V E) as (_ & K). destruct rs as [|r rs]; [contradiction|]. pose proof (Forall_inv (proj1 V)) as Hr. destruct Hr as (L & D & _).
  assert (G : forall v, In v (vertices r) -> in_box v b) by (intros v Hv; apply K; exists r; split; [left; reflexivity|left; exact (vertex_edge r v Hv)]).
  destruct (vertices r) as [|u [|v l]]; [cbn in L; lia|cbn in L; lia|]. apply (wide_points b u v); [apply G; left; reflexivity|apply G; right; left; reflexivity|].
  intros ->. apply NoDup_cons_iff in D. apply (proj1 D). left. reflexivity.
Qed.
Lemma inside_contour_in : forall c p, inside_contour c p -> in_contour c p.
Proof. intros c p (_ & I). right. exact I. Qed.
Lemma contours_on : forall rs p, on_segments p (contours_edges rs) <-> exists r, In r rs /\ on_segments p (edges r).
Proof. intros rs p. apply on_flat. Qed.

Section Meet.
Variables (x : locators) (first second : list contour).
Hypothesis Hx : right_locators x.
Hypothesis V1 : valid_regions first.
Hypothesis V2 : valid_regions second.
Hypothesis N1 : first <> [].
Hypothesis N2 : second <> [].
Let E := contours_edges (first ++ second).

Lemma off_inside : forall rs p, (forall r, In r rs -> ~ on_segments p (edges r)) -> in_regions rs p -> exists r, In r rs /\ inside_contour r p.
Proof. intros rs p N (r & Hr & [J|J]); [elim (N r Hr J)|]. exists r. split; [exact Hr|]. split; [exact (N r Hr)|exact J]. Qed.
(** Regions left out have no common points with others off the boundaries. *)
Lemma kept_coupled : forall a b p, contours_box first = Some a -> contours_box second = Some b -> ~ on_segments p E ->
  (in_regions first p /\ in_regions second p <-> in_regions (to_coupled_regions x b first) p /\ in_regions (to_coupled_regions x a second) p).
Proof.
  intros a b p Ea Eb N. unfold E in N. rewrite contours_on in N. destruct (regions_box_in first a V1 Ea) as (_ & Ka). destruct (regions_box_in second b V2 Eb) as (_ & Kb).
  pose proof (regions_wide first a V1 N1 Ea) as (Wa & Da). pose proof (regions_wide second b V2 N2 Eb) as (Wb & Db).
  pose proof (proj1 (Forall_forall _ _) (proj1 V1)) as S1. pose proof (proj1 (Forall_forall _ _) (proj1 V2)) as S2. split.
  - intros (A & B). pose proof (Ka p A) as Pa. pose proof (Kb p B) as Pb.
    apply off_inside in A; [|intros r Hr O; apply N; exists r; split; [apply in_or_app; left; exact Hr|exact O]]. apply off_inside in B; [|intros r Hr O; apply N; exists r; split; [apply in_or_app; right; exact Hr|exact O]].
    destruct A as (r & Hr & Ir). destruct B as (t & Ht & It). split; [exists r|exists t]; (split; [apply filter_In; split; [assumption|]|apply inside_contour_in; assumption]).
    + exact (coupled_region_kept x b r p Hx Wb Db (S1 r Hr) Pb Ir).
    + exact (coupled_region_kept x a t p Hx Wa Da (S2 t Ht) Pa It).
  - intros ((r & Hr & Ir) & (t & Ht & It)). apply filter_In in Hr, Ht. split; [exists r|exists t]; tauto.
Qed.
Lemma kept_intersecting : forall a b p, contours_box first = Some a -> contours_box second = Some b ->
  (in_regions first p /\ in_regions second p <-> in_regions (to_intersecting_regions x b first) p /\ in_regions (to_intersecting_regions x a second) p).
Proof.
  intros a b p Ea Eb. destruct (regions_box_in first a V1 Ea) as (Wa & Ka). destruct (regions_box_in second b V2 Eb) as (Wb & Kb).
  pose proof (proj1 (Forall_forall _ _) (proj1 V1)) as S1. pose proof (proj1 (Forall_forall _ _) (proj1 V2)) as S2. split.
  - intros (A & B). pose proof (Ka p A) as Pa. pose proof (Kb p B) as Pb. destruct A as (r & Hr & Ir). destruct B as (t & Ht & It).
    split; [exists r|exists t]; (split; [apply filter_In; split; [assumption|]|assumption]).
    + apply (intersects_region_points x b r Hx Wb (S1 r Hr)). exists p. split; assumption.
    + apply (intersects_region_points x a t Hx Wa (S2 t Ht)). exists p. split; assumption.
  - intros ((r & Hr & Ir) & (t & Ht & It)). apply filter_In in Hr, Ht. split; [exists r|exists t]; tauto.
Qed.
Lemma boxes_apart : forall a b p, contours_box first = Some a -> contours_box second = Some b -> disjoint_with a b = true -> ~ (in_regions first p /\ in_regions second p).
Proof.
  intros a b p Ea Eb D (A & B). destruct (regions_box_in first a V1 Ea) as (Wa & Ka). destruct (regions_box_in second b V2 Eb) as (Wb & Kb).
  apply (proj1 (disjoint_with_points a b Wa Wb) D p). split; [exact (Ka p A)|exact (Kb p B)].
Qed.
Lemma no_regions : forall p, ~ in_regions [] p.
Proof. intros p (r & [] & _). Qed.
Lemma kept_edges : forall f g p, on_segments p (contours_edges (filter f first ++ filter g second)) -> on_segments p E.
Proof.
  intros f g p O. unfold E. rewrite contours_on in *. destruct O as (r & Hr & O). exists r. split; [|exact O]. apply in_app_iff in Hr. apply in_or_app. destruct Hr as [Hr|Hr]; apply filter_In in Hr; tauto.
Qed.
(** Result of an intersection: contours [rs] bounding common points. *)
Definition common_bound (rs : list contour) : Prop :=
  (forall p, on_segments p (contours_edges rs) -> on_segments p E)
  /\ (forall p, ~ on_segments p E -> (inside (contours_edges rs) p = true <-> in_regions first p /\ in_regions second p))
  /\ Forall (fun c => never_folds (vertices c) /\ forall j, (j < length (vertices c))%nat -> ~ straight (vertices c) j) rs.
Lemma none_bound : (forall p, ~ on_segments p E -> ~ (in_regions first p /\ in_regions second p)) -> common_bound [].
Proof.
  intro H. split; [intros p (s & [] & _)|]. split; [|constructor]. intros p N. split; [intro K; discriminate K|]. intro K. elim (H p N K).
Qed.
Theorem region_intersection_correct : exists rs, (forall o, region_intersection x o first second = Ok (unpack_regions rs)) /\ common_bound rs.
Proof.
  destruct (regions_box_some first V1 N1) as (a & Ea). destruct (regions_box_some second V2 N2) as (b & Eb).
  assert (R : forall o, region_intersection x o first second
    = if disjoint_with a b then Ok GEmpty
      else match to_coupled_regions x b first with [] => Ok GEmpty | first' =>
           match to_coupled_regions x a second with [] => Ok GEmpty | second' =>
             bind_res (sweep_regions in_intersection o first' second') (fun '(s, events) => bind_res (events_to_regions s events) (fun regions => Ok (unpack_regions regions))) end end).
  { intro o. unfold region_intersection, meeting_regions, with_region_boxes. rewrite Ea, Eb. reflexivity. }
  destruct (disjoint_with a b) eqn:D.
  { exists []. split; [exact R|]. apply none_bound. intros p _. exact (boxes_apart a b p Ea Eb D). }
  pose proof (fun p => kept_coupled a b p Ea Eb) as Kp.
  pose proof (valid_regions_filter (coupled_with_region x b) first V1) as V1'. pose proof (valid_regions_filter (coupled_with_region x a) second V2) as V2'.
  change (filter (coupled_with_region x b) first) with (to_coupled_regions x b first) in V1'. change (filter (coupled_with_region x a) second) with (to_coupled_regions x a second) in V2'.
  assert (Ke : forall p, on_segments p (contours_edges (to_coupled_regions x b first ++ to_coupled_regions x a second)) -> on_segments p E) by (intro p; apply kept_edges).
  destruct (to_coupled_regions x b first) as [|r0 first'].
  { exists []. split; [exact R|]. apply none_bound. intros p N K. apply (Kp p N) in K. exact (no_regions p (proj1 K)). }
  destruct (to_coupled_regions x a second) as [|t0 second'].
  { exists []. split; [exact R|]. apply none_bound. intros p N K. apply (Kp p N) in K. exact (no_regions p (proj2 K)). }
  destruct (regions_bounded (r0 :: first') (t0 :: second') V1' V2' ltac:(discriminate) ltac:(discriminate)) as (s & events & rs & Sw & Er & C1 & C2 & C3).
  exists rs. split; [intro o; rewrite R, Sw; cbn [bind_res]; rewrite Er; reflexivity|]. split; [intros p O; exact (Ke p (C1 p O))|]. split; [|exact C3].
  intros p N. rewrite (Kp p N). apply C2. intro O. exact (N (Ke p O)).
Qed.
End Meet.

(** Result of an intersection of regions: polygons without holes [g], their
    boundaries along the ones of operands, together around the common points. *)
Definition common_regions (first second : list contour) (g : geometry) : Prop :=
  canonical g /\ points_of g = [] /\ segments_of g = []
  /\ Forall (fun q => holes q = [] /\ never_folds (vertices (border q))
                      /\ forall j, (j < length (vertices (border q)))%nat -> ~ straight (vertices (border q)) j) (polygons_of g)
  /\ (forall p, on_segments p (flat_map polygon_edges (polygons_of g)) ->
        on_segments p (flat_map (fun c => contour_edges (vertices c)) (first ++ second)))
  /\ forall p, ~ on_segments p (flat_map (fun c => contour_edges (vertices c)) (first ++ second)) ->
       (inside (flat_map polygon_edges (polygons_of g)) p = true <-> in_regions first p /\ in_regions second p).
Lemma solid_edges : forall rs, flat_map polygon_edges (map (fun r => Polygon r []) rs) = contours_edges rs.
Proof. induction rs as [|r rs IH]; [reflexivity|]. cbn [map flat_map]. rewrite IH. f_equal. unfold polygon_edges. cbn. rewrite ?app_nil_r. reflexivity. Qed.
Lemma bound_regions : forall first second rs, common_bound first second rs -> common_regions first second (unpack_regions rs).
Proof.
  intros first second rs (A & B & C). destruct (unpack_regions_canonical rs) as (U1 & U2 & U3 & U4). unfold common_regions. rewrite U4, solid_edges.
  repeat (split; [assumption|]). split; [|split; assumption]. apply Forall_forall. intros q Hq. apply in_map_iff in Hq. destruct Hq as (r & <- & Hr).
  split; [reflexivity|]. exact (proj1 (Forall_forall _ _) C r Hr).
Qed.
Theorem intersect_multiregions_correct : forall x first second, right_locators x ->
  valid_regions first -> valid_regions second -> first <> [] -> second <> [] ->
  exists g, (forall o, intersect_multiregions x o first second = Ok g) /\ common_regions first second g.
Proof.
  intros x first second Hx V1 V2 N1 N2. destruct (region_intersection_correct x first second Hx V1 V2 N1 N2) as (rs & R & C).
  exists (unpack_regions rs). split; [exact R|exact (bound_regions _ _ _ C)].
Qed.
Theorem intersect_region_multiregion_correct : forall x region multiregion, right_locators x ->
  simple_contour (vertices region) -> valid_regions multiregion -> multiregion <> [] ->
  exists g, (forall o, intersect_region_with_multiregion x o region multiregion = Ok g) /\ common_regions [region] multiregion g.
Proof. intros x r m Hx V1 V2 N. apply (intersect_multiregions_correct x [r] m Hx (single_region r V1) V2 ltac:(discriminate) N). Qed.
Theorem intersect_regions_correct : forall x first second, right_locators x ->
  simple_contour (vertices first) -> simple_contour (vertices second) ->
  exists g, (forall o, intersect_regions x o first second = Ok g) /\ common_regions [first] [second] g.
Proof. intros x a b Hx V1 V2. apply (intersect_multiregions_correct x [a] [b] Hx (single_region a V1) (single_region b V2)); discriminate. Qed.
