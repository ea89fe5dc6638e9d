(** Operands with disjoint boxes. *)
From Coq Require Import Permutation Sorted.
From Verif Require Import QcTac Geom Spec SpecShape SpecSides SpecLocate GeomFacts SortFacts Pair Bounding BoundingThms Relation Sweep Linear Labelled Contour Filter Mixed Shaped Holey LinearThms LinearProps Shapes Polygons FilterThms MixedThms PairThms MixedProps CoupledThms ShapedProps RegionProps HoleyProps.

Lemma tight_unique : forall S a b, tight S a -> tight S b -> a = b.
Proof.
  intros S a b (A & A1 & A2 & A3 & A4) (B & B1 & B2 & B3 & B4).
  destruct A1 as (p1 & P1 & E1), A2 as (p2 & P2 & E2), A3 as (p3 & P3 & E3), A4 as (p4 & P4 & E4).
  destruct B1 as (q1 & Q1 & F1), B2 as (q2 & Q2 & F2), B3 as (q3 & Q3 & F3), B4 as (q4 & Q4 & F4).
  destruct (B p1 P1) as (X1 & _). destruct (B p2 P2) as (_ & X2 & _). destruct (B p3 P3) as (_ & _ & X3 & _). destruct (B p4 P4) as (_ & _ & _ & X4).
  destruct (A q1 Q1) as (Y1 & _). destruct (A q2 Q2) as (_ & Y2 & _). destruct (A q3 Q3) as (_ & _ & Y3 & _). destruct (A q4 Q4) as (_ & _ & _ & Y4).
  destruct a as [a1 a2 a3 a4], b as [b1 b2 b3 b4]. cbn in *. f_equal; apply Qcle_antisym; congruence.
Qed.
Lemma points_box_tight : forall vs b (S : point -> Prop), points_box vs = Some b -> (forall v, In v vs -> S v) -> (forall p, S p -> in_box p b) -> tight S b.
Proof.
  intros vs b S E Sv Sb. destruct (points_box_in _ _ E) as (_ & _ & T1 & T2 & T3 & T4). split; [exact Sb|].
  destruct T1 as (v1 & V1 & E1), T2 as (v2 & V2 & E2), T3 as (v3 & V3 & E3), T4 as (v4 & V4 & E4).
  split; [exists v1; auto|]. split; [exists v2; auto|]. split; [exists v3; auto|exists v4; auto].
Qed.
Lemma some_box : forall o b, match o with
  | Some c => Qc_eqb (min_x c) (min_x b) && Qc_eqb (max_x c) (max_x b) && Qc_eqb (min_y c) (min_y b) && Qc_eqb (max_y c) (max_y b)
  | None => false end = true -> o = Some b.
Proof.
  intros [c|] b H; [|discriminate H]. rewrite !andb_true_iff in H. destruct H as (((A & B) & C) & D). assert (E : forall u v, Qc_eqb u v = true -> u = v) by (intros u v K; destruct (Qc_eqb_spec u v); [assumption|discriminate K]). apply E in A, B, C, D. destruct b, c. cbn in *. congruence.
Qed.
Lemma box_tight : forall ps b, valid_polygons ps -> polygons_box ps = Some b -> tight (in_polygons ps) b.
Proof.
  intros ps b V E. apply (points_box_tight _ b _ E).
  - intros v Hv. apply in_flat_map in Hv. destruct Hv as (k & Hk & Iv). apply in_map_iff in Hk. destruct Hk as (q & <- & Hq). apply (polygons_region _ V). left.
    apply on_flat. exists q. split; [exact Hq|]. unfold polygon_edges. apply on_segments_app. left. exact (vertex_edge _ v Iv).
  - intros p. exact (proj2 (polygons_box_in _ b p V E)).
Qed.
Lemma region_box_tight : forall rs b, valid_regions rs -> contours_box rs = Some b -> tight (in_regions rs) b.
Proof.
  intros rs b V E. apply (points_box_tight _ b _ E).
  - intros v Hv. apply in_flat_map in Hv. destruct Hv as (k & Hk & Iv). exists k. split; [exact Hk|]. left. exact (vertex_edge _ v Iv).
  - exact (proj2 (regions_box_in _ b V E)).
Qed.
Lemma polygons_tight : forall ps b, valid_polygons ps -> tight (in_polygons ps) b -> polygons_box ps = Some b.
Proof.
  intros ps b V T. destruct ps as [|g ps]; [destruct T as (_ & (p & (q & [] & _) & _) & _)|]. destruct (polygons_box_some (g :: ps) V ltac:(discriminate)) as (c & E). rewrite E. f_equal.
  exact (tight_unique _ c b (box_tight _ c V E) T).
Qed.
Lemma regions_tight : forall rs b, valid_regions rs -> tight (in_regions rs) b -> contours_box rs = Some b.
Proof.
  intros rs b V T. destruct rs as [|r rs]; [destruct T as (_ & (p & (q & [] & _) & _) & _)|]. destruct (regions_box_some (r :: rs) V ltac:(discriminate)) as (c & E). rewrite E. f_equal.
  exact (tight_unique _ c b (region_box_tight _ c V E) T).
Qed.
Lemma tight_wf : forall S b, tight S b -> wf_box b.
Proof.
  intros S b (A & (p & P & E) & _). destruct (A p P) as (X1 & X2 & X3 & X4). split; eapply Qcle_trans; eassumption.
Qed.
Lemma separate_boxes : forall a b, wf_box a -> wf_box b -> separate a b -> disjoint_with a b = true.
Proof. intros a b Wa Wb S. apply (disjoint_with_points a b Wa Wb). exact S. Qed.
Lemma tight_apart : forall (S T : point -> Prop) a b, tight S a -> tight T b -> separate a b -> forall p, ~ (S p /\ T p).
Proof. intros S T a b (A & _) (B & _) Sp p (P & Q). exact (Sp p (conj (A p P) (B p Q))). Qed.

Theorem mixed_apart : forall x linear shaped segments polygons a b, valid_polygons polygons ->
  tight (fun p => on_segments p segments) a -> tight (in_polygons polygons) b -> separate a b ->
  (forall o, mixed_intersection x o segments polygons = Ok GEmpty)
  /\ (forall o, mixed_complete_intersection x o segments polygons = Ok GEmpty)
  /\ (forall o, mixed_difference x o linear segments polygons = Ok linear)
  /\ (forall o, mixed_union x o linear shaped segments polygons = Ok (GMix GEmpty linear shaped))
  /\ (forall o, mixed_symmetric_difference x o linear shaped segments polygons = Ok (GMix GEmpty linear shaped))
  /\ (forall p, ~ (on_segments p segments /\ in_polygons polygons p)).
Proof.
  intros x linear shaped segments polygons a b V A B S. pose proof (separate_boxes a b (tight_wf _ _ A) (tight_wf _ _ B) S) as D.
  pose proof (polygons_tight _ b V B) as B'. pose proof (proj2 (segments_box_bounds segments a) A) as A'.
  unfold mixed_intersection, mixed_complete_intersection, mixed_difference, mixed_symmetric_difference, mixed_union, intersecting_parts, with_mixed_boxes. rewrite A', B', D.
  repeat (split; [reflexivity|]). exact (tight_apart _ _ a b A B S).
Qed.
Theorem polygons_apart : forall x value first second a b, valid_polygons first -> valid_polygons second ->
  tight (in_polygons first) a -> tight (in_polygons second) b -> separate a b ->
  (forall o, polygon_intersection x o first second = Ok GEmpty)
  /\ (forall o, polygon_complete_intersection x o first second = Ok GEmpty)
  /\ (forall o, polygon_difference x o value first second = Ok value)
  /\ (exists gs, (forall o, polygon_union o first second = Ok (GMultipolygon gs))
        /\ (forall o, polygon_symmetric_difference o first second = Ok (GMultipolygon gs))
        /\ Permutation (first ++ second) gs
        /\ StronglySorted (fun g h => ~ plt (first_border_vertex h) (first_border_vertex g)) gs)
  /\ (forall p, ~ (in_polygons first p /\ in_polygons second p)).
Proof.
  intros x value first second a b V1 V2 A B S. pose proof (separate_boxes a b (tight_wf _ _ A) (tight_wf _ _ B) S) as D.
  pose proof (polygons_tight _ a V1 A) as A'. pose proof (polygons_tight _ b V2 B) as B'.
  unfold polygon_intersection, polygon_complete_intersection, polygon_difference, polygon_symmetric_difference, polygon_union, meeting_polygons, with_polygon_boxes. rewrite A', B', D.
  repeat (split; [reflexivity|]). split; [|exact (tight_apart _ _ a b A B S)].
  exists (sort_by (fun a b => pt_ltb (first_border_vertex a) (first_border_vertex b)) (first ++ second)). split; [reflexivity|]. split; [reflexivity|]. split; [apply Permutation_sym, sort_by_perm|].
  assert (So : StronglySorted (fun g h => (fun a b => pt_ltb (first_border_vertex a) (first_border_vertex b)) h g = false) (sort_by (fun a b => pt_ltb (first_border_vertex a) (first_border_vertex b)) (first ++ second))).
  { apply (sort_by_sorted (fun a b => pt_ltb (first_border_vertex a) (first_border_vertex b)) (fun _ => True)).
    - intros u v w _ _ _. rewrite !pt_ltb_false. apply ple_trans.
    - intros u v _ _. rewrite pt_ltb_true, pt_ltb_false. apply plt_ple.
    - apply Forall_forall. auto. }
  clear - So. induction So as [|g l So IH Fa]; constructor; [exact IH|]. eapply Forall_impl; [|exact Fa]. cbn. intros h K P. destruct (pt_ltb_spec (first_border_vertex h) (first_border_vertex g)); [discriminate K|contradiction].
Qed.
Theorem regions_apart : forall x first second a b, valid_regions first -> valid_regions second ->
  tight (in_regions first) a -> tight (in_regions second) b -> separate a b ->
  (forall o, region_intersection x o first second = Ok GEmpty)
  /\ (forall o, region_complete_intersection x o first second = Ok GEmpty)
  /\ (forall p, ~ (in_regions first p /\ in_regions second p)).
Proof.
  intros x first second a b V1 V2 A B S. pose proof (separate_boxes a b (tight_wf _ _ A) (tight_wf _ _ B) S) as D.
  pose proof (regions_tight _ a V1 A) as A'. pose proof (regions_tight _ b V2 B) as B'.
  unfold region_intersection, region_complete_intersection, meeting_regions, with_region_boxes. rewrite A', B', D.
  repeat (split; [reflexivity|]). exact (tight_apart _ _ a b A B S).
Qed.

(** ** Operations of planar.py *)
Theorem apart_multisegment_multipolygon : forall x (ss : list segment) (ps : list polygon) a b, valid_polygons ps ->
  tight (fun p => on_segments p ss) a -> tight (in_polygons ps) b -> separate a b ->
  (forall o, intersect_multisegment_with_multipolygon x o ss ps = Ok GEmpty)
  /\ (forall o, complete_intersect_multisegment_with_multipolygon x o ss ps = Ok GEmpty)
  /\ (forall o, subtract_multipolygon_from_multisegment x o ss ps = Ok (GMultisegment ss))
  /\ (forall o, unite_multisegment_with_multipolygon x o ss ps = Ok (GMix GEmpty (GMultisegment ss) (GMultipolygon ps)))
  /\ (forall o, symmetric_subtract_multipolygon_from_multisegment x o ss ps = Ok (GMix GEmpty (GMultisegment ss) (GMultipolygon ps)))
  /\ (forall p, ~ (on_segments p ss /\ in_polygons ps p)).
Proof. intros x ss ps a b V. exact (mixed_apart x (GMultisegment ss) (GMultipolygon ps) ss ps a b V). Qed.
Theorem apart_multisegment_polygon : forall x (ss : list segment) (g : polygon) a b, valid_polygon g ->
  tight (fun p => on_segments p ss) a -> tight (in_polygons [g]) b -> separate a b ->
  (forall o, intersect_multisegment_with_polygon x o ss g = Ok GEmpty)
  /\ (forall o, complete_intersect_multisegment_with_polygon x o ss g = Ok GEmpty)
  /\ (forall o, subtract_polygon_from_multisegment x o ss g = Ok (GMultisegment ss))
  /\ (forall o, unite_multisegment_with_polygon x o ss g = Ok (GMix GEmpty (GMultisegment ss) (GPolygon g)))
  /\ (forall o, symmetric_subtract_polygon_from_multisegment x o ss g = Ok (GMix GEmpty (GMultisegment ss) (GPolygon g)))
  /\ (forall p, ~ (on_segments p ss /\ in_polygons [g] p)).
Proof. intros x ss g a b V. exact (mixed_apart x (GMultisegment ss) (GPolygon g) ss [g] a b (single_polygon_valid g V)). Qed.
Theorem apart_segment_multipolygon : forall x (s : segment) (ps : list polygon) a b, valid_polygons ps ->
  tight (fun p => on_segments p [s]) a -> tight (in_polygons ps) b -> separate a b ->
  (forall o, intersect_segment_with_multipolygon x o s ps = Ok GEmpty)
  /\ (forall o, complete_intersect_segment_with_multipolygon x o s ps = Ok GEmpty)
  /\ (forall o, subtract_multipolygon_from_segment x o s ps = Ok (GSegment s))
  /\ (forall o, unite_segment_with_multipolygon x o s ps = Ok (GMix GEmpty (GSegment s) (GMultipolygon ps)))
  /\ (forall o, symmetric_subtract_multipolygon_from_segment x o s ps = Ok (GMix GEmpty (GSegment s) (GMultipolygon ps)))
  /\ (forall p, ~ (on_segments p [s] /\ in_polygons ps p)).
Proof. intros x s ps a b V. exact (mixed_apart x (GSegment s) (GMultipolygon ps) [s] ps a b V). Qed.
Theorem apart_segment_polygon : forall x (s : segment) (g : polygon) a b, valid_polygon g ->
  tight (fun p => on_segments p [s]) a -> tight (in_polygons [g]) b -> separate a b ->
  (forall o, intersect_segment_with_polygon x o s g = Ok GEmpty)
  /\ (forall o, complete_intersect_segment_with_polygon x o s g = Ok GEmpty)
  /\ (forall o, subtract_polygon_from_segment x o s g = Ok (GSegment s))
  /\ (forall o, unite_segment_with_polygon x o s g = Ok (GMix GEmpty (GSegment s) (GPolygon g)))
  /\ (forall o, symmetric_subtract_polygon_from_segment x o s g = Ok (GMix GEmpty (GSegment s) (GPolygon g)))
  /\ (forall p, ~ (on_segments p [s] /\ in_polygons [g] p)).
Proof. intros x s g a b V. exact (mixed_apart x (GSegment s) (GPolygon g) [s] [g] a b (single_polygon_valid g V)). Qed.
Theorem apart_polygons : forall x (f g : polygon) a b, valid_polygon f -> valid_polygon g ->
  tight (in_polygons [f]) a -> tight (in_polygons [g]) b -> separate a b ->
  (forall o, intersect_polygons x o f g = Ok GEmpty)
  /\ (forall o, complete_intersect_polygons x o f g = Ok GEmpty)
  /\ (forall o, subtract_polygons x o f g = Ok (GPolygon f))
  /\ (exists hs, (forall o, unite_polygons o f g = Ok (GMultipolygon hs))
        /\ (forall o, symmetric_subtract_polygons o f g = Ok (GMultipolygon hs))
        /\ Permutation ([f] ++ [g]) hs
        /\ StronglySorted (fun g h => ~ plt (at_ (vertices (border h)) 0) (at_ (vertices (border g)) 0)) hs)
  /\ (forall p, ~ (in_polygons [f] p /\ in_polygons [g] p)).
Proof.
  intros x f g a b V1 V2. exact (polygons_apart x (GPolygon f) [f] [g] a b (single_polygon_valid f V1) (single_polygon_valid g V2)).
Qed.
Theorem apart_polygon_multipolygon : forall x (f : polygon) (gs : list polygon) a b, valid_polygon f -> valid_polygons gs ->
  tight (in_polygons [f]) a -> tight (in_polygons gs) b -> separate a b ->
  (forall o, intersect_polygon_with_multipolygon x o f gs = Ok GEmpty)
  /\ (forall o, complete_intersect_polygon_with_multipolygon x o f gs = Ok GEmpty)
  /\ (forall o, subtract_multipolygon_from_polygon x o f gs = Ok (GPolygon f))
  /\ (forall o, subtract_polygon_from_multipolygon x o gs f = Ok (GMultipolygon gs))
  /\ (exists hs, (forall o, unite_polygon_with_multipolygon o f gs = Ok (GMultipolygon hs))
        /\ (forall o, symmetric_subtract_multipolygon_from_polygon o f gs = Ok (GMultipolygon hs))
        /\ Permutation ([f] ++ gs) hs
        /\ StronglySorted (fun g h => ~ plt (at_ (vertices (border h)) 0) (at_ (vertices (border g)) 0)) hs)
  /\ (forall p, ~ (in_polygons [f] p /\ in_polygons gs p)).
Proof.
  intros x f gs a b V1 V2 A B S. destruct (polygons_apart x (GPolygon f) [f] gs a b (single_polygon_valid f V1) V2 A B S) as (K1 & K2 & K3 & K4).
  assert (S' : separate b a) by (intros p (P & Q); exact (S p (conj Q P))). destruct (polygons_apart x (GMultipolygon gs) gs [f] b a V2 (single_polygon_valid f V1) B A S') as (_ & _ & K5 & _).
  split; [exact K1|]. split; [exact K2|]. split; [exact K3|]. split; [exact K5|exact K4].
Qed.
Theorem apart_multipolygons : forall x (fs gs : list polygon) a b, valid_polygons fs -> valid_polygons gs ->
  tight (in_polygons fs) a -> tight (in_polygons gs) b -> separate a b ->
  (forall o, intersect_multipolygons x o fs gs = Ok GEmpty)
  /\ (forall o, complete_intersect_multipolygons x o fs gs = Ok GEmpty)
  /\ (forall o, subtract_multipolygons x o fs gs = Ok (GMultipolygon fs))
  /\ (exists hs, (forall o, unite_multipolygons o fs gs = Ok (GMultipolygon hs))
        /\ (forall o, symmetric_subtract_multipolygons o fs gs = Ok (GMultipolygon hs))
        /\ Permutation (fs ++ gs) hs
        /\ StronglySorted (fun g h => ~ plt (at_ (vertices (border h)) 0) (at_ (vertices (border g)) 0)) hs)
  /\ (forall p, ~ (in_polygons fs p /\ in_polygons gs p)).
Proof.
  intros x fs gs a b V1 V2. exact (polygons_apart x (GMultipolygon fs) fs gs a b V1 V2).
Qed.
Theorem apart_regions : forall x (f g : contour) a b, simple_contour (vertices f) -> simple_contour (vertices g) ->
  tight (in_regions [f]) a -> tight (in_regions [g]) b -> separate a b ->
  (forall o, intersect_regions x o f g = Ok GEmpty)
  /\ (forall o, complete_intersect_regions x o f g = Ok GEmpty)
  /\ (forall p, ~ (in_regions [f] p /\ in_regions [g] p)).
Proof. intros x f g a b V1 V2. exact (regions_apart x [f] [g] a b (single_region f V1) (single_region g V2)). Qed.
Theorem apart_region_multiregion : forall x (f : contour) (gs : list contour) a b, simple_contour (vertices f) -> valid_regions gs ->
  tight (in_regions [f]) a -> tight (in_regions gs) b -> separate a b ->
  (forall o, intersect_region_with_multiregion x o f gs = Ok GEmpty)
  /\ (forall o, complete_intersect_region_with_multiregion x o f gs = Ok GEmpty)
  /\ (forall p, ~ (in_regions [f] p /\ in_regions gs p)).
Proof. intros x f gs a b V1 V2. exact (regions_apart x [f] gs a b (single_region f V1) V2). Qed.
Theorem apart_multiregions : forall x (fs gs : list contour) a b, valid_regions fs -> valid_regions gs ->
  tight (in_regions fs) a -> tight (in_regions gs) b -> separate a b ->
  (forall o, intersect_multiregions x o fs gs = Ok GEmpty)
  /\ (forall o, complete_intersect_multiregions x o fs gs = Ok GEmpty)
  /\ (forall p, ~ (in_regions fs p /\ in_regions gs p)).
Proof. intros x fs gs a b V1 V2. exact (regions_apart x fs gs a b V1 V2). Qed.
Theorem apart_segment_multisegment : forall (s : segment) (ss : list segment) a b, tight (fun p => on_segment p s) a -> tight (fun p => on_segments p ss) b -> separate a b ->
  (forall o, complete_intersect_segment_with_multisegment o s ss = Ok GEmpty)
  /\ (forall o, subtract_multisegment_from_segment o s ss = Ok (GSegment s))
  /\ (exists ts, (forall o, symmetric_subtract_multisegment_from_segment o s ss = Ok (GMultisegment ts))
        /\ Permutation (s :: ss) ts /\ StronglySorted (fun s t => ~ segment_lt t s) ts)
  /\ (forall p, ~ (on_segment p s /\ on_segments p ss)).
Proof.
  intros s ss a b A B S.
  assert (One : forall p, on_segments p [s] <-> on_segment p s) by (intro p; split; [intros (k & [<-|[]] & O); exact O|intro O; exists s; split; [left; reflexivity|exact O]]).
  assert (A1 : bounds [s] a).
  { destruct A as (A & (p1 & P1 & E1) & (p2 & P2 & E2) & (p3 & P3 & E3) & (p4 & P4 & E4)). split; [intros p O; apply A, One, O|].
    split; [exists p1|split; [exists p2|split; [exists p3|exists p4]]]; (split; [apply One|]; assumption). }
  destruct (LinearProps.separate_boxes [s] ss a b A1 B S) as (_ & K1 & _ & (ts & _ & K2 & K3 & K4) & K5).
  split; [exact K1|]. split; [|split; [exists ts; split; [exact K2|split; [exact K3|exact K4]]|intros p (P & Q); exact (K5 p (conj (proj2 (One p) P) Q))]].
  intro o. unfold subtract_multisegment_from_segment, linear_difference, with_boxes.
  rewrite (proj2 (segments_box_bounds [s] a) A1), (proj2 (segments_box_bounds ss b) B), (separate_boxes a b (tight_wf _ _ A) (tight_wf _ _ B) S). reflexivity.
Qed.
