(** Polygons left out by their relation with a box have no points in it. *)
From Coq Require Import Permutation.
From Verif Require Import QcTac Geom Spec SpecShape SpecLocate GeomFacts Toward Bounding BoundingThms Relation Unique Filter Parity Outline EvenOdd Contour ShrinkThms RegionThms OrientThms Shapes Polygons LinearThms LinearComplete.

(** ** Boxes of points *)
Lemma point_box_in : forall p, wf_box (point_box p) /\ in_box p (point_box p).
Proof. intro p. split; [split; apply Qcle_refl|]. unfold in_box. cbn. repeat split; apply Qcle_refl. Qed.
Lemma points_box_in : forall ps b, points_box ps = Some b -> wf_box b /\ (forall p, In p ps -> in_box p b)
  /\ (exists p, In p ps /\ px p = min_x b) /\ (exists p, In p ps /\ px p = max_x b)
  /\ (exists p, In p ps /\ py p = min_y b) /\ (exists p, In p ps /\ py p = max_y b).
Proof.
  intros [|p0 r] b E; [discriminate E|]. cbn in E. injection E as <-.
  assert (G : forall r b0, wf_box b0 -> let b := fold_left (fun b q => box_merge b (point_box q)) r b0 in
    wf_box b /\ (forall p, in_box p b0 \/ In p r -> in_box p b)
    /\ (min_x b = min_x b0 \/ exists p, In p r /\ px p = min_x b) /\ (max_x b = max_x b0 \/ exists p, In p r /\ px p = max_x b)
    /\ (min_y b = min_y b0 \/ exists p, In p r /\ py p = min_y b) /\ (max_y b = max_y b0 \/ exists p, In p r /\ py p = max_y b)).
  { clear. induction r as [|q r IH]; intros b0 W; cbn [fold_left].
    - split; [exact W|]. split; [intros p [K|[]]; exact K|]. repeat split; left; reflexivity.
    - pose proof (fun p => box_merge_in b0 (point_box q) p W (proj1 (point_box_in q))) as M.
      destruct (IH _ (proj1 (M (Pt 0 0)))) as (I1 & I2 & I3 & I4 & I5 & I6). split; [exact I1|]. split.
      + intros p [K|[<-|K]]; apply I2; [left; apply (proj2 (M p)); left; exact K|left; apply (proj2 (M q)); right; apply point_box_in|right; exact K].
      + cbn in I3, I4, I5, I6. cbn [box_merge point_box min_x max_x min_y max_y]. unfold Qc_min, Qc_max in I3, I4, I5, I6.
        split; [|split; [|split]].
        * destruct I3 as [I3|(p & Hp & I3)]; [|right; exists p; split; [right; exact Hp|exact I3]].
          destruct (Qc_ltb (px q) (min_x b0)); [right; exists q; split; [left; reflexivity|symmetry; exact I3]|left; exact I3].
        * destruct I4 as [I4|(p & Hp & I4)]; [|right; exists p; split; [right; exact Hp|exact I4]].
          destruct (Qc_ltb (max_x b0) (px q)); [right; exists q; split; [left; reflexivity|symmetry; exact I4]|left; exact I4].
        * destruct I5 as [I5|(p & Hp & I5)]; [|right; exists p; split; [right; exact Hp|exact I5]].
          destruct (Qc_ltb (py q) (min_y b0)); [right; exists q; split; [left; reflexivity|symmetry; exact I5]|left; exact I5].
        * destruct I6 as [I6|(p & Hp & I6)]; [|right; exists p; split; [right; exact Hp|exact I6]].
          destruct (Qc_ltb (max_y b0) (py q)); [right; exists q; split; [left; reflexivity|symmetry; exact I6]|left; exact I6]. }
  destruct (G r (point_box p0) (proj1 (point_box_in p0))) as (I1 & I2 & I3 & I4 & I5 & I6). split; [exact I1|]. split.
  - intros p [<-|K]; apply I2; [left; apply point_box_in|right; exact K].
  - split; [|split; [|split]]; [destruct I3 as [I|(p & Hp & I)]|destruct I4 as [I|(p & Hp & I)]|destruct I5 as [I|(p & Hp & I)]|destruct I6 as [I|(p & Hp & I)]];
      try (exists p; split; [right; exact Hp|exact I]); exists p0; (split; [left; reflexivity|]); rewrite I; reflexivity.
Qed.
Lemma points_box_some : forall ps, ps <> [] -> exists b, points_box ps = Some b.
Proof. intros [|p r] N; [contradiction|]. eexists. reflexivity. Qed.

(** ** Regions and boxes *)
Lemma far_left : forall es p, (forall s, In s es -> px p < px (s_start s) /\ px p < px (s_end s)) -> inside es p = false.
Proof.
  intros es p H. rewrite inside_parity. apply parity_none. intros s Hs. destruct (H s Hs) as (A & B). unfold passes_under, lex_ltb.
  rewrite (ltb_true _ _ A), (ltb_true _ _ B). reflexivity.
Qed.
Lemma far_right : forall es p, (forall s, In s es -> px (s_start s) < px p /\ px (s_end s) < px p) -> inside es p = false.
Proof.
  intros es p H. rewrite inside_parity. apply parity_none. intros s Hs. destruct (H s Hs) as (A & B). unfold passes_under, lex_ltb.
  rewrite (ltb_false (px p) (px (s_start s))), (ltb_false (px p) (px (s_end s))) by (apply Qclt_le_weak; assumption).
  assert (E1 : Qc_eqb (px p) (px (s_start s)) = false) by (destruct (Qc_eqb_spec (px p) (px (s_start s))) as [E|E]; [rewrite E in A; exfalso; exact (Qclt_not_eq _ _ A eq_refl)|reflexivity]).
  assert (E2 : Qc_eqb (px p) (px (s_end s)) = false) by (destruct (Qc_eqb_spec (px p) (px (s_end s))) as [E|E]; [rewrite E in B; exfalso; exact (Qclt_not_eq _ _ B eq_refl)|reflexivity]).
  rewrite E1, E2. reflexivity.
Qed.
Section InBox.
Variable es : list segment.
Hypothesis Hpr : Forall proper es.
Hypothesis Hev : even_occurrences (endpoints_of es).
Lemma edge_in_box : forall b s p, In s es -> (forall t, In t es -> in_box (s_start t) b /\ in_box (s_end t) b) -> on_segment p s -> in_box p b.
Proof. intros b s p Hs H O. destruct (H s Hs) as (A & B). exact (in_box_convex s b A B p O). Qed.
Lemma region_in_box : forall b p, (forall t, In t es -> in_box (s_start t) b /\ in_box (s_end t) b) -> in_region es p -> in_box p b.
Proof.
  intros b p H [(s & Hs & O)|J]; [exact (edge_in_box b s p Hs H O)|].
  assert (L : min_x b <= px p).
  { destruct (Qclt_le_dec (px p) (min_x b)) as [K|K]; [|exact K]. exfalso. rewrite far_left in J; [discriminate|].
    intros s Hs. destruct (H s Hs) as ((A & _) & (B & _)). split; (eapply Qclt_le_trans; [exact K|assumption]). }
  assert (R : px p <= max_x b).
  { destruct (Qclt_le_dec (max_x b) (px p)) as [K|K]; [|exact K]. exfalso. rewrite far_right in J; [discriminate|].
    intros s Hs. destruct (H s Hs) as ((_ & A & _) & (_ & B & _)). split; (eapply Qcle_lt_trans; [eassumption|exact K]). }
  assert (Side : py p < min_y b \/ max_y b < py p -> False).
  { intro K. set (q := Pt (min_x b - 1) (py p)).
    assert (E : inside es p = inside es q).
    { apply inside_const; [exact Hpr|exact Hev|]. intros s Hs. left. intros x Ox Os. pose proof (edge_in_box b s x Hs H Os) as (_ & _ & Y1 & Y2).
      assert (Ey : py x = py p) by (destruct Ox as (t & _ & _ & _ & Y); rewrite Y; cbn; ring). rewrite Ey in Y1, Y2.
      destruct K as [K|K]; [exact (Qclt_not_le _ _ K Y1)|exact (Qclt_not_le _ _ K Y2)]. }
    rewrite E, far_left in J; [discriminate|]. intros s Hs. destruct (H s Hs) as ((A & _) & (B & _)).
    assert (Q : px q < min_x b) by (unfold q; cbn; clear; qlra). split; (eapply Qclt_le_trans; [exact Q|assumption]). }
  split; [exact L|]. split; [exact R|]. split.
  - destruct (Qclt_le_dec (py p) (min_y b)) as [K|K]; [exfalso; apply Side; left; exact K|exact K].
  - destruct (Qclt_le_dec (max_y b) (py p)) as [K|K]; [exfalso; apply Side; right; exact K|exact K].
Qed.
(** A box without points of edges is either all inside or all outside. *)
Lemma box_const : forall b p q, (forall s x, In s es -> on_segment x s -> ~ in_box x b) -> in_box p b -> in_box q b -> inside es p = inside es q.
Proof.
  intros b p q H P Q. apply inside_const; [exact Hpr|exact Hev|]. intros s Hs. left. intros x Ox Os. apply (H s x Hs Os).
  exact (in_box_convex (Seg p q) b P Q x Ox).
Qed.
End InBox.

(** ** Contours and boxes *)
Section ContourBox.
Variable c : contour.
Hypothesis Hc : simple_contour (vertices c).
Notation vs := (vertices c).
Notation n := (length vs).
Lemma contour_ends : forall s, In s (edges c) -> In (s_start s) vs /\ In (s_end s) vs.
Proof.
  intros (u, v) Hs. apply in_contour_edges in Hs. destruct Hs as (i & Hi & -> & ->). cbn. split; apply vertex_in; [apply before_lt|]; exact Hi.
Qed.
Lemma contour_in_box : forall b p, (forall v, In v vs -> in_box v b) -> in_contour c p -> in_box p b.
Proof.
  intros b p H. apply region_in_box; [apply simple_proper, Hc|apply contour_even|]. intros t Ht. destruct (contour_ends t Ht) as (A & B). split; apply H; assumption.
Qed.
Lemma contour_box_some : exists b, contour_box c = Some b.
Proof. apply points_box_some. intro E. destruct Hc as (L & _). rewrite E in L. cbn in L. lia. Qed.
Lemma in_contour_box : forall b p, contour_box c = Some b -> in_contour c p -> in_box p b.
Proof. intros b p E. apply contour_in_box. intros v Hv. apply (points_box_in vs b E), Hv. Qed.

(** A contour having a vertex out of a box and no common points with edges of
    the box stays out of the box. *)
Lemma leave_box : forall b p q, in_box p b -> ~ in_box q b -> exists x e, on_segment x (Seg p q) /\ In e (to_edges b) /\ on_segment x e.
Proof.
  intros b p q P Q. destruct (exit_edge b p q P Q) as (x & Bx & (m & M0 & M1 & ->) & K).
  destruct (boundary_edge b _ Bx K) as (e & He & Oe). exists (toward p q m), e. split; [|split; assumption].
  apply toward_on2; [apply (on_segment_start (Seg p q))|apply (on_segment_end (Seg p q))|exact M0|exact M1].
Qed.
Lemma contour_out : forall b v, In v vs -> ~ in_box v b ->
  (forall s e x, In s (edges c) -> In e (to_edges b) -> on_segment x s -> ~ on_segment x e) ->
  forall s x, In s (edges c) -> on_segment x s -> ~ in_box x b.
Proof.
  intros b v Hv Nv H.
  assert (Step : forall s, In s (edges c) -> ~ in_box (s_end s) b -> ~ in_box (s_start s) b).
  { intros s Hs N K. destruct (leave_box b _ _ K N) as (x & e & Ox & He & Oe). apply (H s e x Hs He); [destruct s; exact Ox|exact Oe]. }
  assert (Back : forall s, In s (edges c) -> ~ in_box (s_start s) b -> ~ in_box (s_end s) b).
  { intros s Hs N K. destruct (leave_box b _ _ K N) as (x & e & Ox & He & Oe). apply (H s e x Hs He); [destruct s; apply on_segment_sym; exact Ox|exact Oe]. }
  assert (Down : forall i, (i < n)%nat -> ~ in_box (vertex vs i) b -> ~ in_box (vertex vs 0) b).
  { induction i as [|i IH]; intros Hi N; [exact N|]. apply IH; [lia|]. apply (Step (edge_at vs (S i))); [apply (in_edge_at vs); exists (S i); split; [exact Hi|reflexivity]|exact N]. }
  assert (N0 : ~ in_box (vertex vs 0) b) by (apply (In_nth _ _ (Pt 0 0)) in Hv; destruct Hv as (i & Hi & E); apply (Down i Hi); unfold vertex; rewrite E; exact Nv).
  assert (All : forall i, (i < n)%nat -> ~ in_box (vertex vs i) b).
  { induction i as [|i IH]; intro Hi; [exact N0|]. apply (Back (edge_at vs (S i))); [apply (in_edge_at vs); exists (S i); split; [exact Hi|reflexivity]|]. apply IH. lia. }
  intros s x Hs Os K. pose proof Hs as Hs'. apply (in_edge_at vs) in Hs'. destruct Hs' as (i & Hi & E).
  assert (Ns : ~ in_box (s_end s) b) by (rewrite E; apply All, Hi).
  destruct (leave_box b x (s_end s) K Ns) as (y & e & Oy & He & Oe). apply (H s e y Hs He); [|exact Oe].
  destruct Oy as (t & T0 & T1 & X & Y). cbn in X, Y.
  assert (Ey : y = toward x (s_end s) t) by (apply pt_ext; unfold toward; cbn; assumption). rewrite Ey.
  apply toward_on2; [exact Os|apply on_segment_end|exact T0|exact T1].
Qed.
End ContourBox.
Lemma contour_segments_edges : forall c, contour_segments c = edges c.
Proof.
  intro c. unfold contour_segments, edges. destruct (vertices c) as [|x l] eqn:E; [reflexivity|].
  rewrite contour_links. cbn [rev]. destruct (rev l ++ [x]) as [|y r] eqn:Er; [destruct (rev l); discriminate|].
  assert (Ey : y = last l x).
  { apply (f_equal (@rev point)) in Er. rewrite rev_app_distr, rev_involutive in Er. cbn in Er.
    assert (La : last (x :: l) x = y) by (rewrite Er; cbn [rev]; apply last_last). rewrite <- La. destruct l; reflexivity. }
  cbn [combine map]. rewrite Ey. f_equal. clear. revert x. induction l as [|z l IH]; intro x; [reflexivity|]. cbn. f_equal. apply IH.
Qed.

(** ** Polygons and boxes *)
Lemma location_in : forall a b, location_eqb a b = true <-> a = b.
Proof. intros [] []; cbn; split; congruence. Qed.
Lemma corner_vertices : forall b p, In p (to_vertices b) -> wf_box b -> in_box p b.
Proof. intros b p Hp (W1 & W2). cbn in Hp. destruct Hp as [<-|[<-|[<-|[<-|[]]]]]; unfold in_box; cbn; repeat split; first [assumption|apply Qcle_refl]. Qed.
Section PolygonBox.
Variables (x : locators) (b : box) (g : polygon).
Hypothesis Hx : right_locators x.
Hypothesis Hb : wf_box b.
Hypothesis Hg : valid_polygon g.
Let Hbo : simple_contour (vertices (border g)) := proj1 Hg.
Let Hho : forall h, In h (holes g) -> simple_contour (vertices h) := proj1 (Forall_forall _ _) (proj1 (proj2 Hg)).

Lemma edges_disjoint_spec : forall c, simple_contour (vertices c) -> edges_disjoint b c = true ->
  forall s e p, In s (edges c) -> In e (to_edges b) -> on_segment p s -> ~ on_segment p e.
Proof.
  intros c Hc D s e p Hs He Os Oe. unfold edges_disjoint in D. rewrite forallb_forall in D. specialize (D e He). rewrite forallb_forall in D.
  rewrite (contour_segments_edges c) in D. specialize (D s Hs).
  assert (R : segments_relation e s = DISJOINT) by (destruct (segments_relation e s); cbn in D; congruence).
  pose proof (simple_proper _ Hc) as P. rewrite Forall_forall in P. apply (proj1 (edge_relation_disjoint e s (P s Hs)) R p). split; assumption.
Qed.
Lemma polygon_in_box : forall pb p, contour_box (border g) = Some pb -> in_polygon g p -> in_box p pb.
Proof. intros pb p E (H & _). exact (in_contour_box _ Hbo pb p E H). Qed.
Theorem intersects_sound : intersects_with_polygon x b g = false -> forall p, in_box p b -> ~ in_polygon g p.
Proof.
  intros E p Pb Pg. destruct (contour_box_some _ Hbo) as (pb & Eb). unfold intersects_with_polygon, with_contour_box in E. rewrite Eb in E.
  pose proof (points_box_in _ _ Eb) as (Wp & Vp & _).
  assert (I : intersects_with pb b = true) by (apply intersects_with_points; [exact Wp|exact Hb|]; exists p; split; [exact (polygon_in_box pb p Eb Pg)|exact Pb]).
  rewrite I in E. cbn [negb] in E.
  destruct (is_subset_of pb b || existsb (contains_point b) (vertices (border g))); [discriminate|].
  set (ls := map (fun v => point_in_region x v (border g)) (to_vertices b)) in E.
  destruct (within_of b pb && forallb (fun l => location_eqb l INTERIOR) ls && edges_disjoint b (border g)) eqn:F.
  - (* the box lies in a hole *)
    apply negb_false_iff, existsb_exists in E. destruct E as (h & Ih & E). apply andb_true_iff in E. destruct E as (E1 & E2).
    destruct (contour_box_some _ (Hho h Ih)) as (hb & Ehb). unfold with_contour_box in E1. rewrite Ehb in E1.
    pose proof (points_box_in _ _ Ehb) as (Wh & _ & (v & Iv & Ev) & _).
    unfold within_of_region in E2. apply andb_true_iff in E2. destruct E2 as (E2 & E3). rewrite forallb_forall in E2.
    assert (Out : forall s y, In s (edges h) -> on_segment y s -> ~ in_box y b).
    { apply (contour_out h b v Iv); [|exact (edges_disjoint_spec h (Hho h Ih) E3)].
      intros (K & _). unfold within_of in E1. repeat (apply andb_true_iff in E1; destruct E1 as (E1 & _)). apply Qc_ltb_true in E1.
      rewrite Ev in K. exact (Qclt_not_le _ _ E1 K). }
    set (v0 := Pt (min_x b) (min_y b)). assert (I0 : In v0 (to_vertices b)) by (left; reflexivity).
    specialize (E2 v0 I0). apply location_in in E2. apply (proj1 Hx v0 h (Hho h Ih)) in E2.
    apply (proj2 Pg h Ih). split; [intros (s & Hs & O); exact (Out s p Hs O Pb)|].
    change (inside (edges h) p = true). rewrite (box_const (edges h) (simple_proper _ (Hho h Ih)) (contour_even _) b p v0 Out Pb (corner_vertices b v0 I0 Hb)). apply E2.
  - (* neither vertices nor edges are met *)
    apply orb_false_iff in E. destruct E as (E1 & E2).
    assert (Out : forall s y, In s (edges (border g)) -> on_segment y s -> ~ in_box y b).
    { intros s y Hs O K. rewrite (contour_segments_edges (border g)) in E2. rewrite <- not_true_iff_false in E2. apply E2.
      apply existsb_exists. exists s. split; [exact Hs|]. pose proof (simple_proper _ Hbo) as P. rewrite Forall_forall in P.
      apply intersects_with_segment_points; [exact Hb|exact (P s Hs)|]. exists y. split; assumption. }
    set (v0 := Pt (min_x b) (min_y b)). assert (I0 : In v0 (to_vertices b)) by (left; reflexivity).
    assert (L0 : point_in_region x v0 (border g) = EXTERIOR).
    { destruct (point_in_region x v0 (border g)) eqn:L; [reflexivity| |]; exfalso; rewrite <- not_true_iff_false in E1; apply E1;
        apply existsb_exists; exists (point_in_region x v0 (border g)); (split; [exact (in_map (fun v => point_in_region x v (border g)) _ _ I0)|rewrite L; reflexivity]). }
    destruct Pg as ([(s & Hs & O)|J] & _); [exact (Out s p Hs O Pb)|].
    change (inside (edges (border g)) p = true) in J. rewrite (box_const (edges (border g)) (simple_proper _ Hbo) (contour_even _) b p v0 Out Pb (corner_vertices b v0 I0 Hb)) in J.
    assert (K : inside_contour (border g) v0) by (split; [intros (s & Hs & O); exact (Out s v0 Hs O (corner_vertices b v0 I0 Hb))|exact J]).
    apply (proj1 Hx v0 (border g) Hbo) in K. congruence.
Qed.
End PolygonBox.

(** ** Lists of polygons *)
Lemma filter_partition : forall (A : Type) (f : A -> bool) l, Permutation l (filter f l ++ filter (fun a => negb (f a)) l).
Proof.
  intros A f l. induction l as [|a l IH]; [constructor|]. cbn. destruct (f a); cbn; [constructor; exact IH|].
  apply Permutation_cons_app. exact IH.
Qed.
Lemma pairwise_prefix : forall (A : Type) (R : A -> A -> Prop) l r, pairwise R (l ++ r) -> pairwise R l.
Proof.
  intros A R l r H i j a c N Ei Ej. apply (H i j a c N).
  - rewrite nth_error_app1; [exact Ei|]. apply nth_error_Some. congruence.
  - rewrite nth_error_app1; [exact Ej|]. apply nth_error_Some. congruence.
Qed.
Lemma pairwise_filter : forall (A : Type) (R : A -> A -> Prop) f l, pairwise R l -> pairwise R (filter f l).
Proof.
  intros A R f l. induction l as [|a l IH]; intro H; [exact H|]. apply PairProofs.pairwise_cons in H. destruct H as (Ha & H). cbn.
  destruct (f a); [|exact (IH H)]. apply PairProofs.pairwise_cons. split; [|exact (IH H)].
  intros y Hy. apply filter_In in Hy. apply Ha, Hy.
Qed.
Lemma non_overlapping_prefix : forall es fs, non_overlapping (es ++ fs) -> non_overlapping es.
Proof. intros es fs (A & B). apply Forall_app in A. split; [apply A|exact (pairwise_prefix _ _ _ _ B)]. Qed.
Lemma valid_polygons_filter : forall f gs, valid_polygons gs -> valid_polygons (filter f gs).
Proof.
  intros f gs (A & B & C). split; [|split; [apply pairwise_filter, B|]].
  - rewrite Forall_forall in *. intros g Hg. apply filter_In in Hg. apply A, Hg.
  - apply (non_overlapping_prefix _ (flat_map polygon_edges (filter (fun a => negb (f a)) gs))). rewrite <- flat_map_app.
    apply (non_overlapping_perm (flat_map polygon_edges gs)); [|exact C]. apply Permutation_flat_map, filter_partition.
Qed.
Lemma polygons_box_in : forall gs b p, valid_polygons gs -> polygons_box gs = Some b -> wf_box b /\ (in_polygons gs p -> in_box p b).
Proof.
  intros gs b p (A & _) E. unfold polygons_box, contours_box in E. destruct (points_box_in _ _ E) as (W & I & _). split; [exact W|].
  intros (g & Hg & J). rewrite Forall_forall in A. apply (contour_in_box (border g) (proj1 (A g Hg))); [|apply J].
  intros v Hv. apply I. apply in_flat_map. exists (border g). split; [apply in_map; exact Hg|exact Hv].
Qed.
Lemma polygons_box_some : forall gs, valid_polygons gs -> gs <> [] -> exists b, polygons_box gs = Some b.
Proof.
  intros [|g gs] (A & _) N; [contradiction|]. apply points_box_some. cbn. apply Forall_inv in A. destruct A as ((L & _) & _).
  destruct (vertices (border g)); [cbn in L; lia|]. discriminate.
Qed.
