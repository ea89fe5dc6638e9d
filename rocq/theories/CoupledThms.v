(** Polygons and regions left out by coupled_with_polygon and
    coupled_with_region have no inner points in the box. *)
From Coq Require Import Permutation.
From Verif Require Import QcTac Geom Spec SpecShape SpecSides SpecLocate GeomFacts Toward Bounding BoundingThms LoopThms Unique Relation Contour Filter Parity ShrinkThms RegionThms OrientThms Outline LinearThms LinearComplete EvenOdd Shapes Polygons FilterThms MixedProps Rectangle Locate Surround.

(** Boxes being more than a point. *)
Definition wide_box (b : box) : Prop := wf_box b /\ (min_x b < max_x b \/ min_y b < max_y b).
(** Inner points of contours are inner points of their boxes. *)
Lemma inside_strict : forall c b p, simple_contour (vertices c) -> contour_box c = Some b -> inside_contour c p -> inside_box p b.
Proof.
  intros c b p Hc Eb (N & I). change (contour_edges (vertices c)) with (edges c) in N, I.
  assert (G : forall q, exists l, 0 < l /\ l <= 1 /\ in_box (toward p q l) b).
  { intro q. destruct (avoid_segments p q (edges c) (simple_proper _ Hc) N) as (l & L0 & L1 & L). exists l. split; [exact L0|]. split; [exact L1|].
    apply (in_contour_box c Hc b _ Eb). right. change (contour_edges (vertices c)) with (edges c). rewrite <- I. symmetry. apply inside_const; [apply simple_proper, Hc|apply contour_even|].
    intros s Hs. left. intros x Ox Os. destruct Ox as (t & T0 & T1 & X & Y). cbn in X, Y. apply (L (t * l)); [clear - T0 L0; qnra|clear - T0 T1 L0; qnra|].
    exists s. split; [exact Hs|]. replace (toward p q (t * l)) with x; [exact Os|]. apply pt_ext; unfold toward; cbn; [rewrite X|rewrite Y]; ring. }
  unfold inside_box. split; [|split; [|split]].
  - destruct (G (Pt (px p - 1) (py p))) as (l & L0 & _ & K). unfold in_box, toward in K. cbn in K. destruct K as (K & _). clear - L0 K. qnra.
  - destruct (G (Pt (px p + 1) (py p))) as (l & L0 & _ & K). unfold in_box, toward in K. cbn in K. destruct K as (_ & K & _). clear - L0 K. qnra.
  - destruct (G (Pt (px p) (py p - 1))) as (l & L0 & _ & K). unfold in_box, toward in K. cbn in K. destruct K as (_ & _ & K & _). clear - L0 K. qnra.
  - destruct (G (Pt (px p) (py p + 1))) as (l & L0 & _ & K). unfold in_box, toward in K. cbn in K. destruct K as (_ & _ & _ & K). clear - L0 K. qnra.
Qed.
Lemma inner_coupled : forall a b p, wf_box a -> wf_box b -> inside_box p a -> in_box p b -> coupled_with a b = true.
Proof.
  intros a b p Wa Wb A B. unfold coupled_with.
  assert (I : intersects_with a b = true).
  { apply intersects_with_points; [exact Wa|exact Wb|]. exists p. split; [|exact B]. destruct A as (A1 & A2 & A3 & A4). repeat split; apply Qclt_le_weak; assumption. }
  rewrite I. cbn. destruct A as (A1 & A2 & A3 & A4), B as (B1 & B2 & B3 & B4).
  assert (T : touches_with a b = false); [|rewrite T; reflexivity]. unfold touches_with.
  assert (D : forall u v w, u < w -> w <= v -> Qc_eqb u v = false /\ Qc_eqb v u = false).
  { clear. intros u v w H J. split; [destruct (Qc_eqb_spec u v) as [E|E]|destruct (Qc_eqb_spec v u) as [E|E]]; try reflexivity; exfalso; subst; exact (Qclt_not_le _ _ H J). }
  assert (D' : forall u v w, w < u -> v <= w -> Qc_eqb u v = false /\ Qc_eqb v u = false).
  { clear. intros u v w H J. split; [destruct (Qc_eqb_spec u v) as [E|E]|destruct (Qc_eqb_spec v u) as [E|E]]; try reflexivity; exfalso; subst; exact (Qclt_not_le _ _ H J). }
  rewrite (proj1 (D _ _ _ A1 B2)), (proj1 (D' _ _ _ A2 B1)), (proj1 (D _ _ _ A3 B4)), (proj2 (D' _ _ _ A4 B3)). cbn. apply andb_false_r.
Qed.

Section Coupled.
Variables (x : locators) (b : box).
Hypothesis Hx : right_locators x.
Hypothesis Hb : wide_box b.
Notation W := (proj1 Hb).
Lemma box_cases : solid_box b \/ exists e, In e (to_edges b) /\ proper e /\ forall p, in_box p b -> on_segment p e.
Proof.
  destruct Hb as ((W1 & W2) & N). destruct (Qcle_lt_or_eq _ _ W1) as [X|X], (Qcle_lt_or_eq _ _ W2) as [Y|Y].
  - left. split; assumption.
  - right. exists (Seg (Pt (min_x b) (min_y b)) (Pt (max_x b) (min_y b))). split; [left; reflexivity|]. split; [intro E; injection E as E; exact (Qclt_not_eq _ _ X E)|].
    intros p (A1 & A2 & A3 & A4). apply on_east; [exact X|]. rewrite <- Y in A4. split; [apply Qcle_antisym; assumption|split; assumption].
  - right. exists (Seg (Pt (min_x b) (min_y b)) (Pt (min_x b) (max_y b))). split; [right; right; right; left; reflexivity|]. split; [intro E; injection E as E; exact (Qclt_not_eq _ _ Y E)|].
    intros p (A1 & A2 & A3 & A4). apply on_north; [exact Y|]. rewrite <- X in A2. split; [apply Qcle_antisym; assumption|split; assumption].
  - exfalso. destruct N as [N|N]; [rewrite X in N|rewrite Y in N]; exact (Qclt_not_eq _ _ N eq_refl).
Qed.
Lemma solid_edges : solid_box b -> forall e, In e (to_edges b) -> proper e.
Proof.
  intros (X & Y) e He. cbn in He. destruct He as [<-|[<-|[<-|[<-|[]]]]]; intro E; injection E as E; first [exact (Qclt_not_eq _ _ X E)|exact (Qclt_not_eq _ _ Y E)].
Qed.
Lemma edge_corners : forall e, In e (to_edges b) -> In (s_start e) (to_vertices b) /\ In (s_end e) (to_vertices b).
Proof. intros e He. cbn in He. destruct He as [<-|[<-|[<-|[<-|[]]]]]; cbn; auto 6. Qed.

Section OneContour.
Variable c : contour.
Hypothesis Hc : simple_contour (vertices c).
(** is_subset_of_region *)
Lemma subset_sound : is_subset_of_region x b c = true -> forall p, in_box p b -> in_contour c p.
Proof.
  intros S. unfold is_subset_of_region in S. rewrite forallb_forall in S.
  assert (G : forall e p, In e (to_edges b) -> proper e -> on_segment p e -> in_contour c p).
  { intros e p He Pe Op. specialize (S e He). destruct (proj2 Hx e c Pe Hc) as (L1 & L2 & L3 & _).
    destruct (segment_in_region x e c); cbn in S; try discriminate S.
    - left. exact (proj1 L1 eq_refl p Op).
    - exact (proj1 (proj1 L3 eq_refl) p Op).
    - destruct (proj1 L2 eq_refl p Op) as (_ & K). right. exact K. }
  destruct box_cases as [So|(e & He & Pe & Al)].
  - apply (around_in b So c Hc). intros p (e & He & Op). exact (G e p He (solid_edges So e He) Op).
  - intros p Bp. exact (G e p He Pe (Al p Bp)).
Qed.
(** No edge of the box having something in common with the contour. *)
Lemma uncoupled_edges : existsb (edge_coupled x c) (to_edges b) = false -> (forall v, In v (to_vertices b) -> ~ inside_contour c v) ->
  forall e p, In e (to_edges b) -> proper e -> on_segment p e -> ~ inside_contour c p.
Proof.
  intros E Nv e p He Pe Op Ip. assert (K : edge_coupled x c e = false).
  { destruct (edge_coupled x c e) eqn:K; [|reflexivity]. rewrite <- E. symmetry. apply existsb_exists. exists e. split; assumption. }
  unfold edge_coupled in K. apply orb_false_iff in K. destruct K as (_ & K). destruct (proj2 Hx e c Pe Hc) as (L1 & L2 & L3 & L4 & _).
  pose proof (Nv _ (proj1 (edge_corners e He))) as N0.
  assert (Cr : segment_in_region x e c <> CROSS) by (intro J; rewrite J in K; discriminate K). assert (En : segment_in_region x e c <> ENCLOSED) by (intro J; rewrite J in K; discriminate K).
  assert (All : forall q, on_segment q e -> in_contour c q).
  { intros q Oq. destruct (in_region_dec (contour_edges (vertices c)) q) as [I|I]; [exact I|]. elim Cr. apply L4. split; [exists p; split; assumption|exists q; split; assumption]. }
  apply En, L3. split; [exact All|]. split; [exists p; split; assumption|]. exists (s_start e). split; [apply on_segment_start|].
  destruct (on_segments_dec (s_start e) (edges c)) as [O|O]; [exact O|]. elim N0. split; [exact O|]. destruct (All _ (on_segment_start e)) as [J|J]; [contradiction|exact J].
Qed.
Lemma edges_out : forall cb, contour_box c = Some cb -> is_subset_of cb b = false ->
  (forall e p, In e (to_edges b) -> proper e -> on_segment p e -> ~ inside_contour c p) -> forall p, in_box p b -> ~ inside_contour c p.
Proof.
  intros cb Ec Sb H. destruct box_cases as [So|(e & He & Pe & Al)].
  - destruct (points_box_in _ _ Ec) as (Wc & _ & V1 & V2 & V3 & V4).
    assert (V : exists v, In v (vertices c) /\ ~ in_box v b).
    { unfold is_subset_of in Sb. rewrite !andb_false_iff in Sb. destruct V1 as (v1 & I1 & E1), V2 as (v2 & I2 & E2), V3 as (v3 & I3 & E3), V4 as (v4 & I4 & E4).
      assert (F : forall u v, Qc_leb u v = false -> ~ u <= v) by (intros u v F J; destruct (Qc_leb_spec u v); [discriminate F|contradiction]).
      destruct Sb as [[[Sb|Sb]|Sb]|Sb]; apply F in Sb; [exists v1|exists v2|exists v3|exists v4]; (split; [assumption|]); intros (J1 & J2 & J3 & J4); [rewrite E1 in J1; exact (Sb J1)|rewrite E2 in J2; exact (Sb J2)|rewrite E3 in J3; exact (Sb J3)|rewrite E4 in J4; exact (Sb J4)]. }
    destruct V as (v & Iv & Nv). apply (around_out b So c Hc v Iv Nv). intros p (e & He & Op). exact (H e p He (solid_edges So e He) Op).
  - intros p Bp. exact (H e p He Pe (Al p Bp)).
Qed.
End OneContour.

(** coupled_with_region *)
Theorem coupled_region_sound : forall c, simple_contour (vertices c) -> coupled_with_region x b c = false -> forall p, in_box p b -> ~ inside_contour c p.
Proof.
  intros c Hc E p Bp Ip. destruct (contour_box_some _ Hc) as (cb & Eb). unfold coupled_with_region, with_contour_box in E. rewrite Eb in E.
  rewrite (inner_coupled cb b p (proj1 (points_box_in _ _ Eb)) W (inside_strict c cb p Hc Eb Ip) Bp) in E. cbn [negb] in E.
  destruct (is_subset_of cb b) eqn:Sb; [discriminate E|]. cbn [orb] in E. destruct (existsb (covers_point b) (vertices c)); [discriminate E|].
  apply orb_false_iff in E. destruct E as (E & Ee). apply orb_false_iff in E. destruct E as (Ev & _).
  assert (Nv : forall v, In v (to_vertices b) -> ~ inside_contour c v).
  { intros v Hv K. apply (proj1 Hx v c Hc) in K. rewrite <- not_true_iff_false in Ev. apply Ev. apply existsb_exists. exists v. split; [exact Hv|apply location_in, K]. }
  exact (edges_out c Hc cb Eb Sb (uncoupled_edges c Hc Ee Nv) p Bp Ip).
Qed.
(** coupled_with_polygon *)
Theorem coupled_polygon_sound : forall g, valid_polygon g -> coupled_with_polygon x b g = false -> forall p, in_box p b -> ~ inside_polygon g p.
Proof.
  intros g Hg E p Bp (Ip & Nh). pose proof (proj1 Hg) as Hc. pose proof (proj1 (Forall_forall _ _) (proj1 (proj2 Hg))) as Hho.
  destruct (contour_box_some _ Hc) as (cb & Eb). unfold coupled_with_polygon, with_contour_box in E. rewrite Eb in E.
  rewrite (inner_coupled cb b p (proj1 (points_box_in _ _ Eb)) W (inside_strict _ cb p Hc Eb Ip) Bp) in E. cbn [negb] in E.
  destruct (is_subset_of cb b) eqn:Sb; [discriminate E|]. cbn [orb] in E. destruct (existsb (covers_point b) (vertices (border g))); [discriminate E|].
  assert (Hole : is_subset_of_multiregion x b (holes g) = true -> False).
  { intro M. apply existsb_exists in M. destruct M as (h & Ih & M). apply andb_true_iff in M. destruct M as (_ & M).
    exact (Nh h Ih (subset_sound h (Hho h Ih) M p Bp)). }
  set (ls := map (fun v => point_in_region x v (border g)) (to_vertices b)) in E.
  destruct (existsb (fun l => location_eqb l INTERIOR) ls) eqn:Ev.
  { apply orb_false_iff in E. destruct E as (_ & E). apply negb_false_iff in E. exact (Hole E). }
  destruct (is_subset_of b cb && is_subset_of_region x b (border g)).
  { apply negb_false_iff in E. exact (Hole E). }
  assert (Nv : forall v, In v (to_vertices b) -> ~ inside_contour (border g) v).
  { intros v Hv K. apply (proj1 Hx v _ Hc) in K. rewrite <- not_true_iff_false in Ev. apply Ev. apply existsb_exists. exists (point_in_region x v (border g)).
    split; [exact (in_map (fun v => point_in_region x v (border g)) _ _ Hv)|apply location_in, K]. }
  exact (edges_out _ Hc cb Eb Sb (uncoupled_edges _ Hc E Nv) p Bp Ip).
Qed.
End Coupled.

(** intersects_with_region *)
Lemma vertex_edge : forall c v, In v (vertices c) -> on_segments v (edges c).
Proof.
  intros c v Hv. apply (In_nth _ _ (Pt 0 0)) in Hv. destruct Hv as (i & Hi & E). exists (Seg (vertex (vertices c) (before (length (vertices c)) i)) v).
  split; [apply in_contour_edges; exists i; split; [exact Hi|split; [reflexivity|symmetry; exact E]]|apply (on_segment_end (Seg _ v))].
Qed.
Lemma contains_point_in : forall b p, contains_point b p = true <-> in_box p b.
Proof. intros b p. unfold contains_point, in_box. rewrite !andb_true_iff, !Qc_leb_true. tauto. Qed.
Theorem intersects_region_points : forall x b c, right_locators x -> wf_box b -> simple_contour (vertices c) ->
  (intersects_with_region x b c = true <-> exists p, in_box p b /\ in_contour c p).
Proof.
  intros x b c Hx Wb Hc. destruct (contour_box_some _ Hc) as (cb & Eb). pose proof (points_box_in _ _ Eb) as (Wc & Vc & V1 & _).
  assert (OnV : forall v, In v (vertices c) -> in_contour c v) by (intros v Hv; left; exact (vertex_edge c v Hv)).
  split.
  - unfold intersects_with_region, with_contour_box. rewrite Eb. intro E. apply andb_true_iff in E. destruct E as (E0 & E). rewrite !orb_true_iff in E. destruct E as [[[E|E]|E]|E].
    + destruct V1 as (v & Hv & _). exists v. split; [|exact (OnV v Hv)]. apply (proj1 (is_subset_of_points cb b Wc) E). exact (Vc v Hv).
    + apply existsb_exists in E. destruct E as (v & Hv & E). exists v. split; [exact (proj1 (contains_point_in b v) E)|exact (OnV v Hv)].
    + apply existsb_exists in E. destruct E as (v & Hv & E). exists v. split; [exact (corner_vertices b v Hv Wb)|]. destruct (proj1 Hx v c Hc) as (L1 & L2).
      destruct (point_in_region x v c); first [discriminate E|left; apply L2; reflexivity|right; exact (proj2 (proj1 L1 eq_refl))].
    + apply existsb_exists in E. destruct E as (s & Hs & E). rewrite contour_segments_edges in Hs. pose proof (simple_proper _ Hc) as P. rewrite Forall_forall in P.
      apply (intersects_with_segment_points b s Wb (P s Hs)) in E. destruct E as (p & A & B). exists p. split; [exact A|]. left. exists s. split; assumption.
  - intros (p & A & B). destruct (intersects_with_region x b c) eqn:E; [reflexivity|]. exfalso.
    apply (intersects_sound x b (Polygon c []) Hx Wb (Forall_inv (proj1 (single_valid c Hc)))) with (p := p); [|exact A|split; [exact B|intros h []]].
    unfold intersects_with_region, with_contour_box in E. unfold intersects_with_polygon, with_contour_box. cbn [border holes]. rewrite Eb in *.
    destruct (intersects_with cb b); [|reflexivity]. cbn [negb]. cbn [andb] in E. apply orb_false_iff in E. destruct E as (E & E4). apply orb_false_iff in E. destruct E as (E & E3). rewrite E.
    assert (Ls : forall v, In v (to_vertices b) -> point_in_region x v c = EXTERIOR).
    { intros v Hv. destruct (point_in_region x v c) eqn:K; try reflexivity; exfalso; rewrite <- not_true_iff_false in E3; apply E3; apply existsb_exists; exists v; rewrite K; split; trivial. }
    set (v0 := Pt (min_x b) (min_y b)). assert (I0 : In v0 (to_vertices b)) by (left; reflexivity).
    replace (forallb _ _) with false.
    + rewrite andb_false_r. cbn [andb]. rewrite E4, orb_false_r. rewrite <- not_true_iff_false. intro K. apply existsb_exists in K. destruct K as (l & Hl & K). apply in_map_iff in Hl. destruct Hl as (v & <- & Hv).
      rewrite (Ls v Hv) in K. discriminate K.
    + symmetry. rewrite <- not_true_iff_false. intro K. rewrite forallb_forall in K. specialize (K (point_in_region x v0 c)). rewrite (Ls v0 I0) in K. discriminate K.
      rewrite <- (Ls v0 I0). apply in_map_iff. exists v0. split; [reflexivity|exact I0].
Qed.

(** intersects_with_polygon *)
Lemma disjoint_edges : forall b c, wf_box b -> simple_contour (vertices c) -> (forall p, in_box p b -> ~ on_segments p (edges c)) -> edges_disjoint b c = true.
Proof.
  intros b c Wb Hc N. pose proof (simple_proper _ Hc) as P. rewrite Forall_forall in P. unfold edges_disjoint. apply forallb_forall. intros e He. apply forallb_forall. intros s Hs. rewrite contour_segments_edges in Hs.
  assert (R : segments_relation e s = DISJOINT).
  { apply (edge_relation_disjoint e s (P s Hs)). intros p (A & B). apply (N p); [destruct (edge_corners b e He) as (C1 & C2); exact (in_box_convex e b (corner_vertices b _ C1 Wb) (corner_vertices b _ C2 Wb) p A)|exists s; split; assumption]. }
  rewrite R. reflexivity.
Qed.
Theorem intersects_polygon_points : forall x b g, right_locators x -> wf_box b -> valid_polygon g ->
  (intersects_with_polygon x b g = true <-> exists p, in_box p b /\ in_polygon g p).
Proof.
  intros x b g Hx Wb Hg. split; [|intros (p & A & B); destruct (intersects_with_polygon x b g) eqn:E; [reflexivity|exfalso; exact (intersects_sound x b g Hx Wb Hg E p A B)]].
  intro E. pose proof (proj1 Hg) as Hc. pose proof (proj1 (Forall_forall _ _) (proj1 (proj2 Hg))) as Hho. pose proof (proj1 (proj2 (proj2 (proj2 (proj2 (proj2 Hg)))))) as Pe. rewrite Forall_forall in Pe.
  destruct (existsb (intersects_with_segment b) (polygon_edges g)) eqn:X.
  { apply existsb_exists in X. destruct X as (s & Hs & X). apply (intersects_with_segment_points b s Wb (Pe s Hs)) in X. destruct X as (p & A & B). exists p. split; [exact A|].
    apply (edge_in_polygon g Hg). exists s. split; assumption. }
  assert (Off : forall p, in_box p b -> ~ on_segments p (polygon_edges g)).
  { intros p Bp (s & Hs & O). rewrite <- not_true_iff_false in X. apply X. apply existsb_exists. exists s. split; [exact Hs|]. apply (intersects_with_segment_points b s Wb (Pe s Hs)). exists p. split; assumption. }
  assert (OffB : forall p, in_box p b -> ~ on_segments p (edges (border g))) by (intros p Bp O; apply (Off p Bp), on_polygon; left; exact O).
  assert (OffH : forall h p, In h (holes g) -> in_box p b -> ~ on_segments p (edges h)) by (intros h p Hh Bp O; apply (Off p Bp), on_polygon; right; exists h; split; assumption).
  assert (Cst : forall c p q, simple_contour (vertices c) -> (forall p, in_box p b -> ~ on_segments p (edges c)) -> in_box p b -> in_box q b -> inside_contour c p -> inside_contour c q).
  { intros c p q S N A B (_ & I). split; [exact (N q B)|]. rewrite <- I. symmetry. apply (box_const (edges c) (simple_proper _ S) (contour_even _) b p q); [|exact A|exact B]. intros s y Hs O K. apply (N y K). exists s. split; assumption. }
  set (v0 := Pt (min_x b) (min_y b)). assert (I0 : In v0 (to_vertices b)) by (left; reflexivity). pose proof (corner_vertices b v0 I0 Wb) as B0.
  destruct (in_polygon_dec g v0) as [J|J]; [exists v0; split; assumption|exfalso].
  destruct (contour_box_some _ Hc) as (pb & Eb). pose proof (points_box_in _ _ Eb) as (Wp & Vp & (v1 & H1 & _) & _). unfold intersects_with_polygon, with_contour_box in E. rewrite Eb in E.
  destruct (intersects_with pb b) eqn:Ib; [|discriminate E]. cbn [negb] in E.
  replace (is_subset_of pb b) with false in E.
  2:{ symmetry. rewrite <- not_true_iff_false. intro K. apply (OffB v1); [|exact (vertex_edge _ v1 H1)]. apply (proj1 (is_subset_of_points pb b Wp) K). exact (Vp v1 H1). }
  replace (existsb (contains_point b) (vertices (border g))) with false in E.
  2:{ symmetry. rewrite <- not_true_iff_false. intro K. apply existsb_exists in K. destruct K as (v & Hv & K). apply (OffB v); [exact (proj1 (contains_point_in b v) K)|exact (vertex_edge _ v Hv)]. }
  cbn [orb] in E.
  assert (Din : forall p, in_box p b -> inside_contour (border g) p \/ ~ in_contour (border g) p).
  { intros p Bp. destruct (in_region_dec (contour_edges (vertices (border g))) p) as [K|K]; [left|right; exact K]. split; [exact (OffB p Bp)|]. destruct K as [K|K]; [elim (OffB p Bp K)|exact K]. }
  destruct (Din v0 B0) as [Iv|Ov].
  - (* the box lies in a hole *)
    assert (Hh : exists h, In h (holes g) /\ inside_contour h v0).
    { destruct (all_dec _ (fun h => inside_contour h v0) (fun h => interior_dec _ v0) (holes g)) as [K|K]; [|exact K]. elim J. split; [right; exact (proj2 Iv)|exact K]. }
    destruct Hh as (h & Hh & Ih).
    assert (AllB : forall q, in_box q b -> inside_contour (border g) q) by (intros q Bq; exact (Cst _ v0 q Hc OffB B0 Bq Iv)).
    assert (AllH : forall q, in_box q b -> inside_contour h q) by (intros q Bq; exact (Cst h v0 q (Hho h Hh) (fun p => OffH h p Hh) B0 Bq Ih)).
    replace (within_of b pb) with true in E by (symmetry; apply (within_of_points b pb Wb); intros q Bq; exact (inside_strict _ pb q Hc Eb (AllB q Bq))).
    rewrite (disjoint_edges b _ Wb Hc OffB) in E.
    replace (forallb _ (map _ (to_vertices b))) with true in E.
    2:{ symmetry. apply forallb_forall. intros l Hl. apply in_map_iff in Hl. destruct Hl as (v & <- & Hv). apply location_in. apply (proj1 Hx v _ Hc). exact (AllB v (corner_vertices b v Hv Wb)). }
    cbn [andb] in E. apply negb_true_iff in E. rewrite <- not_true_iff_false in E. apply E. apply existsb_exists. exists h. split; [exact Hh|].
    destruct (contour_box_some _ (Hho h Hh)) as (hb & Ehb). unfold with_contour_box. rewrite Ehb. apply andb_true_iff. split.
    + apply (within_of_points b hb Wb). intros q Bq. exact (inside_strict _ hb q (Hho h Hh) Ehb (AllH q Bq)).
    + unfold within_of_region. rewrite (disjoint_edges b h Wb (Hho h Hh) (fun p => OffH h p Hh)), andb_true_r. apply forallb_forall. intros v Hv. apply location_in. apply (proj1 Hx v h (Hho h Hh)). exact (AllH v (corner_vertices b v Hv Wb)).
  - assert (AllE : forall v, In v (to_vertices b) -> point_in_region x v (border g) = EXTERIOR).
    { intros v Hv. pose proof (corner_vertices b v Hv Wb) as Bv. destruct (proj1 Hx v _ Hc) as (L1 & L2). destruct (point_in_region x v (border g)); try reflexivity; exfalso.
      all: first [exact (OffB v Bv (proj1 L2 eq_refl))|pose proof (Cst _ v v0 Hc OffB Bv B0 (proj1 L1 eq_refl)) as K; apply Ov; right; exact (proj2 K)]. }
    replace (forallb _ (map _ (to_vertices b))) with false in E.
    2:{ symmetry. rewrite <- not_true_iff_false. intro K. rewrite forallb_forall in K. specialize (K EXTERIOR). discriminate K. rewrite <- (AllE v0 I0). apply in_map_iff. exists v0. split; [reflexivity|exact I0]. }
    rewrite andb_false_r in E. cbn [andb] in E. apply orb_true_iff in E. destruct E as [E|E]; apply existsb_exists in E.
    + destruct E as (l & Hl & K). apply in_map_iff in Hl. destruct Hl as (v & <- & Hv). rewrite (AllE v Hv) in K. discriminate K.
    + destruct E as (s & Hs & E). rewrite contour_segments_edges in Hs. pose proof (simple_proper _ Hc) as P. rewrite Forall_forall in P.
      apply (intersects_with_segment_points b s Wb (P s Hs)) in E. destruct E as (p & A & B). apply (OffB p A). exists s. split; assumption.
Qed.

(** within_of_region *)
Theorem within_region_points : forall x b c, right_locators x -> wf_box b -> simple_contour (vertices c) ->
  (within_of_region x b c = true <-> forall p, in_box p b -> inside_contour c p).
Proof.
  intros x b c Hx Wb Hc. unfold within_of_region. rewrite andb_true_iff, forallb_forall. split.
  - intros (V & D). set (v0 := Pt (min_x b) (min_y b)). assert (I0 : In v0 (to_vertices b)) by (left; reflexivity). pose proof (corner_vertices b v0 I0 Wb) as B0.
    pose proof (V v0 I0) as K. apply location_in in K. apply (proj1 Hx v0 c Hc) in K. destruct (contour_box_some _ Hc) as (cb & Eb). pose proof (points_box_in _ _ Eb) as (_ & _ & (v & Iv & Ev) & _).
    assert (Out : forall s y, In s (edges c) -> on_segment y s -> ~ in_box y b).
    { apply (contour_out c b v Iv).
      - intros (A & _). destruct (inside_strict c cb v0 Hc Eb K) as (C & _). rewrite Ev in A. exact (Qclt_not_le _ _ C A).
      - intros s e p Hs He Os Oe. unfold edges_disjoint in D. rewrite forallb_forall in D. specialize (D e He). rewrite forallb_forall in D. rewrite contour_segments_edges in D. specialize (D s Hs).
        assert (R : segments_relation e s = DISJOINT) by (destruct (segments_relation e s); cbn in D; congruence).
        pose proof (simple_proper _ Hc) as P. rewrite Forall_forall in P. apply (proj1 (edge_relation_disjoint e s (P s Hs)) R p). split; assumption. }
    intros p Bp. split; [intros (s & Hs & O); exact (Out s p Hs O Bp)|]. change (inside (edges c) p = true). rewrite (box_const (edges c) (simple_proper _ Hc) (contour_even _) b p v0 Out Bp B0). exact (proj2 K).
  - intro A. split.
    + intros v Hv. apply location_in. apply (proj1 Hx v c Hc). exact (A v (corner_vertices b v Hv Wb)).
    + apply (disjoint_edges b c Wb Hc). intros p Bp. exact (proj1 (A p Bp)).
Qed.

Theorem coupled_polygon_kept : forall x b g p, right_locators x -> wf_box b -> min_x b < max_x b \/ min_y b < max_y b -> valid_polygon g ->
  in_box p b -> inside_polygon g p -> coupled_with_polygon x b g = true.
Proof.
  intros x b g p Hx W D Hg A B. destruct (coupled_with_polygon x b g) eqn:E; [reflexivity|]. elim (coupled_polygon_sound x b Hx (conj W D) g Hg E p A B).
Qed.
Theorem coupled_region_kept : forall x b c p, right_locators x -> wf_box b -> min_x b < max_x b \/ min_y b < max_y b -> simple_contour (vertices c) ->
  in_box p b -> inside_contour c p -> coupled_with_region x b c = true.
Proof.
  intros x b c p Hx W D Hc A B. destruct (coupled_with_region x b c) eqn:E; [reflexivity|]. elim (coupled_region_sound x b Hx (conj W D) c Hc E p A B).
Qed.
