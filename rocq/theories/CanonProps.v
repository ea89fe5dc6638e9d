(** Canonical form of intersections of regions.
    Proof support only, no part of /repo is modelled here. *)
From Coq Require Import Permutation Sorted.
From Verif Require Import QcTac Geom Spec SpecShape SpecSides SpecLocate SpecTurn SpecReach SpecChamber SpecCanon GeomFacts SortFacts Pair Bounding BoundingThms UnpackThms Relation Sweep Linear Labelled Contour Filter Mixed Tracing Shaped Holey LinearThms Shapes Polygons FilterThms MixedThms MixedProps Locate CoupledThms ShapedThms ShapedProps RegionProps HoleyProps CompleteProps NestProps Reach ReachProps Chambers ChamberProps Borders Corners Ordered.
Local Notation all_edges rs := (flat_map (fun c => contour_edges (vertices c)) rs).

(** ** Uniqueness *)
Lemma before_irrefl : forall c, ~ begins_before c c.
Proof. intros c [H|(_ & H)]; [exact (plt_irrefl _ H)|]. replace (cross _ _ _) with 0 in H by (unfold cross; ring). discriminate H. Qed.
Lemma before_asym : forall c d, begins_before c d -> begins_before d c -> False.
Proof.
  intros c d [A|(A & B)] [A'|(A' & B')].
  - exact (plt_irrefl _ (plt_trans _ _ _ A A')).
  - rewrite A' in A. exact (plt_irrefl _ A).
  - rewrite A in A'. exact (plt_irrefl _ A').
  - rewrite <- A in B'. set (v := vertex (vertices c) 0) in *. assert (X : cross v (vertex (vertices d) 1) (vertex (vertices c) 1) = - cross v (vertex (vertices c) 1) (vertex (vertices d) 1)) by (unfold cross; ring). rewrite X in B'. clear - B B'. qlra.
Qed.
Lemma ordered_sorted : forall rs, (forall i j r k, (i < j)%nat -> nth_error rs i = Some r -> nth_error rs j = Some k -> begins_before r k) -> StronglySorted begins_before rs.
Proof.
  induction rs as [|a rs IH]; intro H; [constructor|]. constructor; [apply IH; intros i j r k L Ei Ej; apply (H (S i) (S j) r k); [lia|exact Ei|exact Ej]|].
  apply Forall_forall. intros k Hk. destruct (In_nth_error _ _ Hk) as (j & Ej). apply (H 0%nat (S j)); [lia|reflexivity|exact Ej].
Qed.
Lemma sorted_same : forall rs rs', StronglySorted begins_before rs -> StronglySorted begins_before rs' -> (forall c, In c rs <-> In c rs') -> rs = rs'.
Proof.
  intros rs. induction rs as [|a rs IH]; intros [|b rs'] S S' I; [reflexivity|elim (proj2 (I b) (or_introl eq_refl))|elim (proj1 (I a) (or_introl eq_refl))|].
  inversion S as [|? ? Sa Fa]. inversion S' as [|? ? Sb Fb]. subst. rewrite Forall_forall in Fa, Fb.
  assert (E : a = b).
  { destruct (proj1 (I a) (or_introl eq_refl)) as [->|Ha]; [reflexivity|]. destruct (proj2 (I b) (or_introl eq_refl)) as [->|Hb]; [reflexivity|]. elim (before_asym a b (Fa b Hb) (Fb a Ha)). }
  subst b. f_equal. apply IH; [exact Sa|exact Sb|]. intro c. split; intro Hc.
  - destruct (proj1 (I c) (or_intror Hc)) as [<-|K]; [elim (before_irrefl a (Fa a Hc))|exact K].
  - destruct (proj2 (I c) (or_intror Hc)) as [<-|K]; [elim (before_irrefl a (Fb a Hc))|exact K].
Qed.
Lemma canonical_member : forall rs rs', canonical_regions rs -> canonical_regions rs' -> (forall p, in_regions rs p <-> in_regions rs' p) -> forall c, In c rs -> In c rs'.
Proof.
  intros rs rs' (V & F & _) (V' & F' & _) Sm c Hc. destruct (same_contours rs rs' V V' Sm c Hc) as (c' & Hc' & B).
  destruct (F c Hc) as (A1 & A2 & A3). destruct (F' c' Hc') as (B1 & B2 & B3). rewrite (contour_unique c c' A1 B1 A2 B2 A3 B3 B). exact Hc'.
Qed.
Theorem canonical_unique : forall rs rs', canonical_regions rs -> canonical_regions rs' -> (forall p, in_regions rs p <-> in_regions rs' p) -> rs = rs'.
Proof.
  intros rs rs' C C' Sm. apply sorted_same; [apply ordered_sorted, C|apply ordered_sorted, C'|]. intro c. split; [exact (canonical_member rs rs' C C' Sm c)|].
  apply (canonical_member rs' rs C' C). intro p. symmetry. apply Sm.
Qed.
(** Regions which agree off a set of segments having edges of both. *)
Lemma agree_off : forall rs rs' E, valid_regions rs -> valid_regions rs' -> Forall proper E ->
  (forall p, on_segments p (all_edges rs) -> on_segments p E) -> (forall p, on_segments p (all_edges rs') -> on_segments p E) ->
  (forall p, ~ on_segments p E -> (in_regions rs p <-> in_regions rs' p)) -> forall p, in_regions rs p <-> in_regions rs' p.
Proof.
  intros rs rs' E V V' Pr O O' Sm p.
  assert (K : forall qs, valid_regions qs -> (forall p, on_segments p (all_edges qs) -> on_segments p E) -> (forall p, ~ on_segments p E -> (in_regions qs p <-> in_regions rs p)) ->
    in_regions qs p <-> reached (fun q => ~ on_segments q E /\ in_regions rs q) p).
  { intros qs W Oq Sq. rewrite (regions_region qs W p). apply (region_reached (all_edges qs) E (in_regions rs)); [apply W|apply regions_even|exact Pr|exact Oq|].
    intros q N. rewrite <- (Sq q N), (regions_region qs W q). split; [intro I; right; exact I|intros [X|I]; [elim (N (Oq q X))|exact I]]. }
  rewrite (K rs V O) by (intros; reflexivity). symmetry. apply (K rs' V' O'). intros q N. symmetry. exact (Sm q N).
Qed.

(** ** Regions returned *)
Section Meet.
Variables (x : locators) (first second : list contour).
Hypothesis V1 : valid_regions first.
Hypothesis V2 : valid_regions second.
Hypothesis N1 : first <> [].
Hypothesis N2 : second <> [].
Lemma canonical_none : canonical_regions [].
Proof. split; [exact (proj1 (walled_none [] []))|]. split; [intros r []|intros [|i] j r k _ E; discriminate E]. Qed.
Lemma canonical_swept : forall first second m s pl events rs, valid_regions first -> valid_regions second -> shaped_swept Meet (flat_map region_edges first) (flat_map region_edges second) m s pl ->
  Permutation events pl -> events_to_regions s events = Ok rs -> canonical_regions rs.
Proof.
  intros f g m s pl events rs W1 W2 H P E. destruct (regions_chambers f g m s pl W1 W2 H events P) as (rs1 & E1 & V & _ & C & L). destruct (regions_ordered f g m s pl W1 W2 H events P) as (rs2 & E2 & A & O).
  rewrite E in E1, E2. injection E1 as <-. injection E2 as <-. split; [exact V|]. split; [|exact O]. intros r Hr. auto.
Qed.
Theorem region_intersection_canonical : exists rs, (forall o, region_intersection x o first second = Ok (unpack_regions rs)) /\ canonical_regions rs.
Proof.
  destruct (regions_box_some first V1 N1) as (a & Ea). destruct (regions_box_some second V2 N2) as (b & Eb).
  assert (R : forall o, region_intersection x o first second
    = if disjoint_with a b then Ok GEmpty
      else match to_coupled_regions x b first with [] => Ok GEmpty | first' =>
           match to_coupled_regions x a second with [] => Ok GEmpty | second' =>
             bind_res (sweep_regions in_intersection o first' second') (fun '(s, events) => bind_res (events_to_regions s events) (fun regions => Ok (unpack_regions regions))) end end).
  { intro o. unfold region_intersection, meeting_regions, with_region_boxes. rewrite Ea, Eb. reflexivity. }
  destruct (disjoint_with a b); [exists []; split; [exact R|apply canonical_none]|].
  pose proof (valid_regions_filter (coupled_with_region x b) first V1) as V1'. pose proof (valid_regions_filter (coupled_with_region x a) second V2) as V2'.
  change (filter (coupled_with_region x b) first) with (to_coupled_regions x b first) in V1'. change (filter (coupled_with_region x a) second) with (to_coupled_regions x a second) in V2'.
  destruct (to_coupled_regions x b first) as [|r0 first']; [exists []; split; [exact R|apply canonical_none]|].
  destruct (to_coupled_regions x a second) as [|t0 second']; [exists []; split; [exact R|apply canonical_none]|].
  destruct (regions_sweep (r0 :: first') (t0 :: second') V1' V2' ltac:(discriminate) ltac:(discriminate)) as (s & pl & Hs & Sw).
  destruct (regions_chambers (r0 :: first') (t0 :: second') _ s pl V1' V2' Hs pl (Permutation_refl _)) as (rs & Er & _).
  exists rs. split; [intro o; rewrite R, Sw; cbn [bind_res]; rewrite Er; reflexivity|]. exact (canonical_swept _ _ _ s pl pl rs V1' V2' Hs (Permutation_refl _) Er).
Qed.
Theorem region_complete_canonical : exists ps ss rs, (forall o, region_complete_intersection x o first second = Ok (complete_mix ps ss (solid rs))) /\ canonical_regions rs.
Proof.
  destruct (regions_box_some first V1 N1) as (a & Ea). destruct (regions_box_some second V2 N2) as (b & Eb).
  set (f := fun o first second => bind_res (sweep_regions in_intersection o first second) (fun '(s, events) =>
      let events := sort_by (binary_key_ltb s) events in
      bind_res (events_to_regions s events) (fun regions => Ok (unpack_mix (unpack_points (shaped_points s events)) (unpack_segments (shaped_segments s events)) (unpack_regions regions))))).
  assert (R : forall o, region_complete_intersection x o first second
    = if disjoint_with a b then Ok GEmpty
      else match to_intersecting_regions x b first with [] => Ok GEmpty | first' =>
           match to_intersecting_regions x a second with [] => Ok GEmpty | second' => f o first' second' end end).
  { intro o. unfold region_complete_intersection, meeting_regions, with_region_boxes. rewrite Ea, Eb. reflexivity. }
  destruct (disjoint_with a b); [exists [], [], []; split; [exact R|apply canonical_none]|].
  pose proof (valid_regions_filter (intersects_with_region x b) first V1) as V1'. pose proof (valid_regions_filter (intersects_with_region x a) second V2) as V2'.
  change (filter (intersects_with_region x b) first) with (to_intersecting_regions x b first) in V1'. change (filter (intersects_with_region x a) second) with (to_intersecting_regions x a second) in V2'.
  destruct (to_intersecting_regions x b first) as [|r0 first']; [exists [], [], []; split; [exact R|apply canonical_none]|].
  destruct (to_intersecting_regions x a second) as [|t0 second']; [exists [], [], []; split; [exact R|apply canonical_none]|].
  destruct (regions_sweep (r0 :: first') (t0 :: second') V1' V2' ltac:(discriminate) ltac:(discriminate)) as (s & pl & Hs & Sw).
  destruct (regions_chambers (r0 :: first') (t0 :: second') _ s pl V1' V2' Hs (sort_by (binary_key_ltb s) pl) (sort_by_perm _ pl)) as (rs & Er & _).
  exists (shaped_points s (sort_by (binary_key_ltb s) pl)), (shaped_segments s (sort_by (binary_key_ltb s) pl)), rs.
  split; [intro o; rewrite R; unfold f; rewrite Sw; cbn [bind_res]; cbv zeta; rewrite Er; cbn [bind_res]; rewrite unpack_regions_polygons; reflexivity|]. exact (canonical_swept _ _ _ s pl _ rs V1' V2' Hs (sort_by_perm _ pl) Er).
Qed.
End Meet.

(** ** Results determined by points *)
Lemma solid_of : forall gs, (forall g, In g gs -> holes g = []) -> gs = map (fun r => Polygon r []) (map border gs).
Proof.
  induction gs as [|[b h] gs IH]; intro H; [reflexivity|]. cbn [map border]. rewrite <- IH by (intros g Hg; apply H; right; exact Hg). f_equal. pose proof (H _ (or_introl eq_refl)) as E. cbn [holes] in E. rewrite E. reflexivity.
Qed.
Lemma canonical_result_unique : forall first second gs gs', canonical_result first second gs -> canonical_result first second gs' -> gs = gs'.
Proof.
  intros first second gs gs' (H & C & I) (H' & C' & I'). rewrite (solid_of gs H), (solid_of gs' H'). f_equal. apply canonical_unique; [exact C|exact C'|]. intro p. rewrite I, I'. reflexivity.
Qed.
Lemma determined : forall first second gs, canonical_result first second gs -> forall gs', gs = gs' <-> canonical_result first second gs'.
Proof. intros first second gs C gs'. split; [intros <-; exact C|intro C'; exact (canonical_result_unique _ _ _ _ C C')]. Qed.
Theorem intersect_multiregions_canonical : forall x, right_locators x -> forall first second, valid_regions first -> valid_regions second -> first <> [] -> second <> [] ->
  exists g, (forall o, intersect_multiregions x o first second = Ok g) /\ (exists rs, g = unpack_regions rs) /\ canonical_result first second (polygons_of g).
Proof.
  intros x Hx first second V1 V2 N1 N2. destruct (region_intersection_canonical x first second V1 V2 N1 N2) as (rs & R & C).
  destruct (intersect_multiregions_valid x Hx first second V1 V2 N1 N2) as (g & R' & Hh & _ & P). exists g. split; [exact R'|].
  pose proof (R some_oracle) as E. unfold intersect_multiregions in R'. rewrite (R' some_oracle) in E. injection E as ->. split; [exists rs; reflexivity|].
  split; [intros q Hq; apply Hh, Hq|]. split; [|exact P]. rewrite (proj2 (proj2 (proj2 (unpack_regions_canonical rs)))), solid_borders. exact C.
Qed.
Theorem complete_intersect_multiregions_canonical : forall x, right_locators x -> forall first second, valid_regions first -> valid_regions second -> first <> [] -> second <> [] ->
  exists g, (forall o, complete_intersect_multiregions x o first second = Ok g) /\ canonical_result first second (polygons_of g).
Proof.
  intros x Hx first second V1 V2 N1 N2. destruct (region_complete_canonical x first second V1 V2 N1 N2) as (ps & ss & rs & R & C).
  destruct (complete_intersect_multiregions_valid x Hx first second V1 V2 N1 N2) as (g & R' & Hh & _ & P). exists g. split; [exact R'|].
  pose proof (R some_oracle) as E. unfold complete_intersect_multiregions in R'. rewrite (R' some_oracle) in E. injection E as ->.
  split; [intros q Hq; apply Hh, Hq|]. split; [|exact P]. rewrite (proj2 (proj2 (proj2 (mix_parts ps ss (solid rs))))). unfold solid. rewrite solid_borders. exact C.
Qed.
(** All six. *)
Theorem intersect_multiregions_sole : forall x, right_locators x -> forall first second, valid_regions first -> valid_regions second -> first <> [] -> second <> [] ->
  exists g, (forall o, intersect_multiregions x o first second = Ok g) /\ forall gs, polygons_of g = gs <-> canonical_result first second gs.
Proof. intros x Hx a b V1 V2 N1 N2. destruct (intersect_multiregions_canonical x Hx a b V1 V2 N1 N2) as (g & R & _ & C). exists g. split; [exact R|exact (determined _ _ _ C)]. Qed.
Theorem complete_intersect_multiregions_sole : forall x, right_locators x -> forall first second, valid_regions first -> valid_regions second -> first <> [] -> second <> [] ->
  exists g, (forall o, complete_intersect_multiregions x o first second = Ok g) /\ forall gs, polygons_of g = gs <-> canonical_result first second gs.
Proof. intros x Hx a b V1 V2 N1 N2. destruct (complete_intersect_multiregions_canonical x Hx a b V1 V2 N1 N2) as (g & R & C). exists g. split; [exact R|exact (determined _ _ _ C)]. Qed.
Theorem intersect_region_with_multiregion_sole : forall x, right_locators x -> forall region multiregion, simple_contour (vertices region) -> valid_regions multiregion -> multiregion <> [] ->
  exists g, (forall o, intersect_region_with_multiregion x o region multiregion = Ok g) /\ forall gs, polygons_of g = gs <-> canonical_result [region] multiregion gs.
Proof. intros x Hx r m V1 V2 N. exact (intersect_multiregions_sole x Hx [r] m (single_region r V1) V2 ltac:(discriminate) N). Qed.
Theorem complete_intersect_region_with_multiregion_sole : forall x, right_locators x -> forall region multiregion, simple_contour (vertices region) -> valid_regions multiregion -> multiregion <> [] ->
  exists g, (forall o, complete_intersect_region_with_multiregion x o region multiregion = Ok g) /\ forall gs, polygons_of g = gs <-> canonical_result [region] multiregion gs.
Proof. intros x Hx r m V1 V2 N. exact (complete_intersect_multiregions_sole x Hx [r] m (single_region r V1) V2 ltac:(discriminate) N). Qed.
Theorem intersect_regions_sole : forall x, right_locators x -> forall first second, simple_contour (vertices first) -> simple_contour (vertices second) ->
  exists g, (forall o, intersect_regions x o first second = Ok g) /\ forall gs, polygons_of g = gs <-> canonical_result [first] [second] gs.
Proof. intros x Hx a b V1 V2. exact (intersect_multiregions_sole x Hx [a] [b] (single_region a V1) (single_region b V2) ltac:(discriminate) ltac:(discriminate)). Qed.
Theorem complete_intersect_regions_sole : forall x, right_locators x -> forall first second, simple_contour (vertices first) -> simple_contour (vertices second) ->
  exists g, (forall o, complete_intersect_regions x o first second = Ok g) /\ forall gs, polygons_of g = gs <-> canonical_result [first] [second] gs.
Proof. intros x Hx a b V1 V2. exact (complete_intersect_multiregions_sole x Hx [a] [b] (single_region a V1) (single_region b V2) ltac:(discriminate) ltac:(discriminate)). Qed.

(** ** Laws *)
Lemma on_both : forall a b p, on_segments p (all_edges (a ++ b)) <-> on_segments p (all_edges a) \/ on_segments p (all_edges b).
Proof.
  intros a b p. rewrite flat_map_app. split.
  - intros (s & Hs & O). apply in_app_or in Hs. destruct Hs as [Hs|Hs]; [left|right]; exists s; auto.
  - intros [(s & Hs & O)|(s & Hs & O)]; exists s; (split; [apply in_or_app; auto|exact O]).
Qed.
Lemma regions_proper : forall rs, valid_regions rs -> Forall proper (all_edges rs).
Proof. intros rs V. exact (proj1 (proj2 (proj2 V))). Qed.
Lemma both_proper : forall a b, valid_regions a -> valid_regions b -> Forall proper (all_edges (a ++ b)).
Proof. intros a b A B. rewrite flat_map_app. apply Forall_app. split; apply regions_proper; assumption. Qed.
(** Canonical regions with edges on those of operands and equal to the common points off them. *)
Definition known (a b rs : list contour) : Prop :=
  canonical_regions rs /\ (forall p, on_segments p (all_edges rs) -> on_segments p (all_edges (a ++ b)))
  /\ forall p, ~ on_segments p (all_edges (a ++ b)) -> (in_regions rs p <-> in_regions a p /\ in_regions b p).
Lemma make_known : forall a b rs, canonical_regions rs -> (forall p, on_segments p (all_edges rs) -> on_segments p (all_edges (a ++ b))) ->
  (forall p, ~ on_segments p (all_edges (a ++ b)) -> (inside (all_edges rs) p = true <-> in_regions a p /\ in_regions b p)) -> known a b rs.
Proof.
  intros a b rs C On I. split; [exact C|]. split; [exact On|]. intros p N. rewrite <- (I p N), (regions_region rs (proj1 C) p). split; [intros [O|X]; [elim (N (On p O))|exact X]|intro X; right; exact X].
Qed.
Section Known.
Variable x : locators.
Hypothesis Hx : right_locators x.
Variables a b : list contour.
Hypothesis V1 : valid_regions a.
Hypothesis V2 : valid_regions b.
Hypothesis N1 : a <> [].
Hypothesis N2 : b <> [].
Theorem intersect_known : exists rs, (forall o, intersect_multiregions x o a b = Ok (unpack_regions rs)) /\ known a b rs.
Proof.
  destruct (region_intersection_canonical x a b V1 V2 N1 N2) as (rs & R & C). destruct (region_intersection_correct x a b Hx V1 V2 N1 N2) as (rs' & R' & B). exists rs. split; [exact R|].
  apply bound_regions in B. pose proof (R some_oracle) as E. rewrite (R' some_oracle) in E. injection E as E. rewrite E in B. destruct B as (_ & _ & _ & _ & On & I).
  destruct (unpack_regions_canonical rs) as (_ & _ & _ & U). rewrite U in *. rewrite RegionProps.solid_edges in On, I. exact (make_known a b rs C On I).
Qed.
Theorem complete_known : exists ps ss rs, (forall o, complete_intersect_multiregions x o a b = Ok (complete_mix ps ss (solid rs))) /\ known a b rs.
Proof.
  destruct (region_complete_canonical x a b V1 V2 N1 N2) as (ps & ss & rs & R & C). destruct (region_complete_correct x a b Hx V1 V2 N1 N2) as (g & R' & B). exists ps, ss, rs. split; [exact R|].
  pose proof (R some_oracle) as E. rewrite (R' some_oracle) in E. injection E as E. subst g. destruct B as (_ & _ & _ & On & I).
  rewrite (proj2 (proj2 (proj2 (mix_parts ps ss (solid rs))))) in *. rewrite ShapedProps.solid_edges in On, I. exact (make_known a b rs C On I).
Qed.
End Known.
Lemma known_same : forall a b a' b' rs rs', valid_regions a -> valid_regions b -> valid_regions a' -> valid_regions b' -> known a b rs -> known a' b' rs' ->
  (forall p, in_regions a p /\ in_regions b p <-> in_regions a' p /\ in_regions b' p) -> rs = rs'.
Proof.
  intros a b a' b' rs rs' A B A' B' (C & On & I) (C' & On' & I') Sm. apply canonical_unique; [exact C|exact C'|].
  apply (agree_off rs rs' (all_edges ((a ++ b) ++ (a' ++ b')))); [apply C|apply C'| | | |].
  - rewrite flat_map_app. apply Forall_app. split; apply both_proper; assumption.
  - intros p O. apply on_both. left. exact (On p O).
  - intros p O. apply on_both. right. exact (On' p O).
  - intros p N. rewrite (I p) by (intro O; apply N, on_both; left; exact O). rewrite (I' p) by (intro O; apply N, on_both; right; exact O). apply Sm.
Qed.
Lemma common_swap : forall a b p, in_regions a p /\ in_regions b p <-> in_regions b p /\ in_regions a p.
Proof. tauto. Qed.
Theorem intersect_same : forall x x', right_locators x -> right_locators x' -> forall a b a' b', valid_regions a -> valid_regions b -> valid_regions a' -> valid_regions b' ->
  a <> [] -> b <> [] -> a' <> [] -> b' <> [] -> (forall p, in_regions a p /\ in_regions b p <-> in_regions a' p /\ in_regions b' p) ->
  forall o o', intersect_multiregions x o a b = intersect_multiregions x' o' a' b'.
Proof.
  intros x x' Hx Hx' a b a' b' A B A' B' NA NB NA' NB' Sm o o'. destruct (intersect_known x Hx a b A B NA NB) as (rs & R & K). destruct (intersect_known x' Hx' a' b' A' B' NA' NB') as (rs' & R' & K').
  rewrite R, R', (known_same a b a' b' rs rs' A B A' B' K K' Sm). reflexivity.
Qed.
Theorem intersect_multiregions_swap : forall x, right_locators x -> forall a b, valid_regions a -> valid_regions b -> a <> [] -> b <> [] ->
  forall o o', intersect_multiregions x o a b = intersect_multiregions x o' b a.
Proof. intros x Hx a b A B NA NB. apply intersect_same; try assumption. intro p. apply common_swap. Qed.
Theorem intersect_regions_swap : forall x, right_locators x -> forall a b, simple_contour (vertices a) -> simple_contour (vertices b) ->
  forall o o', intersect_regions x o a b = intersect_regions x o' b a.
Proof. intros x Hx a b A B. exact (intersect_multiregions_swap x Hx [a] [b] (single_region a A) (single_region b B) ltac:(discriminate) ltac:(discriminate)). Qed.
Theorem complete_same : forall x x', right_locators x -> right_locators x' -> forall a b a' b', valid_regions a -> valid_regions b -> valid_regions a' -> valid_regions b' ->
  a <> [] -> b <> [] -> a' <> [] -> b' <> [] -> (forall p, in_regions a p /\ in_regions b p <-> in_regions a' p /\ in_regions b' p) ->
  forall o o' g g', complete_intersect_multiregions x o a b = Ok g -> intersect_multiregions x' o' a' b' = Ok g' -> polygons_of g = polygons_of g'.
Proof.
  intros x x' Hx Hx' a b a' b' A B A' B' NA NB NA' NB' Sm o o' g g' E E'. destruct (complete_known x Hx a b A B NA NB) as (ps & ss & rs & R & K). destruct (intersect_known x' Hx' a' b' A' B' NA' NB') as (rs' & R' & K').
  rewrite R in E. rewrite R' in E'. injection E as <-. injection E' as <-. rewrite (known_same a b a' b' rs rs' A B A' B' K K' Sm), (proj2 (proj2 (proj2 (mix_parts ps ss (solid rs'))))), (proj2 (proj2 (proj2 (unpack_regions_canonical rs')))). reflexivity.
Qed.
Theorem intersect_contained : forall x, right_locators x -> forall a b, canonical_regions a -> valid_regions b -> a <> [] -> b <> [] -> (forall p, in_regions a p -> in_regions b p) ->
  exists g, (forall o, intersect_multiregions x o a b = Ok g) /\ polygons_of g = map (fun r => Polygon r []) a.
Proof.
  intros x Hx a b C B NA NB Sub. pose proof (proj1 C) as A. destruct (intersect_known x Hx a b A B NA NB) as (rs & R & C' & On & I). exists (unpack_regions rs). split; [exact R|].
  rewrite (proj2 (proj2 (proj2 (unpack_regions_canonical rs)))). f_equal. apply canonical_unique; [exact C'|exact C|].
  apply (agree_off rs a (all_edges (a ++ b))); [apply C'|exact A|apply both_proper; assumption|exact On|intros p O; apply on_both; left; exact O|].
  intros p N. rewrite (I p N). split; [tauto|]. intro K. split; [exact K|exact (Sub p K)].
Qed.
Lemma edges_assoc : forall a b c, all_edges ((a ++ b) ++ c) = all_edges (a ++ b ++ c).
Proof. intros. rewrite app_assoc. reflexivity. Qed.
Theorem intersect_assoc : forall x, right_locators x -> forall a b c, valid_regions a -> valid_regions b -> valid_regions c -> a <> [] -> b <> [] -> c <> [] ->
  forall o gab gbc, intersect_multiregions x o a b = Ok gab -> intersect_multiregions x o b c = Ok gbc -> polygons_of gab <> [] -> polygons_of gbc <> [] ->
  forall o', intersect_multiregions x o' (map border (polygons_of gab)) c = intersect_multiregions x o' a (map border (polygons_of gbc)).
Proof.
  intros x Hx a b c A B C NA NB NC o gab gbc Eab Ebc Nab Nbc o'.
  destruct (intersect_known x Hx a b A B NA NB) as (ab & Rab & Cab & Oab & Iab). destruct (intersect_known x Hx b c B C NB NC) as (bc & Rbc & Cbc & Obc & Ibc).
  rewrite Rab in Eab. rewrite Rbc in Ebc. injection Eab as <-. injection Ebc as <-. rewrite (proj2 (proj2 (proj2 (unpack_regions_canonical ab)))) in *. rewrite (proj2 (proj2 (proj2 (unpack_regions_canonical bc)))) in *. rewrite !solid_borders.
  assert (Mab : ab <> []) by (intros ->; apply Nab; reflexivity). assert (Mbc : bc <> []) by (intros ->; apply Nbc; reflexivity).
  destruct (intersect_known x Hx ab c (proj1 Cab) C Mab NC) as (r1 & R1 & C1 & O1 & I1). destruct (intersect_known x Hx a bc A (proj1 Cbc) NA Mbc) as (r2 & R2 & C2 & O2 & I2).
  rewrite R1, R2. do 2 f_equal. apply canonical_unique; [exact C1|exact C2|].
  assert (S1 : forall p, on_segments p (all_edges (ab ++ c)) -> on_segments p (all_edges ((a ++ b) ++ c))) by (intros p O; apply on_both; apply on_both in O; destruct O as [O|O]; [left; exact (Oab p O)|right; exact O]).
  assert (S2 : forall p, on_segments p (all_edges (a ++ bc)) -> on_segments p (all_edges ((a ++ b) ++ c))) by (intros p O; rewrite edges_assoc; apply on_both; apply on_both in O; destruct O as [O|O]; [left; exact O|right; exact (Obc p O)]).
  apply (agree_off r1 r2 (all_edges ((a ++ b) ++ c))); [apply C1|apply C2| | | |].
  - rewrite flat_map_app. apply Forall_app. split; [apply both_proper; assumption|apply regions_proper; exact C].
  - intros p O. apply S1, O1, O.
  - intros p O. apply S2, O2, O.
  - intros p N. rewrite (I1 p) by (intro O; exact (N (S1 p O))). rewrite (I2 p) by (intro O; exact (N (S2 p O))).
    rewrite (Iab p) by (intro O; apply N, on_both; left; exact O). rewrite (Ibc p) by (intro O; apply N; rewrite edges_assoc; apply on_both; right; exact O). tauto.
Qed.
