(** Operations on polygons. *)
From Coq Require Import Permutation Sorted.
From Verif Require Import QcTac Geom Spec SpecShape SpecSides SpecLocate GeomFacts SortFacts Pair Bounding BoundingThms UnpackThms Relation Sweep Linear Labelled Contour Filter Mixed Tracing Shaped Holey LinearThms Shapes Polygons FilterThms MixedThms PairThms MixedProps Locate Rectangle CoupledThms MixedComplete EvenStraight SweepEnd ShapedThms ShapedProps RegionProps HoleyLoop HoleyThms.

Notation all_edges ps := (flat_map polygon_edges ps).
Notation rests first second p := (~ on_segments p (all_edges (first ++ second))).
Lemma contours_of_all : forall gs, flat_map contours_of gs = polygon_contours gs.
Proof. reflexivity. Qed.
Section Swept.
Variables (op : operation) (first second : list polygon).
Hypothesis V1 : valid_polygons first.
Hypothesis V2 : valid_polygons second.
Theorem swept_bounds : first <> [] -> second <> [] ->
  exists s pl, (forall o, op_sweep op o first second = Ok (s, pl, start_numbers s pl))
  /\ shaped_swept op (edges_of first) (edges_of second) (op_x_max op first second) s pl
  /\ forall events, events = pl \/ events = sort_by (binary_key_ltb s) pl ->
       exists gs, events_to_polygons s events (start_numbers s pl) = Ok gs /\ bounds_result op first second gs /\ no_straight_vertices gs
         /\ (forall q, on_segments q (all_edges gs) <-> on_segments q (result_edges s pl))
         /\ (forall q, inside (all_edges gs) q = inside (result_edges s pl) q).
Proof.
  intros N1 N2. destruct (polygons_sweep op first second V1 V2 N1 N2) as (s & pl & H & R & _). exists s, pl. split; [exact R|]. split; [exact H|]. intros events He.
  assert (Pm : Permutation events pl) by (destruct He as [->| ->]; [reflexivity|apply sort_by_perm]).
  assert (So : StronglySorted (fun a b => ple (ev_start s a) (ev_start s b)) events).
  { destruct He as [->| ->]; [|apply sort_start; exact (key_start s)]. destruct (sh_sweep _ _ _ _ _ _ H) as (s0 & out & _ & _ & Hpr & _). exact (pr_sorted _ _ _ _ Hpr). }
  destruct (polygons_traced _ _ _ _ _ _ H events Pm So) as (gs & Eg & Gi & Go & Gc & Gn). exists gs. split; [exact Eg|].
  split; [split; [intros c Hc; exact (proj1 (Gc c Hc))|]|split; [intros c Hc; exact (proj2 (Gc c Hc))|split; [exact Go|exact Gi]]].
  split; [exact Gn|]. split; [intros p Op; apply edges_app; apply (result_on _ _ _ _ _ _ H p); apply Go; exact Op|].
  intros p N. rewrite Gi, (result_inside _ _ _ _ _ _ H p). rewrite flat_map_app, on_segments_app in N. apply member_holds; apply off_member; tauto.
Qed.
Lemma none_bounds : (forall p, rests first second p -> ~ member op (in_polygons first p) (in_polygons second p)) -> bounds_result op first second [] /\ no_straight_vertices [].
Proof.
  intro N. split; [|intros c []]. split; [intros c []|]. split; [split; [constructor|intros [|i] j a b _ E; discriminate E]|]. split; [intros p (sg & [] & _)|].
  intros p R. split; [discriminate|]. intro M. destruct (N p R M).
Qed.
(** Operands with some polygons left out. *)
Lemma kept_bounds : forall first' second' gs, (forall g, In g first' -> In g first) -> (forall g, In g second' -> In g second) ->
  (forall p, rests first second p -> (member op (in_polygons first' p) (in_polygons second' p) <-> member op (in_polygons first p) (in_polygons second p))) ->
  bounds_result op first' second' gs -> bounds_result op first second gs.
Proof.
  intros first' second' gs I1 I2 M (A & B & C & D).
  assert (Ie : forall p, on_segments p (all_edges (first' ++ second')) -> on_segments p (all_edges (first ++ second))).
  { intros p O. apply on_flat in O. destruct O as (g & Hg & O). apply on_flat. exists g. split; [|exact O]. apply in_app_iff in Hg. apply in_or_app. destruct Hg; auto. }
  split; [exact A|]. split; [exact B|]. split; [intros p O; exact (Ie p (C p O))|]. intros p N. rewrite <- (M p N). apply D. intro O. exact (N (Ie p O)).
Qed.
Lemma off_inside_polygons : forall gs p, valid_polygons gs -> ~ on_segments p (all_edges gs) -> (in_polygons gs p <-> inside_polygons gs p).
Proof.
  intros gs p V N. rewrite <- (polygons_interior gs V), <- (off_polygons gs V p N). unfold interior. tauto.
Qed.
End Swept.
Lemma polygons_wide : forall gs b, valid_polygons gs -> gs <> [] -> polygons_box gs = Some b -> wide_box b.
Proof.
  intros gs b V N E. destruct gs as [|g gs]; [contradiction|]. pose proof (Forall_inv (proj1 V)) as ((L & D & _) & _).
  unfold polygons_box, contours_box in E. destruct (points_box_in _ _ E) as (_ & I & _). cbn [map flat_map] in I.
  assert (G : forall v, In v (vertices (border g)) -> in_box v b) by (intros v Hv; apply I, in_or_app; left; exact Hv).
  destruct (vertices (border g)) as [|u [|v l]]; [cbn in L; lia|cbn in L; lia|]. apply (wide_points b u v); [apply G; left; reflexivity|apply G; right; left; reflexivity|].
  intros ->. apply NoDup_cons_iff in D. apply (proj1 D). left. reflexivity.
Qed.
Section Operations.
Variables (x : locators) (first second : list polygon).
Hypothesis Hx : right_locators x.
Hypothesis V1 : valid_polygons first.
Hypothesis V2 : valid_polygons second.
Hypothesis N1 : first <> [].
Hypothesis N2 : second <> [].

Lemma apart_boxes : forall a b p, polygons_box first = Some a -> polygons_box second = Some b -> disjoint_with a b = true -> ~ (in_polygons first p /\ in_polygons second p).
Proof.
  intros a b p Ea Eb D (A & B). destruct (polygons_box_in first a p V1 Ea) as (Wa & Ka). destruct (polygons_box_in second b p V2 Eb) as (Wb & Kb).
  apply (proj1 (disjoint_with_points a b Wa Wb) D p). split; [exact (Ka A)|exact (Kb B)].
Qed.
Lemma coupled_kept : forall gs b p, valid_polygons gs -> wide_box b -> ~ on_segments p (all_edges gs) -> in_box p b -> in_polygons gs p -> in_polygons (to_coupled_polygons x b gs) p.
Proof.
  intros gs b p V (W & D) N Pb J. pose proof J as J'. apply (off_inside_polygons gs p V N) in J. destruct J as (g & Hg & Ig). pose proof (proj1 (Forall_forall _ _) (proj1 V) g Hg) as Vg.
  exists g. split; [apply filter_In; split; [exact Hg|exact (coupled_polygon_kept x b g p Hx W D Vg Pb Ig)]|]. exact (inside_polygon_in g p Vg Ig).
Qed.
Lemma intersecting_kept : forall gs b p, valid_polygons gs -> wf_box b -> in_box p b -> in_polygons gs p -> in_polygons (to_intersecting_polygons x b gs) p.
Proof.
  intros gs b p V W Pb (g & Hg & Ig). exists g. split; [|exact Ig]. apply filter_In. split; [exact Hg|]. apply (intersects_polygon_points x b g Hx W (proj1 (Forall_forall _ _) (proj1 V) g Hg)). exists p. auto.
Qed.
Lemma sub_in : forall f gs p, in_polygons (filter f gs) p -> in_polygons gs p.
Proof. intros f gs p (g & Hg & J). apply filter_In in Hg. exists g. tauto. Qed.
Lemma no_polygons : forall p, ~ in_polygons [] p.
Proof. intros p (g & [] & _). Qed.
Lemma off_both : forall p, rests first second p -> ~ on_segments p (all_edges first) /\ ~ on_segments p (all_edges second).
Proof. intros p N. rewrite flat_map_app, on_segments_app in N. tauto. Qed.

Theorem polygon_intersection_correct : exists gs, (forall o, polygon_intersection x o first second = Ok (unpack_polygons gs))
  /\ bounds_result Meet first second gs /\ no_straight_vertices gs.
Proof.
  destruct (polygons_box_some first V1 N1) as (a & Ea). destruct (polygons_box_some second V2 N2) as (b & Eb).
  assert (R : forall o, polygon_intersection x o first second
    = if disjoint_with a b then Ok GEmpty
      else match to_coupled_polygons x b first with [] => Ok GEmpty | first' =>
           match to_coupled_polygons x a second with [] => Ok GEmpty | second' =>
             bind_res (swept_polygons (sweep_intersection o first' second')) (fun polygons => Ok (unpack_polygons polygons)) end end).
  { intro o. unfold polygon_intersection, meeting_polygons, with_polygon_boxes. rewrite Ea, Eb. reflexivity. }
  destruct (disjoint_with a b) eqn:D.
  { exists []. split; [exact R|]. apply none_bounds. intros p _. exact (apart_boxes a b p Ea Eb D). }
  assert (Kp : forall p, rests first second p -> (in_polygons (to_coupled_polygons x b first) p /\ in_polygons (to_coupled_polygons x a second) p <-> in_polygons first p /\ in_polygons second p)).
  { intros p N. destruct (off_both p N) as (O1 & O2). split; intros (A & B); [split; [exact (sub_in _ _ _ A)|exact (sub_in _ _ _ B)]|]. split.
    - exact (coupled_kept first b p V1 (polygons_wide _ _ V2 N2 Eb) O1 (proj2 (polygons_box_in second b p V2 Eb) B) A).
    - exact (coupled_kept second a p V2 (polygons_wide _ _ V1 N1 Ea) O2 (proj2 (polygons_box_in first a p V1 Ea) A) B). }
  pose proof (valid_polygons_filter (coupled_with_polygon x b) first V1) as V1'. pose proof (valid_polygons_filter (coupled_with_polygon x a) second V2) as V2'.
  change (filter (coupled_with_polygon x b) first) with (to_coupled_polygons x b first) in V1'. change (filter (coupled_with_polygon x a) second) with (to_coupled_polygons x a second) in V2'.
  assert (I1 : forall g, In g (to_coupled_polygons x b first) -> In g first) by (intros g Hg; apply filter_In in Hg; apply Hg).
  assert (I2 : forall g, In g (to_coupled_polygons x a second) -> In g second) by (intros g Hg; apply filter_In in Hg; apply Hg).
  destruct (to_coupled_polygons x b first) as [|r0 first'].
  { exists []. split; [exact R|]. apply none_bounds. intros p N K. apply (Kp p N) in K. exact (no_polygons p (proj1 K)). }
  destruct (to_coupled_polygons x a second) as [|t0 second'].
  { exists []. split; [exact R|]. apply none_bounds. intros p N K. apply (Kp p N) in K. exact (no_polygons p (proj2 K)). }
  destruct (swept_bounds Meet (r0 :: first') (t0 :: second') V1' V2' ltac:(discriminate) ltac:(discriminate)) as (s & pl & Sw & _ & Gs).
  destruct (Gs pl (or_introl eq_refl)) as (gs & Eg & B & S & _). exists gs. split; [|split; [exact (kept_bounds Meet first second _ _ gs I1 I2 Kp B)|exact S]].
  intro o. rewrite R. change (sweep_intersection o) with (op_sweep Meet o). rewrite Sw. unfold swept_polygons. cbn [bind_res]. rewrite Eg. reflexivity.
Qed.
(** The first operand left as it is. *)
Lemma unchanged_bounds : (forall p, rests first second p -> in_polygons first p -> ~ in_polygons second p) -> bounds_result Minus first second first.
Proof.
  intro A. pose proof (proj1 (Forall_forall _ _) (proj1 V1)) as W. split.
  { intros c Hc. apply in_flat_map in Hc. destruct Hc as (g & Hg & [<-|Hc]); [exact (proj1 (W g Hg))|]. exact (proj1 (Forall_forall _ _) (proj1 (proj2 (W g Hg))) c Hc). }
  split; [exact (proj2 (proj2 V1))|]. split; [intros p O; rewrite flat_map_app, on_segments_app; left; exact O|].
  intros p N. rewrite (off_polygons first V1 p (proj1 (off_both p N))). cbn. pose proof (A p N). tauto.
Qed.
Theorem polygon_difference_correct : forall value, polygons_of value = first ->
  exists g, (forall o, polygon_difference x o value first second = Ok g) /\ bounds_result Minus first second (polygons_of g)
  /\ (g = value \/ exists gs, g = unpack_polygons gs /\ no_straight_vertices gs).
Proof.
  intros value Ev. destruct (polygons_box_some first V1 N1) as (a & Ea). destruct (polygons_box_some second V2 N2) as (b & Eb).
  assert (R : forall o, polygon_difference x o value first second
    = if disjoint_with a b then Ok value
      else match to_coupled_polygons x a second with [] => Ok value | second' =>
             bind_res (swept_polygons (sweep_difference o first second')) (fun polygons => Ok (unpack_polygons polygons)) end).
  { intro o. unfold polygon_difference, with_polygon_boxes. rewrite Ea, Eb. reflexivity. }
  destruct (disjoint_with a b) eqn:D.
  { exists value. split; [exact R|]. split; [|left; reflexivity]. rewrite Ev. apply unchanged_bounds. intros p _ A B. exact (apart_boxes a b p Ea Eb D (conj A B)). }
  assert (Kp : forall p, rests first second p -> (in_polygons first p /\ ~ in_polygons (to_coupled_polygons x a second) p <-> in_polygons first p /\ ~ in_polygons second p)).
  { intros p N. destruct (off_both p N) as (O1 & O2). split; intros (A & B); (split; [exact A|]); intro K; apply B.
    - exact (coupled_kept second a p V2 (polygons_wide _ _ V1 N1 Ea) O2 (proj2 (polygons_box_in first a p V1 Ea) A) K).
    - exact (sub_in _ _ _ K). }
  pose proof (valid_polygons_filter (coupled_with_polygon x a) second V2) as V2'. change (filter (coupled_with_polygon x a) second) with (to_coupled_polygons x a second) in V2'.
  assert (I2 : forall g, In g (to_coupled_polygons x a second) -> In g second) by (intros g Hg; apply filter_In in Hg; apply Hg).
  destruct (to_coupled_polygons x a second) as [|t0 second'].
  { exists value. split; [exact R|]. split; [|left; reflexivity]. rewrite Ev. apply unchanged_bounds. intros p N A. apply (Kp p N). split; [exact A|]. exact (no_polygons p). }
  destruct (swept_bounds Minus first (t0 :: second') V1 V2' N1 ltac:(discriminate)) as (s & pl & Sw & _ & Gs).
  destruct (Gs pl (or_introl eq_refl)) as (gs & Eg & B & S & _). exists (unpack_polygons gs).
  split; [intro o; rewrite R; change (sweep_difference o) with (op_sweep Minus o); rewrite Sw; unfold swept_polygons; cbn [bind_res]; rewrite Eg; reflexivity|].
  rewrite (proj2 (proj2 (proj2 (unpack_polygons_canonical gs)))). split; [exact (kept_bounds Minus first second _ _ gs (fun g H => H) I2 Kp B)|]. right. exists gs. auto.
Qed.
(** Operands with disjoint boxes put together. *)
Lemma together_bounds : forall a b, polygons_box first = Some a -> polygons_box second = Some b -> disjoint_with a b = true ->
  forall op gs, op = Differ \/ op = Join -> Permutation gs (first ++ second) -> bounds_result op first second gs.
Proof.
  intros a b Ea Eb D op gs Ho Pm.
  pose proof (proj1 (Forall_forall _ _) (proj1 V1)) as W1. pose proof (proj1 (Forall_forall _ _) (proj1 V2)) as W2.
  assert (Pe : Permutation (all_edges gs) (all_edges first ++ all_edges second)) by (rewrite <- flat_map_app; apply Permutation_flat_map, Pm).
  assert (Oe : forall p, on_segments p (all_edges gs) <-> on_segments p (all_edges (first ++ second))).
  { intro p. rewrite flat_map_app. unfold on_segments. split; intros (sg & Hs & Os); exists sg; (split; [|exact Os]); [exact (Permutation_in _ Pe Hs)|exact (Permutation_in _ (Permutation_sym Pe) Hs)]. }
  split.
  { intros c Hc. apply in_flat_map in Hc. destruct Hc as (g & Hg & Hc). apply (Permutation_in _ Pm) in Hg.
    assert (Vg : valid_polygon g) by (apply in_app_or in Hg; destruct Hg as [Hg|Hg]; [exact (W1 g Hg)|exact (W2 g Hg)]).
    destruct Hc as [<-|Hc]; [exact (proj1 Vg)|]. exact (proj1 (Forall_forall _ _) (proj1 (proj2 Vg)) c Hc). }
  split.
  { apply (non_overlapping_perm (all_edges first ++ all_edges second)); [apply Permutation_sym, Pe|]. apply non_overlapping_app; [exact (proj2 (proj2 V1))|exact (proj2 (proj2 V2))|].
    intros s t Hs Ht (p & q & _ & Ps & Pt & _). apply (apart_boxes a b p Ea Eb D). split; [apply (polygons_region first V1)|apply (polygons_region second V2)]; left; [exists s|exists t]; auto. }
  split; [intros p O; apply Oe, O|].
  intros p N. rewrite (inside_perm _ _ p Pe), inside_app. destruct (off_both p N) as (O1 & O2).
  pose proof (off_polygons first V1 p O1) as M1. pose proof (off_polygons second V2 p O2) as M2. pose proof (apart_boxes a b p Ea Eb D) as Ap.
  destruct Ho as [->| ->]; cbn [member]; destruct (inside (all_edges first) p), (inside (all_edges second) p); cbn [xorb]; intuition congruence.
Qed.
Lemma put_together : Permutation (sort_by (fun a b => pt_ltb (first_border_vertex a) (first_border_vertex b)) (first ++ second)) (first ++ second).
Proof. apply sort_by_perm. Qed.
Lemma together_canonical : canonical (disjoint_polygons first second).
Proof.
  cbn. right. right. rewrite (Permutation_length put_together), app_length. destruct first, second; cbn; [contradiction|contradiction|contradiction|lia].
Qed.
Theorem polygon_united_correct : forall op (f : oracle -> list polygon -> list polygon -> res geometry), (op = Differ /\ f = polygon_symmetric_difference) \/ (op = Join /\ f = polygon_union) ->
  exists g, (forall o, f o first second = Ok g) /\ canonical g /\ points_of g = [] /\ segments_of g = [] /\ bounds_result op first second (polygons_of g)
  /\ (g = disjoint_polygons first second \/ no_straight_vertices (polygons_of g)).
Proof.
  intros op f Hf. destruct (polygons_box_some first V1 N1) as (a & Ea). destruct (polygons_box_some second V2 N2) as (b & Eb).
  assert (R : forall o, f o first second
    = if disjoint_with a b then Ok (disjoint_polygons first second)
      else bind_res (swept_polygons (op_sweep op o first second)) (fun polygons => Ok (unpack_polygons polygons))).
  { intro o. destruct Hf as [(-> & ->)|(-> & ->)]; unfold polygon_symmetric_difference, polygon_union, with_polygon_boxes; rewrite Ea, Eb; reflexivity. }
  destruct (disjoint_with a b) eqn:D.
  - exists (disjoint_polygons first second). split; [exact R|]. split; [exact together_canonical|]. split; [reflexivity|]. split; [reflexivity|]. split; [|left; reflexivity].
    apply (together_bounds a b Ea Eb D); [tauto|exact put_together].
  - destruct (swept_bounds op first second V1 V2 N1 N2) as (s & pl & Sw & _ & Gs). destruct (Gs pl (or_introl eq_refl)) as (gs & Eg & B & S & _). exists (unpack_polygons gs).
    split; [intro o; rewrite R, Sw; unfold swept_polygons; cbn [bind_res]; rewrite Eg; reflexivity|].
    destruct (unpack_polygons_canonical gs) as (C1 & C2 & C3 & C4). rewrite C4. auto 10.
Qed.
End Operations.

(** ** Operations of planar.py *)
Section Planar.
Variable x : locators.
Hypothesis Hx : right_locators x.
Definition polygons_only (op : operation) (first second : list polygon) (g : geometry) : Prop :=
  points_of g = [] /\ segments_of g = [] /\ bounds_result op first second (polygons_of g).
Lemma unpacked_only : forall op first second gs, bounds_result op first second gs -> polygons_only op first second (unpack_polygons gs).
Proof. intros op first second gs B. destruct (unpack_polygons_canonical gs) as (_ & A & C & D). unfold polygons_only. rewrite D. auto. Qed.
Theorem intersect_multipolygons_correct : forall first second, valid_polygons first -> valid_polygons second -> first <> [] -> second <> [] ->
  exists g, (forall o, intersect_multipolygons x o first second = Ok g) /\ canonical g /\ no_straight_vertices (polygons_of g) /\ polygons_only Meet first second g.
Proof.
  intros first second V1 V2 N1 N2. destruct (polygon_intersection_correct x first second Hx V1 V2 N1 N2) as (gs & R & B & S). exists (unpack_polygons gs). split; [exact R|].
  split; [apply unpack_polygons_canonical|]. split; [|exact (unpacked_only _ _ _ _ B)]. rewrite (proj2 (proj2 (proj2 (unpack_polygons_canonical gs)))). exact S.
Qed.
Lemma difference_correct : forall value first second, valid_polygons first -> valid_polygons second -> first <> [] -> second <> [] ->
  polygons_of value = first -> points_of value = [] -> segments_of value = [] -> canonical value ->
  exists g, (forall o, polygon_difference x o value first second = Ok g) /\ canonical g /\ (g = value \/ no_straight_vertices (polygons_of g)) /\ polygons_only Minus first second g.
Proof.
  intros value first second V1 V2 N1 N2 Ev Ep Es Cv. destruct (polygon_difference_correct x first second Hx V1 V2 N1 N2 value Ev) as (g & R & B & S). exists g. split; [exact R|].
  destruct S as [->|(gs & -> & S)]; [split; [exact Cv|]; split; [left; reflexivity|]; split; [exact Ep|]; split; [exact Es|exact B]|].
  split; [apply unpack_polygons_canonical|]. rewrite (proj2 (proj2 (proj2 (unpack_polygons_canonical gs)))) in *. split; [right; exact S|]. exact (unpacked_only _ _ _ _ B).
Qed.
Theorem subtract_multipolygons_correct : forall minuend subtrahend, valid_polygons minuend -> valid_polygons subtrahend -> (2 <= length minuend)%nat -> subtrahend <> [] ->
  exists g, (forall o, subtract_multipolygons x o minuend subtrahend = Ok g) /\ canonical g /\ (g = GMultipolygon minuend \/ no_straight_vertices (polygons_of g)) /\ polygons_only Minus minuend subtrahend g.
Proof.
  intros first second V1 V2 N1 N2. apply difference_correct; try assumption; try reflexivity; [intros ->; cbn in N1; lia|]. right. right. exact N1.
Qed.
Theorem subtract_multipolygon_polygon_correct : forall minuend subtrahend, valid_polygon minuend -> valid_polygons subtrahend -> subtrahend <> [] ->
  exists g, (forall o, subtract_multipolygon_from_polygon x o minuend subtrahend = Ok g) /\ canonical g /\ (g = GPolygon minuend \/ no_straight_vertices (polygons_of g)) /\ polygons_only Minus [minuend] subtrahend g.
Proof.
  intros first second V1 V2 N2. apply difference_correct; try assumption; try reflexivity; [exact (single_polygon_valid first V1)|discriminate|]. right. right. exact I.
Qed.
Lemma united_correct : forall op (f : oracle -> list polygon -> list polygon -> res geometry), (op = Differ /\ f = polygon_symmetric_difference) \/ (op = Join /\ f = polygon_union) ->
  forall first second, valid_polygons first -> valid_polygons second -> first <> [] -> second <> [] ->
  exists g, (forall o, f o first second = Ok g) /\ canonical g /\ (Permutation (polygons_of g) (first ++ second) \/ no_straight_vertices (polygons_of g)) /\ polygons_only op first second g.
Proof.
  intros op f Hf first second V1 V2 N1 N2. destruct (polygon_united_correct first second V1 V2 N1 N2 op f Hf) as (g & R & C & P & S & B & K). exists g. split; [exact R|]. split; [exact C|].
  split; [|split; [exact P|]; split; [exact S|exact B]]. destruct K as [->|K]; [left; apply put_together|right; exact K].
Qed.
Theorem intersect_polygons_correct : forall first second, valid_polygon first -> valid_polygon second ->
  exists g, (forall o, intersect_polygons x o first second = Ok g) /\ canonical g /\ no_straight_vertices (polygons_of g) /\ polygons_only Meet [first] [second] g.
Proof. intros a b V1 V2. apply (intersect_multipolygons_correct [a] [b] (single_polygon_valid a V1) (single_polygon_valid b V2)); discriminate. Qed.
Theorem intersect_polygon_multipolygon_correct : forall shape multipolygon, valid_polygon shape -> valid_polygons multipolygon -> multipolygon <> [] ->
  exists g, (forall o, intersect_polygon_with_multipolygon x o shape multipolygon = Ok g) /\ canonical g /\ no_straight_vertices (polygons_of g) /\ polygons_only Meet [shape] multipolygon g.
Proof. intros a b V1 V2 N2. apply (intersect_multipolygons_correct [a] b (single_polygon_valid a V1) V2); [discriminate|exact N2]. Qed.
Theorem subtract_polygons_correct : forall minuend subtrahend, valid_polygon minuend -> valid_polygon subtrahend ->
  exists g, (forall o, subtract_polygons x o minuend subtrahend = Ok g) /\ canonical g /\ (g = GPolygon minuend \/ no_straight_vertices (polygons_of g)) /\ polygons_only Minus [minuend] [subtrahend] g.
Proof. intros a b V1 V2. apply (subtract_multipolygon_polygon_correct a [b] V1 (single_polygon_valid b V2)); discriminate. Qed.
Theorem subtract_polygon_multipolygon_correct : forall minuend subtrahend, valid_polygons minuend -> valid_polygon subtrahend -> (2 <= length minuend)%nat ->
  exists g, (forall o, subtract_polygon_from_multipolygon x o minuend subtrahend = Ok g) /\ canonical g /\ (g = GMultipolygon minuend \/ no_straight_vertices (polygons_of g)) /\ polygons_only Minus minuend [subtrahend] g.
Proof. intros a b V1 V2 N. apply (subtract_multipolygons_correct a [b] V1 (single_polygon_valid b V2) N); discriminate. Qed.
End Planar.
Theorem symmetric_subtract_multipolygons_correct : forall first second, valid_polygons first -> valid_polygons second -> first <> [] -> second <> [] ->
  exists g, (forall o, symmetric_subtract_multipolygons o first second = Ok g) /\ canonical g
  /\ (Permutation (polygons_of g) (first ++ second) \/ no_straight_vertices (polygons_of g)) /\ polygons_only Differ first second g.
Proof. exact (united_correct Differ polygon_symmetric_difference (or_introl (conj eq_refl eq_refl))). Qed.
Theorem symmetric_subtract_multipolygon_polygon_correct : forall shape multipolygon, valid_polygon shape -> valid_polygons multipolygon -> multipolygon <> [] ->
  exists g, (forall o, symmetric_subtract_multipolygon_from_polygon o shape multipolygon = Ok g) /\ canonical g
  /\ (Permutation (polygons_of g) ([shape] ++ multipolygon) \/ no_straight_vertices (polygons_of g)) /\ polygons_only Differ [shape] multipolygon g.
Proof. intros a b V1 V2 N2. apply (symmetric_subtract_multipolygons_correct [a] b (single_polygon_valid a V1) V2); [discriminate|exact N2]. Qed.
Theorem symmetric_subtract_polygons_correct : forall first second, valid_polygon first -> valid_polygon second ->
  exists g, (forall o, symmetric_subtract_polygons o first second = Ok g) /\ canonical g
  /\ (Permutation (polygons_of g) ([first] ++ [second]) \/ no_straight_vertices (polygons_of g)) /\ polygons_only Differ [first] [second] g.
Proof. intros a b V1 V2. apply (symmetric_subtract_multipolygons_correct [a] [b] (single_polygon_valid a V1) (single_polygon_valid b V2)); discriminate. Qed.
Theorem unite_multipolygons_correct : forall first second, valid_polygons first -> valid_polygons second -> first <> [] -> second <> [] ->
  exists g, (forall o, unite_multipolygons o first second = Ok g) /\ canonical g
  /\ (Permutation (polygons_of g) (first ++ second) \/ no_straight_vertices (polygons_of g)) /\ polygons_only Join first second g.
Proof. exact (united_correct Join polygon_union (or_intror (conj eq_refl eq_refl))). Qed.
Theorem unite_polygon_multipolygon_correct : forall shape multipolygon, valid_polygon shape -> valid_polygons multipolygon -> multipolygon <> [] ->
  exists g, (forall o, unite_polygon_with_multipolygon o shape multipolygon = Ok g) /\ canonical g
  /\ (Permutation (polygons_of g) ([shape] ++ multipolygon) \/ no_straight_vertices (polygons_of g)) /\ polygons_only Join [shape] multipolygon g.
Proof. intros a b V1 V2 N2. apply (unite_multipolygons_correct [a] b (single_polygon_valid a V1) V2); [discriminate|exact N2]. Qed.
Theorem unite_polygons_correct : forall first second, valid_polygon first -> valid_polygon second ->
  exists g, (forall o, unite_polygons o first second = Ok g) /\ canonical g
  /\ (Permutation (polygons_of g) ([first] ++ [second]) \/ no_straight_vertices (polygons_of g)) /\ polygons_only Join [first] [second] g.
Proof. intros a b V1 V2. apply (unite_multipolygons_correct [a] [b] (single_polygon_valid a V1) (single_polygon_valid b V2)); discriminate. Qed.
