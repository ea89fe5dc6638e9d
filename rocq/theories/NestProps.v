(** Polygons found for operands in a general position are valid ones with
    separate contours.  Proof support only, no part of /repo is modelled here. *)
From Coq Require Import Permutation Sorted.
From Verif Require Import QcTac Geom Spec SpecShape SpecSides SpecNest GeomFacts EvenOdd Flip SortFacts SpecLocate Pair PairProofs FilterThms CoupledThms MixedProps UnpackThms Toward Cycle Bounding BoundingThms Relation PairFacts SweepGeo SweepInv SweepSteps Sweep SweepCmp SweepLink Linear SweepRun SweepLoop SweepStart SweepEnd SelectThms LinearMeaning LinearThms LinearComplete Contour Labelled Filter Mixed Shaped Holey Parity Counting ShrinkThms ConnectThms Tracing TraceThms RegionThms OrientThms PairThms Erase Beneath Flow Labels LabelEnd Outline Classify Telescope Polygons Sides EvenStraight MixedThms MixedComplete ShapedThms ShapedProps HoleyLoop TracedLoops HoleyThms HoleyProps HoleyNest Shapes Nesting NestTraced GeneralPos Degree CompleteProps Locate Examples.

(** Another segment ends where one does. *)
Lemma even_other : forall l s q, Forall proper (s :: l) -> even_occurrences (endpoints_of (s :: l)) -> endpoint q s -> exists k, In k l /\ endpoint q k.
Proof.
  intros l s q Pr Ev Es. assert (In q (endpoints_of l)) as I.
  { destruct (in_dec pt_eq_dec q (endpoints_of l)) as [I|N]; [exact I|exfalso]. specialize (Ev q).
    assert (Pq : proper s) by (inversion Pr; assumption). unfold proper in Pq. destruct s as [u v]. cbn in Ev, Es, Pq.
    apply (count_occ_not_In pt_eq_dec) in N. unfold endpoints_of in Ev, N. cbn [flat_map app s_start s_end count_occ] in Ev.
    unfold endpoint in Es. cbn in Es. destruct (pt_eq_dec u q) as [A|A], (pt_eq_dec v q) as [B|B]; rewrite ?N in Ev; try discriminate Ev; [congruence|destruct Es; congruence]. }
  apply in_flat_map in I. destruct I as (k & Ik & Iq). exists k. split; [exact Ik|]. destruct Iq as [<-|[<-|[]]]; [left|right]; reflexivity.
Qed.

Section Apart.
Variables (op : operation) (E1 E2 : list segment) (x_max : option Qc) (s : state) (pl : list event).
Hypothesis H : shaped_swept op E1 E2 x_max s pl.
Variable events : list event.
Hypothesis Hperm : Permutation events pl.
Notation evs := (result_events s events).
Notation ts := (map (traced_of s events) evs).
Variable f : event -> nat.
Hypothesis Hord : forall a b, In a pl -> In b pl -> ((f a <= f b)%nat <-> ple (ev_start s a) (ev_start s b)).
Notation hs := (map (holey_of s events f) evs).
Variables (p0 : list bool) (mk : marks) (r : relations) (contours : list contour) (done : list (list nat)).
Hypothesis T : tracing s hs (length hs) p0 mk r contours done.
Hypothesis Hdone : Permutation (concat done ++ map (opp ts) (concat done)) (seq 0 (length ts)).
Hypothesis S1 : sparse E1.
Hypothesis S2 : sparse E2.
Hypothesis S12 : strangers E1 E2.
Hypothesis Hop : op <> Differ.
Notation g := (seg_of s).
Notation m := (length done).
Notation part j := (parts s events f done j).
Theorem traced_apart : NestTraced.contours_apart contours.
Proof.
  pose proof (done_length _ _ _ _ _ _ _ _ T) as Lm.
  assert (K : forall j k q, (j < m)%nat -> (k < m)%nat -> j <> k -> on_segments q (shape_at contours j) -> on_segments q (shape_at contours k) -> False).
  { intros j k q Hj Hk N Oj Ok. apply (on_parts _ _ _ _ _ _ H _ Hperm _ Hord _ _ _ _ _ T Hdone j q Hj) in Oj. apply (on_parts _ _ _ _ _ _ H _ Hperm _ Hord _ _ _ _ _ T Hdone k q Hk) in Ok.
    destruct Oj as (x & Ix & Ox), Ok as (y & Iy & Oy).
    assert (Nxy : forall x y, In x (part j) -> In y (part k) -> x <> y) by (intros a b A B ->; exact (N (parts_apart _ _ _ _ _ _ _ _ T j k b A B))).
    assert (Sel : forall j x, In x (part j) -> selected s pl x) by (intros j' x' Hx'; exact (part_seen _ _ _ _ _ _ H _ Hperm _ _ _ _ _ _ T j' x' Hx')).
    pose proof (selected_lt _ _ _ _ _ _ H x (Sel j x Ix)) as Lx.
    destruct (selected_meet _ _ _ _ _ _ H S12 x y q (Sel k y Iy) Lx (Nxy x y Ix Iy) Ox Oy) as (Ex & Ey).
    destruct (in_split _ _ Ix) as (u & v & Euv).
    assert (Pm : Permutation (part j) (x :: u ++ v)) by (rewrite Euv; apply Permutation_sym, Permutation_middle).
    assert (Nd : NoDup (x :: u ++ v)) by (apply (Permutation_NoDup Pm); exact (parts_nodup _ _ _ _ _ _ H _ Hperm _ _ _ _ _ _ T j Hj)).
    pose proof (Permutation_map g Pm) as Pg. cbn [map] in Pg.
    destruct (even_other (map g (u ++ v)) (g x) q) as (z' & Iz & Ez); [| |exact Ex|].
    - apply Forall_forall. intros sg Hsg. apply (Permutation_in _ (Permutation_sym Pg)) in Hsg. apply in_map_iff in Hsg. destruct Hsg as (z & <- & Iz). intro E. pose proof (lt_ends _ _ _ _ _ _ H z (selected_lt _ _ _ _ _ _ H z (Sel j z Iz))) as L. rewrite E in L. exact (plt_irrefl _ L).
    - apply (Shapes.even_perm (endpoints_of (map g (part j)))); [unfold endpoints_of; apply Permutation_flat_map; exact Pg|]. exact (parts_even _ _ _ _ _ _ H _ Hperm _ Hord _ _ _ _ _ T Hdone j Hj).
    - apply in_map_iff in Iz. destruct Iz as (z & <- & Iz). assert (Izj : In z (part j)) by (apply (Permutation_in _ (Permutation_sym Pm)); right; exact Iz).
      apply (degree _ _ _ _ _ _ H S1 S2 S12 Hop x z y q (Sel j x Ix) (Sel j z Izj) (Sel k y Iy)); [|exact (Nxy x y Ix Iy)|exact (Nxy z y Izj Iy)|exact Ex|exact Ez|exact Ey].
      intros ->. inversion Nd. contradiction. }
  intros j k c d N Hc Hd q Oc Od. apply (nth_error_nth _ _ no_contour) in Hc as Ec. apply (nth_error_nth _ _ no_contour) in Hd as Ed. assert (Lc : (j < length contours)%nat) by (apply nth_error_Some; congruence). assert (Ld : (k < length contours)%nat) by (apply nth_error_Some; congruence).
  apply (K j k q); [lia|lia|exact N|unfold shape_at; rewrite Ec; exact Oc|unfold shape_at; rewrite Ed; exact Od].
Qed.
End Apart.

(** ** Sweeps of polygons *)
Section Polygons.
Variables (op : operation) (first second : list polygon).
Hypothesis V1 : valid_polygons first.
Hypothesis V2 : valid_polygons second.
Hypothesis M : mild_position first second.
Lemma swept_chain : forall s pl, (forall e P, fit (fill_polygons first second) e P -> cleared (V e (relevant_points (fill_polygons first second))) (abs e (fill_polygons first second) []) -> chained e s pl) ->
  forall Q, exists e, Sheared e Q /\ chained e s pl.
Proof.
  intros s pl C Q. set (R := relevant_points (fill_polygons first second)). destruct (shear_exists (R ++ middles R ++ Q)) as (e & He & Hs).
  assert (Sub : forall P, incl P (R ++ middles R ++ Q) -> Sheared e P) by (intros P Hi; exact (sheared_incl _ _ _ Hs Hi)).
  exists e. split; [apply Sub; intros x Hx; apply in_or_app; right; apply in_or_app; right; exact Hx|].
  apply (C e (R ++ middles R ++ Q)).
  - split; [exact Hs|]. split; intros x Hx; apply in_or_app; [left; exact Hx|right; apply in_or_app; left; exact Hx].
  - apply (start_cleared _ _ _ (filled_polygons first second)).
    + apply lawful_operands; [exact (proj1 (oriented_boundary first V1))|exact (proj1 (oriented_boundary second V2))].
    + apply (mild_begins first second); [|exact M]. apply Forall_app. split; [exact (proj1 (proj1 (oriented_boundary first V1)))|exact (proj1 (proj1 (oriented_boundary second V2)))].
    + apply Sub. intros x Hx. apply in_or_app. left. exact Hx.
Qed.
Section Swept.
Hypothesis N1 : first <> [].
Hypothesis N2 : second <> [].
Variables (o : oracle) (s : state) (pl : list event) (ns : start_ids) (events : list event) (gs : list polygon).
Hypothesis Ho : op_sweep op o first second = Ok (s, pl, ns).
Hypothesis He : events = pl \/ events = sort_by (binary_key_ltb s) pl.
Hypothesis Eg : events_to_polygons s events ns = Ok gs.
Theorem swept_valid : valid_polygons gs.
Proof.
  destruct (polygons_sweep op first second V1 V2 N1 N2) as (s' & pl' & H & R & C). pose proof Ho as Ho'. rewrite (R o) in Ho'. injection Ho' as -> -> En. pose proof Eg as Eg'. rewrite <- En in Eg'.
  pose proof (swept_chain s pl C) as Hchain.
  assert (Pm : Permutation events pl) by (destruct He as [->| ->]; [reflexivity|apply sort_by_perm]).
  assert (So : StronglySorted (fun a b => ple (ev_start s a) (ev_start s b)) events).
  { destruct He as [->| ->]; [|apply sort_start; exact (key_start s)]. destruct (sh_sweep _ _ _ _ _ _ H) as (s0 & out & _ & _ & Hpr & _). exact (pr_sorted _ _ _ _ Hpr). }
  destruct (polygons_traced _ _ _ _ _ _ H events Pm So) as (gs' & E' & _ & _ & _ & Gn). rewrite Eg' in E'. injection E' as <-.
  destruct (events_traced _ _ _ _ _ _ H events Pm So) as (f & r & contours & done & E & Hord & (p & m & T) & Hdone). rewrite E in Eg'. injection Eg' as <-.
  apply (nested_valid _ _ _ _ _ _ H events Pm f Hord p m r contours done T Hdone Hchain).
  - intros c Hc. pose proof (tr_drawn _ _ _ _ _ _ _ _ T) as D. clear - D Hc. induction D as [|L d Ls ds D _ IH]; [destruct Hc|]. destruct Hc as [<-|Hc]; [exact (proj1 D)|exact (IH Hc)].
  - exact Gn.
Qed.
Theorem swept_separate : op <> Differ -> general_position first second -> separate_contours (polygon_contours gs).
Proof.
  intros Hop G. destruct (polygons_sweep op first second V1 V2 N1 N2) as (s' & pl' & H & R & C). pose proof Ho as Ho'. rewrite (R o) in Ho'. injection Ho' as -> -> En. pose proof Eg as Eg'. rewrite <- En in Eg'.
  assert (Pm : Permutation events pl) by (destruct He as [->| ->]; [reflexivity|apply sort_by_perm]).
  assert (So : StronglySorted (fun a b => ple (ev_start s a) (ev_start s b)) events).
  { destruct He as [->| ->]; [|apply sort_start; exact (key_start s)]. destruct (sh_sweep _ _ _ _ _ _ H) as (s0 & out & _ & _ & Hpr & _). exact (pr_sorted _ _ _ _ Hpr). }
  destruct (events_traced _ _ _ _ _ _ H events Pm So) as (f & r & contours & done & E & Hord & (p & m & T) & Hdone). rewrite E in Eg'. injection Eg' as <-.
  pose proof (polygons_sparse first V1 (proj1 G)) as Sp1. pose proof (polygons_sparse second V2 (proj1 (proj2 G))) as Sp2. pose proof (polygons_strangers first second G) as St.
  pose proof (traced_apart _ _ _ _ _ _ H events Pm f Hord p m r contours done T Hdone Sp1 Sp2 St Hop) as Ap.
  apply (pairwise_perm _ _ contours); [intros a b K q Q1 Q2; exact (K q Q2 Q1)|apply Permutation_sym; exact (polygons_contours _ _ (tr_related _ _ _ _ _ _ _ _ T))|exact Ap].
Qed.
End Swept.
End Polygons.

(** ** Operations *)
Definition nested_polygons (gs : list polygon) : Prop := valid_polygons gs /\ separate_contours (polygon_contours gs).
Lemma separate_sym : forall c d : contour, (forall p, on_segments p (contour_edges (vertices c)) -> ~ on_segments p (contour_edges (vertices d))) ->
  forall p, on_segments p (contour_edges (vertices d)) -> ~ on_segments p (contour_edges (vertices c)).
Proof. intros c d H p A B. exact (H p B A). Qed.
Lemma separate_perm : forall gs gs', Permutation gs gs' -> separate_contours (polygon_contours gs) -> separate_contours (polygon_contours gs').
Proof. intros gs gs' P S. apply (pairwise_perm _ _ (polygon_contours gs)); [exact separate_sym|apply Permutation_flat_map; exact P|exact S]. Qed.
Lemma separate_filter : forall f gs, separate_contours (polygon_contours gs) -> separate_contours (polygon_contours (filter f gs)).
Proof.
  intros f gs S. apply (separate_perm _ _ (filter_partition _ f gs)) in S. unfold polygon_contours in S. rewrite flat_map_app in S.
  exact (pairwise_infix _ _ [] _ _ S).
Qed.
Lemma general_filter : forall f1 f2 first second, general_position first second -> general_position (filter f1 first) (filter f2 second).
Proof.
  assert (Sub : forall f gs c, In c (polygon_contours (filter f gs)) -> In c (polygon_contours gs)).
  { intros f gs c Hc. apply in_flat_map in Hc. destruct Hc as (g & Hg & Hc). apply in_flat_map. exists g. split; [apply filter_In in Hg; apply Hg|exact Hc]. }
  assert (On : forall f gs p, on_segments p (flat_map polygon_edges (filter f gs)) -> on_segments p (flat_map polygon_edges gs)).
  { intros f gs p (sg & Hs & O). exists sg. split; [|exact O]. apply in_flat_map in Hs. destruct Hs as (g & Hg & Hs). apply in_flat_map. exists g. split; [apply filter_In in Hg; apply Hg|exact Hs]. }
  intros f1 f2 first second (A & B & C & D). split; [apply separate_filter, A|]. split; [apply separate_filter, B|]. split.
  - intros c p Hc Hp O. exact (C c p (Sub _ _ _ Hc) Hp (On _ _ _ O)).
  - intros c p Hc Hp O. exact (D c p (Sub _ _ _ Hc) Hp (On _ _ _ O)).
Qed.
Lemma filter_everything : forall (A : Type) (l : list A), filter (fun _ => true) l = l.
Proof. induction l as [|a l IH]; [reflexivity|]. cbn. rewrite IH. reflexivity. Qed.
Lemma none_nested : nested_polygons [].
Proof.
  split; [split; [constructor|split; [intros [|i] j a b _ E; discriminate E|split; [constructor|intros [|i] j a b _ E; discriminate E]]]|intros [|i] j a b _ E; discriminate E].
Qed.
(** ** Operations keeping a property of operands and results *)
Section Operations.
Variables (place : list polygon -> list polygon -> Prop) (fine : operation -> Prop) (nice : list polygon -> Prop).
Hypothesis Hsweep : forall op o first second s pl ns, valid_polygons first -> valid_polygons second -> first <> [] -> second <> [] -> place first second -> fine op ->
  op_sweep op o first second = Ok (s, pl, ns) -> forall events, events = pl \/ events = sort_by (binary_key_ltb s) pl -> forall gs, events_to_polygons s events ns = Ok gs -> nice gs.
Hypothesis Hfilter : forall f1 f2 first second, place first second -> place (filter f1 first) (filter f2 second).
Hypothesis Hnone : nice [].
Hypothesis Hfirst : forall first second, valid_polygons first -> place first second -> nice first.
Hypothesis Htogether : forall first second a b, valid_polygons first -> valid_polygons second -> place first second ->
  polygons_box first = Some a -> polygons_box second = Some b -> disjoint_with a b = true -> forall gs, Permutation gs (first ++ second) -> nice gs.

Lemma swept_unpacked : forall op o first second g, valid_polygons first -> valid_polygons second -> first <> [] -> second <> [] -> place first second -> fine op ->
  bind_res (swept_polygons (op_sweep op o first second)) (fun polygons => Ok (unpack_polygons polygons)) = Ok g -> nice (polygons_of g).
Proof.
  intros op o first second g V1 V2 N1 N2 G Hop E. destruct (swept_polygons (op_sweep op o first second)) as [gs|err] eqn:Es; [|discriminate E]. cbn [bind_res] in E. injection E as <-.
  rewrite (proj2 (proj2 (proj2 (unpack_polygons_canonical gs)))). unfold swept_polygons in Es. destruct (op_sweep op o first second) as [((s, pl), ns)|err] eqn:Eo; [|discriminate Es]. cbn [bind_res] in Es.
  exact (Hsweep op o first second s pl ns V1 V2 N1 N2 G Hop Eo pl (or_introl eq_refl) gs Es).
Qed.
Variables (x : locators) (first second : list polygon).
Hypothesis V1 : valid_polygons first.
Hypothesis V2 : valid_polygons second.
Hypothesis N1 : first <> [].
Hypothesis N2 : second <> [].
Hypothesis G : place first second.
Theorem polygon_intersection_nice : fine Meet -> forall o g, polygon_intersection x o first second = Ok g -> nice (polygons_of g).
Proof.
  intros F o g. destruct (polygons_box_some first V1 N1) as (a & Ea). destruct (polygons_box_some second V2 N2) as (b & Eb).
  unfold polygon_intersection, meeting_polygons, with_polygon_boxes. rewrite Ea, Eb.
  destruct (disjoint_with a b); [intro E; injection E as <-; exact Hnone|].
  pose proof (valid_polygons_filter (coupled_with_polygon x b) first V1) as V1'. pose proof (valid_polygons_filter (coupled_with_polygon x a) second V2) as V2'.
  pose proof (Hfilter (coupled_with_polygon x b) (coupled_with_polygon x a) first second G) as G'.
  change (filter (coupled_with_polygon x b) first) with (to_coupled_polygons x b first) in *. change (filter (coupled_with_polygon x a) second) with (to_coupled_polygons x a second) in *.
  destruct (to_coupled_polygons x b first) as [|r0 first']; [intro E; injection E as <-; exact Hnone|].
  destruct (to_coupled_polygons x a second) as [|t0 second']; [intro E; injection E as <-; exact Hnone|].
  intro E. refine (swept_unpacked Meet o _ _ g V1' V2' _ _ G' F E); discriminate.
Qed.
Theorem polygon_complete_nice : fine Meet -> forall o g, polygon_complete_intersection x o first second = Ok g -> nice (polygons_of g).
Proof.
  intros F o g. destruct (polygons_box_some first V1 N1) as (a & Ea). destruct (polygons_box_some second V2 N2) as (b & Eb).
  unfold polygon_complete_intersection, meeting_polygons, with_polygon_boxes. rewrite Ea, Eb.
  destruct (disjoint_with a b); [intro E; injection E as <-; exact Hnone|].
  pose proof (valid_polygons_filter (intersects_with_polygon x b) first V1) as V1'. pose proof (valid_polygons_filter (intersects_with_polygon x a) second V2) as V2'.
  pose proof (Hfilter (intersects_with_polygon x b) (intersects_with_polygon x a) first second G) as G'.
  change (filter (intersects_with_polygon x b) first) with (to_intersecting_polygons x b first) in *. change (filter (intersects_with_polygon x a) second) with (to_intersecting_polygons x a second) in *.
  destruct (to_intersecting_polygons x b first) as [|r0 first']; [intro E; injection E as <-; exact Hnone|].
  destruct (to_intersecting_polygons x a second) as [|t0 second']; [intro E; injection E as <-; exact Hnone|].
  change (sweep_intersection o (r0 :: first') (t0 :: second')) with (op_sweep Meet o (r0 :: first') (t0 :: second')).
  destruct (op_sweep Meet o (r0 :: first') (t0 :: second')) as [((s, pl), ns)|err] eqn:Eo; [|intro E; discriminate E]. cbn [bind_res].
  destruct (events_to_polygons s (sort_by (binary_key_ltb s) pl) ns) as [gs|err] eqn:Eg; [|intro E; discriminate E]. cbn [bind_res]. intro E. injection E as <-.
  pose proof (proj2 (proj2 (proj2 (mix_parts (shaped_points s (sort_by (binary_key_ltb s) pl)) (shaped_segments s (sort_by (binary_key_ltb s) pl)) gs)))) as K. unfold complete_mix in K. rewrite K.
  refine (Hsweep Meet o _ _ s pl ns V1' V2' _ _ G' F Eo _ (or_intror eq_refl) gs Eg); discriminate.
Qed.
Theorem polygon_difference_nice : fine Minus -> forall value o g, polygons_of value = first -> polygon_difference x o value first second = Ok g -> nice (polygons_of g).
Proof.
  intros F value o g Ev. destruct (polygons_box_some first V1 N1) as (a & Ea). destruct (polygons_box_some second V2 N2) as (b & Eb).
  assert (Un : nice (polygons_of value)) by (rewrite Ev; exact (Hfirst first second V1 G)).
  unfold polygon_difference, with_polygon_boxes. rewrite Ea, Eb.
  destruct (disjoint_with a b); [intro E; injection E as <-; exact Un|].
  pose proof (valid_polygons_filter (coupled_with_polygon x a) second V2) as V2'.
  pose proof (Hfilter (fun _ => true) (coupled_with_polygon x a) first second G) as G'. rewrite (filter_everything _ first) in G'.
  change (filter (coupled_with_polygon x a) second) with (to_coupled_polygons x a second) in *.
  destruct (to_coupled_polygons x a second) as [|t0 second']; [intro E; injection E as <-; exact Un|].
  intro E. refine (swept_unpacked Minus o _ _ g V1 V2' N1 _ G' F E); discriminate.
Qed.
Theorem polygon_union_nice : fine Join -> forall o g, polygon_union o first second = Ok g -> nice (polygons_of g).
Proof.
  intros F o g. destruct (polygons_box_some first V1 N1) as (a & Ea). destruct (polygons_box_some second V2 N2) as (b & Eb).
  unfold polygon_union, with_polygon_boxes. rewrite Ea, Eb.
  destruct (disjoint_with a b) eqn:D; [intro E; injection E as <-; exact (Htogether first second a b V1 V2 G Ea Eb D _ (put_together first second))|].
  intro E. exact (swept_unpacked Join o _ _ g V1 V2 N1 N2 G F E).
Qed.
Theorem polygon_symmetric_nice : fine Differ -> forall o g, polygon_symmetric_difference o first second = Ok g -> nice (polygons_of g).
Proof.
  intros F o g. destruct (polygons_box_some first V1 N1) as (a & Ea). destruct (polygons_box_some second V2 N2) as (b & Eb).
  unfold polygon_symmetric_difference, with_polygon_boxes. rewrite Ea, Eb.
  destruct (disjoint_with a b) eqn:D; [intro E; injection E as <-; exact (Htogether first second a b V1 V2 G Ea Eb D _ (put_together first second))|].
  intro E. exact (swept_unpacked Differ o _ _ g V1 V2 N1 N2 G F E).
Qed.
End Operations.

(** ** Valid operands with disjoint boxes *)
Section Together.
Variables (first second : list polygon) (a b : box).
Hypothesis V1 : valid_polygons first.
Hypothesis V2 : valid_polygons second.
Hypothesis Ea : polygons_box first = Some a.
Hypothesis Eb : polygons_box second = Some b.
Hypothesis D : disjoint_with a b = true.
Lemma together_apart : forall p, in_polygons first p -> in_polygons second p -> False.
Proof. intros p A B. exact (apart_boxes first second V1 V2 a b p Ea Eb D (conj A B)). Qed.
Lemma together_valid : forall gs, Permutation gs (first ++ second) -> valid_polygons gs.
Proof.
  intros gs Pm. pose proof together_apart as Ap.
  assert (On1 : forall g p, In g first -> in_polygon g p -> in_polygons first p) by (intros g p Hg J; exists g; auto).
  assert (On2 : forall g p, In g second -> in_polygon g p -> in_polygons second p) by (intros g p Hg J; exists g; auto).
  pose proof (proj1 (Forall_forall _ _) (proj1 V1)) as W1. pose proof (proj1 (Forall_forall _ _) (proj1 V2)) as W2.
  assert (Pw : pairwise (fun g k => (forall p, ~ (inside_polygon g p /\ in_polygon k p)) /\ (forall p, ~ (inside_polygon k p /\ in_polygon g p))) gs).
  { apply (pairwise_perm _ _ (first ++ second)); [intros u v (A & B); auto|apply Permutation_sym, Pm|].
    assert (Sy : forall l, valid_polygons l -> pairwise (fun g k => (forall p, ~ (inside_polygon g p /\ in_polygon k p)) /\ (forall p, ~ (inside_polygon k p /\ in_polygon g p))) l).
    { intros l (_ & B & _) i j g k N Hi Hj. split; [exact (B i j g k N Hi Hj)|exact (B j i k g (not_eq_sym N) Hj Hi)]. }
    apply LinearThms.pairwise_app; [intros u v (A & B); auto|exact (Sy _ V1)|exact (Sy _ V2)|]. intros g k Hg Hk. split; intros p (A & B).
    - apply (Ap p); [exact (On1 g p Hg (inside_polygon_in g p (W1 g Hg) A))|exact (On2 k p Hk B)].
    - apply (Ap p); [exact (On1 g p Hg B)|exact (On2 k p Hk (inside_polygon_in k p (W2 k Hk) A))]. }
  split; [|split; [|exact (proj1 (proj2 (together_bounds first second V1 V2 a b Ea Eb D Join gs (or_intror eq_refl) Pm)))]].
  - apply Forall_forall. intros g Hg. apply (Permutation_in _ Pm), in_app_or in Hg. destruct Hg as [Hg|Hg]; [exact (W1 g Hg)|exact (W2 g Hg)].
  - intros i j g k N Hi Hj. exact (proj1 (Pw i j g k N Hi Hj)).
Qed.
Lemma together_separate : separate_contours (polygon_contours first) -> separate_contours (polygon_contours second) ->
  forall gs, Permutation gs (first ++ second) -> separate_contours (polygon_contours gs).
Proof.
  intros S1 S2 gs Pm. apply (separate_perm (first ++ second)); [apply Permutation_sym, Pm|]. unfold polygon_contours. rewrite flat_map_app.
  apply LinearThms.pairwise_app; [exact separate_sym|exact S1|exact S2|].
  assert (Onc : forall gs c p, valid_polygons gs -> In c (polygon_contours gs) -> on_segments p (contour_edges (vertices c)) -> in_polygons gs p).
  { intros hs c p V Hc O. apply (polygons_region hs V). left. apply in_flat_map in Hc. destruct Hc as (g & Hg & Hc). destruct O as (sg & Hs & O). exists sg. split; [|exact O]. apply in_flat_map. exists g. split; [exact Hg|].
    unfold polygon_edges. apply in_or_app. destruct Hc as [<-|Hc]; [left; exact Hs|right]. apply in_flat_map. exists c. auto. }
  intros c d Hc Hd p O1 O2. exact (together_apart p (Onc first c p V1 Hc O1) (Onc second d p V2 Hd O2)).
Qed.
End Together.

(** ** Operands in a general position *)
Definition not_symmetric (op : operation) : Prop := op <> Differ.
Lemma general_swept : forall op o first second s pl ns, valid_polygons first -> valid_polygons second -> first <> [] -> second <> [] -> general_position first second -> not_symmetric op ->
  op_sweep op o first second = Ok (s, pl, ns) -> forall events, events = pl \/ events = sort_by (binary_key_ltb s) pl -> forall gs, events_to_polygons s events ns = Ok gs -> nested_polygons gs.
Proof.
  intros op o first second s pl ns V1 V2 N1 N2 G Hop Ho events He gs Eg. pose proof (general_mild first second V1 V2 G) as M.
  split; [exact (swept_valid op first second V1 V2 M N1 N2 o s pl ns events gs Ho He Eg)|exact (swept_separate op first second V1 V2 N1 N2 o s pl ns events gs Ho He Eg Hop G)].
Qed.
Lemma general_first : forall first second, valid_polygons first -> general_position first second -> nested_polygons first.
Proof. intros first second V G. split; [exact V|exact (proj1 G)]. Qed.
Lemma general_together : forall first second a b, valid_polygons first -> valid_polygons second -> general_position first second ->
  polygons_box first = Some a -> polygons_box second = Some b -> disjoint_with a b = true -> forall gs, Permutation gs (first ++ second) -> nested_polygons gs.
Proof.
  intros first second a b V1 V2 G Ea Eb D gs Pm.
  split; [exact (together_valid first second a b V1 V2 Ea Eb D gs Pm)|exact (together_separate first second a b V1 V2 Ea Eb D (proj1 G) (proj1 (proj2 G)) gs Pm)].
Qed.
(** ** Operands in a mild position *)
Definition any_operation (op : operation) : Prop := True.
Lemma mild_swept : forall op o first second s pl ns, valid_polygons first -> valid_polygons second -> first <> [] -> second <> [] -> mild_position first second -> any_operation op ->
  op_sweep op o first second = Ok (s, pl, ns) -> forall events, events = pl \/ events = sort_by (binary_key_ltb s) pl -> forall gs, events_to_polygons s events ns = Ok gs -> valid_polygons gs.
Proof.
  intros op o first second s pl ns V1 V2 N1 N2 M _ Ho events He gs Eg. exact (swept_valid op first second V1 V2 M N1 N2 o s pl ns events gs Ho He Eg).
Qed.
Lemma mild_filter : forall f1 f2 first second, mild_position first second -> mild_position (filter f1 first) (filter f2 second).
Proof. intros f1 f2 first second. apply mild_incl; intros g Hg; apply filter_In in Hg; apply Hg. Qed.
Lemma mild_first : forall first second, valid_polygons first -> mild_position first second -> valid_polygons first.
Proof. intros first second V _. exact V. Qed.
Lemma mild_together : forall first second a b, valid_polygons first -> valid_polygons second -> mild_position first second ->
  polygons_box first = Some a -> polygons_box second = Some b -> disjoint_with a b = true -> forall gs, Permutation gs (first ++ second) -> valid_polygons gs.
Proof. intros first second a b V1 V2 _ Ea Eb D gs Pm. exact (together_valid first second a b V1 V2 Ea Eb D gs Pm). Qed.
Lemma none_valid : valid_polygons [].
Proof. exact (proj1 none_nested). Qed.

(** ** Operations of planar.py *)
Lemma bounds_exact : forall op first second gs, bounds_result op first second gs -> nested_polygons gs -> exact_result op first second gs.
Proof. intros op first second gs B (V & S). split; [exact V|]. split; [exact S|]. exact (valid_result op first second gs B V). Qed.
Lemma general_meet : not_symmetric Meet.
Proof. discriminate. Qed.
Lemma general_minus : not_symmetric Minus.
Proof. discriminate. Qed.
Lemma general_join : not_symmetric Join.
Proof. discriminate. Qed.
Definition some_oracle : oracle := Oracle (fun _ _ => O) (fun _ _ => O).
Section Planar.
Variable x : locators.
Hypothesis Hx : right_locators x.
Theorem intersect_multipolygons_nested : forall first second, valid_polygons first -> valid_polygons second -> first <> [] -> second <> [] -> general_position first second ->
  exists g, (forall o, intersect_multipolygons x o first second = Ok g) /\ exact_result Meet first second (polygons_of g).
Proof.
  intros first second V1 V2 N1 N2 G. destruct (intersect_multipolygons_correct x Hx first second V1 V2 N1 N2) as (g & R & _ & _ & _ & _ & B). exists g. split; [exact R|].
  apply (bounds_exact _ _ _ _ B). exact (polygon_intersection_nice _ _ _ general_swept general_filter none_nested x first second V1 V2 N1 N2 G general_meet some_oracle g (R some_oracle)).
Qed.
Theorem intersect_polygons_nested : forall first second, valid_polygon first -> valid_polygon second -> general_position [first] [second] ->
  exists g, (forall o, intersect_polygons x o first second = Ok g) /\ exact_result Meet [first] [second] (polygons_of g).
Proof. intros a b V1 V2. apply (intersect_multipolygons_nested [a] [b] (single_polygon_valid a V1) (single_polygon_valid b V2)); discriminate. Qed.
Theorem intersect_polygon_multipolygon_nested : forall shape multipolygon, valid_polygon shape -> valid_polygons multipolygon -> multipolygon <> [] -> general_position [shape] multipolygon ->
  exists g, (forall o, intersect_polygon_with_multipolygon x o shape multipolygon = Ok g) /\ exact_result Meet [shape] multipolygon (polygons_of g).
Proof. intros a b V1 V2 N2. apply (intersect_multipolygons_nested [a] b (single_polygon_valid a V1) V2); [discriminate|exact N2]. Qed.
Theorem subtract_multipolygons_nested : forall minuend subtrahend, valid_polygons minuend -> valid_polygons subtrahend -> (2 <= length minuend)%nat -> subtrahend <> [] -> general_position minuend subtrahend ->
  exists g, (forall o, subtract_multipolygons x o minuend subtrahend = Ok g) /\ exact_result Minus minuend subtrahend (polygons_of g).
Proof.
  intros first second V1 V2 N1 N2 G. destruct (subtract_multipolygons_correct x Hx first second V1 V2 N1 N2) as (g & R & _ & _ & _ & _ & B). exists g. split; [exact R|].
  apply (bounds_exact _ _ _ _ B). refine (polygon_difference_nice _ _ _ general_swept general_filter general_first x first second V1 V2 _ N2 G general_minus (GMultipolygon first) some_oracle g eq_refl (R some_oracle)). intros ->. cbn in N1. lia.
Qed.
Theorem subtract_multipolygon_polygon_nested : forall minuend subtrahend, valid_polygon minuend -> valid_polygons subtrahend -> subtrahend <> [] -> general_position [minuend] subtrahend ->
  exists g, (forall o, subtract_multipolygon_from_polygon x o minuend subtrahend = Ok g) /\ exact_result Minus [minuend] subtrahend (polygons_of g).
Proof.
  intros first second V1 V2 N2 G. destruct (subtract_multipolygon_polygon_correct x Hx first second V1 V2 N2) as (g & R & _ & _ & _ & _ & B). exists g. split; [exact R|].
  apply (bounds_exact _ _ _ _ B). refine (polygon_difference_nice _ _ _ general_swept general_filter general_first x [first] second (single_polygon_valid first V1) V2 _ N2 G general_minus (GPolygon first) some_oracle g eq_refl (R some_oracle)). discriminate.
Qed.
Theorem subtract_polygons_nested : forall minuend subtrahend, valid_polygon minuend -> valid_polygon subtrahend -> general_position [minuend] [subtrahend] ->
  exists g, (forall o, subtract_polygons x o minuend subtrahend = Ok g) /\ exact_result Minus [minuend] [subtrahend] (polygons_of g).
Proof. intros a b V1 V2. apply (subtract_multipolygon_polygon_nested a [b] V1 (single_polygon_valid b V2)); discriminate. Qed.
Theorem subtract_polygon_multipolygon_nested : forall minuend subtrahend, valid_polygons minuend -> valid_polygon subtrahend -> (2 <= length minuend)%nat -> general_position minuend [subtrahend] ->
  exists g, (forall o, subtract_polygon_from_multipolygon x o minuend subtrahend = Ok g) /\ exact_result Minus minuend [subtrahend] (polygons_of g).
Proof. intros a b V1 V2 N. apply (subtract_multipolygons_nested a [b] V1 (single_polygon_valid b V2) N); discriminate. Qed.
End Planar.
Theorem unite_multipolygons_nested : forall first second, valid_polygons first -> valid_polygons second -> first <> [] -> second <> [] -> general_position first second ->
  exists g, (forall o, unite_multipolygons o first second = Ok g) /\ exact_result Join first second (polygons_of g).
Proof.
  intros first second V1 V2 N1 N2 G. destruct (unite_multipolygons_correct first second V1 V2 N1 N2) as (g & R & _ & _ & _ & _ & B). exists g. split; [exact R|].
  apply (bounds_exact _ _ _ _ B). exact (polygon_union_nice _ _ _ general_swept general_together first second V1 V2 N1 N2 G general_join some_oracle g (R some_oracle)).
Qed.
Theorem unite_polygons_nested : forall first second, valid_polygon first -> valid_polygon second -> general_position [first] [second] ->
  exists g, (forall o, unite_polygons o first second = Ok g) /\ exact_result Join [first] [second] (polygons_of g).
Proof. intros a b V1 V2. apply (unite_multipolygons_nested [a] [b] (single_polygon_valid a V1) (single_polygon_valid b V2)); discriminate. Qed.
Theorem unite_polygon_multipolygon_nested : forall shape multipolygon, valid_polygon shape -> valid_polygons multipolygon -> multipolygon <> [] -> general_position [shape] multipolygon ->
  exists g, (forall o, unite_polygon_with_multipolygon o shape multipolygon = Ok g) /\ exact_result Join [shape] multipolygon (polygons_of g).
Proof. intros a b V1 V2 N2. apply (unite_multipolygons_nested [a] b (single_polygon_valid a V1) V2); [discriminate|exact N2]. Qed.
(** ** Operations of planar.py on operands in a mild position *)
Lemma bounds_polygons : forall op first second gs, bounds_result op first second gs -> valid_polygons gs -> exact_polygons op first second gs.
Proof. intros op first second gs B V. split; [exact V|]. exact (valid_result op first second gs B V). Qed.
Section MildPlanar.
Variable x : locators.
Hypothesis Hx : right_locators x.
Theorem complete_intersect_multipolygons_mild : forall first second, valid_polygons first -> valid_polygons second -> first <> [] -> second <> [] -> mild_position first second ->
  exists g, (forall o, complete_intersect_multipolygons x o first second = Ok g) /\ exact_polygons Meet first second (polygons_of g).
Proof.
  intros first second V1 V2 N1 N2 G. destruct (complete_intersect_multipolygons_correct x Hx first second V1 V2 N1 N2) as (g & R & _ & _ & B & _). exists g. split; [exact R|].
  apply (bounds_polygons _ _ _ _ B). exact (polygon_complete_nice _ _ _ mild_swept mild_filter none_valid x first second V1 V2 N1 N2 G I some_oracle g (R some_oracle)).
Qed.
Theorem complete_intersect_polygons_mild : forall first second, valid_polygon first -> valid_polygon second -> mild_position [first] [second] ->
  exists g, (forall o, complete_intersect_polygons x o first second = Ok g) /\ exact_polygons Meet [first] [second] (polygons_of g).
Proof. intros a b V1 V2. apply (complete_intersect_multipolygons_mild [a] [b] (single_polygon_valid a V1) (single_polygon_valid b V2)); discriminate. Qed.
Theorem complete_intersect_polygon_multipolygon_mild : forall shape multipolygon, valid_polygon shape -> valid_polygons multipolygon -> multipolygon <> [] -> mild_position [shape] multipolygon ->
  exists g, (forall o, complete_intersect_polygon_with_multipolygon x o shape multipolygon = Ok g) /\ exact_polygons Meet [shape] multipolygon (polygons_of g).
Proof. intros a b V1 V2 N2. apply (complete_intersect_multipolygons_mild [a] b (single_polygon_valid a V1) V2); [discriminate|exact N2]. Qed.
Theorem intersect_multipolygons_mild : forall first second, valid_polygons first -> valid_polygons second -> first <> [] -> second <> [] -> mild_position first second ->
  exists g, (forall o, intersect_multipolygons x o first second = Ok g) /\ exact_polygons Meet first second (polygons_of g).
Proof.
  intros first second V1 V2 N1 N2 G. destruct (intersect_multipolygons_correct x Hx first second V1 V2 N1 N2) as (g & R & _ & _ & _ & _ & B). exists g. split; [exact R|].
  apply (bounds_polygons _ _ _ _ B). exact (polygon_intersection_nice _ _ _ mild_swept mild_filter none_valid x first second V1 V2 N1 N2 G I some_oracle g (R some_oracle)).
Qed.
Theorem intersect_polygons_mild : forall first second, valid_polygon first -> valid_polygon second -> mild_position [first] [second] ->
  exists g, (forall o, intersect_polygons x o first second = Ok g) /\ exact_polygons Meet [first] [second] (polygons_of g).
Proof. intros a b V1 V2. apply (intersect_multipolygons_mild [a] [b] (single_polygon_valid a V1) (single_polygon_valid b V2)); discriminate. Qed.
Theorem intersect_polygon_multipolygon_mild : forall shape multipolygon, valid_polygon shape -> valid_polygons multipolygon -> multipolygon <> [] -> mild_position [shape] multipolygon ->
  exists g, (forall o, intersect_polygon_with_multipolygon x o shape multipolygon = Ok g) /\ exact_polygons Meet [shape] multipolygon (polygons_of g).
Proof. intros a b V1 V2 N2. apply (intersect_multipolygons_mild [a] b (single_polygon_valid a V1) V2); [discriminate|exact N2]. Qed.
Theorem subtract_multipolygons_mild : forall minuend subtrahend, valid_polygons minuend -> valid_polygons subtrahend -> (2 <= length minuend)%nat -> subtrahend <> [] -> mild_position minuend subtrahend ->
  exists g, (forall o, subtract_multipolygons x o minuend subtrahend = Ok g) /\ exact_polygons Minus minuend subtrahend (polygons_of g).
Proof.
  intros first second V1 V2 N1 N2 G. destruct (subtract_multipolygons_correct x Hx first second V1 V2 N1 N2) as (g & R & _ & _ & _ & _ & B). exists g. split; [exact R|].
  apply (bounds_polygons _ _ _ _ B). refine (polygon_difference_nice _ _ _ mild_swept mild_filter mild_first x first second V1 V2 _ N2 G I (GMultipolygon first) some_oracle g eq_refl (R some_oracle)). intros ->. cbn in N1. lia.
Qed.
Theorem subtract_multipolygon_polygon_mild : forall minuend subtrahend, valid_polygon minuend -> valid_polygons subtrahend -> subtrahend <> [] -> mild_position [minuend] subtrahend ->
  exists g, (forall o, subtract_multipolygon_from_polygon x o minuend subtrahend = Ok g) /\ exact_polygons Minus [minuend] subtrahend (polygons_of g).
Proof.
  intros first second V1 V2 N2 G. destruct (subtract_multipolygon_polygon_correct x Hx first second V1 V2 N2) as (g & R & _ & _ & _ & _ & B). exists g. split; [exact R|].
  apply (bounds_polygons _ _ _ _ B). refine (polygon_difference_nice _ _ _ mild_swept mild_filter mild_first x [first] second (single_polygon_valid first V1) V2 _ N2 G I (GPolygon first) some_oracle g eq_refl (R some_oracle)). discriminate.
Qed.
Theorem subtract_polygons_mild : forall minuend subtrahend, valid_polygon minuend -> valid_polygon subtrahend -> mild_position [minuend] [subtrahend] ->
  exists g, (forall o, subtract_polygons x o minuend subtrahend = Ok g) /\ exact_polygons Minus [minuend] [subtrahend] (polygons_of g).
Proof. intros a b V1 V2. apply (subtract_multipolygon_polygon_mild a [b] V1 (single_polygon_valid b V2)); discriminate. Qed.
Theorem subtract_polygon_multipolygon_mild : forall minuend subtrahend, valid_polygons minuend -> valid_polygon subtrahend -> (2 <= length minuend)%nat -> mild_position minuend [subtrahend] ->
  exists g, (forall o, subtract_polygon_from_multipolygon x o minuend subtrahend = Ok g) /\ exact_polygons Minus minuend [subtrahend] (polygons_of g).
Proof. intros a b V1 V2 N. apply (subtract_multipolygons_mild a [b] V1 (single_polygon_valid b V2) N); discriminate. Qed.
End MildPlanar.
Theorem unite_multipolygons_mild : forall first second, valid_polygons first -> valid_polygons second -> first <> [] -> second <> [] -> mild_position first second ->
  exists g, (forall o, unite_multipolygons o first second = Ok g) /\ exact_polygons Join first second (polygons_of g).
Proof.
  intros first second V1 V2 N1 N2 G. destruct (unite_multipolygons_correct first second V1 V2 N1 N2) as (g & R & _ & _ & _ & _ & B). exists g. split; [exact R|].
  apply (bounds_polygons _ _ _ _ B). exact (polygon_union_nice _ _ _ mild_swept mild_together first second V1 V2 N1 N2 G I some_oracle g (R some_oracle)).
Qed.
Theorem unite_polygons_mild : forall first second, valid_polygon first -> valid_polygon second -> mild_position [first] [second] ->
  exists g, (forall o, unite_polygons o first second = Ok g) /\ exact_polygons Join [first] [second] (polygons_of g).
Proof. intros a b V1 V2. apply (unite_multipolygons_mild [a] [b] (single_polygon_valid a V1) (single_polygon_valid b V2)); discriminate. Qed.
Theorem unite_polygon_multipolygon_mild : forall shape multipolygon, valid_polygon shape -> valid_polygons multipolygon -> multipolygon <> [] -> mild_position [shape] multipolygon ->
  exists g, (forall o, unite_polygon_with_multipolygon o shape multipolygon = Ok g) /\ exact_polygons Join [shape] multipolygon (polygons_of g).
Proof. intros a b V1 V2 N2. apply (unite_multipolygons_mild [a] b (single_polygon_valid a V1) V2); [discriminate|exact N2]. Qed.
Theorem symmetric_subtract_multipolygons_mild : forall first second, valid_polygons first -> valid_polygons second -> first <> [] -> second <> [] -> mild_position first second ->
  exists g, (forall o, symmetric_subtract_multipolygons o first second = Ok g) /\ exact_polygons Differ first second (polygons_of g).
Proof.
  intros first second V1 V2 N1 N2 G. destruct (symmetric_subtract_multipolygons_correct first second V1 V2 N1 N2) as (g & R & _ & _ & _ & _ & B). exists g. split; [exact R|].
  apply (bounds_polygons _ _ _ _ B). exact (polygon_symmetric_nice _ _ _ mild_swept mild_together first second V1 V2 N1 N2 G I some_oracle g (R some_oracle)).
Qed.
Theorem symmetric_subtract_polygons_mild : forall first second, valid_polygon first -> valid_polygon second -> mild_position [first] [second] ->
  exists g, (forall o, symmetric_subtract_polygons o first second = Ok g) /\ exact_polygons Differ [first] [second] (polygons_of g).
Proof. intros a b V1 V2. apply (symmetric_subtract_multipolygons_mild [a] [b] (single_polygon_valid a V1) (single_polygon_valid b V2)); discriminate. Qed.
Theorem symmetric_subtract_multipolygon_polygon_mild : forall shape multipolygon, valid_polygon shape -> valid_polygons multipolygon -> multipolygon <> [] -> mild_position [shape] multipolygon ->
  exists g, (forall o, symmetric_subtract_multipolygon_from_polygon o shape multipolygon = Ok g) /\ exact_polygons Differ [shape] multipolygon (polygons_of g).
Proof. intros a b V1 V2 N2. apply (symmetric_subtract_multipolygons_mild [a] b (single_polygon_valid a V1) V2); [discriminate|exact N2]. Qed.
(** ** Contours found to be separate by relations of their edges *)
Definition no_common (es fs : list segment) : bool := forallb (fun s => forallb (fun t => negb (pt_eqb (s_start s) (s_end s)) && negb (pt_eqb (s_start t) (s_end t)) && match segments_relation s t with DISJOINT => true | _ => false end) fs) es.
Lemma no_common_off : forall es fs, no_common es fs = true -> forall p, on_segments p es -> ~ on_segments p fs.
Proof.
  intros es fs T p (s & Is & Os) (t & It & Ot). unfold no_common in T. rewrite forallb_forall in T. specialize (T s Is). rewrite forallb_forall in T. specialize (T t It).
  apply andb_true_iff in T. destruct T as (T & R). apply andb_true_iff in T. destruct T as (A & B). apply negb_true_iff, PairProofs.pt_eqb_neq in A, B.
  pose proof (segments_relation_spec s t A B) as K. destruct (segments_relation s t); try discriminate R. inversion K as [| | | | | |D]. exact (D p (conj Os Ot)).
Qed.
(** ** A mild position found by relations of edges *)
Definition improper (s : segment) : bool := pt_eqb (s_start s) (s_end s).
Definition strictly_through (p : point) (s : segment) : bool := passes_through s p && negb (pt_eqb p (s_start s)) && negb (pt_eqb p (s_end s)).
Definition begun_apart (gs : list polygon) : bool :=
  forallb (fun g => forallb (fun h => forallb (fun a => negb (improper a) && forallb (fun b => negb (improper b) && (negb (strictly_through (seg_lo a) b)
    || existsb (fun c => negb (improper c) && (pt_eqb (seg_hi c) (seg_lo a) || (pt_eqb (seg_lo c) (seg_lo a) && Qc_leb (cross (seg_lo a) (seg_hi b) (seg_hi c)) 0))) (polygon_edges g ++ polygon_edges h)))
    (polygon_edges h)) (polygon_edges g)) gs) gs.
Lemma improper_not : forall s, negb (improper s) = true -> proper s.
Proof. intros s H. apply PairProofs.pt_eqb_neq. apply negb_true_iff in H. exact H. Qed.
Lemma mild_by_test : forall first second, begun_apart (first ++ second) = true -> mild_position first second.
Proof.
  intros first second T g h a b p Hg Hh Ha Hb Bp (O & N1 & N2). unfold begun_apart in T. rewrite forallb_forall in T. specialize (T g Hg). rewrite forallb_forall in T. specialize (T h Hh). rewrite forallb_forall in T. specialize (T a Ha).
  apply andb_true_iff in T. destruct T as (Pa & T). apply improper_not in Pa. rewrite forallb_forall in T. specialize (T b Hb). apply andb_true_iff in T. destruct T as (Pb & T). apply improper_not in Pb.
  rewrite <- (begins_seg_lo p a Pa Bp) in T. apply orb_true_iff in T. destruct T as [T|T].
  - exfalso. apply negb_true_iff in T. unfold strictly_through in T. rewrite (proj2 (through_spec b p Pb) O) in T. cbn [andb] in T.
    rewrite (proj2 (PairProofs.pt_eqb_neq _ _) N1), (proj2 (PairProofs.pt_eqb_neq _ _) N2) in T. discriminate T.
  - apply existsb_exists in T. destruct T as (c & Hc & T). apply andb_true_iff in T. destruct T as (Pc & T). apply improper_not in Pc. exists c. split; [apply in_app_or; exact Hc|].
    apply orb_true_iff in T. destruct T as [T|T]; [left|right].
    + apply PairProofs.pt_eqb_eq in T. rewrite <- T. exact (seg_hi_finishes c Pc).
    + apply andb_true_iff in T. destruct T as (E & T). apply PairProofs.pt_eqb_eq in E. split; [rewrite <- E; exact (seg_lo_begins c Pc)|].
      intros q u Eq Fu. rewrite (begins_seg_lo p a Pa Bp) in *.
      destruct (seg_ends c Pc) as (_ & _ & _ & Es). apply Es in Eq. rewrite <- (finishes_seg_hi u b Pb Fu). destruct Eq as [->| ->].
      * rewrite E. unfold cross. match goal with |- ?x <= 0 => assert (Z : x = 0) by ring end. rewrite Z. apply Qcle_refl.
      * destruct (Qc_leb_spec (cross (seg_lo a) (seg_hi b) (seg_hi c)) 0) as [K|K]; [exact K|discriminate T].
Qed.
