(** Borders of returned polygons go counterclockwise and holes clockwise.
    Proof support only, no part of /repo is modelled here. *)
From Coq Require Import Permutation Sorted.
From Verif Require Import QcTac Geom Spec SpecShape SpecSides SpecNest SpecTurn SpecLocate GeomFacts EvenOdd Flip SortFacts Toward Cycle Relation PairFacts Sweep SweepGeo SweepLink SweepRun SweepLoop SelectThms Linear Contour Labelled Filter Mixed Shaped Holey Parity ShrinkThms ConnectThms Tracing TraceThms RegionThms OrientThms EvenStraight Outline Classify Polygons Shapes SimpleThms LoopThms Loops Faces FollowThms MixedProps MixedThms ShapedThms ShapedProps HoleyLoop TracedLoops TidyThms HoleyThms HoleyProps HoleyNest Nesting NestTraced GeneralPos NestProps CompleteProps Locate Examples LinearComplete PairProofs FilterThms CoupledThms UnpackThms Bounding BoundingThms SweepInv SweepSteps SweepCmp SweepStart SweepEnd LinearMeaning LinearThms Counting PairThms Telescope Sides MixedComplete.

(** ** Dropping vertices on straight lines *)
Lemma cross_along : forall u p v w, on_segment p (Seg u v) -> 0 < cross p v w -> 0 < cross u v w.
Proof.
  intros u p v w (t & T0 & T1 & X & Y) C. cbn [s_start s_end] in X, Y.
  assert (E : cross p v w = (1 - t) * cross u v w) by (unfold cross; rewrite X, Y; ring). rewrite E in C.
  destruct (Qclt_le_dec 0 (cross u v w)) as [K|K]; [exact K|exfalso]. assert (T2 : 0 <= 1 - t) by (clear - T1; qlra).
  set (c := cross u v w) in *. set (d := 1 - t) in *. clearbody c d. assert (Z : 0 <= d * - c) by (apply mul_nonneg; [exact T2|clear - K; qlra]). replace (d * - c) with (- (d * c)) in Z by ring. clear - Z C. qlra.
Qed.
Lemma cross_along' : forall u p v w, on_segment p (Seg v w) -> 0 < cross u v p -> 0 < cross u v w.
Proof.
  intros u p v w (t & T0 & T1 & X & Y) C. cbn [s_start s_end] in X, Y.
  assert (E : cross u v p = t * cross u v w) by (unfold cross; rewrite X, Y; ring). rewrite E in C.
  destruct (Qclt_le_dec 0 (cross u v w)) as [K|K]; [exact K|exfalso].
  set (c := cross u v w) in *. clearbody c. assert (Z : 0 <= t * - c) by (apply mul_nonneg; [exact T0|clear - K; qlra]). replace (t * - c) with (- (t * c)) in Z by ring. clear - Z C. qlra.
Qed.
Lemma drop_counterclockwise : forall us p ws, simple_contour (us ++ p :: ws) -> straight (us ++ p :: ws) (length us) ->
  counterclockwise_at_least (contour_edges (us ++ p :: ws)) -> counterclockwise_at_least (contour_edges (us ++ ws)).
Proof.
  intros us p ws H St C.
  destruct (straight_around us p ws (proj1 H) St) as (w & m & Em & Z).
  apply (ccw_perm (contour_edges (ws ++ us))); [apply rotate_edges|].
  apply (ccw_perm _ (contour_edges ((p :: ws) ++ us))) in C; [|apply rotate_edges]. cbn [app] in C.
  pose proof (simple_rotate us (p :: ws) H) as Hs. cbn [app] in Hs. rewrite Em in Hs, C |- *. pose proof Hs as (_ & Nd & _).
  set (a := last m w) in *.
  assert (On : on_segment p (Seg a w)).
  { pose proof (proj2 (simple_folds _ Hs) 0%nat ltac:(cbn; lia)) as G. unfold straight in G.
    assert (Vl : vertex (p :: w :: m) (SpecShape.before (length (p :: w :: m)) 0) = a).
    { cbn [length SpecShape.before]. replace (S (S (length m)) - 1)%nat with (S (length m)) by lia. exact (nth_last m w (Pt 0 0)). }
    rewrite Vl in G. exact (proj1 (G Z)). }
  rewrite contour_links in C |- *. cbn [links] in C. rewrite last_cons in C. fold a in C |- *.
  inversion Nd as [|? ? Np Nd']. subst.
  assert (Ia : In a (w :: m)).
  { unfold a. destruct m as [|y m']; [left; reflexivity|right]. apply last_in. discriminate. }
  intros u v z Hu Hz Hl.
  (* the least vertex is less than the dropped one *)
  assert (Lv : forall q, In q (w :: m) -> q = v \/ plt v q).
  { intros q Hq. assert (E : exists e, In e (Seg a w :: links w m) /\ s_end e = q).
    { change (Seg a w :: links w m) with (Seg (last m w) w :: links w m). rewrite <- (contour_links w m). apply (In_nth _ _ (Pt 0 0)) in Hq. destruct Hq as (i & Hi & Ei). exists (edge_at (w :: m) i). split; [apply (Shapes.in_edge_at (w :: m)); exists i; split; [exact Hi|reflexivity]|exact Ei]. }
    destruct E as (e & He & <-). exact (proj2 (Hl e He)). }
  assert (Vin : In v (w :: m)).
  { destruct Hu as [E|Hu]; [injection E as _ <-; left; reflexivity|]. right. exact (proj2 (links_ends _ _ _ Hu)). }
  assert (Lp : plt v p).
  { assert (Np' : p <> v) by (intros ->; contradiction). destruct (plt_total v p) as [K|[K|K]]; [exact K|congruence|exfalso].
    assert (Naw : a <> w).
    { intro E. rewrite E in On. destruct On as (t & _ & _ & X & Y). cbn [s_start s_end] in X, Y. apply Np. left. apply pt_ext; [rewrite X|rewrite Y]; ring. }
    apply on_segment_norm in On. pose proof (seg_lo_lt_hi (Seg a w) Naw) as L. apply (on_segment_lex _ _ p L) in On. destruct On as (_ & On & _).
    assert (Lo : ple v (seg_lo (Seg a w))).
    { apply ple_lt_eq. destruct (seg_lo_hi (Seg a w)) as [(-> & _)|(-> & _)]; cbn [s_start s_end]; [destruct (Lv a Ia) as [K'|K']|destruct (Lv w (or_introl eq_refl)) as [K'|K']]; auto. }
    exact (ple_trans _ _ _ Lo On K). }
  assert (Hl' : forall e, In e (Seg a p :: Seg p w :: links w m) -> (s_start e = v \/ plt v (s_start e)) /\ (s_end e = v \/ plt v (s_end e))).
  { intros e [<-|[<-|He]]; cbn [s_start s_end]; [split; [exact (Lv a Ia)|right; exact Lp]|split; [right; exact Lp|exact (Lv w (or_introl eq_refl))]|exact (Hl e (or_intror He))]. }
  destruct Hu as [E|Hu], Hz as [E'|Hz].
  - exfalso. injection E as _ E. injection E' as E' _. rewrite <- E, <- E' in *. destruct On as (t & _ & _ & X & Y). cbn [s_start s_end] in X, Y. apply Np. left. apply pt_ext; [rewrite X|rewrite Y]; ring.
  - injection E as <- <-. apply (cross_along a p w z On). apply C; [right; left; reflexivity|right; right; exact Hz|exact Hl'].
  - injection E' as <- <-. apply (cross_along' u p a w On). apply C; [right; right; exact Hu|left; reflexivity|exact Hl'].
  - apply C; [right; right; exact Hu|right; right; exact Hz|exact Hl'].
Qed.
Theorem straightened_counterclockwise : forall vs r, straightened vs r -> simple_contour vs -> counterclockwise_at_least (contour_edges vs) -> counterclockwise_at_least (contour_edges r).
Proof.
  intros vs r H. induction H as [|us p ws r L St H IH]; intros Hs Hc; [exact Hc|]. apply IH; [exact (simple_drop us p ws Hs St)|exact (drop_counterclockwise us p ws Hs St Hc)].
Qed.

(** ** The region is on the left of contours *)
Theorem counterclockwise_left : forall c, counterclockwise c -> left_inside (contour_edges (vertices c)).
Proof. intros c (S & C). apply (simple_left (vertices c)); [exact S|left; reflexivity|exact C]. Qed.
Theorem clockwise_left : forall c, clockwise c -> left_inside (map reversed (contour_edges (vertices c))).
Proof. intros c (S & C). apply (simple_left (vertices c)); [exact S|right; reflexivity|exact C]. Qed.

Theorem one_way : forall c, counterclockwise c -> ~ clockwise c.
Proof.
  intros c (S & C) (_ & D). destruct (orientation_edges (vertices c)) as (u & v & w & L & _).
  { destruct S as (L & _). intro E. rewrite E in L. cbn in L. lia. }
  pose proof (least_edges_reversed _ _ _ _ L) as L'. destruct L as (A & B & K), L' as (A' & B' & K').
  pose proof (C u v w A B K) as P. pose proof (D w v u A' B' K') as Q. clear - P Q. unfold cross in P, Q. qlra.
Qed.
(** ** Orientation found by a computation *)
Definition least_of (es : list segment) (v : point) : bool := forallb (fun e => negb (lex_ltb (s_start e) v) && negb (lex_ltb (s_end e) v)) es.
Definition left_turn (es : list segment) : bool :=
  forallb (fun a => forallb (fun b => negb (pt_eqb (s_end a) (s_start b)) || negb (least_of es (s_end a)) || Qc_ltb 0 (cross (s_start a) (s_end a) (s_end b))) es) es.
Lemma counterclockwise_by_check : forall es, left_turn es = true -> counterclockwise_at_least es.
Proof.
  intros es T u v w Hu Hw Hl. unfold left_turn in T. rewrite forallb_forall in T. specialize (T _ Hu). rewrite forallb_forall in T. specialize (T _ Hw). cbn [s_start s_end] in T.
  rewrite (proj2 (PairProofs.pt_eqb_eq v v) eq_refl) in T. cbn [negb orb] in T.
  assert (Lv : least_of es v = true).
  { apply forallb_forall. intros e He. destruct (Hl e He) as (A & B). 
    assert (K : forall q, q = v \/ plt v q -> negb (lex_ltb q v) = true).
    { intros q Hq. apply negb_true_iff. destruct (lex_ltb q v) eqn:E; [|reflexivity]. exfalso. rewrite lex_ltb_pt in E. destruct (pt_ltb_spec q v) as [E1|]; [|discriminate E]. clear E. rename E1 into E. destruct Hq as [->|Hq]; [exact (plt_irrefl _ E)|exact (plt_irrefl _ (plt_trans _ _ _ E Hq))]. }
    rewrite (K _ A), (K _ B). reflexivity. }
  rewrite Lv in T. cbn [negb orb] in T. destruct (Qc_ltb_spec 0 (cross u v w)) as [G|G]; [exact G|discriminate T].
Qed.

(** ** First vertices *)
Lemma straightened_starts : forall vs r, straightened vs r -> simple_contour vs -> starts_least (Contour vs) -> starts_least (Contour r).
Proof.
  intros vs r H. induction H as [|us p ws r L St H IH]; intros Hs Hc; [exact Hc|]. apply IH; [exact (simple_drop us p ws Hs St)|]. unfold starts_least in *. cbn [vertices] in *.
  destruct us as [|u us]; cbn [app] in *.
  - exfalso. apply (simple_turns _ Hs 0%nat); [|exact St]. split; [cbn; lia|]. intros q [<-|Hq]; [left; reflexivity|right; exact (Hc q Hq)].
  - intros q Hq. apply Hc. apply in_app_or in Hq. apply in_or_app. destruct Hq as [Hq|Hq]; [left|right; right]; exact Hq.
Qed.
Lemma turned_starts : forall vs, starts_least (Contour vs) -> starts_least (Contour (Holey.turned vs)).
Proof. intros [|v r] K; [exact K|]. cbn in *. intros q Hq. apply K. apply in_rev. exact Hq. Qed.

(** ** Contours found *)
Lemma outline_shrunk : forall evs, TraceThms.paired (map h_traced evs) ->
  (forall i j, (i < length evs)%nat -> (j < length evs)%nat -> vx evs i = vx evs j <-> t_start (tev (map h_traced evs) i) = t_start (tev (map h_traced evs) j)) ->
  forall L, loop (length evs) (vx evs) (ov evs) L -> (forall x y, In x L -> In y L -> ov evs x <> y) ->
  contour_events_to_vertices evs L = shrink_collinear_vertices (outline evs L).
Proof.
  intros evs Hpair Hids L HL Once. unfold contour_events_to_vertices. f_equal. unfold outline. destruct (loop_walk evs Hpair Hids L HL Once) as (e & es & Ee & W & _). rewrite Ee, (walk_starts es e W). f_equal.
  - pose proof (lo_ne _ _ _ _ HL) as Ne. destruct L as [|x l]; [contradiction|]. cbn [hd]. cbn [map] in Ee. injection Ee as <- _. cbn. rewrite h_tev. reflexivity.
  - rewrite <- Ee, <- map_removelast, map_map. apply map_ext. intro i. cbn. rewrite h_tev. reflexivity.
Qed.
Section Swept.
Variables (op : operation) (E1 E2 : list segment) (x_max : option Qc) (s : state) (pl : list event).
Hypothesis H : shaped_swept op E1 E2 x_max s pl.
Variable events : list event.
Hypothesis Hperm : Permutation events pl.
Notation evs := (result_events s events).
Notation ts := (map (traced_of s events) evs).
Variable f : event -> nat.
Hypothesis Hord : forall a b, In a pl -> In b pl -> ((f a <= f b)%nat <-> ple (ev_start s a) (ev_start s b)).
Notation hs := (map (holey_of s events f) evs).
Variables (p0 : list bool) (mk : marks) (r : relations) (contours : list contour) (done : list (list nat)).
Hypothesis T : tracing s hs (length hs) p0 mk r contours done.
Let Hpair : TraceThms.paired (map h_traced hs).
Proof. rewrite hs_traced. exact (ts_paired _ _ _ _ _ _ H events Hperm). Qed.
Let Htidy : tidy (map h_traced hs).
Proof. rewrite hs_traced. exact (ts_tidy _ _ _ _ _ _ H events Hperm). Qed.
Let Hplanar : planar (map h_traced hs).
Proof. rewrite hs_traced. exact (ts_planar _ _ _ _ _ _ H events Hperm). Qed.
Let Hids := hs_ids s pl events Hperm f Hord.
Let Hsorted := hs_sorted s events f.
Lemma traced_turn : forall j, (j < length contours)%nat -> starts_least (nth j contours no_contour)
  /\ if internal_at r j then clockwise (nth j contours no_contour) else counterclockwise (nth j contours no_contour).
Proof.
  intros j Hj. pose proof (done_length _ _ _ _ _ _ _ _ T) as Lm. rewrite <- Lm in Hj. clear Lm. set (L := nth j done []).
  destruct (tr_loops _ _ _ _ _ _ _ _ T L (nth_In _ _ Hj)) as (A & B & C & D).
  assert (C' : t_left (tev (map h_traced hs) (nth 0 L O)) = true).
  { rewrite (hs_left s events f _ (lo_lt _ _ _ _ A _ (first_in hs L A))). exact C. }
  pose proof (loop_counterclockwise hs Hpair Htidy Hids Hsorted L A B C' D) as K.
  pose proof (outline_simple hs Hpair Htidy Hplanar Hids L A B) as So.
  apply (ccw_perm _ (contour_edges (outline hs L))) in K; [|apply Permutation_sym; exact (outline_edges hs Hpair Hids L A B)].
  destruct (tr_turned _ _ _ _ _ _ _ _ T j Hj) as (vs & Ev & Et).
  assert (St : straightened (outline hs L) vs).
  { destruct (shrink_corners _ (simple_folds _ So)) as (vs' & Es & St & _).
    fold L in Ev. rewrite (outline_shrunk hs Hpair Hids L A B) in Ev. rewrite Es in Ev. injection Ev as <-. exact St. }
  pose proof (straightened_simple _ _ St So) as Sv. pose proof (straightened_counterclockwise _ _ St So K) as Cv.
  assert (Lo : starts_least (Contour (outline hs L))).
  { pose proof (proj1 (proj2 So)) as Nd. assert (Le : forall x, In x L -> ple (t_start (tev (map h_traced hs) (nth 0 L O))) (t_start (tev (map h_traced hs) x))).
    { intros x Hx. exact (index_le hs Hsorted _ _ (proj1 (D x Hx)) (lo_lt _ _ _ _ A x Hx)). }
    unfold starts_least, outline in *. cbn [vertices]. pose proof (lo_ne _ _ _ _ A) as Ne. set (hts := map h_traced hs) in *. rewrite map_map in *. clear - Nd Le Ne. destruct L as [|x l]; [contradiction|]. cbn [map nth edge s_start] in *.
    inversion Nd as [|? ? Nx _]. subst. intros q Hq. apply in_map_iff in Hq. destruct Hq as (y & <- & Hy). cbn [edge s_start].
    pose proof (Le y (or_intror Hy)) as K. apply ple_lt_eq in K. destruct K as [K|K]; [exact K|exfalso]. apply Nx. apply in_map_iff. exists y. split; [cbn [edge s_start]; symmetry; exact K|exact Hy]. }
  pose proof (straightened_starts _ _ St So Lo) as Lv.
  destruct (nth j contours no_contour) as [c]. cbn [vertices] in Et. subst c.
  destruct (internal_at r j); unfold clockwise, counterclockwise; cbn [vertices]; (split; [first [exact Lv|exact (turned_starts _ Lv)]|]).
  - split; [exact (turned_simple vs Sv)|]. apply (ccw_perm (map reversed (map reversed (contour_edges vs)))); [apply Permutation_map, Permutation_sym, SimpleThms.turned_edges|]. rewrite reversed_reversed. exact Cv.
  - split; [exact Sv|exact Cv].
Qed.
Theorem traced_oriented : well_oriented (to_polygons r contours).
Proof.
  pose proof (tr_related _ _ _ _ _ _ _ _ T) as R. rewrite (to_polygons_map _ _ _ _ _ _ _ _ T). intros g Hg. apply in_map_iff in Hg. destruct Hg as (j & <- & Hj).
  apply filter_In in Hj. destruct Hj as (Hj & Ij). apply in_seq in Hj. apply negb_true_iff in Ij. split.
  - pose proof (proj2 (traced_turn j ltac:(lia))) as K. rewrite Ij in K. exact K.
  - intros h Hh. cbn [polygon_of holes] in Hh. apply in_map_iff in Hh. destruct Hh as (k & <- & Hk). destruct (re_holes _ _ R j k Hk) as (Lk & Ik & _).
    pose proof (proj2 (traced_turn k Lk)) as K. rewrite Ik in K. exact K.
Qed.
Theorem traced_started : well_started (to_polygons r contours).
Proof.
  intros c Hc. apply (Permutation_in _ (polygons_contours _ _ (tr_related _ _ _ _ _ _ _ _ T))) in Hc. apply (In_nth _ _ no_contour) in Hc. destruct Hc as (j & Hj & <-). exact (proj1 (traced_turn j Hj)).
Qed.
End Swept.

(** ** Operations *)
Theorem swept_both : forall op o first second s pl ns, valid_polygons first -> valid_polygons second -> first <> [] -> second <> [] ->
  op_sweep op o first second = Ok (s, pl, ns) -> forall events, events = pl \/ events = sort_by (binary_key_ltb s) pl -> forall gs, events_to_polygons s events ns = Ok gs -> well_oriented gs /\ well_started gs.
Proof.
  intros op o first second s pl ns V1 V2 N1 N2 Ho events He gs Eg. destruct (polygons_sweep op first second V1 V2 N1 N2) as (s' & pl' & H & R & C). rewrite (R o) in Ho. injection Ho as -> -> En. rewrite <- En in Eg.
  assert (Pm : Permutation events pl) by (destruct He as [->| ->]; [reflexivity|apply sort_by_perm]).
  assert (So : StronglySorted (fun a b => ple (ev_start s a) (ev_start s b)) events).
  { destruct He as [->| ->]; [|apply sort_start; exact (key_start s)]. destruct (sh_sweep _ _ _ _ _ _ H) as (s0 & out & _ & _ & Hpr & _). exact (pr_sorted _ _ _ _ Hpr). }
  destruct (events_traced _ _ _ _ _ _ H events Pm So) as (f & r & contours & done & E & Hord & (p & m & T) & Hdone). rewrite E in Eg. injection Eg as <-.
  split; [exact (traced_oriented _ _ _ _ _ _ H events Pm f Hord p m r contours done T)|exact (traced_started _ _ _ _ _ _ H events Pm f Hord p m r contours done T)].
Qed.

Definition anywhere (first second : list polygon) : Prop := True.
Definition both_oriented (first second : list polygon) : Prop := well_oriented first /\ well_oriented second.
Lemma anywhere_swept : forall op o first second s pl ns, valid_polygons first -> valid_polygons second -> first <> [] -> second <> [] -> anywhere first second -> any_operation op ->
  op_sweep op o first second = Ok (s, pl, ns) -> forall events, events = pl \/ events = sort_by (binary_key_ltb s) pl -> forall gs, events_to_polygons s events ns = Ok gs -> well_oriented gs.
Proof. intros op o first second s pl ns V1 V2 N1 N2 _ _ Ho events He gs Eg. exact (proj1 (swept_both op o first second s pl ns V1 V2 N1 N2 Ho events He gs Eg)). Qed.
Lemma both_swept : forall op o first second s pl ns, valid_polygons first -> valid_polygons second -> first <> [] -> second <> [] -> both_oriented first second -> any_operation op ->
  op_sweep op o first second = Ok (s, pl, ns) -> forall events, events = pl \/ events = sort_by (binary_key_ltb s) pl -> forall gs, events_to_polygons s events ns = Ok gs -> well_oriented gs.
Proof. intros op o first second s pl ns V1 V2 N1 N2 _ _ Ho events He gs Eg. exact (proj1 (swept_both op o first second s pl ns V1 V2 N1 N2 Ho events He gs Eg)). Qed.
Lemma anywhere_filter : forall f1 f2 first second, anywhere first second -> anywhere (filter f1 first) (filter f2 second).
Proof. intros. exact I. Qed.
Lemma none_oriented : well_oriented [].
Proof. intros g []. Qed.
(** A difference may be the minuend itself. *)
Definition first_oriented (first second : list polygon) : Prop := well_oriented first.
Lemma first_swept : forall op o first second s pl ns, valid_polygons first -> valid_polygons second -> first <> [] -> second <> [] -> first_oriented first second -> any_operation op ->
  op_sweep op o first second = Ok (s, pl, ns) -> forall events, events = pl \/ events = sort_by (binary_key_ltb s) pl -> forall gs, events_to_polygons s events ns = Ok gs -> well_oriented gs.
Proof. intros op o first second s pl ns V1 V2 N1 N2 _ _ Ho events He gs Eg. exact (proj1 (swept_both op o first second s pl ns V1 V2 N1 N2 Ho events He gs Eg)). Qed.
Lemma first_filter : forall f1 f2 first second, first_oriented first second -> first_oriented (filter f1 first) (filter f2 second).
Proof. intros f1 f2 first second K g Hg. apply filter_In in Hg. exact (K g (proj1 Hg)). Qed.
Lemma first_first : forall first second, valid_polygons first -> first_oriented first second -> well_oriented first.
Proof. intros first second _ K. exact K. Qed.
(** A union may consist of all the polygons of operands. *)
Lemma both_together : forall first second a b, valid_polygons first -> valid_polygons second -> both_oriented first second ->
  polygons_box first = Some a -> polygons_box second = Some b -> disjoint_with a b = true -> forall gs, Permutation gs (first ++ second) -> well_oriented gs.
Proof.
  intros first second a b _ _ (K1 & K2) _ _ _ gs Pm g Hg. apply (Permutation_in _ Pm), in_app_or in Hg. destruct Hg as [Hg|Hg]; [exact (K1 g Hg)|exact (K2 g Hg)].
Qed.
Section Planar.
Variable x : locators.
Hypothesis Hx : right_locators x.
Theorem complete_intersect_multipolygons_oriented : forall first second, valid_polygons first -> valid_polygons second -> first <> [] -> second <> [] ->
  exists g, (forall o, complete_intersect_multipolygons x o first second = Ok g) /\ well_oriented (polygons_of g).
Proof.
  intros first second V1 V2 N1 N2. destruct (complete_intersect_multipolygons_correct x Hx first second V1 V2 N1 N2) as (g & R & _). exists g. split; [exact R|].
  exact (polygon_complete_nice _ _ _ anywhere_swept anywhere_filter none_oriented x first second V1 V2 N1 N2 I I some_oracle g (R some_oracle)).
Qed.
Theorem complete_intersect_polygons_oriented : forall first second, valid_polygon first -> valid_polygon second ->
  exists g, (forall o, complete_intersect_polygons x o first second = Ok g) /\ well_oriented (polygons_of g).
Proof. intros a b V1 V2. apply (complete_intersect_multipolygons_oriented [a] [b] (single_polygon_valid a V1) (single_polygon_valid b V2)); discriminate. Qed.
Theorem complete_intersect_polygon_multipolygon_oriented : forall shape multipolygon, valid_polygon shape -> valid_polygons multipolygon -> multipolygon <> [] ->
  exists g, (forall o, complete_intersect_polygon_with_multipolygon x o shape multipolygon = Ok g) /\ well_oriented (polygons_of g).
Proof. intros a b V1 V2 N2. apply (complete_intersect_multipolygons_oriented [a] b (single_polygon_valid a V1) V2); [discriminate|exact N2]. Qed.
Theorem intersect_multipolygons_oriented : forall first second, valid_polygons first -> valid_polygons second -> first <> [] -> second <> [] ->
  exists g, (forall o, intersect_multipolygons x o first second = Ok g) /\ well_oriented (polygons_of g).
Proof.
  intros first second V1 V2 N1 N2. destruct (intersect_multipolygons_correct x Hx first second V1 V2 N1 N2) as (g & R & _). exists g. split; [exact R|].
  exact (polygon_intersection_nice _ _ _ anywhere_swept anywhere_filter none_oriented x first second V1 V2 N1 N2 I I some_oracle g (R some_oracle)).
Qed.
Theorem intersect_polygons_oriented : forall first second, valid_polygon first -> valid_polygon second ->
  exists g, (forall o, intersect_polygons x o first second = Ok g) /\ well_oriented (polygons_of g).
Proof. intros a b V1 V2. apply (intersect_multipolygons_oriented [a] [b] (single_polygon_valid a V1) (single_polygon_valid b V2)); discriminate. Qed.
Theorem intersect_polygon_multipolygon_oriented : forall shape multipolygon, valid_polygon shape -> valid_polygons multipolygon -> multipolygon <> [] ->
  exists g, (forall o, intersect_polygon_with_multipolygon x o shape multipolygon = Ok g) /\ well_oriented (polygons_of g).
Proof. intros a b V1 V2 N2. apply (intersect_multipolygons_oriented [a] b (single_polygon_valid a V1) V2); [discriminate|exact N2]. Qed.
Theorem subtract_multipolygons_oriented : forall minuend subtrahend, valid_polygons minuend -> valid_polygons subtrahend -> (2 <= length minuend)%nat -> subtrahend <> [] -> well_oriented minuend ->
  exists g, (forall o, subtract_multipolygons x o minuend subtrahend = Ok g) /\ well_oriented (polygons_of g).
Proof.
  intros first second V1 V2 N1 N2 G. destruct (subtract_multipolygons_correct x Hx first second V1 V2 N1 N2) as (g & R & _). exists g. split; [exact R|].
  refine (polygon_difference_nice _ _ _ first_swept first_filter first_first x first second V1 V2 _ N2 G I (GMultipolygon first) some_oracle g eq_refl (R some_oracle)). intros ->. cbn in N1. lia.
Qed.
Theorem subtract_multipolygon_polygon_oriented : forall minuend subtrahend, valid_polygon minuend -> valid_polygons subtrahend -> subtrahend <> [] -> well_oriented [minuend] ->
  exists g, (forall o, subtract_multipolygon_from_polygon x o minuend subtrahend = Ok g) /\ well_oriented (polygons_of g).
Proof.
  intros first second V1 V2 N2 G. destruct (subtract_multipolygon_polygon_correct x Hx first second V1 V2 N2) as (g & R & _). exists g. split; [exact R|].
  refine (polygon_difference_nice _ _ _ first_swept first_filter first_first x [first] second (single_polygon_valid first V1) V2 _ N2 G I (GPolygon first) some_oracle g eq_refl (R some_oracle)). discriminate.
Qed.
Theorem subtract_polygons_oriented : forall minuend subtrahend, valid_polygon minuend -> valid_polygon subtrahend -> well_oriented [minuend] ->
  exists g, (forall o, subtract_polygons x o minuend subtrahend = Ok g) /\ well_oriented (polygons_of g).
Proof. intros a b V1 V2. apply (subtract_multipolygon_polygon_oriented a [b] V1 (single_polygon_valid b V2)); discriminate. Qed.
Theorem subtract_polygon_multipolygon_oriented : forall minuend subtrahend, valid_polygons minuend -> valid_polygon subtrahend -> (2 <= length minuend)%nat -> well_oriented minuend ->
  exists g, (forall o, subtract_polygon_from_multipolygon x o minuend subtrahend = Ok g) /\ well_oriented (polygons_of g).
Proof. intros a b V1 V2 N. apply (subtract_multipolygons_oriented a [b] V1 (single_polygon_valid b V2) N); discriminate. Qed.
End Planar.
Theorem unite_multipolygons_oriented : forall first second, valid_polygons first -> valid_polygons second -> first <> [] -> second <> [] -> well_oriented first -> well_oriented second ->
  exists g, (forall o, unite_multipolygons o first second = Ok g) /\ well_oriented (polygons_of g).
Proof.
  intros first second V1 V2 N1 N2 G1 G2. destruct (unite_multipolygons_correct first second V1 V2 N1 N2) as (g & R & _). exists g. split; [exact R|].
  exact (polygon_union_nice _ _ _ both_swept both_together first second V1 V2 N1 N2 (conj G1 G2) I some_oracle g (R some_oracle)).
Qed.
Theorem unite_polygons_oriented : forall first second, valid_polygon first -> valid_polygon second -> well_oriented [first] -> well_oriented [second] ->
  exists g, (forall o, unite_polygons o first second = Ok g) /\ well_oriented (polygons_of g).
Proof. intros a b V1 V2. apply (unite_multipolygons_oriented [a] [b] (single_polygon_valid a V1) (single_polygon_valid b V2)); discriminate. Qed.
Theorem unite_polygon_with_multipolygon_oriented : forall shape multipolygon, valid_polygon shape -> valid_polygons multipolygon -> multipolygon <> [] -> well_oriented [shape] -> well_oriented multipolygon ->
  exists g, (forall o, unite_polygon_with_multipolygon o shape multipolygon = Ok g) /\ well_oriented (polygons_of g).
Proof. intros a b V1 V2 N2. apply (unite_multipolygons_oriented [a] b (single_polygon_valid a V1) V2); [discriminate|exact N2]. Qed.
Theorem symmetric_subtract_multipolygons_oriented : forall first second, valid_polygons first -> valid_polygons second -> first <> [] -> second <> [] -> well_oriented first -> well_oriented second ->
  exists g, (forall o, symmetric_subtract_multipolygons o first second = Ok g) /\ well_oriented (polygons_of g).
Proof.
  intros first second V1 V2 N1 N2 G1 G2. destruct (symmetric_subtract_multipolygons_correct first second V1 V2 N1 N2) as (g & R & _). exists g. split; [exact R|].
  exact (polygon_symmetric_nice _ _ _ both_swept both_together first second V1 V2 N1 N2 (conj G1 G2) I some_oracle g (R some_oracle)).
Qed.
Theorem symmetric_subtract_polygons_oriented : forall first second, valid_polygon first -> valid_polygon second -> well_oriented [first] -> well_oriented [second] ->
  exists g, (forall o, symmetric_subtract_polygons o first second = Ok g) /\ well_oriented (polygons_of g).
Proof. intros a b V1 V2. apply (symmetric_subtract_multipolygons_oriented [a] [b] (single_polygon_valid a V1) (single_polygon_valid b V2)); discriminate. Qed.
Theorem symmetric_subtract_multipolygon_from_polygon_oriented : forall shape multipolygon, valid_polygon shape -> valid_polygons multipolygon -> multipolygon <> [] -> well_oriented [shape] -> well_oriented multipolygon ->
  exists g, (forall o, symmetric_subtract_multipolygon_from_polygon o shape multipolygon = Ok g) /\ well_oriented (polygons_of g).
Proof. intros a b V1 V2 N2. apply (symmetric_subtract_multipolygons_oriented [a] b (single_polygon_valid a V1) V2); [discriminate|exact N2]. Qed.

(** ** Operations and first vertices *)
Definition both_started (first second : list polygon) : Prop := well_started first /\ well_started second.
Lemma anywhere_swept_started : forall op o first second s pl ns, valid_polygons first -> valid_polygons second -> first <> [] -> second <> [] -> anywhere first second -> any_operation op ->
  op_sweep op o first second = Ok (s, pl, ns) -> forall events, events = pl \/ events = sort_by (binary_key_ltb s) pl -> forall gs, events_to_polygons s events ns = Ok gs -> well_started gs.
Proof. intros op o first second s pl ns V1 V2 N1 N2 _ _ Ho events He gs Eg. exact (proj2 (swept_both op o first second s pl ns V1 V2 N1 N2 Ho events He gs Eg)). Qed.
Lemma both_swept_started : forall op o first second s pl ns, valid_polygons first -> valid_polygons second -> first <> [] -> second <> [] -> both_started first second -> any_operation op ->
  op_sweep op o first second = Ok (s, pl, ns) -> forall events, events = pl \/ events = sort_by (binary_key_ltb s) pl -> forall gs, events_to_polygons s events ns = Ok gs -> well_started gs.
Proof. intros op o first second s pl ns V1 V2 N1 N2 _ _ Ho events He gs Eg. exact (proj2 (swept_both op o first second s pl ns V1 V2 N1 N2 Ho events He gs Eg)). Qed.
Lemma anywhere_filter_started : forall f1 f2 first second, anywhere first second -> anywhere (filter f1 first) (filter f2 second).
Proof. intros. exact I. Qed.
Lemma none_started : well_started [].
Proof. intros c []. Qed.
(** A difference may be the minuend itself. *)
Definition first_started (first second : list polygon) : Prop := well_started first.
Lemma first_swept_started : forall op o first second s pl ns, valid_polygons first -> valid_polygons second -> first <> [] -> second <> [] -> first_started first second -> any_operation op ->
  op_sweep op o first second = Ok (s, pl, ns) -> forall events, events = pl \/ events = sort_by (binary_key_ltb s) pl -> forall gs, events_to_polygons s events ns = Ok gs -> well_started gs.
Proof. intros op o first second s pl ns V1 V2 N1 N2 _ _ Ho events He gs Eg. exact (proj2 (swept_both op o first second s pl ns V1 V2 N1 N2 Ho events He gs Eg)). Qed.
Lemma first_filter_started : forall f1 f2 first second, first_started first second -> first_started (filter f1 first) (filter f2 second).
Proof. intros f1 f2 first second K c Hc. apply in_flat_map in Hc. destruct Hc as (g & Hg & Hc). apply filter_In in Hg. apply K. apply in_flat_map. exists g. split; [exact (proj1 Hg)|exact Hc]. Qed.
Lemma first_first_started : forall first second, valid_polygons first -> first_started first second -> well_started first.
Proof. intros first second _ K. exact K. Qed.
(** A union may consist of all the polygons of operands. *)
Lemma both_together_started : forall first second a b, valid_polygons first -> valid_polygons second -> both_started first second ->
  polygons_box first = Some a -> polygons_box second = Some b -> disjoint_with a b = true -> forall gs, Permutation gs (first ++ second) -> well_started gs.
Proof.
  intros first second a b _ _ (K1 & K2) _ _ _ gs Pm c Hc. apply in_flat_map in Hc. destruct Hc as (g & Hg & Hc). apply (Permutation_in _ Pm), in_app_or in Hg. destruct Hg as [Hg|Hg]; [apply K1|apply K2]; apply in_flat_map; exists g; split; assumption.
Qed.
Section Planar.
Variable x : locators.
Hypothesis Hx : right_locators x.
Theorem complete_intersect_multipolygons_started : forall first second, valid_polygons first -> valid_polygons second -> first <> [] -> second <> [] ->
  exists g, (forall o, complete_intersect_multipolygons x o first second = Ok g) /\ well_started (polygons_of g).
Proof.
  intros first second V1 V2 N1 N2. destruct (complete_intersect_multipolygons_correct x Hx first second V1 V2 N1 N2) as (g & R & _). exists g. split; [exact R|].
  exact (polygon_complete_nice _ _ _ anywhere_swept_started anywhere_filter_started none_started x first second V1 V2 N1 N2 I I some_oracle g (R some_oracle)).
Qed.
Theorem complete_intersect_polygons_started : forall first second, valid_polygon first -> valid_polygon second ->
  exists g, (forall o, complete_intersect_polygons x o first second = Ok g) /\ well_started (polygons_of g).
Proof. intros a b V1 V2. apply (complete_intersect_multipolygons_started [a] [b] (single_polygon_valid a V1) (single_polygon_valid b V2)); discriminate. Qed.
Theorem complete_intersect_polygon_multipolygon_started : forall shape multipolygon, valid_polygon shape -> valid_polygons multipolygon -> multipolygon <> [] ->
  exists g, (forall o, complete_intersect_polygon_with_multipolygon x o shape multipolygon = Ok g) /\ well_started (polygons_of g).
Proof. intros a b V1 V2 N2. apply (complete_intersect_multipolygons_started [a] b (single_polygon_valid a V1) V2); [discriminate|exact N2]. Qed.
Theorem intersect_multipolygons_started : forall first second, valid_polygons first -> valid_polygons second -> first <> [] -> second <> [] ->
  exists g, (forall o, intersect_multipolygons x o first second = Ok g) /\ well_started (polygons_of g).
Proof.
  intros first second V1 V2 N1 N2. destruct (intersect_multipolygons_correct x Hx first second V1 V2 N1 N2) as (g & R & _). exists g. split; [exact R|].
  exact (polygon_intersection_nice _ _ _ anywhere_swept_started anywhere_filter_started none_started x first second V1 V2 N1 N2 I I some_oracle g (R some_oracle)).
Qed.
Theorem intersect_polygons_started : forall first second, valid_polygon first -> valid_polygon second ->
  exists g, (forall o, intersect_polygons x o first second = Ok g) /\ well_started (polygons_of g).
Proof. intros a b V1 V2. apply (intersect_multipolygons_started [a] [b] (single_polygon_valid a V1) (single_polygon_valid b V2)); discriminate. Qed.
Theorem intersect_polygon_multipolygon_started : forall shape multipolygon, valid_polygon shape -> valid_polygons multipolygon -> multipolygon <> [] ->
  exists g, (forall o, intersect_polygon_with_multipolygon x o shape multipolygon = Ok g) /\ well_started (polygons_of g).
Proof. intros a b V1 V2 N2. apply (intersect_multipolygons_started [a] b (single_polygon_valid a V1) V2); [discriminate|exact N2]. Qed.
Theorem subtract_multipolygons_started : forall minuend subtrahend, valid_polygons minuend -> valid_polygons subtrahend -> (2 <= length minuend)%nat -> subtrahend <> [] -> well_started minuend ->
  exists g, (forall o, subtract_multipolygons x o minuend subtrahend = Ok g) /\ well_started (polygons_of g).
Proof.
  intros first second V1 V2 N1 N2 G. destruct (subtract_multipolygons_correct x Hx first second V1 V2 N1 N2) as (g & R & _). exists g. split; [exact R|].
  refine (polygon_difference_nice _ _ _ first_swept_started first_filter_started first_first_started x first second V1 V2 _ N2 G I (GMultipolygon first) some_oracle g eq_refl (R some_oracle)). intros ->. cbn in N1. lia.
Qed.
Theorem subtract_multipolygon_polygon_started : forall minuend subtrahend, valid_polygon minuend -> valid_polygons subtrahend -> subtrahend <> [] -> well_started [minuend] ->
  exists g, (forall o, subtract_multipolygon_from_polygon x o minuend subtrahend = Ok g) /\ well_started (polygons_of g).
Proof.
  intros first second V1 V2 N2 G. destruct (subtract_multipolygon_polygon_correct x Hx first second V1 V2 N2) as (g & R & _). exists g. split; [exact R|].
  refine (polygon_difference_nice _ _ _ first_swept_started first_filter_started first_first_started x [first] second (single_polygon_valid first V1) V2 _ N2 G I (GPolygon first) some_oracle g eq_refl (R some_oracle)). discriminate.
Qed.
Theorem subtract_polygons_started : forall minuend subtrahend, valid_polygon minuend -> valid_polygon subtrahend -> well_started [minuend] ->
  exists g, (forall o, subtract_polygons x o minuend subtrahend = Ok g) /\ well_started (polygons_of g).
Proof. intros a b V1 V2. apply (subtract_multipolygon_polygon_started a [b] V1 (single_polygon_valid b V2)); discriminate. Qed.
Theorem subtract_polygon_multipolygon_started : forall minuend subtrahend, valid_polygons minuend -> valid_polygon subtrahend -> (2 <= length minuend)%nat -> well_started minuend ->
  exists g, (forall o, subtract_polygon_from_multipolygon x o minuend subtrahend = Ok g) /\ well_started (polygons_of g).
Proof. intros a b V1 V2 N. apply (subtract_multipolygons_started a [b] V1 (single_polygon_valid b V2) N); discriminate. Qed.
End Planar.
Theorem unite_multipolygons_started : forall first second, valid_polygons first -> valid_polygons second -> first <> [] -> second <> [] -> well_started first -> well_started second ->
  exists g, (forall o, unite_multipolygons o first second = Ok g) /\ well_started (polygons_of g).
Proof.
  intros first second V1 V2 N1 N2 G1 G2. destruct (unite_multipolygons_correct first second V1 V2 N1 N2) as (g & R & _). exists g. split; [exact R|].
  exact (polygon_union_nice _ _ _ both_swept_started both_together_started first second V1 V2 N1 N2 (conj G1 G2) I some_oracle g (R some_oracle)).
Qed.
Theorem unite_polygons_started : forall first second, valid_polygon first -> valid_polygon second -> well_started [first] -> well_started [second] ->
  exists g, (forall o, unite_polygons o first second = Ok g) /\ well_started (polygons_of g).
Proof. intros a b V1 V2. apply (unite_multipolygons_started [a] [b] (single_polygon_valid a V1) (single_polygon_valid b V2)); discriminate. Qed.
Theorem unite_polygon_with_multipolygon_started : forall shape multipolygon, valid_polygon shape -> valid_polygons multipolygon -> multipolygon <> [] -> well_started [shape] -> well_started multipolygon ->
  exists g, (forall o, unite_polygon_with_multipolygon o shape multipolygon = Ok g) /\ well_started (polygons_of g).
Proof. intros a b V1 V2 N2. apply (unite_multipolygons_started [a] b (single_polygon_valid a V1) V2); [discriminate|exact N2]. Qed.
Theorem symmetric_subtract_multipolygons_started : forall first second, valid_polygons first -> valid_polygons second -> first <> [] -> second <> [] -> well_started first -> well_started second ->
  exists g, (forall o, symmetric_subtract_multipolygons o first second = Ok g) /\ well_started (polygons_of g).
Proof.
  intros first second V1 V2 N1 N2 G1 G2. destruct (symmetric_subtract_multipolygons_correct first second V1 V2 N1 N2) as (g & R & _). exists g. split; [exact R|].
  exact (polygon_symmetric_nice _ _ _ both_swept_started both_together_started first second V1 V2 N1 N2 (conj G1 G2) I some_oracle g (R some_oracle)).
Qed.
Theorem symmetric_subtract_polygons_started : forall first second, valid_polygon first -> valid_polygon second -> well_started [first] -> well_started [second] ->
  exists g, (forall o, symmetric_subtract_polygons o first second = Ok g) /\ well_started (polygons_of g).
Proof. intros a b V1 V2. apply (symmetric_subtract_multipolygons_started [a] [b] (single_polygon_valid a V1) (single_polygon_valid b V2)); discriminate. Qed.
Theorem symmetric_subtract_multipolygon_from_polygon_started : forall shape multipolygon, valid_polygon shape -> valid_polygons multipolygon -> multipolygon <> [] -> well_started [shape] -> well_started multipolygon ->
  exists g, (forall o, symmetric_subtract_multipolygon_from_polygon o shape multipolygon = Ok g) /\ well_started (polygons_of g).
Proof. intros a b V1 V2 N2. apply (symmetric_subtract_multipolygons_started [a] b (single_polygon_valid a V1) V2); [discriminate|exact N2]. Qed.
