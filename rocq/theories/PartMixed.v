(** Segments and points returned by operations of segments and polygons for
    any operands.  Proof support only, no part of /repo is modelled here. *)
From Coq Require Import Permutation.
From Verif Require Import QcTac Geom Spec SpecShape SpecSweep SpecNode SpecCut GeomFacts SortFacts Relation Toward Pair Bounding Sweep SweepCmp SweepLink SweepStart SweepLoop Linear Labelled Contour Filter Mixed Erase UnpackThms SelectThms LinearProps LinearComplete MixedThms Polygons NodeProps QueueThms QueueProps BoundingThms MergeCuts MergeThms PartCuts PartProps.

(** ** Events of the result belong to the linear operand *)
Definition fine (e : left_event) : Prop := l_result e = true -> l_first e = true.
Definition chosen (s : state) : Prop := Forall fine (lefts s).
Lemma Forall_update : forall (P : left_event -> Prop) f i l, Forall P l -> ((i < length l)%nat -> P (f (nth i l no_left))) -> Forall P (update l i f).
Proof.
  intros P f i. induction i as [|i IH]; intros [|a l] H K; cbn; try exact H; inversion_clear H as [|? ? Ha Hl]; constructor; auto.
  - apply K. cbn. lia.
  - apply (IH l Hl). intro L. apply K. cbn. lia.
Qed.
Lemma chosen_nth : forall s i, chosen s -> fine (lft s i).
Proof.
  intros s i H. unfold lft. destruct (Nat.lt_ge_cases i (length (lefts s))) as [L|L].
  - unfold chosen in H. rewrite Forall_forall in H. apply H. exact (nth_In _ _ L).
  - rewrite nth_overflow by exact L. intro E. discriminate E.
Qed.
Lemma chosen_line : forall s l, chosen s -> chosen (with_line s l).
Proof. intros s l H. exact H. Qed.
Lemma chosen_add : forall k shape i s, chosen s -> chosen (line_add k shape i s).
Proof. intros k shape i s H. unfold line_add. destruct (search k shape s i) as ([], n); exact H. Qed.
Lemma chosen_remove : forall k shape i s s', line_remove k shape i s = Ok s' -> chosen s -> chosen s'.
Proof. intros k shape i s s' E H. unfold line_remove in E. destruct (search k shape s i) as ([], n); [|discriminate E]. injection E as <-. exact H. Qed.
Lemma chosen_divide : forall i p s, chosen s -> chosen (divide i p s).
Proof.
  intros i p s H. unfold chosen, divide. cbn [lefts]. apply Forall_app. split.
  - apply Forall_update; [exact H|]. intros _. exact (chosen_nth s i H).
  - constructor; [intro E; discriminate E|constructor].
Qed.
Lemma chosen_mark : forall k b i s, chosen s -> chosen (mark_overlap k b i s).
Proof.
  intros k b i s H. destruct k; try exact H. unfold chosen, mark_overlap. cbn [lefts].
  match goal with |- Forall _ (update ?m _ _) => assert (M : Forall fine m) end.
  { apply Forall_update; [exact H|]. intros _. exact (chosen_nth s b H). }
  apply Forall_update; [exact M|]. intro L. rewrite Forall_forall in M. exact (M _ (nth_In _ no_left L)).
Qed.
Lemma chosen_kind : forall k b i s, chosen s -> chosen (mark_kind k b i s).
Proof.
  intros k b i s H. destruct k; try exact H. unfold chosen, mark_kind. cbn [lefts].
  match goal with |- Forall _ (update ?m _ _) => assert (M : Forall fine m) end.
  { apply Forall_update; [exact H|]. intros _. exact (chosen_nth s b H). }
  apply Forall_update; [exact M|]. intro L. rewrite Forall_forall in M. exact (M _ (nth_In _ no_left L)).
Qed.
Lemma chosen_detect : forall k b i s s' f, detect k b i s = Ok (s', f) -> chosen s -> chosen s'.
Proof.
  intros k b i s s' f E H. unfold detect in E. cbv zeta in E.
  pose proof (chosen_mark k b i s H) as H0. pose proof (chosen_kind k b i _ H0) as H1.
  repeat match type of E with
  | (match ?c with _ => _ end) = _ => destruct c
  | (if ?c then _ else _) = _ => destruct c
  | (let '(_, _) := ?c in _) = _ => destruct c
  end; try discriminate E; injection E as <- _; repeat match goal with |- context[if ?c then _ else _] => destruct c end; repeat apply chosen_divide; assumption.
Qed.
Section Result.
Variable result : left_event -> bool.
Hypothesis Hresult : forall e, result e = true -> l_first e = true.
Lemma chosen_other : forall i b s, chosen s -> chosen (update_left i (set_other b) s).
Proof. intros i b s H. apply Forall_update; [exact H|]. intros _. exact (chosen_nth s i H). Qed.
Lemma chosen_result : forall i s, chosen s -> chosen (update_left i (set_result (result (lft s i))) s).
Proof. intros i s H. apply Forall_update; [exact H|]. intros _ E. cbn in *. exact (Hresult _ E). Qed.
Lemma chosen_compute : forall i below s, chosen s -> chosen (compute_fields false result i below s).
Proof.
  intros i below s H. unfold compute_fields. cbv zeta. destruct below as [b|]; apply chosen_result; [apply chosen_other|]; exact H.
Qed.
Lemma chosen_add_labelled : forall k o n i s s', add_labelled k false result o n i s = Ok s' -> chosen s -> chosen s'.
Proof.
  intros k o n i s s' E H. unfold add_labelled in E. cbv zeta in E. set (s1 := line_add k (o_shape o (2 * n)) i s) in *.
  pose proof (chosen_add k (o_shape o (2 * n)) i s H) as H1. fold s1 in H1. set (below := line_below k (o_shape o (2 * n + 1)) s1 i) in *.
  pose proof (chosen_compute i below s1 H1) as H2. set (s2 := compute_fields false result i below s1) in *.
  match type of E with bind_res ?m _ = _ => destruct m as [s4|] eqn:E4; [|discriminate E] end. cbn [bind_res] in E.
  assert (H4 : chosen s4).
  { destruct (line_above k (o_shape o (2 * n + 1)) s1 i) as [a|]; [|injection E4 as <-; exact H2].
    destruct (detect k i a s2) as [(s3, f)|] eqn:E3; [|discriminate E4]. cbn [bind_res] in E4. injection E4 as <-.
    pose proof (chosen_detect _ _ _ _ _ _ E3 H2) as H3. destruct f; [repeat apply chosen_compute|]; exact H3. }
  destruct below as [b|]; [|injection E as <-; exact H4].
  destruct (detect k b i s4) as [(s5, f)|] eqn:E5; [|discriminate E]. cbn [bind_res] in E. injection E as <-.
  pose proof (chosen_detect _ _ _ _ _ _ E5 H4) as H5. destruct f; [repeat apply chosen_compute|]; exact H5.
Qed.
Lemma chosen_remove_left : forall k o n i s s', remove_left k o n i s = Ok s' -> chosen s -> chosen s'.
Proof.
  intros k o n i s s' E H. unfold remove_left in E. cbv zeta in E. destruct (line_remove k (o_shape o (2 * n)) i s) as [s1|] eqn:E1; [|discriminate E]. cbn [bind_res] in E.
  pose proof (chosen_remove _ _ _ _ _ E1 H) as H1.
  destruct (line_above k (o_shape o (2 * n)) s i) as [a|]; [|injection E as <-; exact H1].
  destruct (line_below k (o_shape o (2 * n)) s i) as [b|]; [|injection E as <-; exact H1].
  unfold detect_only in E. destruct (detect k b a s1) as [(x, f)|] eqn:D; [|discriminate E]. injection E as <-. exact (chosen_detect _ _ _ _ _ _ D H1).
Qed.
Lemma chosen_process : forall k o n ev s s' b, process_labelled k false result o n ev s = Ok (s', b) -> chosen s -> chosen s'.
Proof.
  intros k o n [i|r] s s' b E H; cbn [process_labelled] in E.
  - destruct (line_contains k (o_shape o (2 * n)) s i); [injection E as <- _; exact H|].
    destruct (add_labelled k false result o n i s) as [x|] eqn:E1; [|discriminate E]. cbn [bind_res] in E. injection E as <- _. exact (chosen_add_labelled _ _ _ _ _ _ E1 H).
  - cbv zeta in E. destruct (line_contains k (o_shape o (2 * n)) s (r_left (rgt s r))); [|injection E as <- _; exact H].
    destruct (remove_left k o n (r_left (rgt s r)) s) as [x|] eqn:E1; [|discriminate E]. cbn [bind_res] in E. injection E as <- _. exact (chosen_remove_left _ _ _ _ _ _ E1 H).
Qed.
Lemma chosen_run : forall out o stop fuel n s acc s' evs, run Mixed (step_mixed out result o) stop o fuel n s acc = Ok (s', evs) -> chosen s -> chosen s'.
Proof.
  intros out o stop fuel. induction fuel as [|f IH]; intros n s acc s' evs E H; cbn [run] in E.
  - destruct (queue s); [|discriminate E]. injection E as <- _. exact H.
  - destruct (queue s) as [|e q]; [injection E as <- _; exact H|].
    destruct (pop Mixed (o_pick o n) s) as [(ev, s1)|] eqn:E1; [|discriminate E].
    assert (H1 : chosen s1) by (unfold pop in E1; destruct (least (key_ltb Mixed s) (queue s)); [discriminate E1|]; injection E1 as _ <-; exact H).
    destruct (stop (Sweep.ev_start s1 ev)); [injection E as <- _; exact H1|].
    destruct (step_mixed out result o n ev s1) as [(s2, add)|] eqn:E2; [|discriminate E]. apply (IH _ _ _ _ _ E).
    unfold step_mixed in E2. destruct (process_labelled Mixed false result o n ev s1) as [(x, b)|] eqn:E3; [|discriminate E2]. cbn [bind_res] in E2.
    injection E2 as <- _. exact (chosen_process _ _ _ _ _ _ _ E3 H1).
Qed.
End Result.
Lemma chosen_register : forall first l s, chosen s -> chosen (register first l s).
Proof.
  intros first l. induction l as [|sg l IH]; intros s H; [exact H|]. apply IH. unfold chosen, register_one. cbn [lefts]. apply Forall_app.
  split; [exact H|]. constructor; [intro E; discriminate E|constructor].
Qed.
Lemma chosen_fill : forall ss ps, chosen (fill_mixed ss ps).
Proof.
  intros ss ps. unfold fill_mixed. pose proof (chosen_register true ss empty_state (Forall_nil _)) as H. revert H.
  generalize (register true ss empty_state). induction ps as [|p ps IH]; intros s H; [exact H|]. cbn [fold_left]. apply IH. exact (chosen_register false _ s H).
Qed.
Lemma mixed_out_first : forall e, mixed_out e = true -> l_first e = true.
Proof. intros e H. exact (proj1 (andb_prop _ _ H)). Qed.
Lemma mixed_in_first : forall e, mixed_in e = true -> l_first e = true.
Proof. intros e H. exact (proj1 (andb_prop _ _ H)). Qed.

(** ** Operands with oriented edges *)
Lemma oriented_redrawn : forall ps, redrawn (flat_map polygon_oriented_edges ps) (flat_map polygon_edges ps).
Proof.
  assert (G : forall es fs, Polygons.turned es fs -> forall s, In s es -> In s fs \/ In (turned_over s) fs).
  { intros es fs T s H. assert (K : In (canon s) (map canon fs)) by (apply (Permutation_in _ T); apply in_map; exact H).
    apply in_map_iff in K. destruct K as (t & E & K). destruct s as (a, b), t as (c, d).
    destruct (canon_cases (Seg a b)) as [E1|E1], (canon_cases (Seg c d)) as [E2|E2]; rewrite E1, E2 in E; cbn in E; injection E as -> ->; auto. }
  intro ps. pose proof (turned_polygons ps) as T. split; intros s H; [exact (G _ _ T s H)|exact (G _ _ (Polygons.turned_sym _ _ T) s H)].
Qed.
Lemma oriented_proper : forall ps, Forall proper (flat_map polygon_edges ps) -> Forall proper (flat_map polygon_oriented_edges ps).
Proof.
  intros ps H. rewrite Forall_forall in *. intros s Hs. destruct (proj1 (oriented_redrawn ps) s Hs) as [K|K]; [exact (H s K)|].
  specialize (H _ K). intro E. apply H. cbn. symmetry. exact E.
Qed.

Section Operands.
Variables (ss : list segment) (ps : list polygon).
Hypothesis P1 : Forall proper ss.
Hypothesis P2 : Forall proper (flat_map polygon_edges ps).
Notation edges := (flat_map polygon_edges ps).
Notation oriented := (flat_map polygon_oriented_edges ps).
Lemma operands_proper : Forall proper (ss ++ oriented).
Proof. apply Forall_app. split; [exact P1|exact (oriented_proper ps P2)]. Qed.
Lemma operands_redrawn : redrawn (ss ++ oriented) (ss ++ edges).
Proof. apply redrawn_app; [apply same_members_redrawn; reflexivity|exact (oriented_redrawn ps)]. Qed.
Lemma operands_cut : forall t, cut (ss ++ oriented) ss t -> cut (ss ++ edges) ss t.
Proof. intros t (A & B & C & D). split; [exact A|]. split; [exact B|]. split; apply (redrawn_node_half _ _ operands_redrawn); assumption. Qed.
Lemma sweep_mixed_whole : forall out result o stop s evs, (forall e, result e = true -> l_first e = true) ->
  (forall ev s, whole ss oriented s -> in_range s ev -> Forall (in_range s) (out ev s)) ->
  sweep_mixed out result o stop ss ps = Ok (s, evs) -> whole ss oriented s /\ Forall (in_range s) evs /\ chosen s.
Proof.
  intros out result o stop s evs Hr Ho E. unfold sweep_mixed in E.
  assert (W : whole ss oriented (fill_mixed ss ps)) by (apply (filled_whole ss oriented operands_proper); apply filled_mixed).
  destruct (run_kept ss oriented Mixed (step_mixed out result o) stop o
    (fun n ev s s' add => step_mixed_kept ss oriented operands_proper out result o n ev s s' add Ho) _ 0 _ [] s evs W (Forall_nil _) E) as (K1 & K2).
  split; [exact K1|]. split; [exact K2|]. exact (chosen_run result Hr out o stop _ _ _ _ _ _ E (chosen_fill ss ps)).
Qed.
Lemma resulting_cut : forall s evs, whole ss oriented s -> chosen s -> Forall (fun ev => is_left ev = true /\ in_range s ev) evs ->
  forall t, In t (resulting (s, evs)) -> cut (ss ++ edges) ss t.
Proof.
  intros s evs H C L t K. unfold resulting in K. apply in_map_iff in K. destruct K as (ev & <- & K). apply filter_In in K. destruct K as (K & R).
  rewrite Forall_forall in L. destruct (L ev K) as (Le & Re). destruct ev as [i|r]; [|discriminate Le].
  pose proof (piece_cuts ss oriented s i H Re) as Q. cbn [left_of] in R. rewrite (chosen_nth s i C R) in Q. exact (operands_cut _ Q).
Qed.
Lemma run_out : forall out result o stop (P : event -> Prop), (forall ev s, Forall P (out ev s)) ->
  forall fuel n s acc s' evs, run Mixed (step_mixed out result o) stop o fuel n s acc = Ok (s', evs) -> Forall P acc -> Forall P evs.
Proof.
  clear. intros out result o stop P Ho fuel. induction fuel as [|f IH]; intros n s acc s' evs E H; cbn [run] in E.
  - destruct (queue s); [|discriminate E]. injection E as _ <-. exact H.
  - destruct (queue s) as [|e q]; [injection E as _ <-; exact H|].
    destruct (pop Mixed (o_pick o n) s) as [(ev, s1)|]; [|discriminate E].
    destruct (stop (Sweep.ev_start s1 ev)); [injection E as _ <-; exact H|].
    destruct (step_mixed out result o n ev s1) as [(s2, add)|] eqn:E2; [|discriminate E]. apply (IH _ _ _ _ _ E).
    unfold step_mixed in E2. destruct (process_labelled Mixed false result o n ev s1) as [(x, b)|]; [|discriminate E2]. cbn [bind_res] in E2.
    injection E2 as <- <-. apply Forall_app. split; [exact H|apply Ho].
Qed.
Lemma swept_cut : forall out result o stop s evs, (forall e, result e = true -> l_first e = true) ->
  (forall ev s, whole ss oriented s -> in_range s ev -> Forall (in_range s) (out ev s)) -> (forall ev s, Forall (fun ev => is_left ev = true) (out ev s)) ->
  sweep_mixed out result o stop ss ps = Ok (s, evs) -> forall t, In t (resulting (s, evs)) -> cut (ss ++ edges) ss t.
Proof.
  intros out result o stop s evs Hr Ho Hl E. destruct (sweep_mixed_whole _ _ _ _ _ _ Hr Ho E) as (K1 & K2 & K3).
  pose proof (run_out out result o stop _ Hl _ _ _ _ _ _ E (Forall_nil _)) as K4. apply (resulting_cut s evs K1 K3).
  rewrite Forall_forall in *. intros ev I. split; [exact (K4 ev I)|exact (K2 ev I)].
Qed.
Lemma out_right_left : forall ev s, Forall (fun ev => is_left ev = true) (out_right ev s).
Proof. intros [i|r] s; repeat constructor. Qed.
Lemma out_left_left : forall ev s, Forall (fun ev => is_left ev = true) (out_left ev s).
Proof. intros [i|r] s; repeat constructor. Qed.
Lemma swept_points : forall s evs, whole ss oriented s -> Forall (in_range s) evs -> forall p, In p (mixed_points s evs) -> shared_node ss edges p.
Proof.
  intros s evs H R p K. unfold mixed_points in K. apply in_map_iff in K. destruct K as ((q, g) & E & K). cbn in E. subst q.
  apply filter_In in K. destruct K as (K & T). apply Bool.negb_true_iff in T. apply Bool.orb_false_iff in T. destruct T as (_ & T). cbn [snd] in T.
  apply (group_by_keys pt_eqb (Sweep.ev_start s) pt_eqb_spec) in K. destruct K as (_ & K). rewrite Forall_forall in R.
  apply all_equal_spec in T. destruct T as (T1 & T2). apply in_map_iff in T1, T2. destruct T1 as (u & E1 & I1), T2 as (v & E2 & I2).
  destruct (K u I1) as (<- & Ju), (K v I2) as (Ev & Jv). destruct (event_side _ _ s u H (R u Ju)) as (A1 & A2). destruct (event_side _ _ s v H (R v Jv)) as (B1 & _).
  rewrite E1 in A1. rewrite E2, Ev in B1. split; [exact (redrawn_node_half _ _ operands_redrawn _ A2)|]. split; [exact A1|].
  exact (proj1 (redrawn_on _ _ (oriented_redrawn ps) _) B1).
Qed.
End Operands.

(** ** Mixed operations *)
Section Mixed.
Variables (ss : list segment) (ps : list polygon).
Hypothesis P1 : Forall proper ss.
Hypothesis P2 : Forall proper (flat_map polygon_edges ps).
Notation edges := (flat_map polygon_edges ps).
Lemma part_operands : forall ss' (f : polygon -> bool), incl ss' ss -> Forall proper ss' /\ Forall proper (flat_map polygon_edges (filter f ps)).
Proof. intros ss' f I. split; [exact (proper_incl _ _ I P1)|exact (proper_incl _ _ (incl_edges f ps) P2)]. Qed.
Theorem mixed_intersection_parts : forall x o g, mixed_intersection x o ss ps = Ok g ->
  points_of g = [] /\ polygons_of g = [] /\ forall t, In t (segments_of g) -> cut (ss ++ edges) ss t.
Proof.
  intros x o g E. unfold mixed_intersection, intersecting_parts, with_mixed_boxes in E.
  destruct (segments_box ss) as [a|]; [|discriminate E]. destruct (polygons_box ps) as [b|]; [|discriminate E].
  assert (K : g = GEmpty -> points_of g = [] /\ polygons_of g = [] /\ forall t, In t (segments_of g) -> cut (ss ++ edges) ss t)
    by (intros ->; split; [reflexivity|]; split; [reflexivity|]; intros t []).
  destruct (disjoint_with a b); [injection E as <-; exact (K eq_refl)|].
  pose proof (incl_filter _ (intersects_with_segment b) ss) as I. change (filter (intersects_with_segment b) ss) with (to_intersecting_segments b ss) in I.
  destruct (part_operands _ (intersects_with_polygon x a) I) as (Q1 & Q2). pose proof (incl_edges (intersects_with_polygon x a) ps) as J.
  change (filter (intersects_with_polygon x a) ps) with (to_intersecting_polygons x a ps) in Q2, J.
  destruct (to_intersecting_segments b ss) as [|k l]; [injection E as <-; exact (K eq_refl)|]. destruct (to_intersecting_polygons x a ps) as [|k' l']; [injection E as <-; exact (K eq_refl)|]. clear K.
  destruct (sweep_mixed out_left mixed_in o (mixed_stop (k :: l) (k' :: l')) (k :: l) (k' :: l')) as [(s, evs)|] eqn:R; [|discriminate E]. cbn [bind_res] in E. injection E as <-.
  pose proof (swept_cut _ _ Q1 Q2 _ _ _ _ _ _ mixed_in_first (out_left_kept _ _) out_left_left R) as C.
  destruct (unpack_segments_canonical (resulting (s, evs))) as (_ & C2 & C3 & C4). split; [exact C2|]. split; [exact C4|]. intros t H.
  change (In t (segments_of (unpack_segments (resulting (s, evs))))) in H. rewrite C3 in H. pose proof (C t H) as D. revert D. apply cut_mono; [apply incl_both; assumption|exact I].
Qed.
Theorem mixed_difference_parts : forall x o value g, points_of value = [] -> polygons_of value = [] -> segments_of value = ss ->
  mixed_difference x o value ss ps = Ok g ->
  points_of g = [] /\ polygons_of g = [] /\ forall t, In t (segments_of g) -> In t ss \/ cut (ss ++ edges) ss t.
Proof.
  intros x o value g V1 V2 V3 E. unfold mixed_difference, with_mixed_boxes in E.
  destruct (segments_box ss) as [a|]; [|discriminate E]. destruct (polygons_box ps) as [b|]; [|discriminate E].
  assert (K : g = value -> points_of g = [] /\ polygons_of g = [] /\ forall t, In t (segments_of g) -> In t ss \/ cut (ss ++ edges) ss t).
  { intros ->. rewrite V3. split; [exact V1|]. split; [exact V2|]. auto. }
  destruct (disjoint_with a b); [injection E as <-; exact (K eq_refl)|].
  destruct (part_operands ss (coupled_with_polygon x a) (incl_refl _)) as (Q1 & Q2). pose proof (incl_edges (coupled_with_polygon x a) ps) as J.
  change (filter (coupled_with_polygon x a) ps) with (to_coupled_polygons x a ps) in Q2, J.
  destruct (to_coupled_polygons x a ps) as [|k' l']; [injection E as <-; exact (K eq_refl)|]. clear K.
  destruct (sweep_mixed out_right mixed_out o (beyond (segments_x_max ss)) ss (k' :: l')) as [(s, evs)|] eqn:R; [|discriminate E]. cbn [bind_res] in E. injection E as <-.
  pose proof (swept_cut _ _ Q1 Q2 _ _ _ _ _ _ mixed_out_first (out_right_kept _ _) out_right_left R) as C.
  destruct (unpack_segments_canonical (resulting (s, evs))) as (_ & C2 & C3 & C4). split; [exact C2|]. split; [exact C4|]. intros t H. right.
  change (In t (segments_of (unpack_segments (resulting (s, evs))))) in H. rewrite C3 in H. pose proof (C t H) as D. revert D. apply cut_mono; [apply incl_both; [apply incl_refl|exact J]|apply incl_refl].
Qed.
Theorem mixed_union_parts : forall x o linear shaped g, points_of linear = [] -> polygons_of linear = [] -> segments_of linear = ss ->
  points_of shaped = [] -> polygons_of shaped = ps -> segments_of shaped = [] ->
  mixed_union x o linear shaped ss ps = Ok g ->
  points_of g = [] /\ polygons_of g = ps /\ forall t, In t (segments_of g) -> In t ss \/ cut (ss ++ edges) ss t.
Proof.
  intros x o linear shaped g V1 V2 V3 U1 U2 U3 E. unfold mixed_union, with_mixed_boxes in E.
  destruct (segments_box ss) as [a|]; [|discriminate E]. destruct (polygons_box ps) as [b|]; [|discriminate E].
  assert (M : forall lin, points_of lin = [] -> polygons_of lin = [] -> (forall t, In t (segments_of lin) -> In t ss \/ cut (ss ++ edges) ss t) ->
    points_of (GMix GEmpty lin shaped) = [] /\ polygons_of (GMix GEmpty lin shaped) = ps /\ forall t, In t (segments_of (GMix GEmpty lin shaped)) -> In t ss \/ cut (ss ++ edges) ss t).
  { intros lin L1 L2 L3. cbn. rewrite L1, L2, U1, U2, U3, ?app_nil_r. split; [reflexivity|]. split; [reflexivity|exact L3]. }
  destruct (disjoint_with a b); [injection E as <-; apply M; [exact V1|exact V2|rewrite V3; auto]|].
  destruct (split_intersecting_segments b ss) as (rest, near) eqn:Sp.
  assert (I : incl near ss /\ incl rest ss).
  { rewrite BoundingThms.split_filter in Sp. injection Sp as <- <-. split; apply incl_filter. }
  destruct I as (I & I'). cbv zeta in E.
  destruct (part_operands near (intersects_with_polygon x a) I) as (Q1 & Q2). pose proof (incl_edges (intersects_with_polygon x a) ps) as J.
  change (filter (intersects_with_polygon x a) ps) with (to_intersecting_polygons x a ps) in Q2, J.
  destruct (sweep_mixed out_left mixed_out o no_stop near (to_intersecting_polygons x a ps)) as [(s, evs)|] eqn:R; [|discriminate E]. cbn [bind_res] in E.
  pose proof (swept_cut _ _ Q1 Q2 _ _ _ _ _ _ mixed_out_first (out_left_kept _ _) out_left_left R) as C.
  destruct (unpack_segments_canonical (resulting (s, evs) ++ rest)) as (_ & C2 & C3 & C4).
  assert (G : forall t, In t (segments_of (unpack_segments (resulting (s, evs) ++ rest))) -> In t ss \/ cut (ss ++ edges) ss t).
  { intros t H. rewrite C3 in H. apply in_app_or in H. destruct H as [H|H]; [right|left; exact (I' t H)].
    pose proof (C t H) as D. revert D. apply cut_mono; [apply incl_both; assumption|exact I]. }
  change (match unpack_segments (resulting (s, evs) ++ rest) with GEmpty => Ok shaped | linear => Ok (GMix GEmpty linear shaped) end = Ok g) in E.
  pose proof (M _ C2 C4 G) as Z. destruct (unpack_segments (resulting (s, evs) ++ rest)); try (injection E as <-; exact Z).
Qed.
Theorem mixed_complete_parts_of : forall x o g, mixed_complete_intersection x o ss ps = Ok g ->
  polygons_of g = [] /\ (forall p, In p (points_of g) -> shared_node ss edges p) /\ forall t, In t (segments_of g) -> cut (ss ++ edges) ss t.
Proof.
  intros x o g E. unfold mixed_complete_intersection, intersecting_parts, with_mixed_boxes in E.
  destruct (segments_box ss) as [a|]; [|discriminate E]. destruct (polygons_box ps) as [b|]; [|discriminate E].
  assert (K : g = GEmpty -> polygons_of g = [] /\ (forall p, In p (points_of g) -> shared_node ss edges p) /\ forall t, In t (segments_of g) -> cut (ss ++ edges) ss t)
    by (intros ->; split; [reflexivity|]; split; intros t []).
  destruct (disjoint_with a b); [injection E as <-; exact (K eq_refl)|].
  pose proof (incl_filter _ (intersects_with_segment b) ss) as I. change (filter (intersects_with_segment b) ss) with (to_intersecting_segments b ss) in I.
  destruct (part_operands _ (intersects_with_polygon x a) I) as (Q1 & Q2). pose proof (incl_edges (intersects_with_polygon x a) ps) as J.
  change (filter (intersects_with_polygon x a) ps) with (to_intersecting_polygons x a ps) in Q2, J.
  destruct (to_intersecting_segments b ss) as [|k l]; [injection E as <-; exact (K eq_refl)|]. destruct (to_intersecting_polygons x a ps) as [|k' l']; [injection E as <-; exact (K eq_refl)|]. clear K.
  destruct (sweep_mixed out_all mixed_in o (mixed_stop (k :: l) (k' :: l')) (k :: l) (k' :: l')) as [(s, evs)|] eqn:R; [|discriminate E]. cbn [bind_res] in E.
  destruct (sweep_mixed_whole _ _ Q1 Q2 _ _ _ _ _ _ mixed_in_first (out_all_kept _ _) R) as (K1 & K2 & K3).
  set (evs' := sort_by (binary_key_ltb s) evs) in *.
  assert (K2' : Forall (in_range s) evs') by (rewrite Forall_forall in *; intros ev H; apply K2; unfold evs' in H; apply sort_by_in in H; exact H).
  change (Ok (unpack_linear_mix (unpack_points (mixed_points s evs')) (unpack_segments (resulting (s, filter is_left evs')))) = Ok g) in E.
  destruct (unpack_linear_mix_canonical (mixed_points s evs') (resulting (s, filter is_left evs'))) as (_ & C2 & C3 & C4).
  pose proof (f_equal (fun r => match r with Ok v => v | Err _ => g end) E) as Eg. cbv beta iota in Eg. rewrite <- Eg, C2, C3. split; [exact C4|]. split.
  - intros p H. pose proof (swept_points _ _ s evs' K1 K2' p H) as D. revert D. apply shared_mono; assumption.
  - intros t H. assert (D : cut ((k :: l) ++ flat_map polygon_edges (k' :: l')) (k :: l) t).
    { apply (resulting_cut (k :: l) (k' :: l') s (filter is_left evs') K1 K3); [|exact H]. rewrite Forall_forall in *. intros ev M. apply filter_In in M. destruct M as (M1 & M2). split; [exact M2|exact (K2' ev M1)]. }
    revert D. apply cut_mono; [apply incl_both; assumption|exact I].
Qed.
End Mixed.
