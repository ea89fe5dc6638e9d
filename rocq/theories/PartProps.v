(** Segments and points returned by linear and mixed operations for any
    operands.  Proof support only, no part of /repo is modelled here. *)
From Coq Require Import Permutation.
From Verif Require Import QcTac Geom Spec SpecShape SpecSweep SpecNode SpecCut GeomFacts SortFacts Relation Toward Pair Bounding Sweep SweepCmp SweepLink SweepStart SweepLoop Linear Labelled Contour Filter Mixed Erase UnpackThms SelectThms LinearProps LinearComplete MixedThms Polygons NodeProps QueueThms QueueProps MergeCuts MergeThms PartCuts.

Lemma node_mono : forall ss ss' p, incl ss ss' -> node ss p -> node ss' p.
Proof.
  intros ss ss' p I [(s & Hs & E)|(s & t & Hs & Ht & K)].
  - left. exists s. split; [exact (I s Hs)|exact E].
  - right. exists s, t. split; [exact (I s Hs)|]. split; [exact (I t Ht)|exact K].
Qed.
Lemma cut_mono : forall ss ss' of of' t, incl ss ss' -> incl of of' -> cut ss of t -> cut ss' of' t.
Proof.
  intros ss ss' of of' t I J ((s & Hs & W) & L & N1 & N2). split; [exists s; split; [exact (J s Hs)|exact W]|]. split; [exact L|].
  split; apply (node_mono ss ss' _ I); assumption.
Qed.
Lemma shared_mono : forall a a' b b' p, incl a a' -> incl b b' -> shared_node a b p -> shared_node a' b' p.
Proof.
  intros a a' b b' p I J (N & (s & Hs & Ps) & (t & Ht & Pt)). split.
  - apply (node_mono (a ++ b)); [|exact N]. apply incl_app; [apply incl_appl; exact I|apply incl_appr; exact J].
  - split; [exists s; split; [exact (I s Hs)|exact Ps]|exists t; split; [exact (J t Ht)|exact Pt]].
Qed.
Lemma incl_both : forall (a a' b b' : list segment), incl a a' -> incl b b' -> incl (a ++ b) (a' ++ b').
Proof. intros a a' b b' I J. apply incl_app; [apply incl_appl; exact I|apply incl_appr; exact J]. Qed.
Lemma incl_filter : forall (A : Type) (f : A -> bool) l, incl (filter f l) l.
Proof. intros A f l x H. apply filter_In in H. exact (proj1 H). Qed.
Lemma incl_edges : forall (f : polygon -> bool) ps, incl (flat_map polygon_edges (filter f ps)) (flat_map polygon_edges ps).
Proof. intros f ps s H. apply in_flat_map in H. destruct H as (p & Hp & Hs). apply in_flat_map. exists p. split; [exact (incl_filter _ f ps p Hp)|exact Hs]. Qed.
Lemma proper_incl : forall a b : list segment, incl a b -> Forall proper b -> Forall proper a.
Proof. intros a b I H. rewrite Forall_forall in *. intros x Hx. exact (H x (I x Hx)). Qed.

(** ** Swept pieces *)
Lemma piece_cuts : forall a b s i, whole a b s -> (i < length (lefts s))%nat -> cut (a ++ b) (if l_first (lft s i) then a else b) (seg_of s i).
Proof. intros a b s i H Hi. exact (piece_cut a b s i H Hi). Qed.
Lemma event_side : forall a b s ev, whole a b s -> in_range s ev -> on_segments (Sweep.ev_start s ev) (if ev_first s ev then a else b) /\ node (a ++ b) (Sweep.ev_start s ev).
Proof.
  intros a b s ev H Hr. pose proof (sn_wf s (whole_sane _ _ s H)) as Hw. pose proof (left_of_range s ev Hw Hr) as Hi.
  destruct (piece_cuts a b s _ H Hi) as ((sg & Hsg & W) & L & N1 & N2). unfold ev_first. destruct ev as [i|r]; cbn [left_of Sweep.ev_start] in *.
  - split; [exists sg; split; [exact Hsg|apply W; exact (on_segment_start (seg_of s i))]|exact N1].
  - destruct (w_rl s Hw r Hr) as (_ & E). assert (E' : end_of s (r_left (rgt s r)) = r_start (rgt s r)) by (unfold end_of; rewrite E; reflexivity).
    rewrite <- E'. split; [exists sg; split; [exact Hsg|apply W; exact (on_segment_end (seg_of s (r_left (rgt s r))))]|exact N2].
Qed.
Definition left_in (s : state) (ev : event) : Prop := exists i, ev = EL i /\ (i < length (lefts s))%nat.
Lemma select_groups : forall test s events t, In t (select test (s, events)) ->
  exists g, g <> [] /\ test (map (ev_first s) g) = true /\ forall ev, In ev g -> In ev events /\ ev_segment s ev = t.
Proof.
  intros test s events t H. unfold select in H. apply sort_by_in in H. apply in_map_iff in H. destruct H as ((k, g) & E & H). cbn in E. subst k.
  apply filter_In in H. destruct H as (H & T). apply (group_by_keys seg_eqb (ev_segment s) seg_eqb_spec) in H. destruct H as (Ng & H).
  exists g. split; [exact Ng|]. split; [exact T|]. intros ev K. destruct (H ev K). auto.
Qed.
Section Selected.
Variables (a b : list segment) (s : state) (events : list event).
Hypothesis Hw : whole a b s.
Hypothesis Hl : Forall (left_in s) events.
Lemma selected_event : forall ev, In ev events -> cut (a ++ b) (if ev_first s ev then a else b) (ev_segment s ev).
Proof.
  intros ev H. rewrite Forall_forall in Hl. destruct (Hl ev H) as (i & -> & Hi). exact (piece_cuts a b s i Hw Hi).
Qed.
Lemma select_any : forall test t, In t (select test (s, events)) -> cut (a ++ b) (a ++ b) t.
Proof.
  intros test t H. destruct (select_groups test s events t H) as (g & Ng & _ & K). destruct g as [|ev g]; [contradiction|].
  destruct (K ev (or_introl eq_refl)) as (I & <-). pose proof (selected_event ev I) as C. revert C. apply cut_mono; [apply incl_refl|].
  destruct (ev_first s ev); [apply incl_appl|apply incl_appr]; apply incl_refl.
Qed.
Lemma select_first : forall t, In t (select forall_first (s, events)) -> cut (a ++ b) a t.
Proof.
  intros t H. destruct (select_groups _ s events t H) as (g & Ng & T & K). destruct g as [|ev g]; [contradiction|].
  destruct (K ev (or_introl eq_refl)) as (I & <-). pose proof (selected_event ev I) as C. cbn in T. destruct (ev_first s ev); [exact C|discriminate T].
Qed.
Lemma select_common : forall t, In t (select (fun l => negb (all_equal l)) (s, events)) -> cut (a ++ b) a t /\ cut (a ++ b) b t.
Proof.
  intros t H. destruct (select_groups _ s events t H) as (g & Ng & T & K). apply Bool.negb_true_iff in T. apply all_equal_spec in T. destruct T as (T1 & T2).
  apply in_map_iff in T1, T2. destruct T1 as (x & E1 & I1), T2 as (y & E2 & I2). destruct (K x I1) as (J1 & K1), (K y I2) as (J2 & K2).
  pose proof (selected_event x J1) as C1. pose proof (selected_event y J2) as C2. rewrite E1, K1 in C1. rewrite E2, K2 in C2. split; assumption.
Qed.
End Selected.

(** ** Linear operations *)
Lemma lefts_in : forall a b, Forall proper (a ++ b) -> forall o fuel stop n s s' acc out,
  whole a b s -> Forall (left_in s) acc -> run Linear (step_lefts o) stop o fuel n s acc = Ok (s', out) -> whole a b s' /\ Forall (left_in s') out.
Proof.
  intros a b HP o fuel stop n s s' acc out H Ha E.
  assert (Hr : Forall (in_range s) acc) by (revert Ha; apply Forall_impl; intros ev (i & -> & Hi); exact Hi).
  destruct (run_kept a b Linear (step_lefts o) stop o (step_lefts_kept a b HP o) fuel n s acc s' out H Hr E) as (K1 & K2). split; [exact K1|].
  assert (L : forall fuel n s acc s' out, Forall (fun ev => is_left ev = true) acc -> run Linear (step_lefts o) stop o fuel n s acc = Ok (s', out) -> Forall (fun ev => is_left ev = true) out).
  { clear. intro fuel. induction fuel as [|f IH]; intros n s acc s' out Ha E; cbn [run] in E.
    - destruct (queue s); [|discriminate E]. injection E as _ <-. exact Ha.
    - destruct (queue s) as [|e q]; [injection E as _ <-; exact Ha|]. destruct (pop Linear (o_pick o n) s) as [(ev, s1)|]; [|discriminate E].
      destruct (stop (Sweep.ev_start s1 ev)); [injection E as _ <-; exact Ha|]. unfold step_lefts in E at 1. destruct (process_linear o n ev s1) as [s2|]; [|discriminate E].
      apply (IH _ _ _ _ _) in E; [exact E|]. apply Forall_app. split; [exact Ha|]. destruct ev; repeat constructor. }
  assert (Hl : Forall (fun ev => is_left ev = true) acc) by (revert Ha; apply Forall_impl; intros ev (i & -> & _); reflexivity).
  pose proof (L fuel n s acc s' out Hl E) as Q. rewrite Forall_forall in *. intros ev I. specialize (Q ev I). specialize (K2 ev I).
  destruct ev as [i|r]; [|discriminate Q]. exists i. split; [reflexivity|exact K2].
Qed.
Lemma linear_whole : forall a b, Forall proper (a ++ b) -> whole a b (fill_linear a b).
Proof. intros a b HP. apply (filled_whole a b HP). apply filled_linear. Qed.
Lemma sweep_lefts_whole : forall a b o stop s out, Forall proper (a ++ b) -> sweep_lefts o stop a b = Ok (s, out) -> whole a b s /\ Forall (left_in s) out.
Proof. intros a b o stop s out HP E. exact (lefts_in a b HP o _ stop 0 _ s [] out (linear_whole a b HP) (Forall_nil _) E). Qed.
Lemma sweep_all_whole : forall a b o stop s out, Forall proper (a ++ b) -> sweep_all o stop a b = Ok (s, out) -> whole a b s /\ Forall (in_range s) out.
Proof.
  intros a b o stop s out HP E. exact (run_kept a b Linear (step_all o) stop o (step_all_kept a b HP o) _ 0 _ [] s out (linear_whole a b HP) (Forall_nil _) E).
Qed.

Section Linear.
Variables first second : list segment.
Hypothesis P1 : Forall proper first.
Hypothesis P2 : Forall proper second.
Notation both := (first ++ second).
Lemma both_proper : forall a b, incl a first -> incl b second -> Forall proper (a ++ b).
Proof. intros a b I J. apply Forall_app. split; [exact (proper_incl _ _ I P1)|exact (proper_incl _ _ J P2)]. Qed.
Theorem union_parts : forall o g, linear_union o first second = Ok g ->
  points_of g = [] /\ polygons_of g = [] /\ forall t, In t (segments_of g) -> In t both \/ cut both both t.
Proof.
  intros o g E. unfold linear_union, with_boxes in E. destruct (segments_box first) as [x|]; [|discriminate E]. destruct (segments_box second) as [y|]; [|discriminate E].
  destruct (disjoint_with x y).
  - injection E as <-. split; [reflexivity|]. split; [reflexivity|]. intros t H. left. apply sort_by_in in H. exact H.
  - destruct (sweep_lefts o no_stop first second) as [(s, out)|] eqn:R; [|discriminate E]. cbn [bind_res] in E. injection E as <-.
    destruct (sweep_lefts_whole _ _ _ _ _ _ (both_proper _ _ (incl_refl _) (incl_refl _)) R) as (K1 & K2).
    split; [reflexivity|]. split; [reflexivity|]. intros t H. right. exact (select_any _ _ s out K1 K2 (fun _ => true) t H).
Qed.
Theorem symmetric_parts : forall o g, linear_symmetric_difference o first second = Ok g ->
  points_of g = [] /\ polygons_of g = [] /\ forall t, In t (segments_of g) -> In t both \/ cut both both t.
Proof.
  intros o g E. unfold linear_symmetric_difference, with_boxes in E. destruct (segments_box first) as [x|]; [|discriminate E]. destruct (segments_box second) as [y|]; [|discriminate E].
  destruct (disjoint_with x y).
  - injection E as <-. split; [reflexivity|]. split; [reflexivity|]. intros t H. left. apply sort_by_in in H. exact H.
  - destruct (sweep_lefts o no_stop first second) as [(s, out)|] eqn:R; [|discriminate E]. cbn [bind_res] in E. injection E as <-.
    destruct (sweep_lefts_whole _ _ _ _ _ _ (both_proper _ _ (incl_refl _) (incl_refl _)) R) as (K1 & K2).
    match goal with |- context[unpack_segments ?l] => destruct (unpack_segments_canonical l) as (_ & C2 & C3 & C4) end. rewrite C3.
    split; [exact C2|]. split; [exact C4|]. intros t H. right. exact (select_any _ _ s out K1 K2 all_equal t H).
Qed.
Theorem difference_parts : forall o value g, points_of value = [] -> polygons_of value = [] -> segments_of value = first ->
  linear_difference o value first second = Ok g ->
  points_of g = [] /\ polygons_of g = [] /\ forall t, In t (segments_of g) -> In t first \/ cut both first t.
Proof.
  intros o value g V1 V2 V3 E. unfold linear_difference, with_boxes in E. destruct (segments_box first) as [x|]; [|discriminate E]. destruct (segments_box second) as [y|]; [|discriminate E].
  assert (K : g = value -> points_of g = [] /\ polygons_of g = [] /\ forall t, In t (segments_of g) -> In t first \/ cut both first t).
  { intros ->. rewrite V3. split; [exact V1|]. split; [exact V2|]. auto. }
  destruct (disjoint_with x y); [injection E as <-; exact (K eq_refl)|]. cbv zeta in E.
  pose proof (incl_filter _ (coupled_with_segment x) second) as I. change (filter (coupled_with_segment x) second) with (to_coupled_segments x second) in I.
  destruct (to_coupled_segments x second) as [|k l]; [injection E as <-; exact (K eq_refl)|]. clear K.
  destruct (sweep_lefts o (beyond (segments_x_max first)) first (k :: l)) as [(s, out)|] eqn:R; [|discriminate E]. cbn [bind_res] in E. injection E as <-.
  destruct (sweep_lefts_whole _ _ _ _ _ _ (both_proper _ _ (incl_refl _) I) R) as (K1 & K2).
  match goal with |- context[unpack_segments ?l] => destruct (unpack_segments_canonical l) as (_ & C2 & C3 & C4) end. rewrite C3.
  split; [exact C2|]. split; [exact C4|]. intros t H. right. pose proof (select_first _ _ s out K1 K2 t H) as C. revert C.
  apply cut_mono; [apply incl_both; [apply incl_refl|exact I]|apply incl_refl].
Qed.
Theorem intersection_parts : forall o g, linear_intersection o first second = Ok g ->
  points_of g = [] /\ polygons_of g = [] /\ forall t, In t (segments_of g) -> cut both first t /\ cut both second t.
Proof.
  intros o g E. unfold linear_intersection, with_boxes in E. destruct (segments_box first) as [x|]; [|discriminate E]. destruct (segments_box second) as [y|]; [|discriminate E].
  assert (K : g = GEmpty -> points_of g = [] /\ polygons_of g = [] /\ forall t, In t (segments_of g) -> cut both first t /\ cut both second t).
  { intros ->. split; [reflexivity|]. split; [reflexivity|]. intros t []. }
  destruct (disjoint_with x y); [injection E as <-; exact (K eq_refl)|]. cbv zeta in E.
  pose proof (incl_filter _ (coupled_with_segment y) first) as I. change (filter (coupled_with_segment y) first) with (to_coupled_segments y first) in I.
  pose proof (incl_filter _ (coupled_with_segment x) second) as J. change (filter (coupled_with_segment x) second) with (to_coupled_segments x second) in J.
  destruct (to_coupled_segments y first) as [|k l]; [injection E as <-; exact (K eq_refl)|]. destruct (to_coupled_segments x second) as [|k' l']; [injection E as <-; exact (K eq_refl)|]. clear K.
  destruct (sweep_lefts _ _ (k :: l) (k' :: l')) as [(s, out)|] eqn:R; [|discriminate E]. cbn [bind_res] in E. injection E as <-.
  destruct (sweep_lefts_whole _ _ _ _ _ _ (both_proper _ _ I J) R) as (K1 & K2).
  match goal with |- context[unpack_segments ?l] => destruct (unpack_segments_canonical l) as (_ & C2 & C3 & C4) end. rewrite C3.
  split; [exact C2|]. split; [exact C4|]. intros t H. destruct (select_common _ _ s out K1 K2 t H) as (C & D).
  split; [revert C|revert D]; apply cut_mono; try assumption; apply incl_both; assumption.
Qed.
Lemma combine_tail : forall (A : Type) (l : list A) x y, In (x, y) (combine l (tl l)) -> In x l /\ In y l.
Proof.
  intros A l x y H. split; [exact (in_combine_l _ _ _ _ H)|]. apply in_combine_r in H. destruct l; [destruct H|right; exact H].
Qed.
Theorem complete_parts_of : forall o g, linear_complete_intersection o first second = Ok g ->
  polygons_of g = [] /\ (forall p, In p (points_of g) -> shared_node first second p)
  /\ forall t, In t (segments_of g) -> cut both first t /\ cut both second t.
Proof.
  intros o g E. unfold linear_complete_intersection, with_boxes in E. destruct (segments_box first) as [x|]; [|discriminate E]. destruct (segments_box second) as [y|]; [|discriminate E].
  assert (K : g = GEmpty -> polygons_of g = [] /\ (forall p, In p (points_of g) -> shared_node first second p) /\ forall t, In t (segments_of g) -> cut both first t /\ cut both second t).
  { intros ->. split; [reflexivity|]. split; intros t []. }
  destruct (disjoint_with x y); [injection E as <-; exact (K eq_refl)|]. cbv zeta in E.
  pose proof (incl_filter _ (intersects_with_segment y) first) as I. change (filter (intersects_with_segment y) first) with (to_intersecting_segments y first) in I.
  pose proof (incl_filter _ (intersects_with_segment x) second) as J. change (filter (intersects_with_segment x) second) with (to_intersecting_segments x second) in J.
  destruct (to_intersecting_segments y first) as [|k l]; [injection E as <-; exact (K eq_refl)|]. destruct (to_intersecting_segments x second) as [|k' l']; [injection E as <-; exact (K eq_refl)|]. clear K.
  destruct (sweep_all _ _ (k :: l) (k' :: l')) as [(s, out)|] eqn:R; [|discriminate E]. cbn [bind_res] in E. cbv zeta in E.
  destruct (complete_parts (s, out)) as (ps, ts) eqn:Q. injection E as <-.
  destruct (sweep_all_whole _ _ _ _ _ _ (both_proper _ _ I J) R) as (K1 & K2). rewrite Forall_forall in K2.
  destruct (unpack_linear_mix_canonical ps ts) as (_ & C2 & C3 & C4). rewrite C2, C3. split; [exact C4|].
  unfold complete_parts in Q. set (evs := sort_by (fun a b => seg_ltb (ev_segment s a) (ev_segment s b)) out) in *.
  set (mixed := filter (fun g => negb (all_equal (map (ev_first s) (snd g)))) (group_by pt_eqb (Sweep.ev_start s) evs)) in *. injection Q as <- <-.
  assert (M : forall q gr, In (q, gr) mixed -> all_equal (map (ev_first s) gr) = false /\ forall ev, In ev gr -> Sweep.ev_start s ev = q /\ in_range s ev).
  { intros q gr H. apply filter_In in H. destruct H as (H & T). apply Bool.negb_true_iff in T. split; [exact T|].
    apply (group_by_keys pt_eqb (Sweep.ev_start s) pt_eqb_spec) in H. destruct H as (_ & H). intros ev Hev. destruct (H ev Hev) as (A & B). split; [exact A|].
    apply K2. apply sort_by_in in B. exact B. }
  split.
  - intros p H. apply in_map_iff in H. destruct H as ((q, gr) & <- & H). apply filter_In in H. destruct H as (H & _). cbn [fst].
    destruct (M q gr H) as (T & G). apply all_equal_spec in T. destruct T as (T1 & T2). apply in_map_iff in T1, T2. destruct T1 as (u & E1 & I1), T2 as (v & E2 & I2).
    destruct (G u I1) as (<- & Ru). destruct (G v I2) as (Ev & Rv). destruct (event_side _ _ s u K1 Ru) as (A1 & A2). destruct (event_side _ _ s v K1 Rv) as (B1 & _).
    rewrite E1 in A1. rewrite E2, Ev in B1. apply (shared_mono (k :: l) first (k' :: l') second _ I J). split; [exact A2|]. split; [exact A1|exact B1].
  - intros t H. apply in_flat_map in H. destruct H as ((q, gr) & H & T). cbn [snd] in T. destruct (M q gr H) as (_ & G). unfold shared_endpoints in T.
    apply in_map_iff in T. destruct T as ((u, v) & <- & T). apply filter_In in T. destruct T as (T & Z). apply combine_tail in T. destruct T as (Iu & Iv).
    apply andb_prop in Z. destruct Z as (Z & Lu). apply andb_prop in Z. destruct Z as (Z & Ze). apply andb_prop in Z. destruct Z as (Zf & Zs).
    destruct (pt_eqb_spec (Sweep.ev_start s u) (Sweep.ev_start s v)) as [Es|]; [|discriminate Zs]. destruct (pt_eqb_spec (Sweep.ev_end s u) (Sweep.ev_end s v)) as [Ee|]; [|discriminate Ze].
    destruct (G u Iu) as (_ & Ru), (G v Iv) as (_ & Rv). pose proof (whole_sane _ _ s K1) as Hs. pose proof (sn_wf s Hs) as Hw.
    destruct u as [i|r]; [|discriminate Lu]. destruct v as [j|r].
    + pose proof (piece_cuts _ _ s i K1 Ru) as C. pose proof (piece_cuts _ _ s j K1 Rv) as D.
      assert (Eij : seg_of s j = seg_of s i) by (unfold seg_of; cbn in Es, Ee; rewrite Es, Ee; reflexivity). rewrite Eij in D.
      change (ev_segment s (EL i)) with (seg_of s i). unfold ev_first in Zf. cbn [left_of] in Zf.
      assert (CC : cut ((k :: l) ++ k' :: l') (k :: l) (seg_of s i) /\ cut ((k :: l) ++ k' :: l') (k' :: l') (seg_of s i))
        by (destruct (l_first (lft s i)), (l_first (lft s j)); try discriminate Zf; split; assumption).
      destruct CC as (C' & D'). split; [revert C'|revert D']; apply cut_mono; try assumption; apply incl_both; assumption.
    + exfalso. destruct (w_rl s Hw r Rv) as (Hj & Er). pose proof (sn_up s Hs i Ru) as U1. pose proof (sn_up s Hs _ Hj) as U2.
      unfold end_of in U2. rewrite Er in U2. cbn in Es, Ee. rewrite <- Es, <- Ee in U2. exact (plt_irrefl _ (plt_trans _ _ _ U1 U2)).
Qed.
End Linear.
