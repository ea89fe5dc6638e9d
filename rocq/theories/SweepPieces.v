(** Pieces operands are cut into and order of the sweep line for sweeps of
    mixed.py, holeless.py and holey.py.  Proof support only, no part of /repo
    is modelled here. *)
From Verif Require Import QcTac Geom Spec SpecShape SpecSides GeomFacts PairFacts PairProofs SweepGeo SweepInv SweepSteps Sweep SweepCmp SweepLink Linear SweepRun SweepLoop SweepStart SweepEnd SelectThms LinearMeaning LinearThms Contour Labelled Filter Mixed Parity Counting Tracing Shaped Erase Flow Labels LabelEnd Outline Classify MixedThms Polygons MixedProps ShapedThms ShapedProps SweepOrder SpecSweep.

Lemma swept_cut : forall first second x_max s out, non_overlapping first -> non_overlapping second ->
  swept (tag first second) x_max s out -> cut_into first second x_max s.
Proof.
  intros first second x_max s out N1 N2 H. split; [|split].
  - intros i Li. split; [exact (sw_plt _ _ _ _ H i Li)|].
    destruct (sw_src _ _ _ _ H) as (src & K & _). destruct (K i Li) as (sg & E & Eo & W).
    exists sg. split; [exact (tag_in _ _ _ _ _ E)|]. split; [exact W|]. rewrite Eo.
    assert (Pr : proper sg) by exact (proj1 (lawful_operands _ _ N1 N2) _ _ _ E).
    destruct (pt_ltb_spec (s_end sg) (s_start sg)) as [J|J]; cbn [negb].
    + split; [discriminate|]. intro J'. exfalso. exact (plt_irrefl _ (plt_trans _ _ _ J J')).
    + split; [intros _|reflexivity]. apply ple_lt_eq in J. destruct J as [J|J]; [exact J|exfalso; exact (Pr J)].
  - intros b sg p Hsg Hp. destruct (LinearMeaning.piece_at _ _ _ _ _ H b sg p Hsg Hp) as (i & Hi & Eb & Pi & _). exists i. repeat split; assumption.
  - intros i j Hi Hj Hn R.
    assert (Io : In i out).
    { destruct (in_dec Nat.eq_dec i out) as [K|K]; [exact K|exfalso]. destruct (sw_rest _ _ _ _ H i Hi K) as (x & Ex & Lx). specialize (R x Ex). qlra. }
    destruct (sw_apart _ _ _ _ H i j Io Hj (not_eq_sym Hn)) as [K|(_ & K1 & K2 & _)]; [right; exact K|left; split; assumption].
Qed.
Lemma processed_reach : forall x_max s out pl, processed x_max s out pl -> all_in_reach x_max s pl.
Proof.
  intros x_max s out pl H. split; [exact (pr_nodup _ _ _ _ H)|].
  assert (G : forall ev, In ev pl <-> in_range s ev /\ within_reach x_max (Sweep.ev_start s ev)).
  { intro ev. split.
    - intro I. split; [exact (pr_range _ _ _ _ H ev I)|]. intros x Ex. exact (pr_near _ _ _ _ H ev x I Ex).
    - intros (R & W). destruct (in_dec event_eq_dec ev pl) as [K|K]; [exact K|exfalso]. destruct (pr_rest _ _ _ _ H ev R K) as (x & Ex & Lx). specialize (W x Ex). qlra. }
  split; intro i; rewrite G; reflexivity.
Qed.

(** Rules of selection using nothing but the operand, whether it is inside
    the other one, and its overlap. *)
Definition ruled (k : kind) (result : left_event -> bool) : Prop :=
  (k = Mixed \/ k = Shaped) /\ exists rf, forall ev, result ev = rf (l_first ev) (l_other ev) (ovl k ev).
Lemma ruled_mixed : forall wanted, ruled Mixed (mixed_test wanted).
Proof. intro wanted. split; [left; reflexivity|]. exists (mixed_rf wanted). exact (mixed_test_rf wanted). Qed.
Lemma ruled_shaped : forall op, ruled Shaped (op_test op).
Proof. intro op. split; [right; reflexivity|]. exists (op_rf op). exact (op_test_rf op). Qed.

Theorem any_sweep : forall k holey result first second s0 x_max, ruled k result -> filled (tag first second) s0 ->
  non_overlapping first -> non_overlapping second ->
  exists s pl, cut_into first second x_max s /\ all_in_reach x_max s pl
  /\ (forall o put step, by_left put ->
        (forall m ev s1 s2, process_labelled k holey result o m ev s1 = Ok (s2, true) -> step m ev s1 = Ok (s2, put ev s2)) ->
        run k step (beyond x_max) o (enough (length first + length second)) 0 s0 [] = Ok (s, flat_map (fun ev => put ev s) pl)).
Proof.
  intros k holey result first second s0 x_max (Hk & rf & Hrf) Hf N1 N2.
  destruct (labelled_anyhow (tag first second) s0 Hf (lawful_operands _ _ N1 N2) x_max k holey result rf Hk Hrf (fun _ => false)) as (s & out & pl & Hsw & Hpr & _ & _ & Hrun & _).
  { discriminate. }
  exists s, pl. split; [exact (swept_cut _ _ _ _ _ N1 N2 Hsw)|]. split; [exact (processed_reach _ _ _ _ Hpr)|].
  intros o put step Hput Hstep. replace (length first + length second)%nat with (length (tag first second)) by (unfold tag; rewrite app_length, !map_length; reflexivity).
  exact (Hrun o put step Hput Hstep).
Qed.

(** States of a sweep keep its invariant. *)
Lemma any_states : forall k holey result first second s0, ruled k result -> filled (tag first second) s0 ->
  non_overlapping first -> non_overlapping second ->
  exists e rf, Sheared e (relevant_points s0)
  /\ (forall T s pl, labelled e (relevant_points s0) k holey rf s0 (fun _ => false) T s pl -> queue s <> [] ->
        exists ev s', (forall pick, pop k pick s = Ok (ev, unqueue ev s))
          /\ (forall o m, process_labelled k holey result o m ev (unqueue ev s) = Ok (s', true))
          /\ labelled e (relevant_points s0) k holey rf s0 (fun _ => false) (time_of e (erase s) ev) s' (pl ++ [ev]))
  /\ (forall s, sweep_state k holey result s0 s -> exists T pl, labelled e (relevant_points s0) k holey rf s0 (fun _ => false) T s pl).
Proof.
  intros k holey result first second s0 (Hk & rf & Hrf) Hf N1 N2.
  pose proof (lawful_operands _ _ N1 N2) as Hl. pose proof (not_nary k Hk) as Nn.
  destruct (shear_exists (relevant_points s0)) as (e & _ & Hsh).
  set (lab := labelled e (relevant_points s0) k holey rf s0 (fun _ => false)).
  exists e, rf. split; [exact Hsh|]. fold lab.
  assert (It : forall T s pl, lab T s pl -> queue s <> [] ->
    exists ev s', (forall pick, pop k pick s = Ok (ev, unqueue ev s))
      /\ (forall o m, process_labelled k holey result o m ev (unqueue ev s) = Ok (s', true)) /\ lab (time_of e (erase s) ev) s' (pl ++ [ev])).
  { intros T s pl L Q.
    destruct (labelled_iteration e (relevant_points s0) Hsh k holey result rf Hk Hrf s0 (fun _ => false) (init_len _ s0 Hf Hl e Hsh)
      (fun b H => False_ind _ (Bool.diff_false_true H)) (fun i _ H => False_ind _ (Bool.diff_false_true H)) T s pl L Q) as (ev & _ & Hpop & _ & _ & s' & Hpr & L' & _).
    exists ev, s'. split; [exact Hpop|]. split; [exact Hpr|exact L']. }
  assert (Lab : forall s, sweep_state k holey result s0 s -> exists T pl, lab T s pl).
  { intros s H. induction H as [|s s1 s2 b ev pick o n H (T & pl & IH) Hp Hr].
    - destruct (init_good _ _ Hf Hl e Hsh) as (T0 & Hg & _). exists T0, []. refine (init_labelled (tag first second) s0 Hf e Hsh k holey rf (fun _ => false) _ _ T0 Hg); intros ? ?; discriminate.
    - destruct (It T s pl IH (pop_queue _ _ _ _ Hp)) as (ev' & s' & Hpop & Hpr & L').
      rewrite (Hpop pick) in Hp. injection Hp as <- <-. rewrite (Hpr o n) in Hr. injection Hr as <- <-. eexists. eexists. exact L'. }
  split; [exact It|exact Lab].
Qed.
Theorem any_order : forall k holey result first second s0, ruled k result -> filled (tag first second) s0 ->
  non_overlapping first -> non_overlapping second ->
  forall s, sweep_state k holey result s0 s -> line_ordered k s /\ goes_on k holey result s.
Proof.
  intros k holey result first second s0 Hrl Hf N1 N2. destruct (any_states k holey result first second s0 Hrl Hf N1 N2) as (e & rf & Hsh & It & Lab).
  destruct Hrl as (Hk & _). pose proof (not_nary k Hk) as Nn.
  intros s H. destruct (Lab s H) as (T & pl & L).
  pose proof (i_base _ _ _ _ _ (k_inv _ _ _ _ _ _ (lb_good _ _ _ _ _ _ _ _ _ _ L))) as Hb.
  pose proof (base_on_line e _ T (erase s) _ Hb) as Ho. split; [split|].
  - intros l1 x l2 y l3 E. rewrite !(line_erase k Nn). destruct Ho as (O1 & O2 & O3). change (line (erase s)) with (line s) in *.
    assert (Ix : In x (line s)) by (rewrite E; apply in_or_app; right; left; reflexivity).
    assert (Iy : In y (line s)) by (rewrite E; apply in_or_app; right; right; apply in_or_app; right; left; reflexivity).
    apply (ltb_of_below e T (erase s) x y).
    + intros <-. rewrite E in O3. apply NoDup_remove_2 in O3. apply O3. apply in_or_app. right. apply in_or_app. right. left. reflexivity.
    + apply O1. exact Ix.
    + apply O1. exact Iy.
    + apply O1. exact Ix.
    + apply O1. exact Iy.
    + rewrite E in O2. apply (FOP_next _ _ _ _ _ y O2). apply in_or_app. right. left. reflexivity.
  - intros l1 x l2 shape E. destruct (neighbours e T (erase s) l1 x l2 Ho E shape) as (K1 & K2 & K3 & K4).
    rewrite (contains_erase k Nn), (above_erase k Nn), (below_erase k Nn). split; [exact K1|]. split; [exact K2|]. split; [exact K3|].
    apply (remove_erase k Nn). exact K4.
  - intro Q. destruct (It T s pl L Q) as (ev & s' & Hpop & Hpr & _). exists ev, (unqueue ev s), s'. split; assumption.
Qed.

(** *** mixed.py *)
Theorem mixed_pieces : forall segments polygons x_max (wanted : bool), non_overlapping segments -> non_overlapping (flat_map polygon_oriented_edges polygons) ->
  exists s events, cut_into segments (flat_map polygon_oriented_edges polygons) x_max s /\ all_in_reach x_max s events
  /\ forall o, sweep_mixed out_all (if wanted then mixed_in else mixed_out) o (beyond x_max) segments polygons = Ok (s, events)
     /\ sweep_mixed out_left (if wanted then mixed_in else mixed_out) o (beyond x_max) segments polygons = Ok (s, filter is_left events)
     /\ sweep_mixed out_right (if wanted then mixed_in else mixed_out) o (beyond x_max) segments polygons
        = Ok (s, map (fun ev => EL (left_of s ev)) (filter (fun ev => negb (is_left ev)) events)).
Proof.
  intros segments polygons x_max wanted N1 N2. change (if wanted then mixed_in else mixed_out) with (mixed_test wanted).
  destruct (any_sweep Mixed false (mixed_test wanted) segments _ _ x_max (ruled_mixed wanted) (filled_mixed segments polygons) N1 N2) as (s & pl & H1 & H2 & H3).
  exists s, pl. split; [exact H1|]. split; [exact H2|]. intro o.
  assert (Run : forall put, by_left put -> sweep_mixed put (mixed_test wanted) o (beyond x_max) segments polygons = Ok (s, flat_map (fun ev => put ev s) pl)).
  { intros put Hput. unfold sweep_mixed, edges_count. apply H3; [exact Hput|]. intros m ev s1 s2 E. unfold step_mixed. rewrite E. reflexivity. }
  rewrite (Run _ by_all), (Run _ by_lefts), (Run _ by_right). split; [|split].
  - change (fun ev => out_all ev s) with (fun ev : event => [ev]). rewrite flat_one. reflexivity.
  - rewrite put_left. reflexivity.
  - f_equal. f_equal. clear. induction pl as [|[i|r] pl IH]; [reflexivity|exact IH|]. cbn. f_equal. exact IH.
Qed.
Theorem mixed_order : forall segments polygons (wanted : bool) s, non_overlapping segments -> non_overlapping (flat_map polygon_oriented_edges polygons) ->
  sweep_state Mixed false (if wanted then mixed_in else mixed_out) (fill_mixed segments polygons) s ->
  line_ordered Mixed s /\ goes_on Mixed false (if wanted then mixed_in else mixed_out) s.
Proof.
  intros segments polygons wanted s N1 N2. exact (any_order Mixed false _ _ _ _ (ruled_mixed wanted) (filled_mixed segments polygons) N1 N2 s).
Qed.

(** *** holeless.py and holey.py *)
Lemma filled_regions : forall first second, filled (tag (flat_map region_edges first) (flat_map region_edges second)) (fill_regions first second).
Proof. intros first second. pose proof (filled_polygons (solid first) (solid second)) as H. rewrite <- fill_solid, !solid_oriented in H. exact H. Qed.
Theorem regions_pieces : forall op first second, non_overlapping (flat_map region_edges first) -> non_overlapping (flat_map region_edges second) ->
  exists s events, cut_into (flat_map region_edges first) (flat_map region_edges second) (x_max_min (regions_x_max first) (regions_x_max second)) s
  /\ all_in_reach (x_max_min (regions_x_max first) (regions_x_max second)) s events
  /\ forall o, sweep_regions (op_test op) o first second = Ok (s, events).
Proof.
  intros op first second N1 N2.
  destruct (any_sweep Shaped false (op_test op) _ _ _ (x_max_min (regions_x_max first) (regions_x_max second)) (ruled_shaped op) (filled_regions first second) N1 N2) as (s & pl & H1 & H2 & H3).
  exists s, pl. split; [exact H1|]. split; [exact H2|]. intro o. unfold sweep_regions, regions_count. rewrite (H3 o (fun ev _ => [ev]) _ by_event).
  - rewrite flat_one. reflexivity.
  - intros m ev s1 s2 E. unfold step_shaped. rewrite E. reflexivity.
Qed.
Theorem regions_order : forall op first second s, non_overlapping (flat_map region_edges first) -> non_overlapping (flat_map region_edges second) ->
  sweep_state Shaped false (op_test op) (fill_regions first second) s -> line_ordered Shaped s /\ goes_on Shaped false (op_test op) s.
Proof. intros op first second s N1 N2. exact (any_order Shaped false _ _ _ _ (ruled_shaped op) (filled_regions first second) N1 N2 s). Qed.
Theorem polygons_pieces : forall op first second, valid_polygons first -> valid_polygons second -> first <> [] -> second <> [] ->
  exists s events, cut_into (edges_of first) (edges_of second) (op_x_max op first second) s
  /\ all_in_reach (op_x_max op first second) s events
  /\ forall o, exists ids, op_sweep op o first second = Ok (s, events, ids).
Proof.
  intros op first second V1 V2 N1 N2. destruct (polygons_sweep op first second V1 V2 N1 N2) as (s & pl & H & R & _). exists s, pl.
  destruct (sh_sweep _ _ _ _ _ _ H) as (s0 & out & _ & Hsw & Hpr & _). destruct (sh_bounds _ _ _ _ _ _ H) as (B1 & B2).
  split; [exact (swept_cut _ _ _ _ _ (proj1 B1) (proj1 B2) Hsw)|]. split; [exact (processed_reach _ _ _ _ Hpr)|intro o; exists (start_numbers s pl); exact (R o)].
Qed.
Theorem polygons_order : forall op first second s, non_overlapping (edges_of first) -> non_overlapping (edges_of second) ->
  sweep_state Shaped true (op_test op) (fill_polygons first second) s -> line_ordered Shaped s /\ goes_on Shaped true (op_test op) s.
Proof. intros op first second s N1 N2. exact (any_order Shaped true _ _ _ _ (ruled_shaped op) (filled_polygons first second) N1 N2 s). Qed.

(** States after given numbers of iterations. *)
Fixpoint advance (k : kind) (holey : bool) (result : left_event -> bool) (o : oracle) (n : nat) (s : state) : state :=
  match n with
  | O => s
  | S n => match pop k (o_pick o n) s with
           | Ok (ev, s1) => match process_labelled k holey result o n ev s1 with Ok (s2, _) => advance k holey result o n s2 | Err _ => s end
           | Err _ => s
           end
  end.
Lemma advance_state : forall k holey result o s0 n s, sweep_state k holey result s0 s -> sweep_state k holey result s0 (advance k holey result o n s).
Proof.
  intros k holey result o s0 n. induction n as [|n IH]; intros s H; cbn [advance]; [exact H|].
  destruct (pop k (o_pick o n) s) as [(ev, s1)|] eqn:E1; [|exact H]. destruct (process_labelled k holey result o n ev s1) as [(s2, b)|] eqn:E2; [|exact H].
  apply IH. exact (state_next _ _ _ _ _ _ _ _ _ _ _ _ H E1 E2).
Qed.
