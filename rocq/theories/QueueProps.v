(** Order of queued events in states of sweeps.  Proof support only, no part
    of /repo is modelled here. *)
From Verif Require Import QcTac Geom Spec SpecShape SpecSides SpecSweep GeomFacts Relation PairFacts PairProofs SweepGeo SweepInv SweepSteps Sweep SweepCmp SweepLink Linear SweepRun SweepLoop SweepStart Contour Labelled Filter Mixed Tracing Shaped LinearThms Erase Flow Labels MixedThms ShapedProps SweepOrder SweepPieces QueueThms.

(** ** Starts of sweeps *)
Lemma filled_sane : forall l s, filled l s -> (forall i b sg, nth_error l i = Some (b, sg) -> proper sg) -> sane s.
Proof.
  intros l s Hf Hp. constructor.
  - exact (init_wf l s Hf).
  - intros i Hi. destruct (in_tag l s Hf i Hi) as (b & sg & E). destruct (init_seg l s Hf i b sg E) as (K & _). unfold seg_of in K.
    pose proof (f_equal s_start K) as K1. pose proof (f_equal s_end K) as K2. cbn [s_start s_end] in K1, K2. rewrite K1, K2.
    apply seg_lo_lt_hi. exact (Hp i b sg E).
  - rewrite (f_line _ _ Hf). intros i [].
Qed.
Lemma tagged_proper : forall first second i b sg, Forall proper first -> Forall proper second ->
  nth_error (tag first second) i = Some (b, sg) -> proper sg.
Proof.
  intros first second i b sg P1 P2 H. rewrite Forall_forall in P1, P2. apply nth_tag in H.
  destruct H as [(_ & H)|(_ & _ & H)]; apply nth_error_In in H; [exact (P1 _ H)|exact (P2 _ H)].
Qed.
Lemma filled_tag_sane : forall first second s, filled (tag first second) s -> Forall proper first -> Forall proper second -> sane s.
Proof. intros first second s Hf P1 P2. apply (filled_sane _ _ Hf). intros i b sg. exact (tagged_proper first second i b sg P1 P2). Qed.

(** ** Order of queued events is kept *)
Lemma linear_sane : forall first second s, Forall proper first -> Forall proper second -> reachable first second s -> sane s.
Proof.
  intros first second s P1 P2 H. induction H as [|s s1 s2 ev pick o n H IH Hp Hr].
  - exact (filled_tag_sane _ _ _ (filled_linear first second) P1 P2).
  - destruct (pop_sane _ _ _ _ _ Hp IH) as (K1 & K2). exact (well_sane _ _ (process_linear_well o n ev s1 s2 K1 K2 Hr)).
Qed.
Theorem linear_queue_kept : forall first second s ev s1 s2 pick o n, Forall proper first -> Forall proper second ->
  reachable first second s -> pop Linear pick s = Ok (ev, s1) -> process_linear o n ev s1 = Ok s2 -> orderly Linear s1 s2.
Proof.
  intros first second s ev s1 s2 pick o n P1 P2 H Hp Hr. destruct (pop_sane _ _ _ _ _ Hp (linear_sane first second s P1 P2 H)) as (K1 & K2).
  exact (well_orderly Linear _ _ (process_linear_well o n ev s1 s2 K1 K2 Hr)).
Qed.

Lemma merge_sane : forall segments s, Forall proper segments -> merge_state segments s -> sane s.
Proof.
  intros segments s P H. induction H as [|s s1 s2 out ev pick o n H IH Hp Hr].
  - apply (filled_tag_sane [] segments); [|constructor|exact P]. exact (filled_register false segments [] empty_state filled_empty).
  - destruct (pop_sane _ _ _ _ _ Hp IH) as (K1 & K2). exact (well_sane _ _ (process_nary_well o n ev s1 s2 out K1 K2 Hr)).
Qed.
Theorem merge_queue_kept : forall segments s ev s1 s2 out pick o n, Forall proper segments ->
  merge_state segments s -> pop Nary pick s = Ok (ev, s1) -> process_nary o n ev s1 = Ok (s2, out) -> orderly Nary s1 s2.
Proof.
  intros segments s ev s1 s2 out pick o n P H Hp Hr. destruct (pop_sane _ _ _ _ _ Hp (merge_sane segments s P H)) as (K1 & K2).
  exact (well_orderly Nary _ _ (process_nary_well o n ev s1 s2 out K1 K2 Hr)).
Qed.

Lemma labelled_sane : forall k holey result s0 s, sane s0 -> sweep_state k holey result s0 s -> sane s.
Proof.
  intros k holey result s0 s H0 H. induction H as [|s s1 s2 b ev pick o n H IH Hp Hr]; [exact H0|].
  destruct (pop_sane _ _ _ _ _ Hp IH) as (K1 & K2). exact (well_sane _ _ (process_labelled_well k holey result o n ev s1 s2 b K1 K2 Hr)).
Qed.
Lemma labelled_queue_kept : forall k holey result s0 s ev s1 s2 b pick o n, sane s0 -> sweep_state k holey result s0 s ->
  pop k pick s = Ok (ev, s1) -> process_labelled k holey result o n ev s1 = Ok (s2, b) -> orderly k s1 s2.
Proof.
  intros k holey result s0 s ev s1 s2 b pick o n H0 H Hp Hr. destruct (pop_sane _ _ _ _ _ Hp (labelled_sane k holey result s0 s H0 H)) as (K1 & K2).
  exact (well_orderly k _ _ (process_labelled_well k holey result o n ev s1 s2 b K1 K2 Hr)).
Qed.
Theorem mixed_queue_kept : forall segments polygons result s ev s1 s2 b pick o n,
  Forall proper segments -> Forall proper (flat_map polygon_oriented_edges polygons) ->
  sweep_state Mixed false result (fill_mixed segments polygons) s ->
  pop Mixed pick s = Ok (ev, s1) -> process_labelled Mixed false result o n ev s1 = Ok (s2, b) -> orderly Mixed s1 s2.
Proof.
  intros segments polygons result s ev s1 s2 b pick o n P1 P2.
  apply labelled_queue_kept. exact (filled_tag_sane _ _ _ (filled_mixed segments polygons) P1 P2).
Qed.
Theorem regions_queue_kept : forall first second result s ev s1 s2 b pick o n,
  Forall proper (flat_map region_edges first) -> Forall proper (flat_map region_edges second) ->
  sweep_state Shaped false result (fill_regions first second) s ->
  pop Shaped pick s = Ok (ev, s1) -> process_labelled Shaped false result o n ev s1 = Ok (s2, b) -> orderly Shaped s1 s2.
Proof.
  intros first second result s ev s1 s2 b pick o n P1 P2.
  apply labelled_queue_kept. exact (filled_tag_sane _ _ _ (filled_regions first second) P1 P2).
Qed.
Theorem polygons_queue_kept : forall first second result s ev s1 s2 b pick o n,
  Forall proper (flat_map polygon_oriented_edges first) -> Forall proper (flat_map polygon_oriented_edges second) ->
  sweep_state Shaped true result (fill_polygons first second) s ->
  pop Shaped pick s = Ok (ev, s1) -> process_labelled Shaped true result o n ev s1 = Ok (s2, b) -> orderly Shaped s1 s2.
Proof.
  intros first second result s ev s1 s2 b pick o n P1 P2.
  apply labelled_queue_kept. exact (filled_tag_sane _ _ _ (filled_polygons first second) P1 P2).
Qed.

(** ** Keys of queued events are ordered *)
Lemma base_queue_ordered : forall e P T s vo, Sheared e P -> wf s -> base (V e P) (Ts e P) T (abs e s vo) -> queue_ordered Linear s.
Proof.
  intros e P T s vo Hsh Hw Hb.
  assert (K : forall a b, In a (queue s) -> In b (queue s) -> a <> b ->
    (key_ltb Linear s a b = true <-> kless (pc e s) (evn s a) (evn s b)) /\ ~ tied (pc e s) (evn s a) (evn s b)).
  { intros a b Ha Hb' N. pose proof (w_q s Hw a Ha) as Ra. pose proof (w_q s Hw b Hb') as Rb. split.
    - exact (key_iff e P Hsh T s vo a b Hw Hb Ra Rb N).
    - exact (not_tied e P T s vo a b Hw Hb Ra Rb N). }
  split.
  - intros a b Ha Hb' N. destruct (K a b Ha Hb' N) as (K1 & K2). destruct (K b a Hb' Ha (not_eq_sym N)) as (K3 & _).
    destruct (key_ltb Linear s a b) eqn:E1, (key_ltb Linear s b a) eqn:E2; try reflexivity; exfalso.
    + apply (kless_irrefl (pc e s) (evn s a)). exact (kless_trans _ _ _ _ (proj1 K1 eq_refl) (proj1 K3 eq_refl)).
    + destruct (kless_total (pc e s) (evn s a) (evn s b)) as [J|[J|J]].
      * apply K1 in J. discriminate J.
      * apply K3 in J. discriminate J.
      * exact (K2 J).
  - intros a b c Ha Hb' Hc N1 N2 N3 E1 E2. apply (K a b Ha Hb' N1) in E1. apply (K b c Hb' Hc N2) in E2.
    apply (K a c Ha Hc N3). exact (kless_trans _ _ _ _ E1 E2).
Qed.
Theorem linear_queue_ordered : forall first second s, non_overlapping first -> non_overlapping second -> reachable first second s ->
  queue_ordered Linear s.
Proof.
  intros first second s N1 N2 H. destruct (reachable_good first second N1 N2) as (e & P & Hsh & K). destruct (K s H) as (T & pl & G).
  exact (base_queue_ordered e P T s _ Hsh (i_wf _ _ _ _ _ (k_inv _ _ _ _ _ _ G)) (i_base _ _ _ _ _ (k_inv _ _ _ _ _ _ G))).
Qed.
Lemma any_queue_ordered : forall k holey result first second s0, ruled k result -> filled (tag first second) s0 ->
  non_overlapping first -> non_overlapping second -> forall s, sweep_state k holey result s0 s -> queue_ordered k s.
Proof.
  intros k holey result first second s0 Hrl Hf N1 N2 s H.
  destruct (any_states k holey result first second s0 Hrl Hf N1 N2) as (e & rf & Hsh & _ & Lab).
  destruct (Lab s H) as (T & pl & L). destruct Hrl as (Hk & _). pose proof (not_nary k Hk) as Nn.
  pose proof (k_inv _ _ _ _ _ _ (lb_good _ _ _ _ _ _ _ _ _ _ L)) as I.
  destruct (base_queue_ordered e _ T (erase s) _ Hsh (i_wf _ _ _ _ _ I) (i_base _ _ _ _ _ I)) as (O1 & O2).
  split.
  - intros a b. rewrite !(key_erase k Nn). exact (O1 a b).
  - intros a b c. rewrite !(key_erase k Nn). exact (O2 a b c).
Qed.
Theorem mixed_queue_ordered : forall segments polygons (wanted : bool) s, non_overlapping segments -> non_overlapping (flat_map polygon_oriented_edges polygons) ->
  sweep_state Mixed false (if wanted then mixed_in else mixed_out) (fill_mixed segments polygons) s -> queue_ordered Mixed s.
Proof.
  intros segments polygons wanted s N1 N2. exact (any_queue_ordered Mixed false _ _ _ _ (ruled_mixed wanted) (filled_mixed segments polygons) N1 N2 s).
Qed.
Theorem regions_queue_ordered : forall op first second s, non_overlapping (flat_map region_edges first) -> non_overlapping (flat_map region_edges second) ->
  sweep_state Shaped false (op_test op) (fill_regions first second) s -> queue_ordered Shaped s.
Proof. intros op first second s N1 N2. exact (any_queue_ordered Shaped false _ _ _ _ (ruled_shaped op) (filled_regions first second) N1 N2 s). Qed.
Theorem polygons_queue_ordered : forall op first second s, non_overlapping (flat_map polygon_oriented_edges first) -> non_overlapping (flat_map polygon_oriented_edges second) ->
  sweep_state Shaped true (op_test op) (fill_polygons first second) s -> queue_ordered Shaped s.
Proof. intros op first second s N1 N2. exact (any_queue_ordered Shaped true _ _ _ _ (ruled_shaped op) (filled_polygons first second) N1 N2 s). Qed.

(** Keys of the n-ary queue, whose events can be tied. *)
Lemma turn_trans : forall p a b c, (plt p a /\ plt p b /\ plt p c) \/ (plt a p /\ plt b p /\ plt c p) ->
  (cross p a b <= 0 -> cross p b c <= 0 -> plt p a -> cross p a c <= 0) /\ (0 <= cross p a b -> 0 <= cross p b c -> plt a p -> 0 <= cross p a c).
Proof.
  intros p a b c H. destruct (shear_exists [p; a; b; c]) as (e & _ & Hs).
  assert (E : (pos e b - pos e p) * cross p a c = (pos e c - pos e p) * cross p a b + (pos e a - pos e p) * cross p b c).
  { unfold cross, pos. ring. }
  assert (Hlt : forall x y, In x [p; a; b; c] -> In y [p; a; b; c] -> plt x y -> pos e x < pos e y) by (intros x y Hx Hy; apply Hs; assumption).
  set (x := cross p a b) in *. set (y := cross p b c) in *. set (z := cross p a c) in *.
  split; intros J1 J2 L.
  - destruct H as [(L1 & L2 & L3)|(L1 & _)]; [|exfalso; exact (plt_irrefl _ (plt_trans _ _ _ L1 L))].
    apply Hlt in L1; [|cbn; tauto|cbn; tauto]. apply Hlt in L2; [|cbn; tauto|cbn; tauto]. apply Hlt in L3; [|cbn; tauto|cbn; tauto].
    clearbody x y z. clear - E J1 J2 L1 L2 L3. set (u := pos e a - pos e p) in *. set (v := pos e b - pos e p) in *. set (w := pos e c - pos e p) in *.
    assert (U : 0 < u) by (unfold u; qlra). assert (V : 0 < v) by (unfold v; qlra). assert (W : 0 < w) by (unfold w; qlra).
    clearbody u v w. clear L1 L2 L3. apply Qcnot_lt_le. intro Z. qnra.
  - destruct H as [(L1 & _)|(L1 & L2 & L3)]; [exfalso; exact (plt_irrefl _ (plt_trans _ _ _ L1 L))|].
    apply Hlt in L1; [|cbn; tauto|cbn; tauto]. apply Hlt in L2; [|cbn; tauto|cbn; tauto]. apply Hlt in L3; [|cbn; tauto|cbn; tauto].
    clearbody x y z. clear - E J1 J2 L1 L2 L3. set (u := pos e a - pos e p) in *. set (v := pos e b - pos e p) in *. set (w := pos e c - pos e p) in *.
    assert (U : u < 0) by (unfold u; qlra). assert (V : v < 0) by (unfold v; qlra). assert (W : w < 0) by (unfold w; qlra).
    clearbody u v w. clear L1 L2 L3. apply Qcnot_lt_le. intro Z. qnra.
Qed.
Lemma ev_side : forall s a, sane s -> in_range s a -> if is_left a then plt (ev_start s a) (ev_end s a) else plt (ev_end s a) (ev_start s a).
Proof.
  intros s [i|r] Hs H; cbn [is_left Sweep.ev_start ev_end].
  - exact (sn_up s Hs i H).
  - destruct (w_rl s (sn_wf s Hs) r H) as (K1 & K2). pose proof (sn_up s Hs _ K1) as U. unfold end_of in U. rewrite K2 in U. exact U.
Qed.
(** [b] is before [a] or not distinguished from it. *)
Lemma nary_false : forall s a b, sane s -> in_range s a -> in_range s b ->
  (nary_key_ltb s a b = false <->
   plt (ev_start s b) (ev_start s a)
   \/ (ev_start s a = ev_start s b
       /\ ((is_left a = true /\ is_left b = false)
           \/ (is_left a = true /\ is_left b = true /\ cross (ev_start s a) (ev_end s a) (ev_end s b) <= 0)
           \/ (is_left a = false /\ is_left b = false /\ 0 <= cross (ev_start s a) (ev_end s a) (ev_end s b))))).
Proof.
  intros s a b Hs Ra Rb. rewrite nary_unfold. destruct (pt_eqb_spec (ev_start s a) (ev_start s b)) as [E|N].
  - assert (Hi : ~ plt (ev_start s b) (ev_start s a)) by (rewrite E; apply plt_irrefl).
    rewrite orient_sgn. destruct (is_left a), (is_left b); cbn [negb Bool.eqb];
      destruct (sgnP (cross (ev_start s a) (ev_end s a) (ev_end s b))) as [K|K|K]; cbn [orientation_eqb];
      (split; [intro J; try discriminate J; (right; split; [exact E|])|intros [J|(_ & J)]; [contradiction|]]);
      try reflexivity; try (left; split; reflexivity); try (right; left; repeat split; qlra); try (right; right; repeat split; qlra);
      exfalso; destruct J as [(J1 & J2)|[(J1 & J2 & J)|(J1 & J2 & J)]]; try discriminate; qlra.
  - destruct (pt_ltb_spec (ev_start s a) (ev_start s b)) as [K|K].
    + split; [discriminate|]. intros [J|(J & _)]; [exfalso; exact (plt_irrefl _ (plt_trans _ _ _ J K))|contradiction].
    + split; [|reflexivity]. intros _. left. destruct (plt_total (ev_start s a) (ev_start s b)) as [J|[J|J]]; [contradiction|contradiction|exact J].
Qed.
Lemma sane_ranked : forall s, sane s -> queue_ranked Nary s.
Proof.
  intros s Hs. pose proof (w_q s (sn_wf s Hs)) as R. split; cbn [key_ltb].
  - intros a b Ha Hb H. apply (nary_false s b a Hs (R b Hb) (R a Ha)).
    assert (N : ~ (nary_key_ltb s a b = false)) by congruence. rewrite (nary_false s a b Hs (R a Ha) (R b Hb)) in N.
    destruct (plt_total (ev_start s a) (ev_start s b)) as [K|[K|K]].
    + left. exact K.
    + right. split; [symmetry; exact K|].
      assert (E : cross (ev_start s b) (ev_end s b) (ev_end s a) = - cross (ev_start s a) (ev_end s a) (ev_end s b)) by (rewrite K; unfold cross; ring).
      rewrite E. set (x := cross (ev_start s a) (ev_end s a) (ev_end s b)) in *. clearbody x. clear E.
      destruct (is_left a), (is_left b).
      * right. left. repeat split. destruct (Qclt_le_dec 0 x) as [J|J]; [qlra|]. exfalso. apply N. right. split; [exact K|]. right. left. repeat split. exact J.
      * exfalso. apply N. right. split; [exact K|]. left. split; reflexivity.
      * left. split; reflexivity.
      * right. right. repeat split. destruct (Qclt_le_dec x 0) as [J|J]; [qlra|]. exfalso. apply N. right. split; [exact K|]. right. right. repeat split. exact J.
    + exfalso. apply N. left. exact K.
  - intros a b c Ha Hb Hc. rewrite (nary_false s a b Hs (R a Ha) (R b Hb)), (nary_false s b c Hs (R b Hb) (R c Hc)), (nary_false s a c Hs (R a Ha) (R c Hc)).
    pose proof (ev_side s a Hs (R a Ha)) as Sa. pose proof (ev_side s b Hs (R b Hb)) as Sb. pose proof (ev_side s c Hs (R c Hc)) as Sc.
    intros [H|(E1 & H)] [J|(E2 & J)].
    + left. exact (plt_trans _ _ _ J H).
    + left. rewrite <- E2. exact H.
    + left. rewrite E1. exact J.
    + right. split; [congruence|].
      rewrite <- E1 in J, Sb. rewrite <- E2, <- E1 in Sc.
      destruct H as [(H1 & H2)|[(H1 & H2 & H)|(H1 & H2 & H)]], J as [(J1 & J2)|[(J1 & J2 & J)|(J1 & J2 & J)]]; try congruence.
      * left. split; assumption.
      * left. split; assumption.
      * right. left. split; [exact H1|]. split; [exact J2|]. rewrite H1 in Sa. rewrite H2 in Sb. rewrite J2 in Sc. refine (proj1 (turn_trans _ _ _ _ (or_introl (conj Sa (conj Sb Sc)))) H J Sa).
      * right. right. split; [exact H1|]. split; [exact J2|]. rewrite H1 in Sa. rewrite H2 in Sb. rewrite J2 in Sc. refine (proj2 (turn_trans _ _ _ _ (or_intror (conj Sa (conj Sb Sc)))) H J Sa).
Qed.
Theorem merge_queue_ranked : forall segments s, Forall proper segments -> merge_state segments s -> queue_ranked Nary s.
Proof. intros segments s P H. exact (sane_ranked s (merge_sane segments s P H)). Qed.
