(** Sweeps of any segments end.  Proof support only, no part of /repo is
    modelled here. *)
From Verif Require Import QcTac Geom Spec SpecShape SpecSweep SpecNode GeomFacts SortFacts LinearThms Relation Toward Pair Bounding Sweep SweepCmp SweepLink SweepStart SweepLoop Linear Labelled Contour Filter Mixed Erase LinearProps MixedThms Polygons NodeProps QueueThms QueueProps BoundingThms MergeCuts MergeThms PartCuts PartProps PartMixed.

(** A result, a ValueError, or a queue of events with no least one. *)
Definition ends {A} (P : Prop) (r : res A) : Prop := match r with Ok _ => True | Err e => e = ValueError \/ e = Unordered /\ P end.
Lemma ends_bind : forall A B P (r : res A) (f : A -> res B), ends P r -> (forall x, r = Ok x -> ends P (f x)) -> ends P (bind_res r f).
Proof. intros A B P [x|e] f H K; [exact (K x eq_refl)|exact H]. Qed.
Lemma ends_weaken : forall A (P Q : Prop) (r : res A), (P -> Q) -> ends P r -> ends Q r.
Proof. intros A P Q [x|e] K H; [exact I|]. destruct H as [H|(H & J)]; [left; exact H|right; split; [exact H|exact (K J)]]. Qed.
Section Steps.
Variable P : Prop.
Notation ends := (ends P).
Lemma detect_ends : forall k b i s, ends (detect k b i s).
Proof.
  intros k b i s. unfold detect. cbv zeta.
  destruct (segments_relation (seg_of s b) (seg_of s i)); repeat match goal with
  | |- context[let '(_, _) := if ?c then _ else _ in _] => destruct c
  | |- ends (if ?c then _ else _) => destruct c
  end; try exact I; left; reflexivity.
Qed.
Lemma detect_only_ends : forall k b i s, ends (detect_only k b i s).
Proof. intros k b i s. unfold detect_only. pose proof (detect_ends k b i s) as H. destruct (detect k b i s) as [(x, f)|e]; [exact I|exact H]. Qed.
Lemma remove_ends : forall k o n i s, ends (remove_left k o n i s).
Proof.
  intros k o n i s. unfold remove_left. cbv zeta. unfold line_remove. destruct (search k (o_shape o (2 * n)) s i) as ([], m); [|left; reflexivity]. cbn [bind_res].
  destruct (line_above k (o_shape o (2 * n)) s i), (line_below k (o_shape o (2 * n)) s i); try exact I. apply detect_only_ends.
Qed.
Lemma add_ends : forall k o n i s, ends (add_left k o n i s).
Proof.
  intros k o n i s. unfold add_left. cbv zeta. set (s1 := line_add k (o_shape o (2 * n)) i s). apply ends_bind.
  - destruct (line_above k (o_shape o (2 * n + 1)) s1 i); cbn [detect_above]; [apply detect_only_ends|exact I].
  - intros x _. destruct (line_below k (o_shape o (2 * n + 1)) s1 i); cbn [detect_below]; [apply detect_only_ends|exact I].
Qed.
Lemma add_labelled_ends : forall k holey result o n i s, ends (add_labelled k holey result o n i s).
Proof.
  intros k holey result o n i s. unfold add_labelled. cbv zeta. set (s1 := line_add k (o_shape o (2 * n)) i s). apply ends_bind.
  - destruct (line_above k (o_shape o (2 * n + 1)) s1 i); [|exact I]. apply ends_bind; [apply detect_ends|]. intros (x, f) _. exact I.
  - intros x _. destruct (line_below k (o_shape o (2 * n + 1)) s1 i); [|exact I]. apply ends_bind; [apply detect_ends|]. intros (y, f) _. exact I.
Qed.
Lemma process_linear_ends : forall o n ev s, ends (process_linear o n ev s).
Proof.
  intros o n [i|r] s; cbn [process_linear]; [apply add_ends|]. cbv zeta. destruct (line_contains Linear (o_shape o (2 * n)) s (r_left (rgt s r))); [apply remove_ends|exact I].
Qed.
Lemma process_labelled_ends : forall k holey result o n ev s, ends (process_labelled k holey result o n ev s).
Proof.
  intros k holey result o n [i|r] s; cbn [process_labelled]; cbv zeta.
  - destruct (line_contains k (o_shape o (2 * n)) s i); [exact I|]. apply ends_bind; [apply add_labelled_ends|]. intros x _. exact I.
  - destruct (line_contains k (o_shape o (2 * n)) s (r_left (rgt s r))); [|exact I]. apply ends_bind; [apply remove_ends|]. intros x _. exact I.
Qed.
End Steps.
(** ** The least event *)
Definition like (s : state) (a b : event) : bool :=
  pt_eqb (Sweep.ev_start s a) (Sweep.ev_start s b) && Bool.eqb (is_left a) (is_left b)
  && orientation_eqb (orient (Sweep.ev_start s a) (ev_end s a) (ev_end s b)) COLLINEAR.
Lemma binary_nary : forall s a b, binary_key_ltb s a b = nary_key_ltb s a b || like s a b && ev_first s b.
Proof.
  intros s a b. rewrite key_unfold, nary_unfold. unfold like. destruct (pt_eqb (Sweep.ev_start s a) (Sweep.ev_start s b)).
  - destruct (Bool.eqb (is_left a) (is_left b)); cbn [negb andb].
    + destruct (orient (Sweep.ev_start s a) (ev_end s a) (ev_end s b)), (is_left a); reflexivity.
    + destruct (is_left a); reflexivity.
  - cbn [andb]. rewrite Bool.orb_false_r. reflexivity.
Qed.
Lemma like_nary : forall s a b, like s a b = true -> nary_key_ltb s a b = false /\ nary_key_ltb s b a = false.
Proof.
  intros s a b H. unfold like in H. apply andb_prop in H. destruct H as (H & O). apply andb_prop in H. destruct H as (E & L).
  destruct (pt_eqb_spec (Sweep.ev_start s a) (Sweep.ev_start s b)) as [Es|]; [|discriminate E]. apply Bool.eqb_prop in L.
  assert (C : cross (Sweep.ev_start s a) (ev_end s a) (ev_end s b) = 0).
  { rewrite orient_sgn in O. destruct (sgnP (cross (Sweep.ev_start s a) (ev_end s a) (ev_end s b))); [discriminate O|assumption|discriminate O]. }
  assert (D : cross (Sweep.ev_start s b) (ev_end s b) (ev_end s a) = 0) by (rewrite <- Es; transitivity (- cross (Sweep.ev_start s a) (ev_end s a) (ev_end s b)); [unfold cross; ring|rewrite C; ring]).
  rewrite !nary_unfold, <- Es, !L. destruct (pt_eqb_spec (Sweep.ev_start s a) (Sweep.ev_start s a)); [|contradiction]. rewrite Bool.eqb_reflx. cbn [negb].
  rewrite <- Es in D. rewrite !orient_sgn, C, D. destruct (is_left b); split; reflexivity.
Qed.
Lemma like_sym : forall s a b, like s a b = true -> like s b a = true.
Proof.
  intros s a b H. unfold like in *. apply andb_prop in H. destruct H as (H & O). apply andb_prop in H. destruct H as (E & L).
  destruct (pt_eqb_spec (Sweep.ev_start s a) (Sweep.ev_start s b)) as [Es|]; [|discriminate E]. apply Bool.eqb_prop in L.
  assert (C : cross (Sweep.ev_start s a) (ev_end s a) (ev_end s b) = 0).
  { rewrite orient_sgn in O. destruct (sgnP (cross (Sweep.ev_start s a) (ev_end s a) (ev_end s b))); [discriminate O|assumption|discriminate O]. }
  rewrite <- Es, L, Bool.eqb_reflx. destruct (pt_eqb_spec (Sweep.ev_start s a) (Sweep.ev_start s a)); [|contradiction]. cbn [andb]. rewrite orient_sgn.
  assert (D : cross (Sweep.ev_start s a) (ev_end s b) (ev_end s a) = 0) by (transitivity (- cross (Sweep.ev_start s a) (ev_end s a) (ev_end s b)); [unfold cross; ring|rewrite C; ring]).
  rewrite D. reflexivity.
Qed.
Lemma fan_overlap : forall p x y, plt p x -> plt p y -> cross p x y = 0 -> overlap (Seg p x) (Seg p y).
Proof.
  intros p x y L1 L2 C. assert (D : cross p y x = 0) by (transitivity (- cross p x y); [unfold cross; ring|rewrite C; ring]).
  destruct (plt_total x y) as [J|J].
  - exists p, x. split; [exact (plt_neq _ _ L1)|]. split; [exact (on_segment_start (Seg p x))|]. split; [exact (on_segment_start (Seg p y))|]. split; [exact (on_segment_end (Seg p x))|].
    apply on_segment_lex; [exact L2|]. split; [exact D|]. split; apply plt_ple; assumption.
  - exists p, y. split; [exact (plt_neq _ _ L2)|]. split; [exact (on_segment_start (Seg p x))|]. split; [exact (on_segment_start (Seg p y))|]. split; [|exact (on_segment_end (Seg p y))].
    apply on_segment_lex; [exact L1|]. split; [exact C|]. split; [apply plt_ple; exact L2|]. apply ple_lt_eq. destruct J as [->|J]; [right; reflexivity|left; exact J].
Qed.
Lemma fan_overlap_end : forall p x y, plt x p -> plt y p -> cross p x y = 0 -> overlap (Seg x p) (Seg y p).
Proof.
  intros p x y L1 L2 C.
  assert (C1 : cross x p y = 0) by (transitivity (- cross p x y); [unfold cross; ring|rewrite C; ring]).
  assert (C2 : cross y p x = 0) by (transitivity (cross p x y); [unfold cross; ring|exact C]).
  destruct (plt_total x y) as [J|J].
  - exists p, y. split; [intro E; exact (plt_neq _ _ L2 (eq_sym E))|]. split; [exact (on_segment_end (Seg x p))|]. split; [exact (on_segment_end (Seg y p))|]. split; [|exact (on_segment_start (Seg y p))].
    apply on_segment_lex; [exact L1|]. split; [exact C1|]. split; apply plt_ple; assumption.
  - exists p, x. split; [intro E; exact (plt_neq _ _ L1 (eq_sym E))|]. split; [exact (on_segment_end (Seg x p))|]. split; [exact (on_segment_end (Seg y p))|]. split; [exact (on_segment_start (Seg x p))|].
    apply on_segment_lex; [exact L2|]. split; [exact C2|]. split; [apply ple_lt_eq; destruct J as [->|J]; [right; reflexivity|left; exact J]|apply plt_ple; exact L1].
Qed.
Lemma like_first : forall s x y, sane s -> apart s -> in_range s x -> in_range s y -> like s x y = true -> ev_first s x = true -> ev_first s y = true -> x = y.
Proof.
  intros s x y Hs A Rx Ry H Fx Fy. pose proof (sn_wf s Hs) as Hw. unfold like in H. apply andb_prop in H. destruct H as (H & O). apply andb_prop in H. destruct H as (E & L).
  destruct (pt_eqb_spec (Sweep.ev_start s x) (Sweep.ev_start s y)) as [Es|]; [|discriminate E]. apply Bool.eqb_prop in L.
  assert (C : cross (Sweep.ev_start s x) (ev_end s x) (ev_end s y) = 0).
  { rewrite orient_sgn in O. destruct (sgnP (cross (Sweep.ev_start s x) (ev_end s x) (ev_end s y))); [discriminate O|assumption|discriminate O]. }
  destruct (Nat.eq_dec (left_of s x) (left_of s y)) as [El|Nl].
  - apply (evn_inj s x y Hw Rx Ry). rewrite !evn_left, L, El. reflexivity.
  - exfalso. apply (A _ _ (left_of_range s x Hw Rx) (left_of_range s y Hw Ry) Nl Fx Fy).
    pose proof (ev_side s x Hs Rx) as Sx. pose proof (ev_side s y Hs Ry) as Sy.
    destruct x as [i|r], y as [j|q]; try discriminate L; cbn [is_left Sweep.ev_start ev_end left_of] in *.
    + unfold seg_of. rewrite <- Es. apply fan_overlap; [exact Sx|rewrite Es; exact Sy|exact C].
    + unfold seg_of, end_of. rewrite (proj2 (w_rl s Hw r Rx)), (proj2 (w_rl s Hw q Ry)), <- Es. apply fan_overlap_end; [exact Sx|rewrite Es; exact Sy|exact C].
Qed.
Lemma least_some : forall k s, sane s -> apart s -> queue s <> [] -> least (key_ltb k s) (queue s) <> [].
Proof.
  intros k s Hs A Hq. destruct (sane_ranked s Hs) as (R1 & R2). cbn [key_ltb] in R1, R2. pose proof (w_q s (sn_wf s Hs)) as R.
  destruct (least_exists (queue s) (queue s) (nary_key_ltb s) Hq R1 R2 (incl_refl _)) as (e & He & Hm).
  assert (Hn : forall e', In e' (queue s) -> nary_key_ltb s e' e = false).
  { intros e' K. destruct (Hm e' K) as [->|J]; [|exact J]. destruct (nary_key_ltb s e e) eqn:Ee; [|reflexivity]. rewrite (R1 e e He He Ee) in Ee. discriminate Ee. }
  assert (G : exists x, In x (queue s) /\ forall e', In e' (queue s) -> e' = x \/ key_ltb k s e' x = false).
  { assert (Gb : exists x, In x (queue s) /\ forall e', In e' (queue s) -> e' = x \/ binary_key_ltb s e' x = false).
    { destruct (existsb (fun x => like s x e && negb (ev_first s x)) (queue s)) eqn:Ex.
      - apply existsb_exists in Ex. destruct Ex as (x & Hx & Lx). apply andb_prop in Lx. destruct Lx as (Lx & Fx). apply Bool.negb_true_iff in Fx.
        exists x. split; [exact Hx|]. intros e' K. right. rewrite binary_nary, Fx, Bool.andb_false_r, Bool.orb_false_r.
        exact (R2 e' e x K He Hx (Hn e' K) (proj2 (like_nary s x e Lx))).
      - exists e. split; [exact He|]. intros e' K. rewrite binary_nary, (Hn e' K). cbn [orb].
        destruct (like s e' e) eqn:Le; [|right; reflexivity]. destruct (ev_first s e) eqn:Fe; [|right; reflexivity]. left.
        destruct (ev_first s e') eqn:Fe'; [exact (like_first s e' e Hs A (R e' K) (R e He) Le Fe' Fe)|].
        exfalso. assert (T : existsb (fun x => like s x e && negb (ev_first s x)) (queue s) = true) by (apply existsb_exists; exists e'; rewrite Le, Fe'; split; [exact K|reflexivity]).
        rewrite Ex in T. discriminate T. }
    destruct k; try exact Gb. exists e. split; [exact He|]. intros e' K. right. exact (Hn e' K). }
  destruct G as (x & Hx & Gx). intro N. assert (J : In x (least (key_ltb k s) (queue s))).
  { unfold least. apply filter_In. split; [exact Hx|]. apply forallb_forall. intros e' K. destruct (Gx e' K) as [->|J].
    - rewrite event_eqb_same. reflexivity.
    - rewrite J. apply Bool.orb_true_r. }
  rewrite N in J. destruct J.
Qed.
Section Ends.
Variables a b : list segment.
Hypothesis HP : Forall proper (a ++ b).
Notation ends := (ends (~ non_overlapping a)).
Lemma pop_less : forall k pick s ev s1, pop k pick s = Ok (ev, s1) -> (work (a ++ b) s1 < work (a ++ b) s)%nat.
Proof.
  intros k pick s ev s1 E. unfold pop in E. destruct (least (key_ltb k s) (queue s)) as [|e0 l] eqn:El; [discriminate E|].
  assert (Hx : In (nth (pick (e0 :: l) mod length (e0 :: l)) (e0 :: l) e0) (queue s)).
  { assert (J : In (nth (pick (e0 :: l) mod length (e0 :: l)) (e0 :: l) e0) (least (key_ltb k s) (queue s))).
    { rewrite El. apply nth_In. apply Nat.mod_upper_bound. discriminate. }
    unfold least in J. apply filter_In in J. exact (proj1 J). }
  set (x := nth (pick (e0 :: l) mod length (e0 :: l)) (e0 :: l) e0) in *. clearbody x. injection E as <- <-.
  unfold work. cbn [lefts queue]. apply Nat.add_lt_mono_l. apply (filter_less _ _ _ x Hx). rewrite event_eqb_same. reflexivity.
Qed.
Lemma run_ends : forall k step stop o,
  (forall n ev s, whole a b s -> in_range s ev -> ends (step n ev s) /\ forall s' out, step n ev s = Ok (s', out) -> kept a b s s') ->
  forall fuel n s acc, whole a b s -> (work (a ++ b) s < fuel)%nat -> ends (run k step stop o fuel n s acc).
Proof.
  intros k step stop o Hstep fuel. induction fuel as [|f IH]; intros n s acc H W; [lia|]. cbn [run].
  destruct (queue s) as [|e q] eqn:Q; [exact I|]. destruct (pop k (o_pick o n) s) as [(ev, s1)|err] eqn:E1.
  - destruct (pop_kept _ _ _ _ _ _ _ E1 H) as (K1 & R1). pose proof (pop_less _ _ _ _ _ E1) as L1. destruct (stop (Sweep.ev_start s1 ev)); [exact I|].
    destruct (Hstep n ev s1 (proj1 K1) R1) as (S1 & S2). destruct (step n ev s1) as [(s2, out)|err2]; [|exact S1].
    destruct (S2 s2 out eq_refl) as (K2 & _ & L2). apply IH; [exact K2|lia].
  - unfold pop in E1. destruct (least (key_ltb k s) (queue s)) eqn:El; [|discriminate E1]. injection E1 as <-.
    right. split; [reflexivity|]. intro N. apply (least_some k s (whole_sane _ _ s H) (a_apart _ _ s H N)); [rewrite Q; discriminate|exact El].
Qed.
Lemma filled_work : forall s, filled (tag a b) s -> (work (a ++ b) s < enough (length a + length b))%nat.
Proof.
  intros s Hf. pose proof (f_lefts _ _ Hf) as Hl. assert (Lt : length (tag a b) = (length a + length b)%nat) by (unfold tag; rewrite app_length, !map_length; reflexivity).
  rewrite Lt in Hl. set (m := (length a + length b)%nat) in *. unfold work. rewrite Hl.
  assert (Q : (length (queue s) <= 2 * m)%nat).
  { pose proof (f_nodup _ _ Hf) as Nd.
    assert (J : incl (queue s) (map EL (seq 0 m) ++ map ER (seq 0 m))).
    { intros ev K. apply (f_queue _ _ Hf) in K. apply in_or_app. destruct ev as [i|r]; cbn in K; rewrite ?(f_lefts _ _ Hf), ?(f_rights _ _ Hf), Lt in K.
      - left. apply in_map. apply in_seq. lia.
      - right. apply in_map. apply in_seq. lia. }
    pose proof (NoDup_incl_length Nd J) as K. rewrite app_length, !map_length, seq_length in K. lia. }
  assert (R : (list_sum (map (rest (a ++ b) s) (seq 0 m)) <= m * (2 * m + m * m))%nat).
  { rewrite <- (seq_length m 0) at 2. generalize (seq 0 m). intro l. induction l as [|x l IH]; [cbn; lia|].
    cbn [map length]. change (rest (a ++ b) s x + list_sum (map (rest (a ++ b) s) l) <= S (length l) * (2 * m + m * m))%nat.
    pose proof (filter_short _ (between (l_start (lft s x)) (end_of s x)) (spots (a ++ b))) as K. rewrite spots_length, app_length in K. fold m in K. unfold rest at 1. unfold count. lia. }
  unfold enough. lia.
Qed.
Lemma sweep_lefts_ends : forall o stop, ends (sweep_lefts o stop a b).
Proof.
  intros o stop. unfold sweep_lefts. apply (run_ends Linear (step_lefts o) stop o); [|exact (linear_whole a b HP)|exact (filled_work _ (filled_linear a b))].
  intros n ev s H Hr. split; [|intros s' out E; exact (proj1 (step_lefts_kept a b HP o n ev s s' out H Hr E))].
  unfold step_lefts. pose proof (process_linear_ends (~ non_overlapping a) o n ev s) as K. destruct (process_linear o n ev s); [exact I|exact K].
Qed.
Lemma sweep_all_ends : forall o stop, ends (sweep_all o stop a b).
Proof.
  intros o stop. unfold sweep_all. apply (run_ends Linear (step_all o) stop o); [|exact (linear_whole a b HP)|exact (filled_work _ (filled_linear a b))].
  intros n ev s H Hr. split; [|intros s' out E; exact (proj1 (step_all_kept a b HP o n ev s s' out H Hr E))].
  unfold step_all. pose proof (process_linear_ends (~ non_overlapping a) o n ev s) as K. destruct (process_linear o n ev s); [exact I|exact K].
Qed.
End Ends.
Lemma boxes_ends : forall A P a b (f : box -> box -> res A), (forall x y, ends P (f x y)) -> ends P (with_boxes a b f).
Proof. intros A P a b f H. unfold with_boxes. destruct (segments_box a), (segments_box b); try (left; reflexivity). apply H. Qed.
Lemma kept_overlap : forall (f : segment -> bool) l, ~ non_overlapping (filter f l) -> ~ non_overlapping l.
Proof. intros f l H N. apply H. apply LinearThms.non_overlapping_filter. exact N. Qed.
Section Operations.
Variables first second : list segment.
Hypothesis P1 : Forall proper first.
Hypothesis P2 : Forall proper second.
Notation ends := (ends (~ non_overlapping first)).
Theorem union_ends : forall o, ends (linear_union o first second).
Proof.
  intro o. apply boxes_ends. intros x y. destruct (disjoint_with x y); [exact I|].
  apply ends_bind; [apply sweep_lefts_ends; apply (both_proper first second P1 P2); apply incl_refl|intros z _; exact I].
Qed.
Theorem symmetric_ends : forall o, ends (linear_symmetric_difference o first second).
Proof.
  intro o. apply boxes_ends. intros x y. destruct (disjoint_with x y); [exact I|].
  apply ends_bind; [apply sweep_lefts_ends; apply (both_proper first second P1 P2); apply incl_refl|intros z _; exact I].
Qed.
Theorem difference_ends : forall o value, ends (linear_difference o value first second).
Proof.
  intros o value. apply boxes_ends. intros x y. destruct (disjoint_with x y); [exact I|]. cbv zeta.
  pose proof (incl_filter _ (coupled_with_segment x) second) as J. change (filter (coupled_with_segment x) second) with (to_coupled_segments x second) in J.
  destruct (to_coupled_segments x second); [exact I|].
  apply ends_bind; [apply sweep_lefts_ends; apply (both_proper first second P1 P2); [apply incl_refl|exact J]|intros q _; exact I].
Qed.
Theorem intersection_ends : forall o, ends (linear_intersection o first second).
Proof.
  intro o. apply boxes_ends. intros x y. destruct (disjoint_with x y); [exact I|]. cbv zeta.
  pose proof (incl_filter _ (coupled_with_segment y) first) as J1. change (filter (coupled_with_segment y) first) with (to_coupled_segments y first) in J1.
  pose proof (kept_overlap (coupled_with_segment y) first) as M. change (filter (coupled_with_segment y) first) with (to_coupled_segments y first) in M.
  pose proof (incl_filter _ (coupled_with_segment x) second) as J2. change (filter (coupled_with_segment x) second) with (to_coupled_segments x second) in J2.
  destruct (to_coupled_segments y first); [exact I|]. destruct (to_coupled_segments x second); [exact I|].
  apply ends_bind; [apply (ends_weaken _ _ _ _ M); apply sweep_lefts_ends; apply (both_proper first second P1 P2); assumption|intros q _; exact I].
Qed.
Theorem complete_ends : forall o, ends (linear_complete_intersection o first second).
Proof.
  intro o. apply boxes_ends. intros x y. destruct (disjoint_with x y); [exact I|]. cbv zeta.
  pose proof (incl_filter _ (intersects_with_segment y) first) as J1. change (filter (intersects_with_segment y) first) with (to_intersecting_segments y first) in J1.
  pose proof (kept_overlap (intersects_with_segment y) first) as M. change (filter (intersects_with_segment y) first) with (to_intersecting_segments y first) in M.
  pose proof (incl_filter _ (intersects_with_segment x) second) as J2. change (filter (intersects_with_segment x) second) with (to_intersecting_segments x second) in J2.
  destruct (to_intersecting_segments y first); [exact I|]. destruct (to_intersecting_segments x second); [exact I|].
  apply ends_bind; [apply (ends_weaken _ _ _ _ M); apply sweep_all_ends; apply (both_proper first second P1 P2); assumption|]. intros q _. destruct (complete_parts q). exact I.
Qed.
End Operations.
Lemma sweep_mixed_ends : forall ss ps, Forall proper ss -> Forall proper (flat_map polygon_edges ps) ->
  forall out result o stop, ends (~ non_overlapping ss) (sweep_mixed out result o stop ss ps).
Proof.
  intros ss ps P1 P2 out result o stop. pose proof (operands_proper ss ps P1 P2) as HP. unfold sweep_mixed.
  apply (run_ends ss (flat_map polygon_oriented_edges ps) Mixed (step_mixed out result o) stop o).
  - intros n ev s H Hr. unfold step_mixed. pose proof (process_labelled_ends (~ non_overlapping ss) Mixed false result o n ev s) as K.
    destruct (process_labelled Mixed false result o n ev s) as [(x, f)|e] eqn:E; [|split; [exact K|intros s' q D; discriminate D]]. split; [exact I|].
    cbn [bind_res]. intros s' q D. injection D as <- _. exact (process_labelled_kept _ _ HP Mixed false result o n ev s x f H Hr E).
  - apply (filled_whole _ _ HP). apply filled_mixed.
  - apply filled_work. apply filled_mixed.
Qed.
Lemma mixed_boxes_ends : forall A P a b (f : box -> box -> res A), (forall x y, ends P (f x y)) -> ends P (with_mixed_boxes a b f).
Proof. intros A P a b f H. unfold with_mixed_boxes. destruct (segments_box a), (polygons_box b); try (left; reflexivity). apply H. Qed.
Section MixedOperations.
Variables (ss : list segment) (ps : list polygon).
Hypothesis P1 : Forall proper ss.
Hypothesis P2 : Forall proper (flat_map polygon_edges ps).
Lemma intersecting_ends : forall A x (empty : A) f, (forall ss' ps', Forall proper ss' -> Forall proper (flat_map polygon_edges ps') -> ends (~ non_overlapping ss') (f ss' ps')) ->
  ends (~ non_overlapping ss) (intersecting_parts x empty ss ps f).
Proof.
  intros A x empty f H. apply mixed_boxes_ends. intros a b. destruct (disjoint_with a b); [exact I|].
  pose proof (incl_filter _ (intersects_with_segment b) ss) as J. change (filter (intersects_with_segment b) ss) with (to_intersecting_segments b ss) in J.
  pose proof (kept_overlap (intersects_with_segment b) ss) as M. change (filter (intersects_with_segment b) ss) with (to_intersecting_segments b ss) in M.
  destruct (part_operands ss ps P1 P2 _ (intersects_with_polygon x a) J) as (Q1 & Q2). change (filter (intersects_with_polygon x a) ps) with (to_intersecting_polygons x a ps) in Q2.
  destruct (to_intersecting_segments b ss); [exact I|]. destruct (to_intersecting_polygons x a ps); [exact I|]. exact (ends_weaken _ _ _ _ M (H _ _ Q1 Q2)).
Qed.
Theorem mixed_intersection_ends : forall x o, ends (~ non_overlapping ss) (mixed_intersection x o ss ps).
Proof. intros x o. apply intersecting_ends. intros ss' ps' Q1 Q2. apply ends_bind; [exact (sweep_mixed_ends ss' ps' Q1 Q2 _ _ _ _)|intros q _; exact I]. Qed.
Theorem mixed_complete_ends : forall x o, ends (~ non_overlapping ss) (mixed_complete_intersection x o ss ps).
Proof.
  intros x o. apply intersecting_ends. intros ss' ps' Q1 Q2. apply ends_bind; [exact (sweep_mixed_ends ss' ps' Q1 Q2 _ _ _ _)|].
  intros q _. destruct (mixed_complete_parts q). exact I.
Qed.
Theorem mixed_difference_ends : forall x o value, ends (~ non_overlapping ss) (mixed_difference x o value ss ps).
Proof.
  intros x o value. apply mixed_boxes_ends. intros a b. destruct (disjoint_with a b); [exact I|].
  destruct (part_operands ss ps P1 P2 ss (coupled_with_polygon x a) (incl_refl _)) as (Q1 & Q2). change (filter (coupled_with_polygon x a) ps) with (to_coupled_polygons x a ps) in Q2.
  destruct (to_coupled_polygons x a ps); [exact I|]. apply ends_bind; [exact (sweep_mixed_ends ss _ Q1 Q2 _ _ _ _)|intros q _; exact I].
Qed.
Theorem mixed_union_ends : forall x o linear shaped, ends (~ non_overlapping ss) (mixed_union x o linear shaped ss ps).
Proof.
  intros x o linear shaped. apply mixed_boxes_ends. intros a b. destruct (disjoint_with a b); [exact I|]. rewrite split_filter. cbv zeta.
  destruct (part_operands ss ps P1 P2 _ (intersects_with_polygon x a) (incl_filter _ (intersects_with_segment b) ss)) as (Q1 & Q2).
  apply ends_bind; [exact (ends_weaken _ _ _ _ (kept_overlap (intersects_with_segment b) ss) (sweep_mixed_ends _ _ Q1 Q2 _ _ _ _))|]. intros q _.
  match goal with |- ends _ (match ?c with _ => _ end) => destruct c end; exact I.
Qed.
End MixedOperations.
(** The outcomes one by one. *)
Definition bounded {A} (ss : list segment) (r : res A) : Prop := (exists g, r = Ok g) \/ r = Err ValueError \/ r = Err Unordered /\ ~ non_overlapping ss.
Lemma ends_bounded : forall A ss (r : res A), ends (~ non_overlapping ss) r -> bounded ss r.
Proof. intros A ss [g|e] H; [left; exists g; reflexivity|right; destruct H as [->|(-> & H)]; auto]. Qed.
Lemma single_ends : forall A s (r : res A), proper s -> ends (~ non_overlapping [s]) r -> (exists g, r = Ok g) \/ r = Err ValueError.
Proof.
  intros A s [g|e] P H; [left; exists g; reflexivity|right]. destruct H as [->|(_ & H)]; [reflexivity|]. destruct (H (single_non_overlapping s P)).
Qed.
Theorem linear_bounded : forall first second, Forall proper first -> Forall proper second -> forall o r,
  In r [unite_multisegments o first second; intersect_multisegments o first second; subtract_multisegments o first second;
        symmetric_subtract_multisegments o first second; complete_intersect_multisegments o first second] -> bounded first r.
Proof.
  intros first second P1 P2 o r H. apply ends_bounded. repeat (destruct H as [<-|H]); [| | | | |destruct H].
  - exact (union_ends first second P1 P2 o).
  - exact (intersection_ends first second P1 P2 o).
  - exact (difference_ends first second P1 P2 o (GMultisegment first)).
  - exact (symmetric_ends first second P1 P2 o).
  - exact (complete_ends first second P1 P2 o).
Qed.
Theorem segment_bounded : forall s second, proper s -> Forall proper second -> forall o r,
  In r [subtract_multisegment_from_segment o s second; symmetric_subtract_multisegment_from_segment o s second;
        complete_intersect_segment_with_multisegment o s second] -> (exists g, r = Ok g) \/ r = Err ValueError.
Proof.
  intros s second P P2 o r H. assert (P1 : Forall proper [s]) by (constructor; [exact P|constructor]). apply (single_ends _ s r P). repeat (destruct H as [<-|H]); [| | |destruct H].
  - exact (difference_ends [s] second P1 P2 o (GSegment s)).
  - exact (symmetric_ends [s] second P1 P2 o).
  - exact (complete_ends [s] second P1 P2 o).
Qed.
Theorem mixed_bounded : forall ss ps, Forall proper ss -> Forall proper (flat_map polygon_edges ps) -> forall x o r,
  In r [unite_multisegment_with_multipolygon x o ss ps; intersect_multisegment_with_multipolygon x o ss ps;
        subtract_multipolygon_from_multisegment x o ss ps; symmetric_subtract_multipolygon_from_multisegment x o ss ps;
        complete_intersect_multisegment_with_multipolygon x o ss ps] -> bounded ss r.
Proof.
  intros ss ps P1 P2 x o r H. apply ends_bounded. repeat (destruct H as [<-|H]); [| | | | |destruct H].
  - exact (mixed_union_ends ss ps P1 P2 x o (GMultisegment ss) (GMultipolygon ps)).
  - exact (mixed_intersection_ends ss ps P1 P2 x o).
  - exact (mixed_difference_ends ss ps P1 P2 x o (GMultisegment ss)).
  - exact (mixed_union_ends ss ps P1 P2 x o (GMultisegment ss) (GMultipolygon ps)).
  - exact (mixed_complete_ends ss ps P1 P2 x o).
Qed.
Theorem mixed_single_bounded : forall s p, proper s -> Forall proper (polygon_edges p) -> forall x o r,
  In r [unite_segment_with_polygon x o s p; intersect_segment_with_polygon x o s p; subtract_polygon_from_segment x o s p;
        symmetric_subtract_polygon_from_segment x o s p; complete_intersect_segment_with_polygon x o s p] -> (exists g, r = Ok g) \/ r = Err ValueError.
Proof.
  intros s p P Q x o r H. assert (P1 : Forall proper [s]) by (constructor; [exact P|constructor]).
  assert (P2 : Forall proper (flat_map polygon_edges [p])) by (cbn; rewrite app_nil_r; exact Q). apply (single_ends _ s r P). repeat (destruct H as [<-|H]); [| | | | |destruct H].
  - exact (mixed_union_ends [s] [p] P1 P2 x o (GSegment s) (GPolygon p)).
  - exact (mixed_intersection_ends [s] [p] P1 P2 x o).
  - exact (mixed_difference_ends [s] [p] P1 P2 x o (GSegment s)).
  - exact (mixed_union_ends [s] [p] P1 P2 x o (GSegment s) (GPolygon p)).
  - exact (mixed_complete_ends [s] [p] P1 P2 x o).
Qed.
