(** Sweeps of holeless.py and holey.py and tracing of the regions of holeless.py.
    Proof support only, no part of /repo is modelled here. *)
From Coq Require Import Permutation Sorted.
From Verif Require Import QcTac Geom Spec SpecShape SpecSides GeomFacts EvenOdd Flip SortFacts Toward Bounding BoundingThms Relation PairFacts SweepGeo SweepInv SweepSteps Sweep SweepCmp SweepLink Linear SweepRun SweepLoop SweepStart SweepEnd SelectThms LinearMeaning LinearThms LinearComplete Contour Labelled Filter Mixed Shaped Parity Counting ShrinkThms ConnectThms Tracing TraceThms RegionThms OrientThms PairThms Erase Flow Beneath Labels LabelEnd Outline Classify Telescope Polygons Sides EvenStraight MixedThms MixedComplete.

(** ** Operations *)
(** The boolean operation. *)
Definition op_holds (op : operation) (a b : bool) : bool :=
  match op with Meet => a && b | Minus => a && negb b | Differ => xorb a b | Join => a || b end.
Definition op_rf (op : operation) (first other : bool) (k : overlap_kind) : bool :=
  match op with
  | Meet => (other && kind_eqb k NONE) || (negb first && kind_eqb k SAME_ORIENTATION)
  | Minus => if first then negb other && kind_eqb k NONE else (other && kind_eqb k NONE) || kind_eqb k DIFFERENT_ORIENTATION
  | Differ => kind_eqb k NONE
  | Join => (negb other && kind_eqb k NONE) || (negb first && kind_eqb k SAME_ORIENTATION)
  end.
Lemma op_test_rf : forall op ev, op_test op ev = op_rf op (l_first ev) (l_other ev) (ovl Shaped ev).
Proof.
  intros op ev. destruct op; unfold op_test, op_rf, in_intersection, in_difference, in_symmetric_difference, in_union, shaped_inside, shaped_outside, shaped_overlap,
    is_common_region_boundary, is_common_polyline_component, ovl; try reflexivity. apply Bool.negb_involutive.
Qed.
Lemma op_follows : forall op, follows (op_rf op) (op_holds op).
Proof. intro op. split; destruct op; try reflexivity; intros [|] [|]; reflexivity. Qed.
(** The sweep stops after one of operands out of which the operation does not hold. *)
Definition stops_after (op : operation) (x_max : option Qc) (E1 E2 : list segment) : Prop :=
  forall x, x_max = Some x -> exists b : bool, (forall sg, In sg (if b then E1 else E2) -> px (s_start sg) <= x /\ px (s_end sg) <= x)
    /\ forall c, (if b then op_holds op false c else op_holds op c false) = false.

(** ** Sweeps *)
Lemma by_event : by_left (fun (ev : event) (_ : state) => [ev]).
Proof. intros ev s s' E. reflexivity. Qed.
Lemma flat_one : forall (A : Type) (l : list A), flat_map (fun x => [x]) l = l.
Proof. intros A l. induction l as [|x l IH]; [reflexivity|]. cbn. rewrite IH. reflexivity. Qed.

Record shaped_swept (op : operation) (E1 E2 : list segment) (x_max : option Qc) (s : state) (pl : list event) : Prop := {
  sh_bounds : region_boundary E1 /\ region_boundary E2;
  sh_stop : stops_after op x_max E1 E2;
  sh_sweep : exists s0 out, filled (tag E1 E2) s0 /\ swept (tag E1 E2) x_max s out /\ processed x_max s out pl
    /\ forall e P, fit s0 e P -> labels e (abs e s0 []) Shaped (op_rf op) (fun _ => true) s pl
}.
Theorem shaped_sweep : forall op holey E1 E2 x_max s0, filled (tag E1 E2) s0 -> region_boundary E1 -> region_boundary E2 -> stops_after op x_max E1 E2 ->
  exists s pl, shaped_swept op E1 E2 x_max s pl
  /\ (forall o, run Shaped (step_shaped holey (op_test op) o) (beyond x_max) o (enough (length E1 + length E2)) 0 s0 [] = Ok (s, pl))
  /\ (forall o, popped Shaped (beyond x_max) (step_shaped holey (op_test op) o) o (enough (length E1 + length E2)) 0 s0 (map (fun ev => (ev, ev_start s ev)) pl) s)
  /\ (holey = true -> forall e P, fit s0 e P -> cleared (V e (relevant_points s0)) (abs e s0 []) -> chained e s pl).
Proof.
  intros op holey E1 E2 x_max s0 Hf R1 R2 St.
  assert (Hl : lawful (tag E1 E2)) by (apply lawful_operands; [exact (proj1 R1)|exact (proj1 R2)]).
  assert (Hreg : forall b, true = true -> region_boundary (operand (tag E1 E2) b)) by (intros [|] _; rewrite operand_tag; assumption).
  destruct (labelled_anyhow (tag E1 E2) s0 Hf Hl x_max Shaped holey (op_test op) (op_rf op) (or_intror eq_refl) (op_test_rf op) (fun _ => true) Hreg)
    as (s & out & pl & Hsw & Hpr & Hla & _ & Hrun & Hpop & Hch).
  exists s, pl. split; [split; [split; assumption|exact St|exists s0, out; repeat (split; [assumption|]); assumption]|].
  replace (length E1 + length E2)%nat with (length (tag E1 E2)) by (unfold tag; rewrite app_length, !map_length; reflexivity). split; [intro o|split; [intro o|intros Eh e P F; exact (Hch e P F eq_refl Eh)]].
  - rewrite (Hrun o (fun ev _ => [ev]) (step_shaped holey (op_test op) o) by_event).
    + rewrite flat_one. reflexivity.
    + intros m ev s1 s2 E. unfold step_shaped. rewrite E. reflexivity.
  - apply Hpop. intros m ev s1 s2 E. unfold step_shaped. rewrite E. reflexivity.
Qed.

(** ** Boundary of the result *)
Lemma result_edges_ids : forall s m, result_edges s m = map (seg_of s) (filter (fun i => l_result (lft s i)) (lefts_in m)).
Proof.
  intros s m. unfold result_edges. induction m as [|[i|r] m IH]; [reflexivity| |exact IH].
  change (lefts_in (EL i :: m)) with (i :: lefts_in m). cbn [filter is_left left_of andb]. destruct (l_result (lft s i)); [cbn [map]; rewrite IH; reflexivity|exact IH].
Qed.
(** ** Positions *)
Lemma event_eqb_spec : forall a b, reflect (a = b) (event_eqb a b).
Proof. intros [i|i] [j|j]; cbn; try (constructor; discriminate); destruct (Nat.eqb_spec i j); constructor; congruence. Qed.
Lemma position_of_spec : forall ev m, In ev m -> exists i, position_of ev m = Some i /\ nth_error m i = Some ev.
Proof.
  intros ev m. induction m as [|x m IH]; intros []; cbn [position_of].
  - subst x. destruct (event_eqb_spec ev ev); [|contradiction]. exists 0%nat. split; reflexivity.
  - destruct (event_eqb_spec x ev) as [E|E]; [exists 0%nat; split; [reflexivity|rewrite E; reflexivity]|]. destruct (IH H) as (i & E1 & E2). exists (S i). rewrite E1. split; [reflexivity|exact E2].
Qed.
Lemma filter_perm : forall (A : Type) (f : A -> bool) a b, Permutation a b -> Permutation (filter f a) (filter f b).
Proof.
  intros A f a b H. induction H; cbn; repeat match goal with |- context [if ?c then _ else _] => destruct c end; auto using perm_swap; eauto using perm_trans.
Qed.
Lemma filter_split : forall (A : Type) (f : A -> bool) m, Permutation m (filter f m ++ filter (fun x => negb (f x)) m).
Proof.
  intros A f m. induction m as [|x m IH]; [constructor|]. cbn. destruct (f x); cbn; [apply perm_skip; exact IH|]. apply Permutation_cons_app. exact IH.
Qed.
Lemma flat_two : forall (A B : Type) (f g : A -> B) m, Permutation (flat_map (fun x => [f x; g x]) m) (map f m ++ map g m).
Proof. intros A B f g m. induction m as [|x m IH]; [constructor|]. cbn. apply perm_skip. apply Permutation_cons_app. exact IH. Qed.

Lemma filter_map_at : forall (A B : Type) (g : A -> B) (f : B -> bool) m, filter f (map g m) = map g (filter (fun x => f (g x)) m).
Proof. intros A B g f m. induction m as [|x m IH]; [reflexivity|]. cbn. destruct (f (g x)); cbn; rewrite IH; reflexivity. Qed.
Lemma map_nth_seq : forall (A : Type) (m : list A) d, map (fun i => nth i m d) (seq 0 (length m)) = m.
Proof.
  intros A m d. induction m as [|x m IH]; [reflexivity|]. cbn [length seq map nth]. f_equal. rewrite <- seq_shift, map_map. exact IH.
Qed.

Section Swept.
Variables (op : operation) (E1 E2 : list segment) (x_max : option Qc) (s : state) (pl : list event).
Hypothesis H : shaped_swept op E1 E2 x_max s pl.
Notation n := (length (lefts s)).
Let R1 := proj1 (sh_bounds _ _ _ _ _ _ H).
Let R2 := proj2 (sh_bounds _ _ _ _ _ _ H).
Let Hl : lawful (tag E1 E2) := lawful_operands _ _ (proj1 R1) (proj1 R2).
Lemma Hreg : forall b, region_boundary (operand (tag E1 E2) b).
Proof. intros [|]; rewrite operand_tag; assumption. Qed.
Lemma Hstop : forall x, x_max = Some x -> exists b : bool, (forall sg, In sg (operand (tag E1 E2) b) -> px (s_start sg) <= x /\ px (s_end sg) <= x)
  /\ forall c, (if b then op_holds op false c else op_holds op c false) = false.
Proof.
  intros x Ex. destruct (sh_stop _ _ _ _ _ _ H x Ex) as (b & A & B). exists b. split; [|exact B]. intros sg Hs. apply A. rewrite operand_tag in Hs. exact Hs.
Qed.

Lemma result_perm : forall out, swept (tag E1 E2) x_max s out -> processed x_max s out pl ->
  (forall i, In (EL i) pl -> l_result (lft s i) = true -> In i out) ->
  Permutation (result_edges s pl) (map (seg_of s) (filter (fun i => l_result (lft s i)) out)).
Proof.
  intros out Hsw Hpr So.
  rewrite (result_edges_ids s pl). apply Permutation_map. apply NoDup_Permutation.
  - apply NoDup_filter, lefts_in_nodup. exact (pr_nodup _ _ _ _ Hpr).
  - apply NoDup_filter. exact (sw_nodup _ _ _ _ Hsw).
  - intro i. rewrite !filter_In, lefts_in_in. split; intros (A & B); (split; [|exact B]); [exact (So i A B)|exact (pr_left _ _ _ _ Hpr i A)].
Qed.
(** Pieces the sweep has made. *)
Definition piece_endpoint (p : point) : Prop := exists ev, in_range s ev /\ ev_start s ev = p.

Theorem result_inside : forall p, inside (result_edges s pl) p = op_holds op (inside E1 p) (inside E2 p).
Proof.
  intro p. destruct (sh_sweep _ _ _ _ _ _ H) as (s0 & out & Hf & Hsw & Hpr & Hla).
  rewrite (inside_perm _ _ p (result_perm out Hsw Hpr (selected_out _ s0 Hf Hl x_max _ _ (op_follows op) Hreg s out pl Hsw Hpr Hla Hstop))).
  rewrite (telescope _ s0 Hf Hl x_max _ _ (op_follows op) Hreg s out pl Hsw Hpr Hla Hstop p), !operand_tag. reflexivity.
Qed.
Theorem result_even : even_occurrences (endpoints_of (result_edges s pl)).
Proof.
  destruct (sh_sweep _ _ _ _ _ _ H) as (s0 & out & Hf & Hsw & Hpr & Hla).
  pose proof (selected_even _ s0 Hf Hl x_max _ _ (op_follows op) Hreg s out pl Hsw Hpr Hla Hstop) as Ev. intro q.
  pose proof (result_perm out Hsw Hpr (selected_out _ s0 Hf Hl x_max _ _ (op_follows op) Hreg s out pl Hsw Hpr Hla Hstop)) as Pm.
  rewrite <- (Ev q). f_equal. apply Permutation_count_occ. unfold endpoints_of. apply Permutation_flat_map. exact Pm.
Qed.
Theorem result_sides : forall p, ~ piece_endpoint p -> segments_through (result_edges s pl) p
  = if xorb (op_holds op (inside E1 p) (inside E2 p)) (op_holds op (inside_above E1 p) (inside_above E2 p)) then 1%nat else 0%nat.
Proof.
  intros p Np. destruct (sh_sweep _ _ _ _ _ _ H) as (s0 & out & Hf & Hsw & Hpr & Hla).
  pose proof (result_perm out Hsw Hpr (selected_out _ s0 Hf Hl x_max _ _ (op_follows op) Hreg s out pl Hsw Hpr Hla Hstop)) as Pm.
  assert (E : segments_through (result_edges s pl) p = segments_through (map (seg_of s) (filter (fun i => l_result (lft s i)) out)) p).
  { unfold segments_through. apply Permutation_length. revert Pm. generalize (result_edges s pl) (map (seg_of s) (filter (fun i => l_result (lft s i)) out)).
    intros a b Pm. induction Pm; cbn; repeat match goal with |- context [if ?c then _ else _] => destruct c end; auto using perm_swap; eauto using perm_trans. }
  rewrite E. rewrite (sides _ s0 Hf Hl x_max _ _ (op_follows op) Hreg s out pl Hsw Hpr Hla Hstop p).
  - rewrite !operand_tag. reflexivity.
  - intros i Hi [K|K]; apply Np; [exists (EL i)|exists (ER (l_right (lft s i)))].
    + split; [exact Hi|symmetry; exact K].
    + split; [exact (proj1 (proj1 (proj2 (pr_wf _ _ _ _ Hpr)) i Hi))|symmetry; exact K].
Qed.
Lemma result_on : forall p, on_segments p (result_edges s pl) -> on_segments p (E1 ++ E2).
Proof.
  intros p (sg & Hs & O). rewrite result_edges_ids in Hs. apply in_map_iff in Hs. destruct Hs as (i & <- & Hi). apply filter_In in Hi. destruct Hi as (Hi & _). apply lefts_in_in in Hi.
  destruct (sh_sweep _ _ _ _ _ _ H) as (s0 & out & Hf & Hsw & Hpr & Hla). destruct (piece_source _ _ _ _ _ Hsw i (pr_range _ _ _ _ Hpr _ Hi)) as (t & Ht & W).
  exists t. split; [apply in_or_app; destruct (l_first (lft s i)); auto|]. apply W. exact O.
Qed.
Lemma result_proper : Forall proper (result_edges s pl).
Proof.
  apply Forall_forall. intros sg Hs. rewrite result_edges_ids in Hs. apply in_map_iff in Hs. destruct Hs as (i & <- & Hi). apply filter_In in Hi. destruct Hi as (Hi & _). apply lefts_in_in in Hi.
  destruct (sh_sweep _ _ _ _ _ _ H) as (s0 & out & Hf & Hsw & Hpr & Hla). exact (piece_proper _ _ _ _ Hsw i (pr_range _ _ _ _ Hpr _ Hi)).
Qed.
(** The result changes its side at its boundary. *)
Theorem result_neighbours : forall p q1 q2, ~ piece_endpoint p -> inside_segment p (Seg q1 q2) ->
  (forall x, on_segment x (Seg q1 q2) -> on_segments x (E1 ++ E2) -> x = p) ->
  segments_through (result_edges s pl) p = if xorb (op_holds op (inside E1 q1) (inside E2 q1)) (op_holds op (inside E1 q2) (inside E2 q2)) then 1%nat else 0%nat.
Proof.
  intros p q1 q2 Np Pq Only. rewrite <- !result_inside. pose proof (result_sides p Np) as C. pose proof result_proper as Pr. pose proof result_even as Ev.
  assert (Pc : forall sg, In sg (result_edges s pl) -> ~ endpoint p sg).
  { intros sg Hs K. apply Np. rewrite result_edges_ids in Hs. apply in_map_iff in Hs. destruct Hs as (i & <- & Hi). apply filter_In in Hi. destruct Hi as (Hi & _). apply lefts_in_in in Hi.
    destruct (sh_sweep _ _ _ _ _ _ H) as (s0 & out & _ & Hsw & Hpr & _). pose proof (pr_range _ _ _ _ Hpr _ Hi) as Ri. cbn in Ri.
    destruct K as [K|K]; [exists (EL i); split; [exact Ri|symmetry; exact K]|exists (ER (l_right (lft s i))); split; [exact (proj1 (proj1 (proj2 (pr_wf _ _ _ _ Hpr)) i Ri))|symmetry; exact K]]. }
  assert (On : forall sg x, In sg (result_edges s pl) -> on_segment x (Seg q1 q2) -> on_segment x sg -> x = p).
  { intros sg x Hs X1 X2. apply Only; [exact X1|]. apply result_on. exists sg. split; assumption. }
  revert C Pr Ev Pc On. generalize (result_edges s pl). intros es C Pr Ev Pc On. unfold segments_through in *.
  pose proof (filter_split _ (fun sg => passes_through sg p) es) as Pm. set (th := filter (fun sg => passes_through sg p) es) in *. set (rest := filter (fun x => negb (passes_through x p)) es) in Pm.
  assert (Rest : forall k, In k rest -> forall x, on_segment x (Seg q1 q2) -> ~ on_segment x k).
  { intros k Hk x X1 X2. apply filter_In in Hk. destruct Hk as (Hk & Nk). rewrite Forall_forall in Pr. pose proof (On k x Hk X1 X2) as ->. apply (through_spec k p (Pr k Hk)) in X2. rewrite X2 in Nk. discriminate Nk. }
  destruct th as [|sg [|t th']] eqn:Et.
  - cbn [app length] in *. assert (E : inside es q1 = inside es q2).
    { apply inside_const; [exact Pr|exact Ev|]. intros k Hk. left. apply Rest. apply (Permutation_in _ Pm). exact Hk. }
    rewrite E. destruct (inside es q2); reflexivity.
  - cbn [app length] in *. assert (Is : In sg es /\ passes_through sg p = true) by (apply (filter_In (fun sg => passes_through sg p)); fold th; rewrite Et; left; reflexivity). destruct Is as (Is & Ts).
    assert (Ps : proper sg) by (rewrite Forall_forall in Pr; exact (Pr sg Is)). apply (through_spec sg p Ps) in Ts.
    rewrite (inside_perm _ _ q1 Pm), (inside_perm _ _ q2 Pm). rewrite (flip sg rest p q1 q2).
    + destruct (inside (sg :: rest) q2); reflexivity.
    + exact (Permutation_Forall Pm Pr).
    + intro v. rewrite <- (Ev v). f_equal. apply Permutation_count_occ, Permutation_sym. apply Permutation_flat_map. exact Pm.
    + split; [exact Ts|]. split; intro K; apply (Pc sg Is); [left|right]; exact K.
    + exact Pq.
    + intros x X1 X2. exact (On sg x Is X1 X2).
    + exact Rest.
  - cbn [length] in C. destruct (xorb _ _) in C; discriminate C.
Qed.
(** ** Tracing *)
Lemma result_left : forall i, In (EL i) pl -> l_result (lft s i) = true -> In (ER (l_right (lft s i))) pl.
Proof.
  intros i He Hr. destruct (sh_sweep _ _ _ _ _ _ H) as (s0 & out & Hf & Hsw & Hpr & Hla).
  pose proof (selected_out _ s0 Hf Hl x_max _ _ (op_follows op) Hreg s out pl Hsw Hpr Hla Hstop i He Hr) as Io.
  destruct (proj1 (proj2 (pr_wf _ _ _ _ Hpr)) i (sw_range _ _ _ _ Hsw i Io)) as (A & B). apply (pr_out _ _ _ _ Hpr _ A). rewrite B. exact Io.
Qed.
Lemma result_right : forall r, In (ER r) pl -> In (EL (r_left (rgt s r))) pl.
Proof.
  intros r Hr. destruct (sh_sweep _ _ _ _ _ _ H) as (s0 & out & _ & _ & Hpr & _). apply (pr_left _ _ _ _ Hpr). apply (pr_out _ _ _ _ Hpr r (pr_range _ _ _ _ Hpr _ Hr)). exact Hr.
Qed.
Lemma events_range : forall ev, In ev pl -> in_range s ev.
Proof. intros ev He. destruct (sh_sweep _ _ _ _ _ _ H) as (s0 & out & _ & _ & Hpr & _). exact (pr_range _ _ _ _ Hpr ev He). Qed.
Lemma events_nodup : NoDup pl.
Proof. destruct (sh_sweep _ _ _ _ _ _ H) as (s0 & out & _ & _ & Hpr & _). exact (pr_nodup _ _ _ _ Hpr). Qed.
Lemma opposite_range : forall ev, in_range s ev -> in_range s (opposite s ev) /\ opposite s (opposite s ev) = ev /\ left_of s (opposite s ev) = left_of s ev.
Proof.
  intros ev He. destruct (sh_sweep _ _ _ _ _ _ H) as (s0 & out & _ & _ & Hpr & _). destruct (pr_wf _ _ _ _ Hpr) as (_ & W1 & W2).
  destruct ev as [i|r]; cbn in *; [destruct (W1 i He) as (A & B)|destruct (W2 r He) as (A & B)]; rewrite ?B; auto.
Qed.
Lemma opposite_other : forall ev, opposite s ev <> ev /\ is_left (opposite s ev) = negb (is_left ev).
Proof. intros [i|r]; cbn; split; try discriminate; reflexivity. Qed.
Lemma same_left : forall a b, in_range s a -> in_range s b -> left_of s a = left_of s b -> b = a \/ b = opposite s a.
Proof.
  intros a b Ra Rb E. destruct (sh_sweep _ _ _ _ _ _ H) as (s0 & out & _ & _ & Hpr & _). destruct (pr_wf _ _ _ _ Hpr) as (_ & W1 & W2).
  destruct a as [i|r], b as [j|q]; cbn in *.
  - left. congruence.
  - right. rewrite E. rewrite (proj2 (W2 q Rb)). reflexivity.
  - right. congruence.
  - left. rewrite <- (proj2 (W2 q Rb)), <- E, (proj2 (W2 r Ra)). reflexivity.
Qed.
Lemma opposite_start : forall ev, in_range s ev -> ev_start s (opposite s ev) = ev_end s ev.
Proof. intros [i|r] _; reflexivity. Qed.
Lemma ev_segment_cases : forall ev, in_range s ev -> ev_segment s ev = seg_of s (left_of s ev) \/ ev_segment s ev = reversed (seg_of s (left_of s ev)).
Proof.
  intros [i|r] He; [left; reflexivity|right]. destruct (sh_sweep _ _ _ _ _ _ H) as (s0 & out & _ & _ & Hpr & _). destruct (pr_wf _ _ _ _ Hpr) as (_ & _ & W2).
  unfold ev_segment, seg_of, reversed, end_of. cbn [ev_start ev_end left_of s_start s_end]. rewrite (proj2 (W2 r He)). reflexivity.
Qed.
Lemma opposite_reversed : forall ev, in_range s ev -> reversed (ev_segment s ev) = ev_segment s (opposite s ev).
Proof.
  intros ev He. unfold ev_segment, reversed. cbn [s_start s_end]. rewrite <- (opposite_start ev He).
  rewrite <- (opposite_start (opposite s ev) (proj1 (opposite_range ev He))), (proj1 (proj2 (opposite_range ev He))). reflexivity.
Qed.
Lemma ev_segment_on : forall ev p, in_range s ev -> on_segment p (ev_segment s ev) <-> on_segment p (seg_of s (left_of s ev)).
Proof. intros ev p He. destruct (ev_segment_cases ev He) as [->| ->]; [reflexivity|apply on_reversed]. Qed.
Lemma ev_segment_proper : forall ev, in_range s ev -> proper (ev_segment s ev).
Proof.
  intros ev He. destruct (sh_sweep _ _ _ _ _ _ H) as (s0 & out & _ & Hsw & Hpr & _).
  assert (Hi : (left_of s ev < n)%nat) by (destruct ev as [i|r]; [exact He|exact (proj1 (proj2 (proj2 (pr_wf _ _ _ _ Hpr)) r He))]).
  pose proof (sw_plt _ _ _ _ Hsw _ Hi) as K. destruct (ev_segment_cases ev He) as [->| ->]; unfold proper, reversed, seg_of; cbn [s_start s_end]; intro E; rewrite E in K; exact (plt_irrefl _ K).
Qed.

(** Pieces of the result have no common part. *)
Lemma result_apart : forall i j, In (EL i) pl -> In (EL j) pl -> l_result (lft s i) = true -> l_result (lft s j) = true -> i <> j ->
  ~ overlap (seg_of s i) (seg_of s j).
Proof.
  intros i j Hi Hj Ri Rj Nij O. pose proof result_sides as RS. destruct (sh_sweep _ _ _ _ _ _ H) as (s0 & out & Hf & Hsw & Hpr & Hla).
  pose proof (selected_out _ s0 Hf Hl x_max _ _ (op_follows op) Hreg s out pl Hsw Hpr Hla Hstop) as So.
  destruct (sw_apart _ _ _ _ Hsw i j (So i Hi Ri) (events_range _ Hj) (not_eq_sym Nij)) as [K|(_ & Es & _)].
  - destruct (overlap_inside _ _ O) as (m & (M1 & M2 & M3) & (M4 & _)). destruct (K m M1 M4) as ([J|J] & _); contradiction.
  - pose proof (sw_plt _ _ _ _ Hsw i (events_range _ Hi)) as L.
    assert (Nd : l_start (lft s i) <> end_of s i) by (intro E; rewrite E in L; exact (plt_irrefl _ L)).
    destruct (approach _ _ (map (fun i => ev_start s (EL i)) (seq 0 n) ++ map (fun r => ev_start s (ER r)) (seq 0 (length (rights s)))) Nd) as (m & (M1 & _) & Nm & _).
    assert (T : forall k, (k < n)%nat -> proper (seg_of s k)).
    { intros k Hk E. pose proof (sw_plt _ _ _ _ Hsw k Hk) as L'. cbn in E. rewrite E in L'. exact (plt_irrefl _ L'). }
    assert (Np : ~ piece_endpoint m).
    { intros ([k|r] & Rk & Ek); apply Nm, in_or_app; [left|right]; apply in_map_iff; [exists k|exists r]; (split; [exact Ek|apply in_seq; cbn in Rk; lia]). }
    pose proof (RS m Np) as C. rewrite result_edges_ids in C. unfold segments_through in C.
    set (ids := filter (fun i => l_result (lft s i)) (lefts_in pl)) in C.
    assert (N2 : (2 <= length (filter (fun k => passes_through (seg_of s k) m) ids))%nat).
    { change 2%nat with (length [i; j]). apply NoDup_incl_length; [constructor; [intros [E|[]]; congruence|constructor; [intros []|constructor]]|].
      intros k Hk. apply filter_In.
      assert (Kk : In (EL k) pl /\ l_result (lft s k) = true /\ seg_of s k = seg_of s i) by (destruct Hk as [<-|[<-|[]]]; auto).
      destruct Kk as (K1 & K2 & K3). split; [apply filter_In; split; [apply lefts_in_in; exact K1|exact K2]|].
      apply (through_spec _ m (T k (events_range _ K1))). rewrite K3. exact M1. }
    assert (E : length (filter (fun sg => passes_through sg m) (map (seg_of s) ids)) = length (filter (fun k => passes_through (seg_of s k) m) ids)).
    { clear. induction ids as [|k r IH]; [reflexivity|]. cbn [map filter]. destruct (passes_through (seg_of s k) m); cbn [length]; rewrite IH; reflexivity. }
    rewrite E in C. rewrite C in N2. destruct (xorb _ _) in N2; lia.
Qed.

Section Traced.
Variable events : list event.
Hypothesis Hperm : Permutation events pl.
Notation evs := (result_events s events).
Lemma evs_in : forall ev, In ev evs <-> In ev pl /\ l_result (lft s (left_of s ev)) = true.
Proof.
  intro ev. unfold result_events. rewrite sort_by_in, filter_In. split; intros (A & B); (split; [|exact B]).
  - exact (Permutation_in _ Hperm A).
  - exact (Permutation_in _ (Permutation_sym Hperm) A).
Qed.
Lemma evs_nodup : NoDup evs.
Proof.
  unfold result_events. apply (Permutation_NoDup (Permutation_sym (sort_by_perm _ _))). apply NoDup_filter. apply (Permutation_NoDup (Permutation_sym Hperm)). exact events_nodup.
Qed.
Lemma evs_range : forall ev, In ev evs -> in_range s ev.
Proof. intros ev He. apply events_range. exact (proj1 (proj1 (evs_in ev) He)). Qed.
Lemma evs_opposite : forall ev, In ev evs -> In (opposite s ev) evs.
Proof.
  intros ev He. pose proof (evs_range ev He) as R. apply evs_in in He. destruct He as (A & B). apply evs_in. rewrite (proj2 (proj2 (opposite_range ev R))). split; [|exact B].
  destruct ev as [i|r]; [exact (result_left i A B)|exact (result_right r A)].
Qed.
Definition traced_of (ev : event) : traced :=
  Traced (ev_start s ev) (ev_start s (opposite s ev)) (is_left ev) (match position_of (opposite s ev) evs with Some i => i | None => 0%nat end).
Lemma to_traced_ok : to_traced s evs evs = Ok (map traced_of evs).
Proof.
  assert (G : forall m, (forall ev, In ev m -> In ev evs) -> to_traced s evs m = Ok (map traced_of m)).
  { intro m. induction m as [|ev m IH]; intro I; [reflexivity|]. cbn [to_traced map].
    destruct (position_of_spec _ _ (evs_opposite ev (I ev (or_introl eq_refl)))) as (i & Ei & _). unfold traced_of at 1. rewrite Ei.
    rewrite IH by (intros x Hx; apply I; right; exact Hx). reflexivity. }
  apply G. auto.
Qed.
Notation ts := (map traced_of evs).
Notation ev_at i := (nth i evs (EL 0)).
Lemma ts_length : length ts = length evs.
Proof. apply map_length. Qed.
Lemma ev_at_in : forall i, (i < length ts)%nat -> In (ev_at i) evs.
Proof. intros i Hi. rewrite ts_length in Hi. apply nth_In. exact Hi. Qed.
Lemma ts_at : forall i, (i < length ts)%nat -> tev ts i = traced_of (ev_at i).
Proof. intros i Hi. unfold tev. rewrite (nth_indep _ no_traced (traced_of (EL 0)) Hi). apply map_nth. Qed.
Lemma ts_opp : forall i, (i < length ts)%nat -> (opp ts i < length ts)%nat /\ ev_at (opp ts i) = opposite s (ev_at i).
Proof.
  intros i Hi. unfold opp. rewrite (ts_at i Hi). destruct (position_of_spec _ _ (evs_opposite _ (ev_at_in i Hi))) as (k & Ek & Nk).
  change (t_opposite (traced_of (ev_at i))) with (match position_of (opposite s (ev_at i)) evs with Some i => i | None => 0%nat end). rewrite Ek. split; [rewrite ts_length; apply nth_error_Some; rewrite Nk; discriminate|]. exact (nth_error_nth _ _ _ Nk).
Qed.
Lemma at_eq : forall i j, (i < length ts)%nat -> (j < length ts)%nat -> ev_at i = ev_at j -> i = j.
Proof. intros i j Hi Hj E. rewrite ts_length in Hi, Hj. exact (proj1 (NoDup_nth evs (EL 0)) evs_nodup i j Hi Hj E). Qed.
Lemma ts_paired : TraceThms.paired ts.
Proof.
  intros i Hi. destruct (ts_opp i Hi) as (A & B). destruct (ts_opp _ A) as (C & D).
  pose proof (evs_range _ (ev_at_in i Hi)) as R. split; [exact A|]. split; [intro E; rewrite E in B; exact (proj1 (opposite_other (ev_at i)) (eq_sym B))|]. split.
  - apply (at_eq _ _ C Hi). rewrite D, B. exact (proj1 (proj2 (opposite_range _ R))).
  - rewrite (ts_at i Hi), (ts_at _ A), B. reflexivity.
Qed.
Lemma ts_edge : forall i, (i < length ts)%nat -> edge ts i = ev_segment s (ev_at i).
Proof.
  intros i Hi. unfold edge. rewrite (ts_at i Hi). unfold ev_segment. cbn [t_start t_end traced_of]. rewrite (opposite_start _ (evs_range _ (ev_at_in i Hi))). reflexivity.
Qed.
Lemma ts_planar : planar ts.
Proof.
  split.
  - intros i Hi. rewrite (ts_edge i Hi). exact (ev_segment_proper _ (evs_range _ (ev_at_in i Hi))).
  - intros i j Hi Hj N1 N2. rewrite (ts_edge i Hi), (ts_edge j Hj). pose proof (ev_at_in i Hi) as Ii. pose proof (ev_at_in j Hj) as Ij.
    pose proof (evs_range _ Ii) as Ri. pose proof (evs_range _ Ij) as Rj.
    assert (Nl : left_of s (ev_at i) <> left_of s (ev_at j)).
    { intro E. destruct (same_left _ _ Ri Rj E) as [K|K]; [apply N1; apply at_eq; auto|]. apply N2. destruct (ts_opp i Hi) as (A & B). apply at_eq; auto. rewrite B. exact K. }
    assert (L : forall ev, In ev evs -> In (EL (left_of s ev)) pl).
    { intros [k|r] Hk; apply evs_in in Hk; [exact (proj1 Hk)|]. exact (result_right r (proj1 Hk)). }
    intro O. apply (result_apart _ _ (L _ Ii) (L _ Ij) (proj2 (proj1 (evs_in _) Ii)) (proj2 (proj1 (evs_in _) Ij)) Nl).
    destruct O as (p & q & N & A & B & C & D). exists p, q. rewrite (ev_segment_on _ p Ri), (ev_segment_on _ q Ri) in *. rewrite (ev_segment_on _ p Rj), (ev_segment_on _ q Rj) in *. auto.
Qed.
Lemma ts_starts : starts ts = map (ev_start s) evs.
Proof. unfold starts. rewrite map_map. reflexivity. Qed.
Lemma ts_grouped : grouped (starts ts).
Proof.
  rewrite ts_starts. intros i j k Hij Hjk Hk. rewrite map_length in Hk. unfold vertex.
  assert (Ev : forall x, (x < length evs)%nat -> nth x (map (ev_start s) evs) (Pt 0 0) = ev_start s (ev_at x)).
  { intros x Hx. rewrite (nth_indep _ (Pt 0 0) (ev_start s (EL 0))) by (rewrite map_length; exact Hx). apply map_nth. }
  rewrite !Ev by lia. intro E.
  assert (S : StronglySorted (fun x y => ple (ev_start s x) (ev_start s y)) evs) by (apply sort_start; exact (key_start s)).
  assert (Le : forall x y, (x <= y)%nat -> (y < length evs)%nat -> ple (ev_start s (ev_at x)) (ev_start s (ev_at y))).
  { clear - S. revert S. generalize evs. intros m S. induction S as [|z m S IH F]; intros x y Hxy Hy; [cbn in Hy; lia|]. destruct x as [|x], y as [|y]; [exact (plt_irrefl _)| |lia|].
    - cbn [nth]. rewrite Forall_forall in F. apply F. apply nth_In. cbn in Hy. lia.
    - cbn [nth]. apply IH; cbn in Hy; lia. }
  pose proof (Le i j Hij ltac:(lia)) as L1. pose proof (Le j k Hjk Hk) as L2. rewrite <- E in L2. apply ple_lt_eq in L1. destruct L1 as [L1|L1]; [exfalso; exact (L2 L1)|symmetry; exact L1].
Qed.
(** Left events of the result. *)
Lemma lefts_perm : Permutation (filter is_left evs) (filter (fun ev => is_left ev && l_result (lft s (left_of s ev))) pl).
Proof.
  apply NoDup_Permutation; [apply NoDup_filter, evs_nodup|apply NoDup_filter, events_nodup|].
  intro ev. rewrite !filter_In, evs_in, Bool.andb_true_iff. tauto.
Qed.
Lemma rights_perm : Permutation (filter (fun ev => negb (is_left ev)) evs) (map (opposite s) (filter is_left evs)).
Proof.
  assert (In_ : forall ev, In ev (map (opposite s) (filter is_left evs)) <-> In ev (filter (fun ev => negb (is_left ev)) evs)).
  { intro ev. rewrite in_map_iff, filter_In. split.
    - intros (x & <- & Hx). apply filter_In in Hx. destruct Hx as (A & B). split; [exact (evs_opposite x A)|]. rewrite (proj2 (opposite_other x)), B. reflexivity.
    - intros (A & B). exists (opposite s ev). split; [exact (proj1 (proj2 (opposite_range ev (evs_range ev A))))|]. apply filter_In. split; [exact (evs_opposite ev A)|].
      rewrite (proj2 (opposite_other ev)). exact B. }
  apply NoDup_Permutation; [apply NoDup_filter, evs_nodup| |intro ev; symmetry; exact (In_ ev)].
  assert (Nd : NoDup (filter is_left evs)) by apply NoDup_filter, evs_nodup.
  assert (I : forall ev, In ev (filter is_left evs) -> in_range s ev) by (intros ev Hev; apply filter_In in Hev; exact (evs_range ev (proj1 Hev))).
  clear In_. induction (filter is_left evs) as [|ev m IH]; [constructor|]. apply NoDup_cons_iff in Nd. destruct Nd as (N1 & N2). cbn [map]. constructor.
  - intro K. apply in_map_iff in K. destruct K as (x & Ex & Hx). apply N1.
    rewrite <- (proj1 (proj2 (opposite_range ev (I ev (or_introl eq_refl))))), <- Ex, (proj1 (proj2 (opposite_range x (I x (or_intror Hx))))). exact Hx.
  - exact (IH N2 (fun x Hx => I x (or_intror Hx))).
Qed.
Lemma ts_even : even_occurrences (starts ts).
Proof.
  intro q. rewrite <- (result_even q). f_equal. apply Permutation_count_occ. rewrite ts_starts.
  eapply perm_trans; [apply Permutation_map, (filter_split _ is_left)|]. rewrite map_app.
  eapply perm_trans; [apply Permutation_app; [reflexivity|apply Permutation_map, rights_perm]|]. rewrite map_map.
  eapply perm_trans; [apply Permutation_sym, flat_two|]. unfold endpoints_of, result_edges. rewrite flat_map_concat_map, (flat_map_concat_map _ (map _ _)), map_map, <- !flat_map_concat_map.
  eapply perm_trans; [apply Permutation_flat_map, lefts_perm|].
  erewrite flat_map_ext; [reflexivity|]. intros [i|r]; reflexivity.
Qed.
Notation rs_edges rs := (flat_map (fun c => contour_edges (vertices c)) rs).
Lemma edges_result : forall ids, Permutation (ids ++ map (opp ts) ids) (seq 0 (length ts)) ->
  (forall q, inside (map (edge ts) ids) q = inside (result_edges s pl) q)
  /\ (forall q, on_segments q (map (edge ts) ids) <-> on_segments q (result_edges s pl)).
Proof.
  intros ids Pm.
  assert (Rg : forall i, In i ids -> (i < length ts)%nat).
  { intros i Hi. assert (K : In i (seq 0 (length ts))) by (apply (Permutation_in _ Pm), in_or_app; left; exact Hi). apply in_seq in K. lia. }
  set (lf := fun i => is_left (ev_at i)).
  assert (Lo : forall i, In i ids -> lf (opp ts i) = negb (lf i)).
  { intros i Hi. unfold lf. rewrite (proj2 (ts_opp i (Rg i Hi))). exact (proj2 (opposite_other _)). }
  assert (Ps : Permutation (map (fun i => ev_at i) (filter lf (seq 0 (length ts)))) (filter is_left evs)).
  { rewrite ts_length. unfold lf. rewrite <- filter_map_at. rewrite map_nth_seq. reflexivity. }
  split.
  - intro q. unfold result_edges.
    rewrite <- (inside_perm _ _ q (Permutation_map (ev_segment s) (perm_trans Ps lefts_perm))).
    rewrite !inside_parity, !parity_map, parity_filter, <- (parity_perm _ _ _ Pm), parity_app, parity_map, <- parity_xor.
    apply parity_ext. intros i Hi. pose proof (Rg i Hi) as Ri. rewrite (Lo i Hi), (ts_edge i Ri).
    assert (E : passes_under (ev_segment s (ev_at (opp ts i))) q = passes_under (ev_segment s (ev_at i)) q).
    { rewrite (proj2 (ts_opp i Ri)), <- (opposite_reversed _ (evs_range _ (ev_at_in i Ri))). apply passes_reversed. }
    rewrite E. destruct (lf i), (passes_under (ev_segment s (ev_at i)) q); reflexivity.
  - intro q. unfold on_segments, result_edges. split.
    + intros (sg & Hs & Oq). apply in_map_iff in Hs. destruct Hs as (i & <- & Hi). pose proof (Rg i Hi) as Ri. rewrite (ts_edge i Ri) in Oq.
      pose proof (ev_at_in i Ri) as Ie. assert (L : exists ev, In ev (filter is_left evs) /\ on_segment q (ev_segment s ev)).
      { destruct (is_left (ev_at i)) eqn:El; [exists (ev_at i); split; [apply filter_In; auto|exact Oq]|].
        exists (opposite s (ev_at i)). split; [apply filter_In; split; [exact (evs_opposite _ Ie)|rewrite (proj2 (opposite_other _)), El; reflexivity]|].
        rewrite <- (opposite_reversed _ (evs_range _ Ie)). apply on_reversed. exact Oq. }
      destruct L as (ev & Hev & Oe). exists (ev_segment s ev). split; [|exact Oe]. apply in_map. exact (Permutation_in _ lefts_perm Hev).
    + intros (sg & Hs & Oq). apply in_map_iff in Hs. destruct Hs as (ev & <- & Hev). apply (Permutation_in _ (Permutation_sym lefts_perm)) in Hev.
      apply filter_In in Hev. destruct Hev as (Ie & _). destruct (In_nth _ _ (EL 0) Ie) as (i & Hi & Ei). rewrite <- ts_length in Hi.
      assert (K : In i (ids ++ map (opp ts) ids)) by (apply (Permutation_in _ (Permutation_sym Pm)), in_seq; lia).
      apply in_app_or in K. destruct K as [K|K]; [exists (edge ts i); split; [apply in_map; exact K|rewrite (ts_edge i Hi), Ei; exact Oq]|].
      apply in_map_iff in K. destruct K as (j & Ej & Hj). pose proof (Rg j Hj) as Rj. exists (edge ts j). split; [apply in_map; exact Hj|]. rewrite (ts_edge j Rj).
      rewrite <- Ei, <- Ej, (proj2 (ts_opp j Rj)) in Oq. apply on_reversed. rewrite (opposite_reversed _ (evs_range _ (ev_at_in j Rj))). exact Oq.
Qed.
Theorem regions_traced : exists rs, events_to_regions s events = Ok rs
  /\ (forall q, inside (rs_edges rs) q = inside (result_edges s pl) q)
  /\ (forall q, on_segments q (rs_edges rs) <-> on_segments q (result_edges s pl))
  /\ Forall (fun c => never_folds (vertices c) /\ forall j, (j < length (vertices c))%nat -> ~ straight (vertices c) j) rs.
Proof.
  destruct (trace_regions_correct ts ts_paired ts_grouped ts_planar ts_even) as (groups & rs & Er & Pm & Fa). exists rs.
  split; [unfold events_to_regions; rewrite to_traced_ok; exact Er|].
  destruct (edges_result (concat groups) Pm) as (Gi & Go).
  split; [|split].
  - intro q. rewrite <- (Gi q). clear - Fa. induction Fa as [|ids c groups rs (_ & vs & Pv & St & _) Fa IH]; [reflexivity|]. cbn [flat_map concat]. rewrite map_app, !inside_app, IH. f_equal.
    rewrite (straightened_inside _ _ q St). exact (inside_perm _ _ q Pv).
  - intro q. rewrite <- (Go q). clear - Fa. induction Fa as [|ids c groups rs (_ & vs & _ & _ & _ & _ & On) Fa IH]; [reflexivity|]. cbn [flat_map concat]. rewrite map_app, !on_segments_app, IH, On. reflexivity.
  - clear - Fa. induction Fa as [|ids c groups rs (_ & vs & _ & _ & A & B & _) Fa IH]; constructor; auto.
Qed.
End Traced.
End Swept.
