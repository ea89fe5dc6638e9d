(** Points and segments of complete intersections of holeless.py and holey.py.
    Proof support only, no part of /repo is modelled here. *)
From Coq Require Import Permutation Sorted.
From Verif Require Import QcTac Geom Spec SpecShape SpecSides GeomFacts EvenOdd Flip SortFacts Toward Bounding BoundingThms Relation PairFacts SweepGeo SweepInv SweepSteps Sweep SweepCmp SweepLink Linear SweepRun SweepLoop SweepStart SweepEnd SelectThms LinearMeaning LinearThms LinearComplete Contour Labelled Filter Mixed Shaped Parity Counting ShrinkThms ConnectThms Tracing TraceThms RegionThms OrientThms PairThms Erase Flow Labels LabelEnd Outline Classify Telescope Polygons Sides EvenStraight MixedThms MixedComplete ShapedThms.

Lemma toward_inside : forall p q m x, p <> q -> inside_segment m (Seg p q) -> on_segment x (Seg p m) -> x = p \/ inside_segment x (Seg p q).
Proof.
  intros p q m x N (M & M1 & M2) Ho. cbn in M1, M2. apply on_lerp in M. destruct M as (u & U0 & U1 & ->). apply on_lerp in Ho. destruct Ho as (t & T0 & T1 & ->).
  replace (lerp p (lerp p q u) t) with (lerp p q (u * t)) by (unfold lerp; cbn; apply pt_ext; cbn; ring).
  destruct (Qc_eq_dec t 0) as [->|T]; [left; unfold lerp; apply pt_ext; cbn; ring|right].
  assert (U0' : u <> 0) by (intros ->; apply M1; unfold lerp; apply pt_ext; cbn; ring).
  assert (U1' : u <> 1) by (intros ->; apply M2; unfold lerp; apply pt_ext; cbn; ring).
  assert (P0 : 0 < u) by (destruct (Qcle_lt_or_eq _ _ U0) as [L|L]; [exact L|congruence]).
  assert (P1 : u < 1) by (destruct (Qcle_lt_or_eq _ _ U1) as [L|L]; [exact L|congruence]).
  assert (P2 : 0 < t) by (destruct (Qcle_lt_or_eq _ _ T0) as [L|L]; [exact L|congruence]).
  assert (V0 : 0 < u * t) by (clear - P0 P2; qnra). assert (V1 : u * t < 1) by (clear - P0 P1 P2 T1; qnra).
  split; [apply on_lerp; exists (u * t); split; [qlra|split; [qlra|reflexivity]]|]. cbn. split; intro E.
  - apply lerp_eq0 in E; [qlra|exact N].
  - apply lerp_eq1 in E; [qlra|exact N].
Qed.

Section Complete.
Variables (E1 E2 : list segment) (x_max : option Qc) (s : state) (pl : list event).
Hypothesis H : shaped_swept Meet E1 E2 x_max s pl.
Variables a b : Qc.
Hypothesis Ha : forall sg p, In sg E1 -> on_segment p sg -> px p <= a.
Hypothesis Hb : forall sg p, In sg E2 -> on_segment p sg -> px p <= b.
Hypothesis Hx : x_max = Some (Qc_min a b).
Notation events := (sort_by (binary_key_ltb s) pl).
Notation R := (result_edges s pl).
Notation S := (shaped_segments s events).
Notation n := (length (lefts s)).
Notation side i := (l_first (lft s i)).
Notation E i := (if i : bool then E1 else E2).

Lemma on_result : forall p, on_segments p R <-> exists i, In (EL i) pl /\ l_result (lft s i) = true /\ on_segment p (seg_of s i).
Proof.
  intro p. rewrite result_edges_ids. split.
  - intros (sg & Hs & O). apply in_map_iff in Hs. destruct Hs as (i & <- & Hi). apply filter_In in Hi. exists i. rewrite <- lefts_in_in. tauto.
  - intros (i & A & B & C). exists (seg_of s i). split; [apply in_map, filter_In; rewrite lefts_in_in; tauto|exact C].
Qed.
Lemma in_common : forall sg, In sg S <-> exists i, In (EL i) pl /\ side i = true /\ l_kind (lft s i) = DIFFERENT_ORIENTATION /\ sg = seg_of s i.
Proof.
  intro sg. unfold shaped_segments. rewrite in_map_iff. split.
  - intros (ev & <- & Hi). apply filter_In in Hi. destruct Hi as (I & T). apply sort_by_in in I. destruct ev as [i|r]; [|discriminate T].
    exists i. split; [exact I|]. apply andb_true_iff in T. destruct T as (T' & T). split; [exact T'|]. split; [|reflexivity].
    unfold is_common_polyline_component in T. cbn [left_of] in T. destruct (l_kind (lft s i)); try discriminate T. reflexivity.
  - intros (i & A & B & C & ->). exists (EL i). split; [reflexivity|]. apply filter_In. split; [apply sort_by_in; exact A|]. apply andb_true_iff. split; [exact B|].
    unfold is_common_polyline_component. cbn [left_of]. rewrite C. reflexivity.
Qed.

Section Run.
Variables (s0 : state) (out : list nat).
Hypothesis Hf : filled (tag E1 E2) s0.
Hypothesis Hsw : swept (tag E1 E2) x_max s out.
Hypothesis Hpr : processed x_max s out pl.
Hypothesis Hla : forall e P, fit s0 e P -> labels e (abs e s0 []) Shaped (op_rf Meet) (fun _ => true) s pl.
Let R1 := proj1 (sh_bounds _ _ _ _ _ _ H).
Let R2 := proj2 (sh_bounds _ _ _ _ _ _ H).
Let Hl : lawful (tag E1 E2) := lawful_operands _ _ (proj1 R1) (proj1 R2).
Let Hreg := Hreg _ _ _ _ _ _ H.
Let Hstop := Hstop _ _ _ _ _ _ H.
Notation paired := (SelectThms.paired s out).
Let Sa := all_settled (tag E1 E2) x_max (op_holds Meet) s out Hsw Hstop.

Lemma kinds : forall i, In (EL i) pl ->
  ((forall j, ~ paired i j) /\ l_result (lft s i) = l_other (lft s i) /\ l_kind (lft s i) = NONE)
  \/ (exists j, paired i j /\ l_result (lft s i) = negb (side i) && Bool.eqb (l_interior (lft s j)) (l_interior (lft s i))
        /\ l_kind (lft s i) = if Bool.eqb (l_interior (lft s j)) (l_interior (lft s i)) then SAME_ORIENTATION else DIFFERENT_ORIENTATION).
Proof.
  intros i He. pose proof (pr_range _ _ _ _ Hpr _ He) as Hi. cbn in Hi.
  destruct (kind_label (tag E1 E2) s0 x_max Shaped (op_rf Meet) (fun _ => true) s out pl Hsw Hpr Hla i (Sa i Hi) He) as [(A & B & C)|(j & A & B & C)]; [left|right; exists j]; (split; [exact A|]).
  - rewrite B, (C eq_refl). cbn. rewrite Bool.andb_true_r, Bool.andb_false_r, Bool.orb_false_r. split; reflexivity.
  - rewrite B, (C eq_refl). unfold pair_kind. cbn. destruct (Bool.eqb _ _); cbn; rewrite ?Bool.andb_false_r, ?Bool.andb_true_r; split; reflexivity.
Qed.
Lemma paired_sym : forall i j, paired i j -> paired j i.
Proof. intros i j (A & B & C & D). split; [exact B|]. split; [exact A|]. split; [symmetry; exact C|]. intro K. apply D. symmetry. exact K. Qed.
Lemma paired_side : forall i j, paired i j -> side j = negb (side i).
Proof. intros i j (_ & _ & _ & K). destruct (side i), (side j); try reflexivity; elim K; reflexivity. Qed.
Lemma piece_len : forall i, (i < n)%nat -> l_start (lft s i) <> end_of s i.
Proof. intros i Hi K. pose proof (sw_plt _ _ _ _ Hsw i Hi) as L. rewrite K in L. exact (plt_irrefl _ L). Qed.
(** Finished pieces have a common inner point only when they are the same or twins. *)
Lemma inner_pair : forall i j m, In i out -> (j < n)%nat -> inside_segment m (seg_of s i) -> on_segment m (seg_of s j) -> j = i \/ paired i j.
Proof.
  intros i j m Io Hj (A & B & C) D. destruct (Nat.eq_dec j i) as [K|K]; [left; exact K|right].
  destruct (sw_apart _ _ _ _ Hsw i j Io Hj K) as [J|(J1 & J2 & J3 & _)]; [destruct (J m A D) as ([X|X] & _); contradiction|].
  split; [exact Io|]. split; [exact J1|]. split; [exact J2|exact J3].
Qed.
Lemma piece_middle : forall i, (i < n)%nat -> exists m, inside_segment m (seg_of s i).
Proof. intros i Hi. destruct (approach _ _ [] (piece_len i Hi)) as (m & A & _). exists m. exact A. Qed.
Lemma one_twin : forall i j k, paired i j -> paired i k -> j = k.
Proof.
  intros i j k Pj Pk. destruct (piece_middle j (sw_range _ _ _ _ Hsw j (proj1 (proj2 Pj)))) as (m & M).
  destruct (inner_pair j k m (proj1 (proj2 Pj)) (sw_range _ _ _ _ Hsw k (proj1 (proj2 Pk))) M) as [K|K].
  - destruct Pj as (_ & _ & E & _), Pk as (_ & _ & E' & _). rewrite <- E', E. exact (proj1 M).
  - symmetry. exact K.
  - apply paired_side in Pj. apply paired_side in Pk. apply paired_side in K. destruct (side i), (side j), (side k); discriminate.
Qed.
Lemma twin_kind : forall i j, paired i j -> l_kind (lft s i) = if Bool.eqb (l_interior (lft s j)) (l_interior (lft s i)) then SAME_ORIENTATION else DIFFERENT_ORIENTATION.
Proof.
  intros i j P. destruct (kinds i (pr_left _ _ _ _ Hpr i (proj1 P))) as [(A & _)|(k & A & _ & B)]; [elim (A j P)|]. rewrite (one_twin i j k P A). exact B.
Qed.
Lemma same_kind : forall i j, paired i j -> l_kind (lft s j) = l_kind (lft s i).
Proof.
  intros i j P. rewrite (twin_kind i j P), (twin_kind j i (paired_sym i j P)). destruct (l_interior (lft s i)), (l_interior (lft s j)); reflexivity.
Qed.
(** A piece of the kind of segments, or its twin, is a segment. *)
Lemma different_common : forall i, In (EL i) pl -> l_kind (lft s i) = DIFFERENT_ORIENTATION -> In (seg_of s i) S /\ In i out /\ l_result (lft s i) = false.
Proof.
  intros i He Hk. destruct (kinds i He) as [(_ & _ & C)|(j & P & B & C)]; [congruence|]. rewrite Hk in C. destruct (Bool.eqb _ _); [discriminate C|].
  split; [|split; [exact (proj1 P)|rewrite B; apply Bool.andb_false_r]].
  apply in_common. destruct (side i) eqn:Es; [exists i; auto|]. exists j. pose proof (paired_side i j P) as Sj. rewrite Es in Sj. pose proof (same_kind i j P) as Kj.
  split; [exact (pr_left _ _ _ _ Hpr j (proj1 (proj2 P)))|]. split; [exact Sj|]. split; [congruence|exact (proj1 (proj2 (proj2 P)))].
Qed.
Lemma op_E : forall c, operand (tag E1 E2) c = E c.
Proof. intros [|]; apply operand_tag. Qed.
Lemma paired_on : forall i j p, paired i j -> on_segment p (seg_of s i) -> on_segments p E1 /\ on_segments p E2.
Proof.
  intros i j p P O. destruct (piece_source _ _ _ _ _ Hsw i (sw_range _ _ _ _ Hsw i (proj1 P))) as (sg & I & W).
  pose proof (proj1 (proj2 (proj2 P))) as Eq. assert (O' : on_segment p (seg_of s j)) by (rewrite <- Eq; exact O).
  destruct (piece_source _ _ _ _ _ Hsw j (sw_range _ _ _ _ Hsw j (proj1 (proj2 P)))) as (tg & J & X). pose proof (paired_side i j P) as Sj. rewrite Sj in J.
  assert (A : on_segments p (E (side i))) by (exists sg; split; [destruct (side i); exact I|exact (W p O)]).
  assert (B : on_segments p (E (negb (side i)))) by (exists tg; split; [destruct (side i); exact J|exact (X p O')]).
  destruct (side i); cbn in A, B; tauto.
Qed.
Lemma piece_own : forall i p, (i < n)%nat -> on_segment p (seg_of s i) -> on_segments p (E (side i)).
Proof.
  intros i p Hi O. destruct (piece_source _ _ _ _ _ Hsw i Hi) as (sg & I & W). exists sg. split; [destruct (side i); exact I|exact (W p O)].
Qed.
Lemma split_both : forall (X : bool -> Prop) c, X c -> X (negb c) -> X true /\ X false.
Proof. intros X [|] A B; split; assumption. Qed.
(** Points of the boundary of the result are common ones. *)
Lemma result_common : forall p, in_region R p -> in_region E1 p /\ in_region E2 p.
Proof.
  intros p [O|I].
  - apply on_result in O. destruct O as (i & He & Hr & O). pose proof (pr_range _ _ _ _ Hpr _ He) as Hi. cbn in Hi.
    apply (split_both (fun c => in_region (E c) p) (side i)); [left; exact (piece_own i p Hi O)|].
    destruct (on_segments_dec p (E (negb (side i)))) as [K|K]; [left; exact K|right].
    destruct (kinds i He) as [(_ & B & _)|(j & P & _)].
    + pose proof (other_off (tag E1 E2) s0 Hf Hl x_max Shaped (op_rf Meet) (fun _ => true) (fun c _ => Hreg c) s out pl Hsw Hla i p (Sa i Hi) He eq_refl O) as X.
      rewrite op_E in X. rewrite (X K), <- B. exact Hr.
    + exfalso. apply K. pose proof (paired_on i j p P O). destruct (side i); cbn; tauto.
  - rewrite (result_inside _ _ _ _ _ _ H p) in I. cbn in I. apply andb_true_iff in I. destruct I. split; right; assumption.
Qed.
Lemma common_both : forall p, on_segments p S -> on_segments p E1 /\ on_segments p E2.
Proof.
  intros p (sg & Hs & O). apply in_common in Hs. destruct Hs as (i & He & _ & Hk & ->). destruct (kinds i He) as [(_ & _ & C)|(j & P & _)]; [congruence|].
  exact (paired_on i j p P O).
Qed.
(** Inner points of segments are off the result. *)
Lemma common_inner : forall sg p, In sg S -> inside_segment p sg -> ~ in_region R p.
Proof.
  intros sg p Hs Is. apply in_common in Hs. destruct Hs as (i & He & Si & Hk & ->). destruct (different_common i He Hk) as (_ & Io & _).
  destruct (kinds i He) as [(_ & _ & C)|(j & P & _ & C)]; [congruence|]. rewrite Hk in C.
  assert (Df : Bool.eqb (l_interior (lft s j)) (l_interior (lft s i)) = false) by (destruct (Bool.eqb _ _); [discriminate C|reflexivity]).
  intros [O|I].
  - apply on_result in O. destruct O as (k & Hk' & Hr & O). pose proof (pr_range _ _ _ _ Hpr _ Hk') as Rk. cbn in Rk.
    destruct (inner_pair i k p Io Rk Is O) as [->|P'].
    + destruct (different_common i He Hk) as (_ & _ & X). congruence.
    + destruct (different_common k Hk') as (_ & _ & X); [rewrite (same_kind i k P'); exact Hk|]. congruence.
  - rewrite (result_inside _ _ _ _ _ _ H p) in I. cbn in I. apply andb_true_iff in I. destruct I as (I1 & I2).
    assert (Np : forall k, (k < n)%nat -> ~ endpoint p (seg_of s k)).
    { intros k Hk' K. assert (O : on_segment p (seg_of s k)) by exact (endpoint_on _ _ K). destruct (inner_pair i k p Io Hk' Is O) as [->|P'].
      - destruct Is as (_ & X & Y). destruct K; contradiction.
      - destruct P' as (_ & _ & Eq & _). rewrite <- Eq in K. destruct Is as (_ & X & Y). destruct K; contradiction. }
    pose proof (own_below (tag E1 E2) x_max Hreg s out Hsw p Np) as Ob.
    pose proof (Ob i Io (proj1 Is)) as Oi. assert (Pj : on_segment p (seg_of s j)) by (rewrite <- (proj1 (proj2 (proj2 P))); exact (proj1 Is)).
    pose proof (Ob j (proj1 (proj2 P)) Pj) as Oj. rewrite op_E, (paired_side i j P), Si in Oj. rewrite op_E, Si in Oi. cbn in Oi, Oj. rewrite I1 in Oi. rewrite I2 in Oj.
    destruct (l_interior (lft s i)), (l_interior (lft s j)); discriminate.
Qed.
Lemma common_valid : valid_multisegment S.
Proof.
  split.
  - apply Forall_forall. intros sg Hs. apply in_common in Hs. destruct Hs as (i & He & _ & _ & ->). exact (piece_len i (pr_range _ _ _ _ Hpr _ He)).
  - unfold shaped_segments. set (L := filter _ events).
    assert (Nd : NoDup L) by (apply NoDup_filter, (Permutation_NoDup (Permutation_sym (sort_by_perm _ _))); exact (pr_nodup _ _ _ _ Hpr)).
    intros u v sg tg N Eu Ev. rewrite nth_error_map in Eu, Ev. destruct (nth_error L u) as [x|] eqn:Lu; [|discriminate Eu]. destruct (nth_error L v) as [y|] eqn:Lv; [|discriminate Ev].
    cbn in Eu, Ev. injection Eu as <-. injection Ev as <-.
    assert (Nxy : x <> y) by (intros ->; apply N; apply (proj1 (NoDup_nth_error L) Nd); [apply nth_error_Some; congruence|congruence]).
    assert (G : forall z, In z L -> exists i, z = EL i /\ In (EL i) pl /\ side i = true /\ In i out).
    { intros z Hz. apply filter_In in Hz. destruct Hz as (I & T). apply sort_by_in in I. destruct z as [i|r]; [|discriminate T]. exists i. split; [reflexivity|]. split; [exact I|].
      apply andb_true_iff in T. destruct T as (T' & T). split; [exact T'|]. unfold is_common_polyline_component in T. cbn [left_of] in T. destruct (l_kind (lft s i)) eqn:Kd; try discriminate T.
      exact (proj1 (proj2 (different_common i I Kd))). }
    destruct (G x (nth_error_In _ _ Lu)) as (i & -> & _ & Si & Io). destruct (G y (nth_error_In _ _ Lv)) as (j & -> & _ & Sj & Jo).
    assert (Nij : j <> i) by congruence. cbn [ev_segment].
    destruct (sw_apart _ _ _ _ Hsw i j Io (sw_range _ _ _ _ Hsw j Jo) Nij) as [K|(_ & _ & K & _)]; [|elim K; congruence].
    change (ev_segment s (EL i)) with (seg_of s i). change (ev_segment s (EL j)) with (seg_of s j). split.
    + intro O. destruct (overlap_inside _ _ O) as (m & (A & B & C) & (D & _)). destruct (K m A D) as ([X|X] & _); contradiction.
    + intros (_ & p & (A & B & C) & (D & _)). destruct (K p A D) as ([X|X] & _); contradiction.
Qed.
(** Pieces neither in the result nor segments are out of the other operand. *)
Lemma outer_piece : forall i m, In (EL i) pl -> l_result (lft s i) = false -> l_kind (lft s i) <> DIFFERENT_ORIENTATION -> inside_segment m (seg_of s i) ->
  (exists j, paired i j /\ l_result (lft s j) = true) \/ inside R m = false.
Proof.
  intros i m He Hr Hk Im. pose proof (pr_range _ _ _ _ Hpr _ He) as Hi. cbn in Hi. destruct (kinds i He) as [(A & B & _)|(j & P & B & C)].
  - right. rewrite (result_inside _ _ _ _ _ _ H m).
    assert (N : ~ on_segments m (operand (tag E1 E2) (negb (side i)))).
    { intro K. destruct (settled_rest (tag E1 E2) x_max s out Hsw i m (Sa i Hi) Im K) as (j & P). exact (A j P). }
    pose proof (other_off (tag E1 E2) s0 Hf Hl x_max Shaped (op_rf Meet) (fun _ => true) (fun c _ => Hreg c) s out pl Hsw Hla i m (Sa i Hi) He eq_refl (proj1 Im) N) as X.
    rewrite op_E, <- B, Hr in X. destruct (side i); cbn in X |- *; rewrite X; [apply Bool.andb_false_r|reflexivity].
  - left. exists j. split; [exact P|]. destruct (Bool.eqb _ _) eqn:Eq; [|congruence]. rewrite Bool.andb_true_r in B. rewrite Hr in B.
    assert (Si : side i = true) by (destruct (side i); [reflexivity|discriminate B]).
    destruct (kinds j (pr_left _ _ _ _ Hpr j (proj1 (proj2 P)))) as [(A & _)|(k & P' & B' & _)]; [elim (A i (paired_sym i j P))|].
    rewrite (one_twin j k i P' (paired_sym i j P)) in B'. rewrite B', (paired_side i j P), Si. cbn.
    destruct (l_interior (lft s i)), (l_interior (lft s j)); first [reflexivity|discriminate Eq].
Qed.
Lemma near_both : forall p ev, on_segments p E1 -> on_segments p E2 -> in_range s ev -> ev_start s ev = p -> In ev pl.
Proof.
  intros p ev (sg & Is & Os) (tg & It & Ot) Rev Eev. destruct (in_dec event_eq_dec ev pl) as [Q|Q]; [exact Q|exfalso]. destruct (pr_rest _ _ _ _ Hpr ev Rev Q) as (x & Ex & Hlt).
  rewrite Hx in Ex. injection Ex as <-. rewrite Eev in Hlt. pose proof (Ha sg p Is Os) as La. pose proof (Hb tg p It Ot) as Lb.
  destruct (Qc_min_cases a b) as [(E & _)|(E & _)]; rewrite E in *; qlra.
Qed.
Lemma end_event : forall p i, on_segments p E1 -> on_segments p E2 -> (i < n)%nat -> endpoint p (seg_of s i) -> exists x, In x pl /\ ev_start s x = p /\ left_of s x = i.
Proof.
  intros p i O1 O2 Hi Hend. destruct (pr_wf _ _ _ _ Hpr) as (_ & W & _). destruct (W i Hi) as (W1 & W2). destruct Hend as [E|E]; cbn in E.
  - exists (EL i). split; [apply (near_both p); [exact O1|exact O2|exact Hi|symmetry; exact E]|]. split; [symmetry; exact E|reflexivity].
  - exists (ER (l_right (lft s i))). split; [apply (near_both p); [exact O1|exact O2|exact W1|]|split; [|exact W2]]; cbn; symmetry; exact E.
Qed.
Lemma left_too : forall ev, In ev pl -> In (EL (left_of s ev)) pl.
Proof.
  intros [i|r] He; [exact He|]. apply (pr_left _ _ _ _ Hpr). apply (pr_out _ _ _ _ Hpr); [exact (pr_range _ _ _ _ Hpr _ He)|exact He].
Qed.
Lemma events_at : forall (p : point) k g x, In (k, g) (group_by pt_eqb (ev_start s) events) -> In x g -> In x pl /\ ev_start s x = k.
Proof.
  intros p k g x Hg Hx'. destruct (group_by_keys pt_eqb (ev_start s) pt_eqb_spec _ _ _ Hg) as (_ & K). destruct (K x Hx') as (K1 & K2).
  split; [apply (sort_by_in (binary_key_ltb s) pl); exact K2|exact K1].
Qed.
Lemma events_all : forall k g x, In (k, g) (group_by pt_eqb (ev_start s) events) -> In x pl -> ev_start s x = k -> In x g.
Proof.
  intros k g x Hg Hx' E. apply (proj2 (group_by_contiguous pt_eqb (ev_start s) pt_eqb_spec _ (start_contiguous _ _ (key_start s) pl)) k g x Hg); [|exact E].
  apply (sort_by_in (binary_key_ltb s) pl). exact Hx'.
Qed.
Lemma start_end : forall ev, In ev pl -> endpoint (ev_start s ev) (seg_of s (left_of s ev)) /\ (left_of s ev < n)%nat.
Proof. intros ev He. split; [exact (event_endpoint x_max s out pl Hpr ev He)|exact (event_range x_max s out pl Hpr ev He)]. Qed.
Lemma whole_spec : forall i, wholly_in_complete_intersection (lft s i) = true <-> l_result (lft s i) = true \/ l_kind (lft s i) = DIFFERENT_ORIENTATION.
Proof. intro i. unfold wholly_in_complete_intersection, is_common_polyline_component. rewrite Bool.orb_true_iff. destruct (l_kind (lft s i)); cbn; intuition congruence. Qed.
(** Points are the ones where boundaries touch. *)
Theorem points_spec : forall p, In p (shaped_points s events) <->
  on_segments p E1 /\ on_segments p E2 /\ ~ on_segments p S /\ ~ on_segments p R.
Proof.
  intro p. unfold shaped_points. rewrite in_map_iff. split.
  - intros ((p', g) & E & K). cbn in E. subst p'. apply filter_In in K. destruct K as (Hg & K). cbn [snd] in K.
    apply negb_true_iff, orb_false_iff in K. destruct K as (K1 & K2). apply all_equal_spec in K2. destruct K2 as (K2 & K3).
    apply in_map_iff in K2. destruct K2 as (u & Eu & Hu). apply in_map_iff in K3. destruct K3 as (v & Ev & Hv).
    destruct (events_at p p g u Hg Hu) as (Pu & Su). destruct (events_at p p g v Hg Hv) as (Pv & Sv).
    destruct (start_end u Pu) as (Nu & Ru). destruct (start_end v Pv) as (Nv & Rv). rewrite Su in Nu. rewrite Sv in Nv.
    pose proof (piece_own _ p Ru (endpoint_on _ _ Nu)) as O1. pose proof (piece_own _ p Rv (endpoint_on _ _ Nv)) as O2. unfold ev_first in Eu, Ev. rewrite Eu in O1. rewrite Ev in O2. cbn in O1, O2.
    split; [exact O1|]. split; [exact O2|].
    assert (No : forall i, In (EL i) pl -> In i out -> on_segment p (seg_of s i) -> wholly_in_complete_intersection (lft s i) = true -> False).
    { intros i He Io Oi Wi.
      assert (Hend : endpoint p (seg_of s i)).
      { assert (Q : forall w, (left_of s w < n)%nat -> endpoint p (seg_of s (left_of s w)) -> endpoint p (seg_of s i)).
        { intros w Rw Nw. destruct (Nat.eq_dec (left_of s w) i) as [<-|N]; [exact Nw|]. destruct (sw_apart _ _ _ _ Hsw i _ Io Rw N) as [J|(_ & J & _)]; [exact (proj1 (J p Oi (endpoint_on _ _ Nw)))|rewrite J; exact Nw]. }
        exact (Q u Ru Nu). }
      destruct (end_event p i O1 O2 (sw_range _ _ _ _ Hsw i Io) Hend) as (x & Px & Sx & Lx). pose proof (events_all p g x Hg Px Sx) as Hxg.
      assert (X : existsb (fun ev => wholly_in_complete_intersection (lft s (left_of s ev))) g = true) by (apply existsb_exists; exists x; split; [exact Hxg|rewrite Lx; exact Wi]). congruence. }
    split.
    + intros (sg & Hs & O). apply in_common in Hs. destruct Hs as (i & He & _ & Hk & ->). apply (No i He); [exact (proj1 (proj2 (different_common i He Hk)))|exact O|apply whole_spec; right; exact Hk].
    + intro O. apply on_result in O. destruct O as (i & He & Hr & O). apply (No i He); [|exact O|apply whole_spec; left; exact Hr].
      exact (selected_out _ s0 Hf Hl x_max _ _ (op_follows Meet) Hreg s out pl Hsw Hpr Hla Hstop i He Hr).
  - intros (O1 & O2 & N1 & N2). destruct O1 as (sg & Hg & Hp). destruct (piece_at _ _ _ _ _ Hsw true sg p Hg Hp) as (i & Ri & Ef & Pi & _).
    destruct O2 as (tg & Hg2 & Hp2). destruct (piece_at _ _ _ _ _ Hsw false tg p Hg2 Hp2) as (j & Rj & Ej & Pj & _).
    assert (O1 : on_segments p E1) by (exists sg; split; assumption). assert (O2 : on_segments p E2) by (exists tg; split; assumption).
    assert (Ejf : side j = negb (side i)) by (rewrite Ef; exact Ej).
    assert (Npick : forall k, In (EL k) pl -> on_segment p (seg_of s k) -> wholly_in_complete_intersection (lft s k) = true -> False).
    { intros k He Ok Wk. apply whole_spec in Wk. destruct Wk as [Wk|Wk]; [apply N2, on_result; exists k; auto|]. apply N1. exists (seg_of s k). split; [exact (proj1 (different_common k He Wk))|exact Ok]. }
    destruct (settled_meet _ x_max s out Hsw i j p (Sa i Ri) Rj Ejf Pi Pj) as [(Ni & Nj)|P].
    2:{ exfalso. pose proof (pr_left _ _ _ _ Hpr i (proj1 P)) as He. pose proof (pr_left _ _ _ _ Hpr j (proj1 (proj2 P))) as He'.
        destruct (piece_middle i Ri) as (m & M). destruct (l_result (lft s i)) eqn:Er; [apply (Npick i He Pi), whole_spec; left; exact Er|].
        destruct (l_kind (lft s i)) eqn:Ek.
        - rewrite (twin_kind i j P) in Ek. destruct (Bool.eqb _ _) in Ek; discriminate Ek.
        - destruct (kinds j He') as [(A & _)|(k & P' & B' & _)]; [elim (A i (paired_sym i j P))|]. rewrite (one_twin j k i P' (paired_sym i j P)) in B'.
          apply (Npick j He' Pj), whole_spec. left. rewrite B', Ej. cbn. rewrite (twin_kind i j P) in Ek. destruct (l_interior (lft s i)), (l_interior (lft s j)); first [reflexivity|discriminate Ek].
        - apply (Npick i He Pi), whole_spec. right. exact Ek. }
    destruct (end_event p i O1 O2 Ri Ni) as (x & Px & Sx & Lx). destruct (end_event p j O1 O2 Rj Nj) as (y & Py & Sy & Ly).
    destruct (group_by_cover pt_eqb (ev_start s) pt_eqb_spec events x) as (g & Hgr & Hxg); [apply (sort_by_in (binary_key_ltb s) pl); exact Px|].
    rewrite Sx in Hgr. pose proof (events_all p g y Hgr Py Sy) as Hyg. exists (p, g). split; [reflexivity|]. apply filter_In. split; [exact Hgr|]. cbn [snd].
    apply negb_true_iff, orb_false_iff. split.
    + destruct (existsb (fun ev => wholly_in_complete_intersection (lft s (left_of s ev))) g) eqn:Ex; [|reflexivity]. exfalso. apply existsb_exists in Ex. destruct Ex as (z & Hz & Hr).
      destruct (events_at p p g z Hgr Hz) as (Pz & Sz). apply (Npick (left_of s z) (left_too z Pz)); [rewrite <- Sz; apply endpoint_on; exact (proj1 (start_end z Pz))|exact Hr].
    + apply all_equal_spec. split; apply in_map_iff; [exists x|exists y]; (split; [unfold ev_first|assumption]); [rewrite Lx; exact Ef|rewrite Ly; exact Ej].
Qed.
(** Such points are not inside of the result. *)
Lemma touch_outer : forall p, on_segments p E1 -> ~ on_segments p S -> ~ on_segments p R -> inside R p = false.
Proof.
  intros p (sg & Hg & Hp) N1 N2. destruct (piece_at _ _ _ _ _ Hsw true sg p Hg Hp) as (i & Ri & Ef & Pi & _).
  destruct (in_dec event_eq_dec (EL i) pl) as [He|He].
  2:{ destruct (pr_rest _ _ _ _ Hpr (EL i) Ri He) as (x & Ex & Lx). rewrite (result_inside _ _ _ _ _ _ H p). cbn.
      rewrite Hx in Ex. injection Ex as <-. pose proof (Ha sg p Hg Hp) as La.
      assert (Lp : px (l_start (lft s i)) <= px p).
      { pose proof (sw_plt _ _ _ _ Hsw i Ri) as L. destruct Pi as (r & R0 & R1' & Er & _). rewrite Er. cbn.
        assert (Le : px (l_start (lft s i)) <= px (end_of s i)) by (destruct L as [L|(L & _)]; [apply Qclt_le_weak; exact L|rewrite L; apply Qcle_refl]). clear - R0 R1' Le. qnra. }
      cbn [ev_start] in Lx. rewrite (inside_beyond E2 p); [apply Bool.andb_false_r|]. intros tg Ht.
      pose proof (Hb tg _ Ht (on_segment_start tg)) as B1. pose proof (Hb tg _ Ht (on_segment_end tg)) as B2.
      destruct (Qc_min_cases a b) as [(E & _)|(E & _)]; rewrite E in *; split; qlra. }
  assert (Er : l_result (lft s i) = false) by (destruct (l_result (lft s i)) eqn:X; [exfalso; apply N2, on_result; exists i; auto|reflexivity]).
  assert (Ek : l_kind (lft s i) <> DIFFERENT_ORIENTATION) by (intro X; apply N1; exists (seg_of s i); split; [exact (proj1 (different_common i He X))|exact Pi]).
  assert (M : exists m, inside_segment m (seg_of s i) /\ forall q, on_segment q (Seg p m) -> q = p \/ inside_segment q (seg_of s i)).
  { destruct (pt_eqb_spec p (l_start (lft s i))) as [E|E].
    - subst p. destruct (approach _ _ [] (piece_len i Ri)) as (m & M & _). exists m. split; [exact M|]. intros q Q. exact (toward_inside _ _ m q (piece_len i Ri) M Q).
    - destruct (pt_eqb_spec p (end_of s i)) as [E'|E'].
      + subst p. destruct (approach _ _ [] (piece_len i Ri)) as (m & M & _). exists m. split; [exact M|]. intros q Q. destruct (toward_inside (end_of s i) (l_start (lft s i)) m q) as [K|K]; [intro K; exact (piece_len i Ri (eq_sym K))|apply inside_sym; exact M|exact Q|left; exact K|right; apply inside_sym; exact K].
      + exists p. split; [split; [exact Pi|split; assumption]|]. intros q (t & _ & _ & X & Y). left. apply pt_ext; [rewrite X|rewrite Y]; cbn; ring. }
  destruct M as (m & M & Seen).
  destruct (outer_piece i m He Er Ek M) as [(j & P & Rj)|O].
  { exfalso. apply N2, on_result. exists j. split; [exact (pr_left _ _ _ _ Hpr j (proj1 (proj2 P)))|]. split; [exact Rj|]. rewrite <- (proj1 (proj2 (proj2 P))). exact Pi. }
  rewrite <- O. apply inside_const; [exact (result_proper _ _ _ _ _ _ H)|exact (result_even _ _ _ _ _ _ H)|]. intros k Hk. left. intros q Q Ok.
  destruct (Seen q Q) as [->|Iq]; [apply N2; exists k; split; assumption|].
  rewrite result_edges_ids in Hk. apply in_map_iff in Hk. destruct Hk as (c & <- & Hc). apply filter_In in Hc. destruct Hc as (Hc & Rc). apply lefts_in_in in Hc.
  pose proof (selected_out _ s0 Hf Hl x_max _ _ (op_follows Meet) Hreg s out pl Hsw Hpr Hla Hstop c Hc Rc) as Co.
  destruct (Nat.eq_dec i c) as [->|N]; [congruence|]. destruct (sw_apart _ _ _ _ Hsw c i Co Ri N) as [J|(J1 & J2 & J3 & _)].
  - destruct (J q Ok (proj1 Iq)) as (_ & [X|X]); destruct Iq as (_ & Y & Z); contradiction.
  - apply N2, on_result. exists c. split; [exact Hc|]. split; [exact Rc|]. rewrite J2. exact Pi.
Qed.
(** Nothing else is common. *)
Lemma region_covered : forall p, in_region E1 p -> in_region E2 p -> on_segments p S \/ in_region R p \/ (on_segments p E1 /\ on_segments p E2).
Proof.
  intros p I1 I2. destruct (on_segments_dec p R) as [K|K]; [right; left; left; exact K|]. destruct (inside R p) eqn:I; [right; left; right; exact I|].
  pose proof I as I'. rewrite (result_inside _ _ _ _ _ _ H p) in I. cbn in I.
  assert (Q : forall c, on_segments p (E c) -> ~ on_segments p (E (negb c)) -> inside (E (negb c)) p = true -> False).
  { intros c (sg & Hg & Hp) N In'. assert (Hg' : In sg (if c then E1 else E2)) by (destruct c; exact Hg).
    destruct (piece_at _ _ _ _ _ Hsw c sg p Hg' Hp) as (i & Ri & Ef & Pi & _).
    destruct (in_dec event_eq_dec (EL i) pl) as [He|He].
    - apply K, on_result. exists i. split; [exact He|]. split; [|exact Pi]. destruct (kinds i He) as [(_ & B & _)|(j & P & _)].
      + pose proof (other_off (tag E1 E2) s0 Hf Hl x_max Shaped (op_rf Meet) (fun _ => true) (fun c _ => Hreg c) s out pl Hsw Hla i p (Sa i Ri) He eq_refl Pi) as X.
        rewrite op_E, Ef in X. rewrite B, <- (X N). exact In'.
      + exfalso. apply N. pose proof (paired_on i j p P Pi). destruct c; cbn; tauto.
    - destruct (pr_rest _ _ _ _ Hpr (EL i) Ri He) as (x & Ex & Lx). rewrite Hx in Ex. injection Ex as <-.
      assert (Lp : px (l_start (lft s i)) <= px p).
      { pose proof (sw_plt _ _ _ _ Hsw i Ri) as L. destruct Pi as (r & R0 & R1' & Er & _). rewrite Er. cbn.
        assert (Le : px (l_start (lft s i)) <= px (end_of s i)) by (destruct L as [L|(L & _)]; [apply Qclt_le_weak; exact L|rewrite L; apply Qcle_refl]). clear - R0 R1' Le. qnra. }
      cbn [ev_start] in Lx.
      assert (Bd : forall tg, In tg (E c) -> px (s_start tg) <= (if c then a else b) /\ px (s_end tg) <= (if c then a else b)).
      { intros tg Ht. destruct c; split; first [exact (Ha tg _ Ht (on_segment_start tg))|exact (Ha tg _ Ht (on_segment_end tg))|exact (Hb tg _ Ht (on_segment_start tg))|exact (Hb tg _ Ht (on_segment_end tg))]. }
      assert (Pl : px p <= if c then a else b) by (destruct c; [exact (Ha sg p Hg Hp)|exact (Hb sg p Hg Hp)]).
      rewrite (inside_beyond (E (negb c)) p) in In'; [discriminate In'|]. intros tg Ht.
      assert (B : px (s_start tg) <= (if c then b else a) /\ px (s_end tg) <= (if c then b else a)).
      { destruct c; cbn in Ht; split; first [exact (Ha tg _ Ht (on_segment_start tg))|exact (Ha tg _ Ht (on_segment_end tg))|exact (Hb tg _ Ht (on_segment_start tg))|exact (Hb tg _ Ht (on_segment_end tg))]. }
      destruct B as (B1 & B2). destruct (Qc_min_cases a b) as [(E & _)|(E & _)]; rewrite E in *; destruct c; split; qlra. }
  right. right. destruct I1 as [O1|I1], I2 as [O2|I2].
  - split; assumption.
  - destruct (on_segments_dec p E2) as [O2|N]; [split; assumption|]. destruct (Q true O1 N I2).
  - destruct (on_segments_dec p E1) as [O1|N]; [split; assumption|]. destruct (Q false O2 N I1).
  - rewrite I1, I2 in I. discriminate I.
Qed.
End Run.
(** Points and segments among events sorted by their keys. *)
Theorem complete_parts : valid_multisegment S /\ NoDup (shaped_points s events)
  /\ (forall p, on_segments p S -> on_segments p E1 /\ on_segments p E2)
  /\ (forall sg p, In sg S -> inside_segment p sg -> ~ in_region R p)
  /\ (forall p, In p (shaped_points s events) -> on_segments p E1 /\ on_segments p E2 /\ ~ on_segments p S /\ ~ in_region R p)
  /\ (forall p, in_region E1 p /\ in_region E2 p <-> In p (shaped_points s events) \/ on_segments p S \/ in_region R p).
Proof.
  destruct (sh_sweep _ _ _ _ _ _ H) as (s0 & out & Hf & Hsw & Hpr & Hla).
  assert (Hp : forall p, In p (shaped_points s events) -> on_segments p E1 /\ on_segments p E2 /\ ~ on_segments p S /\ ~ in_region R p).
  { intros p Hp. apply (points_spec s0 out Hf Hsw Hpr Hla) in Hp. destruct Hp as (O1 & O2 & N1 & N2). repeat (split; [assumption|]).
    intros [O|I]; [exact (N2 O)|]. rewrite (touch_outer s0 out Hf Hsw Hpr Hla p O1 N1 N2) in I. discriminate I. }
  split; [exact (common_valid s0 out Hsw Hpr Hla)|]. split.
  { assert (Srt : StronglySorted plt (shaped_points s events)).
    { unfold shaped_points. apply (sublist_sorted _ _ _ (map fst (group_by pt_eqb (ev_start s) events))); [apply sublist_map; apply sublist_filter|]. apply starts_sorted. apply key_start. }
    clear - Srt. induction Srt as [|p l Hs IH Hf]; constructor; [|exact IH]. intro K. rewrite Forall_forall in Hf. exact (plt_irrefl p (Hf p K)). }
  split; [exact (common_both s0 out Hsw Hpr Hla)|]. split; [exact (common_inner s0 out Hsw Hpr Hla)|]. split; [exact Hp|].
  intro p. split.
  - intros (I1 & I2). destruct (region_covered s0 out Hf Hsw Hpr Hla p I1 I2) as [K|[K|(O1 & O2)]]; [right; left; exact K|right; right; exact K|].
    destruct (on_segments_dec p S) as [K|K]; [right; left; exact K|]. destruct (on_segments_dec p R) as [K'|K']; [right; right; left; exact K'|].
    left. apply (points_spec s0 out Hf Hsw Hpr Hla). auto.
  - intros [K|[K|K]].
    + destruct (Hp p K) as (O1 & O2 & _). split; left; assumption.
    + destruct (common_both s0 out Hsw Hpr Hla p K). split; left; assumption.
    + exact (result_common s0 out Hf Hsw Hpr Hla p K).
Qed.
End Complete.
