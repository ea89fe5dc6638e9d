(** Selected pieces are those with different results of the operation on their
    sides.  Proof support only, no part of /repo is modelled here. *)
From Coq Require Import Permutation Sorted.
From Verif Require Import QcTac Geom Spec SpecShape SpecSides GeomFacts SortFacts Toward Bounding BoundingThms Relation PairFacts SweepGeo SweepInv SweepSteps Sweep SweepCmp SweepLink Linear SweepRun SweepLoop SweepStart SweepEnd SelectThms LinearMeaning LinearThms LinearComplete Contour Labelled Filter Mixed Parity Counting Erase Flow Labels LabelEnd Outline Classify Telescope Polygons.

Lemma nltb_ple : forall p q, negb (lex_ltb p q) = true <-> ple q p.
Proof.
  intros p q. change lex_ltb with pt_ltb. unfold ple. destruct (pt_ltb_spec p q) as [K|K]; cbn; split; intro J; try reflexivity; try discriminate; try assumption. elim (J K).
Qed.
Lemma through_spec : forall s p, proper s -> passes_through s p = true <-> on_segment p s.
Proof.
  intros [a b] p Pr. unfold passes_through, proper in *. cbn [s_start s_end] in *. rewrite Bool.andb_true_iff, Bool.orb_true_iff, !Bool.andb_true_iff, !nltb_ple.
  assert (Z : Qc_eqb (cross a b p) 0 = true <-> cross a b p = 0) by (destruct (Qc_eqb_spec (cross a b p) 0); split; intro; try reflexivity; try discriminate; try assumption; contradiction).
  rewrite Z. destruct (plt_total a b) as [K|[K|K]]; [|contradiction|].
  - rewrite (on_segment_lex a b p K). split; [|tauto]. intros (A & [B|(B & C)]); [tauto|]. split; [exact A|].
    apply ple_lt_eq in B. apply ple_lt_eq in C. exfalso.
    destruct B as [B|B], C as [C|C]; subst; try exact (plt_irrefl _ (plt_trans _ _ _ K (plt_trans _ _ _ B C))); try exact (plt_irrefl _ (plt_trans _ _ _ K B));
      try exact (plt_irrefl _ (plt_trans _ _ _ K C)); exact (plt_irrefl _ K).
  - rewrite (on_segment_sym a b p), (on_segment_lex b a p K).
    assert (Cs : cross a b p = 0 <-> cross b a p = 0) by (unfold cross; split; intro E; qlra).
    rewrite Cs. split; [|tauto]. intros (A & [(B & C)|B]); [|tauto]. split; [exact A|]. apply ple_lt_eq in B. apply ple_lt_eq in C. exfalso.
    destruct B as [B|B], C as [C|C]; subst; try exact (plt_irrefl _ (plt_trans _ _ _ K (plt_trans _ _ _ B C))); try exact (plt_irrefl _ (plt_trans _ _ _ K B));
      try exact (plt_irrefl _ (plt_trans _ _ _ K C)); exact (plt_irrefl _ K).
Qed.
Lemma under_through : forall s p, passes_under s p = true -> passes_through s p = false.
Proof.
  intros [a b] p H. unfold passes_through, passes_under in *. cbn [s_start s_end] in *. destruct (Qc_eqb_spec (cross a b p) 0) as [K|K]; [|reflexivity]. exfalso.
  assert (K' : cross b a p = 0) by (unfold cross in *; qlra).
  rewrite K, K', Bool.andb_false_r, Bool.andb_false_r in H. discriminate H.
Qed.
Lemma above_flips : forall es p, inside_above es p = xorb (inside es p) (Nat.odd (segments_through es p)).
Proof.
  intros es p. unfold inside_above, inside, segments_through. rewrite <- !parity_length, <- parity_xor. apply parity_ext. intros s _.
  destruct (passes_under s p) eqn:E; [rewrite (under_through s p E); reflexivity|destruct (passes_through s p); reflexivity].
Qed.
Lemma single_filter : forall (A : Type) (g : A -> bool) x l, NoDup l -> In x l -> g x = true -> (forall y, In y l -> g y = true -> y = x) -> filter g l = [x].
Proof.
  intros A g x l. induction l as [|y l IH]; intros N I G U; [destruct I|]. inversion N as [|? ? N1 N2]; subst. cbn. destruct I as [->|I].
  - rewrite G. f_equal. clear IH. assert (Z : forall z, In z l -> g z = false).
    { intros z Hz. destruct (g z) eqn:E; [|reflexivity]. pose proof (U z (or_intror Hz) E) as K. subst z. contradiction. }
    clear - Z. induction l as [|z l IH]; [reflexivity|]. cbn. rewrite (Z z (or_introl eq_refl)). apply IH. intros w Hw. apply Z. right. exact Hw.
  - destruct (g y) eqn:E; [pose proof (U y (or_introl eq_refl) E) as K; subst y; contradiction|]. apply IH; [exact N2|exact I|exact G|]. intros z Hz. apply U. right. exact Hz.
Qed.
Lemma none_filter : forall (A : Type) (g : A -> bool) l, (forall y, In y l -> g y = false) -> filter g l = [].
Proof. intros A g l H. induction l as [|y l IH]; [reflexivity|]. cbn. rewrite (H y (or_introl eq_refl)). apply IH. intros z Hz. apply H. right. exact Hz. Qed.

Section Sides.
Variables (l : tagged) (s0 : state).
Hypothesis Hfl : filled l s0.
Hypothesis Hl : lawful l.
Variable x_max : option Qc.
Variables (rf : bool -> bool -> overlap_kind -> bool) (f : bool -> bool -> bool).
Hypothesis Hrf : follows rf f.
Notation reg := (fun _ : bool => true).
Hypothesis Hreg : forall b, region_boundary (operand l b).
Variables (s : state) (out : list nat) (pl : list event).
Hypothesis Hsw : swept l x_max s out.
Hypothesis Hpr : processed x_max s out pl.
Hypothesis Hla : forall e P, fit s0 e P -> labels e (abs e s0 []) Shaped rf reg s pl.
Hypothesis Hstop : forall x, x_max = Some x -> exists b, (forall sg, In sg (operand l b) -> px (s_start sg) <= x /\ px (s_end sg) <= x)
  /\ forall c, (if b then f false c else f c false) = false.
Notation n := (length (lefts s)).
Notation side i := (l_first (lft s i)).
Notation rest i := (operand l (negb (side i))).
Notation paired := (paired s out).
Notation selected := (filter (fun i => l_result (lft s i)) out).
Notation kept := (map (seg_of s) selected).
Let Hreg' : forall b, reg b = true -> region_boundary (operand l b) := fun b _ => Hreg b.
Let settled_all := all_settled l x_max f s out Hsw Hstop.

Variable p : point.
Hypothesis Hp : forall i, (i < n)%nat -> ~ endpoint p (seg_of s i).
Lemma piece_inside : forall i, (i < n)%nat -> on_segment p (seg_of s i) -> inside_segment p (seg_of s i).
Proof. intros i Hi H. split; [exact H|]. split; intro E; apply (Hp i Hi); [left|right]; exact E. Qed.
Lemma piece_proper : forall i, (i < n)%nat -> proper (seg_of s i).
Proof. intros i Hi E. pose proof (sw_plt _ _ _ _ Hsw i Hi) as K. cbn in E. rewrite E in K. exact (plt_irrefl _ K). Qed.
Lemma edge_proper : forall b sg, In sg (operand l b) -> proper sg.
Proof. intros b sg H. destruct (Hreg b) as ((K & _) & _). rewrite Forall_forall in K. exact (K sg H). Qed.

(** Off the other edges the membership does not change. *)
Lemma above_off : forall b, ~ on_segments p (operand l b) -> inside_above (operand l b) p = inside (operand l b) p.
Proof.
  intros b H. rewrite above_flips. unfold segments_through. rewrite none_filter; [apply Bool.xorb_false_r|].
  intros sg Hs. destruct (passes_through sg p) eqn:E; [|reflexivity]. exfalso. apply H. exists sg. split; [exact Hs|]. apply (through_spec sg p (edge_proper b sg Hs)). exact E.
Qed.
(** Across a finished piece the membership in its operand changes, being on the left of it. *)
Lemma own_source : forall i, In i out -> on_segment p (seg_of s i) -> exists sg, In sg (operand l (side i)) /\ inside_segment p sg
  /\ l_interior (lft s i) = negb (pt_ltb (s_end sg) (s_start sg)) /\ forall t, In t (operand l (side i)) -> on_segment p t -> t = sg.
Proof.
  intros i Hi Pi. pose proof (sw_range _ _ _ _ Hsw i Hi) as Hr. destruct (source_of l x_max s out Hsw i Hr) as (sg & Hs & W & I).
  pose proof (piece_inside i Hr Pi) as (_ & N1 & N2).
  assert (U : forall t, In t (operand l (side i)) -> on_segment p t -> t = sg).
  { intros t Ht Pt. destruct (piece_of l x_max s out Hsw _ t p Ht Pt) as (j & Hj & Ej & Pj & Wj).
    assert (E : j = i).
    { destruct (Nat.eq_dec j i) as [E|E]; [exact E|exfalso]. destruct (sw_apart _ _ _ _ Hsw i j Hi Hj E) as [K|(_ & _ & K & _)].
      - exact (Hp i Hr (proj1 (K p Pi Pj))).
      - exact (K (eq_sym Ej)). }
    subst j. destruct (Hreg (side i)) as ((_ & Pw) & _). apply In_nth_error in Ht. apply In_nth_error in Hs. destruct Ht as (a & Ea), Hs as (b & Eb).
    destruct (Nat.eq_dec a b) as [E|E]; [subst b; congruence|]. exfalso. apply (Pw a b t sg E Ea Eb).
    exists (l_start (lft s i)), (end_of s i). split; [exact (piece_proper i Hr)|].
    pose proof (on_segment_start (seg_of s i)) as A. pose proof (on_segment_end (seg_of s i)) as B.
    split; [exact (Wj _ A)|]. split; [exact (W _ A)|]. split; [exact (Wj _ B)|exact (W _ B)]. }
  exists sg. split; [exact Hs|]. split; [|split; [exact I|exact U]].
  split; [exact (W p Pi)|].
  assert (Ends : forall q, endpoint q sg -> p <> q).
  { intros q Hq E. subst q. destruct (shear_exists [p; l_start (lft s i); end_of s i; s_start sg; s_end sg]) as (e & _ & Sh).
    pose proof (sw_plt _ _ _ _ Hsw i Hr) as L.
    assert (Ls : pos e (l_start (lft s i)) < pos e (end_of s i)) by (apply Sh; cbn; auto).
    destruct (proj1 (on_segment_sheared e _ _ p Ls) Pi) as (A & B & _).
    assert (A' : pos e (l_start (lft s i)) <> pos e p) by (intro E; apply N1; symmetry; exact (proj2 (sheared_eq e _ Sh (l_start (lft s i)) p ltac:(cbn; auto) ltac:(cbn; auto)) E)).
    assert (B' : pos e p <> pos e (end_of s i)) by (intro E; apply N2; exact (proj2 (sheared_eq e _ Sh p (end_of s i) ltac:(cbn; auto) ltac:(cbn; auto)) E)).
    pose proof (W _ (on_segment_start (seg_of s i))) as W1. pose proof (W _ (on_segment_end (seg_of s i))) as W2.
    assert (Bet : forall q, on_segment q sg -> (pos e (s_start sg) <= pos e q /\ pos e q <= pos e (s_end sg)) \/ (pos e (s_end sg) <= pos e q /\ pos e q <= pos e (s_start sg))).
    { intros q (t & T0 & T1 & Ex & Ey). assert (E : pos e q = pos e (s_start sg) + t * (pos e (s_end sg) - pos e (s_start sg))) by (unfold pos; rewrite Ex, Ey; ring).
      rewrite E. generalize (pos e (s_start sg)) (pos e (s_end sg)). clear - T0 T1. intros u v. destruct (Qclt_le_dec u v) as [K|K]; [left|right]; split; qnra. }
    pose proof (Bet _ W1) as X1. pose proof (Bet _ W2) as X2. cbn [s_start s_end seg_of] in X1, X2.
    apply Qcle_lt_or_eq in A. apply Qcle_lt_or_eq in B. destruct A as [A|A]; [|contradiction]. destruct B as [B|B]; [|contradiction].
    destruct Hq as [Hq|Hq]; rewrite Hq in *; destruct X1 as [(X1 & X1')|(X1 & X1')], X2 as [(X2 & X2')|(X2 & X2')]; qlra. }
  split; apply Ends; [left|right]; reflexivity.
Qed.
Lemma own_below : forall i, In i out -> on_segment p (seg_of s i) -> inside (operand l (side i)) p = negb (l_interior (lft s i)).
Proof.
  intros i Hi Pi. destruct (own_source i Hi Pi) as (sg & Hs & Is & I & U). destruct (Hreg (side i)) as (_ & _ & Lf).
  specialize (Lf sg p Hs Is ltac:(intros t Ht N K; exact (N (U t Ht K)))). rewrite I, Bool.negb_involutive.
  destruct (pt_ltb_spec (s_end sg) (s_start sg)) as [K|K]; [apply Lf; exact K|].
  destruct (inside (operand l (side i)) p); [elim K; apply Lf; reflexivity|reflexivity].
Qed.
Lemma own_above : forall i, In i out -> on_segment p (seg_of s i) -> inside_above (operand l (side i)) p = negb (inside (operand l (side i)) p).
Proof.
  intros i Hi Pi. destruct (own_source i Hi Pi) as (sg & Hs & Is & I & U). rewrite above_flips. unfold segments_through.
  rewrite (single_filter _ (fun t => passes_through t p) sg).
  - apply Bool.xorb_true_r.
  - apply non_overlapping_nodup. exact (proj1 (Hreg (side i))).
  - exact Hs.
  - apply (through_spec sg p (edge_proper _ sg Hs)). exact (proj1 Is).
  - intros t Ht K. apply U; [exact Ht|]. apply (through_spec t p (edge_proper _ t Ht)). exact K.
Qed.

Definition thru (i : nat) : bool := passes_through (seg_of s i) p.
Lemma thru_spec : forall i, (i < n)%nat -> thru i = true <-> on_segment p (seg_of s i).
Proof. intros i Hi. exact (through_spec _ p (piece_proper i Hi)). Qed.
Lemma kept_through : segments_through kept p = length (filter thru selected).
Proof.
  unfold segments_through. generalize selected. intro m. induction m as [|i m IH]; [reflexivity|]. cbn [map filter]. unfold thru at 1.
  destruct (passes_through (seg_of s i) p); cbn; rewrite IH; reflexivity.
Qed.
Lemma selected_in : forall i, In i selected <-> In i out /\ l_result (lft s i) = true.
Proof. intro i. apply filter_In. Qed.
Lemma selected_nodup : NoDup selected.
Proof. apply NoDup_filter. exact (sw_nodup _ _ _ _ Hsw). Qed.
(** A finished piece through the point is a given one or its twin. *)
Lemma thru_twin : forall i j, (i < n)%nat -> on_segment p (seg_of s i) -> In j out -> thru j = true -> j = i \/ paired i j.
Proof.
  intros i j Hi Pi Hj Tj. pose proof (sw_range _ _ _ _ Hsw j Hj) as Hr. apply (thru_spec j Hr) in Tj.
  destruct (Nat.eq_dec j i) as [E|E]; [left; exact E|right]. destruct (sw_apart _ _ _ _ Hsw j i Hj Hi (not_eq_sym E)) as [K|(K1 & K2 & K3 & _)].
  - elim (Hp j Hr (proj1 (K p Tj Pi))).
  - split; [exact K1|]. split; [exact Hj|]. split; [symmetry; exact K2|]. exact (not_eq_sym K3).
Qed.
Lemma twin_side : forall i j, paired i j -> side j = negb (side i).
Proof. intros i j (_ & _ & _ & K). destruct (side i), (side j); try reflexivity; elim K; reflexivity. Qed.
Lemma twin_sym : forall i j, paired i j -> paired j i.
Proof. intros i j (A & B & C & D). split; [exact B|]. split; [exact A|]. split; [symmetry; exact C|]. exact (not_eq_sym D). Qed.
Notation a := (inside (operand l true) p).
Notation b := (inside (operand l false) p).
Notation a' := (inside_above (operand l true) p).
Notation b' := (inside_above (operand l false) p).

Lemma single_side : forall i, In i out -> on_segment p (seg_of s i) -> (forall j, ~ paired i j) ->
  l_result (lft s i) = rf (side i) (l_other (lft s i)) NONE -> segments_through kept p = if xorb (f a b) (f a' b') then 1%nat else 0%nat.
Proof.
  intros i Hi Pi Al HR. pose proof (sw_range _ _ _ _ Hsw i Hi) as Hr. pose proof (pr_left _ _ _ _ Hpr i Hi) as He.
  assert (Off : ~ on_segments p (rest i)) by (intro K; destruct (settled_rest l x_max s out Hsw i p (settled_all i Hr) (piece_inside i Hr Pi) K) as (j & Hj); exact (Al j Hj)).
  pose proof (other_off l s0 Hfl Hl x_max Shaped rf reg Hreg' s out pl Hsw Hla i p (settled_all i Hr) He eq_refl Pi Off) as Eo.
  pose proof (above_off _ Off) as Ea. pose proof (own_above i Hi Pi) as Ew.
  assert (Res : xorb (f a b) (f a' b') = l_result (lft s i)).
  { rewrite HR, <- Eo. destruct (side i); cbn [negb] in *; rewrite Ea, Ew; symmetry; [apply (fo_first _ _ Hrf)|apply (fo_second _ _ Hrf)]. }
  rewrite Res, kept_through. destruct (l_result (lft s i)) eqn:E.
  - rewrite (single_filter _ thru i); [reflexivity|exact selected_nodup|apply selected_in; split; assumption|apply thru_spec; assumption|].
    intros j Hj Tj. apply selected_in in Hj. destruct (thru_twin i j Hr Pi (proj1 Hj) Tj) as [K|K]; [exact K|elim (Al j K)].
  - rewrite none_filter; [reflexivity|]. intros j Hj. apply selected_in in Hj. destruct (thru j) eqn:Tj; [|reflexivity]. exfalso.
    destruct (thru_twin i j Hr Pi (proj1 Hj) Tj) as [K|K]; [subst j; destruct Hj; congruence|elim (Al j K)].
Qed.
Lemma both_sides : forall i j, paired i j -> side i = true -> on_segment p (seg_of s i) ->
  segments_through kept p = if xorb (f a b) (f a' b') then 1%nat else 0%nat.
Proof.
  intros i j Pij Si Pi. pose proof Pij as (Hi & Hj & Eij & _). pose proof (twin_side i j Pij) as Sj. rewrite Si in Sj. cbn in Sj.
  assert (Pj : on_segment p (seg_of s j)) by (rewrite <- Eij; exact Pi).
  pose proof (sw_range _ _ _ _ Hsw i Hi) as Ri. pose proof (sw_range _ _ _ _ Hsw j Hj) as Rj.
  pose proof (own_below i Hi Pi) as Oi. pose proof (own_below j Hj Pj) as Oj. pose proof (own_above i Hi Pi) as Ai. pose proof (own_above j Hj Pj) as Aj.
  pose proof (paired_rest l x_max s out Hsw i j p Pij Pi) as Xi. pose proof (paired_rest l x_max s out Hsw j i p (twin_sym i j Pij) Pj) as Xj.
  pose proof (other_on l s0 Hfl Hl x_max Shaped rf reg Hreg' s out pl Hsw Hla i p (settled_all i Ri) (pr_left _ _ _ _ Hpr i Hi) eq_refl (piece_inside i Ri Pi) Xi) as Li.
  pose proof (other_on l s0 Hfl Hl x_max Shaped rf reg Hreg' s out pl Hsw Hla j p (settled_all j Rj) (pr_left _ _ _ _ Hpr j Hj) eq_refl (piece_inside j Rj Pj) Xj) as Lj.
  rewrite Si in Oi, Ai, Li. rewrite Sj in Oj, Aj, Lj. cbn [negb] in Li, Lj.
  assert (One : forall k m, paired k m -> forall m', paired k m' -> m' = m).
  { intros k m (A1 & B1 & C1 & D1) m' (A2 & B2 & C2 & D2). destruct (Nat.eq_dec m' m) as [E|E]; [exact E|exfalso].
    pose proof (sw_range _ _ _ _ Hsw m B1) as Rm. pose proof (sw_range _ _ _ _ Hsw m' B2) as Rm'.
    destruct (sw_apart _ _ _ _ Hsw m m' B1 Rm' E) as [K|(_ & _ & K & _)].
    - assert (Q : seg_of s m = seg_of s m') by congruence. apply (piece_proper m Rm).
      assert (Z : exists q, inside_segment q (seg_of s m)) by (apply (midpoint_inside (seg_of s m)); exact (piece_proper m Rm)). destruct Z as (q & Qo & Q1 & Q2).
      destruct (K q Qo ltac:(rewrite <- Q; exact Qo)) as ([Y|Y] & _); contradiction.
    - destruct (side k), (side m), (side m'); try congruence. }
  assert (Ki : l_result (lft s i) = rf true b (kind_of a b)).
  { destruct (result_label l s0 x_max Shaped rf reg s out pl Hsw Hpr Hla i (settled_all i Ri) (pr_left _ _ _ _ Hpr i Hi)) as [(Al & _)|(k & Hk & HR)]; [elim (Al j Pij)|].
    rewrite (One i j Pij k Hk) in HR. rewrite HR, Si, <- Li. f_equal. unfold pair_kind, kind_of. rewrite Oi, Oj. destruct (l_interior (lft s i)), (l_interior (lft s j)); reflexivity. }
  assert (Kj : l_result (lft s j) = rf false (negb a) (kind_of a b)).
  { destruct (result_label l s0 x_max Shaped rf reg s out pl Hsw Hpr Hla j (settled_all j Rj) (pr_left _ _ _ _ Hpr j Hj)) as [(Al & _)|(k & Hk & HR)]; [elim (Al i (twin_sym i j Pij))|].
    rewrite (One j i (twin_sym i j Pij) k Hk) in HR. assert (Lj' : l_other (lft s j) = negb a) by (rewrite Lj, Bool.negb_involutive; reflexivity). rewrite HR, Sj, Lj'. f_equal. unfold pair_kind, kind_of. rewrite Oi, Oj. destruct (l_interior (lft s i)), (l_interior (lft s j)); reflexivity. }
  rewrite Ai, Aj, <- (fo_both _ _ Hrf), <- Ki, <- Kj. pose proof (fo_once _ _ Hrf a b) as Once. rewrite <- Ki, <- Kj in Once.
  assert (Only : forall k, In k out -> thru k = true -> k = i \/ k = j).
  { intros k Hk Tk. destruct (thru_twin i k Ri Pi Hk Tk) as [K|K]; [left; exact K|right; exact (One i j Pij k K)]. }
  rewrite kept_through. destruct (l_result (lft s i)) eqn:E1, (l_result (lft s j)) eqn:E2; try discriminate Once; cbn [xorb].
  - rewrite (single_filter _ thru i); [reflexivity|exact selected_nodup|apply selected_in; split; assumption|apply thru_spec; assumption|].
    intros k Hk Tk. apply selected_in in Hk. destruct (Only k (proj1 Hk) Tk) as [K|K]; [exact K|subst k; destruct Hk; congruence].
  - rewrite (single_filter _ thru j); [reflexivity|exact selected_nodup|apply selected_in; split; assumption|apply thru_spec; assumption|].
    intros k Hk Tk. apply selected_in in Hk. destruct (Only k (proj1 Hk) Tk) as [K|K]; [subst k; destruct Hk; congruence|exact K].
  - rewrite none_filter; [reflexivity|]. intros k Hk. apply selected_in in Hk. destruct (thru k) eqn:Tk; [|reflexivity]. exfalso.
    destruct (Only k (proj1 Hk) Tk) as [K|K]; subst k; destruct Hk; congruence.
Qed.
Lemma beyond_side : forall i, (i < n)%nat -> ~ In i out -> on_segment p (seg_of s i) ->
  segments_through kept p = if xorb (f a b) (f a' b') then 1%nat else 0%nat.
Proof.
  intros i Hi Ni Pi. rewrite kept_through, none_filter.
  2:{ intros j Hj. apply selected_in in Hj. destruct (thru j) eqn:Tj; [|reflexivity]. exfalso.
      destruct (thru_twin i j Hi Pi (proj1 Hj) Tj) as [K|(K & _)]; [subst j; exact (Ni (proj1 Hj))|exact (Ni K)]. }
  destruct (sw_rest _ _ _ _ Hsw i Hi Ni) as (x & Ex & Lx). destruct (Hstop x Ex) as (c & Hb & Hz).
  destruct (Qclt_le_dec x (px p)) as [Q|Q].
  - assert (Far : forall sg, In sg (operand l c) -> px (s_start sg) < px p /\ px (s_end sg) < px p) by (intros sg Hs; destruct (Hb sg Hs); split; qlra).
    assert (Off : ~ on_segments p (operand l c)) by (intros (sg & Hs & Ps); destruct (Far sg Hs) as (A & B); pose proof (on_px_lt _ _ _ Ps A B); qlra).
    pose proof (inside_beyond _ _ Far) as Z. pose proof (above_off c Off) as Z'. rewrite Z in Z'. destruct c; rewrite Z, Z', !Hz; reflexivity.
  - assert (Si : side i = negb c).
    { destruct (Bool.bool_dec (side i) c) as [E|E].
      - destruct (source_of l x_max s out Hsw i Hi) as (sg & Hs & W & _). rewrite E in Hs. destruct (Hb sg Hs) as (A & B).
        pose proof (on_px _ _ _ (W _ (on_segment_end (seg_of s i))) A B) as K. cbn [s_end seg_of] in K. qlra.
      - revert E. destruct (side i), c; intro E; try reflexivity; congruence. }
    assert (Er : rest i = operand l c) by (rewrite Si, Bool.negb_involutive; reflexivity).
    assert (Off : ~ on_segments p (rest i)).
    { intro K. destruct (settled_rest l x_max s out Hsw i p (settled_all i Hi) (piece_inside i Hi Pi) K) as (j & (J & _)). exact (Ni J). }
    assert (He : In (EL i) pl).
    { destruct (in_dec event_eq_dec (EL i) pl) as [K|K]; [exact K|exfalso]. destruct (pr_rest _ _ _ _ Hpr (EL i) Hi K) as (x' & Ex' & Lx'). rewrite Ex in Ex'. injection Ex' as <-.
      cbn in Lx'. pose proof (sw_plt _ _ _ _ Hsw i Hi) as Lt.
      assert (Z : px (s_start (Seg (l_start (lft s i)) (end_of s i))) <= px p).
      { destruct (proj1 (on_segment_lex _ _ p Lt) Pi) as (_ & Z & _). cbn. apply ple_lt_eq in Z. destruct Z as [[Z|(Z & _)]|Z]; [qlra|rewrite Z; apply Qcle_refl|rewrite Z; apply Qcle_refl]. }
      cbn in Z. qlra. }
    pose proof (other_off l s0 Hfl Hl x_max Shaped rf reg Hreg' s out pl Hsw Hla i p (settled_all i Hi) He eq_refl Pi Off) as Eo.
    destruct (result_label l s0 x_max Shaped rf reg s out pl Hsw Hpr Hla i (settled_all i Hi) He) as [(_ & HR)|(j & (J & _) & _)]; [|elim (Ni J)].
    assert (Fr : l_result (lft s i) = false).
    { destruct (l_result (lft s i)) eqn:E; [|reflexivity]. elim Ni. exact (selected_out l s0 Hfl Hl x_max rf f Hrf Hreg s out pl Hsw Hpr Hla Hstop i He E). }
    rewrite Fr, <- Eo in HR. pose proof (above_off _ Off) as Z. destruct (side i); cbn [negb] in *; rewrite Z.
    + pose proof (fo_first _ _ Hrf true b) as F. rewrite <- HR in F. cbn [negb] in F. destruct a, a', (f true b), (f false b); try discriminate F; reflexivity.
    + pose proof (fo_second _ _ Hrf a true) as F. rewrite <- HR in F. cbn [negb] in F. destruct b, b', (f a true), (f a false); try discriminate F; reflexivity.
Qed.
(** The number of selected pieces through a point being no endpoint of a piece. *)
Theorem sides : segments_through kept p = if xorb (f a b) (f a' b') then 1%nat else 0%nat.
Proof.
  destruct (existsb thru (seq 0 n)) eqn:D.
  - apply existsb_exists in D. destruct D as (i & Hi & Ti). apply in_seq in Hi. assert (Hr : (i < n)%nat) by lia. apply (thru_spec i Hr) in Ti.
    destruct (in_dec Nat.eq_dec i out) as [Io|Io]; [|exact (beyond_side i Hr Io Ti)].
    destruct (result_label l s0 x_max Shaped rf reg s out pl Hsw Hpr Hla i (settled_all i Hr) (pr_left _ _ _ _ Hpr i Io)) as [(Al & HR)|(j & Hj & _)].
    + exact (single_side i Io Ti Al HR).
    + destruct (side i) eqn:Si; [exact (both_sides i j Hj Si Ti)|]. apply (both_sides j i (twin_sym i j Hj)).
      * rewrite (twin_side i j Hj), Si. reflexivity.
      * destruct Hj as (_ & _ & E & _). rewrite <- E. exact Ti.
  - assert (Z : forall i, (i < n)%nat -> ~ on_segment p (seg_of s i)).
    { intros i Hi K. apply (thru_spec i Hi) in K. assert (T : existsb thru (seq 0 n) = true) by (apply existsb_exists; exists i; split; [apply in_seq; lia|exact K]). congruence. }
    assert (Off : forall c, ~ on_segments p (operand l c)) by (intros c (sg & Hs & Ps); destruct (piece_of l x_max s out Hsw c sg p Hs Ps) as (j & Hj & _ & Pj & _); exact (Z j Hj Pj)).
    rewrite !(above_off _ (Off _)), Bool.xorb_nilpotent, kept_through, none_filter; [reflexivity|].
    intros j Hj. apply selected_in in Hj. pose proof (sw_range _ _ _ _ Hsw j (proj1 Hj)) as Hr. destruct (thru j) eqn:T; [|reflexivity]. exfalso. apply (Z j Hr). apply (thru_spec j Hr). exact T.
Qed.
End Sides.
