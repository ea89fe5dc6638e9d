(** Selected pieces of operands of shaped operations bound the region where the
    operation holds.  Proof support only, no part of /repo is modelled here. *)
From Coq Require Import Permutation Sorted.
From Verif Require Import QcTac Geom Spec SpecShape GeomFacts SortFacts Toward BoundingThms Relation PairFacts SweepGeo SweepInv SweepSteps Sweep SweepCmp SweepLink Linear SweepRun SweepLoop SweepStart SweepEnd SelectThms LinearComplete Labelled Parity Counting Erase Flow Labels LabelEnd Outline Classify.

(** ** Walking through pieces from below upwards *)
Definition kind_of (a b : bool) : overlap_kind := if Bool.eqb a b then SAME_ORIENTATION else DIFFERENT_ORIENTATION.
(** A rule of selection follows a boolean operation. *)
Record follows (rf : bool -> bool -> overlap_kind -> bool) (f : bool -> bool -> bool) : Prop := {
  fo_none : f false false = false;
  fo_first : forall a b, rf true b NONE = xorb (f a b) (f (negb a) b);
  fo_second : forall a b, rf false a NONE = xorb (f a b) (f a (negb b));
  fo_both : forall a b, xorb (rf true b (kind_of a b)) (rf false (negb a) (kind_of a b)) = xorb (f a b) (f (negb a) (negb b));
  fo_once : forall a b, rf true b (kind_of a b) && rf false (negb a) (kind_of a b) = false
}.

Lemma event_eq_dec : forall a b : event, {a = b} + {a <> b}.
Proof. decide equality; apply Nat.eq_dec. Qed.

Section Walk.
Variables (rf : bool -> bool -> overlap_kind -> bool) (f : bool -> bool -> bool).
Hypothesis Hf : follows rf f.
Variables (side sel : nat -> bool) (tw : nat -> nat -> Prop).
Definition among (b : bool) (m : list nat) : bool := parity (fun j => Bool.eqb (side j) b) m.
Variable U : list nat.
Hypothesis Hnd : NoDup U.
Hypothesis Htw : forall x y z, tw x y -> tw x z -> y = z.
Hypothesis Hsym : forall x y, tw x y -> tw y x.
Hypothesis Hside : forall x y, tw x y -> side y = negb (side x).
Hypothesis Hstep : forall m x r, U = m ++ x :: r ->
  ((forall y, ~ tw x y) /\ sel x = rf (side x) (among (negb (side x)) m) NONE)
  \/ (exists y, tw x y /\ side x = false /\ In y m)
  \/ (exists y r', tw x y /\ side x = true /\ r = y :: r' /\ sel x = rf true (among false m) (kind_of (among true m) (among false m))
      /\ sel y = rf false (negb (among true m)) (kind_of (among true m) (among false m))).

Lemma walk_from : forall n m r, (length r <= n)%nat -> U = m ++ r -> (forall x y, In x m -> tw x y -> In y m) ->
  parity sel r = xorb (f (among true m) (among false m)) (f (among true U) (among false U)).
Proof.
  induction n as [|n IH]; intros m r Hn E Hc.
  - destruct r; [|cbn in Hn; lia]. rewrite app_nil_r in E. subst m. cbn [parity]. symmetry. apply xorb_nilpotent.
  - destruct r as [|x r]; [rewrite app_nil_r in E; subst m; cbn [parity]; symmetry; apply xorb_nilpotent|].
    assert (Nx : ~ In x m) by (intro K; rewrite E in Hnd; apply NoDup_remove_2 in Hnd; apply Hnd; apply in_or_app; left; exact K).
    destruct (Hstep m x r E) as [(Al & Sx)|[(y & T & _ & Hy)|(y & r' & T & Sx & -> & S1 & S2)]].
    + cbn [parity]. cbn [length] in Hn. rewrite (IH (m ++ [x]) r); [|lia|rewrite <- app_assoc; exact E|].
      2:{ intros u v Hu T. apply in_app_or in Hu. apply in_or_app. destruct Hu as [Hu|[<-|[]]]; [left; exact (Hc u v Hu T)|elim (Al v T)]. }
      rewrite Sx. unfold among. rewrite !parity_app. cbn [parity]. rewrite !Bool.xorb_false_r.
      fold (among true m) (among false m). change (parity (fun j => Bool.eqb (side j) (negb (side x))) m) with (among (negb (side x)) m).
      destruct (side x); cbn [Bool.eqb negb].
      * rewrite Bool.xorb_true_r, Bool.xorb_false_r, (fo_first _ _ Hf (among true m) (among false m)).
        fold (among true U) (among false U). destruct (f (among true m) (among false m)), (f (negb (among true m)) (among false m)), (f (among true U) (among false U)); reflexivity.
      * rewrite Bool.xorb_true_r, Bool.xorb_false_r, (fo_second _ _ Hf (among true m) (among false m)).
        fold (among true U) (among false U). destruct (f (among true m) (among false m)), (f (among true m) (negb (among false m))), (f (among true U) (among false U)); reflexivity.
    + exfalso. apply Nx. exact (Hc y x Hy (Hsym _ _ T)).
    + cbn [parity]. cbn [length] in Hn. rewrite (IH (m ++ [x; y]) r'); [|lia|rewrite <- app_assoc; exact E|].
      2:{ intros u v Hu Tu. apply in_app_or in Hu. apply in_or_app. destruct Hu as [Hu|[<-|[<-|[]]]]; [left; exact (Hc u v Hu Tu)| |]; right.
          - right. left. exact (Htw _ _ _ T Tu).
          - left. exact (Htw _ _ _ (Hsym _ _ T) Tu). }
      pose proof (Hside _ _ T) as Sy. rewrite Sx in Sy. cbn [negb] in Sy.
      pose proof (fo_both _ _ Hf (among true m) (among false m)) as B. rewrite S1, S2.
      assert (A1 : among true (m ++ [x; y]) = negb (among true m)).
      { unfold among. rewrite parity_app. cbn [parity]. rewrite Sx, Sy. cbn. apply Bool.xorb_true_r. }
      assert (A2 : among false (m ++ [x; y]) = negb (among false m)).
      { unfold among. rewrite parity_app. cbn [parity]. rewrite Sx, Sy. cbn. apply Bool.xorb_true_r. }
      rewrite A1, A2. revert B. destruct (rf true _ _), (rf false _ _), (f (among true m) (among false m)), (f (negb _) (negb _)), (f (among true U) (among false U)); cbn; intro B; congruence.
Qed.
Theorem walk_all : parity sel U = f (among true U) (among false U).
Proof.
  rewrite (walk_from (length U) [] U (le_n _) eq_refl) by (intros x y []). cbn [among parity]. unfold among at 1 2. cbn [parity].
  rewrite (fo_none _ _ Hf). apply Bool.xorb_false_l.
Qed.
End Walk.

(** ** Pieces after a sweep *)
Lemma passes_pc : forall e P s i p, Sheared e P -> In p P -> In (l_start (lft s i)) P -> In (end_of s i) P -> plt (l_start (lft s i)) (end_of s i) ->
  passes_under (seg_of s i) p = Parity.covers (pc e s i) (pos e p) && Qc_ltb (ht (pc e s i) (pos e p)) (py p).
Proof.
  intros e P s i p Hsh Hp I1 I2 Hlt.
  assert (Pr : proper (seg_of s i)) by (intro K; cbn in K; rewrite K in Hlt; exact (plt_irrefl _ Hlt)).
  rewrite (passes_lex _ p Pr).
  assert (El : seg_lo (seg_of s i) = l_start (lft s i) /\ seg_hi (seg_of s i) = end_of s i).
  { destruct (seg_lo_hi (seg_of s i)) as [(A & B & _)|(A & B & C)]; [split; [exact A|exact B]|]. exfalso. exact (plt_irrefl _ (plt_trans _ _ _ Hlt C)). }
  destruct El as (-> & ->). pose proof (Hsh _ _ I1 I2 Hlt) as Hl'.
  unfold Parity.covers. f_equal; [f_equal|].
  - destruct (pt_ltb_spec p (l_start (lft s i))) as [K|K]; cbn [negb].
    + apply (Hsh _ _ Hp I1) in K. destruct (Qc_leb_spec (lo (pc e s i)) (pos e p)) as [J|J]; [|reflexivity]. exfalso. cbn in J. qlra.
    + destruct (Qc_leb_spec (lo (pc e s i)) (pos e p)) as [J|J]; [reflexivity|]. exfalso. apply K. apply (sheared_lt e P Hsh p _ Hp I1). cbn in J. qlra.
  - destruct (pt_ltb_spec p (end_of s i)) as [K|K].
    + apply (Hsh _ _ Hp I2) in K. symmetry. apply ltb_true. exact K.
    + destruct (Qc_ltb_spec (pos e p) (hi (pc e s i))) as [J|J]; [|reflexivity]. exfalso. apply K. apply (sheared_lt e P Hsh p _ Hp I2). exact J.
  - rewrite (cross_line e) by (intro K; rewrite K in Hl'; qlra). rewrite pc_ht.
    set (d := pos e (end_of s i) - pos e (l_start (lft s i))). assert (Hd : 0 < d) by (unfold d; qlra).
    destruct (Qc_ltb_spec (line_at e (l_start (lft s i)) (end_of s i) (pos e p)) (py p)) as [J|J].
    + apply ltb_true. qnra.
    + apply ltb_false. qnra.
Qed.

(** A line with a slope less than ones of pieces. *)
Lemma slope_less : forall ks : list piece, exists m, forall k, In k ks -> m < sl k.
Proof.
  induction ks as [|k ks (m & H)]; [exists 0; intros k []|].
  destruct (Qclt_le_dec m (sl k)) as [K|K].
  - exists m. intros j [<-|J]; [exact K|exact (H j J)].
  - exists (sl k - 1). intros j [<-|J]; [qlra|]. pose proof (H j J). qlra.
Qed.
(** Nothing is under of a point to the right of everything. *)
Lemma inside_beyond : forall es p, (forall sg, In sg es -> px (s_start sg) < px p /\ px (s_end sg) < px p) -> inside es p = false.
Proof.
  intros es p H. rewrite inside_parity. apply parity_none. intros sg Hs. destruct (H sg Hs) as (A & B).
  unfold passes_under. change lex_ltb with pt_ltb.
  assert (Y : forall q, px q < px p -> pt_ltb p q = false).
  { intros q L. destruct (pt_ltb_spec p q) as [K|K]; [|reflexivity]. exfalso. destruct K as [K|(K & _)]; qlra. }
  rewrite (Y _ A), (Y _ B), !Bool.andb_false_r. reflexivity.
Qed.

(** ** Endpoints of selected pieces *)
Lemma covers_ends : forall k t, lo k < hi k -> Parity.covers k t = xorb (Qc_leb (lo k) t) (Qc_leb (hi k) t).
Proof.
  intros k t H. unfold Parity.covers. destruct (Qc_leb_spec (lo k) t), (Qc_leb_spec (hi k) t), (Qc_ltb_spec t (hi k)); try reflexivity; exfalso; qlra.
Qed.
Lemma covers_even : forall v b, (forall i, (i < vn v)%nat -> lo (vp v i) < hi (vp v i)) -> (forall t, ends v b t = false) ->
  forall t, parity (fun i => Bool.eqb (op (vp v i)) b && Parity.covers (vp v i) t) (seq 0 (vn v)) = false.
Proof.
  intros v b Hl He t. set (L := flat_map (fun i => if Bool.eqb (op (vp v i)) b then [lo (vp v i); hi (vp v i)] else []) (seq 0 (vn v))).
  transitivity (parity (fun u => Qc_leb u t) L).
  - unfold L. rewrite parity_flat. apply parity_ext. intros i Hi. apply in_seq in Hi. destruct (Bool.eqb (op (vp v i)) b); [|reflexivity].
    cbn [andb parity]. rewrite Bool.xorb_false_r. apply covers_ends. apply Hl. lia.
  - apply (parity_pairs _ (length L) L (le_n _)). intro u. rewrite <- (He u). unfold L, ends. rewrite parity_flat. apply parity_ext. intros i _.
    destruct (Bool.eqb (op (vp v i)) b); [|reflexivity]. cbn [andb parity]. rewrite Bool.xorb_false_r. reflexivity.
Qed.
Lemma gap_below : forall (L : list Qc) t, exists t', t' < t /\ forall u, In u L -> u < t -> u < t'.
Proof.
  induction L as [|a L IH]; intro t.
  - exists (t - 1). split; [qlra|]. intros u [].
  - destruct (IH t) as (t' & A & B). destruct (Qclt_le_dec a t) as [K|K].
    + assert (Mid : exists m, m < t /\ a < m /\ t' <= m).
      { destruct (Qclt_le_dec a t') as [J|J]; [exists t'; repeat split; [exact A|exact J|apply Qcle_refl]|].
        destruct (half_between a t K) as (H1 & H2). exists (half * (a + t)). repeat split; [exact H2|exact H1|qlra]. }
      destruct Mid as (m & M1 & M2 & M3). exists m. split; [exact M1|]. intros u [<-|Hu] Lu; [exact M2|]. pose proof (B u Hu Lu). qlra.
    + exists t'. split; [exact A|]. intros u [<-|Hu] Lu; [exfalso; qlra|exact (B u Hu Lu)].
Qed.
Lemma above_all : forall (A : Type) (g : A -> Qc) (L : list A), exists h, forall x, In x L -> g x < h.
Proof.
  intros A g. induction L as [|a L (h & H)]; [exists 0; intros x []|]. destruct (Qclt_le_dec (g a) h) as [K|K].
  - exists h. intros x [<-|Hx]; [exact K|exact (H x Hx)].
  - exists (g a + 1). intros x [<-|Hx]; [qlra|]. pose proof (H x Hx). qlra.
Qed.

Section Telescope.
Variables (l : tagged) (s0 : state).
Hypothesis Hfl : filled l s0.
Hypothesis Hl : lawful l.
Variable x_max : option Qc.
Notation R := (relevant_points s0).
Variables (rf : bool -> bool -> overlap_kind -> bool) (f : bool -> bool -> bool).
Hypothesis Hrf : follows rf f.
Notation reg := (fun _ : bool => true).
Hypothesis Hreg : forall b, region_boundary (operand l b).
Variables (s : state) (out : list nat) (pl : list event).
Hypothesis Hsw : swept l x_max s out.
Hypothesis Hpr : processed x_max s out pl.
Hypothesis Hla : forall e P, fit s0 e P -> labels e (abs e s0 []) Shaped rf reg s pl.
(** The sweep stops after one of operands out of which the operation does not hold. *)
Hypothesis Hstop : forall x, x_max = Some x -> exists b, (forall sg, In sg (operand l b) -> px (s_start sg) <= x /\ px (s_end sg) <= x)
  /\ forall c, (if b then f false c else f c false) = false.
Notation n := (length (lefts s)).
Notation side i := (l_first (lft s i)).
Notation rest i := (operand l (negb (side i))).
Notation settled := (settled s out).
Notation paired := (paired s out).
Let Hreg' : forall b, reg b = true -> region_boundary (operand l b) := fun b _ => Hreg b.

Lemma on_px : forall q sg x, on_segment q sg -> px (s_start sg) <= x -> px (s_end sg) <= x -> px q <= x.
Proof. intros q sg x (r & R0 & R1 & E & _) A B. rewrite E. clear -R0 R1 A B. qnra. Qed.
Lemma on_px_lt : forall q sg x, on_segment q sg -> px (s_start sg) < x -> px (s_end sg) < x -> px q < x.
Proof.
  intros q sg x H A B. destruct (Qclt_le_dec (px (s_start sg)) (px (s_end sg))) as [K|K].
  - assert (J : px q <= px (s_end sg)) by (apply (on_px q sg); [exact H|qlra|apply Qcle_refl]). qlra.
  - assert (J : px q <= px (s_start sg)) by (apply (on_px q sg); [exact H|apply Qcle_refl|exact K]). qlra.
Qed.
Lemma within_px : forall i sg x, (i < n)%nat -> within (seg_of s i) sg -> px (s_start sg) <= x -> px (s_end sg) <= x -> px (end_of s i) <= x.
Proof.
  intros i sg x Hi W A B. assert (E : on_segment (end_of s i) sg) by (apply W; apply (on_segment_end (seg_of s i))).
  exact (on_px _ _ _ E A B).
Qed.
Lemma all_settled : forall i, (i < n)%nat -> settled i.
Proof.
  intros i Hi. split; [exact Hi|]. destruct (in_dec Nat.eq_dec i out) as [K|K]; [left; exact K|right].
  destruct (sw_rest _ _ _ _ Hsw i Hi K) as (x & Ex & Lx). destruct (Hstop x Ex) as (b & Hb & _).
  assert (Near : forall j, (j < n)%nat -> side j = b -> px (end_of s j) <= x).
  { intros j Hj Ej. destruct (source_of l x_max s out Hsw j Hj) as (sg & Hs & W & _). rewrite Ej in Hs. destruct (Hb sg Hs) as (A & B).
    exact (within_px j sg x Hj W A B). }
  assert (Ei : side i = negb b).
  { destruct (Bool.bool_dec (side i) b) as [E|E]; [pose proof (Near i Hi E); qlra|]. revert E. destruct (side i), b; intro E; try reflexivity; congruence. }
  intros j Hj Ej. destruct (in_dec Nat.eq_dec j out) as [J|J]; [exact J|]. exfalso. destruct (sw_rest _ _ _ _ Hsw j Hj J) as (x' & Ex' & Lx').
  rewrite Ex in Ex'. injection Ex' as <-. rewrite Ei, Bool.negb_involutive in Ej. pose proof (Near j Hj Ej). qlra.
Qed.
(** Selected pieces are finished ones. *)
Lemma selected_out : forall i, In (EL i) pl -> l_result (lft s i) = true -> In i out.
Proof.
  intros i He Hr. pose proof (pr_range _ _ _ _ Hpr _ He) as Hi. cbn in Hi. destruct (in_dec Nat.eq_dec i out) as [K|K]; [exact K|exfalso].
  destruct (sw_rest _ _ _ _ Hsw i Hi K) as (x & Ex & Lx). destruct (Hstop x Ex) as (b & Hb & Hz).
  assert (Ei : side i = negb b).
  { destruct (Bool.bool_dec (side i) b) as [E|E].
    - destruct (source_of l x_max s out Hsw i Hi) as (sg & Hs & W & _). rewrite E in Hs. destruct (Hb sg Hs) as (A & B).
      pose proof (within_px i sg x Hi W A B). qlra.
    - revert E. destruct (side i), b; intro E; try reflexivity; congruence. }
  destruct (result_label l s0 x_max Shaped rf reg s out pl Hsw Hpr Hla i (all_settled i Hi) He) as [(_ & HR)|(j & (Io & _) & _)]; [|exact (K Io)].
  assert (Er : rest i = operand l b) by (rewrite Ei, Bool.negb_involutive; reflexivity).
  assert (Far : forall sg, In sg (rest i) -> px (s_start sg) < px (end_of s i) /\ px (s_end sg) < px (end_of s i)).
  { intros sg Hs. rewrite Er in Hs. destruct (Hb sg Hs). split; qlra. }
  assert (Off : ~ on_segments (end_of s i) (rest i)).
  { intros (sg & Hs & Ps). destruct (Far sg Hs) as (A & B). pose proof (on_px_lt _ _ _ Ps A B). qlra. }
  pose proof (other_off l s0 Hfl Hl x_max Shaped rf reg Hreg' s out pl Hsw Hla i (end_of s i) (all_settled i Hi) He eq_refl (on_segment_end (seg_of s i)) Off) as E.
  rewrite (inside_beyond _ _ Far) in E. rewrite HR, <- E in Hr. rewrite Ei in Hr. destruct b; cbn [negb] in Hr.
  - rewrite (fo_second _ _ Hrf false false), !(Hz _) in Hr. discriminate Hr.
  - rewrite (fo_first _ _ Hrf false false) in Hr. rewrite !(Hz _) in Hr. discriminate Hr.
Qed.

Section AtPoint.
Variables (e : Qc) (P : list point) (t h : Qc).
Hypothesis Hfit : fit s0 e P.
Hypothesis Hends : forall i, (i < n)%nat -> In (l_start (lft s i)) P /\ In (end_of s i) P.
Notation pc := (pc e s).
Notation v0 := (abs e s0 []).
Notation v := (abs e s []).
Let La : labels e v0 Shaped rf reg s pl := Hla e P Hfit.

Definition passes (i : nat) : bool := Parity.covers (pc i) t && Qc_ltb (ht (pc i) t) h.
Definition under : list nat := filter passes (seq 0 n).
Lemma in_under : forall i, In i under <-> (i < n)%nat /\ Parity.covers (pc i) t = true /\ ht (pc i) t < h.
Proof.
  intro i. unfold under, passes. rewrite filter_In, in_seq. split.
  - intros (A & B). apply andb_prop in B. destruct B as (B1 & B2).
    split; [lia|]. split; [exact B1|]. destruct (Qc_ltb_spec (ht (pc i) t) h) as [K|K]; [exact K|discriminate B2].
  - intros (A & B & C). split; [lia|]. rewrite B, (ltb_true _ _ C). reflexivity.
Qed.

Definition lower (i j : nat) : bool :=
  Qc_ltb (ht (pc i) t) (ht (pc j) t)
  || (Qc_eqb (ht (pc i) t) (ht (pc j) t) && (Qc_ltb (sl (pc i)) (sl (pc j)) || (Qc_eqb (sl (pc i)) (sl (pc j)) && (side i && negb (side j))))).
Lemma lower_spec : forall i j, lower i j = true <-> ht (pc i) t < ht (pc j) t
  \/ (ht (pc i) t = ht (pc j) t /\ (sl (pc i) < sl (pc j) \/ (sl (pc i) = sl (pc j) /\ side i = true /\ side j = false))).
Proof.
  intros i j. unfold lower. rewrite !Bool.orb_true_iff, !Bool.andb_true_iff, !Bool.orb_true_iff, !Bool.andb_true_iff, Bool.negb_true_iff.
  destruct (Qc_ltb_spec (ht (pc i) t) (ht (pc j) t)), (Qc_eqb_spec (ht (pc i) t) (ht (pc j) t)), (Qc_ltb_spec (sl (pc i)) (sl (pc j))), (Qc_eqb_spec (sl (pc i)) (sl (pc j)));
    intuition congruence.
Qed.
Lemma lower_asym : forall i j, lower i j = true -> lower j i = false.
Proof.
  intros i j H. destruct (lower j i) eqn:E; [|reflexivity]. exfalso. apply lower_spec in H. apply lower_spec in E.
  destruct H as [H|(H1 & [H|(H & A & B)])], E as [E|(E1 & [E|(E & C & D)])]; try qlra; congruence.
Qed.
Lemma lower_trans : forall i j k, lower j i = false -> lower k j = false -> lower k i = false.
Proof.
  intros i j k H1 H2. destruct (lower k i) eqn:E; [|reflexivity]. exfalso. apply lower_spec in E.
  assert (N1 : ~ (ht (pc j) t < ht (pc i) t \/ (ht (pc j) t = ht (pc i) t /\ (sl (pc j) < sl (pc i) \/ (sl (pc j) = sl (pc i) /\ side j = true /\ side i = false))))).
  { intro K. apply lower_spec in K. congruence. }
  assert (N2 : ~ (ht (pc k) t < ht (pc j) t \/ (ht (pc k) t = ht (pc j) t /\ (sl (pc k) < sl (pc j) \/ (sl (pc k) = sl (pc j) /\ side k = true /\ side j = false))))).
  { intro K. apply lower_spec in K. congruence. }
  clear H1 H2. destruct (Qc_lt_total (ht (pc i) t) (ht (pc j) t)) as [A|[A|A]]; [| |apply N1; left; exact A].
  - destruct (Qc_lt_total (ht (pc j) t) (ht (pc k) t)) as [B|[B|B]]; [| |apply N2; left; exact B].
    + destruct E as [E|(E & _)]; qlra.
    + destruct E as [E|(E & _)]; qlra.
  - destruct (Qc_lt_total (ht (pc j) t) (ht (pc k) t)) as [B|[B|B]]; [| |apply N2; left; exact B].
    + destruct E as [E|(E & _)]; qlra.
    + destruct E as [E|(_ & E)]; [qlra|].
      destruct (Qc_lt_total (sl (pc i)) (sl (pc j))) as [A'|[A'|A']]; [| |apply N1; right; split; [symmetry; exact A|left; exact A']].
      * destruct (Qc_lt_total (sl (pc j)) (sl (pc k))) as [B'|[B'|B']]; [| |apply N2; right; split; [symmetry; exact B|left; exact B']];
          destruct E as [E|(E & _)]; qlra.
      * destruct (Qc_lt_total (sl (pc j)) (sl (pc k))) as [B'|[B'|B']]; [| |apply N2; right; split; [symmetry; exact B|left; exact B']].
        -- destruct E as [E|(E & _)]; qlra.
        -- destruct E as [E|(_ & Ek & Ei)]; [qlra|]. destruct (side j) eqn:Ej.
           ++ apply N1. right. split; [symmetry; exact A|]. right. split; [symmetry; exact A'|]. split; [reflexivity|exact Ei].
           ++ apply N2. right. split; [symmetry; exact B|]. right. split; [symmetry; exact B'|]. split; [exact Ek|reflexivity].
Qed.
Lemma lower_total : forall i j, In i under -> In j under -> i <> j -> lower i j = false -> lower j i = true.
Proof.
  intros i j Hi Hj Nij H. apply in_under in Hi. apply in_under in Hj. destruct Hi as (Hi & Ci & _). destruct Hj as (Hj & Cj & _).
  apply covers_spec in Ci. apply covers_spec in Cj.
  assert (N : ~ (ht (pc i) t < ht (pc j) t \/ (ht (pc i) t = ht (pc j) t /\ (sl (pc i) < sl (pc j) \/ (sl (pc i) = sl (pc j) /\ side i = true /\ side j = false))))).
  { intro K. apply lower_spec in K. congruence. }
  apply lower_spec. destruct (Qc_lt_total (ht (pc j) t) (ht (pc i) t)) as [A|[A|A]]; [left; exact A| |elim N; left; exact A]. right. split; [exact A|].
  destruct (Qc_lt_total (sl (pc j)) (sl (pc i))) as [B|[B|B]]; [left; exact B| |elim N; right; split; [symmetry; exact A|left; exact B]]. right. split; [exact B|].
  assert (C : coll (pc i) (pc j)) by (split; [symmetry; exact B|]; unfold ht in A; rewrite B in A; qlra).
  destruct (Bool.bool_dec (side i) (side j)) as [E|E].
  - exfalso. destruct (la_over _ _ _ _ _ _ _ La i j Hi Hj Nij E C); qlra.
  - destruct (side i) eqn:Ei, (side j) eqn:Ej; try congruence; [|split; reflexivity].
    elim N. right. split; [symmetry; exact A|]. right. split; [symmetry; exact B|]. split; reflexivity.
Qed.

Definition rising : list nat := sort_by lower under.
Lemma rising_perm : Permutation rising under.
Proof. apply sort_by_perm. Qed.
Lemma rising_nodup : NoDup rising.
Proof. apply (Permutation_NoDup (Permutation_sym rising_perm)). apply NoDup_filter. apply seq_NoDup. Qed.
Lemma rising_in : forall i, In i rising <-> In i under.
Proof. intro i. apply sort_by_in. Qed.
Lemma sorted_split : forall (A : Type) (Q : A -> A -> Prop) m x r, StronglySorted Q (m ++ x :: r) ->
  (forall a, In a m -> Q a x) /\ (forall a, In a r -> Q x a).
Proof.
  intros A Q m x r H. induction m as [|y m IH].
  - cbn in H. apply StronglySorted_inv in H. destruct H as (_ & H). split; [intros a []|]. intros a Ha. rewrite Forall_forall in H. exact (H a Ha).
  - cbn in H. apply StronglySorted_inv in H. destruct H as (H1 & H2). destruct (IH H1) as (I1 & I2). split; [|exact I2].
    rewrite Forall_forall in H2. intros a [<-|Ha]; [apply H2; apply in_or_app; right; left; reflexivity|exact (I1 a Ha)].
Qed.
Lemma rising_sorted : StronglySorted (fun a b => lower b a = false) rising.
Proof.
  apply (sort_by_sorted lower (fun _ => True)); [|intros x y _ _; apply lower_asym|apply Forall_forall; intros; exact I].
  intros x y z _ _ _. apply lower_trans.
Qed.
Lemma rising_lower : forall m x r, rising = m ++ x :: r -> (forall a, In a m -> lower a x = true) /\ (forall a, In a r -> lower x a = true).
Proof.
  intros m x r E. pose proof rising_sorted as S. pose proof rising_nodup as N. rewrite E in S, N. apply sorted_split in S. destruct S as (S1 & S2).
  apply NoDup_remove_2 in N. assert (Y : forall a, In a m \/ In a r -> In a under).
  { intros a Ha. apply rising_in. rewrite E. apply in_or_app. destruct Ha; [left|right; right]; assumption. }
  assert (X : In x under) by (apply rising_in; rewrite E; apply in_or_app; right; left; reflexivity).
  split; intros a Ha; apply lower_total; auto; intros ->; apply N; apply in_or_app; auto.
Qed.

(** Counting under of a piece. *)
Lemma count_prefix : forall m x r b c, rising = m ++ x :: r ->
  (b = side x /\ c = false) \/ (b = negb (side x) /\ c = negb (side x)) ->
  cnt v0 b c (pc x) t = among (fun j => side j) b m.
Proof.
  intros m x r b c E Hbc. rewrite <- (proj1 (la_static _ _ _ _ _ _ _ La) b c (pc x) t). unfold cnt. cbn [abs vp vn].
  assert (X : In x under) by (apply rising_in; rewrite E; apply in_or_app; right; left; reflexivity). apply in_under in X. destruct X as (Hx & Cx & Lx).
  destruct (rising_lower m x r E) as (S1 & S2).
  assert (G : forall j, side j = b -> germ c (pc j) (pc x) t = lower j x).
  { intros j Ej. apply Bool.eq_iff_eq_true. rewrite germ_spec, lower_spec.
    assert (Y : (c = true /\ sl (pc j) = sl (pc x)) <-> (sl (pc j) = sl (pc x) /\ side j = true /\ side x = false)).
    { rewrite Ej. destruct Hbc as [(-> & ->)|(-> & ->)]; destruct (side x); cbn; intuition congruence. }
    tauto. }
  rewrite <- (parity_incl _ under (seq 0 n)).
  2:{ apply NoDup_filter. apply seq_NoDup. } 2:{ apply seq_NoDup. } 2:{ intros j Hj. apply filter_In in Hj. apply Hj. }
  2:{ intros j Hj Nj. apply in_seq in Hj. destruct (Bool.eqb _ b) eqn:Ej; [|reflexivity]. apply Bool.eqb_prop in Ej. cbn [andb].
      unfold undermost. destruct (Parity.covers (pc j) t) eqn:Cj; [|reflexivity]. cbn [andb]. destruct (germ c (pc j) (pc x) t) eqn:Gj; [|reflexivity].
      exfalso. apply Nj. apply in_under. split; [lia|]. split; [exact Cj|]. apply germ_spec in Gj. destruct Gj as [Gj|(Gj & _)]; qlra. }
  rewrite <- (parity_perm _ _ _ rising_perm), E, parity_app. cbn [parity].
  assert (P1 : parity (fun i => Bool.eqb (op (pc i)) b && undermost c (pc x) t (pc i)) m = among (fun j => side j) b m).
  { apply parity_ext. intros a Ha. change (op (pc a)) with (side a). destruct (Bool.eqb (side a) b) eqn:Ea; [|reflexivity]. apply Bool.eqb_prop in Ea. cbn [andb].
    unfold undermost. assert (Ua : In a under) by (apply rising_in; rewrite E; apply in_or_app; left; exact Ha). apply in_under in Ua. destruct Ua as (_ & -> & _).
    cbn [andb]. rewrite (G a Ea). exact (S1 a Ha). }
  assert (P2 : parity (fun i => Bool.eqb (op (pc i)) b && undermost c (pc x) t (pc i)) r = false).
  { apply parity_none. intros a Ha. change (op (pc a)) with (side a). destruct (Bool.eqb (side a) b) eqn:Ea; [|reflexivity]. apply Bool.eqb_prop in Ea. cbn [andb].
    unfold undermost. rewrite (G a Ea), (lower_asym _ _ (S2 a Ha)). apply Bool.andb_false_r. }
  rewrite P1, P2, Bool.xorb_false_r. change (op (pc x)) with (side x).
  assert (P3 : Bool.eqb (side x) b && undermost c (pc x) t (pc x) = false).
  { destruct (Bool.eqb (side x) b) eqn:Ex; [|reflexivity]. apply Bool.eqb_prop in Ex. cbn [andb]. unfold undermost. rewrite (G x Ex).
    destruct (lower x x) eqn:K; [|apply Bool.andb_false_r]. pose proof (lower_asym _ _ K). congruence. }
  rewrite P3. apply Bool.xorb_false_r.
Qed.

Hypothesis Hproc : forall i, (i < n)%nat -> Parity.covers (pc i) t = true -> In (EL i) pl.
Lemma under_processed : forall i, In i under -> In (EL i) pl.
Proof. intros i Hi. apply in_under in Hi. destruct Hi as (Hi & Ci & _). exact (Hproc i Hi Ci). Qed.
Lemma interior_prefix : forall m x r, rising = m ++ x :: r -> l_interior (lft s x) = negb (among (fun j => side j) (side x) m).
Proof.
  intros m x r E. assert (X : In x under) by (apply rising_in; rewrite E; apply in_or_app; right; left; reflexivity). apply in_under in X. destruct X as (Hx & Cx & _).
  apply covers_spec in Cx. pose proof (la_inside _ _ _ _ _ _ _ La x t Hx eq_refl (proj1 Cx) (proj2 Cx)) as K.
  rewrite (count_prefix m x r _ _ E (or_introl (conj eq_refl eq_refl))) in K. rewrite K, Bool.negb_involutive. reflexivity.
Qed.
Lemma other_prefix : forall m x r, rising = m ++ x :: r -> l_other (lft s x) = among (fun j => side j) (negb (side x)) m.
Proof.
  intros m x r E. assert (X : In x under) by (apply rising_in; rewrite E; apply in_or_app; right; left; reflexivity). pose proof (under_processed x X) as He.
  apply in_under in X. destruct X as (Hx & Cx & _). apply covers_spec in Cx.
  rewrite (la_other _ _ _ _ _ _ _ La x He eq_refl).
  assert (Lx : lo (pc x) < hi (pc x)) by qlra.
  set (q := at_pos e t (ht (pc x) t)). assert (Eq : pos e q = t) by apply pos_at.
  assert (Qx : on_segment q (seg_of s x)) by (apply (pc_on_at e s x t Lx); split; qlra).
  pose proof (along_piece l s0 Hfl Hl x_max reg Hreg' s out Hsw e P Hfit Hends x (negb (side x)) q (all_settled x Hx) eq_refl Qx) as K.
  rewrite <- K; [|intro J; exfalso; assert (Y : pos e q = hi (pc x)) by (rewrite J; reflexivity); qlra].
  rewrite Eq. exact (count_prefix m x r _ _ E (or_intror (conj eq_refl eq_refl))).
Qed.

Lemma paired_sym : forall i j, paired i j -> paired j i.
Proof. intros i j (A & B & C & D). split; [exact B|]. split; [exact A|]. split; [symmetry; exact C|]. intro E. apply D. symmetry. exact E. Qed.
Lemma paired_side : forall i j, paired i j -> side j = negb (side i).
Proof. intros i j (_ & _ & _ & D). revert D. destruct (side i), (side j); intro D; try reflexivity; congruence. Qed.
Lemma paired_coll : forall i j, paired i j -> coll (pc i) (pc j) /\ lo (pc i) = lo (pc j) /\ hi (pc i) = hi (pc j).
Proof.
  intros i j (_ & _ & E & _). pose proof (f_equal s_start E) as E1. pose proof (f_equal s_end E) as E2. cbn in E1, E2.
  unfold coll. cbn. rewrite E1, E2. repeat split; reflexivity.
Qed.
Lemma paired_one : forall i j j', paired i j -> paired i j' -> j = j'.
Proof.
  intros i j j' A B. destruct (Nat.eq_dec j j') as [E|E]; [exact E|exfalso].
  pose proof (sw_range _ _ _ _ Hsw j (proj1 (proj2 A))) as Hj. pose proof (sw_range _ _ _ _ Hsw j' (proj1 (proj2 B))) as Hj'.
  destruct (paired_coll i j A) as (A1 & A2 & A3). destruct (paired_coll i j' B) as (B1 & B2 & B3).
  pose proof (paired_side i j A) as Sj. pose proof (paired_side i j' B) as Sj'.
  pose proof (final_len l s0 x_max s out Hsw e P Hfit Hends j Hj) as L.
  destruct (la_over _ _ _ _ _ _ _ La j j' Hj Hj' E) as [K|K]; [congruence|exact (coll_trans _ _ _ (coll_sym _ _ A1) B1)| |]; qlra.
Qed.
Lemma paired_under : forall i j, paired i j -> In i under -> In j under.
Proof.
  intros i j H Hi. pose proof (paired_coll i j H) as ((E1 & E2) & E3 & E4). apply in_under in Hi. apply in_under.
  destruct H as (_ & Jo & _). pose proof (sw_range _ _ _ _ Hsw j Jo) as Hj. split; [exact Hj|]. unfold Parity.covers, ht in *. rewrite <- E1, <- E2, <- E3, <- E4. apply Hi.
Qed.
Lemma paired_lower : forall i j, paired i j -> side i = true -> lower i j = true.
Proof.
  intros i j H Si. pose proof (paired_side i j H) as Sj. rewrite Si in Sj. destruct (paired_coll i j H) as ((C1 & C2) & _). apply lower_spec. right.
  unfold ht. rewrite C1, C2. split; [reflexivity|]. right. split; [reflexivity|]. split; [exact Si|exact Sj].
Qed.

Lemma kind_sym : forall i j, pair_kind Shaped (lft s j) (lft s i) = pair_kind Shaped (lft s i) (lft s j).
Proof. intros i j. unfold pair_kind. destruct (l_interior (lft s i)), (l_interior (lft s j)); reflexivity. Qed.
Lemma rising_step : forall m x r, rising = m ++ x :: r ->
  ((forall y, ~ paired x y) /\ l_result (lft s x) = rf (side x) (among (fun j => side j) (negb (side x)) m) NONE)
  \/ (exists y, paired x y /\ side x = false /\ In y m)
  \/ (exists y r', paired x y /\ side x = true /\ r = y :: r'
      /\ l_result (lft s x) = rf true (among (fun j => side j) false m) (kind_of (among (fun j => side j) true m) (among (fun j => side j) false m))
      /\ l_result (lft s y) = rf false (negb (among (fun j => side j) true m)) (kind_of (among (fun j => side j) true m) (among (fun j => side j) false m))).
Proof.
  intros m x r E. destruct (rising_lower m x r E) as (S1 & S2).
  assert (X : In x under) by (apply rising_in; rewrite E; apply in_or_app; right; left; reflexivity). pose proof (under_processed x X) as He.
  pose proof (proj1 (proj1 (in_under x) X)) as Hx.
  destruct (result_label l s0 x_max Shaped rf reg s out pl Hsw Hpr Hla x (all_settled x Hx) He) as [(Al & HR)|(y & Hp & HR)].
  - left. split; [exact Al|]. rewrite HR, (other_prefix m x r E). reflexivity.
  - right. pose proof (paired_under x y Hp X) as Y. pose proof (paired_side x y Hp) as Sy. pose proof (paired_sym _ _ Hp) as Hp'.
    pose proof (proj2 (rising_in y) Y) as Yr. rewrite E in Yr. apply in_app_or in Yr.
    destruct (side x) eqn:Sx; cbn [negb] in Sy.
    + right. pose proof (paired_lower x y Hp Sx) as Lxy. destruct Yr as [Yr|[Yr|Yr]].
      * exfalso. pose proof (S1 y Yr) as K. rewrite (lower_asym _ _ Lxy) in K. discriminate K.
      * exfalso. subst y. congruence.
      * destruct r as [|z r']; [destruct Yr|].
        assert (Ez : z = y).
        { destruct Yr as [Yr|Yr]; [exact Yr|exfalso].
          assert (E' : rising = (m ++ [x]) ++ z :: r') by (rewrite E, <- app_assoc; reflexivity).
          destruct (rising_lower _ z r' E') as (Z1 & Z2). pose proof (Z2 y Yr) as Lzy. pose proof (S2 z (or_introl eq_refl)) as Lxz.
          apply lower_spec in Lzy. apply lower_spec in Lxz. destruct (paired_coll x y Hp) as ((C1 & C2) & _).
          assert (Eh : ht (pc x) t = ht (pc y) t) by (unfold ht; rewrite C1, C2; reflexivity).
          destruct Lxz as [K|(K & [K'|(K' & _ & Kz)])], Lzy as [J|(J & [J'|(J' & Jz & _)])]; try qlra; congruence. }
        subst z. exists y, r'. split; [exact Hp|]. split; [reflexivity|]. split; [reflexivity|].
        assert (Ey : rising = (m ++ [x]) ++ y :: r') by (rewrite E, <- app_assoc; reflexivity).
        pose proof (interior_prefix m x _ E) as Ix. pose proof (interior_prefix _ y _ Ey) as Iy. pose proof (other_prefix m x _ E) as Ox. pose proof (other_prefix _ y _ Ey) as Oy.
        rewrite Sx in Ix, Ox. rewrite Sy in Iy, Oy. cbn [negb] in Ox, Oy.
        assert (A1 : among (fun j => side j) false (m ++ [x]) = among (fun j => side j) false m).
        { unfold among. rewrite parity_app. cbn [parity]. rewrite Sx. cbn. apply Bool.xorb_false_r. }
        assert (A2 : among (fun j => side j) true (m ++ [x]) = negb (among (fun j => side j) true m)).
        { unfold among. rewrite parity_app. cbn [parity]. rewrite Sx. cbn. apply Bool.xorb_true_r. }
        rewrite A1 in Iy. rewrite A2 in Oy.
        assert (Kd : pair_kind Shaped (lft s x) (lft s y) = kind_of (among (fun j => side j) true m) (among (fun j => side j) false m)).
        { unfold pair_kind, kind_of. rewrite Ix, Iy. destruct (among _ true m), (among _ false m); reflexivity. }
        split; [rewrite HR, Ox, Kd; reflexivity|].
        destruct (result_label l s0 x_max Shaped rf reg s out pl Hsw Hpr Hla y (all_settled y (proj1 (proj1 (in_under y) Y))) (under_processed y Y)) as [(Al & _)|(z & Hz & HRy)].
        -- elim (Al x Hp').
        -- rewrite (paired_one y z x Hz Hp') in HRy. rewrite HRy, Oy, kind_sym, Kd, Sy. reflexivity.
    + left. exists y. split; [exact Hp|]. split; [reflexivity|]. destruct Yr as [Yr|[Yr|Yr]]; [exact Yr| |].
      * subst y. congruence.
      * exfalso. pose proof (S2 y Yr) as K. rewrite (lower_asym _ _ (paired_lower y x Hp' Sy)) in K. discriminate K.
Qed.

Definition pieces_under (b : bool) : bool := parity (fun i => Bool.eqb (side i) b && passes i) (seq 0 n).
Lemma among_under : forall b, among (fun j => side j) b rising = pieces_under b.
Proof.
  intro b. unfold among, pieces_under. rewrite (parity_perm _ _ _ rising_perm). unfold under. rewrite parity_filter.
  apply parity_ext. intros i _. apply Bool.andb_comm.
Qed.
Theorem telescope_at : parity (fun i => l_result (lft s i) && passes i) (seq 0 n) = f (pieces_under true) (pieces_under false).
Proof.
  rewrite <- !among_under.
  rewrite <- (walk_all rf f Hrf (fun j => side j) (fun i => l_result (lft s i)) paired rising rising_nodup).
  - rewrite (parity_perm _ _ _ rising_perm). unfold under. rewrite parity_filter. apply parity_ext. intros i _. apply Bool.andb_comm.
  - exact paired_one.
  - exact paired_sym.
  - exact paired_side.
  - exact rising_step.
Qed.
Lemma telescope_out : parity (fun i => l_result (lft s i) && passes i) out = f (pieces_under true) (pieces_under false).
Proof.
  rewrite <- telescope_at. apply parity_incl.
  - exact (sw_nodup _ _ _ _ Hsw).
  - apply seq_NoDup.
  - intros i Hi. apply in_seq. pose proof (sw_range _ _ _ _ Hsw i Hi). lia.
  - intros i Hi No. destruct (l_result (lft s i)) eqn:Er; [|reflexivity]. destruct (passes i) eqn:Ep; [|reflexivity].
    exfalso. apply No. apply selected_out; [|exact Er]. apply under_processed. apply filter_In. split; [exact Hi|exact Ep].
Qed.
End AtPoint.

Section AtPlace.
Variables (e : Qc) (P : list point) (p : point).
Hypothesis Hfit : fit s0 e P.
Hypothesis Hends : forall i, (i < n)%nat -> In (l_start (lft s i)) P /\ In (end_of s i) P.
Hypothesis Pp : In p P.
Notation pc := (pc e s).
Notation v0 := (abs e s0 []).
Notation v := (abs e s []).
Notation t := (pos e p).
Let La : labels e v0 Shaped rf reg s pl := Hla e P Hfit.
Lemma passes_spec : forall i, (i < n)%nat -> passes_under (seg_of s i) p = passes e t (py p) i.
Proof.
  intros i Hi. apply (passes_pc e P s i p (proj1 Hfit) Pp); [apply Hends; exact Hi|apply Hends; exact Hi|exact (sw_plt _ _ _ _ Hsw i Hi)].
Qed.
(** Memberships are numbers of pieces under of the point. *)
Lemma pieces_inside : forall b, pieces_under e t (py p) b = inside (operand l b) p.
Proof.
  intro b. unfold pieces_under.
  destruct (slope_less (map pc (seq 0 n) ++ map (SweepCmp.pc e s0) (seq 0 (length (lefts s0))))) as (m & Hm).
  set (z := Piece 0 0 m (py p - m * t) b). assert (Hz : ht z t = py p) by (unfold ht, z; cbn; ring).
  assert (G : forall k, In k (map pc (seq 0 n) ++ map (SweepCmp.pc e s0) (seq 0 (length (lefts s0)))) -> germ false k z t = Qc_ltb (ht k t) (py p)).
  { intros k Hk. destruct (Qc_eq_dec (ht k t) (ht z t)) as [K|K]; [|rewrite germ_apart by exact K; rewrite Hz; reflexivity].
    rewrite <- Hz, K, (ltb_false _ _ (Qcle_refl _)). destruct (germ false k z t) eqn:Gk; [|reflexivity]. exfalso. apply germ_spec in Gk.
    pose proof (Hm k Hk) as S. change (sl z) with m in Gk. destruct Gk as [Gk|(_ & [Gk|(Gk & _)])]; [qlra|change (sl k < m) in Gk; qlra|discriminate Gk]. }
  transitivity (cnt v b false z t).
  - unfold cnt. cbn [abs vp vn]. apply parity_ext. intros i Hi. apply in_seq in Hi. unfold undermost, passes.
    rewrite G by (apply in_or_app; left; apply in_map; apply in_seq; lia). reflexivity.
  - rewrite (proj1 (la_static _ _ _ _ _ _ _ La)). rewrite inside_parity. unfold cnt. cbn [abs vp vn].
    apply (parity_operand l s0 Hfl e b (undermost false z t)). intros i sg Ei.
    rewrite (passes_covers l s0 Hfl Hl e P (proj1 Hfit) (proj1 (proj2 Hfit)) i b sg p Ei Pp). unfold undermost.
    rewrite G; [reflexivity|]. apply in_or_app. right. apply in_map. apply in_seq.
    pose proof (proj1 (seg_parts l s0 Hfl Hl i b sg Ei)). lia.
Qed.
Lemma place_processed : (forall x, x_max = Some x -> px p <= x) -> forall i u, u <= t -> (i < n)%nat -> Parity.covers (pc i) u = true -> In (EL i) pl.
Proof.
  intros Hnear i u Hu Hi Ci. destruct (in_dec event_eq_dec (EL i) pl) as [K|K]; [exact K|exfalso].
  destruct (pr_rest _ _ _ _ Hpr (EL i) Hi K) as (x & Ex & Lx). cbn in Lx. pose proof (Hnear x Ex) as Np.
  apply covers_spec in Ci. destruct Ci as (Ci & _). cbn in Ci.
  assert (Lt : plt p (l_start (lft s i))) by (left; qlra). apply (proj1 Hfit p _ Pp (proj1 (Hends i Hi))) in Lt. qlra.
Qed.
Theorem telescope_place : (forall x, x_max = Some x -> px p <= x) ->
  inside (map (seg_of s) (filter (fun i => l_result (lft s i)) out)) p = f (inside (operand l true) p) (inside (operand l false) p).
Proof.
  intro Hnear. rewrite inside_parity, parity_map, parity_filter, <- !pieces_inside.
  rewrite <- (telescope_out e P t (py p) Hfit Hends (fun i Hi Ci => place_processed Hnear i t (Qcle_refl _) Hi Ci)).
  apply parity_ext. intros i Hi. rewrite passes_spec by exact (sw_range _ _ _ _ Hsw i Hi). reflexivity.
Qed.
End AtPlace.

(** Selected pieces bound the region where the operation holds. *)
Theorem telescope : forall p, inside (map (seg_of s) (filter (fun i => l_result (lft s i)) out)) p = f (inside (operand l true) p) (inside (operand l false) p).
Proof.
  intro p.
  assert (D : (forall x, x_max = Some x -> px p <= x) \/ exists x, x_max = Some x /\ x < px p).
  { destruct x_max as [x|]; [|left; discriminate]. destruct (Qclt_le_dec x (px p)) as [K|K]; [right; exists x; split; [reflexivity|exact K]|left].
    intros y Ey. injection Ey as <-. exact K. }
  destruct D as [D|(x & Ex & Lx)].
  - destruct (fit_for s0 s p) as (e & P & F & E & Pp). exact (telescope_place e P p F E Pp D).
  - rewrite inside_beyond.
    + destruct (Hstop x Ex) as (b & Hb & Hz). assert (Y : inside (operand l b) p = false).
      { apply inside_beyond. intros sg Hs. destruct (Hb sg Hs). split; qlra. }
      destruct b; rewrite Y; symmetry; apply Hz.
    + intros sg Hs. apply in_map_iff in Hs. destruct Hs as (i & <- & Hi). apply filter_In in Hi. destruct Hi as (Hi & _).
      assert (Near : px (end_of s i) <= x).
      { pose proof (sw_range _ _ _ _ Hsw i Hi) as Hr. destruct (pr_wf _ _ _ _ Hpr) as (W1 & W2 & W3). destruct (W2 i Hr) as (A & B).
        pose proof (proj2 (pr_out _ _ _ _ Hpr _ A)) as K. rewrite B in K. specialize (K Hi). exact (pr_near _ _ _ _ Hpr _ x K Ex). }
      pose proof (sw_plt _ _ _ _ Hsw i (sw_range _ _ _ _ Hsw i Hi)) as Lt. cbn. destruct Lt as [Lt|(Lt & _)]; split; qlra.
Qed.

(** Every point is an endpoint of an even number of selected pieces. *)
Notation selected := (filter (fun i => l_result (lft s i)) out).
Theorem selected_even : even_occurrences (endpoints_of (map (seg_of s) selected)).
Proof.
  intro q. rewrite <- Nat.negb_odd, <- parity_occ. apply Bool.negb_true_iff.
  destruct (in_dec pt_eq_dec q (endpoints_of (map (seg_of s) selected))) as [Hq|Hq].
  2:{ apply parity_none. intros x Hx. destruct (pt_eqb_spec x q) as [->|N]; [contradiction|reflexivity]. }
  destruct (fit_for s0 s q) as (e & P & F & E & Pq).
  assert (Near : forall x, x_max = Some x -> px q <= x).
  { intros x Ex. unfold endpoints_of in Hq. apply in_flat_map in Hq. destruct Hq as (sg & Hs & Hq). apply in_map_iff in Hs. destruct Hs as (i & <- & Hi).
    apply filter_In in Hi. destruct Hi as (Hi & _).
    assert (Nr : px (end_of s i) <= x).
    { pose proof (sw_range _ _ _ _ Hsw i Hi) as Hr. destruct (pr_wf _ _ _ _ Hpr) as (W1 & W2 & W3). destruct (W2 i Hr) as (A & B).
      pose proof (proj2 (pr_out _ _ _ _ Hpr _ A)) as K. rewrite B in K. specialize (K Hi). exact (pr_near _ _ _ _ Hpr _ x K Ex). }
    pose proof (sw_plt _ _ _ _ Hsw i (sw_range _ _ _ _ Hsw i Hi)) as Lt. destruct Hq as [<-|[<-|[]]]; [|exact Nr]. cbn. destruct Lt as [Lt|(Lt & _)]; qlra. }
  set (t := pos e q). set (L := flat_map (fun i => [lo (pc e s i); hi (pc e s i)]) (seq 0 n)).
  destruct (gap_below L t) as (t' & T1 & T2).
  destruct (above_all _ (fun x => x) (map (fun i => ht (pc e s i) t) (seq 0 n) ++ map (fun i => ht (pc e s i) t') (seq 0 n))) as (h & Hh).
  assert (Len : forall i, (i < n)%nat -> lo (pc e s i) < hi (pc e s i)) by exact (final_len l s0 x_max s out Hsw e P F E).
  assert (Zero : forall u, u = t \/ u = t' -> parity (fun i => l_result (lft s i) && Parity.covers (pc e s i) u) out = false).
  { intros u Hu. assert (Up : forall i, (i < n)%nat -> passes e u h i = Parity.covers (pc e s i) u).
    { intros i Hi. unfold passes. rewrite ltb_true; [apply Bool.andb_true_r|]. apply Hh. apply in_or_app.
      destruct Hu as [->| ->]; [left|right]; apply in_map_iff; exists i; (split; [reflexivity|]); apply in_seq; lia. }
    assert (Cv : forall b, pieces_under e u h b = false).
    { intro b. unfold pieces_under. rewrite <- (covers_even (abs e s []) b Len) with (t := u).
      - apply parity_ext. intros i Hi. apply in_seq in Hi. cbn [abs vn plus] in Hi. rewrite Up by lia. reflexivity.
      - intro w. rewrite (proj2 (la_static _ _ _ _ _ _ _ (Hla e P F)) b w). apply (closed_ends l s0 Hfl Hl e P (proj1 F) (proj1 (proj2 F))). apply Hreg. }
    pose proof (telescope_out e P u h F E) as K. rewrite !Cv, (fo_none _ _ Hrf) in K. rewrite <- K.
    - apply parity_ext. intros i Hi. rewrite Up by exact (sw_range _ _ _ _ Hsw i Hi). reflexivity.
    - intros i Hi Ci. apply (place_processed e P q F E Pq Near i u); [|exact Hi|exact Ci]. fold t. destruct Hu as [->| ->]; [apply Qcle_refl|qlra]. }
  unfold endpoints_of. rewrite parity_flat, parity_map, parity_filter.
  assert (Z : parity (fun i => xorb (l_result (lft s i) && Parity.covers (pc e s i) t) (l_result (lft s i) && Parity.covers (pc e s i) t')) out = false).
  { rewrite parity_xor, !Zero by auto. reflexivity. }
  rewrite <- Z. apply parity_ext. intros i Hi. destruct (l_result (lft s i)); [|reflexivity]. cbn [andb parity]. rewrite Bool.xorb_false_r.
  pose proof (sw_range _ _ _ _ Hsw i Hi) as Hr. destruct (E i Hr) as (P1 & P2).
  assert (Eq : forall w, In w P -> pt_eqb w q = Qc_eqb (pos e w) t).
  { intros w Hw. destruct (pt_eqb_spec w q) as [->|N]; [symmetry; apply Qc_eqb_same|]. destruct (Qc_eqb_spec (pos e w) t) as [K|K]; [|reflexivity].
    elim N. exact (proj2 (sheared_eq e P (proj1 F) w q Hw Pq) K). }
  cbn [s_start s_end seg_of]. rewrite (Eq _ P1), (Eq _ P2). change (pos e (l_start (lft s i))) with (lo (pc e s i)). change (pos e (end_of s i)) with (hi (pc e s i)).
  rewrite !covers_ends by exact (Len i Hr).
  assert (In1 : In (lo (pc e s i)) L) by (apply in_flat_map; exists i; split; [apply in_seq; lia|left; reflexivity]).
  assert (In2 : In (hi (pc e s i)) L) by (apply in_flat_map; exists i; split; [apply in_seq; lia|right; left; reflexivity]).
  assert (Y : forall u, In u L -> xorb (Qc_leb u t) (Qc_leb u t') = Qc_eqb u t).
  { intros u Hu. destruct (Qc_eqb_spec u t) as [->|N].
    - destruct (Qc_leb_spec t t); [|exfalso; qlra]. destruct (Qc_leb_spec t t'); [exfalso; qlra|reflexivity].
    - destruct (Qc_leb_spec u t) as [K|K].
      + apply Qcle_lt_or_eq in K. destruct K as [K|K]; [|contradiction]. pose proof (T2 u Hu K). destruct (Qc_leb_spec u t'); [reflexivity|exfalso; qlra].
      + destruct (Qc_leb_spec u t'); [exfalso; qlra|reflexivity]. }
  rewrite <- (Y _ In1), <- (Y _ In2).
  destruct (Qc_leb (lo (pc e s i)) t), (Qc_leb (lo (pc e s i)) t'), (Qc_leb (hi (pc e s i)) t), (Qc_leb (hi (pc e s i)) t'); reflexivity.
Qed.
End Telescope.
