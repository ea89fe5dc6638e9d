(** No three selected pieces meet in the same point when operands are in a
    general position.  Proof support only, no part of /repo is modelled here. *)
From Coq Require Import Permutation Sorted.
From Verif Require Import QcTac Geom Spec SpecShape SpecSides SpecNest GeomFacts EvenOdd Flip SortFacts Toward Cycle Bounding BoundingThms Relation PairFacts SweepGeo SweepInv SweepSteps Sweep SweepCmp SweepLink Linear SweepRun SweepLoop SweepStart SweepEnd SelectThms LinearMeaning LinearThms LinearComplete Contour Labelled Filter Mixed Shaped Parity Counting ShrinkThms ConnectThms Tracing TraceThms RegionThms OrientThms PairThms Erase Beneath Flow Labels LabelEnd Outline Classify Telescope Polygons Sides EvenStraight MixedThms MixedComplete ShapedThms ShapedProps Shapes Nesting NestTraced GeneralPos.

Section Degree.
Variables (op : operation) (E1 E2 : list segment) (x_max : option Qc) (s : state) (pl : list event).
Hypothesis H : shaped_swept op E1 E2 x_max s pl.
Hypothesis S1 : sparse E1.
Hypothesis S2 : sparse E2.
Hypothesis S12 : strangers E1 E2.
Notation n := (length (lefts s)).
Notation g := (seg_of s).
Notation side i := (l_first (lft s i)).
Notation own b := (if b : bool then E1 else E2).
Definition selected (i : nat) : Prop := In (EL i) pl /\ l_result (lft s i) = true.
Lemma selected_lt : forall i, selected i -> (i < n)%nat.
Proof. intros i (Hi & _). exact (events_range _ _ _ _ _ _ H _ Hi). Qed.
Lemma lt_ends : forall i, (i < n)%nat -> plt (s_start (g i)) (s_end (g i)).
Proof. intros i Hi. exact (TidyThms.left_lt _ _ _ _ _ _ H i Hi). Qed.
Lemma own_proper : forall b a, In a (own b) -> proper a.
Proof. intros b a Ha. destruct (sh_bounds _ _ _ _ _ _ H) as (((F1 & _) & _) & ((F2 & _) & _)). rewrite Forall_forall in F1, F2. destruct b; auto. Qed.
Lemma own_even : forall b, even_occurrences (endpoints_of (own b)).
Proof. intro b. destruct (sh_bounds _ _ _ _ _ _ H) as ((_ & F1 & _) & (_ & F2 & _)). destruct b; assumption. Qed.
Lemma own_sparse : forall b, sparse (own b).
Proof. intro b. destruct b; assumption. Qed.
Lemma own_strangers : forall b, strangers (own b) (own (negb b)).
Proof. intro b. destruct b; [exact S12|exact (strangers_sym _ _ S12)]. Qed.
Lemma source : forall i, (i < n)%nat -> exists a, In a (own (side i)) /\ within (g i) a.
Proof. intros i Hi. destruct (sh_sweep _ _ _ _ _ _ H) as (s0 & out & Hf & Hsw & Hpr & Hla). exact (LinearMeaning.piece_source _ _ _ _ _ Hsw i Hi). Qed.
Lemma selected_meet : forall i k x, selected k -> (i < n)%nat -> i <> k -> on_segment x (g i) -> on_segment x (g k) -> endpoint x (g i) /\ endpoint x (g k).
Proof.
  intros i k x (Ks & Kr) Hi N Oi Ok. pose proof (selected_lt k (conj Ks Kr)) as Hkn.
  destruct (sh_sweep _ _ _ _ _ _ H) as (s0 & out & Hf & Hsw & Hpr & Hla).
  assert (Ko : In k out).
  { refine (selected_out _ s0 Hf (lawful_operands _ _ (proj1 (proj1 (sh_bounds _ _ _ _ _ _ H))) (proj1 (proj2 (sh_bounds _ _ _ _ _ _ H)))) x_max _ _ (op_follows op) (Hreg _ _ _ _ _ _ H) s out pl Hsw Hpr Hla (Hstop _ _ _ _ _ _ H) _ Ks Kr). }
  destruct (sw_apart _ _ _ _ Hsw k i Ko Hi N) as [K|(_ & E & F & _)]; [destruct (K x Ok Oi); auto|exfalso].
  destruct (source i Hi) as (a & Ha & Wa), (source k Hkn) as (c & Hc & Wc).
  assert (Hc' : In c (own (negb (side i)))) by (replace (negb (side i)) with (side k) by (destruct (side i) eqn:Ea, (side k) eqn:Eb; cbn in *; congruence); exact Hc).
  destruct (overlap_endpoint a c (own_proper _ a Ha) (own_proper _ c Hc)) as (q & Qa & Qc & Ends).
  - exists (s_start (g k)), (s_end (g k)). split; [apply plt_neq, lt_ends, Hkn|]. rewrite <- E in Wa. split; [apply Wa, on_segment_start|]. split; [apply Wc, on_segment_start|]. split; [apply Wa, on_segment_end|apply Wc, on_segment_end].
  - destruct (own_strangers _ a c q Ha Hc' Qa Qc) as (Na & Nc). destruct Ends; contradiction.
Qed.
Lemma found : forall b a x, In a (own b) -> on_segment x a -> exists j, (j < n)%nat /\ side j = b /\ on_segment x (g j).
Proof.
  intros b a x Ha Ox. destruct (sh_sweep _ _ _ _ _ _ H) as (s0 & out & Hf & Hsw & Hpr & Hla). destruct (LinearMeaning.piece_at _ _ _ _ _ Hsw b a x Ha Ox) as (j & A & B & C & _). exists j. auto.
Qed.
Notation mid i := (Nesting.mid g i).
Lemma mid_facts : forall i, (i < n)%nat -> inside_segment (mid i) (g i) /\ plt (s_start (g i)) (mid i) /\ plt (mid i) (s_end (g i)).
Proof.
  intros i Hi. pose proof (lt_ends i Hi) as L. pose proof (middle_inside _ _ L) as M. split; [exact M|]. destruct M as (M1 & M2 & M3). unfold Nesting.mid. cbn [s_start s_end] in M2, M3.
  apply (on_segment_lex _ _ _ L) in M1. destruct M1 as (_ & A & B). apply ple_lt_eq in A. apply ple_lt_eq in B. split; [destruct A as [A|A]; [exact A|congruence]|destruct B as [B|B]; [exact B|congruence]].
Qed.
(** Pieces of the same edge follow each other. *)
Lemma not_along : forall i j a x, selected i -> (j < n)%nat -> i <> j -> within (g i) a -> within (g j) a -> proper a -> ple (s_start (g j)) x -> ple x (s_end (g j)) -> inside_segment x (g i) -> False.
Proof.
  intros i j a x Si Hj N Wi Wj Pa L1 L2 (X1 & X2 & X3). 
  assert (Ox : on_segment x (g j)).
  { assert (Eg : g j = Seg (s_start (g j)) (s_end (g j))) by (destruct (g j); reflexivity). rewrite Eg. apply (between_on a); [exact Pa|apply Wj, on_segment_start|apply Wj, on_segment_end|apply Wi, X1|exact L1|exact L2]. }
  destruct (selected_meet j i x Si Hj (not_eq_sym N) Ox X1) as (_ & [K|K]); [exact (X2 K)|exact (X3 K)].
Qed.
Lemma same_start : forall i j a, selected i -> selected j -> i <> j -> within (g i) a -> within (g j) a -> proper a -> s_start (g i) = s_start (g j) -> False.
Proof.
  intros i j a Si Sj N Wi Wj Pa E. pose proof (selected_lt i Si) as Hi. pose proof (selected_lt j Sj) as Hj. destruct (mid_facts i Hi) as (Mi & Ai & Bi), (mid_facts j Hj) as (Mj & Aj & Bj).
  assert (T : ple (s_end (g i)) (s_end (g j)) \/ ple (s_end (g j)) (s_end (g i))).
  { destruct (plt_total (s_end (g i)) (s_end (g j))) as [K|[K|K]]; [left; apply ple_lt_eq; left; exact K|left; apply ple_lt_eq; right; exact K|right; apply ple_lt_eq; left; exact K]. }
  destruct T as [T|T].
  - apply (not_along i j a (mid i) Si Hj N Wi Wj Pa); [rewrite <- E; apply ple_lt_eq; left; exact Ai| |exact Mi]. apply ple_lt_eq. left. apply ple_lt_eq in T. destruct T as [T|T]; [exact (plt_trans _ _ _ Bi T)|rewrite <- T; exact Bi].
  - apply (not_along j i a (mid j) Sj Hi (not_eq_sym N) Wj Wi Pa); [rewrite E; apply ple_lt_eq; left; exact Aj| |exact Mj]. apply ple_lt_eq. left. apply ple_lt_eq in T. destruct T as [T|T]; [exact (plt_trans _ _ _ Bj T)|rewrite <- T; exact Bj].
Qed.
Lemma same_end : forall i j a, selected i -> selected j -> i <> j -> within (g i) a -> within (g j) a -> proper a -> s_end (g i) = s_end (g j) -> False.
Proof.
  intros i j a Si Sj N Wi Wj Pa E. pose proof (selected_lt i Si) as Hi. pose proof (selected_lt j Sj) as Hj. destruct (mid_facts i Hi) as (Mi & Ai & Bi), (mid_facts j Hj) as (Mj & Aj & Bj).
  assert (T : ple (s_start (g j)) (s_start (g i)) \/ ple (s_start (g i)) (s_start (g j))).
  { destruct (plt_total (s_start (g j)) (s_start (g i))) as [K|[K|K]]; [left; apply ple_lt_eq; left; exact K|left; apply ple_lt_eq; right; exact K|right; apply ple_lt_eq; left; exact K]. }
  destruct T as [T|T].
  - apply (not_along i j a (mid i) Si Hj N Wi Wj Pa); [|rewrite <- E; apply ple_lt_eq; left; exact Bi|exact Mi]. apply ple_lt_eq. left. apply ple_lt_eq in T. destruct T as [T|T]; [exact (plt_trans _ _ _ T Ai)|rewrite T; exact Ai].
  - apply (not_along j i a (mid j) Sj Hi (not_eq_sym N) Wj Wi Pa); [|rewrite E; apply ple_lt_eq; left; exact Bj|exact Mj]. apply ple_lt_eq. left. apply ple_lt_eq in T. destruct T as [T|T]; [exact (plt_trans _ _ _ T Aj)|rewrite T; exact Aj].
Qed.
(** The middle of a selected piece. *)
Lemma mid_off : forall i c, selected i -> In c (own (negb (side i))) -> ~ on_segment (mid i) c.
Proof.
  intros i c Si Hc O. destruct (found _ c (mid i) Hc O) as (j & Hj & Sj & Oj). pose proof (selected_lt i Si) as Hi. destruct (mid_facts i Hi) as ((M1 & M2 & M3) & _).
  assert (N : j <> i) by (intros ->; destruct (side i); discriminate Sj).
  destruct (selected_meet j i (mid i) Si Hj N Oj M1) as (_ & [K|K]); [exact (M2 K)|exact (M3 K)].
Qed.
Lemma mid_free : forall i, selected i -> ~ piece_endpoint s (mid i).
Proof.
  intros i Si (ev & Rev & Eev). pose proof (selected_lt i Si) as Hi. destruct (mid_facts i Hi) as ((M1 & M2 & M3) & _).
  assert (K : exists k, (k < n)%nat /\ endpoint (mid i) (g k)).
  { destruct (sh_sweep _ _ _ _ _ _ H) as (s0 & out & _ & _ & Hpr & _). destruct (pr_wf _ _ _ _ Hpr) as (_ & W1 & W2). destruct ev as [k|r]; cbn in Rev, Eev.
    - exists k. split; [exact Rev|left; symmetry; exact Eev].
    - destruct (W2 r Rev) as (A & B). exists (r_left (rgt s r)). split; [exact A|right]. cbn. unfold end_of. rewrite B. symmetry. exact Eev. }
  destruct K as (k & Hk & Ek).
  assert (Ends : ~ endpoint (mid i) (g i)) by (intros [K|K]; [exact (M2 K)|exact (M3 K)]).
  destruct (Nat.eq_dec k i) as [->|N]; [exact (Ends Ek)|]. apply Ends. apply (selected_meet k i (mid i) Si Hk N); [|exact M1].
  destruct Ek as [->| ->]; [apply on_segment_start|apply on_segment_end].
Qed.
Lemma mid_own : forall i a, selected i -> In a (own (side i)) -> within (g i) a -> segments_through (own (side i)) (mid i) = 1%nat.
Proof.
  intros i a Si Ha Wa. pose proof (selected_lt i Si) as Hi. destruct (mid_facts i Hi) as (M & _ & _). pose proof M as (M1 & _).
  assert (Ia : inside_segment (mid i) a).
  { apply (between_inside a (s_start (g i)) (s_end (g i))); [intro E; pose proof (lt_ends i Hi) as L; rewrite E in L; exact (plt_irrefl _ L)|apply Wa, on_segment_start|apply Wa, on_segment_end|].
    destruct (g i); exact M. }
  unfold segments_through. rewrite (single_filter _ _ a); [reflexivity|exact (proj1 (own_sparse (side i)))|exact Ha|apply (through_spec a _ (own_proper _ a Ha)); apply Wa, M1|].
  intros c Hc Tc. apply (through_spec c _ (own_proper _ c Hc)) in Tc. destruct (segment_eq_dec c a) as [E|N]; [exact E|]. exfalso.
  destruct (proj1 (proj2 (own_sparse (side i))) a c (mid i) Ha Hc (not_eq_sym N) (Wa _ M1) Tc) as ([K|K] & _); [exact (proj1 (proj2 Ia) K)|exact (proj2 (proj2 Ia) K)].
Qed.
Lemma mid_other : forall i, selected i -> segments_through (own (negb (side i))) (mid i) = O.
Proof.
  intros i Si. unfold segments_through. rewrite none_filter; [reflexivity|]. intros c Hc. destruct (passes_through c (mid i)) eqn:E; [|reflexivity]. exfalso.
  apply (through_spec c _ (own_proper _ c Hc)) in E. exact (mid_off i c Si Hc E).
Qed.
Lemma mid_selected : forall i, selected i -> xorb (op_holds op (inside E1 (mid i)) (inside E2 (mid i))) (op_holds op (xorb (inside E1 (mid i)) (side i)) (xorb (inside E2 (mid i)) (negb (side i)))) = true.
Proof.
  intros i Si. pose proof (selected_lt i Si) as Hi. destruct (source i Hi) as (a & Ha & Wa). pose proof (result_sides _ _ _ _ _ _ H (mid i) (mid_free i Si)) as R. rewrite !above_flips in R.
  pose proof (mid_own i a Si Ha Wa) as T1. pose proof (mid_other i Si) as T2.
  assert (R' : segments_through (result_edges s pl) (mid i) <> O).
  { unfold segments_through. assert (K : In (g i) (filter (fun c => passes_through c (mid i)) (result_edges s pl))).
    { apply filter_In. split; [rewrite result_edges_ids; apply in_map, filter_In; split; [apply lefts_in_in; exact (proj1 Si)|exact (proj2 Si)]|].
      apply through_spec; [intro E; pose proof (lt_ends i Hi) as L; rewrite E in L; exact (plt_irrefl _ L)|]. apply (mid_facts i Hi). }
    destruct (filter (fun c => passes_through c (mid i)) (result_edges s pl)); [destruct K|discriminate]. }
  destruct (side i); cbn [negb] in *; rewrite T1, T2 in R; cbn [Nat.odd Nat.even negb] in R; rewrite Bool.xorb_false_r in *;
    match type of R with _ = if ?c then _ else _ => destruct c eqn:Ec end; try (rewrite R in R'; contradiction); cbn [Nat.odd] in Ec; rewrite ?Bool.xorb_false_r in *; first [exact Ec|reflexivity].
Qed.
(** Ends of pieces. *)
Lemma cut_off : forall i x c, selected i -> In c (own (negb (side i))) -> on_segment x (g i) -> on_segment x c -> endpoint x (g i).
Proof.
  intros i x c Si Hc Oi Oc. destruct (found _ c x Hc Oc) as (j & Hj & Sj & Oj). assert (N : j <> i) by (intros ->; destruct (side i); discriminate Sj).
  exact (proj2 (selected_meet j i x Si Hj N Oj Oi)).
Qed.
Lemma flip_across : forall i j a c, selected i -> selected j -> side i = side j -> In a (own (side i)) -> within (g i) a -> within (g j) a -> s_end (g i) = s_start (g j) -> In c (own (negb (side i))) -> on_segment (s_end (g i)) c ->
  inside (own (negb (side i))) (mid i) = negb (inside (own (negb (side i))) (mid j)).
Proof.
  intros i j a c Si Sj Es Ha Wi Wj Eq Hc Oc. pose proof (selected_lt i Si) as Hi. pose proof (selected_lt j Sj) as Hj. destruct (mid_facts i Hi) as (Mi & Ai & Bi), (mid_facts j Hj) as (Mj & Aj & Bj).
  pose proof (own_proper _ a Ha) as Pa. set (q := s_end (g i)) in *.
  assert (Oia : on_segment (mid i) a) by (apply Wi, (proj1 Mi)). assert (Oja : on_segment (mid j) a) by (apply Wj, (proj1 Mj)).
  assert (Oqa : on_segment q a) by apply Wi, on_segment_end.
  destruct (own_strangers _ a c q Ha Hc Oqa Oc) as (_ & Nc).
  assert (Bq : plt q (mid j)) by (rewrite Eq; exact Aj).
  assert (Lij : plt (mid i) (mid j)) by (exact (plt_trans _ _ _ Bi Bq)).
  assert (Only : forall k x, In k (own (negb (side i))) -> on_segment x (Seg (mid i) (mid j)) -> on_segment x k -> x = q).
  { intros k x Hk Ox Ok. assert (Oxa : on_segment x a) by exact (Toward.on_convex a _ _ _ Oia Oja Ox). apply (on_segment_lex _ _ _ Lij) in Ox. destruct Ox as (_ & L1 & L2).
    destruct (plt_total x q) as [K|[K|K]]; [exfalso|exact K|exfalso].
    - assert (Oxi : on_segment x (g i)).
      { assert (Eg : g i = Seg (s_start (g i)) q) by (unfold q; destruct (g i); reflexivity). rewrite Eg. apply (between_on a); [exact Pa|apply Wi, on_segment_start|exact Oqa|exact Oxa| |apply ple_lt_eq; left; exact K].
        apply ple_lt_eq. left. apply ple_lt_eq in L1. destruct L1 as [L1|L1]; [exact (plt_trans _ _ _ Ai L1)|rewrite <- L1; exact Ai]. }
      destruct (cut_off i x k Si Hk Oxi Ok) as [Z|Z]; [|fold q in Z; rewrite Z in K; exact (plt_irrefl _ K)].
      rewrite Z in L1. apply ple_lt_eq in L1. destruct L1 as [L1|L1]; [exact (plt_irrefl _ (plt_trans _ _ _ Ai L1))|rewrite L1 in Ai; exact (plt_irrefl _ Ai)].
    - assert (Oxj : on_segment x (g j)).
      { assert (Eg : g j = Seg q (s_end (g j))) by (rewrite Eq; destruct (g j); reflexivity). rewrite Eg. apply (between_on a); [exact Pa|exact Oqa|apply Wj, on_segment_end|exact Oxa|apply ple_lt_eq; left; exact K|].
        apply ple_lt_eq. left. apply ple_lt_eq in L2. destruct L2 as [L2|L2]; [exact (plt_trans _ _ _ L2 Bj)|rewrite L2; exact Bj]. }
      rewrite Es in Hk. destruct (cut_off j x k Sj Hk Oxj Ok) as [Z|Z]; [rewrite <- Eq in Z; rewrite Z in K; exact (plt_irrefl _ K)|].
      rewrite Z in L2. apply ple_lt_eq in L2. destruct L2 as [L2|L2]; [exact (plt_irrefl _ (plt_trans _ _ _ Bj L2))|rewrite <- L2 in Bj; exact (plt_irrefl _ Bj)]. }
  destruct (in_split _ _ Hc) as (u & v & Euv). pose proof (own_sparse (negb (side i))) as (Nd & Sp2 & _).
  assert (Pm : Permutation (own (negb (side i))) (c :: u ++ v)) by (rewrite Euv; apply Permutation_sym, Permutation_middle).
  rewrite !(inside_perm _ _ _ Pm). apply (flip c (u ++ v) q).
  - apply Forall_forall. intros k Hk. apply (own_proper (negb (side i))). apply (Permutation_in _ (Permutation_sym Pm)). exact Hk.
  - apply (Shapes.even_perm (endpoints_of (own (negb (side i))))); [|apply own_even]. unfold endpoints_of. apply Permutation_flat_map. exact Pm.
  - split; [exact Oc|]. split; intro Z; apply Nc; [left|right]; exact Z.
  - split; [apply (between_on a); [exact Pa|exact Oia|exact Oja|exact Oqa|apply ple_lt_eq; left; exact Bi|apply ple_lt_eq; left; exact Bq]|]. cbn [s_start s_end]. split; intro Z; [rewrite Z in Bi; exact (plt_irrefl _ Bi)|rewrite Z in Bq; exact (plt_irrefl _ Bq)].
  - intros x A B. exact (Only c x Hc A B).
  - intros k Hk x A B. assert (Hk' : In k (own (negb (side i)))) by (apply (Permutation_in _ (Permutation_sym Pm)); right; exact Hk). pose proof (Only k x Hk' A B) as Z. subst x.
    assert (N : k <> c). { intros ->. rewrite Euv in Nd. apply NoDup_remove_2 in Nd. exact (Nd Hk). }
    apply Nc. exact (proj2 (Sp2 k c q Hk' Hc N B Oc)).
Qed.
Hypothesis Hop : op <> Differ.
Lemma no_across : forall i j a c, selected i -> selected j -> side i = side j -> In a (own (side i)) -> within (g i) a -> within (g j) a -> s_end (g i) = s_start (g j) -> In c (own (negb (side i))) -> on_segment (s_end (g i)) c -> False.
Proof.
  intros i j a c Si Sj Es Ha Wi Wj Eq Hc Oc. pose proof (flip_across i j a c Si Sj Es Ha Wi Wj Eq Hc Oc) as F. pose proof (mid_selected i Si) as A. pose proof (mid_selected j Sj) as B. rewrite <- Es in B.
  destruct (side i); cbn [negb] in *; destruct op; try congruence; cbn [op_holds] in A, B; destruct (inside E1 (mid i)), (inside E2 (mid i)), (inside E1 (mid j)), (inside E2 (mid j)); discriminate.
Qed.
Lemma endpoint_on : forall q sg, endpoint q sg -> on_segment q sg.
Proof. intros q sg [->| ->]; [apply on_segment_start|apply on_segment_end]. Qed.
Lemma same_edge : forall b i j a c q, In a (own b) -> In c (own b) -> within (g i) a -> within (g j) c -> endpoint q (g i) -> endpoint q (g j) -> ~ endpoint q a -> a = c.
Proof.
  intros b i j a c q Ha Hc Wi Wj Ei Ej N. destruct (segment_eq_dec a c) as [E|D]; [exact E|]. exfalso. apply N. exact (proj1 (proj1 (proj2 (own_sparse b)) a c q Ha Hc D (Wi _ (endpoint_on _ _ Ei)) (Wj _ (endpoint_on _ _ Ej)))).
Qed.
Lemma pair_across : forall i j c q, selected i -> selected j -> i <> j -> side i = side j -> endpoint q (g i) -> endpoint q (g j) -> In c (own (negb (side i))) -> on_segment q c -> False.
Proof.
  intros i j c q Si Sj N Es Ei Ej Hc Oc. destruct (source i (selected_lt i Si)) as (a & Ha & Wi). destruct (source j (selected_lt j Sj)) as (a' & Ha' & Wj). rewrite <- Es in Ha'.
  pose proof (own_strangers _ a c q Ha Hc (Wi _ (endpoint_on _ _ Ei)) Oc) as (Na & _).
  pose proof (same_edge _ i j a a' q Ha Ha' Wi Wj Ei Ej Na) as <-. pose proof (own_proper _ a Ha) as Pa.
  destruct Ei as [Ei|Ei], Ej as [Ej|Ej].
  - apply (same_start i j a Si Sj N Wi Wj Pa). congruence.
  - apply (no_across j i a c Sj Si (eq_sym Es)); [rewrite <- Es; exact Ha|exact Wj|exact Wi|congruence|rewrite <- Es; exact Hc|congruence].
  - apply (no_across i j a c Si Sj Es Ha Wi Wj); [congruence|exact Hc|congruence].
  - apply (same_end i j a Si Sj N Wi Wj Pa). congruence.
Qed.
Lemma same_ends : forall i j a q, selected i -> selected j -> i <> j -> within (g i) a -> within (g j) a -> proper a -> endpoint q a -> endpoint q (g i) -> endpoint q (g j) -> False.
Proof.
  intros i j a q Si Sj N Wi Wj Pa Ea Ei Ej.
  assert (Across : forall i j, selected i -> selected j -> within (g i) a -> within (g j) a -> s_end (g i) = q -> s_start (g j) = q -> False).
  { clear - H Pa Ea. intros i j Si Sj Wi Wj A B. pose proof (lt_ends i (selected_lt i Si)) as Li. pose proof (lt_ends j (selected_lt j Sj)) as Lj. rewrite A in Li. rewrite B in Lj.
    pose proof (Wi _ (on_segment_start (g i))) as Oi. pose proof (Wj _ (on_segment_end (g j))) as Oj. destruct a as [u v]. cbn [s_start s_end endpoint] in *.
    destruct (plt_total u v) as [L|[L|L]]; [|exact (Pa L)|].
    - apply (on_segment_lex _ _ _ L) in Oi. apply (on_segment_lex _ _ _ L) in Oj.
      destruct Oi as (_ & I1 & I2), Oj as (_ & J1 & J2). destruct Ea as [Ea|Ea]; subst q.
      + exact (I1 Li). + exact (J2 Lj).
    - assert (Sym : forall x, on_segment x (Seg u v) -> on_segment x (Seg v u)) by (intros x Hx; apply (on_reversed (Seg u v)); exact Hx).
      apply Sym, (on_segment_lex _ _ _ L) in Oi. apply Sym, (on_segment_lex _ _ _ L) in Oj.
      destruct Oi as (_ & I1 & I2), Oj as (_ & J1 & J2). destruct Ea as [Ea|Ea]; subst q.
      + exact (J2 Lj). + exact (I1 Li). }
  destruct Ei as [Ei|Ei], Ej as [Ej|Ej].
  - apply (same_start i j a Si Sj N Wi Wj Pa). congruence.
  - apply (Across j i Sj Si Wj Wi); congruence.
  - apply (Across i j Si Sj Wi Wj); congruence.
  - apply (same_end i j a Si Sj N Wi Wj Pa). congruence.
Qed.
Lemma three_along : forall i j k q, selected i -> selected j -> selected k -> i <> j -> i <> k -> j <> k -> side i = side j -> side i = side k -> endpoint q (g i) -> endpoint q (g j) -> endpoint q (g k) -> False.
Proof.
  intros i j k q Si Sj Sk Nij Nik Njk Ej' Ek' Ei Ej Ek. destruct (source i (selected_lt i Si)) as (a & Ha & Wi). destruct (source j (selected_lt j Sj)) as (b & Hb & Wj). destruct (source k (selected_lt k Sk)) as (c & Hc & Wk). rewrite <- Ej' in Hb. rewrite <- Ek' in Hc.
  pose proof (own_proper _ a Ha) as Pa. pose proof (own_proper _ b Hb) as Pb.
  assert (Dec : endpoint q a \/ ~ endpoint q a).
  { unfold endpoint. destruct (pt_eq_dec q (s_start a)); [tauto|]. destruct (pt_eq_dec q (s_end a)); tauto. }
  destruct Dec as [Ea|Na].
  - assert (Eb : forall y d, In d (own (side i)) -> within (g y) d -> endpoint q (g y) -> endpoint q d).
    { intros y d Hd Wy Ey. destruct (segment_eq_dec d a) as [->|D]; [exact Ea|]. exact (proj1 (proj1 (proj2 (own_sparse _)) d a q Hd Ha D (Wy _ (endpoint_on _ _ Ey)) (endpoint_on _ _ Ea))). }
    pose proof (Eb j b Hb Wj Ej) as Ebb. pose proof (Eb k c Hc Wk Ek) as Ecc.
    destruct (proj2 (proj2 (own_sparse (side i))) a b c q Ha Hb Hc Ea Ebb Ecc) as [<-|[<-|<-]].
    + exact (same_ends i j a q Si Sj Nij Wi Wj Pa Ea Ei Ej).
    + exact (same_ends i k a q Si Sk Nik Wi Wk Pa Ea Ei Ek).
    + exact (same_ends j k b q Sj Sk Njk Wj Wk Pb Ebb Ej Ek).
  - pose proof (same_edge _ i j a b q Ha Hb Wi Wj Ei Ej Na) as <-. pose proof (same_edge _ i k a c q Ha Hc Wi Wk Ei Ek Na) as <-.
    assert (Two : (s_start (g i) = s_start (g j) \/ s_end (g i) = s_end (g j)) \/ (s_start (g i) = s_start (g k) \/ s_end (g i) = s_end (g k)) \/ (s_start (g j) = s_start (g k) \/ s_end (g j) = s_end (g k))).
    { destruct Ei as [Ei|Ei], Ej as [Ej|Ej], Ek as [Ek|Ek]; rewrite <- ?Ei, <- ?Ej, <- ?Ek; tauto. }
    destruct Two as [[E|E]|[[E|E]|[E|E]]].
    + exact (same_start i j a Si Sj Nij Wi Wj Pa E). + exact (same_end i j a Si Sj Nij Wi Wj Pa E).
    + exact (same_start i k a Si Sk Nik Wi Wk Pa E). + exact (same_end i k a Si Sk Nik Wi Wk Pa E).
    + exact (same_start j k a Sj Sk Njk Wj Wk Pa E). + exact (same_end j k a Sj Sk Njk Wj Wk Pa E).
Qed.
(** At most two selected pieces end in a point. *)
Theorem degree : forall i j k q, selected i -> selected j -> selected k -> i <> j -> i <> k -> j <> k -> endpoint q (g i) -> endpoint q (g j) -> endpoint q (g k) -> False.
Proof.
  assert (Mixed : forall i j k q, selected i -> selected j -> selected k -> i <> j -> side i = side j -> side k = negb (side i) -> endpoint q (g i) -> endpoint q (g j) -> endpoint q (g k) -> False).
  { intros i j k q Si Sj Sk N Es Ek' Ei Ej Ek. destruct (source k (selected_lt k Sk)) as (c & Hc & Wk). rewrite Ek' in Hc. exact (pair_across i j c q Si Sj N Es Ei Ej Hc (Wk _ (endpoint_on _ _ Ek))). }
  intros i j k q Si Sj Sk Nij Nik Njk Ei Ej Ek.
  destruct (Bool.bool_dec (side i) (side j)) as [A|A]; [destruct (Bool.bool_dec (side i) (side k)) as [B|B]|destruct (Bool.bool_dec (side i) (side k)) as [B|B]].
  - exact (three_along i j k q Si Sj Sk Nij Nik Njk A B Ei Ej Ek).
  - apply (Mixed i j k q); try assumption. destruct (side i), (side k); cbn; congruence.
  - apply (Mixed i k j q); try assumption. destruct (side i), (side j); cbn; congruence.
  - apply (Mixed j k i q); try assumption; destruct (side i), (side j), (side k); cbn; congruence.
Qed.
End Degree.
