(** Events of the result of a sweep are in the order walks around their
    starts need.  Proof support only, no part of /repo is modelled here. *)
From Coq Require Import Permutation Sorted.
From Verif Require Import QcTac Geom Spec SpecShape SpecSides GeomFacts EvenOdd Flip SortFacts Toward Bounding BoundingThms Relation PairFacts SweepGeo SweepInv SweepSteps Sweep SweepCmp SweepLink Linear SweepRun SweepLoop SweepStart SweepEnd SelectThms LinearMeaning LinearThms LinearComplete Contour Labelled Filter Mixed Shaped Parity Counting ShrinkThms ConnectThms Tracing TraceThms RegionThms OrientThms PairThms Erase Flow Labels LabelEnd Outline Classify Telescope Polygons Sides EvenStraight MixedThms MixedComplete ShapedThms ShapedProps Lonely Faces.

Section Tidy.
Variables (op : operation) (E1 E2 : list segment) (x_max : option Qc) (s : state) (pl : list event).
Hypothesis H : shaped_swept op E1 E2 x_max s pl.
Variable events : list event.
Hypothesis Hperm : Permutation events pl.
Notation evs := (result_events s events).
Notation ts := (map (traced_of s events) evs).
Notation ev_at i := (nth i evs (EL 0)).

Lemma evs_left : forall ev, In ev evs -> In (EL (left_of s ev)) pl /\ l_result (lft s (left_of s ev)) = true.
Proof.
  intros ev He. apply (evs_in s pl events Hperm) in He. destruct He as (A & B). split; [|exact B].
  destruct ev as [i|r]; [exact A|exact (result_right _ _ _ _ _ _ H r A)].
Qed.
Lemma left_lt : forall i, (i < length (lefts s))%nat -> plt (l_start (lft s i)) (end_of s i).
Proof. intros i Hi. destruct (sh_sweep _ _ _ _ _ _ H) as (s0 & out & _ & Hsw & _). exact (sw_plt _ _ _ _ Hsw i Hi). Qed.
(** Pieces of the result meet at their ends only. *)
Lemma pieces_apart : forall a b, In a evs -> In b evs -> b <> a -> b <> opposite s a -> forall p,
  on_segment p (ev_segment s a) -> on_segment p (ev_segment s b) ->
  (p = ev_start s a \/ p = ev_end s a) /\ (p = ev_start s b \/ p = ev_end s b).
Proof.
  intros a b Ha Hb N1 N2 p Pa Pb.
  pose proof (evs_range _ _ _ _ _ _ H _ Hperm a Ha) as Ra. pose proof (evs_range _ _ _ _ _ _ H _ Hperm b Hb) as Rb.
  destruct (evs_left a Ha) as (La & Sa), (evs_left b Hb) as (Lb & Sb).
  assert (Nl : left_of s b <> left_of s a).
  { intro E. destruct (same_left _ _ _ _ _ _ H a b Ra Rb (eq_sym E)); contradiction. }
  rewrite (ev_segment_on _ _ _ _ _ _ H a p Ra) in Pa. rewrite (ev_segment_on _ _ _ _ _ _ H b p Rb) in Pb.
  pose proof (result_apart _ _ _ _ _ _ H _ _ La Lb Sa Sb (not_eq_sym Nl)) as Ap.
  destruct (sh_sweep _ _ _ _ _ _ H) as (s0 & out & Hf & Hsw & Hpr & Hla).
  assert (Oa : In (left_of s a) out).
  { refine (selected_out _ s0 Hf (lawful_operands _ _ (proj1 (proj1 (sh_bounds _ _ _ _ _ _ H))) (proj1 (proj2 (sh_bounds _ _ _ _ _ _ H)))) x_max _ _ (op_follows op) (Hreg _ _ _ _ _ _ H) s out pl Hsw Hpr Hla (Hstop _ _ _ _ _ _ H) _ La Sa). }
  assert (Q : endpoint p (seg_of s (left_of s a)) /\ endpoint p (seg_of s (left_of s b))).
  { destruct (sw_apart _ _ _ _ Hsw (left_of s a) (left_of s b) Oa (events_range _ _ _ _ _ _ H _ Lb) Nl) as [K|(_ & E & _)]; [exact (K p Pa Pb)|].
    exfalso. apply Ap. rewrite <- E. exists (s_start (seg_of s (left_of s a))), (s_end (seg_of s (left_of s a))).
    pose proof (left_lt _ (events_range _ _ _ _ _ _ H _ La)) as L. split; [intro K; cbn in K; rewrite K in L; exact (plt_irrefl _ L)|].
    repeat split; (apply on_segment_start || apply on_segment_end). }
  destruct Q as (Qa & Qb).
  assert (G : forall ev, in_range s ev -> endpoint p (seg_of s (left_of s ev)) -> p = ev_start s ev \/ p = ev_end s ev).
  { intros ev Re Q. pose proof (ev_segment_cases _ _ _ _ _ _ H ev Re) as C. unfold ev_segment in C. destruct Q as [Q|Q], C as [C|C]; unfold reversed in C; injection C as C1 C2; cbn in Q; rewrite Q; auto. }
  split; apply G; assumption.
Qed.
Lemma ev_lt : forall ev, in_range s ev -> if is_left ev then plt (ev_start s ev) (ev_end s ev) else plt (ev_end s ev) (ev_start s ev).
Proof.
  intros [i|r] R; cbn [is_left ev_start ev_end]; [exact (left_lt i R)|].
  destruct (sh_sweep _ _ _ _ _ _ H) as (s0 & out & _ & _ & Hpr & _). destruct (proj2 (proj2 (pr_wf _ _ _ _ Hpr)) r R) as (A & B).
  pose proof (left_lt _ A) as L. unfold end_of in L. rewrite B in L. exact L.
Qed.
Lemma cross_flip : forall a b c, cross a c b = - cross a b c.
Proof. intros. unfold cross. ring. Qed.
Lemma lt_ple : forall p q, plt p q -> ple p q.
Proof. intros p q L. apply ple_lt_eq. left. exact L. Qed.
Lemma pt_lt_dec : forall p q, plt p q \/ ple q p.
Proof. intros p q. destruct (pt_ltb p q) eqn:E; [left; apply pt_ltb_true; exact E|right; apply pt_ltb_false; exact E]. Qed.
Lemma fan_on : forall p u v, cross p u v = 0 -> (plt p u /\ plt p v) \/ (plt u p /\ plt v p) -> on_segment u (Seg p v) \/ on_segment v (Seg p u).
Proof.
  intros p u v C [(A & B)|(A & B)].
  - destruct (pt_lt_dec v u) as [L|L].
    + right. apply (on_segment_lex _ _ _ A). split; [exact C|split; apply lt_ple; assumption].
    + left. apply (on_segment_lex _ _ _ B). split; [rewrite cross_flip, C; ring|split; [apply lt_ple; exact A|exact L]].
  - destruct (pt_lt_dec v u) as [L|L].
    + left. apply (on_reversed (Seg p v)). unfold reversed. cbn. apply (on_segment_lex _ _ _ B). split; [|split; apply lt_ple; assumption].
      rewrite <- C. unfold cross. ring.
    + right. apply (on_reversed (Seg p u)). unfold reversed. cbn. apply (on_segment_lex _ _ _ A). split; [|split; [exact L|apply lt_ple; exact B]].
      transitivity (- cross p u v); [unfold cross; ring|rewrite C; ring].
Qed.
(** No two events of the result go the same way from a point. *)
Lemma ways_differ : forall a b, In a evs -> In b evs -> a <> b -> is_left a = is_left b -> ev_start s a = ev_start s b ->
  cross (ev_start s a) (ev_end s a) (ev_end s b) <> 0.
Proof.
  intros a b Ha Hb N L E C.
  pose proof (evs_range _ _ _ _ _ _ H _ Hperm a Ha) as Ra. pose proof (evs_range _ _ _ _ _ _ H _ Hperm b Hb) as Rb.
  assert (No : b <> opposite s a).
  { intro K. rewrite K in L. rewrite (proj2 (opposite_other s a)) in L. destruct (is_left a); discriminate L. }
  pose proof (pieces_apart a b Ha Hb (not_eq_sym N) No) as PA. unfold ev_segment in PA. rewrite <- E in PA.
  pose proof (ev_lt a Ra) as La. pose proof (ev_lt b Rb) as Lb. rewrite <- L, <- E in Lb.
  assert (D : (plt (ev_start s a) (ev_end s a) /\ plt (ev_start s a) (ev_end s b)) \/ (plt (ev_end s a) (ev_start s a) /\ plt (ev_end s b) (ev_start s a)))
    by (destruct (is_left a); auto).
  assert (Eq : ev_end s a = ev_end s b).
  { destruct (fan_on _ _ _ C D) as [K|K].
    - destruct (PA (ev_end s a) (on_segment_end (Seg _ _)) K) as (_ & [J|J]); [|exact J]. exfalso. rewrite J in La. destruct (is_left a); exact (plt_irrefl _ La).
    - destruct (PA (ev_end s b) K (on_segment_end (Seg _ _))) as ([J|J] & _); [|symmetry; exact J]. exfalso. rewrite J in Lb. destruct (is_left a); exact (plt_irrefl _ Lb). }
  destruct (evs_left a Ha) as (A & Sa), (evs_left b Hb) as (B & Sb).
  assert (Nl : left_of s b <> left_of s a).
  { intro K. destruct (same_left _ _ _ _ _ _ H a b Ra Rb (eq_sym K)); [congruence|contradiction]. }
  apply (result_apart _ _ _ _ _ _ H _ _ A B Sa Sb (not_eq_sym Nl)). exists (ev_start s a), (ev_end s a).
  split; [intro K; rewrite K in La; destruct (is_left a); exact (plt_irrefl _ La)|].
  rewrite <- !(ev_segment_on _ _ _ _ _ _ H a _ Ra), <- !(ev_segment_on _ _ _ _ _ _ H b _ Rb). unfold ev_segment. rewrite <- E, <- Eq.
  repeat split; (apply (on_segment_start (Seg _ _)) || apply (on_segment_end (Seg _ _))).
Qed.

(** The order of the events. *)
Definition quiet : state := State (lefts s) (rights s) [] [].
Definition on_evs (ev : event) : Prop := In ev evs.
Definition all_starts : list point :=
  map (fun i => ev_start s (EL i)) (seq 0 (length (lefts s))) ++ map (fun r => ev_start s (ER r)) (seq 0 (length (rights s))).
Lemma start_listed : forall ev, in_range s ev -> In (ev_start s ev) all_starts.
Proof.
  intros [i|r] R; unfold all_starts; apply in_or_app; [left; apply (in_map (fun i => ev_start s (EL i)))|right; apply (in_map (fun i => ev_start s (ER i)))]; apply in_seq; cbn in R; lia.
Qed.
Lemma quiet_wf : wf quiet.
Proof.
  destruct (sh_sweep _ _ _ _ _ _ H) as (s0 & out & _ & _ & Hpr & _). destruct (pr_wf _ _ _ _ Hpr) as (A & B & C).
  constructor; [exact A|exact B|exact C|]. intros ev [].
Qed.
Lemma end_listed : forall ev, in_range s ev -> In (ev_end s ev) all_starts.
Proof. intros ev R. rewrite <- (opposite_start s ev R). apply start_listed. exact (proj1 (opposite_range _ _ _ _ _ _ H ev R)). Qed.
Section Sheared.
Variable e : Qc.
Hypothesis He : Sheared e all_starts.
Lemma piece_up : forall ev, in_range s ev -> lo (pc e quiet (left_of quiet ev)) < hi (pc e quiet (left_of quiet ev)).
Proof.
  intros ev R. assert (K : (left_of s ev < length (lefts s))%nat).
  { destruct ev as [i|r]; [exact R|]. exact (proj1 (w_rl _ quiet_wf r R)). }
  change (pos e (l_start (lft s (left_of s ev))) < pos e (end_of s (left_of s ev))).
  apply He; [exact (start_listed (EL (left_of s ev)) K)| |exact (left_lt _ K)].
  exact (start_listed (ER (l_right (lft s (left_of s ev)))) (proj1 (w_lr _ quiet_wf _ K))).
Qed.
Lemma not_tied : forall a b, In a evs -> In b evs -> a <> b ->
  fst (evn quiet a) = fst (evn quiet b) ->
  (if fst (evn quiet a) then lo (pc e quiet (snd (evn quiet a))) = lo (pc e quiet (snd (evn quiet b))) else hi (pc e quiet (snd (evn quiet a))) = hi (pc e quiet (snd (evn quiet b)))) ->
  sl (pc e quiet (snd (evn quiet a))) <> sl (pc e quiet (snd (evn quiet b))).
Proof.
  intros a b Ha Hb N L P S. rewrite !evn_left in *. cbn [fst snd] in *.
  pose proof (evs_range _ _ _ _ _ _ H _ Hperm a Ha) as Ra. pose proof (evs_range _ _ _ _ _ _ H _ Hperm b Hb) as Rb.
  pose proof (ev_start_pos e quiet a quiet_wf Ra) as Pa. pose proof (ev_start_pos e quiet b quiet_wf Rb) as Pb. rewrite <- L in Pb.
  assert (Ep : pos e (ev_start quiet a) = pos e (ev_start quiet b)) by (rewrite Pa, Pb; destruct (is_left a); exact P).
  assert (Es : ev_start s a = ev_start s b) by (exact (proj2 (sheared_eq e all_starts He _ _ (start_listed _ Ra) (start_listed _ Rb)) Ep)).
  apply (ways_differ a b Ha Hb N L Es).
  rewrite (ev_slope e quiet a quiet_wf Ra (piece_up a Ra)), (ev_slope e quiet b quiet_wf Rb (piece_up b Rb)) in S.
  change (ev_start quiet a) with (ev_start s a) in *. change (ev_end quiet a) with (ev_end s a) in *.
  change (ev_start quiet b) with (ev_start s b) in *. change (ev_end quiet b) with (ev_end s b) in *. rewrite <- Es in S.
  assert (De : forall ev, in_range s ev -> pos e (ev_end s ev) <> pos e (ev_start s ev)).
  { intros ev R K. apply (proj2 (sheared_eq e all_starts He _ _ (end_listed _ R) (start_listed _ R))) in K. pose proof (ev_lt ev R) as J. rewrite K in J. destruct (is_left ev); exact (plt_irrefl _ J). }
  rewrite (cross_slopes e), S; [ring|exact (De a Ra)|]. rewrite Es. exact (De b Rb).
Qed.
Notation less a b := (kless (pc e quiet) (evn quiet a) (evn quiet b)).
Definition strictly (a b : event) : bool := if event_eqb a b then false else binary_key_ltb s a b.
Lemma key_less : forall a b, In a evs -> In b evs -> (strictly a b = true <-> less a b).
Proof.
  intros a b Ha Hb. pose proof (evs_range _ _ _ _ _ _ H _ Hperm a Ha) as Ra. pose proof (evs_range _ _ _ _ _ _ H _ Hperm b Hb) as Rb.
  unfold strictly. destruct (event_eqb_spec a b) as [<-|N].
  - split; [discriminate|]. intro K. destruct (kless_irrefl _ _ K).
  - apply (key_ltb_kless e all_starts quiet a b He quiet_wf Ra Rb (piece_up a Ra) (piece_up b Rb) (start_listed _ Ra) (start_listed _ Rb)).
    intros (A & B & C & _). exact (not_tied a b Ha Hb N A B C).
Qed.
Lemma less_total : forall a b, In a evs -> In b evs -> a <> b -> less a b \/ less b a.
Proof.
  intros a b Ha Hb N. destruct (kless_total (pc e quiet) (evn quiet a) (evn quiet b)) as [K|[K|(A & B & C & _)]]; auto.
  destruct (not_tied a b Ha Hb N A B C).
Qed.
Lemma insert_strictly : forall x l, ~ In x l -> insert_sorted (binary_key_ltb s) x l = insert_sorted strictly x l.
Proof.
  intros x l. induction l as [|y l IH]; intro N; [reflexivity|]. cbn [insert_sorted]. rewrite IH by (intro K; apply N; right; exact K).
  assert (E : strictly y x = binary_key_ltb s y x) by (unfold strictly; destruct (event_eqb_spec y x) as [->|_]; [destruct N; left; reflexivity|reflexivity]).
  rewrite E. reflexivity.
Qed.
Lemma sort_strictly : forall l, NoDup l -> sort_by (binary_key_ltb s) l = sort_by strictly l.
Proof.
  intros l N. induction N as [|x l Nx N IH]; [reflexivity|]. cbn [sort_by fold_right]. unfold sort_by in IH. rewrite IH. apply insert_strictly.
  intro K. apply Nx. exact (proj1 (sort_by_in strictly l x) K).
Qed.
Lemma evs_less : StronglySorted (fun a b => less a b) evs.
Proof.
  pose proof (evs_nodup _ _ _ _ _ _ H _ Hperm) as Nd.
  assert (G : StronglySorted (fun a b => strictly b a = false) evs).
  { unfold result_events. rewrite sort_strictly.
    2: { apply NoDup_filter. apply (Permutation_NoDup (Permutation_sym Hperm)). exact (events_nodup _ _ _ _ _ _ H). }
    apply (sort_by_sorted strictly (fun ev => In ev evs)).
    - intros x y z Dx Dy Dz A B. destruct (strictly z x) eqn:K; [|reflexivity]. exfalso. apply (key_less z x Dz Dx) in K.
      destruct (event_eqb_spec x y) as [<-|Nxy]; [apply (key_less z x Dz Dx) in K; congruence|].
      destruct (event_eqb_spec y z) as [<-|Nyz]; [apply (key_less y x Dy Dx) in K; congruence|].
      destruct (less_total x y Dx Dy Nxy) as [L|L]; [|apply (key_less y x Dy Dx) in L; congruence].
      destruct (less_total y z Dy Dz Nyz) as [M|M]; [|apply (key_less z y Dz Dy) in M; congruence].
      exact (kless_irrefl _ _ (kless_trans _ _ _ _ K (kless_trans _ _ _ _ L M))).
    - intros x y Dx Dy A. apply (key_less x y Dx Dy) in A. destruct (strictly y x) eqn:K; [|reflexivity]. apply (key_less y x Dy Dx) in K.
      destruct (kless_irrefl _ _ (kless_trans _ _ _ _ A K)).
    - apply Forall_forall. intros x Hx. unfold result_events. apply sort_by_in. exact Hx. }
  assert (I : forall x, In x evs -> In x evs) by auto. revert Nd I G. generalize evs at 1 2 4 5. intro l.
  induction l as [|x l IH]; intros Nd I G; [constructor|]. inversion Nd as [|? ? N1 N2]. inversion G as [|? ? G1 G2]. subst.
  constructor; [exact (IH N2 (fun y Hy => I y (or_intror Hy)) G1)|].
  rewrite Forall_forall in *. intros y Hy. pose proof (I x (or_introl eq_refl)) as Dx. pose proof (I y (or_intror Hy)) as Dy.
  destruct (less_total x y Dx Dy) as [L|L]; [intros ->; contradiction|exact L|]. apply (key_less y x Dy Dx) in L. rewrite (G2 y Hy) in L. discriminate L.
Qed.
Lemma at_less : forall i j, (i < j)%nat -> (j < length evs)%nat -> less (ev_at i) (ev_at j).
Proof.
  pose proof evs_less as G. revert G. generalize evs. intro l. induction l as [|x l IH]; intros G i j Hij Hj; [cbn in Hj; lia|].
  inversion G as [|? ? G1 G2]. subst. destruct j as [|j]; [lia|]. cbn [length] in Hj. destruct i as [|i].
  - rewrite Forall_forall in G2. cbn [nth]. apply G2. apply nth_In. lia.
  - apply (IH G1 i j); lia.
Qed.
Lemma less_at : forall i j, (i < length evs)%nat -> (j < length evs)%nat -> less (ev_at i) (ev_at j) -> (i < j)%nat.
Proof.
  intros i j Hi Hj L. destruct (Nat.lt_trichotomy i j) as [K|[->|K]]; [exact K|destruct (kless_irrefl _ _ L)|].
  destruct (kless_irrefl _ _ (kless_trans _ _ _ _ L (at_less j i K Hi))).
Qed.
End Sheared.

Theorem ts_tidy : tidy ts.
Proof.
  assert (Len : length ts = length evs) by apply ts_length.
  assert (In_at : forall i, (i < length ts)%nat -> In (ev_at i) evs) by (apply ev_at_in).
  assert (Rg : forall i, (i < length ts)%nat -> in_range s (ev_at i)) by (intros i Hi; exact (evs_range _ _ _ _ _ _ H _ Hperm _ (In_at i Hi))).
  assert (St : forall i, (i < length ts)%nat -> t_start (tev ts i) = ev_start s (ev_at i)) by (intros i Hi; rewrite (ts_at s events i Hi); reflexivity).
  assert (En : forall i, (i < length ts)%nat -> t_end (tev ts i) = ev_end s (ev_at i)).
  { intros i Hi. rewrite (ts_at s events i Hi). cbn [t_end traced_of]. exact (opposite_start s _ (Rg i Hi)). }
  assert (Lf : forall i, (i < length ts)%nat -> t_left (tev ts i) = is_left (ev_at i)) by (intros i Hi; rewrite (ts_at s events i Hi); reflexivity).
  constructor.
  - intros i Hi. destruct (ts_opp _ _ _ _ _ _ H _ Hperm i Hi) as (A & B). rewrite (Lf i Hi), (Lf _ A), B. exact (proj2 (opposite_other s _)).
  - intros i Hi. rewrite (Lf i Hi), (St i Hi), (En i Hi). intro L. pose proof (ev_lt _ (Rg i Hi)) as K. rewrite L in K. exact K.
  - intros i j p Hi Hj N1 N2. rewrite (ts_edge _ _ _ _ _ _ H _ Hperm i Hi), (ts_edge _ _ _ _ _ _ H _ Hperm j Hj), (St i Hi), (St j Hj), (En i Hi), (En j Hj).
    apply (pieces_apart _ _ (In_at i Hi) (In_at j Hj)).
    + intro K. apply N1. exact (at_eq _ _ _ _ _ _ H _ Hperm j i Hj Hi K).
    + intro K. apply N2. destruct (ts_opp _ _ _ _ _ _ H _ Hperm i Hi) as (A & B). rewrite <- B in K. exact (at_eq _ _ _ _ _ _ H _ Hperm j _ Hj A K).
  - intros i j Hij Hj. assert (Hi : (i < length ts)%nat) by lia. rewrite (St i Hi), (St j Hj), (En i Hi), (En j Hj), (Lf i Hi), (Lf j Hj). intro E.
    destruct (shear_exists all_starts) as (e & _ & He). pose proof (at_less e He i j Hij (eq_ind _ _ Hj _ Len)) as L. unfold kless in L. cbv zeta in L.
    rewrite !evn_left in L. cbn [fst snd] in L.
    pose proof (ev_start_pos e quiet (ev_at i) quiet_wf (Rg i Hi)) as Pi. pose proof (ev_start_pos e quiet (ev_at j) quiet_wf (Rg j Hj)) as Pj.
    change (left_of quiet (ev_at i)) with (left_of s (ev_at i)) in *. change (left_of quiet (ev_at j)) with (left_of s (ev_at j)) in *.
    rewrite <- Pi, <- Pj in L. change (ev_start quiet (ev_at i)) with (ev_start s (ev_at i)) in *. change (ev_start quiet (ev_at j)) with (ev_start s (ev_at j)) in *.
    destruct L as [L|(_ & L)]; [rewrite E in L; exfalso; qlra|].
    split; [intro K; destruct L as [(L & _)|(L & _)]; congruence|].
    intro K. destruct L as [(L1 & L2)|(_ & L)]; [congruence|].
    pose proof (ways_differ _ _ (In_at i Hi) (In_at j Hj)) as W.
    assert (Nij : ev_at i <> ev_at j) by (intro Q; pose proof (at_eq _ _ _ _ _ _ H _ Hperm i j Hi Hj Q); lia).
    specialize (W Nij K E).
    pose proof (ev_slope e quiet _ quiet_wf (Rg i Hi) (piece_up e He _ (Rg i Hi))) as Si.
    pose proof (ev_slope e quiet _ quiet_wf (Rg j Hj) (piece_up e He _ (Rg j Hj))) as Sj.
    change (left_of quiet (ev_at i)) with (left_of s (ev_at i)) in *. change (left_of quiet (ev_at j)) with (left_of s (ev_at j)) in *.
    rewrite Si, Sj in L.
    change (ev_start quiet (ev_at i)) with (ev_start s (ev_at i)) in *. change (ev_start quiet (ev_at j)) with (ev_start s (ev_at j)) in *.
    change (ev_end quiet (ev_at i)) with (ev_end s (ev_at i)) in *. change (ev_end quiet (ev_at j)) with (ev_end s (ev_at j)) in *.
    rewrite <- E in L.
    pose proof (ev_lt _ (Rg i Hi)) as Li. pose proof (ev_lt _ (Rg j Hj)) as Lj. rewrite <- K, <- E in Lj.
    pose proof (start_listed _ (Rg i Hi)) as Is. pose proof (end_listed _ (Rg i Hi)) as Ie. pose proof (end_listed _ (Rg j Hj)) as Je.
    assert (Up : forall u v, In u all_starts -> In v all_starts -> plt u v -> pos e u < pos e v) by (intros; apply He; assumption).
    set (p := ev_start s (ev_at i)) in *. set (u := ev_end s (ev_at i)) in *. set (v := ev_end s (ev_at j)) in *.
    assert (Dl : (if is_left (ev_at i) then 0 < pos e u - pos e p /\ 0 < pos e v - pos e p else 0 < - (pos e u - pos e p) /\ 0 < - (pos e v - pos e p))).
    { destruct (is_left (ev_at i)); split; [pose proof (Up p u Is Ie Li)|pose proof (Up p v Is Je Lj)|pose proof (Up u p Ie Is Li)|pose proof (Up v p Je Is Lj)]; qlra. }
    assert (Np : pos e u <> pos e p /\ pos e v <> pos e p) by (destruct (is_left (ev_at i)); split; intro Q; rewrite Q in Dl; destruct Dl; qlra).
    pose proof (cross_slopes e p u v (proj1 Np) (proj2 Np)) as C. rewrite C in *.
    assert (Pp : 0 < (pos e u - pos e p) * (pos e v - pos e p)).
    { destruct (is_left (ev_at i)); destruct Dl as (D1 & D2); pose proof (mul_pos _ _ D1 D2) as M; [exact M|].
      replace ((pos e u - pos e p) * (pos e v - pos e p)) with (- (pos e u - pos e p) * - (pos e v - pos e p)) by ring. exact M. }
    destruct L as [L|(L & _)]; [|exfalso; apply W; rewrite L; ring].
    destruct (is_left (ev_at i)).
    + assert (M : 0 < slope e p v - slope e p u) by qlra. exact (mul_pos _ _ Pp M).
    + assert (M : 0 < slope e p u - slope e p v) by qlra. pose proof (mul_pos _ _ Pp M) as G.
      replace ((pos e u - pos e p) * (pos e v - pos e p) * (slope e p u - slope e p v)) with (- ((pos e u - pos e p) * (pos e v - pos e p) * (slope e p v - slope e p u))) in G by ring. qlra.
Qed.
End Tidy.
