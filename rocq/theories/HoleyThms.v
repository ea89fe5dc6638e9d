(** Polygons made of events of the result by holey.py.  Proof support only, no
    part of /repo is modelled here. *)
From Coq Require Import Permutation Sorted.
From Verif Require Import QcTac Geom Spec SpecShape SpecSides GeomFacts EvenOdd Flip SortFacts Toward Bounding BoundingThms Relation PairFacts SweepGeo SweepInv SweepSteps Sweep SweepCmp SweepLink Linear SweepRun SweepLoop SweepStart SweepEnd SelectThms LinearMeaning LinearThms LinearComplete Contour Labelled Filter Mixed Shaped Parity Counting ShrinkThms ConnectThms Tracing TraceThms RegionThms OrientThms PairThms Erase Flow Labels LabelEnd Outline Classify Telescope Polygons Sides EvenStraight MixedThms MixedComplete ShapedThms ShapedProps Lonely Faces Loops FollowThms Holey TidyThms TracedLoops HoleyLoop SimpleThms Shapes.

(** ** Identifiers of starts *)
Lemma start_id_in : forall ids ev i, NoDup (map fst ids) -> In (ev, i) ids -> start_id_of ids ev = Some i.
Proof.
  induction ids as [|(x, j) ids IH]; intros ev i N H; [destruct H|]. cbn [start_id_of]. inversion N as [|? ? N1 N2]. subst.
  destruct (event_eqb_spec ev x) as [->|K].
  - destruct H as [H|H]; [injection H as <-; reflexivity|]. exfalso. apply N1. apply (in_map fst) in H. exact H.
  - destruct H as [H|H]; [injection H as -> _; contradiction|]. exact (IH ev i N2 H).
Qed.
Lemma number_fst : forall l p i, map fst (number p i l) = map fst l.
Proof. induction l as [|(ev, q) l IH]; intros p i; [reflexivity|]. cbn [number]. destruct (pt_eqb q p); cbn [map fst]; rewrite IH; reflexivity. Qed.
Lemma number_spec : forall s l p i, StronglySorted (fun a b => ple (ev_start s a) (ev_start s b)) l ->
  (forall ev, In ev l -> ple p (ev_start s ev)) ->
  (forall ev j, In (ev, j) (number p i (with_starts s l)) -> (i <= j)%nat /\ (j = i <-> ev_start s ev = p))
  /\ (forall a b j k, In (a, j) (number p i (with_starts s l)) -> In (b, k) (number p i (with_starts s l)) ->
        ((j <= k)%nat <-> ple (ev_start s a) (ev_start s b))).
Proof.
  intros s l. unfold with_starts. induction l as [|x l IH]; intros p i So Ge; [split; intros; contradiction|]. cbn [map number].
  inversion So as [|? ? So' F]. subst. rewrite Forall_forall in F.
  destruct (pt_eqb_spec (ev_start s x) p) as [E|N].
  - destruct (IH p i So') as (A & B); [intros ev H; apply Ge; right; exact H|]. split.
    + intros ev j [H|H]; [injection H as <- <-; split; [lia|split; auto]|]. exact (A ev j H).
    + intros a b j k [Ha|Ha] [Hb|Hb]; try (injection Ha as <- <-); try (injection Hb as <- <-).
      * split; [intros _; apply ple_lt_eq; right; reflexivity|lia].
      * destruct (A b k Hb) as (A1 & _). split; [intros _|lia]. rewrite E. apply Ge. right. pose proof (in_map fst _ _ Hb) as K. rewrite number_fst, map_map, map_id in K. exact K.
      * destruct (A a j Ha) as (A1 & A2). rewrite E. split.
        -- intro L. assert (j = i) by lia. subst j. apply ple_lt_eq. right. apply A2. reflexivity.
        -- intro L. assert (K : ple p (ev_start s a)) by (apply Ge; right; pose proof (in_map fst _ _ Ha) as K; rewrite number_fst, map_map, map_id in K; exact K).
           assert (E' : ev_start s a = p) by (apply ple_lt_eq in L; destruct L as [L|L]; [exfalso; exact (K L)|exact L]). apply A2 in E'. lia.
      * exact (B a b j k Ha Hb).
  - assert (Lt : plt p (ev_start s x)).
    { pose proof (Ge x (or_introl eq_refl)) as K. apply ple_lt_eq in K. destruct K as [K|K]; [exact K|congruence]. }
    destruct (IH (ev_start s x) (S i) So') as (A & B); [exact F|]. split.
    + intros ev j [H|H]; [injection H as <- <-; split; [lia|split; [lia|congruence]]|]. destruct (A ev j H) as (A1 & A2). split; [lia|]. split; [lia|].
      intro E. exfalso. pose proof (in_map fst _ _ H) as K. rewrite number_fst, map_map, map_id in K. cbn [fst] in K. pose proof (F ev K) as L. rewrite E in L. exact (L Lt).
    + intros a b j k [Ha|Ha] [Hb|Hb]; try (injection Ha as <- <-); try (injection Hb as <- <-).
      * split; [intros _; apply ple_lt_eq; right; reflexivity|lia].
      * destruct (A b k Hb) as (A1 & _). split; [intros _|lia]. apply F. pose proof (in_map fst _ _ Hb) as K. rewrite number_fst, map_map, map_id in K. exact K.
      * destruct (A a j Ha) as (A1 & A2). split.
        -- intro L. assert (j = S i) by lia. subst j. apply ple_lt_eq. right. apply A2. reflexivity.
        -- intro L. assert (K : ple (ev_start s x) (ev_start s a)) by (apply F; pose proof (in_map fst _ _ Ha) as K; rewrite number_fst, map_map, map_id in K; exact K).
           assert (E' : ev_start s a = ev_start s x) by (apply ple_lt_eq in L; destruct L as [L|L]; [exfalso; exact (K L)|exact L]). apply A2 in E'. lia.
      * exact (B a b j k Ha Hb).
Qed.
(** Identifiers of events are ordered as their starts. *)
Lemma start_numbers_spec : forall s pl, StronglySorted (fun a b => ple (ev_start s a) (ev_start s b)) pl -> NoDup pl ->
  exists f, (forall ev, In ev pl -> start_id_of (start_numbers s pl) ev = Some (f ev))
  /\ (forall a b, In a pl -> In b pl -> ((f a <= f b)%nat <-> ple (ev_start s a) (ev_start s b))).
Proof.
  intros s pl So N. set (ids := start_numbers s pl).
  assert (Nf : NoDup (map fst ids)).
  { unfold ids, start_numbers. rewrite map_rev. apply NoDup_rev. rewrite number_fst. unfold with_starts. rewrite map_map, map_id. exact N. }
  assert (Ex : forall ev, In ev pl -> exists i, In (ev, i) ids).
  { intros ev H. assert (K : In ev (map fst ids)).
    { unfold ids, start_numbers. rewrite map_rev. apply in_rev. rewrite rev_involutive, number_fst. unfold with_starts. rewrite map_map, map_id. exact H. }
    apply in_map_iff in K. destruct K as ((x, i) & E & K). cbn in E. subst x. exists i. exact K. }
  exists (fun ev => match start_id_of ids ev with Some i => i | None => O end). split.
  - intros ev H. destruct (Ex ev H) as (i & Hi). rewrite (start_id_in ids ev i Nf Hi). reflexivity.
  - intros a b Ha Hb. destruct (Ex a Ha) as (i & Hi), (Ex b Hb) as (j & Hj). rewrite (start_id_in ids a i Nf Hi), (start_id_in ids b j Nf Hj).
    unfold ids, start_numbers in Hi, Hj. apply in_rev in Hi, Hj.
    refine (proj2 (number_spec s pl _ _ So _) a b i j Hi Hj).
    intros ev H. destruct pl as [|x pl]; [destruct H|]. inversion So as [|? ? So' F]. subst. rewrite Forall_forall in F.
    destruct H as [<-|H]; [apply ple_lt_eq; right; reflexivity|exact (F ev H)].
Qed.

(** ** Polygons of the events *)
Lemma last_max : forall (A : Type) (R : A -> A -> Prop) l d, (forall x, R x x) -> StronglySorted R l -> forall x, In x l -> R x (last l d).
Proof.
  intros A R l d Rr So. induction So as [|y l So IH F]; intros x Hx; [destruct Hx|]. destruct l as [|z l].
  - destruct Hx as [<-|[]]. apply Rr.
  - change (last (y :: z :: l) d) with (last (z :: l) d). destruct Hx as [<-|Hx]; [|exact (IH x Hx)].
    rewrite Forall_forall in F. apply F. clear. revert z. induction l as [|w l IH]; intro z; [left; reflexivity|]. right. exact (IH w).
Qed.
Lemma last_in : forall (A : Type) (l : list A) d, l <> [] -> In (last l d) l.
Proof.
  induction l as [|x l IH]; intros d N; [contradiction|]. destruct l as [|y l]; [left; reflexivity|]. right. change (last (x :: y :: l) d) with (last (y :: l) d). apply IH. discriminate.
Qed.
Lemma sorted_filter : forall (A : Type) (R : A -> A -> Prop) f l, StronglySorted R l -> StronglySorted R (filter f l).
Proof.
  intros A R f l So. induction So as [|y l So IH F]; [constructor|]. cbn. destruct (f y); [|exact IH]. constructor; [exact IH|].
  rewrite Forall_forall in *. intros x Hx. apply filter_In in Hx. exact (F x (proj1 Hx)).
Qed.
Section Swept.
Variables (op : operation) (E1 E2 : list segment) (x_max : option Qc) (s : state) (pl : list event).
Hypothesis H : shaped_swept op E1 E2 x_max s pl.
Variable events : list event.
Hypothesis Hperm : Permutation events pl.
Hypothesis Hsort : StronglySorted (fun a b => ple (ev_start s a) (ev_start s b)) events.
Notation evs := (result_events s events).
Notation ts := (map (traced_of s events) evs).
Notation ev_at i := (nth i evs (EL 0)).

Lemma below_earlier : forall k i b, (k < length evs)%nat -> ev_at k = EL i -> l_below (lft s i) = Some b ->
  exists j, (j < k)%nat /\ left_of s (ev_at j) = b.
Proof.
  intros k i b Hk Ek Eb. destruct (sh_sweep _ _ _ _ _ _ H) as (s0 & out & _ & _ & _ & Hla).
  set (R := relevant_points s0). destruct (shear_exists (R ++ middles R ++ all_starts s)) as (e & _ & Hsh).
  assert (Fit : fit s0 e (R ++ middles R ++ all_starts s)).
  { split; [exact Hsh|]. split; intros p Hp; rewrite !in_app_iff; auto. }
  assert (He : Sheared e (all_starts s)).
  { intros p q Hp Hq. apply Hsh; rewrite !in_app_iff; auto. }
  assert (Ii : In (EL i) evs) by (rewrite <- Ek; apply nth_In; exact Hk).
  destruct (la_below _ _ _ _ _ _ _ (Hla e _ Fit) eq_refl i b (proj1 (proj1 (evs_in s pl events Hperm _) Ii)) Eb) as (N & Ib & Rb & Pr).
  assert (Ib' : In (EL b) evs) by (apply (evs_in s pl events Hperm); split; [exact Ib|exact Rb]).
  destruct (In_nth _ _ (EL 0) Ib') as (j & Hj & Ej). exists j. split; [|rewrite Ej; reflexivity].
  apply (less_at _ _ _ _ _ _ H _ Hperm e He j k Hj Hk). rewrite Ej, Ek.
  destruct Pr as [Pr|(Pr & Ps)]; [left; exact Pr|]. right. split; [exact Pr|]. right. split; [reflexivity|]. left.
  cbn. apply Qcle_lt_or_eq in Ps. destruct Ps as [Ps|Ps]; [exact Ps|exfalso].
  refine (not_tied _ _ _ _ _ _ H _ Hperm e He (EL b) (EL i) Ib' Ii _ eq_refl Pr Ps). intro K. injection K as K. exact (N K).
Qed.

Variable f : event -> nat.
Hypothesis Hf : forall ev, In ev pl -> start_id_of (start_numbers s pl) ev = Some (f ev).
Hypothesis Hord : forall a b, In a pl -> In b pl -> ((f a <= f b)%nat <-> ple (ev_start s a) (ev_start s b)).
Definition holey_of (ev : event) : holey_event := HoleyEvent ev (traced_of s events ev) (f ev).
Notation hs := (map holey_of evs).
Lemma to_holey_ok : to_holey (start_numbers s pl) evs ts = Ok hs.
Proof.
  assert (G : forall m, (forall ev, In ev m -> In ev pl) -> to_holey (start_numbers s pl) m (map (traced_of s events) m) = Ok (map holey_of m)).
  { induction m as [|ev m IH]; intro I; [reflexivity|]. cbn [map to_holey]. rewrite (Hf ev (I ev (or_introl eq_refl))), IH by (intros x Hx; apply I; right; exact Hx). reflexivity. }
  apply G. intros ev Hev. exact (proj1 (proj1 (evs_in s pl events Hperm _) Hev)).
Qed.
Lemma hs_traced : map h_traced hs = ts.
Proof. rewrite map_map. reflexivity. Qed.
Lemma hs_at : forall i, (i < length evs)%nat -> hev hs i = holey_of (ev_at i).
Proof. intros i Hi. unfold hev. erewrite nth_indep; [apply map_nth|]. rewrite map_length. exact Hi. Qed.
Lemma at_pl : forall i, (i < length evs)%nat -> In (ev_at i) pl.
Proof. intros i Hi. exact (proj1 (proj1 (evs_in s pl events Hperm _) (nth_In _ _ Hi))). Qed.
Lemma hs_ids : forall i j, (i < length hs)%nat -> (j < length hs)%nat -> vx hs i = vx hs j <-> t_start (tev (map h_traced hs) i) = t_start (tev (map h_traced hs) j).
Proof.
  intros i j Hi Hj. rewrite map_length in Hi, Hj. rewrite hs_traced. unfold vx. rewrite (hs_at i Hi), (hs_at j Hj), !(ts_at s events) by (rewrite map_length; assumption).
  cbn [h_start_id holey_of traced_of t_start]. pose proof (Hord _ _ (at_pl i Hi) (at_pl j Hj)) as A. pose proof (Hord _ _ (at_pl j Hj) (at_pl i Hi)) as B. split.
  - intro E. rewrite E in A, B. apply (ple_antisym); [apply A; lia|apply B; lia].
  - intro E. rewrite E in A, B. assert (Rf : ple (ev_start s (ev_at j)) (ev_start s (ev_at j))) by (apply plt_irrefl). apply A in Rf as X. apply B in Rf as Y. lia.
Qed.
Lemma hs_sorted : forall i j, (i < j)%nat -> (j < length hs)%nat -> ple (t_start (tev (map h_traced hs) i)) (t_start (tev (map h_traced hs) j)).
Proof.
  intros i j Hij Hj. rewrite map_length in Hj. rewrite hs_traced, !(ts_at s events) by (rewrite map_length; lia). cbn [traced_of t_start].
  assert (S : StronglySorted (fun x y => ple (ev_start s x) (ev_start s y)) evs) by (apply sort_start; exact (key_start s)).
  revert Hij Hj. clear - S. revert i j. induction S as [|z m S IH F]; intros x y Hxy Hy; [cbn in Hy; lia|]. destruct x as [|x], y as [|y]; [lia| |lia|].
  - cbn [nth]. rewrite Forall_forall in F. apply F. apply nth_In. cbn in Hy. lia.
  - cbn [nth]. apply IH; cbn in Hy; lia.
Qed.
Lemma hs_op : forall i, (i < length hs)%nat -> left_of s (h_event (hev hs (ov hs i))) = left_of s (h_event (hev hs i)).
Proof.
  intros i Hi. rewrite map_length in Hi. assert (Ht : (i < length ts)%nat) by (rewrite map_length; exact Hi).
  assert (E : ov hs i = opp ts i) by (rewrite <- hs_traced, <- f_opp; reflexivity). destruct (ts_opp _ _ _ _ _ _ H _ Hperm i Ht) as (Ho & Eo). rewrite map_length in Ho.
  rewrite E, (hs_at _ Ho), (hs_at i Hi). cbn [h_event holey_of]. rewrite Eo.
  exact (proj2 (proj2 (opposite_range _ _ _ _ _ _ H _ (evs_range _ _ _ _ _ _ H _ Hperm _ (nth_In _ _ Hi))))).
Qed.
Lemma hs_closed : closed (length hs) (vx hs) (ov hs) (unused (repeat false (length hs))).
Proof.
  assert (U : forall i, unused (repeat false (length hs)) i = true).
  { intro i. unfold unused. destruct (nth i (repeat false (length hs)) false) eqn:E; [|reflexivity].
    destruct (Nat.lt_ge_cases i (length (repeat false (length hs)))) as [L|L]; [|rewrite nth_overflow in E by exact L; discriminate E].
    pose proof (nth_In _ false L) as K. apply repeat_spec in K. congruence. }
  split; [intros i Hi; rewrite !U; reflexivity|]. intro v.
  rewrite (parity_ext _ (fun i => Nat.eqb (vx hs i) v)) by (intros i _; rewrite U; reflexivity).
  destruct (parity (fun i => Nat.eqb (vx hs i) v) (seq 0 (length hs))) eqn:Ep; [exfalso|reflexivity].
  assert (Ex : exists j, (j < length hs)%nat /\ vx hs j = v).
  { destruct (existsb (fun i => Nat.eqb (vx hs i) v) (seq 0 (length hs))) eqn:Ee.
    - apply existsb_exists in Ee. destruct Ee as (j & Hj & Ej). apply in_seq in Hj. apply Nat.eqb_eq in Ej. exists j. split; [lia|exact Ej].
    - exfalso. rewrite (parity_ext _ (fun _ => false)) in Ep.
      + clear - Ep. induction (seq 0 (length hs)) as [|x l IH]; [discriminate Ep|]. cbn in Ep. destruct (parity (fun _ => false) l); [exact (IH eq_refl)|discriminate Ep].
      + intros i Hi. destruct (Nat.eqb (vx hs i) v) eqn:Ei; [|reflexivity]. rewrite <- Ee. symmetry. apply existsb_exists. exists i. auto. }
  destruct Ex as (j & Hj & Ev).
  set (q := t_start (tev (map h_traced hs) j)).
  rewrite (parity_ext _ (fun i => pt_eqb (t_start (tev (map h_traced hs) i)) q)) in Ep.
  2: { intros i Hi. apply in_seq in Hi. pose proof (hs_ids i j ltac:(lia) Hj) as K. rewrite Ev in K. destruct (Nat.eqb_spec (vx hs i) v), (pt_eqb_spec (t_start (tev (map h_traced hs) i)) q); try reflexivity; exfalso; tauto. }
  pose proof (ts_even op E1 E2 x_max s pl H events Hperm q) as Ev'. rewrite <- Nat.negb_odd, <- parity_occ in Ev'.
  assert (Es : starts ts = map (fun i => t_start (tev (map h_traced hs) i)) (seq 0 (length hs))).
  { rewrite hs_traced, map_length. rewrite <- (map_length (traced_of s events) evs). unfold starts. transitivity (map t_start (map (fun i => tev ts i) (seq 0 (length ts)))).
    - f_equal. symmetry. apply map_nth_seq.
    - apply map_map. }
  rewrite Es, parity_map, Ep in Ev'. discriminate Ev'.
Qed.
Lemma hs_inj : forall i j, (i < length hs)%nat -> (j < length hs)%nat -> left_of s (h_event (hev hs i)) = left_of s (h_event (hev hs j)) -> i = j \/ i = ov hs j.
Proof.
  intros i j Hi Hj. rewrite map_length in Hi, Hj. rewrite (hs_at i Hi), (hs_at j Hj). cbn [h_event holey_of]. intro E.
  assert (Ti : (i < length ts)%nat) by (rewrite map_length; exact Hi). assert (Tj : (j < length ts)%nat) by (rewrite map_length; exact Hj).
  assert (Eo : ov hs j = opp ts j) by (rewrite <- hs_traced, <- f_opp; reflexivity). destruct (ts_opp _ _ _ _ _ _ H _ Hperm j Tj) as (Ho & Ej).
  pose proof (opposite_range _ _ _ _ _ _ H _ (evs_range _ _ _ _ _ _ H _ Hperm _ (nth_In _ (EL 0) Hi))) as (_ & Ri & _).
  pose proof (opposite_range _ _ _ _ _ _ H _ (evs_range _ _ _ _ _ _ H _ Hperm _ (nth_In _ (EL 0) Hj))) as (_ & Rj & _).
  assert (K : ev_at i = ev_at j \/ ev_at i = opposite s (ev_at j)).
  { destruct (ev_at i) as [a|a], (ev_at j) as [b|b]; cbn in *; [left; congruence|right; congruence| |]; [right|left]; rewrite E in Ri; congruence. }
  destruct K as [K|K]; [left; exact (at_eq _ _ _ _ _ _ H _ Hperm i j Ti Tj K)|right]. rewrite Eo.
  apply (at_eq _ _ _ _ _ _ H _ Hperm i _ Ti Ho). rewrite Ej. exact K.
Qed.
Lemma hs_none : tracing s hs 0 (repeat false (length hs)) [] no_relations [] [].
Proof.
  assert (U : forall i, nth i (repeat false (length hs)) false = false).
  { intro i. destruct (Nat.lt_ge_cases i (length hs)) as [L|L]; [|apply nth_overflow; rewrite repeat_length; exact L]. apply (repeat_spec (length hs) false). apply nth_In. rewrite repeat_length. exact L. }
  constructor.
  - apply repeat_length.
  - intros i Hi. rewrite U. cbn. split; [discriminate|intros [[]|[]]].
  - exact hs_closed.
  - intros i Hi. lia.
  - intros i [].
  - constructor.
  - intros i Hi. rewrite U. discriminate.
  - exact related_none.
  - constructor.
  - intros L [].
  - intros [|j] i [].
  - intros j i Hj. cbn in Hj. lia.
  - intros c _ j Z sg Hj. cbn in Hj. lia.
  - intros j Hj. cbn in Hj. lia.
Qed.
Lemma hs_trace : forall c width, events_to_connectivity ts = Ok c -> (forall i, (i < length hs)%nat -> (vx hs i < width)%nat) ->
  exists r contours done, trace_holey s hs c (seq 0 (length hs)) (repeat false (length hs)) (repeat None width) [] no_relations [] = Ok (r, contours)
  /\ (exists p m, tracing s hs (length hs) p m r contours done) /\ Permutation (concat done ++ map (opp ts) (concat done)) (seq 0 (length ts)).
Proof.
  intros c width Hc Hw.
  pose proof (trace_holey_spec s hs c width) as T. rewrite hs_traced in T.
  specialize (T (ts_paired op E1 E2 x_max s pl H events Hperm) (ts_tidy op E1 E2 x_max s pl H events Hperm) (ts_planar op E1 E2 x_max s pl H events Hperm) (ts_grouped s events)).
  specialize (T ltac:(rewrite <- hs_traced; exact hs_ids) Hc Hw).
  specialize (T ltac:(intros i Hi; rewrite map_length in Hi; rewrite (hs_at i Hi), (ts_at s events) by (rewrite map_length; exact Hi); reflexivity) hs_op).
  specialize (T ltac:(rewrite <- hs_traced; exact hs_sorted)).
  specialize (T ltac:(intros k i b Hk Ek Eb; rewrite map_length in Hk; rewrite (hs_at k Hk) in Ek; destruct (below_earlier k i b Hk Ek Eb) as (j & Hj & Ej); exists j; split; [exact Hj|rewrite (hs_at j) by lia; exact Ej])).
  specialize (T hs_inj).
  destruct (T (length hs) 0%nat _ _ _ _ _ (Nat.add_0_l _) hs_none) as (r & contours & done & p & m & E & R). exists r, contours, done. split; [exact E|].
  split; [exists p, m; exact R|].
  assert (Eo : forall i, opp ts i = ov hs i) by (intro i; rewrite <- hs_traced; apply f_opp).
  rewrite (map_ext _ _ Eo). apply NoDup_Permutation; [exact (tr_nodup _ _ _ _ _ _ _ _ R)|apply seq_NoDup|].
  assert (Hpair : TraceThms.paired (map h_traced hs)) by (rewrite hs_traced; exact (ts_paired op E1 E2 x_max s pl H events Hperm)).
  intro i. rewrite in_seq, in_app_iff, in_map_iff, map_length. rewrite <- (map_length holey_of evs). split.
  - intros [K|(j & <- & K)]; apply (tr_lt _ _ _ _ _ _ _ _ R) in K; [lia|]. pose proof (proj1 (f_op hs Hpair j K)). lia.
  - intros (_ & Hi). cbn in Hi. destruct (proj1 (tr_used _ _ _ _ _ _ _ _ R i Hi) (tr_before _ _ _ _ _ _ _ _ R i Hi Hi)) as [K|K]; [left; exact K|right].
    exists (ov hs i). split; [exact (proj2 (proj2 (f_op hs Hpair i Hi)))|exact K].
Qed.
End Swept.

Lemma events_traced : forall op E1 E2 x_max s pl, shaped_swept op E1 E2 x_max s pl -> forall events, Permutation events pl ->
  StronglySorted (fun a b => ple (ev_start s a) (ev_start s b)) events ->
  exists f r contours done, events_to_polygons s events (start_numbers s pl) = Ok (to_polygons r contours)
  /\ (forall a b, In a pl -> In b pl -> ((f a <= f b)%nat <-> ple (ev_start s a) (ev_start s b)))
  /\ (let hs := map (holey_of s events f) (result_events s events) in exists p m, tracing s hs (length hs) p m r contours done)
  /\ let ts := map (traced_of s events) (result_events s events) in Permutation (concat done ++ map (opp ts) (concat done)) (seq 0 (length ts)).
Proof.
  intros op E1 E2 x_max s pl H events Hperm Hsort.
  destruct (sh_sweep _ _ _ _ _ _ H) as (s0 & out & _ & _ & Hpr & _).
  destruct (start_numbers_spec s pl (pr_sorted _ _ _ _ Hpr) (pr_nodup _ _ _ _ Hpr)) as (f & Hf & Hord). exists f.
  unfold events_to_polygons. set (kept := filter (fun ev => l_result (lft s (left_of s ev))) events).
  assert (Kin : forall ev, In ev kept -> In ev pl) by (intros ev K; apply filter_In in K; exact (Permutation_in _ Hperm (proj1 K))).
  assert (Kev : result_events s events = sort_by (binary_key_ltb s) kept) by reflexivity.
  destruct kept as [|e0 rest] eqn:Ek.
  - exists no_relations, [], []. split; [reflexivity|]. split; [exact Hord|]. pose proof (hs_none _ _ _ _ _ _ H events Hperm f Hord) as T0. rewrite Kev in T0 |- *. split; [exists [], []; exact T0|]. constructor.
  - assert (Il : In (last (e0 :: rest) e0) (e0 :: rest)).
    { apply last_in. discriminate. }
    rewrite (Hf _ (Kin _ Il)). set (mx := f (last (e0 :: rest) e0)).
    assert (Mx : forall ev, In ev (e0 :: rest) -> (f ev <= mx)%nat).
    { intros ev Hev. apply (Hord _ _ (Kin _ Hev) (Kin _ Il)). apply (last_max _ (fun a b => ple (ev_start s a) (ev_start s b))); [intro x; apply plt_irrefl| |exact Hev].
      rewrite <- Ek. apply sorted_filter. exact Hsort. }
    match goal with |- context [forallb ?g ?l] => replace (forallb g l) with true end.
    2: { symmetry. apply forallb_forall. intros ev Hev. rewrite (Hf _ (Kin _ Hev)). apply Nat.leb_le. exact (Mx ev Hev). }
    rewrite <- Kev, (to_traced_ok op E1 E2 x_max s pl H events Hperm). cbn [bind_res].
    rewrite (to_holey_ok s pl events Hperm f Hf). cbn [bind_res].
    set (ts := map (traced_of s events) (result_events s events)).
    destruct (events_to_connectivity ts) as [c|er] eqn:Ec.
    + cbn [bind_res].
      destruct (hs_trace _ _ _ _ _ _ H events Hperm f Hord c (S mx) Ec) as (r & contours & done & E & R & P).
      { intros i Hi. rewrite map_length in Hi. unfold vx. rewrite (hs_at s events f i Hi). cbn [h_start_id holey_of].
        pose proof (nth_In _ (EL 0) Hi) as K. rewrite Kev in K at 2. apply sort_by_in in K. pose proof (Mx _ K). lia. }
      rewrite E. cbn [bind_res]. exists r, contours, done. split; [reflexivity|]. split; [exact Hord|]. split; [exact R|exact P].
    + exfalso. destruct (connectivity_correct ts) as (c & K & _). congruence.
Qed.

Lemma events_polygons : forall op E1 E2 x_max s pl, shaped_swept op E1 E2 x_max s pl -> forall events, Permutation events pl ->
  StronglySorted (fun a b => ple (ev_start s a) (ev_start s b)) events ->
  exists f gs contours done, events_to_polygons s events (start_numbers s pl) = Ok gs
  /\ Permutation (flat_map contours_of gs) contours /\ Forall2 (drawn (map (holey_of s events f) (result_events s events))) done contours
  /\ let ts := map (traced_of s events) (result_events s events) in Permutation (concat done ++ map (opp ts) (concat done)) (seq 0 (length ts)).
Proof.
  intros op E1 E2 x_max s pl H events Hperm Hsort. destruct (events_traced _ _ _ _ _ _ H events Hperm Hsort) as (f & r & contours & done & E & _ & (p & m & T) & P).
  exists f, (to_polygons r contours), contours, done. split; [exact E|]. split; [exact (polygons_contours _ _ (tr_related _ _ _ _ _ _ _ _ T))|]. split; [exact (tr_drawn _ _ _ _ _ _ _ _ T)|exact P].
Qed.

(** ** Contours of the polygons *)
Lemma non_overlapping_app : forall a b, non_overlapping a -> non_overlapping b -> (forall x y, In x a -> In y b -> ~ overlap x y) -> non_overlapping (a ++ b).
Proof.
  intros a b (Pa & Wa) (Pb & Wb) Ab. split; [apply Forall_app; auto|]. intros i j x y N Ei Ej.
  destruct (Nat.lt_ge_cases i (length a)) as [Li|Li], (Nat.lt_ge_cases j (length a)) as [Lj|Lj];
    rewrite ?nth_error_app1, ?nth_error_app2 in * by assumption.
  - exact (Wa i j x y N Ei Ej).
  - exact (Ab x y (nth_error_In _ _ Ei) (nth_error_In _ _ Ej)).
  - intro O. apply overlap_sym in O. exact (Ab y x (nth_error_In _ _ Ej) (nth_error_In _ _ Ei) O).
  - refine (Wb _ _ x y _ Ei Ej). lia.
Qed.
Notation contours_edges cs := (flat_map (fun c => contour_edges (vertices c)) cs).
Lemma contours_apart : forall hs, let ts := map h_traced hs in tidy ts -> TraceThms.paired ts -> forall done cs, Forall2 (drawn hs) done cs ->
  (forall i, In i (concat done) -> (i < length ts)%nat) -> NoDup (concat done ++ map (opp ts) (concat done)) -> non_overlapping (contours_edges cs).
Proof.
  intros hs ts Td Pr done cs F. induction F as [|L c done cs D F IH]; intros Rg Nd; [split; [constructor|intros [|i] j x y _ E; discriminate E]|].
  cbn [flat_map concat] in *.
  assert (Nd' : NoDup (concat done ++ map (opp ts) (concat done))).
  { rewrite map_app in Nd.
    assert (Pm : Permutation ((L ++ concat done) ++ map (opp ts) L ++ map (opp ts) (concat done)) ((L ++ map (opp ts) L) ++ (concat done ++ map (opp ts) (concat done)))).
    { rewrite <- !app_assoc. apply Permutation_app_head. rewrite !app_assoc. apply Permutation_app_tail. apply Permutation_app_comm. }
    apply (Permutation_NoDup Pm) in Nd. apply NoDup_app_remove_l in Nd. exact Nd. }
  apply non_overlapping_app; [exact (simple_non_overlapping _ (proj1 D))|apply IH; [intros i Hi; apply Rg, in_or_app; right; exact Hi|exact Nd']|].
  intros x y Hx Hy (p & q & N & Px & Py & Qx & Qy).
  destruct (approach p q (flat_map (fun i => [t_start (tev ts i); t_end (tev ts i)]) (seq 0 (length ts))) N) as (m & (M & _) & Nm & _).
  assert (Mx : on_segment m x) by (exact (on_convex x p q m Px Qx M)).
  assert (My : on_segment m y) by (exact (on_convex y p q m Py Qy M)).
  assert (Lx : exists i, In i L /\ on_segment m (edge ts i)).
  { destruct (proj1 (proj2 (proj2 (proj2 D)) m)) as (sg & Hs & Os); [exists x; auto|]. apply in_map_iff in Hs. destruct Hs as (i & <- & Hi). exists i. auto. }
  assert (Ly : exists i, In i (concat done) /\ on_segment m (edge ts i)).
  { clear - F Hy My. induction F as [|L' c' done cs D F IH]; [destruct Hy|]. cbn [flat_map concat] in *. apply in_app_or in Hy. destruct Hy as [Hy|Hy].
    - destruct (proj1 (proj2 (proj2 (proj2 D)) m)) as (sg & Hs & Os); [exists y; auto|]. apply in_map_iff in Hs. destruct Hs as (i & <- & Hi). exists i. split; [apply in_or_app; left; exact Hi|exact Os].
    - destruct (IH Hy) as (i & Hi & Oi). exists i. split; [apply in_or_app; right; exact Hi|exact Oi]. }
  destruct Lx as (i & Hi & Oi), Ly as (j & Hj & Oj).
  assert (Ri : (i < length ts)%nat) by (apply Rg, in_or_app; left; exact Hi). assert (Rj : (j < length ts)%nat) by (apply Rg, in_or_app; right; exact Hj).
  assert (N1 : j <> i).
  { intros ->. apply NoDup_app_remove_r in Nd. clear - Nd Hi Hj. induction L as [|z L IH]; [destruct Hi|]. cbn in Nd. inversion Nd as [|? ? A B]. subst. destruct Hi as [->|Hi]; [apply A, in_or_app; right; exact Hj|exact (IH B Hi)]. }
  assert (N2 : j <> opp ts i).
  { intro E. assert (K1 : In j (L ++ concat done)) by (apply in_or_app; right; exact Hj). assert (K2 : In j (map (opp ts) (L ++ concat done))) by (rewrite E; apply in_map, in_or_app; left; exact Hi).
    clear - Nd K1 K2. revert Nd K1. generalize (L ++ concat done) at 1 3. intro l. induction l as [|z l IH]; intros Nd K1; [destruct K1|]. cbn in Nd. inversion Nd as [|? ? A B]. subst.
    destruct K1 as [->|K1]; [apply A, in_or_app; right; exact K2|exact (IH B K1)]. }
  destruct (td_apart ts Td i j m Ri Rj N1 N2 Oi Oj) as (K & _). apply Nm. apply in_flat_map. exists i. split; [apply in_seq; lia|]. destruct K as [->| ->]; [left|right; left]; reflexivity.
Qed.
Lemma polygons_edges : forall gs, flat_map polygon_edges gs = contours_edges (flat_map contours_of gs).
Proof.
  induction gs as [|g gs IH]; [reflexivity|]. cbn [flat_map]. rewrite IH, flat_map_app. f_equal.
Qed.
Lemma drawn_all : forall hs done cs, Forall2 (drawn hs) done cs ->
  (forall q, inside (contours_edges cs) q = inside (map (edge (map h_traced hs)) (concat done)) q)
  /\ (forall q, on_segments q (contours_edges cs) <-> on_segments q (map (edge (map h_traced hs)) (concat done))).
Proof.
  intros hs done cs F. induction F as [|L c done cs D F (IH1 & IH2)]; [split; intro q; reflexivity|]. cbn [flat_map concat]. destruct D as (_ & _ & D1 & D2).
  split; intro q; rewrite map_app, ?inside_app, ?on_segments_app, ?IH1, ?IH2, ?D1, ?D2; reflexivity.
Qed.
Theorem polygons_traced : forall op E1 E2 x_max s pl, shaped_swept op E1 E2 x_max s pl -> forall events, Permutation events pl ->
  StronglySorted (fun a b => ple (ev_start s a) (ev_start s b)) events ->
  exists gs, events_to_polygons s events (start_numbers s pl) = Ok gs
  /\ (forall q, inside (flat_map polygon_edges gs) q = inside (result_edges s pl) q)
  /\ (forall q, on_segments q (flat_map polygon_edges gs) <-> on_segments q (result_edges s pl))
  /\ (forall c, In c (flat_map contours_of gs) -> simple_contour (vertices c) /\ forall j, (j < length (vertices c))%nat -> ~ straight (vertices c) j)
  /\ non_overlapping (flat_map polygon_edges gs).
Proof.
  intros op E1 E2 x_max s pl H events Hperm Hsort. destruct (events_polygons _ _ _ _ _ _ H events Hperm Hsort) as (f & gs & cs & done & E & P & D & Pm).
  set (hs := map (holey_of s events f) (result_events s events)) in *. set (ts := map (traced_of s events) (result_events s events)) in *. cbv zeta in Pm.
  assert (Et : map h_traced hs = ts) by (apply hs_traced).
  exists gs. split; [exact E|]. destruct (drawn_all hs done cs D) as (Di & Do). rewrite Et in Di, Do. destruct (edges_result _ _ _ _ _ _ H events Hperm (concat done) Pm) as (Ri & Ro).
  assert (Pe : Permutation (flat_map polygon_edges gs) (contours_edges cs)) by (rewrite polygons_edges; apply Permutation_flat_map, P).
  split; [intro q; rewrite (inside_perm _ _ q Pe), Di; apply Ri|]. split.
  { intro q. rewrite <- (Ro q). fold ts. rewrite <- (Do q). unfold on_segments. split; intros (sg & Hs & Os); exists sg; (split; [|exact Os]); [exact (Permutation_in _ Pe Hs)|exact (Permutation_in _ (Permutation_sym Pe) Hs)]. }
  split.
  { intros c Hc. apply (Permutation_in _ P) in Hc. clear - D Hc. induction D as [|L c' done cs (A & B & _) D IH]; [destruct Hc|]. destruct Hc as [<-|Hc]; [split; assumption|exact (IH Hc)]. }
  apply (non_overlapping_perm (contours_edges cs)); [apply Permutation_sym, Pe|].
  apply (contours_apart hs) with (done := done); rewrite ?Et.
  - exact (ts_tidy op E1 E2 x_max s pl H events Hperm).
  - exact (ts_paired op E1 E2 x_max s pl H events Hperm).
  - exact D.
  - intros i Hi. assert (K : In i (seq 0 (length ts))) by (apply (Permutation_in _ Pm), in_or_app; left; exact Hi). apply in_seq in K. lia.
  - apply (Permutation_NoDup (Permutation_sym Pm)). apply seq_NoDup.
Qed.
