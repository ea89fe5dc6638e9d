(** Points of the complete intersection of mixed.py.
    Proof support only, no part of /repo is modelled here. *)
From Coq Require Import Permutation Sorted.
From Verif Require Import QcTac Geom Spec SpecShape GeomFacts SortFacts Toward Bounding BoundingThms Relation PairFacts SweepGeo SweepInv SweepSteps Sweep SweepCmp SweepLink Linear SweepRun SweepLoop SweepStart SweepEnd SelectThms LinearMeaning LinearThms LinearComplete Contour Labelled Filter Mixed Outline Classify MixedThms.

(** Sorting by a key whose most significant parts are starts of events. *)
Lemma key_start : forall s x y, plt (ev_start s x) (ev_start s y) -> binary_key_ltb s x y = true /\ binary_key_ltb s y x = false.
Proof.
  intros s x y H. unfold binary_key_ltb. destruct H as [H|(H1 & H2)].
  - destruct (Qc_eqb_spec (px (ev_start s x)) (px (ev_start s y))) as [K|K]; [rewrite K in H; qlra|].
    destruct (Qc_eqb_spec (px (ev_start s y)) (px (ev_start s x))) as [J|J]; [congruence|]. cbn [negb]. split; [destruct (Qc_ltb_spec (px (ev_start s x)) (px (ev_start s y))); [reflexivity|contradiction]|destruct (Qc_ltb_spec (px (ev_start s y)) (px (ev_start s x))); [qlra|reflexivity]].
  - rewrite H1. destruct (Qc_eqb_spec (px (ev_start s y)) (px (ev_start s y))) as [K|K]; [|congruence]. cbn [negb].
    destruct (Qc_eqb_spec (py (ev_start s x)) (py (ev_start s y))) as [J|J]; [rewrite J in H2; qlra|].
    destruct (Qc_eqb_spec (py (ev_start s y)) (py (ev_start s x))) as [J'|J']; [congruence|]. cbn [negb]. split; [destruct (Qc_ltb_spec (py (ev_start s x)) (py (ev_start s y))); [reflexivity|contradiction]|destruct (Qc_ltb_spec (py (ev_start s y)) (py (ev_start s x))); [qlra|reflexivity]].
Qed.
Section StartSort.
Context {A : Type} (ltb : A -> A -> bool) (start : A -> point).
Hypothesis Hltb : forall x y, plt (start x) (start y) -> ltb x y = true /\ ltb y x = false.
Notation le := (fun x y => ple (start x) (start y)).
Lemma insert_start : forall x l, StronglySorted le l -> StronglySorted le (insert_sorted ltb x l).
Proof.
  intros x l S. induction S as [|y l S IH F]; cbn; [constructor; constructor|]. destruct (ltb y x) eqn:E.
  - constructor; [exact IH|]. apply Forall_forall. intros z Hz. apply (Permutation_in _ (insert_sorted_perm ltb x l)) in Hz. destruct Hz as [<-|Hz].
    + intro K. destruct (Hltb _ _ K) as (_ & J). congruence.
    + rewrite Forall_forall in F. exact (F z Hz).
  - assert (L : ple (start x) (start y)) by (intro K; destruct (Hltb _ _ K) as (J & _); congruence).
    constructor; [constructor; assumption|]. constructor; [exact L|]. rewrite Forall_forall in *. intros z Hz. specialize (F z Hz).
    apply ple_lt_eq in L. apply ple_lt_eq in F. apply ple_lt_eq. destruct L as [L|L], F as [F|F]; [left; exact (plt_trans _ _ _ L F)|left; rewrite <- F; exact L|left; rewrite L; exact F|right; congruence].
Qed.
Lemma sort_start : forall l, StronglySorted le (sort_by ltb l).
Proof. induction l as [|x l IH]; [constructor|]. cbn. apply insert_start. exact IH. Qed.
Lemma start_contiguous : forall l, contiguous start (sort_by ltb l).
Proof.
  intros l l1 x l2 y l3 E Ek z Hz. pose proof (sort_start l) as S. rewrite E in S.
  destruct (sorted_before _ _ _ _ _ _ _ S) as (_ & K). destruct (K z Hz) as (K1 & K2).
  rewrite <- Ek in K2. apply ple_lt_eq in K1. destruct K1 as [K1|K1]; [|symmetry; exact K1]. exfalso. exact (K2 K1).
Qed.
Lemma starts_sorted : forall l, StronglySorted plt (map fst (group_by pt_eqb start (sort_by ltb l))).
Proof.
  intro l. pose proof (proj1 (group_by_contiguous pt_eqb start pt_eqb_spec _ (start_contiguous l))) as D. pose proof (sort_start l) as S.
  pose proof (group_by_concat pt_eqb start (sort_by ltb l)) as C. rewrite <- C in S. clear C.
  assert (K : forall k g, In (k, g) (group_by pt_eqb start (sort_by ltb l)) -> exists x, In x g /\ start x = k).
  { intros k g Hg. destruct (group_by_keys pt_eqb start pt_eqb_spec _ _ _ Hg) as (N & K). destruct g as [|x g]; [congruence|].
    exists x. split; [left; reflexivity|]. exact (proj1 (K x (or_introl eq_refl))). }
  induction (group_by pt_eqb start (sort_by ltb l)) as [|(k, g) t IH]; [constructor|]. cbn in D, S |- *. apply NoDup_cons_iff in D. destruct D as (D1 & D2). constructor.
  - apply IH; [exact D2| |intros k' g' Hg; apply (K k' g'); right; exact Hg]. clear - S. induction g as [|x g IH]; [exact S|]. cbn in S. inversion S; subst. auto.
  - apply Forall_forall. intros k' Hk'. apply in_map_iff in Hk'. destruct Hk' as ((k0, g') & E & Hg'). cbn in E. subst k0.
    destruct (K k g (or_introl eq_refl)) as (x & Hx & Ex). destruct (K k' g' (or_intror Hg')) as (y & Hy & Ey).
    assert (L : ple (start x) (start y)).
    { apply in_split in Hx. destruct Hx as (a & c & ->).
      assert (Hy' : In y (concat (map snd t))) by (apply in_concat; exists g'; split; [apply in_map_iff; exists (k', g'); split; [reflexivity|exact Hg']|exact Hy]).
      apply in_split in Hy'. destruct Hy' as (u & v & E). rewrite E in S. rewrite <- app_assoc in S. cbn in S.
      rewrite app_assoc in S. exact (proj1 (sorted_before _ _ _ _ _ _ _ S)). }
    rewrite Ex, Ey in L. apply ple_lt_eq in L. destruct L as [L|L]; [exact L|exfalso].
    apply D1. apply in_map_iff. exists (k', g'). split; [symmetry; exact L|exact Hg'].
Qed.
End StartSort.

Section Complete.
Variables (first second : list segment) (x_max : option Qc) (s : state) (out : list nat) (pl : list event).
Hypothesis H : mixed_swept first second x_max true s out pl.
Notation side i := (l_first (lft s i)).
Notation n := (length (lefts s)).
Let Hsw := ms_swept _ _ _ _ _ _ _ H.
Let Hpr := ms_processed _ _ _ _ _ _ _ H.
Variables a b : Qc.
Hypothesis Ha : forall sg p, In sg first -> on_segment p sg -> px p <= a.
Hypothesis Hb : forall sg p, In sg second -> on_segment p sg -> px p <= b.
Hypothesis Hx : x_max = Some (Qc_min a b).
Notation events := (sort_by (binary_key_ltb s) pl).
Notation L := (resulting (s, filter is_left events)).

Lemma sorted_lefts : forall i, In i (lefts_in events) <-> In (EL i) pl.
Proof. intro i. rewrite lefts_in_in. apply sort_by_in. Qed.
Lemma sorted_nodup : NoDup (lefts_in events).
Proof. apply lefts_in_nodup. apply (Permutation_NoDup (Permutation_sym (sort_by_perm (binary_key_ltb s) pl))). exact (pr_nodup _ _ _ _ Hpr). Qed.
Lemma complete_valid : valid_multisegment L.
Proof. rewrite (picked_left s). exact (in_valid _ _ _ _ _ _ _ H eq_refl a b Ha Hb Hx _ sorted_lefts sorted_nodup). Qed.
Lemma complete_segments : forall p, on_segments p L <-> on_part p first (in_region second).
Proof. intro p. rewrite (picked_left s). exact (in_points _ _ _ _ _ _ _ H eq_refl a b Ha Hb Hx _ sorted_lefts p). Qed.

Lemma ev_range : forall ev, In ev pl -> (left_of s ev < n)%nat.
Proof. exact (event_range x_max s out pl Hpr). Qed.
Lemma ev_endpoint : forall ev, In ev pl -> endpoint (ev_start s ev) (seg_of s (left_of s ev)).
Proof. exact (event_endpoint x_max s out pl Hpr). Qed.
Lemma endpoint_on : forall p k, endpoint p k -> on_segment p k.
Proof. intros p k [->| ->]; [apply on_segment_start|apply on_segment_end]. Qed.
(** Events at a point near enough. *)
Lemma near_event : forall p i, on_segments p first -> px p <= b -> (i < n)%nat -> endpoint p (seg_of s i) -> exists x, In x pl /\ ev_start s x = p /\ left_of s x = i.
Proof.
  intros p i (sg & Hg & Hp) Lb Hi Hend. destruct (pr_wf _ _ _ _ Hpr) as (_ & W & _). destruct (W i Hi) as (W1 & W2).
  assert (Near : forall ev, in_range s ev -> ev_start s ev = p -> In ev pl).
  { intros ev Rev Eev. destruct (in_dec event_eq_dec ev pl) as [Q|Q]; [exact Q|exfalso]. destruct (pr_rest _ _ _ _ Hpr ev Rev Q) as (x & Ex & Hlt).
    rewrite Hx in Ex. injection Ex as <-. rewrite Eev in Hlt. pose proof (Ha sg p Hg Hp) as La.
    destruct (Qc_min_cases a b) as [(E & _)|(E & _)]; rewrite E in *; qlra. }
  destruct Hend as [E|E]; cbn in E.
  - exists (EL i). split; [apply Near; [exact Hi|symmetry; exact E]|]. split; [symmetry; exact E|reflexivity].
  - exists (ER (l_right (lft s i))). split; [apply Near; [exact W1|symmetry; exact E]|]. split; [symmetry; exact E|exact W2].
Qed.
Lemma ev_source : forall ev, In ev pl -> on_segments (ev_start s ev) (if ev_first s ev then first else second).
Proof.
  intros ev K. destruct (piece_source _ _ _ _ _ Hsw _ (ev_range ev K)) as (sg & Hg & W). exists sg. split; [exact Hg|]. apply W. apply endpoint_on. exact (ev_endpoint ev K).
Qed.

Theorem complete_points : forall p, In p (mixed_points s events) <-> on_segments p first /\ in_region second p /\ ~ on_part p first (in_region second).
Proof.
  intro p. unfold mixed_points. rewrite in_map_iff.
  assert (Gin : forall k g x, In (k, g) (group_by pt_eqb (ev_start s) events) -> In x g -> In x pl /\ ev_start s x = k).
  { intros k g x Hg Hx'. destruct (group_by_keys pt_eqb (ev_start s) pt_eqb_spec _ _ _ Hg) as (_ & K). destruct (K x Hx') as (K1 & K2).
    split; [apply (sort_by_in (binary_key_ltb s) pl); exact K2|exact K1]. }
  assert (Gall : forall k g x, In (k, g) (group_by pt_eqb (ev_start s) events) -> In x pl -> ev_start s x = k -> In x g).
  { intros k g x Hg Hx' E. apply (proj2 (group_by_contiguous pt_eqb (ev_start s) pt_eqb_spec _ (start_contiguous _ _ (key_start s) pl)) k g x Hg); [|exact E].
    apply (sort_by_in (binary_key_ltb s) pl). exact Hx'. }
  split.
  - intros ((p', g) & E & K). cbn in E. subst p'. apply filter_In in K. destruct K as (Hg & K). cbn [snd] in K.
    apply negb_true_iff, orb_false_iff in K. destruct K as (K1 & K2). apply all_equal_spec in K2. destruct K2 as (K2 & K3).
    apply in_map_iff in K2. destruct K2 as (u & Eu & Hu). apply in_map_iff in K3. destruct K3 as (v & Ev & Hv).
    destruct (Gin p g u Hg Hu) as (Pu & Su). destruct (Gin p g v Hg Hv) as (Pv & Sv).
    pose proof (ev_source u Pu) as Ou. rewrite Eu, Su in Ou. pose proof (ev_source v Pv) as Ov. rewrite Ev, Sv in Ov.
    split; [exact Ou|]. split; [left; exact Ov|]. intro Hpart.
    apply complete_segments in Hpart. rewrite (picked_left s) in Hpart. destruct Hpart as (k & Hk & Hp).
    apply (in_in _ _ _ _ _ _ _ H eq_refl a b Ha Hb Hx _ sorted_lefts) in Hk. destruct Hk as (i & Io & Ef & Hr & ->).
    pose proof (sw_range _ _ _ _ Hsw i Io) as Ri.
    assert (Hend : endpoint p (seg_of s i)).
    { pose proof (ev_endpoint v Pv) as Ve. rewrite Sv in Ve.
      assert (Hs : settled s out i) by (split; [exact Ri|left; exact Io]).
      assert (Ejf : l_first (lft s (left_of s v)) = negb (side i)) by (rewrite Ef; exact Ev).
      destruct (settled_meet _ x_max s out Hsw i (left_of s v) p Hs (ev_range v Pv) Ejf Hp (endpoint_on _ _ Ve)) as [(Q & _)|(_ & _ & Q & _)]; [exact Q|].
      rewrite Q. exact Ve. }
    destruct (near_event p i Ou (region_left second b Hb p (or_introl Ov)) Ri Hend) as (x & Px & Sx & Lx).
    pose proof (Gall p g x Hg Px Sx) as Hxg.
    assert (X : existsb (fun ev => l_result (lft s (left_of s ev))) g = true) by (apply existsb_exists; exists x; split; [exact Hxg|rewrite Lx; exact Hr]). congruence.
  - intros (O1 & Rg & Np).
    assert (Npick : forall i, (i < n)%nat -> on_segment p (seg_of s i) -> In (EL i) pl -> l_result (lft s i) = true -> False).
    { intros i Ri Pi He Hr. apply Np. apply complete_segments. rewrite (picked_left s). exists (seg_of s i). split; [|exact Pi].
      apply in_map. apply filter_In. split; [apply sorted_lefts; exact He|exact Hr]. }
    destruct O1 as (sg & Hg & Hp). destruct (piece_at _ _ _ _ _ Hsw true sg p Hg Hp) as (i & Ri & Ef & Pi & _).
    pose proof (rest_settled _ _ _ _ _ _ _ H a b Ha Hb Hx i Ri Ef) as Hs. pose proof (region_left second b Hb p Rg) as Lb.
    assert (O1 : on_segments p first) by (exists sg; split; assumption).
    assert (Hend : endpoint p (seg_of s i)).
    { destruct (pt_eqb_spec p (l_start (lft s i))) as [E|E]; [left; exact E|]. destruct (pt_eqb_spec p (end_of s i)) as [E'|E']; [right; exact E'|exfalso].
      destruct (piece_picked _ _ _ _ _ _ _ H eq_refl a b Ha Hb Hx i p Ri Ef (conj Pi (conj E E')) Rg) as (Io & Hr).
      exact (Npick i Ri Pi (pr_left _ _ _ _ Hpr i Io) Hr). }
    destruct (near_event p i O1 Lb Ri Hend) as (x & Px & Sx & Lx).
    assert (He : In (EL i) pl).
    { destruct x as [i'|r]; cbn in Lx; [rewrite <- Lx; exact Px|]. apply (pr_left _ _ _ _ Hpr). rewrite <- Lx. apply (pr_out _ _ _ _ Hpr); [exact (pr_range _ _ _ _ Hpr _ Px)|exact Px]. }
    destruct (ms_piece _ _ _ _ _ _ _ H i Hs He Ef) as (w & Ew & W1 & W2). destruct w; [exfalso; exact (Npick i Ri Pi He Ew)|].
    destruct (W2 eq_refl) as (W3 & _).
    assert (O2 : on_segments p second).
    { destruct (on_segments_dec p second) as [K|K]; [exact K|exfalso]. destruct Rg as [Rg|Rg]; [exact (K Rg)|]. exact (W3 p Pi (conj K Rg)). }
    destruct O2 as (sg2 & Hg2 & Hp2). destruct (piece_at _ _ _ _ _ Hsw false sg2 p Hg2 Hp2) as (j & Rj & Ej & Pj & _).
    assert (Ejf : side j = negb (side i)) by (rewrite Ef; exact Ej).
    assert (Hendj : endpoint p (seg_of s j)).
    { destruct (settled_meet _ x_max s out Hsw i j p Hs Rj Ejf Pi Pj) as [(_ & Q)|(_ & _ & Q & _)]; [exact Q|rewrite <- Q; exact Hend]. }
    destruct (near_event p j O1 Lb Rj Hendj) as (y & Py & Sy & Ly).
    destruct (group_by_cover pt_eqb (ev_start s) pt_eqb_spec events x) as (g & Hgr & Hxg); [apply (sort_by_in (binary_key_ltb s) pl); exact Px|].
    rewrite Sx in Hgr. pose proof (Gall p g y Hgr Py Sy) as Hyg. exists (p, g). split; [reflexivity|]. apply filter_In. split; [exact Hgr|]. cbn [snd].
    apply negb_true_iff, orb_false_iff. split.
    + destruct (existsb (fun ev => l_result (lft s (left_of s ev))) g) eqn:Ex; [|reflexivity]. exfalso. apply existsb_exists in Ex. destruct Ex as (z & Hz & Hr).
      destruct (Gin p g z Hgr Hz) as (Pz & Sz). apply (Npick (left_of s z) (ev_range z Pz)); [rewrite <- Sz; apply endpoint_on; exact (ev_endpoint z Pz)| |exact Hr].
      destruct z as [k|r]; [exact Pz|]. cbn. apply (pr_left _ _ _ _ Hpr). apply (pr_out _ _ _ _ Hpr); [exact (pr_range _ _ _ _ Hpr _ Pz)|exact Pz].
    + apply all_equal_spec. split; apply in_map_iff; [exists x|exists y]; (split; [unfold ev_first|assumption]); [rewrite Lx; exact Ef|rewrite Ly; exact Ej].
Qed.
Theorem complete_points_sorted : StronglySorted plt (mixed_points s events).
Proof.
  unfold mixed_points. apply (sublist_sorted _ _ _ (map fst (group_by pt_eqb (ev_start s) events))); [apply sublist_map; apply sublist_filter|].
  apply starts_sorted. apply key_start.
Qed.
End Complete.
