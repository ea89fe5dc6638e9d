(** Correctness of the operations of linear.py. *)
From Coq Require Import Permutation Sorted.
From Verif Require Import QcTac Geom Spec GeomFacts SortFacts PairFacts Pair Bounding Toward BoundingThms UnpackThms SweepInv SweepSteps Sweep SweepCmp Linear SweepLoop SweepStart SweepEnd SelectThms LinearMeaning.

(** ** Boxes and maximal abscissas of operands *)
Lemma box_merge_in : forall a b p, wf_box a -> wf_box b -> wf_box (box_merge a b) /\ (in_box p a \/ in_box p b -> in_box p (box_merge a b)).
Proof.
  intros a b p (A1 & A2) (B1 & B2). unfold wf_box, in_box, box_merge. cbn. unfold Qc_min, Qc_max. breflect; split;
    try (split; qlra); intros [(?&?&?&?)|(?&?&?&?)]; repeat split; qlra.
Qed.
Lemma segments_box_in : forall ss b, segments_box ss = Some b -> wf_box b /\ forall sg p, In sg ss -> on_segment p sg -> in_box p b.
Proof.
  intros [|s0 r] b E; [discriminate E|]. cbn in E. injection E as <-.
  assert (G : forall r b0, wf_box b0 -> let b := fold_left (fun b s' => box_merge b (segment_box s')) r b0 in
    wf_box b /\ forall p, in_box p b0 \/ (exists sg, In sg r /\ on_segment p sg) -> in_box p b).
  { clear. induction r as [|s r IH]; intros b0 W; cbn.
    - split; [exact W|]. intros p [K|(sg & [] & _)]. exact K.
    - pose proof (fun p => box_merge_in b0 (segment_box s) p W (segment_box_wf s)) as M.
      destruct (IH _ (proj1 (M (Pt 0 0)))) as (I1 & I2). split; [exact I1|]. intros p K. apply I2.
      destruct K as [K|(sg & [<-|K1] & K2)].
      + left. apply (proj2 (M p)). left. exact K.
      + left. apply (proj2 (M p)). right. exact (on_segment_box p s K2).
      + right. exists sg. split; assumption. }
  destruct (G r (segment_box s0) (segment_box_wf s0)) as (I1 & I2). split; [exact I1|].
  intros sg p [<-|K] Hp; apply I2; [left; exact (on_segment_box p s0 Hp)|right; exists sg; split; assumption].
Qed.
Lemma segments_x_max_in : forall ss x, segments_x_max ss = Some x -> forall sg p, In sg ss -> on_segment p sg -> px p <= x.
Proof.
  intros [|s0 r] x E; [discriminate E|]. cbn in E. injection E as <-.
  assert (G : forall r x0, x0 <= fold_left (fun m s' => Qc_max m (Qc_max (px (s_start s')) (px (s_end s')))) r x0
    /\ forall sg, In sg r -> px (s_start sg) <= fold_left (fun m s' => Qc_max m (Qc_max (px (s_start s')) (px (s_end s')))) r x0
       /\ px (s_end sg) <= fold_left (fun m s' => Qc_max m (Qc_max (px (s_start s')) (px (s_end s')))) r x0).
  { clear. induction r as [|s r IH]; intros x0; cbn.
    - split; [apply Qcle_refl|intros sg []].
    - destruct (IH (Qc_max x0 (Qc_max (px (s_start s)) (px (s_end s))))) as (I1 & I2).
      pose proof (proj1 (Qc_max_le _ _ _) I1) as (J1 & J2). pose proof (proj1 (Qc_max_le _ _ _) J2) as (J3 & J4).
      split; [exact J1|]. intros sg [<-|K]; [split; assumption|exact (I2 sg K)]. }
  destruct (G r (Qc_max (px (s_start s0)) (px (s_end s0)))) as (I1 & I2). pose proof (proj1 (Qc_max_le _ _ _) I1) as (J1 & J2).
  intros sg p Hs Hp. apply on_segment_box in Hp. destruct Hp as (_ & Hp & _). cbn in Hp. apply (Qcle_trans _ _ _ Hp).
  apply Qc_max_le. destruct Hs as [<-|Hs]; [split; assumption|exact (I2 sg Hs)].
Qed.
Lemma segments_box_some : forall ss, ss <> [] -> exists b, segments_box ss = Some b.
Proof. intros [|s r] N; [congruence|]. eexists. reflexivity. Qed.
Lemma segments_x_max_some : forall ss, ss <> [] -> exists x, segments_x_max ss = Some x.
Proof. intros [|s r] N; [congruence|]. eexists. reflexivity. Qed.
Lemma disjoint_boxes : forall first second a b p, segments_box first = Some a -> segments_box second = Some b -> disjoint_with a b = true ->
  on_segments p first -> ~ on_segments p second.
Proof.
  intros first second a b p Ea Eb D (s & Hs & Ps) (t & Ht & Pt). apply segments_box_in in Ea. apply segments_box_in in Eb.
  apply (disjoint_with_points a b (proj1 Ea) (proj1 Eb)) with (p := p) in D. apply D.
  split; [exact (proj2 Ea s p Hs Ps)|exact (proj2 Eb t p Ht Pt)].
Qed.

(** ** Lists of segments *)
Lemma pairwise_cons : forall (A : Type) (R : A -> A -> Prop) x l, (forall a b, R a b -> R b a) ->
  (pairwise R (x :: l) <-> (forall y, In y l -> R x y) /\ pairwise R l).
Proof.
  intros A R x l Rs. split.
  - intro P. split.
    + intros y Hy. apply In_nth_error in Hy. destruct Hy as (n & Hn). apply (P 0%nat (S n)); [lia|reflexivity|exact Hn].
    + intros i j a b N Hi Hj. apply (P (S i) (S j)); [lia|exact Hi|exact Hj].
  - intros (P1 & P2) [|i] [|j] a b N Hi Hj; cbn in Hi, Hj.
    + congruence.
    + injection Hi as ->. apply P1. exact (nth_error_In _ _ Hj).
    + injection Hj as ->. apply Rs. apply P1. exact (nth_error_In _ _ Hi).
    + apply (P2 i j); [lia|exact Hi|exact Hj].
Qed.
Lemma pairwise_perm : forall (A : Type) (R : A -> A -> Prop) l l', (forall a b, R a b -> R b a) ->
  Permutation l l' -> pairwise R l -> pairwise R l'.
Proof.
  intros A R l l' Rs P. induction P as [|x l l' P IH|x y l|l l' l'' P1 IH1 P2 IH2]; intro H.
  - exact H.
  - apply (pairwise_cons A R x l Rs) in H. destruct H as (H1 & H2). apply (pairwise_cons A R x l' Rs). split; [|exact (IH H2)].
    intros y Hy. apply H1. apply (Permutation_in y (Permutation_sym P)). exact Hy.
  - apply (pairwise_cons A R _ _ Rs) in H. destruct H as (H1 & H2). apply (pairwise_cons A R _ _ Rs) in H2. destruct H2 as (H2 & H3).
    apply (pairwise_cons A R _ _ Rs). split; [|apply (pairwise_cons A R _ _ Rs); split; [|exact H3]].
    + intros z [<-|Hz]; [apply Rs; apply H1; left; reflexivity|exact (H2 z Hz)].
    + intros z Hz. apply H1. right. exact Hz.
  - exact (IH2 (IH1 H)).
Qed.
Lemma pairwise_app : forall (A : Type) (R : A -> A -> Prop) l l', (forall a b, R a b -> R b a) ->
  pairwise R l -> pairwise R l' -> (forall a b, In a l -> In b l' -> R a b) -> pairwise R (l ++ l').
Proof.
  intros A R l l' Rs. induction l as [|x l IH]; intros P P' Q; [exact P'|]. cbn.
  apply (pairwise_cons A R x l Rs) in P. destruct P as (P1 & P2). apply (pairwise_cons A R _ _ Rs). split.
  - intros y Hy. apply in_app_or in Hy. destruct Hy as [Hy|Hy]; [exact (P1 y Hy)|apply Q; [left; reflexivity|exact Hy]].
  - apply IH; [exact P2|exact P'|]. intros a b Ha Hb. apply Q; [right; exact Ha|exact Hb].
Qed.
Lemma clean_sym : forall a b : segment, ~ overlap a b /\ ~ crosses a b -> ~ overlap b a /\ ~ crosses b a.
Proof. intros a b (H1 & H2). split; intro K; [apply H1; apply overlap_sym; exact K|apply H2; apply crosses_sym; exact K]. Qed.

Lemma non_overlapping_filter : forall f ss, non_overlapping ss -> non_overlapping (filter f ss).
Proof.
  intros f ss (P & O). split.
  - rewrite Forall_forall in *. intros x Hx. apply filter_In in Hx. exact (P x (proj1 Hx)).
  - clear P. assert (Rs : forall a b : segment, ~ overlap a b -> ~ overlap b a) by (intros a b N K; apply N; apply overlap_sym; exact K).
    induction ss as [|s ss IH]; [exact O|]. apply (pairwise_cons _ _ _ _ Rs) in O. destruct O as (O1 & O2). cbn.
    destruct (f s); [|exact (IH O2)]. apply (pairwise_cons _ _ _ _ Rs). split; [|exact (IH O2)].
    intros y Hy. apply filter_In in Hy. exact (O1 y (proj1 Hy)).
Qed.
Lemma lawful_operands : forall first second, non_overlapping first -> non_overlapping second -> lawful (tag first second).
Proof. intros first second (P1 & O1) (P2 & O2). apply lawful_tag; assumption. Qed.
Lemma valid_non_overlapping : forall ss, valid_multisegment ss -> non_overlapping ss.
Proof. intros ss (P & O). split; [exact P|]. intros i j x y N Hi Hj. exact (proj1 (O i j x y N Hi Hj)). Qed.

Lemma arranged_valid : forall ss, arranged ss -> valid_multisegment ss.
Proof.
  intros ss (A1 & A2 & A3). assert (Pr : forall s, In s ss -> proper s).
  { intros s Hs E. pose proof (A1 s Hs) as K. rewrite E in K. exact (plt_irrefl _ K). }
  split; [apply Forall_forall; exact Pr|].
  assert (Hp : forall a b, In a ss -> In b ss -> a <> b -> ~ overlap a b /\ ~ crosses a b).
  { intros a b Ha Hb N. split.
    - intro O. destruct (overlap_inside a b O) as (m & (M1 & N1 & N2) & (M2 & _)).
      destruct (A3 a b Ha Hb N m M1 M2) as ([K|K] & _); contradiction.
    - intros (_ & m & (M1 & N1 & N2) & (M2 & _)). destruct (A3 a b Ha Hb N m M1 M2) as ([K|K] & _); contradiction. }
  clear A1 A3 Pr. induction A2 as [|s ss S IH F].
  - intros [|i] j x y N Hi; discriminate Hi.
  - apply pairwise_cons; [exact clean_sym|]. split; [|apply IH; intros a b Ha Hb; apply Hp; right; assumption].
    intros y Hy. apply Hp; [left; reflexivity|right; exact Hy|]. intros ->. rewrite Forall_forall in F. exact (seg_lt_irrefl y (F y Hy)).
Qed.

(** ** Results *)
Lemma in_unpacked : forall ss p, in_geometry p (unpack_segments ss) <-> on_segments p ss.
Proof.
  intros ss p. unfold in_geometry. destruct (unpack_segments_canonical ss) as (_ & E1 & E2 & _). rewrite E1, E2. split; [intros [[]|K]; exact K|intro K; right; exact K].
Qed.
Lemma in_multisegment : forall ss p, in_geometry p (GMultisegment ss) <-> on_segments p ss.
Proof. intros ss p. unfold in_geometry. cbn. split; [intros [[]|K]; exact K|intro K; right; exact K]. Qed.
Lemma on_sorted : forall l p, on_segments p (sort_by seg_ltb l) <-> on_segments p l.
Proof. intros l p. unfold on_segments. split; intros (s & Hs & Hp); exists s; (split; [apply (sort_by_in seg_ltb l); exact Hs|exact Hp]). Qed.
Lemma on_app : forall l l' p, on_segments p (l ++ l') <-> on_segments p l \/ on_segments p l'.
Proof.
  intros l l' p. split.
  - intros (s & Hs & Hp). apply in_app_or in Hs. destruct Hs as [Hs|Hs]; [left|right]; exists s; split; assumption.
  - intros [(s & Hs & Hp)|(s & Hs & Hp)]; exists s; (split; [apply in_or_app|exact Hp]); [left|right]; exact Hs.
Qed.

(** ** Union *)
Theorem union_correct : forall first second, non_overlapping first -> non_overlapping second -> first <> [] -> second <> [] ->
  exists g, (forall o, unite_multisegments o first second = Ok g)
  /\ points_of g = [] /\ polygons_of g = [] /\ Forall proper (segments_of g)
  /\ (forall p, in_geometry p g <-> on_segments p first \/ on_segments p second)
  /\ (valid_multisegment first -> valid_multisegment second -> valid_multisegment (segments_of g))
  /\ (forall a b, segments_box first = Some a -> segments_box second = Some b -> disjoint_with a b = false -> arranged (segments_of g)).
Proof.
  intros first second N1 N2 E1 E2. destruct (segments_box_some first E1) as (a & Ea). destruct (segments_box_some second E2) as (b & Eb).
  destruct (disjoint_with a b) eqn:D.
  - exists (GMultisegment (sort_by seg_ltb (first ++ second))). split; [intro o; unfold unite_multisegments, linear_union, with_boxes; rewrite Ea, Eb, D; reflexivity|].
    split; [reflexivity|]. split; [reflexivity|].
    assert (Pm : Permutation (first ++ second) (sort_by seg_ltb (first ++ second))) by (apply Permutation_sym; apply sort_by_perm).
    assert (Pr : Forall proper (sort_by seg_ltb (first ++ second))).
    { apply (Permutation_Forall Pm). apply Forall_app. split; [exact (proj1 N1)|exact (proj1 N2)]. }
    split; [exact Pr|]. split; [intro p; rewrite in_multisegment, on_sorted, on_app; reflexivity|]. split; [|intros a' b' Ea' Eb'; congruence].
    intros V1 V2. split; [exact Pr|]. cbn. apply (pairwise_perm _ _ _ _ clean_sym Pm). apply pairwise_app; [exact clean_sym|exact (proj2 V1)|exact (proj2 V2)|].
    intros s t Hs Ht. assert (Q : forall p, on_segment p s -> ~ on_segment p t).
    { intros p Ps Pt. apply (disjoint_boxes first second a b p Ea Eb D); [exists s|exists t]; split; assumption. }
    split; [intros (p & q & _ & P1 & P2 & _); exact (Q p P1 P2)|]. intros (_ & p & (P1 & _) & (P2 & _)). exact (Q p P1 P2).
  - destruct (linear_sweep first second None (lawful_operands _ _ N1 N2)) as (s & out & pl & H & _ & Hs & _).
    exists (GMultisegment (select (fun _ => true) (s, map EL out))). split.
    { intro o. unfold unite_multisegments, linear_union, with_boxes. rewrite Ea, Eb, D. change no_stop with (beyond None). rewrite (Hs o). reflexivity. }
    pose proof (result_arranged _ _ _ _ _ H (fun _ => true) eq_refl) as A.
    split; [reflexivity|]. split; [reflexivity|]. split; [exact (result_proper _ _ _ _ _ H (fun _ => true) eq_refl)|].
    split; [intro p; rewrite in_multisegment; exact (union_points _ _ _ _ _ H eq_refl p)|]. split; [intros _ _; exact (arranged_valid _ A)|intros _ _ _ _ _; exact A].
Qed.

(** ** Symmetric difference *)
Theorem symmetric_difference_correct : forall first second, non_overlapping first -> non_overlapping second -> first <> [] -> second <> [] ->
  exists g, (forall o, linear_symmetric_difference o first second = Ok g)
  /\ closure_symmetric_difference g first second
  /\ (valid_multisegment first -> valid_multisegment second -> valid_multisegment (segments_of g))
  /\ (forall a b, segments_box first = Some a -> segments_box second = Some b -> disjoint_with a b = false ->
        canonical g /\ arranged (segments_of g)).
Proof.
  intros first second N1 N2 E1 E2. destruct (segments_box_some first E1) as (a & Ea). destruct (segments_box_some second E2) as (b & Eb).
  destruct (disjoint_with a b) eqn:D.
  - exists (GMultisegment (sort_by seg_ltb (first ++ second))). split; [intro o; unfold linear_symmetric_difference, with_boxes; rewrite Ea, Eb, D; reflexivity|].
    assert (Pm : Permutation (first ++ second) (sort_by seg_ltb (first ++ second))) by (apply Permutation_sym; apply sort_by_perm).
    assert (Pr : Forall proper (sort_by seg_ltb (first ++ second))).
    { apply (Permutation_Forall Pm). apply Forall_app. split; [exact (proj1 N1)|exact (proj1 N2)]. }
    assert (Q : forall s t p, In s first -> In t second -> on_segment p s -> ~ on_segment p t).
    { intros s t p Hs Ht Ps Pt. apply (disjoint_boxes first second a b p Ea Eb D); [exists s|exists t]; split; assumption. }
    split; [|split; [|intros a' b' Ea' Eb'; congruence]].
    + split; [reflexivity|]. split; [reflexivity|]. split; [exact Pr|]. split; [|split].
      * intros p K. rewrite in_multisegment, on_sorted, on_app. destruct K as [(K & _)|(K & _)]; [left|right]; exact K.
      * intros p K. rewrite in_multisegment, on_sorted, on_app in K. exact K.
      * intros s s1 s2 p q _ H1 H2 _ (_ & P1 & P2 & _). exact (Q s1 s2 p H1 H2 P1 P2).
    + intros V1 V2. split; [exact Pr|]. cbn. apply (pairwise_perm _ _ _ _ clean_sym Pm). apply pairwise_app; [exact clean_sym|exact (proj2 V1)|exact (proj2 V2)|].
      intros s t Hs Ht. pose proof (fun p => Q s t p Hs Ht) as Q'.
      split; [intros (p & q & _ & P1 & P2 & _); exact (Q' p P1 P2)|]. intros (_ & p & (P1 & _) & (P2 & _)). exact (Q' p P1 P2).
  - destruct (linear_sweep first second None (lawful_operands _ _ N1 N2)) as (s & out & pl & H & _ & Hs & _).
    exists (unpack_segments (select all_equal (s, map EL out))). split.
    { intro o. unfold linear_symmetric_difference, with_boxes. rewrite Ea, Eb, D. change no_stop with (beyond None). rewrite (Hs o). reflexivity. }
    pose proof (result_arranged _ _ _ _ _ H all_equal eq_refl) as A.
    destruct (unpack_segments_canonical (select all_equal (s, map EL out))) as (C1 & C2 & C3 & C4).
    destruct (symmetric_points _ _ _ _ _ H eq_refl) as (S1 & S2). split; [|split].
    + split; [exact C2|]. split; [exact C4|]. rewrite C3. split; [exact (result_proper _ _ _ _ _ H all_equal eq_refl)|]. split; [|split].
      * intros p K. apply in_unpacked. exact (S1 p K).
      * intros p K. apply in_unpacked in K. exact (shown_source _ _ _ _ _ H all_equal eq_refl p K).
      * exact S2.
    + intros _ _. rewrite C3. exact (arranged_valid _ A).
    + intros _ _ _ _ _. rewrite C3. split; [exact C1|exact A].
Qed.

(** ** Filtering *)
Lemma coupled_kept : forall others box ss t, segments_box others = Some box -> non_overlapping ss -> In t ss ->
  (exists s, In s others /\ overlap s t) -> box_friendly box t -> In t (to_coupled_segments box ss).
Proof.
  intros others box ss t Eb (P & _) Ht (s & Hs & p & q & N & P1 & P2 & Q1 & Q2) F. apply filter_In. split; [exact Ht|].
  apply segments_box_in in Eb. rewrite Forall_forall in P. apply coupled_with_segment_kept; [exact (proj1 Eb)|exact (P t Ht)| |exact F].
  exists p, q. split; [exact N|]. split; (split; [apply (proj2 Eb s); assumption|assumption]).
Qed.

(** ** Difference *)
Theorem difference_correct : forall value first second, non_overlapping first -> non_overlapping second -> first <> [] -> second <> [] ->
  points_of value = [] -> polygons_of value = [] -> segments_of value = first ->
  exists g, (forall o, linear_difference o value first second = Ok g)
  /\ points_of g = [] /\ polygons_of g = [] /\ Forall proper (segments_of g)
  /\ (forall p, on_segments p first -> ~ on_segments p second -> in_geometry p g)
  /\ (forall p, in_geometry p g -> on_segments p first)
  /\ (forall s t box, In s (segments_of g) -> In t second -> segments_box first = Some box -> box_friendly box t -> ~ overlap s t)
  /\ (g = value \/ (canonical g /\ arranged (segments_of g))).
Proof.
  intros value first second N1 N2 E1 E2 V1 V2 V3. destruct (segments_box_some first E1) as (a & Ea). destruct (segments_box_some second E2) as (b & Eb).
  assert (Same : forall P : geometry -> Prop, (forall s t box, In s first -> In t second -> segments_box first = Some box -> box_friendly box t -> ~ overlap s t) ->
    (forall o, linear_difference o value first second = Ok value) -> P value ->
    exists g, (forall o, linear_difference o value first second = Ok g)
    /\ points_of g = [] /\ polygons_of g = [] /\ Forall proper (segments_of g)
    /\ (forall p, on_segments p first -> ~ on_segments p second -> in_geometry p g)
    /\ (forall p, in_geometry p g -> on_segments p first)
    /\ (forall s t box, In s (segments_of g) -> In t second -> segments_box first = Some box -> box_friendly box t -> ~ overlap s t)
    /\ P g).
  { intros P Q R HP. exists value. split; [exact R|]. split; [exact V1|]. split; [exact V2|]. rewrite V3. split; [exact (proj1 N1)|].
    split; [intros p K _; right; rewrite V3; exact K|]. split; [|split; [exact Q|exact HP]].
    intros p K. unfold in_geometry in K. rewrite V1, V3 in K. destruct K as [[]|K]. exact K. }
  destruct (disjoint_with a b) eqn:D.
  - apply (Same (fun g => g = value \/ (canonical g /\ arranged (segments_of g)))).
    + intros s t box Hs Ht _ _ (p & q & _ & P1 & P2 & _). apply (disjoint_boxes first second a b p Ea Eb D); [exists s|exists t]; split; assumption.
    + intro o. unfold linear_difference, with_boxes. rewrite Ea, Eb, D. reflexivity.
    + left. reflexivity.
  - assert (Kp : forall s t box, In s first -> In t second -> segments_box first = Some box -> box_friendly box t -> overlap s t -> In t (to_coupled_segments a second)).
    { intros s t box Hs Ht Eb' F O. rewrite Ea in Eb'. injection Eb' as <-. apply (coupled_kept first a second t Ea N2 Ht); [exists s; split; assumption|exact F]. }
    destruct (to_coupled_segments a second) as [|t0 ts] eqn:Et.
    + apply (Same (fun g => g = value \/ (canonical g /\ arranged (segments_of g)))).
      * intros s t box Hs Ht Eb' F O. exact (Kp s t box Hs Ht Eb' F O).
      * intro o. unfold linear_difference, with_boxes. rewrite Ea, Eb, D, Et. reflexivity.
      * left. reflexivity.
    + assert (N2' : non_overlapping (t0 :: ts)) by (rewrite <- Et; apply non_overlapping_filter; exact N2).
      destruct (linear_sweep first (t0 :: ts) (segments_x_max first) (lawful_operands _ _ N1 N2')) as (s & out & pl & H & _ & Hs & _).
      assert (Cv : covers first (t0 :: ts) (segments_x_max first) true) by (intros x Ex; exact (segments_x_max_in first x Ex)).
      destruct (difference_points _ _ _ _ _ H Cv) as (D1 & D2 & D3).
      destruct (unpack_segments_canonical (select forall_first (s, map EL out))) as (C1 & C2 & C3 & C4).
      assert (Hsub : forall t, In t (t0 :: ts) -> In t second) by (intros t; rewrite <- Et; intro K; apply filter_In in K; exact (proj1 K)).
      exists (unpack_segments (select forall_first (s, map EL out))). split.
      { intro o. unfold linear_difference, with_boxes. rewrite Ea, Eb, D, Et, (Hs o). reflexivity. }
      split; [exact C2|]. split; [exact C4|]. rewrite C3. split; [exact (result_proper _ _ _ _ _ H forall_first eq_refl)|].
      split; [|split; [|split]].
      * intros p K1 K2. apply in_unpacked. apply (D1 p K1). intros (t & Ht & Hp). apply K2. exists t. split; [exact (Hsub t Ht)|exact Hp].
      * intros p K. apply in_unpacked in K. exact (D2 p K).
      * intros k t box Hk Ht Eb' F O. apply (D3 k t Hk); [|exact O].
        pose proof (result_sound _ _ _ _ _ H forall_first eq_refl k Hk) as (i & Hi & -> & [(_ & K)|(_ & K)]); [|discriminate K].
        destruct (piece_source _ _ _ _ _ H i (sw_range _ _ _ _ H i Hi)) as (sg & Hsg & W). cbn in K. destruct (l_first (lft s i)); [|discriminate K].
        apply (Kp sg t box Hsg Ht Eb' F). destruct O as (p & q & Npq & P1 & P2 & Q1 & Q2). exists p, q. repeat split; auto.
      * right. split; [exact C1|exact (result_arranged _ _ _ _ _ H forall_first eq_refl)].
Qed.

(** ** Intersection *)
Lemma min_covers : forall first second, exists b, covers first second (x_max_min (segments_x_max first) (segments_x_max second)) b.
Proof.
  intros first second. destruct (segments_x_max first) as [x|] eqn:E1; [|exists true; intros x E; discriminate E].
  destruct (segments_x_max second) as [y|] eqn:E2; [|exists true; intros z E; discriminate E].
  cbn. destruct (Qc_min_cases x y) as [(-> & K)|(-> & K)].
  - exists true. intros z E. injection E as <-. exact (segments_x_max_in first x E1).
  - exists false. intros z E. injection E as <-. exact (segments_x_max_in second y E2).
Qed.
Lemma empty_common : forall first second, (forall p, ~ on_common_segment p first second) -> common_sub_segments GEmpty first second.
Proof.
  intros first second N. split; [reflexivity|]. split; [reflexivity|]. split; [constructor|]. intro p. split.
  - intros [[]|(s & [] & _)].
  - intro K. exfalso. exact (N p K).
Qed.
Lemma empty_arranged : arranged [].
Proof. split; [intros s []|]. split; [constructor|intros s t []]. Qed.
(** Common sub-segments of the operands after filtering. *)
Definition kept_common (p : point) (a b : box) (first second : list segment) : Prop :=
  on_common_segment p (to_coupled_segments b first) (to_coupled_segments a second).
Theorem intersection_correct : forall first second a b, non_overlapping first -> non_overlapping second ->
  segments_box first = Some a -> segments_box second = Some b ->
  exists g, (forall o, intersect_multisegments o first second = Ok g)
  /\ points_of g = [] /\ polygons_of g = [] /\ canonical g /\ arranged (segments_of g)
  /\ (forall p, in_geometry p g <-> kept_common p a b first second).
Proof.
  intros first second a b N1 N2 Ea Eb.
  assert (Emp : (forall p, ~ kept_common p a b first second) -> (forall o, intersect_multisegments o first second = Ok GEmpty) ->
    exists g, (forall o, intersect_multisegments o first second = Ok g)
    /\ points_of g = [] /\ polygons_of g = [] /\ canonical g /\ arranged (segments_of g)
    /\ (forall p, in_geometry p g <-> kept_common p a b first second)).
  { intros Q R. exists GEmpty. split; [exact R|]. split; [reflexivity|]. split; [reflexivity|]. split; [exact I|]. split; [exact empty_arranged|].
    exact (proj2 (proj2 (proj2 (empty_common _ _ Q)))). }
  destruct (disjoint_with a b) eqn:D.
  { apply Emp.
    - intros p (s & t & Hs & Ht & _ & Ps & Pt). apply filter_In in Hs. apply filter_In in Ht.
      apply (disjoint_boxes first second a b p Ea Eb D); [exists s|exists t]; split; tauto.
    - intro o. unfold intersect_multisegments, linear_intersection, with_boxes. rewrite Ea, Eb, D. reflexivity. }
  destruct (to_coupled_segments b first) as [|f fs] eqn:Ef.
  { apply Emp.
    - intros p (s & t & Hs & _). rewrite Ef in Hs. destruct Hs.
    - intro o. unfold intersect_multisegments, linear_intersection, with_boxes. rewrite Ea, Eb, D, Ef. reflexivity. }
  destruct (to_coupled_segments a second) as [|t0 ts] eqn:Et.
  { apply Emp.
    - intros p (s & t & _ & Ht & _). rewrite Et in Ht. destruct Ht.
    - intro o. unfold intersect_multisegments, linear_intersection, with_boxes. rewrite Ea, Eb, D, Ef, Et. reflexivity. }
  assert (N1' : non_overlapping (f :: fs)) by (rewrite <- Ef; apply non_overlapping_filter; exact N1).
  assert (N2' : non_overlapping (t0 :: ts)) by (rewrite <- Et; apply non_overlapping_filter; exact N2).
  destruct (linear_sweep (f :: fs) (t0 :: ts) (x_max_min (segments_x_max (f :: fs)) (segments_x_max (t0 :: ts))) (lawful_operands _ _ N1' N2'))
    as (s & out & pl & H & _ & Hs & _).
  destruct (min_covers (f :: fs) (t0 :: ts)) as (c & Cv).
  assert (Cv' : covers (f :: fs) (t0 :: ts) (x_max_min (segments_x_max (f :: fs)) (segments_x_max (t0 :: ts))) true
    \/ covers (f :: fs) (t0 :: ts) (x_max_min (segments_x_max (f :: fs)) (segments_x_max (t0 :: ts))) false) by (destruct c; [left|right]; exact Cv).
  pose proof (intersection_points _ _ _ _ _ H Cv') as K. cbv beta in K.
  destruct (unpack_segments_canonical (select (fun l => negb (all_equal l)) (s, map EL out))) as (C1 & C2 & C3 & C4).
  exists (unpack_segments (select (fun l => negb (all_equal l)) (s, map EL out))). split.
  { intro o. unfold intersect_multisegments, linear_intersection, with_boxes. rewrite Ea, Eb, D, Ef, Et, (Hs o). reflexivity. }
  split; [exact C2|]. split; [exact C4|]. split; [exact C1|]. rewrite C3.
  split; [exact (result_arranged _ _ _ _ _ H (fun l => negb (all_equal l)) eq_refl)|].
  intro p. rewrite in_unpacked. unfold kept_common. rewrite Ef, Et. exact (K p).
Qed.
