(** An implementation of what is expected of package orient, showing that the
    expectations can be met.  It is not a model of orient, and nothing about
    the modelled code depends on it. *)
From Verif Require Import QcTac Geom Spec SpecShape SpecLocate GeomFacts Toward Bounding BoundingThms LoopThms Unique Sweep Linear Labelled Contour Filter Mixed Parity Outline SweepGeo SweepEnd Classify SelectThms LinearMeaning LinearThms LinearComplete MixedThms MixedComplete EvenOdd Shapes Polygons FilterThms MixedProps.

Definition on_segmentb (p : point) (s : segment) : bool :=
  Qc_eqb (cross (s_start s) (s_end s) p) 0 && Qc_leb 0 (dot (s_start s) (s_end s) p)
  && Qc_leb (dot (s_start s) (s_end s) p) (dot (s_start s) (s_end s) (s_end s)).
Definition on_edges (c : contour) (p : point) : bool := existsb (on_segmentb p) (edges c).
Definition inner (c : contour) (p : point) : bool := negb (on_edges c p) && inside (edges c) p.
Definition outer (c : contour) (p : point) : bool := negb (on_edges c p) && negb (inside (edges c) p).
Definition midpoint (s : segment) : point := lerp (s_start s) (s_end s) (/ (1 + 1)).
(** Parts of a segment cut by the edges. *)
Definition cuts (s : segment) (c : contour) : list segment :=
  match sweep_mixed out_left mixed_in (Oracle (fun _ _ => 0%nat) (fun _ l => (length l / 2)%nat)) no_stop [s] [Polygon c []] with
  | Ok (st, events) => map (ev_segment st) (filter (ev_first st) events)
  | Err _ => []
  end.
Definition samples (s : segment) (c : contour) : list point := flat_map (fun k => [s_start k; s_end k; midpoint k]) (cuts s c).
Definition reference_locators : locators := Locators
  (fun p c => if on_edges c p then BOUNDARY else if inside (edges c) p then INTERIOR else EXTERIOR)
  (fun s c => if existsb (fun k => on_edges c (midpoint k)) (cuts s c) && negb (forallb (on_edges c) (samples s c)) then OVERLAP else DISJOINT)
  (fun s c =>
     let ps := samples s c in
     if forallb (on_edges c) ps then COMPONENT
     else if existsb (inner c) ps
     then if existsb (outer c) ps then CROSS else if existsb (on_edges c) ps then ENCLOSED else WITHIN
     else if existsb (on_edges c) ps then TOUCH else DISJOINT).

Lemma on_segmentb_spec : forall p s, proper s -> (on_segmentb p s = true <-> on_segment p s).
Proof.
  intros p s P. unfold on_segmentb. rewrite !andb_true_iff, !Qc_leb_true, (on_segment_affine p s P). rewrite <- (reflect_iff _ _ (Qc_eqb_spec _ _)). tauto.
Qed.
Lemma midpoint_in : forall k, proper k -> inside_segment (midpoint k) k.
Proof.
  intros [a b] H. unfold proper in H. cbn in H. unfold midpoint. cbn [s_start s_end]. split.
  - apply on_lerp. exists (/ (1 + 1)). split; [discriminate|]. split; [discriminate|reflexivity].
  - cbn. split; intro E.
    + apply lerp_eq0 in E; [discriminate E|exact H].
    + apply lerp_eq1 in E; [discriminate E|exact H].
Qed.

Section Contour.
Variable c : contour.
Hypothesis Hc : simple_contour (vertices c).
Let g := Polygon c [].
Lemma edges_proper : forall t, In t (edges c) -> proper t.
Proof. intros t Ht. pose proof (simple_proper (vertices c) Hc) as K. rewrite Forall_forall in K. exact (K t Ht). Qed.
Lemma on_edges_spec : forall p, on_edges c p = true <-> on_segments p (edges c).
Proof.
  intro p. unfold on_edges. rewrite existsb_exists. split; intros (t & Ht & O); exists t; (split; [exact Ht|]); apply (on_segmentb_spec p t (edges_proper t Ht)); exact O.
Qed.
Lemma inner_spec : forall p, inner c p = true <-> inside_contour c p.
Proof.
  intro p. unfold inner. rewrite andb_true_iff, negb_true_iff, <- not_true_iff_false, on_edges_spec. reflexivity.
Qed.
Lemma outer_spec : forall p, outer c p = true <-> ~ in_contour c p.
Proof.
  intro p. unfold outer. rewrite andb_true_iff, !negb_true_iff, <- !not_true_iff_false, on_edges_spec. unfold in_contour, in_region. fold (edges c). tauto.
Qed.
Lemma single_valid : valid_polygons [g].
Proof.
  pose proof (simple_non_overlapping (vertices c) Hc) as N.
  assert (V : valid_polygon g).
  { split; [exact Hc|]. split; [constructor|]. split; [intros h p []|]. split; [intros h p []|]. split; [intros [|i] j h k _ E; discriminate E|].
    unfold polygon_edges. cbn. rewrite app_nil_r. exact N. }
  split; [constructor; [exact V|constructor]|]. split.
  - intros [|i] [|j] h k Hn E E'; try congruence; [destruct j|destruct i|destruct i]; discriminate.
  - cbn. rewrite app_nil_r. apply V.
Qed.
Lemma on_oriented : forall p, on_segments p (edges_of [g]) <-> on_segments p (edges c).
Proof.
  intro p. unfold edges_of. rewrite (turned_on _ _ p (turned_polygons [g])). cbn. unfold polygon_edges. cbn. rewrite !app_nil_r. reflexivity.
Qed.
Lemma in_oriented : forall p, in_region (edges_of [g]) p <-> in_contour c p.
Proof.
  intro p. unfold in_contour, in_region. rewrite on_oriented. pose proof (turned_inside _ _ p (turned_polygons [g])) as K.
  cbn in K. unfold polygon_edges in K. cbn in K. rewrite !app_nil_r in K. cbn. rewrite app_nil_r, K. reflexivity.
Qed.

Variable s : segment.
Hypothesis Hs : proper s.
Lemma cuts_are : exists st out pl, mixed_swept [s] (edges_of [g]) None true st out pl
  /\ cuts s c = map (seg_of st) (filter (fun i => l_first (lft st i)) (lefts_in pl)).
Proof.
  assert (F : non_overlapping [s]).
  { split; [constructor; [exact Hs|constructor]|]. intros [|i] [|j] a b Hn E E'; try congruence; [destruct j|destruct i|destruct i]; discriminate. }
  destruct (mixed_sweep [s] [g] None true F (oriented_boundary [g] single_valid)) as (st & out & pl & H & R). exists st, out, pl. split; [exact H|].
  unfold cuts. change no_stop with (beyond None). change mixed_in with (mixed_test true). fold g. rewrite (R _ out_left by_lefts), put_left.
  clear. induction pl as [|[i|r] pl IH]; [reflexivity| |exact IH]. cbn.
  change (ev_first st (EL i)) with (l_first (lft st i)). destruct (l_first (lft st i)); [cbn; f_equal; exact IH|exact IH].
Qed.
Lemma cuts_spec : (forall k, In k (cuts s c) -> proper k /\ within k s
    /\ (on_segments (midpoint k) (edges c) -> exists t, In t (edges c) /\ overlap s t)
    /\ (forall p, inside_segment p k -> (on_segments p (edges c) <-> on_segments (midpoint k) (edges c)) /\ (in_contour c p <-> in_contour c (midpoint k))))
  /\ (forall p, on_segment p s -> exists k, In k (cuts s c) /\ on_segment p k)
  /\ (forall p q, p <> q -> on_segment p s -> on_segment q s -> exists k m, In k (cuts s c) /\ inside_segment m k /\ on_segment m (Seg p q)).
Proof.
  destruct cuts_are as (st & out & pl & H & E).
  pose proof (ms_swept _ _ _ _ _ _ _ H) as Hsw. pose proof (ms_processed _ _ _ _ _ _ _ H) as Hpr.
  assert (All : forall i, (i < length (lefts st))%nat -> In i out).
  { intros i Hi. destruct (in_dec Nat.eq_dec i out) as [K|K]; [exact K|]. destruct (sw_rest _ _ _ _ Hsw i Hi K) as (z & Ez & _). discriminate Ez. }
  assert (Cut : forall k, In k (cuts s c) <-> exists i, (i < length (lefts st))%nat /\ l_first (lft st i) = true /\ k = seg_of st i).
  { intro k. rewrite E, in_map_iff. split.
    - intros (i & <- & Hi). apply filter_In in Hi. destruct Hi as (Hi & Ei). apply lefts_in_in in Hi. exists i. split; [exact (pl_range _ _ _ _ _ _ _ H i Hi)|]. split; [exact Ei|reflexivity].
    - intros (i & Hi & Ei & ->). exists i. split; [reflexivity|]. apply filter_In. split; [|exact Ei]. apply lefts_in_in. exact (pr_left _ _ _ _ Hpr i (All i Hi)). }
  split; [|split].
  - intros k Hk. destruct (proj1 (Cut k) Hk) as (i & Hi & Ei & ->). pose proof (piece_proper _ _ _ _ Hsw i Hi) as Pk. split; [exact Pk|].
    destruct (source_first _ _ _ _ _ _ _ H i Hi Ei) as (sg & [<-|[]] & W). split; [exact W|].
    (* an inner point on an edge: the whole piece is on it *)
    assert (Whole : forall p, inside_segment p (seg_of st i) -> on_segments p (edges c) -> exists t, In t (edges_of [g]) /\ within (seg_of st i) t).
    { intros p (P1 & P2 & P3) O. apply on_oriented in O. destruct O as (t & Ht & O). destruct (piece_at _ _ _ _ _ Hsw false t p Ht O) as (j & Hj & Ej & Pj & Wj).
      assert (Nji : j <> i) by (intros ->; rewrite Ei in Ej; discriminate Ej).
      destruct (sw_apart _ _ _ _ Hsw i j (All i Hi) Hj Nji) as [K|(_ & K & _)].
      - destruct (K p P1 Pj) as ([J|J] & _); contradiction.
      - exists t. split; [exact Ht|]. rewrite K. exact Wj. }
    assert (Onto : forall p q, inside_segment p (seg_of st i) -> on_segment q (seg_of st i) -> on_segments p (edges c) -> on_segments q (edges c)).
    { intros p q Pp Pq O. destruct (Whole p Pp O) as (t & Ht & Wt). apply on_oriented. exists t. split; [exact Ht|exact (Wt q Pq)]. }
    pose proof (midpoint_in _ Pk) as Mk. split.
    + intro O. destruct (Whole _ Mk O) as (t & Ht & Wt).
      assert (T : exists t', In t' (edges c) /\ forall p, on_segment p t -> on_segment p t').
      { (* every edge is one of the contour up to its direction *)
        assert (Ht' : In (canon t) (map canon (edges c))).
        { assert (Tr : turned (edges_of [g]) (edges c)).
          { pose proof (turned_polygons [g]) as K. unfold edges_of. cbn in K |- *. unfold polygon_edges in K. cbn in K. rewrite !app_nil_r in *. exact K. }
          apply (Permutation.Permutation_in _ Tr). apply in_map. exact Ht. }
        apply in_map_iff in Ht'. destruct Ht' as (t' & Et & Ht'). exists t'. split; [exact Ht'|]. intros p O1. apply on_canon. rewrite Et. apply on_canon. exact O1. }
      destruct T as (t' & Ht' & Sub). exists t'. split; [exact Ht'|]. exists (s_start (seg_of st i)), (s_end (seg_of st i)).
      pose proof (on_segment_start (seg_of st i)) as O1. pose proof (on_segment_end (seg_of st i)) as O2.
      exact (conj Pk (conj (W _ O1) (conj (Sub _ (Wt _ O1)) (conj (W _ O2) (Sub _ (Wt _ O2)))))).
    + intros p Pp. assert (On : on_segments p (edges c) <-> on_segments (midpoint (seg_of st i)) (edges c)) by (split; apply Onto; try assumption; [exact (proj1 Mk)|exact (proj1 Pp)]).
      split; [exact On|].
      assert (Set_ : settled st out i) by (split; [exact Hi|left; exact (All i Hi)]).
      destruct (ms_piece _ _ _ _ _ _ _ H i Set_ (pr_left _ _ _ _ Hpr i (All i Hi)) Ei) as (w & _ & K1 & K2). rewrite <- !in_oriented. destruct w.
      * split; intros _; apply (K1 eq_refl); [exact (proj1 Mk)|exact (proj1 Pp)].
      * destruct (K2 eq_refl) as (_ & K3). split; intro J; exfalso; [exact (K3 p Pp J)|exact (K3 _ Mk J)].
  - intros p O. destruct (piece_at _ _ _ _ _ Hsw true s p (or_introl eq_refl) O) as (i & Hi & Ei & Pi & _). exists (seg_of st i). split; [|exact Pi].
    apply (proj2 (Cut _)). exists i. split; [exact Hi|]. split; [exact Ei|reflexivity].
  - intros p q N Pp Pq. destruct (piece_toward _ _ _ _ _ _ _ H s p q (or_introl eq_refl) N Pp Pq) as (i & m & Hi & Ei & _ & M1 & M2).
    exists (seg_of st i), m. split; [apply (proj2 (Cut _)); exists i; split; [exact Hi|split; [exact Ei|reflexivity]]|]. split; assumption.
Qed.
Opaque cuts.
Lemma samples_on : forall q, In q (samples s c) -> on_segment q s.
Proof.
  intros q Hq. apply in_flat_map in Hq. destruct Hq as (k & Hk & Hq). destruct (proj1 cuts_spec k Hk) as (P & W & _). apply W.
  destruct Hq as [<-|[<-|[<-|[]]]]; [exact (on_segment_start k)|exact (on_segment_end k)|exact (proj1 (midpoint_in k P))].
Qed.
Lemma samples_all : forall p, on_segment p s -> exists q, In q (samples s c)
  /\ (on_segments p (edges c) <-> on_segments q (edges c)) /\ (in_contour c p <-> in_contour c q).
Proof.
  intros p O. destruct cuts_spec as (A & B & _). destruct (B p O) as (k & Hk & Ok). destruct (A k Hk) as (Pk & _ & _ & K).
  assert (Sm : forall q, In q [s_start k; s_end k; midpoint k] -> In q (samples s c)) by (intros q Hq; apply in_flat_map; exists k; split; assumption).
  destruct (pt_eqb_spec p (s_start k)) as [E|E]; [exists p; split; [apply Sm; left; congruence|tauto]|].
  destruct (pt_eqb_spec p (s_end k)) as [E'|E']; [exists p; split; [apply Sm; right; left; congruence|tauto]|].
  exists (midpoint k). split; [apply Sm; right; right; left; reflexivity|]. apply K. split; [exact Ok|]. split; assumption.
Qed.
Lemma in_contour_split : forall p, in_contour c p <-> on_segments p (edges c) \/ inside_contour c p.
Proof.
  intro p. unfold in_contour, inside_contour, in_region, interior. fold (edges c). destruct (on_segments_dec p (edges c)); tauto.
Qed.
Lemma some_sample : forall (f : point -> bool) (P : point -> Prop), (forall p, f p = true <-> P p) ->
  (forall p q, (on_segments p (edges c) <-> on_segments q (edges c)) -> (in_contour c p <-> in_contour c q) -> P p -> P q) ->
  (existsb f (samples s c) = true <-> exists p, on_segment p s /\ P p).
Proof.
  intros f P Sp Inv. rewrite existsb_exists. split.
  - intros (q & Hq & K). exists q. split; [exact (samples_on q Hq)|apply Sp, K].
  - intros (p & O & K). destruct (samples_all p O) as (q & Hq & A & B). exists q. split; [exact Hq|]. apply Sp. exact (Inv p q A B K).
Qed.
Lemma inner_same : forall p q, (on_segments p (edges c) <-> on_segments q (edges c)) -> (in_contour c p <-> in_contour c q) -> inside_contour c p -> inside_contour c q.
Proof.
  intros p q A B K. assert (N : ~ on_segments q (edges c)) by (rewrite <- A; exact (proj1 K)).
  assert (J : in_contour c q) by (apply B, in_contour_split; right; exact K). apply in_contour_split in J. tauto.
Qed.
Lemma every_sample : forallb (on_edges c) (samples s c) = true <-> forall p, on_segment p s -> on_segments p (edges c).
Proof.
  rewrite forallb_forall. split.
  - intros K p O. destruct (samples_all p O) as (q & Hq & A & _). apply A, on_edges_spec, K, Hq.
  - intros K q Hq. apply on_edges_spec, K, samples_on, Hq.
Qed.
Lemma overlap_cut : existsb (fun k => on_edges c (midpoint k)) (cuts s c) = true <-> exists t, In t (edges c) /\ overlap s t.
Proof.
  rewrite existsb_exists. destruct cuts_spec as (A & _ & D). split.
  - intros (k & Hk & K). apply on_edges_spec in K. destruct (A k Hk) as (_ & _ & B & _). exact (B K).
  - intros (t & Ht & (p & q & N & P1 & P2 & Q1 & Q2)). destruct (D p q N P1 Q1) as (k & m & Hk & M1 & M2). exists k. split; [exact Hk|].
    apply on_edges_spec. destruct (A k Hk) as (_ & _ & _ & B). apply (B m M1). exists t. split; [exact Ht|]. exact (on_convex t p q m P2 Q2 M2).
Qed.
End Contour.

Lemma reference_point : forall p c, simple_contour (vertices c) -> locates_point reference_locators p c.
Proof.
  intros p c Hc. unfold locates_point, reference_locators. cbn [point_in_region]. rewrite <- (inner_spec c Hc), <- (on_edges_spec c Hc). unfold inner.
  destruct (on_edges c p), (inside (edges c) p); cbn [andb negb]; split; split; congruence.
Qed.
Lemma reference_segment : forall s c, proper s -> simple_contour (vertices c) -> locates_segment reference_locators s c.
Proof.
  intros s c Hs Hc.
  pose proof (every_sample c Hc s Hs) as KA.
  pose proof (some_sample c Hc s Hs (inner c) (inside_contour c) (inner_spec c Hc) (inner_same c)) as KI.
  pose proof (some_sample c Hc s Hs (outer c) (fun p => ~ in_contour c p) (outer_spec c Hc) (fun p q A B => ltac:(cbv beta; tauto))) as KO.
  pose proof (some_sample c Hc s Hs (on_edges c) (fun p => on_segments p (edges c)) (on_edges_spec c Hc) (fun p q A B => ltac:(cbv beta; tauto))) as KE.
  pose proof (overlap_cut c Hc s Hs) as KV.
  pose proof (in_contour_split c) as Sp.
  assert (Dn : forall p, on_segments p (edges c) -> ~ inside_contour c p) by (intros p O (K & _); exact (K O)).
  pose proof (on_segment_start s) as Os.
  assert (All : (forall p, on_segment p s -> in_contour c p) <-> existsb (outer c) (samples s c) = false).
  { rewrite <- not_true_iff_false, KO. split; [intros K (p & O & N); exact (N (K p O))|]. intros K p O.
    destruct (in_region_dec (contour_edges (vertices c)) p) as [J|J]; [exact J|]. elim K. exists p. split; assumption. }
  assert (AllI : (forall p, on_segment p s -> inside_contour c p) <-> existsb (outer c) (samples s c) = false /\ existsb (on_edges c) (samples s c) = false).
  { rewrite <- All, <- (not_true_iff_false (existsb (on_edges c) (samples s c))), KE. split.
    - intro K. split; [intros p O; apply Sp; right; exact (K p O)|]. intros (p & O & E). exact (Dn p E (K p O)).
    - intros (K & N) p O. pose proof (K p O) as J. apply Sp in J. destruct J as [J|J]; [|exact J]. elim N. exists p. split; assumption. }
  assert (NotAll : (exists p, on_segment p s /\ ~ on_segments p (edges c)) <-> forallb (on_edges c) (samples s c) = false).
  { rewrite <- not_true_iff_false, KA. split; [intros (p & O & N) K; exact (N (K p O))|]. intro N.
    assert (X : existsb (inner c) (samples s c) = true \/ existsb (outer c) (samples s c) = true).
    { destruct (existsb (inner c) (samples s c)) eqn:E1; [left; reflexivity|]. destruct (existsb (outer c) (samples s c)) eqn:E2; [right; reflexivity|exfalso].
      apply N. intros p O. pose proof (proj2 All eq_refl p O) as J. apply Sp in J. destruct J as [J|J]; [exact J|].
      assert (X : false = true) by (apply KI; exists p; split; assumption). discriminate X. }
    destruct X as [X|X]; [apply KI in X|apply KO in X]; destruct X as (p & O & K); exists p; (split; [exact O|]).
    - intro E. exact (Dn p E K).
    - intro E. apply K, Sp. left. exact E. }
  assert (AI : forallb (on_edges c) (samples s c) = true -> existsb (inner c) (samples s c) = false /\ existsb (outer c) (samples s c) = false /\ existsb (on_edges c) (samples s c) = true).
  { intro K. pose proof (proj1 KA K) as J. split; [|split].
    - apply not_true_iff_false. rewrite KI. intros (p & O & I). exact (Dn p (J p O) I).
    - apply All. intros p O. apply Sp. left. exact (J p O).
    - apply KE. exists (s_start s). split; [exact Os|exact (J _ Os)]. }
  assert (NI : existsb (inner c) (samples s c) = false -> existsb (outer c) (samples s c) = false -> forallb (on_edges c) (samples s c) = true).
  { intros E1 E2. apply KA. intros p O. pose proof (proj2 All E2 p O) as J. apply Sp in J. destruct J as [J|J]; [exact J|].
    assert (X : existsb (inner c) (samples s c) = true) by (apply KI; exists p; split; assumption). congruence. }
  unfold locates_segment. rewrite All, AllI, <- KI, <- KO, <- KE, <- KA, <- KV, NotAll.
  unfold reference_locators. cbn [segment_in_region segment_in_contour]. cbv zeta. clear - AI NI.
  revert AI NI. generalize (forallb (on_edges c) (samples s c)), (existsb (inner c) (samples s c)), (existsb (outer c) (samples s c)),
    (existsb (on_edges c) (samples s c)), (existsb (fun k => on_edges c (midpoint k)) (cuts s c)).
  intros [] [] [] [] [] AI NI; cbn [andb negb]; repeat split; intros; try congruence; try tauto;
    repeat match goal with H : _ /\ _ |- _ => destruct H end; try congruence;
    try (specialize (NI eq_refl eq_refl); congruence); try (specialize (AI eq_refl); destruct AI as (? & ? & ?); congruence).
Qed.
Theorem reference_right : right_locators reference_locators.
Proof. split; [exact reference_point|exact reference_segment]. Qed.
