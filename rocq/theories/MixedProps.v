(** Operations on segments and polygons. *)
From Coq Require Import Permutation Sorted.
From Verif Require Import QcTac Geom Spec SpecShape SpecLocate GeomFacts Pair Toward Bounding BoundingThms LoopThms UnpackThms Sweep Linear Labelled Contour Filter Mixed Parity Outline SweepEnd LinearMeaning LinearThms LinearComplete MixedThms MixedComplete Polygons FilterThms.

(** ** Parts in regions *)
Lemma on_part_mono : forall p ss ss' (R R' : point -> Prop), (forall s, In s ss -> In s ss') -> (forall q, R q -> R' q) -> on_part p ss R -> on_part p ss' R'.
Proof. intros p ss ss' R R' A B (s & q & Hs & N & P & Q & M). exists s, q. repeat split; [exact (A s Hs)|exact N|exact P|exact Q|]. intros m Hm. exact (B m (M m Hm)). Qed.
Lemma on_part_on : forall p ss R, on_part p ss R -> on_segments p ss /\ R p.
Proof.
  intros p ss R (s & q & Hs & N & P & Q & M). split; [exists s; split; assumption|]. apply M. apply (on_segment_start (Seg p q)).
Qed.
Lemma points_x_max_in : forall ps m, points_x_max ps = Some m -> forall p, In p ps -> px p <= m.
Proof.
  intros [|p0 r] m E; [discriminate E|]. cbn in E. injection E as <-.
  assert (G : forall r x0, x0 <= fold_left (fun m q => Qc_max m (px q)) r x0 /\ forall p, In p r -> px p <= fold_left (fun m q => Qc_max m (px q)) r x0).
  { clear. induction r as [|q r IH]; intro x0; cbn; [split; [apply Qcle_refl|intros p []]|].
    destruct (IH (Qc_max x0 (px q))) as (A & B). pose proof (proj1 (Qc_max_le x0 (px q) _) A) as (C & D). split; [exact C|].
    intros p [<-|Hp]; [exact D|exact (B p Hp)]. }
  destruct (G r (px p0)) as (A & B). intros p [<-|Hp]; [exact A|exact (B p Hp)].
Qed.
Lemma polygons_x_max_in : forall ps m, valid_polygons ps -> polygons_x_max ps = Some m ->
  forall sg p, In sg (edges_of ps) -> on_segment p sg -> px p <= m.
Proof.
  intros ps m V E sg p Hs O. assert (J : in_polygons ps p) by (apply (oriented_region ps V); left; exists sg; split; assumption).
  destruct J as (g & Hg & (J & _)). apply (region_left (edges (border g)) m); [|exact J].
  intros s q Hq Oq. destruct (contour_ends (border g) s Hq) as (A & B). unfold polygons_x_max in E.
  assert (X : forall v, In v (vertices (border g)) -> px v <= m) by (intros v Hv; apply (points_x_max_in _ _ E), in_flat_map; exists g; split; assumption).
  destruct Oq as (t & T0 & T1 & Ex & _). rewrite Ex. pose proof (X _ A). pose proof (X _ B). generalize dependent (px (s_start s)). generalize dependent (px (s_end s)). clear - T0 T1. intros. qnra.
Qed.
Lemma x_max_bounds : forall first ps, first <> [] -> valid_polygons ps -> ps <> [] -> exists a b,
  (forall sg p, In sg first -> on_segment p sg -> px p <= a) /\ (forall sg p, In sg (edges_of ps) -> on_segment p sg -> px p <= b)
  /\ x_max_min (segments_x_max first) (polygons_x_max ps) = Some (Qc_min a b).
Proof.
  intros first ps N1 V N2. destruct (segments_x_max first) as [a|] eqn:Ea; [|destruct first; [contradiction|discriminate Ea]].
  destruct (polygons_x_max ps) as [b|] eqn:Eb.
  - exists a, b. split; [exact (segments_x_max_in first a Ea)|]. split; [exact (polygons_x_max_in ps b V Eb)|reflexivity].
  - exfalso. destruct ps as [|g ps]; [contradiction|]. unfold polygons_x_max in Eb. cbn in Eb. destruct V as (A & _). apply Forall_inv in A. destruct A as ((L & _) & _).
    destruct (vertices (border g)); [cbn in L; lia|discriminate Eb].
Qed.

Lemma in_region_dec : forall es p, in_region es p \/ ~ in_region es p.
Proof.
  intros es p. unfold in_region. destruct (on_segments_dec p es) as [K|K]; [left; left; exact K|].
  destruct (inside es p) eqn:E; [left; right; reflexivity|right]. intros [J|J]; [exact (K J)|discriminate J].
Qed.
Lemma all_dec : forall (A : Type) (P : A -> Prop), (forall a, P a \/ ~ P a) -> forall l, (forall a, In a l -> ~ P a) \/ exists a, In a l /\ P a.
Proof.
  intros A P D l. induction l as [|a l IH]; [left; intros a []|]. destruct (D a) as [K|K]; [right; exists a; split; [left; reflexivity|exact K]|].
  destruct IH as [IH|(b & Hb & J)]; [left; intros b [<-|Hb]; [exact K|exact (IH b Hb)]|right; exists b; split; [right; exact Hb|exact J]].
Qed.
Lemma interior_dec : forall es p, interior es p \/ ~ interior es p.
Proof.
  intros es p. unfold interior. destruct (on_segments_dec p es) as [K|K]; [right; tauto|]. destruct (inside es p); [left; tauto|right]. intros (_ & J). discriminate J.
Qed.
Lemma in_polygon_dec : forall g p, in_polygon g p \/ ~ in_polygon g p.
Proof.
  intros g p. unfold in_polygon. destruct (in_region_dec (contour_edges (vertices (border g))) p) as [A|A]; [|right; intros (B & _); exact (A B)].
  destruct (all_dec _ (fun h => inside_contour h p) (fun h => interior_dec (contour_edges (vertices h)) p) (holes g)) as [B|(h & Hh & B)].
  - left. split; [exact A|exact B].
  - right. intros (_ & J). exact (J h Hh B).
Qed.
Lemma in_polygons_dec : forall gs p, in_polygons gs p \/ ~ in_polygons gs p.
Proof.
  intros gs p. destruct (all_dec _ (fun g => in_polygon g p) (fun g => in_polygon_dec g p) gs) as [K|K]; [right|left; exact K].
  intros (g & Hg & J). exact (K g Hg J).
Qed.

Section Operands.
Variables (x : locators) (first : list segment) (ps : list polygon).
Hypothesis Hx : right_locators x.
Hypothesis Hf : non_overlapping first.
Hypothesis Hps : valid_polygons ps.
Hypothesis Nf : first <> [].
Hypothesis Np : ps <> [].

(** Segments and polygons left out of intersections. *)
Lemma segment_kept : forall b s p, polygons_box ps = Some b -> In s first -> on_segment p s -> in_polygons ps p -> In s (to_intersecting_segments b first).
Proof.
  intros b s p Eb Hs O J. apply filter_In. split; [exact Hs|]. destruct (polygons_box_in ps b p Hps Eb) as (W & K).
  apply intersects_with_segment_points; [exact W|destruct Hf as (P & _); rewrite Forall_forall in P; exact (P s Hs)|]. exists p. split; [exact (K J)|exact O].
Qed.
Lemma polygon_kept : forall a p, segments_box first = Some a -> on_segments p first -> in_polygons ps p -> in_polygons (to_intersecting_polygons x a ps) p.
Proof.
  intros a p Ea (s & Hs & O) (g & Hg & J). exists g. split; [|exact J]. apply filter_In. split; [exact Hg|].
  destruct (segments_box_in first a Ea) as (W & K). destruct (intersects_with_polygon x a g) eqn:E; [reflexivity|exfalso].
  destruct Hps as (V & _). rewrite Forall_forall in V. exact (intersects_sound x a g Hx W (V g Hg) E p (K s p Hs O) J).
Qed.
Lemma polygons_sub : forall f p, in_polygons (filter f ps) p -> in_polygons ps p.
Proof. intros f p (g & Hg & J). apply filter_In in Hg. exists g. split; [apply Hg|exact J]. Qed.
Lemma far_apart : forall a b p, segments_box first = Some a -> polygons_box ps = Some b -> disjoint_with a b = true -> on_segments p first -> ~ in_polygons ps p.
Proof.
  intros a b p Ea Eb D (s & Hs & O) J. destruct (segments_box_in first a Ea) as (W & K). destruct (polygons_box_in ps b p Hps Eb) as (W' & K').
  apply (proj1 (disjoint_with_points a b W W') D p). split; [exact (K s p Hs O)|exact (K' J)].
Qed.

(** What is left of operands has the same intersection. *)
Lemma intersecting_cases : forall (A : Type) (empty : A) (f : oracle -> list segment -> list polygon -> res A) (P : (oracle -> res A) -> Prop),
  ((forall p, on_segments p first -> ~ in_polygons ps p) -> P (fun _ => Ok empty)) ->
  (forall first' ps', non_overlapping first' -> valid_polygons ps' -> first' <> [] -> ps' <> [] ->
    (forall p, on_segments p first' -> on_segments p first) -> (forall p, in_polygons ps' p -> in_polygons ps p) ->
    (forall p, on_segments p first -> in_polygons ps p -> on_segments p first' /\ in_polygons ps' p) ->
    (forall p, on_part p first' (in_polygons ps') <-> on_part p first (in_polygons ps)) -> P (fun o => f o first' ps')) ->
  P (fun o => intersecting_parts x empty first ps (f o)).
Proof.
  intros A empty f P HE HF. destruct (segments_box_some first Nf) as (a & Ea). destruct (polygons_box_some ps Hps Np) as (b & Eb).
  unfold intersecting_parts, with_mixed_boxes. rewrite Ea, Eb. destruct (disjoint_with a b) eqn:D.
  { apply HE. intros p O. exact (far_apart a b p Ea Eb D O). }
  assert (V' : valid_polygons (to_intersecting_polygons x a ps)) by (apply valid_polygons_filter, Hps).
  assert (F' : non_overlapping (to_intersecting_segments b first)) by (apply non_overlapping_filter, Hf).
  assert (S' : forall s, In s (to_intersecting_segments b first) -> In s first) by (intros s Hs; apply filter_In in Hs; apply Hs).
  assert (Part : forall p, on_part p (to_intersecting_segments b first) (in_polygons (to_intersecting_polygons x a ps)) <-> on_part p first (in_polygons ps)).
  { intro p. split; [apply on_part_mono; [exact S'|apply polygons_sub]|]. intro J. destruct (on_part_on _ _ _ J) as (_ & Rp).
    destruct J as (s & q & Hs & N & P1 & Q & M). exists s, q. split; [exact (segment_kept b s p Eb Hs P1 Rp)|]. repeat split; try assumption.
    intros m Hm. apply (polygon_kept a m Ea); [|exact (M m Hm)]. exists s. split; [exact Hs|].
    destruct Hm as (t & T0 & T1 & X & Y). cbn in X, Y. assert (E : m = Unique.toward p q t) by (apply pt_ext; unfold Unique.toward; cbn; assumption).
    rewrite E. apply toward_on2; assumption. }
  assert (Both : forall p, on_segments p first -> in_polygons ps p -> on_segments p (to_intersecting_segments b first) /\ in_polygons (to_intersecting_polygons x a ps) p).
  { intros p O J. split; [|exact (polygon_kept a p Ea O J)]. destruct O as (s & Hs & O). exists s. split; [exact (segment_kept b s p Eb Hs O J)|exact O]. }
  destruct (to_intersecting_segments b first) as [|f0 fs] eqn:Ef.
  { apply HE. intros p O J. destruct (Both p O J) as ((s & [] & _) & _). }
  destruct (to_intersecting_polygons x a ps) as [|g gs] eqn:Eg.
  { apply HE. intros p O J. destruct (Both p O J) as (_ & (s & [] & _)). }
  apply HF; try assumption; try discriminate.
  - intros p (s & Hs & O). exists s. split; [exact (S' s Hs)|exact O].
  - intros p J. apply (polygons_sub (intersects_with_polygon x a)). unfold to_intersecting_polygons in Eg. rewrite Eg. exact J.
Qed.

Lemma on_part_ext : forall ss (R R' : point -> Prop) p, (forall q, R q <-> R' q) -> on_part p ss R <-> on_part p ss R'.
Proof. intros ss R R' p E. split; apply on_part_mono; try tauto; intros q; apply E. Qed.
Lemma nothing_in : forall p, on_segments p (segments_of GEmpty) -> False.
Proof. intros p (s & [] & _). Qed.
Lemma nothing_valid : valid_multisegment [].
Proof. split; [constructor|]. intros i j s t _ E. destruct i; discriminate E. Qed.
Lemma part_in_empty : (forall p, on_segments p first -> ~ in_polygons ps p) -> part_in GEmpty first (in_polygons ps).
Proof.
  intro N. split; [reflexivity|]. split; [reflexivity|]. split; [exact nothing_valid|]. intro p. split.
  - intros [[]|K]. destruct (nothing_in p K).
  - intro J. destruct (on_part_on _ _ _ J) as (O & R). exfalso. exact (N p O R).
Qed.
Theorem mixed_intersection_correct : exists g, (forall o, mixed_intersection x o first ps = Ok g) /\ part_in g first (in_polygons ps) /\ canonical g.
Proof.
  unfold mixed_intersection. refine (intersecting_cases geometry GEmpty _ (fun r => exists g, (forall o, r o = Ok g) /\ part_in g first (in_polygons ps) /\ canonical g) _ _).
  - intro N. exists GEmpty. split; [reflexivity|]. split; [exact (part_in_empty N)|exact I].
  - intros first' ps' F' V' N1 N2 _ _ _ Part.
    destruct (x_max_bounds first' ps' N1 V' N2) as (a & b & Ha & Hb & E).
    destruct (mixed_sweep first' ps' (Some (Qc_min a b)) true F' (oriented_boundary ps' V')) as (s & out & pl & H & R).
    exists (unpack_segments (resulting (s, filter is_left pl))). split.
    { intro o. unfold mixed_stop. rewrite E. change mixed_in with (mixed_test true). rewrite (R o out_left by_lefts), put_left. reflexivity. }
    destruct (unpack_segments_canonical (resulting (s, filter is_left pl))) as (C & C1 & C2 & C3). split; [|exact C].
    split; [exact C1|]. split; [exact C3|]. rewrite C2, picked_left. split.
    { apply (in_valid _ _ _ _ _ _ _ H eq_refl a b Ha Hb eq_refl); [apply lefts_in_in|apply lefts_in_nodup, (pr_nodup _ _ _ _ (ms_processed _ _ _ _ _ _ _ H))]. }
    intro p. rewrite in_unpacked, <- Part.
    rewrite (in_points _ _ _ _ _ _ _ H eq_refl a b Ha Hb eq_refl (lefts_in pl) (lefts_in_in pl) p).
    apply on_part_ext. intro q. apply (oriented_region ps' V').
Qed.
Lemma complete_part_empty : (forall p, on_segments p first -> ~ in_polygons ps p) -> complete_part_in GEmpty first (in_polygons ps).
Proof.
  intro N. split; [reflexivity|]. split; [exact nothing_valid|]. split; [constructor|]. split; [|split]; intro p.
  - split; [intro K; destruct (nothing_in p K)|]. intro J. destruct (on_part_on _ _ _ J) as (O & R). exfalso. exact (N p O R).
  - split; [intros []|]. intros (O & R & _). exact (N p O R).
  - split; [intros [[]|K]; destruct (nothing_in p K)|]. intros (O & R). exfalso. exact (N p O R).
Qed.
Lemma sorted_points_nodup : forall l, StronglySorted plt l -> NoDup l.
Proof.
  induction l as [|p l IH]; intro H; [constructor|]. apply StronglySorted_inv in H. destruct H as (A & B). constructor; [|exact (IH A)].
  intro K. rewrite Forall_forall in B. exact (plt_irrefl p (B p K)).
Qed.
Theorem mixed_complete_intersection_correct : exists g, (forall o, mixed_complete_intersection x o first ps = Ok g)
  /\ complete_part_in g first (in_polygons ps) /\ canonical g /\ StronglySorted plt (points_of g).
Proof.
  unfold mixed_complete_intersection.
  refine (intersecting_cases geometry GEmpty _ (fun r => exists g, (forall o, r o = Ok g) /\ complete_part_in g first (in_polygons ps) /\ canonical g /\ StronglySorted plt (points_of g)) _ _).
  - intro N. exists GEmpty. split; [reflexivity|]. split; [exact (complete_part_empty N)|]. split; [exact I|constructor].
  - intros first' ps' F' V' N1 N2 S1 S2 Both Part.
    destruct (x_max_bounds first' ps' N1 V' N2) as (a & b & Ha & Hb & E).
    destruct (mixed_sweep first' ps' (Some (Qc_min a b)) true F' (oriented_boundary ps' V')) as (s & out & pl & H & R).
    set (events := sort_by (binary_key_ltb s) pl). set (pts := mixed_points s events). set (segs := resulting (s, filter is_left events)).
    exists (unpack_linear_mix (unpack_points pts) (unpack_segments segs)). split.
    { intro o. unfold mixed_stop. rewrite E. change mixed_in with (mixed_test true). rewrite (R o out_all by_all).
      replace (flat_map (fun ev => out_all ev s) pl) with pl by (clear; induction pl as [|e pl IH]; [reflexivity|cbn; f_equal; exact IH]). reflexivity. }
    destruct (unpack_linear_mix_canonical pts segs) as (C & C1 & C2 & C3).
    assert (Reg : forall q, in_region (edges_of ps') q <-> in_polygons ps' q) by (intro q; apply (oriented_region ps' V')).
    assert (Ext : forall p, on_part p first' (in_region (edges_of ps')) <-> on_part p first (in_polygons ps)).
    { intro p. rewrite <- Part. apply on_part_ext. exact Reg. }
    assert (KS : forall p, on_segments p segs <-> on_part p first (in_polygons ps)).
    { intro p. unfold segs, events. rewrite (complete_segments _ _ _ _ _ _ H a b Ha Hb eq_refl p). apply Ext. }
    assert (KP : forall p, In p pts <-> on_segments p first /\ in_polygons ps p /\ ~ on_part p first (in_polygons ps)).
    { intro p. unfold pts, events. rewrite (complete_points _ _ _ _ _ _ H a b Ha Hb eq_refl p), Ext, Reg. split; intros (A & B & D); (split; [|split]); try exact D.
      - exact (S1 p A).
      - exact (S2 p B).
      - exact (proj1 (Both p A B)).
      - exact (proj2 (Both p A B)). }
    pose proof (complete_points_sorted s pl) as St. fold events in St. fold pts in St.
    split; [|split; [exact C|rewrite C1; exact St]].
    split; [exact C3|]. rewrite C2, C1. split; [exact (complete_valid _ _ _ _ _ _ H a b Ha Hb eq_refl)|]. split; [exact (sorted_points_nodup _ St)|].
    split; [exact KS|]. split; [exact KP|]. intro p. unfold in_geometry. rewrite C1, C2, KP, KS. split.
    + intros [(A & B & _)|J]; [split; assumption|exact (on_part_on _ _ _ J)].
    + intros (A & B). destruct (on_segments_dec p segs) as [K|K]; [right; apply KS, K|left].
      split; [exact A|]. split; [exact B|]. rewrite <- KS. exact K.
Qed.

(** Segments of unions and differences: cut ones and untouched ones. *)
Lemma inside_polygon_in : forall g p, valid_polygon g -> inside_polygon g p -> in_polygon g p.
Proof. intros g p V J. apply (polygon_region g V). apply (polygon_interior g V) in J. right. exact (proj2 J). Qed.
Lemma within_clean : forall k sg t, proper k -> proper sg -> within k sg -> ~ overlap sg t /\ ~ crosses sg t -> ~ overlap k t /\ ~ crosses k t.
Proof.
  intros k sg t Pk Ps W (A & B). split.
  - intros (p & q & N & P1 & P2 & Q1 & Q2). apply A. exists p, q. repeat split; auto.
  - intros (_ & p & P1 & P2). apply B. split; [exact A|]. exists p. split; [exact (inside_within p k sg Pk Ps W P1)|exact P2].
Qed.
Lemma valid_filter_apart : forall f l, valid_multisegment l ->
  valid_multisegment (filter f l) /\ (forall s t, In s (filter (fun s => negb (f s)) l) -> In t (filter f l) -> ~ overlap t s /\ ~ crosses t s).
Proof.
  intros f l (A & B). split.
  - split; [apply Forall_forall; intros s Hs; apply filter_In in Hs; rewrite Forall_forall in A; exact (A s (proj1 Hs))|exact (pairwise_filter _ _ f l B)].
  - intros s t Hs Ht. apply filter_In in Hs. apply filter_In in Ht. destruct Hs as (Hs & Es). destruct Ht as (Ht & Et).
    destruct (In_nth_error _ _ Hs) as (i & Ei). destruct (In_nth_error _ _ Ht) as (j & Ej). apply (B j i t s); try assumption.
    intros ->. rewrite Ei in Ej. injection Ej as ->. rewrite Et in Es. discriminate Es.
Qed.
Lemma swept_out : forall f ps' L, valid_polygons ps' -> (forall g, In g ps' -> In g ps) ->
  (forall p g, In g ps -> on_segments p (filter f first) -> in_polygon g p -> In g ps') ->
  (forall p, on_segments p (filter (fun s => negb (f s)) first) -> ~ in_polygons ps p) ->
  valid_multisegment L -> (forall k, In k L -> exists sg, In sg (filter f first) /\ within k sg) ->
  (forall p, on_segments p (filter f first) -> ~ in_region (edges_of ps') p -> on_segments p L) ->
  (forall k p, In k L -> inside_segment p k -> ~ in_region (edges_of ps') p) ->
  (forall p, on_segments p L -> ~ interior (edges_of ps') p) ->
  part_out (L ++ filter (fun s => negb (f s)) first) first (in_polygons ps) (inside_polygons ps)
  /\ (valid_multisegment first -> valid_multisegment (L ++ filter (fun s => negb (f s)) first)).
Proof.
  intros f ps' L V' Sub Keep Off VL Src Cov Ins NI.
  pose proof (proj1 Hps) as VG. rewrite Forall_forall in VG. pose proof (proj1 Hf) as PF. rewrite Forall_forall in PF.
  assert (PR : Forall proper (filter (fun s => negb (f s)) first)) by (apply Forall_forall; intros s Hs; apply filter_In in Hs; exact (PF s (proj1 Hs))).
  assert (SubL : forall p, on_segments p L -> on_segments p (filter f first)) by (intros p (k & Hk & O); destruct (Src k Hk) as (sg & Hg & W); exists sg; split; [exact Hg|exact (W p O)]).
  assert (Reg : forall q, in_region (edges_of ps') q <-> in_polygons ps' q) by (intro q; apply (oriented_region ps' V')).
  assert (Int : forall q, interior (edges_of ps') q <-> inside_polygons ps' q) by (intro q; apply (oriented_interior ps' V')).
  split; [|intro VF].
  - split; [apply Forall_app; split; [exact (proj1 VL)|exact PR]|]. split; [|split; [|split]].
    + intros p (s & Hs & O) N. apply on_app. destruct (f s) eqn:E.
      * left. apply Cov; [exists s; split; [apply filter_In; split; assumption|exact O]|]. rewrite Reg. intros (g & Hg & J). apply N. exists g. split; [exact (Sub g Hg)|exact J].
      * right. exists s. split; [apply filter_In; rewrite E; split; [exact Hs|reflexivity]|exact O].
    + intros p O. apply on_app in O. destruct O as [O|O]; [apply SubL in O|]; destruct O as (s & Hs & O); apply filter_In in Hs; exists s; (split; [exact (proj1 Hs)|exact O]).
    + intros p O (g & Hg & J). pose proof (inside_polygon_in g p (VG g Hg) J) as J'. apply on_app in O. destruct O as [O|O].
      * apply (NI p O). apply Int. exists g. split; [exact (Keep p g Hg (SubL p O) J')|exact J].
      * apply (Off p O). exists g. split; assumption.
    + intros k p Hk O (g & Hg & J). apply in_app_iff in Hk. destruct Hk as [Hk|Hk].
      * apply (Ins k p Hk O). apply Reg. exists g. split; [|exact J]. apply (Keep p g Hg); [|exact J]. apply SubL. exists k. split; [exact Hk|exact (proj1 O)].
      * apply (Off p); [exists k; split; [exact Hk|exact (proj1 O)]|]. exists g. split; assumption.
  - split; [apply Forall_app; split; [exact (proj1 VL)|exact PR]|].
    destruct (valid_filter_apart f first VF) as (_ & Ap). apply LinearThms.pairwise_app; [exact clean_sym|exact (proj2 VL)| |].
    + apply (pairwise_filter _ _ (fun s => negb (f s)) first). exact (proj2 VF).
    + intros k s Hk Hs. destruct (Src k Hk) as (sg & Hg & W). pose proof (Ap s sg Hs Hg) as K. pose proof (proj1 VL) as PL. rewrite Forall_forall in PL.
      apply (within_clean k sg s (PL k Hk)); [|exact W|exact K]. apply filter_In in Hg. exact (PF sg (proj1 Hg)).
Qed.

(** The union and the symmetric difference. *)
Theorem mixed_union_correct : forall linear shaped, points_of linear = [] -> polygons_of linear = [] -> segments_of linear = first ->
  points_of shaped = [] -> segments_of shaped = [] -> polygons_of shaped = ps ->
  exists g, (forall o, mixed_union x o linear shaped first ps = Ok g)
  /\ points_of g = [] /\ polygons_of g = ps /\ part_out (segments_of g) first (in_polygons ps) (inside_polygons ps)
  /\ (valid_multisegment first -> valid_multisegment (segments_of g))
  /\ (g = shaped /\ (forall p, on_segments p first -> in_polygons ps p) \/ (exists l, g = GMix GEmpty l shaped) /\ exists p, on_segments p first /\ ~ in_polygons ps p).
Proof.
  intros linear shaped L1 L2 L3 S1 S2 S3.
  destruct (segments_box_some first Nf) as (a & Ea). destruct (polygons_box_some ps Hps Np) as (b & Eb).
  pose proof (proj1 Hf) as PF. rewrite Forall_forall in PF. pose proof (proj1 Hps) as VG. rewrite Forall_forall in VG.
  destruct (disjoint_with a b) eqn:D.
  { exists (GMix GEmpty linear shaped). split; [intro o; unfold mixed_union, with_mixed_boxes; rewrite Ea, Eb, D; reflexivity|].
    cbn [points_of polygons_of segments_of app]. rewrite L1, L2, L3, S1, S2, S3, ?app_nil_r. cbn [app]. split; [reflexivity|]. split; [reflexivity|]. split; [|split; [tauto|]].
    - pose proof (fun p => far_apart a b p Ea Eb D) as Far. split; [exact (proj1 Hf)|]. split; [tauto|]. split; [tauto|]. split.
      + intros p O (g & Hg & J). apply (Far p O). exists g. split; [exact Hg|exact (inside_polygon_in g p (VG g Hg) J)].
      + intros s p Hs O. apply Far. exists s. split; [exact Hs|exact (proj1 O)].
    - right. split; [exists linear; reflexivity|]. assert (X : exists p, on_segments p first) by (destruct first as [|s l]; [contradiction|]; exists (s_start s), s; split; [left; reflexivity|exact (on_segment_start s)]).
      destruct X as (p & O). exists p. split; [exact O|exact (far_apart a b _ Ea Eb D O)]. }
  set (f := intersects_with_segment b). set (first' := filter f first). set (rest := filter (fun s => negb (f s)) first). set (ps' := to_intersecting_polygons x a ps).
  assert (V' : valid_polygons ps') by (apply valid_polygons_filter, Hps).
  assert (F' : non_overlapping first') by (apply non_overlapping_filter, Hf).
  destruct (mixed_sweep first' ps' None false F' (oriented_boundary ps' V')) as (s & out & pl & H & R).
  assert (Hc : LinearMeaning.covers first' (edges_of ps') None true) by (intros z E; discriminate E).
  set (L := map (seg_of s) (filter (fun i => l_result (lft s i)) (lefts_in pl))).
  assert (I1 : forall i, In i out -> In i (lefts_in pl)) by (intros i Hi; apply lefts_in_in; exact (pr_left _ _ _ _ (ms_processed _ _ _ _ _ _ _ H) i Hi)).
  assert (I2 : forall i, In i (lefts_in pl) -> In (EL i) pl) by (intros i; apply lefts_in_in).
  destruct (swept_out f ps' L V') as (PO & VO).
  { intros g Hg. apply filter_In in Hg. apply Hg. }
  { intros p g Hg (sg & Hs & O) J. apply filter_In. split; [exact Hg|]. apply filter_In in Hs.
    destruct (segments_box_in first a Ea) as (W & K). destruct (intersects_with_polygon x a g) eqn:E; [reflexivity|exfalso].
    exact (intersects_sound x a g Hx W (VG g Hg) E p (K sg p (proj1 Hs) O) J). }
  { intros p (sg & Hs & O) J. apply filter_In in Hs. destruct Hs as (Hs & Es). pose proof (segment_kept b sg p Eb Hs O J) as K. apply filter_In in K.
    unfold f in Es. rewrite (proj2 K) in Es. discriminate Es. }
  { apply (out_valid _ _ _ _ _ _ _ H Hc (lefts_in pl) I2). apply lefts_in_nodup, (pr_nodup _ _ _ _ (ms_processed _ _ _ _ _ _ _ H)). }
  { apply (out_source _ _ _ _ _ _ _ H Hc (lefts_in pl) I1 I2). }
  { apply (out_complete _ _ _ _ _ _ _ H eq_refl Hc (lefts_in pl) I1 I2). }
  { apply (out_outside _ _ _ _ _ _ _ H eq_refl Hc (lefts_in pl) I1 I2). }
  { apply (out_not_interior _ _ _ _ _ _ _ H eq_refl Hc (lefts_in pl) I1 I2). }
  fold rest in PO, VO.
  assert (Run : forall o, mixed_union x o linear shaped first ps = match unpack_segments (L ++ rest) with GEmpty => Ok shaped | l => Ok (GMix GEmpty l shaped) end).
  { intro o. unfold mixed_union, with_mixed_boxes. rewrite Ea, Eb, D, split_filter. fold f. fold first'. fold rest. fold ps'.
    change no_stop with (beyond None). change mixed_out with (mixed_test false). rewrite (R o out_left by_lefts), put_left. cbn [bind_res]. rewrite picked_left. reflexivity. }
  destruct (unpack_segments_canonical (L ++ rest)) as (_ & C1 & C2 & C3).
  destruct (L ++ rest) as [|s0 l0] eqn:El.
  - exists shaped. split; [exact Run|]. rewrite S2. split; [exact S1|]. split; [exact S3|]. split; [exact PO|]. split; [exact VO|].
    left. split; [reflexivity|]. intros p O. destruct (in_polygons_dec ps p) as [J|N]; [exact J|exfalso]. destruct (proj1 (proj2 PO) p O N) as (s1 & [] & _).
  - assert (Ne : exists p, on_segments p first /\ ~ in_polygons ps p).
    { destruct PO as (P1 & _ & P3 & _ & P5). destruct (midpoint_inside s0 (Forall_inv P1)) as (m & Hm).
      exists m. split; [apply P3; exists s0; split; [left; reflexivity|exact (proj1 Hm)]|]. exact (P5 s0 _ (or_introl eq_refl) Hm). }
    assert (Un : forall o, mixed_union x o linear shaped first ps = Ok (GMix GEmpty (unpack_segments (s0 :: l0)) shaped)) by (intro o; rewrite Run; destruct l0; reflexivity).
    exists (GMix GEmpty (unpack_segments (s0 :: l0)) shaped). split; [exact Un|].
    cbn [points_of polygons_of segments_of app]. rewrite C1, C2, C3, S1, S2, S3, ?app_nil_r. cbn [app]. split; [reflexivity|]. split; [reflexivity|]. split; [exact PO|]. split; [exact VO|].
    right. split; [exists (unpack_segments (s0 :: l0)); reflexivity|exact Ne].
Qed.
End Operands.

(** ** Functions of planar.py *)
Lemma single_segment : forall s, proper s -> non_overlapping [s].
Proof.
  intros s Hs. split; [constructor; [exact Hs|constructor]|]. intros [|i] [|j] a b Hn E E'; try congruence; [destruct j|destruct i|destruct i]; discriminate.
Qed.
Lemma single_polygon_valid : forall g, valid_polygon g -> valid_polygons [g].
Proof.
  intros g V. split; [constructor; [exact V|constructor]|]. split; [intros [|i] [|j] h k N E E'; try congruence; [destruct j|destruct i|destruct i]; discriminate|].
  cbn. rewrite app_nil_r. apply V.
Qed.
Lemma in_single : forall g p, in_polygons [g] p <-> in_polygon g p.
Proof. intros g p. split; [intros (k & [<-|[]] & J); exact J|]. intro J. exists g. split; [left; reflexivity|exact J]. Qed.
Lemma inside_single : forall g p, inside_polygons [g] p <-> inside_polygon g p.
Proof. intros g p. split; [intros (k & [<-|[]] & J); exact J|]. intro J. exists g. split; [left; reflexivity|exact J]. Qed.
Lemma part_in_ext : forall g ss (R R' : point -> Prop), (forall p, R p <-> R' p) -> part_in g ss R -> part_in g ss R'.
Proof.
  intros g ss R R' E (A & B & C & D). split; [exact A|]. split; [exact B|]. split; [exact C|]. intro p. rewrite (D p). apply on_part_ext, E.
Qed.
Lemma complete_part_in_ext : forall g ss (R R' : point -> Prop), (forall p, R p <-> R' p) -> complete_part_in g ss R -> complete_part_in g ss R'.
Proof.
  intros g ss R R' E (A & B & C & D & F & G). split; [exact A|]. split; [exact B|]. split; [exact C|]. split; [|split]; intro p.
  - rewrite (D p). apply on_part_ext, E.
  - rewrite (F p), (E p), (on_part_ext ss R R' p E). reflexivity.
  - rewrite (G p), (E p). reflexivity.
Qed.
Lemma part_out_ext : forall ss first (C C' O O' : point -> Prop), (forall p, C p <-> C' p) -> (forall p, O p <-> O' p) -> part_out ss first C O -> part_out ss first C' O'.
Proof.
  intros ss first C C' O O' E F (A & B & D & G & H). split; [exact A|]. split; [|split; [exact D|split]].
  - intros p K N. apply B; [exact K|]. rewrite (E p). exact N.
  - intros p K. rewrite <- (F p). exact (G p K).
  - intros s p Hs K. rewrite <- (E p). exact (H s p Hs K).
Qed.
Lemma united_ext : forall g sh first (C C' O O' : point -> Prop), (forall p, C p <-> C' p) -> (forall p, O p <-> O' p) -> united_with g sh first C O -> united_with g sh first C' O'.
Proof.
  intros g sh first C C' O O' E F (A & B & D & G & H & I). split; [exact A|]. split; [exact B|]. split; [exact (part_out_ext _ _ _ _ _ _ E F D)|]. split; [exact G|]. split; [exact H|].
  rewrite I. split; intros K p J; apply E, K, J.
Qed.

Section Planar.
Variable x : locators.
Hypothesis Hx : right_locators x.
Theorem intersect_multi_multi : forall ss ps, non_overlapping ss -> valid_polygons ps -> ss <> [] -> ps <> [] ->
  exists g, (forall o, intersect_multisegment_with_multipolygon x o ss ps = Ok g) /\ part_in g ss (in_polygons ps) /\ canonical g.
Proof. intros ss ps A B C D. exact (mixed_intersection_correct x ss ps Hx A B C D). Qed.
Theorem intersect_segment_multi : forall s ps, proper s -> valid_polygons ps -> ps <> [] ->
  exists g, (forall o, intersect_segment_with_multipolygon x o s ps = Ok g) /\ part_in g [s] (in_polygons ps) /\ canonical g.
Proof. intros s ps A B D. exact (mixed_intersection_correct x [s] ps Hx (single_segment s A) B ltac:(discriminate) D). Qed.
Theorem intersect_multi_polygon : forall ss p, non_overlapping ss -> valid_polygon p -> ss <> [] ->
  exists g, (forall o, intersect_multisegment_with_polygon x o ss p = Ok g) /\ part_in g ss (in_polygon p) /\ canonical g.
Proof.
  intros ss p A B C. destruct (mixed_intersection_correct x ss [p] Hx A (single_polygon_valid p B) C ltac:(discriminate)) as (g & R & K & J).
  exists g. split; [exact R|]. split; [exact (part_in_ext _ _ _ _ (in_single p) K)|exact J].
Qed.
Theorem intersect_segment_polygon : forall s p, proper s -> valid_polygon p ->
  exists g, (forall o, intersect_segment_with_polygon x o s p = Ok g) /\ part_in g [s] (in_polygon p) /\ canonical g.
Proof.
  intros s p A B. destruct (mixed_intersection_correct x [s] [p] Hx (single_segment s A) (single_polygon_valid p B) ltac:(discriminate) ltac:(discriminate)) as (g & R & K & J).
  exists g. split; [exact R|]. split; [exact (part_in_ext _ _ _ _ (in_single p) K)|exact J].
Qed.

Theorem complete_multi_multi : forall ss ps, non_overlapping ss -> valid_polygons ps -> ss <> [] -> ps <> [] ->
  exists g, (forall o, complete_intersect_multisegment_with_multipolygon x o ss ps = Ok g) /\ complete_part_in g ss (in_polygons ps)
  /\ canonical g /\ StronglySorted plt (points_of g).
Proof. intros ss ps A B C D. exact (mixed_complete_intersection_correct x ss ps Hx A B C D). Qed.
Theorem complete_segment_multi : forall s ps, proper s -> valid_polygons ps -> ps <> [] ->
  exists g, (forall o, complete_intersect_segment_with_multipolygon x o s ps = Ok g) /\ complete_part_in g [s] (in_polygons ps)
  /\ canonical g /\ StronglySorted plt (points_of g).
Proof. intros s ps A B D. exact (mixed_complete_intersection_correct x [s] ps Hx (single_segment s A) B ltac:(discriminate) D). Qed.
Theorem complete_multi_polygon : forall ss p, non_overlapping ss -> valid_polygon p -> ss <> [] ->
  exists g, (forall o, complete_intersect_multisegment_with_polygon x o ss p = Ok g) /\ complete_part_in g ss (in_polygon p)
  /\ canonical g /\ StronglySorted plt (points_of g).
Proof.
  intros ss p A B C. destruct (mixed_complete_intersection_correct x ss [p] Hx A (single_polygon_valid p B) C ltac:(discriminate)) as (g & R & K & J).
  exists g. split; [exact R|]. split; [exact (complete_part_in_ext _ _ _ _ (in_single p) K)|exact J].
Qed.
Theorem complete_segment_polygon : forall s p, proper s -> valid_polygon p ->
  exists g, (forall o, complete_intersect_segment_with_polygon x o s p = Ok g) /\ complete_part_in g [s] (in_polygon p)
  /\ canonical g /\ StronglySorted plt (points_of g).
Proof.
  intros s p A B. destruct (mixed_complete_intersection_correct x [s] [p] Hx (single_segment s A) (single_polygon_valid p B) ltac:(discriminate) ltac:(discriminate)) as (g & R & K & J).
  exists g. split; [exact R|]. split; [exact (complete_part_in_ext _ _ _ _ (in_single p) K)|exact J].
Qed.

Lemma united_multi : forall linear shaped ss ps, non_overlapping ss -> valid_polygons ps -> ss <> [] -> ps <> [] ->
  points_of linear = [] -> polygons_of linear = [] -> segments_of linear = ss -> points_of shaped = [] -> segments_of shaped = [] -> polygons_of shaped = ps ->
  (forall l, GMix GEmpty l shaped <> shaped) ->
  exists g, (forall o, mixed_union x o linear shaped ss ps = Ok g) /\ united_with g shaped ss (in_polygons ps) (inside_polygons ps).
Proof.
  intros linear shaped ss ps A B C D L1 L2 L3 S1 S2 S3 N.
  destruct (mixed_union_correct x ss ps Hx A B C D linear shaped L1 L2 L3 S1 S2 S3) as (g & R & P1 & P2 & P3 & P4 & P5).
  exists g. split; [exact R|]. split; [exact P1|]. split; [congruence|]. split; [exact P3|]. split; [exact P4|].
  destruct P5 as [(E & K)|((l & E) & (p & K & J))].
  - split; [left; exact E|]. split; [intros _; exact K|intros _; exact E].
  - split; [right; exists l; exact E|]. split; [intro E'; exfalso; apply (N l); congruence|]. intro All. elim J. exact (All p K).
Qed.
Theorem unite_multi_multi : forall ss ps, non_overlapping ss -> valid_polygons ps -> ss <> [] -> ps <> [] ->
  exists g, (forall o, unite_multisegment_with_multipolygon x o ss ps = Ok g /\ symmetric_subtract_multipolygon_from_multisegment x o ss ps = Ok g)
  /\ united_with g (GMultipolygon ps) ss (in_polygons ps) (inside_polygons ps).
Proof.
  intros ss ps A B C D. destruct (united_multi (GMultisegment ss) (GMultipolygon ps) ss ps A B C D eq_refl eq_refl eq_refl eq_refl eq_refl eq_refl ltac:(intros l; discriminate)) as (g & R & K).
  exists g. split; [intro o; split; exact (R o)|exact K].
Qed.
Theorem unite_segment_multi : forall s ps, proper s -> valid_polygons ps -> ps <> [] ->
  exists g, (forall o, unite_segment_with_multipolygon x o s ps = Ok g /\ symmetric_subtract_multipolygon_from_segment x o s ps = Ok g)
  /\ united_with g (GMultipolygon ps) [s] (in_polygons ps) (inside_polygons ps).
Proof.
  intros s ps A B D. destruct (united_multi (GSegment s) (GMultipolygon ps) [s] ps (single_segment s A) B ltac:(discriminate) D eq_refl eq_refl eq_refl eq_refl eq_refl eq_refl ltac:(intros l; discriminate)) as (g & R & K).
  exists g. split; [intro o; split; exact (R o)|exact K].
Qed.
Theorem unite_multi_polygon : forall ss p, non_overlapping ss -> valid_polygon p -> ss <> [] ->
  exists g, (forall o, unite_multisegment_with_polygon x o ss p = Ok g /\ symmetric_subtract_polygon_from_multisegment x o ss p = Ok g)
  /\ united_with g (GPolygon p) ss (in_polygon p) (inside_polygon p).
Proof.
  intros ss p A B C. destruct (united_multi (GMultisegment ss) (GPolygon p) ss [p] A (single_polygon_valid p B) C ltac:(discriminate) eq_refl eq_refl eq_refl eq_refl eq_refl eq_refl ltac:(intros l; discriminate)) as (g & R & K).
  exists g. split; [intro o; split; exact (R o)|exact (united_ext _ _ _ _ _ _ _ (in_single p) (inside_single p) K)].
Qed.
Theorem unite_segment_polygon : forall s p, proper s -> valid_polygon p ->
  exists g, (forall o, unite_segment_with_polygon x o s p = Ok g /\ symmetric_subtract_polygon_from_segment x o s p = Ok g)
  /\ united_with g (GPolygon p) [s] (in_polygon p) (inside_polygon p).
Proof.
  intros s p A B. destruct (united_multi (GSegment s) (GPolygon p) [s] [p] (single_segment s A) (single_polygon_valid p B) ltac:(discriminate) ltac:(discriminate) eq_refl eq_refl eq_refl eq_refl eq_refl eq_refl ltac:(intros l; discriminate)) as (g & R & K).
  exists g. split; [intro o; split; exact (R o)|exact (united_ext _ _ _ _ _ _ _ (in_single p) (inside_single p) K)].
Qed.
End Planar.
