(** Sweeps of shaped operations as the code runs them.  Proof support only, no
    part of /repo is modelled here. *)
From Coq Require Import Permutation Sorted.
From Verif Require Import QcTac Geom Spec SpecShape SpecSides GeomFacts SortFacts Toward Bounding BoundingThms Relation SweepCmp Sweep Linear SweepStart SweepEnd SelectThms LinearMeaning LinearThms Contour Labelled Filter Mixed Shaped Parity Tracing Outline SweepGeo SweepInv SweepLink Beneath Labels LabelEnd Classify Telescope Shapes Polygons FilterThms MixedThms PairThms MixedProps ShapedThms.

(** ** Queues *)
Lemma filled_polygons : forall first second, filled (tag (edges_of first) (edges_of second)) (fill_polygons first second).
Proof.
  intros first second. unfold fill_polygons, tag.
  assert (G : forall b ps l s, filled l s -> filled (l ++ map (pair b) (edges_of ps)) (fold_left (fun s p => register b (polygon_oriented_edges p) s) ps s)).
  { clear. intros b ps. induction ps as [|p ps IH]; intros l s H; cbn [flat_map fold_left]; [cbn; rewrite app_nil_r; exact H|].
    rewrite map_app, app_assoc. apply IH. apply filled_register. exact H. }
  apply G. change (map (pair true) (edges_of first)) with ([] ++ map (pair true) (edges_of first)). apply G. apply filled_empty.
Qed.
(** Regions are polygons without holes. *)
Definition solid (rs : list contour) : list polygon := map (fun r => Polygon r []) rs.
Lemma solid_oriented : forall rs, edges_of (solid rs) = flat_map region_edges rs.
Proof.
  intro rs. induction rs as [|r rs IH]; [reflexivity|]. cbn [solid map flat_map]. fold (solid rs). rewrite IH. f_equal. unfold polygon_oriented_edges. cbn. apply app_nil_r.
Qed.
Lemma solid_edges : forall rs, flat_map polygon_edges (solid rs) = flat_map (fun r => contour_edges (vertices r)) rs.
Proof.
  intro rs. induction rs as [|r rs IH]; [reflexivity|]. cbn [solid map flat_map]. fold (solid rs). rewrite IH. f_equal. unfold polygon_edges. cbn. apply app_nil_r.
Qed.
Lemma turned_length : forall es fs, turned es fs -> length es = length fs.
Proof. intros es fs H. apply Permutation_length in H. rewrite !map_length in H. exact H. Qed.
Lemma solid_in : forall r p, in_polygon (Polygon r []) p <-> in_contour r p.
Proof. intros r p. unfold in_polygon. cbn. split; [tauto|]. intro H. split; [exact H|intros h []]. Qed.
Lemma solid_inside : forall r p, inside_polygon (Polygon r []) p <-> inside_contour r p.
Proof. intros r p. unfold inside_polygon. cbn. split; [tauto|]. intro H. split; [exact H|intros h []]. Qed.
Lemma solid_region : forall rs p, in_polygons (solid rs) p <-> in_regions rs p.
Proof.
  intros rs p. unfold in_polygons, in_regions, solid. split.
  - intros (g & Hg & I). apply in_map_iff in Hg. destruct Hg as (r & <- & Hr). exists r. split; [exact Hr|exact (proj1 (solid_in r p) I)].
  - intros (r & Hr & I). exists (Polygon r []). split; [apply in_map_iff; exists r; auto|]. apply solid_in. exact I.
Qed.
Lemma solid_interior : forall rs p, inside_polygons (solid rs) p <-> inside_regions rs p.
Proof.
  intros rs p. unfold inside_polygons, inside_regions, solid. split.
  - intros (g & Hg & I). apply in_map_iff in Hg. destruct Hg as (r & <- & Hr). exists r. split; [exact Hr|exact (proj1 (solid_inside r p) I)].
  - intros (r & Hr & I). exists (Polygon r []). split; [apply in_map_iff; exists r; auto|]. apply solid_inside. exact I.
Qed.
Lemma solid_valid : forall rs, valid_regions rs -> valid_polygons (solid rs).
Proof.
  intros rs (A & B & C). split; [|split].
  - apply Forall_forall. intros g Hg. apply in_map_iff in Hg. destruct Hg as (r & <- & Hr). rewrite Forall_forall in A.
    split; [exact (A r Hr)|]. split; [constructor|]. split; [intros h p []|]. split; [intros h p []|]. split; [intros i j s t _ Ei; destruct i; discriminate Ei|].
    unfold polygon_edges. cbn. rewrite app_nil_r. exact (simple_non_overlapping _ (A r Hr)).
  - unfold solid. apply pairwise_map. revert B. apply pairwise_iff. intros r k. split; intros H p; specialize (H p); rewrite solid_in, solid_inside in *; exact H.
  - rewrite solid_edges. exact C.
Qed.
Lemma fill_solid : forall first second, fill_regions first second = fill_polygons (solid first) (solid second).
Proof.
  intros first second. unfold fill_regions, fill_polygons.
  assert (G : forall b rs s, fold_left (fun s r => register b (region_edges r) s) rs s = fold_left (fun s p => register b (polygon_oriented_edges p) s) (solid rs) s).
  { intros b rs. induction rs as [|r rs IH]; intro s; [reflexivity|]. cbn [solid map fold_left]. rewrite IH. do 2 f_equal. unfold polygon_oriented_edges. cbn. rewrite app_nil_r. reflexivity. }
  rewrite !G. reflexivity.
Qed.
Lemma solid_x_max : forall rs, regions_x_max rs = polygons_x_max (solid rs).
Proof. intro rs. unfold regions_x_max, polygons_x_max. f_equal. induction rs as [|r rs IH]; [reflexivity|]. cbn. rewrite IH. reflexivity. Qed.
Lemma solid_nonempty : forall rs, rs <> [] -> solid rs <> [].
Proof. intros [|r rs] N; [contradiction|discriminate]. Qed.

(** ** Bounds *)
Lemma edges_bound : forall ps m, valid_polygons ps -> polygons_x_max ps = Some m ->
  forall sg, In sg (edges_of ps) -> px (s_start sg) <= m /\ px (s_end sg) <= m.
Proof.
  intros ps m V E sg Hs. split; apply (polygons_x_max_in ps m V E sg); try exact Hs; [apply on_segment_start|apply on_segment_end].
Qed.
Lemma polygons_x_max_some : forall ps, valid_polygons ps -> ps <> [] -> exists m, polygons_x_max ps = Some m.
Proof.
  intros ps V N. destruct (polygons_x_max ps) as [m|] eqn:E; [exists m; reflexivity|exfalso].
  destruct ps as [|g ps]; [contradiction|]. unfold polygons_x_max in E. cbn in E. destruct V as (A & _). apply Forall_inv in A. destruct A as ((L & _) & _).
  destruct (vertices (border g)); [cbn in L; lia|discriminate E].
Qed.
Lemma op_stops : forall op first second, valid_polygons first -> valid_polygons second -> first <> [] -> second <> [] ->
  stops_after op (op_x_max op first second) (edges_of first) (edges_of second).
Proof.
  intros op first second V1 V2 N1 N2 x Ex. destruct (polygons_x_max_some first V1 N1) as (a & Ea). destruct (polygons_x_max_some second V2 N2) as (b & Eb).
  destruct op; cbn [op_x_max] in Ex; try discriminate Ex.
  - rewrite Ea, Eb in Ex. cbn in Ex. injection Ex as <-. destruct (Qc_min_cases a b) as [(E & _)|(E & _)]; rewrite E.
    + exists true. split; [exact (edges_bound first a V1 Ea)|reflexivity].
    + exists false. split; [exact (edges_bound second b V2 Eb)|intros [|]; reflexivity].
  - rewrite Ea in Ex. injection Ex as <-. exists true. split; [exact (edges_bound first a V1 Ea)|reflexivity].
Qed.
Lemma edges_nonempty : forall ps, valid_polygons ps -> ps <> [] -> edges_of ps <> [].
Proof.
  intros [|g ps] V N; [contradiction|]. intro E. destruct V as (A & _). apply Forall_inv in A. destruct A as ((L & _) & _).
  pose proof (turned_length _ _ (turned_polygon g)) as T. cbn in E. apply app_eq_nil in E. destruct E as (E & _). rewrite E in T. unfold polygon_edges in T. rewrite app_length in T.
  unfold contour_edges in T. rewrite map_length, seq_length in T. cbn in T. lia.
Qed.

(** ** Sweeps of holey.py *)
(** Identifiers of starts given to popped events one after another. *)
Fixpoint number (current : point) (id : nat) (l : list (event * point)) : start_ids :=
  match l with
  | [] => []
  | (ev, p) :: l => if pt_eqb p current then (ev, id) :: number current id l else (ev, S id) :: number p (S id) l
  end.
Lemma run_ids_number : forall step stop o fuel m s l sf, popped Shaped stop step o fuel m s l sf ->
  forall current id ids acc, run_ids step stop o fuel m s current id ids acc = Ok (sf, acc ++ map fst l, rev (number current id l) ++ ids).
Proof.
  intros step stop o fuel m s l sf H. induction H as [f m s Eq|f m s ev s1 Nq Ep Es|f m s ev s1 s2 l sf Nq Ep Es E H IH]; intros current id ids acc.
  - destruct f; cbn [run_ids]; rewrite Eq; cbn; rewrite app_nil_r; reflexivity.
  - cbn [run_ids]. destruct (queue s); [contradiction|]. rewrite Ep, Es. cbn. rewrite app_nil_r. reflexivity.
  - cbn [run_ids]. destruct (queue s); [contradiction|]. rewrite Ep, Es, E. rewrite IH. cbn [map fst number].
    destruct (pt_eqb_spec (ev_start s1 ev) current) as [->|N]; cbn [negb]; rewrite <- app_assoc; cbn [rev app]; rewrite <- app_assoc; reflexivity.
Qed.
Lemma popped_cons : forall step stop o fuel m s ev p l sf, popped Shaped stop step o fuel m s ((ev, p) :: l) sf ->
  exists f s1 s2, fuel = S f /\ queue s <> [] /\ pop Shaped (o_pick o m) s = Ok (ev, s1) /\ p = ev_start s1 ev /\ step m ev s1 = Ok (s2, [ev])
    /\ popped Shaped stop step o f (S m) s2 l sf.
Proof. intros step stop o fuel m s ev p l sf H. inversion H. subst. repeat eexists; eassumption. Qed.
Definition with_starts (s : state) (pl : list event) : list (event * point) := map (fun ev => (ev, ev_start s ev)) pl.
Definition start_numbers (s : state) (pl : list event) : start_ids :=
  rev (number (match pl with [] => Pt 0 0 | ev :: _ => ev_start s ev end) 0 (with_starts s pl)).
Lemma some_processed : forall op E1 E2 x_max s pl, shaped_swept op E1 E2 x_max s pl -> E1 <> [] -> E2 <> [] -> pl <> [].
Proof.
  intros op E1 E2 x_max s pl H N1 N2 Ep. destruct (sh_sweep _ _ _ _ _ _ H) as (s0 & out & _ & Hsw & Hpr & _). subst pl.
  destruct (sw_src _ _ _ _ Hsw) as (src & _ & Cv).
  assert (Far : forall sg, In sg (E1 ++ E2) -> forall p, on_segment p sg -> exists x, x_max = Some x /\ x < px p).
  { intros sg Hs p Op. assert (T : exists b, In (b, sg) (tag E1 E2)).
    { apply in_app_or in Hs. destruct Hs as [Hs|Hs]; [exists true|exists false]; apply in_or_app; [left|right]; apply in_map; exact Hs. }
    destruct T as (b & T). destruct (In_nth_error _ _ T) as (k & Ek). destruct (Cv k b sg p Ek Op) as (i & Hi & _ & Oi).
    destruct (pr_rest _ _ _ _ Hpr (EL i) Hi (fun F => F)) as (x & Ex & Lx). exists x. split; [exact Ex|]. pose proof (sw_plt _ _ _ _ Hsw i Hi) as L.
    destruct Oi as (r & R0 & R1 & Er & _). rewrite Er. cbn [seg_of s_start s_end ev_start] in *. assert (Le : px (l_start (lft s i)) <= px (end_of s i)) by (destruct L as [L|(L & _)]; [apply Qclt_le_weak; exact L|rewrite L; apply Qcle_refl]).
    clear - Lx R0 R1 Le. qnra. }
  destruct E1 as [|a E1']; [contradiction|]. destruct E2 as [|b E2']; [contradiction|].
  destruct (Far a (or_introl eq_refl) _ (on_segment_start a)) as (x & Ex & Lx).
  destruct (Far b (in_or_app (a :: E1') (b :: E2') b (or_intror (or_introl eq_refl))) _ (on_segment_start b)) as (y & Ey & Ly).
  rewrite Ex in Ey. injection Ey as <-. destruct (sh_stop _ _ _ _ _ _ H x Ex) as ([|] & B & _).
  - destruct (B a (or_introl eq_refl)) as (K & _). qlra.
  - destruct (B b (or_introl eq_refl)) as (K & _). qlra.
Qed.
Theorem polygons_sweep : forall op first second, valid_polygons first -> valid_polygons second -> first <> [] -> second <> [] ->
  exists s pl, shaped_swept op (edges_of first) (edges_of second) (op_x_max op first second) s pl
  /\ (forall o, op_sweep op o first second = Ok (s, pl, start_numbers s pl))
  /\ forall e P, fit (fill_polygons first second) e P -> cleared (V e (relevant_points (fill_polygons first second))) (abs e (fill_polygons first second) []) -> chained e s pl.
Proof.
  intros op first second V1 V2 N1 N2.
  destruct (shaped_sweep op true _ _ (op_x_max op first second) _ (filled_polygons first second) (oriented_boundary first V1) (oriented_boundary second V2)
              (op_stops op first second V1 V2 N1 N2)) as (s & pl & H & _ & R & Ch).
  exists s, pl. split; [exact H|]. split; [|exact (Ch eq_refl)]. intro o. pose proof (R o) as Ro.
  pose proof (some_processed _ _ _ _ _ _ H (edges_nonempty first V1 N1) (edges_nonempty second V2 N2)) as Np.
  assert (E : op_sweep op o first second = sweep_polygons (op_test op) o (beyond (op_x_max op first second)) first second) by (destruct op; reflexivity).
  rewrite E. unfold sweep_polygons, sweep_holey, edges_count. clear E R.
  destruct pl as [|ev0 pl]; [contradiction|]. cbn [map] in Ro.
  destruct (popped_cons _ _ _ _ _ _ _ _ _ _ Ro) as (f & s1 & s2 & -> & Nq & Ep & E0 & St & Po).
  destruct (queue (fill_polygons first second)); [contradiction|]. rewrite Ep, St, <- E0.
  rewrite (run_ids_number _ _ _ _ _ _ _ _ Po). unfold start_numbers, with_starts. cbn [map number].
  destruct (pt_eqb_spec (ev_start s ev0) (ev_start s ev0)) as [_|K]; [|contradiction]. cbn [rev]. rewrite map_map. cbn [fst]. rewrite map_id. reflexivity.
Qed.
(** ** Sweeps of holeless.py *)
Theorem regions_sweep : forall first second, valid_regions first -> valid_regions second -> first <> [] -> second <> [] ->
  exists s pl, shaped_swept Meet (flat_map region_edges first) (flat_map region_edges second) (x_max_min (regions_x_max first) (regions_x_max second)) s pl
  /\ forall o, sweep_regions in_intersection o first second = Ok (s, pl).
Proof.
  intros first second V1 V2 N1 N2. apply solid_valid in V1. apply solid_valid in V2. apply solid_nonempty in N1. apply solid_nonempty in N2.
  pose proof (shaped_sweep Meet false _ _ _ _ (filled_polygons (solid first) (solid second)) (oriented_boundary _ V1) (oriented_boundary _ V2) (op_stops Meet _ _ V1 V2 N1 N2)) as R.
  cbn [op_x_max] in R. rewrite <- fill_solid, !solid_oriented, <- !solid_x_max in R.
  destruct R as (s & pl & H & R & _). exists s, pl. split; [exact H|exact R].
Qed.

(** ** Meaning in terms of polygons *)
Lemma member_holds : forall op a b P Q, (a = true <-> P) -> (b = true <-> Q) -> (op_holds op a b = true <-> member op P Q).
Proof.
  intros op a b P Q A B. destruct op, a, b; cbn; intuition congruence.
Qed.
Notation all_edges ps := (flat_map polygon_edges ps).
Lemma off_member : forall ps p, valid_polygons ps -> ~ on_segments p (all_edges ps) -> (inside (edges_of ps) p = true <-> in_polygons ps p).
Proof.
  intros ps p V N. rewrite (turned_inside _ _ p (turned_polygons ps)). apply (off_polygons ps V). exact N.
Qed.
Lemma edges_app : forall a b p, on_segments p (all_edges (a ++ b)) <-> on_segments p (edges_of a ++ edges_of b).
Proof.
  intros a b p. rewrite flat_map_app, !on_segments_app, (turned_on _ _ p (turned_polygons a)), (turned_on _ _ p (turned_polygons b)). reflexivity.
Qed.
Theorem polygons_bounded : forall op first second, valid_polygons first -> valid_polygons second -> first <> [] -> second <> [] ->
  exists s events, (forall o, exists ids, op_sweep op o first second = Ok (s, events, ids))
  /\ (forall p, on_segments p (result_edges s events) -> on_segments p (all_edges (first ++ second)))
  /\ (forall p, ~ on_segments p (all_edges (first ++ second)) -> (inside (result_edges s events) p = true <-> member op (in_polygons first p) (in_polygons second p)))
  /\ (forall p q1 q2, (forall sg, made_by s sg -> ~ endpoint p sg) -> inside_segment p (Seg q1 q2) ->
        (forall x, on_segment x (Seg q1 q2) -> on_segments x (all_edges (first ++ second)) -> x = p) ->
        (segments_through (result_edges s events) p = 1%nat /\ ~ (member op (in_polygons first q1) (in_polygons second q1) <-> member op (in_polygons first q2) (in_polygons second q2)))
        \/ (segments_through (result_edges s events) p = 0%nat /\ (member op (in_polygons first q1) (in_polygons second q1) <-> member op (in_polygons first q2) (in_polygons second q2)))).
Proof.
  intros op first second V1 V2 N1 N2. destruct (polygons_sweep op first second V1 V2 N1 N2) as (s & pl & H & R & _). exists s, pl. split; [intro o; exists (start_numbers s pl); exact (R o)|].
  assert (Mem : forall p, ~ on_segments p (all_edges (first ++ second)) ->
     (op_holds op (inside (edges_of first) p) (inside (edges_of second) p) = true <-> member op (in_polygons first p) (in_polygons second p))).
  { intros p N. rewrite flat_map_app, on_segments_app in N. apply member_holds; apply off_member; tauto. }
  split; [intros p; rewrite edges_app; exact (result_on _ _ _ _ _ _ H p)|]. split; [intros p N; rewrite (result_inside _ _ _ _ _ _ H p); exact (Mem p N)|].
  intros p q1 q2 Np Pq Only.
  assert (Np' : ~ piece_endpoint s p).
  { intros (ev & Rev & Eev). destruct (sh_sweep _ _ _ _ _ _ H) as (s0 & out & _ & _ & Hpr & _). destruct (pr_wf _ _ _ _ Hpr) as (_ & W1 & W2). destruct ev as [i|r]; cbn in Rev, Eev.
    - apply (Np (seg_of s i)); [exists i; auto|left; symmetry; exact Eev].
    - destruct (W2 r Rev) as (A & B). apply (Np (seg_of s (r_left (rgt s r)))); [exists (r_left (rgt s r)); auto|right]. cbn. unfold end_of. rewrite B. symmetry. exact Eev. }
  pose proof (result_neighbours _ _ _ _ _ _ H p q1 q2 Np' Pq (fun x X1 X2 => Only x X1 (proj2 (edges_app first second x) X2))) as C.
  assert (Off : forall q, on_segment q (Seg q1 q2) -> q <> p -> ~ on_segments q (all_edges (first ++ second))) by (intros q Oq Nq K; exact (Nq (Only q Oq K))).
  destruct Pq as (_ & P1 & P2). cbn in P1, P2.
  pose proof (Mem q1 (Off q1 (on_segment_start (Seg q1 q2)) (not_eq_sym P1))) as M1. pose proof (Mem q2 (Off q2 (on_segment_end (Seg q1 q2)) (not_eq_sym P2))) as M2.
  rewrite C. destruct (op_holds op (inside (edges_of first) q1) (inside (edges_of second) q1)), (op_holds op (inside (edges_of first) q2) (inside (edges_of second) q2)); cbn [xorb]; [right|left|left|right]; (split; [reflexivity|]); rewrite <- M1, <- M2; intuition congruence.
Qed.
(** Holeless operations trace regions with the even-odd rule of the intersection. *)
Notation contours_edges rs := (flat_map (fun c => contour_edges (vertices c)) rs).
Lemma solid_both : forall a b p, on_segments p (contours_edges (a ++ b)) <-> on_segments p (flat_map region_edges a ++ flat_map region_edges b).
Proof.
  intros a b p. rewrite <- solid_edges. unfold solid. rewrite map_app. rewrite edges_app. fold (solid a) (solid b). rewrite !solid_oriented. reflexivity.
Qed.
Theorem regions_bounded : forall first second, valid_regions first -> valid_regions second -> first <> [] -> second <> [] ->
  exists s events rs, (forall o, sweep_regions in_intersection o first second = Ok (s, events)) /\ events_to_regions s events = Ok rs
  /\ (forall p, on_segments p (contours_edges rs) -> on_segments p (contours_edges (first ++ second)))
  /\ (forall p, ~ on_segments p (contours_edges (first ++ second)) -> (inside (contours_edges rs) p = true <-> in_regions first p /\ in_regions second p))
  /\ Forall (fun c => never_folds (vertices c) /\ forall j, (j < length (vertices c))%nat -> ~ straight (vertices c) j) rs.
Proof.
  intros first second V1 V2 N1 N2. destruct (regions_sweep first second V1 V2 N1 N2) as (s & pl & H & R).
  destruct (regions_traced _ _ _ _ _ _ H pl (Permutation_refl pl)) as (rs & Er & Ri & Ro & Rn). exists s, pl, rs. split; [exact R|]. split; [exact Er|].
  split; [intros p K; apply solid_both; apply (result_on _ _ _ _ _ _ H p); apply Ro; exact K|]. split; [|exact Rn].
  intros p N. rewrite Ri, (result_inside _ _ _ _ _ _ H p). rewrite <- solid_region, <- solid_region. rewrite <- !solid_oriented.
  change (in_polygons (solid first) p /\ in_polygons (solid second) p) with (member Meet (in_polygons (solid first) p) (in_polygons (solid second) p)).
  rewrite flat_map_app, on_segments_app in N. apply member_holds; apply off_member; try (apply solid_valid; assumption); rewrite solid_edges; tauto.
Qed.
(** Separate statements. *)
Theorem polygons_sides : forall op first second, valid_polygons first -> valid_polygons second -> first <> [] -> second <> [] ->
  exists s events, (forall o, exists ids, op_sweep op o first second = Ok (s, events, ids))
  /\ forall p q1 q2, (forall sg, made_by s sg -> ~ endpoint p sg) -> inside_segment p (Seg q1 q2) ->
        (forall x, on_segment x (Seg q1 q2) -> on_segments x (all_edges (first ++ second)) -> x = p) ->
        (segments_through (result_edges s events) p = 1%nat /\ ~ (member op (in_polygons first q1) (in_polygons second q1) <-> member op (in_polygons first q2) (in_polygons second q2)))
        \/ (segments_through (result_edges s events) p = 0%nat /\ (member op (in_polygons first q1) (in_polygons second q1) <-> member op (in_polygons first q2) (in_polygons second q2))).
Proof. intros op first second V1 V2 N1 N2. destruct (polygons_bounded op first second V1 V2 N1 N2) as (s & events & R & _ & _ & A). exists s, events. exact (conj R A). Qed.
Theorem polygons_selected : forall op first second, valid_polygons first -> valid_polygons second -> first <> [] -> second <> [] ->
  exists s events, (forall o, exists ids, op_sweep op o first second = Ok (s, events, ids))
  /\ (forall p, on_segments p (result_edges s events) -> on_segments p (all_edges (first ++ second)))
  /\ forall p, ~ on_segments p (all_edges (first ++ second)) -> (inside (result_edges s events) p = true <-> member op (in_polygons first p) (in_polygons second p)).
Proof. intros op first second V1 V2 N1 N2. destruct (polygons_bounded op first second V1 V2 N1 N2) as (s & events & R & A & B & _). exists s, events. exact (conj R (conj A B)). Qed.
Lemma single_region : forall c, simple_contour (vertices c) -> valid_regions [c].
Proof.
  intros c H. split; [constructor; [exact H|constructor]|]. split.
  - intros [|i] [|j] x y N Ei Ej; [congruence|destruct j; discriminate Ej|destruct i; discriminate Ei|destruct i; discriminate Ei].
  - cbn. rewrite app_nil_r. exact (simple_non_overlapping _ H).
Qed.
