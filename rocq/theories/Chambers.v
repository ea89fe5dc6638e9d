(** Contours traced along the result of an intersection of regions.
    Proof support only, no part of /repo is modelled here. *)
From Coq Require Import Permutation Sorted.
From Verif Require EvenStraight SimpleThms Turning HoleyThms.
From Verif Require Import QcTac Geom Spec SpecShape SpecSides GeomFacts Toward Bounding BoundingThms Unique Relation SweepGeo SweepInv SweepSteps SelectThms Sweep Linear SweepStart SweepEnd Outline Contour ConnectThms Tracing TraceThms RegionThms ShrinkThms Parity LinearMeaning LinearThms LinearComplete MixedComplete Shapes EvenOdd Polygons Sides Loops Labelled LabelEnd Classify Filter Mixed MixedThms Telescope Shaped Holey FilterThms ShapedThms ShapedProps FollowThms Faces Flip TracedLoops TidyThms Cycle Arranged Fill Germs Shift Walks Bridge Rooms Classes.

Lemma turned_sym : forall es fs, Polygons.turned es fs -> Polygons.turned fs es.
Proof. intros es fs T. unfold Polygons.turned in *. symmetry. exact T. Qed.
Lemma regions_turned : forall rs, Polygons.turned (flat_map region_edges rs) (flat_map (fun c => ends c) rs).
Proof. intro rs. pose proof (turned_polygons (solid rs)) as T. rewrite solid_oriented in T. rewrite solid_edges in T. exact T. Qed.

Lemma seen_ccw : forall vs e m, simple_contour vs -> In e (contour_edges vs) -> inside_segment m e -> (inside (contour_edges vs) m = true <-> plt (s_end e) (s_start e)) ->
  counterclockwise_at_least (contour_edges vs).
Proof.
  intros vs e m Hv He Im K. destruct (OrientThms.oriented_edges_cycle vs false) as [E|E].
  { rewrite <- E. apply OrientThms.oriented_edges_counterclockwise; [apply Hv|apply simple_turns, Hv]. }
  exfalso. pose proof (border_left vs Hv) as L. rewrite E in L.
  assert (Hr : In (reversed e) (rev (map reversed (contour_edges vs)))) by (rewrite <- in_rev; apply in_map, He).
  assert (Ir : inside_segment m (reversed e)) by (destruct Im as (A & B & C); split; [apply on_reversed, A|split; [exact C|exact B]]).
  specialize (L (reversed e) m Hr Ir). rewrite <- E, (turned_inside _ _ m (turned_oriented vs false)) in L. cbn [reversed s_start s_end] in L.
  pose proof (proj1 (Forall_forall _ _) (simple_proper vs Hv) e He) as Pe.
  assert (G : inside (contour_edges vs) m = true <-> plt (s_start e) (s_end e)).
  { apply L. intros t Ht N Ot. rewrite E, <- in_rev in Ht. apply in_map_iff in Ht. destruct Ht as (f & <- & Hf). assert (Nf : f <> e) by (intros ->; exact (N eq_refl)).
    destruct (In_nth_error _ _ He) as (i & Ei). destruct (In_nth_error _ _ Hf) as (j & Ej). apply on_reversed in Ot.
    assert (Nij : i <> j) by (intros ->; apply Nf; congruence). destruct (simple_only_ends vs Hv i j e f Nij Ei Ej m (proj1 Im) Ot) as ([X|X] & _); [exact (proj1 (proj2 Im) X)|exact (proj2 (proj2 Im) X)]. }
  destruct (plt_total (s_start e) (s_end e)) as [X|[X|X]]; [|exact (Pe X)|].
  - pose proof (proj1 K (proj2 G X)) as Y. exact (plt_irrefl _ (plt_trans _ _ _ X Y)).
  - pose proof (proj1 G (proj2 K X)) as Y. exact (plt_irrefl _ (plt_trans _ _ _ X Y)).
Qed.

Lemma Forall2_at : forall (A B : Type) (R : A -> B -> Prop) l m, Forall2 R l m -> forall i y, nth_error m i = Some y -> exists x, nth_error l i = Some x /\ R x y.
Proof.
  intros A B R l m F. induction F as [|x y l m Rxy F IH]; intros i z E; [destruct i; discriminate E|]. destruct i as [|i]; [injection E as <-; exists x; split; [reflexivity|exact Rxy]|exact (IH i z E)].
Qed.
Lemma flat_apart : forall rs, Forall (fun r => simple_contour (vertices r)) rs -> pairwise (fun a b => forall s t, In s (ends a) -> In t (ends b) -> ~ overlap s t) rs ->
  non_overlapping (flat_map (fun r => ends r) rs).
Proof.
  induction rs as [|r rs IH]; intros F P; [split; [constructor|intros [|i] j a b N Ea; discriminate Ea]|]. cbn [flat_map]. apply HoleyThms.non_overlapping_app.
  - exact (simple_apart _ (Forall_inv F)).
  - apply IH; [exact (Forall_inv_tail F)|exact (pairwise_tail _ _ _ _ P)].
  - intros s t Hs Ht. apply in_flat_map in Ht. destruct Ht as (k & Hk & Ht). destruct (In_nth_error _ _ Hk) as (j & Ej). exact (P 0%nat (S j) r k ltac:(discriminate) eq_refl Ej s t Hs Ht).
Qed.
Lemma flat_disjoint : forall (A B : Type) (f : A -> list B) l i j x y a, NoDup (flat_map f l) -> i <> j -> nth_error l i = Some x -> nth_error l j = Some y -> In a (f x) -> In a (f y) -> False.
Proof.
  intros A B f. assert (G : forall l i x a, nth_error l i = Some x -> In a (f x) -> In a (flat_map f l)) by (intros l i x a E Ha; apply in_flat_map; exists x; split; [exact (nth_error_In _ _ E)|exact Ha]).
  induction l as [|z l IH]; intros i j x y a Nd N Ex Ey Hx Hy; [destruct i; discriminate Ex|]. cbn [flat_map] in Nd. destruct i as [|i], j as [|j]; cbn [nth_error] in Ex, Ey.
  - exact (N eq_refl).
  - injection Ex as ->. exact (nodup_app _ _ _ a Nd Hx (G l j y a Ey Hy)).
  - injection Ey as ->. exact (nodup_app _ _ _ a Nd Hy (G l i x a Ex Hx)).
  - exact (IH i j x y a (nodup_app_r _ _ _ Nd) ltac:(lia) Ex Ey Hx Hy).
Qed.
Section Core.
Variables first second : list contour.
Hypothesis V1 : valid_regions first.
Hypothesis V2 : valid_regions second.
Notation E1 := (flat_map (fun c => ends c) first).
Notation E2 := (flat_map (fun c => ends c) second).
Variable hs : list holey_event.
Notation ts := (map h_traced hs).
Notation n := (length ts).
Notation st i := (t_start (tev ts i)).
Notation lf i := (t_left (tev ts i)).
Notation drawn := (map (edge ts) (chosen ts (fun _ => true))).
Hypothesis Hids : forall i j, (i < n)%nat -> (j < n)%nat -> vx hs i = vx hs j <-> st i = st j.
Hypothesis Hpair : paired ts.
Hypothesis Htidy : tidy ts.
Hypothesis Hplanar : planar ts.
Hypothesis Hgroup : grouped (starts ts).
Hypothesis Hse : even_occurrences (starts ts).
Hypothesis Hsort : forall i j, (i < j)%nat -> (j < n)%nat -> ple (st i) (st j).
Hypothesis Hev : even_occurrences (endpoints_of drawn).
Hypothesis Hat : forall i m t, (i < n)%nat -> inside_segment m (edge ts i) -> In t (E1 ++ E2) -> on_segment m t -> part (edge ts i) t.
Hypothesis Hin : forall p, inside drawn p = inside E1 p && inside E2 p.
Variable cuts : list point.
Hypothesis Hsides : forall p, ~ In p cuts -> (on_segments p drawn <-> inside E1 p && inside E2 p <> inside_above E1 p && inside_above E2 p).
Hypothesis Hcut : forall p, ~ In p cuts -> lone E1 p /\ lone E2 p.
(** Contours before vertices between parallel edges are left out. *)
Record chambers (cs : list (list point * list nat)) : Prop := {
  ch_simple : forall x, In x cs -> simple_contour (fst x);
  ch_rooms : forall x, In x cs -> exists c1 c2, In c1 first /\ In c2 second /\ forall p, in_contour (Contour (fst x)) p -> in_contour c1 p /\ in_contour c2 p;
  ch_turn : forall x, In x cs -> counterclockwise_at_least (contour_edges (fst x));
  ch_start : forall x, In x cs -> SpecTurn.starts_least (Contour (fst x));
  ch_apart : pairwise (fun x y => forall p, ~ (inside_contour (Contour (fst x)) p /\ in_contour (Contour (fst y)) p)) cs;
  ch_common : pairwise (fun x y => forall p, on_segments p (contour_edges (fst x)) -> on_segments p (contour_edges (fst y)) -> In p (starts ts)) cs }.

Lemma middles : exists mm dd uu, (forall i, (i < n)%nat -> inside_segment (mm i) (edge ts i)) /\ (forall i, (i < n)%nat -> ~ In (mm i) cuts)
  /\ (forall i, (i < n)%nat -> mm (opp ts i) = mm i)
  /\ forall i, (i < n)%nat -> inside_segment (mm i) (Seg (dd i) (uu i))
  /\ (forall s, In s (all_edges ts) -> passes_under s (dd i) = passes_under s (mm i))
  /\ (forall s x, In s (all_edges ts ++ E1 ++ E2) -> on_segment x (Seg (dd i) (uu i)) -> on_segment x s -> on_segment (mm i) s /\ x = mm i).
Proof.
  destruct (finite_choice point (Pt 0 0) (fun i m => inside_segment m (edge ts i) /\ ~ In m cuts) n) as (f & Hf).
  { intros i Hi. destruct (approach (s_start (edge ts i)) (s_end (edge ts i)) cuts (edge_proper ts Hpair Htidy i Hi)) as (m & Im & Nm & _). exists m. split; assumption. }
  set (base := fun i => if lf i then i else opp ts i). assert (Lb : forall i, (i < n)%nat -> (base i < n)%nat) by (intros i Hi; unfold base; destruct (lf i); [exact Hi|exact (opp_lt ts Hpair i Hi)]).
  assert (Bo : forall i, (i < n)%nat -> base (opp ts i) = base i) by (intros i Hi; unfold base; rewrite (td_left ts Htidy i Hi); destruct (lf i); cbn [negb]; [exact (opp_opp ts Hpair i Hi)|reflexivity]).
  destruct (finite_choice (point * point) (Pt 0 0, Pt 0 0) (fun i du => inside_segment (f (base i)) (Seg (fst du) (snd du))
    /\ (forall s, In s (all_edges ts) -> passes_under s (fst du) = passes_under s (f (base i)))
    /\ (forall s x, In s (all_edges ts ++ E1 ++ E2) -> on_segment x (Seg (fst du) (snd du)) -> on_segment x s -> on_segment (f (base i)) s /\ x = f (base i))) n) as (g & Hg).
  { intros i Hi. destruct (sides_at (all_edges ts ++ E1 ++ E2) (f (base i))) as (d & u & A & B & C).
    - rewrite !Forall_app. split; [|split; [exact (rooms_proper _ V1)|exact (rooms_proper _ V2)]]. apply Forall_forall. intros t Ht. apply in_map_iff in Ht. destruct Ht as (k & <- & Hk). apply in_seq in Hk. apply (edge_proper ts Hpair Htidy). lia.
    - exists (d, u). split; [exact A|]. split; [|exact C]. intros t Ht. apply B, in_or_app. left. exact Ht. }
  exists (fun i => f (base i)), (fun i => fst (g i)), (fun i => snd (g i)). split; [|split; [|split]].
  - intros i Hi. destruct (Hf (base i) (Lb i Hi)) as (Im & _). unfold base in *. destruct (lf i); [exact Im|]. unfold edge in Im |- *. rewrite <- (en_st ts Hpair i Hi), <- (st_en ts Hpair i Hi) in Im.
    destruct Im as (A & B & C). split; [apply on_reversed; exact A|]. split; [exact C|exact B].
  - intros i Hi. exact (proj2 (Hf (base i) (Lb i Hi))).
  - intros i Hi. cbv beta. rewrite (Bo i Hi). reflexivity.
  - exact Hg.
Qed.
Theorem chambers_traced : exists c cs, events_to_connectivity ts = Ok c /\ trace_contours ts c (seq 0 n) (repeat false n) = Ok cs /\ chambers cs.
Proof.
  destruct (connectivity_correct ts) as (c & Hconn & _). destruct (tracing_correct ts c Hpair Hgroup Hconn) as (cs & Ec & Pc & _ & _).
  exists c, cs. split; [exact Hconn|]. split; [exact Ec|]. pose proof (map_length h_traced hs) as Ln. pose proof (l_opp hs) as Lo.
  destruct middles as (mm & dd & uu & M1 & M2 & M3 & M4).
  assert (Hids' : forall i j, (i < length hs)%nat -> (j < length hs)%nat -> vx hs i = vx hs j <-> st i = st j) by (intros i j; rewrite <- Ln; apply Hids).
  assert (Hat' : forall i m t, (i < length hs)%nat -> inside_segment m (edge ts i) -> In t (E1 ++ E2) -> on_segment m t -> part (edge ts i) t) by (intros i m t; rewrite <- Ln; apply Hat).
  assert (M1' : forall i, (i < length hs)%nat -> inside_segment (mm i) (edge ts i)) by (rewrite <- Ln; exact M1).
  assert (M2' : forall i, (i < length hs)%nat -> ~ In (mm i) cuts) by (rewrite <- Ln; exact M2).
  assert (M3' : forall i, (i < length hs)%nat -> mm (ov hs i) = mm i) by (intros i Hi; rewrite <- Lo; apply M3; rewrite Ln; exact Hi).
  pose proof M4 as M4'. rewrite Ln in M4'.
  destruct (traced_rooms first second V1 V2 hs c Hpair Htidy Hplanar Hgroup Hids' Hconn Hsort Hev Hat' Hin cuts Hsides (fun p N => proj1 (Hcut p N)) (fun p N => proj2 (Hcut p N)) mm dd uu M1' M2' M3' M4') as (cs' & Ec' & F & Fm).
  rewrite Ln in Ec. rewrite Ec in Ec'. injection Ec' as <-. rewrite Forall_forall in F, Fm.
  assert (Fo : forall x, In x cs -> Contour (fst x) = around hs (snd x)).
  { intros x Hx. destruct (F x Hx) as (E & _). unfold around, outline. rewrite E. f_equal. rewrite map_map. reflexivity. }
  assert (Us : forall i j x y, i <> j -> nth_error cs i = Some x -> nth_error cs j = Some y -> unshared hs (snd x) (snd y)).
  { assert (Nd : NoDup (flat_map snd cs ++ map (opp ts) (flat_map snd cs))) by (apply (Permutation_NoDup (Permutation_sym Pc)), seq_NoDup).
    assert (Inx : forall i x a, nth_error cs i = Some x -> In a (snd x) -> In a (flat_map snd cs)) by (intros i x a Ex Ha; apply in_flat_map; exists x; split; [exact (nth_error_In _ _ Ex)|exact Ha]).
    assert (Op : forall i x a j y b, nth_error cs i = Some x -> nth_error cs j = Some y -> In a (snd x) -> In b (snd y) -> b <> ov hs a).
    { intros i x a j y b Ex Ey Ha Hb E. apply (nodup_app _ _ _ b Nd); [exact (Inx j y b Ey Hb)|]. rewrite E, <- Lo. apply in_map. exact (Inx i x a Ex Ha). }
    intros i j x y N Ex Ey a b Ha Hb. split; [|split; [exact (Op i x a j y b Ex Ey Ha Hb)|exact (Op j y b i x a Ey Ex Hb Ha)]].
    intros ->. exact (flat_disjoint _ _ snd cs i j x y a (nodup_app_l _ _ _ Nd) N Ex Ey Ha Hb). }
  constructor.
  - intros x Hx. destruct (F x Hx) as (_ & (k & W) & _). destruct (loop_rooms first second V1 V2 hs Hpair Htidy Hplanar Hids' Hat' mm M1' k (snd x) W) as (S & _). rewrite <- (Fo x Hx) in S. exact S.
  - intros x Hx. destruct (F x Hx) as (_ & (k & W) & _). destruct (loop_rooms first second V1 V2 hs Hpair Htidy Hplanar Hids' Hat' mm M1' k (snd x) W) as (_ & _ & R). rewrite <- (Fo x Hx) in R.
    exists (fst k), (snd k). split; [exact (proj1 (proj1 W))|]. split; [exact (proj2 (proj1 W))|exact R].
  - intros x Hx. destruct (F x Hx) as (_ & (k & W) & B). destruct (loop_rooms first second V1 V2 hs Hpair Htidy Hplanar Hids' Hat' mm M1' k (snd x) W) as (S & Pe & _).
    destruct (snd x) as [|y L] eqn:El; [elim (lo_ne _ _ _ _ (proj1 (proj2 W)) eq_refl)|].
    assert (Ly : (y < length hs)%nat) by (apply (lo_lt _ _ _ _ (proj1 (proj2 W))); left; reflexivity). pose proof Ly as Ly'. rewrite <- Ln in Ly'.
    pose proof (loop_left first second V1 V2 hs Hpair Htidy Hplanar Hids' Hat' Hin mm dd uu M1' M4' k (y :: L) y W B (or_introl eq_refl)) as I.
    rewrite <- El, <- (Fo x Hx) in S, Pe, I. rewrite El in Pe. cbn [vertices] in S, Pe, I.
    apply (seen_ccw (fst x) (edge ts y) (mm y) S); [apply (Permutation_in _ (Permutation_sym Pe)); left; reflexivity|exact (M1 y Ly')|].
    rewrite I. unfold edge. cbn [s_start s_end]. destruct (lf y) eqn:Ef; cbn [negb]; (split; [intro K|intro K]).
    + discriminate K.
    + elim (plt_irrefl _ (plt_trans _ _ _ K (td_lt ts Htidy y Ly' Ef))).
    + exact (right_lt ts Hpair Htidy y Ly' Ef).
    + reflexivity.
  - intros x Hx. destruct (F x Hx) as (E & (k & W) & _). pose proof (Fm x Hx) as M. rewrite E. unfold SpecTurn.starts_least. cbn [vertices].
    pose proof (lo_ne _ _ _ _ (proj1 (proj2 W))) as Ne. pose proof (lo_nodup _ _ _ _ (proj1 (proj2 W))) as Nd. pose proof (lo_lt _ _ _ _ (proj1 (proj2 W))) as Lt. clear - Hsort Ln Hids' M Ne Nd Lt.
    destruct (snd x) as [|y l]; [contradiction|]. cbn [map nth] in *. inversion Nd as [|? ? Nx _]. subst. intros q Hq. apply in_map_iff in Hq. destruct Hq as (z & <- & Hz).
    pose proof (M z (or_intror Hz)) as K. assert (Nv : vx hs y <> vx hs z) by (intro Q; apply Nx; rewrite Q; apply in_map, Hz).
    pose proof (Lt y (or_introl eq_refl)) as Ly. pose proof (Lt z (or_intror Hz)) as Lz. assert (Nyz : y <> z) by (intros ->; exact (Nv eq_refl)).
    assert (P : ple (st y) (st z)) by (apply Hsort; lia). apply ple_lt_eq in P. destruct P as [P|P]; [exact P|exfalso]. apply Nv. apply Hids'; [lia|lia|exact P].
  - intros i j x y N Ex Ey p. rewrite (Fo x (nth_error_In _ _ Ex)), (Fo y (nth_error_In _ _ Ey)).
    destruct (F x (nth_error_In _ _ Ex)) as (_ & (k & W) & B). destruct (F y (nth_error_In _ _ Ey)) as (_ & (k' & W') & B').
    exact (loops_apart first second V1 V2 hs Hpair Htidy Hplanar Hids' Hat' Hin mm dd uu M1' M4' k (snd x) k' (snd y) p W W' B B' (Us i j x y N Ex Ey)).
  - intros i j x y N Ex Ey p Ox Oy. change (fst x) with (vertices (Contour (fst x))) in Ox. change (fst y) with (vertices (Contour (fst y))) in Oy.
    rewrite (Fo x (nth_error_In _ _ Ex)) in Ox. rewrite (Fo y (nth_error_In _ _ Ey)) in Oy.
    destruct (F x (nth_error_In _ _ Ex)) as (_ & (k & W) & B). destruct (F y (nth_error_In _ _ Ey)) as (_ & (k' & W') & B').
    apply (around_on first second V1 V2 hs Hpair Htidy Hplanar Hids' Hat' mm M1' k (snd x) p W) in Ox. apply (around_on first second V1 V2 hs Hpair Htidy Hplanar Hids' Hat' mm M1' k' (snd y) p W') in Oy.
    destruct Ox as (a & Ha & Oa), Oy as (b & Hb & Ob). destruct (Us i j x y N Ex Ey a b Ha Hb) as (A1 & A2 & _). rewrite <- Lo in A2.
    assert (La : (a < n)%nat) by (rewrite Ln; exact (lo_lt _ _ _ _ (proj1 (proj2 W)) a Ha)). assert (Lb : (b < n)%nat) by (rewrite Ln; exact (lo_lt _ _ _ _ (proj1 (proj2 W')) b Hb)).
    destruct (td_apart ts Htidy a b p La Lb A1 A2 Oa Ob) as ([X|X] & _); rewrite X; unfold starts; apply in_map_iff.
    + exists (tev ts a). split; [reflexivity|]. apply nth_In, La.
    + exists (tev ts (opp ts a)). split; [symmetry; exact (en_st ts Hpair a La)|]. apply nth_In, (opp_lt ts Hpair), La.
Qed.
End Core.

Section Chambers.
Variables (first second : list contour) (x_max : option Qc) (s : state) (pl : list event).
Hypothesis V1 : valid_regions first.
Hypothesis V2 : valid_regions second.
Notation F1 := (flat_map region_edges first).
Notation F2 := (flat_map region_edges second).
Notation E1 := (flat_map (fun c => ends c) first).
Notation E2 := (flat_map (fun c => ends c) second).
Hypothesis H : shaped_swept Meet F1 F2 x_max s pl.
Variable events : list event.
Hypothesis Hperm : Permutation events pl.
Notation rv := (result_events s events).
Notation ts := (map (traced_of s events) rv).
Notation n := (length ts).
Notation ev_at i := (nth i rv (EL 0)).
Notation st i := (t_start (tev ts i)).
Notation lf i := (t_left (tev ts i)).
Let Hpair : paired ts := ts_paired _ _ _ _ _ _ H events Hperm.
Let Htidy : tidy ts := ts_tidy _ _ _ _ _ _ H events Hperm.
Notation drawn := (map (edge ts) (chosen ts (fun _ => true))).

Lemma c_sorted : forall i j, (i < j)%nat -> (j < n)%nat -> ple (st i) (st j).
Proof.
  assert (S : StronglySorted (fun x y => ple (ev_start s x) (ev_start s y)) rv) by (apply sort_start; exact (key_start s)).
  assert (Le : forall m x y, StronglySorted (fun x y => ple (ev_start s x) (ev_start s y)) m -> (x < y)%nat -> (y < length m)%nat -> ple (ev_start s (nth x m (EL 0))) (ev_start s (nth y m (EL 0)))).
  { clear. intros m x y S. revert x y. induction S as [|z m S IH F]; intros x y Hxy Hy; [cbn in Hy; lia|]. destruct x as [|x], y as [|y]; [lia| |lia|].
    - cbn [nth]. rewrite Forall_forall in F. apply F. apply nth_In. cbn in Hy. lia.
    - cbn [nth]. apply IH; cbn in Hy; lia. }
  intros i j Hij Hj. rewrite (ts_at s events i), (ts_at s events j) by lia. cbn [t_start traced_of]. apply Le; [exact S|exact Hij|]. rewrite map_length in Hj. exact Hj.
Qed.
Lemma chosen_perm : Permutation (chosen ts (fun _ => true) ++ map (opp ts) (chosen ts (fun _ => true))) (seq 0 n).
Proof.
  apply NoDup_Permutation; [|apply seq_NoDup|].
  - assert (Nd : NoDup (chosen ts (fun _ => true))) by (apply NoDup_filter, seq_NoDup).
    assert (Ch : forall i, In i (chosen ts (fun _ => true)) -> (i < n)%nat /\ lf i = true) by (intros i Hi; apply chosen_in in Hi; tauto).
    apply NoDup_app_intro; [exact Nd| |].
    + assert (J : forall m, (forall x, In x m -> (x < n)%nat) -> NoDup m -> NoDup (map (opp ts) m)).
      { induction m as [|x m IH]; intros Lt N; [constructor|]. apply NoDup_cons_iff in N. destruct N as (N1 & N2). cbn [map]. constructor; [|apply IH; [intros y Hy; apply Lt; right; exact Hy|exact N2]].
        intro K. apply in_map_iff in K. destruct K as (y & Ey & Hy). apply N1. apply (f_equal (opp ts)) in Ey. rewrite !(opp_opp ts Hpair) in Ey by (apply Lt; simpl; auto). subst y. exact Hy. }
      apply J; [intros x Hx; exact (proj1 (Ch x Hx))|exact Nd].
    + intros i Hi K. apply in_map_iff in K. destruct K as (j & <- & Hj). destruct (Ch _ Hi) as (_ & A). destruct (Ch j Hj) as (Lj & B). rewrite (td_left ts Htidy j Lj), B in A. discriminate A.
  - intro i. rewrite in_app_iff, in_seq, in_map_iff. split.
    + intros [K|(j & <- & K)]; apply chosen_in in K; destruct K as (K & _); [lia|]. pose proof (opp_lt ts Hpair j K). lia.
    + intros (_ & K). cbn in K. destruct (lf i) eqn:El; [left; apply filter_In; split; [apply in_seq; lia|rewrite El; reflexivity]|right].
      exists (opp ts i). split; [exact (opp_opp ts Hpair i K)|]. apply filter_In. split; [apply in_seq; pose proof (opp_lt ts Hpair i K); lia|]. rewrite (td_left ts Htidy i K), El. reflexivity.
Qed.
Lemma c_even : even_occurrences (endpoints_of drawn).
Proof.
  intro q. rewrite <- Nat.negb_odd, (drawn_count ts Hpair Htidy (fun _ => true) q (fun _ _ => eq_refl)). pose proof (ts_even _ _ _ _ _ _ H events Hperm q) as E.
  rewrite <- Nat.negb_odd, <- parity_occ in E.
  assert (G : starts ts = map (fun i => st i) (seq 0 n)) by (unfold starts, tev; rewrite <- (map_map (fun i => nth i ts no_traced) t_start), map_nth_seq; reflexivity).
  rewrite G, parity_map in E. exact E.
Qed.
Lemma c_in : forall p, inside drawn p = inside E1 p && inside E2 p.
Proof.
  intro p. rewrite (proj1 (edges_result _ _ _ _ _ _ H events Hperm _ chosen_perm) p), (result_inside _ _ _ _ _ _ H p), (turned_inside _ _ p (regions_turned first)), (turned_inside _ _ p (regions_turned second)). reflexivity.
Qed.
Definition piece_ends : list point := map (fun i => ev_start s (EL i)) (seq 0 (length (lefts s))) ++ map (fun i => ev_start s (ER i)) (seq 0 (length (rights s))).
Definition c_cuts : list point := piece_ends ++ crossings E1 ++ crossings E2.
Lemma c_sides : forall p, ~ In p c_cuts -> (on_segments p drawn <-> inside E1 p && inside E2 p <> inside_above E1 p && inside_above E2 p).
Proof.
  intros p N. assert (Np : ~ piece_endpoint s p).
  { intros ([k|k] & Rk & Ek); apply N, in_or_app; left; apply in_or_app; [left|right]; apply in_map_iff; exists k; (split; [exact Ek|apply in_seq; cbn in Rk; lia]). }
  rewrite (proj2 (edges_result _ _ _ _ _ _ H events Hperm _ chosen_perm) p), (through_on _ p (result_proper _ _ _ _ _ _ H)), (result_sides _ _ _ _ _ _ H p Np).
  rewrite (turned_inside _ _ p (regions_turned first)), (turned_inside _ _ p (regions_turned second)), (turned_above _ _ p (regions_turned first)), (turned_above _ _ p (regions_turned second)).
  cbn [op_holds]. destruct (inside E1 p && inside E2 p), (inside_above E1 p && inside_above E2 p); cbn [xorb]; split; intro K; congruence.
Qed.
Lemma c_lone : forall p, ~ In p c_cuts -> lone E1 p /\ lone E2 p.
Proof.
  intros p N. split; apply uncrossed; [exact (rooms_proper _ V1)| |exact (rooms_proper _ V2)|]; intro K; apply N, in_or_app; right; apply in_or_app; auto.
Qed.
Lemma c_at : forall i m t, (i < n)%nat -> inside_segment m (edge ts i) -> In t (E1 ++ E2) -> on_segment m t -> part (edge ts i) t.
Proof.
  intros i m t Hi Im Ht Ot.
  destruct (sh_sweep _ _ _ _ _ _ H) as (s0 & out & Hf & Hsw & Hpr & Hla). destruct (sh_bounds _ _ _ _ _ _ H) as (R1 & R2).
  pose proof (fun i => selected_out _ s0 Hf (lawful_operands _ _ (proj1 R1) (proj1 R2)) x_max _ _ (op_follows Meet) (Hreg _ _ _ _ _ _ H) s out pl Hsw Hpr Hla (Hstop _ _ _ _ _ _ H) i) as So.
  pose proof (ts_edge _ _ _ _ _ _ H events Hperm i Hi) as Ee. pose proof (ev_at_in s events i Hi) as Ie.
  destruct (evs_left _ _ _ _ _ _ H events Hperm _ Ie) as (Il & Rl). set (k := left_of s (ev_at i)) in *.
  assert (Lk : (k < length (lefts s))%nat) by exact (pr_range _ _ _ _ Hpr _ Il).
  assert (Eg : edge ts i = seg_of s k \/ edge ts i = reversed (seg_of s k)).
  { rewrite Ee. unfold k. pose proof (evs_range _ _ _ _ _ _ H _ Hperm _ Ie) as Rg. destruct (ev_at i) as [a|r]; [left; reflexivity|right].
    pose proof (opposite_reversed _ _ _ _ _ _ H _ Rg) as K. change (seg_of s (left_of s (ER r))) with (ev_segment s (opposite s (ER r))). rewrite <- K. reflexivity. }
  assert (Ims : inside_segment m (seg_of s k)).
  { destruct Eg as [Eg|Eg]; rewrite Eg in Im; [exact Im|]. destruct Im as (A & B & C). split; [apply on_reversed, A|]. split; [exact C|exact B]. }
  assert (Src : exists b sg, In sg (if b : bool then F1 else F2) /\ (forall p, on_segment p sg <-> on_segment p t)).
  { apply in_app_iff in Ht. destruct Ht as [Ht|Ht]; [destruct (canon_in _ _ t (turned_sym _ _ (regions_turned first)) Ht) as (t' & Ht' & E); exists true, t'|destruct (canon_in _ _ t (turned_sym _ _ (regions_turned second)) Ht) as (t' & Ht' & E); exists false, t'];
      (split; [exact Ht'|]; intro p; destruct E as [->| ->]; [reflexivity|apply on_reversed]). }
  destruct Src as (b & sg & Hsg & Et). destruct (LinearMeaning.piece_at _ _ _ _ _ Hsw b sg m Hsg (proj2 (Et m) Ot)) as (j & Lj & Eb & Oj & W).
  assert (Sj : seg_of s j = seg_of s k).
  { destruct (Nat.eq_dec j k) as [->|N]; [reflexivity|]. destruct (sw_apart _ _ _ _ Hsw k j (So k Il Rl) Lj N) as [K|(_ & K & _)]; [exfalso|symmetry; exact K].
    destruct (K m (proj1 Ims) Oj) as (Ep & _). destruct Ims as (_ & A & B). destruct Ep as [X|X]; [exact (A X)|exact (B X)]. }
  intros p Op. apply Et, W. rewrite Sj. destruct Eg as [Eg|Eg]; rewrite Eg in Op; [exact Op|apply on_reversed; exact Op].
Qed.
Lemma named : exists hs, map h_traced hs = ts /\ forall i j, (i < n)%nat -> (j < n)%nat -> vx hs i = vx hs j <-> st i = st j.
Proof.
  set (vid := fun i => hd 0%nat (filter (fun j => pt_eqb (st j) (st i)) (seq 0 n))).
  set (g := fun i => HoleyEvent (EL 0) (tev ts i) (vid i)). set (hs := map g (seq 0 n)). exists hs.
  assert (Eh : map h_traced hs = ts) by (unfold hs; rewrite map_map; exact (map_nth_seq _ ts no_traced)). split; [exact Eh|].
  assert (Vx : forall i, (i < n)%nat -> vx hs i = vid i).
  { intros i Hi. unfold vx, hev, hs. rewrite (nth_indep _ no_holey (g 0%nat)) by (rewrite map_length, seq_length; exact Hi).
    rewrite (map_nth g), seq_nth by exact Hi. reflexivity. }
  assert (Vs : forall i, (i < n)%nat -> st (vid i) = st i).
  { intros i Hi. unfold vid. destruct (filter _ _) as [|j l] eqn:E.
    - exfalso. assert (K : In i []) by (rewrite <- E; apply filter_In; split; [apply in_seq; lia|apply pt_eqb_eq; reflexivity]). exact K.
    - assert (K : In j (j :: l)) by (left; reflexivity). rewrite <- E in K. apply filter_In in K. cbn [hd]. apply pt_eqb_eq. exact (proj2 K). }
  intros i j Hi Hj. rewrite (Vx i Hi), (Vx j Hj). split; intro E.
  - rewrite <- (Vs i Hi), E. exact (Vs j Hj).
  - unfold vid. rewrite E. reflexivity.
Qed.
(** Regions returned. *)
Theorem regions_chambers : exists rs, events_to_regions s events = Ok rs /\ valid_regions rs
  /\ (forall r, In r rs -> exists c1 c2, In c1 first /\ In c2 second /\ forall p, in_contour r p -> in_contour c1 p /\ in_contour c2 p)
  /\ (forall r, In r rs -> SpecTurn.counterclockwise r) /\ (forall r, In r rs -> SpecTurn.starts_least r).
Proof.
  destruct named as (hs & Eh & Hids).
  pose proof (chambers_traced first second V1 V2 hs) as G. rewrite Eh in G. unfold paired in G.
  destruct (G Hids Hpair Htidy (ts_planar _ _ _ _ _ _ H events Hperm) (ts_grouped s events) c_sorted c_even c_at c_in c_cuts c_sides c_lone) as (c & cs & Hc & Hcs & Ch).
  destruct Ch as [Cs Cr Ct Cl Ca Co]. rewrite Eh in Co.
  destruct (shrink_all_spec (map fst cs)) as (rs & Es & Fs).
  { apply Forall_forall. intros l Hl. apply in_map_iff in Hl. destruct Hl as (x & <- & Hx). pose proof (Cs x Hx) as Sx.
    apply non_overlapping_never_folds; [intro E; rewrite E in Sx; destruct Sx as (L & _); cbn in L; lia|exact (simple_apart _ Sx)]. }
  exists rs. split; [unfold events_to_regions; rewrite (to_traced_ok _ _ _ _ _ _ H events Hperm); cbn [bind_res]; unfold trace_regions; rewrite Hc, Hcs; exact Es|].
  assert (At : forall i r, nth_error rs i = Some r -> exists x, nth_error cs i = Some x /\ straightened (fst x) (vertices r)
    /\ (forall p, on_segments p (ends r) <-> on_segments p (contour_edges (fst x))) /\ forall p, in_contour r p <-> in_contour (Contour (fst x)) p).
  { intros i r Er. destruct (Forall2_at _ _ _ _ _ Fs i r Er) as (l & El & St & _ & _ & On). rewrite nth_error_map in El. destruct (nth_error cs i) as [x|]; [|discriminate El]. injection El as <-.
    exists x. split; [reflexivity|]. split; [exact St|]. split; [exact On|]. intro p. unfold in_contour, in_region. cbn [vertices]. rewrite On, (EvenStraight.straightened_inside _ _ p St). reflexivity. }
  assert (In_ : forall r, In r rs -> exists x, In x cs /\ straightened (fst x) (vertices r) /\ forall p, in_contour r p <-> in_contour (Contour (fst x)) p).
  { intros r Hr. destruct (In_nth_error _ _ Hr) as (i & Ei). destruct (At i r Ei) as (x & Ex & St & _ & I). exists x. split; [exact (nth_error_In _ _ Ex)|split; assumption]. }
  assert (Sr : Forall (fun r => simple_contour (vertices r)) rs).
  { apply Forall_forall. intros r Hr. destruct (In_ r Hr) as (x & Hx & St & _). exact (SimpleThms.straightened_simple _ _ St (Cs x Hx)). }
  split; [split; [exact Sr|split]|split; [|split]].
  - intros i j r k N Er Ek p ((N1 & I1) & P2). destruct (At i r Er) as (x & Ex & St & On & I). destruct (At j k Ek) as (y & Ey & St' & On' & I').
    apply (Ca i j x y N Ex Ey p). split; [|apply I', P2]. unfold SpecLocate.edges in N1, I1. split; [rewrite On in N1; exact N1|]. rewrite <- I1. symmetry. exact (EvenStraight.straightened_inside _ _ p St).
  - apply flat_apart; [exact Sr|]. intros i j r k N Er Ek a b Ha Hb (p & q & Npq & Pa & Pb & Qa & Qb).
    destruct (At i r Er) as (x & Ex & St & On & I). destruct (At j k Ek) as (y & Ey & St' & On' & I').
    destruct (approach p q (starts ts) Npq) as (m & Im & Nm & _). apply Nm. apply (Co i j x y N Ex Ey m); [apply On|apply On'].
    + exists a. split; [exact Ha|]. exact (on_convex a p q m Pa Qa (proj1 Im)).
    + exists b. split; [exact Hb|]. exact (on_convex b p q m Pb Qb (proj1 Im)).
  - intros r Hr. destruct (In_ r Hr) as (x & Hx & St & I). destruct (Cr x Hx) as (c1 & c2 & H1 & H2 & R). exists c1, c2. split; [exact H1|]. split; [exact H2|]. intros p Hp. apply R, I, Hp.
  - intros r Hr. destruct (In_ r Hr) as (x & Hx & St & I). split; [exact (proj1 (Forall_forall _ _) Sr r Hr)|]. exact (Turning.straightened_counterclockwise _ _ St (Cs x Hx) (Ct x Hx)).
  - intros r Hr. destruct (In_ r Hr) as (x & Hx & St & I). destruct r as [vs]. cbn [vertices] in St. exact (Turning.straightened_starts _ _ St (Cs x Hx) (Cl x Hx)).
Qed.
End Chambers.
