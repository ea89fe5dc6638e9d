(** The order of regions returned by intersections.
    Proof support only, no part of /repo is modelled here. *)
From Coq Require Import Permutation Sorted.
From Verif Require EvenStraight SimpleThms Turning HoleyThms.
From Verif Require Import QcTac Geom Spec SpecShape SpecSides SpecTurn SpecCanon GeomFacts Toward Bounding BoundingThms Unique Relation SweepGeo SweepInv SweepSteps SelectThms Sweep Linear SweepStart SweepEnd Outline Contour ConnectThms Tracing TraceThms RegionThms ShrinkThms Parity LinearMeaning LinearThms LinearComplete MixedComplete Shapes EvenOdd Polygons Sides Loops Labelled LabelEnd Classify Filter Mixed MixedThms Telescope Shaped Holey FilterThms ShapedThms ShapedProps FollowThms Faces Flip TracedLoops TidyThms Cycle Arranged Fill Germs Shift Walks Bridge Rooms Classes Chambers.

(** ** Starts of traced contours *)
Lemma trace_contour_prefix : forall evs c v fuel cursor vs ids p vs' ids' p', trace_contour fuel evs c v cursor vs ids p = Ok (vs', ids', p') ->
  exists l l', vs' = vs ++ l /\ ids' = ids ++ l' /\ (l = [] \/ exists r, l = t_end (tev evs cursor) :: r).
Proof.
  intros evs c v. induction fuel as [|f IH]; intros cursor vs ids p vs' ids' p' E; [discriminate E|]. cbn [trace_contour] in E.
  destruct (pt_eqb _ _); [injection E as <- <- <-; exists [], []; rewrite !app_nil_r; auto|].
  destruct (next_event _ _ _) as [[w|]|]; [|injection E as <- <- <-; exists [t_end (tev evs cursor)], []; rewrite app_nil_r; split; [reflexivity|split; [reflexivity|right; exists []; reflexivity]]|discriminate E].
  apply IH in E. destruct E as (l & l' & -> & -> & _). exists (t_end (tev evs cursor) :: l), (w :: l'). rewrite <- !app_assoc. split; [reflexivity|]. split; [reflexivity|]. right. exists l. reflexivity.
Qed.
Definition begun (evs : list traced) (x : list point * list nat) : Prop :=
  exists r, snd x = hd O (snd x) :: r /\ (fst x = [t_start (tev evs (hd O (snd x)))] \/ exists l, fst x = t_start (tev evs (hd O (snd x))) :: t_end (tev evs (hd O (snd x))) :: l).
Lemma trace_contours_heads : forall evs c ids p cs, StronglySorted lt ids -> trace_contours evs c ids p = Ok cs ->
  StronglySorted (fun x y => (hd O (snd x) < hd O (snd y))%nat) cs /\ Forall (fun x => In (hd O (snd x)) ids /\ begun evs x) cs.
Proof.
  intros evs c. induction ids as [|i ids IH]; intros p cs S E; [injection E as <-; split; constructor|]. inversion S as [|? ? S' F]. subst. rewrite Forall_forall in F. cbn [trace_contours] in E.
  destruct (nth i p false).
  - destruct (IH p cs S' E) as (A & B). split; [exact A|]. revert B. apply Forall_impl. intros x (I & G). split; [right; exact I|exact G].
  - destruct (trace_contour _ _ _ _ _ _ _ _) as [((vs, es), p')|] eqn:Et; [|discriminate E]. destruct (trace_contours evs c ids p') as [rest|] eqn:Er; [|discriminate E]. injection E as <-.
    destruct (IH p' rest S' Er) as (A & B). apply trace_contour_prefix in Et. destruct Et as (l & l' & -> & -> & Hl). split.
    + constructor; [exact A|]. apply Forall_forall. intros x Hx. cbn [snd hd app]. apply F. rewrite Forall_forall in B. exact (proj1 (B x Hx)).
    + constructor; [split; [left; reflexivity|]|].
      * exists l'. cbn [fst snd hd app]. split; [reflexivity|]. destruct Hl as [->|(r & ->)]; [left; reflexivity|right; exists r; reflexivity].
      * revert B. apply Forall_impl. intros x (I & G). split; [right; exact I|exact G].
Qed.
Lemma seq_sorted : forall n k, StronglySorted lt (seq k n).
Proof. induction n as [|n IH]; intro k; [constructor|]. cbn [seq]. constructor; [apply IH|]. apply Forall_forall. intros x Hx. apply in_seq in Hx. lia. Qed.
Lemma sorted_at : forall (A : Type) (R : A -> A -> Prop) l, StronglySorted R l -> forall i j x y, (i < j)%nat -> nth_error l i = Some x -> nth_error l j = Some y -> R x y.
Proof.
  intros A R l S. induction S as [|a l S IH F]; intros i j x y L Ex Ey; [destruct i; discriminate Ex|]. destruct i as [|i], j as [|j]; [lia| |lia|].
  - injection Ex as <-. rewrite Forall_forall in F. apply F. cbn [nth_error] in Ey. exact (nth_error_In _ _ Ey).
  - apply (IH i j); [lia|exact Ex|exact Ey].
Qed.

(** ** First edges after dropping vertices *)
Lemma straightened_first : forall vs r, straightened vs r -> simple_contour vs -> starts_least (Contour vs) ->
  vertex r 0 = vertex vs 0 /\ exists k, 0 < k /\ vertex r 1 = lerp (vertex vs 0) (vertex vs 1) k.
Proof.
  intros vs r H. induction H as [vs|us p ws r L St H IH]; intros Hs Hc; [split; [reflexivity|exists 1; split; [reflexivity|symmetry; apply lerp_1]]|].
  pose proof (SimpleThms.simple_drop us p ws Hs St) as Hs'.
  assert (Hc' : starts_least (Contour (us ++ ws))) by (apply (Turning.straightened_starts (us ++ p :: ws)); [apply straightened_one with (1 := L) (2 := St); constructor|exact Hs|exact Hc]).
  destruct (IH Hs' Hc') as (E0 & k & K & E1). clear IH H.
  destruct us as [|v [|u us]]; cbn [app] in *.
  - exfalso. apply (simple_turns _ Hs 0%nat); [|exact St]. split; [cbn; lia|]. intros q [<-|Hq]; [left; reflexivity|right; exact (Hc q Hq)].
  - split; [exact E0|]. destruct ws as [|w ws]; [destruct Hs' as (Z & _); cbn in Z; lia|].
    assert (F : inside_segment p (Seg v w)).
    { destruct (non_overlapping_never_folds (v :: p :: w :: ws)) as (_ & F); [discriminate|apply simple_non_overlapping; exact Hs|]. specialize (F 1%nat ltac:(cbn; lia) St). exact F. }
    destruct F as (O & N1 & N2). cbn [s_start s_end] in N1, N2. apply on_lerp in O. destruct O as (t & T0 & T1 & Ep). cbn [vertex nth] in E1 |- *.
    assert (Nt : t <> 0) by (intros ->; apply N1; rewrite Ep; apply lerp_0). assert (Tp : 0 < t) by (destruct (Qcle_lt_or_eq _ _ T0) as [X|X]; [exact X|congruence]).
    exists (k / t). split; [unfold Qcdiv; apply mul_pos; [exact K|]|].
    + destruct (Qclt_le_dec 0 (/ t)) as [J|J]; [exact J|exfalso]. assert (X : 0 <= t * - / t) by (apply mul_nonneg; [exact T0|qlra]). replace (t * - / t) with (- (1)) in X by (field; exact Nt). apply X. reflexivity.
    + rewrite E1, Ep. unfold lerp. cbn [px py]. apply pt_ext; cbn [px py]; field; exact Nt.
  - split; [exact E0|]. exists k. split; [exact K|exact E1].
Qed.
Lemma cross_scaled : forall v p q a b, cross v (lerp v p a) (lerp v q b) = a * b * cross v p q.
Proof. intros v p q a b. unfold cross, lerp. cbn [px py]. ring. Qed.

Section Ordered.
Variables (first second : list contour) (x_max : option Qc) (s : state) (pl : list event).
Hypothesis V1 : valid_regions first.
Hypothesis V2 : valid_regions second.
Hypothesis H : shaped_swept Meet (flat_map region_edges first) (flat_map region_edges second) x_max s pl.
Variable events : list event.
Hypothesis Hperm : Permutation events pl.
Theorem regions_ordered : exists rs, events_to_regions s events = Ok rs /\ (forall r, In r rs -> angular r)
  /\ forall i j r k, (i < j)%nat -> nth_error rs i = Some r -> nth_error rs j = Some k -> begins_before r k.
Proof.
  set (ts := map (traced_of s events) (result_events s events)).
  destruct (named s events) as (hs & Eh & Hids).
  pose proof (ts_paired _ _ _ _ _ _ H events Hperm) as Hpair. pose proof (ts_tidy _ _ _ _ _ _ H events Hperm) as Htidy. fold ts in Eh, Hids, Hpair, Htidy.
  pose proof (chambers_traced first second V1 V2 hs) as G. rewrite Eh in G.
  destruct (G Hids Hpair Htidy (ts_planar _ _ _ _ _ _ H events Hperm) (ts_grouped s events) (c_sorted s events)
    (c_even _ _ _ _ _ H events Hperm) (c_at _ _ _ _ _ H events Hperm) (c_in _ _ _ _ _ H events Hperm) _ (c_sides _ _ _ _ _ H events Hperm) (c_lone first second s V1 V2)) as (c & cs & Hc & Hcs & Ch).
  destruct Ch as [Cs _ _ Cl _ _]. destruct (trace_contours_heads ts c _ _ cs (seq_sorted _ _) Hcs) as (Hd & Hb). rewrite Forall_forall in Hb.
  destruct (shrink_all_spec (map fst cs)) as (rs & Es & Fs).
  { apply Forall_forall. intros l Hl. apply in_map_iff in Hl. destruct Hl as (x & <- & Hx). pose proof (Cs x Hx) as Sx.
    apply non_overlapping_never_folds; [intro E; rewrite E in Sx; destruct Sx as (L & _); cbn in L; lia|exact (simple_apart _ Sx)]. }
  exists rs. split; [unfold events_to_regions; rewrite (to_traced_ok _ _ _ _ _ _ H events Hperm); cbn [bind_res]; fold ts; unfold trace_regions; rewrite Hc, Hcs; exact Es|].
  assert (At : forall i r, nth_error rs i = Some r -> exists x, nth_error cs i = Some x /\ straightened (fst x) (vertices r) /\ angular r).
  { intros i r Er. destruct (Forall2_at _ _ _ _ _ Fs i r Er) as (l & El & St & _ & An & _). rewrite nth_error_map in El. destruct (nth_error cs i) as [x|]; [|discriminate El]. injection El as <-.
    exists x. split; [reflexivity|]. split; [exact St|exact An]. }
  split; [intros r Hr; destruct (In_nth_error _ _ Hr) as (i & Ei); destruct (At i r Ei) as (x & _ & _ & An); exact An|].
  intros i j r k Lij Er Ek. destruct (At i r Er) as (x & Ex & Sx & _). destruct (At j k Ek) as (y & Ey & Sy & _).
  pose proof (nth_error_In _ _ Ex) as Ix. pose proof (nth_error_In _ _ Ey) as Iy.
  pose proof (sorted_at _ _ _ Hd i j x y Lij Ex Ey) as Lh. destruct (Hb x Ix) as (Inx & rx & Ox & Bx). destruct (Hb y Iy) as (Iny & ry & Oy & By). apply in_seq in Inx, Iny.
  set (a := hd O (snd x)) in *. set (b := hd O (snd y)) in *.
  destruct (straightened_first _ _ Sx (Cs x Ix) (Cl x Ix)) as (Fx & kx & Kx & Gx). destruct (straightened_first _ _ Sy (Cs y Iy) (Cl y Iy)) as (Fy & ky & Ky & Gy).
  pose proof (proj1 (Cs x Ix)) as Lx. pose proof (proj1 (Cs y Iy)) as Ly.
  destruct Bx as [Bx|(lx & Bx)]; [rewrite Bx in Lx; cbn in Lx; lia|]. destruct By as [By|(ly & By)]; [rewrite By in Ly; cbn in Ly; lia|].
  rewrite Bx in Fx, Gx. rewrite By in Fy, Gy. cbn [vertex nth] in Fx, Gx, Fy, Gy.
  unfold begins_before. cbv zeta. rewrite Fx, Fy, Gx, Gy. pose proof (c_sorted s events a b Lh ltac:(fold ts; lia)) as P. fold ts in P. apply ple_lt_eq in P. destruct P as [P|P]; [left; exact P|right]. split; [exact P|].
  rewrite <- P, cross_scaled.
  destruct (td_order ts Htidy a b Lh ltac:(lia) P) as (A & B).
  assert (La : t_left (tev ts a) = true).
  { destruct (t_left (tev ts a)) eqn:El; [reflexivity|exfalso]. pose proof (right_lt ts Hpair Htidy a ltac:(lia) El) as R.
    pose proof (Cl x Ix) as S. unfold starts_least in S. cbn [vertices] in S. rewrite Bx in S. pose proof (S _ (or_introl eq_refl)) as R'. exact (plt_irrefl _ (plt_trans _ _ _ R R')). }
  pose proof (A La) as Lb. rewrite La, Lb in B. apply mul_pos; [apply mul_pos; assumption|exact (B eq_refl)].
Qed.
End Ordered.
