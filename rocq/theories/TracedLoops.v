(** Contours made of loops of events.  Proof support only, no part of /repo is
    modelled here. *)
From Coq Require Import Permutation.
From Verif Require Import QcTac Geom Spec SpecShape GeomFacts Sweep Linear Contour ConnectThms Tracing TraceThms ShrinkThms RegionThms EvenStraight PairFacts PairProofs LoopThms LinearThms SimpleThms Polygons Parity Loops Labelled Filter Mixed Shaped Holey FollowThms Faces.

Lemma walk_of : forall es e d, (forall q, (S q < length (e :: es))%nat -> s_start (nth (S q) (e :: es) d) = s_end (nth q (e :: es) d)) -> walk e es.
Proof.
  induction es as [|f es IH]; intros e d H; [exact I|]. split; [apply (H 0%nat); cbn; lia|].
  apply (IH f d). intros q Hq. apply (H (S q)). cbn in *. lia.
Qed.
Lemma walk_starts : forall es e, walk e es -> map s_start (e :: es) = s_start e :: map s_end (removelast (e :: es)).
Proof.
  induction es as [|f es IH]; intros e W; [reflexivity|]. destruct W as (W1 & W2). change (removelast (e :: f :: es)) with (e :: removelast (f :: es)).
  cbn [map]. f_equal. specialize (IH f W2). cbn [map] in IH. rewrite IH, W1. reflexivity.
Qed.
Lemma map_removelast : forall (A B : Type) (f : A -> B) l, map f (removelast l) = removelast (map f l).
Proof. intros A B f l. induction l as [|x l IH]; [reflexivity|]. destruct l as [|y l]; [reflexivity|]. change (f x :: map f (removelast (y :: l)) = f x :: removelast (map f (y :: l))). rewrite IH. reflexivity. Qed.

Lemma in_before : forall L q, (q < length L)%nat -> In (Loops.before L q) L.
Proof. intros L q Hq. unfold Loops.before. apply nth_In. destruct q; lia. Qed.

Lemma nth_end : forall (A : Type) (l : list A) x d, nth (length l) (x :: l) d = last l x.
Proof.
  intros A l. induction l as [|y l IH]; intros x d; [reflexivity|]. change (nth (length (y :: l)) (x :: y :: l) d) with (nth (length l) (y :: l) d).
  rewrite IH. clear. revert x y. induction l as [|z l IH]; intros x y; [reflexivity|]. cbn [last]. destruct l; [reflexivity|]. exact (IH x y).
Qed.
Lemma NoDup_app_intro : forall (A : Type) (a b : list A), NoDup a -> NoDup b -> (forall x, In x a -> ~ In x b) -> NoDup (a ++ b).
Proof.
  intros A a b Na Nb D. induction Na as [|x a Nx Na IH]; [exact Nb|]. cbn. constructor.
  - intro K. apply in_app_or in K. destruct K as [K|K]; [contradiction|]. exact (D x (or_introl eq_refl) K).
  - apply IH. intros y Hy. apply D. right. exact Hy.
Qed.

Section Loop.
Variable evs : list holey_event.
Notation ts := (map h_traced evs).
Notation n := (length evs).
Hypothesis Hpair : paired ts.
Hypothesis Htidy : tidy ts.
Hypothesis Hplanar : planar ts.
Hypothesis Hids : forall i j, (i < n)%nat -> (j < n)%nat -> vx evs i = vx evs j <-> t_start (tev ts i) = t_start (tev ts j).

(** A contour drawn along events. *)
Definition drawn (ids : list nat) (c : contour) : Prop :=
  simple_contour (vertices c)
  /\ (forall j, (j < length (vertices c))%nat -> ~ straight (vertices c) j)
  /\ (forall q, inside (contour_edges (vertices c)) q = inside (map (edge ts) ids) q)
  /\ (forall q, on_segments q (contour_edges (vertices c)) <-> on_segments q (map (edge ts) ids)).

Variable L : list nat.
Hypothesis HL : loop n (vx evs) (ov evs) L.
Hypothesis Once : forall x y, In x L -> In y L -> ov evs x <> y.

Lemma l_opp : forall i, opp ts i = ov evs i.
Proof. intro i. unfold opp, ov. rewrite <- h_tev. reflexivity. Qed.
Lemma ts_len : length ts = n.
Proof. apply map_length. Qed.
Lemma l_lt : forall x, In x L -> (x < length ts)%nat.
Proof. intros x Hx. rewrite ts_len. exact (lo_lt _ _ _ _ HL x Hx). Qed.
Lemma loop_link_pts : forall q, (q < length L)%nat -> t_start (tev ts (nth q L O)) = t_end (tev ts (Loops.before L q)).
Proof.
  intros q Hq. pose proof (l_lt _ (in_before L q Hq)) as B. destruct (Hpair _ B) as (O1 & _ & O2 & O3).
  pose proof (lo_link _ _ _ _ HL q Hq) as E. rewrite <- l_opp in E. rewrite ts_len in *.
  apply (Hids _ _ (lo_lt _ _ _ _ HL _ (nth_In L O Hq)) O1) in E. rewrite E, O3. reflexivity.
Qed.
Lemma loop_walk : exists e es, map (edge ts) L = e :: es /\ walk e es /\ s_end (last es e) = s_start e.
Proof.
  pose proof (lo_ne _ _ _ _ HL) as Ne. destruct (map (edge ts) L) as [|e es] eqn:E; [destruct L; [contradiction|discriminate E]|].
  exists e, es. split; [reflexivity|].
  assert (Ln : length L = S (length es)) by (rewrite <- (map_length (edge ts)), E; reflexivity).
  assert (At : forall q, (q < length L)%nat -> nth q (e :: es) e = edge ts (nth q L O)).
  { intros q Hq. rewrite <- E. rewrite (nth_indep _ e (edge ts O)) by (rewrite map_length; exact Hq). apply map_nth. }
  split.
  - apply (walk_of es e e). intros q Hq. cbn [length] in Hq. rewrite !At by lia. exact (loop_link_pts (S q) ltac:(lia)).
  - assert (El : last es e = edge ts (Loops.before L 0)).
    { unfold Loops.before. rewrite <- At by lia. replace (length L - 1)%nat with (length es) by lia. symmetry. apply nth_end. }
    rewrite El. change e with (nth 0 (e :: es) e) at 1. rewrite (At 0%nat ltac:(lia)). symmetry. exact (loop_link_pts 0 ltac:(lia)).
Qed.
Lemma loop_nodup : NoDup (L ++ map (opp ts) L).
Proof.
  assert (Nd : NoDup L) by (apply (NoDup_map_inv (vx evs)), (lo_nodup _ _ _ _ HL)).
  assert (Inj : forall x y, In x L -> In y L -> opp ts x = opp ts y -> x = y).
  { intros x y Hx Hy E. destruct (Hpair _ (l_lt x Hx)) as (_ & _ & A & _). destruct (Hpair _ (l_lt y Hy)) as (_ & _ & B & _). congruence. }
  apply NoDup_app_intro; [exact Nd| |].
  - clear - Nd Inj. induction Nd as [|x l Nx N IH]; [constructor|]. cbn. constructor.
    + intro K. apply in_map_iff in K. destruct K as (y & E & Hy). apply Nx. rewrite (Inj x y (or_introl eq_refl) (or_intror Hy) (eq_sym E)). exact Hy.
    + apply IH. intros a b Ha Hb. apply Inj; right; assumption.
  - intros x Hx K. apply in_map_iff in K. destruct K as (y & E & Hy). rewrite l_opp in E. exact (Once y x Hy Hx E).
Qed.
Definition outline : list point := map s_start (map (edge ts) L).
Lemma outline_edges : Permutation (contour_edges outline) (map (edge ts) L).
Proof. unfold outline. destruct loop_walk as (e & es & E & W & C). rewrite E. exact (closed_walk_edges e es W C). Qed.
Lemma outline_simple : simple_contour outline.
Proof.
  pose proof (non_overlapping_ids ts L Hplanar loop_nodup l_lt) as (Pr & Ov).
  assert (NO : non_overlapping (contour_edges outline)).
  { split; [exact (Permutation_Forall (Permutation_sym outline_edges) Pr)|].
    apply (LinearThms.pairwise_perm _ _ _ _ (fun a b N K => N (overlap_sym _ _ K)) (Permutation_sym outline_edges) Ov). }
  assert (Ne : outline <> []).
  { unfold outline. pose proof (lo_ne _ _ _ _ HL) as Ne. destruct L; [contradiction|discriminate]. }
  split; [exact (proj1 (non_overlapping_never_folds _ Ne NO))|]. split.
  - unfold outline. rewrite map_map. pose proof (lo_nodup _ _ _ _ HL) as N. pose proof (lo_lt _ _ _ _ HL) as Lt. clear - N Lt Hids.
    induction L as [|x l IH]; [constructor|]. cbn [map] in *. inversion N as [|? ? N1 N2]. subst. constructor.
    + intro K. apply in_map_iff in K. destruct K as (y & E & Hy). apply N1. apply in_map_iff. exists y. split; [|exact Hy].
      apply (Hids y x (Lt y (or_intror Hy)) (Lt x (or_introl eq_refl))). exact E.
    + apply IH; [exact N2|]. intros y Hy. apply Lt. right. exact Hy.
  - apply (LinearThms.pairwise_perm _ _ _ _ meet_ends_sym (Permutation_sym outline_edges)).
    intros i j x y Nij Ex Ey p Px Py. rewrite nth_error_map in Ex, Ey.
    destruct (nth_error L i) as [a|] eqn:Ea; [|discriminate]. destruct (nth_error L j) as [b|] eqn:Eb; [|discriminate].
    cbn in Ex, Ey. injection Ex as <-. injection Ey as <-.
    pose proof (nth_error_In _ _ Ea) as Ia. pose proof (nth_error_In _ _ Eb) as Ib.
    assert (Nd : NoDup L) by (apply (NoDup_map_inv (vx evs)), (lo_nodup _ _ _ _ HL)).
    destruct (td_apart ts Htidy a b p (l_lt a Ia) (l_lt b Ib)) as (A & B); [| |exact Px|exact Py|split; [exact A|exact B]].
    + intros ->. apply Nij. apply (proj1 (NoDup_nth_error L) Nd); [apply nth_error_Some; congruence|congruence].
    + intro E. rewrite l_opp in E. exact (Once a b Ia Ib (eq_sym E)).
Qed.
Theorem loop_drawn : exists r, contour_events_to_vertices evs L = Ok r /\ drawn L (Contour r) /\ drawn L (Contour (Holey.turned r)).
Proof.
  destruct (shrink_corners outline (simple_folds _ outline_simple)) as (r & E & St & _ & Co & On). exists r. split.
  - unfold contour_events_to_vertices. rewrite <- E. f_equal. unfold outline. destruct loop_walk as (e & es & Ee & W & _). rewrite Ee, (walk_starts es e W). f_equal.
    + pose proof (lo_ne _ _ _ _ HL) as Ne. destruct L as [|x l]; [contradiction|]. cbn [hd]. cbn [map] in Ee. injection Ee as <- _. cbn. rewrite h_tev. reflexivity.
    + rewrite <- Ee, <- map_removelast, map_map. apply map_ext. intro i. cbn. rewrite h_tev. reflexivity.
  - pose proof (straightened_simple _ _ St outline_simple) as Sr.
    assert (In1 : forall q, inside (contour_edges r) q = inside (map (edge ts) L) q) by (intro q; rewrite (straightened_inside _ _ q St); exact (inside_perm _ _ q outline_edges)).
    assert (On1 : forall q, on_segments q (contour_edges r) <-> on_segments q (map (edge ts) L)).
    { intro q. rewrite (On q). unfold on_segments. split; intros (sg & Hs & Oq); exists sg; (split; [|exact Oq]); [rewrite <- outline_edges|rewrite outline_edges]; exact Hs. }
    split; [split; [exact Sr|split; [exact Co|split; [exact In1|exact On1]]]|].
    split; [exact (turned_simple r Sr)|]. split; [exact (turned_corners r Co)|]. split; intro q; cbn [vertices].
    + rewrite <- In1, (inside_perm _ _ q (turned_edges r)). exact (turned_inside _ _ q (turned_reversed _)).
    + rewrite <- On1. unfold on_segments. split; intros (sg & Hs & Oq).
      * rewrite turned_edges in Hs. apply in_map_iff in Hs. destruct Hs as (sg' & <- & Hs). exists sg'. split; [exact Hs|apply on_reversed; exact Oq].
      * exists (reversed sg). split; [rewrite turned_edges; apply in_map; exact Hs|apply on_reversed; exact Oq].
Qed.
End Loop.
