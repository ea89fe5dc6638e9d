(** Regions traced from non-overlapping edges. *)
From Coq Require Import Permutation.
From Verif Require Import QcTac Geom Spec GeomFacts Relation PairFacts PairProofs LoopThms LinearThms Toward Sweep SpecShape Contour
  ConnectThms Tracing TraceThms ShrinkThms.

Lemma cross_zero_line : forall u v w, u <> v -> cross u v w = 0 -> exists t, w = lerp u v t.
Proof.
  intros u v w N C. unfold cross, lerp in *.
  destruct (Qc_eq_dec (px v) (px u)) as [E|E].
  - assert (D : py v - py u <> 0) by (intro; apply N; apply pt_ext; [symmetry; exact E|qlra]).
    exists ((py w - py u) / (py v - py u)). apply pt_ext; cbn.
    + rewrite E. assert (X : (px w - px u) * (py v - py u) = 0) by (rewrite E in C; qlra).
      assert (px w - px u = 0).
      { destruct (Qcmult_integral _ _ X) as [Z|Z]; [exact Z|contradiction]. }
      qlra.
    + field. exact D.
  - assert (D : px v - px u <> 0) by (intro; apply E; qlra).
    exists ((px w - px u) / (px v - px u)). apply pt_ext; cbn.
    + field. exact D.
    + assert (X : (py w - py u) * (px v - px u) = (px w - px u) * (py v - py u)) by qlra.
      replace (py w) with (py u + (py w - py u) * (px v - px u) / (px v - px u)) by (field; exact D).
      rewrite X. field. exact D.
Qed.
Lemma turn_inside : forall u v w, u <> v -> v <> w -> cross u v w = 0 -> ~ overlap (Seg u v) (Seg v w) ->
  inside_segment v (Seg u w).
Proof.
  intros u v w N1 N2 C O. destruct (cross_zero_line u v w N1 C) as (t & ->).
  destruct (Qc_lt_total t 1) as [L|[->|L]].
  - exfalso. apply O. destruct (Qc_lt_total t 0) as [L0|L0].
    + exists u, v. split; [exact N1|]. split; [apply (on_segment_start (Seg u v))|].
      split; [|split; [apply (on_segment_end (Seg u v))|apply (on_segment_start (Seg v (lerp u v t)))]].
      apply on_segment_sym. pose proof (lerp_on u v t 1 0 ltac:(split; qlra)) as X. rewrite lerp_0, lerp_1 in X. exact X.
    + exists v, (lerp u v t). split; [exact N2|]. split; [apply (on_segment_end (Seg u v))|].
      split; [apply (on_segment_start (Seg v (lerp u v t)))|].
      split; [|apply (on_segment_end (Seg v (lerp u v t)))].
      pose proof (lerp_on u v 0 1 t ltac:(destruct L0; split; qlra)) as X. rewrite lerp_0, lerp_1 in X. exact X.
  - rewrite lerp_1 in N2. contradiction.
  - split; [|split; [cbn; congruence|cbn; exact N2]].
    pose proof (lerp_on u v 0 t 1 ltac:(split; qlra)) as X. rewrite lerp_0, lerp_1 in X. exact X.
Qed.
Lemma overlap_self : forall a b, a <> b -> overlap (Seg a b) (Seg b a).
Proof.
  intros a b N. exists a, b. split; [exact N|].
  split; [apply (on_segment_start (Seg a b))|]. split; [apply (on_segment_end (Seg b a))|].
  split; [apply (on_segment_end (Seg a b))|apply (on_segment_start (Seg b a))].
Qed.

Definition edge_at (vs : list point) (i : nat) : segment := Seg (vertex vs (before (length vs) i)) (vertex vs i).
Lemma contour_edges_nth : forall vs i, (i < length vs)%nat -> nth_error (contour_edges vs) i = Some (edge_at vs i).
Proof.
  intros vs i Hi. unfold contour_edges. rewrite nth_error_map.
  assert (E : nth_error (seq 0 (length vs)) i = Some i).
  { rewrite (nth_error_nth' _ O) by (rewrite seq_length; exact Hi). rewrite seq_nth by exact Hi. reflexivity. }
  rewrite E. reflexivity.
Qed.
Lemma contour_edges_length : forall vs, length (contour_edges vs) = length vs.
Proof. intro vs. unfold contour_edges. rewrite map_length, seq_length. reflexivity. Qed.
Theorem non_overlapping_never_folds : forall vs, vs <> [] -> non_overlapping (contour_edges vs) -> never_folds vs.
Proof.
  intros vs Ne (Pr & Ov).
  assert (P : forall i, (i < length vs)%nat -> proper (edge_at vs i)).
  { intros i Hi. rewrite Forall_forall in Pr. apply Pr. apply nth_error_In with (n := i). apply contour_edges_nth, Hi. }
  assert (O : forall i j, (i < length vs)%nat -> (j < length vs)%nat -> i <> j -> ~ overlap (edge_at vs i) (edge_at vs j)).
  { intros i j Hi Hj N. apply (Ov i j); [exact N| |]; apply contour_edges_nth; assumption. }
  assert (H3 : (3 <= length vs)%nat).
  { destruct vs as [|a [|b [|c vs]]]; [contradiction| | |cbn; lia]; exfalso.
    - apply (P 0%nat); [cbn; lia|reflexivity].
    - apply (O 0 1)%nat; cbn; [lia|lia|lia|]. apply overlap_self. intro E. apply (P 0%nat); cbn; [lia|exact E]. }
  split; [exact H3|]. intros i Hi St. apply turn_inside.
  - apply (P i Hi).
  - intro E. apply (P (after (length vs) i)); [apply after_lt; exact Hi|]. cbn. rewrite before_after by exact Hi. exact E.
  - exact St.
  - intro V. apply (O i (after (length vs) i)); [exact Hi|apply after_lt; exact Hi| |].
    + unfold after. destruct (Nat.eqb_spec (S i) (length vs)); lia.
    + unfold edge_at. rewrite before_after by exact Hi. exact V.
Qed.

(** Edges of events overlap only for an event and its opposite one. *)
Definition planar (evs : list traced) : Prop :=
  (forall i, (i < length evs)%nat -> proper (edge evs i)) /\
  forall i j, (i < length evs)%nat -> (j < length evs)%nat -> i <> j -> j <> opp evs i ->
    ~ overlap (edge evs i) (edge evs j).
Lemma shrink_all_spec : forall ls, Forall never_folds ls ->
  exists cs, shrink_all ls = Ok cs /\ Forall2 (fun l c => straightened l (vertices c) /\ never_folds (vertices c)
    /\ (forall j, (j < length (vertices c))%nat -> ~ straight (vertices c) j)
    /\ forall p, on_segments p (contour_edges (vertices c)) <-> on_segments p (contour_edges l)) ls cs.
Proof.
  intros ls F. induction F as [|l ls F1 F2 IH]; [exists []; split; [reflexivity|constructor]|].
  cbn [shrink_all]. destruct (shrink_corners l F1) as (r & E & Hr). rewrite E.
  destruct IH as (cs & Ec & Hc). rewrite Ec. exists (Contour r :: cs). split; [reflexivity|].
  constructor; [exact Hr|exact Hc].
Qed.
Lemma edge_opp : forall evs i, paired evs -> (i < length evs)%nat -> edge evs (opp evs i) = Seg (s_end (edge evs i)) (s_start (edge evs i)).
Proof.
  intros evs i Hp Hi. destruct (Hp i Hi) as (A & B & C & D). unfold edge. cbn. rewrite <- D. f_equal.
  destruct (Hp (opp evs i) A) as (_ & _ & _ & D'). rewrite D', C. reflexivity.
Qed.
Lemma non_overlapping_ids : forall evs ids, planar evs -> NoDup (ids ++ map (opp evs) ids) ->
  (forall i, In i ids -> (i < length evs)%nat) -> non_overlapping (map (edge evs) ids).
Proof.
  intros evs ids [Pr Pl] N Hi. split.
  - rewrite Forall_forall. intros s Hs. apply in_map_iff in Hs. destruct Hs as (i & <- & I). apply Pr, Hi, I.
  - intros i j x y Nij Ex Ey. rewrite nth_error_map in Ex, Ey.
    destruct (nth_error ids i) as [a|] eqn:Ea; [|discriminate]. destruct (nth_error ids j) as [b|] eqn:Eb; [|discriminate].
    cbn in Ex, Ey. injection Ex as <-. injection Ey as <-.
    pose proof (nth_error_In _ _ Ea) as Ia. pose proof (nth_error_In _ _ Eb) as Ib.
    apply Pl; [apply Hi, Ia|apply Hi, Ib| |].
    + intro E. apply Nij. apply (proj1 (NoDup_nth_error ids)).
      * clear -N. induction ids as [|x l IH]; [constructor|]. cbn in N. inversion N as [|? ? Nx Nl]; subst. constructor.
        { intro X. apply Nx. apply in_or_app. left. exact X. }
        apply IH. apply NoDup_remove_1 in Nl. exact Nl.
      * apply nth_error_Some. congruence.
      * congruence.
    + intro E. assert (X : In b (map (opp evs) ids)) by (apply in_map_iff; exists a; split; [symmetry; exact E|exact Ia]).
      clear -N Ib X. apply in_split in Ib. destruct Ib as (l1 & l2 & E).
      assert (Y : NoDup (l1 ++ b :: l2 ++ map (opp evs) ids)).
      { rewrite E in N at 1. rewrite <- app_assoc in N. exact N. }
      apply NoDup_remove_2 in Y. apply Y. apply in_or_app. right. apply in_or_app. right. exact X.
Qed.
Lemma in_flat_split : forall (A B : Type) (f : A -> list B) l x, In x l ->
  exists l1 l2, flat_map f l = l1 ++ f x ++ l2.
Proof.
  intros A B f l x I. apply in_split in I. destruct I as (l1 & l2 & ->). rewrite flat_map_app. cbn.
  exists (flat_map f l1), (flat_map f l2). reflexivity.
Qed.
Lemma NoDup_sub : forall (A : Type) (a b c : list A), NoDup (a ++ b ++ c) -> NoDup b.
Proof.
  intros A a b c N. induction a as [|x a IH]; [|inversion N; auto].
  cbn in N. induction b as [|y b IH]; [constructor|]. inversion N as [|? ? Ny Nb]; subst. constructor; [|apply IH, Nb].
  intro I. apply Ny. apply in_or_app. left. exact I.
Qed.

(** The edges used by contours. *)
Theorem trace_regions_correct : forall evs, paired evs -> grouped (starts evs) -> planar evs ->
  even_occurrences (starts evs) ->
  exists groups cs, trace_regions evs = Ok cs
    /\ Permutation (concat groups ++ map (opp evs) (concat groups)) (seq 0 (length evs))
    /\ Forall2 (fun ids c => ids <> [] /\ exists vs, Permutation (contour_edges vs) (map (edge evs) ids)
         /\ straightened vs (vertices c) /\ never_folds (vertices c)
         /\ (forall j, (j < length (vertices c))%nat -> ~ straight (vertices c) j)
         /\ forall p, on_segments p (contour_edges (vertices c)) <-> on_segments p (map (edge evs) ids)) groups cs.
Proof.
  intros evs Hp Hg Pl Ev. destruct (connectivity_correct evs) as (c & Ec & _).
  destruct (tracing_correct evs c Hp Hg Ec) as (ts & Et & Pt & _ & Cl). specialize (Cl Ev).
  unfold trace_regions. rewrite Ec, Et.
  assert (Nd : NoDup (flat_map snd ts ++ map (opp evs) (flat_map snd ts))).
  { apply Permutation_NoDup with (l := seq 0 (length evs)); [symmetry; exact Pt|apply seq_NoDup]. }
  assert (Hi : forall i, In i (flat_map snd ts) -> (i < length evs)%nat).
  { intros i I. assert (X : In i (seq 0 (length evs))) by (rewrite <- Pt; apply in_or_app; left; exact I).
    apply in_seq in X. lia. }
  assert (Fd : forall x, In x ts -> never_folds (fst x)).
  { intros x Hx. rewrite Forall_forall in Cl. destruct (Cl x Hx) as ((i & r & Ex & _) & Pe).
    apply non_overlapping_never_folds.
    - intro E. rewrite E in Pe. cbn in Pe. apply Permutation_nil in Pe. rewrite Ex in Pe. discriminate.
    - assert (NO : non_overlapping (map (edge evs) (flat_map snd ts))) by (apply non_overlapping_ids; assumption).
      destruct NO as [A B]. destruct (in_flat_split _ _ snd ts x Hx) as (l1 & l2 & El). rewrite El in A, B.
      rewrite !map_app in A, B. apply Forall_app in A. destruct A as [_ A]. apply Forall_app in A. destruct A as [A _].
      assert (Rs : forall a b : segment, ~ overlap a b -> ~ overlap b a) by (intros a b N K; apply N; apply overlap_sym; exact K).
      split; [rewrite Pe; exact A|]. apply (pairwise_perm _ _ _ _ Rs (Permutation_sym Pe)).
      intros a b y z Nab Ea Eb. apply (B (length (map (edge evs) l1) + a)%nat (length (map (edge evs) l1) + b)%nat); [lia| |].
      + rewrite nth_error_app2 by lia. replace (_ + a - _)%nat with a by lia.
        rewrite nth_error_app1; [exact Ea|]. apply nth_error_Some. congruence.
      + rewrite nth_error_app2 by lia. replace (_ + b - _)%nat with b by lia.
        rewrite nth_error_app1; [exact Eb|]. apply nth_error_Some. congruence. }
  destruct (shrink_all_spec (map fst ts)) as (cs & Es & Fs).
  { rewrite Forall_forall. intros l Hl. apply in_map_iff in Hl. destruct Hl as (x & <- & Hx). apply Fd, Hx. }
  exists (map snd ts), cs. split; [exact Es|]. rewrite <- flat_map_concat_map. split; [exact Pt|].
  clear -Fs Cl Hp. revert cs Fs. induction ts as [|x ts IH]; intros cs Fs; cbn [map] in Fs; inversion Fs as [|? c ? cs' H1 H2]; subst; cbn [map]; constructor.
  - inversion Cl as [|? ? [(i & r & Ex & _) Pe] _]; subst. split; [rewrite Ex; discriminate|].
    exists (fst x). split; [exact Pe|]. destruct H1 as (A & B & C & D). split; [exact A|]. split; [exact B|]. split; [exact C|].
    intro p. rewrite D. unfold on_segments. split; intros (s & Is & Os); exists s; split; try exact Os; [rewrite <- Pe|rewrite Pe]; exact Is.
  - inversion Cl; subst. apply IH; assumption.
Qed.
