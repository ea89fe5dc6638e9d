(** Simple contours stay simple when vertices on straight lines are dropped
    and when they are turned.  Proof support only, no part of /repo is modelled
    here. *)
From Coq Require Import Permutation.
From Verif Require Import QcTac Geom Spec SpecShape GeomFacts Relation PairFacts PairProofs LoopThms LinearThms Toward Sweep SweepLoop Contour ConnectThms Tracing TraceThms ShrinkThms RegionThms OrientThms EvenStraight Shapes Polygons Labelled Filter Mixed Shaped Holey.

Definition meet_ends (s t : segment) : Prop := forall p, on_segment p s -> on_segment p t -> endpoint p s /\ endpoint p t.
Lemma meet_ends_sym : forall s t, meet_ends s t -> meet_ends t s.
Proof. intros s t H p A B. destruct (H p B A). split; assumption. Qed.
Lemma simple_perm : forall vs ws, Permutation vs ws -> Permutation (contour_edges vs) (contour_edges ws) -> simple_contour vs -> simple_contour ws.
Proof.
  intros vs ws P Q (A & B & C). split; [rewrite <- (Permutation_length P); exact A|]. split; [exact (Permutation_NoDup P B)|].
  exact (LinearThms.pairwise_perm _ _ _ _ meet_ends_sym Q C).
Qed.
Lemma simple_rotate : forall a b, simple_contour (a ++ b) -> simple_contour (b ++ a).
Proof. intros a b. apply simple_perm; [apply Permutation_app_comm|apply rotate_edges]. Qed.
Lemma pairwise_cons : forall (A : Type) (R : A -> A -> Prop) x l, (forall a b, R a b -> R b a) ->
  (pairwise R (x :: l) <-> (forall y, In y l -> R x y) /\ pairwise R l).
Proof.
  intros A R x l Sy. split.
  - intro H. split.
    + intros y Hy. apply In_nth_error in Hy. destruct Hy as (j & Hj). apply (H 0%nat (S j)); [discriminate|reflexivity|exact Hj].
    + intros i j y z N Ey Ez. apply (H (S i) (S j)); [congruence|exact Ey|exact Ez].
  - intros (H & K) i j y z N Ey Ez. destruct i as [|i], j as [|j]; cbn in Ey, Ez.
    + congruence.
    + injection Ey as <-. apply H. exact (nth_error_In _ _ Ez).
    + injection Ez as <-. apply Sy, H. exact (nth_error_In _ _ Ey).
    + apply (K i j); [congruence|exact Ey|exact Ez].
Qed.
Lemma links_ends : forall l x s, In s (links x l) -> In (s_start s) (x :: l) /\ In (s_end s) l.
Proof.
  induction l as [|y l IH]; intros x s H; [destruct H|]. cbn [links] in H. destruct H as [<-|H]; [cbn; auto|].
  destruct (IH y s H) as (A & B). split; right; assumption.
Qed.
Lemma simple_folds : forall vs, simple_contour vs -> never_folds vs.
Proof.
  intros vs H. apply non_overlapping_never_folds; [intros ->; destruct H as (H & _); cbn in H; lia|]. exact (simple_non_overlapping vs H).
Qed.
Lemma simple_drop : forall us p ws, simple_contour (us ++ p :: ws) -> straight (us ++ p :: ws) (length us) -> simple_contour (us ++ ws).
Proof.
  intros us p ws H St.
  assert (Hk : (length us < length (us ++ p :: ws))%nat) by (rewrite app_length; cbn; lia).
  pose proof (simple_folds _ H) as F. pose proof (step_folds _ _ F Hk St) as F'. rewrite del_app in F'.
  destruct (straight_around us p ws (proj1 H) St) as (w & m & Em & Z).
  apply (simple_rotate ws us). pose proof (simple_rotate us (p :: ws) H) as Hs. cbn [app] in Hs. rewrite Em in Hs |- *. pose proof Hs as (_ & Nd & Pw).
  split; [|split].
  - rewrite <- Em, app_length, Nat.add_comm, <- app_length. exact (proj1 F').
  - inversion Nd. assumption.
  - rewrite contour_links in Pw |- *. cbn [links] in Pw. rewrite last_cons in Pw.
    apply (pairwise_cons _ _ _ _ meet_ends_sym) in Pw. destruct Pw as (P1 & Pw).
    apply (pairwise_cons _ _ _ _ meet_ends_sym) in Pw. destruct Pw as (P2 & Pw).
    apply (pairwise_cons _ _ _ _ meet_ends_sym). split; [|exact Pw].
    assert (Vl : vertex (p :: w :: m) (before (length (p :: w :: m)) 0) = last m w).
    { cbn [length before]. replace (S (S (length m)) - 1)%nat with (S (length m)) by lia. exact (nth_last m w (Pt 0 0)). }
    assert (On : on_segment p (Seg (last m w) w)).
    { pose proof (proj2 (simple_folds _ Hs) 0%nat ltac:(cbn; lia)) as G. unfold straight in G. rewrite Vl in G. exact (proj1 (G Z)). }
    intros t Ht q Q1 Q2. apply (on_segment_split _ _ _ q On) in Q1.
    destruct (links_ends _ _ _ Ht) as (T1 & T2). inversion Nd as [|? ? Np _].
    assert (Nt : endpoint q t -> q <> p).
    { intros [E|E] ->; apply Np; [rewrite E; exact T1|rewrite E; right; exact T2]. }
    destruct Q1 as [Q1|Q1].
    + destruct (P1 t (or_intror Ht) q Q1 Q2) as ([E|E] & Et); [|contradiction (Nt Et E)]. split; [left; exact E|exact Et].
    + destruct (P2 t Ht q Q1 Q2) as ([E|E] & Et); [contradiction (Nt Et E)|]. split; [right; exact E|exact Et].
Qed.
Theorem straightened_simple : forall vs r, straightened vs r -> simple_contour vs -> simple_contour r.
Proof.
  intros vs r H. induction H as [|us p ws r L St H IH]; intro Hs; [exact Hs|]. apply IH. exact (simple_drop us p ws Hs St).
Qed.

(** ** Turned contours *)
Lemma turned_edges : forall vs, Permutation (contour_edges (Holey.turned vs)) (map reversed (contour_edges vs)).
Proof.
  intros [|v r]; [reflexivity|]. cbn [Holey.turned]. replace (v :: rev r) with (rev (r ++ [v])) by (rewrite rev_app_distr; reflexivity).
  rewrite reverse_edges. apply Permutation_map. exact (rotate_edges r [v]).
Qed.
Lemma turned_points : forall vs, Permutation (Holey.turned vs) vs.
Proof. intros [|v r]; [reflexivity|]. cbn. constructor. symmetry. apply Permutation_rev. Qed.
Lemma turned_simple : forall vs, simple_contour vs -> simple_contour (Holey.turned vs).
Proof.
  intros vs (A & B & C). split; [rewrite (Permutation_length (turned_points vs)); exact A|].
  split; [exact (Permutation_NoDup (Permutation_sym (turned_points vs)) B)|].
  apply (LinearThms.pairwise_perm _ _ _ _ meet_ends_sym (Permutation_sym (turned_edges vs))).
  apply pairwise_map. intros i j s t N Ei Ej p O1 O2. destruct (C i j s t N Ei Ej p) as (X & Y); [apply on_reversed; exact O1|apply on_reversed; exact O2|].
  unfold endpoint, reversed in *. cbn. split; [destruct X|destruct Y]; auto.
Qed.
Lemma turned_vertex : forall vs j, (j < length vs)%nat -> vertex (Holey.turned vs) j = vertex vs (match j with O => O | S _ => length vs - j end).
Proof.
  intros [|v r] j Hj; [cbn in Hj; lia|]. cbn [Holey.turned]. destruct j as [|j]; [reflexivity|]. cbn [length] in *. unfold vertex. cbn [nth].
  rewrite rev_nth by lia. replace (S (length r) - S j)%nat with (S (length r - S j)) by lia. reflexivity.
Qed.
Lemma turned_corners : forall vs, (forall j, (j < length vs)%nat -> ~ straight vs j) -> forall j, (j < length (Holey.turned vs))%nat -> ~ straight (Holey.turned vs) j.
Proof.
  intros vs H j Hj. rewrite (Permutation_length (turned_points vs)) in Hj. intro St. set (k := match j with O => O | S _ => length vs - j end%nat).
  assert (Hk : (k < length vs)%nat) by (unfold k; destruct j; lia). apply (H k Hk). unfold straight in *. rewrite (Permutation_length (turned_points vs)) in St.
  rewrite !turned_vertex in St by (first [exact Hj|apply before_lt; exact Hj|apply after_lt; exact Hj]). fold k in St.
  assert (B : match before (length vs) j with O => O | S _ => length vs - before (length vs) j end%nat = after (length vs) k).
  { unfold k, before, after. destruct j as [|j]; [|destruct j as [|j]];
    repeat match goal with |- context [Nat.eqb ?a ?b] => destruct (Nat.eqb_spec a b) | |- context [match ?x with O => _ | S _ => _ end] => destruct x eqn:? end; lia. }
  assert (A : match after (length vs) j with O => O | S _ => length vs - after (length vs) j end%nat = before (length vs) k).
  { unfold k, before, after. destruct j as [|j];
    repeat match goal with |- context [Nat.eqb ?a ?b] => destruct (Nat.eqb_spec a b) | |- context [match ?x with O => _ | S _ => _ end] => destruct x eqn:? end; lia. }
  rewrite A, B in St. transitivity (- cross (vertex vs (after (length vs) k)) (vertex vs k) (vertex vs (before (length vs) k))); [unfold cross; ring|rewrite St; ring].
Qed.
