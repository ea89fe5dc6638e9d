(** Checking simplicity of given contours.  Proof support only, no part of
    /repo is modelled here. *)
From Verif Require Import QcTac Geom Spec SpecShape GeomFacts Pair Relation PairFacts PairProofs PairThms Bounding BoundingThms Examples.

Definition share_end (s t : segment) : bool :=
  pt_eqb (s_start s) (s_start t) || pt_eqb (s_start s) (s_end t) || pt_eqb (s_end s) (s_start t) || pt_eqb (s_end s) (s_end t).
Definition meet_simply (s t : segment) : bool :=
  match segments_relation s t with DISJOINT => true | TOUCH => share_end s t | _ => false end.
Fixpoint all_simply (l : list segment) : bool :=
  match l with [] => true | s :: r => ends_apart s && forallb (meet_simply s) r && all_simply r end.
Lemma share_end_spec : forall s t, share_end s t = true -> exists v, endpoint v s /\ endpoint v t.
Proof.
  intros s t H. unfold share_end in H. rewrite !Bool.orb_true_iff in H. unfold endpoint.
  destruct H as [[[H|H]|H]|H]; apply pt_eqb_eq in H; [exists (s_start s)|exists (s_start s)|exists (s_end s)|exists (s_end s)]; auto.
Qed.
Lemma endpoint_on : forall v s, endpoint v s -> on_segment v s.
Proof. intros v s [->| ->]; [apply on_segment_start|apply on_segment_end]. Qed.
Lemma meet_simply_spec : forall s t, proper s -> proper t -> meet_simply s t = true ->
  forall p, on_segment p s -> on_segment p t -> endpoint p s /\ endpoint p t.
Proof.
  intros s t Ps Pt H p Os Ot. unfold meet_simply in H. destruct (segments_relation s t) eqn:R; try discriminate H.
  - exfalso. pose proof (proj1 (edge_relation_disjoint s t Pt) R) as D. exact (D p (conj Os Ot)).
  - apply share_end_spec in H. destruct H as (v & V1 & V2). destruct (pt_eqb_spec p v) as [->|N]; [auto|exfalso].
    apply (apart_by_relation s t Ps Pt); [rewrite R; reflexivity|]. exists p, v. repeat split; try assumption; [exact (endpoint_on v s V1)|exact (endpoint_on v t V2)].
Qed.
Fixpoint distinct (l : list point) : bool := match l with [] => true | p :: l => negb (existsb (pt_eqb p) l) && distinct l end.
Lemma distinct_nodup : forall l, distinct l = true -> NoDup l.
Proof.
  induction l as [|p l IH]; intro H; [constructor|]. cbn in H. apply andb_true_iff in H. destruct H as (A & B). constructor; [|exact (IH B)].
  intro K. apply Bool.negb_true_iff in A. assert (E : existsb (pt_eqb p) l = true) by (apply existsb_exists; exists p; split; [exact K|apply pt_eqb_eq; reflexivity]). congruence.
Qed.
Definition simple_check (vs : list point) : bool := (3 <=? length vs)%nat && distinct vs && all_simply (contour_edges vs).
Lemma simple_by_check : forall vs, simple_check vs = true -> simple_contour vs.
Proof.
  intros vs H. unfold simple_check in H. apply andb_true_iff in H. destruct H as (H & C). apply andb_true_iff in H. destruct H as (A & B).
  split; [apply Nat.leb_le, A|]. split; [exact (distinct_nodup _ B)|].
  revert C. generalize (contour_edges vs). intro l.
  assert (G : all_simply l = true -> Forall proper l /\ pairwise (fun s t => forall p, on_segment p s -> on_segment p t -> endpoint p s /\ endpoint p t) l).
  { induction l as [|s r IH]; intro H; [split; [constructor|intros [|i] [|j] a b _ K; discriminate K]|].
    cbn in H. apply andb_true_iff in H. destruct H as (H & H2). apply andb_true_iff in H. destruct H as (H0 & H1).
    apply ends_apart_proper in H0. destruct (IH H2) as (P & Q). split; [constructor; assumption|]. rewrite forallb_forall in H1. rewrite Forall_forall in P.
    assert (M : forall t, In t r -> forall p, on_segment p s -> on_segment p t -> endpoint p s /\ endpoint p t) by (intros t Ht; apply meet_simply_spec; [exact H0|exact (P t Ht)|exact (H1 t Ht)]).
    intros [|i] [|j] a b N Ha Hb; cbn in Ha, Hb.
    - congruence.
    - injection Ha as <-. apply M. exact (nth_error_In _ _ Hb).
    - injection Hb as <-. intros p O1 O2. destruct (M a (nth_error_In _ _ Ha) p O2 O1). auto.
    - apply (Q i j); [congruence|exact Ha|exact Hb]. }
  intro C. exact (proj2 (G C)).
Qed.
