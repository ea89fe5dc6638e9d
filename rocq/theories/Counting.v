(** Parities of the numbers of pieces of an operand under pieces of a sweep
    line, when a left event has been added to it: they are determined by the
    neighbour below.  Proof support only, no part of /repo is modelled here. *)
From Coq Require Import Permutation.
From Verif Require Import QcTac Geom GeomFacts SweepGeo SweepInv SweepSteps Parity.

Lemma status : forall v i, queues v -> (i < vn v)%nat -> future v i \/ active v i \/ done v i.
Proof.
  intros v i Hq Hi.
  assert (D : forall x y : bool * nat, {x = y} + {x <> y}) by (decide equality; [apply Nat.eq_dec|apply Bool.bool_dec]).
  destruct (in_dec D (true, i) (vq v)) as [F|F]; [left; exact F|]. right.
  destruct (in_dec D (false, i) (vq v)) as [K|K].
  - left. apply (q_act v Hq). split; [exact K|exact F].
  - right. apply (q_done v Hq). split; [exact Hi|exact K].
Qed.

Section Added.
Variables (V : Qc -> Qc) (Ts : list Qc) (T : Qc) (v v1 : view) (i : nat) (l1 l2 : list nat).
Hypothesis Hb : base V Ts T v.
Hypothesis Hset : settled never v.
Hypothesis Hpass : passing V T v.
Hypothesis Li : lo (vp v i) = T.
Hypothesis Hhi : forall j, active v j -> T < hi (vp v j).
Hypothesis Hmin : forall k, future v k -> lo (vp v k) = T -> sl (vp v i) <= sl (vp v k).
Hypothesis Hpop : popped_left v i l1 l2 v1.

Let Hq : queues v := b_q V Ts T v Hb.
Let Hg : geo V Ts v := b_geo V Ts T v Hb.

(** A second operand's piece with a collinear piece of the first one starting
    at the same point and not added yet. *)
Definition awaiting (w : view) (x : nat) : Prop :=
  op (vp w x) = false /\ exists k, future w k /\ op (vp w k) = true /\ lo (vp w k) = lo (vp w x) /\ coll (vp w k) (vp w x).

Lemma added_base : base V Ts T v1.
Proof. exact (proj1 (popL_base V Ts T v i l1 l2 v1 Hb Hset Li Hhi Hpop)). Qed.
Lemma added_view : vn v1 = vn v /\ vp v1 = vp v /\ vs v1 = l1 ++ i :: l2 /\ vo v1 = vo v /\ vs v = l1 ++ l2 /\ future v i.
Proof.
  destruct Hpop as (q & HP & Es & _ & _ & ->). cbn. repeat split; [exact Es|]. unfold future. rewrite HP. left. reflexivity.
Qed.
Lemma added_active : forall j, active v1 j <-> j = i \/ active v j.
Proof.
  intro j. destruct added_view as (_ & _ & E1 & _ & E2 & _). unfold active. rewrite E1, E2, !in_app_iff. cbn. split.
  - intros [H|[H|H]]; [right; left; exact H|left; symmetry; exact H|right; right; exact H].
  - intros [->|[H|H]]; [right; left; reflexivity|left; exact H|right; right; exact H].
Qed.
Lemma added_future : forall j, future v1 j <-> future v j /\ j <> i.
Proof.
  intro j. destruct Hpop as (q & HP & _ & _ & _ & ->). unfold future. cbn.
  pose proof (q_nodup v Hq) as N. rewrite HP in N. apply NoDup_cons_iff in N. destruct N as (N & _). split.
  - intro H. split; [rewrite HP; right; exact H|]. intros ->. exact (N H).
  - intros (H & Hn). rewrite HP in H. destruct H as [H|H]; [injection H as H; congruence|exact H].
Qed.
Lemma added_hi : forall j, active v1 j -> T < hi (vp v j).
Proof.
  intros j H. apply added_active in H. destruct H as [->|H]; [|exact (Hhi j H)].
  rewrite <- Li. apply (g_len V Ts v Hg). apply (future_lt v i Hq). apply added_view.
Qed.
Lemma added_lt : forall j, active v1 j -> (j < vn v)%nat.
Proof. intros j H. rewrite <- (proj1 added_view). exact (active_lt v1 j (b_q V Ts T v1 added_base) H). Qed.
Lemma added_has : forall j, active v1 j -> lo (vp v j) <= T.
Proof. intros j H. destruct added_view as (_ & E & _). rewrite <- E. apply (b_act V Ts T v1 added_base j H). Qed.
Lemma added_ord : ForallOrdPairs (fun a b => below (vp v a) (vp v b)) (vs v1).
Proof. destruct added_view as (_ & E & _). pose proof (b_ord V Ts T v1 added_base) as H. rewrite E in H. exact H. Qed.
Lemma added_srt : ForallOrdPairs (fun a b => ht (vp v a) T <= ht (vp v b) T) (vs v1).
Proof. destruct added_view as (_ & E & _). pose proof (b_srt V Ts T v1 added_base) as H. rewrite E in H. exact H. Qed.
Lemma start_V : forall j, (j < vn v)%nat -> lo (vp v j) = T -> ht (vp v j) T = V T.
Proof. intros j H <-. apply (g_lo V Ts v Hg j H). Qed.
(** [below] of pieces on the sweep line, one of which starts here. *)
Lemma below_here : forall a b, active v1 a -> active v1 b -> lo (vp v a) = T \/ lo (vp v b) = T -> below (vp v a) (vp v b) ->
  ht (vp v a) T < ht (vp v b) T
  \/ (ht (vp v a) T = ht (vp v b) T
      /\ (sl (vp v a) < sl (vp v b) \/ (sl (vp v a) = sl (vp v b) /\ op (vp v a) = true /\ op (vp v b) = false))).
Proof.
  intros a b Ha Hb' H J. unfold below in J. assert (E : Qc_max (lo (vp v a)) (lo (vp v b)) = T); [|rewrite E in J; exact J].
  pose proof (added_has a Ha). pose proof (added_has b Hb'). destruct (Qc_max_cases (lo (vp v a)) (lo (vp v b))) as [(-> & K)|(-> & K)]; destruct H as [H|H]; qlra.
Qed.
(** Two pieces through here: pieces meeting on the sweep line are twins. *)
Lemma through_here : forall a b, active v1 a -> active v1 b -> a <> b -> lo (vp v a) < T -> b <> i ->
  ht (vp v a) T = ht (vp v b) T -> twin (vp v a) (vp v b).
Proof.
  intros a b Ha Hb' Hn La Nb E.
  assert (Aa : active v a) by (apply added_active in Ha; destruct Ha as [->|Ha]; [exfalso; qlra|exact Ha]).
  assert (Ab : active v b) by (apply added_active in Hb'; destruct Hb' as [->|Hb']; [contradiction|exact Hb']).
  destruct (chain V Ts T v T a b Hb Hset (b_act V Ts T v Hb) (b_srt V Ts T v Hb) Aa Ab Hn E) as [(K & _)|(z & k & Az & _ & Hz & _)].
  - split; [exact La|exact (Hhi a Aa)].
  - exact K.
  - exfalso. pose proof (Hhi z Az). qlra.
Qed.
Lemma same_operand : forall a b, active v1 a -> active v1 b -> a <> b -> op (vp v a) = op (vp v b) -> ~ coll (vp v a) (vp v b).
Proof.
  intros a b Ha Hb' Hn Ho Hc. pose proof (added_has a Ha). pose proof (added_has b Hb'). pose proof (added_hi a Ha). pose proof (added_hi b Hb').
  destruct (g_over V Ts v Hg a b (added_lt a Ha) (added_lt b Hb') Hn Ho Hc); qlra.
Qed.

(** Only pieces of the sweep line matter. *)
Lemma cnt_line : forall b' c z, (forall k, future v1 k -> lo (vp v k) = T -> op (vp v k) = b' -> germ c (vp v k) z T = false) ->
  cnt v b' c z T = parity (fun j => Bool.eqb (op (vp v j)) b' && germ c (vp v j) z T) (vs v1).
Proof.
  intros b' c z H. unfold cnt. symmetry.
  rewrite (parity_ext (fun j => Bool.eqb (op (vp v j)) b' && germ c (vp v j) z T) (fun j => Bool.eqb (op (vp v j)) b' && undermost c z T (vp v j)) (vs v1)).
  - apply parity_incl.
    + exact (q_vs v1 (b_q V Ts T v1 added_base)).
    + apply seq_NoDup.
    + intros j Hj. apply in_seq. pose proof (added_lt j Hj). lia.
    + intros j Hj Nj. apply in_seq in Hj. unfold undermost.
      destruct (Bool.eqb (op (vp v j)) b') eqn:Eo; [|reflexivity]. apply Bool.eqb_prop in Eo. cbn [andb].
      destruct added_view as (En & Ep & _).
      destruct (status v1 j (b_q V Ts T v1 added_base)) as [F|[A|D]]; [lia| |contradiction|].
      * destruct (covers (vp v j) T) eqn:Ec; [|reflexivity]. apply covers_spec in Ec. cbn [andb]. apply H; [exact F| |exact Eo].
        pose proof (b_fut V Ts T v1 added_base j F) as K. rewrite Ep in K. qlra.
      * pose proof (b_done V Ts T v1 added_base j D) as K. rewrite Ep in K. rewrite covers_not; [reflexivity|right; exact K].
  - intros j Hj. unfold undermost. rewrite (covers_yes (vp v j) T (added_has j Hj) (added_hi j Hj)). reflexivity.
Qed.

Section Piece.
Variables (x : nat) (m1 m2 : list nat).
Hypothesis Ex : vs v1 = m1 ++ x :: m2.
Hypothesis Lx : lo (vp v x) = T.
Hypothesis Sx : sl (vp v x) <= sl (vp v i).
Notation b := (negb (op (vp v x))).

Let Ax : active v1 x.
Proof. unfold active. rewrite Ex. apply in_or_app. right. left. reflexivity. Qed.
Let Am1 : forall j, In j m1 -> active v1 j.
Proof. intros j H. unfold active. rewrite Ex. apply in_or_app. left. exact H. Qed.
Let Am2 : forall j, In j m2 -> active v1 j.
Proof. intros j H. unfold active. rewrite Ex. apply in_or_app. right. right. exact H. Qed.

(** Parity at the start of a piece is that of the number of pieces below it on the sweep line. *)
Lemma cnt_start : ~ awaiting v1 x ->
  cnt v b b (vp v x) T = parity (fun j => Bool.eqb (op (vp v j)) b) m1.
Proof.
  intro Nx. destruct added_view as (En & Ep & _). rewrite cnt_line.
  - rewrite Ex, parity_app. cbn [parity]. rewrite Bool.eqb_negb2. cbn [andb]. rewrite xorb_false_l.
    rewrite (parity_none _ m2).
    + rewrite xorb_false_r. apply parity_ext. intros j Hj.
      destruct (Bool.eqb (op (vp v j)) b) eqn:Eo; [|reflexivity]. apply Bool.eqb_prop in Eo. cbn [andb]. apply germ_spec.
      assert (Hjx : below (vp v j) (vp v x)) by (pose proof added_ord as O; rewrite Ex in O; exact (FOP_prev _ _ _ _ _ _ O Hj)).
      destruct (below_here j x (Am1 j Hj) Ax (or_intror Lx) Hjx) as [K|(K & [K'|(K' & K1 & K2)])]; [left; exact K|right; split; [exact K|left; exact K']|].
      right. split; [exact K|right]. split; [rewrite K2; reflexivity|exact K'].
    + intros j Hj. destruct (Bool.eqb (op (vp v j)) b) eqn:Eo; [|reflexivity]. apply Bool.eqb_prop in Eo. cbn [andb].
      destruct (germ b (vp v j) (vp v x) T) eqn:Eg; [|reflexivity]. exfalso. apply germ_spec in Eg.
      assert (Hxj : below (vp v x) (vp v j)) by (pose proof added_ord as O; rewrite Ex in O; exact (FOP_next _ _ _ _ _ _ O Hj)).
      destruct (below_here x j Ax (Am2 j Hj) (or_introl Lx) Hxj) as [K|(K & [K'|(K' & K1 & K2)])], Eg as [G|(G & [G'|(G1 & G2)])]; try qlra.
      rewrite K1 in G1. discriminate G1.
  - intros k Fk Lk Ok. destruct (germ b (vp v k) (vp v x) T) eqn:Eg; [|reflexivity]. exfalso. apply germ_spec in Eg.
    pose proof (proj1 (added_future k) Fk) as (Fk' & _). pose proof (Hmin k Fk' Lk) as Sk.
    pose proof (start_V k (future_lt v k Hq Fk') Lk) as E1. pose proof (start_V x (added_lt x Ax) Lx) as E2.
    destruct Eg as [G|(G & [G'|(G1 & G2)])]; [qlra|qlra|]. apply Nx. unfold awaiting. rewrite Ep.
    split; [destruct (op (vp v x)); [discriminate G1|reflexivity]|]. exists k. split; [exact Fk|]. split; [rewrite Ok; exact G1|].
    split; [congruence|]. apply (ht_slopes _ _ T); [congruence|exact G2].
Qed.
End Piece.

(** [z] is the neighbour of [x] below. *)
Section Below.
Variables (x z : nat) (m1 m2 : list nat).
Hypothesis Ex : vs v1 = m1 ++ z :: x :: m2.
Hypothesis Lx : lo (vp v x) = T.
Hypothesis Sx : sl (vp v x) <= sl (vp v i).
Notation b := (negb (op (vp v x))).

Let Ex' : vs v1 = (m1 ++ [z]) ++ x :: m2.
Proof. rewrite Ex, <- app_assoc. reflexivity. Qed.
Let Ax : active v1 x.
Proof. unfold active. rewrite Ex. apply in_or_app. right. right. left. reflexivity. Qed.
Let Az : active v1 z.
Proof. unfold active. rewrite Ex. apply in_or_app. right. left. reflexivity. Qed.
Let Am1 : forall j, In j m1 -> active v1 j.
Proof. intros j H. unfold active. rewrite Ex. apply in_or_app. left. exact H. Qed.
Let Am2 : forall j, In j m2 -> active v1 j.
Proof. intros j H. unfold active. rewrite Ex. apply in_or_app. right. right. right. exact H. Qed.
Let Nzx : z <> x.
Proof.
  intros ->. pose proof (q_vs v1 (b_q V Ts T v1 added_base)) as N. rewrite Ex in N. apply NoDup_remove_2 in N. apply N.
  apply in_or_app. right. left. reflexivity.
Qed.
Let Bzx : below (vp v z) (vp v x).
Proof. pose proof added_ord as O. rewrite Ex' in O. apply (FOP_prev _ _ _ _ _ _ O). apply in_or_app. right. left. reflexivity. Qed.

Lemma z_under : ht (vp v z) T <= V T /\ (ht (vp v z) T = V T -> sl (vp v z) <= sl (vp v x) /\ (sl (vp v z) = sl (vp v x) -> coll (vp v z) (vp v x))).
Proof.
  pose proof (start_V x (added_lt x Ax) Lx) as E. destruct (below_here z x Az Ax (or_intror Lx) Bzx) as [K|(K & K')].
  - split; [qlra|]. intro J. qlra.
  - split; [qlra|]. intros _. split; [destruct K' as [K'|(K' & _)]; qlra|]. intro J. apply (ht_slopes _ _ T K J).
Qed.

(** The two ways of counting for [z]. *)
Definition counting (c : bool) : Prop := (c = false /\ op (vp v z) = b) \/ (c = b /\ op (vp v z) = op (vp v x)).

Lemma z_collinear : forall c, counting c -> c = true -> ~ coll (vp v z) (vp v x).
Proof.
  intros c H Hc. destruct H as [(H & _)|(_ & H)]; [congruence|]. exact (same_operand z x Az Ax Nzx H).
Qed.

Lemma cnt_below : forall c, counting c -> cnt v b c (vp v z) T = parity (fun j => Bool.eqb (op (vp v j)) b) m1.
Proof.
  intros c Hc. destruct z_under as (U1 & U2). rewrite cnt_line.
  - rewrite Ex, parity_app. cbn [parity].
    rewrite (parity_ext _ (fun j => Bool.eqb (op (vp v j)) b) m1), (parity_none _ m2).
    + assert (Ez : Bool.eqb (op (vp v z)) b && germ c (vp v z) (vp v z) T = false).
      { destruct Hc as [(-> & _)|(_ & ->)]; [|rewrite Bool.eqb_negb2; reflexivity]. 
        unfold germ. rewrite (ltb_false (ht _ _)) by apply Qcle_refl. rewrite (ltb_false (sl _)) by apply Qcle_refl. cbn. rewrite Bool.andb_false_r. apply Bool.andb_false_r. }
      rewrite Ez, Bool.eqb_negb2. cbn. apply xorb_false_r.
    + intros j Hj. destruct (Bool.eqb (op (vp v j)) b) eqn:Eo; [|reflexivity]. apply Bool.eqb_prop in Eo. cbn [andb].
      destruct (germ c (vp v j) (vp v z) T) eqn:Eg; [|reflexivity]. exfalso. apply germ_spec in Eg.
      assert (Hxj : below (vp v x) (vp v j)) by (pose proof added_ord as O; rewrite Ex' in O; exact (FOP_next _ _ _ _ _ _ O Hj)).
      pose proof (start_V x (added_lt x Ax) Lx) as E.
      destruct (below_here x j Ax (Am2 j Hj) (or_introl Lx) Hxj) as [K|(K & K')].
      { destruct Eg as [G|(G & _)]; qlra. }
      assert (K2 : sl (vp v x) <= sl (vp v j)) by (destruct K' as [K'|(K' & _)]; qlra).
      destruct Eg as [G|(G & G')]; [qlra|]. destruct U2 as (U2 & U3); [qlra|].
      destruct G' as [G'|(G1 & G2)]; [qlra|]. apply (z_collinear c Hc G1). apply U3. qlra.
    + intros j Hj. destruct (Bool.eqb (op (vp v j)) b) eqn:Eo; [|reflexivity]. apply Bool.eqb_prop in Eo. cbn [andb]. apply germ_spec.
      assert (Hjz : below (vp v j) (vp v z)) by (pose proof added_ord as O; rewrite Ex in O; exact (FOP_prev _ _ _ _ _ _ O Hj)).
      assert (Njz : j <> z).
      { intros ->. exact (below_irrefl _ Hjz). }
      assert (K : lo (vp v j) = T \/ lo (vp v z) = T \/ (lo (vp v j) < T /\ lo (vp v z) < T)).
      { pose proof (added_has j (Am1 j Hj)) as K1. pose proof (added_has z Az) as K2.
        destruct (Qcle_lt_or_eq _ _ K1) as [K1'|K1']; [|left; exact K1']. destruct (Qcle_lt_or_eq _ _ K2) as [K2'|K2']; [|right; left; exact K2'].
        right. right. split; assumption. }
      assert (Hcase : lo (vp v j) = T \/ lo (vp v z) = T -> 
        ht (vp v j) T < ht (vp v z) T \/ (ht (vp v j) T = ht (vp v z) T /\ (sl (vp v j) < sl (vp v z) \/ (c = true /\ sl (vp v j) = sl (vp v z))))).
      { intro L. destruct (below_here j z (Am1 j Hj) Az L Hjz) as [J|(J & [J'|(J' & J1 & J2)])]; [left; exact J|right; split; [exact J|left; exact J']|].
        right. split; [exact J|right]. split; [|exact J']. destruct Hc as [(_ & Hc)|(-> & Hc)]; congruence. }
      destruct K as [K|[K|(K1 & K2)]]; [apply Hcase; left; exact K|apply Hcase; right; exact K|].
      assert (Hle : ht (vp v j) T <= ht (vp v z) T) by (pose proof added_srt as O; rewrite Ex in O; exact (FOP_prev _ _ _ _ _ _ O Hj)).
      destruct (Qcle_lt_or_eq _ _ Hle) as [H|H]; [left; exact H|]. right. split; [exact H|right].
      assert (Nz : z <> i) by (intros ->; qlra).
      pose proof (through_here j z (Am1 j Hj) Az Njz K1 Nz H) as (C & Lz & Op).
      split; [|exact (proj1 C)]. destruct Hc as [(_ & Hc)|(-> & Hc)]; [congruence|].
      unfold below in Hjz. rewrite (coll_ht _ _ _ C) in Hjz. destruct Hjz as [J|(_ & [J|(_ & J & _)])]; [exfalso; qlra|exfalso; destruct C as (C & _); qlra|congruence].
  - intros k Fk Lk Ok. destruct (germ c (vp v k) (vp v z) T) eqn:Eg; [|reflexivity]. exfalso. apply germ_spec in Eg.
    pose proof (proj1 (added_future k) Fk) as (Fk' & _). pose proof (Hmin k Fk' Lk) as Sk.
    pose proof (start_V k (future_lt v k Hq Fk') Lk) as E1.
    destruct Eg as [G|(G & G')]; [qlra|]. destruct U2 as (U2 & U3); [qlra|].
    destruct G' as [G'|(G1 & G2)]; [qlra|]. apply (z_collinear c Hc G1). apply U3. qlra.
Qed.

(** The neighbour belongs to the other operand. *)
Lemma neighbour_other : op (vp v z) = b -> ~ awaiting v1 x -> cnt v b b (vp v x) T = negb (cnt v b false (vp v z) T).
Proof.
  intros Ho Nx. rewrite (cnt_start x (m1 ++ [z]) m2 Ex' Lx Sx Nx). rewrite (cnt_below false (or_introl (conj eq_refl Ho))).
  rewrite parity_app. cbn. rewrite Ho, Bool.eqb_reflx. rewrite xorb_false_r, xorb_true_r. reflexivity.
Qed.

(** The neighbour belongs to the same operand. *)
Lemma no_continuation : op (vp v z) = op (vp v x) -> ht (vp v z) T = V T -> forall k, lo (vp v k) = T -> future v k -> sl (vp v k) = sl (vp v z) -> False.
Proof.
  intros Ho E k Lk Fk Sk. destruct z_under as (_ & U). destruct (U E) as (U1 & U2). pose proof (Hmin k Fk Lk).
  apply (same_operand z x Az Ax Nzx Ho). apply U2. qlra.
Qed.
Lemma neighbour_same : op (vp v z) = op (vp v x) -> ~ awaiting v1 x -> (forall t, ends v b t = false) ->
  cnt v b b (vp v x) T = cnt v b b (vp v z) (lo (vp v z)) /\ ~ awaiting v1 z.
Proof.
  intros Ho Nx He. destruct added_view as (En & Ep & _). split.
  - rewrite (cnt_start x (m1 ++ [z]) m2 Ex' Lx Sx Nx). rewrite parity_app. cbn. rewrite Ho, Bool.eqb_negb2. cbn. rewrite xorb_false_r.
    rewrite <- (cnt_below b (or_intror (conj eq_refl Ho))).
    apply (cnt_along V v b b (vp v z) (lo (vp v z)) T (added_has z Az) He).
    intros j Hj Oj. pose proof (added_hi z Az) as Hz. destruct z_under as (_ & U2).
    split; [exact (g_len V Ts v Hg j Hj)|]. split; [exact (proj1 (g_lo V Ts v Hg j Hj))|]. split; [exact (proj1 (g_hi V Ts v Hg j Hj))|].
    intros t Ht1 Ht2 Hh Eh. assert (Lz : lo (vp v z) < T) by qlra.
    assert (Azv : active v z).
    { pose proof (proj1 (added_active z) Az) as [->|K]; [exfalso; qlra|exact K]. }
    assert (Njz : j <> z) by (intros ->; rewrite Ho in Oj; destruct (op (vp v x)); discriminate Oj).
    assert (Pass : done v j -> hi (vp v j) = T -> ht (vp v z) T = V T -> False).
    { intros D Hj' E. destruct (Hpass z j Azv) as (k & Fk & Lk & Ck); [split; [exact Lz|exact (Hhi z Azv)]|exact E|exact D|exact Hj'|].
      apply (no_continuation Ho E k Lk Fk). apply Ck. }
    destruct (Qcle_lt_or_eq _ _ Ht2) as [Lt|Lt].
    + (* in the past *)
      assert (Sj : seen v j).
      { destruct (status v j Hq Hj) as [F|[A|D]]; [|left; exact A|right; exact D]. exfalso. pose proof (b_fut V Ts T v Hb j F). destruct Hh. qlra. }
      assert (Hhz : has (vp v z) t) by (split; qlra).
      destruct (b_past V Ts T v Hb j z t Njz Sj (or_introl Azv) Lt Hh Hhz Eh) as [(_ & [K|K])|((C & Lo & _) & K)]; [qlra|qlra|].
      right. split; [exact C|]. split; [qlra|].
      destruct K as [K|(K & _)]; [qlra|]. destruct (Qcle_lt_or_eq _ _ K) as [K'|K']; [exact K'|]. exfalso.
      destruct Sj as [A|D]; [pose proof (Hhi j A); qlra|]. apply (Pass D (eq_sym K')).
      rewrite <- (coll_ht _ _ T C). rewrite K'. apply (g_hi V Ts v Hg j Hj).
    + subst t. destruct (status v1 j (b_q V Ts T v1 added_base)) as [F|[A|D]]; [rewrite En; exact Hj| | |].
      * pose proof (proj1 (added_future j) F) as (F' & _). pose proof (b_fut V Ts T v Hb j F') as K. assert (Lj : lo (vp v j) = T) by (destruct Hh; qlra).
        pose proof (start_V j Hj Lj) as E1. left. split; [exact Lj|]. pose proof (Hmin j F' Lj) as Sj.
        destruct U2 as (U2 & _); [congruence|]. assert (K' : sl (vp v z) <= sl (vp v j)) by qlra.
        destruct (Qcle_lt_or_eq _ _ K') as [K2|K2]; [exact K2|]. exfalso. apply (no_continuation Ho (eq_trans (eq_sym Eh) E1) j Lj F' (eq_sym K2)).
      * apply added_active in A. destruct A as [->|A].
        -- left. split; [exact Li|]. pose proof (start_V i Hj Li) as E1. destruct U2 as (U2 & U3); [congruence|].
           assert (K' : sl (vp v z) <= sl (vp v i)) by qlra. destruct (Qcle_lt_or_eq _ _ K') as [K2|K2]; [exact K2|]. exfalso.
           apply (same_operand z x Az Ax Nzx Ho). apply U3. qlra.
        -- assert (Nj : j <> i) by (intros ->; exact (active_not_future v i Hq A (proj2 (proj2 (proj2 (proj2 (proj2 added_view))))))).
           destruct (through_here z j Az (proj2 (added_active j) (or_intror A)) (not_eq_sym Njz) Lz Nj (eq_sym Eh)) as (C & Lo & _).
           right. split; [apply coll_sym; exact C|]. split; [qlra|exact (Hhi j A)].
      * exfalso. destruct added_view as (_ & _ & _ & Eo & _). unfold done in D. rewrite Eo in D.
        pose proof (b_done V Ts T v Hb j D) as K. assert (Hj' : hi (vp v j) = T) by (destruct Hh; qlra).
        apply (Pass D Hj'). rewrite <- Eh. rewrite <- Hj'. apply (g_hi V Ts v Hg j Hj).
  - intros (Oz & k & Fk & Ok & Lk & Ck). rewrite Ep in *.
    pose proof (proj1 (added_future k) Fk) as (Fk' & _). pose proof (b_fut V Ts T v Hb k Fk') as K1. pose proof (added_has z Az) as K2.
    assert (Lk' : lo (vp v k) = T) by qlra. assert (Lz : lo (vp v z) = T) by qlra.
    apply (no_continuation Ho (start_V z (added_lt z Az) Lz) k Lk' Fk'). apply Ck.
Qed.
End Below.

(** A piece awaiting [i] is its neighbour above. *)
Lemma awaited : forall x, active v x -> awaiting v x -> ~ awaiting v1 x -> exists m2, l2 = x :: m2 /\ twin (vp v i) (vp v x).
Proof.
  intros x Ax (Ox & k & Fk & Ok & Lk & Ck) Nx. destruct added_view as (_ & Ep & Ev & _ & Ev' & Fi).
  assert (k = i).
  { destruct (Nat.eq_dec k i) as [E|E]; [exact E|]. exfalso. apply Nx. unfold awaiting. rewrite Ep. split; [exact Ox|]. exists k.
    split; [apply added_future; split; [exact Fk|exact E]|]. repeat split; try assumption; apply Ck. }
  subst k. assert (Tw : twin (vp v i) (vp v x)) by (split; [exact Ck|split; [exact Lk|rewrite Ok, Ox; discriminate]]).
  assert (Bx : below (vp v i) (vp v x)).
  { unfold below. right. rewrite (coll_ht _ _ _ Ck). split; [reflexivity|]. right. split; [apply Ck|split; assumption]. }
  pose proof Hpop as (q & _ & _ & Hl1 & Hl2 & _).
  assert (Ix : In x l2).
  { unfold active in Ax. rewrite Ev' in Ax. apply in_app_iff in Ax. destruct Ax as [Ax'|Ax']; [|exact Ax'].
    exfalso. exact (below_asym _ _ Bx (Hl1 x Ax')). }
  pose proof added_ord as O2. rewrite Ev in O2.
  destruct l2 as [|w m2]; [destruct Ix|]. destruct (Nat.eq_dec w x) as [->|N]; [exists m2; split; [reflexivity|exact Tw]|]. exfalso.
  destruct Ix as [Ix|Ix]; [contradiction|].
  apply (between_twins (vp v i) (vp v x) (vp v w) Tw); [apply Hl2; left; reflexivity|].
  assert (O' : ForallOrdPairs (fun a b => below (vp v a) (vp v b)) ((l1 ++ [i]) ++ w :: m2)).
  { rewrite <- app_assoc. exact O2. }
  exact (FOP_next _ _ _ _ _ _ O' Ix).
Qed.
(** A twin on the sweep line is a neighbour. *)
Lemma twin_neighbour : forall x, active v x -> twin (vp v i) (vp v x) ->
  (exists m2, l2 = x :: m2) \/ (exists m1, l1 = m1 ++ [x]).
Proof.
  intros x Ax Tw. destruct added_view as (_ & _ & Ev & _ & Ev' & Fi). pose proof added_ord as O. rewrite Ev in O.
  pose proof Hpop as (q & _ & _ & Hl1 & Hl2 & _).
  unfold active in Ax. rewrite Ev' in Ax. apply in_app_iff in Ax. destruct Ax as [Ax|Ax].
  - right. destruct (exists_last (l := l1)) as (m & w & E); [intros ->; destruct Ax|]. exists m.
    destruct (Nat.eq_dec w x) as [->|N]; [exact E|]. exfalso. subst l1.
    assert (Ix : In x m) by (apply in_app_iff in Ax; destruct Ax as [Ax|[Ax|[]]]; [exact Ax|contradiction]).
    apply (between_twins (vp v x) (vp v i) (vp v w)).
    + destruct Tw as (C & L & Op). split; [apply coll_sym; exact C|]. split; [symmetry; exact L|]. intro K. apply Op. symmetry. exact K.
    + rewrite <- app_assoc in O. exact (FOP_prev _ _ _ _ _ _ O Ix).
    + apply Hl1. apply in_or_app. right. left. reflexivity.
  - left. destruct l2 as [|w m2]; [destruct Ax|]. exists m2. destruct (Nat.eq_dec w x) as [->|N]; [reflexivity|]. exfalso.
    destruct Ax as [Ax|Ax]; [contradiction|].
    apply (between_twins (vp v i) (vp v x) (vp v w) Tw); [apply Hl2; left; reflexivity|].
    apply FOP_app in O. destruct O as (_ & O & _). change (i :: w :: m2) with ([i] ++ w :: m2) in O.
    exact (FOP_next _ _ _ _ _ _ O Ax).
Qed.
End Added.
