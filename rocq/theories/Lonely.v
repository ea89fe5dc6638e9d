(** Pieces no twin of which is going to be added to the sweep line.
    Proof support only, no part of /repo is modelled here. *)
From Coq Require Import Permutation.
From Verif Require Import QcTac Geom GeomFacts SweepGeo SweepInv SweepSteps.

Definition lonely (v : view) (c : nat) : Prop := forall y, future v y -> ~ twin (vp v c) (vp v y).
(** Order in which left events are processed, operands aside. *)
Definition prior (x y : piece) : Prop := lo x < lo y \/ (lo x = lo y /\ sl x <= sl y).
Lemma prior_trans : forall x y z, prior x y -> prior y z -> prior x z.
Proof. intros x y z [H|(H & H')] [J|(J & J')]; unfold prior; [left|left|left|right]; try split; qlra. Qed.

Section Core.
Variables (V : Qc -> Qc) (Ts : list Qc).

(** A piece starting here on the sweep line has no piece of the other operand passing along it. *)
Lemma none_along : forall T v, base V Ts T v -> settled never v ->
  forall z c, active v z -> active v c -> lo (vp v z) < T -> T < hi (vp v z) -> lo (vp v c) = T -> coll (vp v c) (vp v z) -> op (vp v c) <> op (vp v z) -> False.
Proof.
  intros T v Hb Hset z c Az Ac Lz Uz Lc Co Op.
  pose proof (b_ord _ _ _ _ Hb) as Ord. pose proof (b_srt _ _ _ _ Hb) as Srt.
  assert (Ez : ht (vp v z) T = ht (vp v c) T) by (symmetry; apply coll_ht; exact Co).
  assert (Ncz : c <> z) by (intros ->; apply Op; reflexivity).
  (* the neighbour on the way from [z] to [c] *)
  assert (Key : forall w, active v w -> (adj v z w \/ adj v w z) -> ht (vp v w) T = ht (vp v z) T -> w = c \/ (w <> c /\ (below (vp v w) (vp v c) \/ below (vp v c) (vp v w))) -> False).
  { intros w Aw Ad Ew Hw.
    assert (Hz : has (vp v z) T) by exact (b_act _ _ _ _ Hb z Az). assert (Hw' : has (vp v w) T) by exact (b_act _ _ _ _ Hb w Aw).
    assert (Tw : coll (vp v w) (vp v z) /\ lo (vp v w) = lo (vp v z) /\ op (vp v w) <> op (vp v z)).
    { destruct Ad as [[A|(A & _)]|[A|(A & _)]].
      - exfalso. destruct (A T Hz Hw' (eq_sym Ew)) as ([K|K] & _); qlra.
      - destruct A as (A1 & A2 & A3). split; [apply coll_sym; exact A1|]. split; [symmetry; exact A2|congruence].
      - exfalso. destruct (A T Hw' Hz Ew) as (_ & [K|K]); qlra.
      - exact A. }
    destruct Tw as (T1 & T2 & T3). destruct Hw as [->|(Nw & Hw)]; [rewrite T2 in Lc; qlra|].
    assert (Eo : op (vp v w) = op (vp v c)) by (destruct (op (vp v w)), (op (vp v c)), (op (vp v z)); congruence).
    assert (Cw : coll (vp v w) (vp v c)) by (apply (coll_trans _ (vp v z)); [exact T1|apply coll_sym; exact Co]).
    unfold below in Hw. destruct Hw as [Hw|Hw]; rewrite (coll_ht _ _ _ Cw) in Hw; destruct Cw as (C1 & _);
      (destruct Hw as [K|(_ & [K|(_ & K1 & K2)])]; [qlra|rewrite C1 in K; qlra|congruence]). }
  unfold active in Az. destruct (in_split _ _ Az) as (l1 & l2 & E).
  assert (Ic : In c l1 \/ In c l2).
  { unfold active in Ac. rewrite E in Ac. apply in_app_iff in Ac. destruct Ac as [K|[K|K]]; [left; exact K|exfalso; apply Ncz; symmetry; exact K|right; exact K]. }
  rewrite E in Ord, Srt. destruct Ic as [Ic|Ic].
  - destruct (exists_last (l := l1)) as (m & w & Em); [intros ->; destruct Ic|]. subst l1. rewrite <- app_assoc in *. cbn [app] in *.
    assert (Aw : active v w) by (unfold active; rewrite E; apply in_or_app; right; left; reflexivity).
    destruct (Hset m w z l2 E) as [K|K]; [destruct K|]. apply (Key w Aw); [right; exact K| |].
    + pose proof (FOP_next _ _ m w (z :: l2) z Srt (or_introl eq_refl)) as K1. cbn beta in K1. apply in_app_iff in Ic. destruct Ic as [Ic|[<-|[]]]; [|symmetry; exact Ez].
      pose proof (FOP_prev _ _ m w (z :: l2) c Srt Ic) as K2. cbn beta in K2. qlra.
    + destruct (Nat.eq_dec w c) as [K1|K1]; [left; exact K1|right; split; [exact K1|right]]. apply in_app_iff in Ic. destruct Ic as [Ic|[K2|[]]]; [|contradiction].
      exact (FOP_prev _ _ m w (z :: l2) c Ord Ic).
  - destruct l2 as [|w m]; [destruct Ic|].
    assert (Aw : active v w) by (unfold active; rewrite E; apply in_or_app; right; right; left; reflexivity).
    destruct (Hset l1 z w m E) as [K|K]; [destruct K|].
    assert (Srt' : ForallOrdPairs (fun i j => ht (vp v i) T <= ht (vp v j) T) ((l1 ++ [z]) ++ w :: m)) by (rewrite <- app_assoc; exact Srt).
    assert (Ord' : ForallOrdPairs (fun i j => below (vp v i) (vp v j)) ((l1 ++ [z]) ++ w :: m)) by (rewrite <- app_assoc; exact Ord).
    apply (Key w Aw); [left; exact K| |].
    + pose proof (FOP_next _ _ l1 z (w :: m) w Srt (or_introl eq_refl)) as K1. cbn beta in K1. destruct Ic as [<-|Ic]; [symmetry; exact Ez|].
      pose proof (FOP_next _ _ _ w m c Srt' Ic) as K2. cbn beta in K2. qlra.
    + destruct (Nat.eq_dec w c) as [K1|K1]; [left; exact K1|right; split; [exact K1|left]]. destruct Ic as [K2|Ic]; [contradiction|].
      exact (FOP_next _ _ _ w m c Ord' Ic).
Qed.

Lemma lonely_cuts : forall T X v v', cuts V Ts T X v v' -> base V Ts T v -> forall c, seen v c ->
  (forall z, active v z -> lo (vp v z) < T -> T < hi (vp v z) -> active v c -> lo (vp v c) = T -> coll (vp v c) (vp v z) -> op (vp v c) <> op (vp v z) -> False) ->
  lonely v c -> lonely v' c.
Proof.
  intros T X v v' H. induction H as [|v x q va vb Hx Hok Hc Hs IH]; [intros; assumption|].
  intros Hb c Sc None Hl. pose proof (b_q _ _ _ _ Hb) as Hq. pose proof (seen_lt v c Hq Sc) as Rc.
  pose proof (cut_base V Ts T v va x q Hb Hc Hok) as Hb'. apply IH.
  - exact Hb'.
  - apply (cut_seen v va x q Hc). exact Sc.
  - intros z Az Lz Uz Ac Lc Co Op. apply (cut_active v va x q Hc) in Az, Ac. pose proof (active_lt v z Hq Az) as Rz.
    rewrite (cut_lo V Ts T v va x q Hc Hok) in Lz, Lc by assumption.
    rewrite !(cut_op V Ts T v va x q Hc Hok) in Op by assumption.
    apply (cut_coll V Ts T v va x q Hc Hok c z Rc Rz) in Co. pose proof (cut_hi_le V Ts T v va x q Hc Hok z Rz) as K.
    apply (None z); try assumption. qlra.
  - intros y Fy (C & L & O). apply (cut_future v va x q Hc) in Fy. destruct Fy as [->|Fy].
    + rewrite (c_tail _ _ _ _ Hc) in C, L, O. cbn [set_lo lo op] in L, O.
      rewrite (cut_lo V Ts T v va x q Hc Hok) in L by assumption. rewrite (cut_op V Ts T v va x q Hc Hok) in O by assumption.
      pose proof Hok as (Ax & (I1 & I2) & Tq & _). destruct Sc as [Ac|Dc].
      * pose proof (b_act _ _ _ _ Hb c Ac) as (K & _). assert (Et : q = T) by qlra.
        apply (None x Ax); [qlra|qlra|exact Ac|qlra| |exact O].
        apply (coll_trans _ (vp va c)); [apply coll_sym; apply (cut_coll_self V Ts T v va x q Hc Hok); exact Rc|exact C].
      * pose proof (b_done _ _ _ _ Hb c Dc). pose proof (g_len _ _ _ (b_geo _ _ _ _ Hb) c Rc). qlra.
    + assert (Ey : vp va y = vp v y).
      { apply (c_same _ _ _ _ Hc); [exact (future_lt v y Hq Fy)|]. intros ->. exact (active_not_future v x Hq (proj1 Hok) Fy). }
      rewrite Ey in *. apply (Hl y Fy). rewrite (cut_lo V Ts T v va x q Hc Hok) in L by assumption. rewrite (cut_op V Ts T v va x q Hc Hok) in O by assumption.
      split; [|split; assumption]. apply (coll_trans _ (vp va c)); [apply coll_sym; apply (cut_coll_self V Ts T v va x q Hc Hok); exact Rc|exact C].
Qed.
End Core.
