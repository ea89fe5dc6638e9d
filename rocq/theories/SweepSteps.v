(** Preservation of the sweep invariant by the steps of a sweep: advancing to
    the next point, processing a left event, processing a right event.
    Proof support only, no part of /repo is modelled here. *)
From Coq Require Import Permutation.
From Verif Require Import QcTac Geom GeomFacts SweepGeo SweepInv.

(** ** Lists *)
Lemma in_split2 : forall (l : list nat) x y, In x l -> In y l -> x <> y ->
  (exists l1 z r, l = l1 ++ x :: z :: r /\ In y (z :: r))
  \/ (exists r z l2, l = r ++ z :: x :: l2 /\ In y (r ++ [z])).
Proof.
  intros l x y Hx Hy Hn. apply in_split in Hx. destruct Hx as (l1 & l2 & ->).
  apply in_app_or in Hy. destruct Hy as [Hy|[Hy|Hy]]; [|congruence|].
  - right. destruct (exists_last (l := l1)) as (r & z & ->); [intros ->; exact Hy|].
    exists r, z, l2. rewrite <- app_assoc. split; [reflexivity|exact Hy].
  - left. destruct l2 as [|z r]; [destruct Hy|]. exists l1, z, r. split; [reflexivity|exact Hy].
Qed.
Lemma FOP_app : forall A (R : A -> A -> Prop) l1 l2,
  ForallOrdPairs R (l1 ++ l2) <->
  ForallOrdPairs R l1 /\ ForallOrdPairs R l2 /\ forall a b, In a l1 -> In b l2 -> R a b.
Proof.
  intros A R l1 l2. induction l1 as [|a l IH]; cbn [app].
  - split; [intro H; repeat split; [constructor|exact H|intros ? ? []]|intros (_ & H & _); exact H].
  - split.
    + intro H. inversion H as [|? ? H1 H2]; subst. apply IH in H2. destruct H2 as (J1 & J2 & J3).
      rewrite Forall_app in H1. destruct H1 as (H1 & H1'). repeat split; [constructor; assumption|exact J2|].
      intros b c [->|Hb] Hc; [rewrite Forall_forall in H1'; apply H1'; exact Hc|apply J3; assumption].
    + intros (H & J & K). inversion H as [|? ? H1 H2]; subst. constructor.
      * apply Forall_app. split; [exact H1|]. apply Forall_forall. intros c Hc. apply K; [left; reflexivity|exact Hc].
      * apply IH. repeat split; [exact H2|exact J|]. intros b c Hb Hc. apply K; [right; exact Hb|exact Hc].
Qed.
Lemma FOP_before : forall A (R : A -> A -> Prop) l1 x l2 y l3, ForallOrdPairs R (l1 ++ x :: l2 ++ y :: l3) -> R x y.
Proof.
  intros A R l1 x l2 y l3 H. apply FOP_app in H. destruct H as (_ & H & _).
  inversion H as [|? ? H1 H2]; subst. rewrite Forall_forall in H1. apply H1. apply in_or_app. right. left. reflexivity.
Qed.
Lemma FOP_next : forall A (R : A -> A -> Prop) l1 x r y, ForallOrdPairs R (l1 ++ x :: r) -> In y r -> R x y.
Proof.
  intros A R l1 x r y H Hy. apply in_split in Hy. destruct Hy as (a & b & ->). eapply FOP_before. exact H.
Qed.
Lemma FOP_prev : forall A (R : A -> A -> Prop) r x l2 y, ForallOrdPairs R (r ++ x :: l2) -> In y r -> R y x.
Proof.
  intros A R r x l2 y H Hy. apply FOP_app in H. destruct H as (_ & _ & H). apply H; [exact Hy|left; reflexivity].
Qed.
Lemma FOP_trans : forall A (R : A -> A -> Prop) l, (forall a b c, R a b -> R b c -> R a c) ->
  (forall l1 a b l2, l = l1 ++ a :: b :: l2 -> R a b) -> ForallOrdPairs R l.
Proof.
  intros A R l HR. induction l as [|a l IH]; intro H; [constructor|].
  assert (HF : ForallOrdPairs R l).
  { apply IH. intros l1 b c l2 E. apply (H (a :: l1) b c l2). rewrite E. reflexivity. }
  constructor; [|exact HF]. destruct l as [|b l]; [constructor|].
  assert (Hab : R a b) by (apply (H [] a b l); reflexivity).
  inversion HF as [|? ? H1 H2]; subst. constructor; [exact Hab|].
  rewrite Forall_forall in *. intros c Hc. eapply HR; [exact Hab|apply H1; exact Hc].
Qed.
Lemma FOP_drop : forall A (R : A -> A -> Prop) l1 x l2, ForallOrdPairs R (l1 ++ x :: l2) -> ForallOrdPairs R (l1 ++ l2).
Proof.
  intros A R l1 x l2 H. apply FOP_app in H. destruct H as (H1 & H2 & H3). inversion H2; subst.
  apply FOP_app. repeat split; [exact H1|assumption|]. intros a b Ha Hb. apply H3; [exact Ha|right; exact Hb].
Qed.
Lemma FOP_add : forall A (R : A -> A -> Prop) l1 x l2, ForallOrdPairs R (l1 ++ l2) ->
  (forall a, In a l1 -> R a x) -> (forall b, In b l2 -> R x b) -> ForallOrdPairs R (l1 ++ x :: l2).
Proof.
  intros A R l1 x l2 H Ha Hb. apply FOP_app in H. destruct H as (H1 & H2 & H3). apply FOP_app. repeat split.
  - exact H1.
  - constructor; [apply Forall_forall; exact Hb|exact H2].
  - intros a b Ja [<-|Jb]; [apply Ha; exact Ja|apply H3; assumption].
Qed.
Lemma nodup_app : forall (A : Type) (l1 l2 : list A) x, NoDup (l1 ++ l2) -> In x l1 -> In x l2 -> False.
Proof.
  intros A l1 l2 x H H1 H2. apply in_split in H1. destruct H1 as (a & b & ->).
  rewrite <- app_assoc in H. cbn in H. apply NoDup_remove_2 in H. apply H.
  apply in_or_app. right. apply in_or_app. right. exact H2.
Qed.

Lemma next_to_cons : forall (A : Type) (a x y : A) l, next_to x y l -> next_to x y (a :: l).
Proof.
  intros A a x y l (l1 & l2 & [->| ->]); exists (a :: l1), l2; [left|right]; reflexivity.
Qed.
Lemma next_to_sym : forall (A : Type) (x y : A) l, next_to x y l -> next_to y x l.
Proof. intros A x y l (l1 & l2 & [->| ->]); exists l1, l2; [right|left]; reflexivity. Qed.

Section Core.
Variables (V : Qc -> Qc) (Ts : list Qc).

Definition never (a b : nat) : Prop := False.

Lemma adj_sym : forall v a b, adj v a b -> adj v b a.
Proof.
  intros v a b [H|(H & J)]; [left; apply apart_sym; exact H|right].
  split; [apply twin_sym; exact H|]. destruct J as [J|(k & J & K & C)]; [left; congruence|right].
  exists k. split; [exact J|]. split; [|exact (coll_trans _ _ _ C (proj1 H))]. rewrite K. destruct (Qc_min_cases (hi (vp v a)) (hi (vp v b))) as [(-> & L)|(-> & L)];
    symmetry; [apply min_eq_r|apply min_eq_l]; qlra.
Qed.

(** Three collinear pieces cannot have the same start. *)
Lemma no_three : forall v, geo V Ts v -> forall x y z, (x < vn v)%nat -> (y < vn v)%nat -> (z < vn v)%nat ->
  x <> z -> twin (vp v x) (vp v y) -> twin (vp v y) (vp v z) -> False.
Proof.
  intros v Hg x y z Lx Ly Lz Hn (C1 & E1 & O1) (C2 & E2 & O2).
  assert (Ho : op (vp v x) = op (vp v z)) by (destruct (op (vp v x)), (op (vp v y)), (op (vp v z)); congruence).
  destruct (g_over V Ts v Hg x z Lx Lz Hn Ho (coll_trans _ _ _ C1 C2)) as [K|K].
  - pose proof (g_len V Ts v Hg x Lx). rewrite E1, E2 in *. qlra.
  - pose proof (g_len V Ts v Hg z Lz). rewrite E1, E2 in *. qlra.
Qed.

Lemma adj_inner : forall v a b t, adj v a b -> inner (vp v a) t -> has (vp v b) t ->
  ht (vp v a) t = ht (vp v b) t ->
  twin (vp v a) (vp v b)
  /\ (hi (vp v a) = hi (vp v b) \/ exists k, future v k /\ lo (vp v k) = Qc_min (hi (vp v a)) (hi (vp v b)) /\ coll (vp v k) (vp v a)).
Proof.
  intros v a b t [H|H] Hi Hb He; [|exact H]. exfalso.
  destruct (H t (inner_has _ _ Hi) Hb He) as (K & _). exact (tip_not_inner _ _ K Hi).
Qed.

(** A piece with an inner point meets another one on the sweep line only if
    they are twins, or a twin of it ends there. *)
Lemma chain : forall T v t x y, base V Ts T v -> settled never v ->
  (forall i, active v i -> has (vp v i) t) ->
  ForallOrdPairs (fun i j => ht (vp v i) t <= ht (vp v j) t) (vs v) ->
  active v x -> active v y -> x <> y -> ht (vp v x) t = ht (vp v y) t -> inner (vp v x) t ->
  (twin (vp v x) (vp v y) /\ t < hi (vp v y))
  \/ (exists z k, active v z /\ twin (vp v x) (vp v z) /\ hi (vp v z) = t /\ future v k /\ lo (vp v k) = t /\ coll (vp v k) (vp v x)).
Proof.
  intros T v t x y Hb Hset Hhas Hsrt Ax Ay Hn He Hi.
  assert (Hz : forall z w, active v z -> adj v x z -> ht (vp v x) t = ht (vp v z) t ->
            (z = y \/ (active v w /\ adj v z w /\ ht (vp v z) t = ht (vp v w) t /\ w <> x)) ->
            (twin (vp v x) (vp v y) /\ t < hi (vp v y))
            \/ (exists z k, active v z /\ twin (vp v x) (vp v z) /\ hi (vp v z) = t /\ future v k /\ lo (vp v k) = t /\ coll (vp v k) (vp v x))).
  { intros z w Az Jz Ez Hc.
    destruct (adj_inner v x z t Jz Hi (Hhas z Az) Ez) as (Htw & Hend).
    destruct (Hhas z Az) as (_ & Hle). destruct (Qcle_lt_or_eq _ _ Hle) as [Hlt|Heq].
    - destruct Hc as [->|(Aw & Jw & Ew & Nw)]; [left; split; assumption|exfalso].
      assert (Iz : inner (vp v z) t).
      { split; [|exact Hlt]. destruct Htw as (_ & E & _). destruct Hi as (I & _). rewrite <- E. exact I. }
      destruct (adj_inner v z w t Jw Iz (Hhas w Aw) Ew) as (Htw' & _).
      assert (Hq : queues v) by apply (b_q V Ts T v Hb).
      apply (no_three v (b_geo V Ts T v Hb) x z w); try (apply active_lt; assumption); try assumption. congruence.
    - right. destruct Hend as [Hend|(k & K1 & K2 & K3)].
      + exfalso. destruct Hi as (_ & I). rewrite Hend, <- Heq in I. qlra.
      + exists z, k. split; [exact Az|]. split; [exact Htw|]. split; [symmetry; exact Heq|]. split; [exact K1|]. split; [|exact K3].
        rewrite K2. destruct Hi as (_ & I). rewrite min_eq_r; qlra. }
  assert (Hnd : NoDup (vs v)) by apply (q_vs v (b_q V Ts T v Hb)).
  destruct (in_split2 (vs v) x y Ax Ay Hn) as [(l1 & z & r & E & Hy)|(r & z & l2 & E & Hy)].
  - assert (Az : active v z) by (unfold active; rewrite E; apply in_or_app; right; right; left; reflexivity).
    assert (Jz : adj v x z) by (destruct (Hset l1 x z r E) as [[]|J]; exact J).
    rewrite E in Hsrt.
    assert (Exz : ht (vp v x) t <= ht (vp v z) t) by (exact (FOP_next _ _ l1 x (z :: r) z Hsrt (or_introl eq_refl))).
    destruct Hy as [<-|Hy].
    + apply (Hz z z Az Jz He). left. reflexivity.
    + assert (Hsrt' := Hsrt). replace (l1 ++ x :: z :: r) with ((l1 ++ [x]) ++ z :: r) in Hsrt' by (rewrite <- app_assoc; reflexivity).
      assert (Ezy : ht (vp v z) t <= ht (vp v y) t) by (exact (FOP_next _ _ (l1 ++ [x]) z r y Hsrt' Hy)).
      assert (Exz' : ht (vp v x) t = ht (vp v z) t) by qlra.
      destruct r as [|w r]; [destruct Hy|].
      assert (Aw : active v w) by (unfold active; rewrite E; apply in_or_app; right; right; right; left; reflexivity).
      apply (Hz z w Az Jz Exz'). right. split; [exact Aw|]. split; [|split].
      * destruct (Hset (l1 ++ [x]) z w r) as [[]|J]; [rewrite <- app_assoc; exact E|exact J].
      * assert (Ezw : ht (vp v z) t <= ht (vp v w) t) by (exact (FOP_next _ _ (l1 ++ [x]) z (w :: r) w Hsrt' (or_introl eq_refl))).
        destruct Hy as [<-|Hy]; [qlra|].
        replace ((l1 ++ [x]) ++ z :: w :: r) with ((l1 ++ [x; z]) ++ w :: r) in Hsrt' by (rewrite <- !app_assoc; reflexivity).
        assert (Ewy : ht (vp v w) t <= ht (vp v y) t) by (exact (FOP_next _ _ (l1 ++ [x; z]) w r y Hsrt' Hy)). qlra.
      * intros ->. rewrite E in Hnd. apply NoDup_remove_2 in Hnd. apply Hnd. apply in_or_app. right. right. left. reflexivity.
  - assert (Az : active v z) by (unfold active; rewrite E; apply in_or_app; right; left; reflexivity).
    assert (Jz : adj v x z) by (destruct (Hset r z x l2 E) as [[]|J]; apply adj_sym; exact J).
    rewrite E in Hsrt.
    assert (Hsrt' := Hsrt). replace (r ++ z :: x :: l2) with ((r ++ [z]) ++ x :: l2) in Hsrt' by (rewrite <- app_assoc; reflexivity).
    assert (Exz : ht (vp v z) t <= ht (vp v x) t).
    { refine (FOP_prev _ _ (r ++ [z]) x l2 z Hsrt' _). apply in_or_app. right. left. reflexivity. }
    apply in_app_or in Hy. destruct Hy as [Hy|[<-|[]]].
    + assert (Ezy : ht (vp v y) t <= ht (vp v z) t) by (exact (FOP_prev _ _ r z (x :: l2) y Hsrt Hy)).
      assert (Exz' : ht (vp v x) t = ht (vp v z) t) by qlra.
      destruct (exists_last (l := r)) as (r' & w & ->); [intros ->; exact Hy|].
      assert (Iw : In w (r' ++ [w])) by (apply in_or_app; right; left; reflexivity).
      assert (Aw : active v w) by (unfold active; rewrite E; apply in_or_app; left; exact Iw).
      apply (Hz z w Az Jz Exz'). right. split; [exact Aw|]. split; [|split].
      * destruct (Hset r' w z (x :: l2)) as [[]|J]; [rewrite E, <- app_assoc; reflexivity|apply adj_sym; exact J].
      * assert (Ezw : ht (vp v w) t <= ht (vp v z) t) by (exact (FOP_prev _ _ (r' ++ [w]) z (x :: l2) w Hsrt Iw)).
        apply in_app_or in Hy. destruct Hy as [Hy|[<-|[]]]; [|qlra].
        rewrite <- app_assoc in Hsrt. cbn [app] in Hsrt.
        assert (Ewy : ht (vp v y) t <= ht (vp v w) t) by (exact (FOP_prev _ _ r' w (z :: x :: l2) y Hsrt Hy)). qlra.
      * intros ->. rewrite E in Hnd.
        replace ((r' ++ [x]) ++ z :: x :: l2) with (((r' ++ [x]) ++ [z]) ++ x :: l2) in Hnd by (rewrite <- !app_assoc; reflexivity).
        apply NoDup_remove_2 in Hnd. apply Hnd. apply in_or_app. left. apply in_or_app. left. exact Iw.
    + apply (Hz z z Az Jz He). left. reflexivity.
Qed.

(** ** Advancing to the next point *)
Definition ev_time (v : view) (ev : bool * nat) : Qc :=
  if fst ev then lo (vp v (snd ev)) else hi (vp v (snd ev)).

Lemma active_pending : forall v i, queues v -> active v i -> pending v i.
Proof. intros v i Hq H. apply (q_act v Hq) in H. apply H. Qed.

Lemma advance : forall T T' v, base V Ts T v -> settled never v -> passing V T v -> T < T' ->
  (forall ev, In ev (vq v) -> T' <= ev_time v ev) ->
  base V Ts T' v /\ passing V T' v /\ lined T' v.
Proof.
  intros T T' v Hb Hset Hpass HT Hev.
  pose proof (b_q V Ts T v Hb) as Hq. pose proof (b_geo V Ts T v Hb) as Hg.
  assert (Hhi : forall i, active v i -> T' <= hi (vp v i)).
  { intros i Hi. apply (Hev (false, i)). apply (active_pending v i Hq Hi). }
  assert (Hlo : forall i, active v i -> lo (vp v i) <= T).
  { intros i Hi. apply (b_act V Ts T v Hb i Hi). }
  assert (Hsorted : forall t, T <= t -> t <= T' ->
            ForallOrdPairs (fun i j => ht (vp v i) t <= ht (vp v j) t) (vs v)).
  { intros t Ht1 Ht2. apply FOP_trans; [intros a b c; apply Qcle_trans|].
    intros l1 a b l2 E.
    assert (Aa : active v a) by (unfold active; rewrite E; apply in_or_app; right; left; reflexivity).
    assert (Ab : active v b) by (unfold active; rewrite E; apply in_or_app; right; right; left; reflexivity).
    pose proof (b_ord V Ts T v Hb) as Ho. rewrite E in Ho.
    pose proof (FOP_next _ _ l1 a (b :: l2) b Ho (or_introl eq_refl)) as Hab. cbn beta in Hab.
    pose proof (Hlo a Aa). pose proof (Hlo b Ab). pose proof (Hhi a Aa). pose proof (Hhi b Ab).
    apply sorted_at; [exact Hab| |split; qlra|split; qlra].
    destruct (Hset l1 a b l2 E) as [[]|[J|(J & _)]]; [left|right]; exact J. }
  assert (Hdone : forall i, done v i -> hi (vp v i) <= T) by (apply (b_done V Ts T v Hb)).
  split; [|split].
  - constructor.
    + exact Hg.
    + exact Hq.
    + intros i Hi. pose proof (Hlo i Hi). pose proof (Hhi i Hi). split; qlra.
    + intros i Hi. pose proof (Hdone i Hi). qlra.
    + intros i Hi. apply (Hev (true, i) Hi).
    + exact (b_ord V Ts T v Hb).
    + apply Hsorted; qlra.
    + intros i j t Hn Si Sj Ht Hi Hj He.
      destruct (Qclt_le_dec t T) as [Hlt|Hge].
      * destruct (b_past V Ts T v Hb i j t Hn Si Sj Hlt Hi Hj He) as [K|(K1 & K2)]; [left; exact K|right].
        split; [exact K1|]. destruct K2 as [K2|(K2 & K3)]; [left; exact K2|].
        assert (Hmix : forall a b, active v a -> done v b -> T <= hi (vp v b) -> twin (vp v a) (vp v b) -> False).
        { intros a b Aa Db Hb' (C & E & _).
          assert (Eb : hi (vp v b) = T) by (apply Qcle_antisym; [apply Hdone; exact Db|exact Hb']).
          pose proof (active_lt v a Hq Aa) as La. pose proof (done_lt v b Hq Db) as Lb.
          destruct (Hpass a b Aa) as (k & F1 & F2 & _); try assumption.
          - split; [rewrite E, <- Eb; apply (g_len V Ts v Hg b Lb)|]. pose proof (Hhi a Aa). qlra.
          - rewrite (coll_ht _ _ T C), <- Eb. apply (g_hi V Ts v Hg b Lb).
          - pose proof (Hev (true, k) F1) as H1. cbn in H1. qlra. }
        destruct Si as [Ai|Di], Sj as [Aj|Dj].
        -- right. split; apply Hhi; assumption.
        -- exfalso. apply (Hmix i j); assumption.
        -- exfalso. apply (Hmix j i); [| | |apply twin_sym]; assumption.
        -- left. pose proof (Hdone i Di). pose proof (Hdone j Dj). qlra.
      * assert (Hmix : forall a b, active v a -> done v b -> has (vp v a) t -> has (vp v b) t ->
                  ht (vp v a) t = ht (vp v b) t -> tip (vp v a) t /\ tip (vp v b) t).
        { intros a b Aa Db Ha Hb' E. pose proof (Hdone b Db) as Hle.
          assert (Et : t = T) by (destruct Hb'; qlra).
          assert (Eb : hi (vp v b) = T) by (destruct Hb'; qlra).
          split; [|right; congruence].
          destruct (tip_or_inner _ _ Ha) as [Ka|Ka]; [exact Ka|exfalso]. rewrite Et in *.
          pose proof (done_lt v b Hq Db) as Lb.
          destruct (Hpass a b Aa Ka) as (k & F1 & F2 & _); try assumption.
          - rewrite E, <- Eb. apply (g_hi V Ts v Hg b Lb).
          - pose proof (Hev (true, k) F1) as H1. cbn in H1. qlra. }
        destruct Si as [Ai|Di], Sj as [Aj|Dj].
        -- assert (Hall : forall k, active v k -> has (vp v k) t).
           { intros k Ak. pose proof (Hlo k Ak). pose proof (Hhi k Ak). split; qlra. }
           assert (Hsrt : ForallOrdPairs (fun i j => ht (vp v i) t <= ht (vp v j) t) (vs v)) by (apply Hsorted; qlra).
           assert (Hone : forall a b, active v a -> active v b -> a <> b -> ht (vp v a) t = ht (vp v b) t ->
                     inner (vp v a) t -> twin (vp v a) (vp v b)).
           { intros a b Aa Ab Nab Eab Ia.
             destruct (chain T v t a b Hb Hset Hall Hsrt Aa Ab Nab Eab Ia) as [(K & _)|(z & k & Az & _ & Ez & _)]; [exact K|].
             pose proof (Hhi z Az). qlra. }
           destruct (tip_or_inner _ _ Hi) as [Ki|Ki].
           ++ destruct (tip_or_inner _ _ Hj) as [Kj|Kj]; [left; split; assumption|right].
              split; [apply twin_sym; apply Hone; try assumption; congruence|right; split; apply Hhi; assumption].
           ++ right. split; [apply Hone; assumption|right; split; apply Hhi; assumption].
        -- left. apply Hmix; assumption.
        -- left. destruct (Hmix j i Aj Di Hj Hi (eq_sym He)) as (K1 & K2). split; assumption.
        -- left. pose proof (Hdone i Di). pose proof (Hdone j Dj). destruct Hi, Hj. split; right; qlra.
    + exact (b_out V Ts T v Hb).
  - intros x y _ _ _ Dy Ey. pose proof (Hdone y Dy). qlra.
  - intros x y Dx Ex. pose proof (Hdone x Dx). qlra.
Qed.


(** ** Detection of intersections *)
(** What detection may do to a pair of pieces of a view. *)
Inductive detected (v : view) (a b : nat) : view -> Prop :=
| D_none : apart (vp v a) (vp v b) -> detected v a b v
| D_same : twin (vp v a) (vp v b) -> hi (vp v a) = hi (vp v b) -> detected v a b v
| D_point : forall r v1 v2, ~ coll (vp v a) (vp v b) -> has (vp v a) r -> has (vp v b) r ->
    ht (vp v a) r = ht (vp v b) r ->
    (inner (vp v a) r /\ cut v a r v1 \/ ~ inner (vp v a) r /\ v1 = v) ->
    (inner (vp v b) r /\ cut v1 b r v2 \/ ~ inner (vp v b) r /\ v2 = v1) -> detected v a b v2
| D_start : forall v1, twin (vp v a) (vp v b) -> hi (vp v a) < hi (vp v b) ->
    cut v b (hi (vp v a)) v1 -> detected v a b v1
| D_end : forall v1, coll (vp v a) (vp v b) -> lo (vp v a) < lo (vp v b) -> lo (vp v b) < hi (vp v a) ->
    hi (vp v a) = hi (vp v b) -> cut v a (lo (vp v b)) v1 -> detected v a b v1
| D_cover : forall v1 v2, coll (vp v a) (vp v b) -> lo (vp v a) < lo (vp v b) -> lo (vp v b) < hi (vp v a) ->
    hi (vp v b) < hi (vp v a) -> cut v a (hi (vp v b)) v1 -> cut v1 a (lo (vp v b)) v2 -> detected v a b v2
| D_chain : forall v1 v2, coll (vp v a) (vp v b) -> lo (vp v a) < lo (vp v b) -> lo (vp v b) < hi (vp v a) ->
    hi (vp v a) < hi (vp v b) -> cut v b (hi (vp v a)) v1 -> cut v1 a (lo (vp v b)) v2 -> detected v a b v2.

Lemma one_meet : forall x y r t, ~ coll x y -> ht x r = ht y r -> ht x t = ht y t -> t = r.
Proof.
  intros x y r t Hn Hr Ht. destruct (Qc_eq_dec t r) as [E|E]; [exact E|exfalso].
  apply Hn. exact (ht_two x y t r E Ht Hr).
Qed.
Lemma meet_apart : forall x y r, ~ coll x y -> ht x r = ht y r -> tip x r -> tip y r -> apart x y.
Proof. intros x y r Hn Hr Hx Hy t _ _ Ht. rewrite (one_meet x y r t Hn Hr Ht). split; assumption. Qed.

Lemma starts_now : forall T v a b, base V Ts T v -> active v a -> active v b -> a <> b ->
  coll (vp v a) (vp v b) -> lo (vp v a) < lo (vp v b) -> lo (vp v b) < hi (vp v a) -> lo (vp v b) = T.
Proof.
  intros T v a b Hb Aa Ab Hn Hc H1 H2.
  pose proof (b_act V Ts T v Hb b Ab) as (K1 & K2). pose proof (b_act V Ts T v Hb a Aa) as (J1 & J2).
  pose proof (b_geo V Ts T v Hb) as Hg. pose proof (b_q V Ts T v Hb) as Hq.
  pose proof (g_len V Ts v Hg b (active_lt v b Hq Ab)) as Lb.
  destruct (Qcle_lt_or_eq _ _ K1) as [K|K]; [exfalso|exact K].
  destruct (b_past V Ts T v Hb a b (lo (vp v b)) Hn (or_introl Aa) (or_introl Ab) K) as [(P & _)|(P & _)].
  - split; qlra.
  - split; qlra.
  - apply coll_ht. exact Hc.
  - destruct P as [P|P]; qlra.
  - destruct P as (_ & P & _). qlra.
Qed.

Lemma detect_ok : forall T v a b v', base V Ts T v -> active v a -> active v b -> a <> b -> detected v a b v' ->
  cuts V Ts T (fun i => i = a \/ i = b) v v' /\ adj v' a b.
Proof.
  intros T v a b v' Hb Aa Ab Hn H.
  pose proof (b_geo V Ts T v Hb) as Hg. pose proof (b_q V Ts T v Hb) as Hq.
  pose proof (active_lt v a Hq Aa) as La. pose proof (active_lt v b Hq Ab) as Lb.
  pose proof (g_len V Ts v Hg a La) as Ga. pose proof (g_len V Ts v Hg b Lb) as Gb.
  pose proof (b_act V Ts T v Hb b Ab) as (K1 & K2). pose proof (b_act V Ts T v Hb a Aa) as (J1 & J2).
  destruct H as [Hap|Htw He|r v1 v2 Hnc Ha Hb' He Ca Cb|v1 Htw Hlt C|v1 Hcol H1 H2 H3 C|v1 v2 Hcol H1 H2 H3 C C'|v1 v2 Hcol H1 H2 H3 C C'].
  - split; [apply cuts_refl|left; exact Hap].
  - split; [apply cuts_refl|right; split; [exact Htw|left; exact He]].
  - destruct (g_meet V Ts v Hg a b r La Lb Hnc Ha Hb' He) as (HV & HTs).
    destruct (Qclt_le_dec r T) as [Hr|Hr].
    + destruct (b_past V Ts T v Hb a b r Hn (or_introl Aa) (or_introl Ab) Hr Ha Hb' He) as [(P1 & P2)|((P & _) & _)]; [|destruct (Hnc P)].
      destruct Ca as [(I & _)|(_ & ->)]; [destruct (tip_not_inner _ _ P1 I)|].
      destruct Cb as [(I & _)|(_ & ->)]; [destruct (tip_not_inner _ _ P2 I)|].
      split; [apply cuts_refl|]. left. exact (meet_apart _ _ r Hnc He P1 P2).
    + assert (S1 : cuts V Ts T (fun i => i = a \/ i = b) v v1 /\ coll (vp v1 a) (vp v a) /\ tip (vp v1 a) r
                   /\ vp v1 b = vp v b /\ active v1 a /\ active v1 b).
      { destruct Ca as [(I & C)|(I & ->)].
        - split; [apply (cuts_one V Ts T _ v a r v1); [left; reflexivity|repeat split; try assumption; apply I|exact C]|].
          rewrite (c_head _ _ _ _ C), (c_same _ _ _ _ C b Lb) by congruence.
          repeat split; [right; reflexivity| |]; unfold active; rewrite (c_s _ _ _ _ C); assumption.
        - split; [apply cuts_refl|]. destruct (tip_or_inner _ _ Ha) as [P|P]; [|destruct (I P)].
          repeat split; assumption. }
      destruct S1 as (Hcs & Hcol & Htip & Eb & Aa1 & Ab1).
      pose proof (cuts_base V Ts T _ _ _ Hcs Hb) as Hb1. pose proof (b_q V Ts T v1 Hb1) as Hq1.
      assert (Hht : ht (vp v1 a) r = ht (vp v1 b) r) by (rewrite Eb, (coll_ht _ _ r Hcol); exact He).
      assert (Hncl : ~ coll (vp v1 a) (vp v1 b)).
      { rewrite Eb. intro K. apply Hnc. exact (coll_trans _ _ _ (coll_sym _ _ Hcol) K). }
      destruct Cb as [(I & C)|(I & ->)].
      * split.
        -- eapply cuts_trans; [exact Hcs|]. apply (cuts_one V Ts T _ v1 b r v2); [right; reflexivity| |exact C].
           unfold cutok. rewrite Eb. repeat split; try assumption; try apply I. congruence.
        -- left. assert (Ea2 : vp v2 a = vp v1 a) by (apply (c_same _ _ _ _ C); [apply active_lt; assumption|exact Hn]).
           rewrite Ea2, (c_head _ _ _ _ C).
           apply (meet_apart _ _ r); [exact Hncl|exact Hht|exact Htip|right; reflexivity].
      * split; [exact Hcs|]. left. apply (meet_apart _ _ r); [exact Hncl|exact Hht|exact Htip|]. rewrite Eb.
        destruct (tip_or_inner _ _ Hb') as [P|P]; [exact P|destruct (I P)].
  - pose proof Htw as (Hcol & E & O). split.
    + apply (cuts_one V Ts T _ v b (hi (vp v a)) v1); [right; reflexivity| |exact C].
      destruct (g_hi V Ts v Hg a La) as (G1 & G2).
      split; [exact Ab|]. split; [split; [rewrite <- E; exact Ga|exact Hlt]|]. split; [exact J2|]. split; [exact G2|].
      rewrite <- (coll_ht _ _ _ Hcol). exact G1.
    + right. rewrite (c_same _ _ _ _ C a La Hn), (c_head _ _ _ _ C). split; [exact Htw|left; reflexivity].
  - pose proof (starts_now T v a b Hb Aa Ab Hn Hcol H1 H2) as HT. destruct (g_lo V Ts v Hg b Lb) as (G1 & G2). split.
    + apply (cuts_one V Ts T _ v a (lo (vp v b)) v1); [left; reflexivity| |exact C].
      split; [exact Aa|]. split; [split; assumption|]. split; [qlra|]. split; [exact G2|].
      rewrite (coll_ht _ _ _ Hcol). exact G1.
    + left. rewrite (c_same _ _ _ _ C b Lb) by congruence. rewrite (c_head _ _ _ _ C).
      intros t (P1 & P2) (Q1 & Q2) _. cbn in *. split; [right|left]; cbn; qlra.
  - pose proof (starts_now T v a b Hb Aa Ab Hn Hcol H1 H2) as HT. destruct (g_lo V Ts v Hg b Lb) as (G1 & G2).
    destruct (g_hi V Ts v Hg b Lb) as (G3 & G4).
    assert (S1 : cuts V Ts T (fun i => i = a \/ i = b) v v1).
    { apply (cuts_one V Ts T _ v a (hi (vp v b)) v1); [left; reflexivity| |exact C].
      split; [exact Aa|]. split; [split; qlra|]. split; [exact K2|]. split; [exact G4|].
      rewrite (coll_ht _ _ _ Hcol). exact G3. }
    assert (Ea : vp v1 a = set_hi (vp v a) (hi (vp v b))) by apply (c_head _ _ _ _ C).
    assert (Eb : vp v1 b = vp v b) by (apply (c_same _ _ _ _ C b Lb); congruence).
    assert (L1 : vn v1 = S (vn v)) by apply (c_n _ _ _ _ C). split.
    + eapply cuts_trans; [exact S1|]. apply (cuts_one V Ts T _ v1 a (lo (vp v b)) v2); [left; reflexivity| |exact C'].
      unfold cutok. rewrite Ea. cbn. split; [unfold active; rewrite (c_s _ _ _ _ C); exact Aa|].
      split; [split; cbn; assumption|]. split; [qlra|]. split; [exact G2|].
      change (ht (vp v a) (lo (vp v b)) = V (lo (vp v b))). rewrite (coll_ht _ _ _ Hcol). exact G1.
    + left. rewrite (c_same _ _ _ _ C' b) by (rewrite ?L1; try lia; congruence). rewrite (c_head _ _ _ _ C'), Eb, Ea.
      intros t (P1 & P2) (Q1 & Q2) _. cbn in *. split; [right|left]; cbn; qlra.
  - pose proof (starts_now T v a b Hb Aa Ab Hn Hcol H1 H2) as HT. destruct (g_lo V Ts v Hg b Lb) as (G1 & G2).
    destruct (g_hi V Ts v Hg a La) as (G3 & G4).
    assert (S1 : cuts V Ts T (fun i => i = a \/ i = b) v v1).
    { apply (cuts_one V Ts T _ v b (hi (vp v a)) v1); [right; reflexivity| |exact C].
      split; [exact Ab|]. split; [split; qlra|]. split; [exact J2|]. split; [exact G4|].
      rewrite <- (coll_ht _ _ _ Hcol). exact G3. }
    assert (Eb : vp v1 b = set_hi (vp v b) (hi (vp v a))) by apply (c_head _ _ _ _ C).
    assert (Ea : vp v1 a = vp v a) by (apply (c_same _ _ _ _ C a La); congruence).
    assert (L1 : vn v1 = S (vn v)) by apply (c_n _ _ _ _ C). split.
    + eapply cuts_trans; [exact S1|]. apply (cuts_one V Ts T _ v1 a (lo (vp v b)) v2); [left; reflexivity| |exact C'].
      unfold cutok. rewrite Ea. split; [unfold active; rewrite (c_s _ _ _ _ C); exact Aa|].
      split; [split; assumption|]. split; [qlra|]. split; [exact G2|]. rewrite (coll_ht _ _ _ Hcol). exact G1.
    + left. rewrite (c_same _ _ _ _ C' b) by (rewrite ?L1; try lia; congruence). rewrite (c_head _ _ _ _ C'), Eb, Ea.
      intros t (P1 & P2) (Q1 & Q2) _. cbn in *. split; [right|left]; cbn; qlra.
Qed.

(** ** A left event *)
Lemma ins_total : forall T v e, base V Ts T v -> future v e -> lo (vp v e) = T ->
  (forall i, active v i -> T < hi (vp v i)) ->
  forall i, active v i -> below (vp v i) (vp v e) \/ below (vp v e) (vp v i).
Proof.
  intros T v e Hb Fe Le Hhi i Ai. destruct (below_total (vp v i) (vp v e)) as [H|[H|(Hc & Ho)]]; [left; exact H|right; exact H|exfalso].
  pose proof (b_geo V Ts T v Hb) as Hg. pose proof (b_q V Ts T v Hb) as Hq.
  assert (Hn : i <> e) by (intros ->; exact (active_not_future v e Hq Ai Fe)).
  pose proof (future_lt v e Hq Fe) as LLe. pose proof (active_lt v i Hq Ai) as Li.
  pose proof (g_len V Ts v Hg e LLe). pose proof (Hhi i Ai). destruct (b_act V Ts T v Hb i Ai).
  destruct (g_over V Ts v Hg i e Li LLe Hn Ho Hc) as [K|K]; qlra.
Qed.
Lemma max_at : forall a b, a <= b -> Qc_max a b = b.
Proof. intros a b H. destruct (Qc_max_cases a b) as [(-> & K)|(-> & K)]; qlra. Qed.

Lemma below_twin : forall x y, twin x y -> below x y -> op x = true /\ op y = false.
Proof.
  intros x y (C & _ & _) [H|(_ & [H|(_ & H)])]; [|destruct C; qlra|exact H].
  rewrite (coll_ht _ _ _ C) in H. qlra.
Qed.

Lemma ins_mono : forall T v e, base V Ts T v -> settled never v -> future v e -> lo (vp v e) = T ->
  (forall i, active v i -> T < hi (vp v i)) ->
  forall l1 i l2 j l3, vs v = l1 ++ i :: l2 ++ j :: l3 -> below (vp v j) (vp v e) -> below (vp v i) (vp v e).
Proof.
  intros T v e Hb Hset Fe Le Hhi l1 i l2 j l3 E Hj.
  assert (Ai : active v i) by (unfold active; rewrite E; apply in_or_app; right; left; reflexivity).
  assert (Aj : active v j).
  { unfold active. rewrite E. apply in_or_app. right. right. apply in_or_app. right. left. reflexivity. }
  destruct (ins_total T v e Hb Fe Le Hhi i Ai) as [H|Hi]; [exact H|exfalso].
  pose proof (b_geo V Ts T v Hb) as Hg. pose proof (b_q V Ts T v Hb) as Hq.
  pose proof (b_srt V Ts T v Hb) as Hs. rewrite E in Hs. apply FOP_before in Hs.
  pose proof (b_ord V Ts T v Hb) as Ho. rewrite E in Ho. apply FOP_before in Ho.
  destruct (b_act V Ts T v Hb i Ai) as (I1 & I2). destruct (b_act V Ts T v Hb j Aj) as (J1 & J2).
  pose proof (Hhi i Ai) as I3. pose proof (Hhi j Aj) as J3.
  assert (Hn : i <> j).
  { intros <-. pose proof (q_vs v Hq) as Hnd. rewrite E in Hnd. apply NoDup_remove_2 in Hnd. apply Hnd.
    apply in_or_app. right. apply in_or_app. right. left. reflexivity. }
  unfold below in Hi, Hj. rewrite (max_comm (lo (vp v e))) in Hi.
  rewrite (max_at (lo (vp v i)) (lo (vp v e))) in Hi by qlra. rewrite (max_at (lo (vp v j)) (lo (vp v e))) in Hj by qlra.
  rewrite Le in *.
  assert (Eij : ht (vp v i) T = ht (vp v j) T) by (destruct Hi as [Hi|(Hi & _)], Hj as [Hj|(Hj & _)]; qlra).
  destruct Hi as [Hi|(Hi0 & Hi)]; [destruct Hj as [Hj|(Hj & _)]; qlra|].
  destruct Hj as [Hj|(_ & Hj)]; [qlra|].
  assert (Htwin : inner (vp v i) T \/ inner (vp v j) T -> False).
  { intro Hin.
    assert (Htw : twin (vp v i) (vp v j)).
    { destruct Hin as [Hin|Hin].
      - destruct (chain T v T i j Hb Hset (b_act V Ts T v Hb) (b_srt V Ts T v Hb) Ai Aj Hn Eij Hin)
          as [(K & _)|(z & k & Az & _ & Ez & _)]; [exact K|]. pose proof (Hhi z Az). qlra.
      - apply twin_sym.
        destruct (chain T v T j i Hb Hset (b_act V Ts T v Hb) (b_srt V Ts T v Hb) Aj Ai (not_eq_sym Hn) (eq_sym Eij) Hin)
          as [(K & _)|(z & k & Az & _ & Ez & _)]; [exact K|]. pose proof (Hhi z Az). qlra. }
    destruct (below_twin _ _ Htw Ho) as (O1 & O2). destruct Htw as ((S & _) & _).
    destruct Hi as [Hi|(Hi & Hi1 & Hi2)], Hj as [Hj|(Hj & Hj1 & Hj2)]; try congruence; qlra. }
  assert (Li : lo (vp v i) = T).
  { destruct (Qcle_lt_or_eq _ _ I1) as [K|K]; [|exact K]. exfalso. apply Htwin. left. split; assumption. }
  assert (Lj : lo (vp v j) = T).
  { destruct (Qcle_lt_or_eq _ _ J1) as [K|K]; [|exact K]. exfalso. apply Htwin. right. split; assumption. }
  unfold below in Ho. rewrite Li, Lj, max_eq in Ho.
  destruct Ho as [Ho|(_ & Ho)]; [qlra|].
  destruct Hi as [Hi|(Hi & Hi1 & Hi2)], Hj as [Hj|(Hj & Hj1 & Hj2)], Ho as [Ho|(Ho & Ho1 & Ho2)]; try congruence; qlra.
Qed.

Definition popped_left (v : view) (e : nat) (l1 l2 : list nat) (v1 : view) : Prop :=
  exists q, Permutation (vq v) ((true, e) :: q) /\ vs v = l1 ++ l2
  /\ (forall i, In i l1 -> below (vp v i) (vp v e)) /\ (forall i, In i l2 -> below (vp v e) (vp v i))
  /\ v1 = View (vn v) (vp v) q (l1 ++ e :: l2) (vo v).

Lemma popL_base : forall T v e l1 l2 v1, base V Ts T v -> settled never v -> lo (vp v e) = T ->
  (forall i, active v i -> T < hi (vp v i)) -> popped_left v e l1 l2 v1 ->
  base V Ts T v1 /\ settled (fun a b => a = e \/ b = e) v1.
Proof.
  intros T v e l1 l2 v1 Hb Hset Le Hhi (q & HP & Es & Hl1 & Hl2 & ->).
  pose proof (b_geo V Ts T v Hb) as Hg. pose proof (b_q V Ts T v Hb) as Hq.
  assert (Fe : future v e) by (unfold future; rewrite HP; left; reflexivity).
  pose proof (q_nodup v Hq) as Hnd. rewrite HP in Hnd. apply NoDup_cons_iff in Hnd. destruct Hnd as (Hne & Hnd).
  assert (Fq : forall i, In (true, i) q <-> future v i /\ i <> e).
  { intro i. unfold future. rewrite HP. split.
    - intro H. split; [right; exact H|intros ->; exact (Hne H)].
    - intros ([H|H] & Hn); [injection H as H; congruence|exact H]. }
  assert (Pq : forall i, In (false, i) q <-> pending v i).
  { intro i. unfold pending. rewrite HP. split; [intro H; right; exact H|intros [H|H]; [discriminate H|exact H]]. }
  assert (Aq : forall i, In i (l1 ++ e :: l2) <-> i = e \/ active v i).
  { intro i. unfold active. rewrite Es, !in_app_iff. cbn. split.
    - intros [H|[H|H]]; [right; left; exact H|left; symmetry; exact H|right; right; exact H].
    - intros [H|[H|H]]; [right; left; symmetry; exact H|left; exact H|right; right; exact H]. }
  assert (Ne : ~ In e (l1 ++ l2)) by (rewrite <- Es; intro H; exact (active_not_future v e Hq H Fe)).
  split; [constructor; cbn [vn vp vq vs vo]|].
  - constructor; [exact (g_len V Ts v Hg)|exact (g_lo V Ts v Hg)|exact (g_hi V Ts v Hg)|exact (g_meet V Ts v Hg)|exact (g_over V Ts v Hg)].
  - constructor; unfold future, pending, active, done; cbn [vn vp vq vs vo].
    + exact Hnd.
    + intros b i H. apply (q_bound v Hq b). rewrite HP. right. exact H.
    + intros i H. apply Pq. apply (q_left v Hq). apply Fq. exact H.
    + intro i. rewrite Aq, Pq, Fq, (q_act v Hq). split.
      * intros [->|(H & H')]; [split; [apply (q_left v Hq); exact Fe|tauto]|split; [exact H|tauto]].
      * intros (H & H'). destruct (Nat.eq_dec i e) as [->|Hn]; [left; reflexivity|right]. split; [exact H|]. tauto.
    + intro i. rewrite Pq. apply (q_done v Hq).
    + pose proof (q_vs v Hq) as K. rewrite Es in K. apply NoDup_Add with (a := e) (l := l1 ++ l2); [apply Add_app|].
      split; [exact K|exact Ne].
    + exact (q_vo v Hq).
  - intros i Hi. apply Aq in Hi. destruct Hi as [->|Hi]; [|apply (b_act V Ts T v Hb i Hi)].
    pose proof (g_len V Ts v Hg e (future_lt v e Hq Fe)). split; qlra.
  - exact (b_done V Ts T v Hb).
  - intros i Hi. apply Fq in Hi. apply (b_fut V Ts T v Hb). apply Hi.
  - apply FOP_add; [rewrite <- Es; exact (b_ord V Ts T v Hb)|exact Hl1|exact Hl2].
  - apply FOP_add; [rewrite <- Es; exact (b_srt V Ts T v Hb)| |].
    + intros i Hi. assert (Ai : active v i) by (unfold active; rewrite Es; apply in_or_app; left; exact Hi).
      destruct (b_act V Ts T v Hb i Ai) as (K & _). pose proof (below_start_le _ _ (Hl1 i Hi)) as J.
      rewrite max_at in J by qlra. rewrite Le in J. exact J.
    + intros i Hi. assert (Ai : active v i) by (unfold active; rewrite Es; apply in_or_app; right; exact Hi).
      destruct (b_act V Ts T v Hb i Ai) as (K & _). pose proof (below_start_le _ _ (Hl2 i Hi)) as J.
      rewrite max_comm, max_at in J by qlra. rewrite Le in J. exact J.
  - assert (Hs : forall i t, seen {| vn := vn v; vp := vp v; vq := q; vs := l1 ++ e :: l2; vo := vo v |} i -> t < T -> has (vp v i) t -> seen v i).
    { intros i t [H|H] Ht Hh; [|right; exact H]. apply Aq in H. destruct H as [->|H]; [destruct Hh; qlra|left; exact H]. }
    intros i j t Hn Si Sj Ht Hi Hj He. apply (b_past V Ts T v Hb i j t Hn); try assumption.
    + apply (Hs i t); assumption.
    + apply (Hs j t); assumption.
  - exact (b_out V Ts T v Hb).
  - intros la a b lb E. cbn [vs] in E.
    destruct (Nat.eq_dec a e) as [Ha|Ha]; [left; left; exact Ha|]. destruct (Nat.eq_dec b e) as [Hbe|Hbe]; [left; right; exact Hbe|right].
    assert (Hc : exists m1 m2, vs v = m1 ++ a :: b :: m2).
    { clear - E Es Ha Hbe. rewrite Es. clear Es. revert l1 E. induction la as [|c la IH]; intros l1 E; cbn [app] in E.
      - destruct l1 as [|d l1]; cbn [app] in E; [injection E as E1 E2; congruence|].
        injection E as -> E. destruct l1 as [|d l1]; cbn [app] in E; [injection E as E1 E2; congruence|].
        injection E as -> E. exists [], (l1 ++ l2). reflexivity.
      - destruct l1 as [|d l1]; cbn [app] in E; injection E as E0 E; [subst l2|subst d].
        + exists la, lb. reflexivity.
        + destruct (IH l1 E) as (m1 & m2 & Em). exists (c :: m1), m2. cbn [app]. rewrite Em. reflexivity. }
    destruct Hc as (m1 & m2 & Em). destruct (Hset m1 a b m2 Em) as [[]|[J|(J & K)]]; [left; exact J|right].
    split; [exact J|]. destruct K as [K|(k & F & Ek & Ck)]; [left; exact K|right]. exists k. split; [|split; [exact Ek|exact Ck]].
    apply Fq. split; [exact F|]. intros ->. cbn [vp] in Ek. rewrite Le in Ek.
    assert (Aa : active v a) by (unfold active; rewrite Em; apply in_or_app; right; left; reflexivity).
    assert (Ab : active v b) by (unfold active; rewrite Em; apply in_or_app; right; right; left; reflexivity).
    pose proof (Hhi a Aa). pose proof (Hhi b Ab).
    destruct (Qc_min_cases (hi (vp v a)) (hi (vp v b))) as [(M & _)|(M & _)]; rewrite M in Ek; qlra.
Qed.

Lemma popL_after : forall T v e l1 l2 v1 v2, base V Ts T v -> settled never v -> lined T v -> lo (vp v e) = T ->
  (forall i, active v i -> T < hi (vp v i)) -> popped_left v e l1 l2 v1 ->
  cuts V Ts T (fun _ => True) v1 v2 -> settled never v2 ->
  passing V T v2 /\ lined T v2.
Proof.
  intros T v e l1 l2 v1 v2 Hb Hset Hlin Le Hhi Hpop Hcs Hset2.
  destruct (popL_base T v e l1 l2 v1 Hb Hset Le Hhi Hpop) as (Hb1 & _).
  pose proof (cuts_base V Ts T _ _ _ Hcs Hb1) as Hb2.
  destruct (cuts_vs V Ts T _ _ _ Hcs) as (Es2 & Eo2).
  pose proof (cuts_keep V Ts T _ _ _ Hcs Hb1) as Hkeep.
  destruct Hpop as (q & HP & Es & Hl1 & Hl2 & ->). cbn [vn vp vq vs vo] in *.
  pose proof (b_geo V Ts T v Hb) as Hg. pose proof (b_q V Ts T v Hb) as Hq.
  pose proof (b_geo V Ts T v2 Hb2) as Hg2. pose proof (b_q V Ts T v2 Hb2) as Hq2.
  assert (Fe : future v e) by (unfold future; rewrite HP; left; reflexivity).
  pose proof (future_lt v e Hq Fe) as LLe.
  assert (Ae : active v2 e) by (unfold active; rewrite Es2; apply in_or_app; right; left; reflexivity).
  destruct (Hkeep e LLe) as (_ & Ke1 & Ke2 & Ke3 & Ke4 & _).
  assert (Hold : forall i, active v2 i -> i <> e -> active v i).
  { intros i Hi Hn. unfold active in *. rewrite Es2 in Hi. rewrite Es.
    apply in_app_or in Hi. apply in_or_app. destruct Hi as [Hi|[Hi|Hi]]; [left; exact Hi|congruence|right; exact Hi]. }
  split.
  - intros x y Ax Ix Hx _ _.
    destruct (Nat.eq_dec x e) as [->|Hn]; [destruct Ix as (I & _); rewrite Ke1 in I; qlra|].
    assert (Exe : ht (vp v2 x) T = ht (vp v2 e) T).
    { rewrite Hx. destruct (g_lo V Ts v2 Hg2 e (active_lt v2 e Hq2 Ae)) as (G & _). rewrite Ke1, Le in G. symmetry. exact G. }
    destruct (chain T v2 T x e Hb2 Hset2 (b_act V Ts T v2 Hb2) (b_srt V Ts T v2 Hb2) Ax Ae Hn Exe Ix)
      as [((_ & K & _) & _)|(z & k & _ & _ & _ & F & K & C)].
    + destruct Ix as (I & _). rewrite Ke1 in K. qlra.
    + exists k. split; [exact F|]. split; [exact K|exact C].
  - intros x y Dx Ex Ay Htw.
    assert (Dx' : done v x) by (unfold done in *; rewrite <- Eo2; exact Dx).
    pose proof (done_lt v x Hq Dx') as Lx.
    destruct (Hkeep x Lx) as (_ & Kx1 & Kx2 & Kx3 & Kx4 & Kx5).
    assert (Ex' : hi (vp v x) = T).
    { destruct Kx5 as [K|(_ & K & _)]; [congruence|exfalso].
      apply (active_not_done _ x (b_q V Ts T _ Hb1) K). exact Dx'. }
    pose proof (g_len V Ts v Hg x Lx) as Gx.
    assert (Hye : y <> e).
    { intros ->. destruct Htw as (_ & E & _). rewrite Kx1, Ke1 in E. qlra. }
    pose proof (Hold y Ay Hye) as Ay'. pose proof (active_lt v y Hq Ay') as Ly.
    destruct (Hkeep y Ly) as (_ & Ky1 & Ky2 & Ky3 & Ky4 & _).
    assert (Htw' : twin (vp v x) (vp v y)).
    { destruct Htw as ((E1 & E2) & E3 & E4). split; [split; congruence|]. split; congruence. }
    destruct (Hlin x y Dx' Ex' Ay' Htw') as (Hl & _).
    split; [rewrite Eo2; exact Hl|].
    intros z Az Hzy Hz. exfalso.
    destruct (Nat.eq_dec z e) as [->|Hze].
    { pose proof (g_len V Ts v2 Hg2 e (active_lt v2 e Hq2 Ae)) as K. rewrite Ke1 in K. qlra. }
    pose proof (Hold z Az Hze) as Az'. pose proof (active_lt v z Hq Az') as Lz.
    destruct (Hkeep z Lz) as (Lz2 & Kz1 & Kz2 & Kz3 & Kz4 & _).
    assert (Iz : inner (vp v z) T).
    { split; [|apply Hhi; exact Az']. pose proof (g_len V Ts v2 Hg2 z Lz2) as K. rewrite Kz1, Hz in K. exact K. }
    assert (Hz' : ht (vp v z) T = V T).
    { destruct (g_hi V Ts v2 Hg2 z Lz2) as (K & _). rewrite Hz in K. rewrite <- K. unfold ht. rewrite Kz2, Kz3. reflexivity. }
    assert (Hy' : ht (vp v y) T = V T).
    { destruct Htw' as (C & _). rewrite <- (coll_ht _ _ T C), <- Ex'. apply (g_hi V Ts v Hg x Lx). }
    destruct (chain T v T z y Hb Hset (b_act V Ts T v Hb) (b_srt V Ts T v Hb) Az' Ay' Hzy (eq_trans Hz' (eq_sym Hy')) Iz)
      as [(K & _)|(w & k & Aw & _ & Ew & _)].
    + apply (no_three v Hg x y z Lx Ly Lz); [|exact Htw'|apply twin_sym; exact K].
      intros <-. exact (active_not_done v x Hq Az' Dx').
    + pose proof (Hhi w Aw). qlra.
Qed.

(** ** A right event *)
Definition popped_right (v : view) (y : nat) (l1 l2 : list nat) (v1 : view) : Prop :=
  exists q, Permutation (vq v) ((false, y) :: q) /\ vs v = l1 ++ y :: l2
  /\ v1 = View (vn v) (vp v) q (l1 ++ l2) (y :: vo v).

Lemma popR_active : forall T v y, base V Ts T v -> pending v y -> hi (vp v y) = T -> active v y.
Proof.
  intros T v y Hb Py Hy. pose proof (b_geo V Ts T v Hb) as Hg. pose proof (b_q V Ts T v Hb) as Hq.
  apply (q_act v Hq). split; [exact Py|]. intro F. pose proof (b_fut V Ts T v Hb y F).
  pose proof (g_len V Ts v Hg y (future_lt v y Hq F)). qlra.
Qed.

Lemma popR_base : forall T v y l1 l2 v1, base V Ts T v -> settled never v -> lined T v ->
  hi (vp v y) = T -> popped_right v y l1 l2 v1 ->
  base V Ts T v1 /\ settled (fun a b => exists m1 m2, l1 = m1 ++ [a] /\ l2 = b :: m2) v1.
Proof.
  intros T v y l1 l2 v1 Hb Hset Hlin Hy (q & HP & Es & ->).
  pose proof (b_geo V Ts T v Hb) as Hg. pose proof (b_q V Ts T v Hb) as Hq.
  assert (Py : pending v y) by (unfold pending; rewrite HP; left; reflexivity).
  pose proof (popR_active T v y Hb Py Hy) as Ay.
  pose proof (q_nodup v Hq) as Hnd. rewrite HP in Hnd. apply NoDup_cons_iff in Hnd. destruct Hnd as (Hne & Hnd).
  assert (Fq : forall i, In (true, i) q <-> future v i).
  { intro i. unfold future. rewrite HP. split; [intro H; right; exact H|intros [H|H]; [discriminate H|exact H]]. }
  assert (Pq : forall i, In (false, i) q <-> pending v i /\ i <> y).
  { intro i. unfold pending. rewrite HP. split.
    - intro H. split; [right; exact H|intros ->; exact (Hne H)].
    - intros ([H|H] & Hn); [injection H as H; congruence|exact H]. }
  pose proof (q_vs v Hq) as Hvs. rewrite Es in Hvs. pose proof (NoDup_remove_1 _ _ _ Hvs) as Hvs1.
  pose proof (NoDup_remove_2 _ _ _ Hvs) as Hvs2.
  assert (Aq : forall i, In i (l1 ++ l2) <-> active v i /\ i <> y).
  { intro i. unfold active. rewrite Es. split.
    - intro H. split; [|intros ->; exact (Hvs2 H)]. rewrite in_app_iff in *. cbn. tauto.
    - intros (H & Hn). rewrite in_app_iff in *. cbn in H. destruct H as [H|[H|H]]; [left; exact H|congruence|right; exact H]. }
  assert (Nf : ~ future v y) by (apply (active_not_future v y Hq Ay)).
  pose proof (active_lt v y Hq Ay) as Ly.
  assert (Hseen : forall i, seen {| vn := vn v; vp := vp v; vq := q; vs := l1 ++ l2; vo := y :: vo v |} i -> seen v i).
  { intros i [H|[<-|H]]; [left; apply Aq in H; apply H|left; exact Ay|right; exact H]. }
  split; [constructor; cbn [vn vp vq vs vo]|].
  - constructor; [exact (g_len V Ts v Hg)|exact (g_lo V Ts v Hg)|exact (g_hi V Ts v Hg)|exact (g_meet V Ts v Hg)|exact (g_over V Ts v Hg)].
  - constructor; unfold future, pending, active, done; cbn [vn vp vq vs vo].
    + exact Hnd.
    + intros b i H. apply (q_bound v Hq b). rewrite HP. right. exact H.
    + intros i H. apply Fq in H. apply Pq. split; [apply (q_left v Hq); exact H|intros ->; exact (Nf H)].
    + intro i. rewrite Aq, Pq, Fq, (q_act v Hq). tauto.
    + intro i. rewrite Pq. cbn. split.
      * intros [<-|H]; [split; [exact Ly|tauto]|]. apply (q_done v Hq) in H. split; [apply H|tauto].
      * intros (H & K). destruct (Nat.eq_dec y i) as [E|E]; [left; exact E|right].
        apply (q_done v Hq). split; [exact H|]. intro J. apply K. split; [exact J|congruence].
    + exact Hvs1.
    + constructor; [exact (active_not_done v y Hq Ay)|exact (q_vo v Hq)].
  - intros i Hi. apply Aq in Hi. apply (b_act V Ts T v Hb). apply Hi.
  - intros i [<-|Hi]; [rewrite Hy; apply Qcle_refl|apply (b_done V Ts T v Hb i Hi)].
  - intros i Hi. apply Fq in Hi. apply (b_fut V Ts T v Hb). exact Hi.
  - pose proof (b_ord V Ts T v Hb) as K. rewrite Es in K. apply FOP_drop in K. exact K.
  - pose proof (b_srt V Ts T v Hb) as K. rewrite Es in K. apply FOP_drop in K. exact K.
  - intros i j t Hn Si Sj. apply (b_past V Ts T v Hb i j t Hn (Hseen i Si) (Hseen j Sj)).
  - intros a b Hn [<-|Da] [<-|Db] Htw He.
    + congruence.
    + destruct (Hlin b y Db (eq_trans (eq_sym He) Hy) Ay (twin_sym _ _ Htw)) as ((l & El) & _).
      exists [], l. left. cbn. rewrite El. reflexivity.
    + destruct (Hlin a y Da (eq_trans He Hy) Ay Htw) as ((l & El) & _).
      exists [], l. right. cbn. rewrite El. reflexivity.
    + apply next_to_cons. apply (b_out V Ts T v Hb a b Hn Da Db Htw He).
  - intros la a b lb E. cbn [vs] in E.
    assert (Hc : (exists m1 m2, l1 = m1 ++ [a] /\ l2 = b :: m2) \/ exists m1 m2, l1 ++ y :: l2 = m1 ++ a :: b :: m2).
    { clear - E. revert la E. induction l1 as [|c l1 IH]; intros la E; cbn [app] in E.
      - right. exists (y :: la), lb. cbn. rewrite E. reflexivity.
      - destruct la as [|d la]; cbn [app] in E; injection E as E0 E.
        + subst c. destruct l1 as [|c l1].
          * left. exists [], lb. split; [reflexivity|exact E].
          * cbn [app] in E. injection E as -> E. right. exists [], (l1 ++ y :: l2). reflexivity.
        + subst d. destruct (IH la E) as [(m1 & m2 & -> & ->)|(m1 & m2 & K)].
          * left. exists (c :: m1), m2. split; reflexivity.
          * right. exists (c :: m1), m2. cbn. rewrite K. reflexivity. }
    destruct Hc as [Hc|(m1 & m2 & Em)]; [left; exact Hc|right]. rewrite <- Es in Em.
    destruct (Hset m1 a b m2 Em) as [[]|[J|(J & K)]]; [left; exact J|right].
    split; [exact J|]. destruct K as [K|(k & F & Ek)]; [left; exact K|right]. exists k. split; [apply Fq; exact F|exact Ek].
Qed.

(** Nothing lies between twins. *)
Lemma between_twins : forall a b w, twin a b -> below a w -> below w b -> False.
Proof.
  intros a b w (C & L & O) H J. unfold below in H, J. rewrite (max_comm (lo w)), <- L in J.
  set (m := Qc_max (lo a) (lo w)) in *. pose proof (coll_ht _ _ m C) as E. destruct C as (S & _).
  destruct H as [H|(H & [H'|(H' & H1 & H2)])], J as [J|(J & [J'|(J' & J1 & J2)])]; try qlra; congruence.
Qed.
Lemma in_last : forall (l : list nat) x, In x l -> exists l1 l2, l = l1 ++ x :: l2.
Proof. intros l x H. apply in_split. exact H. Qed.

Lemma ends_order : forall x z T, hi x = T -> hi z = T -> lo x < T -> lo z < T -> ht x T = ht z T ->
  (sl z < sl x -> below x z) /\ (below x z -> sl z <= sl x).
Proof.
  intros x z T Hx Hz Lx Lz E. assert (Hm : Qc_max (lo x) (lo z) < T) by (destruct (Qc_max_cases (lo x) (lo z)) as [(-> & _)|(-> & _)]; assumption).
  split.
  - intro H. left. exact (ht_before z x T _ (eq_sym E) H Hm).
  - intro H. destruct (Qclt_le_dec (sl x) (sl z)) as [K|K]; [exfalso|exact K].
    pose proof (ht_before x z T _ E K Hm) as J. pose proof (below_start_le _ _ H). qlra.
Qed.

Lemma popR_after : forall T v y l1 l2 v1 v2, base V Ts T v -> settled never v -> passing V T v -> lined T v ->
  hi (vp v y) = T ->
  (forall z, pending v z -> hi (vp v z) = T -> z <> y ->
     sl (vp v z) < sl (vp v y)
     \/ (sl (vp v z) = sl (vp v y) /\ op (vp v y) = false /\ op (vp v z) = true)) ->
  popped_right v y l1 l2 v1 ->
  cuts V Ts T (fun i => exists m1 m2 a b, l1 = m1 ++ [a] /\ l2 = b :: m2 /\ (i = a \/ i = b)) v1 v2 ->
  settled never v2 -> passing V T v2 /\ lined T v2.
Proof.
  intros T v y l1 l2 v1 v2 Hb Hset Hpass Hlin Hy Hkey Hpop Hcs Hset2.
  destruct (popR_base T v y l1 l2 v1 Hb Hset Hlin Hy Hpop) as (Hb1 & _).
  pose proof (cuts_base V Ts T _ _ _ Hcs Hb1) as Hb2.
  destruct (cuts_vs V Ts T _ _ _ Hcs) as (Es2 & Eo2).
  pose proof (cuts_keep V Ts T _ _ _ Hcs Hb1) as Hkeep. pose proof (cuts_future V Ts T _ _ _ Hcs Hb1) as Hfut.
  destruct Hpop as (q & HP & Es & ->). cbn [vn vp vq vs vo] in *.
  pose proof (b_geo V Ts T v Hb) as Hg. pose proof (b_q V Ts T v Hb) as Hq.
  pose proof (b_geo V Ts T v2 Hb2) as Hg2. pose proof (b_q V Ts T v2 Hb2) as Hq2.
  assert (Py : pending v y) by (unfold pending; rewrite HP; left; reflexivity).
  pose proof (popR_active T v y Hb Py Hy) as Ay. pose proof (active_lt v y Hq Ay) as Ly.
  pose proof (g_len V Ts v Hg y Ly) as Gy.
  destruct (g_hi V Ts v Hg y Ly) as (Vy & _). rewrite Hy in Vy.
  pose proof (q_vs v Hq) as Hvs. rewrite Es in Hvs. pose proof (NoDup_remove_2 _ _ _ Hvs) as Hvs2.
  assert (Hold : forall i, active v2 i -> active v i /\ i <> y).
  { intros i Hi. unfold active in *. rewrite Es2 in Hi. split; [|intros ->; exact (Hvs2 Hi)].
    rewrite Es. rewrite in_app_iff in *. cbn. tauto. }
  assert (Hf : forall k x, future v k -> lo (vp v k) = T -> coll (vp v k) (vp v x) -> coll (vp v2 x) (vp v x) ->
            exists k, future v2 k /\ lo (vp v2 k) = T /\ coll (vp v2 k) (vp v2 x)).
  { intros k x F E C Cx. exists k. destruct (Hfut k) as (K1 & K2).
    - unfold future in *. cbn. rewrite HP in F. destruct F as [F|F]; [discriminate F|exact F].
    - split; [exact K1|]. rewrite K2. split; [exact E|]. exact (coll_trans _ _ _ C (coll_sym _ _ Cx)). }
  split.
  - intros x w Ax Ix Hx Dw Ew. destruct (Hold x Ax) as (Ax' & Nx). pose proof (active_lt v x Hq Ax') as Lx.
    destruct (Hkeep x Lx) as (_ & Kx1 & Kx2 & Kx3 & Kx4 & Kx5).
    assert (Ix' : inner (vp v x) T).
    { destruct Ix as (I1 & I2). split; [congruence|]. destruct Kx5 as [K|(_ & _ & K & _)]; [congruence|qlra]. }
    assert (Hx' : ht (vp v x) T = V T) by (rewrite <- Hx; unfold ht; rewrite Kx2, Kx3; reflexivity).
    unfold done in Dw. rewrite Eo2 in Dw. destruct Dw as [<-|Dw].
    + destruct (chain T v T x y Hb Hset (b_act V Ts T v Hb) (b_srt V Ts T v Hb) Ax' Ay Nx (eq_trans Hx' (eq_sym Vy)) Ix')
        as [(_ & K)|(z & k & _ & _ & _ & F & K & C)]; [qlra|]. exact (Hf k x F K C (conj Kx2 Kx3)).
    + pose proof (done_lt v w Hq Dw) as Lw. destruct (Hkeep w Lw) as (_ & _ & _ & _ & _ & Kw5).
      assert (Ew' : hi (vp v w) = T).
      { destruct Kw5 as [K|(_ & K & _)]; [congruence|exfalso].
        apply (active_not_done _ w (b_q V Ts T _ Hb1) K). right. exact Dw. }
      destruct (Hpass x w Ax' Ix' Hx' Dw Ew') as (k & F & K & C). exact (Hf k x F K C (conj Kx2 Kx3)).
  - intros x y' Dx Ex Ay2 Htw. destruct (Hold y' Ay2) as (Ay' & Ny').
    pose proof (active_lt v y' Hq Ay') as Ly'.
    destruct (Hkeep y' Ly') as (Ly2 & Ky1 & Ky2 & Ky3 & Ky4 & Ky5).
    assert (Lx : (x < vn v)%nat).
    { unfold done in Dx. rewrite Eo2 in Dx. destruct Dx as [<-|Dx]; [exact Ly|exact (done_lt v x Hq Dx)]. }
    destruct (Hkeep x Lx) as (_ & Kx1 & Kx2 & Kx3 & Kx4 & Kx5).
    assert (Htw' : twin (vp v x) (vp v y')).
    { destruct Htw as ((E1 & E2) & E3 & E4). split; [split; congruence|]. split; congruence. }
    assert (Ex' : hi (vp v x) = T).
    { destruct Kx5 as [K|(_ & K & _)]; [congruence|exfalso].
      apply (active_not_done _ x (b_q V Ts T _ Hb1) K). unfold done in Dx. rewrite Eo2 in Dx. exact Dx. }
    assert (Exy : x = y).
    { unfold done in Dx. rewrite Eo2 in Dx. destruct Dx as [Dx|Dx]; [symmetry; exact Dx|exfalso].
      destruct (Hlin x y' Dx Ex' Ay' Htw') as (_ & Hl).
      destruct (Hl y Ay (not_eq_sym Ny') Hy) as (K1 & K2).
      pose proof (g_len V Ts v Hg x Lx) as Gx. pose proof (g_len V Ts v Hg y' Ly') as Gy'.
      destruct (g_hi V Ts v Hg y' Ly') as (Vy' & _). rewrite K1 in Vy'.
      destruct (ends_order (vp v y') (vp v y) T K1 Hy) as (_ & K3); [qlra|qlra|congruence|]. specialize (K3 K2).
      destruct (Hkey y' (active_pending v y' Hq Ay') K1 Ny') as [K|(K & O1 & O2)]; [qlra|].
      assert (C : coll (vp v y') (vp v y)) by (apply (ht_slopes _ _ T); congruence).
      destruct Htw' as (C' & E' & O').
      assert (Hxy : x <> y) by (intros ->; exact (active_not_done v y Hq Ay Dx)).
      destruct (g_over V Ts v Hg x y Lx Ly Hxy) as [J|J].
      - destruct (op (vp v x)), (op (vp v y')), (op (vp v y)); congruence.
      - exact (coll_trans _ _ _ C' C).
      - qlra.
      - qlra. }
    subst x. split; [rewrite Eo2; exists (vo v); reflexivity|].
    intros z Az2 Nz Hz. destruct (Hold z Az2) as (Az & Nzy). pose proof (active_lt v z Hq Az) as Lz.
    destruct (Hkeep z Lz) as (Lz2 & Kz1 & Kz2 & Kz3 & Kz4 & Kz5).
    pose proof (g_len V Ts v2 Hg2 z Lz2) as Gz2. rewrite Kz1, Hz in Gz2.
    destruct (g_hi V Ts v2 Hg2 z Lz2) as (Vz2 & _). rewrite Hz in Vz2.
    assert (Vz : ht (vp v z) T = V T) by (rewrite <- Vz2; unfold ht; rewrite Kz2, Kz3; reflexivity).
    assert (Vy' : ht (vp v y') T = V T) by (destruct Htw' as (C & _); rewrite <- (coll_ht _ _ T C); exact Vy).
    assert (Gy' : lo (vp v y') < T) by (destruct Htw' as (_ & E & _); rewrite <- E; qlra).
    assert (Hz' : hi (vp v z) = T).
    { destruct Kz5 as [K|(K & _ & K1 & _)]; [congruence|exfalso].
      assert (Iz : inner (vp v z) T) by (split; [exact Gz2|qlra]).
      destruct K as (m1 & m2 & a & b & -> & -> & K).
      (* the twin of the finished piece is one of its neighbours *)
      assert (Hab : y' = a \/ y' = b).
      { pose proof (b_ord V Ts T v Hb) as Ho. rewrite Es in Ho.
        assert (Iy : In y' (m1 ++ [a]) \/ In y' (b :: m2)).
        { unfold active in Ay2. rewrite Es2 in Ay2. apply in_app_or in Ay2. exact Ay2. }
        destruct Iy as [Iy|[Iy|Iy]]; [|right; symmetry; exact Iy|exfalso].
        - apply in_app_or in Iy. destruct Iy as [Iy|[Iy|[]]]; [exfalso|left; symmetry; exact Iy].
          rewrite <- app_assoc in Ho. cbn [app] in Ho.
          pose proof (FOP_prev _ _ m1 a (y :: b :: m2) y' Ho Iy) as H1.
          pose proof (FOP_next _ _ m1 a (y :: b :: m2) y Ho (or_introl eq_refl)) as H2.
          exact (between_twins _ _ _ (twin_sym _ _ Htw') H1 H2).
        - pose proof (FOP_next _ _ (m1 ++ [a]) y (b :: m2) b Ho (or_introl eq_refl)) as H1.
          replace ((m1 ++ [a]) ++ y :: b :: m2) with ((m1 ++ [a; y]) ++ b :: m2) in Ho by (rewrite <- !app_assoc; reflexivity).
          pose proof (FOP_next _ _ (m1 ++ [a; y]) b m2 y' Ho Iy) as H2.
          exact (between_twins _ _ _ Htw' H1 H2). }
      assert (Jz : adj v z y).
      { destruct K as [->| ->].
        - destruct (Hset m1 a y (b :: m2)) as [[]|J]; [rewrite Es, <- app_assoc; reflexivity|exact J].
        - destruct (Hset (m1 ++ [a]) y b m2 Es) as [[]|J]; apply adj_sym; exact J. }
      destruct (adj_inner v z y T Jz Iz (b_act V Ts T v Hb y Ay) (eq_trans Vz (eq_sym Vy))) as (Htz & _).
      exact (no_three v Hg z y y' Lz Ly Ly' Nz Htz Htw'). }
    assert (Hy2 : hi (vp v2 y') = T).
    { destruct (b_act V Ts T v2 Hb2 y' Ay2) as (_ & Hle). destruct (Qcle_lt_or_eq _ _ Hle) as [Hlt|Heq]; [exfalso|symmetry; exact Heq].
      assert (Iy : inner (vp v2 y') T) by (split; [rewrite Ky1; exact Gy'|exact Hlt]).
      assert (E : ht (vp v2 y') T = ht (vp v2 z) T) by (rewrite Vz2, <- Vy'; unfold ht; rewrite Ky2, Ky3; reflexivity).
      destruct (chain T v2 T y' z Hb2 Hset2 (b_act V Ts T v2 Hb2) (b_srt V Ts T v2 Hb2) Ay2 Az2 (not_eq_sym Nz) E Iy)
        as [(_ & K)|(w & k & Aw & Hw & _)]; [qlra|].
      destruct (Hold w Aw) as (Aw' & Nw).
      apply (no_three v2 Hg2 y y' w); try assumption.
      - destruct (Hkeep y Ly) as (K & _). exact K.
      - exact (active_lt v2 w Hq2 Aw).
      - congruence. }
    split; [exact Hy2|].
    apply (ends_order (vp v2 y') (vp v2 z) T Hy2 Hz).
    + rewrite Ky1. exact Gy'.
    + rewrite Kz1. exact Gz2.
    + rewrite Vz2, <- Vy'. unfold ht. rewrite Ky2, Ky3. reflexivity.
    + rewrite Kz2, Ky2. destruct Htw' as (C & E & O). pose proof C as (C1 & C2). rewrite <- C1.
      destruct (Hkey z (active_pending v z Hq Az) Hz' Nzy) as [K|(K & O1 & O2)]; [exact K|exfalso].
      assert (Cz : coll (vp v z) (vp v y)) by (apply (ht_slopes _ _ T); congruence).
      destruct (b_act V Ts T v Hb y' Ay') as (_ & Hle).
      destruct (g_over V Ts v Hg z y' Lz Ly' Nz) as [J|J].
      * rewrite O2. destruct (op (vp v y')); congruence.
      * exact (coll_trans _ _ _ Cz C).
      * qlra.
      * qlra.
Qed.

End Core.
