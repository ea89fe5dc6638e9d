(** The invariant of a sweep over the abstract view, and its preservation by
    cutting a piece.  Proof support only, no part of /repo is modelled here. *)
From Coq Require Import Permutation.
From Verif Require Import QcTac Geom GeomFacts SweepGeo.

(** [vn] pieces; queue of left ([true]) and right ([false]) events of pieces;
    the sweep line from bottom to top; pieces whose right event has been
    processed, the latest first. *)
Record view := View {
  vn : nat;
  vp : nat -> piece;
  vq : list (bool * nat);
  vs : list nat;
  vo : list nat
}.

Definition future (v : view) (i : nat) : Prop := In (true, i) (vq v).
Definition pending (v : view) (i : nat) : Prop := In (false, i) (vq v).
Definition active (v : view) (i : nat) : Prop := In i (vs v).
Definition done (v : view) (i : nat) : Prop := In i (vo v).
Definition seen (v : view) (i : nat) : Prop := active v i \/ done v i.

(** Settled neighbours: [detect_intersection] has nothing left to do, except
    that a twin may be waiting for a left event at its end, collinear with it. *)
Definition adj (v : view) (a b : nat) : Prop :=
  apart (vp v a) (vp v b)
  \/ (twin (vp v a) (vp v b)
      /\ (hi (vp v a) = hi (vp v b)
          \/ exists k, future v k /\ lo (vp v k) = Qc_min (hi (vp v a)) (hi (vp v b)) /\ coll (vp v k) (vp v a))).

Definition settled (E : nat -> nat -> Prop) (v : view) : Prop :=
  forall l1 a b l2, vs v = l1 ++ a :: b :: l2 -> E a b \/ adj v a b.

Definition next_to {A} (x y : A) (l : list A) : Prop :=
  exists l1 l2, l = l1 ++ x :: y :: l2 \/ l = l1 ++ y :: x :: l2.

Record queues (v : view) : Prop := {
  q_nodup : NoDup (vq v);
  q_bound : forall b i, In (b, i) (vq v) -> (i < vn v)%nat;
  q_left : forall i, future v i -> pending v i;
  q_act : forall i, active v i <-> pending v i /\ ~ future v i;
  q_done : forall i, done v i <-> (i < vn v)%nat /\ ~ pending v i;
  q_vs : NoDup (vs v);
  q_vo : NoDup (vo v)
}.

Section Core.
(** Height of the only relevant point at an abscissa; relevant abscissas. *)
Variables (V : Qc -> Qc) (Ts : list Qc).

Record geo (v : view) : Prop := {
  g_len : forall i, (i < vn v)%nat -> lo (vp v i) < hi (vp v i);
  g_lo : forall i, (i < vn v)%nat -> ht (vp v i) (lo (vp v i)) = V (lo (vp v i)) /\ In (lo (vp v i)) Ts;
  g_hi : forall i, (i < vn v)%nat -> ht (vp v i) (hi (vp v i)) = V (hi (vp v i)) /\ In (hi (vp v i)) Ts;
  g_meet : forall i j t, (i < vn v)%nat -> (j < vn v)%nat -> ~ coll (vp v i) (vp v j) ->
    has (vp v i) t -> has (vp v j) t -> ht (vp v i) t = ht (vp v j) t ->
    ht (vp v i) t = V t /\ In t Ts;
  g_over : forall i j, (i < vn v)%nat -> (j < vn v)%nat -> i <> j -> op (vp v i) = op (vp v j) ->
    coll (vp v i) (vp v j) -> hi (vp v i) <= lo (vp v j) \/ hi (vp v j) <= lo (vp v i)
}.

Record base (T : Qc) (v : view) : Prop := {
  b_geo : geo v;
  b_q : queues v;
  b_act : forall i, active v i -> has (vp v i) T;
  b_done : forall i, done v i -> hi (vp v i) <= T;
  b_fut : forall i, future v i -> T <= lo (vp v i);
  b_ord : ForallOrdPairs (fun i j => below (vp v i) (vp v j)) (vs v);
  b_srt : ForallOrdPairs (fun i j => ht (vp v i) T <= ht (vp v j) T) (vs v);
  b_past : forall i j t, i <> j -> seen v i -> seen v j -> t < T ->
    has (vp v i) t -> has (vp v j) t -> ht (vp v i) t = ht (vp v j) t ->
    (tip (vp v i) t /\ tip (vp v j) t)
    \/ (twin (vp v i) (vp v j)
        /\ (hi (vp v i) = hi (vp v j) \/ (T <= hi (vp v i) /\ T <= hi (vp v j))));
  b_out : forall x y, x <> y -> done v x -> done v y -> twin (vp v x) (vp v y) ->
    hi (vp v x) = hi (vp v y) -> next_to x y (vo v)
}.

(** A piece passing through the current point, where another one has ended,
    is going to be cut there by a left event at that point, collinear with it. *)
Definition passing (T : Qc) (v : view) : Prop :=
  forall x y, active v x -> inner (vp v x) T -> ht (vp v x) T = V T ->
    done v y -> hi (vp v y) = T -> exists k, future v k /\ lo (vp v k) = T /\ coll (vp v k) (vp v x).

(** When a finished piece has a twin on the sweep line, it was the last one
    finished and the twin is the lowest of those ending here. *)
Definition lined (T : Qc) (v : view) : Prop :=
  forall x y, done v x -> hi (vp v x) = T -> active v y -> twin (vp v x) (vp v y) ->
    (exists l, vo v = x :: l)
    /\ forall z, active v z -> z <> y -> hi (vp v z) = T ->
         hi (vp v y) = T /\ below (vp v y) (vp v z).

(** ** Cutting *)
Record cut (v : view) (x : nat) (q : Qc) (v' : view) : Prop := {
  c_n : vn v' = S (vn v);
  c_head : vp v' x = set_hi (vp v x) q;
  c_tail : vp v' (vn v) = set_lo (vp v x) q;
  c_same : forall i, (i < vn v)%nat -> i <> x -> vp v' i = vp v i;
  c_q : Permutation (vq v') ((true, vn v) :: (false, vn v) :: vq v);
  c_s : vs v' = vs v;
  c_o : vo v' = vo v
}.
Definition cutok (T : Qc) (v : view) (x : nat) (q : Qc) : Prop :=
  active v x /\ inner (vp v x) q /\ T <= q /\ In q Ts /\ ht (vp v x) q = V q.

Lemma active_lt : forall v i, queues v -> active v i -> (i < vn v)%nat.
Proof. intros v i Hq H. apply (q_act v Hq) in H. apply (q_bound v Hq false). apply H. Qed.
Lemma done_lt : forall v i, queues v -> done v i -> (i < vn v)%nat.
Proof. intros v i Hq H. apply (q_done v Hq) in H. apply H. Qed.
Lemma future_lt : forall v i, queues v -> future v i -> (i < vn v)%nat.
Proof. intros v i Hq H. apply (q_bound v Hq true). apply H. Qed.
Lemma seen_lt : forall v i, queues v -> seen v i -> (i < vn v)%nat.
Proof. intros v i Hq [H|H]; [apply active_lt|apply done_lt]; assumption. Qed.
Lemma active_not_done : forall v i, queues v -> active v i -> ~ done v i.
Proof.
  intros v i Hq H J. apply (q_act v Hq) in H. apply (q_done v Hq) in J. destruct J as (_ & J). apply J. apply H.
Qed.
Lemma active_not_future : forall v i, queues v -> active v i -> ~ future v i.
Proof. intros v i Hq H. apply (q_act v Hq) in H. apply H. Qed.

Section CutFacts.
Variables (T : Qc) (v v' : view) (x : nat) (q : Qc).
Hypothesis Hb : base T v.
Hypothesis Hc : cut v x q v'.
Hypothesis Hok : cutok T v x q.

Let Hq : queues v := b_q T v Hb.
Let Hx : (x < vn v)%nat := active_lt v x Hq (proj1 Hok).

Lemma cut_keep : forall i, (i < vn v)%nat ->
  lo (vp v' i) = lo (vp v i) /\ sl (vp v' i) = sl (vp v i) /\ ic (vp v' i) = ic (vp v i)
  /\ op (vp v' i) = op (vp v i)
  /\ (hi (vp v' i) = hi (vp v i) \/ (i = x /\ hi (vp v' i) = q /\ q < hi (vp v i) /\ T <= q)).
Proof.
  intros i Hi. destruct (Nat.eq_dec i x) as [->|Hn].
  - rewrite (c_head _ _ _ _ Hc). cbn. repeat split. right. pose proof Hok as (_ & (_ & H) & H' & _).
    repeat split; assumption.
  - rewrite (c_same _ _ _ _ Hc i Hi Hn). repeat split. left. reflexivity.
Qed.
Lemma cut_ht : forall i t, (i < vn v)%nat -> ht (vp v' i) t = ht (vp v i) t.
Proof. intros i t Hi. destruct (cut_keep i Hi) as (_ & H & J & _). unfold ht. rewrite H, J. reflexivity. Qed.
Lemma cut_lo : forall i, (i < vn v)%nat -> lo (vp v' i) = lo (vp v i).
Proof. intros i Hi. apply (cut_keep i Hi). Qed.
Lemma cut_op : forall i, (i < vn v)%nat -> op (vp v' i) = op (vp v i).
Proof. intros i Hi. apply (cut_keep i Hi). Qed.
Lemma cut_hi_le : forall i, (i < vn v)%nat -> hi (vp v' i) <= hi (vp v i).
Proof. intros i Hi. destruct (cut_keep i Hi) as (_ & _ & _ & _ & [->|(_ & -> & H & _)]); qlra. Qed.
Lemma cut_coll_self : forall i, (i < vn v)%nat -> coll (vp v' i) (vp v i).
Proof. intros i Hi. destruct (cut_keep i Hi) as (_ & H & J & _). split; assumption. Qed.
Lemma cut_coll : forall i j, (i < vn v)%nat -> (j < vn v)%nat ->
  (coll (vp v' i) (vp v' j) <-> coll (vp v i) (vp v j)).
Proof.
  intros i j Hi Hj. destruct (cut_keep i Hi) as (_ & H & J & _), (cut_keep j Hj) as (_ & K & L & _).
  unfold coll. rewrite H, J, K, L. reflexivity.
Qed.
Lemma cut_has : forall i t, (i < vn v)%nat -> has (vp v' i) t -> has (vp v i) t.
Proof.
  intros i t Hi (H & J). pose proof (cut_hi_le i Hi). rewrite (cut_lo i Hi) in H. split; qlra.
Qed.
Lemma cut_twin : forall i j, (i < vn v)%nat -> (j < vn v)%nat ->
  (twin (vp v' i) (vp v' j) <-> twin (vp v i) (vp v j)).
Proof.
  intros i j Hi Hj. unfold twin. rewrite (cut_coll i j Hi Hj), (cut_lo i Hi), (cut_lo j Hj), (cut_op i Hi), (cut_op j Hj).
  reflexivity.
Qed.
Lemma cut_below : forall i j, (i < vn v)%nat -> (j < vn v)%nat ->
  (below (vp v' i) (vp v' j) <-> below (vp v i) (vp v j)).
Proof.
  intros i j Hi Hj.
  split; intro H;
    (eapply below_ext; [| | | | | |exact H]);
    try apply cut_coll_self; try apply coll_sym; try apply cut_coll_self; try apply cut_lo; try apply cut_op;
    try (symmetry; apply cut_lo); try (symmetry; apply cut_op); assumption.
Qed.
Lemma cut_future : forall i, future v' i <-> i = vn v \/ future v i.
Proof.
  intro i. unfold future. split.
  - intro H. apply (Permutation_in _ (c_q _ _ _ _ Hc)) in H. destruct H as [H|[H|H]]; [left; congruence|discriminate|right; exact H].
  - intro H. apply (Permutation_in _ (Permutation_sym (c_q _ _ _ _ Hc))).
    destruct H as [->|H]; [left; reflexivity|right; right; exact H].
Qed.
Lemma cut_pending : forall i, pending v' i <-> i = vn v \/ pending v i.
Proof.
  intro i. unfold pending. split.
  - intro H. apply (Permutation_in _ (c_q _ _ _ _ Hc)) in H. destruct H as [H|[H|H]]; [discriminate|left; congruence|right; exact H].
  - intro H. apply (Permutation_in _ (Permutation_sym (c_q _ _ _ _ Hc))).
    destruct H as [->|H]; [right; left; reflexivity|right; right; exact H].
Qed.
Lemma cut_active : forall i, active v' i <-> active v i.
Proof. intro i. unfold active. rewrite (c_s _ _ _ _ Hc). reflexivity. Qed.
Lemma cut_done : forall i, done v' i <-> done v i.
Proof. intro i. unfold done. rewrite (c_o _ _ _ _ Hc). reflexivity. Qed.
Lemma cut_seen : forall i, seen v' i <-> seen v i.
Proof. intro i. unfold seen. rewrite cut_active, cut_done. reflexivity. Qed.
Lemma cut_fresh : forall b, ~ In (b, vn v) (vq v).
Proof. intros b H. apply (q_bound v Hq) in H. lia. Qed.

Lemma cut_queues : queues v'.
Proof.
  constructor.
  - eapply Permutation_NoDup; [apply Permutation_sym; apply (c_q _ _ _ _ Hc)|].
    constructor; [|constructor; [|exact (q_nodup v Hq)]].
    + intros [H|H]; [discriminate|apply (cut_fresh true H)].
    + apply cut_fresh.
  - intros b i H. rewrite (c_n _ _ _ _ Hc). apply (Permutation_in _ (c_q _ _ _ _ Hc)) in H.
    destruct H as [H|[H|H]]; [inversion H; lia|inversion H; lia|apply (q_bound v Hq) in H; lia].
  - intros i H. apply cut_future in H. apply cut_pending. destruct H as [H|H]; [left; exact H|right; apply (q_left v Hq); exact H].
  - intro i. rewrite cut_active, cut_pending, cut_future, (q_act v Hq). split.
    + intros (H & J). split; [right; exact H|]. intros [K|K]; [|exact (J K)].
      subst i. apply (cut_fresh false H).
    + intros ([H|H] & J); [exfalso; apply J; left; exact H|]. split; [exact H|]. intro K. apply J. right. exact K.
  - intro i. rewrite cut_done, cut_pending, (q_done v Hq), (c_n _ _ _ _ Hc). split.
    + intros (H & J). split; [lia|]. intros [K|K]; [lia|exact (J K)].
    + intros (H & J). split; [|intro K; apply J; right; exact K].
      destruct (Nat.eq_dec i (vn v)) as [K|K]; [exfalso; apply J; left; exact K|lia].
  - rewrite (c_s _ _ _ _ Hc). exact (q_vs v Hq).
  - rewrite (c_o _ _ _ _ Hc). exact (q_vo v Hq).
Qed.

(** A piece of the new view is a part of one of the old view. *)
Lemma cut_source : forall i, (i < vn v')%nat -> exists j, (j < vn v)%nat
  /\ coll (vp v' i) (vp v j) /\ op (vp v' i) = op (vp v j)
  /\ lo (vp v j) <= lo (vp v' i) /\ hi (vp v' i) <= hi (vp v j)
  /\ (i < vn v -> j = i)%nat /\ (i = vn v -> j = x).
Proof.
  intros i Hi. rewrite (c_n _ _ _ _ Hc) in Hi.
  destruct (Nat.eq_dec i (vn v)) as [->|Hn].
  - exists x. rewrite (c_tail _ _ _ _ Hc). pose proof Hok as (_ & (H1 & H2) & _).
    repeat split; try lia; try assumption; cbn; qlra.
  - assert (Hi' : (i < vn v)%nat) by lia. exists i.
    destruct (cut_keep i Hi') as (H1 & H2 & H3 & H4 & _).
    repeat split; try assumption; try lia.
    + rewrite H1. qlra.
    + apply cut_hi_le. exact Hi'.
Qed.
Lemma source_has : forall x y t, lo y <= lo x -> hi x <= hi y -> has x t -> has y t.
Proof. intros a b t H J (K & L). split; qlra. Qed.

Lemma cut_geo : geo v'.
Proof.
  pose proof (b_geo T v Hb) as Hg. pose proof Hok as (Ha & (Hi1 & Hi2) & HT & Hin & HV).
  constructor.
  - intros i Hi. rewrite (c_n _ _ _ _ Hc) in Hi. destruct (Nat.eq_dec i (vn v)) as [->|Hn].
    + rewrite (c_tail _ _ _ _ Hc). cbn. exact Hi2.
    + assert (Hi' : (i < vn v)%nat) by lia. pose proof (g_len v Hg i Hi').
      destruct (cut_keep i Hi') as (H1 & _ & _ & _ & [->|(-> & -> & _)]); rewrite H1; [assumption|exact Hi1].
  - intros i Hi. rewrite (c_n _ _ _ _ Hc) in Hi. destruct (Nat.eq_dec i (vn v)) as [->|Hn].
    + rewrite (c_tail _ _ _ _ Hc). cbn. split; [exact HV|exact Hin].
    + assert (Hi' : (i < vn v)%nat) by lia. rewrite (cut_ht i _ Hi'), (cut_lo i Hi'). apply (g_lo v Hg i Hi').
  - intros i Hi. rewrite (c_n _ _ _ _ Hc) in Hi. destruct (Nat.eq_dec i (vn v)) as [->|Hn].
    + rewrite (c_tail _ _ _ _ Hc). apply (g_hi v Hg x Hx).
    + assert (Hi' : (i < vn v)%nat) by lia. rewrite (cut_ht i _ Hi').
      destruct (cut_keep i Hi') as (_ & _ & _ & _ & [->|(-> & -> & _)]); [apply (g_hi v Hg i Hi')|split; assumption].
  - intros i j t Hi Hj Hn H1 H2 He.
    destruct (cut_source i Hi) as (i' & Li & Ci & _ & A1 & A2 & _).
    destruct (cut_source j Hj) as (j' & Lj & Cj & _ & B1 & B2 & _).
    rewrite (coll_ht _ _ t Ci) in He |- *. rewrite (coll_ht _ _ t Cj) in He.
    apply (g_meet v Hg i' j' t Li Lj); [|eapply source_has; eassumption|eapply source_has; eassumption|exact He].
    intro K. apply Hn. eapply coll_trans; [exact Ci|]. eapply coll_trans; [exact K|]. apply coll_sym. exact Cj.
  - intros i j Hi Hj Hn Ho Hcl.
    destruct (cut_source i Hi) as (i' & Li & Ci & Oi & A1 & A2 & S1 & S2).
    destruct (cut_source j Hj) as (j' & Lj & Cj & Oj & B1 & B2 & R1 & R2).
    destruct (Nat.eq_dec i' j') as [E|E].
    + rewrite (c_n _ _ _ _ Hc) in Hi, Hj.
      destruct (Nat.eq_dec i (vn v)) as [->|Ni], (Nat.eq_dec j (vn v)) as [->|Nj]; [congruence| | |].
      * assert (j = x) by (rewrite <- (R1 ltac:(lia)), <- E; apply S2; reflexivity). subst j.
        right. rewrite (c_tail _ _ _ _ Hc), (c_head _ _ _ _ Hc). cbn. qlra.
      * assert (i = x) by (rewrite <- (S1 ltac:(lia)), E; apply R2; reflexivity). subst i.
        left. rewrite (c_tail _ _ _ _ Hc), (c_head _ _ _ _ Hc). cbn. qlra.
      * exfalso. apply Hn. rewrite <- (S1 ltac:(lia)), <- (R1 ltac:(lia)). exact E.
    + destruct (g_over v Hg i' j' Li Lj E) as [K|K].
      * congruence.
      * eapply coll_trans; [apply coll_sym; exact Ci|]. eapply coll_trans; [exact Hcl|exact Cj].
      * left. qlra.
      * right. qlra.
Qed.

Lemma FOP_impl : forall A (R S : A -> A -> Prop) l, (forall a b, In a l -> In b l -> R a b -> S a b) ->
  ForallOrdPairs R l -> ForallOrdPairs S l.
Proof.
  intros A R S l. induction l as [|a l IH]; intros H J; [constructor|].
  inversion J as [|? ? J1 J2]; subst. constructor.
  - rewrite Forall_forall in *. intros b Hb'. apply H; [left; reflexivity|right; exact Hb'|apply J1; exact Hb'].
  - apply IH; [|exact J2]. intros b c Hb' Hc'. apply H; right; assumption.
Qed.

Lemma cut_base : base T v'.
Proof.
  pose proof cut_queues as Hq'. pose proof cut_geo as Hg'.
  pose proof Hok as (Ha & (Hi1 & Hi2) & HT & Hin & HV).
  constructor.
  - exact Hg'.
  - exact Hq'.
  - intros i Hi. apply cut_active in Hi. pose proof (active_lt v i Hq Hi) as L.
    destruct (b_act T v Hb i Hi) as (H1 & H2). split; [rewrite (cut_lo i L); exact H1|].
    destruct (cut_keep i L) as (_ & _ & _ & _ & [->|(_ & -> & _ & K)]); [exact H2|exact K].
  - intros i Hi. apply cut_done in Hi. pose proof (done_lt v i Hq Hi) as L.
    pose proof (cut_hi_le i L). pose proof (b_done T v Hb i Hi). qlra.
  - intros i Hi. apply cut_future in Hi. destruct Hi as [->|Hi].
    + rewrite (c_tail _ _ _ _ Hc). exact HT.
    + rewrite (cut_lo i (future_lt v i Hq Hi)). apply (b_fut T v Hb i Hi).
  - rewrite (c_s _ _ _ _ Hc). eapply FOP_impl; [|exact (b_ord T v Hb)].
    intros a b Ia Ib K. apply cut_below; [apply active_lt|apply active_lt|]; assumption.
  - rewrite (c_s _ _ _ _ Hc). eapply FOP_impl; [|exact (b_srt T v Hb)].
    intros a b Ia Ib K. cbn beta in *. rewrite !cut_ht; [|apply active_lt|apply active_lt]; assumption.
  - intros i j t Hn Si Sj Ht H1 H2 He. apply cut_seen in Si, Sj.
    pose proof (seen_lt v i Hq Si) as Li. pose proof (seen_lt v j Hq Sj) as Lj.
    rewrite (cut_ht i t Li), (cut_ht j t Lj) in He.
    assert (Hit : forall k, (k < vn v)%nat -> tip (vp v k) t -> has (vp v' k) t -> tip (vp v' k) t).
    { intros k Lk Hk (Hk1 & Hk2). destruct (cut_keep k Lk) as (E1 & _ & _ & _ & [E2|(_ & E2 & E3 & _)]);
        unfold tip in *; rewrite E1 in *; rewrite E2 in *; [exact Hk|]. destruct Hk as [Hk|Hk]; [left; exact Hk|qlra]. }
    destruct (b_past T v Hb i j t Hn Si Sj Ht (cut_has i t Li H1) (cut_has j t Lj H2) He) as [(K1 & K2)|(K1 & K2)].
    + left. split; [apply Hit|apply Hit]; assumption.
    + right. split; [apply cut_twin; assumption|].
      destruct (cut_keep i Li) as (_ & _ & _ & _ & [->|(-> & -> & Q1 & Q2)]),
               (cut_keep j Lj) as (_ & _ & _ & _ & [->|(-> & -> & R1 & R2)]).
      * exact K2.
      * right. destruct K2 as [K2|(K2 & K3)]; split; qlra.
      * right. destruct K2 as [K2|(K2 & K3)]; split; qlra.
      * contradiction.
  - intros a b Hn Da Db Htw He. apply cut_done in Da, Db.
    pose proof (done_lt v a Hq Da) as La. pose proof (done_lt v b Hq Db) as Lb.
    apply cut_twin in Htw; [|assumption|assumption]. rewrite (c_o _ _ _ _ Hc).
    apply (b_out T v Hb a b Hn Da Db Htw).
    destruct (cut_keep a La) as (_ & _ & _ & _ & [Ea|(-> & _)]);
      [|exfalso; apply (active_not_done v x Hq Ha Da)].
    destruct (cut_keep b Lb) as (_ & _ & _ & _ & [Eb|(-> & _)]);
      [|exfalso; apply (active_not_done v x Hq Ha Db)].
    rewrite <- Ea, <- Eb. exact He.
Qed.

Lemma min_eq_l : forall a b, a <= b -> Qc_min a b = a.
Proof. intros a b H. destruct (Qc_min_cases a b) as [(-> & J)|(-> & J)]; qlra. Qed.
Lemma min_eq_r : forall a b, b <= a -> Qc_min a b = b.
Proof. intros a b H. destruct (Qc_min_cases a b) as [(-> & J)|(-> & J)]; qlra. Qed.

(** Settled neighbours stay settled. *)
Lemma cut_adj : forall a b, active v a -> active v b -> a <> b -> adj v a b -> adj v' a b.
Proof.
  intros a b Aa Ab Hn H.
  pose proof (active_lt v a Hq Aa) as La. pose proof (active_lt v b Hq Ab) as Lb.
  pose proof Hok as (Ha & (Hi1 & Hi2) & HT & Hin & HV).
  destruct H as [H|(Ht & H)].
  - left. destruct (Nat.eq_dec a x) as [->|Na].
    + rewrite (c_head _ _ _ _ Hc), (c_same _ _ _ _ Hc b Lb) by congruence. apply apart_cut_l; assumption.
    + rewrite (c_same _ _ _ _ Hc a La Na). destruct (Nat.eq_dec b x) as [->|Nb].
      * rewrite (c_head _ _ _ _ Hc). apply apart_cut_r; assumption.
      * rewrite (c_same _ _ _ _ Hc b Lb Nb). exact H.
  - right. split; [apply cut_twin; assumption|].
    assert (Hnew : future v' (vn v) /\ lo (vp v' (vn v)) = q /\ coll (vp v' (vn v)) (vp v x)).
    { split; [apply cut_future; left; reflexivity|rewrite (c_tail _ _ _ _ Hc)]. repeat split. }
    assert (Hold : forall k, future v k -> coll (vp v k) (vp v a) ->
              future v' k /\ lo (vp v' k) = lo (vp v k) /\ coll (vp v' k) (vp v' a)).
    { intros k K K'. pose proof (future_lt v k Hq K) as Lk.
      split; [apply cut_future; right; exact K|]. split; [apply cut_lo; exact Lk|]. apply cut_coll; assumption. }
    destruct (cut_keep a La) as (_ & _ & _ & _ & [->|(-> & -> & Q1 & Q2)]),
             (cut_keep b Lb) as (_ & _ & _ & _ & [->|(-> & -> & R1 & R2)]).
    + destruct H as [H|(k & K1 & K2 & K0)]; [left; exact H|right; exists k].
      destruct (Hold k K1 K0) as (K3 & K4 & K5). split; [exact K3|]. split; [congruence|exact K5].
    + destruct (Qclt_le_dec (hi (vp v a)) q) as [L|L].
      * destruct H as [H|(k & K1 & K2 & K0)]; [qlra|]. right. exists k. destruct (Hold k K1 K0) as (K3 & K4 & K5).
        split; [exact K3|]. split; [|exact K5]. rewrite K4, K2, !min_eq_l by qlra. reflexivity.
      * right. exists (vn v). destruct Hnew as (N1 & N2 & N3). split; [exact N1|]. split; [rewrite N2, min_eq_r by exact L; reflexivity|].
        apply (coll_trans _ _ _ N3). apply (coll_trans _ (vp v a)); [apply coll_sym; apply Ht|apply coll_sym; apply cut_coll_self; exact La].
    + destruct (Qclt_le_dec (hi (vp v b)) q) as [L|L].
      * destruct H as [H|(k & K1 & K2 & K0)]; [qlra|]. right. exists k. destruct (Hold k K1 K0) as (K3 & K4 & K5).
        split; [exact K3|]. split; [|exact K5]. rewrite K4, K2, !min_eq_r by qlra. reflexivity.
      * right. exists (vn v). destruct Hnew as (N1 & N2 & N3). split; [exact N1|]. split; [rewrite N2, min_eq_l by exact L; reflexivity|].
        apply (coll_trans _ _ _ N3). apply coll_sym. apply cut_coll_self. exact La.
    + contradiction.
Qed.
End CutFacts.

(** Several cuts of pieces satisfying [X]. *)
Inductive cuts (T : Qc) (X : nat -> Prop) : view -> view -> Prop :=
| cuts_refl : forall v, cuts T X v v
| cuts_step : forall v x q v1 v2, X x -> cutok T v x q -> cut v x q v1 -> cuts T X v1 v2 -> cuts T X v v2.

Lemma cuts_trans : forall T X v1 v2 v3, cuts T X v1 v2 -> cuts T X v2 v3 -> cuts T X v1 v3.
Proof.
  intros T X v1 v2 v3 H. induction H as [|v x q va vb Hx Hok Hc Hs IH]; [exact (fun h => h)|].
  intro J. eapply cuts_step; [exact Hx|exact Hok|exact Hc|]. apply IH. exact J.
Qed.
Lemma cuts_weaken : forall T (X Y : nat -> Prop) v1 v2, (forall i, X i -> Y i) -> cuts T X v1 v2 -> cuts T Y v1 v2.
Proof.
  intros T X Y v1 v2 HXY H. induction H as [|v x q va vb Hx Hok Hc Hs IH]; [apply cuts_refl|].
  eapply cuts_step; [apply HXY; exact Hx|exact Hok|exact Hc|exact IH].
Qed.
Lemma cuts_one : forall T (X : nat -> Prop) v x q v', X x -> cutok T v x q -> cut v x q v' -> cuts T X v v'.
Proof. intros. eapply cuts_step; try eassumption. apply cuts_refl. Qed.

Lemma cuts_base : forall T X v v', cuts T X v v' -> base T v -> base T v'.
Proof.
  intros T X v v' H. induction H as [|v x q va vb Hx Hok Hc Hs IH]; [exact (fun h => h)|].
  intro J. apply IH. eapply cut_base; eassumption.
Qed.
Lemma cuts_vs : forall T X v v', cuts T X v v' -> vs v' = vs v /\ vo v' = vo v.
Proof.
  intros T X v v' H. induction H as [|v x q va vb Hx Hok Hc Hs (IH1 & IH2)]; [split; reflexivity|].
  rewrite IH1, IH2. split; [apply (c_s _ _ _ _ Hc)|apply (c_o _ _ _ _ Hc)].
Qed.
Lemma cuts_adj : forall T X v v' a b, cuts T X v v' -> base T v -> active v a -> active v b -> a <> b ->
  adj v a b -> adj v' a b.
Proof.
  intros T X v v' a b H. induction H as [|v x q va vb Hx Hok Hc Hs IH]; [intros _ _ _ _ h; exact h|].
  intros Hb Aa Ab Hn J. apply IH.
  - eapply cut_base; eassumption.
  - apply (cut_active v va x q Hc); assumption.
  - apply (cut_active v va x q Hc); assumption.
  - exact Hn.
  - eapply cut_adj; eassumption.
Qed.
Lemma cuts_keep : forall T X v v', cuts T X v v' -> base T v -> forall i, (i < vn v)%nat ->
  (i < vn v')%nat
  /\ lo (vp v' i) = lo (vp v i) /\ sl (vp v' i) = sl (vp v i) /\ ic (vp v' i) = ic (vp v i)
  /\ op (vp v' i) = op (vp v i)
  /\ (hi (vp v' i) = hi (vp v i) \/ (X i /\ active v i /\ hi (vp v' i) < hi (vp v i) /\ T <= hi (vp v' i))).
Proof.
  intros T X v v' H. induction H as [|v x q va vb Hx Hok Hc Hs IH].
  - intros _ i Hi. repeat split; [exact Hi|left; reflexivity].
  - intros Hb i Hi. assert (Hi' : (i < vn va)%nat) by (rewrite (c_n _ _ _ _ Hc); lia).
    pose proof (cut_base T v va x q Hb Hc Hok) as Hb'.
    destruct (IH Hb' i Hi') as (K0 & K1 & K2 & K3 & K4 & K5).
    destruct (cut_keep T v va x q Hc Hok i Hi) as (J1 & J2 & J3 & J4 & J5).
    split; [exact K0|]. repeat split; try congruence.
    destruct J5 as [J5|(-> & J6 & J7 & J8)], K5 as [K5|(K6 & K7 & K8 & K9)].
    + left. congruence.
    + right. rewrite <- J5. repeat split; [exact K6|apply (cut_active v va x q Hc); assumption|exact K8|exact K9].
    + right. rewrite K5, J6. repeat split; [exact Hx|apply Hok|exact J7|exact J8].
    + right. repeat split; [exact Hx|apply Hok| |exact K9]. rewrite J6 in K8. qlra.
Qed.
Lemma cuts_future : forall T X v v', cuts T X v v' -> base T v -> forall k, future v k ->
  future v' k /\ vp v' k = vp v k.
Proof.
  intros T X v v' H. induction H as [|v x q va vb Hx Hok Hc Hs IH].
  - intros _ k Hk. split; [exact Hk|reflexivity].
  - intros Hb k Hk. pose proof (cut_base T v va x q Hb Hc Hok) as Hb'.
    assert (Hk' : future va k) by (apply (cut_future v va x q Hc); right; exact Hk).
    destruct (IH Hb' k Hk') as (J1 & J2). split; [exact J1|]. rewrite J2.
    apply (c_same _ _ _ _ Hc); [eapply future_lt; [apply (b_q T v Hb)|exact Hk]|].
    intros ->. apply (active_not_future v x (b_q T v Hb) (proj1 Hok) Hk).
Qed.

End Core.
