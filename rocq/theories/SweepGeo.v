(** Abstract view of a sweep: pieces of segments in sheared coordinates
    (abscissa [pos e p], ordinate [py p]), their order on the sweep line and
    what it means for neighbours to be settled.  Proof support only, no part
    of /repo is modelled here. *)
From Coq Require Import Permutation.
From Verif Require Import QcTac Geom GeomFacts.

(** A non-vertical piece: abscissas of its endpoints, its line, its operand. *)
Record piece := Piece { lo : Qc; hi : Qc; sl : Qc; ic : Qc; op : bool }.

Definition ht (x : piece) (t : Qc) : Qc := sl x * t + ic x.
Definition coll (x y : piece) : Prop := sl x = sl y /\ ic x = ic y.
Definition has (x : piece) (t : Qc) : Prop := lo x <= t /\ t <= hi x.
Definition inner (x : piece) (t : Qc) : Prop := lo x < t /\ t < hi x.
Definition tip (x : piece) (t : Qc) : Prop := t = lo x \/ t = hi x.

(** Common points are endpoints of both. *)
Definition apart (x y : piece) : Prop :=
  forall t, has x t -> has y t -> ht x t = ht y t -> tip x t /\ tip y t.
(** Collinear pieces of different operands with the same start. *)
Definition twin (x y : piece) : Prop := coll x y /\ lo x = lo y /\ op x <> op y.

(** The sweep line order. *)
Definition below (x y : piece) : Prop :=
  let m := Qc_max (lo x) (lo y) in
  ht x m < ht y m
  \/ (ht x m = ht y m /\ (sl x < sl y \/ (sl x = sl y /\ op x = true /\ op y = false))).

Definition set_hi (x : piece) (q : Qc) : piece := Piece (lo x) q (sl x) (ic x) (op x).
Definition set_lo (x : piece) (q : Qc) : piece := Piece q (hi x) (sl x) (ic x) (op x).

(** ** Affine facts *)
Lemma ht_root : forall x y a b, a < b -> ht x a < ht y a -> ht y b < ht x b ->
  exists r, a < r /\ r < b /\ ht x r = ht y r.
Proof.
  unfold ht. intros x y a b Hab Ha Hb.
  destruct (Qc_lt_total (sl x) (sl y)) as [H|[H|H]].
  - exfalso. qnra.
  - exfalso. rewrite H in *. qlra.
  - exists ((ic y - ic x) / (sl x - sl y)).
    assert (Hn : sl x - sl y <> 0) by (intro; qlra).
    assert (Hr : (sl x - sl y) * ((ic y - ic x) / (sl x - sl y)) = ic y - ic x) by (field; exact Hn).
    set (r := (ic y - ic x) / (sl x - sl y)) in *. clearbody r.
    repeat split.
    + destruct (Qclt_le_dec a r) as [J|J]; [exact J|exfalso; qnra].
    + destruct (Qclt_le_dec r b) as [J|J]; [exact J|exfalso; qnra].
    + qlra.
Qed.
Lemma ht_two : forall x y a b, a <> b -> ht x a = ht y a -> ht x b = ht y b -> coll x y.
Proof.
  unfold ht, coll. intros x y a b Hab Ha Hb.
  assert (Hz : (sl x - sl y) * (a - b) = 0) by qlra.
  apply Qcmult_integral in Hz. destruct Hz as [Hz|Hz]; [|exfalso; apply Hab; qlra].
  assert (Hs : sl x = sl y) by qlra. split; [exact Hs|]. rewrite Hs in Ha. qlra.
Qed.
Lemma ht_after : forall x y a b, ht x a = ht y a -> sl x < sl y -> a < b -> ht x b < ht y b.
Proof. unfold ht. intros. qnra. Qed.
Lemma ht_before : forall x y a b, ht x a = ht y a -> sl x < sl y -> b < a -> ht y b < ht x b.
Proof. unfold ht. intros. qnra. Qed.
Lemma ht_parallel : forall x y a b, sl x = sl y -> ht x a < ht y a -> ht x b < ht y b.
Proof. unfold ht. intros x y a b H Ha. rewrite H in *. qlra. Qed.
Lemma coll_ht : forall x y t, coll x y -> ht x t = ht y t.
Proof. intros x y t (H & H'). unfold ht. rewrite H, H'. reflexivity. Qed.
Lemma coll_sym : forall x y, coll x y -> coll y x.
Proof. intros x y (H & H'). split; symmetry; assumption. Qed.
Lemma coll_trans : forall x y z, coll x y -> coll y z -> coll x z.
Proof. intros x y z (H & H') (J & J'). split; congruence. Qed.
Lemma coll_refl : forall x, coll x x.
Proof. split; reflexivity. Qed.
Lemma coll_dec : forall x y, coll x y \/ ~ coll x y.
Proof.
  intros x y. unfold coll.
  destruct (Qc_eq_dec (sl x) (sl y)) as [H|H], (Qc_eq_dec (ic x) (ic y)) as [J|J]; [left|right|right|right]; tauto.
Qed.
Lemma ht_slopes : forall x y a, ht x a = ht y a -> sl x = sl y -> coll x y.
Proof. unfold ht, coll. intros x y a H J. split; [exact J|]. rewrite J in H. qlra. Qed.

Lemma max_l : forall a b, a <= Qc_max a b.
Proof. intros. destruct (Qc_max_cases a b) as [(-> & H)|(-> & H)]; qlra. Qed.
Lemma max_r : forall a b, b <= Qc_max a b.
Proof. intros. destruct (Qc_max_cases a b) as [(-> & H)|(-> & H)]; qlra. Qed.
Lemma max_le : forall a b c, a <= c -> b <= c -> Qc_max a b <= c.
Proof. intros. destruct (Qc_max_cases a b) as [(-> & H')|(-> & H')]; qlra. Qed.
Lemma max_comm : forall a b, Qc_max a b = Qc_max b a.
Proof.
  intros. destruct (Qc_max_cases a b) as [(-> & H)|(-> & H)], (Qc_max_cases b a) as [(-> & J)|(-> & J)]; try reflexivity; qlra.
Qed.
Lemma max_eq : forall a, Qc_max a a = a.
Proof. intros. destruct (Qc_max_cases a a) as [(-> & H)|(-> & H)]; reflexivity. Qed.

(** ** Facts about the order *)
Lemma below_ext : forall x x' y y', coll x x' -> lo x = lo x' -> op x = op x' ->
  coll y y' -> lo y = lo y' -> op y = op y' -> below x y -> below x' y'.
Proof.
  intros [a b s i o] [a' b' s' i' o'] [c d r j p] [c' d' r' j' p'] (H1 & H2) H3 H4 (H5 & H6) H7 H8.
  cbn in *. subst. exact (fun h => h).
Qed.
Lemma below_asym : forall x y, below x y -> ~ below y x.
Proof.
  unfold below. intros x y H J. rewrite (max_comm (lo y) (lo x)) in J.
  destruct H as [H|(H & [H'|(H' & H1 & H2)])], J as [J|(J & [J'|(J' & J1 & J2)])]; try qlra; congruence.
Qed.
Lemma below_irrefl : forall x, ~ below x x.
Proof. intros x H. exact (below_asym x x H H). Qed.
(** Totality up to twins of the same operand. *)
Lemma below_total : forall x y, below x y \/ below y x \/ (coll x y /\ op x = op y).
Proof.
  intros x y. unfold below. rewrite (max_comm (lo y) (lo x)).
  set (m := Qc_max (lo x) (lo y)).
  destruct (Qc_lt_total (ht x m) (ht y m)) as [H|[H|H]]; [left; left; exact H| |right; left; left; exact H].
  destruct (Qc_lt_total (sl x) (sl y)) as [J|[J|J]].
  - left. right. split; [exact H|left; exact J].
  - pose proof (ht_slopes x y m H J) as K.
    destruct (op x) eqn:Ex, (op y) eqn:Ey.
    + right. right. split; [exact K|reflexivity].
    + left. right. split; [exact H|right; repeat split; assumption].
    + right. left. right. split; [symmetry; exact H|right; split; [symmetry; exact J|split; reflexivity]].
    + right. right. split; [exact K|reflexivity].
  - right. left. right. split; [symmetry; exact H|left; exact J].
Qed.
Lemma below_start_le : forall x y, below x y -> ht x (Qc_max (lo x) (lo y)) <= ht y (Qc_max (lo x) (lo y)).
Proof. intros x y [H|(H & _)]; qlra. Qed.

(** A crossing after the common start shows up as a common inner point. *)
Lemma below_flip : forall x y t, below x y -> Qc_max (lo x) (lo y) <= t -> ht y t < ht x t ->
  exists r, Qc_max (lo x) (lo y) < r /\ r < t /\ ht x r = ht y r.
Proof.
  intros x y t H Hm Ht. set (m := Qc_max (lo x) (lo y)) in *.
  destruct H as [H|(H & [H'|(H' & _)])]; fold m in H.
  - assert (Hmt : m < t).
    { destruct (Qcle_lt_or_eq _ _ Hm) as [J|J]; [exact J|rewrite J in H; qlra]. }
    destruct (ht_root x y m t Hmt H Ht) as (r & H1 & H2 & H3). exists r. repeat split; assumption.
  - destruct (Qcle_lt_or_eq _ _ Hm) as [J|J]; [|rewrite J in H; qlra].
    pose proof (ht_after x y m t H H' J). qlra.
  - pose proof (ht_slopes x y m H H') as K. pose proof (coll_ht x y t K). qlra.
Qed.

Lemma sorted_at : forall x y t, below x y -> apart x y \/ twin x y ->
  has x t -> has y t -> ht x t <= ht y t.
Proof.
  intros x y t H Ha (Hx1 & Hx2) (Hy1 & Hy2).
  destruct Ha as [Ha|(Hc & _)]; [|rewrite (coll_ht x y t Hc); qlra].
  destruct (Qclt_le_dec (ht y t) (ht x t)) as [J|J]; [exfalso|exact J].
  destruct (below_flip x y t H (max_le _ _ _ Hx1 Hy1) J) as (r & H1 & H2 & H3).
  pose proof (max_l (lo x) (lo y)). pose proof (max_r (lo x) (lo y)).
  destruct (Ha r) as ([K|K] & _); try (split; qlra); try exact H3; qlra.
Qed.
Lemma apart_strict : forall x y t, below x y -> apart x y -> has x t -> has y t ->
  inner x t \/ inner y t -> ht x t < ht y t.
Proof.
  intros x y t H Ha Hx Hy Hi. pose proof (sorted_at x y t H (or_introl Ha) Hx Hy) as Hle.
  destruct (Qcle_lt_or_eq _ _ Hle) as [J|J]; [exact J|exfalso].
  destruct (Ha t Hx Hy J) as (K1 & K2).
  destruct Hi as [(I1 & I2)|(I1 & I2)]; [destruct K1|destruct K2]; qlra.
Qed.
Lemma tip_or_inner : forall x t, has x t -> tip x t \/ inner x t.
Proof.
  intros x t (H & J). unfold tip, inner.
  destruct (Qcle_lt_or_eq _ _ H) as [H1|H1]; [|left; left; symmetry; exact H1].
  destruct (Qcle_lt_or_eq _ _ J) as [J1|J1]; [right; split; assumption|left; right; exact J1].
Qed.
Lemma tip_not_inner : forall x t, tip x t -> ~ inner x t.
Proof. intros x t [H|H] (J & K); qlra. Qed.
Lemma inner_has : forall x t, inner x t -> has x t.
Proof. intros x t (H & J). split; qlra. Qed.

Lemma apart_sym : forall x y, apart x y -> apart y x.
Proof. intros x y H t Hy Hx He. destruct (H t Hx Hy (eq_sym He)). split; assumption. Qed.
Lemma twin_sym : forall x y, twin x y -> twin y x.
Proof. intros x y (H & J & K). split; [apply coll_sym; exact H|]. split; congruence. Qed.

(** Shortening a piece keeps it apart. *)
Lemma apart_cut_l : forall x y q, q < hi x -> apart x y -> apart (set_hi x q) y.
Proof.
  intros x y q Hq H t (H1 & H2) Hy He. cbn in *.
  destruct (H t) as ([K|K] & K'); [split; cbn; qlra|exact Hy|exact He| |qlra].
  split; [left; exact K|exact K'].
Qed.
Lemma apart_cut_r : forall x y q, q < hi y -> apart x y -> apart x (set_hi y q).
Proof. intros x y q Hq H. apply apart_sym. apply apart_cut_l; [exact Hq|apply apart_sym; exact H]. Qed.
Lemma twin_set_hi : forall x y q r, twin x y -> twin (set_hi x q) (set_hi y r).
Proof. intros x y q r H. exact H. Qed.
