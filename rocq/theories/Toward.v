(** Points of segments by their parameters.  Proof support only, no part of
    /repo is modelled here. *)
From Verif Require Import QcTac Geom Spec GeomFacts.

Definition lerp (a b : point) (t : Qc) : point := Pt (px a + t * (px b - px a)) (py a + t * (py b - py a)).

Lemma on_lerp : forall a b p, on_segment p (Seg a b) <-> exists t, 0 <= t /\ t <= 1 /\ p = lerp a b t.
Proof.
  intros a b p. split; intros (t & H0 & H1 & H).
  - exists t. split; [exact H0|]. split; [exact H1|]. destruct H as (Hx & Hy). apply pt_ext; assumption.
  - exists t. split; [exact H0|]. split; [exact H1|]. subst p. split; reflexivity.
Qed.
Lemma lerp_0 : forall a b, lerp a b 0 = a.
Proof. intros a b. apply pt_ext; cbn; ring. Qed.
Lemma lerp_1 : forall a b, lerp a b 1 = b.
Proof. intros a b. apply pt_ext; cbn; ring. Qed.
Lemma lerp_inj : forall a b t u, a <> b -> lerp a b t = lerp a b u -> t = u.
Proof.
  intros a b t u Hn E. pose proof (f_equal px E) as Ex. pose proof (f_equal py E) as Ey. cbn in Ex, Ey.
  assert (K1 : (t - u) * (px b - px a) = 0) by (replace ((t - u) * (px b - px a)) with ((px a + t * (px b - px a)) - (px a + u * (px b - px a))) by ring; rewrite Ex; ring).
  assert (K2 : (t - u) * (py b - py a) = 0) by (replace ((t - u) * (py b - py a)) with ((py a + t * (py b - py a)) - (py a + u * (py b - py a))) by ring; rewrite Ey; ring).
  apply Qcmult_integral in K1. apply Qcmult_integral in K2.
  destruct K1 as [K1|K1]; [qlra|]. destruct K2 as [K2|K2]; [qlra|]. exfalso. apply Hn. apply pt_ext; qlra.
Qed.
Lemma lerp_eq0 : forall a b t, a <> b -> lerp a b t = a -> t = 0.
Proof. intros a b t H E. apply (lerp_inj a b t 0 H). rewrite lerp_0. exact E. Qed.
Lemma lerp_eq1 : forall a b t, a <> b -> lerp a b t = b -> t = 1.
Proof. intros a b t H E. apply (lerp_inj a b t 1 H). rewrite lerp_1. exact E. Qed.
Lemma lerp_lerp : forall a b t u v, lerp (lerp a b t) (lerp a b u) v = lerp a b (t + v * (u - t)).
Proof. intros. apply pt_ext; cbn; ring. Qed.

(** Any point of a line by two points of it. *)
Lemma lerp_base : forall a b t u v, t <> u -> lerp a b v = lerp (lerp a b t) (lerp a b u) ((v - t) / (u - t)).
Proof.
  intros a b t u v H. rewrite lerp_lerp. f_equal. field. intro K. apply H. qlra.
Qed.
Lemma lerp_on : forall a b t u v, (t <= v /\ v <= u) -> on_segment (lerp a b v) (Seg (lerp a b t) (lerp a b u)).
Proof.
  intros a b t u v (H & H'). destruct (Qc_eq_dec t u) as [->|N].
  - replace v with u by qlra. exact (on_segment_start (Seg (lerp a b u) (lerp a b u))).
  - apply on_lerp. exists ((v - t) / (u - t)).
    assert (Hd : 0 < u - t) by (destruct (Qcle_lt_or_eq t u) as [K|K]; [qlra|qlra|congruence]).
    assert (Hn : u - t <> 0) by (intro K; rewrite K in Hd; qlra).
    assert (E : (v - t) / (u - t) * (u - t) = v - t) by (field; exact Hn).
    remember ((v - t) / (u - t)) as w eqn:Ew. split; [|split].
    + clear Ew. qnra.
    + clear Ew. qnra.
    + rewrite Ew. apply lerp_base. exact N.
Qed.
Lemma on_lerp_inv : forall a b t u v, a <> b -> on_segment (lerp a b v) (Seg (lerp a b t) (lerp a b u)) ->
  (t <= v /\ v <= u) \/ (u <= v /\ v <= t).
Proof.
  intros a b t u v Hn H. apply on_lerp in H. destruct H as (w & H0 & H1 & E). rewrite lerp_lerp in E.
  apply (lerp_inj a b) in E; [|exact Hn]. subst v. destruct (Qclt_le_dec t u) as [K|K]; [left|right]; split; qnra.
Qed.

(** Segments are convex. *)
Lemma on_convex : forall sg p q m, on_segment p sg -> on_segment q sg -> on_segment m (Seg p q) -> on_segment m sg.
Proof.
  intros [a b] p q m Hp Hq Hm. apply on_lerp in Hp. apply on_lerp in Hq.
  destruct Hp as (t & T0 & T1 & ->), Hq as (u & U0 & U1 & ->). apply on_lerp in Hm. destruct Hm as (w & W0 & W1 & ->).
  rewrite lerp_lerp. apply on_lerp. exists (t + w * (u - t)). split; [|split; [|reflexivity]]; qnra.
Qed.
(** Points of a segment are on the line by any two distinct points of it. *)
Lemma on_line : forall sg p q a, p <> q -> on_segment p sg -> on_segment q sg -> on_segment a sg -> exists t, a = lerp p q t.
Proof.
  intros [x y] p q a Hn Hp Hq Ha. apply on_lerp in Hp. apply on_lerp in Hq. apply on_lerp in Ha.
  destruct Hp as (t & _ & _ & ->), Hq as (u & _ & _ & ->), Ha as (v & _ & _ & ->).
  exists ((v - t) / (u - t)). apply lerp_base. intros ->. apply Hn. reflexivity.
Qed.

Lemma midpoint_inside : forall sg, proper sg -> exists m, inside_segment m sg.
Proof.
  intros [a b] H. unfold proper in H. cbn in H. exists (lerp a b (/ (1 + 1))). split.
  - apply on_lerp. exists (/ (1 + 1)). split; [discriminate|]. split; [discriminate|reflexivity].
  - cbn. split; intro E.
    + apply lerp_eq0 in E; [discriminate E|exact H].
    + apply lerp_eq1 in E; [discriminate E|exact H].
Qed.
(** A point strictly between two points of a segment is not an endpoint. *)
Lemma between_inside : forall sg p q m, p <> q -> on_segment p sg -> on_segment q sg ->
  inside_segment m (Seg p q) -> inside_segment m sg.
Proof.
  intros [a b] p q m Hn Hp Hq (Hm & N1 & N2). cbn in N1, N2. split; [exact (on_convex _ p q m Hp Hq Hm)|]. cbn.
  assert (Hab : a <> b).
  { intros <-. apply Hn. apply on_lerp in Hp. apply on_lerp in Hq. destruct Hp as (t & _ & _ & ->), Hq as (u & _ & _ & ->).
    apply pt_ext; cbn; ring. }
  apply on_lerp in Hp. apply on_lerp in Hq. destruct Hp as (t & T0 & T1 & ->), Hq as (u & U0 & U1 & ->).
  apply on_lerp in Hm. destruct Hm as (w & W0 & W1 & ->).
  assert (Nw0 : w <> 0) by (intros ->; apply N1; apply lerp_0). assert (Nw1 : w <> 1) by (intros ->; apply N2; apply lerp_1).
  assert (W0' : 0 < w) by (destruct (Qcle_lt_or_eq 0 w W0); [assumption|congruence]).
  assert (W1' : w < 1) by (destruct (Qcle_lt_or_eq w 1 W1); [assumption|congruence]).
  assert (Ntu : t <> u) by (intros ->; apply Hn; reflexivity).
  rewrite lerp_lerp. split; intro E.
  - apply lerp_eq0 in E; [|exact Hab]. apply Ntu.
    destruct (Qc_lt_total t u) as [K|[K|K]]; [exfalso; qnra|exact K|exfalso; qnra].
  - apply lerp_eq1 in E; [|exact Hab]. apply Ntu.
    destruct (Qc_lt_total t u) as [K|[K|K]]; [exfalso; qnra|exact K|exfalso; qnra].
Qed.

Lemma below_positive : forall us : list Qc, exists u0, 0 < u0 /\ u0 < 1 /\ forall u, In u us -> u <= 0 \/ u0 < u.
Proof.
  induction us as [|a us (u0 & H0 & H1 & H)]; [exists (/ (1 + 1)); split; [reflexivity|split; [reflexivity|intros u []]]|].
  destruct (Qclt_le_dec 0 a) as [K|K].
  - pose proof (Qc_min_cases a u0) as M. pose proof (Qc_min_lt a u0 0 K H0) as M0. remember (Qc_min a u0) as m eqn:Em.
    exists (m * / (1 + 1)). assert (E : m * / (1 + 1) + m * / (1 + 1) = m) by (field; discriminate).
    remember (m * / (1 + 1)) as h eqn:Eh. clear Eh Em. split; [qlra|]. split; [destruct M as [(-> & ?)|(-> & ?)]; qlra|].
    intros u [<-|Hu]; [right; destruct M as [(M1 & ?)|(M1 & ?)]; qlra|].
    destruct (H u Hu) as [J|J]; [left; exact J|right; destruct M as [(M1 & ?)|(M1 & ?)]; qlra].
  - exists u0. split; [exact H0|]. split; [exact H1|]. intros u [<-|Hu]; [left; exact K|exact (H u Hu)].
Qed.

(** Parameter of a point of the line by [p] and [q]. *)
Definition param (p q v : point) : Qc :=
  if Qc_eq_dec (px p) (px q) then (py v - py p) / (py q - py p) else (px v - px p) / (px q - px p).
Lemma param_lerp : forall p q t, p <> q -> param p q (lerp p q t) = t.
Proof.
  intros p q t Hn. unfold param. destruct (Qc_eq_dec (px p) (px q)) as [E|E]; cbn.
  - field. intro K. apply Hn. apply pt_ext; [exact E|qlra].
  - field. intro K. apply E. qlra.
Qed.

(** Towards [q], but so close to [p] that no point of [vs] is met: a segment
    with ends in [vs] along the line having such a point contains [p]. *)
Lemma approach : forall p q vs, p <> q -> exists m, inside_segment m (Seg p q) /\ ~ In m vs /\
  forall sg a b, In a vs -> In b vs -> on_segment p sg -> on_segment q sg -> on_segment a sg -> on_segment b sg ->
  on_segment m (Seg a b) -> on_segment p (Seg a b).
Proof.
  intros p q vs Hn. destruct (below_positive (map (param p q) vs)) as (u & U0 & U1 & U). exists (lerp p q u).
  assert (Hu : forall v t, In v vs -> v = lerp p q t -> t <= 0 \/ u < t).
  { intros v t Hv Ev. apply U. apply in_map_iff. exists v. split; [|exact Hv]. rewrite Ev. apply param_lerp. exact Hn. }
  split; [|split].
  - split; [apply on_lerp; exists u; split; [qlra|split; [qlra|reflexivity]]|]. cbn. split; intro E.
    + apply lerp_eq0 in E; [qlra|exact Hn].
    + apply lerp_eq1 in E; [qlra|exact Hn].
  - intro K. destruct (Hu _ u K eq_refl); qlra.
  - intros sg a b Ha Hb Sp Sq Sa Sb Hm.
    destruct (on_line sg p q a Hn Sp Sq Sa) as (ta & Ea). destruct (on_line sg p q b Hn Sp Sq Sb) as (tb & Eb).
    pose proof (Hu a ta Ha Ea) as Ka. pose proof (Hu b tb Hb Eb) as Kb. subst a b.
    apply on_lerp_inv in Hm; [|exact Hn]. replace p with (lerp p q 0) at 1 by apply lerp_0.
    destruct Hm as [(M1 & M2)|(M1 & M2)].
    + apply lerp_on. split; [destruct Ka|destruct Kb]; qlra.
    + apply on_segment_sym. apply lerp_on. split; [destruct Kb|destruct Ka]; qlra.
Qed.
