(** Order of queued events is not changed by divisions.  Proof support only,
    no part of /repo is modelled here. *)
From Verif Require Import QcTac Geom Spec SpecSweep GeomFacts Relation PairFacts PairProofs Toward Sweep SweepCmp SweepLink Linear Labelled Erase.

(** ** Comparison of keys *)
Lemma nary_unfold : forall s ev other, nary_key_ltb s ev other =
  if pt_eqb (ev_start s ev) (ev_start s other)
  then (if negb (Bool.eqb (is_left ev) (is_left other)) then negb (is_left ev)
        else orientation_eqb (orient (ev_start s ev) (ev_end s ev) (ev_end s other))
                             (if is_left ev then COUNTERCLOCKWISE else CLOCKWISE))
  else pt_ltb (ev_start s ev) (ev_start s other).
Proof.
  intros s ev other. unfold nary_key_ltb. pose proof (xy_plt (ev_start s ev) (ev_start s other)) as H.
  destruct (negb (Qc_eqb (px (ev_start s ev)) (px (ev_start s other)))).
  - destruct (pt_eqb (ev_start s ev) (ev_start s other)); [discriminate H|injection H as ->; reflexivity].
  - destruct (negb (Qc_eqb (py (ev_start s ev)) (py (ev_start s other)))).
    + destruct (pt_eqb (ev_start s ev) (ev_start s other)); [discriminate H|injection H as ->; reflexivity].
    + destruct (pt_eqb (ev_start s ev) (ev_start s other)); [reflexivity|discriminate H].
Qed.
(** Keys are determined by the starts, the operands and the directions. *)
Lemma key_same : forall k s s' a b,
  ev_start s' a = ev_start s a -> ev_start s' b = ev_start s b -> ev_first s' b = ev_first s b ->
  (ev_start s a = ev_start s b -> orient (ev_start s a) (ev_end s' a) (ev_end s' b) = orient (ev_start s a) (ev_end s a) (ev_end s b)) ->
  key_ltb k s' a b = key_ltb k s a b.
Proof.
  intros k s s' a b Ha Hb Hf Ho. assert (E : binary_key_ltb s' a b = binary_key_ltb s a b /\ nary_key_ltb s' a b = nary_key_ltb s a b).
  { rewrite !key_unfold, !nary_unfold, Ha, Hb, Hf. destruct (pt_eqb_spec (ev_start s a) (ev_start s b)) as [K|K]; [|split; reflexivity].
    rewrite (Ho K). split; reflexivity. }
  destruct E as (E1 & E2). destruct k; cbn; assumption.
Qed.
Lemma key_starts : forall k s a b, ev_start s a <> ev_start s b -> key_ltb k s a b = pt_ltb (ev_start s a) (ev_start s b).
Proof.
  intros k s a b H. assert (E : binary_key_ltb s a b = pt_ltb (ev_start s a) (ev_start s b) /\ nary_key_ltb s a b = pt_ltb (ev_start s a) (ev_start s b)).
  { rewrite !key_unfold, !nary_unfold. destruct (pt_eqb_spec (ev_start s a) (ev_start s b)) as [K|K]; [contradiction|split; reflexivity]. }
  destruct E as (E1 & E2). destruct k; cbn; assumption.
Qed.

(** The point [q'] is in the same direction from [p] as [q]. *)
Definition ahead (p q q' : point) : Prop :=
  exists t, 0 < t /\ px q' = px p + t * (px q - px p) /\ py q' = py p + t * (py q - py p).
Lemma ahead_refl : forall p q, ahead p q q.
Proof. intros p q. exists 1. split; [reflexivity|]. split; ring. Qed.
Lemma orient_ahead : forall p a a' b b', ahead p a a' -> ahead p b b' -> orient p a' b' = orient p a b.
Proof.
  intros p a a' b b' (t & Ht & Hx & Hy) (u & Hu & Kx & Ky). rewrite !orient_sgn.
  assert (E : cross p a' b' = t * u * cross p a b) by (unfold cross; rewrite Hx, Hy, Kx, Ky; ring).
  rewrite E. apply sgn_scale. qnra.
Qed.
Lemma inside_ahead : forall a b p, inside_segment p (Seg a b) -> ahead a b p /\ ahead b a p.
Proof.
  intros a b p ((t & T0 & T1 & Hx & Hy) & Na & Nb). cbn [s_start s_end] in *.
  assert (N0 : t <> 0) by (intros ->; apply Na; apply pt_ext; [rewrite Hx|rewrite Hy]; ring).
  assert (N1 : t <> 1) by (intros ->; apply Nb; apply pt_ext; [rewrite Hx|rewrite Hy]; ring).
  assert (P0 : 0 < t) by (apply Qcle_lt_or_eq in T0; destruct T0; [assumption|congruence]).
  assert (P1 : t < 1) by (apply Qcle_lt_or_eq in T1; destruct T1; [assumption|congruence]).
  split; [exists t|exists (1 - t)].
  - split; [exact P0|]. split; assumption.
  - split; [qlra|]. rewrite Hx, Hy. split; ring.
Qed.

(** ** Divisions *)
Section Division.
Variables (s : state) (i : nat) (p : point).
Hypothesis Hw : wf s.
Hypothesis Hi : (i < length (lefts s))%nat.
Hypothesis Hp : inside_segment p (seg_of s i).
Notation s' := (divide i p s).

Lemma divided_start : forall a, in_range s a -> ev_start s' a = ev_start s a.
Proof.
  intros [j|r] H; cbn [in_range Sweep.ev_start ev_end left_of] in H |- *.
  - destruct (Nat.eq_dec j i) as [->|N]; [rewrite (div_lft_i s i p Hw Hi); reflexivity|].
    rewrite (div_lft_other s i p j H N). reflexivity.
  - apply (div_rgt_start s i p Hw Hi). rewrite <- (w_len s Hw). exact H.
Qed.
Lemma divided_end : forall a, in_range s a -> ahead (ev_start s a) (ev_end s a) (ev_end s' a).
Proof.
  destruct (inside_ahead _ _ _ Hp) as (K1 & K2). intros [j|r] H; cbn [in_range Sweep.ev_start ev_end left_of] in H |- *.
  - destruct (Nat.eq_dec j i) as [->|N]; [rewrite (div_end_i s i p Hw Hi); exact K1|].
    rewrite (div_end_other s i p Hw Hi j H N). apply ahead_refl.
  - destruct (Nat.eq_dec r (l_right (lft s i))) as [->|N].
    + rewrite (div_rgt_old s i p Hw Hi). cbn [r_left]. rewrite (div_lft_tail s i p Hi). cbn [l_start].
      rewrite (proj2 (w_lr s Hw i Hi)). exact K2.
    + pose proof (proj1 (w_rl s Hw r H)) as Hr. pose proof (proj2 (w_rl s Hw r H)) as Er.
      rewrite (div_rgt_other s i p Hw r) by (try exact N; rewrite <- (w_len s Hw); exact H).
      rewrite (div_lft_other s i p _ Hr); [apply ahead_refl|]. intro E. apply N. rewrite <- E. symmetry. exact Er.
Qed.
Lemma divided_first : forall a, in_range s a -> ev_first s' a = ev_first s a.
Proof.
  intros [j|r] H; unfold ev_first; cbn [in_range Sweep.ev_start ev_end left_of] in H |- *.
  - destruct (Nat.eq_dec j i) as [->|N]; [rewrite (div_lft_i s i p Hw Hi); reflexivity|].
    rewrite (div_lft_other s i p j H N). reflexivity.
  - destruct (Nat.eq_dec r (l_right (lft s i))) as [->|N].
    + rewrite (div_rgt_old s i p Hw Hi). cbn [r_left]. rewrite (div_lft_tail s i p Hi).
      rewrite (proj2 (w_lr s Hw i Hi)). reflexivity.
    + pose proof (proj1 (w_rl s Hw r H)) as Hr. pose proof (proj2 (w_rl s Hw r H)) as Er.
      rewrite (div_rgt_other s i p Hw r) by (try exact N; rewrite <- (w_len s Hw); exact H).
      rewrite (div_lft_other s i p _ Hr); [reflexivity|]. intro E. apply N. rewrite <- E. symmetry. exact Er.
Qed.
Lemma divided_key : forall k a b, in_range s a -> in_range s b -> key_ltb k s' a b = key_ltb k s a b.
Proof.
  intros k a b Ra Rb. apply key_same; [apply divided_start; exact Ra|apply divided_start; exact Rb|apply divided_first; exact Rb|].
  intro E. apply orient_ahead; [apply divided_end; exact Ra|]. rewrite E. apply divided_end. exact Rb.
Qed.
Lemma divided_same : forall k, compared_same k s s'.
Proof. intros k a b Ha Hb. apply divided_key; apply (w_q s Hw); assumption. Qed.
End Division.

(** ** States of any sweep *)
Record sane (s : state) : Prop := {
  sn_wf : wf s;
  sn_up : forall i, (i < length (lefts s))%nat -> plt (l_start (lft s i)) (end_of s i);
  sn_line : forall i, In i (line s) -> (i < length (lefts s))%nat
}.
Lemma sane_divide : forall s i p, sane s -> (i < length (lefts s))%nat -> inside_segment p (seg_of s i) ->
  plt (l_start (lft s i)) p -> plt p (end_of s i) -> sane (divide i p s).
Proof.
  intros s i p Hs Hi Hp L1 L2. pose proof (sn_wf s Hs) as Hw. constructor.
  - exact (div_wf s i p Hw Hi).
  - rewrite (div_lefts s i p Hi). intros j Hj. destruct (Nat.eq_dec j (length (lefts s))) as [->|N].
    + rewrite (div_lft_tail s i p Hi), (div_end_tail s i p Hw Hi). exact L2.
    + destruct (Nat.eq_dec j i) as [->|Ni].
      * rewrite (div_lft_i s i p Hw Hi), (div_end_i s i p Hw Hi). exact L1.
      * assert (Hj' : (j < length (lefts s))%nat) by lia.
        rewrite (div_lft_other s i p j Hj' Ni), (div_end_other s i p Hw Hi j Hj' Ni). exact (sn_up s Hs j Hj').
  - rewrite (div_lefts s i p Hi). intros j Hj. pose proof (sn_line s Hs j Hj). lia.
Qed.

(** Ways from a state to another by assignments of labels and divisions. *)
Inductive path : state -> state -> Prop :=
| path_end : forall s, path s s
| path_label : forall s s1 s', erase s1 = erase s -> path s1 s' -> path s s'
| path_divide : forall s i p s', (i < length (lefts s))%nat -> inside_segment p (seg_of s i) ->
    plt (l_start (lft s i)) p -> plt p (end_of s i) -> path (divide i p s) s' -> path s s'.
Lemma path_trans : forall s s1 s2, path s s1 -> path s1 s2 -> path s s2.
Proof.
  intros s s1 s2 H J. induction H as [s|s t s' E H IH|s i p s' Hi Hp L1 L2 H IH].
  - exact J.
  - apply (path_label s t s2 E). exact (IH J).
  - apply (path_divide s i p s2 Hi Hp L1 L2). exact (IH J).
Qed.

Lemma sane_like : forall s s1, length (lefts s1) = length (lefts s) -> rights s1 = rights s -> (forall i, strip (lft s1 i) = strip (lft s i)) ->
  (forall ev, In ev (queue s1) -> In ev (queue s)) -> (forall i, In i (line s1) -> (i < length (lefts s))%nat) -> sane s -> sane s1.
Proof.
  intros s s1 Hl Hr Hf Hq Hn [[W1 W2 W3 W4] U L].
  assert (Hs : forall i, l_start (lft s1 i) = l_start (lft s i)) by (intro i; exact (f_equal l_start (Hf i))).
  assert (Hi : forall i, l_right (lft s1 i) = l_right (lft s i)) by (intro i; exact (f_equal l_right (Hf i))).
  assert (Hg : forall r, rgt s1 r = rgt s r) by (intro r; unfold rgt; rewrite Hr; reflexivity).
  constructor; [constructor| |].
  - rewrite Hr, Hl. exact W1.
  - intros i J. rewrite Hl in J. rewrite Hr, Hi, Hg. exact (W2 i J).
  - intros r J. rewrite Hr in J. rewrite Hl, Hg, Hi. exact (W3 r J).
  - intros ev J. pose proof (W4 ev (Hq ev J)) as K. destruct ev; cbn in *; [rewrite Hl|rewrite Hr]; exact K.
  - intros i J. rewrite Hl in J. unfold end_of. rewrite Hs, Hi, Hg. exact (U i J).
  - intros i J. rewrite Hl. exact (Hn i J).
Qed.
Lemma erase_len : forall s s1, erase s1 = erase s -> length (lefts s1) = length (lefts s).
Proof. intros s s1 E. rewrite <- (len_erase s1), <- (len_erase s), E. reflexivity. Qed.
Lemma erase_rgts : forall s s1, erase s1 = erase s -> rights s1 = rights s.
Proof. intros s s1 E. exact (f_equal rights E). Qed.
Lemma erase_lft : forall s s1 i, erase s1 = erase s -> strip (lft s1 i) = strip (lft s i).
Proof. intros s s1 i E. rewrite <- !lft_erase, E. reflexivity. Qed.
Lemma erase_seg : forall s s1 i, erase s1 = erase s -> seg_of s1 i = seg_of s i.
Proof. intros s s1 i E. rewrite <- (seg_erase s1), <- (seg_erase s), E. reflexivity. Qed.
Lemma sane_erase : forall s s1, erase s1 = erase s -> sane s -> sane s1.
Proof.
  intros s s1 E Hs. apply (sane_like s s1); try exact Hs.
  - exact (erase_len s s1 E).
  - exact (erase_rgts s s1 E).
  - intro i. exact (erase_lft s s1 i E).
  - intros ev. rewrite (f_equal queue E : queue s1 = queue s). tauto.
  - intros i. rewrite (f_equal line E : line s1 = line s). exact (sn_line s Hs i).
Qed.
Lemma sane_with_line : forall s l, (forall i, In i l -> (i < length (lefts s))%nat) -> sane s -> sane (with_line s l).
Proof. intros s l H Hs. apply (sane_like s); try exact Hs; try reflexivity; [tauto|exact H]. Qed.

Lemma path_sane : forall s s', path s s' -> sane s -> sane s' /\ (length (lefts s) <= length (lefts s'))%nat /\ line s' = line s.
Proof.
  intros s s' H. induction H as [s|s s1 s' E H IH|s i p s' Hi Hp L1 L2 H IH]; intro Hs.
  - split; [exact Hs|]. split; [lia|reflexivity].
  - destruct (IH (sane_erase s s1 E Hs)) as (A & B & C). split; [exact A|]. rewrite C, <- (erase_len s s1 E). split; [exact B|].
    exact (f_equal line E).
  - destruct (IH (sane_divide s i p Hs Hi Hp L1 L2)) as (A & B & C). split; [exact A|]. rewrite (div_lefts s i p Hi) in B. split; [lia|exact C].
Qed.
Lemma erased_key : forall k s s1 a b, erase s1 = erase s -> key_ltb k s1 a b = key_ltb k s a b.
Proof.
  intros k s s1 a b E. apply key_same.
  - rewrite <- (start_erase s1), <- (start_erase s), E. reflexivity.
  - rewrite <- (start_erase s1), <- (start_erase s), E. reflexivity.
  - rewrite <- (first_erase s1), <- (first_erase s), E. reflexivity.
  - intros _. rewrite <- !(ev_end_erase s1), <- !(ev_end_erase s), E. reflexivity.
Qed.
Lemma path_orderly : forall k s s', path s s' -> sane s -> orderly k s s'.
Proof.
  intros k s s' H. induction H as [s|s s1 s' E H IH|s i p s' Hi Hp L1 L2 H IH]; intro Hs.
  - apply orderly_end.
  - apply (orderly_assign k s s1 s').
    + exact (f_equal queue E).
    + intros a b _ _. exact (erased_key k s s1 a b E).
    + exact (IH (sane_erase s s1 E Hs)).
  - apply (orderly_divide k s i p s').
    + exact (divided_same s i p (sn_wf s Hs) Hi Hp k).
    + exact (IH (sane_divide s i p Hs Hi Hp L1 L2)).
Qed.

(** ** Detection of intersections *)
Lemma inside_lex : forall a b p, cross a b p = 0 -> plt a p -> plt p b -> inside_segment p (Seg a b).
Proof.
  intros a b p Hc L1 L2. split; [|cbn; split; [intros ->; exact (plt_irrefl _ L1)|intros ->; exact (plt_irrefl _ L2)]].
  apply on_segment_lex; [exact (plt_trans _ _ _ L1 L2)|]. split; [exact Hc|]. split; apply plt_ple; assumption.
Qed.
Lemma inside_up : forall a b p, plt a b -> inside_segment p (Seg a b) -> plt a p /\ plt p b.
Proof.
  intros a b p L (H & N1 & N2). cbn in N1, N2. apply on_segment_lex in H; [|exact L]. destruct H as (_ & H1 & H2).
  apply ple_lt_eq in H1. apply ple_lt_eq in H2. split; [destruct H1 as [H1|H1]|destruct H2 as [H2|H2]]; try assumption; congruence.
Qed.
(** Endpoints of overlapping segments are on a line, each start before each end. *)
Lemma overlap_line : forall a b c d, plt a b -> plt c d -> overlap (Seg a b) (Seg c d) ->
  (forall p q r, In p [a; b; c; d] -> In q [a; b; c; d] -> In r [a; b; c; d] -> cross p q r = 0) /\ plt a d /\ plt c b.
Proof.
  intros a b c d L1 L2 (x & y & N & X1 & X2 & Y1 & Y2).
  assert (Hon : forall p, In p [a; b; c; d] -> exists t, p = lerp x y t).
  { intros p [<-|[<-|[<-|[<-|[]]]]].
    - exact (on_line _ _ _ _ N X1 Y1 (on_segment_start (Seg a b))).
    - exact (on_line _ _ _ _ N X1 Y1 (on_segment_end (Seg a b))).
    - exact (on_line _ _ _ _ N X2 Y2 (on_segment_start (Seg c d))).
    - exact (on_line _ _ _ _ N X2 Y2 (on_segment_end (Seg c d))). }
  split.
  - intros p q r Hp Hq Hr. destruct (Hon p Hp) as (t & ->), (Hon q Hq) as (u & ->), (Hon r Hr) as (v & ->).
    unfold cross, lerp. cbn [px py]. ring.
  - apply on_segment_lex in X1; [|exact L1]. apply on_segment_lex in Y1; [|exact L1].
    apply on_segment_lex in X2; [|exact L2]. apply on_segment_lex in Y2; [|exact L2].
    destruct X1 as (_ & X1 & X1'), X2 as (_ & X2 & X2'), Y1 as (_ & Y1 & Y1'), Y2 as (_ & Y2 & Y2').
    destruct (plt_total x y) as [K|[K|K]]; [|contradiction|]; split.
    + exact (ple_plt_trans _ _ _ X1 (plt_ple_trans _ _ _ K Y2')).
    + exact (ple_plt_trans _ _ _ X2 (plt_ple_trans _ _ _ K Y1')).
    + exact (ple_plt_trans _ _ _ Y1 (plt_ple_trans _ _ _ K X2')).
    + exact (ple_plt_trans _ _ _ Y2 (plt_ple_trans _ _ _ K X1')).
Qed.
Lemma path_one : forall s i p, (i < length (lefts s))%nat -> inside_segment p (seg_of s i) ->
  plt (l_start (lft s i)) p -> plt p (end_of s i) -> path s (divide i p s).
Proof. intros s i p Hi Hp L1 L2. exact (path_divide s i p _ Hi Hp L1 L2 (path_end _)). Qed.
Lemma path_inside : forall s i p, sane s -> (i < length (lefts s))%nat -> inside_segment p (seg_of s i) -> path s (divide i p s).
Proof.
  intros s i p Hs Hi Hp. destruct (inside_up _ _ _ (sn_up s Hs i Hi) Hp) as (L1 & L2). exact (path_one s i p Hi Hp L1 L2).
Qed.
Lemma path_lex : forall s i p, (i < length (lefts s))%nat -> cross (l_start (lft s i)) (end_of s i) p = 0 ->
  plt (l_start (lft s i)) p -> plt p (end_of s i) -> path s (divide i p s).
Proof. intros s i p Hi Hc L1 L2. exact (path_one s i p Hi (inside_lex _ _ _ Hc L1 L2) L1 L2). Qed.
Lemma divided_seg_other : forall s i p j, sane s -> (i < length (lefts s))%nat -> (j < length (lefts s))%nat -> j <> i ->
  seg_of (divide i p s) j = seg_of s j.
Proof.
  intros s i p j Hs Hi Hj N. unfold seg_of.
  rewrite (div_lft_other s i p j Hj N), (div_end_other s i p (sn_wf s Hs) Hi j Hj N). reflexivity.
Qed.

Definition overlapping (r : relation) : bool := match r with CROSS | TOUCH | DISJOINT => false | _ => true end.
Lemma overlapping_overlap : forall s1 s2, proper s1 -> proper s2 -> overlapping (segments_relation s1 s2) = true -> overlap s1 s2.
Proof. intros s1 s2 P1 P2. destruct (pair_case_spec s1 s2 P1 P2); intro E; try discriminate E; assumption. Qed.
Lemma meeting_point : forall s1 s2, proper s1 -> proper s2 -> segments_relation s1 s2 = CROSS \/ segments_relation s1 s2 = TOUCH ->
  common s1 s2 (segments_intersection s1 s2).
Proof.
  intros s1 s2 P1 P2. destruct (pair_case_spec s1 s2 P1 P2) as [| | | | |p H _ _ E _|p H _ _ _ E _|]; intros [K|K]; try discriminate K; rewrite E; exact H.
Qed.

Lemma detect_path : forall k below ev s s' f, sane s -> (below < length (lefts s))%nat -> (ev < length (lefts s))%nat ->
  detect k below ev s = Ok (s', f) -> path s s'.
Proof.
  intros k below ev s s' f Hs Hb He H. pose proof (sn_wf s Hs) as Hw.
  pose proof (sn_up s Hs below Hb) as Ub. pose proof (sn_up s Hs ev He) as Ue.
  assert (Pb : proper (seg_of s below)) by (intro E; cbn in E; rewrite E in Ub; exact (plt_irrefl _ Ub)).
  assert (Pe : proper (seg_of s ev)) by (intro E; cbn in E; rewrite E in Ue; exact (plt_irrefl _ Ue)).
  assert (Hover : overlapping (segments_relation (seg_of s below) (seg_of s ev)) = true ->
    (if match k with Nary => false | _ => Bool.eqb (l_first (lft s below)) (l_first (lft s ev)) end
      then Err ValueError
      else
        let s0 := mark_overlap k below ev s in
        let starts_equal := pt_eqb (l_start (lft s below)) (l_start (lft s ev)) in
        let '(start_min, start_max) :=
          if key_ltb k s0 (EL ev) (EL below) then (ev, below) else (below, ev) in
        let ends_equal := pt_eqb (end_of s ev) (end_of s below) in
        let '(end_min, end_max) :=
          if key_ltb k s0 (ER (l_right (lft s0 ev))) (ER (l_right (lft s0 below)))
          then (l_right (lft s0 ev), l_right (lft s0 below))
          else (l_right (lft s0 below), l_right (lft s0 ev)) in
        let end_min_start := r_start (rgt s0 end_min) in
        let end_max_left := r_left (rgt s0 end_max) in
        let start_max_start := l_start (lft s0 start_max) in
        if starts_equal
        then
          let s1 := mark_kind k below ev s0 in
          Ok (if ends_equal then s1 else divide end_max_left end_min_start s1, true)
        else if ends_equal
        then Ok (divide start_min start_max_start s0, false)
        else if Nat.eqb start_min end_max_left
        then Ok (divide start_min start_max_start (divide start_min end_min_start s0), false)
        else Ok (divide start_min start_max_start (divide start_max end_min_start s0), false)) = Ok (s', f) -> path s s').
  { intros Hr. pose proof (overlapping_overlap _ _ Pb Pe Hr) as Ho. destruct (overlap_line _ _ _ _ Ub Ue Ho) as (Hc & L1 & L2).
    destruct (match k with Nary => false | _ => Bool.eqb (l_first (lft s below)) (l_first (lft s ev)) end); [discriminate|].
    cbv zeta. pose proof (erase_overlap k below ev s) as Em. set (s0 := mark_overlap k below ev s) in *.
    pose proof (sane_erase s s0 Em Hs) as Hs0. pose proof (erase_len s s0 Em) as Hl. pose proof (sn_wf s0 Hs0) as Hw0.
    assert (Hst : forall i, l_start (lft s0 i) = l_start (lft s i)) by (intro i; exact (f_equal s_start (erase_seg s s0 i Em))).
    assert (Hen : forall i, end_of s0 i = end_of s i) by (intro i; exact (f_equal s_end (erase_seg s s0 i Em))).
    assert (Hb0 : (below < length (lefts s0))%nat) by (rewrite Hl; exact Hb).
    assert (He0 : (ev < length (lefts s0))%nat) by (rewrite Hl; exact He).
    intro H0. apply (path_label s s0 s' Em).
    rewrite <- (Hst below), <- (Hst ev), <- (Hen below), <- (Hen ev) in H0, Hc.
    rewrite <- (Hst below), <- (Hen below) in Ub. rewrite <- (Hst ev), <- (Hen ev) in Ue.
    rewrite <- (Hst below), <- (Hen ev) in L1. rewrite <- (Hst ev), <- (Hen below) in L2.
    pose proof (proj2 (w_lr s0 Hw0 below Hb0)) as Rb. pose proof (proj2 (w_lr s0 Hw0 ev He0)) as Re.
    assert (Kst : l_start (lft s0 ev) <> l_start (lft s0 below) ->
      key_ltb k s0 (EL ev) (EL below) = pt_ltb (l_start (lft s0 ev)) (l_start (lft s0 below))) by exact (key_starts k s0 (EL ev) (EL below)).
    assert (Ken : end_of s0 ev <> end_of s0 below ->
      key_ltb k s0 (ER (l_right (lft s0 ev))) (ER (l_right (lft s0 below))) = pt_ltb (end_of s0 ev) (end_of s0 below))
      by exact (key_starts k s0 (ER (l_right (lft s0 ev))) (ER (l_right (lft s0 below)))).
    assert (C : forall x y z, In x [l_start (lft s0 below); end_of s0 below; l_start (lft s0 ev); end_of s0 ev] ->
      In y [l_start (lft s0 below); end_of s0 below; l_start (lft s0 ev); end_of s0 ev] ->
      In z [l_start (lft s0 below); end_of s0 below; l_start (lft s0 ev); end_of s0 ev] -> cross x y z = 0) by exact Hc.
    pose proof (erase_kind k below ev s0) as Ek.
    assert (Hst1 : forall i, l_start (lft (mark_kind k below ev s0) i) = l_start (lft s0 i)) by (intro i; exact (f_equal s_start (erase_seg _ _ i Ek))).
    assert (Hen1 : forall i, end_of (mark_kind k below ev s0) i = end_of s0 i) by (intro i; exact (f_equal s_end (erase_seg _ _ i Ek))).
    pose proof (erase_len _ _ Ek) as Hl1. set (s1 := mark_kind k below ev s0) in *.
    assert (Tst : forall x y : point, x <> y -> ~ plt x y -> plt y x).
    { intros x y N K. destruct (plt_total x y) as [J|[J|J]]; [contradiction|contradiction|exact J]. }
    destruct (pt_eqb_spec (l_start (lft s0 below)) (l_start (lft s0 ev))) as [Es|Ns].
    - destruct (pt_eqb_spec (end_of s0 ev) (end_of s0 below)) as [Ee|Ne].
      + assert (E : s' = s1).
        { destruct (key_ltb k s0 (EL ev) (EL below)), (key_ltb k s0 (ER (l_right (lft s0 ev))) (ER (l_right (lft s0 below))));
            injection H0 as <- _; reflexivity. }
        rewrite E. exact (path_label s0 s1 s1 Ek (path_end s1)).
      + rewrite (Ken Ne) in H0. destruct (pt_ltb_spec (end_of s0 ev) (end_of s0 below)) as [K|K].
        * assert (E : s' = divide below (end_of s0 ev) s1).
          { destruct (key_ltb k s0 (EL ev) (EL below)); rewrite Rb in H0; injection H0 as <- _; reflexivity. }
          rewrite E. apply (path_label s0 s1 _ Ek). apply path_lex; rewrite ?Hl1, ?Hst1, ?Hen1;
            [exact Hb0|apply C; cbn; tauto|rewrite Es; exact Ue|exact K].
        * assert (E : s' = divide ev (end_of s0 below) s1).
          { destruct (key_ltb k s0 (EL ev) (EL below)); rewrite Re in H0; injection H0 as <- _; reflexivity. }
          rewrite E. apply (path_label s0 s1 _ Ek). apply path_lex; rewrite ?Hl1, ?Hst1, ?Hen1;
            [exact He0|apply C; cbn; tauto|rewrite <- Es; exact Ub|apply Tst; assumption].
    - assert (Ns' : l_start (lft s0 ev) <> l_start (lft s0 below)) by congruence. rewrite (Kst Ns') in H0.
      assert (Nbe : below <> ev) by (intros ->; apply Ns; reflexivity).
      assert (Neb : ev <> below) by congruence.
      destruct (pt_eqb_spec (end_of s0 ev) (end_of s0 below)) as [Ee|Ne].
      + destruct (pt_ltb_spec (l_start (lft s0 ev)) (l_start (lft s0 below))) as [K|K].
        * assert (E : s' = divide ev (l_start (lft s0 below)) s0).
          { destruct (key_ltb k s0 (ER (l_right (lft s0 ev))) (ER (l_right (lft s0 below)))); injection H0 as <- _; reflexivity. }
          rewrite E. apply path_lex; [exact He0|apply C; cbn; tauto|exact K|exact L1].
        * assert (E : s' = divide below (l_start (lft s0 ev)) s0).
          { destruct (key_ltb k s0 (ER (l_right (lft s0 ev))) (ER (l_right (lft s0 below)))); injection H0 as <- _; reflexivity. }
          rewrite E. apply path_lex; [exact Hb0|apply C; cbn; tauto|apply Tst; assumption|exact L2].
      + rewrite (Ken Ne) in H0. destruct (pt_ltb_spec (l_start (lft s0 ev)) (l_start (lft s0 below))) as [K|K], (pt_ltb_spec (end_of s0 ev) (end_of s0 below)) as [J|J];
          rewrite ?Rb, ?Re, ?Nat.eqb_refl, ?(proj2 (Nat.eqb_neq _ _) Nbe), ?(proj2 (Nat.eqb_neq _ _) Neb) in H0; injection H0 as <- _.
        * (* ev starts and ends first *)
          change (r_start (rgt s0 (l_right (lft s0 ev)))) with (end_of s0 ev).
          assert (P1 : path s0 (divide below (end_of s0 ev) s0)) by (apply path_lex; [exact Hb0|apply C; cbn; tauto|exact L1|exact J]).
          apply (path_trans _ _ _ P1). pose proof (proj1 (path_sane _ _ P1 Hs0)) as Hs2.
          apply path_lex; rewrite ?(div_lefts s0 below _ Hb0), ?(div_lft_other s0 below _ ev He0 Neb), ?(div_end_other s0 below _ Hw0 Hb0 ev He0 Neb);
            [lia|apply C; cbn; tauto|exact K|exact L1].
        * (* ev includes below *)
          change (r_start (rgt s0 (l_right (lft s0 below)))) with (end_of s0 below).
          assert (P1 : path s0 (divide ev (end_of s0 below) s0)).
          { apply path_lex; [exact He0|apply C; cbn; tauto|exact (plt_trans _ _ _ K Ub)|apply Tst; assumption]. }
          apply (path_trans _ _ _ P1).
          apply path_lex; rewrite ?(div_lefts s0 ev _ He0), ?(div_lft_i s0 ev _ Hw0 He0), ?(div_end_i s0 ev _ Hw0 He0);
            [lia|apply C; cbn; tauto|exact K|exact Ub].
        * (* below includes ev *)
          change (r_start (rgt s0 (l_right (lft s0 ev)))) with (end_of s0 ev).
          apply Tst in K; [|exact Ns'].
          assert (P1 : path s0 (divide below (end_of s0 ev) s0)).
          { apply path_lex; [exact Hb0|apply C; cbn; tauto|exact (plt_trans _ _ _ K Ue)|exact J]. }
          apply (path_trans _ _ _ P1).
          apply path_lex; rewrite ?(div_lefts s0 below _ Hb0), ?(div_lft_i s0 below _ Hw0 Hb0), ?(div_end_i s0 below _ Hw0 Hb0);
            [lia|apply C; cbn; tauto|exact K|exact Ue].
        * (* below starts and ends first *)
          change (r_start (rgt s0 (l_right (lft s0 below)))) with (end_of s0 below).
          apply Tst in K; [|exact Ns']. apply Tst in J; [|exact Ne].
          assert (P1 : path s0 (divide ev (end_of s0 below) s0)) by (apply path_lex; [exact He0|apply C; cbn; tauto|exact L2|exact J]).
          apply (path_trans _ _ _ P1).
          apply path_lex; rewrite ?(div_lefts s0 ev _ He0), ?(div_lft_other s0 ev _ below Hb0 Nbe), ?(div_end_other s0 ev _ Hw0 He0 below Hb0 Nbe);
            [lia|apply C; cbn; tauto|exact K|exact L2]. }
  assert (Hmeet : segments_relation (seg_of s below) (seg_of s ev) = CROSS \/ segments_relation (seg_of s below) (seg_of s ev) = TOUCH ->
    (if negb (pt_eqb (l_start (lft s ev)) (l_start (lft s below))) && negb (pt_eqb (end_of s ev) (end_of s below))
      then
        let p := segments_intersection (seg_of s below) (seg_of s ev) in
        let s1 := if negb (pt_eqb p (l_start (lft s below))) && negb (pt_eqb p (end_of s below)) then divide below p s else s in
        let s2 := if negb (pt_eqb p (l_start (lft s ev))) && negb (pt_eqb p (end_of s ev)) then divide ev p s1 else s1 in
        Ok (s2, false)
      else Ok (s, false)) = Ok (s', f) -> path s s').
  { intros Hr. pose proof (meeting_point _ _ Pb Pe Hr) as (C1 & C2). set (p := segments_intersection (seg_of s below) (seg_of s ev)) in *.
    destruct (pt_eqb_spec (l_start (lft s ev)) (l_start (lft s below))) as [E|N]; cbn [negb andb].
    { intro E'. injection E' as <- _. apply path_end. }
    destruct (pt_eqb (end_of s ev) (end_of s below)); cbn [negb].
    { intro E'. injection E' as <- _. apply path_end. }
    assert (Neb : ev <> below) by (intros ->; apply N; reflexivity).
    cbv zeta. intro E'. injection E' as <- _.
    set (s1 := if negb (pt_eqb p (l_start (lft s below))) && negb (pt_eqb p (end_of s below)) then divide below p s else s).
    assert (K : path s s1 /\ seg_of s1 ev = seg_of s ev /\ sane s1 /\ (ev < length (lefts s1))%nat).
    { subst s1. destruct (pt_eqb_spec p (l_start (lft s below))) as [E|N1]; cbn [negb andb]; [exact (conj (path_end s) (conj eq_refl (conj Hs He)))|].
      destruct (pt_eqb_spec p (end_of s below)) as [E|N2]; cbn [negb]; [exact (conj (path_end s) (conj eq_refl (conj Hs He)))|].
      assert (P1 : path s (divide below p s)) by (apply path_inside; [exact Hs|exact Hb|exact (conj C1 (conj N1 N2))]).
      split; [exact P1|]. split; [exact (divided_seg_other s below p ev Hs Hb He Neb)|]. split; [exact (proj1 (path_sane _ _ P1 Hs))|].
      rewrite (div_lefts s below p Hb). lia. }
    destruct K as (K1 & K2 & K3 & K4). apply (path_trans _ _ _ K1).
    destruct (pt_eqb_spec p (l_start (lft s ev))) as [E|N1]; cbn [negb andb]; [apply path_end|].
    destruct (pt_eqb_spec p (end_of s ev)) as [E|N2]; cbn [negb]; [apply path_end|].
    apply path_inside; [exact K3|exact K4|]. rewrite K2. exact (conj C2 (conj N1 N2)). }
  unfold detect in H. cbv zeta in H.
  destruct (segments_relation (seg_of s below) (seg_of s ev)); try exact (Hover eq_refl H).
  - injection H as <- _. apply path_end.
  - exact (Hmeet (or_intror eq_refl) H).
  - exact (Hmeet (or_introl eq_refl) H).
Qed.

(** ** Processing of events *)
Lemma line_nth : forall s n i, sane s -> nth_error (line s) n = Some i -> (i < length (lefts s))%nat.
Proof. intros s n i Hs H. exact (sn_line s Hs i (nth_error_In _ _ H)). Qed.
Lemma above_range : forall k shape s i a, sane s -> line_above k shape s i = Some a -> (a < length (lefts s))%nat.
Proof.
  intros k shape s i a Hs H. unfold line_above in H. destruct (search k shape s i) as (f, n). destruct f; [|discriminate H].
  exact (line_nth s _ a Hs H).
Qed.
Lemma below_range : forall k shape s i a, sane s -> line_below k shape s i = Some a -> (a < length (lefts s))%nat.
Proof.
  intros k shape s i a Hs H. unfold line_below in H. destruct (search k shape s i) as (f, n). destruct f; [|discriminate H].
  destruct n as [|n]; [discriminate H|]. exact (line_nth s _ a Hs H).
Qed.
Lemma in_removed : forall (l : list nat) n x, In x (firstn n l ++ skipn (S n) l) -> In x l.
Proof.
  induction l as [|y l IH]; intros [|n] x H; cbn in H; try contradiction.
  - right. exact H.
  - destruct H as [->|H]; [left; reflexivity|right; exact (IH n x H)].
Qed.
Lemma add_sane : forall k shape i s, sane s -> (i < length (lefts s))%nat -> exists l, line_add k shape i s = with_line s l /\ sane (with_line s l).
Proof.
  intros k shape i s Hs Hi. unfold line_add. destruct (search k shape s i) as (f, n). destruct f.
  - exists (line s). split; [destruct s; reflexivity|]. apply sane_with_line; [exact (sn_line s Hs)|exact Hs].
  - exists (firstn n (line s) ++ i :: skipn n (line s)). split; [reflexivity|]. apply sane_with_line; [|exact Hs].
    intros j Hj. apply in_app_iff in Hj. destruct Hj as [Hj|[<-|Hj]]; [|exact Hi|].
    + apply (sn_line s Hs). rewrite <- (firstn_skipn n (line s)). apply in_app_iff. left. exact Hj.
    + apply (sn_line s Hs). rewrite <- (firstn_skipn n (line s)). apply in_app_iff. right. exact Hj.
Qed.
Lemma remove_sane : forall k shape i s s', sane s -> line_remove k shape i s = Ok s' -> exists l, s' = with_line s l /\ sane s'.
Proof.
  intros k shape i s s' Hs H. unfold line_remove in H. destruct (search k shape s i) as (f, n). destruct f; [|discriminate H].
  injection H as <-. eexists. split; [reflexivity|]. apply sane_with_line; [|exact Hs].
  intros j Hj. exact (sn_line s Hs j (in_removed _ _ _ Hj)).
Qed.
Lemma with_line_same : forall k s l, compared_same k s (with_line s l).
Proof. intros k s l a b _ _. destruct k; reflexivity. Qed.

(** What processing of an event does: the sweep line is changed, and then
    labels are assigned and segments are divided. *)
Definition processed_well (s s' : state) : Prop := exists l, sane (with_line s l) /\ path (with_line s l) s'.
Lemma well_orderly : forall k s s', processed_well s s' -> orderly k s s'.
Proof.
  intros k s s' (l & Hs & H). apply (orderly_assign k s (with_line s l)); [reflexivity|apply with_line_same|].
  exact (path_orderly k _ _ H Hs).
Qed.
Lemma well_sane : forall s s', processed_well s s' -> sane s'.
Proof. intros s s' (l & Hs & H). exact (proj1 (path_sane _ _ H Hs)). Qed.
Lemma well_same : forall s, sane s -> processed_well s s.
Proof.
  intros s Hs. exists (line s). destruct s as [a b c d]. split; [exact Hs|apply path_end].
Qed.

Lemma detect_only_path : forall k below ev s s', sane s -> (below < length (lefts s))%nat -> (ev < length (lefts s))%nat ->
  detect_only k below ev s = Ok s' -> path s s'.
Proof.
  intros k below ev s s' Hs Hb He H. unfold detect_only in H. destruct (detect k below ev s) as [(x, f)|] eqn:E; [|discriminate H].
  injection H as <-. exact (detect_path k below ev s x f Hs Hb He E).
Qed.
Lemma add_well : forall k o n i s s', sane s -> (i < length (lefts s))%nat -> add_left k o n i s = Ok s' -> processed_well s s'.
Proof.
  intros k o n i s s' Hs Hi H. unfold add_left in H. destruct (add_sane k (o_shape o (2 * n)) i s Hs Hi) as (l & El & Hl).
  rewrite El in H. exists l. split; [exact Hl|]. set (s1 := with_line s l) in *. assert (Hi1 : (i < length (lefts s1))%nat) by exact Hi.
  destruct (line_above k (o_shape o (2 * n + 1)) s1 i) as [a|] eqn:Ea; cbn [detect_above] in H.
  - pose proof (above_range k _ s1 i a Hl Ea) as Ra. destruct (detect_only k i a s1) as [s2|] eqn:E2; [|discriminate H].
    pose proof (detect_only_path k i a s1 s2 Hl Hi1 Ra E2) as P2. destruct (path_sane _ _ P2 Hl) as (Hs2 & L2 & _).
    apply (path_trans _ _ _ P2). destruct (line_below k (o_shape o (2 * n + 1)) s1 i) as [b|] eqn:Eb; cbn [detect_below] in H.
    + pose proof (below_range k _ s1 i b Hl Eb) as Rb.
      apply (detect_only_path k b i s2 s' Hs2); [lia|lia|exact H].
    + injection H as <-. apply path_end.
  - destruct (line_below k (o_shape o (2 * n + 1)) s1 i) as [b|] eqn:Eb; cbn [detect_below] in H.
    + pose proof (below_range k _ s1 i b Hl Eb) as Rb. exact (detect_only_path k b i s1 s' Hl Rb Hi1 H).
    + injection H as <-. apply path_end.
Qed.
Lemma remove_well : forall k o n i s s', sane s -> remove_left k o n i s = Ok s' -> processed_well s s'.
Proof.
  intros k o n i s s' Hs H. unfold remove_left in H.
  destruct (line_remove k (o_shape o (2 * n)) i s) as [s1|] eqn:E; [|discriminate H].
  destruct (remove_sane k _ i s s1 Hs E) as (l & -> & Hl). exists l. split; [exact Hl|].
  destruct (line_above k (o_shape o (2 * n)) s i) as [a|] eqn:Ea; [|injection H as <-; apply path_end].
  destruct (line_below k (o_shape o (2 * n)) s i) as [b|] eqn:Eb; [|injection H as <-; apply path_end].
  exact (detect_only_path k b a _ s' Hl (below_range k _ s i b Hs Eb) (above_range k _ s i a Hs Ea) H).
Qed.
Lemma add_labelled_well : forall k holey result o n i s s', sane s -> (i < length (lefts s))%nat ->
  add_labelled k holey result o n i s = Ok s' -> processed_well s s'.
Proof.
  intros k holey result o n i s s' Hs Hi H. unfold add_labelled in H. destruct (add_sane k (o_shape o (2 * n)) i s Hs Hi) as (l & El & Hl).
  rewrite El in H. exists l. split; [exact Hl|]. set (s1 := with_line s l) in *. assert (Hi1 : (i < length (lefts s1))%nat) by exact Hi.
  cbv zeta in H. set (below := line_below k (o_shape o (2 * n + 1)) s1 i) in *.
  assert (Rb : forall b, below = Some b -> (b < length (lefts s1))%nat) by (intros b E; exact (below_range k _ s1 i b Hl E)).
  assert (Ra : forall a, line_above k (o_shape o (2 * n + 1)) s1 i = Some a -> (a < length (lefts s1))%nat) by (intros a E; exact (above_range k _ s1 i a Hl E)).
  pose proof (erase_compute holey result i below s1) as E2. set (s2 := compute_fields holey result i below s1) in *.
  pose proof (sane_erase _ _ E2 Hl) as Hs2. pose proof (erase_len _ _ E2) as L2.
  destruct (match line_above k (o_shape o (2 * n + 1)) s1 i with
    | None => Ok s2
    | Some a =>
        bind_res (detect k i a s2) (fun '(s3, f) =>
          Ok (if f then compute_fields holey result a (Some i) (compute_fields holey result i below s3) else s3))
    end) as [s4|] eqn:E4; [|discriminate H]. cbn [bind_res] in H.
  assert (P4 : path s2 s4).
  { destruct (line_above k (o_shape o (2 * n + 1)) s1 i) as [a|]; [|injection E4 as <-; apply path_end].
    pose proof (Ra a eq_refl) as Ha. destruct (detect k i a s2) as [(s3, f)|] eqn:E3; [|discriminate E4]. cbn [bind_res] in E4.
    injection E4 as <-. assert (P3 : path s2 s3) by (apply (detect_path k i a s2 s3 f Hs2); [lia|lia|exact E3]).
    apply (path_trans _ _ _ P3). destruct f; [|apply path_end]. eapply path_label; [|apply path_end]. rewrite !erase_compute. reflexivity. }
  destruct (path_sane _ _ P4 Hs2) as (Hs4 & L4 & _). apply (path_label s1 s2 s' E2). apply (path_trans _ _ _ P4).
  destruct below as [b|]; [|injection H as <-; apply path_end]. pose proof (Rb b eq_refl) as Hb.
  destruct (detect k b i s4) as [(s5, f)|] eqn:E5; [|discriminate H]. cbn [bind_res] in H. injection H as <-.
  assert (P5 : path s4 s5) by (apply (detect_path k b i s4 s5 f Hs4); [lia|lia|exact E5]).
  apply (path_trans _ _ _ P5). destruct f; [|apply path_end]. eapply path_label; [|apply path_end]. rewrite !erase_compute. reflexivity.
Qed.

Lemma process_linear_well : forall o n ev s s', sane s -> in_range s ev -> process_linear o n ev s = Ok s' -> processed_well s s'.
Proof.
  intros o n [i|r] s s' Hs Hr H; cbn [process_linear] in H.
  - exact (add_well Linear o n i s s' Hs Hr H).
  - cbv zeta in H. destruct (line_contains Linear (o_shape o (2 * n)) s (r_left (rgt s r))).
    + exact (remove_well Linear o n _ s s' Hs H).
    + injection H as <-. exact (well_same s Hs).
Qed.
Lemma process_nary_well : forall o n ev s s' out, sane s -> in_range s ev -> process_nary o n ev s = Ok (s', out) -> processed_well s s'.
Proof.
  intros o n [i|r] s s' out Hs Hr H; cbn [process_nary] in H.
  - destruct (line_contains Nary (o_shape o (2 * n)) s i); [injection H as <- _; exact (well_same s Hs)|].
    destruct (add_left Nary o n i s) as [x|] eqn:E; [|discriminate H]. cbn [bind_res] in H. injection H as <- _.
    exact (add_well Nary o n i s x Hs Hr E).
  - cbv zeta in H. destruct (line_contains Nary (o_shape o (2 * n)) s (r_left (rgt s r))); [|injection H as <- _; exact (well_same s Hs)].
    destruct (remove_left Nary o n (r_left (rgt s r)) s) as [x|] eqn:E; [|discriminate H]. cbn [bind_res] in H. injection H as <- _.
    exact (remove_well Nary o n _ s x Hs E).
Qed.
Lemma process_labelled_well : forall k holey result o n ev s s' b, sane s -> in_range s ev ->
  process_labelled k holey result o n ev s = Ok (s', b) -> processed_well s s'.
Proof.
  intros k holey result o n [i|r] s s' b Hs Hr H; cbn [process_labelled] in H.
  - destruct (line_contains k (o_shape o (2 * n)) s i); [injection H as <- _; exact (well_same s Hs)|].
    destruct (add_labelled k holey result o n i s) as [x|] eqn:E; [|discriminate H]. cbn [bind_res] in H. injection H as <- _.
    exact (add_labelled_well k holey result o n i s x Hs Hr E).
  - cbv zeta in H. destruct (line_contains k (o_shape o (2 * n)) s (r_left (rgt s r))); [|injection H as <- _; exact (well_same s Hs)].
    destruct (remove_left k o n (r_left (rgt s r)) s) as [x|] eqn:E; [|discriminate H]. cbn [bind_res] in H. injection H as <- _.
    exact (remove_well k o n _ s x Hs E).
Qed.

Lemma pop_sane : forall k pick s ev s1, pop k pick s = Ok (ev, s1) -> sane s -> sane s1 /\ in_range s1 ev.
Proof.
  intros k pick s ev s1 H Hs. unfold pop in H. destruct (least (key_ltb k s) (queue s)) as [|e0 l] eqn:E; [discriminate H|].
  set (x := nth (pick (e0 :: l) mod length (e0 :: l)) (e0 :: l) e0) in *.
  assert (Hx : In x (queue s)).
  { assert (K : In x (least (key_ltb k s) (queue s))).
    { rewrite E. apply nth_In. apply Nat.mod_upper_bound. discriminate. }
    unfold least in K. apply filter_In in K. exact (proj1 K). }
  clearbody x. injection H as <- <-. split.
  - apply (sane_like s); try exact Hs; try reflexivity.
    + intros e K. cbn in K. apply filter_In in K. exact (proj1 K).
    + exact (sn_line s Hs).
  - exact (w_q s (sn_wf s Hs) x Hx).
Qed.
