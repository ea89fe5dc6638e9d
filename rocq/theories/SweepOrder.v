(** Reachable states of the linear sweep, order of the sweep line in them,
    pieces left by a sweep, and exceptions of detection.  Proof support only,
    no part of /repo is modelled here. *)
From Verif Require Import QcTac Geom Spec GeomFacts PairFacts PairProofs SweepGeo SweepInv SweepSteps Sweep SweepCmp SweepLink Linear SweepRun SweepLoop SweepStart SweepEnd LinearMeaning LinearThms SpecSweep.

Lemma pop_queue : forall k pick s x, pop k pick s = Ok x -> queue s <> [].
Proof. intros k pick s x H E. unfold pop in H. rewrite E in H. discriminate H. Qed.

Lemma reachable_good : forall first second, non_overlapping first -> non_overlapping second ->
  exists e P, Sheared e P /\ forall s, reachable first second s -> exists T pl, good e P (fill_linear first second) T s pl.
Proof.
  intros first second N1 N2. pose proof (filled_linear first second) as Hf. pose proof (lawful_operands _ _ N1 N2) as Hl.
  destruct (shear_exists (relevant_points (fill_linear first second))) as (e & _ & Hsh).
  exists e, (relevant_points (fill_linear first second)). split; [exact Hsh|]. intros s H.
  induction H as [|s s1 s2 ev pick o n H (T & pl & IH) Hp Hr].
  - destruct (init_good _ _ Hf Hl e Hsh) as (T0 & Hk & _). exists T0, []. exact Hk.
  - destruct (iteration e _ Hsh _ T s pl IH (pop_queue _ _ _ _ Hp)) as (ev' & _ & Hpop & _ & _ & _ & s' & Hpr & Hk & _).
    rewrite (Hpop pick) in Hp. injection Hp as <- <-. rewrite (Hpr o n) in Hr. injection Hr as <-.
    exists (time_of e s ev'), (pl ++ [ev']). exact Hk.
Qed.

Theorem reachable_order : forall first second s, non_overlapping first -> non_overlapping second -> reachable first second s ->
  (forall l1 x l2 y l3, line s = l1 ++ x :: l2 ++ y :: l3 -> binary_line_ltb s x y = true /\ binary_line_ltb s y x = false)
  /\ (forall l1 x l2 shape, line s = l1 ++ x :: l2 ->
        line_contains Linear shape s x = true /\ line_above Linear shape s x = hd_error l2
        /\ line_below Linear shape s x = last_error l1
        /\ line_remove Linear shape x s = Ok (with_line s (l1 ++ l2)))
  /\ (queue s <> [] -> exists ev s1 s2, (forall pick, pop Linear pick s = Ok (ev, s1))
        /\ (forall o n, process_linear o n ev s1 = Ok s2)).
Proof.
  intros first second s N1 N2 H. destruct (reachable_good first second N1 N2) as (e & P & Hsh & K).
  destruct (K s H) as (T & pl & Hk). clear K. pose proof (i_base _ _ _ _ _ (k_inv _ _ _ _ _ _ Hk)) as Hb.
  pose proof (base_on_line e P T s _ Hb) as Ho. split; [|split].
  - intros l1 x l2 y l3 E. destruct Ho as (O1 & O2 & O3).
    assert (Ix : In x (line s)) by (rewrite E; apply in_or_app; right; left; reflexivity).
    assert (Iy : In y (line s)) by (rewrite E; apply in_or_app; right; right; apply in_or_app; right; left; reflexivity).
    apply (ltb_of_below e T s x y).
    + intros <-. rewrite E in O3. apply NoDup_remove_2 in O3. apply O3. apply in_or_app. right. apply in_or_app. right. left. reflexivity.
    + apply O1. exact Ix.
    + apply O1. exact Iy.
    + apply O1. exact Ix.
    + apply O1. exact Iy.
    + rewrite E in O2. apply (FOP_next _ _ _ _ _ y O2). apply in_or_app. right. left. reflexivity.
  - intros l1 x l2 shape E. exact (neighbours e T s l1 x l2 Ho E shape).
  - intro Hq. destruct (iteration e _ Hsh _ T s pl Hk Hq) as (ev & _ & Hpop & _ & _ & _ & s' & Hpr & _).
    exists ev, (unqueue ev s), s'. split; assumption.
Qed.

Theorem pieces_of_operands : forall first second, non_overlapping first -> non_overlapping second ->
  exists s out, (forall o, sweep_lefts o no_stop first second = Ok (s, map EL out)) /\ NoDup out
  /\ (forall i, In i out -> plt (l_start (lft s i)) (end_of s i)
       /\ exists sg, In sg (if l_first (lft s i) then first else second)
            /\ (forall p, on_segment p (seg_of s i) -> on_segment p sg)
            /\ (l_interior (lft s i) = true <-> plt (s_start sg) (s_end sg)))
  /\ (forall (b : bool) sg p, In sg (if b then first else second) -> on_segment p sg ->
       exists i, In i out /\ l_first (lft s i) = b /\ on_segment p (seg_of s i))
  /\ (forall i j, In i out -> In j out -> i <> j ->
       (seg_of s i = seg_of s j /\ l_first (lft s i) <> l_first (lft s j))
       \/ (forall p, on_segment p (seg_of s i) -> on_segment p (seg_of s j) -> endpoint p (seg_of s i) /\ endpoint p (seg_of s j))).
Proof.
  intros first second N1 N2. destruct (linear_sweep first second None (lawful_operands _ _ N1 N2)) as (s & out & pl & H & _ & Hs & _).
  exists s, out. split; [exact Hs|]. split; [exact (sw_nodup _ _ _ _ H)|].
  assert (All : forall i, (i < length (lefts s))%nat -> In i out).
  { intros i Hi. destruct (in_dec Nat.eq_dec i out) as [K|K]; [exact K|exfalso].
    destruct (sw_rest _ _ _ _ H i Hi K) as (x & Ex & _). discriminate Ex. }
  split; [|split].
  - intros i Hi. pose proof (sw_range _ _ _ _ H i Hi) as Li. split; [exact (sw_plt _ _ _ _ H i Li)|].
    destruct (sw_src _ _ _ _ H) as (src & K & _). destruct (K i Li) as (sg & E & Eo & W).
    exists sg. split; [exact (tag_in _ _ _ _ _ E)|]. split; [exact W|]. rewrite Eo.
    assert (Pr : proper sg) by exact (proj1 (lawful_operands _ _ N1 N2) _ _ _ E).
    destruct (pt_ltb_spec (s_end sg) (s_start sg)) as [J|J]; cbn [negb].
    + split; [discriminate|]. intro J'. exfalso. exact (plt_irrefl _ (plt_trans _ _ _ J J')).
    + split; [intros _|reflexivity]. apply ple_lt_eq in J. destruct J as [J|J]; [exact J|exfalso; exact (Pr J)].
  - intros b sg p Hsg Hp. destruct (piece_at _ _ _ _ _ H b sg p Hsg Hp) as (i & Hi & Eb & Pi & _).
    exists i. split; [exact (All i Hi)|]. split; assumption.
  - intros i j Hi Hj Hn. destruct (sw_apart _ _ _ _ H i j Hi (sw_range _ _ _ _ H j Hj) (not_eq_sym Hn)) as [K|(_ & K1 & K2 & _)].
    + right. exact K.
    + left. split; assumption.
Qed.

(** Exceptions of detection. *)
Theorem detect_raises : forall k below ev s, k <> Nary -> proper (seg_of s below) -> proper (seg_of s ev) ->
  l_first (lft s below) = l_first (lft s ev) ->
  (overlap (seg_of s below) (seg_of s ev) -> detect k below ev s = Err ValueError)
  /\ (~ overlap (seg_of s below) (seg_of s ev) -> exists s', detect k below ev s = Ok (s', false)).
Proof.
  intros k below ev s Hk Pb Pe Ef. unfold detect. rewrite Ef, eqb_reflx.
  assert (Ek : match k with Nary => false | _ => true end = true) by (destruct k; congruence).
  destruct (pair_case_spec _ _ Pb Pe) as [E1 E2 O|? ? F H1 H2 H3 O|? ? F H1 H2 H3 O
    |? ? F H1 H2 H3 O|? ? F H1 H2 H3 O|x K U E I1 I2|x K U J1 J2 I1 I2|U].
  1-5: (split; [intros _; destruct k; try reflexivity; congruence|intro N; exfalso; exact (N O)]).
  - split; [intro O; exfalso; exact (no_overlap_unique _ _ _ U O)|intros _].
    destruct (negb (pt_eqb _ _) && negb (pt_eqb _ _)); eexists; reflexivity.
  - split; [intro O; exfalso; exact (no_overlap_unique _ _ _ U O)|intros _].
    destruct (negb (pt_eqb _ _) && negb (pt_eqb _ _)); eexists; reflexivity.
  - split; [intro O; exfalso; exact (no_overlap_none _ _ U O)|intros _]. eexists; reflexivity.
Qed.
Theorem detect_never_raises : forall k below ev s, k = Nary \/ l_first (lft s below) <> l_first (lft s ev) ->
  exists s' b, detect k below ev s = Ok (s', b).
Proof.
  intros k below ev s H. unfold detect.
  assert (E : match k with Nary => false | _ => Bool.eqb (l_first (lft s below)) (l_first (lft s ev)) end = false).
  { destruct H as [->|H]; [reflexivity|]. apply eqb_false_iff in H. rewrite H. destruct k; reflexivity. }
  assert (Cross : exists s' b, (if negb (pt_eqb (l_start (lft s ev)) (l_start (lft s below))) && negb (pt_eqb (end_of s ev) (end_of s below))
      then
        let p := segments_intersection (seg_of s below) (seg_of s ev) in
        let s1 := if negb (pt_eqb p (l_start (lft s below))) && negb (pt_eqb p (end_of s below)) then divide below p s else s in
        let s2 := if negb (pt_eqb p (l_start (lft s ev))) && negb (pt_eqb p (end_of s ev)) then divide ev p s1 else s1 in
        Ok (s2, false)
      else Ok (s, false)) = Ok (s', b)).
  { destruct (negb _ && negb _); eexists; eexists; reflexivity. }
  rewrite E. destruct (segments_relation _ _); try exact Cross; try (eexists; eexists; reflexivity).
  all: cbv zeta; destruct (key_ltb k (mark_overlap k below ev s) (EL ev) (EL below));
    match goal with |- context [if key_ltb ?kk ?s1 (ER ?a) (ER ?b) then _ else _] => destruct (key_ltb kk s1 (ER a) (ER b)) end;
    repeat match goal with |- context [if ?b then _ else _] => destruct b end; eexists; eexists; reflexivity.
Qed.
