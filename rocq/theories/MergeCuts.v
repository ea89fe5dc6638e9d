(** Divisions of segments at given points only.  Proof support only, no part
    of /repo is modelled here. *)
From Coq Require Import Permutation Sorted.
From Verif Require Import QcTac Geom Spec SpecSweep SpecNode GeomFacts SortFacts Relation PairFacts PairProofs PairThms Toward Sweep SweepCmp SweepLink SweepStart SweepLoop Linear Labelled Erase UnpackThms SelectThms LinearProps LinearThms QueueThms QueueProps.

(** ** Divisions at given points *)
Section Cuts.
Variable N : point -> Prop.

Inductive cuts : state -> state -> Prop :=
| cuts_end : forall s, cuts s s
| cuts_label : forall s s1 s', erase s1 = erase s -> cuts s1 s' -> cuts s s'
| cuts_divide : forall s i p s', N p -> (i < length (lefts s))%nat -> inside_segment p (seg_of s i) ->
    plt (l_start (lft s i)) p -> plt p (end_of s i) -> cuts (divide i p s) s' -> cuts s s'.
Lemma cuts_path : forall s s', cuts s s' -> path s s'.
Proof.
  intros s s' H. induction H as [s|s s1 s' E H IH|s i p s' HN Hi Hp L1 L2 H IH].
  - apply path_end.
  - exact (path_label s s1 s' E IH).
  - exact (path_divide s i p s' Hi Hp L1 L2 IH).
Qed.
Lemma cuts_trans : forall s s1 s2, cuts s s1 -> cuts s1 s2 -> cuts s s2.
Proof.
  intros s s1 s2 H J. induction H as [s|s s1 s' E H IH|s i p s' HN Hi Hp L1 L2 H IH].
  - exact J.
  - exact (cuts_label s s1 s2 E (IH J)).
  - exact (cuts_divide s i p s2 HN Hi Hp L1 L2 (IH J)).
Qed.
Lemma cuts_lex : forall s i p, N p -> (i < length (lefts s))%nat -> cross (l_start (lft s i)) (end_of s i) p = 0 ->
  plt (l_start (lft s i)) p -> plt p (end_of s i) -> cuts s (divide i p s).
Proof. intros s i p HN Hi Hc L1 L2. exact (cuts_divide s i p _ HN Hi (inside_lex _ _ _ Hc L1 L2) L1 L2 (cuts_end _)). Qed.
Lemma cuts_inside : forall s i p, N p -> sane s -> (i < length (lefts s))%nat -> inside_segment p (seg_of s i) -> cuts s (divide i p s).
Proof.
  intros s i p HN Hs Hi Hp. destruct (inside_up _ _ _ (sn_up s Hs i Hi) Hp) as (L1 & L2).
  exact (cuts_divide s i p _ HN Hi Hp L1 L2 (cuts_end _)).
Qed.
Lemma meeting_apart : forall s1 s2, proper s1 -> proper s2 -> segments_relation s1 s2 = CROSS \/ segments_relation s1 s2 = TOUCH ->
  ~ overlap s1 s2.
Proof.
  intros s1 s2 P1 P2. destruct (pair_case_spec s1 s2 P1 P2); intros [E|E]; try discriminate E; apply (no_overlap_unique s1 s2 p); assumption.
Qed.
Lemma detect_cuts : forall k below ev s s' f, sane s -> (below < length (lefts s))%nat -> (ev < length (lefts s))%nat ->
  N (l_start (lft s below)) -> N (end_of s below) -> N (l_start (lft s ev)) -> N (end_of s ev) ->
  (forall p, common (seg_of s below) (seg_of s ev) p -> ~ overlap (seg_of s below) (seg_of s ev) -> N p) ->
  detect k below ev s = Ok (s', f) -> cuts s s'.
Proof.
  intros k below ev s s' f Hs Hb He N1 N2 N3 N4 NM H. pose proof (sn_wf s Hs) as Hw.
  pose proof (sn_up s Hs below Hb) as Ub. pose proof (sn_up s Hs ev He) as Ue.
  assert (Pb : proper (seg_of s below)) by (intro E; cbn in E; rewrite E in Ub; exact (plt_irrefl _ Ub)).
  assert (Pe : proper (seg_of s ev)) by (intro E; cbn in E; rewrite E in Ue; exact (plt_irrefl _ Ue)).
  assert (Hover : overlapping (segments_relation (seg_of s below) (seg_of s ev)) = true ->
    (if match k with Nary => false | _ => Bool.eqb (l_first (lft s below)) (l_first (lft s ev)) end
      then Err ValueError
      else
        let s0 := mark_overlap k below ev s in
        let starts_equal := pt_eqb (l_start (lft s below)) (l_start (lft s ev)) in
        let '(start_min, start_max) :=
          if key_ltb k s0 (EL ev) (EL below) then (ev, below) else (below, ev) in
        let ends_equal := pt_eqb (end_of s ev) (end_of s below) in
        let '(end_min, end_max) :=
          if key_ltb k s0 (ER (l_right (lft s0 ev))) (ER (l_right (lft s0 below)))
          then (l_right (lft s0 ev), l_right (lft s0 below))
          else (l_right (lft s0 below), l_right (lft s0 ev)) in
        let end_min_start := r_start (rgt s0 end_min) in
        let end_max_left := r_left (rgt s0 end_max) in
        let start_max_start := l_start (lft s0 start_max) in
        if starts_equal
        then
          let s1 := mark_kind k below ev s0 in
          Ok (if ends_equal then s1 else divide end_max_left end_min_start s1, true)
        else if ends_equal
        then Ok (divide start_min start_max_start s0, false)
        else if Nat.eqb start_min end_max_left
        then Ok (divide start_min start_max_start (divide start_min end_min_start s0), false)
        else Ok (divide start_min start_max_start (divide start_max end_min_start s0), false)) = Ok (s', f) -> cuts s s').
  { intros Hr. pose proof (overlapping_overlap _ _ Pb Pe Hr) as Ho. destruct (overlap_line _ _ _ _ Ub Ue Ho) as (Hc & L1 & L2).
    destruct (match k with Nary => false | _ => Bool.eqb (l_first (lft s below)) (l_first (lft s ev)) end); [discriminate|].
    cbv zeta. pose proof (erase_overlap k below ev s) as Em. set (s0 := mark_overlap k below ev s) in *.
    pose proof (sane_erase s s0 Em Hs) as Hs0. pose proof (erase_len s s0 Em) as Hl. pose proof (sn_wf s0 Hs0) as Hw0.
    assert (Hst : forall i, l_start (lft s0 i) = l_start (lft s i)) by (intro i; exact (f_equal s_start (erase_seg s s0 i Em))).
    assert (Hen : forall i, end_of s0 i = end_of s i) by (intro i; exact (f_equal s_end (erase_seg s s0 i Em))).
    assert (Hb0 : (below < length (lefts s0))%nat) by (rewrite Hl; exact Hb).
    assert (He0 : (ev < length (lefts s0))%nat) by (rewrite Hl; exact He).
    intro H0. apply (cuts_label s s0 s' Em).
    rewrite <- (Hst below), <- (Hst ev), <- (Hen below), <- (Hen ev) in H0, Hc.
    rewrite <- (Hst below), <- (Hen below) in Ub. rewrite <- (Hst ev), <- (Hen ev) in Ue.
    rewrite <- (Hst below) in N1. rewrite <- (Hst ev) in N3. rewrite <- (Hen below) in N2. rewrite <- (Hen ev) in N4.
    rewrite <- (Hst below), <- (Hen ev) in L1. rewrite <- (Hst ev), <- (Hen below) in L2.
    pose proof (proj2 (w_lr s0 Hw0 below Hb0)) as Rb. pose proof (proj2 (w_lr s0 Hw0 ev He0)) as Re.
    assert (Kst : l_start (lft s0 ev) <> l_start (lft s0 below) ->
      key_ltb k s0 (EL ev) (EL below) = pt_ltb (l_start (lft s0 ev)) (l_start (lft s0 below))) by exact (key_starts k s0 (EL ev) (EL below)).
    assert (Ken : end_of s0 ev <> end_of s0 below ->
      key_ltb k s0 (ER (l_right (lft s0 ev))) (ER (l_right (lft s0 below))) = pt_ltb (end_of s0 ev) (end_of s0 below))
      by exact (key_starts k s0 (ER (l_right (lft s0 ev))) (ER (l_right (lft s0 below)))).
    assert (C : forall x y z, In x [l_start (lft s0 below); end_of s0 below; l_start (lft s0 ev); end_of s0 ev] ->
      In y [l_start (lft s0 below); end_of s0 below; l_start (lft s0 ev); end_of s0 ev] ->
      In z [l_start (lft s0 below); end_of s0 below; l_start (lft s0 ev); end_of s0 ev] -> cross x y z = 0) by exact Hc.
    pose proof (erase_kind k below ev s0) as Ek.
    assert (Hst1 : forall i, l_start (lft (mark_kind k below ev s0) i) = l_start (lft s0 i)) by (intro i; exact (f_equal s_start (erase_seg _ _ i Ek))).
    assert (Hen1 : forall i, end_of (mark_kind k below ev s0) i = end_of s0 i) by (intro i; exact (f_equal s_end (erase_seg _ _ i Ek))).
    pose proof (erase_len _ _ Ek) as Hl1. set (s1 := mark_kind k below ev s0) in *.
    assert (Tst : forall x y : point, x <> y -> ~ plt x y -> plt y x).
    { intros x y Nx K. destruct (plt_total x y) as [J|[J|J]]; [contradiction|contradiction|exact J]. }
    destruct (pt_eqb_spec (l_start (lft s0 below)) (l_start (lft s0 ev))) as [Es|Ns].
    - destruct (pt_eqb_spec (end_of s0 ev) (end_of s0 below)) as [Ee|Ne].
      + assert (E : s' = s1).
        { destruct (key_ltb k s0 (EL ev) (EL below)), (key_ltb k s0 (ER (l_right (lft s0 ev))) (ER (l_right (lft s0 below))));
            injection H0 as <- _; reflexivity. }
        rewrite E. exact (cuts_label s0 s1 s1 Ek (cuts_end s1)).
      + rewrite (Ken Ne) in H0. destruct (pt_ltb_spec (end_of s0 ev) (end_of s0 below)) as [K|K].
        * assert (E : s' = divide below (end_of s0 ev) s1).
          { destruct (key_ltb k s0 (EL ev) (EL below)); rewrite Rb in H0; injection H0 as <- _; reflexivity. }
          rewrite E. apply (cuts_label s0 s1 _ Ek). apply cuts_lex; [assumption| | | |]; rewrite ?Hl1, ?Hst1, ?Hen1;
            [exact Hb0|apply C; cbn; tauto|rewrite Es; exact Ue|exact K].
        * assert (E : s' = divide ev (end_of s0 below) s1).
          { destruct (key_ltb k s0 (EL ev) (EL below)); rewrite Re in H0; injection H0 as <- _; reflexivity. }
          rewrite E. apply (cuts_label s0 s1 _ Ek). apply cuts_lex; [assumption| | | |]; rewrite ?Hl1, ?Hst1, ?Hen1;
            [exact He0|apply C; cbn; tauto|rewrite <- Es; exact Ub|apply Tst; assumption].
    - assert (Ns' : l_start (lft s0 ev) <> l_start (lft s0 below)) by congruence. rewrite (Kst Ns') in H0.
      assert (Nbe : below <> ev) by (intros ->; apply Ns; reflexivity).
      assert (Neb : ev <> below) by congruence.
      destruct (pt_eqb_spec (end_of s0 ev) (end_of s0 below)) as [Ee|Ne].
      + destruct (pt_ltb_spec (l_start (lft s0 ev)) (l_start (lft s0 below))) as [K|K].
        * assert (E : s' = divide ev (l_start (lft s0 below)) s0).
          { destruct (key_ltb k s0 (ER (l_right (lft s0 ev))) (ER (l_right (lft s0 below)))); injection H0 as <- _; reflexivity. }
          rewrite E. apply cuts_lex; [assumption| | | |]; [exact He0|apply C; cbn; tauto|exact K|exact L1].
        * assert (E : s' = divide below (l_start (lft s0 ev)) s0).
          { destruct (key_ltb k s0 (ER (l_right (lft s0 ev))) (ER (l_right (lft s0 below)))); injection H0 as <- _; reflexivity. }
          rewrite E. apply cuts_lex; [assumption| | | |]; [exact Hb0|apply C; cbn; tauto|apply Tst; assumption|exact L2].
      + rewrite (Ken Ne) in H0. destruct (pt_ltb_spec (l_start (lft s0 ev)) (l_start (lft s0 below))) as [K|K], (pt_ltb_spec (end_of s0 ev) (end_of s0 below)) as [J|J];
          rewrite ?Rb, ?Re, ?Nat.eqb_refl, ?(proj2 (Nat.eqb_neq _ _) Nbe), ?(proj2 (Nat.eqb_neq _ _) Neb) in H0; injection H0 as <- _.
        * (* ev starts and ends first *)
          change (r_start (rgt s0 (l_right (lft s0 ev)))) with (end_of s0 ev).
          assert (P1 : cuts s0 (divide below (end_of s0 ev) s0)) by (apply cuts_lex; [assumption| | | |]; [exact Hb0|apply C; cbn; tauto|exact L1|exact J]).
          apply (cuts_trans _ _ _ P1). pose proof (proj1 (path_sane _ _ (cuts_path _ _ P1) Hs0)) as Hs2.
          apply cuts_lex; [assumption| | | |]; rewrite ?(div_lefts s0 below _ Hb0), ?(div_lft_other s0 below _ ev He0 Neb), ?(div_end_other s0 below _ Hw0 Hb0 ev He0 Neb);
            [lia|apply C; cbn; tauto|exact K|exact L1].
        * (* ev includes below *)
          change (r_start (rgt s0 (l_right (lft s0 below)))) with (end_of s0 below).
          assert (P1 : cuts s0 (divide ev (end_of s0 below) s0)).
          { apply cuts_lex; [assumption| | | |]; [exact He0|apply C; cbn; tauto|exact (plt_trans _ _ _ K Ub)|apply Tst; assumption]. }
          apply (cuts_trans _ _ _ P1).
          apply cuts_lex; [assumption| | | |]; rewrite ?(div_lefts s0 ev _ He0), ?(div_lft_i s0 ev _ Hw0 He0), ?(div_end_i s0 ev _ Hw0 He0);
            [lia|apply C; cbn; tauto|exact K|exact Ub].
        * (* below includes ev *)
          change (r_start (rgt s0 (l_right (lft s0 ev)))) with (end_of s0 ev).
          apply Tst in K; [|exact Ns'].
          assert (P1 : cuts s0 (divide below (end_of s0 ev) s0)).
          { apply cuts_lex; [assumption| | | |]; [exact Hb0|apply C; cbn; tauto|exact (plt_trans _ _ _ K Ue)|exact J]. }
          apply (cuts_trans _ _ _ P1).
          apply cuts_lex; [assumption| | | |]; rewrite ?(div_lefts s0 below _ Hb0), ?(div_lft_i s0 below _ Hw0 Hb0), ?(div_end_i s0 below _ Hw0 Hb0);
            [lia|apply C; cbn; tauto|exact K|exact Ue].
        * (* below starts and ends first *)
          change (r_start (rgt s0 (l_right (lft s0 below)))) with (end_of s0 below).
          apply Tst in K; [|exact Ns']. apply Tst in J; [|exact Ne].
          assert (P1 : cuts s0 (divide ev (end_of s0 below) s0)) by (apply cuts_lex; [assumption| | | |]; [exact He0|apply C; cbn; tauto|exact L2|exact J]).
          apply (cuts_trans _ _ _ P1).
          apply cuts_lex; [assumption| | | |]; rewrite ?(div_lefts s0 ev _ He0), ?(div_lft_other s0 ev _ below Hb0 Nbe), ?(div_end_other s0 ev _ Hw0 He0 below Hb0 Nbe);
            [lia|apply C; cbn; tauto|exact K|exact L2]. }
  assert (Hmeet : segments_relation (seg_of s below) (seg_of s ev) = CROSS \/ segments_relation (seg_of s below) (seg_of s ev) = TOUCH ->
    (if negb (pt_eqb (l_start (lft s ev)) (l_start (lft s below))) && negb (pt_eqb (end_of s ev) (end_of s below))
      then
        let p := segments_intersection (seg_of s below) (seg_of s ev) in
        let s1 := if negb (pt_eqb p (l_start (lft s below))) && negb (pt_eqb p (end_of s below)) then divide below p s else s in
        let s2 := if negb (pt_eqb p (l_start (lft s ev))) && negb (pt_eqb p (end_of s ev)) then divide ev p s1 else s1 in
        Ok (s2, false)
      else Ok (s, false)) = Ok (s', f) -> cuts s s').
  { intros Hr. pose proof (meeting_point _ _ Pb Pe Hr) as (C1 & C2).
    pose proof (NM _ (conj C1 C2) (meeting_apart _ _ Pb Pe Hr)) as NM0. set (p := segments_intersection (seg_of s below) (seg_of s ev)) in *.
    destruct (pt_eqb_spec (l_start (lft s ev)) (l_start (lft s below))) as [E|Nq]; cbn [negb andb].
    { intro E'. injection E' as <- _. apply cuts_end. }
    destruct (pt_eqb (end_of s ev) (end_of s below)); cbn [negb].
    { intro E'. injection E' as <- _. apply cuts_end. }
    assert (Neb : ev <> below) by (intros ->; apply Nq; reflexivity).
    cbv zeta. intro E'. injection E' as <- _.
    set (s1 := if negb (pt_eqb p (l_start (lft s below))) && negb (pt_eqb p (end_of s below)) then divide below p s else s).
    assert (K : cuts s s1 /\ seg_of s1 ev = seg_of s ev /\ sane s1 /\ (ev < length (lefts s1))%nat).
    { subst s1. destruct (pt_eqb_spec p (l_start (lft s below))) as [E|M1]; cbn [negb andb]; [exact (conj (cuts_end s) (conj eq_refl (conj Hs He)))|].
      destruct (pt_eqb_spec p (end_of s below)) as [E|M2]; cbn [negb]; [exact (conj (cuts_end s) (conj eq_refl (conj Hs He)))|].
      assert (P1 : cuts s (divide below p s)) by (apply cuts_inside; [exact NM0| | |]; [exact Hs|exact Hb|exact (conj C1 (conj M1 M2))]).
      split; [exact P1|]. split; [exact (divided_seg_other s below p ev Hs Hb He Neb)|]. split; [exact (proj1 (path_sane _ _ (cuts_path _ _ P1) Hs))|].
      rewrite (div_lefts s below p Hb). lia. }
    destruct K as (K1 & K2 & K3 & K4). apply (cuts_trans _ _ _ K1).
    destruct (pt_eqb_spec p (l_start (lft s ev))) as [E|M1]; cbn [negb andb]; [apply cuts_end|].
    destruct (pt_eqb_spec p (end_of s ev)) as [E|M2]; cbn [negb]; [apply cuts_end|].
    apply cuts_inside; [exact NM0| | |]; [exact K3|exact K4|]. rewrite K2. exact (conj C2 (conj M1 M2)). }
  unfold detect in H. cbv zeta in H.
  destruct (segments_relation (seg_of s below) (seg_of s ev)); try exact (Hover eq_refl H).
  - injection H as <- _. apply cuts_end.
  - exact (Hmeet (or_intror eq_refl) H).
  - exact (Hmeet (or_introl eq_refl) H).
Qed.

End Cuts.
