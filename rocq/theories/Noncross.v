(** Loops of edges not crossing each other around their common vertices.
    Proof support only, no part of /repo is modelled here. *)
From Coq Require Import Permutation.
From Verif Require Import QcTac Geom Parity Loops.

Lemma parity_two : forall (Z : nat -> bool) a b l, NoDup l -> a <> b -> (forall y, In y l -> Z y = true <-> y = a \/ y = b) -> (In a l <-> In b l) -> parity Z l = false.
Proof.
  intros Z a b l N Nab Hz Hab. destruct (in_dec Nat.eq_dec a l) as [I|I].
  - destruct (in_split a l I) as (l1 & l2 & ->). assert (Ib : In b (l1 ++ l2)).
    { apply Hab in I. apply in_app_iff in I. apply in_app_iff. destruct I as [I|[I|I]]; [left; exact I|contradiction|right; exact I]. }
    assert (P : Permutation (l1 ++ a :: l2) (a :: l1 ++ l2)) by (symmetry; apply Permutation_middle).
    rewrite (parity_perm _ _ _ P). cbn [parity]. pose proof (NoDup_remove_1 _ _ _ N) as N1. pose proof (NoDup_remove_2 _ _ _ N) as N2.
    assert (Hz' : forall y, In y (a :: l1 ++ l2) -> Z y = true <-> y = a \/ y = b) by (intros y Hy; apply Hz; apply (Permutation_in _ (Permutation_sym P)); exact Hy).
    destruct (in_split b _ Ib) as (m1 & m2 & E). rewrite E in *.
    assert (P' : Permutation (m1 ++ b :: m2) (b :: m1 ++ m2)) by (symmetry; apply Permutation_middle).
    rewrite (parity_perm _ _ _ P'). cbn [parity].
    rewrite (proj2 (Hz' a (or_introl eq_refl)) (or_introl eq_refl)), (proj2 (Hz' b (or_intror Ib)) (or_intror eq_refl)).
    rewrite parity_none; [reflexivity|]. intros y Hy. destruct (Z y) eqn:Ey; [|reflexivity]. exfalso.
    assert (Iy : In y (m1 ++ b :: m2)) by (apply (Permutation_in _ (Permutation_sym P')); right; exact Hy).
    apply Hz' in Ey; [|right; exact Iy]. destruct Ey as [-> | ->]; [exact (N2 Iy)|exact (NoDup_remove_2 _ _ _ N1 Hy)].
  - apply parity_none. intros y Hy. destruct (Z y) eqn:Ey; [|reflexivity]. exfalso. apply (Hz y Hy) in Ey. destruct Ey as [-> | ->]; tauto.
Qed.

Section Rings.
Variables (n : nat) (vtx op nxt : nat -> nat).
Hypothesis Hop : forall i, (i < n)%nat -> (op i < n)%nat /\ op i <> i /\ op (op i) = i.
Hypothesis Hnx : forall i, (i < n)%nat -> (nxt i < n)%nat /\ vtx (nxt i) = vtx i.
Hypothesis Hring : forall u, (u < n)%nat ->
  exists l, chain nxt u (l ++ [u]) /\ NoDup (l ++ [u]) /\ forall x, (x < n)%nat -> vtx x = vtx u -> In x (l ++ [u]).
Lemma sides_parity : forall Z sg, sides n op nxt Z sg -> forall l u v, (u < n)%nat -> chain nxt u (l ++ [v]) -> sg v = xorb (sg u) (parity Z (u :: l)).
Proof.
  intros Z sg (S1 & S2). induction l as [|y l IH]; intros u v Hu C; cbn in C; destruct C as (-> & C).
  - cbn [parity]. rewrite Bool.xorb_false_r. apply S2, Hu.
  - rewrite (IH (nxt u) v (proj1 (Hnx u Hu)) C), (S2 u Hu). cbn [parity]. destruct (sg u), (Z u), (Z (nxt u)), (parity Z l); reflexivity.
Qed.
Notation Loop := (loop n vtx op).
Notation Edges := (edges op).
(** When edges of the loop [L] at a vertex are on the same side of the loop
    [M], those of [M] are on the same side of [L]. *)
Theorem not_across : forall L M sgL sgM, Loop L -> Loop M -> (forall x y, In x L -> In y L -> op x <> y) -> (forall x y, In x M -> In y M -> op x <> y) ->
  (forall x, In x M -> Edges L x = false) -> sides n op nxt (Edges L) sgL -> sides n op nxt (Edges M) sgM ->
  (forall x y, In x L -> In y L -> sgM x = sgM y) -> forall q, (q < length M)%nat -> sgL (before M q) = sgL (nth q M O).
Proof.
  intros L M sgL sgM HL HM OL OM Dis SL SM Cst q Hq.
  pose proof (nth_In M O Hq) as Id. pose proof (lo_lt _ _ _ _ HM _ Id) as L0. pose proof (before_in n _ L0 M q Hq) as Ic. set (d := nth q M O) in *. set (c := before M q) in *.
  pose proof (lo_lt _ _ _ _ HM d Id) as Ld. pose proof (lo_lt _ _ _ _ HM c Ic) as Lc. destruct (Hop c Lc) as (Lo & _ & _).
  assert (V : vtx d = vtx (op c)) by (exact (lo_link _ _ _ _ HM q Hq)).
  assert (N : d <> op c) by (intro E; exact (OM c d Ic Id (eq_sym E))).
  destruct (ring_at n vtx nxt Hring (op c) d Lo Ld V N) as (l1 & l2 & C1 & C2 & Nd & Al).
  assert (Eo : sgL (op c) = sgL c) by (rewrite (proj1 SL c Lc), (Dis c Ic); apply Bool.xorb_false_r).
  rewrite <- Eo. rewrite (sides_parity _ _ SL l1 (op c) d Lo C1). cbn [parity].
  assert (Zo : Edges L (op c) = false).
  { pose proof (Dis c Ic) as K. unfold edges in *. rewrite (proj2 (proj2 (Hop c Lc))). rewrite Bool.orb_comm. exact K. }
  rewrite Zo, Bool.xorb_false_l.
  assert (N1 : NoDup l1) by (clear - Nd; induction l1 as [|x l1 IH]; [constructor|]; cbn in Nd; inversion Nd as [|? ? A B]; subst; constructor; [intro I; apply A; apply in_app_iff; left; exact I|exact (IH B)]).
  assert (In1 : forall y, In y l1 -> (y < n)%nat /\ vtx y = vtx (op c)).
  { intros y Hy. apply (chain_in n vtx nxt Hnx _ _ Lo C1 y). apply in_app_iff. left. exact Hy. }
  assert (Z0 : parity (Edges L) l1 = false); [|rewrite Z0, Bool.xorb_false_r; reflexivity].
  destruct (existsb (fun y => Edges L y) l1) eqn:Ex.
  2: { apply parity_none. intros y Hy. destruct (Edges L y) eqn:Ey; [|reflexivity]. exfalso. assert (X : existsb (fun y => Edges L y) l1 = true) by (apply existsb_exists; exists y; split; assumption). congruence. }
  apply existsb_exists in Ex. destruct Ex as (y & Hy & Ey). destruct (In1 y Hy) as (Ly & Vy).
  assert (Ep : exists p, (p < length L)%nat /\ vtx (nth p L O) = vtx (op c)).
  { apply edges_spec in Ey. destruct Ey as [Ey|Ey].
    - destruct (In_nth _ _ O Ey) as (p & Hp & E). exists p. split; [exact Hp|]. rewrite E. exact Vy.
    - destruct (In_nth _ _ O Ey) as (p & Hp & E). destruct (Hop y Ly) as (_ & _ & Oy).
      assert (K : exists p', (p' < length L)%nat /\ before L p' = nth p L O).
      { destruct (Nat.eq_dec (S p) (length L)) as [El|El]; [exists O; split; [lia|]; unfold before; replace (length L - 1)%nat with p by lia; reflexivity|exists (S p); split; [lia|reflexivity]]. }
      destruct K as (p' & Hp' & Eb). exists p'. split; [exact Hp'|]. rewrite (lo_link _ _ _ _ HL p' Hp'), Eb, E, Oy. exact Vy. }
  destruct Ep as (p & Hp & Vp).
  pose proof (nth_In L O Hp) as Ib. pose proof (before_in n _ L0 L p Hp) as Ia. set (b := nth p L O) in *. set (a := before L p) in *.
  pose proof (lo_lt _ _ _ _ HL b Ib) as Lb. pose proof (lo_lt _ _ _ _ HL a Ia) as La. destruct (Hop a La) as (Loa & _ & Oa).
  assert (Va : vtx (op a) = vtx (op c)) by (rewrite <- Vp; symmetry; exact (lo_link _ _ _ _ HL p Hp)).
  assert (Nab : op a <> b) by exact (OL a b Ia Ib).
  (* the sides of the other loop *)
  assert (Mz : forall x, In x L -> Edges M x = false).
  { intros x Hx. destruct (Edges M x) eqn:E; [|reflexivity]. exfalso. apply edges_spec in E. destruct E as [E|E].
    - pose proof (Dis x E) as K. assert (X : Edges L x = true) by (apply edges_spec; left; exact Hx). congruence.
    - pose proof (Dis _ E) as K. assert (X : Edges L (op x) = true) by (apply edges_spec; right; rewrite (proj2 (proj2 (Hop x (lo_lt _ _ _ _ HL x Hx)))); exact Hx). congruence. }
  assert (Sab : sgM (op a) = sgM b) by (rewrite (proj1 SM a La), (Mz a Ia), Bool.xorb_false_r; exact (Cst a b Ia Ib)).
  assert (R1 : forall x, In x l1 -> sgM x = sgM d).
  { assert (Zc : forall x, In x l1 -> Edges M x = false).
    { intros x Hx. destruct (Edges M x) eqn:E; [|reflexivity]. exfalso. destruct (In1 x Hx) as (Lx & Vx). rewrite <- V in Vx.
      destruct (loop_at n vtx op Hop _ L0 M q x HM Hq Lx E Vx) as [->| ->].
      - apply (NoDup_remove_2 _ _ _ Nd). apply in_app_iff. left. exact Hx.
      - fold c in Hx. clear - Nd Hx. induction l1 as [|z l1 IH]; [contradiction|]. cbn in Nd. inversion Nd as [|? ? A B]; subst. destruct Hx as [->|Hx]; [|exact (IH B Hx)].
        apply A. apply in_app_iff. right. right. apply in_app_iff. right. left. reflexivity. }
    intros x Hx. rewrite (sides_run n vtx op nxt Hnx _ _ SM l1 (op c) Lo d C1 Zc x) by (apply in_app_iff; left; exact Hx).
    symmetry. apply (sides_run n vtx op nxt Hnx _ _ SM l1 (op c) Lo d C1 Zc d). apply in_app_iff. right. left. reflexivity. }
  assert (R2 : forall x, In x (l2 ++ [op c]) -> sgM x = negb (sgM d)) by exact (loop_side n vtx op nxt Hop Hnx _ L0 M q sgM HM OM Hq SM l1 l2 C1 C2 Nd).
  assert (Spl : forall x, (x < n)%nat -> vtx x = vtx (op c) -> Edges M x = false -> In x l1 \/ In x (l2 ++ [op c])).
  { intros x Lx Vx Ex. pose proof (Al x Lx Vx) as K. apply in_app_iff in K. destruct K as [K|[K|K]]; [left; exact K| |right; exact K].
    exfalso. assert (X : Edges M d = true) by (apply edges_spec; left; exact Id). congruence. }
  assert (Ma : Edges M (op a) = false).
  { pose proof (Mz a Ia) as K. unfold edges in *. rewrite Oa, Bool.orb_comm. exact K. }
  apply (parity_two _ (op a) b l1 N1 Nab).
  - intros x Hx. destruct (In1 x Hx) as (Lx & Vx). split.
    + intro E. destruct (loop_at n vtx op Hop _ L0 L p x HL Hp Lx E) as [J|J]; [rewrite Vx; symmetry; exact Vp|right; exact J|left; exact J].
    + intros [->| ->]; apply edges_spec; [right; rewrite Oa; exact Ia|left; exact Ib].
  - assert (Two : forall x z, In x l1 -> sgM z = sgM x -> In z l1 \/ In z (l2 ++ [op c]) -> In z l1).
    { intros x z Hx E [J|J]; [exact J|]. exfalso. rewrite (R1 x Hx), (R2 z J) in E. destruct (sgM d); discriminate E. }
    split; intro J.
    + exact (Two _ b J (eq_sym Sab) (Spl b Lb Vp (Mz b Ib))).
    + exact (Two _ (op a) J Sab (Spl (op a) Loa Va Ma)).
Qed.
Lemma same_along : forall M sg, (forall q, (q < length M)%nat -> sg (before M q) = sg (nth q M O)) -> forall x y, In x M -> In y M -> (sg x : bool) = sg y.
Proof.
  intros M sg Hs. assert (G : forall q, (q < length M)%nat -> sg (nth q M O) = sg (nth 0 M O)).
  { induction q as [|q IH]; intro Hq; [reflexivity|]. rewrite <- (Hs (S q) Hq), <- IH by lia. reflexivity. }
  intros x y Hx Hy. destruct (In_nth _ _ O Hx) as (p & Hp & <-), (In_nth _ _ O Hy) as (q & Hq & <-). rewrite (G p Hp), (G q Hq). reflexivity.
Qed.
End Rings.
