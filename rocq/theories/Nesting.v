(** Contours not meeting each other: which of them are around others, found
    from the pieces right under their first ones.
    Proof support only, no part of /repo is modelled here. *)
From Coq Require Import Permutation.
From Verif Require Import QcTac Geom Spec SpecShape GeomFacts Toward Relation SweepGeo SweepInv SweepSteps Sweep SweepCmp SweepLink SweepRun SweepStart Parity Outline EvenOdd Beneath.

(** ** Forests *)
Section Forest.
Variables (m : nat) (enc : nat -> nat -> bool) (int : nat -> bool) (par : nat -> option nat).
(** [enc k j]: contour [k] is around contour [j]. *)
Hypothesis Tree : forall j, (j < m)%nat ->
  (int j = false /\ forall k, (k < m)%nat -> enc k j = false)
  \/ exists q, (q < j)%nat /\
     ((int j = negb (int q) /\ (int j = true -> par j = Some q) /\ forall k, (k < m)%nat -> enc k j = (Nat.eqb k q || enc k q)%bool)
      \/ (int j = int q /\ (int j = true -> par j = par q) /\ forall k, (k < m)%nat -> enc k j = enc k q)).

Lemma strong : forall (Q : nat -> Prop), (forall j, (j < m)%nat -> (forall q, (q < j)%nat -> Q q) -> Q j) -> forall j, (j < m)%nat -> Q j.
Proof.
  intros Q H. assert (A : forall b j, (j < b)%nat -> (j < m)%nat -> Q j).
  { induction b as [|b IH]; intros j Hb Hj; [lia|]. apply (H j Hj). intros q Hq. apply IH; lia. }
  intros j Hj. apply (A (S j) j); [lia|exact Hj].
Qed.
Lemma enc_lt : forall j, (j < m)%nat -> forall k, (k < m)%nat -> enc k j = true -> (k < j)%nat.
Proof.
  apply (strong (fun j => forall k, (k < m)%nat -> enc k j = true -> (k < j)%nat)). intros j Hj IH k Hk E.
  destruct (Tree j Hj) as [(_ & T)|(q & Hq & [(_ & _ & T)|(_ & _ & T)])]; rewrite (T k Hk) in E; [discriminate E| |].
  - destruct (Nat.eqb_spec k q) as [->|N]; [exact Hq|]. pose proof (IH q Hq k Hk E). lia.
  - pose proof (IH q Hq k Hk E). lia.
Qed.
Lemma enc_self : forall j, (j < m)%nat -> enc j j = false.
Proof. intros j Hj. destruct (enc j j) eqn:E; [|reflexivity]. pose proof (enc_lt j Hj j Hj E). lia. Qed.
Lemma enc_next : forall j, (j < m)%nat -> (int j = false /\ forall k, (k < m)%nat -> enc k j = false)
  \/ exists q, (q < j)%nat /\ int j = negb (int q) /\ (int j = true -> par j = Some q) /\ forall k, (k < m)%nat -> enc k j = (Nat.eqb k q || enc k q)%bool.
Proof.
  apply (strong (fun j => (int j = false /\ forall k, (k < m)%nat -> enc k j = false)
    \/ exists q, (q < j)%nat /\ int j = negb (int q) /\ (int j = true -> par j = Some q) /\ forall k, (k < m)%nat -> enc k j = (Nat.eqb k q || enc k q)%bool)).
  intros j Hj IH. destruct (Tree j Hj) as [T|(q & Hq & [T|(T1 & T2 & T3)])]; [left; exact T|right; exists q; split; [exact Hq|exact T]|].
  destruct (IH q Hq) as [(I1 & I2)|(r & Hr & I1 & I2 & I3)].
  - left. split; [congruence|]. intros k Hk. rewrite (T3 k Hk). exact (I2 k Hk).
  - right. exists r. split; [lia|]. split; [congruence|]. split; [|intros k Hk; rewrite (T3 k Hk); exact (I3 k Hk)].
    intro E. rewrite (T2 E). apply I2. congruence.
Qed.
Lemma parity_one : forall f q, (q < m)%nat -> f q = false -> parity (fun k => (Nat.eqb k q || f k)%bool) (seq 0 m) = negb (parity f (seq 0 m)).
Proof.
  intros f q Hq E. assert (Iq : In q (seq 0 m)) by (apply in_seq; lia).
  pose proof (parity_change (fun k => (Nat.eqb k q || f k)%bool) f q (seq 0 m) (seq_NoDup m 0) Iq) as H.
  cbv beta in H. rewrite Nat.eqb_refl, E in H. cbn [orb] in H. rewrite Bool.xorb_true_r, Bool.xorb_false_r in H.
  rewrite <- H; [rewrite Bool.negb_involutive; reflexivity|]. intros y _ N. apply Nat.eqb_neq in N. rewrite N. reflexivity.
Qed.
Lemma enc_parity : forall j, (j < m)%nat -> parity (fun k => enc k j) (seq 0 m) = int j.
Proof.
  apply (strong (fun j => parity (fun k => enc k j) (seq 0 m) = int j)). intros j Hj IH.
  destruct (enc_next j Hj) as [(I1 & I2)|(q & Hq & I1 & _ & I3)].
  - rewrite I1. apply parity_none. intros k Hk. apply in_seq in Hk. apply I2. lia.
  - rewrite (parity_ext _ (fun k => (Nat.eqb k q || enc k q)%bool)) by (intros k Hk; apply in_seq in Hk; apply I3; lia).
    rewrite parity_one; [rewrite (IH q Hq), I1; reflexivity|lia|apply enc_self; lia].
Qed.
Lemma hole_between : forall j, (j < m)%nat -> int j = true -> forall j', (j' < m)%nat -> int j' = false -> enc j' j = true ->
  exists h, (h < m)%nat /\ int h = true /\ par h = Some j' /\ (h = j \/ enc h j = true).
Proof.
  apply (strong (fun j => int j = true -> forall j', (j' < m)%nat -> int j' = false -> enc j' j = true ->
    exists h, (h < m)%nat /\ int h = true /\ par h = Some j' /\ (h = j \/ enc h j = true))).
  intros j Hj IH Ij j' Hj' Ij' E. destruct (enc_next j Hj) as [(N & _)|(p & Hp & I1 & I2 & I3)]; [congruence|].
  assert (Ip : int p = false) by (destruct (int p); [rewrite I1 in Ij; discriminate Ij|reflexivity]).
  assert (Hpm : (p < m)%nat) by lia.
  rewrite (I3 j' Hj') in E. destruct (Nat.eqb_spec j' p) as [->|N].
  - exists j. split; [exact Hj|]. split; [exact Ij|]. split; [exact (I2 Ij)|left; reflexivity].
  - cbn [orb] in E. destruct (enc_next p Hpm) as [(_ & K)|(q & Hq & J1 & _ & J3)]; [rewrite (K j' Hj') in E; discriminate E|].
    assert (Iq : int q = true) by (destruct (int q); [reflexivity|cbn in J1; congruence]).
    rewrite (J3 j' Hj') in E. destruct (Nat.eqb_spec j' q) as [->|Nq]; [congruence|]. cbn [orb] in E.
    destruct (IH q ltac:(lia) Iq j' Hj' Ij' E) as (h & Hh & Ih & Ph & Eh). exists h. split; [exact Hh|]. split; [exact Ih|]. split; [exact Ph|right].
    rewrite (I3 h Hh), (J3 h Hh). destruct Eh as [->|Eh]; [rewrite Nat.eqb_refl; cbn; apply Bool.orb_true_r|rewrite Eh, !Bool.orb_true_r; reflexivity].
Qed.
(** A point inside of the contours [I]. *)
Variable I : nat -> bool.
Hypothesis Point : (forall k, (k < m)%nat -> I k = false)
  \/ exists j, (j < m)%nat /\ ((forall k, (k < m)%nat -> I k = (Nat.eqb k j || enc k j)%bool) \/ forall k, (k < m)%nat -> I k = enc k j).
Theorem forest : parity I (seq 0 m) = true <->
  exists j, (j < m)%nat /\ int j = false /\ I j = true /\ forall h, (h < m)%nat -> int h = true -> par h = Some j -> I h = false.
Proof.
  assert (Pt : (forall k, (k < m)%nat -> I k = false) \/ exists j, (j < m)%nat /\ forall k, (k < m)%nat -> I k = (Nat.eqb k j || enc k j)%bool).
  { destruct Point as [A|(j & Hj & [A|A])]; [left; exact A|right; exists j; split; assumption|].
    destruct (enc_next j Hj) as [(_ & B)|(q & Hq & _ & _ & B)].
    - left. intros k Hk. rewrite (A k Hk). exact (B k Hk).
    - right. exists q. split; [lia|]. intros k Hk. rewrite (A k Hk). exact (B k Hk). }
  destruct Pt as [A|(j & Hj & A)].
  { rewrite parity_none by (intros k Hk; apply in_seq in Hk; apply A; lia). split; [discriminate|]. intros (j & Hj & _ & K & _). rewrite (A j Hj) in K. discriminate K. }
  rewrite (parity_ext _ (fun k => (Nat.eqb k j || enc k j)%bool)) by (intros k Hk; apply in_seq in Hk; apply A; lia).
  rewrite (parity_one (fun k => enc k j) j Hj (enc_self j Hj)), (enc_parity j Hj). split.
  - intro E. assert (Ij : int j = false) by (destruct (int j); [discriminate E|reflexivity]). exists j. split; [exact Hj|]. split; [exact Ij|].
    split; [rewrite (A j Hj), Nat.eqb_refl; reflexivity|]. intros h Hh Ih Ph. rewrite (A h Hh).
    destruct (Nat.eqb_spec h j) as [->|N]; [congruence|]. cbn [orb]. destruct (enc h j) eqn:Eh; [exfalso|reflexivity].
    pose proof (enc_lt j Hj h Hh Eh) as L. destruct (enc_next h Hh) as [(K & _)|(q & Hq & _ & K & _)]; [congruence|].
    rewrite (K Ih) in Ph. injection Ph as ->. lia.
  - intros (j' & Hj' & Ij' & Kj' & Nh). destruct (int j) eqn:Ij; [exfalso|reflexivity].
    rewrite (A j' Hj') in Kj'. destruct (Nat.eqb_spec j' j) as [->|N]; [congruence|]. cbn [orb] in Kj'.
    destruct (hole_between j Hj Ij j' Hj' Ij' Kj') as (h & Hh & Ih & Ph & Eh). pose proof (Nh h Hh Ih Ph) as K. rewrite (A h Hh) in K.
    destruct Eh as [->|Eh]; [rewrite Nat.eqb_refl in K; discriminate K|rewrite Eh, Bool.orb_true_r in K; discriminate K].
Qed.
End Forest.

(** ** Pieces *)
Definition mem (x : nat) (l : list nat) : bool := existsb (Nat.eqb x) l.
Lemma mem_spec : forall x l, mem x l = true <-> In x l.
Proof.
  intros x l. unfold mem. rewrite existsb_exists. split; [intros (y & Hy & E); apply Nat.eqb_eq in E; subst y; exact Hy|].
  intro H. exists x. split; [exact H|apply Nat.eqb_refl].
Qed.
Lemma parity_mem : forall f f' b l, NoDup l -> f b = true -> f' b = false -> (forall y, In y l -> y <> b -> f y = f' y) ->
  parity f l = xorb (mem b l) (parity f' l).
Proof.
  intros f f' b l N E E' H. destruct (mem b l) eqn:M.
  - apply mem_spec in M. pose proof (parity_change f f' b l N M H) as K. rewrite E, E' in K. rewrite Bool.xorb_true_r, Bool.xorb_false_r in K. rewrite <- K. destruct (parity f l); reflexivity.
  - rewrite Bool.xorb_false_l. apply parity_ext. intros y Hy. apply H; [exact Hy|]. intros ->. apply mem_spec in Hy. congruence.
Qed.
Lemma germ_trans : forall a b c t, germ false a b t = true -> germ false b c t = true -> germ false a c t = true.
Proof.
  intros a b c t H J. apply germ_spec in H, J. apply germ_spec.
  destruct H as [H|(H & [H'|(K & _)])]; [| |discriminate K]; (destruct J as [J|(J & [J'|(K & _)])]; [| |discriminate K]).
  - left. qlra.
  - left. rewrite <- J. exact H.
  - left. rewrite H. exact J.
  - right. split; [congruence|left; qlra].
Qed.
Lemma germ_asym : forall a b t, germ false a b t = true -> germ false b a t = false.
Proof.
  intros a b t H. destruct (germ false b a t) eqn:E; [|reflexivity]. pose proof (germ_trans _ _ _ _ H E) as K. rewrite germ_self in K. discriminate K.
Qed.
Lemma germ_weak : forall a b t, germ false a b t = true -> germ true a b t = true.
Proof. intros a b t H. apply germ_spec in H. apply germ_spec. destruct H as [H|(H & [J|(K & _)])]; [left; exact H|right; split; [exact H|left; exact J]|discriminate K]. Qed.
Lemma exists_max : forall (A : Type) (R : A -> A -> Prop) (l : list A), (forall x y : A, x = y \/ x <> y) -> l <> [] ->
  (forall x y z, R x y -> R y z -> R x z) -> (forall x y, In x l -> In y l -> x <> y -> R x y \/ R y x) ->
  exists x, In x l /\ forall y, In y l -> y <> x -> R y x.
Proof.
  intros A R l Dec N Tr. induction l as [|a l IH]; [contradiction|]. intro To. destruct l as [|b l].
  - exists a. split; [left; reflexivity|]. intros y [->|[]] K. contradiction.
  - destruct IH as (x & Hx & Mx); [discriminate|intros x y Hx Hy; apply To; right; assumption|].
    destruct (Dec a x) as [->|Na]; [exists x; split; [right; exact Hx|]; intros y [->|Hy] K; [contradiction|exact (Mx y Hy K)]|].
    destruct (To a x (or_introl eq_refl) (or_intror Hx) Na) as [Rx|Rx].
    + exists x. split; [right; exact Hx|]. intros y [<-|Hy] K; [exact Rx|exact (Mx y Hy K)].
    + exists a. split; [left; reflexivity|]. intros y [->|Hy] K; [contradiction|]. destruct (Dec y x) as [->|Ny]; [exact Rx|]. exact (Tr _ _ _ (Mx y Hy Ny) Rx).
Qed.

Section Pieces.
Variables (e : Qc) (P : list point).
Hypothesis Hsh : Sheared e P.
Variables (n : nat) (g : nat -> segment).
Notation K i := (kp e (g i)).
Definition mid (i : nat) : point := middle (s_start (g i)) (s_end (g i)).
Hypothesis Hplt : forall i, (i < n)%nat -> plt (s_start (g i)) (s_end (g i)).
Hypothesis Hin : forall i, (i < n)%nat -> In (s_start (g i)) P /\ In (s_end (g i)) P /\ In (mid i) P.
Variables (m : nat) (ids : nat -> list nat).
Hypothesis Hids : forall j i, (j < m)%nat -> In i (ids j) -> (i < n)%nat.
Hypothesis Hnd : forall j, (j < m)%nat -> NoDup (ids j).
Hypothesis Hmeet : forall j i k x, (j < m)%nat -> In k (ids j) -> (i < n)%nat -> i <> k -> on_segment x (g i) -> on_segment x (g k) ->
  (endpoint x (g i) /\ endpoint x (g k)) \/ g i = g k.
Definition es (j : nat) : list segment := map g (ids j).
Hypothesis Heven : forall j, (j < m)%nat -> even_occurrences (endpoints_of (es j)).

Lemma g_parts : forall i, (i < n)%nat -> seg_lo (g i) = s_start (g i) /\ seg_hi (g i) = s_end (g i).
Proof.
  intros i Hi. destruct (seg_lo_hi (g i)) as [(A & B & _)|(A & B & C)]; [split; assumption|]. exfalso. exact (plt_irrefl _ (plt_trans _ _ _ (Hplt i Hi) C)).
Qed.
Definition one (i : nat) : list segment := [g i].
Lemma g_proper : forall i, (i < n)%nat -> proper (g i).
Proof. intros i Hi E. pose proof (Hplt i Hi) as L. rewrite E in L. exact (plt_irrefl _ L). Qed.
Lemma one_proper : forall i, (i < n)%nat -> Forall proper (one i).
Proof. intros i Hi. constructor; [exact (g_proper i Hi)|constructor]. Qed.
Lemma one_in : forall i, (i < n)%nat -> incl (endpoints_of (one i)) P.
Proof. intros i Hi x [<-|[<-|[]]]; apply (Hin i Hi). Qed.
Lemma g_len : forall i, (i < n)%nat -> lo (K i) < hi (K i).
Proof. intros i Hi. exact (k_len e P Hsh (one i) (one_proper i Hi) (one_in i Hi) (g i) (or_introl eq_refl)). Qed.
Lemma g_on : forall i p, (i < n)%nat -> (on_segment p (g i) <-> has (K i) (pos e p) /\ py p = ht (K i) (pos e p)).
Proof. intros i p Hi. exact (k_on e P Hsh (one i) (one_proper i Hi) (one_in i Hi) (g i) p (or_introl eq_refl)). Qed.
Lemma g_on_at : forall i t, (i < n)%nat -> has (K i) t -> on_segment (at_pos e t (ht (K i) t)) (g i).
Proof. intros i t Hi. exact (k_on_at e P Hsh (one i) (one_proper i Hi) (one_in i Hi) (g i) t (or_introl eq_refl)). Qed.
Lemma g_V : forall i, (i < n)%nat -> ht (K i) (lo (K i)) = V e P (lo (K i)) /\ ht (K i) (hi (K i)) = V e P (hi (K i)).
Proof. intros i Hi. exact (k_V e P Hsh (one i) (one_proper i Hi) (one_in i Hi) (g i) (or_introl eq_refl)). Qed.
Lemma g_tip : forall i x, endpoint x (g i) -> pos e x = lo (K i) \/ pos e x = hi (K i).
Proof. intros i x [->| ->]; cbn; destruct (seg_lo_hi (g i)) as [(-> & -> & _)|(-> & -> & _)]; tauto. Qed.
Lemma es_proper : forall j, (j < m)%nat -> Forall proper (es j).
Proof. intros j Hj. apply Forall_forall. intros s Hs. apply in_map_iff in Hs. destruct Hs as (i & <- & Hi). exact (g_proper i (Hids j i Hj Hi)). Qed.
Lemma es_in : forall j, (j < m)%nat -> incl (endpoints_of (es j)) P.
Proof.
  intros j Hj x Hx. apply in_flat_map in Hx. destruct Hx as (s & Hs & Hx). apply in_map_iff in Hs. destruct Hs as (i & <- & Hi).
  destruct (Hin i (Hids j i Hj Hi)) as (A & B & _). destruct Hx as [<-|[<-|[]]]; assumption.
Qed.
Definition w (j x : nat) (t : Qc) : bool := parity (fun i => undermost false (K x) t (K i)) (ids j).
Lemma w_map : forall j x t, w j x t = parity (undermost false (K x) t) (map (kp e) (es j)).
Proof. intros j x t. unfold w, es. rewrite !parity_map. reflexivity. Qed.
Lemma crossing : forall j x k t, (j < m)%nat -> (x < n)%nat -> In k (ids j) -> k <> x -> lo (K x) < t -> t < hi (K x) -> has (K k) t -> ht (K k) t = ht (K x) t -> g k = g x.
Proof.
  intros j x k t Hj Hx Hk N T1 T2 Ht E. pose proof (Hids j k Hj Hk) as Hkn.
  assert (O1 : on_segment (at_pos e t (ht (K x) t)) (g x)) by (apply (g_on_at x t Hx); split; qlra).
  assert (O2 : on_segment (at_pos e t (ht (K x) t)) (g k)) by (rewrite <- E; apply (g_on_at k t Hkn Ht)).
  destruct (Hmeet j x k _ Hj Hk Hx (not_eq_sym N) O1 O2) as [(J & _)|J]; [exfalso|symmetry; exact J]. apply g_tip in J. rewrite pos_at in J. destruct J as [J|J]; rewrite J in *; qlra.
Qed.
Lemma w_const : forall j x t1 t2, (j < m)%nat -> (x < n)%nat -> t1 <= t2 -> lo (K x) <= t1 -> t2 < hi (K x) -> w j x t2 = w j x t1.
Proof.
  intros j x t1 t2 Hj Hx L T1 T2. rewrite !w_map. apply (along_range (V e P)); [exact L| |].
  - intros k Hk. apply in_map_iff in Hk. destruct Hk as (k' & <- & Hk). apply in_map_iff in Hk. destruct Hk as (i & <- & Hk). pose proof (Hids j i Hj Hk) as Hi.
    split; [exact (g_len i Hi)|]. destruct (g_V i Hi) as (V1 & V2). split; [exact V1|]. split; [exact V2|].
    intros t A B Ht E. destruct (Nat.eq_dec i x) as [->|N]; [right; split; [apply coll_refl|split; assumption]|].
    right. rewrite (crossing j x i t Hj Hx Hk N); try assumption; try qlra. split; [apply coll_refl|split; assumption].
  - intros t _ _. exact (k_ends e P Hsh (es j) (es_in j Hj) t (Heven j Hj)).
Qed.
Lemma w_any : forall j x t1 t2, (j < m)%nat -> (x < n)%nat -> lo (K x) <= t1 -> t1 < hi (K x) -> lo (K x) <= t2 -> t2 < hi (K x) -> w j x t2 = w j x t1.
Proof.
  intros j x t1 t2 Hj Hx A B C D. destruct (Qclt_le_dec t1 t2) as [L|L]; [|symmetry]; apply w_const; try assumption; qlra.
Qed.
Lemma mid_pos : forall i, (i < n)%nat -> lo (K i) < pos e (mid i) /\ pos e (mid i) < hi (K i) /\ on_segment (mid i) (g i).
Proof.
  intros i Hi. pose proof (g_len i Hi) as L. destruct (g_parts i Hi) as (A & B).
  assert (E1 : lo (K i) = pos e (s_start (g i))) by (cbn; rewrite A; reflexivity). assert (E2 : hi (K i) = pos e (s_end (g i))) by (cbn; rewrite B; reflexivity).
  unfold mid. rewrite pos_middle, <- E1, <- E2. destruct (half_between _ _ L) as (M1 & M2). split; [exact M1|]. split; [exact M2|].
  exists half. pose proof half_eq as H2. split; [clear - H2; qlra|]. split; [clear - H2; qlra|]. unfold middle. cbn [px py]. split.
  - transitivity (half * px (s_start (g i)) + half * px (s_end (g i))); [ring|]. replace (half * px (s_start (g i))) with (half * px (s_start (g i)) + (1 - (half + half)) * px (s_start (g i))) by (rewrite H2; ring). ring.
  - transitivity (half * py (s_start (g i)) + half * py (s_end (g i))); [ring|]. replace (half * py (s_start (g i))) with (half * py (s_start (g i)) + (1 - (half + half)) * py (s_start (g i))) by (rewrite H2; ring). ring.
Qed.
(** Whether contour [j] is around the middle of a piece. *)
Definition d (j x : nat) : bool := inside (es j) (mid x).
Lemma w_d : forall j x t, (j < m)%nat -> (x < n)%nat -> lo (K x) <= t -> t < hi (K x) -> w j x t = d j x.
Proof.
  intros j x t Hj Hx T1 T2. destruct (mid_pos x Hx) as (M1 & M2 & M3). rewrite (w_any j x (pos e (mid x)) t Hj Hx) by (try assumption; qlra).
  rewrite w_map. apply (k_inside e P Hsh (es j) (es_proper j Hj) (es_in j Hj)).
  - apply (Hin x Hx).
  - symmetry. apply (g_on x (mid x) Hx). exact M3.
  - intros s Hs O. apply in_map_iff in Hs. destruct Hs as (k & <- & Hk). right. destruct (Nat.eq_dec k x) as [->|N]; [apply coll_refl|].
    apply (g_on k _ (Hids j k Hj Hk)) in O. rewrite (crossing j x k (pos e (mid x)) Hj Hx Hk N M1 M2 (proj1 O)); [apply coll_refl|]. rewrite <- (proj2 O). apply (g_on x (mid x) Hx). exact M3.
Qed.
(** The order among equal pieces. *)
Variable sd : nat -> bool.
Definition side_of (i : nat) : piece := Piece (lo (K i)) (hi (K i)) (sl (K i)) (ic (K i)) (sd i).
Definition same_piece (a b : segment) : bool := (pt_eqb (s_start a) (s_start b) && pt_eqb (s_end a) (s_end b))%bool.
Definition twin_at (x i : nat) : bool := (sd i && negb (sd x) && same_piece (g i) (g x))%bool.
Lemma same_piece_spec : forall a b, same_piece a b = true <-> a = b.
Proof.
  intros (a, b) (c, d). unfold same_piece. cbn [s_start s_end]. rewrite Bool.andb_true_iff. destruct (pt_eqb_spec a c), (pt_eqb_spec b d); intuition congruence.
Qed.
Lemma side_under : forall j x i t, (j < m)%nat -> (x < n)%nat -> In i (ids j) -> lo (K x) <= t -> t < hi (K x) ->
  under (side_of x) t (side_of i) = xorb (undermost false (K x) t (K i)) (twin_at x i).
Proof.
  intros j x i t Hj Hx Hi T1 T2. pose proof (Hids j i Hj Hi) as Hin'. unfold under, undermost, twin_at.
  change (covers (side_of i) t) with (covers (K i) t). destruct (Nat.eq_dec i x) as [->|N].
  { rewrite low_irrefl, germ_self, !Bool.andb_false_r. destruct (sd x); reflexivity. }
  destruct (same_piece (g i) (g x)) eqn:Eg.
  - apply same_piece_spec in Eg. rewrite Bool.andb_true_r. assert (C : covers (K i) t = true) by (rewrite Eg; apply covers_spec; split; assumption). rewrite C, Eg, germ_self. cbn [andb xorb].
    destruct (low (side_of i) (side_of x) t) eqn:L.
    + apply low_spec in L. unfold ht in L. cbn [side_of sl ic op] in L. rewrite Eg in L. destruct L as [L|(_ & [L|(_ & -> & ->)])]; [exfalso; qlra|exfalso; qlra|reflexivity].
    + destruct (sd i) eqn:O1, (sd x) eqn:O2; try reflexivity. exfalso. enough (low (side_of i) (side_of x) t = true) by congruence. apply low_spec. right.
      unfold ht. cbn [side_of sl ic op]. rewrite Eg. split; [reflexivity|]. right. split; [reflexivity|split; assumption].
  - rewrite Bool.andb_false_r, Bool.xorb_false_r. destruct (covers (K i) t) eqn:C; [|reflexivity]. cbn [andb]. apply covers_spec in C. destruct C as (C1 & C2).
    destruct (low (side_of i) (side_of x) t) eqn:L, (germ false (K i) (K x) t) eqn:G; try reflexivity; exfalso.
    + apply low_spec in L. change (ht (side_of i) t) with (ht (K i) t) in L. change (ht (side_of x) t) with (ht (K x) t) in L. cbn [side_of sl] in L.
      destruct L as [L|(L & [L'|(L' & _)])].
      * rewrite (proj2 (germ_spec false (K i) (K x) t)) in G; [discriminate G|left; exact L].
      * rewrite (proj2 (germ_spec false (K i) (K x) t)) in G; [discriminate G|right; split; [exact L|left; exact L']].
      * pose proof (ht_slopes _ _ t L L') as Co. set (u := half * (t + (if Qc_ltb (hi (K i)) (hi (K x)) then hi (K i) else hi (K x)))).
        assert (U : t < u /\ u < hi (K i) /\ u < hi (K x)).
        { unfold u. destruct (Qc_ltb_spec (hi (K i)) (hi (K x))) as [J|J]; [destruct (half_between t (hi (K i)) C2)|destruct (half_between t (hi (K x)) T2)]; repeat split; qlra. }
        destruct U as (U1 & U2 & U3). assert (Eg' : g i = g x) by (apply (crossing j x i u Hj Hx Hi N); try qlra; [split; qlra|apply coll_ht; exact Co]).
        apply same_piece_spec in Eg'. congruence.
    + apply germ_spec in G. enough (low (side_of i) (side_of x) t = true) by congruence. apply low_spec.
      destruct G as [G|(G & [G'|(G' & _)])]; [left; exact G|right; split; [exact G|left; exact G']|discriminate G'].
Qed.
(** Whether contour [j] is around a piece, equal ones in their order. *)
Definition dd (j x : nat) : bool := xorb (d j x) (parity (twin_at x) (ids j)).
Lemma under_dd : forall j x t, (j < m)%nat -> (x < n)%nat -> lo (K x) <= t -> t < hi (K x) -> parity (under (side_of x) t) (map side_of (ids j)) = dd j x.
Proof.
  intros j x t Hj Hx T1 T2. unfold dd. rewrite <- (w_d j x t Hj Hx T1 T2). unfold w. rewrite <- parity_xor, parity_map. apply parity_ext. intros i Hi. exact (side_under j x i t Hj Hx Hi T1 T2).
Qed.
(** The step from a piece to the one right under its start. *)
Lemma step_none : forall j x, (j < m)%nat -> (x < n)%nat -> beneath n side_of x None -> dd j x = false.
Proof.
  intros j x Hj Hx B. pose proof (g_len x Hx) as L. rewrite <- (under_dd j x (lo (K x)) Hj Hx (Qcle_refl _) L), parity_map. apply parity_none.
  intros i Hi. exact (B i (Hids j i Hj Hi)).
Qed.
Lemma step_some : forall j x b, (j < m)%nat -> (x < n)%nat -> beneath n side_of x (Some b) ->
  (b < n)%nat /\ dd j x = xorb (mem b (ids j)) (dd j b).
Proof.
  intros j x b Hj Hx (B1 & B2 & B3). split; [exact B1|]. pose proof (g_len x Hx) as L. change (lo (side_of x)) with (lo (K x)) in *.
  pose proof (proj1 (under_spec _ _ _) B2) as ((C1 & C2) & G).
  rewrite <- (under_dd j x (lo (K x)) Hj Hx (Qcle_refl _) L), <- (under_dd j b (lo (K x)) Hj B1 C1 C2), !parity_map. apply parity_mem.
  - exact (Hnd j Hj).
  - exact B2.
  - unfold under. rewrite low_irrefl. apply Bool.andb_false_r.
  - intros y Hy Nb. destruct (under (side_of x) (lo (K x)) (side_of y)) eqn:U.
    + symmetry. pose proof (B3 y (Hids j y Hj Hy) Nb U) as Lw. unfold under in *. apply Bool.andb_true_iff in U. rewrite (proj1 U), Lw. reflexivity.
    + symmetry. destruct (under (side_of b) (lo (K x)) (side_of y)) eqn:U'; [exfalso|reflexivity]. unfold under in *. apply Bool.andb_true_iff in U'. destruct U' as (U1 & U2). rewrite U1 in U. cbn [andb] in U.
      rewrite (low_trans _ _ _ _ U2 G) in U. discriminate U.
Qed.
(** Pieces right under starts are prior. *)
Definition earlier (y x : nat) : bool := Qc_ltb (lo (K y)) (lo (K x))
  || (Qc_eqb (lo (K y)) (lo (K x)) && (Qc_ltb (sl (K y)) (sl (K x)) || (Qc_eqb (sl (K y)) (sl (K x)) && (sd y && negb (sd x))))).
Lemma earlier_spec : forall y x, earlier y x = true <->
  lo (K y) < lo (K x) \/ (lo (K y) = lo (K x) /\ (sl (K y) < sl (K x) \/ (sl (K y) = sl (K x) /\ sd y = true /\ sd x = false))).
Proof.
  intros y x. unfold earlier. rewrite Bool.orb_true_iff, Bool.andb_true_iff, Bool.orb_true_iff, Bool.andb_true_iff.
  destruct (Qc_ltb_spec (lo (K y)) (lo (K x))), (Qc_eqb_spec (lo (K y)) (lo (K x))), (Qc_ltb_spec (sl (K y)) (sl (K x))), (Qc_eqb_spec (sl (K y)) (sl (K x))), (sd y), (sd x); cbn; intuition congruence.
Qed.
Lemma earlier_trans : forall x y z, earlier x y = true -> earlier y z = true -> earlier x z = true.
Proof.
  intros x y z A B. apply earlier_spec in A, B. apply earlier_spec. destruct A as [A|(A & A')], B as [B|(B & B')].
  - left. qlra.
  - left. rewrite <- B. exact A.
  - left. rewrite A. exact B.
  - right. split; [congruence|]. destruct A' as [A'|(A' & A1 & A2)], B' as [B'|(B' & B1 & B2)]; try congruence; left; qlra.
Qed.
Lemma earlier_irrefl : forall x, earlier x x = false.
Proof. intro x. destruct (earlier x x) eqn:E; [|reflexivity]. apply earlier_spec in E. exfalso. destruct E as [E|(_ & [E|(_ & E & E')])]; [qlra|qlra|congruence]. Qed.
Definition rank (x : nat) : nat := length (filter (fun y => earlier y x) (seq 0 n)).
Lemma filter_less : forall (f h : nat -> bool) l b, (forall y, f y = true -> h y = true) -> In b l -> f b = false -> h b = true -> (length (filter f l) < length (filter h l))%nat.
Proof.
  intros f h l b Sub Ib Fb Hb. induction l as [|a l IH]; [destruct Ib|]. assert (Le : forall l, (length (filter f l) <= length (filter h l))%nat).
  { clear - Sub. induction l as [|a l IH]; [apply Nat.le_refl|]. cbn. destruct (f a) eqn:Fa; [rewrite (Sub a Fa); cbn; lia|destruct (h a); cbn; lia]. }
  destruct Ib as [->|Ib]; cbn.
  - rewrite Fb, Hb. cbn. specialize (Le l). lia.
  - specialize (IH Ib). destruct (f a) eqn:Fa; [rewrite (Sub a Fa); cbn; lia|destruct (h a); cbn; lia].
Qed.
Lemma rank_less : forall b x, (b < n)%nat -> earlier b x = true -> (rank b < rank x)%nat.
Proof.
  intros b x Hb E. apply (filter_less _ _ _ b); [|apply in_seq; lia|apply earlier_irrefl|exact E]. intros y Ey. exact (earlier_trans _ _ _ Ey E).
Qed.
Lemma under_earlier : forall b x, (b < n)%nat -> (x < n)%nat -> under (side_of x) (lo (K x)) (side_of b) = true -> earlier b x = true.
Proof.
  intros b x Hb Hx U. apply under_spec in U. destruct U as ((C1 & _) & G). cbn [side_of lo] in C1.
  apply earlier_spec. apply Qcle_lt_or_eq in C1. destruct C1 as [C1|C1]; [left; exact C1|right]. split; [exact C1|].
  apply low_spec in G. pose proof (proj1 (g_V b Hb)) as Vb. pose proof (proj1 (g_V x Hx)) as Vx. rewrite C1 in Vb.
  change (ht (side_of b) (lo (K x))) with (ht (K b) (lo (K x))) in G. change (ht (side_of x) (lo (K x))) with (ht (K x) (lo (K x))) in G.
  destruct G as [G|(_ & G)]; [exfalso; rewrite Vb, Vx in G; qlra|exact G].
Qed.

(** ** The pieces found by the sweep *)
Variables (seen : nat -> Prop) (sel : nat -> bool) (below : nat -> option nat).
Hypothesis Hseen : forall x, seen x -> (x < n)%nat.
Hypothesis Hsel : forall x, seen x -> sel x = false -> forall j, (j < m)%nat -> ~ In x (ids j).
Hypothesis Hdist : forall x y, seen x -> seen y -> sel x = true -> sel y = true -> g x = g y -> x = y.
Variable steep : nat -> Prop.
Hypothesis Hsteep : forall b x, (b < n)%nat -> (x < n)%nat -> steep b -> lo (K b) <= lo (K x) -> lo (K x) < hi (K b) ->
  ht (K b) (lo (K x)) = ht (K x) (lo (K x)) /\ sl (K x) <= sl (K b).
Hypothesis Hch : forall x, seen x -> exists ob, beneath n side_of x ob
  /\ match ob with
     | None => below x = None
     | Some b => seen b /\ (below x = (if sel b then Some b else below b) \/ (coll (K b) (K x) /\ sel b = true /\ steep x))
     end.
Hypothesis Hids_seen : forall j x, (j < m)%nat -> In x (ids j) -> seen x.
Lemma ids_sel : forall j x, (j < m)%nat -> In x (ids j) -> sel x = true.
Proof. intros j x Hj Hx. destruct (sel x) eqn:E; [reflexivity|]. destruct (Hsel x (Hids_seen j x Hj Hx) E j Hj Hx). Qed.
Lemma dd_ids : forall j k x, (j < m)%nat -> (k < m)%nat -> In x (ids k) -> dd j x = d j x.
Proof.
  intros j k x Hj Hk Hx. unfold dd. rewrite parity_none; [apply Bool.xorb_false_r|]. intros i Hi. unfold twin_at. destruct (same_piece (g i) (g x)) eqn:E; [|apply Bool.andb_false_r].
  apply same_piece_spec in E. rewrite (Hdist i x (Hids_seen j i Hj Hi) (Hids_seen k x Hk Hx) (ids_sel j i Hj Hi) (ids_sel k x Hk Hx) E). destruct (sd x); reflexivity.
Qed.
(** Pieces which are not vertical ones above equal selected ones. *)
Definition plainly (x : nat) : Prop := forall b, seen b -> beneath n side_of x (Some b) -> coll (K b) (K x) -> sel b = true -> steep x -> False.
Lemma ids_plainly : forall j x, (j < m)%nat -> In x (ids j) -> plainly x.
Proof.
  intros j x Hj Hx b Sb (B1 & B2 & _) C Sl _. apply under_spec in B2. destruct B2 as ((C1 & C2) & G). cbn [side_of lo hi] in C1, C2.
  pose proof (Hids j x Hj Hx) as Rx. assert (N : b <> x) by (intros ->; rewrite low_irrefl in G; discriminate G).
  pose proof (g_len x Rx) as L. set (t := lo (K x)) in *. set (u := half * (t + (if Qc_ltb (hi (K b)) (hi (K x)) then hi (K b) else hi (K x)))).
  assert (U : t < u /\ u < hi (K b) /\ u < hi (K x)).
  { unfold u. destruct (Qc_ltb_spec (hi (K b)) (hi (K x))) as [J|J]; [destruct (half_between t (hi (K b)) C2)|destruct (half_between t (hi (K x)) L)]; repeat split; qlra. }
  destruct U as (U1 & U2 & U3).
  assert (E : g x = g b) by (apply (crossing j b x u Hj B1 Hx (not_eq_sym N)); try qlra; [split; unfold t in *; qlra|symmetry; apply coll_ht; exact C]).
  apply N. symmetry. exact (Hdist x b (Hids_seen j x Hj Hx) Sb (ids_sel j x Hj Hx) Sl E).
Qed.
Lemma under_plainly : forall b x, seen b -> seen x -> under (side_of x) (lo (K x)) (side_of b) = true -> plainly b.
Proof.
  intros b x Sb Sx U c Sc (C1 & C2 & _) Co _ Sv. apply under_spec in U. destruct U as ((U1 & U2) & G). cbn [side_of lo hi] in U1, U2.
  destruct (Hsteep b x (Hseen b Sb) (Hseen x Sx) Sv U1 U2) as (E1 & E2). apply low_spec in G.
  change (ht (side_of b) (lo (K x))) with (ht (K b) (lo (K x))) in G. change (ht (side_of x) (lo (K x))) with (ht (K x) (lo (K x))) in G. cbn [side_of sl op] in G.
  destruct G as [G|(_ & [G|(_ & Ob & _)])]; [rewrite E1 in G; qlra|qlra|].
  apply under_spec in C2. destruct C2 as (_ & G). apply low_spec in G. change (ht (side_of c) (lo (side_of b))) with (ht (K c) (lo (K b))) in G. change (ht (side_of b) (lo (side_of b))) with (ht (K b) (lo (K b))) in G. cbn [side_of sl op] in G.
  destruct G as [G|(_ & [G|(_ & _ & Ob')])]; [rewrite (coll_ht _ _ _ Co) in G; qlra|rewrite (proj1 Co) in G; qlra|congruence].
Qed.
Lemma below_none : forall j x, (j < m)%nat -> seen x -> plainly x -> below x = None -> dd j x = false.
Proof.
  intros j x Hj. remember (rank x) as r eqn:Er. revert x Er. induction r as [r IH] using (well_founded_induction Wf_nat.lt_wf). intros x -> Sx Px Eb.
  destruct (Hch x Sx) as ([b|] & Bn & E); [|exact (step_none j x Hj (Hseen x Sx) Bn)]. destruct E as (Sb & [E|(E1 & E2 & E3)]); [|destruct (Px b Sb Bn E1 E2 E3)]. rewrite Eb in E. destruct (sel b) eqn:Sl; [discriminate E|].
  destruct (step_some j x b Hj (Hseen x Sx) Bn) as (Hb & ->). destruct (mem b (ids j)) eqn:M; [apply mem_spec in M; destruct (Hsel b Sb Sl j Hj M)|].
  assert (U : under (side_of x) (lo (K x)) (side_of b) = true) by apply Bn.
  rewrite Bool.xorb_false_l. apply (IH (rank b)); [|reflexivity|exact Sb|exact (under_plainly b x Sb Sx U)|symmetry; exact E]. apply (rank_less b x Hb). exact (under_earlier b x Hb (Hseen x Sx) U).
Qed.
Lemma below_some : forall j x c, (j < m)%nat -> seen x -> plainly x -> below x = Some c -> dd j x = xorb (mem c (ids j)) (dd j c).
Proof.
  intros j x c Hj. remember (rank x) as r eqn:Er. revert x Er. induction r as [r IH] using (well_founded_induction Wf_nat.lt_wf). intros x -> Sx Px Eb.
  destruct (Hch x Sx) as ([b|] & Bn & E); [|congruence]. destruct E as (Sb & [E|(E1 & E2 & E3)]); [|destruct (Px b Sb Bn E1 E2 E3)]. rewrite Eb in E.
  destruct (step_some j x b Hj (Hseen x Sx) Bn) as (Hb & Ed). destruct (sel b) eqn:Sl; [injection E as ->; exact Ed|].
  rewrite Ed. destruct (mem b (ids j)) eqn:M; [apply mem_spec in M; destruct (Hsel b Sb Sl j Hj M)|].
  assert (U : under (side_of x) (lo (K x)) (side_of b) = true) by apply Bn.
  rewrite Bool.xorb_false_l. apply (IH (rank b)); [|reflexivity|exact Sb|exact (under_plainly b x Sb Sx U)|symmetry; exact E]. apply (rank_less b x Hb). exact (under_earlier b x Hb (Hseen x Sx) U).
Qed.

(** ** Contours *)
Variables (dir : nat -> bool) (first : nat -> nat) (int : nat -> bool) (par : nat -> option nat).
Hypothesis Hdis : forall j k x, (j < m)%nat -> (k < m)%nat -> In x (ids j) -> In x (ids k) -> j = k.
Hypothesis Hown : forall j x, (j < m)%nat -> In x (ids j) -> d j x = dir x.
Hypothesis Hrest : forall j k x y, (j < m)%nat -> (k < m)%nat -> j <> k -> In x (ids j) -> In y (ids j) -> d k x = d k y.
Hypothesis Hfirst : forall j, (j < m)%nat -> In (first j) (ids j) /\ dir (first j) = false.
Hypothesis Hrel : forall j, (j < m)%nat ->
  match below (first j) with
  | None => int j = false
  | Some c => exists q, (q < j)%nat /\ In c (ids q)
      /\ if dir c then int j = int q /\ (int j = true -> par j = par q) else int j = negb (int q) /\ (int j = true -> par j = Some q)
  end.
Definition enc (k j : nat) : bool := d k (first j).
Lemma enc_at : forall k q c, (k < m)%nat -> (q < m)%nat -> In c (ids q) -> xorb (mem c (ids k)) (d k c) = if dir c then enc k q else (Nat.eqb k q || enc k q)%bool.
Proof.
  intros k q c Hk Hq Hc. destruct (Nat.eqb_spec k q) as [->|N].
  - rewrite (proj2 (mem_spec c (ids q)) Hc), (Hown q c Hq Hc). unfold enc. destruct (Hfirst q Hq) as (F1 & F2). rewrite (Hown q (first q) Hq F1), F2. destruct (dir c); reflexivity.
  - destruct (mem c (ids k)) eqn:M; [apply mem_spec in M; destruct (N (Hdis k q c Hk Hq M Hc))|].
    rewrite Bool.xorb_false_l, Bool.orb_false_l. unfold enc. rewrite (Hrest q k c (first q) Hq Hk (not_eq_sym N) Hc (proj1 (Hfirst q Hq))). destruct (dir c); reflexivity.
Qed.
Lemma contours_tree : forall j, (j < m)%nat ->
  (int j = false /\ forall k, (k < m)%nat -> enc k j = false)
  \/ exists q, (q < j)%nat /\
     ((int j = negb (int q) /\ (int j = true -> par j = Some q) /\ forall k, (k < m)%nat -> enc k j = (Nat.eqb k q || enc k q)%bool)
      \/ (int j = int q /\ (int j = true -> par j = par q) /\ forall k, (k < m)%nat -> enc k j = enc k q)).
Proof.
  intros j Hj. destruct (Hfirst j Hj) as (F1 & _). pose proof (Hids_seen j _ Hj F1) as Sx. pose proof (Hrel j Hj) as R. destruct (below (first j)) as [c|] eqn:Eb.
  - right. destruct R as (q & Hq & Hc & R). exists q. split; [exact Hq|].
    assert (E : forall k, (k < m)%nat -> enc k j = if dir c then enc k q else (Nat.eqb k q || enc k q)%bool).
    { intros k Hk. unfold enc at 1. rewrite <- (dd_ids k j _ Hk Hj F1), (below_some k _ c Hk Sx (ids_plainly j _ Hj F1) Eb), (dd_ids k q c Hk ltac:(lia) Hc). apply enc_at; [exact Hk|lia|exact Hc]. }
    destruct (dir c); [right|left]; (split; [apply R|split; [apply R|exact E]]).
  - left. split; [exact R|]. intros k Hk. unfold enc. rewrite <- (dd_ids k j _ Hk Hj F1). exact (below_none k _ Hk Sx (ids_plainly j _ Hj F1) Eb).
Qed.
(** The piece right under a point. *)
Variable p : point.
Hypothesis Hp : In p P.
Lemma contours_point : (forall k, (k < m)%nat -> inside (es k) p = false)
  \/ exists j, (j < m)%nat /\ ((forall k, (k < m)%nat -> inside (es k) p = (Nat.eqb k j || enc k j)%bool) \/ forall k, (k < m)%nat -> inside (es k) p = enc k j).
Proof.
  set (t := pos e p). set (f := fun i => (covers (K i) t && Qc_ltb (ht (K i) t) (py p))%bool).
  assert (Ins : forall k, (k < m)%nat -> inside (es k) p = parity f (ids k)).
  { intros k Hk. rewrite inside_parity. unfold es. rewrite parity_map. apply parity_ext. intros i Hi. apply (k_passes e P Hsh (es k) (es_proper k Hk) (es_in k Hk)); [apply in_map; exact Hi|exact Hp]. }
  set (cand := filter f (concat (map ids (seq 0 m)))).
  assert (Cin : forall i, In i cand <-> f i = true /\ exists k, (k < m)%nat /\ In i (ids k)).
  { intro i. unfold cand. rewrite filter_In, in_concat. split.
    - intros ((l & Hl & Hi) & E). split; [exact E|]. apply in_map_iff in Hl. destruct Hl as (k & <- & Hk). apply in_seq in Hk. exists k. split; [lia|exact Hi].
    - intros (E & k & Hk & Hi). split; [|exact E]. exists (ids k). split; [apply in_map, in_seq; lia|exact Hi]. }
  destruct cand as [|c0 cand'] eqn:Ec.
  { left. intros k Hk. rewrite (Ins k Hk). apply parity_none. intros i Hi. destruct (f i) eqn:E; [|reflexivity]. destruct (proj2 (Cin i)). split; [exact E|exists k; split; assumption]. }
  right. destruct (exists_max nat (fun a b => germ false (K a) (K b) t = true) (c0 :: cand')) as (x & Ix & Mx).
  - intros a b. destruct (Nat.eq_dec a b); auto.
  - discriminate.
  - intros a b c A B. exact (germ_trans _ _ _ _ A B).
  - intros a b Ia Ib N. apply Cin in Ia, Ib. destruct Ia as (Fa & ka & Hka & Ia), Ib as (Fb & kb & Hkb & Ib).
    unfold f in Fa, Fb. apply Bool.andb_true_iff in Fa, Fb. destruct Fa as (Ca & _), Fb as (Cb & _). apply covers_spec in Ca, Cb. destruct Ca as (A1 & A2), Cb as (B1 & B2).
    pose proof (Hids ka a Hka Ia) as Ha. pose proof (Hids kb b Hkb Ib) as Hb.
    destruct (Qc_lt_total (ht (K a) t) (ht (K b) t)) as [L|[E|L]]; [left; apply germ_spec; left; exact L| |right; apply germ_spec; left; exact L].
    destruct (Qc_lt_total (sl (K a)) (sl (K b))) as [S|[S|S]]; [left; apply germ_spec; right; split; [exact E|left; exact S]| |right; apply germ_spec; right; split; [symmetry; exact E|left; exact S]].
    exfalso. pose proof (ht_slopes _ _ t E S) as Co. set (u := half * (t + (if Qc_ltb (hi (K a)) (hi (K b)) then hi (K a) else hi (K b)))).
    assert (U : t < u /\ u < hi (K a) /\ u < hi (K b)).
    { unfold u. destruct (Qc_ltb_spec (hi (K a)) (hi (K b))) as [J|J]; [destruct (half_between t (hi (K a)) A2)|destruct (half_between t (hi (K b)) B2)]; repeat split; qlra. }
    destruct U as (U1 & U2 & U3). apply N. apply (Hdist a b (Hids_seen ka a Hka Ia) (Hids_seen kb b Hkb Ib) (ids_sel ka a Hka Ia) (ids_sel kb b Hkb Ib)).
    apply (crossing ka b a u Hka Hb Ia N); try qlra; [split; qlra|]. apply coll_ht. exact Co.
  - pose proof Ix as Ix'. apply Cin in Ix'. destruct Ix' as (Fx & j & Hj & Jx). pose proof (Hids j x Hj Jx) as Hx.
    pose proof Fx as Fx'. unfold f in Fx'. apply Bool.andb_true_iff in Fx'. destruct Fx' as (Cx & Lx). pose proof Cx as Cx'. apply covers_spec in Cx'. destruct Cx' as (X1 & X2).
    assert (Lx' : ht (K x) t < py p) by (destruct (Qc_ltb_spec (ht (K x) t) (py p)); [assumption|discriminate]).
    exists j. split; [exact Hj|].
    assert (E : forall k, (k < m)%nat -> inside (es k) p = if dir x then enc k j else (Nat.eqb k j || enc k j)%bool).
    { intros k Hk. rewrite <- (enc_at k j x Hk Hj Jx), <- (w_d k x t Hk Hx X1 X2), (Ins k Hk). unfold w. apply parity_mem.
      - exact (Hnd k Hk).
      - exact Fx.
      - unfold undermost. rewrite germ_self. apply Bool.andb_false_r.
      - intros y Hy Ny. unfold undermost. destruct (f y) eqn:Fy.
        + assert (Iy : In y (c0 :: cand')) by (apply Cin; split; [exact Fy|exists k; split; assumption]). rewrite (Mx y Iy Ny).
          unfold f in Fy. apply Bool.andb_true_iff in Fy. rewrite (proj1 Fy). reflexivity.
        + unfold f in Fy. destruct (covers (K y) t); [|reflexivity]. cbn [andb] in *. destruct (germ false (K y) (K x) t) eqn:G; [|reflexivity]. exfalso.
          apply germ_spec in G. destruct (Qc_ltb_spec (ht (K y) t) (py p)) as [J|J]; [discriminate Fy|]. apply J. destruct G as [G|(G & _)]; [qlra|rewrite G; exact Lx']. }
    destruct (dir x); [right|left]; exact E.
Qed.
Theorem nested : (forall j, (j < m)%nat ->
    (int j = false /\ forall k, (k < m)%nat -> enc k j = false)
    \/ exists q, (q < j)%nat /\
       ((int j = negb (int q) /\ (int j = true -> par j = Some q) /\ forall k, (k < m)%nat -> enc k j = (Nat.eqb k q || enc k q)%bool)
        \/ (int j = int q /\ (int j = true -> par j = par q) /\ forall k, (k < m)%nat -> enc k j = enc k q)))
  /\ ((forall k, (k < m)%nat -> inside (es k) p = false)
    \/ exists j, (j < m)%nat /\ ((forall k, (k < m)%nat -> inside (es k) p = (Nat.eqb k j || enc k j)%bool) \/ forall k, (k < m)%nat -> inside (es k) p = enc k j)).
Proof. exact (conj contours_tree contours_point). Qed.
End Pieces.
