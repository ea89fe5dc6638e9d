(** Pieces of a simple contour with even numbers of their endpoints are either
    none or all.  Proof support only, no part of /repo is modelled here. *)
From Coq Require Import Permutation.
From Verif Require Import QcTac Geom Spec SpecShape SpecSides GeomFacts Toward BoundingThms Relation PairFacts PairProofs LinearThms LinearComplete LoopThms Unique Parity ShrinkThms RegionThms OrientThms Shapes Sides.

Lemma between_on : forall sg a b p, proper sg -> on_segment a sg -> on_segment b sg -> on_segment p sg -> ple a p -> ple p b -> on_segment p (Seg a b).
Proof.
  intros sg a b p Pr A B C L1 L2. destruct (pt_eq_dec a b) as [<-|N].
  - assert (E : p = a) by (apply ple_antisym; assumption). subst p. apply (on_segment_start (Seg a a)).
  - apply (through_spec (Seg a b) p N). unfold passes_through. cbn [s_start s_end]. change lex_ltb with pt_ltb.
    assert (Z : cross a b p = 0).
    { destruct A as (t & _ & _ & X1 & Y1), B as (u & _ & _ & X2 & Y2), C as (w & _ & _ & X3 & Y3). unfold cross. rewrite X1, Y1, X2, Y2, X3, Y3. ring. }
    rewrite Z. assert (E1 : pt_ltb p a = false) by (destruct (pt_ltb_spec p a) as [K|K]; [exfalso; exact (L1 K)|reflexivity]).
    assert (E2 : pt_ltb b p = false) by (destruct (pt_ltb_spec b p) as [K|K]; [exfalso; exact (L2 K)|reflexivity]). rewrite E1, E2. reflexivity.
Qed.

Lemma sub_on : forall k a b q, on_segment a k -> on_segment b k -> on_segment q (Seg a b) -> on_segment q k.
Proof.
  intros k a b q A B (t & T0 & T1 & X & Y). cbn in X, Y. assert (E : q = toward a b t) by (apply pt_ext; unfold toward; cbn; assumption). rewrite E. apply toward_on2; assumption.
Qed.
Lemma seg_ends : forall k, proper k -> plt (seg_lo k) (seg_hi k) /\ on_segment (seg_lo k) k /\ on_segment (seg_hi k) k
  /\ (forall v, endpoint v k <-> v = seg_lo k \/ v = seg_hi k).
Proof.
  intros k Pk. unfold endpoint. destruct (seg_lo_hi k) as [(A & B & C)|(A & B & C)]; rewrite A, B.
  - split; [apply ple_lt_eq in C; destruct C as [C|C]; [exact C|elim (Pk C)]|]. split; [apply on_segment_start|]. split; [apply on_segment_end|]. tauto.
  - split; [exact C|]. split; [apply on_segment_end|]. split; [apply on_segment_start|]. tauto.
Qed.
Lemma within_lex : forall k sg, proper k -> proper sg -> within k sg -> ple (seg_lo sg) (seg_lo k) /\ ple (seg_hi k) (seg_hi sg).
Proof.
  intros k sg Pk Ps W. destruct (seg_ends k Pk) as (_ & A & B & _). split; [apply (on_lex _ sg Ps (W _ A))|apply (on_lex _ sg Ps (W _ B))].
Qed.
(** Only common endpoints. *)
Definition only_ends (k k' : segment) : Prop := forall p, on_segment p k -> on_segment p k' -> endpoint p k /\ endpoint p k'.
Lemma only_ends_apart : forall k k', only_ends k k' -> ~ overlap k k'.
Proof.
  intros k k' H O. destruct (overlap_inside _ _ O) as (m & (M1 & M2 & M3) & (M4 & _)). destruct (H m M1 M4) as ([E|E] & _); contradiction.
Qed.
(** Two pieces of a segment ending in the same point on the same side overlap. *)
Lemma same_hi : forall sg k k', proper sg -> proper k -> proper k' -> within k sg -> within k' sg -> seg_hi k = seg_hi k' -> overlap k k'.
Proof.
  intros sg k k' Ps Pk Pk' W W' E. destruct (seg_ends k Pk) as (L & A & B & _). destruct (seg_ends k' Pk') as (L' & A' & B' & _).
  assert (Hi : on_segment (seg_hi k) k') by (rewrite E; exact B').
  assert (On : forall q, on_segment q sg -> ple (seg_lo k) q -> ple q (seg_hi k) -> on_segment q k).
  { intros q Q Q1 Q2. apply (sub_on k _ _ q A B). exact (between_on sg _ _ q Ps (W _ A) (W _ B) Q Q1 Q2). }
  assert (On' : forall q, on_segment q sg -> ple (seg_lo k') q -> ple q (seg_hi k') -> on_segment q k').
  { intros q Q Q1 Q2. apply (sub_on k' _ _ q A' B'). exact (between_on sg _ _ q Ps (W' _ A') (W' _ B') Q Q1 Q2). }
  destruct (pt_ltb_spec (seg_lo k) (seg_lo k')) as [K|K].
  - exists (seg_lo k'), (seg_hi k'). split; [intro F; rewrite F in L'; exact (plt_irrefl _ L')|].
    split; [apply On; [exact (W' _ A')|apply ple_lt_eq; left; exact K|rewrite E; apply ple_lt_eq; left; exact L']|].
    split; [exact A'|]. split; [rewrite <- E; exact B|exact B'].
  - exists (seg_lo k), (seg_hi k). split; [intro F; rewrite F in L; exact (plt_irrefl _ L)|]. split; [exact A|].
    split; [apply On'; [exact (W _ A)|exact K|rewrite <- E; apply ple_lt_eq; left; exact L]|]. split; [exact B|exact Hi].
Qed.
Lemma same_lo : forall sg k k', proper sg -> proper k -> proper k' -> within k sg -> within k' sg -> seg_lo k = seg_lo k' -> overlap k k'.
Proof.
  intros sg k k' Ps Pk Pk' W W' E. destruct (seg_ends k Pk) as (L & A & B & _). destruct (seg_ends k' Pk') as (L' & A' & B' & _).
  assert (Lo : on_segment (seg_lo k) k') by (rewrite E; exact A').
  assert (On : forall q, on_segment q sg -> ple (seg_lo k) q -> ple q (seg_hi k) -> on_segment q k).
  { intros q Q Q1 Q2. apply (sub_on k _ _ q A B). exact (between_on sg _ _ q Ps (W _ A) (W _ B) Q Q1 Q2). }
  assert (On' : forall q, on_segment q sg -> ple (seg_lo k') q -> ple q (seg_hi k') -> on_segment q k').
  { intros q Q Q1 Q2. apply (sub_on k' _ _ q A' B'). exact (between_on sg _ _ q Ps (W' _ A') (W' _ B') Q Q1 Q2). }
  destruct (pt_ltb_spec (seg_hi k') (seg_hi k)) as [K|K].
  - exists (seg_lo k'), (seg_hi k'). split; [intro F; rewrite F in L'; exact (plt_irrefl _ L')|]. split; [rewrite <- E; exact A|]. split; [exact A'|].
    split; [|exact B']. apply On; [exact (W' _ B')|rewrite E; apply ple_lt_eq; left; exact L'|apply ple_lt_eq; left; exact K].
  - exists (seg_lo k), (seg_hi k). split; [intro F; rewrite F in L; exact (plt_irrefl _ L)|]. split; [exact A|]. split; [exact Lo|].
    split; [exact B|]. apply On'; [exact (W _ B)|rewrite <- E; apply ple_lt_eq; left; exact L|exact K].
Qed.
Lemma filter_fewer : forall (A : Type) (f g : A -> bool) l x, (forall y, In y l -> g y = true -> f y = true) -> In x l -> f x = true -> g x = false ->
  (length (filter g l) < length (filter f l))%nat.
Proof.
  intros A f g l x. assert (Le : forall m, (forall y, In y m -> g y = true -> f y = true) -> (length (filter g m) <= length (filter f m))%nat).
  { induction m as [|y m IH]; intro H; [apply le_n|]. cbn. specialize (IH (fun z Hz => H z (or_intror Hz))). pose proof (H y (or_introl eq_refl)) as K.
    destruct (g y); [rewrite (K eq_refl); cbn; lia|destruct (f y); cbn; lia]. }
  induction l as [|y l IH]; intros H Hx Fx Gx; [destruct Hx|]. cbn. pose proof (H y (or_introl eq_refl)) as K. destruct Hx as [->|Hx].
  - rewrite Fx, Gx. cbn. specialize (Le l (fun z Hz => H z (or_intror Hz))). lia.
  - specialize (IH (fun z Hz => H z (or_intror Hz)) Hx Fx Gx). destruct (g y); [rewrite (K eq_refl); cbn; lia|destruct (f y); cbn; lia].
Qed.

Section Cycle.
Variables (vs : list point) (L : list segment).
Hypothesis Hv : simple_contour vs.
Notation n := (length vs).
Notation es := (contour_edges vs).
Hypothesis Lp : Forall proper L.
Hypothesis Lw : forall k, In k L -> exists sg, In sg es /\ within k sg.
Hypothesis La : pairwise only_ends L.
Hypothesis Le : even_occurrences (endpoints_of L).
Notation edge i := (edge_at vs i).
Let Hp : forall k, In k L -> proper k := proj1 (Forall_forall _ _) Lp.
Let He : forall i, (i < n)%nat -> proper (edge i).
Proof. intros i Hi. pose proof (simple_proper vs Hv) as P. rewrite Forall_forall in P. apply P. apply (in_edge_at vs). exists i. split; [exact Hi|reflexivity]. Qed.

Lemma another : forall k v, In k L -> endpoint v k -> exists k', In k' L /\ endpoint v k' /\ only_ends k k'.
Proof.
  intros k v Hk Ev. destruct (in_split _ _ Hk) as (l1 & l2 & El).
  assert (C : Nat.odd (count_occ pt_eq_dec (endpoints_of (l1 ++ l2)) v) = true).
  { assert (P2 : forall a b, endpoints_of (a ++ b) = endpoints_of a ++ endpoints_of b) by (intros a b; unfold endpoints_of; apply flat_map_app).
    pose proof (Le v) as E. rewrite El in E. change (k :: l2) with ([k] ++ l2) in E. rewrite !P2 in E. rewrite P2. rewrite !count_occ_app in *.
    pose proof (Hp k Hk) as Pk. unfold proper in Pk.
    assert (One : count_occ pt_eq_dec (endpoints_of [k]) v = 1%nat).
    { cbn. destruct Ev as [->| ->]; repeat match goal with |- context [pt_eq_dec ?a ?b] => destruct (pt_eq_dec a b) end; congruence. }
    rewrite One in E. revert E. set (a := count_occ pt_eq_dec (endpoints_of l1) v). set (b := count_occ pt_eq_dec (endpoints_of l2) v). intro E.
    replace (a + (1 + b))%nat with (S (a + b)) in E by lia. rewrite Nat.even_succ in E. exact E. }
  assert (I : In v (endpoints_of (l1 ++ l2))).
  { apply (count_occ_In pt_eq_dec). destruct (count_occ pt_eq_dec (endpoints_of (l1 ++ l2)) v); [discriminate C|lia]. }
  unfold endpoints_of in I. apply in_flat_map in I. destruct I as (k' & Hk' & Ek'). exists k'. split; [rewrite El; apply in_app_or in Hk'; apply in_or_app; cbn; tauto|].
  split; [destruct Ek' as [<-|[<-|[]]]; [left|right]; reflexivity|].
  apply in_app_or in Hk'. destruct Hk' as [Hk'|Hk']; apply In_nth_error in Hk'; destruct Hk' as (m & Em).
  - apply (La (length l1) m k k').
    + intro F. subst m. assert (X : nth_error l1 (length l1) = None) by (apply nth_error_None; lia). congruence.
    + rewrite El, nth_error_app2, Nat.sub_diag by lia. reflexivity.
    + rewrite El, nth_error_app1; [exact Em|]. apply nth_error_Some. congruence.
  - apply (La (length l1) (length l1 + S m)%nat k k').
    + lia.
    + rewrite El, nth_error_app2, Nat.sub_diag by lia. reflexivity.
    + rewrite El, nth_error_app2 by lia. replace (length l1 + S m - length l1)%nat with (S m) by lia. exact Em.
Qed.
Lemma edges_meet : forall i j v, (i < n)%nat -> (j < n)%nat -> i <> j -> on_segment v (edge i) -> on_segment v (edge j) -> endpoint v (edge i) /\ endpoint v (edge j).
Proof.
  intros i j v Hi Hj N A B. apply (proj2 (proj2 Hv) i j (edge i) (edge j) N); [apply contour_edges_nth; exact Hi|apply contour_edges_nth; exact Hj|exact A|exact B].
Qed.
Lemma on_edge : forall k, In k L -> exists i, (i < n)%nat /\ within k (edge i).
Proof. intros k Hk. destruct (Lw k Hk) as (sg & Hs & W). apply (in_edge_at vs) in Hs. destruct Hs as (i & Hi & ->). exists i. split; assumption. Qed.
(** Pieces go on along an edge. *)
Lemma go_right : forall i k p, (i < n)%nat -> In k L -> within k (edge i) -> on_segment p (edge i) -> plt (seg_hi k) p ->
  exists k', In k' L /\ within k' (edge i) /\ seg_lo k' = seg_hi k.
Proof.
  intros i k p Hi Hk W Op Lp'. pose proof (Hp k Hk) as Pk. destruct (seg_ends k Pk) as (Lk & Ok1 & Ok2 & Ek).
  destruct (another k (seg_hi k) Hk) as (k' & Hk' & Ev & Oe); [apply Ek; right; reflexivity|].
  pose proof (Hp k' Hk') as Pk'. destruct (seg_ends k' Pk') as (Lk' & Ok1' & Ok2' & Ek').
  assert (Ov : on_segment (seg_hi k) k') by (apply Ek' in Ev; destruct Ev as [->| ->]; assumption).
  destruct (on_edge k' Hk') as (j & Hj & W'). destruct (Nat.eq_dec i j) as [<-|N].
  - exists k'. split; [exact Hk'|]. split; [exact W'|]. apply Ek' in Ev. destruct Ev as [E|E]; [symmetry; exact E|].
    exfalso. apply (only_ends_apart _ _ Oe). exact (same_hi (edge i) k k' (He i Hi) Pk Pk' W W' E).
  - exfalso. destruct (edges_meet i j _ Hi Hj N (W _ Ok2) (W' _ Ov)) as (E & _).
    destruct (seg_ends _ (He i Hi)) as (_ & _ & _ & Ee). apply Ee in E. destruct (within_lex _ _ Pk (He i Hi) W) as (A & B). destruct (on_lex p _ (He i Hi) Op) as (_ & C).
    destruct E as [E|E]; rewrite E in *; [exact (A Lk)|exact (C Lp')].
Qed.
Lemma go_left : forall i k p, (i < n)%nat -> In k L -> within k (edge i) -> on_segment p (edge i) -> plt p (seg_lo k) ->
  exists k', In k' L /\ within k' (edge i) /\ seg_hi k' = seg_lo k.
Proof.
  intros i k p Hi Hk W Op Lp'. pose proof (Hp k Hk) as Pk. destruct (seg_ends k Pk) as (Lk & Ok1 & Ok2 & Ek).
  destruct (another k (seg_lo k) Hk) as (k' & Hk' & Ev & Oe); [apply Ek; left; reflexivity|].
  pose proof (Hp k' Hk') as Pk'. destruct (seg_ends k' Pk') as (Lk' & Ok1' & Ok2' & Ek').
  assert (Ov : on_segment (seg_lo k) k') by (apply Ek' in Ev; destruct Ev as [->| ->]; assumption).
  destruct (on_edge k' Hk') as (j & Hj & W'). destruct (Nat.eq_dec i j) as [<-|N].
  - exists k'. split; [exact Hk'|]. split; [exact W'|]. apply Ek' in Ev. destruct Ev as [E|E]; [|symmetry; exact E].
    exfalso. apply (only_ends_apart _ _ Oe). exact (same_lo (edge i) k k' (He i Hi) Pk Pk' W W' E).
  - exfalso. destruct (edges_meet i j _ Hi Hj N (W _ Ok1) (W' _ Ov)) as (E & _).
    destruct (seg_ends _ (He i Hi)) as (_ & _ & _ & Ee). apply Ee in E. destruct (within_lex _ _ Pk (He i Hi) W) as (A & B). destruct (on_lex p _ (He i Hi) Op) as (C & _).
    destruct E as [E|E]; rewrite E in *; [exact (C Lp')|exact (B Lk)].
Qed.
Lemma reach_right : forall i p, (i < n)%nat -> on_segment p (edge i) ->
  forall m k, (length (filter (fun k' => pt_ltb (seg_lo k) (seg_lo k')) L) <= m)%nat -> In k L -> within k (edge i) -> ple (seg_lo k) p ->
  exists k', In k' L /\ within k' (edge i) /\ on_segment p k'.
Proof.
  intros i p Hi Op. induction m as [|m IH]; intros k Hm Hk W Lk.
  all: pose proof (Hp k Hk) as Pk; destruct (seg_ends k Pk) as (Lo & Ok1 & Ok2 & Ek); destruct (pt_ltb_spec (seg_hi k) p) as [K|K].
  2,4: (exists k; split; [exact Hk|]; split; [exact W|]; apply (sub_on k _ _ p Ok1 Ok2); exact (between_on (edge i) _ _ p (He i Hi) (W _ Ok1) (W _ Ok2) Op Lk K)).
  all: destruct (go_right i k p Hi Hk W Op K) as (k' & Hk' & W' & E).
  - exfalso. assert (I : In k' (filter (fun k' => pt_ltb (seg_lo k) (seg_lo k')) L)).
    { apply filter_In. split; [exact Hk'|]. rewrite E. destruct (pt_ltb_spec (seg_lo k) (seg_hi k)); [reflexivity|contradiction]. }
    destruct (filter (fun k' => pt_ltb (seg_lo k) (seg_lo k')) L); [destruct I|cbn in Hm; lia].
  - apply (IH k'); [|exact Hk'|exact W'|rewrite E; apply ple_lt_eq; left; exact K].
    assert (F : (length (filter (fun k0 => pt_ltb (seg_lo k') (seg_lo k0)) L) < length (filter (fun k' => pt_ltb (seg_lo k) (seg_lo k')) L))%nat).
    { apply (filter_fewer _ _ _ L k'); [|exact Hk'| |].
      - intros y _ Y. destruct (pt_ltb_spec (seg_lo k') (seg_lo y)) as [J|J]; [|discriminate Y]. destruct (pt_ltb_spec (seg_lo k) (seg_lo y)) as [J'|J']; [reflexivity|].
        exfalso. apply J'. rewrite E in J. exact (plt_trans _ _ _ Lo J).
      - rewrite E. destruct (pt_ltb_spec (seg_lo k) (seg_hi k)); [reflexivity|contradiction].
      - destruct (pt_ltb_spec (seg_lo k') (seg_lo k')) as [J|J]; [elim (plt_irrefl _ J)|reflexivity]. }
    lia.
Qed.
Lemma reach_left : forall i p, (i < n)%nat -> on_segment p (edge i) ->
  forall m k, (length (filter (fun k' => pt_ltb (seg_hi k') (seg_hi k)) L) <= m)%nat -> In k L -> within k (edge i) -> ple p (seg_hi k) ->
  exists k', In k' L /\ within k' (edge i) /\ on_segment p k'.
Proof.
  intros i p Hi Op. induction m as [|m IH]; intros k Hm Hk W Lk.
  all: pose proof (Hp k Hk) as Pk; destruct (seg_ends k Pk) as (Lo & Ok1 & Ok2 & Ek); destruct (pt_ltb_spec p (seg_lo k)) as [K|K].
  2,4: (exists k; split; [exact Hk|]; split; [exact W|]; apply (sub_on k _ _ p Ok1 Ok2); exact (between_on (edge i) _ _ p (He i Hi) (W _ Ok1) (W _ Ok2) Op K Lk)).
  all: destruct (go_left i k p Hi Hk W Op K) as (k' & Hk' & W' & E).
  - exfalso. assert (I : In k' (filter (fun k' => pt_ltb (seg_hi k') (seg_hi k)) L)).
    { apply filter_In. split; [exact Hk'|]. rewrite E. destruct (pt_ltb_spec (seg_lo k) (seg_hi k)); [reflexivity|contradiction]. }
    destruct (filter (fun k' => pt_ltb (seg_hi k') (seg_hi k)) L); [destruct I|cbn in Hm; lia].
  - apply (IH k'); [|exact Hk'|exact W'|rewrite E; apply ple_lt_eq; left; exact K].
    assert (F : (length (filter (fun k0 => pt_ltb (seg_hi k0) (seg_hi k')) L) < length (filter (fun k' => pt_ltb (seg_hi k') (seg_hi k)) L))%nat).
    { apply (filter_fewer _ _ _ L k'); [|exact Hk'| |].
      - intros y _ Y. destruct (pt_ltb_spec (seg_hi y) (seg_hi k')) as [J|J]; [|discriminate Y]. destruct (pt_ltb_spec (seg_hi y) (seg_hi k)) as [J'|J']; [reflexivity|].
        exfalso. apply J'. rewrite E in J. exact (plt_trans _ _ _ J Lo).
      - rewrite E. destruct (pt_ltb_spec (seg_lo k) (seg_hi k)); [reflexivity|contradiction].
      - destruct (pt_ltb_spec (seg_hi k') (seg_hi k')) as [J|J]; [elim (plt_irrefl _ J)|reflexivity]. }
    lia.
Qed.
Lemma edge_covered : forall i p, (i < n)%nat -> (exists k, In k L /\ within k (edge i)) -> on_segment p (edge i) -> exists k, In k L /\ within k (edge i) /\ on_segment p k.
Proof.
  intros i p Hi (k & Hk & W) Op. destruct (pt_ltb_spec p (seg_lo k)) as [K|K].
  - apply (reach_left i p Hi Op _ k (le_n _) Hk W). destruct (seg_ends k (Hp k Hk)) as (Lo & _). apply ple_lt_eq. left. exact (plt_trans _ _ _ K Lo).
  - exact (reach_right i p Hi Op _ k (le_n _) Hk W K).
Qed.
Lemma next_edge : forall i, (i < n)%nat -> (exists k, In k L /\ within k (edge i)) -> exists k, In k L /\ within k (edge (after n i)).
Proof.
  intros i Hi Ex. set (v := vertex vs i).
  assert (Ov : on_segment v (edge i)) by exact (on_segment_end (edge i)).
  destruct (edge_covered i v Hi Ex Ov) as (k & Hk & W & Ok). pose proof (Hp k Hk) as Pk. destruct (seg_ends k Pk) as (Lo & O1 & O2 & Ek).
  destruct (seg_ends _ (He i Hi)) as (_ & _ & _ & Ee). destruct (within_lex _ _ Pk (He i Hi) W) as (A & B). destruct (on_lex v k Pk Ok) as (C & D).
  assert (Ev : v = seg_lo (edge i) \/ v = seg_hi (edge i)) by (apply Ee; right; reflexivity).
  assert (Side : (v = seg_lo k /\ v = seg_lo (edge i)) \/ (v = seg_hi k /\ v = seg_hi (edge i))).
  { destruct Ev as [E|E]; [left|right]; (split; [|exact E]); apply ple_antisym; try assumption; rewrite E; assumption. }
  destruct (another k v Hk) as (k' & Hk' & Ev' & Oe); [apply Ek; destruct Side as [(S & _)|(S & _)]; [left|right]; exact S|].
  pose proof (Hp k' Hk') as Pk'. destruct (seg_ends k' Pk') as (Lo' & O1' & O2' & Ek').
  assert (Ok' : on_segment v k') by (apply Ek' in Ev'; destruct Ev' as [->| ->]; assumption).
  destruct (on_edge k' Hk') as (j & Hj & W'). destruct (Nat.eq_dec i j) as [<-|N].
  - exfalso. apply (only_ends_apart _ _ Oe). destruct (within_lex _ _ Pk' (He i Hi) W') as (A' & B'). destruct (on_lex v k' Pk' Ok') as (C' & D').
    destruct Side as [(S1 & S2)|(S1 & S2)].
    + apply (same_lo (edge i) k k' (He i Hi) Pk Pk' W W'). rewrite <- S1. apply ple_antisym; [rewrite S2; exact A'|exact C'].
    + apply (same_hi (edge i) k k' (He i Hi) Pk Pk' W W'). rewrite <- S1. apply ple_antisym; [exact D'|rewrite S2; exact B'].
  - destruct (edges_meet i j v Hi Hj N Ov (W' _ Ok')) as (_ & E). exists k'. split; [exact Hk'|].
    assert (J : after n i = j); [|rewrite J; exact W'].
    destruct E as [E|E]; unfold v in E; cbn in E.
    + apply (vertex_inj vs) in E; [|apply Hv|exact Hi|apply before_lt; exact Hj]. symmetry in E. exact (before_eq n j i Hj E).
    + apply (vertex_inj vs) in E; [contradiction|apply Hv|exact Hi|exact Hj].
Qed.
Lemma around : forall (Q : nat -> Prop) i, (i < n)%nat -> Q i -> (forall j, (j < n)%nat -> Q j -> Q (after n j)) -> forall j, (j < n)%nat -> Q j.
Proof.
  intros Q i Hi Qi St.
  assert (Up : forall d i, (i < n)%nat -> Q i -> (i + d < n)%nat -> Q (i + d)%nat).
  { induction d as [|d IH]; intros a Ha Qa Hd; [rewrite Nat.add_0_r; exact Qa|]. assert (X : Q (after n (a + d))) by (apply St; [lia|apply IH; [exact Ha|exact Qa|lia]]).
    unfold after in X. destruct (Nat.eqb_spec (S (a + d)) n) as [E|E]; [lia|]. rewrite Nat.add_succ_r. exact X. }
  assert (Q0 : Q 0%nat).
  { assert (X : Q (n - 1)%nat) by (replace (n - 1)%nat with (i + (n - 1 - i))%nat by lia; apply Up; [exact Hi|exact Qi|lia]).
    apply St in X; [|lia]. unfold after in X. destruct (Nat.eqb_spec (S (n - 1)) n) as [E|E]; [exact X|lia]. }
  intros j Hj. exact (Up j 0%nat ltac:(lia) Q0 Hj).
Qed.
Theorem none_or_all : L = [] \/ forall p, on_segments p es -> on_segments p L.
Proof.
  destruct L as [|k0 r] eqn:EL; [left; reflexivity|right]. rewrite <- EL in *.
  assert (I0 : In k0 L) by (rewrite EL; left; reflexivity). destruct (on_edge k0 I0) as (i & Hi & W).
  pose proof (around (fun i => exists k, In k L /\ within k (edge i)) i Hi (ex_intro _ k0 (conj I0 W)) next_edge) as All.
  intros p (sg & Hs & O). apply (in_edge_at vs) in Hs. destruct Hs as (j & Hj & ->). destruct (edge_covered j p Hj (All j Hj) O) as (k & Hk & _ & Ok). exists k. split; assumption.
Qed.
End Cycle.
