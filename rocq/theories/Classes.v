(** Tracing of intersections of regions: contours stay in common parts of pairs
    of regions.  Proof support only, no part of /repo is modelled here. *)
From Coq Require Import Permutation.
From Verif Require Import QcTac Geom Spec SpecShape SpecSides GeomFacts Toward Relation SweepGeo SweepInv Sweep Linear Outline Contour ConnectThms Tracing TraceThms RegionThms Parity Shapes EvenOdd Polygons Sides Loops Labelled Filter Mixed Shaped Holey ShapedThms FollowThms Faces Flip TracedLoops Cycle Arranged Fill Germs Walks Shift Bridge LoopThms LinearComplete Rooms.

Notation part k s := (LoopThms.within k s).
Lemma finite_choice : forall (A : Type) (a0 : A) (P : nat -> A -> Prop) n, (forall i, (i < n)%nat -> exists a, P i a) -> exists f : nat -> A, forall i, (i < n)%nat -> P i (f i).
Proof.
  intros A a0 P n. induction n as [|n IH]; intro H; [exists (fun _ => a0); intros i Hi; lia|].
  destruct IH as (f & F); [intros i Hi; apply H; lia|]. destruct (H n ltac:(lia)) as (a & Ha). exists (fun i => if Nat.eqb i n then a else f i).
  intros i Hi. destruct (Nat.eqb_spec i n) as [->|N]; [exact Ha|apply F; lia].
Qed.
Lemma through_on : forall es p, Forall proper es -> on_segments p es <-> segments_through es p <> O.
Proof.
  intros es p Pr. unfold segments_through. rewrite Forall_forall in Pr. split.
  - intros (s & Hs & Os) K. assert (J : In s (filter (fun s => passes_through s p) es)) by (apply filter_In; split; [exact Hs|apply (Sides.through_spec s p (Pr s Hs)), Os]).
    destruct (filter _ es); [destruct J|discriminate K].
  - intro K. destruct (filter (fun s => passes_through s p) es) as [|s l] eqn:F; [elim K; reflexivity|]. assert (J : In s (filter (fun s => passes_through s p) es)) by (rewrite F; left; reflexivity).
    apply filter_In in J. exists s. split; [apply J|apply (Sides.through_spec s p (Pr s (proj1 J))), J].
Qed.
Lemma inside_between : forall x y z k, proper k -> inside_segment x k -> inside_segment y k -> on_segment z (Seg x y) -> inside_segment z k.
Proof.
  intros x y z k Pk Ix Iy Oz. destruct (pt_eq_dec z x) as [->|Nx]; [exact Ix|]. destruct (pt_eq_dec z y) as [->|Ny]; [exact Iy|].
  assert (Pxy : proper (Seg x y)). { intro E. cbn in E. subst y. apply Nx. destruct Oz as (t & _ & _ & X & Y). cbn [s_start s_end] in X, Y. apply pt_ext; [rewrite X|rewrite Y]; ring. }
  apply (inside_within z (Seg x y) k Pxy Pk); [|split; [exact Oz|split; assumption]]. intros p Op. exact (sub_on k x y p (proj1 Ix) (proj1 Iy) Op).
Qed.
Definition inb (c : contour) (p : point) : bool := existsb (fun s => passes_through s p) (ends c) || inside (ends c) p.
Lemma inb_spec : forall c p, simple_contour (vertices c) -> inb c p = true <-> in_contour c p.
Proof.
  intros c p Hc. pose proof (proj1 (Forall_forall _ _) (simple_proper _ Hc)) as Pr. unfold inb, in_contour, in_region. rewrite orb_true_iff, existsb_exists.
  split; (intros [K|K]; [left|right; exact K]); destruct K as (s & Hs & K); exists s; (split; [exact Hs|]); apply (Sides.through_spec s p (Pr s Hs)); exact K.
Qed.

Section Classes.
Variables first second : list contour.
Hypothesis V1 : valid_regions first.
Hypothesis V2 : valid_regions second.
Notation E1 := (flat_map (fun c => ends c) first).
Notation E2 := (flat_map (fun c => ends c) second).
Variables (evs : list holey_event) (c : list nat).
Notation ts := (map h_traced evs).
Notation n := (length evs).
Notation vtx := (vx evs).
Notation op := (ov evs).
Notation st i := (t_start (tev ts i)).
Notation lf i := (t_left (tev ts i)).
Notation ge i := (edge ts i).
Notation drawn Z := (map (edge ts) (chosen ts Z)).
Hypothesis Hpair : paired ts.
Hypothesis Htidy : tidy ts.
Hypothesis Hplanar : planar ts.
Hypothesis Hgroup : grouped (starts ts).
Hypothesis Hids : forall i j, (i < n)%nat -> (j < n)%nat -> vtx i = vtx j <-> st i = st j.
Hypothesis Hconn : events_to_connectivity ts = Ok c.
Hypothesis Hsort : forall i j, (i < j)%nat -> (j < length ts)%nat -> ple (st i) (st j).
Hypothesis Hev : even_occurrences (endpoints_of (drawn (fun _ => true))).
(** The edges are pieces of the boundary of the common part. *)
Hypothesis Hat : forall i m t, (i < n)%nat -> inside_segment m (ge i) -> In t (E1 ++ E2) -> on_segment m t -> part (ge i) t.
Hypothesis Hin : forall p, inside (drawn (fun _ => true)) p = inside E1 p && inside E2 p.
Variable cuts : list point.
Hypothesis Hsides : forall p, ~ In p cuts -> (on_segments p (drawn (fun _ => true)) <-> inside E1 p && inside E2 p <> inside_above E1 p && inside_above E2 p).
Hypothesis Hcut1 : forall p, ~ In p cuts -> lone E1 p.
Hypothesis Hcut2 : forall p, ~ In p cuts -> lone E2 p.
(** Middles of edges and points next to them. *)
Variables mm dd uu : nat -> point.
Hypothesis Hmm : forall i, (i < n)%nat -> inside_segment (mm i) (ge i).
Hypothesis Hmc : forall i, (i < n)%nat -> ~ In (mm i) cuts.
Hypothesis Hmo : forall i, (i < n)%nat -> mm (op i) = mm i.
Hypothesis Hdu : forall i, (i < n)%nat -> inside_segment (mm i) (Seg (dd i) (uu i))
  /\ (forall s, In s (all_edges ts) -> passes_under s (dd i) = passes_under s (mm i))
  /\ (forall s x, In s (all_edges ts ++ E1 ++ E2) -> on_segment x (Seg (dd i) (uu i)) -> on_segment x s -> on_segment (mm i) s /\ x = mm i).
Definition lp (i : nat) : point := if lf i then uu i else dd i.
Definition rp (i : nat) : point := if lf i then dd i else uu i.
Let S1 : forall k, In k first -> simple_contour (vertices k) := proj1 (Forall_forall _ _) (proj1 V1).
Let S2 : forall k, In k second -> simple_contour (vertices k) := proj1 (Forall_forall _ _) (proj1 V2).

Lemma lt_ts : forall i, (i < n)%nat -> (i < length ts)%nat.
Proof. intros i Hi. rewrite map_length. exact Hi. Qed.
Lemma ts_lt : forall i, (i < length ts)%nat -> (i < n)%nat.
Proof. intros i Hi. rewrite map_length in Hi. exact Hi. Qed.
Lemma c_op : forall i, opp ts i = op i.
Proof. exact (l_opp evs). Qed.
Lemma ge_proper : forall i, (i < n)%nat -> proper (ge i).
Proof. intros i Hi. exact (edge_proper ts Hpair Htidy i (lt_ts i Hi)). Qed.
Lemma ins_drawn : forall Z q, ins evs Z q = inside (drawn Z) q.
Proof.
  intros Z q. unfold ins. rewrite inside_parity, parity_map. unfold chosen. rewrite parity_filter, map_length. reflexivity.
Qed.
Lemma drawn_apart : forall Z, pairwise only_ends (drawn Z).
Proof.
  intro Z. apply pairwise_map. intros a b i j N Ea Eb p Oi Oj.
  assert (Nd : NoDup (chosen ts Z)) by (apply NoDup_filter, seq_NoDup).
  assert (Nij : i <> j). { intros ->. apply N. apply (proj1 (NoDup_nth_error _) Nd a b); [apply nth_error_Some; congruence|congruence]. }
  apply nth_error_In, chosen_in in Ea. apply nth_error_In, chosen_in in Eb. destruct Ea as (Li & Fi & _), Eb as (Lj & Fj & _).
  apply (td_apart ts Htidy i j p Li Lj (not_eq_sym Nij)); [|exact Oi|exact Oj]. intros ->. rewrite (td_left ts Htidy i Li), Fi in Fj. discriminate Fj.
Qed.
Lemma closed_even : forall Z, (forall i, (i < n)%nat -> Z (op i) = Z i) -> (closed n vtx op Z <-> even_occurrences (endpoints_of (drawn Z))).
Proof.
  intros Z Zop. assert (Zop' : forall i, (i < length ts)%nat -> Z (opp ts i) = Z i) by (intros i Hi; rewrite c_op; apply Zop, ts_lt, Hi).
  assert (Sw : forall j, (j < n)%nat -> parity (fun i => Z i && Nat.eqb (vtx i) (vtx j)) (seq 0 n) = parity (fun i => Z i && pt_eqb (st i) (st j)) (seq 0 (length ts))).
  { intros j Hj. rewrite map_length. apply parity_ext. intros i Hi. apply in_seq in Hi. f_equal.
    destruct (pt_eqb_spec (st i) (st j)) as [M|M], (Nat.eqb_spec (vtx i) (vtx j)) as [M'|M']; try reflexivity; exfalso; [apply M'|apply M]; apply Hids; auto; lia. }
  split.
  - intros (_ & Ze) q. rewrite <- Nat.negb_odd, (drawn_count ts Hpair Htidy Z q Zop').
    destruct (existsb (fun i => pt_eqb (st i) q) (seq 0 n)) eqn:Ex.
    + apply existsb_exists in Ex. destruct Ex as (j & Hj & E). apply in_seq in Hj. destruct (pt_eqb_spec (st j) q) as [<-|]; [|discriminate E]. rewrite <- Sw by lia. rewrite Ze. reflexivity.
    + rewrite parity_none; [reflexivity|]. intros i Hi. rewrite map_length in Hi. destruct (pt_eqb (st i) q) eqn:J; [|apply Bool.andb_false_r]. exfalso.
      assert (X : existsb (fun i => pt_eqb (st i) q) (seq 0 n) = true) by (apply existsb_exists; exists i; split; assumption). congruence.
  - intro Ev. split; [exact Zop|]. intro v. destruct (existsb (fun i => Nat.eqb (vtx i) v) (seq 0 n)) eqn:Ex.
    + apply existsb_exists in Ex. destruct Ex as (j & Hj & E). apply in_seq in Hj. apply Nat.eqb_eq in E. subst v. rewrite Sw by lia.
      rewrite <- (drawn_count ts Hpair Htidy Z (st j) Zop'), <- Nat.negb_even, (Ev (st j)). reflexivity.
    + apply parity_none. intros i Hi. destruct (Nat.eqb (vtx i) v) eqn:J; [|apply Bool.andb_false_r]. exfalso.
      assert (X : existsb (fun i => Nat.eqb (vtx i) v) (seq 0 n) = true) by (apply existsb_exists; exists i; split; assumption). congruence.
Qed.
Lemma zeven : forall Z, closed n vtx op Z -> (forall i, (i < length ts)%nat -> Z (opp ts i) = Z i) /\ forall p, parity (fun i => Z i && pt_eqb (st i) p) (seq 0 (length ts)) = false.
Proof.
  intros Z HZ. pose proof (proj1 HZ) as Zop. assert (Zop' : forall i, (i < length ts)%nat -> Z (opp ts i) = Z i) by (intros i Hi; rewrite c_op; apply Zop, ts_lt, Hi).
  split; [exact Zop'|]. intro p. rewrite <- (drawn_count ts Hpair Htidy Z p Zop'), <- Nat.negb_even, (proj1 (closed_even Z Zop) HZ p). reflexivity.
Qed.
Lemma beside : forall i, (i < n)%nat -> beside_edge ts i (mm i) (dd i) (uu i).
Proof.
  intros i Hi. destruct (Hdu i Hi) as (A & B & C). split; [exact (Hmm i Hi)|]. split; [exact A|]. split; [exact B|]. intros s x Hs. apply C, in_or_app. left. exact Hs.
Qed.
(** One shear for all the points. *)
Lemma sheared_all : exists e, forall i, (i < n)%nat -> Sheared e (mm i :: starts ts).
Proof.
  destruct (shear_exists (map mm (seq 0 n) ++ starts ts)) as (e & _ & Sh). exists e. intros i Hi. apply (sheared_incl e _ _ Sh).
  intros p [<-|Hp]; apply in_or_app; [left; apply in_map, in_seq; lia|right; exact Hp].
Qed.
Lemma w_Hs : forall Z, closed n vtx op Z -> sides n op (nx c) Z (fun i => ins evs Z (lp i)).
Proof.
  intros Z HZ. destruct sheared_all as (e & Sh). destruct (zeven Z HZ) as (Zop & Zev).
  assert (Es : forall i, (i < n)%nat -> ins evs Z (lp i) = side ts e Z i).
  { intros i Hi. rewrite ins_drawn. unfold lp. symmetry. exact (proj1 (beside_side ts Hpair Htidy Z Zop Zev e i (mm i) (dd i) (uu i) (Sh i Hi) (lt_ts i Hi) (beside i Hi))). }
  assert (Z0 : (n = 0)%nat \/ (0 < n)%nat) by lia. destruct Z0 as [Z0|Z0]; [split; intros i Hi; lia|].
  assert (Sh0 : Sheared e (starts ts)) by (apply (sheared_incl e _ _ (Sh 0%nat Z0)); intros p Hp; right; exact Hp).
  pose proof (faces_at ts vtx c Hpair Htidy Hgroup) as F. rewrite map_length in F. specialize (F Hids Hconn e Sh0 Z).
  assert (HZ' : closed n vtx (opp ts) Z) by (split; [intros i Hi; rewrite c_op; apply HZ, Hi|apply HZ]). destruct (F HZ') as (A & B).
  split; intros i Hi.
  - rewrite (Es i Hi). rewrite <- c_op. rewrite Es; [exact (A i Hi)|]. apply ts_lt, (opp_lt ts Hpair), lt_ts, Hi.
  - rewrite (Es i Hi). rewrite Es; [exact (B i Hi)|]. pose proof (connectivity_cycles ts) as (c' & Ec & Lc & Cy). rewrite Hconn in Ec. injection Ec as <-.
    apply (f_nxt evs Hids c Hconn i Hi).
Qed.
Lemma w_Hf : forall Z, closed n vtx op Z -> forall i, (i < n)%nat -> ins evs Z (rp i) = xorb (ins evs Z (lp i)) (Z i).
Proof.
  intros Z HZ i Hi. destruct sheared_all as (e & Sh). destruct (zeven Z HZ) as (Zop & Zev). rewrite !ins_drawn. unfold lp, rp.
  exact (proj2 (beside_side ts Hpair Htidy Z Zop Zev e i (mm i) (dd i) (uu i) (Sh i Hi) (lt_ts i Hi) (beside i Hi))).
Qed.
Lemma w_Hu : forall Z e0, closed n vtx op Z -> (e0 < n)%nat -> Z e0 = true -> (forall i, (i < e0)%nat -> Z i = false) -> ins evs Z (rp e0) = false.
Proof.
  intros Z i HZ Hi Ze Mn. destruct sheared_all as (e & Sh). destruct (zeven Z HZ) as (Zop & Zev).
  assert (Sh0 : Sheared e (starts ts)) by (apply (sheared_incl e _ _ (Sh i Hi)); intros p Hp; right; exact Hp).
  pose proof (first_under ts Hpair Htidy Hsort e Z i Sh0 Zop (lt_ts i Hi) Ze Mn) as U. pose proof (first_of ts Hpair Htidy Hsort Z i Zop (lt_ts i Hi) Ze Mn) as El.
  rewrite (under_inside ts Hpair Htidy Z Zop Zev e (mm i) i (Sh i Hi) (lt_ts i Hi) (Hmm i Hi)) in U.
  rewrite ins_drawn. unfold rp. rewrite El. rewrite (beside_below ts Z i (mm i) (dd i) (uu i) (beside i Hi)). exact U.
Qed.
Lemma good_off : forall q, good evs lp rp q -> forall s, In s (all_edges ts ++ E1 ++ E2) -> ~ on_segment q s.
Proof.
  intros q (i & Hi & Eq_) s Hs Os. destruct (Hdu i Hi) as ((Om & Nd & Nu) & _ & C). cbn [s_start s_end] in Nd, Nu.
  assert (Q : q = dd i \/ q = uu i) by (destruct Eq_ as [-> | ->]; unfold lp, rp; destruct (lf i); auto).
  assert (Oq : on_segment q (Seg (dd i) (uu i))) by (destruct Q as [-> | ->]; [apply (on_segment_start (Seg (dd i) (uu i)))|apply (on_segment_end (Seg (dd i) (uu i)))]).
  destruct (C s q Hs Oq Os) as (_ & E). destruct Q as [Q|Q]; rewrite Q in E; [exact (Nd (eq_sym E))|exact (Nu (eq_sym E))].
Qed.
Lemma good_off_all : forall q, good evs lp rp q -> ~ on_segments q E1 /\ ~ on_segments q E2 /\ forall Z, ~ on_segments q (drawn Z).
Proof.
  intros q Gq. split; [|split]; [| |intro Z]; intros (s & Hs & Os); apply (good_off q Gq s); try exact Os; apply in_or_app; [right; apply in_or_app; left; exact Hs|right; apply in_or_app; right; exact Hs|left].
  destruct (drawn_in ts Z s Hs) as (k & Hk & _ & _ & ->). exact (all_in ts k Hk).
Qed.
(** ** Classes *)
Definition ks (k : contour * contour) : Prop := In (fst k) first /\ In (snd k) second.
Definition D (k : contour * contour) (q : point) : bool := inside (ends (fst k)) q && inside (ends (snd k)) q.
Definition Zk (k : contour * contour) (i : nat) : bool := inb (fst k) (mm i) && inb (snd k) (mm i).
Lemma room_along : forall r i x y, In r first \/ In r second -> (i < n)%nat -> inside_segment x (ge i) -> inside_segment y (ge i) -> in_contour r x -> in_contour r y.
Proof.
  intros r i x y Hr Hi Ix Iy A. assert (Sr : simple_contour (vertices r)) by (destruct Hr; [apply S1|apply S2]; assumption).
  assert (In_all : forall s, In s (ends r) -> In s (E1 ++ E2)) by (intros s Hs; apply in_or_app; destruct Hr; [left|right]; apply in_flat_map; exists r; split; assumption).
  destruct (on_segments_dec x (ends r)) as [O|O].
  - destruct O as (s & Hs & Os). left. exists s. split; [exact Hs|]. exact (Hat i x s Hi Ix (In_all s Hs) Os y (proj1 Iy)).
  - destruct A as [A|A]; [contradiction|]. right. rewrite <- A. symmetry. apply inside_const; [exact (simple_proper _ Sr)|apply contour_even|]. intros s Hs. left. intros z Oz Os.
    apply O. exists s. split; [exact Hs|]. exact (Hat i z s Hi (inside_between x y z (ge i) (ge_proper i Hi) Ix Iy Oz) (In_all s Hs) Os x (proj1 Ix)).
Qed.
Lemma zk_spec : forall k i, ks k -> Zk k i = true <-> in_contour (fst k) (mm i) /\ in_contour (snd k) (mm i).
Proof. intros k i (A & B). unfold Zk. rewrite andb_true_iff, (inb_spec _ _ (S1 _ A)), (inb_spec _ _ (S2 _ B)). reflexivity. Qed.
Lemma zk_edge : forall k i, ks k -> (i < n)%nat -> Zk k i = true -> forall p, on_segment p (ge i) -> in_contour (fst k) p /\ in_contour (snd k) p.
Proof.
  intros k i Hk Hi Hz p Op. apply (zk_spec k i Hk) in Hz. destruct Hz as (A & B). destruct Hk as (K1 & K2).
  split; [apply (room_closure (fst k) (ge i) (S1 _ K1) (ge_proper i Hi))|apply (room_closure (snd k) (ge i) (S2 _ K2) (ge_proper i Hi))]; try exact Op; intros x Ix.
  - exact (room_along (fst k) i (mm i) x (or_introl K1) Hi (Hmm i Hi) Ix A).
  - exact (room_along (snd k) i (mm i) x (or_intror K2) Hi (Hmm i Hi) Ix B).
Qed.
Lemma zk_op : forall k i, (i < n)%nat -> Zk k (op i) = Zk k i.
Proof. intros k i Hi. unfold Zk. rewrite (Hmo i Hi). reflexivity. Qed.
Lemma on_drawn : forall Z p, (forall i, (i < n)%nat -> Z (op i) = Z i) -> on_segments p (drawn Z) <-> exists i, (i < n)%nat /\ Z i = true /\ on_segment p (ge i).
Proof.
  intros Z p Zop. split.
  - intros (s & Hs & Os). destruct (drawn_in ts Z s Hs) as (k & Hk & _ & Hz & ->). exists k. split; [exact (ts_lt k Hk)|split; assumption].
  - intros (i & Hi & Hz & Oi). destruct (lf i) eqn:El; [exists (ge i); split; [exact (in_drawn ts Z i (lt_ts i Hi) El Hz)|exact Oi]|].
    pose proof (lt_ts i Hi) as Li. exists (ge (opp ts i)). split.
    + apply in_drawn; [exact (opp_lt ts Hpair i Li)|rewrite (td_left ts Htidy i Li), El; reflexivity|rewrite c_op, Zop by exact Hi; exact Hz].
    + unfold edge. rewrite <- (en_st ts Hpair i Li), <- (st_en ts Hpair i Li). apply on_segment_sym. exact Oi.
Qed.
Lemma class_arranged : forall k, ks k -> exists L, Forall proper L /\ pairwise only_ends L /\ even_occurrences (endpoints_of L)
  /\ (forall p, inside L p = D k p) /\ (forall p, on_segments p (drawn (Zk k)) <-> on_segments p L).
Proof.
  intros k Hk. destruct (boundary_arranged Meet (fst k) (snd k) (S1 _ (proj1 Hk)) (S2 _ (proj2 Hk))) as (L & cs & Lp & La & Le & Li & Ls & _ & _).
  exists L. split; [exact Lp|]. split; [exact La|]. split; [exact Le|]. split; [exact Li|].
  assert (Key : forall x, ~ In x cuts -> ~ In x cs -> (on_segments x L <-> on_segments x (drawn (fun _ => true)) /\ in_contour (fst k) x /\ in_contour (snd k) x)).
  { intros x Nc Ns. rewrite (through_on L x Lp), (Ls x Ns), (Hsides x Nc). unfold SpecLocate.edges. cbn [op_holds]. destruct Hk as (K1 & K2).
    destruct (inb (fst k) x) eqn:B1.
    - apply (inb_spec _ _ (S1 _ K1)) in B1. destruct (inb (snd k) x) eqn:B2.
      + apply (inb_spec _ _ (S2 _ K2)) in B2. destruct (room_sides first V1 (fst k) x K1 (Hcut1 x Nc) B1) as (-> & ->). destruct (room_sides second V2 (snd k) x K2 (Hcut2 x Nc) B2) as (-> & ->).
        destruct (inside (ends (fst k)) x && inside (ends (snd k)) x), (inside_above (ends (fst k)) x && inside_above (ends (snd k)) x); cbn [xorb negb]; (split; [intro J; split; [first [discriminate|elim J; reflexivity]|split; assumption]|intros (J & _); first [discriminate|elim J; reflexivity]]).
      + assert (N2 : ~ in_contour (snd k) x) by (intro J; apply (inb_spec _ _ (S2 _ K2)) in J; congruence).
        assert (I2 : inside (ends (snd k)) x = false) by (apply not_true_iff_false; intro J; apply N2; right; exact J).
        assert (A2 : inside_above (ends (snd k)) x = false) by (apply not_true_iff_false; intro J; apply N2; exact (above_in second V2 (snd k) x K2 J)).
        rewrite I2, A2, !andb_false_r. cbn [xorb]. split; [intro J; elim J; reflexivity|intros (_ & _ & J); contradiction].
    - assert (N2 : ~ in_contour (fst k) x) by (intro J; apply (inb_spec _ _ (S1 _ K1)) in J; congruence).
      assert (I2 : inside (ends (fst k)) x = false) by (apply not_true_iff_false; intro J; apply N2; right; exact J).
      assert (A2 : inside_above (ends (fst k)) x = false) by (apply not_true_iff_false; intro J; apply N2; exact (above_in first V1 (fst k) x K1 J)).
      rewrite I2, A2. cbn [xorb andb]. split; [intro J; elim J; reflexivity|intros (_ & J & _); contradiction]. }
  intro p. split.
  - intros (s & Hs & Os). destruct (drawn_in ts _ s Hs) as (i & Hi & Fi & Zi & ->). apply ts_lt in Hi.
    apply (closure L (ge i) (cuts ++ cs) Lp (ge_proper i Hi)); [|exact Os]. intros x Ix Nx. apply Key; [intro J; apply Nx, in_or_app; auto|intro J; apply Nx, in_or_app; auto|].
    split; [|exact (zk_edge k i Hk Hi Zi x (proj1 Ix))]. exists (ge i). split; [apply in_drawn; [exact (lt_ts i Hi)|exact Fi|reflexivity]|exact (proj1 Ix)].
  - intros (s & Hs & Os). apply (closure (drawn (Zk k)) s (cuts ++ cs ++ starts ts) (drawn_proper ts Hpair Htidy _) (proj1 (Forall_forall _ _) Lp s Hs)); [|exact Os]. intros x Ix Nx.
    assert (Ox : on_segments x L) by (exists s; split; [exact Hs|exact (proj1 Ix)]). apply Key in Ox; [|intro J; apply Nx, in_or_app; auto|intro J; apply Nx, in_or_app; right; apply in_or_app; auto].
    destruct Ox as ((t & Ht & Ot) & R1 & R2). destruct (drawn_in ts _ t Ht) as (i & Hi & Fi & _ & ->). exists (ge i). split; [|exact Ot].
    apply in_drawn; [exact Hi|exact Fi|]. apply ts_lt in Hi.
    assert (Ixi : inside_segment x (ge i)).
    { split; [exact Ot|]. split; intros ->; apply Nx, in_or_app; right; apply in_or_app; right; [apply (st_in ts), lt_ts, Hi|].
      cbn [edge s_end]. rewrite (en_st ts Hpair i (lt_ts i Hi)). apply (st_in ts), (opp_lt ts Hpair), lt_ts, Hi. }
    apply (zk_spec k i Hk). split; [exact (room_along (fst k) i x (mm i) (or_introl (proj1 Hk)) Hi Ixi (Hmm i Hi) R1)|exact (room_along (snd k) i x (mm i) (or_intror (proj2 Hk)) Hi Ixi (Hmm i Hi) R2)].
Qed.
Lemma w_P1 : forall k, ks k -> closed n vtx op (Zk k).
Proof.
  intros k Hk. apply closed_even; [exact (zk_op k)|]. destruct (class_arranged k Hk) as (L & Lp & La & Le & _ & Lo).
  apply (same_even L (drawn (Zk k)) Lp (drawn_proper ts Hpair Htidy _) La (drawn_apart _)); [intro p; symmetry; apply Lo|exact Le].
Qed.
Lemma w_P2 : forall k q, ks k -> good evs lp rp q -> ins evs (Zk k) q = D k q.
Proof.
  intros k q Hk Gq. destruct (class_arranged k Hk) as (L & Lp & La & Le & Li & Lo). rewrite ins_drawn, <- Li.
  apply (same_inside (drawn (Zk k)) L (drawn_proper ts Hpair Htidy _) Lp); [apply closed_even; [exact (zk_op k)|exact (w_P1 k Hk)]|exact Le|exact (drawn_apart _)|exact La|exact Lo|].
  apply (good_off_all q Gq).
Qed.
Lemma k_dec : forall k k' : contour * contour, k = k' \/ k <> k'.
Proof. intros (a, b) (a', b'). destruct (contour_eq a a') as [->|N]; [destruct (contour_eq b b') as [->|N]|]; [left; reflexivity|right; congruence|right; congruence]. Qed.
Lemma w_P3 : forall k k' q, ks k -> ks k' -> k <> k' -> good evs lp rp q -> D k q = true -> D k' q = false.
Proof.
  intros k k' q (A & B) (A' & B') N Gq Dk. apply not_true_iff_false. intro Dk'. unfold D in Dk, Dk'. apply andb_prop in Dk. apply andb_prop in Dk'.
  destruct (good_off_all q Gq) as (O1 & O2 & _). apply N. destruct k as (a, b), k' as (a', b'). cbn [fst snd] in *. f_equal.
  - apply (room_unique first V1 a a' q A A' (off_lone _ _ O1)); right; [apply Dk|apply Dk'].
  - apply (room_unique second V2 b b' q B B' (off_lone _ _ O2)); right; [apply Dk|apply Dk'].
Qed.
Lemma w_P4 : forall i, (i < n)%nat -> exists k, ks k /\ Zk k i = true.
Proof.
  intros i Hi. assert (O : on_segments (mm i) (drawn (fun _ => true))) by (apply on_drawn; [reflexivity|]; exists i; split; [exact Hi|split; [reflexivity|exact (proj1 (Hmm i Hi))]]).
  apply (Hsides _ (Hmc i Hi)) in O.
  assert (Q : (inside E1 (mm i) = true /\ inside E2 (mm i) = true) \/ (inside_above E1 (mm i) = true /\ inside_above E2 (mm i) = true)).
  { destruct (inside E1 (mm i)), (inside E2 (mm i)), (inside_above E1 (mm i)), (inside_above E2 (mm i)); cbn in O; tauto. }
  assert (R1 : exists r, In r first /\ in_contour r (mm i)) by (apply (some_room first V1); tauto).
  assert (R2 : exists r, In r second /\ in_contour r (mm i)) by (apply (some_room second V2); tauto).
  destruct R1 as (r1 & H1 & I1), R2 as (r2 & H2 & I2). exists (r1, r2). split; [split; assumption|]. apply zk_spec; [split; assumption|split; assumption].
Qed.
Lemma w_P8 : forall k q, ks k -> good evs lp rp q -> D k q = true -> ins evs (fun _ => true) q = true.
Proof.
  intros k q (A & B) Gq Dk. apply andb_prop in Dk. destruct Dk as (D1 & D2). destruct (good_off_all q Gq) as (O1 & O2 & _). rewrite ins_drawn, Hin.
  destruct (room_sides first V1 (fst k) q A (off_lone _ _ O1) (or_intror D1)) as (-> & _). destruct (room_sides second V2 (snd k) q B (off_lone _ _ O2) (or_intror D2)) as (-> & _). rewrite D1, D2. reflexivity.
Qed.
Lemma w_P10 : forall k k' i, ks k -> ks k' -> (i < n)%nat -> Zk k i = true -> Zk k' i = true -> k = k'.
Proof.
  intros k k' i Hk Hk' Hi Z1 Z2. apply (zk_spec k i Hk) in Z1. apply (zk_spec k' i Hk') in Z2. destruct k as (a, b), k' as (a', b'), Hk as (A & B), Hk' as (A' & B'). cbn [fst snd] in *. f_equal.
  - exact (room_unique first V1 a a' (mm i) A A' (Hcut1 _ (Hmc i Hi)) (proj1 Z1) (proj1 Z2)).
  - exact (room_unique second V2 b b' (mm i) B B' (Hcut2 _ (Hmc i Hi)) (proj2 Z1) (proj2 Z2)).
Qed.
Lemma w_Pall : closed n vtx op (fun _ => true).
Proof. apply closed_even; [reflexivity|exact Hev]. Qed.
(** Contours of loops of a class. *)
Definition around (L : list nat) : contour := Contour (outline evs L).
Lemma loop_rooms : forall k L, looped evs (contour * contour) ks Zk k L -> simple_contour (vertices (around L))
  /\ Permutation (ends (around L)) (map (edge ts) L)
  /\ forall p, in_contour (around L) p -> in_contour (fst k) p /\ in_contour (snd k) p.
Proof.
  intros k L (Hk & HL & Once & HZ). pose proof (outline_simple evs Hpair Htidy Hplanar Hids L HL Once) as So. pose proof (outline_edges evs Hpair Hids L HL Once) as Pe.
  split; [exact So|]. split; [exact Pe|].
  assert (On : forall p, on_segments p (ends (around L)) -> in_contour (fst k) p /\ in_contour (snd k) p).
  { intros p (s & Hs & Os). apply (Permutation_in _ Pe) in Hs. apply in_map_iff in Hs. destruct Hs as (i & <- & Hi). exact (zk_edge k i Hk (lo_lt _ _ _ _ HL i Hi) (HZ i Hi) p Os). }
  intros p Hp. split.
  - exact (loop_in (around L) (fst k) So (S1 _ (proj1 Hk)) (fun q Hq => proj1 (On q Hq)) p Hp).
  - exact (loop_in (around L) (snd k) So (S2 _ (proj2 Hk)) (fun q Hq => proj2 (On q Hq)) p Hp).
Qed.
Lemma loop_ins : forall L q, loop n vtx op L -> (forall x y, In x L -> In y L -> op x <> y) -> ins evs (Loops.edges op L) q = inside (map (edge ts) L) q.
Proof.
  intros L q HL Once. rewrite ins_drawn. assert (Nd : NoDup L) by (apply (NoDup_map_inv vtx), (lo_nodup _ _ _ _ HL)).
  pose proof (lo_lt _ _ _ _ HL) as Lt. set (b := fun x => if lf x then x else opp ts x).
  assert (Bl : forall x, In x L -> (b x < length ts)%nat /\ lf (b x) = true).
  { intros x Hx. pose proof (lt_ts x (Lt x Hx)) as Lx. unfold b. destruct (lf x) eqn:El; [split; assumption|]. split; [exact (opp_lt ts Hpair x Lx)|rewrite (td_left ts Htidy x Lx), El; reflexivity]. }
  assert (Pm : Permutation (chosen ts (Loops.edges op L)) (map b L)).
  { apply NoDup_Permutation; [apply NoDup_filter, seq_NoDup| |].
    - assert (J : forall m, (forall x, In x m -> In x L) -> NoDup m -> NoDup (map b m)); [|apply J; auto].
      induction m as [|x m IH]; intros Sb N; [constructor|]. apply NoDup_cons_iff in N. destruct N as (N1 & N2). cbn [map]. constructor; [|apply IH; [intros y Hy; apply Sb; right; exact Hy|exact N2]].
      intro K. apply in_map_iff in K. destruct K as (y & Ey & Hy). assert (Hx : In x L) by (apply Sb; left; reflexivity). assert (HyL : In y L) by (apply Sb; right; exact Hy).
      pose proof (lt_ts x (Lt x Hx)) as Lx. pose proof (lt_ts y (Lt y HyL)) as Ly.
      unfold b in Ey. destruct (lf x), (lf y).
      + subst y. exact (N1 Hy).
      + rewrite c_op in Ey. exact (Once y x HyL Hx Ey).
      + rewrite c_op in Ey. exact (Once x y Hx HyL (eq_sym Ey)).
      + apply N1. apply (f_equal (opp ts)) in Ey. rewrite !(opp_opp ts Hpair) in Ey by assumption. subst y. exact Hy.
    - intro i. split.
      + intro Hi. apply chosen_in in Hi. destruct Hi as (Li & Fi & Ei). apply edges_spec in Ei. apply in_map_iff. destruct Ei as [Ei|Ei]; [exists i; split; [unfold b; rewrite Fi; reflexivity|exact Ei]|].
        exists (op i). split; [|exact Ei]. unfold b. rewrite <- c_op, (td_left ts Htidy i Li), Fi. cbn [negb]. exact (opp_opp ts Hpair i Li).
      + intro Hi. apply in_map_iff in Hi. destruct Hi as (x & <- & Hx). destruct (Bl x Hx) as (B1 & B2). apply filter_In. split; [apply in_seq; lia|]. rewrite B2. cbn [andb].
        apply edges_spec. unfold b. destruct (lf x); [left; exact Hx|right]. rewrite <- c_op, (opp_opp ts Hpair x (lt_ts x (Lt x Hx))). exact Hx. }
  rewrite (EvenStraight.inside_perm _ _ q (Permutation_map (edge ts) Pm)). rewrite !inside_parity, !parity_map. apply parity_ext. intros x Hx. unfold b. destruct (lf x); [reflexivity|].
  pose proof (lt_ts x (Lt x Hx)) as Lx. unfold edge. rewrite <- (en_st ts Hpair x Lx), <- (st_en ts Hpair x Lx). exact (passes_reversed (Seg (st x) (t_end (tev ts x))) q).
Qed.
Lemma w_P9 : forall k L q, ks k -> loop n vtx op L -> (forall x y, In x L -> In y L -> op x <> y) -> (forall x, In x L -> Zk k x = true) ->
  good evs lp rp q -> ins evs (Loops.edges op L) q = true -> D k q = true.
Proof.
  intros k L q Hk HL Once HZ Gq I. destruct (loop_rooms k L (conj Hk (conj HL (conj Once HZ)))) as (So & Pe & Rm). rewrite (loop_ins L q HL Once) in I.
  destruct (good_off_all q Gq) as (O1 & O2 & _).
  assert (J : in_contour (around L) q) by (right; rewrite (EvenStraight.inside_perm _ _ q Pe); exact I). destruct (Rm q J) as (R1 & R2). unfold D. apply andb_true_intro. split.
  - destruct R1 as [R1|R1]; [exfalso; apply O1; apply on_flat; exists (fst k); split; [apply Hk|exact R1]|exact R1].
  - destruct R2 as [R2|R2]; [exfalso; apply O2; apply on_flat; exists (snd k); split; [apply Hk|exact R2]|exact R2].
Qed.
Theorem traced_rooms : exists cs, trace_contours ts c (seq 0 n) (repeat false n) = Ok cs
  /\ Forall (fun x => fst x = map (fun i => st i) (snd x) /\ (exists k0, looped evs (contour * contour) ks Zk k0 (snd x)) /\ forall y, In y (snd x) -> ins evs (fun _ => true) (rp y) = false) cs
  /\ Forall (fun x => forall y, In y (snd x) -> (nth 0 (snd x) O <= y)%nat) cs.
Proof.
  assert (Rm : remains evs lp rp (contour * contour) ks D Zk (unused (repeat false n))).
  { apply (remains_ext evs Hpair lp rp (contour * contour) ks D Zk (fun _ => true)).
    - intros i Hi. unfold unused. rewrite nth_repeat. reflexivity.
    - exact (remains_all evs Hpair lp rp (contour * contour) ks D Zk w_P1 w_P2 w_P8 w_Pall). }
  refine (contours_walked evs c Hpair Hgroup Hids Hconn lp rp w_Hs w_Hf w_Hu (contour * contour) ks D Zk k_dec w_P1 w_P3 w_P4 w_P8 w_P9 w_P10 w_Pall n 0%nat (repeat false n) _ _ Rm _); [lia|apply repeat_length|intros i Hi; lia].
Qed.
(** Points to the right of darts of traced contours are outside of them all. *)
Notation woven := (looped evs (contour * contour) ks Zk).
Definition bare (L : list nat) : Prop := forall y, In y L -> ins evs (fun _ => true) (rp y) = false.
Definition unshared (L M : list nat) : Prop := forall i j, In i L -> In j M -> j <> i /\ j <> op i /\ i <> op j.
Lemma unshared_sym : forall L M, unshared L M -> unshared M L.
Proof. intros L M U j i Hj Hi. destruct (U i j Hi Hj) as (A & B & C). split; [intros ->; exact (A eq_refl)|]. split; assumption. Qed.
Lemma bare_out : forall k M q, woven k M -> good evs lp rp q -> ins evs (fun _ => true) q = false -> inside (ends (around M)) q = false.
Proof.
  intros k M q W Gq F. apply not_true_iff_false. intro I. destruct (loop_rooms k M W) as (_ & Pe & _). destruct W as (Hk & HM & Once & HZ).
  rewrite (EvenStraight.inside_perm _ _ q Pe), <- (loop_ins M q HM Once) in I. pose proof (w_P8 k q Hk Gq (w_P9 k M q Hk HM Once HZ Gq I)) as K. congruence.
Qed.
Lemma around_on : forall k M p, woven k M -> on_segments p (ends (around M)) <-> exists j, In j M /\ on_segment p (ge j).
Proof.
  intros k M p W. destruct (loop_rooms k M W) as (_ & Pe & _). split.
  - intros (s & Hs & Os). apply (Permutation_in _ Pe), in_map_iff in Hs. destruct Hs as (j & <- & Hj). exists j. split; assumption.
  - intros (j & Hj & Oj). exists (ge j). split; [apply (Permutation_in _ (Permutation_sym Pe)), in_map, Hj|exact Oj].
Qed.
Lemma apart_off : forall k L j M y m, woven k L -> woven j M -> unshared L M -> In y L -> inside_segment m (ge y) -> ~ on_segments m (ends (around M)).
Proof.
  intros k L j M y m W W' U Hy (Om & Ns & Ne) O. apply (around_on j M m W') in O. destruct O as (i & Hi & Oi). destruct (U y i Hy Hi) as (A & B & _). rewrite <- c_op in B.
  destruct (td_apart ts Htidy y i m (lt_ts y (lo_lt _ _ _ _ (proj1 (proj2 W)) y Hy)) (lt_ts i (lo_lt _ _ _ _ (proj1 (proj2 W')) i Hi)) A B Om Oi) as ([X|X] & _); [exact (Ns X)|exact (Ne X)].
Qed.
Lemma side_out : forall k L j M y x, woven k L -> woven j M -> bare L -> unshared L M -> In y L -> on_segment x (ge y) ->
  ~ on_segments x (ends (around M)) -> inside (ends (around M)) x = true -> False.
Proof.
  intros k L j M y x W W' B U Hy Ox N I. pose proof (lo_lt _ _ _ _ (proj1 (proj2 W)) y Hy) as Ly. destruct (loop_rooms j M W') as (Sm & Pe & _).
  pose proof (simple_proper _ Sm) as Pm. destruct (Hdu y Ly) as ((Om & Nd & Nu) & _ & C). cbn [s_start s_end] in Nd, Nu.
  pose proof (apart_off k L j M y (mm y) W W' U Hy (Hmm y Ly)) as Nm.
  destruct (near_in (ends (around M)) (ge y) x [] Pm (ge_proper y Ly) Ox N) as (z & Iz & _ & Oz).
  assert (X1 : inside (ends (around M)) z = true).
  { rewrite <- I. symmetry. apply inside_const; [exact Pm|apply contour_even|]. intros s Hs. left. intros t Ot Os. apply (Oz t Ot). exists s. split; assumption. }
  assert (X2 : inside (ends (around M)) (mm y) = true).
  { rewrite <- X1. symmetry. apply inside_const; [exact Pm|apply contour_even|]. intros s Hs. left. intros t Ot Os.
    apply (apart_off k L j M y t W W' U Hy (inside_between z (mm y) t (ge y) (ge_proper y Ly) Iz (Hmm y Ly) Ot)). exists s. split; assumption. }
  assert (X3 : inside (ends (around M)) (rp y) = true).
  { rewrite <- X2. symmetry. apply inside_const; [exact Pm|apply contour_even|]. intros s Hs. left. intros t Ot Os. apply Nm. exists s. split; [exact Hs|].
    assert (Ha : In s (all_edges ts ++ E1 ++ E2)). { apply in_or_app. left. apply (Permutation_in _ Pe), in_map_iff in Hs. destruct Hs as (i & <- & Hi). apply (all_in ts i), lt_ts, (lo_lt _ _ _ _ (proj1 (proj2 W')) i Hi). }
    assert (Od : on_segment t (Seg (dd y) (uu y))).
    { unfold rp in Ot. destruct (lf y).
      - apply (on_convex (Seg (dd y) (uu y)) (mm y) (dd y)); [exact Om|exact (on_segment_start (Seg (dd y) (uu y)))|exact Ot].
      - apply (on_convex (Seg (dd y) (uu y)) (mm y) (uu y)); [exact Om|exact (on_segment_end (Seg (dd y) (uu y)))|exact Ot]. }
    destruct (C s t Ha Od Os) as (R & _). exact R. }
  rewrite (bare_out j M (rp y) W') in X3; [discriminate X3| |exact (B y Hy)]. exists y. split; [exact Ly|right; reflexivity].
Qed.
Theorem loops_apart : forall k L j M p, woven k L -> woven j M -> bare L -> bare M -> unshared L M ->
  ~ (inside_contour (around L) p /\ in_contour (around M) p).
Proof.
  intros k L j M p W W' B B' U ((N1 & I1) & P2). unfold SpecLocate.edges in N1, I1.
  destruct (on_segments_dec p (ends (around M))) as [O|O].
  { apply (around_on j M p W') in O. destruct O as (y & Hy & Oy). exact (side_out j M k L y p W' W B' (unshared_sym _ _ U) Hy Oy N1 I1). }
  destruct P2 as [P2|I2]; [contradiction|].
  destruct (loop_rooms k L W) as (S & _ & _). destruct (loop_rooms j M W') as (S' & _ & _).
  destruct (boundary_arranged Meet (around L) (around M) S S') as (T & cs & Tp & _ & _ & Ti & Ts & _ & _). unfold SpecLocate.edges in *.
  pose proof (Ti p) as Tip. rewrite I1, I2 in Tip. cbn [op_holds andb] in Tip. destruct T as [|t T]; [discriminate Tip|].
  destruct (approach (s_start t) (s_end t) (cs ++ starts ts) (Forall_inv Tp)) as (m & Im & Nm & _). rewrite in_app_iff in Nm.
  assert (Ot : on_segments m (t :: T)) by (exists t; split; [left; reflexivity|destruct t; exact (proj1 Im)]).
  assert (Int : forall y, (y < n)%nat -> on_segment m (ge y) -> inside_segment m (ge y)).
  { intros y Hy Oy. split; [exact Oy|]. split; intros ->; apply Nm; right; unfold starts; apply in_map_iff.
    - exists (tev ts y). split; [reflexivity|]. apply nth_In, lt_ts, Hy.
    - exists (tev ts (opp ts y)). split; [symmetry; exact (en_st ts Hpair y (lt_ts y Hy))|]. apply nth_In, (opp_lt ts Hpair), lt_ts, Hy. }
  apply (through_on _ _ Tp) in Ot. rewrite Ts in Ot by (intro K; apply Nm; left; exact K). cbn [op_holds] in Ot.
  destruct (on_segments_dec m (ends (around L))) as [O1|O1].
  - apply (around_on k L m W) in O1. destruct O1 as (y & Hy & Oy). pose proof (apart_off k L j M y m W W' U Hy (Int y (lo_lt _ _ _ _ (proj1 (proj2 W)) y Hy) Oy)) as O2.
    rewrite (above_off _ _ (simple_proper _ S') O2) in Ot. destruct (inside (ends (around M)) m) eqn:E; [exact (side_out k L j M y m W W' B U Hy Oy O2 E)|].
    rewrite !andb_false_r in Ot. exact (Ot eq_refl).
  - rewrite (above_off _ _ (simple_proper _ S) O1) in Ot.
    destruct (on_segments_dec m (ends (around M))) as [O2|O2].
    + apply (around_on j M m W') in O2. destruct O2 as (y & Hy & Oy). destruct (inside (ends (around L)) m) eqn:E; [exact (side_out j M k L y m W' W B' (unshared_sym _ _ U) Hy Oy O1 E)|exact (Ot eq_refl)].
    + rewrite (above_off _ _ (simple_proper _ S') O2), xorb_nilpotent in Ot. exact (Ot eq_refl).
Qed.
(** Points next to the darts on the left are inside of the contours. *)
Lemma loop_left : forall k L y, woven k L -> bare L -> In y L -> inside (ends (around L)) (mm y) = negb (lf y).
Proof.
  intros k L y W B Hy. pose proof (lo_lt _ _ _ _ (proj1 (proj2 W)) y Hy) as Ly. destruct (loop_rooms k L W) as (_ & Pe & _).
  assert (Gr : good evs lp rp (rp y)) by (exists y; split; [exact Ly|right; reflexivity]).
  pose proof (bare_out k L (rp y) W Gr (B y Hy)) as F. pose proof W as (Hk & HL & Once & _).
  pose proof (w_closed evs Hpair L HL Once) as Cl.
  rewrite (EvenStraight.inside_perm _ _ _ Pe), <- (loop_ins L _ HL Once) in F. rewrite (EvenStraight.inside_perm _ _ _ Pe), <- (loop_ins L _ HL Once).
  pose proof (w_Hf (Loops.edges op L) Cl y Ly) as Fl. assert (Ey : Loops.edges op L y = true) by (apply edges_spec; left; exact Hy). rewrite Ey, F in Fl.
  rewrite ins_drawn. rewrite ins_drawn in Fl. rewrite ins_drawn in F. rewrite <- (beside_below ts (Loops.edges op L) y (mm y) (dd y) (uu y) (beside y Ly)).
  unfold lp in Fl. unfold rp in F. destruct (lf y); cbn [negb]; [exact F|]. destruct (inside _ (dd y)); [reflexivity|discriminate Fl].
Qed.
End Classes.
