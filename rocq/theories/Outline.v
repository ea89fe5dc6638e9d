(** Edges of regions in sheared coordinates: counting of pieces under a line is
    the even-odd rule.  Proof support only, no part of /repo is modelled here. *)
From Coq Require Import Permutation.
From Verif Require Import QcTac Geom Spec SpecShape GeomFacts Relation PairFacts SweepGeo SweepInv Sweep SweepCmp SweepLink Linear SweepRun SweepLoop SweepStart Parity.

Lemma lex_ltb_pt : forall p q, lex_ltb p q = pt_ltb p q.
Proof. reflexivity. Qed.
Lemma inside_parity : forall es p, inside es p = parity (fun s => passes_under s p) es.
Proof. intros es p. unfold inside. symmetry. apply parity_length. Qed.

Definition operand (l : tagged) (b : bool) : list segment := map snd (filter (fun x => Bool.eqb (fst x) b) l).
Lemma operand_tag : forall first second b, operand (tag first second) b = if b then first else second.
Proof.
  intros first second b. unfold operand, tag. rewrite filter_app, map_app.
  assert (Y : forall c (ss : list segment), map snd (filter (fun x => Bool.eqb (fst x) c) (map (pair c) ss)) = ss).
  { intros c ss. induction ss as [|s ss IH]; [reflexivity|]. cbn. rewrite Bool.eqb_reflx. cbn. rewrite IH. reflexivity. }
  assert (N : forall c d (ss : list segment), c <> d -> map snd (filter (fun x => Bool.eqb (fst x) c) (map (pair d) ss)) = []).
  { intros c d ss H. induction ss as [|s ss IH]; [reflexivity|]. cbn. destruct (Bool.eqb d c) eqn:E; [apply Bool.eqb_prop in E; congruence|]. exact IH. }
  destruct b; rewrite (Y _), (N _ _); try discriminate; [apply app_nil_r|reflexivity].
Qed.
Lemma in_operand : forall l b s, In s (operand l b) <-> In (b, s) l.
Proof.
  intros l b s. unfold operand. rewrite in_map_iff. split.
  - intros ((c, s') & E & H). apply filter_In in H. destruct H as (H & K). cbn in *. apply Bool.eqb_prop in K. subst. exact H.
  - intro H. exists (b, s). split; [reflexivity|]. apply filter_In. split; [exact H|apply Bool.eqb_reflx].
Qed.

Lemma parity_seq : forall (A : Type) (f : A -> bool) (g : nat -> bool) (l : list A) m, (forall i x, nth_error l i = Some x -> g (m + i)%nat = f x) ->
  parity g (seq m (length l)) = parity f l.
Proof.
  intros A f g l. induction l as [|x l IH]; intros m H; [reflexivity|]. cbn [length seq parity].
  rewrite (IH (S m)), <- (H O x eq_refl), Nat.add_0_r; [reflexivity|]. intros i y E. specialize (H (S i) y E). rewrite Nat.add_succ_r in H. exact H.
Qed.

(** A gap of a list around a value. *)
Lemma gap_around : forall (L : list Qc) x y t, In x L -> In y L -> x <= t -> t < y ->
  exists u w, In u L /\ In w L /\ u <= t /\ t < w /\ (forall r, In r L -> u < r -> r < w -> False).
Proof.
  intros L x y t Hx Hy Lx Ly.
  assert (U : forall M, incl M L -> exists u, In u L /\ u <= t /\ forall r, In r M -> r <= t -> r <= u).
  { induction M as [|a M IH]; intro Hi; [exists x; split; [exact Hx|]; split; [exact Lx|intros r []]|].
    destruct IH as (u & U1 & U2 & U3); [intros r H; apply Hi; right; exact H|].
    destruct (Qclt_le_dec t a) as [K|K].
    - exists u. split; [exact U1|]. split; [exact U2|]. intros r [<-|H] J; [exfalso; qlra|exact (U3 r H J)].
    - destruct (Qclt_le_dec u a) as [K'|K'].
      + exists a. split; [apply Hi; left; reflexivity|]. split; [exact K|]. intros r [<-|H] J; [apply Qcle_refl|]. pose proof (U3 r H J). qlra.
      + exists u. split; [exact U1|]. split; [exact U2|]. intros r [<-|H] J; [exact K'|exact (U3 r H J)]. }
  assert (W : forall M, incl M L -> exists w, In w L /\ t < w /\ forall r, In r M -> t < r -> w <= r).
  { induction M as [|a M IH]; intro Hi; [exists y; split; [exact Hy|]; split; [exact Ly|intros r []]|].
    destruct IH as (u & U1 & U2 & U3); [intros r H; apply Hi; right; exact H|].
    destruct (Qclt_le_dec t a) as [K|K].
    - destruct (Qclt_le_dec a u) as [K'|K'].
      + exists a. split; [apply Hi; left; reflexivity|]. split; [exact K|]. intros r [<-|H] J; [apply Qcle_refl|]. pose proof (U3 r H J). qlra.
      + exists u. split; [exact U1|]. split; [exact U2|]. intros r [<-|H] J; [exact K'|exact (U3 r H J)].
    - exists u. split; [exact U1|]. split; [exact U2|]. intros r [<-|H] J; [exfalso; qlra|exact (U3 r H J)]. }
  destruct (U L (incl_refl L)) as (u & U1 & U2 & U3). destruct (W L (incl_refl L)) as (w & W1 & W2 & W3).
  exists u, w. split; [exact U1|]. split; [exact W1|]. split; [exact U2|]. split; [exact W2|].
  intros r Hr J1 J2. destruct (Qclt_le_dec t r) as [K|K]; [pose proof (W3 r Hr K); qlra|pose proof (U3 r Hr K); qlra].
Qed.

Definition half : Qc := 1 / (1 + 1).
Lemma half_eq : half + half = 1.
Proof. apply Qc_is_canon. reflexivity. Qed.
Definition middle (p q : point) : point := Pt (half * (px p + px q)) (half * (py p + py q)).
Definition middles (ps : list point) : list point := flat_map (fun p => map (middle p) ps) ps.
Lemma in_middles : forall ps p q, In p ps -> In q ps -> In (middle p q) (middles ps).
Proof. intros ps p q Hp Hq. apply in_flat_map. exists p. split; [exact Hp|]. apply in_map. exact Hq. Qed.
Lemma pos_middle : forall e p q, pos e (middle p q) = half * (pos e p + pos e q).
Proof. intros. unfold pos, middle. cbn. ring. Qed.
Lemma half_between : forall a b, a < b -> a < half * (a + b) /\ half * (a + b) < b.
Proof.
  intros a b H. pose proof half_eq as E. assert (K : half * (a + b) + half * (a + b) = a + b) by (rewrite <- Qcmult_plus_distr_l, E; ring).
  split; qlra.
Qed.

Section Outline.
Variables (l : tagged) (s0 : state).
Hypothesis Hf : filled l s0.
Hypothesis Hl : lawful l.
Variables (e : Qc) (P : list point).
Hypothesis Hsh : Sheared e P.
Hypothesis Hrel : incl (relevant_points s0) P.
Notation pc := (pc e).
Notation v0 := (abs e s0 []).
Notation n := (length (lefts s0)).
Notation R := (relevant_points s0).

Let HshR : Sheared e R := sheared_incl e P R Hsh Hrel.
Let Hgeo : geo (V e R) (Ts e R) v0 := init_geo l s0 Hf Hl e HshR.
Let Hlen : forall i, (i < n)%nat -> lo (pc s0 i) < hi (pc s0 i) := init_len l s0 Hf Hl e HshR.

(** Sums over pieces of an operand. *)
Lemma parity_operand : forall b (f : piece -> bool) (g : segment -> bool),
  (forall i sg, nth_error l i = Some (b, sg) -> f (pc s0 i) = g sg) ->
  parity (fun i => Bool.eqb (op (pc s0 i)) b && f (pc s0 i)) (seq 0 n) = parity g (operand l b).
Proof.
  intros b f g H. rewrite (f_lefts _ _ Hf).
  rewrite (parity_seq _ (fun x => Bool.eqb (fst x) b && g (snd x))).
  - unfold operand. rewrite parity_map, parity_filter. reflexivity.
  - intros i (c, sg) E. cbn [plus fst snd].
    assert (Eo : op (pc s0 i) = c) by exact (proj2 (init_seg l s0 Hf i c sg E)). rewrite Eo.
    destruct (Bool.eqb c b) eqn:K; [|reflexivity]. apply Bool.eqb_prop in K. rewrite K in E. cbn [andb]. exact (H i sg E).
Qed.

Lemma seg_parts : forall i b sg, nth_error l i = Some (b, sg) ->
  (i < n)%nat /\ l_start (lft s0 i) = seg_lo sg /\ end_of s0 i = seg_hi sg /\ l_first (lft s0 i) = b
  /\ l_interior (lft s0 i) = negb (pt_ltb (s_end sg) (s_start sg)) /\ proper sg.
Proof.
  intros i b sg E. destruct (init_seg l s0 Hf i b sg E) as (K & K1). split; [rewrite (f_lefts _ _ Hf); apply nth_error_Some; congruence|].
  unfold seg_of in K. split; [exact (f_equal s_start K)|]. split; [exact (f_equal s_end K)|]. split; [exact K1|].
  split; [rewrite (f_left _ _ Hf i b sg E); reflexivity|]. exact (proj1 Hl i b sg E).
Qed.

(** The even-odd rule. *)
Lemma passes_lex : forall sg p, proper sg -> passes_under sg p
  = negb (pt_ltb p (seg_lo sg)) && pt_ltb p (seg_hi sg) && Qc_ltb 0 (cross (seg_lo sg) (seg_hi sg) p).
Proof.
  intros sg p Hp. unfold passes_under. change lex_ltb with pt_ltb.
  assert (Down : forall a b, plt a b -> negb (pt_ltb p b) && pt_ltb p a = false).
  { intros a b H. destruct (pt_ltb_spec p b) as [K|K]; [reflexivity|]. destruct (pt_ltb_spec p a) as [J|J]; [|reflexivity].
    exfalso. apply K. exact (plt_trans _ _ _ J H). }
  destruct (seg_lo_hi sg) as [(E1 & E2 & H)|(E1 & E2 & H)]; rewrite E1, E2.
  - apply ple_lt_eq in H. destruct H as [H|H]; [|contradiction]. rewrite (Down _ _ H). apply Bool.orb_false_r.
  - rewrite (Down _ _ H). reflexivity.
Qed.
Lemma passes_covers : forall i b sg p, nth_error l i = Some (b, sg) -> In p P ->
  passes_under sg p = covers (pc s0 i) (pos e p) && Qc_ltb (ht (pc s0 i) (pos e p)) (py p).
Proof.
  intros i b sg p E Hp. destruct (seg_parts i b sg E) as (Hi & E1 & E2 & _ & _ & Pr). rewrite (passes_lex sg p Pr), <- E1, <- E2.
  pose proof (Hrel _ (relevant_start s0 i Hi)) as I1. pose proof (Hrel _ (relevant_end s0 i Hi)) as I2.
  unfold covers. f_equal; [f_equal|].
  - destruct (pt_ltb_spec p (l_start (lft s0 i))) as [K|K]; cbn [negb].
    + apply (Hsh _ _ Hp I1) in K. destruct (Qc_leb_spec (lo (pc s0 i)) (pos e p)) as [J|J]; [|reflexivity]. exfalso. cbn in J. qlra.
    + destruct (Qc_leb_spec (lo (pc s0 i)) (pos e p)) as [J|J]; [reflexivity|]. exfalso. apply K. apply (sheared_lt e P Hsh p _ Hp I1). cbn in J. qlra.
  - destruct (pt_ltb_spec p (end_of s0 i)) as [K|K].
    + apply (Hsh _ _ Hp I2) in K. symmetry. apply ltb_true. exact K.
    + destruct (Qc_ltb_spec (pos e p) (hi (pc s0 i))) as [J|J]; [|reflexivity]. exfalso. apply K. apply (sheared_lt e P Hsh p _ Hp I2). exact J.
  - pose proof (Hlen i Hi) as Hl'. cbn [SweepCmp.pc lo hi] in Hl'. rewrite (cross_line e) by (intro K; rewrite K in Hl'; qlra). rewrite pc_ht.
    set (d := pos e (end_of s0 i) - pos e (l_start (lft s0 i))). assert (Hd : 0 < d) by (unfold d; qlra).
    destruct (Qc_ltb_spec (line_at e (l_start (lft s0 i)) (end_of s0 i) (pos e p)) (py p)) as [J|J].
    + apply ltb_true. qnra.
    + apply ltb_false. qnra.
Qed.
Lemma cnt_inside : forall b c z p, In p P -> ht z (pos e p) = py p ->
  (forall i, (i < n)%nat -> op (pc s0 i) = b -> covers (pc s0 i) (pos e p) = true -> ht (pc s0 i) (pos e p) = py p -> c = false /\ coll (pc s0 i) z) ->
  cnt v0 b c z (pos e p) = inside (operand l b) p.
Proof.
  intros b c z p Hp Hz H. rewrite inside_parity. unfold cnt. cbn [abs vp vn]. apply (parity_operand b (undermost c z (pos e p))).
  intros i sg E. rewrite (passes_covers i b sg p E Hp). unfold undermost. destruct (covers (pc s0 i) (pos e p)) eqn:Ec; [|reflexivity]. cbn [andb].
  destruct (seg_parts i b sg E) as (Hi & _ & _ & Eo & _). rewrite <- Hz.
  destruct (Qc_eq_dec (ht (pc s0 i) (pos e p)) (ht z (pos e p))) as [K|K]; [|apply germ_apart; exact K].
  destruct (H i Hi Eo Ec) as (-> & C); [rewrite K; exact Hz|].
  unfold germ. rewrite K, (proj1 C). rewrite ltb_false by apply Qcle_refl. rewrite (ltb_false (sl z)) by apply Qcle_refl.
  cbn. apply Bool.andb_false_r.
Qed.

(** Closed outlines. *)
Lemma parity_occ : forall (ps : list point) q, parity (fun p => pt_eqb p q) ps = Nat.odd (count_occ pt_eq_dec ps q).
Proof.
  induction ps as [|p ps IH]; intro q; [reflexivity|]. cbn [parity count_occ]. rewrite IH.
  destruct (pt_eq_dec p q) as [N|N]; destruct (pt_eqb_spec p q) as [K|K]; try contradiction.
  - rewrite Nat.odd_succ, <- Nat.negb_odd. reflexivity.
  - apply xorb_false_l.
Qed.
Lemma closed_ends : forall b, even_occurrences (endpoints_of (operand l b)) -> forall t, ends v0 b t = false.
Proof.
  intros b He t. unfold ends. cbn [abs vp vn].
  rewrite (parity_operand b (fun k => xorb (Qc_eqb t (lo k)) (Qc_eqb t (hi k)))
      (fun sg => parity (fun p => Qc_eqb t (pos e p)) [s_start sg; s_end sg])).
  - rewrite <- (parity_flat _ _ (fun sg => [s_start sg; s_end sg])). fold (endpoints_of (operand l b)).
    assert (Hin : forall p, In p (endpoints_of (operand l b)) -> In p P).
    { intros p H. apply in_flat_map in H. destruct H as (sg & H1 & H2). apply in_operand in H1. apply In_nth_error in H1. destruct H1 as (i & E).
      destruct (seg_parts i b sg E) as (Hi & E1 & E2 & _). pose proof (Hrel _ (relevant_start s0 i Hi)) as I1. pose proof (Hrel _ (relevant_end s0 i Hi)) as I2.
      rewrite E1 in I1. rewrite E2 in I2. destruct (seg_lo_hi sg) as [(A1 & A2 & _)|(A1 & A2 & _)]; rewrite A1 in I1; rewrite A2 in I2;
        destruct H2 as [<-|[<-|[]]]; assumption. }
    destruct (existsb (fun p => Qc_eqb t (pos e p)) (endpoints_of (operand l b))) eqn:Ex.
    + apply existsb_exists in Ex. destruct Ex as (q & Hq & E). destruct (Qc_eqb_spec t (pos e q)) as [->|]; [|discriminate E].
      rewrite (parity_ext _ (fun p => pt_eqb p q)).
      * rewrite parity_occ. rewrite <- Nat.negb_even, (He q). reflexivity.
      * intros p Hp'. destruct (Qc_eqb_spec (pos e q) (pos e p)) as [K|K]; destruct (pt_eqb_spec p q) as [J|J]; try reflexivity.
        -- exfalso. apply J. symmetry. apply (sheared_eq e P Hsh); [exact (Hin q Hq)|exact (Hin p Hp')|exact K].
        -- exfalso. apply K. rewrite J. reflexivity.
    + apply parity_none. intros p Hp'. destruct (Qc_eqb t (pos e p)) eqn:K; [|reflexivity]. exfalso.
      assert (Hx : existsb (fun p => Qc_eqb t (pos e p)) (endpoints_of (operand l b)) = true) by (apply existsb_exists; exists p; split; assumption). congruence.
  - intros i sg E. destruct (seg_parts i b sg E) as (_ & E1 & E2 & _). cbn [parity SweepCmp.pc lo hi]. rewrite E1, E2.
    destruct (seg_lo_hi sg) as [(-> & -> & _)|(-> & -> & _)]; destruct (Qc_eqb t (pos e (s_start sg))), (Qc_eqb t (pos e (s_end sg))); reflexivity.
Qed.

(** Between neighbouring relevant points of a piece nothing of a closed operand changes. *)
Lemma relevant_around : forall z t, lo z <= t -> t < hi z -> In (lo z) (map (pos e) R) -> In (hi z) (map (pos e) R) ->
  V e R (lo z) = ht z (lo z) -> V e R (hi z) = ht z (hi z) ->
  exists p q, In p R /\ In q R /\ py p = ht z (pos e p) /\ py q = ht z (pos e q) /\ lo z <= pos e p /\ pos e q <= hi z
  /\ pos e p <= t /\ t < pos e q
  /\ (forall r, In r R -> pos e p < pos e r -> pos e r < pos e q -> py r <> ht z (pos e r)).
Proof.
  intros z t H1 H2 I1 I2 V1 V2.
  set (on := fun p => Qc_eqb (py p) (ht z (pos e p)) && Qc_leb (lo z) (pos e p) && Qc_leb (pos e p) (hi z)).
  assert (On : forall p, on p = true <-> py p = ht z (pos e p) /\ lo z <= pos e p /\ pos e p <= hi z).
  { intro p. unfold on. rewrite !Bool.andb_true_iff. destruct (Qc_eqb_spec (py p) (ht z (pos e p))), (Qc_leb_spec (lo z) (pos e p)), (Qc_leb_spec (pos e p) (hi z)); intuition congruence. }
  assert (Y : forall u, In u (map (pos e) R) -> V e R u = ht z u -> lo z <= u -> u <= hi z -> In u (map (pos e) (filter on R))).
  { intros u Hu Eu L1 L2. apply in_map_iff in Hu. destruct Hu as (p & <- & Hp). apply in_map. apply filter_In. split; [exact Hp|].
    apply On. split; [|split; assumption]. rewrite <- (V_pos e R HshR p Hp). exact Eu. }
  destruct (gap_around (map (pos e) (filter on R)) (lo z) (hi z) t) as (u & w & U & W & A & B & G).
  - apply Y; [exact I1|exact V1|apply Qcle_refl|qlra].
  - apply Y; [exact I2|exact V2|qlra|apply Qcle_refl].
  - exact H1.
  - exact H2.
  - apply in_map_iff in U. destruct U as (p & <- & Up). apply in_map_iff in W. destruct W as (q & <- & Wq).
    apply filter_In in Up. destruct Up as (Rp & Op). apply On in Op. apply filter_In in Wq. destruct Wq as (Rq & Oq). apply On in Oq.
    exists p, q. split; [exact Rp|]. split; [exact Rq|]. split; [apply Op|]. split; [apply Oq|]. split; [apply Op|]. split; [apply Oq|].
    split; [exact A|]. split; [exact B|]. intros r Hr J1 J2 K. apply (G (pos e r)); [|exact J1|exact J2].
    apply in_map. apply filter_In. split; [exact Hr|]. apply On. split; [exact K|]. split; qlra.
Qed.

Lemma oriented : forall b i, incl (middles R) P -> region_boundary (operand l b) -> (i < n)%nat -> op (pc s0 i) = b ->
  forall t, lo (pc s0 i) <= t -> t < hi (pc s0 i) -> cnt v0 b false (pc s0 i) t = negb (l_interior (lft s0 i)).
Proof.
  intros b i Hmid (Hno & Hev & Hlf) Hi Eb t H1 H2. set (z := pc s0 i) in *.
  destruct (relevant_around z t H1 H2) as (p & q & Rp & Rq & Yp & Yq & Lp & Lq & Tp & Tq & Gap).
  { exact (proj2 (g_lo _ _ _ Hgeo i Hi)). } { exact (proj2 (g_hi _ _ _ Hgeo i Hi)). }
  { symmetry. exact (proj1 (g_lo _ _ _ Hgeo i Hi)). } { symmetry. exact (proj1 (g_hi _ _ _ Hgeo i Hi)). }
  set (m := middle p q). assert (Pm : In m P) by (apply Hmid, in_middles; assumption).
  destruct (half_between (pos e p) (pos e q)) as (M1 & M2); [qlra|]. rewrite <- pos_middle in M1, M2. fold m in M1, M2.
  assert (Ym : py m = ht z (pos e m)).
  { unfold m. rewrite pos_middle. cbn [middle py]. rewrite Yp, Yq. unfold ht. pose proof half_eq as E.
    replace (half * (sl z * pos e p + ic z + (sl z * pos e q + ic z))) with (sl z * (half * (pos e p + pos e q)) + (half + half) * ic z) by ring.
    rewrite E. ring. }
  (* nothing of the operand meets the piece between p and q *)
  assert (Free : forall j u, (j < n)%nat -> op (pc s0 j) = b -> j <> i -> pos e p < u -> u < pos e q -> has (pc s0 j) u -> ht (pc s0 j) u <> ht z u).
  { intros j u Hj Ej Nj U1 U2 (Ha & Hb) K.
    destruct (coll_dec (pc s0 i) (pc s0 j)) as [C|C].
    - destruct (g_over _ _ _ Hgeo i j Hi Hj (not_eq_sym Nj)) as [J|J]; [exact (eq_trans Eb (eq_sym Ej))|exact C| |]; cbn [abs vp] in J; fold z in J; qlra.
    - destruct (g_meet _ _ _ Hgeo i j u Hi Hj C) as (J1 & J2); cbn [abs vp].
      + fold z. split; qlra.
      + split; assumption.
      + fold z. symmetry. exact K.
      + apply in_map_iff in J2. destruct J2 as (r & <- & Hr). apply (Gap r Hr U1 U2). rewrite <- (V_pos e R HshR r Hr). symmetry. exact J1. }
  assert (Const : forall t1 t2, t1 <= t2 -> pos e p <= t1 -> t2 < pos e q -> cnt v0 b false z t2 = cnt v0 b false z t1).
  { intros t1 t2 L12 A B. apply (cnt_along (V e R)); [exact L12|apply closed_ends; exact Hev|].
    intros j Hj Ej. cbn [abs vp vn] in *. split; [exact (Hlen j Hj)|]. split; [exact (proj1 (g_lo _ _ _ Hgeo j Hj))|]. split; [exact (proj1 (g_hi _ _ _ Hgeo j Hj))|].
    intros u U1 U2 Hu K. right. destruct (Nat.eq_dec j i) as [->|Nj].
    - fold z. split; [apply coll_refl|]. split; qlra.
    - exfalso. apply (Free j u Hj Ej Nj); [qlra|qlra|exact Hu|exact K]. }
  assert (Em : cnt v0 b false z t = cnt v0 b false z (pos e m)).
  { destruct (Qclt_le_dec t (pos e m)) as [K|K]; [symmetry|]; apply Const; qlra. }
  rewrite Em. rewrite (cnt_inside b false z m Pm (eq_sym Ym)).
  2:{ intros j Hj Ej Cv K. split; [reflexivity|]. destruct (Nat.eq_dec j i) as [->|Nj]; [apply coll_refl|]. exfalso.
      apply covers_spec in Cv. apply (Free j (pos e m) Hj Ej Nj M1 M2); [split; qlra|congruence]. }
  destruct (in_tag l s0 Hf i Hi) as (b' & sg & E). destruct (seg_parts i b' sg E) as (_ & E1 & E2 & Eo & Ei & Pr).
  assert (Eb' : b' = b) by exact (eq_trans (eq_sym Eo) Eb). rewrite Eb' in E. rewrite Ei, Bool.negb_involutive.
  assert (Is : In sg (operand l b)) by (apply in_operand; exact (nth_error_In _ _ E)).
  assert (Onm : on_segment m (seg_of s0 i)).
  { apply (pc_on e s0 i m (Hlen i Hi)). fold z. split; [split; qlra|exact Ym]. }
  assert (In_m : inside_segment m sg).
  { split; [apply (init_on l s0 Hf i b sg m E); exact Onm|].
    assert (A : m <> seg_lo sg) by (intro K; rewrite <- E1 in K; assert (X : pos e m = lo z) by (rewrite K; reflexivity); qlra).
    assert (B : m <> seg_hi sg) by (intro K; rewrite <- E2 in K; assert (X : pos e m = hi z) by (rewrite K; reflexivity); qlra).
    destruct (seg_lo_hi sg) as [(A1 & A2 & _)|(A1 & A2 & _)]; rewrite A1 in A; rewrite A2 in B; split; assumption. }
  assert (Alone : forall sg', In sg' (operand l b) -> sg' <> sg -> ~ on_segment m sg').
  { intros sg' Hs Ns Hon. apply in_operand in Hs. apply In_nth_error in Hs. destruct Hs as (j & Ej). destruct (seg_parts j b sg' Ej) as (Hj & _ & _ & Eo' & _).
    apply (init_on l s0 Hf j b sg' m Ej) in Hon. apply (pc_on e s0 j m (Hlen j Hj)) in Hon. destruct Hon as (Ha & Hy).
    apply (Free j (pos e m) Hj Eo'); [intros ->; congruence|exact M1|exact M2|exact Ha|congruence]. }
  specialize (Hlf sg m Is In_m Alone). destruct (pt_ltb_spec (s_end sg) (s_start sg)) as [K|K].
  - apply Hlf. exact K.
  - destruct (inside (operand l b) m); [|reflexivity]. exfalso. apply K. apply Hlf. reflexivity.
Qed.
End Outline.
