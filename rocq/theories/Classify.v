(** Labels of events after a sweep in terms of the even-odd rule.
    Proof support only, no part of /repo is modelled here. *)
From Coq Require Import Permutation.
From Verif Require Import QcTac Geom Spec SpecShape GeomFacts Toward BoundingThms Relation PairFacts SweepGeo SweepInv SweepSteps Sweep SweepCmp SweepLink Linear SweepRun SweepLoop SweepStart SweepEnd SelectThms Labelled Parity Counting Erase Flow Beneath Labels LabelEnd Outline.

Definition some_oracle : oracle := Oracle (fun _ _ => O) (fun _ _ => O).

Section Classify.
Variables (l : tagged) (s0 : state).
Hypothesis Hf : filled l s0.
Hypothesis Hl : lawful l.
Variable x_max : option Qc.
Notation stop := (beyond x_max).
Notation R := (relevant_points s0).
Variables (k : kind) (holey : bool) (result : left_event -> bool) (rf : bool -> bool -> overlap_kind -> bool).
Hypothesis Hk : k = Mixed \/ k = Shaped.
Hypothesis Hrf : forall ev, result ev = rf (l_first ev) (l_other ev) (ovl k ev).
Variable reg : bool -> bool.
Hypothesis Hreg : forall b, reg b = true -> region_boundary (operand l b).

Definition fit (e : Qc) (P : list point) : Prop := Sheared e P /\ incl R P /\ incl (middles R) P.

Theorem labelled_anyhow : exists s out pl, swept l x_max s out /\ processed x_max s out pl
  /\ (forall e P, fit e P -> labels e (abs e s0 []) k rf reg s pl)
  /\ out = map (left_of s) (filter (fun ev => negb (is_left ev)) pl)
  /\ (forall o put step, by_left put ->
        (forall m ev s1 s2, process_labelled k holey result o m ev s1 = Ok (s2, true) -> step m ev s1 = Ok (s2, put ev s2)) ->
        run k step stop o (enough (length l)) 0 s0 [] = Ok (s, flat_map (fun ev => put ev s) pl))
  /\ (forall o step, (forall m ev s1 s2, process_labelled k holey result o m ev s1 = Ok (s2, true) -> step m ev s1 = Ok (s2, [ev])) ->
        popped k stop step o (enough (length l)) 0 s0 (map (fun ev => (ev, ev_start s ev)) pl) s)
  /\ (forall e P, fit e P -> k = Shaped -> holey = true -> cleared (V e R) (abs e s0 []) -> chained e s pl).
Proof.
  assert (Any : forall e P, fit e P -> exists s out pl, swept l x_max s out /\ processed x_max s out pl /\ labels e (abs e s0 []) k rf reg s pl
    /\ out = map (left_of s) (filter (fun ev => negb (is_left ev)) pl)
    /\ (forall o put step, by_left put ->
          (forall m ev s1 s2, process_labelled k holey result o m ev s1 = Ok (s2, true) -> step m ev s1 = Ok (s2, put ev s2)) ->
          run k step stop o (enough (length l)) 0 s0 [] = Ok (s, flat_map (fun ev => put ev s) pl))
    /\ (forall o step, (forall m ev s1 s2, process_labelled k holey result o m ev s1 = Ok (s2, true) -> step m ev s1 = Ok (s2, [ev])) ->
          popped k stop step o (enough (length l)) 0 s0 (map (fun ev => (ev, ev_start s ev)) pl) s)
    /\ (k = Shaped -> holey = true -> cleared (V e R) (abs e s0 []) -> chained e s pl)).
  { intros e P (F1 & F2 & F3). apply (labelled_sweep l s0 Hf Hl e (sheared_incl e P R F1 F2) x_max k holey result rf Hk Hrf reg).
    - intros b Hb. exact (closed_ends l s0 Hf Hl e P F1 F2 b (proj1 (proj2 (Hreg b Hb)))).
    - intros i Hi Hb. exact (oriented l s0 Hf Hl e P F1 F2 _ i F3 (Hreg _ Hb) Hi eq_refl). }
  destruct (shear_exists (R ++ middles R)) as (e & _ & Hsh).
  destruct (Any e (R ++ middles R)) as (s & out & pl & H1 & H2 & _ & H4 & H5 & H6 & _).
  { split; [exact Hsh|]. split; [apply incl_appl|apply incl_appr]; apply incl_refl. }
  exists s, out, pl. split; [exact H1|]. split; [exact H2|].
  assert (All : forall e P, fit e P -> labels e (abs e s0 []) k rf reg s pl /\ (k = Shaped -> holey = true -> cleared (V e R) (abs e s0 []) -> chained e s pl)).
  2:{ split; [intros e' P' F; exact (proj1 (All e' P' F))|]. split; [exact H4|]. split; [exact H5|]. split; [exact H6|intros e' P' F; exact (proj2 (All e' P' F))]. }
  intros e' P' F. destruct (Any e' P' F) as (s' & out' & pl' & _ & _ & L' & _ & R' & _ & C').
  set (put := fun (ev : event) (_ : state) => [ev]).
  set (step := fun (m : nat) (ev : event) (s1 : state) => bind_res (process_labelled k holey result some_oracle m ev s1) (fun '(s2, _) => Ok (s2, put ev s2))).
  assert (B : by_left put) by (intros ev a b _; reflexivity).
  assert (St : forall m ev s1 s2, process_labelled k holey result some_oracle m ev s1 = Ok (s2, true) -> step m ev s1 = Ok (s2, put ev s2)).
  { intros m ev s1 s2 E. unfold step. rewrite E. reflexivity. }
  pose proof (H5 some_oracle put step B St) as E1. pose proof (R' some_oracle put step B St) as E2. rewrite E1 in E2.
  injection E2 as Es Ep.
  assert (Id : forall (m : list event) st, flat_map (fun ev => put ev st) m = m).
  { intros m st. induction m as [|ev m IH]; [reflexivity|]. cbn. rewrite IH. reflexivity. }
  rewrite !Id in Ep. subst s' pl'. split; [exact L'|exact C'].
Qed.

Variables (s : state) (out : list nat) (pl : list event).
Hypothesis Hsw : swept l x_max s out.
Hypothesis Hpr : processed x_max s out pl.
Hypothesis Hla : forall e P, fit e P -> labels e (abs e s0 []) k rf reg s pl.
Notation n := (length (lefts s)).
Notation side i := (l_first (lft s i)).
Notation rest i := (operand l (negb (side i))).

(** The piece does not meet the other operand but in its endpoints or in its twin. *)
Definition settled (i : nat) : Prop := (i < n)%nat /\ (In i out \/ forall j, (j < n)%nat -> side j = negb (side i) -> In j out).

Lemma piece_of : forall b sg p, In sg (operand l b) -> on_segment p sg ->
  exists j, (j < n)%nat /\ side j = b /\ on_segment p (seg_of s j) /\ within (seg_of s j) sg.
Proof.
  intros b sg p Hs Hp. apply in_operand in Hs. apply In_nth_error in Hs. destruct Hs as (m & E). destruct (sw_src _ _ _ _ Hsw) as (src & K1 & K2).
  destruct (K2 m b sg p E Hp) as (i & Hi & Ei & Hpi). exists i. split; [exact Hi|].
  destruct (K1 i Hi) as (sg' & E' & _ & W). rewrite Ei, E in E'. injection E' as Eb Es. subst sg'. split; [congruence|]. split; assumption.
Qed.
Lemma source_of : forall i, (i < n)%nat -> exists sg, In sg (operand l (side i)) /\ within (seg_of s i) sg
  /\ l_interior (lft s i) = negb (pt_ltb (s_end sg) (s_start sg)).
Proof.
  intros i Hi. destruct (sw_src _ _ _ _ Hsw) as (src & K & _). destruct (K i Hi) as (sg & E & I & W).
  exists sg. split; [apply in_operand; exact (nth_error_In _ _ E)|]. split; assumption.
Qed.
Lemma side_neq : forall i j, side j = negb (side i) -> j <> i.
Proof. intros i j E ->. destruct (side i); discriminate E. Qed.

(** A point of another operand on a settled piece. *)
Lemma settled_meet : forall i j p, settled i -> (j < n)%nat -> side j = negb (side i) -> on_segment p (seg_of s i) -> on_segment p (seg_of s j) ->
  (endpoint p (seg_of s i) /\ endpoint p (seg_of s j)) \/ paired s out i j.
Proof.
  intros i j p (Hi & Hs) Hj Ej Pi Pj. pose proof (side_neq i j Ej) as Nj. destruct Hs as [Io|Jo].
  - destruct (sw_apart _ _ _ _ Hsw i j Io Hj Nj) as [K|(K1 & K2 & K3 & _)]; [left; exact (K p Pi Pj)|right].
    split; [exact Io|]. split; [exact K1|]. split; [exact K2|]. exact K3.
  - specialize (Jo j Hj Ej). destruct (sw_apart _ _ _ _ Hsw j i Jo Hi (not_eq_sym Nj)) as [K|(K1 & K2 & K3 & _)].
    + left. destruct (K p Pj Pi) as (A & B). split; assumption.
    + right. split; [exact K1|]. split; [exact Jo|]. split; [symmetry; exact K2|]. intro E. apply K3. symmetry. exact E.
Qed.
Lemma settled_rest : forall i p, settled i -> inside_segment p (seg_of s i) -> on_segments p (rest i) -> exists j, paired s out i j.
Proof.
  intros i p Hs (Pi & N1 & N2) (sg & Hg & Hp). destruct (piece_of _ sg p Hg Hp) as (j & Hj & Ej & Pj & _).
  destruct (settled_meet i j p Hs Hj Ej Pi Pj) as [([K|K] & _)|K]; [contradiction|contradiction|exists j; exact K].
Qed.
Lemma paired_rest : forall i j p, paired s out i j -> on_segment p (seg_of s i) -> on_segments p (rest i).
Proof.
  intros i j p (Io & Jo & E & F) Pi. destruct (source_of j (sw_range _ _ _ _ Hsw j Jo)) as (sg & Hg & W & _). exists sg. split.
  - replace (negb (side i)) with (side j); [exact Hg|]. revert F. destruct (side i), (side j); intro F; try reflexivity; congruence.
  - apply W. rewrite <- E. exact Pi.
Qed.

Section At.
Variables (e : Qc) (P : list point).
Hypothesis Hfit : fit e P.
Hypothesis Hends : forall i, (i < n)%nat -> In (l_start (lft s i)) P /\ In (end_of s i) P.
Notation pc := (pc e).
Notation v0 := (abs e s0 []).
Let HshR : Sheared e R := sheared_incl e P R (proj1 Hfit) (proj1 (proj2 Hfit)).

Lemma final_len : forall i, (i < n)%nat -> lo (pc s i) < hi (pc s i).
Proof. intros i Hi. apply (proj1 Hfit); [apply Hends; exact Hi|apply Hends; exact Hi|exact (sw_plt _ _ _ _ Hsw i Hi)]. Qed.

Lemma along_piece : forall i c p, settled i -> reg (negb (side i)) = true -> on_segment p (seg_of s i) ->
  (p = end_of s i -> ~ on_segments p (rest i)) -> cnt v0 (negb (side i)) c (pc s i) (pos e p) = cnt v0 (negb (side i)) c (pc s i) (lo (pc s i)).
Proof.
  intros i c p Hs Hb Pi Hend. pose proof (proj1 Hs) as Hi. pose proof (final_len i Hi) as Li.
  pose proof (proj1 (pc_on e s i p Li) Pi) as ((A1 & A2) & A3).
  pose proof (init_geo l s0 Hf Hl e HshR) as Hgeo. pose proof (init_len l s0 Hf Hl e HshR) as Hlen.
  apply (cnt_along (V e R)); [exact A1|exact (closed_ends l s0 Hf Hl e P (proj1 Hfit) (proj1 (proj2 Hfit)) _ (proj1 (proj2 (Hreg _ Hb))))|].
  intros m Hm Em. cbn [abs vp vn] in *. split; [exact (Hlen m Hm)|]. split; [exact (proj1 (g_lo _ _ _ Hgeo m Hm))|]. split; [exact (proj1 (g_hi _ _ _ Hgeo m Hm))|].
  intros t T1 T2 Ht Eq. right. set (q := at_pos e t (ht (pc s i) t)).
  assert (Ht' : has (pc s i) t) by (split; qlra).
  assert (Qi : on_segment q (seg_of s i)) by exact (pc_on_at e s i t Li Ht').
  assert (Qm : on_segment q (seg_of s0 m)) by (unfold q; rewrite <- Eq; exact (pc_on_at e s0 m t (Hlen m Hm) Ht)).
  assert (Eqp : pos e q = t) by apply pos_at.
  destruct (in_tag l s0 Hf m Hm) as (b & sg & E). pose proof (proj1 (init_on l s0 Hf m b sg q E) Qm) as Qs.
  assert (Eb : b = negb (side i)) by (rewrite <- (proj2 (init_seg l s0 Hf m b sg E)); exact Em). subst b.
  assert (Ig : In sg (rest i)) by (apply in_operand; exact (nth_error_In _ _ E)).
  assert (Nend : t <> hi (pc s i)).
  { intro K. assert (Ep : p = end_of s i) by (apply (st_on_ends e s i p Li Pi); qlra).
    assert (Eq' : q = end_of s i) by (apply (st_on_ends e s i q Li Qi); rewrite Eqp; exact K).
    apply (Hend Ep). exists sg. split; [exact Ig|]. rewrite Ep, <- Eq'. exact Qs. }
  destruct (piece_of _ sg q Ig Qs) as (j & Hj & Ej & Qj & Wj).
  destruct (settled_meet i j q Hs Hj Ej Qi Qj) as [([K|K] & _)|(_ & _ & K & _)].
  - exfalso. cbn in K. assert (X : pos e q = lo (pc s i)) by (rewrite K; reflexivity). qlra.
  - exfalso. cbn in K. assert (X : pos e q = hi (pc s i)) by (rewrite K; reflexivity). apply Nend. congruence.
  - assert (W : within (seg_of s i) (seg_of s0 m)).
    { intros r Hr. apply (init_on l s0 Hf m _ sg r E). apply Wj. rewrite <- K. exact Hr. }
    destruct (within_coll e s s0 i m Li (Hlen m Hm) W) as (C & L1 & L2). split; [apply coll_sym; exact C|]. split; [exact L1|].
    apply Qcle_lt_or_eq in A2. destruct A2 as [A2|A2]; [qlra|]. exfalso.
    assert (Ep : p = end_of s i) by (apply (st_on_ends e s i p Li Pi); exact A2). apply (Hend Ep). exists sg. split; [exact Ig|].
    apply Wj. rewrite <- K. exact Pi.
Qed.

Lemma edge_at : forall b m p, (m < length (lefts s0))%nat -> op (pc s0 m) = b -> Parity.covers (pc s0 m) (pos e p) = true -> ht (pc s0 m) (pos e p) = py p ->
  exists sg, nth_error l m = Some (b, sg) /\ In sg (operand l b) /\ on_segment p sg.
Proof.
  intros b m p Hm Em Cv Eq. destruct (in_tag l s0 Hf m Hm) as (b' & sg & E). pose proof (init_len l s0 Hf Hl e HshR m Hm) as Lm.
  assert (Eb : b' = b) by (rewrite <- (proj2 (init_seg l s0 Hf m b' sg E)); exact Em). rewrite Eb in E.
  exists sg. split; [exact E|]. split; [apply in_operand; exact (nth_error_In _ _ E)|].
  apply (init_on l s0 Hf m b sg p E). apply (pc_on e s0 m p Lm). apply covers_spec in Cv. split; [split; qlra|symmetry; exact Eq].
Qed.

Lemma other_at : forall i p, In p P -> settled i -> In (EL i) pl -> reg (negb (side i)) = true -> on_segment p (seg_of s i) ->
  ~ on_segments p (rest i) -> inside (rest i) p = l_other (lft s i).
Proof.
  intros i p Pp Hs He Hb Pi Hn. pose proof (final_len i (proj1 Hs)) as Li. pose proof (proj1 (pc_on e s i p Li) Pi) as (_ & A3).
  rewrite (la_other _ _ _ _ _ _ _ (Hla e P Hfit) i He Hb), <- (along_piece i _ p Hs Hb Pi (fun _ => Hn)).
  symmetry. apply (cnt_inside l s0 Hf Hl e P (proj1 Hfit) (proj1 (proj2 Hfit))); [exact Pp|symmetry; exact A3|].
  intros m Hm Em Cv Eq. exfalso. destruct (edge_at _ m p Hm Em Cv Eq) as (sg & _ & Ig & Ps). apply Hn. exists sg. split; assumption.
Qed.

(** A piece with a twin. *)
Lemma twin_at : forall i p, In p P -> settled i -> In (EL i) pl -> reg (negb (side i)) = true -> inside_segment p (seg_of s i) ->
  on_segments p (rest i) -> inside (rest i) p = if side i then l_other (lft s i) else negb (l_other (lft s i)).
Proof.
  intros i p Pp Hs He Hb (Pi & N1 & N2) (sg & Hg & Hp). pose proof (final_len i (proj1 Hs)) as Li. pose proof (proj1 (pc_on e s i p Li) Pi) as ((A1 & A2) & A3).
  assert (Hend : p = end_of s i -> ~ on_segments p (rest i)) by (intro E; elim (N2 E)).
  assert (Hup : pos e p < hi (pc s i)).
  { apply Qcle_lt_or_eq in A2. destruct A2 as [A2|A2]; [exact A2|]. exfalso. apply N2. apply (st_on_ends e s i p Li Pi). exact A2. }
  pose proof (init_geo l s0 Hf Hl e HshR) as Hgeo. pose proof (init_len l s0 Hf Hl e HshR) as Hlen.
  assert (Coll : forall m sg', nth_error l m = Some (negb (side i), sg') -> on_segment p sg' -> (m < length (lefts s0))%nat /\ coll (pc s0 m) (pc s i) /\ Parity.covers (pc s0 m) (pos e p) = true).
  { intros m sg' E Ps. assert (Hm : (m < length (lefts s0))%nat) by (rewrite (f_lefts _ _ Hf); apply nth_error_Some; congruence). split; [exact Hm|].
    assert (Ig : In sg' (rest i)) by (apply in_operand; exact (nth_error_In _ _ E)).
    destruct (piece_of _ sg' p Ig Ps) as (j & Hj & Ej & Pj & Wj).
    destruct (settled_meet i j p Hs Hj Ej Pi Pj) as [([K|K] & _)|(_ & _ & K & _)]; [elim (N1 K)|elim (N2 K)|].
    assert (W : within (seg_of s i) (seg_of s0 m)).
    { intros r Hr. apply (init_on l s0 Hf m _ sg' r E). apply Wj. rewrite <- K. exact Hr. }
    destruct (within_coll e s s0 i m Li (Hlen m Hm) W) as (C & L1 & L2). split; [apply coll_sym; exact C|]. apply covers_spec. split; qlra. }
  assert (F : cnt v0 (negb (side i)) false (pc s i) (pos e p) = inside (rest i) p).
  { apply (cnt_inside l s0 Hf Hl e P (proj1 Hfit) (proj1 (proj2 Hfit))); [exact Pp|symmetry; exact A3|].
    intros m Hm Em Cv Eq. split; [reflexivity|]. destruct (edge_at _ m p Hm Em Cv Eq) as (sg' & E & _ & Ps). exact (proj1 (proj2 (Coll m sg' E Ps))). }
  rewrite (la_other _ _ _ _ _ _ _ (Hla e P Hfit) i He Hb), <- (along_piece i _ p Hs Hb Pi Hend).
  destruct (side i) eqn:Es; cbn [negb] in *; [symmetry; exact F|].
  rewrite <- F. apply in_operand in Hg. apply In_nth_error in Hg. destruct Hg as (m & Em). destruct (Coll m sg Em Hp) as (Hm & Cm & Vm).
  unfold cnt. cbn [abs vp vn].
  assert (Op : op (pc s0 m) = true) by exact (proj2 (init_seg l s0 Hf m _ sg Em)).
  assert (X : xorb (parity (fun i0 => Bool.eqb (op (pc s0 i0)) true && undermost false (pc s i) (pos e p) (pc s0 i0)) (seq 0 (length (lefts s0)))) (undermost false (pc s i) (pos e p) (pc s0 m))
    = xorb (parity (fun i0 => Bool.eqb (op (pc s0 i0)) true && undermost true (pc s i) (pos e p) (pc s0 i0)) (seq 0 (length (lefts s0)))) (undermost true (pc s i) (pos e p) (pc s0 m))).
  { pose proof (parity_change (fun i0 => Bool.eqb (op (pc s0 i0)) true && undermost false (pc s i) (pos e p) (pc s0 i0))
      (fun i0 => Bool.eqb (op (pc s0 i0)) true && undermost true (pc s i) (pos e p) (pc s0 i0)) m (seq 0 (length (lefts s0))) (seq_NoDup _ _)) as Y.
    cbn beta in Y. rewrite Op in Y. cbn [Bool.eqb andb] in Y. apply Y; [apply in_seq; lia|]. clear Y.
    intros j Hj Nj. apply in_seq in Hj. destruct (Bool.eqb (op (pc s0 j)) true) eqn:Ej; [|reflexivity]. cbn [andb]. apply Bool.eqb_prop in Ej.
    unfold undermost. destruct (Parity.covers (pc s0 j) (pos e p)) eqn:Cj; [|reflexivity]. cbn [andb].
    destruct (Qc_eq_dec (ht (pc s0 j) (pos e p)) (ht (pc s i) (pos e p))) as [K|K]; [|rewrite !germ_apart by exact K; reflexivity].
    exfalso. destruct (edge_at true j p) as (sg' & E & _ & Ps); [lia|exact Ej|exact Cj|congruence|].
    destruct (Coll j sg' E Ps) as (Hj' & Cj' & Vj). apply covers_spec in Vj. apply covers_spec in Vm.
    destruct (g_over _ _ _ Hgeo j m Hj' Hm Nj) as [J|J]; cbn [abs vp] in *; [congruence|exact (coll_trans _ _ _ Cj' (coll_sym _ _ Cm))|qlra|qlra]. }
  assert (Ef : undermost false (pc s i) (pos e p) (pc s0 m) = false).
  { unfold undermost. rewrite Vm. unfold germ. destruct Cm as (C1 & C2). unfold ht. rewrite C1, C2, !(ltb_false _ _ (Qcle_refl _)), Bool.andb_false_r. reflexivity. }
  assert (Et : undermost true (pc s i) (pos e p) (pc s0 m) = true).
  { unfold undermost. rewrite Vm. apply germ_spec. right. destruct Cm as (C1 & C2). unfold ht. rewrite C1, C2. split; [reflexivity|]. right. split; reflexivity. }
  rewrite Ef, Et, Bool.xorb_false_r in X. rewrite X, Bool.xorb_true_r. reflexivity.
Qed.
Lemma label_at : forall i, settled i -> In (EL i) pl ->
  ((forall j, ~ paired s out i j) /\ l_result (lft s i) = rf (side i) (l_other (lft s i)) NONE /\ (k = Shaped -> l_kind (lft s i) = NONE))
  \/ (exists j, paired s out i j /\ l_result (lft s i) = rf (side i) (l_other (lft s i)) (pair_kind k (lft s i) (lft s j))
       /\ (k = Shaped -> l_kind (lft s i) = pair_kind k (lft s i) (lft s j))).
Proof.
  intros i Hs He. destruct (la_result _ _ _ _ _ _ _ (Hla e P Hfit) i He) as (K & EK & H). pose proof (final_len i (proj1 Hs)) as Li.
  destruct H as [(-> & H)|(j & J1 & (J2 & J3 & J4) & ->)].
  - left. split; [|exact EK]. intros j Hp. pose proof Hp as (_ & Jo & E & F). apply (H j (pr_left _ _ _ _ Hpr j Jo)).
    pose proof (sw_range _ _ _ _ Hsw j Jo) as Hj. pose proof (final_len j Hj) as Lj.
    assert (W : within (seg_of s i) (seg_of s j)) by (rewrite E; intros r Hr; exact Hr).
    destruct (within_coll e s s i j Li Lj W) as (C & _ & _). split; [exact C|]. split; [|exact F].
    pose proof (f_equal s_start E) as E1. cbn in E1. cbn. rewrite E1. reflexivity.
  - right. exists j. split; [|exact EK]. pose proof (pr_range _ _ _ _ Hpr _ J1) as Hj. cbn in Hj. pose proof (final_len j Hj) as Lj.
    assert (Ej : side j = negb (side i)) by (cbn in J4; revert J4; destruct (side i), (side j); intro J4; try reflexivity; congruence).
    (* a common point inside of both pieces *)
    set (t := half * (lo (pc s i) + (if Qc_ltb (hi (pc s i)) (hi (pc s j)) then hi (pc s i) else hi (pc s j)))).
    assert (T : lo (pc s i) < t /\ t < hi (pc s i) /\ t < hi (pc s j)).
    { unfold t. destruct (Qc_ltb_spec (hi (pc s i)) (hi (pc s j))) as [K|K].
      - destruct (half_between _ _ Li) as (A & B). split; [exact A|]. split; [exact B|]. qlra.
      - assert (L : lo (pc s i) < hi (pc s j)) by (rewrite J3; exact Lj). destruct (half_between _ _ L) as (A & B). split; [exact A|]. split; qlra. }
    destruct T as (T1 & T2 & T3). set (q := at_pos e t (ht (pc s i) t)).
    assert (Qi : on_segment q (seg_of s i)) by (apply (pc_on_at e s i t Li); split; qlra).
    assert (Qj : on_segment q (seg_of s j)).
    { unfold q. replace (ht (pc s i) t) with (ht (pc s j) t) by (unfold ht; rewrite (proj1 J2), (proj2 J2); reflexivity).
      apply (pc_on_at e s j t Lj). split; qlra. }
    assert (Eq : pos e q = t) by apply pos_at.
    destruct (settled_meet i j q Hs Hj Ej Qi Qj) as [([K|K] & _)|K]; [| |exact K]; exfalso; cbn in K.
    + assert (X : pos e q = lo (pc s i)) by (rewrite K; reflexivity). qlra.
    + assert (X : pos e q = hi (pc s i)) by (rewrite K; reflexivity). qlra.
Qed.
End At.

Lemma fit_for : forall p, exists e P, fit e P /\ (forall i, (i < n)%nat -> In (l_start (lft s i)) P /\ In (end_of s i) P) /\ In p P.
Proof.
  intro p. set (P := p :: R ++ middles R ++ flat_map (fun i => [l_start (lft s i); end_of s i]) (seq 0 n)).
  destruct (shear_exists P) as (e & _ & Hsh). exists e, P. split; [|split].
  - split; [exact Hsh|]. split; intros q Hq; right; apply in_or_app; [left; exact Hq|right]. apply in_or_app. left. exact Hq.
  - intros i Hi. split; right; apply in_or_app; right; apply in_or_app; right; apply in_flat_map; exists i; (split; [apply in_seq; lia|]); [left|right; left]; reflexivity.
  - left. reflexivity.
Qed.
(** Off the other operand the label tells the membership in it. *)
Theorem other_off : forall i p, settled i -> In (EL i) pl -> reg (negb (side i)) = true -> on_segment p (seg_of s i) ->
  ~ on_segments p (rest i) -> inside (rest i) p = l_other (lft s i).
Proof.
  intros i p Hs He Hb Pi Hn. destruct (fit_for p) as (e & P & F & E & Pp). exact (other_at e P F E i p Pp Hs He Hb Pi Hn).
Qed.
(** Along its twin the label of the first operand's piece is about the lower side, of the second one's is about the upper side. *)
Theorem other_on : forall i p, settled i -> In (EL i) pl -> reg (negb (side i)) = true -> inside_segment p (seg_of s i) ->
  on_segments p (rest i) -> inside (rest i) p = if side i then l_other (lft s i) else negb (l_other (lft s i)).
Proof.
  intros i p Hs He Hb Pi Hn. destruct (fit_for p) as (e & P & F & E & Pp). exact (twin_at e P F E i p Pp Hs He Hb Pi Hn).
Qed.
Theorem kind_label : forall i, settled i -> In (EL i) pl ->
  ((forall j, ~ paired s out i j) /\ l_result (lft s i) = rf (side i) (l_other (lft s i)) NONE /\ (k = Shaped -> l_kind (lft s i) = NONE))
  \/ (exists j, paired s out i j /\ l_result (lft s i) = rf (side i) (l_other (lft s i)) (pair_kind k (lft s i) (lft s j))
       /\ (k = Shaped -> l_kind (lft s i) = pair_kind k (lft s i) (lft s j))).
Proof.
  intros i Hs He. destruct (fit_for (Pt 0 0)) as (e & P & F & E & _). exact (label_at e P F E i Hs He).
Qed.
Theorem result_label : forall i, settled i -> In (EL i) pl ->
  ((forall j, ~ paired s out i j) /\ l_result (lft s i) = rf (side i) (l_other (lft s i)) NONE)
  \/ (exists j, paired s out i j /\ l_result (lft s i) = rf (side i) (l_other (lft s i)) (pair_kind k (lft s i) (lft s j))).
Proof.
  intros i Hs He. destruct (kind_label i Hs He) as [(A & B & _)|(j & A & B & _)]; [left|right; exists j]; split; assumption.
Qed.
End Classify.
