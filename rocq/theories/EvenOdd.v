(** The even-odd rule: constancy along paths avoiding edges, sides of edges of
    a simple contour.
    Proof support only, no part of /repo is modelled here. *)
From Coq Require Import Permutation.
From Verif Require Import QcTac Geom Spec SpecShape GeomFacts Toward Relation SweepGeo SweepInv SweepSteps Sweep SweepCmp SweepLink SweepRun SweepLoop SweepStart Parity Outline.

(** Parity along a line, when the ends on the way occur in pairs. *)
Lemma along_range : forall V c z t1 t2, t1 <= t2 -> forall l, (forall k, In k l -> avoided V z t1 t2 k) ->
  (forall t, t1 < t -> t <= t2 -> parity (fun k => xorb (Qc_eqb t (lo k)) (Qc_eqb t (hi k))) l = false) ->
  parity (undermost c z t2) l = parity (undermost c z t1) l.
Proof.
  intros V c z t1 t2 Ht l H E.
  assert (K : parity (fun k => xorb (undermost c z t2 k) (undermost c z t1 k)) l = false).
  { rewrite (parity_ext _ (fun k => parity (under_end V z t1 t2) [lo k; hi k])).
    - rewrite <- (parity_flat _ _ (fun k => [lo k; hi k])).
      set (m := flat_map (fun k => [lo k; hi k]) l).
      assert (Em : parity (under_end V z t1 t2) m = parity (under_end V z t1 t2) (filter (fun t => Qc_ltb t1 t && Qc_leb t t2) m)).
      { rewrite parity_filter. apply parity_ext. intros t _. unfold under_end. destruct (Qc_ltb t1 t && Qc_leb t t2); reflexivity. }
      rewrite Em. apply (parity_pairs _ (length (filter (fun t => Qc_ltb t1 t && Qc_leb t t2) m))); [apply Nat.le_refl|].
      intro t. rewrite parity_filter. destruct (Qc_ltb t1 t && Qc_leb t t2) eqn:R.
      + rewrite (parity_ext _ (Qc_eqb t)).
        * unfold m. rewrite parity_flat. apply andb_true_iff in R. destruct R as (R1 & R2).
          rewrite <- (E t). { apply parity_ext. intros k _. cbn. destruct (Qc_eqb t (lo k)), (Qc_eqb t (hi k)); reflexivity. }
          { destruct (Qc_ltb_spec t1 t); [assumption|discriminate]. } { destruct (Qc_leb_spec t t2); [assumption|discriminate]. }
        * intros u _. destruct (Qc_eqb_spec t u) as [<-|]; [rewrite R; reflexivity|]. apply andb_false_r.
      + apply parity_none. intros u _. destruct (Qc_eqb_spec t u) as [<-|]; [rewrite R; reflexivity|]. apply andb_false_r.
    - intros k Hk. rewrite (along_one V c z t1 t2 Ht k (H k Hk)). cbn. destruct (under_end V z t1 t2 (lo k)), (under_end V z t1 t2 (hi k)); reflexivity. }
  rewrite parity_xor in K. destruct (parity (undermost c z t2) l), (parity (undermost c z t1) l); try reflexivity; discriminate K.
Qed.

(** Segments as pieces. *)
Definition kp (e : Qc) (s : segment) : piece :=
  let a := seg_lo s in let b := seg_hi s in
  Piece (pos e a) (pos e b) (slope e a b) (py a - slope e a b * pos e a) true.
Lemma kp_ht : forall e s t, ht (kp e s) t = line_at e (seg_lo s) (seg_hi s) t.
Proof. intros. unfold ht, kp. cbn. symmetry. apply line_aff. Qed.
Lemma lo_in_ends : forall s es, In s es -> In (seg_lo s) (endpoints_of es) /\ In (seg_hi s) (endpoints_of es).
Proof.
  intros s es H. split; apply in_flat_map; exists s; (split; [exact H|]); destruct (seg_lo_hi s) as [(E1 & E2 & _)|(E1 & E2 & _)]; rewrite ?E1, ?E2; cbn; tauto.
Qed.

Section Sheared.
Variables (e : Qc) (P : list point).
Hypothesis Hsh : Sheared e P.
Variable es : list segment.
Hypothesis Hpr : Forall proper es.
Hypothesis HP : incl (endpoints_of es) P.
Notation K := (kp e).

Lemma k_in : forall s, In s es -> In (seg_lo s) P /\ In (seg_hi s) P.
Proof. intros s H. destruct (lo_in_ends s es H). split; apply HP; assumption. Qed.
Lemma k_proper : forall s, In s es -> proper s.
Proof. intros s H. rewrite Forall_forall in Hpr. exact (Hpr s H). Qed.
Lemma k_len : forall s, In s es -> lo (K s) < hi (K s).
Proof. intros s H. destruct (k_in s H) as (A & B). apply (sheared_lt e P Hsh _ _ A B). apply seg_lo_lt_hi, k_proper, H. Qed.
Lemma k_lo : forall s, ht (K s) (lo (K s)) = py (seg_lo s).
Proof. intros. rewrite kp_ht. apply line_at_start. Qed.
Lemma k_hi : forall s, In s es -> ht (K s) (hi (K s)) = py (seg_hi s).
Proof. intros s H. rewrite kp_ht. apply line_at_end. pose proof (k_len s H) as J. cbn in J. intro E. rewrite E in J. qlra. Qed.
Lemma k_on : forall s p, In s es -> (on_segment p s <-> has (K s) (pos e p) /\ py p = ht (K s) (pos e p)).
Proof.
  intros s p H. rewrite on_segment_norm, (on_segment_sheared e _ _ p (k_len s H)), kp_ht. unfold has. cbn. tauto.
Qed.
Lemma k_on_at : forall s t, In s es -> has (K s) t -> on_segment (at_pos e t (ht (K s) t)) s.
Proof. intros s t H J. apply (k_on s _ H). rewrite pos_at, py_at. split; [exact J|reflexivity]. Qed.
Lemma k_V : forall s, In s es -> ht (K s) (lo (K s)) = V e P (lo (K s)) /\ ht (K s) (hi (K s)) = V e P (hi (K s)).
Proof.
  intros s H. destruct (k_in s H) as (A & B). split; [rewrite k_lo|rewrite (k_hi s H)]; symmetry; [exact (V_pos e P Hsh _ A)|exact (V_pos e P Hsh _ B)].
Qed.
Lemma k_passes : forall s p, In s es -> In p P -> passes_under s p = covers (K s) (pos e p) && Qc_ltb (ht (K s) (pos e p)) (py p).
Proof.
  intros s p Hs Hp. rewrite (passes_lex s p (k_proper s Hs)). destruct (k_in s Hs) as (I1 & I2). unfold covers. f_equal; [f_equal|].
  - destruct (pt_ltb_spec p (seg_lo s)) as [J|J]; cbn [negb].
    + apply (Hsh _ _ Hp I1) in J. destruct (Qc_leb_spec (lo (K s)) (pos e p)) as [L|L]; [|reflexivity]. exfalso. cbn in L. qlra.
    + destruct (Qc_leb_spec (lo (K s)) (pos e p)) as [L|L]; [reflexivity|]. exfalso. apply J. apply (sheared_lt e P Hsh p _ Hp I1). cbn in L. qlra.
  - destruct (pt_ltb_spec p (seg_hi s)) as [J|J].
    + apply (Hsh _ _ Hp I2) in J. symmetry. apply ltb_true. exact J.
    + destruct (Qc_ltb_spec (pos e p) (hi (K s))) as [L|L]; [|reflexivity]. exfalso. apply J. apply (sheared_lt e P Hsh p _ Hp I2). exact L.
  - pose proof (k_len s Hs) as Hl. cbn in Hl. rewrite (cross_line e) by (intro J; rewrite J in Hl; qlra). rewrite kp_ht.
    set (d := pos e (seg_hi s) - pos e (seg_lo s)). assert (Hd : 0 < d) by (unfold d; qlra).
    destruct (Qc_ltb_spec (line_at e (seg_lo s) (seg_hi s) (pos e p)) (py p)) as [L|L]; [apply ltb_true; qnra|apply ltb_false; qnra].
Qed.
Lemma k_ends : forall t, even_occurrences (endpoints_of es) ->
  parity (fun k => xorb (Qc_eqb t (lo k)) (Qc_eqb t (hi k))) (map K es) = false.
Proof.
  intros t He. rewrite parity_map.
  rewrite (parity_ext _ (fun s => parity (fun p => Qc_eqb t (pos e p)) [s_start s; s_end s])).
  - rewrite <- (parity_flat _ _ (fun s => [s_start s; s_end s])). fold (endpoints_of es).
    destruct (existsb (fun p => Qc_eqb t (pos e p)) (endpoints_of es)) eqn:Ex.
    + apply existsb_exists in Ex. destruct Ex as (q & Hq & E). destruct (Qc_eqb_spec t (pos e q)) as [->|]; [|discriminate E].
      rewrite (parity_ext _ (fun p => pt_eqb p q)).
      * rewrite parity_occ. rewrite <- Nat.negb_even, (He q). reflexivity.
      * intros p Hp'. destruct (Qc_eqb_spec (pos e q) (pos e p)) as [J|J]; destruct (pt_eqb_spec p q) as [L|L]; try reflexivity.
        -- exfalso. apply L. symmetry. apply (sheared_eq e P Hsh); [exact (HP q Hq)|exact (HP p Hp')|exact J].
        -- exfalso. apply J. rewrite L. reflexivity.
    + apply parity_none. intros p Hp'. destruct (Qc_eqb t (pos e p)) eqn:J; [|reflexivity]. exfalso.
      assert (Hx : existsb (fun p => Qc_eqb t (pos e p)) (endpoints_of es) = true) by (apply existsb_exists; exists p; split; assumption). congruence.
  - intros s Hs. cbn [parity kp lo hi].
    destruct (seg_lo_hi s) as [(-> & -> & _)|(-> & -> & _)]; destruct (Qc_eqb t (pos e (s_start s))), (Qc_eqb t (pos e (s_end s))); reflexivity.
Qed.
(** A point off the other lines. *)
Lemma k_inside : forall z p, In p P -> ht z (pos e p) = py p ->
  (forall s, In s es -> on_segment p s -> p = seg_hi s \/ coll (K s) z) ->
  parity (undermost false z (pos e p)) (map K es) = inside es p.
Proof.
  intros z p Hp Hz H. rewrite inside_parity, parity_map. apply parity_ext. intros s Hs. rewrite (k_passes s p Hs Hp). unfold undermost.
  destruct (covers (K s) (pos e p)) eqn:Ec; [|reflexivity]. cbn [andb]. rewrite <- Hz.
  destruct (Qc_eq_dec (ht (K s) (pos e p)) (ht z (pos e p))) as [J|J]; [|apply germ_apart; exact J].
  apply covers_spec in Ec. destruct (H s Hs) as [C|C].
  - apply (k_on s p Hs). split; [split; qlra|congruence].
  - exfalso. rewrite C in Ec. cbn in Ec. qlra.
  - unfold germ. rewrite J, (proj1 C). rewrite ltb_false by apply Qcle_refl. rewrite (ltb_false (sl z)) by apply Qcle_refl. cbn. apply Bool.andb_false_r.
Qed.
End Sheared.

(** Membership does not change along a path meeting no edges, except for those
    which the path goes along. *)
Theorem inside_const : forall es p q, Forall proper es -> even_occurrences (endpoints_of es) ->
  (forall s, In s es -> (forall x, on_segment x (Seg p q) -> ~ on_segment x s)
                        \/ (on_segment p s /\ on_segment q s /\ p <> seg_hi s /\ q <> seg_hi s)) ->
  inside es p = inside es q.
Proof.
  intros es. assert (W : forall p q, plt p q -> Forall proper es -> even_occurrences (endpoints_of es) ->
    (forall s, In s es -> (forall x, on_segment x (Seg p q) -> ~ on_segment x s)
                        \/ (on_segment p s /\ on_segment q s /\ p <> seg_hi s /\ q <> seg_hi s)) -> inside es p = inside es q).
  { intros p q L Hpr Hev H. destruct (shear_exists (p :: q :: endpoints_of es)) as (e & He & Hsh).
    set (P := p :: q :: endpoints_of es) in *.
    assert (HP : incl (endpoints_of es) P) by (intros x Hx; right; right; exact Hx).
    assert (Ip : In p P) by (left; reflexivity). assert (Iq : In q P) by (right; left; reflexivity).
    pose proof (Hsh _ _ Ip Iq L) as Lp.
    assert (Pq : proper (Seg p q)) by (intro E; cbn in E; rewrite E in L; exact (plt_irrefl _ L)).
    assert (Hpr' : Forall proper [Seg p q]) by (constructor; [exact Pq|constructor]).
    assert (HP' : incl (endpoints_of [Seg p q]) P) by (intros x [<-|[<-|[]]]; assumption).
    assert (Iz : In (Seg p q) [Seg p q]) by (left; reflexivity).
    set (z := kp e (Seg p q)).
    assert (E1 : seg_lo (Seg p q) = p /\ seg_hi (Seg p q) = q).
    { unfold seg_lo, seg_hi. cbn [s_start s_end]. destruct (pt_ltb_spec q p) as [J|J]; [|split; reflexivity]. exfalso. exact (plt_irrefl _ (plt_trans _ _ _ L J)). }
    destruct E1 as (E1 & E2).
    assert (Zp : ht z (pos e p) = py p) by (pose proof (k_lo e (Seg p q)) as J; rewrite E1 in J; cbn [kp lo] in J; rewrite E1 in J; exact J).
    assert (Zq : ht z (pos e q) = py q) by (pose proof (k_hi e P Hsh [Seg p q] Hpr' HP' _ Iz) as J; rewrite E2 in J; cbn [kp hi] in J; rewrite E2 in J; exact J).
    assert (Cl : forall s, In s es -> (forall x, on_segment x (Seg p q) -> ~ on_segment x s) \/
              (coll (kp e s) z /\ lo (kp e s) <= pos e p /\ pos e q < hi (kp e s))).
    { intros s Hs. destruct (H s Hs) as [J|(A & B & C & D)]; [left; exact J|right].
      apply (k_on e P Hsh es Hpr HP s p Hs) in A. apply (k_on e P Hsh es Hpr HP s q Hs) in B.
      destruct A as ((A1 & A2) & A3), B as ((B1 & B2) & B3). split; [|split; [exact A1|]].
      - apply (ht_two _ _ (pos e p) (pos e q)); [intro J; rewrite J in Lp; qlra|congruence|congruence].
      - destruct (Qcle_lt_or_eq _ _ B2) as [J|J]; [exact J|exfalso]. apply D.
        apply (sheared_eq e P Hsh); [exact Iq|exact (proj2 (k_in P es HP s Hs))|exact J]. }
    rewrite <- (k_inside e P Hsh es Hpr HP z p Ip Zp), <- (k_inside e P Hsh es Hpr HP z q Iq Zq).
    - symmetry. apply (along_range (V e P)).
      + qlra.
      + intros k Hk. apply in_map_iff in Hk. destruct Hk as (s & <- & Hs).
        split; [exact (k_len e P Hsh es Hpr HP s Hs)|]. destruct (k_V e P Hsh es Hpr HP s Hs) as (V1 & V2). split; [exact V1|]. split; [exact V2|].
        intros t T1 T2 Ht Et. right. destruct (Cl s Hs) as [J|J]; [exfalso|exact J].
        apply (J (at_pos e t (ht z t))).
        * apply (k_on_at e P Hsh [Seg p q] Hpr' HP' _ t Iz). unfold has. cbn [kp lo hi]. rewrite E1, E2. split; qlra.
        * unfold z in Et. fold z in Et. rewrite <- Et. apply (k_on_at e P Hsh es Hpr HP s t Hs Ht).
      + intros t _ _. apply (k_ends e P Hsh es HP t Hev).
    - intros s Hs Ho. destruct (Cl s Hs) as [J|J]; [exfalso; exact (J q (on_segment_end (Seg p q)) Ho)|right; apply J].
    - intros s Hs Ho. destruct (Cl s Hs) as [J|J]; [exfalso; exact (J p (on_segment_start (Seg p q)) Ho)|right; apply J]. }
  intros p q Hpr Hev H. destruct (plt_total p q) as [L|[->|L]]; [apply W; assumption|reflexivity|].
  symmetry. apply W; [exact L|exact Hpr|exact Hev|]. intros s Hs. destruct (H s Hs) as [J|(A & B & C & D)].
  - left. intros x Hx. apply J. apply on_segment_sym. exact Hx.
  - right. repeat split; assumption.
Qed.

(** Sides of consecutive edges. *)
Definition descends (s : segment) : bool := pt_ltb (s_end s) (s_start s).
Lemma segment_eq_dec : forall a b : segment, {a = b} + {a <> b}.
Proof. decide equality; apply pt_eq_dec. Qed.
Lemma split_two : forall (es : list segment) s t, NoDup es -> In s es -> In t es -> s <> t ->
  exists r, Permutation es (s :: t :: r) /\ forall k, In k r -> In k es /\ k <> s /\ k <> t.
Proof.
  intros es s t N Hs Ht Hn. destruct (in_split s es Hs) as (a & b & ->). apply NoDup_remove in N. destruct N as (N1 & N2).
  assert (Ht' : In t (a ++ b)) by (apply in_app_iff; apply in_app_iff in Ht; destruct Ht as [Ht|[Ht|Ht]]; [left; exact Ht|congruence|right; exact Ht]).
  destruct (in_split t (a ++ b) Ht') as (c & d & E). exists (c ++ d). split.
  - rewrite <- Permutation_middle. constructor. rewrite E. symmetry. apply Permutation_middle.
  - intros k Hk. rewrite E in N1, N2. apply NoDup_remove_2 in N1.
    assert (Hk' : In k (a ++ b)) by (rewrite E; apply in_app_iff; apply in_app_iff in Hk; destruct Hk; [left|right; right]; assumption).
    split; [|split].
    + apply in_app_iff. apply in_app_iff in Hk'. destruct Hk'; [left|right; right]; assumption.
    + intros ->. apply N2. rewrite <- E. exact Hk'.
    + intros ->. exact (N1 Hk).
Qed.
Lemma germ_self : forall z t, germ false z z t = false.
Proof. intros. unfold germ. rewrite !(ltb_false _ _ (Qcle_refl _)). cbn. apply andb_false_r. Qed.

Lemma ltb_flip : forall a b, a <> b -> Qc_ltb b a = negb (Qc_ltb a b).
Proof. intros a b N. destruct (Qc_ltb_spec a b), (Qc_ltb_spec b a); try reflexivity; exfalso; [qlra|apply N; qlra]. Qed.
Ltac by_eq :=
  match goal with
  | E : lo ?s = pos _ ?q |- lo ?s <= pos _ ?q => rewrite E; apply Qcle_refl
  | E : lo ?s = pos _ ?q |- pos _ ?q < hi ?s => rewrite <- E; assumption
  | E : hi ?s = pos _ ?q, H : ?u < hi ?s |- ?u < pos _ ?q => rewrite <- E; exact H
  | E : hi ?s = pos _ ?q |- ?u < hi ?s => rewrite E; assumption
  | E : hi ?s = pos _ ?q |- ?u <= hi ?s => rewrite E; apply Qclt_le_weak; assumption
  | |- _ => first [assumption | apply Qclt_le_weak; assumption]
  end.
Section Turn.
Variables (e : Qc) (P : list point).
Hypothesis Hsh : Sheared e P.
Variable es : list segment.
Hypothesis Hpr : Forall proper es.
Hypothesis HP : incl (endpoints_of es) P.
Hypothesis Hnd : NoDup es.
Hypothesis Hev : even_occurrences (endpoints_of es).
Hypothesis Hmeet : forall s t x, In s es -> In t es -> s <> t -> on_segment x s -> on_segment x t -> endpoint x s /\ endpoint x t.
Notation K := (kp e).
Definition under (s : segment) (t : Qc) : bool := parity (undermost false (K s) t) (map K es).

Lemma tips : forall s x, In s es -> endpoint x s -> pos e x = lo (K s) \/ pos e x = hi (K s).
Proof.
  intros s x Hs [->| ->]; cbn; destruct (seg_lo_hi s) as [(-> & -> & _)|(-> & -> & _)]; tauto.
Qed.
Lemma no_meet : forall s k t, In s es -> In k es -> k <> s -> lo (K s) < t -> t < hi (K s) -> has (K k) t -> ht (K k) t <> ht (K s) t.
Proof.
  intros s k t Hs Hk Hn T1 T2 Ht E.
  assert (O1 : on_segment (at_pos e t (ht (K s) t)) s) by (apply (k_on_at e P Hsh es Hpr HP s t Hs); split; qlra).
  assert (O2 : on_segment (at_pos e t (ht (K s) t)) k) by (rewrite <- E; apply (k_on_at e P Hsh es Hpr HP k t Hk Ht)).
  destruct (Hmeet k s _ Hk Hs Hn O2 O1) as (_ & J). apply (tips s _ Hs) in J. rewrite pos_at in J. destruct J as [J|J]; rewrite J in *; qlra.
Qed.
Lemma under_const : forall s t1 t2, In s es -> t1 <= t2 -> lo (K s) <= t1 -> t2 < hi (K s) -> under s t2 = under s t1.
Proof.
  intros s t1 t2 Hs L T1 T2. apply (along_range (V e P)); [exact L| |].
  - intros k Hk. apply in_map_iff in Hk. destruct Hk as (k' & <- & Hk).
    split; [exact (k_len e P Hsh es Hpr HP k' Hk)|]. destruct (k_V e P Hsh es Hpr HP k' Hk) as (V1 & V2). split; [exact V1|]. split; [exact V2|].
    intros t A B Ht E. destruct (segment_eq_dec k' s) as [->|N]; [right; split; [apply coll_refl|split; assumption]|].
    exfalso. apply (no_meet s k' t Hs Hk N); try assumption; qlra.
  - intros t _ _. exact (k_ends e P Hsh es HP t Hev).
Qed.
Lemma under_any : forall s t1 t2, In s es -> lo (K s) <= t1 -> t1 < hi (K s) -> lo (K s) <= t2 -> t2 < hi (K s) -> under s t2 = under s t1.
Proof.
  intros s t1 t2 Hs A B C D. destruct (Qclt_le_dec t1 t2) as [L|L]; [|symmetry]; apply under_const; try assumption; qlra.
Qed.

(** At a common vertex. *)
Variables (s t : segment).
Hypothesis Hs : In s es.
Hypothesis Ht : In t es.
Hypothesis Hst : s <> t.
Variable q : point.
Hypothesis Hqs : endpoint q s.
Hypothesis Hqt : endpoint q t.
Hypothesis Hq' : forall k, In k es -> k <> s -> k <> t -> ~ on_segment q k.

Variable r : list segment.
Hypothesis Hr : Permutation es (s :: t :: r).
Hypothesis Hr' : forall k, In k r -> In k es /\ k <> s /\ k <> t.

Lemma under_split : forall z u, parity (undermost false z u) (map K es)
  = xorb (undermost false z u (K s)) (xorb (undermost false z u (K t)) (parity (undermost false z u) (map K r))).
Proof. intros. rewrite (parity_perm _ _ _ (Permutation_map K Hr)). reflexivity. Qed.
Lemma q_height : forall x, In x es -> endpoint q x -> ht (K x) (pos e q) = py q.
Proof.
  intros x Hx Hqx. symmetry. apply (k_on e P Hsh es Hpr HP x q Hx). destruct Hqx as [->| ->]; [apply on_segment_start|apply on_segment_end].
Qed.
Lemma rest_apart : forall k, In k r -> has (K k) (pos e q) -> ht (K k) (pos e q) <> py q.
Proof.
  intros k Hk J E. destruct (Hr' k Hk) as (A & B & C). apply (Hq' k A B C). apply (k_on e P Hsh es Hpr HP k q A). split; [exact J|symmetry; exact E].
Qed.
(** What the other edges contribute at the vertex. *)
Definition rest : bool := parity (fun k => covers k (pos e q) && Qc_ltb (ht k (pos e q)) (py q)) (map K r).
Lemma rest_at : forall z, ht z (pos e q) = py q -> parity (undermost false z (pos e q)) (map K r) = rest.
Proof.
  intros z Hz. unfold rest. rewrite !parity_map. apply parity_ext. intros k Hk. unfold undermost. destruct (covers (K k) (pos e q)) eqn:C; [|reflexivity]. cbn [andb].
  rewrite germ_apart, Hz; [reflexivity|]. rewrite Hz. apply covers_spec in C. apply rest_apart; [exact Hk|split; [apply C|apply Qclt_le_weak, C]].
Qed.
Lemma rest_ends : forall u, parity (fun k => xorb (Qc_eqb u (lo k)) (Qc_eqb u (hi k))) (map K r)
  = xorb (xorb (Qc_eqb u (lo (K s))) (Qc_eqb u (hi (K s)))) (xorb (Qc_eqb u (lo (K t))) (Qc_eqb u (hi (K t)))).
Proof.
  intro u. pose proof (k_ends e P Hsh es HP u Hev) as E. rewrite (parity_perm _ _ _ (Permutation_map K Hr)) in E. cbn [map parity] in E.
  destruct (xorb (Qc_eqb u (lo (K s))) (Qc_eqb u (hi (K s)))), (xorb (Qc_eqb u (lo (K t))) (Qc_eqb u (hi (K t)))), (parity (fun k => xorb (Qc_eqb u (lo k)) (Qc_eqb u (hi k))) (map K r)); try reflexivity; discriminate E.
Qed.
(** Coming to the vertex along an edge from the left. *)
Lemma rest_left : forall z u, z = s \/ z = t -> hi (K z) = pos e q -> lo (K z) <= u -> u < pos e q ->
  (forall x, x = s \/ x = t -> lo (K x) <= u \/ pos e q <= lo (K x)) -> parity (undermost false (K z) u) (map K r) = rest.
Proof.
  intros z u Hz Eh L1 L2 Hlo. assert (Iz : In z es) by (destruct Hz as [->| ->]; assumption).
  assert (Ez : endpoint q z) by (destruct Hz as [->| ->]; assumption).
  rewrite <- (rest_at (K z) (q_height z Iz Ez)). symmetry. apply (along_range (V e P)); [qlra| |].
  - intros k Hk. apply in_map_iff in Hk. destruct Hk as (k' & <- & Hk). destruct (Hr' k' Hk) as (A & B & C).
    split; [exact (k_len e P Hsh es Hpr HP k' A)|]. destruct (k_V e P Hsh es Hpr HP k' A) as (V1 & V2). split; [exact V1|]. split; [exact V2|].
    intros v U1 U2 Hv E. exfalso. destruct (Qcle_lt_or_eq _ _ U2) as [J|J].
    + apply (no_meet z k' v Iz A); [destruct Hz as [->| ->]; assumption|qlra|qlra|exact Hv|exact E].
    + rewrite J in Hv, E. apply (rest_apart k' Hk Hv). rewrite E. exact (q_height z Iz Ez).
  - intros v U1 U2. rewrite rest_ends.
    assert (One : forall x, x = s \/ x = t -> xorb (Qc_eqb v (lo (K x))) (Qc_eqb v (hi (K x))) = Qc_eqb v (pos e q)).
    { intros x Hx. assert (Ix : In x es) by (destruct Hx as [->| ->]; assumption).
      assert (Ex : endpoint q x) by (destruct Hx as [->| ->]; assumption). pose proof (k_len e P Hsh es Hpr HP x Ix) as Lx.
      destruct (tips x q Ix Ex) as [T|T]; rewrite <- T in *.
      - destruct (Qc_eqb_spec v (hi (K x))) as [J|J]; [rewrite J in *; qlra|]. apply xorb_false_r.
      - destruct (Qc_eqb_spec v (lo (K x))) as [J|J]; [|apply xorb_false_l]. exfalso. rewrite J in *. destruct (Hlo x Hx); qlra. }
    rewrite (One s), (One t) by tauto. apply xorb_nilpotent.
Qed.

(** Slopes of both edges when they go to the same side. *)
Lemma slopes_right : lo (K s) = pos e q -> lo (K t) = pos e q -> sl (K s) <> sl (K t).
Proof.
  intros E1 E2 J. pose proof (ht_slopes (K s) (K t) (pos e q) (eq_trans (q_height s Hs Hqs) (eq_sym (q_height t Ht Hqt))) J) as C.
  pose proof (k_len e P Hsh es Hpr HP s Hs) as L1. pose proof (k_len e P Hsh es Hpr HP t Ht) as L2.
  destruct (half_between (pos e q) (Qc_min (hi (K s)) (hi (K t)))) as (M1 & M2); [apply Qc_min_lt; qlra|].
  set (m := half * (pos e q + Qc_min (hi (K s)) (hi (K t)))) in *. pose proof (Qc_min_le_l (hi (K s)) (hi (K t))). pose proof (Qc_min_le_r (hi (K s)) (hi (K t))).
  apply (no_meet s t m Hs Ht (not_eq_sym Hst)); [qlra|qlra|split; qlra|]. symmetry. apply coll_ht, C.
Qed.

Lemma turn_right : lo (K s) = pos e q -> lo (K t) = pos e q -> under s (pos e q) = negb (under t (pos e q)).
Proof.
  intros E1 E2. unfold under. rewrite !under_split. rewrite (rest_at (K s) (q_height s Hs Hqs)), (rest_at (K t) (q_height t Ht Hqt)).
  pose proof (k_len e P Hsh es Hpr HP s Hs) as L1. pose proof (k_len e P Hsh es Hpr HP t Ht) as L2. pose proof (slopes_right E1 E2) as N.
  unfold undermost. rewrite !germ_self, !andb_false_r. rewrite (covers_yes (K s)), (covers_yes (K t)) by qlra. cbn [andb].
  unfold germ. rewrite (q_height s Hs Hqs), (q_height t Ht Hqt), (ltb_false (py q)) by apply Qcle_refl. rewrite Qc_eqb_same. cbn [orb andb].
  rewrite !orb_false_r. rewrite (ltb_flip _ _ N). destruct (Qc_ltb (sl (K s)) (sl (K t))), rest; reflexivity.
Qed.
Lemma turn_left : forall u, hi (K s) = pos e q -> hi (K t) = pos e q -> lo (K s) <= u -> lo (K t) <= u -> lo (K s) < u -> u < pos e q -> under s u = negb (under t u).
Proof.
  intros u E1 E2 A B A' C. unfold under. rewrite !under_split.
  assert (Lo : forall x, x = s \/ x = t -> lo (K x) <= u \/ pos e q <= lo (K x)) by (intros x [->| ->]; left; assumption).
  rewrite (rest_left s u (or_introl eq_refl) E1 A C Lo), (rest_left t u (or_intror eq_refl) E2 B C Lo).
  unfold undermost. rewrite !germ_self, !andb_false_r. rewrite (covers_yes (K s)), (covers_yes (K t)) by by_eq. cbn [andb].
  assert (N : ht (K t) u <> ht (K s) u) by (apply (no_meet s t u Hs Ht (not_eq_sym Hst)); [exact A'|by_eq|split; by_eq]).
  rewrite (germ_apart false (K t) (K s) u N), (germ_apart false (K s) (K t) u (not_eq_sym N)).
  rewrite (ltb_flip _ _ N). destruct (Qc_ltb (ht (K t) u) (ht (K s) u)), rest; reflexivity.
Qed.
Lemma turn_through : forall u, hi (K s) = pos e q -> lo (K t) = pos e q -> lo (K s) <= u -> u < pos e q -> under s u = under t (pos e q).
Proof.
  intros u E1 E2 A C. unfold under. rewrite !under_split.
  assert (Lo : forall x, x = s \/ x = t -> lo (K x) <= u \/ pos e q <= lo (K x)) by (intros x [->| ->]; [left; exact A|right; rewrite E2; apply Qcle_refl]).
  rewrite (rest_left s u (or_introl eq_refl) E1 A C Lo), (rest_at (K t) (q_height t Ht Hqt)).
  unfold undermost. rewrite !germ_self, !andb_false_r.
  rewrite (covers_not (K t) u) by (left; qlra). rewrite (covers_not (K s) (pos e q)) by (right; qlra). reflexivity.
Qed.
End Turn.

Lemma slopes_arith : forall x y a b, 0 < x -> 0 < y -> a < b -> 0 < x * (a * y) - b * x * y -> False.
Proof.
  intros x y a b X Y L H. assert (Z : 0 < x * y) by (rewrite <- (Qcmult_0_l y); apply Qcmult_lt_compat_r; assumption).
  pose proof (Qcmult_lt_compat_r _ _ _ Z L) as W. assert (E : x * (a * y) - b * x * y = a * (x * y) - b * (x * y)) by ring. rewrite E in H. clear - W H. qlra.
Qed.
Section Consecutive.
Variables (e : Qc) (P : list point).
Hypothesis Hsh : Sheared e P.
Variable es : list segment.
Hypothesis Hpr : Forall proper es.
Hypothesis HP : incl (endpoints_of es) P.
Hypothesis Hnd : NoDup es.
Hypothesis Hev : even_occurrences (endpoints_of es).
Hypothesis Hmeet : forall s t x, In s es -> In t es -> s <> t -> on_segment x s -> on_segment x t -> endpoint x s /\ endpoint x t.
Notation K := (kp e).

Lemma up_parts : forall s, descends s = false -> seg_lo s = s_start s /\ seg_hi s = s_end s.
Proof. intros s H. unfold descends in H. unfold seg_lo, seg_hi. rewrite H. split; reflexivity. Qed.
Lemma down_parts : forall s, descends s = true -> seg_lo s = s_end s /\ seg_hi s = s_start s.
Proof. intros s H. unfold descends in H. unfold seg_lo, seg_hi. rewrite H. split; reflexivity. Qed.

Lemma consecutive : forall s t us ut, In s es -> In t es -> s <> t -> s_start t = s_end s ->
  (forall k, In k es -> k <> s -> k <> t -> ~ on_segment (s_end s) k) ->
  lo (K s) <= us -> us < hi (K s) -> lo (K t) <= ut -> ut < hi (K t) ->
  xorb (under e es s us) (descends s) = xorb (under e es t ut) (descends t).
Proof.
  intros s t us ut Hs Ht Hst Eq Hq A1 A2 B1 B2. set (q := s_end s) in *.
  assert (Eqs : endpoint q s) by (right; reflexivity). assert (Eqt : endpoint q t) by (left; symmetry; exact Eq).
  destruct (split_two es s t Hnd Hs Ht Hst) as (r & Hr & Hr').
  assert (Hr2 : Permutation es (t :: s :: r)) by (rewrite Hr; constructor).
  assert (Hr2' : forall k, In k r -> In k es /\ k <> t /\ k <> s) by (intros k Hk; destruct (Hr' k Hk) as (X & Y & Z); repeat split; assumption).
  assert (Hq2 : forall k, In k es -> k <> t -> k <> s -> ~ on_segment q k) by (intros; apply Hq; assumption).
  assert (Mv : forall x u w, In x es -> lo (K x) <= u -> u < hi (K x) -> lo (K x) <= w -> w < hi (K x) -> under e es x u = under e es x w).
  { intros x u w Hx U1 U2 W1 W2. exact (under_any e P Hsh es Hpr HP Hev Hmeet x w u Hx W1 W2 U1 U2). }
  pose proof (k_len e P Hsh es Hpr HP s Hs) as Ls. pose proof (k_len e P Hsh es Hpr HP t Ht) as Lt.
  destruct (descends s) eqn:Ds, (descends t) eqn:Dt.
  - destruct (down_parts s Ds) as (S1 & S2). destruct (down_parts t Dt) as (T1 & T2).
    assert (E1 : hi (K t) = pos e q) by (cbn [kp lo hi]; rewrite T2, Eq; reflexivity). assert (E2 : lo (K s) = pos e q) by (cbn [kp lo hi]; rewrite S1; reflexivity).
    f_equal. rewrite (Mv s us (pos e q) Hs A1 A2) by by_eq. symmetry.
    apply (turn_through e P Hsh es Hpr HP Hev Hmeet t s Ht Hs q Eqt Eqs Hq2 r Hr2 Hr2' ut E1 E2 B1). by_eq.
  - destruct (down_parts s Ds) as (S1 & S2). destruct (up_parts t Dt) as (T1 & T2).
    assert (E1 : lo (K t) = pos e q) by (cbn [kp lo hi]; rewrite T1, Eq; reflexivity). assert (E2 : lo (K s) = pos e q) by (cbn [kp lo hi]; rewrite S1; reflexivity).
    rewrite (Mv s us (pos e q) Hs A1 A2) by by_eq. rewrite (Mv t ut (pos e q) Ht B1 B2) by by_eq.
    rewrite (turn_right e P Hsh es Hpr HP Hmeet s t Hs Ht Hst q Eqs Eqt Hq r Hr Hr' E2 E1). destruct (under e es t (pos e q)); reflexivity.
  - destruct (up_parts s Ds) as (S1 & S2). destruct (down_parts t Dt) as (T1 & T2).
    assert (E1 : hi (K t) = pos e q) by (cbn [kp lo hi]; rewrite T2, Eq; reflexivity). assert (E2 : hi (K s) = pos e q) by (cbn [kp lo hi]; rewrite S2; reflexivity).
    destruct (half_between (Qc_max (lo (K s)) (lo (K t))) (pos e q)) as (M1 & M2); [destruct (Qc_max_cases (lo (K s)) (lo (K t))) as [(-> & _)|(-> & _)]; by_eq|].
    set (u := half * (Qc_max (lo (K s)) (lo (K t)) + pos e q)) in *. assert (U1 : lo (K s) < u) by exact (Qcle_lt_trans _ _ _ (max_l (lo (K s)) (lo (K t))) M1). assert (U2 : lo (K t) < u) by exact (Qcle_lt_trans _ _ _ (max_r (lo (K s)) (lo (K t))) M1).
    rewrite (Mv s us u Hs A1 A2) by by_eq. rewrite (Mv t ut u Ht B1 B2) by by_eq.
    assert (U : under e es s u = negb (under e es t u)) by (apply (turn_left e P Hsh es Hpr HP Hev Hmeet s t Hs Ht Hst q Eqs Eqt Hq r Hr Hr' u E2 E1); by_eq).
    rewrite U. destruct (under e es t u); reflexivity.
  - destruct (up_parts s Ds) as (S1 & S2). destruct (up_parts t Dt) as (T1 & T2).
    assert (E1 : lo (K t) = pos e q) by (cbn [kp lo hi]; rewrite T1, Eq; reflexivity). assert (E2 : hi (K s) = pos e q) by (cbn [kp lo hi]; rewrite S2; reflexivity).
    f_equal. rewrite (Mv t ut (pos e q) Ht B1 B2) by by_eq.
    apply (turn_through e P Hsh es Hpr HP Hev Hmeet s t Hs Ht q Eqs Eqt Hq r Hr Hr' us E2 E1 A1). by_eq.
Qed.

Lemma at_least_vertex : forall u v w, In (Seg u v) es -> In (Seg v w) es -> Seg u v <> Seg v w ->
  plt v u -> plt v w -> 0 < cross u v w ->
  (forall k, In k es -> k <> Seg u v -> k <> Seg v w -> plt v (seg_lo k)) ->
  under e es (Seg v w) (lo (K (Seg v w))) = false.
Proof.
  intros u v w Hs Ht Hst L1 L2 C Hk. unfold under.
  assert (E1 : seg_lo (Seg v w) = v /\ seg_hi (Seg v w) = w).
  { apply up_parts. unfold descends. cbn. destruct (pt_ltb_spec w v) as [J|J]; [exfalso; exact (plt_irrefl _ (plt_trans _ _ _ L2 J))|reflexivity]. }
  assert (E2 : seg_lo (Seg u v) = v /\ seg_hi (Seg u v) = u).
  { apply down_parts. unfold descends. cbn. destruct (pt_ltb_spec v u) as [J|J]; [reflexivity|contradiction]. }
  assert (Vp : In v P) by (destruct (k_in P es HP _ Ht) as (J & _); rewrite (proj1 E1) in J; exact J).
  assert (Up : In u P) by (destruct (k_in P es HP _ Hs) as (_ & J); rewrite (proj2 E2) in J; exact J).
  assert (Wp : In w P) by (destruct (k_in P es HP _ Ht) as (_ & J); rewrite (proj2 E1) in J; exact J).
  pose proof (Hsh _ _ Vp Up L1) as Lu. pose proof (Hsh _ _ Vp Wp L2) as Lw.
  assert (El : lo (K (Seg v w)) = pos e v) by (cbn; rewrite (proj1 E1); reflexivity). rewrite El.
  apply parity_none. intros k Ik. apply in_map_iff in Ik. destruct Ik as (k' & <- & Ik). unfold undermost.
  destruct (segment_eq_dec k' (Seg v w)) as [->|N1]; [rewrite germ_self; apply andb_false_r|].
  destruct (segment_eq_dec k' (Seg u v)) as [->|N2].
  - assert (G : germ false (K (Seg u v)) (K (Seg v w)) (pos e v) = false); [|rewrite G; apply andb_false_r].
    assert (H1 : ht (K (Seg u v)) (pos e v) = py v) by (rewrite kp_ht, (proj1 E2), (proj2 E2); apply line_at_start).
    assert (H2 : ht (K (Seg v w)) (pos e v) = py v) by (rewrite kp_ht, (proj1 E1), (proj2 E1); apply line_at_start).
    unfold germ. rewrite H1, H2, (ltb_false (py v)) by apply Qcle_refl. rewrite Qc_eqb_same. cbn [orb andb]. rewrite orb_false_r.
    apply ltb_false. cbn [kp sl]. rewrite (proj1 E1), (proj2 E1), (proj1 E2), (proj2 E2).
    assert (Cp : cross u v w = cross v w u) by (unfold cross; ring). rewrite Cp in C.
    pose proof (slope_eq e v w ltac:(intro J; rewrite J in Lw; qlra)) as Sw. pose proof (slope_eq e v u ltac:(intro J; rewrite J in Lu; qlra)) as Su.
    rewrite (cross_pos e) in C. destruct (Qclt_le_dec (slope e v u) (slope e v w)) as [J|J]; [exfalso|exact J].
    rewrite <- Sw, <- Su in C. refine (slopes_arith _ _ _ _ _ _ J C); qlra.
  - rewrite covers_not; [reflexivity|]. left. apply Hsh; [exact Vp|exact (proj1 (k_in P es HP k' Ik))|exact (Hk k' Ik N2 N1)].
Qed.
End Consecutive.
