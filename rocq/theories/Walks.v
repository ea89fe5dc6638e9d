(** Contours traced from boundaries of regions made of parts meeting at points
    only.  Proof support only, no part of /repo is modelled here. *)
From Coq Require Import Permutation.
From Verif Require Import QcTac Geom Spec SpecShape GeomFacts Sweep Linear Contour ConnectThms Tracing TraceThms RegionThms Parity Polygons Loops Labelled Filter Mixed Shaped Holey ShapedThms FollowThms Faces TracedLoops EvenOdd.

Lemma next_from_same : forall fuel c e x p p' w, next_event_from fuel e x p c = Ok (Some w) -> (forall i, nth i p false = true -> nth i p' false = true) ->
  nth w p' false = false -> next_event_from fuel e x p' c = Ok (Some w).
Proof.
  induction fuel as [|f IH]; intros c e x p p' w H M W; [discriminate H|]. cbn [next_event_from] in *.
  destruct (nth (nth x c O) p false) eqn:E; cbn [negb] in H.
  - rewrite (M _ E). cbn [negb]. destruct (Nat.eqb (nth x c O) e); [discriminate H|]. exact (IH _ _ _ p p' w H M W).
  - injection H as <-. rewrite W. reflexivity.
Qed.
Lemma trail_links : forall op nxt fr e0 h, trail op nxt fr e0 h -> forall j, (S j < length h)%nat -> fair_next op nxt fr (nth (S j) h O) (nth j h O).
Proof.
  intros op nxt fr e0. induction h as [|x h IH]; intros T j Hj; [cbn in Hj; lia|]. destruct h as [|y h]; [cbn in Hj; lia|].
  apply trail_tail in T. destruct T as (T1 & T2). destruct j as [|j]; [exact T1|]. apply (IH T2 j). cbn in Hj |- *. lia.
Qed.
Lemma trail_last : forall op nxt fr e0 h, trail op nxt fr e0 h -> last h O = e0.
Proof.
  intros op nxt fr e0. induction h as [|x h IH]; intro T; [contradiction|]. destruct h as [|y h]; [exact T|]. exact (IH (proj2 (trail_tail _ _ _ _ _ _ _ T))).
Qed.
Lemma edges_ext : forall op L M i, (forall x, In x L <-> In x M) -> edges op L i = edges op M i.
Proof. intros op L M i H. apply Bool.eq_iff_eq_true. rewrite !edges_spec, !H. tauto. Qed.

Section Walks.
Variables (evs : list holey_event) (c : list nat).
Notation ts := (map h_traced evs).
Notation n := (length evs).
Notation vtx := (vx evs).
Notation op := (ov evs).
Notation nxt := (nx c).
Notation st i := (t_start (tev ts i)).
Hypothesis Hpair : paired ts.
Hypothesis Hgroup : grouped (starts ts).
Hypothesis Hids : forall i j, (i < n)%nat -> (j < n)%nat -> vtx i = vtx j <-> t_start (tev ts i) = t_start (tev ts j).
Hypothesis Hproper : forall i, (i < n)%nat -> t_start (tev ts i) <> t_end (tev ts i).
Hypothesis Hconn : events_to_connectivity ts = Ok c.
(** Number of edges of a set under a point, up to evenness. *)
Definition ins (Z : nat -> bool) (q : point) : bool := parity (fun i => t_left (tev ts i) && Z i && passes_under (edge ts i) q) (seq 0 n).
Variables lp rp : nat -> point.
Hypothesis Hs : forall Z, closed n vtx op Z -> sides n op nxt Z (fun i => ins Z (lp i)).
Hypothesis Hf : forall Z, closed n vtx op Z -> forall i, (i < n)%nat -> ins Z (rp i) = xorb (ins Z (lp i)) (Z i).
Hypothesis Hu : forall Z e0, closed n vtx op Z -> (e0 < n)%nat -> Z e0 = true -> (forall i, (i < e0)%nat -> Z i = false) -> ins Z (rp e0) = false.
Definition good (q : point) : Prop := exists i, (i < n)%nat /\ (q = lp i \/ q = rp i).
Variables (K : Type) (ks : K -> Prop) (D : K -> point -> bool) (Zk : K -> nat -> bool).
Hypothesis Kdec : forall k k' : K, k = k' \/ k <> k'.
Hypothesis P1 : forall k, ks k -> closed n vtx op (Zk k).
Hypothesis P2 : forall k q, ks k -> good q -> ins (Zk k) q = D k q.
Hypothesis P3 : forall k k' q, ks k -> ks k' -> k <> k' -> good q -> D k q = true -> D k' q = false.
Hypothesis P4 : forall i, (i < n)%nat -> exists k, ks k /\ Zk k i = true.
Hypothesis P8 : forall k q, ks k -> good q -> D k q = true -> ins (fun _ => true) q = true.
Hypothesis P9 : forall k L q, ks k -> loop n vtx op L -> (forall x y, In x L -> In y L -> op x <> y) -> (forall x, In x L -> Zk k x = true) ->
  good q -> ins (edges op L) q = true -> D k q = true.
Hypothesis P10 : forall k k' i, ks k -> ks k' -> (i < n)%nat -> Zk k i = true -> Zk k' i = true -> k = k'.
Hypothesis Pall : closed n vtx op (fun _ => true).

Lemma w_op : forall i, (i < n)%nat -> (op i < n)%nat /\ op i <> i /\ op (op i) = i.
Proof. exact (f_op evs Hpair). Qed.
Lemma w_sides : forall Z, closed n vtx op Z -> exists sg, sides n op nxt Z sg.
Proof. intros Z HZ. exists (fun i => ins Z (lp i)). exact (Hs Z HZ). Qed.
Lemma ins_ext : forall Z Z' q, (forall i, (i < n)%nat -> Z i = Z' i) -> ins Z q = ins Z' q.
Proof. intros Z Z' q H. apply parity_ext. intros i Hi. apply in_seq in Hi. rewrite (H i) by lia. reflexivity. Qed.
Lemma ins_xor : forall Z Z' q, ins (fun i => xorb (Z i) (Z' i)) q = xorb (ins Z q) (ins Z' q).
Proof. intros Z Z' q. unfold ins. rewrite <- parity_xor. apply parity_ext. intros i _. destruct (t_left (tev ts i)), (Z i), (Z' i), (passes_under (edge ts i) q); reflexivity. Qed.
Lemma closed_ext : forall Z Z', (forall i, (i < n)%nat -> Z i = Z' i) -> closed n vtx op Z -> closed n vtx op Z'.
Proof.
  intros Z Z' H (A & B). split.
  - intros i Hi. rewrite <- (H i Hi), <- (H _ (proj1 (w_op i Hi))). exact (A i Hi).
  - intro v. rewrite <- (B v). apply parity_ext. intros i Hi. apply in_seq in Hi. rewrite (H i) by lia. reflexivity.
Qed.
Lemma closed_xor : forall Z Z', closed n vtx op Z -> closed n vtx op Z' -> closed n vtx op (fun i => xorb (Z i) (Z' i)).
Proof.
  intros Z Z' (A & B) (A' & B'). split; [intros i Hi; rewrite (A i Hi), (A' i Hi); reflexivity|]. intro v.
  rewrite (parity_ext _ (fun i => xorb (Z i && Nat.eqb (vtx i) v) (Z' i && Nat.eqb (vtx i) v))).
  - rewrite parity_xor, (B v), (B' v). reflexivity.
  - intros i _. destruct (Z i), (Z' i), (Nat.eqb (vtx i) v); reflexivity.
Qed.
Lemma good_left : forall i, (i < n)%nat -> good (lp i).
Proof. intros i Hi. exists i. auto. Qed.
Lemma good_right : forall i, (i < n)%nat -> good (rp i).
Proof. intros i Hi. exists i. auto. Qed.

Lemma w_closed : forall L, loop n vtx op L -> (forall x y, In x L -> In y L -> op x <> y) -> closed n vtx op (edges op L).
Proof.
  intros L HL Once. destruct L as [|x L]; [elim (lo_ne _ _ _ _ HL); reflexivity|]. exact (loop_closed n vtx op w_op x (lo_lt _ _ _ _ HL x (or_introl eq_refl)) (x :: L) HL Once).
Qed.

(** Edges left. *)
Record remains (fr : nat -> bool) : Prop := {
  rm_closed : closed n vtx op fr;
  rm_mem : forall q, good q -> ins fr q = true -> ins (fun _ => true) q = true;
  rm_part : forall k, ks k -> closed n vtx op (fun i => Zk k i && fr i);
  rm_ins : forall k q, ks k -> good q -> ins (fun i => Zk k i && fr i) q = D k q && ins fr q }.
Lemma remains_all : remains (fun _ => true).
Proof.
  constructor; [exact Pall|auto| |].
  - intros k Hk. apply (closed_ext (Zk k)); [intros i _; symmetry; apply andb_true_r|exact (P1 k Hk)].
  - intros k q Hk Gq. rewrite (ins_ext _ (Zk k)) by (intros i _; apply andb_true_r). rewrite (P2 k q Hk Gq). destruct (D k q) eqn:E; [|reflexivity]. rewrite (P8 k q Hk Gq E). reflexivity.
Qed.
Lemma remains_ext : forall fr fr', (forall i, (i < n)%nat -> fr i = fr' i) -> remains fr -> remains fr'.
Proof.
  intros fr fr' H [A B C E]. constructor.
  - exact (closed_ext fr fr' H A).
  - intros q Gq. rewrite <- (ins_ext fr fr' q H). exact (B q Gq).
  - intros k Hk. apply (closed_ext (fun i => Zk k i && fr i)); [intros i Hi; rewrite (H i Hi); reflexivity|exact (C k Hk)].
  - intros k q Hk Gq. rewrite <- (ins_ext fr fr' q H), <- (E k q Hk Gq). apply ins_ext. intros i Hi. rewrite (H i Hi). reflexivity.
Qed.
Definition looped (k : K) (L : list nat) : Prop :=
  ks k /\ loop n vtx op L /\ (forall x y, In x L -> In y L -> op x <> y) /\ (forall x, In x L -> Zk k x = true).
Lemma looped_edges : forall k L, looped k L -> forall i, (i < n)%nat -> edges op L i = true -> Zk k i = true.
Proof.
  intros k L (Hk & HL & _ & Z) i Hi E. apply edges_spec in E. destruct E as [E|E]; [exact (Z i E)|]. rewrite <- (proj1 (P1 k Hk) i Hi). exact (Z _ E).
Qed.
Lemma remains_next : forall fr k L, remains fr -> looped k L -> (forall x, In x L -> fr x = true) -> remains (fun i => xorb (fr i) (edges op L i)).
Proof.
  intros fr k L [A B C E] HL Hfr. pose proof (looped_edges k L HL) as Le. destruct HL as (Hk & HL & Once & Z).
  assert (CL : closed n vtx op (edges op L)) by exact (w_closed L HL Once).
  constructor.
  - apply closed_xor; assumption.
  - intros q Gq. rewrite ins_xor. destruct (ins fr q) eqn:E1; [intros _; exact (B q Gq E1)|]. intro E2. rewrite xorb_false_l in E2. apply (P8 k q Hk Gq). exact (P9 k L q Hk HL Once Z Gq E2).
  - intros k' Hk'. destruct (Kdec k' k) as [->|N].
    + apply (closed_ext (fun i => xorb (Zk k i && fr i) (edges op L i))); [|apply closed_xor; [exact (C k Hk)|exact CL]].
      intros i Hi. destruct (edges op L i) eqn:Ei; [rewrite (Le i Hi Ei); destruct (fr i); reflexivity|]. destruct (Zk k i), (fr i); reflexivity.
    + apply (closed_ext (fun i => Zk k' i && fr i)); [|exact (C k' Hk')]. intros i Hi. destruct (edges op L i) eqn:Ei; [|rewrite xorb_false_r; reflexivity].
      destruct (Zk k' i) eqn:Ez; [|reflexivity]. elim N. exact (P10 k' k i Hk' Hk Hi Ez (Le i Hi Ei)).
  - intros k' q Hk' Gq. rewrite ins_xor. destruct (Kdec k' k) as [->|N].
    + rewrite (ins_ext _ (fun i => xorb (Zk k i && fr i) (edges op L i))).
      * rewrite ins_xor, (E k q Hk Gq). pose proof (P9 k L q Hk HL Once Z Gq) as P. destruct (D k q), (ins fr q), (ins (edges op L) q); try reflexivity; specialize (P eq_refl); discriminate P.
      * intros i Hi. destruct (edges op L i) eqn:Ei; [rewrite (Le i Hi Ei); destruct (fr i); reflexivity|]. destruct (Zk k i), (fr i); reflexivity.
    + rewrite (ins_ext _ (fun i => Zk k' i && fr i)).
      * rewrite (E k' q Hk' Gq). pose proof (P9 k L q Hk HL Once Z Gq) as P. destruct (D k' q) eqn:Ed; [|reflexivity]. pose proof (P3 k' k q Hk' Hk N Gq Ed) as Q.
        destruct (ins (edges op L) q); [rewrite (P eq_refl) in Q; discriminate Q|]. rewrite xorb_false_r. reflexivity.
      * intros i Hi. destruct (edges op L i) eqn:Ei; [|rewrite xorb_false_r; reflexivity]. destruct (Zk k' i) eqn:Ez; [|reflexivity]. elim N. exact (P10 k' k i Hk' Hk Hi Ez (Le i Hi Ei)).
Qed.

(** One contour. *)
Section Contour.
Variable p0 : list bool.
Notation fr := (unused p0).
Hypothesis Hp0 : length p0 = n.
Hypothesis Hrm : remains fr.
Variable e0 : nat.
Hypothesis He0 : (e0 < n)%nat.
Hypothesis Fe0 : fr e0 = true.
Hypothesis Hmin : forall i, (i < e0)%nat -> fr i = false.
Notation Gone := (gone n op nxt fr e0).
Let Cfr := rm_closed fr Hrm.
Lemma w_trail : forall Z h x, closed n vtx op Z -> within n fr Z -> Gone h -> In x h -> ins Z (lp x) = ins Z (lp e0).
Proof.
  intros Z h x CZ W G I. apply (trail_side n vtx op nxt fr w_op (f_nxt evs Hids c Hconn) e0 Z (fun i => ins Z (lp i)) CZ W (Hs Z CZ) h (go_trail _ _ _ _ _ _ G)); [|exact I].
  intros y Hy. apply (go_fr _ _ _ _ _ _ G y Hy).
Qed.
Lemma first_outside : ins fr (rp e0) = false /\ ins fr (lp e0) = true.
Proof.
  pose proof (Hu fr e0 Cfr He0 Fe0 Hmin) as A. split; [exact A|]. rewrite (Hf fr Cfr e0 He0), Fe0 in A. destruct (ins fr (lp e0)); [reflexivity|discriminate A].
Qed.
Variable k0 : K.
Hypothesis Hk0 : ks k0.
Hypothesis Zk0 : Zk k0 e0 = true.
Lemma gone_facts : forall h x, Gone h -> In x h -> (x < n)%nat /\ fr x = true /\ Zk k0 x = true /\ ins (fun _ => true) (rp x) = false.
Proof.
  intros h x G I. destruct (go_fr _ _ _ _ _ _ G x I) as (Hx & Fx). split; [exact Hx|]. split; [exact Fx|]. destruct first_outside as (R0 & L0).
  assert (W : within n fr fr) by (intros i _ F; exact F).
  pose proof (w_trail fr h x Cfr W G I) as Lx. rewrite L0 in Lx.
  assert (Rx : ins fr (rp x) = false) by (rewrite (Hf fr Cfr x Hx), Lx, Fx; reflexivity).
  set (Fc := fun i => Zk k0 i && fr i). pose proof (rm_part fr Hrm k0 Hk0) as Cc. fold Fc in Cc.
  assert (Wc : within n fr Fc) by (intros i _ F; unfold Fc in F; apply andb_prop in F; apply F).
  assert (Sub : forall q, good q -> ins Fc q = true -> ins fr q = true).
  { intros q Gq Q. unfold Fc in Q. rewrite (rm_ins fr Hrm k0 q Hk0 Gq) in Q. apply andb_prop in Q. apply Q. }
  assert (Rc : forall y, (y < n)%nat -> ins fr (rp y) = false -> ins Fc (rp y) = false).
  { intros y Hy Q. destruct (ins Fc (rp y)) eqn:E; [|reflexivity]. rewrite (Sub _ (good_right y Hy) E) in Q. discriminate Q. }
  assert (L1 : ins Fc (lp e0) = true).
  { pose proof (Rc e0 He0 R0) as Q. rewrite (Hf Fc Cc e0 He0) in Q. unfold Fc at 2 in Q. rewrite Zk0, Fe0 in Q. destruct (ins Fc (lp e0)); [reflexivity|discriminate Q]. }
  split.
  - pose proof (w_trail Fc h x Cc Wc G I) as Q. rewrite L1 in Q. pose proof (Rc x Hx Rx) as Q'. rewrite (Hf Fc Cc x Hx), Q in Q'. unfold Fc in Q'. destruct (Zk k0 x); [reflexivity|discriminate Q'].
  - destruct (ins (fun _ => true) (rp x)) eqn:E; [|reflexivity]. exfalso. rewrite (Hf _ Pall x Hx) in E.
    pose proof (rm_mem fr Hrm (lp x) (good_left x Hx) Lx) as Q. rewrite Q in E. discriminate E.
Qed.
(** A part of the way is closed. *)
Lemma trail_loop : forall g t, Gone (g ++ t) -> g <> [] -> NoDup (map vtx g) -> vtx (op (hd O g)) = vtx (last g O) -> loop n vtx op (rev g).
Proof.
  intros g t G Ne Nd E. assert (Lg : (0 < length g)%nat) by (destruct g; [contradiction|cbn; lia]).
  assert (Lt : forall x, In x g -> (x < n)%nat) by (intros x Hx; apply (go_fr _ _ _ _ _ _ G x); apply in_or_app; left; exact Hx).
  assert (Nh : nth 0 g O = hd O g) by (destruct g; reflexivity).
  assert (Nl : nth (length g - 1) g O = last g O).
  { clear - Lg. induction g as [|x g IH]; [cbn in Lg; lia|]. destruct g as [|y g]; [reflexivity|]. change (last (x :: y :: g) O) with (last (y :: g) O). rewrite <- IH by (cbn; lia). cbn. rewrite Nat.sub_0_r. reflexivity. }
  constructor.
  - intro K0. apply (f_equal (@rev nat)) in K0. rewrite rev_involutive in K0. exact (Ne K0).
  - intros x Hx. apply Lt, in_rev, Hx.
  - rewrite map_rev. apply NoDup_rev, Nd.
  - intros q Hq. rewrite rev_length in Hq. unfold before. destruct q as [|q].
    + rewrite rev_length, !rev_nth by lia. replace (length g - S (length g - 1))%nat with 0%nat by lia. rewrite Nh, Nl. symmetry. exact E.
    + rewrite !rev_nth by lia. set (j := (length g - S (S q))%nat). replace (length g - S q)%nat with (S j) by lia.
      pose proof (trail_links _ _ _ _ _ (go_trail _ _ _ _ _ _ G) j) as Q. rewrite app_length in Q. specialize (Q ltac:(lia)). rewrite !app_nth1 in Q by lia.
      apply (next_lt n vtx op nxt fr w_op (f_nxt evs Hids c Hconn) (nth (S j) g O) (nth j g O)); [apply Lt, nth_In; lia|exact Q].
Qed.
Lemma looped_part : forall g t, Gone (g ++ t) -> g <> [] -> NoDup (map vtx g) -> vtx (op (hd O g)) = vtx (last g O) -> looped k0 (rev g).
Proof.
  intros g t G Ne Nd E. split; [exact Hk0|]. split; [exact (trail_loop g t G Ne Nd E)|]. split.
  - intros x y Hx Hy. apply in_rev in Hx. apply in_rev in Hy. apply (gone_once n vtx op nxt fr w_op (f_nxt evs Hids c Hconn) w_sides Cfr e0 (g ++ t) x y G); apply in_or_app; left; assumption.
  - intros x Hx. apply in_rev in Hx. apply (gone_facts (g ++ t) x G). apply in_or_app. left. exact Hx.
Qed.
(** No vertex is visited again. *)
Lemma never_again : forall d h, Gone (d :: h) -> NoDup (map vtx (d :: h)) -> vtx (op d) <> vtx e0 -> ~ In (vtx (op d)) (map vtx (d :: h)).
Proof.
  intros d h G Nd N I. apply in_map_iff in I. destruct I as (b & Eb & Ib). destruct (in_split b (d :: h) Ib) as (t1 & t2 & Eh).
  assert (T2 : t2 <> []).
  { intros ->. apply N. pose proof (trail_last _ _ _ _ _ (go_trail _ _ _ _ _ _ G)) as Q. rewrite Eh, last_last in Q. rewrite <- Eb, Q. reflexivity. }
  destruct t2 as [|a t2]; [contradiction|]. set (g := t1 ++ [b]). assert (Eg : d :: h = g ++ a :: t2) by (unfold g; rewrite <- app_assoc; exact Eh).
  assert (Gg : Gone (g ++ a :: t2)) by (rewrite <- Eg; exact G).
  assert (Ng : g <> []) by (unfold g; destruct t1; discriminate).
  assert (Hd : hd O g = d) by (unfold g in *; destruct t1; cbn in Eg |- *; injection Eg as -> _; reflexivity).
  assert (Lg : last g O = b) by (unfold g; apply last_last).
  rewrite Eg, map_app in Nd. assert (Nv : NoDup (map vtx g)) by exact (Polygons.NoDup_app_remove_r _ _ _ Nd).
  pose proof (looped_part g (a :: t2) Gg Ng Nv ltac:(rewrite Hd, Lg; symmetry; exact Eb)) as HL. set (L := rev g) in *.
  destruct HL as (_ & HL & Once & ZL). assert (CL : closed n vtx op (edges op L)) by exact (w_closed L HL Once).
  assert (WL : within n fr (edges op L)).
  { intros i Hi Ei. apply edges_spec in Ei. assert (F : forall x, In x L -> fr x = true) by (intros x Hx; apply in_rev in Hx; apply (go_fr _ _ _ _ _ _ Gg); apply in_or_app; left; exact Hx).
    destruct Ei as [Ei|Ei]; [exact (F i Ei)|]. rewrite <- (proj1 Cfr i Hi). exact (F _ Ei). }
  assert (Ibh : In b (g ++ a :: t2)) by (apply in_or_app; left; unfold g; apply in_or_app; right; left; reflexivity).
  assert (Iah : In a (g ++ a :: t2)) by (apply in_or_app; right; left; reflexivity).
  destruct (gone_facts _ b Gg Ibh) as (Lb & _ & _ & Rb). destruct (gone_facts _ a Gg Iah) as (La & _ & _ & Ra).
  assert (Mem : forall q, good q -> ins (edges op L) q = true -> ins (fun _ => true) q = true).
  { intros q Gq Q. apply (P8 k0 q Hk0 Gq). exact (P9 k0 L q Hk0 HL Once ZL Gq Q). }
  pose proof (w_trail _ _ b CL WL Gg Ibh) as Sb. pose proof (w_trail _ _ a CL WL Gg Iah) as Sa.
  assert (Eb' : edges op L b = true). { apply edges_spec. left. unfold L. apply in_rev. rewrite rev_involutive. unfold g. apply in_or_app. right. left. reflexivity. }
  assert (Ea : edges op L a = false).
  { destruct (edges op L a) eqn:Q; [|reflexivity]. exfalso. apply edges_spec in Q. destruct Q as [Q|Q]; apply in_rev in Q.
    - apply (Polygons.NoDup_app_disjoint _ _ _ Nd (vtx a)); [apply in_map; exact Q|left; reflexivity].
    - apply (gone_once n vtx op nxt fr w_op (f_nxt evs Hids c Hconn) w_sides Cfr e0 (g ++ a :: t2) a (op a) Gg Iah); [apply in_or_app; left; exact Q|reflexivity]. }
  destruct (ins (edges op L) (lp e0)) eqn:Kp.
  - assert (Q : ins (edges op L) (rp a) = true) by (rewrite (Hf _ CL a La), Sa, Ea; reflexivity). rewrite (Mem _ (good_right a La) Q) in Ra. discriminate Ra.
  - assert (Q : ins (edges op L) (rp b) = true) by (rewrite (Hf _ CL b Lb), Sb, Eb'; reflexivity). rewrite (Mem _ (good_right b Lb) Q) in Rb. discriminate Rb.
Qed.
Definition flags (p : list bool) (h : list nat) : Prop := length p = n /\ forall i, (i < n)%nat -> nth i p false = (edges op h i || nth i p0 false)%bool.
Lemma mark_flags : forall p h w, flags p h -> (w < n)%nat -> flags (mark_pair ts p w) (w :: h).
Proof.
  intros p h w (A & B) Hw. destruct (w_op w Hw) as (Ho & _ & Oo). assert (Eo : opp ts w = op w) by (unfold opp; rewrite h_tev; reflexivity).
  unfold mark_pair. change (t_opposite (tev ts w)) with (opp ts w). rewrite Eo. split; [rewrite !mark_length; exact A|]. intros i Hi.
  rewrite !mark_nth by (rewrite ?mark_length; lia). rewrite (B i Hi). unfold edges. cbn [existsb]. destruct (w_op i Hi) as (_ & _ & Oi).
  assert (E : Nat.eqb i (op w) = Nat.eqb (op i) w).
  { destruct (Nat.eqb_spec i (op w)) as [->|N]; [rewrite Oo, Nat.eqb_refl; reflexivity|]. symmetry. apply Nat.eqb_neq. intros E. apply N. rewrite <- E. symmetry. exact Oi. }
  rewrite E. destruct (Nat.eqb i w), (Nat.eqb (op i) w), (existsb (Nat.eqb i) h), (existsb (Nat.eqb (op i)) h), (nth i p0 false); reflexivity.
Qed.
Lemma contour_walked : forall fuel d h p, Gone (d :: h) -> NoDup (map vtx (d :: h)) -> flags p (d :: h) -> (n < fuel + length (d :: h))%nat ->
  exists L p', trace_contour fuel ts c (st e0) d (map (fun i => st i) (rev (d :: h))) (rev (d :: h)) p = Ok (map (fun i => st i) L, L, p')
    /\ looped k0 L /\ (forall x, In x L -> fr x = true) /\ (In e0 L /\ nth 0 L O = e0) /\ flags p' L /\ forall x, In x L -> ins (fun _ => true) (rp x) = false.
Proof.
  induction fuel as [|f IH]; intros d h p G Nd Fl Hfu.
  { exfalso. assert (Q : (length (d :: h) <= length (seq 0 n))%nat).
    { apply NoDup_incl_length; [exact (go_nodup _ _ _ _ _ _ G)|]. intros x Hx. apply in_seq. pose proof (proj1 (go_fr _ _ _ _ _ _ G x Hx)). lia. }
    rewrite seq_length in Q. cbn [plus] in Hfu. lia. }
  cbn [trace_contour]. destruct (go_fr _ _ _ _ _ _ G d (or_introl eq_refl)) as (Ld & Fd). destruct (w_op d Ld) as (Lo & _ & _).
  assert (Ee : t_end (tev ts d) = st e0 <-> vtx (op d) = vtx e0) by (rewrite (f_end evs Hpair d Ld); symmetry; apply Hids; assumption).
  destruct (pt_eqb_spec (t_end (tev ts d)) (st e0)) as [E|N].
  - exists (rev (d :: h)), p. split; [reflexivity|]. apply Ee in E. pose proof (trail_last _ _ _ _ _ (go_trail _ _ _ _ _ _ G)) as La.
    assert (G' : Gone ((d :: h) ++ [])) by (rewrite app_nil_r; exact G).
    split; [apply (looped_part (d :: h) [] G' ltac:(discriminate) Nd); rewrite La; exact E|]. split; [intros x Hx; apply in_rev in Hx; apply (go_fr _ _ _ _ _ _ G x Hx)|].
    split; [|split].
    + split.
      * apply in_rev. rewrite rev_involutive, <- La. clear. revert d. induction h as [|x h IH]; intro d; [left; reflexivity|]. right. exact (IH x).
      * rewrite <- La. clear - h. assert (A : forall (m : list nat) x, nth 0 (rev (x :: m)) O = last (x :: m) O); [|exact (A h d)].
        intro m. induction m as [|y m IH]; intro x; [reflexivity|]. change (last (x :: y :: m) O) with (last (y :: m) O). rewrite <- (IH y).
        change (rev (x :: y :: m)) with (rev (y :: m) ++ [x]). apply app_nth1. rewrite rev_length. cbn. lia.
    + split; [exact (proj1 Fl)|]. intros i Hi. rewrite (proj2 Fl i Hi). f_equal. apply edges_ext. intro x. apply in_rev.
    + intros x Hx. apply in_rev in Hx. apply (gone_facts _ x G Hx).
  - assert (N' : vtx (op d) <> vtx e0) by (intro Q; apply N, Ee, Q).
    destruct (next_fair evs Hpair Hgroup c Hconn p0 Cfr d Ld Fd) as (w & Ew & Fw).
    destruct (next_lt n vtx op nxt fr w_op (f_nxt evs Hids c Hconn) d w Ld Fw) as (Lw & Vw & Frw).
    pose proof (gone_next n vtx op nxt fr w_op (f_nxt evs Hids c Hconn) (f_inj evs c Hconn) Cfr e0 d h w G Fw N') as G2.
    assert (Uw : nth w p false = false).
    { rewrite (proj2 Fl w Lw). unfold unused in Frw. destruct (nth w p0 false); [discriminate Frw|]. rewrite orb_false_r. destruct (edges op (d :: h) w) eqn:Q; [|reflexivity]. exfalso.
      apply edges_spec in Q. destruct Q as [Q|Q].
      - pose proof (go_nodup _ _ _ _ _ _ G2) as Nw. inversion Nw as [|? ? Q' _]. exact (Q' Q).
      - exact (gone_once n vtx op nxt fr w_op (f_nxt evs Hids c Hconn) w_sides Cfr e0 (w :: d :: h) w (op w) G2 (or_introl eq_refl) (or_intror Q) eq_refl). }
    assert (Mono : forall i, nth i p0 false = true -> nth i p false = true).
    { intros i Hi. destruct (Nat.lt_ge_cases i n) as [Li|Li]; [rewrite (proj2 Fl i Li), Hi; apply orb_true_r|]. rewrite nth_overflow in Hi by lia. discriminate Hi. }
    assert (Ew' : next_event (t_opposite (tev ts d)) p c = Ok (Some w)).
    { assert (Eo : t_opposite (tev ts d) = op d) by (rewrite h_tev; reflexivity). rewrite Eo. unfold next_event in *. exact (next_from_same _ _ _ _ p0 p w Ew Mono Uw). }
    rewrite Ew'.
    assert (Nd2 : NoDup (map vtx (w :: d :: h))). { cbn [map]. constructor; [|exact Nd]. rewrite Vw. exact (never_again d h G Nd N'). }
    destruct (IH w (d :: h) (mark_pair ts p w) G2 Nd2 (mark_flags p (d :: h) w Fl Lw) ltac:(cbn [length] in *; lia)) as (L & p' & R & Q).
    exists L, p'. split; [|exact Q]. rewrite <- R. f_equal. change (rev (w :: d :: h)) with (rev (d :: h) ++ [w]). rewrite map_app. cbn [map]. f_equal. f_equal.
    rewrite (f_end evs Hpair d Ld). apply Hids; [exact Lo|exact Lw|]. symmetry. exact Vw.
Qed.
End Contour.
Theorem contours_walked : forall m k p, (m + k = n)%nat -> length p = n -> remains (unused p) -> (forall i, (i < k)%nat -> nth i p false = true) ->
  exists cs, trace_contours ts c (seq k m) p = Ok cs
    /\ Forall (fun x => fst x = map (fun i => st i) (snd x) /\ (exists k0, looped k0 (snd x)) /\ forall y, In y (snd x) -> ins (fun _ => true) (rp y) = false) cs
    /\ Forall (fun x => forall y, In y (snd x) -> (nth 0 (snd x) O <= y)%nat) cs.
Proof.
  induction m as [|m IH]; intros k p Hm Lp Rm Bef; [exists []; split; [reflexivity|split; constructor]|]. cbn [seq trace_contours].
  destruct (nth k p false) eqn:E.
  { apply (IH (S k) p); [lia|exact Lp|exact Rm|]. intros i Hi. destruct (Nat.eq_dec i k) as [->|N]; [exact E|]. apply Bef. lia. }
  assert (Hk : (k < n)%nat) by lia. assert (Fk : unused p k = true) by (unfold unused; rewrite E; reflexivity).
  assert (Min : forall i, (i < k)%nat -> unused p i = false) by (intros i Hi; unfold unused; rewrite (Bef i Hi); reflexivity).
  destruct (P4 k Hk) as (k0 & Kk0 & Z0).
  assert (G : gone n op nxt (unused p) k [k]).
  { constructor; [reflexivity|constructor; [intros []|constructor]|]. intros x [<-|[]]. split; assumption. }
  assert (Fl : flags p (mark_pair ts p k) [k]).
  { apply (mark_flags p Lp k Hk p [] k); [|exact Hk]. split; [exact Lp|]. intros i Hi. reflexivity. }
  destruct (contour_walked p Lp Rm k Hk Fk Min k0 Kk0 Z0 (S n) k [] (mark_pair ts p k) G ltac:(constructor; [intros []|constructor]) Fl ltac:(cbn; lia)) as (L & p' & R & HL & FL & (IL & ZL) & Fp & Out).
  rewrite (map_length h_traced). cbn [rev app map] in R. rewrite R.
  destruct (IH (S k) p' ltac:(lia) (proj1 Fp)) as (cs & Ec & Fc & Fm).
  - apply (remains_ext (fun i => xorb (unused p i) (edges op L i))); [|exact (remains_next (unused p) k0 L Rm HL FL)].
    intros i Hi. unfold unused. rewrite (proj2 Fp i Hi). destruct (edges op L i) eqn:Ei; [|destruct (nth i p false); reflexivity].
    assert (Fi : unused p i = true). { apply edges_spec in Ei. destruct Ei as [Ei|Ei]; [exact (FL i Ei)|]. rewrite <- (proj1 (rm_closed _ Rm) i Hi). exact (FL _ Ei). }
    unfold unused in Fi. destruct (nth i p false); [discriminate Fi|reflexivity].
  - intros i Hi. assert (Li : (i < n)%nat) by lia. rewrite (proj2 Fp i Li). destruct (Nat.eq_dec i k) as [->|N].
    + assert (Q : edges op L k = true) by (apply edges_spec; left; exact IL). rewrite Q. reflexivity.
    + rewrite (Bef i) by lia. apply orb_true_r.
  - rewrite Ec. exists ((map (fun i => st i) L, L) :: cs). split; [reflexivity|]. split.
    + constructor; [|exact Fc]. split; [reflexivity|]. split; [exists k0; exact HL|exact Out].
    + constructor; [|exact Fm]. cbn [snd]. intros y Hy. rewrite ZL. destruct (Nat.le_gt_cases k y) as [Q|Q]; [exact Q|]. specialize (Min y Q). rewrite (FL y Hy) in Min. discriminate Min.
Qed.
End Walks.
