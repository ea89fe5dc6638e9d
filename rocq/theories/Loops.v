(** Walks along the sides of a plane graph in which loops are cut off: no
    vertex of a loop which is cut off is met again.
    Proof support only, no part of /repo is modelled here. *)
From Coq Require Import Permutation.
From Verif Require Import QcTac Parity.

Lemma in_nth0 : forall (l : list nat) x, In x l -> exists q, (q < length l)%nat /\ nth q l O = x.
Proof. intros l x H. destruct (In_nth l x O H) as (q & A & B). exists q. split; assumption. Qed.
Lemma parity_eqb_in : forall (l : list nat) (f : nat -> bool) m, NoDup l -> NoDup m -> (forall x, In x l -> In x m) ->
  parity (fun i => existsb (Nat.eqb i) l && f i) m = parity f l.
Proof.
  intros l f m Nl Nm H. rewrite (parity_incl f l (filter (fun i => existsb (Nat.eqb i) l) m)).
  - rewrite parity_filter. reflexivity.
  - exact Nl.
  - apply NoDup_filter, Nm.
  - intros x Hx. apply filter_In. split; [exact (H x Hx)|]. apply existsb_exists. exists x. split; [exact Hx|apply Nat.eqb_refl].
  - intros x Hx J. exfalso. apply J. apply filter_In in Hx. destruct Hx as (_ & Hx). apply existsb_exists in Hx.
    destruct Hx as (y & Hy & E). apply Nat.eqb_eq in E. subst y. exact Hy.
Qed.
Lemma existsb_in : forall (l : list nat) x, existsb (Nat.eqb x) l = true <-> In x l.
Proof.
  intros l x. rewrite existsb_exists. split; [intros (y & Hy & E); apply Nat.eqb_eq in E; subst y; exact Hy|].
  intro H. exists x. split; [exact H|apply Nat.eqb_refl].
Qed.

Lemma nodup_right : forall (a b : list nat), NoDup (a ++ b) -> NoDup b.
Proof. induction a as [|x a IH]; intros b H; [exact H|]. apply IH. inversion H; assumption. Qed.

Section Walk.
(** Darts [0 .. n - 1], the vertex a dart starts at, the opposite dart, the next
    one around the vertex, darts which may still be used. *)
Variables (n : nat) (vtx op nxt : nat -> nat) (fr : nat -> bool).
Hypothesis Hop : forall i, (i < n)%nat -> (op i < n)%nat /\ op i <> i /\ op (op i) = i.
Hypothesis Hnx : forall i, (i < n)%nat -> (nxt i < n)%nat /\ vtx (nxt i) = vtx i.
Hypothesis Hinj : forall i j, (i < n)%nat -> (j < n)%nat -> nxt i = nxt j -> i = j.
Hypothesis Hloop : forall i, (i < n)%nat -> vtx (op i) <> vtx i.
Fixpoint chain (u : nat) (l : list nat) : Prop :=
  match l with [] => True | x :: r => x = nxt u /\ chain x r end.
Hypothesis Hring : forall u, (u < n)%nat ->
  exists l, chain u (l ++ [u]) /\ NoDup (l ++ [u]) /\ forall x, (x < n)%nat -> vtx x = vtx u -> In x (l ++ [u]).
(** Side of a closed set of edges on which a dart has its face. *)
Definition sides (Z sg : nat -> bool) : Prop :=
  (forall i, (i < n)%nat -> sg (op i) = xorb (sg i) (Z i)) /\ (forall i, (i < n)%nat -> sg (nxt i) = xorb (sg i) (Z i)).
Definition closed (Z : nat -> bool) : Prop :=
  (forall i, (i < n)%nat -> Z (op i) = Z i) /\ (forall v, parity (fun i => Z i && Nat.eqb (vtx i) v) (seq 0 n) = false).
Hypothesis Hsides : forall Z, closed Z -> exists sg, sides Z sg.
Hypothesis Hfr : closed fr.
Variable e0 : nat.
Hypothesis He0 : (e0 < n)%nat.
Hypothesis Fe0 : fr e0 = true.

Lemma chain_app : forall l u v r, chain u (l ++ v :: r) <-> chain u (l ++ [v]) /\ chain v r.
Proof.
  induction l as [|x l IH]; intros u v r; cbn.
  - tauto.
  - rewrite IH. tauto.
Qed.
Lemma chain_in : forall l u, (u < n)%nat -> chain u l -> forall x, In x l -> (x < n)%nat /\ vtx x = vtx u.
Proof.
  induction l as [|y l IH]; intros u Hu C x I; [contradiction|]. cbn in C. destruct C as (-> & C).
  destruct (Hnx u Hu) as (A & B). destruct I as [<-|I]; [split; assumption|]. destruct (IH _ A C x I). split; [assumption|congruence].
Qed.
Lemma chain_one : forall l l' u v, chain u (l ++ [v]) -> chain u (l' ++ [v]) -> ~ In v l -> ~ In v l' -> l = l'.
Proof.
  induction l as [|x l IH]; intros l' u v C C' N N'.
  - destruct l' as [|y l']; [reflexivity|]. exfalso. cbn in C, C'. apply N'. left. destruct C, C'. congruence.
  - destruct l' as [|y l']; cbn in C, C'.
    + exfalso. apply N. left. destruct C, C'. congruence.
    + destruct C as (-> & C), C' as (-> & C'). f_equal. apply (IH l' (nxt u) v C C').
      * intro J. apply N. right. exact J.
      * intro J. apply N'. right. exact J.
Qed.
(** Sides along a run of darts around a vertex. *)
Lemma sides_run : forall Z sg, sides Z sg -> forall l u, (u < n)%nat -> forall v, chain u (l ++ [v]) -> (forall x, In x l -> Z x = false) ->
  forall x, In x (l ++ [v]) -> sg x = xorb (sg u) (Z u).
Proof.
  intros Z sg (S1 & S2). induction l as [|y l IH]; intros u Hu v C H x I; cbn in C; destruct C as (-> & C).
  - destruct I as [<-|[]]. apply S2, Hu.
  - destruct I as [<-|I]; [apply S2, Hu|]. rewrite (IH (nxt u) (proj1 (Hnx u Hu)) v C) by (try exact I; intros z Hz; apply H; right; exact Hz).
    rewrite (H (nxt u)) by (left; reflexivity). rewrite Bool.xorb_false_r. apply S2, Hu.
Qed.

Definition fair_next (d w : nat) : Prop :=
  exists l, chain (op d) (l ++ [w]) /\ (forall x, In x l -> fr x = false) /\ fr w = true.
Definition within (Z : nat -> bool) : Prop := forall i, (i < n)%nat -> Z i = true -> fr i = true.
Definition separated (x : nat) : Prop :=
  exists Z sg, closed Z /\ within Z /\ sides Z sg /\ sg x <> sg e0.

Lemma next_side : forall Z sg d w, within Z -> sides Z sg -> (d < n)%nat -> closed Z -> fair_next d w -> sg w = sg d.
Proof.
  intros Z sg d w W S Hd Cz (l & C & P & F). destruct (Hop d Hd) as (Ho & _ & Oo).
  rewrite (sides_run Z sg S l (op d) Ho w C).
  - rewrite (proj1 S d Hd), (proj1 Cz d Hd). destruct (sg d), (Z d); reflexivity.
  - intros x Hx. destruct (Z x) eqn:E; [|reflexivity]. exfalso.
    assert (Hx' : (x < n)%nat) by (apply (chain_in (l ++ [w]) (op d) Ho C); apply in_app_iff; left; exact Hx).
    pose proof (W x Hx' E). rewrite (P x Hx) in H. discriminate H.
  - apply in_app_iff. right. left. reflexivity.
Qed.
Lemma next_lt : forall d w, (d < n)%nat -> fair_next d w -> (w < n)%nat /\ vtx w = vtx (op d) /\ fr w = true.
Proof.
  intros d w Hd (l & C & P & F). destruct (Hop d Hd) as (Ho & _ & _).
  destruct (chain_in _ _ Ho C w) as (A & B); [apply in_app_iff; right; left; reflexivity|]. repeat split; assumption.
Qed.
Lemma chain_back : forall l l' u v w, (u < n)%nat -> (v < n)%nat -> chain u (l ++ [w]) -> chain v (l' ++ [w]) ->
  (forall x, In x l -> fr x = false) -> (forall x, In x l' -> fr x = false) -> fr u = true -> fr v = true -> u = v.
Proof.
  induction l as [|x l IH] using rev_ind; intros l' u v w Hu Hv C C' P P' Fu Fv.
  - destruct l' as [|y l'] using rev_ind.
    + cbn in C, C'. apply Hinj; [exact Hu|exact Hv|]. destruct C, C'. congruence.
    + exfalso. clear IHl'. rewrite <- app_assoc in C'. apply (proj1 (chain_app l' v y [w])) in C'. destruct C' as (C1 & C2).
      assert (Hy : (y < n)%nat) by (apply (chain_in _ _ Hv C1); apply in_app_iff; right; left; reflexivity).
      cbn in C, C2. assert (E : u = y) by (apply Hinj; [exact Hu|exact Hy|destruct C, C2; congruence]). subst y.
      rewrite (P' u) in Fu; [discriminate Fu|]. apply in_app_iff. right. left. reflexivity.
  - rewrite <- app_assoc in C. apply (proj1 (chain_app l u x [w])) in C. destruct C as (C1 & C2).
    assert (Hx : (x < n)%nat) by (apply (chain_in _ _ Hu C1); apply in_app_iff; right; left; reflexivity).
    destruct l' as [|y l'] using rev_ind.
    + exfalso. cbn in C', C2. assert (E : v = x) by (apply Hinj; [exact Hv|exact Hx|destruct C', C2; congruence]). subst x.
      rewrite (P v) in Fv; [discriminate Fv|]. apply in_app_iff. right. left. reflexivity.
    + clear IHl'. rewrite <- app_assoc in C'. apply (proj1 (chain_app l' v y [w])) in C'. destruct C' as (C1' & C2').
      assert (Hy : (y < n)%nat) by (apply (chain_in _ _ Hv C1'); apply in_app_iff; right; left; reflexivity).
      cbn in C2, C2'. assert (E : x = y) by (apply Hinj; [exact Hx|exact Hy|destruct C2, C2'; congruence]). subst y.
      apply (IH l' u v x Hu Hv C1 C1'); [| |exact Fu|exact Fv]; intros z Hz; [apply P|apply P']; apply in_app_iff; left; exact Hz.
Qed.

(** ** The darts gone along, the last one first *)
Fixpoint trail (h : list nat) : Prop :=
  match h with
  | [] => False
  | x :: t => match t with [] => x = e0 | y :: _ => fair_next y x /\ trail t end
  end.
Record gone (h : list nat) : Prop := {
  go_trail : trail h;
  go_nodup : NoDup h;
  go_fr : forall x, In x h -> (x < n)%nat /\ fr x = true }.
Lemma trail_tail : forall x y t, trail (x :: y :: t) -> fair_next y x /\ trail (y :: t).
Proof. intros x y t H. exact H. Qed.
Lemma trail_side : forall Z sg, closed Z -> within Z -> sides Z sg -> forall h, trail h -> (forall x, In x h -> (x < n)%nat) ->
  forall x, In x h -> sg x = sg e0.
Proof.
  intros Z sg C W S. induction h as [|x h IH]; intros T L y I; [contradiction|].
  destruct h as [|z h].
  - cbn in T. subst x. destruct I as [<-|[]]. reflexivity.
  - apply trail_tail in T. destruct T as (T1 & T2).
    assert (K : forall y, In y (z :: h) -> sg y = sg e0) by (apply IH; [exact T2|intros u Hu; apply L; right; exact Hu]).
    destruct I as [<-|I]; [|exact (K y I)]. rewrite (next_side Z sg z x W S) by (try assumption; apply L; right; left; reflexivity).
    apply K. left. reflexivity.
Qed.
Lemma gone_same : forall h x, gone h -> In x h -> ~ separated x.
Proof.
  intros h x G I (Z & sg & C & W & S & N). apply N. apply (trail_side Z sg C W S h (go_trail h G)); [|exact I].
  intros y Hy. apply (go_fr h G y Hy).
Qed.
(** No edge is gone along in both directions. *)
Lemma gone_once : forall h x y, gone h -> In x h -> In y h -> op x <> y.
Proof.
  intros h x y G I J E. destruct (Hsides fr Hfr) as (sg & S).
  assert (W : within fr) by (intros i _ F; exact F).
  assert (L : forall z, In z h -> (z < n)%nat) by (intros z Hz; apply (go_fr h G z Hz)).
  pose proof (trail_side fr sg Hfr W S h (go_trail h G) L x I) as A.
  pose proof (trail_side fr sg Hfr W S h (go_trail h G) L y J) as B. rewrite <- E in B.
  rewrite (proj1 S x (L x I)), (proj2 (go_fr h G x I)), A in B. destruct (sg e0); discriminate B.
Qed.
Lemma next_same : forall d h w, gone (d :: h) -> fair_next d w -> ~ separated w.
Proof.
  intros d h w G F (Z & sg & C & W & S & N). apply N. destruct (go_fr _ G d (or_introl eq_refl)) as (Hd & _).
  rewrite (next_side Z sg d w W S Hd C F). apply (trail_side Z sg C W S _ (go_trail _ G)); [|left; reflexivity].
  intros y Hy. apply (go_fr _ G y Hy).
Qed.
Lemma next_fresh : forall d h w, gone (d :: h) -> fair_next d w -> vtx (op d) <> vtx e0 -> ~ In w (d :: h).
Proof.
  intros d h w G F N I. destruct (go_fr _ G d (or_introl eq_refl)) as (Hd & Fd).
  assert (K : forall t x, trail (x :: t) -> (forall z, In z (x :: t) -> (z < n)%nat /\ fr z = true) -> In w (x :: t) -> w = e0 \/ exists t1 y t2, x :: t = t1 ++ w :: y :: t2 /\ fair_next y w).
  { clear. induction t as [|y t IH]; intros x T L I.
    - cbn in T. destruct I as [<-|[]]. left. exact T.
    - apply trail_tail in T. destruct T as (T1 & T2). destruct I as [<-|I].
      + right. exists [], y, t. split; [reflexivity|exact T1].
      + destruct (IH y T2) as [->|(t1 & z & t2 & E & Fz)]; [intros z Hz; apply L; right; exact Hz|exact I|left; reflexivity|].
        right. exists (x :: t1), z, t2. split; [rewrite E; reflexivity|exact Fz]. }
  destruct (K h d (go_trail _ G) (go_fr _ G) I) as [->|(t1 & y & t2 & E & Fy)].
  - apply N. symmetry. apply (next_lt d e0 Hd F).
  - assert (Hy : In y (d :: h)) by (rewrite E; apply in_app_iff; right; right; left; reflexivity).
    destruct (go_fr _ G y Hy) as (Ly & Gy). destruct (Hop d Hd) as (Ho & _ & Oo), (Hop y Ly) as (Hoy & _ & Ooy).
    destruct F as (l & C & P & _), Fy as (l' & C' & P' & _).
    assert (Ed : op d = op y).
    { apply (chain_back l l' (op d) (op y) w Ho Hoy C C' P P'); [rewrite (proj1 Hfr d Hd); exact Fd|rewrite (proj1 Hfr y Ly); exact Gy]. }
    assert (Edy : d = y) by congruence. subst y. pose proof (go_nodup _ G) as Nd. rewrite E in Nd.
    destruct t1 as [|z t1].
    + cbn in E. injection E as Ew _. subst w. inversion Nd as [|? ? J _]. apply J. left. reflexivity.
    + cbn in E. injection E as Ez Er. subst z. inversion Nd as [|? ? J _]. apply J. apply in_app_iff. right. right. left. reflexivity.
Qed.
Lemma gone_next : forall d h w, gone (d :: h) -> fair_next d w -> vtx (op d) <> vtx e0 -> gone (w :: d :: h).
Proof.
  intros d h w G F N. destruct (go_fr _ G d (or_introl eq_refl)) as (Hd & Fd). destruct (next_lt d w Hd F) as (A & _ & B). constructor.
  - split; [exact F|exact (go_trail _ G)].
  - constructor; [apply next_fresh; assumption|exact (go_nodup _ G)].
  - intros x [<-|I]; [split; assumption|exact (go_fr _ G x I)].
Qed.

(** ** Corners *)
(** Darts inside the corner between the darts [a] and [b]. *)
Definition semi (h : list nat) (a b : nat) : Prop :=
  forall l, chain (op a) (l ++ [b]) -> ~ In b l -> forall x, In x l -> fr x = true -> In x h \/ separated x.
Definition sealed (h : list nat) (v : nat) : Prop :=
  forall x, (x < n)%nat -> vtx x = v -> fr x = true -> In x h \/ separated x.
Lemma semi_more : forall h h' a b, incl h h' -> semi h a b -> semi h' a b.
Proof. intros h h' a b I S l C N x Hx F. destruct (S l C N x Hx F) as [J|J]; [left; apply I, J|right; exact J]. Qed.
Lemma sealed_more : forall h h' v, incl h h' -> sealed h v -> sealed h' v.
Proof. intros h h' v I S x Hx Ev F. destruct (S x Hx Ev F) as [J|J]; [left; apply I, J|right; exact J]. Qed.
Lemma semi_new : forall h d w, fair_next d w -> semi h d w.
Proof.
  intros h d w (l & C & P & F) l' C' N x Hx Fx. exfalso.
  assert (Nl : ~ In w l) by (intro J; rewrite (P w J) in F; discriminate F).
  rewrite (chain_one l' l (op d) w C' C N Nl) in Hx. rewrite (P x Hx) in Fx. discriminate Fx.
Qed.
Lemma not_sealed : forall d h w, gone (d :: h) -> fair_next d w -> vtx (op d) <> vtx e0 -> ~ sealed (d :: h) (vtx (op d)).
Proof.
  intros d h w G F N S. destruct (go_fr _ G d (or_introl eq_refl)) as (Hd & Fd). destruct (next_lt d w Hd F) as (A & B & C).
  destruct (S w A B C) as [J|J]; [exact (next_fresh d h w G F N J)|exact (next_same d h w G F J)].
Qed.

(** ** Loops *)
Definition before (L : list nat) (q : nat) : nat := nth (match q with O => length L - 1 | S p => p end)%nat L O.
Record loop (L : list nat) : Prop := {
  lo_ne : L <> [];
  lo_lt : forall x, In x L -> (x < n)%nat;
  lo_nodup : NoDup (map vtx L);
  lo_link : forall q, (q < length L)%nat -> vtx (nth q L O) = vtx (op (before L q)) }.
Definition edges (L : list nat) (i : nat) : bool := existsb (Nat.eqb i) L || existsb (Nat.eqb (op i)) L.
Lemma edges_spec : forall L i, edges L i = true <-> In i L \/ In (op i) L.
Proof. intros L i. unfold edges. rewrite Bool.orb_true_iff, !existsb_in. tauto. Qed.
Lemma before_in : forall L q, (q < length L)%nat -> In (before L q) L.
Proof. intros L q H. unfold before. apply nth_In. destruct q; lia. Qed.
Lemma loop_vtx : forall L q p, loop L -> (q < length L)%nat -> (p < length L)%nat -> vtx (nth q L O) = vtx (nth p L O) -> q = p.
Proof.
  intros L q p Lp Hq Hp E. pose proof (lo_nodup L Lp) as N. rewrite (NoDup_nth _ (vtx O)) in N. apply N; rewrite ?map_length; try assumption.
  rewrite !map_nth. exact E.
Qed.
(** Edges of a loop at a vertex of it. *)
Lemma loop_at : forall L q x, loop L -> (q < length L)%nat -> (x < n)%nat -> edges L x = true -> vtx x = vtx (nth q L O) ->
  x = nth q L O \/ x = op (before L q).
Proof.
  intros L q x Lp Hq Hx E V. apply edges_spec in E. destruct E as [E|E].
  - left. destruct (in_nth0 L x E) as (p & Hp & <-). f_equal. apply (loop_vtx L p q Lp Hp Hq V).
  - right. destruct (in_nth0 L (op x) E) as (p & Hp & Ep). destruct (Hop x Hx) as (_ & _ & Oo). rewrite <- Oo, <- Ep in V. rewrite <- Oo, <- Ep. f_equal.
    assert (K : exists p', (p' < length L)%nat /\ before L p' = nth p L O).
    { destruct (Nat.eq_dec (S p) (length L)) as [El|El].
      - exists O. split; [lia|]. unfold before. replace (length L - 1)%nat with p by lia. reflexivity.
      - exists (S p). split; [lia|reflexivity]. }
    destruct K as (p' & Hp' & Eb). rewrite <- Eb in V |- *. rewrite <- (lo_link L Lp p' Hp') in V.
    rewrite (loop_vtx L p' q Lp Hp' Hq V). reflexivity.
Qed.
Lemma loop_closed : forall L, loop L -> (forall x y, In x L -> In y L -> op x <> y) -> closed (edges L).
Proof.
  intros L Lp Nb. split.
  - intros i Hi. destruct (Hop i Hi) as (_ & _ & Oo). unfold edges. rewrite Oo. apply Bool.orb_comm.
  - intro v.
    assert (Nd : NoDup L) by (apply (NoDup_map_inv vtx), (lo_nodup L Lp)).
    rewrite (parity_ext _ (fun i => xorb (existsb (Nat.eqb i) L && Nat.eqb (vtx i) v) (existsb (Nat.eqb i) (map op L) && Nat.eqb (vtx i) v))).
    + rewrite parity_xor, !parity_eqb_in; try apply seq_NoDup.
      * rewrite parity_map.
        rewrite <- (parity_map _ _ vtx (fun i => Nat.eqb i v)), <- (parity_map _ _ (fun x => vtx (op x)) (fun i => Nat.eqb i v)).
        assert (E : Permutation (map vtx L) (map (fun x => vtx (op x)) L)).
        { destruct (exists_last (lo_ne L Lp)) as (M & z & EL).
          assert (Em : map vtx L = vtx (op z) :: map (fun x => vtx (op x)) M).
          { apply (nth_ext _ _ (vtx O) (vtx O)).
            - rewrite EL. cbn. rewrite !map_length, app_length. cbn. lia.
            - intros q Hq. rewrite map_length in Hq. rewrite map_nth, (lo_link L Lp q Hq). unfold before.
              destruct q as [|q].
              + cbn. rewrite EL, app_length. cbn. replace (length M + 1 - 1)%nat with (length M) by lia. rewrite nth_middle. reflexivity.
              + cbn. rewrite EL in Hq |- *. rewrite app_length in Hq. cbn in Hq. rewrite app_nth1 by lia.
                rewrite (nth_indep _ (vtx O) ((fun x => vtx (op x)) O)) by (rewrite map_length; lia). rewrite (map_nth (fun x => vtx (op x))). reflexivity. }
          rewrite Em, EL, map_app. cbn. apply Permutation_cons_append. }
        rewrite (parity_perm _ _ _ E). apply Bool.xorb_nilpotent.
      * assert (K : forall l, (forall x, In x l -> (x < n)%nat) -> NoDup l -> NoDup (map op l)).
        { induction l as [|x l IH]; intros H N; [constructor|]. inversion N as [|? ? Nx Nl]; subst. cbn. constructor.
          - intro J. apply in_map_iff in J. destruct J as (y & Ey & Hy). apply Nx.
            destruct (Hop x (H x (or_introl eq_refl))) as (_ & _ & Ox), (Hop y (H y (or_intror Hy))) as (_ & _ & Oy). congruence.
          - apply IH; [intros y Hy; apply H; right; exact Hy|exact Nl]. }
        apply K; [exact (lo_lt L Lp)|exact Nd].
      * intros x Hx. apply in_map_iff in Hx. destruct Hx as (y & <- & Hy). apply in_seq. destruct (Hop y (lo_lt L Lp y Hy)) as (A & _). lia.
      * exact Nd.
      * intros x Hx. apply in_seq. pose proof (lo_lt L Lp x Hx). lia.
    + intros i Hi. apply in_seq in Hi. destruct (Hop i) as (Ho & _ & Oo); [lia|]. unfold edges.
      assert (E : existsb (Nat.eqb (op i)) L = existsb (Nat.eqb i) (map op L)).
      { apply Bool.eq_iff_eq_true. rewrite !existsb_in, in_map_iff. split.
        - intro J. exists (op i). split; assumption.
        - intros (y & Ey & Hy). destruct (Hop y (lo_lt L Lp y Hy)) as (_ & _ & Oy). replace (op i) with y by congruence. exact Hy. }
      rewrite E. destruct (existsb (Nat.eqb i) L) eqn:E1, (existsb (Nat.eqb i) (map op L)) eqn:E2; cbn; try reflexivity.
      * exfalso. apply existsb_in in E1. apply existsb_in in E. apply (Nb (op i) i E E1). exact Oo.
      * destruct (Nat.eqb (vtx i) v); reflexivity.
      * destruct (Nat.eqb (vtx i) v); reflexivity.
Qed.

(** Around a vertex of a loop. *)
Lemma ring_at : forall u v, (u < n)%nat -> (v < n)%nat -> vtx v = vtx u -> v <> u ->
  exists l1 l2, chain u (l1 ++ [v]) /\ chain v (l2 ++ [u]) /\ NoDup (l1 ++ v :: l2 ++ [u])
    /\ forall x, (x < n)%nat -> vtx x = vtx u -> In x (l1 ++ v :: l2 ++ [u]).
Proof.
  intros u v Hu Hv V N. destruct (Hring u Hu) as (l & C & Nd & H).
  assert (I : In v l). { pose proof (H v Hv V) as J. apply in_app_iff in J. destruct J as [J|[J|[]]]; [exact J|congruence]. }
  destruct (in_split v l I) as (l1 & l2 & ->). exists l1, l2. rewrite <- app_assoc in C, Nd, H. cbn in C, Nd, H.
  apply (proj1 (chain_app l1 u v (l2 ++ [u]))) in C. destruct C as (C1 & C2). repeat split; assumption.
Qed.
Lemma loop_side : forall L q sg, loop L -> (forall x y, In x L -> In y L -> op x <> y) -> (q < length L)%nat -> sides (edges L) sg ->
  forall l1 l2, chain (op (before L q)) (l1 ++ [nth q L O]) -> chain (nth q L O) (l2 ++ [op (before L q)]) ->
  NoDup (l1 ++ nth q L O :: l2 ++ [op (before L q)]) -> forall x, In x (l2 ++ [op (before L q)]) -> sg x = negb (sg (nth q L O)).
Proof.
  intros L q sg Lp Nb Hq S l1 l2 C1 C2 Nd x Hx. pose proof (nth_In L O Hq) as Iq. pose proof (lo_lt L Lp _ Iq) as Lq.
  rewrite (sides_run (edges L) sg S l2 (nth q L O) Lq (op (before L q)) C2).
  - replace (edges L (nth q L O)) with true; [apply Bool.xorb_true_r|]. symmetry. apply edges_spec. left. exact Iq.
  - intros y Hy. destruct (edges L y) eqn:E; [|reflexivity]. exfalso.
    destruct (chain_in _ _ Lq C2 y) as (Ly & Vy); [apply in_app_iff; left; exact Hy|].
    assert (Nd' : NoDup (nth q L O :: l2 ++ [op (before L q)])).
    { clear - Nd. induction l1 as [|z l1 IH]; [exact Nd|]. apply IH. inversion Nd; assumption. }
    destruct (loop_at L q y Lp Hq Ly E Vy) as [->| ->].
    + inversion Nd' as [|? ? J _]. apply J. apply in_app_iff. left. exact Hy.
    + inversion Nd' as [|? ? _ J]. apply (NoDup_remove_2 _ _ _ J). rewrite app_nil_r. exact Hy.
  - exact Hx.
Qed.
(** Vertices of a loop gone along, other than those where it is cut off. *)
Lemma loop_sealed : forall h L q, gone h -> incl L h -> loop L -> (q < length L)%nat -> semi h (before L q) (nth q L O) ->
  sealed h (vtx (nth q L O)).
Proof.
  intros h L q G I Lp Hq S x Hx V F.
  assert (Nb : forall x y, In x L -> In y L -> op x <> y) by (intros y z Hy Hz; apply (gone_once h y z G (I y Hy) (I z Hz))).
  pose proof (loop_closed L Lp Nb) as Cz. destruct (Hsides _ Cz) as (sg & Sd).
  pose proof (nth_In L O Hq) as Iq. pose proof (lo_lt L Lp _ Iq) as Lq. pose proof (before_in L q Hq) as Ib. pose proof (lo_lt L Lp _ Ib) as Lb.
  destruct (Hop _ Lb) as (Lo & _ & _).
  destruct (ring_at (op (before L q)) (nth q L O) Lo Lq (lo_link L Lp q Hq)) as (l1 & l2 & C1 & C2 & Nd & Al).
  { intro E. apply (Nb _ _ Ib Iq). symmetry. exact E. }
  pose proof (Al x Hx) as K. rewrite V in K. specialize (K (lo_link L Lp q Hq)). apply in_app_iff in K. destruct K as [K|[K|K]].
  - apply (S l1 C1); [|exact K|exact F]. intro J. apply (NoDup_remove_2 _ _ _ Nd). apply in_app_iff. left. exact J.
  - left. rewrite <- K. apply I, Iq.
  - right. exists (edges L), sg. split; [exact Cz|]. split; [|split; [exact Sd|]].
    + intros i Hi E. apply edges_spec in E. destruct E as [E|E]; [apply (go_fr h G i (I i E))|]. rewrite <- (proj1 Hfr i Hi). apply (go_fr h G _ (I _ E)).
    + rewrite (loop_side L q sg Lp Nb Hq Sd l1 l2 C1 C2 Nd x K).
      assert (W : within (edges L)).
      { intros i Hi E. apply edges_spec in E. destruct E as [E|E]; [apply (go_fr h G i (I i E))|]. rewrite <- (proj1 Hfr i Hi). apply (go_fr h G _ (I _ E)). }
      rewrite (trail_side (edges L) sg Cz W Sd h (go_trail h G)); [destruct (sg e0); discriminate|intros y Hy; apply (go_fr h G y Hy)|exact (I _ Iq)].
Qed.
(** The corner where a loop is cut off. *)
Lemma semi_cut : forall d h w a b L, gone (d :: h) -> fair_next d w -> vtx (op d) <> vtx e0 ->
  incl L (d :: h) -> loop L -> nth 0 L O = b -> before L 0 = d -> In a (d :: h) -> a <> d -> vtx b = vtx (op a) -> semi (d :: h) a b -> semi (w :: d :: h) a w.
Proof.
  intros d h w a b L G F Nv I Lp Hb Hd Ia Nad Vb S l C Nw x Hx Fx.
  assert (H0 : (0 < length L)%nat) by (destruct L; [exfalso; apply (lo_ne [] Lp); reflexivity|cbn; lia]).
  assert (Nb : forall x y, In x L -> In y L -> op x <> y) by (intros y z Hy Hz; apply (gone_once _ y z G (I y Hy) (I z Hz))).
  pose proof (loop_closed L Lp Nb) as Cz. destruct (Hsides _ Cz) as (sg & Sd).
  assert (W : within (edges L)).
  { intros i Hi E. apply edges_spec in E. destruct E as [E|E]; [apply (go_fr _ G i (I i E))|]. rewrite <- (proj1 Hfr i Hi). apply (go_fr _ G _ (I _ E)). }
  assert (Ib : In b (d :: h)) by (apply I; rewrite <- Hb; apply nth_In; exact H0).
  destruct (go_fr _ G a Ia) as (La & Fa), (go_fr _ G b Ib) as (Lb & Fb), (go_fr _ G d (or_introl eq_refl)) as (Ld & Fd).
  destruct (Hop a La) as (Loa & _ & Ooa), (Hop d Ld) as (Lod & _ & Ood).
  assert (Vd : vtx b = vtx (op d)) by (rewrite <- Hb, <- Hd; apply (lo_link L Lp 0 H0)).
  pose proof (next_fresh d h w G F Nv) as Fw. pose proof (next_same d h w G F) as Sw.
  destruct (next_lt d w Ld F) as (Lw & Vw & Gw).
  assert (Ndb : op d <> b) by (apply (gone_once _ d b G); [left; reflexivity|exact Ib]).
  assert (Nab : op a <> b) by (apply (gone_once _ a b G); assumption).
  assert (Nda : op d <> op a) by (intro E; apply Nad; rewrite <- Ooa, <- Ood, E; reflexivity).
  destruct (ring_at (op a) b Loa Lb Vb) as (m1 & m2 & C1 & C2 & Nd & Al); [congruence|].
  assert (Nm1 : ~ In b m1). { intro J. apply (NoDup_remove_2 _ _ _ Nd). apply in_app_iff. left. exact J. }
  assert (Nwb : w <> b) by (intro E; apply Fw; rewrite E; exact Ib).
  assert (Nwa : w <> op a).
  { intro E. pose proof (gone_next d h w G F Nv) as G'. apply (gone_once _ a w G'); [right; exact Ia|left; reflexivity|congruence]. }
  assert (Iod : In (op d) (m1 ++ b :: m2 ++ [op a])) by (apply Al; [exact Lod|congruence]).
  destruct F as (k & Ck & Pk & _).
  (* the dart after [op d] *)
  assert (Next : forall k1 k2 t, chain (op d) (k1 ++ t :: k2) -> fr t = true -> In w (k1 ++ [t]) \/ ~ (exists y, In y k1 /\ fr y = true) -> In w (k1 ++ [t])).
  { intros k1 k2 t Ct Ft [J|J]; [exact J|]. apply (proj1 (chain_app k1 (op d) t k2)) in Ct. destruct Ct as (Ct & _).
    apply in_app_iff. right. left.
    assert (R : forall k k1 u, chain u (k ++ [w]) -> chain u (k1 ++ [t]) -> (forall x, In x k -> fr x = false) -> ~ (exists y, In y k1 /\ fr y = true) -> t = w).
    { clear - Gw Ft. induction k as [|y k IH]; intros k1 u C C' P J.
      - destruct k1 as [|z k1]; cbn in C, C'; [destruct C, C'; congruence|]. exfalso. apply J. exists z. split; [left; reflexivity|]. destruct C, C'. congruence.
      - destruct k1 as [|z k1]; cbn in C, C'.
        + exfalso. destruct C as (E & _), C' as (E' & _). rewrite (P t) in Ft; [discriminate|left; congruence].
        + destruct C as (E & C), C' as (E' & C'). rewrite E in C. rewrite E' in C'. apply (IH k1 (nxt u) C C').
          * intros a Ha. apply P. right. exact Ha.
          * intros (a & Ha & Fa). apply J. exists a. split; [right; exact Ha|exact Fa]. }
    symmetry. symmetry. exact (R k k1 (op d) Ck Ct Pk J). }
  assert (Before : forall k1 k2 t, chain (op d) (k1 ++ t :: k2) -> fr t = true -> In w (k1 ++ [t])).
  { intros k1 k2 t Ct Ft. apply (proj1 (chain_app k1 (op d) t k2)) in Ct. destruct Ct as (Ct & _). clear - Ck Pk Gw Ct Ft.
    revert Ck Ct. generalize (op d) as u. revert k1. induction k as [|y k IH]; intros k1 u C C'.
    - destruct k1 as [|z k1]; cbn in C, C'; left; destruct C, C'; congruence.
    - destruct k1 as [|z k1]; cbn in C, C'.
      + exfalso. destruct C as (E & _), C' as (E' & _). rewrite (Pk t) in Ft; [discriminate|left; congruence].
      + destruct C as (E & C), C' as (E' & C'). right. rewrite E in C. rewrite E' in C'. apply (IH ltac:(intros a Ha; apply Pk; right; exact Ha) k1 (nxt u) C C'). }
  clear Next.
  apply in_app_iff in Iod. destruct Iod as [Iod|[Iod|Iod]]; [| congruence|].
  - (* the loop would be entered from inside *)
    exfalso. destruct (in_split _ _ Iod) as (k1 & k2 & Em). rewrite Em in C1. rewrite <- app_assoc in C1. cbn in C1.
    apply (proj1 (chain_app k1 (op a) (op d) (k2 ++ [b]))) in C1. destruct C1 as (C1' & C1).
    pose proof (Before k2 [] b C1 Fb) as J. apply in_app_iff in J. destruct J as [J|[J|[]]]; [|congruence].
    assert (Iw : In w m1) by (rewrite Em; apply in_app_iff; right; right; exact J).
    assert (Cm : chain (op a) (m1 ++ [b])).
    { rewrite Em, <- app_assoc. cbn. apply (proj2 (chain_app k1 (op a) (op d) (k2 ++ [b]))). split; assumption. }
    destruct (S m1 Cm Nm1 w Iw Gw) as [J'|J']; [exact (Fw J')|exact (Sw J')].
  - apply in_app_iff in Iod. destruct Iod as [Iod|[Iod|[]]]; [|congruence].
    destruct (in_split _ _ Iod) as (k1 & k2 & Em). rewrite Em in C2, Nd. rewrite <- app_assoc in C2, Nd. cbn in C2, Nd.
    apply (proj1 (chain_app k1 b (op d) (k2 ++ [op a]))) in C2. destruct C2 as (C2 & C3).
    assert (Foa : fr (op a) = true) by (rewrite (proj1 Hfr a La); exact Fa).
    pose proof (Before k2 [] (op a) C3 Foa) as J. apply in_app_iff in J. destruct J as [J|[J|[]]]; [|congruence].
    destruct (in_split _ _ J) as (j1 & j2 & Ek). rewrite Ek in C3, Nd. rewrite <- app_assoc in C3, Nd. cbn in C3, Nd.
    apply (proj1 (chain_app j1 (op d) w (j2 ++ [op a]))) in C3. destruct C3 as (C3 & C4).
    assert (Nj : ~ In w j1).
    { intro Jw. assert (E : m1 ++ b :: k1 ++ op d :: j1 ++ w :: j2 ++ [op a] = (m1 ++ b :: k1 ++ op d :: j1) ++ w :: j2 ++ [op a]).
      { rewrite <- app_assoc. cbn. rewrite <- app_assoc. reflexivity. }
      rewrite E in Nd. apply (NoDup_remove_2 _ _ _ Nd). apply in_app_iff. left. apply in_app_iff. right. right. apply in_app_iff. right. right. exact Jw. }
    assert (Nk : ~ In w k) by (intro Jw; rewrite (Pk w Jw) in Gw; discriminate Gw).
    assert (Ejk : j1 = k) by (apply (chain_one j1 k (op d) w C3 Ck Nj Nk)).
    (* the corner *)
    assert (Cf : chain (op a) ((m1 ++ b :: k1 ++ op d :: j1) ++ [w])).
    { replace ((m1 ++ b :: k1 ++ op d :: j1) ++ [w]) with (m1 ++ b :: k1 ++ op d :: j1 ++ [w]).
      - apply (proj2 (chain_app m1 (op a) b _)). split; [exact C1|]. apply (proj2 (chain_app k1 b (op d) _)). split; [exact C2|exact C3].
      - rewrite <- (app_assoc m1). cbn [app]. rewrite <- (app_assoc k1). reflexivity. }
    assert (Nf : ~ In w (m1 ++ b :: k1 ++ op d :: j1)).
    { intro Jw. assert (E : m1 ++ b :: k1 ++ op d :: j1 ++ w :: j2 ++ [op a] = (m1 ++ b :: k1 ++ op d :: j1) ++ w :: j2 ++ [op a]).
      { rewrite <- app_assoc. cbn. rewrite <- app_assoc. reflexivity. }
      rewrite E in Nd. apply (NoDup_remove_2 _ _ _ Nd). apply in_app_iff. left. exact Jw. }
    rewrite (chain_one _ _ _ _ C Cf Nw Nf) in Hx.
    assert (Sep : forall y, In y (k1 ++ [op d]) -> separated y).
    { intros y Hy. exists (edges L), sg. split; [exact Cz|]. split; [exact W|]. split; [exact Sd|].
      rewrite <- (trail_side (edges L) sg Cz W Sd _ (go_trail _ G) (fun z Hz => proj1 (go_fr _ G z Hz)) b Ib).
      rewrite (sides_run (edges L) sg Sd k1 b Lb (op d) C2); [| |exact Hy].
      - replace (edges L b) with true; [destruct (sg b); discriminate|]. symmetry. apply edges_spec. left. rewrite <- Hb. apply nth_In. exact H0.
      - intros z Hz. destruct (edges L z) eqn:E; [|reflexivity]. exfalso.
        destruct (chain_in _ _ Lb C2 z) as (Lz & Vz); [apply in_app_iff; left; exact Hz|].
        apply (nodup_right m1) in Nd.
        destruct (loop_at L 0 z Lp H0 Lz E) as [Ez|Ez]; [rewrite Hb; exact Vz| |].
        + rewrite Hb in Ez. subst z. inversion Nd as [|? ? K _]. apply K. apply in_app_iff. left. exact Hz.
        + rewrite Hd in Ez. subst z. inversion Nd as [|? ? _ K]. apply (NoDup_remove_2 _ _ _ K). apply in_app_iff. left. exact Hz. }
    apply in_app_iff in Hx. destruct Hx as [Hx|[Hx|Hx]].
    + destruct (S m1 C1 Nm1 x Hx Fx) as [K|K]; [left; right; exact K|right; exact K].
    + left. right. rewrite <- Hx. exact Ib.
    + apply in_app_iff in Hx. destruct Hx as [Hx|[Hx|Hx]].
      * right. apply Sep. apply in_app_iff. left. exact Hx.
      * right. apply Sep. apply in_app_iff. right. left. exact Hx.
      * exfalso. rewrite Ejk in Hx. rewrite (Pk x Hx) in Fx. discriminate Fx.
Qed.
End Walk.
