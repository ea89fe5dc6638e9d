(** Points of contours nested in each other.
    Proof support only, no part of /repo is modelled here. *)
From Verif Require Import QcTac Geom Spec SpecShape Parity Nesting.

Section Forest.
Variables (m : nat) (enc : nat -> nat -> bool) (int : nat -> bool) (par : nat -> option nat).
Hypothesis Tree : forall j, (j < m)%nat ->
  (int j = false /\ forall k, (k < m)%nat -> enc k j = false)
  \/ exists q, (q < j)%nat /\
     ((int j = negb (int q) /\ (int j = true -> par j = Some q) /\ forall k, (k < m)%nat -> enc k j = (Nat.eqb k q || enc k q)%bool)
      \/ (int j = int q /\ (int j = true -> par j = par q) /\ forall k, (k < m)%nat -> enc k j = enc k q)).
Notation next := (enc_next m enc int par Tree).
Notation lt := (enc_lt m enc int par Tree).

Lemma enc_asym : forall a b, (a < m)%nat -> (b < m)%nat -> enc a b = true -> enc b a = true -> False.
Proof. intros a b Ha Hb E F. pose proof (lt b Hb a Ha E). pose proof (lt a Ha b Hb F). lia. Qed.
Lemma enc_trans : forall c, (c < m)%nat -> forall a b, (a < m)%nat -> (b < m)%nat -> enc a b = true -> enc b c = true -> enc a c = true.
Proof.
  apply (strong m (fun c => forall a b, (a < m)%nat -> (b < m)%nat -> enc a b = true -> enc b c = true -> enc a c = true)).
  intros c Hc IH a b Ha Hb E F. destruct (next c Hc) as [(_ & K)|(q & Hq & _ & _ & K)]; [rewrite (K b Hb) in F; discriminate F|].
  rewrite (K b Hb) in F. rewrite (K a Ha). destruct (Nat.eqb_spec b q) as [->|N]; [rewrite E; apply Bool.orb_true_r|]. cbn [orb] in F.
  rewrite (IH q Hq a b Ha Hb E F). apply Bool.orb_true_r.
Qed.
Lemma enc_chain : forall c, (c < m)%nat -> forall a b, (a < m)%nat -> (b < m)%nat -> a <> b -> enc a c = true -> enc b c = true -> enc a b = true \/ enc b a = true.
Proof.
  apply (strong m (fun c => forall a b, (a < m)%nat -> (b < m)%nat -> a <> b -> enc a c = true -> enc b c = true -> enc a b = true \/ enc b a = true)).
  intros c Hc IH a b Ha Hb N E F. destruct (next c Hc) as [(_ & K)|(q & Hq & _ & _ & K)]; [rewrite (K b Hb) in F; discriminate F|].
  rewrite (K a Ha) in E. rewrite (K b Hb) in F. destruct (Nat.eqb_spec a q) as [->|Na]; [|cbn [orb] in E; destruct (Nat.eqb_spec b q) as [->|Nb]; [left; exact E|cbn [orb] in F; exact (IH q Hq a b Ha Hb N E F)]].
  destruct (Nat.eqb_spec b q) as [->|Nb]; [contradiction|right; exact F].
Qed.
Lemma hole_in : forall h q, (h < m)%nat -> int h = true -> par h = Some q -> (q < m)%nat /\ int q = false /\ enc q h = true
  /\ forall k, (k < m)%nat -> enc k h = true -> k = q \/ enc k q = true.
Proof.
  intros h q Hh Ih Ph. destruct (next h Hh) as [(K & _)|(r & Hr & I1 & I2 & K)]; [congruence|]. rewrite (I2 Ih) in Ph. injection Ph as ->.
  split; [lia|]. split; [destruct (int q); [cbn in I1; congruence|reflexivity]|]. split; [rewrite (K q) by lia; rewrite Nat.eqb_refl; reflexivity|].
  intros k Hk E. rewrite (K k Hk) in E. destruct (Nat.eqb_spec k q) as [->|N]; [left; reflexivity|right; exact E].
Qed.
Lemma hole_around : forall j j', (j < m)%nat -> (j' < m)%nat -> int j = false -> int j' = false -> enc j j' = true ->
  exists h, (h < m)%nat /\ int h = true /\ par h = Some j /\ enc h j' = true.
Proof.
  intros j j' Hj Hj' Ij Ij' E. destruct (next j' Hj') as [(_ & K)|(q & Hq & I1 & _ & K)]; [rewrite (K j Hj) in E; discriminate E|].
  assert (Iq : int q = true) by (destruct (int q); [reflexivity|cbn in I1; congruence]). assert (Hqm : (q < m)%nat) by lia.
  rewrite (K j Hj) in E. destruct (Nat.eqb_spec j q) as [->|N]; [congruence|]. cbn [orb] in E.
  destruct (hole_between m enc int par Tree q Hqm Iq j Hj Ij E) as (h & Hh & Ih & Ph & Eh). exists h. split; [exact Hh|]. split; [exact Ih|]. split; [exact Ph|].
  rewrite (K h Hh). destruct Eh as [->|Eh]; [rewrite Nat.eqb_refl; reflexivity|rewrite Eh; apply Bool.orb_true_r].
Qed.

(** A point on contours [B] and inside of contours [I]. *)
Variables (I : nat -> bool) (B : nat -> Prop).
Hypothesis Bdec : forall k, B k \/ ~ B k.
Hypothesis Point : (forall k, (k < m)%nat -> I k = false)
  \/ exists j, (j < m)%nat /\ ((forall k, (k < m)%nat -> I k = (Nat.eqb k j || enc k j)%bool) \/ forall k, (k < m)%nat -> I k = enc k j).
Hypothesis On : forall c i, (c < m)%nat -> (i < m)%nat -> B c -> ~ B i -> I i = enc i c.
Notation IN k := (B k \/ I k = true).
Notation INS k := (~ B k /\ I k = true).

Lemma up : forall a b, (a < m)%nat -> (b < m)%nat -> enc a b = true -> I b = true -> I a = true.
Proof.
  intros a b Ha Hb E F. destruct Point as [A|(j & Hj & [A|A])]; [rewrite (A b Hb) in F; discriminate F| |]; rewrite (A b Hb) in F; rewrite (A a Ha).
  - destruct (Nat.eqb_spec b j) as [->|N]; [rewrite E; apply Bool.orb_true_r|]. cbn [orb] in F. rewrite (enc_trans j Hj a b Ha Hb E F). apply Bool.orb_true_r.
  - exact (enc_trans j Hj a b Ha Hb E F).
Qed.
Lemma both : forall a b, (a < m)%nat -> (b < m)%nat -> a <> b -> I a = true -> I b = true -> enc a b = true \/ enc b a = true.
Proof.
  intros a b Ha Hb N E F. destruct Point as [A|(j & Hj & [A|A])]; [rewrite (A b Hb) in F; discriminate F| |]; rewrite (A b Hb) in F; rewrite (A a Ha) in E.
  - destruct (Nat.eqb_spec a j) as [->|Na]; [destruct (Nat.eqb_spec b j) as [->|Nb]; [contradiction|right; exact F]|]. cbn [orb] in E.
    destruct (Nat.eqb_spec b j) as [->|Nb]; [left; exact E|]. exact (enc_chain j Hj a b Ha Hb N E F).
  - exact (enc_chain j Hj a b Ha Hb N E F).
Qed.
Lemma hole_within : forall h q, (h < m)%nat -> int h = true -> par h = Some q -> IN h -> IN q.
Proof.
  intros h q Hh Ih Ph K. destruct (hole_in h q Hh Ih Ph) as (Hq & _ & E & _). destruct (Bdec q) as [J|J]; [left; exact J|right].
  destruct K as [K|K]; [rewrite (On h q Hh Hq K J); exact E|exact (up q h Hq Hh E K)].
Qed.
Lemma hole_inside : forall h q, (h < m)%nat -> int h = true -> par h = Some q -> INS h -> INS q.
Proof.
  intros h q Hh Ih Ph (K1 & K2). destruct (hole_in h q Hh Ih Ph) as (Hq & _ & E & _). split; [|exact (up q h Hq Hh E K2)].
  intro J. rewrite (On q h Hq Hh J K1) in K2. exact (enc_asym h q Hh Hq K2 E).
Qed.
Lemma holes_not_nested : forall h k q, (h < m)%nat -> (k < m)%nat -> int h = true -> int k = true -> par h = Some q -> par k = Some q -> enc h k = true -> False.
Proof.
  intros h k q Hh Hk Ih Ik Ph Pk E. destruct (hole_in h q Hh Ih Ph) as (Hq & Iq & Eh & _). destruct (hole_in k q Hk Ik Pk) as (_ & _ & _ & K).
  destruct (K h Hh E) as [->|F]; [congruence|exact (enc_asym h q Hh Hq F Eh)].
Qed.
Lemma holes_apart : forall h k q, (h < m)%nat -> (k < m)%nat -> h <> k -> int h = true -> int k = true -> par h = Some q -> par k = Some q -> INS h -> IN k -> False.
Proof.
  intros h k q Hh Hk N Ih Ik Ph Pk (K1 & K2) [K|K].
  - rewrite (On k h Hk Hh K K1) in K2. exact (holes_not_nested h k q Hh Hk Ih Ik Ph Pk K2).
  - destruct (both h k Hh Hk N K2 K) as [E|E]; [exact (holes_not_nested h k q Hh Hk Ih Ik Ph Pk E)|exact (holes_not_nested k h q Hk Hh Ik Ih Pk Ph E)].
Qed.
Lemma polygons_apart : forall j j', (j < m)%nat -> (j' < m)%nat -> j <> j' -> int j = false -> int j' = false ->
  INS j -> (forall h, (h < m)%nat -> int h = true -> par h = Some j -> ~ IN h) ->
  IN j' -> (forall h, (h < m)%nat -> int h = true -> par h = Some j' -> ~ INS h) -> False.
Proof.
  intros j j' Hj Hj' N Ij Ij' (K1 & K2) Kh L Lh. destruct (Bdec j') as [J|J].
  - rewrite (On j' j Hj' Hj J K1) in K2. destruct (hole_around j j' Hj Hj' Ij Ij' K2) as (h & Hh & Ih & Ph & Eh).
    apply (Kh h Hh Ih Ph). destruct (Bdec h) as [F|F]; [left; exact F|right]. rewrite (On j' h Hj' Hh J F). exact Eh.
  - destruct L as [L|L]; [contradiction|]. destruct (both j j' Hj Hj' N K2 L) as [E|E].
    + destruct (hole_around j j' Hj Hj' Ij Ij' E) as (h & Hh & Ih & Ph & Eh). apply (Kh h Hh Ih Ph). right. exact (up h j' Hh Hj' Eh L).
    + destruct (hole_around j' j Hj' Hj Ij' Ij E) as (h & Hh & Ih & Ph & Eh). apply (Lh h Hh Ih Ph). split; [|exact (up h j Hh Hj Eh K2)].
      intro F. pose proof K2 as K3. rewrite (On h j Hh Hj F K1) in K3. exact (enc_asym j h Hj Hh K3 Eh).
Qed.
End Forest.
