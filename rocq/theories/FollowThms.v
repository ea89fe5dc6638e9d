(** Following a contour of the result with loops cut off gives a simple contour. *)
From Coq Require Import Permutation.
From Verif Require Import QcTac Geom Spec GeomFacts Sweep Linear SpecShape Contour ConnectThms Tracing TraceThms Parity Loops Labelled Filter Mixed Shaped Holey.

Lemma next_from_chain : forall fuel c e x p w, next_event_from fuel e x p c = Ok (Some w) ->
  exists l, chain (fun i => nth i c O) x (l ++ [w]) /\ (forall y, In y l -> nth y p false = true) /\ nth w p false = false.
Proof.
  induction fuel as [|f IH]; intros c e x p w H; [discriminate H|]. cbn [next_event_from] in H.
  destruct (nth (nth x c O) p false) eqn:E; cbn [negb] in H.
  - destruct (Nat.eqb (nth x c O) e); [discriminate H|]. destruct (IH _ _ _ _ _ H) as (l & C & P & F).
    exists (nth x c O :: l). split; [split; [reflexivity|exact C]|]. split; [|exact F]. intros y [<-|Hy]; [exact E|exact (P y Hy)].
  - injection H as <-. exists []. split; [split; [reflexivity|exact I]|]. split; [intros y []|exact E].
Qed.
Lemma update_length : forall A (l : list A) i f, length (update l i f) = length l.
Proof. induction l as [|x l IH]; intros [|i] f; cbn; [reflexivity|reflexivity|reflexivity|]. rewrite IH. reflexivity. Qed.
Lemma set_position_at : forall v i x j, (i < length v)%nat -> nth_error (set_position v i x) j = if Nat.eqb j i then Some x else nth_error v j.
Proof.
  unfold set_position. induction v as [|y v IH]; intros i x j H; cbn in H; [lia|].
  destruct i as [|i]; destruct j as [|j]; cbn; try reflexivity. apply IH. lia.
Qed.
Lemma set_position_length : forall v i x, length (set_position v i x) = length v.
Proof. intros v i x. apply update_length. Qed.
(** All positions are forgotten when each of them is of a visited endpoint. *)
Lemma forget_spec : forall ids v, (forall j q, nth_error v j = Some (Some q) -> In j ids) -> forget v ids = Ok (repeat None (length v)).
Proof.
  intros ids v H. unfold forget.
  assert (K : forall ids v, length (fold_left (fun v i => set_position v i None) ids v) = length v
    /\ forall j q, nth_error (fold_left (fun v i => set_position v i None) ids v) j = Some (Some q) -> nth_error v j = Some (Some q) /\ ~ In j ids).
  { clear. induction ids as [|i ids IH]; intro v; cbn; [split; [reflexivity|intros j q E; split; [exact E|intros []]]|].
    destruct (IH (set_position v i None)) as (A & B). rewrite A, set_position_length. split; [reflexivity|]. intros j q E.
    destruct (B j q E) as (B1 & B2). destruct (Nat.lt_ge_cases i (length v)) as [L|L].
    - rewrite set_position_at in B1 by exact L. destruct (Nat.eqb_spec j i) as [->|N]; [discriminate B1|]. split; [exact B1|]. intros [J|J]; [congruence|exact (B2 J)].
    - assert (Hj : (j < length v)%nat) by (rewrite <- (set_position_length v i None); apply nth_error_Some; congruence).
      assert (Es : set_position v i None = v).
      { clear - L. unfold set_position. revert i L. induction v as [|x v IH]; intros i L; [destruct i; reflexivity|]. destruct i as [|i]; cbn in L; [lia|]. cbn. rewrite IH by lia. reflexivity. }
      rewrite Es in B1. split; [exact B1|]. intros [J|J]; [lia|exact (B2 J)]. }
  destruct (K ids v) as (Kl & Kn). set (v' := fold_left (fun v i => set_position v i None) ids v) in *.
  assert (N : forall x, In x v' -> x = None).
  { intros x Hx. destruct x as [q|]; [exfalso|reflexivity]. destruct (In_nth_error _ _ Hx) as (j & Hj). destruct (Kn j q Hj) as (A & B). exact (B (H j q A)). }
  assert (E : forallb (fun x => match x with None => true | Some _ => false end) v' = true).
  { apply forallb_forall. intros x Hx. rewrite (N x Hx). reflexivity. }
  rewrite E. f_equal. clear - N Kl. rewrite <- Kl. clear Kl. induction v' as [|x v' IH]; [reflexivity|]. cbn. rewrite (N x (or_introl eq_refl)). f_equal.
  apply IH. intros y Hy. apply N. right. exact Hy.
Qed.
Lemma no_positions : forall k j q, nth_error (repeat (@None nat) k) j = Some (Some q) -> False.
Proof. intros k j q H. apply nth_error_In in H. apply repeat_spec in H. discriminate H. Qed.
Lemma nth_firstn_lt : forall (l : list nat) k q, (q < k)%nat -> nth q (firstn k l) O = nth q l O.
Proof. induction l as [|x l IH]; intros k q H; [destruct k, q; reflexivity|]. destruct k as [|k]; [lia|]. destruct q as [|q]; [reflexivity|]. cbn. apply IH. lia. Qed.
Lemma in_firstn : forall (l : list nat) k x, In x (firstn k l) -> In x l.
Proof. induction l as [|y l IH]; intros [|k] x H; cbn in H; try contradiction. destruct H as [<-|H]; [left; reflexivity|right; exact (IH k x H)]. Qed.
Lemma in_skipn : forall (l : list nat) k x, In x (skipn k l) -> In x l.
Proof. induction l as [|y l IH]; intros [|k] x H; cbn in H; try contradiction; [exact H|right; exact (IH k x H)]. Qed.

Definition vx (evs : list holey_event) (i : nat) : nat := h_start_id (hev evs i).
Definition ov (evs : list holey_event) (i : nat) : nat := t_opposite (h_traced (hev evs i)).
Definition nx (c : list nat) (i : nat) : nat := nth i c O.
Definition unused (p : list bool) (i : nat) : bool := negb (nth i p false).

Section Follow.
Variable evs : list holey_event.
Notation ts := (map h_traced evs).
Notation n := (length evs).
Notation vtx := (vx evs).
Notation op := (ov evs).
Lemma h_tev : forall i, tev ts i = h_traced (hev evs i).
Proof. intro i. unfold tev, hev. change no_traced with (h_traced no_holey). apply map_nth. Qed.
Hypothesis Hpair : paired ts.
Hypothesis Hgroup : grouped (starts ts).
Hypothesis Hids : forall i j, (i < n)%nat -> (j < n)%nat -> vtx i = vtx j <-> t_start (tev ts i) = t_start (tev ts j).
Hypothesis Hproper : forall i, (i < n)%nat -> t_start (tev ts i) <> t_end (tev ts i).
Variable c : list nat.
Hypothesis Hconn : events_to_connectivity ts = Ok c.
Notation nxt := (nx c).
Hypothesis Hsides : forall Z, closed n vtx op Z -> exists sg, sides n op nxt Z sg.

Lemma f_opp : forall i, opp ts i = op i.
Proof. intro i. unfold opp. rewrite h_tev. reflexivity. Qed.
Lemma f_op : forall i, (i < n)%nat -> (op i < n)%nat /\ op i <> i /\ op (op i) = i.
Proof.
  intros i Hi. destruct (Hpair i) as (A & B & C & _); [rewrite map_length; exact Hi|]. rewrite map_length, !f_opp in *. repeat split; assumption.
Qed.
Lemma f_end : forall i, (i < n)%nat -> t_end (tev ts i) = t_start (tev ts (op i)).
Proof. intros i Hi. destruct (Hpair i) as (_ & _ & _ & E); [rewrite map_length; exact Hi|]. rewrite E, f_opp. reflexivity. Qed.
Lemma f_conn : Permutation c (seq 0 n) /\ (forall i, (i < n)%nat -> t_start (tev ts (nxt i)) = t_start (tev ts i))
  /\ cycles ts c n.
Proof.
  destruct (connectivity_correct ts) as (c' & E & P & S & _). rewrite Hconn in E. injection E as <-. rewrite map_length in *.
  split; [exact P|]. split; [exact S|]. destruct (connectivity_cycles ts) as (c' & E & _ & C). rewrite Hconn in E. injection E as <-. rewrite map_length in C. exact C.
Qed.
Lemma f_length : length c = n.
Proof. destruct f_conn as (P & _). rewrite (Permutation_length P). apply seq_length. Qed.
Lemma f_lt : forall i, (i < n)%nat -> (nxt i < n)%nat.
Proof.
  intros i Hi. destruct f_conn as (P & _). assert (J : In (nxt i) c) by (apply nth_In; rewrite f_length; exact Hi).
  apply (Permutation_in _ P) in J. apply in_seq in J. lia.
Qed.
Lemma f_nxt : forall i, (i < n)%nat -> (nxt i < n)%nat /\ vtx (nxt i) = vtx i.
Proof. intros i Hi. pose proof (f_lt i Hi) as L. split; [exact L|]. apply (Hids _ _ L Hi). apply f_conn. exact Hi. Qed.
Lemma f_inj : forall i j, (i < n)%nat -> (j < n)%nat -> nxt i = nxt j -> i = j.
Proof.
  intros i j Hi Hj E. destruct f_conn as (P & _). assert (N : NoDup c) by (apply (Permutation_NoDup (Permutation_sym P)), seq_NoDup).
  rewrite (NoDup_nth c O) in N. apply N; rewrite ?f_length; assumption.
Qed.
Lemma f_loop : forall i, (i < n)%nat -> vtx (op i) <> vtx i.
Proof.
  intros i Hi E. destruct (f_op i Hi) as (Ho & _). apply (Hids _ _ Ho Hi) in E. apply (Hproper i Hi). rewrite <- E. symmetry. apply f_end, Hi.
Qed.
Lemma chain_follow : forall k t u, chain nxt (follow t c u) (map (fun j => follow j c u) (seq (S t) k)).
Proof.
  induction k as [|k IH]; intros t u; [exact I|]. cbn [seq map chain]. split; [rewrite follow_last; reflexivity|]. apply IH.
Qed.
Lemma f_ring : forall u, (u < n)%nat ->
  exists l, chain nxt u (l ++ [u]) /\ NoDup (l ++ [u]) /\ forall x, (x < n)%nat -> vtx x = vtx u -> In x (l ++ [u]).
Proof.
  intros u Hu. destruct f_conn as (_ & _ & Cy). destruct (Cy u Hu) as (a & m & b & H1 & H2 & H3 & H4 & H5 & H6 & _).
  assert (Hc : forall j, (a <= j < b)%nat -> nth j c O = turn a m b j) by (intros j Hj; apply H4; exact Hj).
  pose proof (follow_rank c a m b H2 Hc) as R.
  assert (Ee : follow (b - a) c u = u).
  { apply (rank_inj a m b); [exact H2|apply (follow_in c a m b H2 Hc); exact H1|exact H1|]. rewrite R by exact H1.
    replace (rank a m b u + (b - a))%nat with (rank a m b u + 1 * (b - a))%nat by lia. rewrite Nat.mod_add by lia.
    apply Nat.mod_small, rank_lt; assumption. }
  exists (map (fun j => follow j c u) (seq 1 (b - a - 1))).
  assert (El : map (fun j => follow j c u) (seq 1 (b - a - 1)) ++ [u] = map (fun j => follow j c u) (seq 1 (b - a))).
  { replace (seq 1 (b - a)) with (seq 1 (b - a - 1 + 1)) by (f_equal; lia). rewrite seq_app, map_app. f_equal.
    replace (1 + (b - a - 1))%nat with (b - a)%nat by lia. cbn [seq map]. rewrite Ee. reflexivity. }
  rewrite El. split; [apply (chain_follow (b - a) 0 u)|]. split.
  - assert (K : forall s k, (s + k <= S (b - a))%nat -> (1 <= s)%nat -> NoDup (map (fun j => follow j c u) (seq s k))).
    { intros s k. revert s. induction k as [|k IH]; intros s Hk Hs; [constructor|]. cbn [seq map]. constructor; [|apply IH; lia].
      intro J. apply in_map_iff in J. destruct J as (j & Ej & Hj). apply in_seq in Hj.
      apply (f_equal (rank a m b)) in Ej. rewrite !R in Ej by exact H1.
      pose proof (rank_lt a m b u H2 H1) as Lu. set (r := rank a m b u) in *. clearbody r.
      assert (D : (b - a <> 0)%nat) by lia.
      pose proof (Nat.div_mod (r + j) (b - a) D) as D1. pose proof (Nat.div_mod (r + s) (b - a) D) as D2.
      rewrite Ej in D1. assert (Q : ((r + j) / (b - a) = (r + s) / (b - a))%nat).
      { assert (A : ((b - a) * ((r + j) / (b - a)) - (b - a) * ((r + s) / (b - a)) = j - s)%nat) by lia.
        rewrite <- Nat.mul_sub_distr_l in A. assert (j - s < b - a)%nat by lia.
        assert (Z : ((r + j) / (b - a) - (r + s) / (b - a) = 0)%nat) by nia.
        assert ((r + s) / (b - a) <= (r + j) / (b - a))%nat by (apply Nat.div_le_mono; lia). lia. }
      rewrite Q in D1. lia. }
    apply K; lia.
  - intros x Hx Vx. apply (Hids _ _ Hx Hu) in Vx.
    assert (Hxb : (a <= x < b)%nat).
    { rewrite map_length in H5. apply (group_of ts a b u Hgroup H1); rewrite ?map_length; try assumption. intros j Hj. apply H4; exact Hj. }
    destruct (follow_all c a m b H2 Hc u x H1 Hxb) as (k & Hk & <-). apply in_map_iff. exists k. split; [reflexivity|]. apply in_seq. lia.
Qed.

Section Flags.
Variable p : list bool.
Notation fr := (unused p).
Hypothesis Hfr : closed n vtx op fr.
Variable e0 : nat.
Hypothesis He0 : (e0 < n)%nat.
Hypothesis Fe0 : fr e0 = true.
Variable width : nat.
Hypothesis Hwidth : forall i, (i < n)%nat -> (vtx i < width)%nat.
Notation Gone := (gone n op nxt fr e0).
Notation Semi := (semi n vtx op nxt fr e0).
Notation Sealed := (sealed n vtx op nxt fr e0).

Lemma next_fair : forall d, (d < n)%nat -> fr d = true -> exists w, next_event (op d) p c = Ok (Some w) /\ fair_next op nxt fr d w.
Proof.
  intros d Hd Fd. destruct (f_op d Hd) as (Ho & _).
  destruct (next_event_correct ts c p (op d) Hgroup Hconn) as (r & E & H); [rewrite map_length; exact Ho|].
  destruct r as [w|].
  - exists w. split; [exact E|]. unfold next_event in E. destruct (next_from_chain _ _ _ _ _ _ E) as (l & C & P & F).
    exists l. split; [exact C|]. split; [intros x Hx; unfold unused; rewrite (P x Hx); reflexivity|unfold unused; rewrite F; reflexivity].
  - exfalso. pose proof (proj1 Hfr d Hd) as K. unfold unused in K, Fd. rewrite Fd in K.
    rewrite (H (op d)) in K; [discriminate K|rewrite map_length; exact Ho|reflexivity].
Qed.

Record going (H r : list nat) (visited : positions) (vids : list nat) : Prop := {
  g_first : nth 0 r O = e0;
  g_ne : r <> [];
  g_incl : incl r H;
  g_nodup : NoDup (map vtx r);
  g_link : forall q, (S q < length r)%nat -> vtx (nth (S q) r O) = vtx (op (nth q r O));
  g_semi : forall q, (S q < length r)%nat -> Semi H (nth q r O) (nth (S q) r O);
  g_pos : forall q, (q < length r)%nat -> nth_error visited (vtx (nth q r O)) = Some (Some q);
  g_dead : forall v q, nth_error visited v = Some (Some q) -> ((q < length r)%nat /\ vtx (nth q r O) = v) \/ Sealed H v;
  g_vids : forall v q, nth_error visited v = Some (Some q) -> In v vids;
  g_len : length visited = width }.
(** The contour followed. *)
Definition followed (r : list nat) : Prop :=
  nth 0 r O = e0 /\ loop n vtx op r /\ (forall x, In x r -> fr x = true) /\ (forall x y, In x r -> In y r -> op x <> y)
  /\ forall x, In x r -> ~ separated n vtx op nxt fr e0 x.

Lemma follow_spec : forall fuel h r visited vids cursor, Gone (cursor :: h) -> going (cursor :: h) r visited vids ->
  nth (length r - 1) r O = cursor -> (n < length (cursor :: h) + fuel)%nat ->
  exists r', follow_contour fuel evs c p (t_start (h_traced (hev evs e0))) cursor r visited vids = Ok (r', repeat None width) /\ followed r'.
Proof.
  induction fuel as [|f IH]; intros h r visited vids d G S El Hf.
  - exfalso. assert (J : (length (d :: h) <= n)%nat).
    { rewrite <- (seq_length n 0). apply NoDup_incl_length; [exact (go_nodup _ _ _ _ _ _ G)|]. intros x Hx. apply in_seq. pose proof (proj1 (go_fr _ _ _ _ _ _ G x Hx)). lia. }
    lia.
  - destruct (go_fr _ _ _ _ _ _ G d (or_introl eq_refl)) as (Hd & Fd). destruct (f_op d Hd) as (Ho & No & Oo).
    cbn [follow_contour]. rewrite <- !h_tev.
    assert (Rl : (0 < length r)%nat) by (destruct r; [exfalso; exact (g_ne _ _ _ _ S eq_refl)|cbn; lia]).
    assert (Lr : forall x, In x r -> (x < n)%nat /\ fr x = true) by (intros x Hx; apply (go_fr _ _ _ _ _ _ G), (g_incl _ _ _ _ S), Hx).
    pose proof (fun x y => gone_once n vtx op nxt fr f_op f_nxt Hsides Hfr e0 (d :: h) x y G) as Once.
    destruct (pt_eqb_spec (t_end (tev ts d)) (t_start (tev ts e0))) as [E|N].
    + rewrite (forget_spec vids visited (g_vids _ _ _ _ S)), (g_len _ _ _ _ S). cbn [bind_res]. exists r. split; [reflexivity|].
      split; [exact (g_first _ _ _ _ S)|]. split; [|split; [intros x Hx; apply Lr, Hx|split]].
      * constructor; [exact (g_ne _ _ _ _ S)|intros x Hx; apply Lr, Hx|exact (g_nodup _ _ _ _ S)|].
        intros q Hq. unfold before. destruct q as [|q]; [|apply (g_link _ _ _ _ S q Hq)]. rewrite El, (g_first _ _ _ _ S).
        apply (Hids _ _ He0 Ho). rewrite <- E. apply f_end, Hd.
      * intros x y Hx Hy. apply Once; apply (g_incl _ _ _ _ S); assumption.
      * intros x Hx. apply (gone_same n vtx op nxt fr f_op f_nxt e0 (d :: h) x G). apply (g_incl _ _ _ _ S), Hx.
    + assert (Nv : vtx (op d) <> vtx e0).
      { intro E. apply N. rewrite (f_end d Hd). apply (Hids _ _ Ho He0). exact E. }
      destruct (next_fair d Hd Fd) as (w & Ew & Fw).
      pose proof (gone_next n vtx op nxt fr f_op f_nxt f_inj Hfr e0 d h w G Fw Nv) as G'.
      destruct (next_lt n vtx op nxt fr f_op f_nxt d w Hd Fw) as (Lw & Vw & Gw).
      change (h_end_id evs d) with (vtx (op d)). change (t_opposite (tev ts d)) with (opp ts d). rewrite f_opp, Ew.
      assert (Wd : (vtx (op d) < length visited)%nat) by (rewrite (g_len _ _ _ _ S); apply Hwidth, Ho).
      destruct (nth_error visited (vtx (op d))) as [[q|]|] eqn:Ev; [| |apply nth_error_None in Ev; lia].
      * (* a visited endpoint *)
        destruct (g_dead _ _ _ _ S _ _ Ev) as [(Hq & Vq)|J].
        2:{ exfalso. exact (not_sealed n vtx op nxt fr f_op f_nxt f_inj Hfr e0 d h w G Fw Nv J). }
        destruct q as [|q]; [exfalso; apply Nv; rewrite <- Vq, (g_first _ _ _ _ S); reflexivity|].
        cbn [bind_res]. rewrite !h_tev.
        apply (IH (d :: h)); [exact G'| |rewrite app_length; cbn [length]; replace (length (firstn (Datatypes.S q) r) + 1 - 1)%nat with (length (firstn (Datatypes.S q) r)) by lia; apply nth_middle|cbn in Hf |- *; lia].
        assert (Fl : length (firstn (Datatypes.S q) r) = Datatypes.S q) by (apply firstn_length_le; lia).
        assert (Nth : forall k, (k < Datatypes.S q)%nat -> nth k (firstn (Datatypes.S q) r ++ [w]) O = nth k r O).
        { intros k Hk. rewrite app_nth1 by lia. apply nth_firstn_lt, Hk. }
        assert (Nw : nth (Datatypes.S q) (firstn (Datatypes.S q) r ++ [w]) O = w).
        { rewrite <- Fl at 1. apply nth_middle. }
        (* the loop *)
        set (L := skipn (Datatypes.S q) r).
        assert (LL : length L = (length r - Datatypes.S q)%nat) by apply skipn_length.
        assert (Ln : forall k, nth k L O = nth (Datatypes.S q + k) r O) by (intro k; apply nth_skipn).
        assert (Lb : forall k, before L (Datatypes.S k) = nth (Datatypes.S q + k) r O) by (intro k; unfold before; apply Ln).
        assert (L0 : before L 0 = d).
        { unfold before. rewrite Ln, LL. replace (Datatypes.S q + (length r - Datatypes.S q - 1))%nat with (length r - 1)%nat by lia. exact El. }
        assert (Il : incl L (d :: h)) by (intros x Hx; apply (g_incl _ _ _ _ S), (in_skipn r (Datatypes.S q)), Hx).
        assert (Lp : loop n vtx op L).
        { constructor.
          - intro E. rewrite E in LL. cbn in LL. lia.
          - intros x Hx. apply Lr. apply (in_skipn r (Datatypes.S q)), Hx.
          - pose proof (g_nodup _ _ _ _ S) as Nd. rewrite <- (firstn_skipn (Datatypes.S q) r), map_app in Nd. exact (nodup_right _ _ Nd).
          - intros k Hk. destruct k as [|k].
            + rewrite L0, Ln, Nat.add_0_r. exact Vq.
            + rewrite Lb, Ln. replace (Datatypes.S q + Datatypes.S k)%nat with (Datatypes.S (Datatypes.S q + k)) by lia. apply (g_link _ _ _ _ S). lia. }
        constructor.
        -- rewrite Nth by lia. exact (g_first _ _ _ _ S).
        -- intro E. apply app_eq_nil in E. destruct E as (_ & E). discriminate E.
        -- intros x Hx. apply in_app_iff in Hx. destruct Hx as [Hx|[<-|[]]]; [right; apply (g_incl _ _ _ _ S), (in_firstn r (Datatypes.S q)), Hx|left; reflexivity].
        -- rewrite map_app. cbn [map]. pose proof (g_nodup _ _ _ _ S) as Nd. rewrite <- (firstn_skipn (Datatypes.S q) r), map_app in Nd.
           fold L in Nd. destruct L as [|z L'] eqn:EL; [cbn in LL; lia|].
           assert (Ez : vtx z = vtx w). { pose proof (Ln 0%nat) as J. cbn [nth] in J. rewrite Nat.add_0_r in J. rewrite J, Vq. symmetry. exact Vw. }
           cbn [map] in Nd. rewrite Ez in Nd. clear - Nd. apply NoDup_remove in Nd. destruct Nd as (A & B).
           apply (Permutation_NoDup (Permutation_cons_append _ _)). constructor.
           ++ intro J. apply B. apply in_app_iff. left. exact J.
           ++ clear B. revert A. generalize (map vtx (firstn (Datatypes.S q) r)) as l. intro l. induction l as [|a l IHl]; intro A; [constructor|]. inversion A as [|? ? A1 A2]; subst. constructor; [|exact (IHl A2)].
              intro J. apply A1. apply in_app_iff. left. exact J.
        -- intros k Hk. rewrite app_length, Fl in Hk. cbn in Hk. destruct (Nat.eq_dec k q) as [->|Nk].
           ++ rewrite Nw, Nth by lia. rewrite Vw, <- Vq. apply (g_link _ _ _ _ S). exact Hq.
           ++ rewrite !Nth by lia. apply (g_link _ _ _ _ S). lia.
        -- intros k Hk. rewrite app_length, Fl in Hk. cbn in Hk. destruct (Nat.eq_dec k q) as [->|Nk].
           ++ rewrite Nw, Nth by lia.
              apply (semi_cut n vtx op nxt fr f_op f_nxt f_inj f_ring Hsides Hfr e0 He0 d h w (nth q r O) (nth (Datatypes.S q) r O) L G Fw Nv Il Lp).
              ** rewrite Ln, Nat.add_0_r. reflexivity.
              ** exact L0.
              ** apply (g_incl _ _ _ _ S), nth_In. lia.
              ** intro E. rewrite <- El in E. assert (Nd : NoDup r) by (apply (NoDup_map_inv vtx), (g_nodup _ _ _ _ S)).
                 rewrite (NoDup_nth r O) in Nd. assert (J : q = (length r - 1)%nat) by (apply Nd; [lia|lia|exact E]). lia.
              ** apply (g_link _ _ _ _ S). exact Hq.
              ** apply (g_semi _ _ _ _ S). exact Hq.
           ++ rewrite !Nth by lia. apply (semi_more n vtx op nxt fr e0 (d :: h)); [intros x Hx; right; exact Hx|]. apply (g_semi _ _ _ _ S). lia.
        -- intros k Hk. rewrite app_length, Fl in Hk. cbn in Hk. destruct (Nat.eq_dec k (Datatypes.S q)) as [->|Nk].
           ++ rewrite Nw, Vw. exact Ev.
           ++ rewrite !Nth by lia. apply (g_pos _ _ _ _ S). lia.
        -- intros v k Hv. destruct (g_dead _ _ _ _ S v k Hv) as [(Hk & Vk)|J].
           ++ destruct (Nat.lt_trichotomy k (Datatypes.S q)) as [K|[K|K]].
              ** left. rewrite app_length, Fl, Nth by lia. split; [cbn; lia|exact Vk].
              ** subst k. left. rewrite app_length, Fl, Nw. split; [cbn; lia|]. rewrite Vw, <- Vq. exact Vk.
              ** right. apply (sealed_more n vtx op nxt fr e0 (d :: h)); [intros x Hx; right; exact Hx|].
                 replace k with (Datatypes.S q + Datatypes.S (k - q - 2))%nat in Vk, Hk by lia. rewrite <- Ln in Vk. rewrite <- Vk.
                 apply (loop_sealed n vtx op nxt fr f_op f_nxt f_ring Hsides Hfr e0 He0 (d :: h) L _ G Il Lp); [lia|].
                 rewrite Lb, Ln. replace (Datatypes.S q + Datatypes.S (k - q - 2))%nat with (Datatypes.S (Datatypes.S q + (k - q - 2))) in Hk |- * by lia.
                 apply (g_semi _ _ _ _ S). exact Hk.
           ++ right. apply (sealed_more n vtx op nxt fr e0 (d :: h)); [intros x Hx; right; exact Hx|exact J].
        -- intros v k Hv. apply in_app_iff. left. apply (g_vids _ _ _ _ S v k Hv).
        -- exact (g_len _ _ _ _ S).
      * (* a new endpoint *)
        cbn [bind_res]. rewrite !h_tev.
        apply (IH (d :: h)); [exact G'| |rewrite app_length; cbn [length]; replace (length r + 1 - 1)%nat with (length r) by lia; apply nth_middle|cbn in Hf |- *; lia].
        assert (Nth : forall k, (k < length r)%nat -> nth k (r ++ [w]) O = nth k r O) by (intros k Hk; apply app_nth1, Hk).
        assert (Nw : nth (length r) (r ++ [w]) O = w) by apply nth_middle.
        assert (Fresh : forall k, (k < length r)%nat -> vtx (nth k r O) <> vtx (op d)).
        { intros k Hk E. pose proof (g_pos _ _ _ _ S k Hk) as J. rewrite E, Ev in J. discriminate J. }
        constructor.
        -- rewrite Nth by exact Rl. exact (g_first _ _ _ _ S).
        -- intro E. apply app_eq_nil in E. destruct E as (_ & E). discriminate E.
        -- intros x Hx. apply in_app_iff in Hx. destruct Hx as [Hx|[<-|[]]]; [right; apply (g_incl _ _ _ _ S), Hx|left; reflexivity].
        -- rewrite map_app. apply (Permutation_NoDup (Permutation_cons_append _ _)). constructor; [|exact (g_nodup _ _ _ _ S)].
           intro J. apply in_map_iff in J. destruct J as (x & Ex & Hx). destruct (in_nth0 r x Hx) as (k & Hk & <-). apply (Fresh k Hk). rewrite Ex. exact Vw.
        -- intros k Hk. rewrite app_length in Hk. cbn in Hk. destruct (Nat.eq_dec (Datatypes.S k) (length r)) as [Ek|Nk].
           ++ rewrite Ek, Nw, Nth by lia. replace k with (length r - 1)%nat by lia. rewrite El. exact Vw.
           ++ rewrite !Nth by lia. apply (g_link _ _ _ _ S). lia.
        -- intros k Hk. rewrite app_length in Hk. cbn in Hk. destruct (Nat.eq_dec (Datatypes.S k) (length r)) as [Ek|Nk].
           ++ rewrite Ek, Nw, Nth by lia. replace k with (length r - 1)%nat by lia. rewrite El. apply semi_new. exact Fw.
           ++ rewrite !Nth by lia. apply (semi_more n vtx op nxt fr e0 (d :: h)); [intros x Hx; right; exact Hx|]. apply (g_semi _ _ _ _ S). lia.
        -- intros k Hk. rewrite app_length in Hk. cbn in Hk. rewrite set_position_at by exact Wd. destruct (Nat.eq_dec k (length r)) as [->|Nk].
           ++ rewrite Nw, Vw, Nat.eqb_refl. reflexivity.
           ++ rewrite Nth by lia. destruct (Nat.eqb_spec (vtx (nth k r O)) (vtx (op d))) as [E|_]; [exfalso; apply (Fresh k); [lia|exact E]|].
              apply (g_pos _ _ _ _ S). lia.
        -- intros v k Hv. rewrite set_position_at in Hv by exact Wd. destruct (Nat.eqb_spec v (vtx (op d))) as [->|Nvv].
           ++ injection Hv as <-. left. rewrite app_length, Nw. split; [cbn; lia|exact Vw].
           ++ destruct (g_dead _ _ _ _ S v k Hv) as [(Hk & Vk)|J].
              ** left. rewrite app_length, Nth by exact Hk. split; [cbn; lia|exact Vk].
              ** right. apply (sealed_more n vtx op nxt fr e0 (d :: h)); [intros x Hx; right; exact Hx|exact J].
        -- intros v k Hv. rewrite set_position_at in Hv by exact Wd. apply in_app_iff. destruct (Nat.eqb_spec v (vtx (op d))) as [->|Nvv]; [right; left; reflexivity|].
           left. apply (g_vids _ _ _ _ S v k Hv).
        -- rewrite set_position_length. exact (g_len _ _ _ _ S).
Qed.
Theorem to_contour_events_spec : t_left (tev ts e0) = true ->
  exists r, to_contour_events evs c p e0 (repeat None width) = Ok (r, repeat None width) /\ followed r.
Proof.
  intro Hl. unfold to_contour_events. rewrite <- h_tev, Hl.
  assert (Wd : (vtx e0 < length (repeat (@None nat) width))%nat) by (rewrite repeat_length; apply Hwidth, He0).
  assert (S1 : forall v q, nth_error (set_position (repeat None width) (vtx e0) (Some O)) v = Some (Some q) -> v = vtx e0 /\ q = O).
  { intros v q H. rewrite set_position_at in H by exact Wd. destruct (Nat.eqb_spec v (vtx e0)) as [->|N]; [injection H as <-; split; reflexivity|exfalso; exact (no_positions _ _ _ H)]. }
  rewrite h_tev. apply (follow_spec (S n) []).
  - constructor; [reflexivity|constructor; [intros []|constructor]|]. intros x [<-|[]]. split; assumption.
  - constructor.
    + reflexivity.
    + discriminate.
    + intros x Hx. exact Hx.
    + constructor; [intros []|constructor].
    + cbn. intros q Hq. lia.
    + cbn. intros q Hq. lia.
    + cbn. intros q Hq. replace q with O by lia. change (h_start_id (hev evs e0)) with (vtx e0). rewrite set_position_at by exact Wd. rewrite Nat.eqb_refl. reflexivity.
    + intros v q H. destruct (S1 v q H) as (-> & ->). left. split; [cbn; lia|reflexivity].
    + intros v q H. destruct (S1 v q H) as (-> & ->). left. reflexivity.
    + rewrite set_position_length. apply repeat_length.
  - reflexivity.
  - cbn. lia.
Qed.
End Flags.
End Follow.
