(** Tracing of contours: every event is used exactly once. *)
From Coq Require Import Permutation.
From Verif Require Import QcTac Geom Spec GeomFacts Sweep SpecShape Contour ConnectThms Tracing.

Lemma last_cons : forall A (l : list A) x d, last (x :: l) d = last l x.
Proof.
  intros A l. induction l as [|y l IH]; intros x d; [reflexivity|].
  transitivity (last (y :: l) d); [reflexivity|]. rewrite !IH. reflexivity.
Qed.

Definition opp (evs : list traced) (i : nat) : nat := t_opposite (tev evs i).
Definition edge (evs : list traced) (i : nat) : segment := Seg (t_start (tev evs i)) (t_end (tev evs i)).
(** Events come in pairs of opposite ones. *)
Definition paired (evs : list traced) : Prop :=
  forall i, (i < length evs)%nat -> (opp evs i < length evs)%nat /\ opp evs i <> i /\ opp evs (opp evs i) = i
    /\ t_end (tev evs i) = t_start (tev evs (opp evs i)).

Definition free (p : list bool) (n : nat) : list nat := filter (fun i => negb (nth i p false)) (seq 0 n).
Lemma filter_one : forall (f g : nat -> bool) l i, NoDup l -> In i l -> f i = true -> g i = false ->
  (forall j, In j l -> j <> i -> f j = g j) -> Permutation (filter f l) (i :: filter g l).
Proof.
  intros f g l i. induction l as [|x l IH]; intros N I Fi Gi H; [destruct I|].
  inversion N as [|? ? Nx Nl]; subst. cbn. destruct I as [->|I].
  - rewrite Fi, Gi. apply perm_skip.
    assert (E : filter f l = filter g l).
    { apply filter_ext_in. intros j Hj. apply H; [right; exact Hj|]. intros ->. contradiction. }
    rewrite E. reflexivity.
  - assert (x <> i) by (intros ->; contradiction). rewrite (H x (or_introl eq_refl) H0).
    assert (P := IH Nl I Fi Gi (fun j Hj => H j (or_intror Hj))).
    destruct (g x); [|exact P]. rewrite perm_swap. apply perm_skip, P.
Qed.
Lemma filter_length_le : forall (f : nat -> bool) l, (length (filter f l) <= length l)%nat.
Proof. intros f l. induction l as [|x l IH]; cbn; [lia|]. destruct (f x); cbn; lia. Qed.
Lemma mark_length : forall p i, length (mark p i) = length p.
Proof. unfold mark. induction p as [|x p IH]; intros [|i]; cbn; auto. Qed.
Lemma mark_nth : forall p i j, (i < length p)%nat -> nth j (mark p i) false = (Nat.eqb j i || nth j p false)%bool.
Proof.
  unfold mark. induction p as [|x p IH]; intros i j Hi; cbn in Hi; [lia|].
  destruct i as [|i]; destruct j as [|j]; cbn; try reflexivity. apply IH. lia.
Qed.
Lemma free_mark : forall p n i, length p = n -> (i < n)%nat -> nth i p false = false ->
  Permutation (free p n) (i :: free (mark p i) n).
Proof.
  intros p n i Hp Hi F. unfold free. apply filter_one; [apply seq_NoDup|apply in_seq; lia|rewrite F; reflexivity| |].
  - rewrite mark_nth by lia. rewrite Nat.eqb_refl. reflexivity.
  - intros j Hj N. rewrite mark_nth by lia. destruct (Nat.eqb_spec j i); [contradiction|]. reflexivity.
Qed.

Lemma shuffle : forall (x : nat) a b c d, Permutation (x :: a ++ b ++ c ++ d) ((a ++ c) ++ x :: b ++ d).
Proof.
  intros x a b c d. rewrite <- Permutation_middle. apply perm_skip. rewrite <- !app_assoc. apply Permutation_app_head.
  rewrite !app_assoc. apply Permutation_app_tail, Permutation_app_comm.
Qed.

Section Trace.
Variable evs : list traced.
Hypothesis Hpair : paired evs.
Hypothesis Hgroup : grouped (starts evs).
Variable connectivity : list nat.
Hypothesis Hconn : events_to_connectivity evs = Ok connectivity.
Let n := length evs.

(** Flags of opposite events agree. *)
Definition fair (p : list bool) : Prop :=
  length p = n /\ forall i, (i < n)%nat -> nth i p false = nth (opp evs i) p false.
Lemma fair_mark : forall p i, fair p -> (i < n)%nat -> nth i p false = false ->
  fair (mark_pair evs p i) /\ Permutation (free p n) (i :: opp evs i :: free (mark_pair evs p i) n).
Proof.
  intros p i [Hl Hf] Hi Ni. destruct (Hpair i Hi) as (Ho & No & Oo & _). fold n in Ho.
  unfold mark_pair. fold (opp evs i). split.
  - split; [rewrite !mark_length; exact Hl|]. intros j Hj. destruct (Hpair j Hj) as (Hoj & Noj & Ooj & _). fold n in Hoj.
    rewrite !mark_nth by (rewrite ?mark_length; lia). rewrite (Hf j Hj).
    destruct (Nat.eqb_spec j (opp evs i)) as [->|A].
    + rewrite Oo, Nat.eqb_refl. cbn. rewrite orb_true_r. reflexivity.
    + destruct (Nat.eqb_spec j i) as [->|B].
      * rewrite Nat.eqb_refl. reflexivity.
      * destruct (Nat.eqb_spec (opp evs j) (opp evs i)) as [E|_].
        { exfalso. apply B. rewrite <- Ooj, <- Oo, E. reflexivity. }
        destruct (Nat.eqb_spec (opp evs j) i) as [E|_].
        { exfalso. apply A. rewrite <- E, Ooj. reflexivity. }
        reflexivity.
  - rewrite (free_mark p n i Hl Hi Ni). apply perm_skip. apply free_mark; [rewrite mark_length; exact Hl|exact Ho|].
    rewrite mark_nth by lia. destruct (Nat.eqb_spec (opp evs i) i); [contradiction|]. cbn. rewrite <- (Hf i Hi). exact Ni.
Qed.
Lemma free_in : forall p i, In i (free p n) <-> (i < n)%nat /\ nth i p false = false.
Proof.
  intros p i. unfold free. rewrite filter_In, in_seq. destruct (nth i p false); cbn; split; intros [A B]; split; try lia; congruence.
Qed.

Definition ends_at (c : point) (cursor : nat) (ids : list nat) : Prop := t_end (tev evs (last ids cursor)) = c.
(** Number of unprocessed events starting at a point. *)
Definition degree (p : list bool) (v : point) : nat := count_occ pt_eq_dec (map (fun i => t_start (tev evs i)) (free p n)) v.
Definition here (q v : point) : nat := if pt_eq_dec q v then 1%nat else 0%nat.
Lemma degree_mark : forall p i v, fair p -> (i < n)%nat -> nth i p false = false ->
  degree p v = (here (t_start (tev evs i)) v + here (t_end (tev evs i)) v + degree (mark_pair evs p i) v)%nat.
Proof.
  intros p i v F Hi Ni. destruct (fair_mark p i F Hi Ni) as [_ P]. unfold degree.
  rewrite (proj1 (Permutation_count_occ pt_eq_dec _ _) (Permutation_map (fun i => t_start (tev evs i)) P)).
  cbn [map count_occ]. destruct (Hpair i Hi) as (_ & _ & _ & E). rewrite <- E. unfold here.
  destruct (pt_eq_dec (t_start (tev evs i)) v), (pt_eq_dec (t_end (tev evs i)) v); lia.
Qed.

Lemma trace_contour_spec : forall fuel c cursor vs ids p,
  fair p -> (cursor < n)%nat -> nth cursor p false = true -> (length (free p n) < fuel)%nat ->
  exists vs' ids' p', trace_contour fuel evs connectivity c cursor vs ids p = Ok (vs ++ vs', ids ++ ids', p')
    /\ fair p'
    /\ Permutation (free p n) (ids' ++ map (opp evs) ids' ++ free p' n)
    /\ walk (edge evs cursor) (map (edge evs) ids')
    /\ ((ends_at c cursor ids' /\ vs' = map (fun i => t_start (tev evs i)) ids')
        \/ (~ ends_at c cursor ids' /\ forall i, (i < n)%nat ->
             t_start (tev evs i) = t_end (tev evs (last ids' cursor)) -> nth i p' false = true))
    /\ ((forall v, Nat.even (degree p v + here c v + here (t_end (tev evs cursor)) v) = true) ->
        ends_at c cursor ids' /\ forall v, Nat.even (degree p' v) = true).
Proof.
  induction fuel as [|f IH]; intros c cursor vs ids p F Hc Pc Hf; [lia|]. cbn [trace_contour].
  destruct (pt_eqb_spec (t_end (tev evs cursor)) c) as [E|N].
  - exists [], [], p. rewrite !app_nil_r. split; [reflexivity|]. split; [exact F|].
    split; [reflexivity|]. split; [exact I|]. split; [left; split; [exact E|reflexivity]|].
    intro Ev. split; [exact E|]. intro v. specialize (Ev v). rewrite E in Ev.
    rewrite <- Nat.add_assoc in Ev. replace (here c v + here c v)%nat with (2 * here c v)%nat in Ev by lia.
    rewrite Nat.even_add_mul_2 in Ev. exact Ev.
  - destruct (Hpair cursor Hc) as (Ho & No & Oo & Eo). fold (opp evs cursor).
    destruct (next_event_correct evs connectivity p (opp evs cursor) Hgroup Hconn Ho) as (r & Er & Hr).
    rewrite Er. destruct r as [j|].
    + destruct Hr as (Hj & Sj & Nj). fold n in Hj. rewrite <- Eo in Sj.
      destruct (fair_mark p j F Hj Nj) as [F' P'].
      assert (Pj : nth j (mark_pair evs p j) false = true).
      { unfold mark_pair. rewrite mark_nth by (rewrite mark_length, (proj1 F); apply (Hpair j Hj)).
        rewrite mark_nth by (rewrite (proj1 F); exact Hj). rewrite Nat.eqb_refl. cbn. apply orb_true_r. }
      assert (Lf : (length (free (mark_pair evs p j) n) < f)%nat).
      { apply Permutation_length in P'. cbn in P'. lia. }
      destruct (IH c j (vs ++ [t_end (tev evs cursor)]) (ids ++ [j]) (mark_pair evs p j) F' Hj Pj Lf)
        as (vs' & ids' & p' & E & Fp & Pp & W & D & Ev).
      exists (t_end (tev evs cursor) :: vs'), (j :: ids'), p'. rewrite E.
      split; [rewrite <- !app_assoc; reflexivity|]. split; [exact Fp|]. split.
      { rewrite P'. cbn. apply perm_skip. rewrite Pp. rewrite Permutation_middle. apply Permutation_app_head.
        reflexivity. }
      split; [split; [exact Sj|exact W]|].
      assert (La : last (j :: ids') cursor = last ids' j) by apply last_cons.
      unfold ends_at in *. rewrite La. split.
      { destruct D as [[A B]|[A B]]; [left|right]; split; try assumption. cbn. rewrite Sj, B. reflexivity. }
      intro H. apply Ev. intro v. specialize (H v). rewrite (degree_mark p j v F Hj Nj), Sj in H.
      set (x := here (t_end (tev evs cursor)) v) in *.
      replace (x + here (t_end (tev evs j)) v + degree (mark_pair evs p j) v + here c v + x)%nat
        with (degree (mark_pair evs p j) v + here c v + here (t_end (tev evs j)) v + 2 * x)%nat in H by lia.
      rewrite Nat.even_add_mul_2 in H. exact H.
    + exists [t_end (tev evs cursor)], [], p. rewrite !app_nil_r. split; [reflexivity|]. split; [exact F|].
      split; [reflexivity|]. split; [exact I|]. rewrite <- Eo in Hr. split.
      { right. split; [exact N|]. exact Hr. }
      intro Ev. exfalso. specialize (Ev (t_end (tev evs cursor))). unfold here in Ev.
      destruct (pt_eq_dec c (t_end (tev evs cursor))) as [X|_]; [apply N; symmetry; exact X|].
      destruct (pt_eq_dec (t_end (tev evs cursor)) (t_end (tev evs cursor))) as [_|X]; [|contradiction].
      assert (Z0 : degree p (t_end (tev evs cursor)) = O).
      { unfold degree. apply count_occ_not_In. intro X. apply in_map_iff in X. destruct X as (i & Ei & Ii).
        apply free_in in Ii. destruct Ii as [Hi Ni]. rewrite (Hr i Hi Ei) in Ni. discriminate. }
      rewrite Z0 in Ev. cbn in Ev. discriminate.
Qed.

(** A traced contour: vertices and events. *)
Definition good_contour (x : list point * list nat) : Prop :=
  exists i r, snd x = i :: r /\ walk (edge evs i) (map (edge evs) r)
    /\ (ends_at (t_start (tev evs i)) i r -> fst x = map (fun j => t_start (tev evs j)) (snd x)).
Definition closed_contour (x : list point * list nat) : Prop :=
  exists i r, snd x = i :: r /\ ends_at (t_start (tev evs i)) i r.

Lemma trace_contours_spec : forall ids p, fair p ->
  (forall i, In i ids -> (i < n)%nat) -> (forall i, In i (free p n) -> In i ids) ->
  exists cs, trace_contours evs connectivity ids p = Ok cs
    /\ Permutation (free p n) (flat_map snd cs ++ map (opp evs) (flat_map snd cs))
    /\ Forall good_contour cs
    /\ ((forall v, Nat.even (degree p v) = true) -> Forall closed_contour cs).
Proof.
  induction ids as [|i ids IH]; intros p F Hin Hfree.
  - exists []. split; [reflexivity|]. cbn. destruct (free p n) as [|x l]; [|destruct (Hfree x (or_introl eq_refl))].
    split; [reflexivity|]. split; [constructor|]. intros _. constructor.
  - cbn [trace_contours]. assert (Hi := Hin i (or_introl eq_refl)).
    destruct (nth i p false) eqn:Pi.
    + apply IH; [exact F|intros; apply Hin; right; assumption|].
      intros j Hj. destruct (Hfree j Hj) as [->|X]; [|exact X]. apply free_in in Hj. destruct Hj as [_ Hj]. congruence.
    + destruct (fair_mark p i F Hi Pi) as [F' P'].
      assert (Pj : nth i (mark_pair evs p i) false = true).
      { unfold mark_pair. rewrite mark_nth by (rewrite mark_length, (proj1 F); apply (Hpair i Hi)).
        rewrite mark_nth by (rewrite (proj1 F); exact Hi). rewrite Nat.eqb_refl. cbn. apply orb_true_r. }
      assert (Lf : (length (free (mark_pair evs p i) n) < S n)%nat).
      { apply Permutation_length in P'. cbn in P'.
        assert (length (free p n) <= n)%nat; [|lia].
        unfold free. pose proof (filter_length_le (fun i => negb (nth i p false)) (seq 0 n)) as X.
        rewrite seq_length in X. exact X. }
      destruct (trace_contour_spec (S n) (t_start (tev evs i)) i [t_start (tev evs i)] [i]
                  (mark_pair evs p i) F' Hi Pj Lf) as (vs' & ids' & p' & E & Fp & Pp & W & D & Ev).
      fold n. rewrite E. cbn [app].
      destruct (IH p' Fp (fun j Hj => Hin j (or_intror Hj))) as (cs & Ec & Pc & Gc & Cc).
      { intros j Hj. assert (X : In j (free (mark_pair evs p i) n)).
        { rewrite Pp. apply in_or_app. right. apply in_or_app. right. exact Hj. }
        assert (Y : In j (free p n)) by (rewrite P'; right; right; exact X).
        destruct (Hfree j Y) as [->|Z0]; [|exact Z0].
        apply free_in in X. destruct X as [_ X]. rewrite Pj in X. discriminate. }
      rewrite Ec. exists ((t_start (tev evs i) :: vs', i :: ids') :: cs). split; [reflexivity|]. split.
      { cbn [flat_map snd]. rewrite P', Pp, Pc. rewrite map_app. cbn [map app]. apply perm_skip.
        apply shuffle. }
      split.
      { constructor; [|exact Gc]. exists i, ids'. split; [reflexivity|]. split; [exact W|].
        intro En. cbn [fst snd map]. f_equal. destruct D as [[_ D]|[D _]]; [exact D|contradiction]. }
      intro Even.
      assert (X : forall v, Nat.even (degree (mark_pair evs p i) v + here (t_start (tev evs i)) v
                                      + here (t_end (tev evs i)) v) = true).
      { intro v. rewrite <- (Even v). rewrite (degree_mark p i v F Hi Pi). f_equal. lia. }
      destruct (Ev X) as [A B]. constructor; [|apply Cc, B]. exists i, ids'. split; [reflexivity|exact A].
Qed.
End Trace.

Lemma walk_vertices : forall e es, walk e es ->
  forall i, (i < length es)%nat -> s_start (nth i es e) = s_end (nth i (e :: es) e).
Proof.
  intros e es. revert e. induction es as [|f es IH]; intros e W i Hi; cbn in Hi; [lia|].
  destruct W as [A B]. destruct i as [|i]; [exact A|].
  cbn [nth]. rewrite (nth_indep es e f) by lia. rewrite (IH f B i) by lia.
  apply f_equal. change (nth i (f :: es) f = nth i (f :: es) e). apply nth_indep. cbn. lia.
Qed.
(** Edges of the contour of starts of a closed walk are the edges of the walk. *)
Lemma closed_walk_edges : forall e es, walk e es -> s_end (last es e) = s_start e ->
  Permutation (contour_edges (map s_start (e :: es))) (e :: es).
Proof.
  intros e es W C. set (vs := map s_start (e :: es)).
  assert (Ln : length vs = S (length es)) by (unfold vs; rewrite map_length; reflexivity).
  assert (V : forall i, (i < S (length es))%nat -> vertex vs i = s_start (nth i (e :: es) e)).
  { intros i Hi. unfold vertex, vs. rewrite (nth_indep _ (Pt 0 0) (s_start e)) by (rewrite map_length; exact Hi).
    apply map_nth. }
  assert (A : contour_edges vs = last es e :: map (fun i => nth i (e :: es) e) (seq 0 (length es))).
  { unfold contour_edges. rewrite Ln. cbn [seq map]. f_equal.
    - cbn [before]. rewrite !V by lia. replace (S (length es) - 1)%nat with (length es) by lia.
      change (nth 0 (e :: es) e) with e. rewrite <- C.
      assert (L : last es e = nth (length es) (e :: es) e).
      { clear. revert e. induction es as [|f es IH]; intro e; [reflexivity|].
        assert (X := last_cons _ es f e).
        rewrite X, IH. change (nth (length es) (f :: es) f = nth (length es) (f :: es) e). apply nth_indep. cbn. lia. }
      rewrite L. apply eq_sym. destruct (nth (length es) (e :: es) e); reflexivity.
    - rewrite <- seq_shift, map_map. apply map_ext_in. intros i Hi. apply in_seq in Hi.
      cbn [before]. rewrite !V by lia. change (nth (S i) (e :: es) e) with (nth i es e).
      rewrite (walk_vertices e es W i) by lia. destruct (nth i (e :: es) e); reflexivity. }
  rewrite A. clear.
  assert (B : forall l (d : segment), map (fun i => nth i l d) (seq 0 (length l)) = l).
  { intros l d. induction l as [|x l IH]; [reflexivity|]. cbn [length seq map nth]. f_equal.
    rewrite <- seq_shift, map_map. cbn [nth]. exact IH. }
  rewrite <- (B (e :: es) e) at 1. cbn [length]. rewrite seq_S, map_app. cbn [map Nat.add].
  rewrite <- Permutation_cons_append.
  replace (nth (length es) (e :: es) e) with (last es e); [reflexivity|].
  revert e. induction es as [|f es IH]; intro e; [reflexivity|].
  assert (X := last_cons _ es f e).
  rewrite X, IH. change (nth (length es) (f :: es) f = nth (length es) (f :: es) e). apply nth_indep. cbn. lia.
Qed.

Lemma repeat_nth : forall n i, nth i (repeat false n) false = false.
Proof. induction n as [|n IH]; intros [|i]; cbn; auto. Qed.
Lemma free_none : forall n, free (repeat false n) n = seq 0 n.
Proof.
  intro n. unfold free. induction (seq 0 n) as [|x l IH]; [reflexivity|]. cbn [filter]. rewrite repeat_nth. cbn. rewrite IH. reflexivity.
Qed.
(** All contours traced. *)
Theorem tracing_correct : forall evs c, paired evs -> grouped (starts evs) -> events_to_connectivity evs = Ok c ->
  exists cs, trace_contours evs c (seq 0 (length evs)) (repeat false (length evs)) = Ok cs
    /\ Permutation (flat_map snd cs ++ map (opp evs) (flat_map snd cs)) (seq 0 (length evs))
    /\ Forall (good_contour evs) cs
    /\ (even_occurrences (starts evs) -> Forall (fun x => closed_contour evs x
          /\ Permutation (contour_edges (fst x)) (map (edge evs) (snd x))) cs).
Proof.
  intros evs c Hp Hg Hc.
  destruct (trace_contours_spec evs Hp Hg c Hc (seq 0 (length evs)) (repeat false (length evs)))
    as (cs & E & P & G & C).
  - split; [apply repeat_length|]. intros i Hi. rewrite !repeat_nth. reflexivity.
  - intros i Hi. apply in_seq in Hi. lia.
  - intros i Hi. rewrite free_none in Hi. exact Hi.
  - rewrite free_none in P. exists cs. split; [exact E|]. split; [symmetry; exact P|]. split; [exact G|].
    intro Ev. assert (C' : Forall (closed_contour evs) cs).
    { apply C. intro v. rewrite <- (Ev v). unfold degree. rewrite free_none. f_equal. f_equal. unfold starts.
      clear. assert (B : forall (l : list traced), map (fun i => nth i l no_traced) (seq 0 (length l)) = l).
      { intro l. induction l as [|x l IH]; [reflexivity|]. cbn [length seq map nth]. f_equal.
        rewrite <- seq_shift, map_map. exact IH. }
      rewrite <- (B evs) at 2. rewrite map_map. reflexivity. }
    rewrite Forall_forall in *. intros x Hx. split; [apply C', Hx|].
    destruct (C' x Hx) as (i & r & Ei & En). destruct (G x Hx) as (i' & r' & Ei' & W & V).
    rewrite Ei in Ei'. injection Ei' as <- <-. rewrite (V En), Ei.
    rewrite <- (map_map (edge evs) s_start). cbn [map]. apply closed_walk_edges; [exact W|].
    unfold ends_at in En. cbn [edge s_start].
    replace (last (map (edge evs) r) (edge evs i)) with (edge evs (last r i)); [exact En|].
    clear. revert i. induction r as [|y r IH]; intro i; [reflexivity|]. cbn [map last]. destruct r as [|z r]; [reflexivity|].
    apply (IH i).
Qed.
