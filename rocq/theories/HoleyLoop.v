(** Contours and relations between them found by holey.py.  Proof support
    only, no part of /repo is modelled here. *)
From Coq Require Import Permutation.
From Verif Require Import QcTac Geom Spec SpecShape GeomFacts SortFacts Sweep Linear SweepCmp Contour ConnectThms Tracing TraceThms RegionThms Parity Loops Labelled Filter Mixed Shaped Holey ShapedThms FollowThms Faces TracedLoops.

(** ** Relations *)
Lemma nth_update : forall (A : Type) (l : list A) i f j d, (i < length l)%nat -> nth j (update l i f) d = if Nat.eqb j i then f (nth i l d) else nth j l d.
Proof.
  induction l as [|x l IH]; intros i f j d H; cbn in H; [lia|]. destruct i as [|i], j as [|j]; cbn; try reflexivity. apply IH. lia.
Qed.
Lemma concat_update : forall (A : Type) (l : list (list A)) i x, (i < length l)%nat -> Permutation (concat (update l i (fun m => m ++ [x]))) (x :: concat l).
Proof.
  induction l as [|y l IH]; intros i x H; cbn in H; [lia|]. destruct i as [|i]; cbn [update concat].
  - rewrite <- app_assoc. symmetry. apply Permutation_middle.
  - rewrite (IH i x ltac:(lia)). symmetry. apply Permutation_middle.
Qed.
Lemma nth_snoc : forall (A : Type) (l : list A) x i d, nth i (l ++ [x]) d = if Nat.eqb i (length l) then x else nth i l d.
Proof.
  intros A l x i d. destruct (Nat.eqb_spec i (length l)) as [->|N]; [rewrite app_nth2, Nat.sub_diag by lia; reflexivity|].
  destruct (Nat.lt_ge_cases i (length l)) as [L|L]; [apply app_nth1, L|]. rewrite !nth_overflow; [reflexivity|lia|rewrite app_length; cbn; lia].
Qed.

Notation internal_at r c := (nth c (are_internal r) false).
Notation depth_at r c := (nth c (depths r) 0%nat).
Notation holes_at r c := (nth c (hole_ids r) []).
Notation parent_at r c := (nth c (parents r) None).
Record related (r : relations) (count : nat) : Prop := {
  re_internal : length (are_internal r) = count;
  re_depths : length (depths r) = count;
  re_hole_ids : length (hole_ids r) = count;
  re_parents : length (parents r) = count;
  re_out : forall c, (c < count)%nat -> internal_at r c = false -> depth_at r c = 0%nat;
  re_in : forall c, (c < count)%nat -> internal_at r c = true -> depth_at r c = 1%nat /\ holes_at r c = []
    /\ exists p, parent_at r c = Some p /\ (p < count)%nat /\ internal_at r p = false /\ In c (holes_at r p);
  re_holes : forall p h, In h (holes_at r p) -> (h < count)%nat /\ internal_at r h = true /\ parent_at r h = Some p;
  re_once : NoDup (concat (hole_ids r)) }.
Lemma related_none : related no_relations 0.
Proof.
  constructor; try reflexivity; try (intros; lia); [|constructor]. intros p h H. destruct p; destruct H.
Qed.
Lemma related_out : forall r k, related r k -> related (add_relations r false 0 None) (S k).
Proof.
  intros r k [A B C D E F G N]. unfold add_relations. constructor; cbn [are_internal depths hole_ids parents];
    try (rewrite app_length; cbn; lia).
  - intros c Hc. rewrite !nth_snoc, A, B. destruct (Nat.eqb_spec c k); [reflexivity|]. intro I. apply E; [lia|exact I].
  - intros c Hc. rewrite !nth_snoc, A, B, C, D. destruct (Nat.eqb_spec c k) as [->|Nc]; [discriminate|]. intro I.
    destruct (F c ltac:(lia) I) as (F1 & F2 & p & F3 & F4 & F5 & F6). split; [exact F1|]. split; [exact F2|]. exists p. split; [exact F3|].
    split; [lia|]. rewrite !nth_snoc, A, C. destruct (Nat.eqb_spec p k); [lia|]. split; assumption.
  - intros p h. rewrite !nth_snoc, A, C, D. destruct (Nat.eqb_spec p k); [intros []|]. intro Hh. destruct (G p h Hh) as (G1 & G2).
    destruct (Nat.eqb_spec h k); [lia|]. split; [lia|exact G2].
  - rewrite concat_app. cbn. rewrite app_nil_r. exact N.
Qed.
Lemma related_hole : forall r k p, related r k -> (p < k)%nat -> internal_at r p = false ->
  related (add_relations (add_hole r p k) true 1 (Some p)) (S k).
Proof.
  intros r k p [A B C D E F G N] Hp Ip. unfold add_relations, add_hole. cbn [are_internal depths hole_ids parents].
  assert (C' : length (update (hole_ids r) p (fun l => l ++ [k])) = k) by (rewrite update_length; exact C).
  assert (Nu : forall j, nth j (update (hole_ids r) p (fun l => l ++ [k])) [] = if Nat.eqb j p then holes_at r p ++ [k] else holes_at r j)
    by (intro j; apply nth_update; lia).
  constructor; cbn [are_internal depths hole_ids parents]; try (rewrite app_length; cbn; lia).
  - intros c Hc. rewrite !nth_snoc, A, B. destruct (Nat.eqb_spec c k); [discriminate|]. intro I. apply E; [lia|exact I].
  - intros c Hc. rewrite !nth_snoc, A, B, C', D, Nu. destruct (Nat.eqb_spec c k) as [->|Nc].
    + intros _. split; [reflexivity|]. split; [reflexivity|]. exists p. split; [reflexivity|]. split; [lia|].
      rewrite !nth_snoc, A, C', Nu, Nat.eqb_refl. destruct (Nat.eqb_spec p k); [lia|]. split; [exact Ip|]. apply in_or_app. right. left. reflexivity.
    + intro I. destruct (F c ltac:(lia) I) as (F1 & F2 & q & F3 & F4 & F5 & F6). split; [exact F1|].
      split; [destruct (Nat.eqb_spec c p) as [->|]; [congruence|exact F2]|]. exists q. split; [exact F3|]. split; [lia|].
      rewrite !nth_snoc, A, C', Nu. destruct (Nat.eqb_spec q k); [lia|]. split; [exact F5|].
      destruct (Nat.eqb_spec q p) as [->|]; [apply in_or_app; left; exact F6|exact F6].
  - intros q h. rewrite !nth_snoc, A, C', Nu, D. destruct (Nat.eqb_spec q k); [intros []|].
    assert (Gq : In h (holes_at r q) -> (h < S k)%nat /\ (if Nat.eqb h k then true else internal_at r h) = true /\ (if Nat.eqb h k then Some p else parent_at r h) = Some q).
    { intro Hh. destruct (G q h Hh) as (G1 & G2). split; [lia|]. destruct (Nat.eqb_spec h k); [lia|exact G2]. }
    destruct (Nat.eqb_spec q p) as [->|]; [|exact Gq]. intro Hh. apply in_app_or in Hh. destruct Hh as [Hh|[<-|[]]]; [exact (Gq Hh)|].
    rewrite Nat.eqb_refl. split; [lia|split; reflexivity].
  - rewrite concat_app. cbn. rewrite app_nil_r. apply (Permutation_NoDup (Permutation_sym (concat_update _ (hole_ids r) p k ltac:(lia)))). constructor; [|exact N].
    intro K. apply in_concat in K. destruct K as (l & Hl & Hk). apply (In_nth _ _ []) in Hl. destruct Hl as (q & _ & <-). pose proof (proj1 (G q k Hk)). lia.
Qed.

(** What [_compute_relations] says of a new contour. *)
Definition relation_of (int : nat -> bool) (par : nat -> option nat) (j : nat) (below : option (bool * nat)) : Prop :=
  match below with
  | None => int j = false
  | Some (true, q) => int j = int q /\ (int j = true -> par j = par q)
  | Some (false, q) => int j = negb (int q) /\ (int j = true -> par j = Some q)
  end.
Lemma relation_ext : forall int par int' par' j below, int' j = int j -> par' j = par j ->
  (forall b q, below = Some (b, q) -> int' q = int q /\ par' q = par q) -> relation_of int par j below -> relation_of int' par' j below.
Proof.
  intros int par int' par' j below E1 E2 E3. destruct below as [([|], q)|]; cbn; rewrite ?E1, ?E2; [| |exact (fun H => H)]; destruct (E3 _ _ eq_refl) as (A & B); rewrite ?A, ?B; exact (fun H => H).
Qed.

(** ** Polygons made of the contours *)
Lemma used_once : forall r k, related r k ->
  Permutation (flat_map (fun c => if internal_at r c then [] else c :: holes_at r c) (seq 0 k)) (seq 0 k).
Proof.
  intros r k [A B C D E F G N].
  assert (Sub : forall j, (j <= k)%nat -> incl (concat (firstn j (hole_ids r))) (concat (hole_ids r)) /\ NoDup (concat (firstn j (hole_ids r)))).
  { intros j Hj. rewrite <- (firstn_skipn j (hole_ids r)) in N. rewrite concat_app in N.
    split; [|exact (Polygons.NoDup_app_remove_r _ _ _ N)]. intros x Hx. rewrite <- (firstn_skipn j (hole_ids r)), concat_app. apply in_or_app. left. exact Hx. }
  assert (Hi : forall h, In h (concat (hole_ids r)) -> (h < k)%nat /\ internal_at r h = true).
  { intros h Hh. apply in_concat in Hh. destruct Hh as (l & Hl & Hk). apply (In_nth _ _ []) in Hl. destruct Hl as (q & _ & <-). destruct (G q h Hk) as (G1 & G2 & _). split; assumption. }
  assert (P : forall j, (j <= k)%nat -> Permutation (flat_map (fun c => if internal_at r c then [] else c :: holes_at r c) (seq 0 j))
    (filter (fun c => negb (internal_at r c)) (seq 0 j) ++ concat (firstn j (hole_ids r)))).
  { induction j as [|j IH]; intro Hj; [reflexivity|]. rewrite seq_S, flat_map_app, filter_app. cbn [plus flat_map filter]. rewrite app_nil_r, (IH ltac:(lia)).
    assert (Ef : firstn (S j) (hole_ids r) = firstn j (hole_ids r) ++ [holes_at r j]).
    { clear - C Hj. revert j C Hj. generalize (hole_ids r). intro l. revert k. induction l as [|x l IH]; intros k j C Hj; cbn in C; [lia|].
      destruct j as [|j]; [reflexivity|]. cbn [firstn nth app]. f_equal. destruct k as [|k]; [lia|]. apply (IH k j); lia. }
    rewrite Ef, concat_app. cbn [concat]. rewrite app_nil_r. destruct (internal_at r j) eqn:Ij; cbn [negb].
    - destruct (F j ltac:(lia) Ij) as (_ & F2 & _). rewrite F2, !app_nil_r. reflexivity.
    - rewrite <- !app_assoc. apply Permutation_app_head. cbn [app]. rewrite Permutation_app_comm. cbn. constructor. apply Permutation_app_comm. }
  rewrite (P k (le_n k)). rewrite <- C at 2. rewrite firstn_all.
  apply NoDup_Permutation; [|apply seq_NoDup|].
  - apply NoDup_app_intro; [apply NoDup_filter, seq_NoDup|exact N|]. intros x Hx K. apply filter_In in Hx. destruct Hx as (_ & Hx). rewrite (proj2 (Hi x K)) in Hx. discriminate Hx.
  - intro x. rewrite in_app_iff, filter_In, in_seq. split.
    + intros [(Hx & _)|Hx]; [exact Hx|]. split; [lia|exact (proj1 (Hi x Hx))].
    + intro Hx. destruct (internal_at r x) eqn:Ix; [right|left; split; [exact Hx|reflexivity]].
      destruct (F x ltac:(lia) Ix) as (_ & _ & p & _ & Fp & _ & Fx). apply in_concat. exists (holes_at r p). split; [|exact Fx]. apply nth_In. lia.
Qed.
Definition contours_of (g : polygon) : list contour := border g :: holes g.
Lemma polygons_contours : forall r contours, related r (length contours) -> Permutation (flat_map contours_of (to_polygons r contours)) contours.
Proof.
  intros r contours R. transitivity (map (fun c => nth c contours no_contour) (seq 0 (length contours))).
  - refine (Permutation_trans _ (Permutation_map _ (used_once r _ R))). unfold to_polygons.
    assert (Hin : forall c, In c (seq 0 (length contours)) -> (c < length contours)%nat) by (intros c Hc; apply in_seq in Hc; lia).
    induction (seq 0 (length contours)) as [|c l IH]; [reflexivity|]. cbn [flat_map]. rewrite flat_map_app, map_app.
    rewrite IH by (intros x Hx; apply Hin; right; exact Hx). apply Permutation_app_tail. destruct (internal_at r c) eqn:Ic.
    + destruct (re_in _ _ R c (Hin c (or_introl eq_refl)) Ic) as (_ & E & _). rewrite E. reflexivity.
    + cbn [flat_map]. rewrite app_nil_r. reflexivity.
  - rewrite ShapedThms.map_nth_seq. reflexivity.
Qed.

Lemma Forall2_length : forall (A B : Type) (R : A -> B -> Prop) l m, Forall2 R l m -> length l = length m.
Proof. intros A B R l m F. induction F as [|x y l m _ _ IH]; [reflexivity|]. cbn. rewrite IH. reflexivity. Qed.

(** ** The loop over the events *)
Section Tracing.
Variables (s : state) (evs : list holey_event) (c : list nat) (width : nat).
Notation ts := (map h_traced evs).
Notation n := (length evs).
Notation vtx := (vx evs).
Notation op := (ov evs).
Hypothesis Hpair : paired ts.
Hypothesis Htidy : tidy ts.
Hypothesis Hplanar : planar ts.
Hypothesis Hgroup : grouped (starts ts).
Hypothesis Hids : forall i j, (i < n)%nat -> (j < n)%nat -> vtx i = vtx j <-> t_start (tev ts i) = t_start (tev ts j).
Hypothesis Hconn : events_to_connectivity ts = Ok c.
Hypothesis Hwidth : forall i, (i < n)%nat -> (vtx i < width)%nat.
Notation left_at i := (left_of s (h_event (hev evs i))).
Hypothesis Hleft : forall i, (i < n)%nat -> t_left (tev ts i) = is_left (h_event (hev evs i)).
Hypothesis Hopl : forall i, (i < n)%nat -> left_at (op i) = left_at i.
Hypothesis Hsort : forall i j, (i < j)%nat -> (j < n)%nat -> ple (t_start (tev ts i)) (t_start (tev ts j)).
Hypothesis Hbelow : forall k i b, (k < n)%nat -> h_event (hev evs k) = EL i -> l_below (lft s i) = Some b -> exists j, (j < k)%nat /\ left_at j = b.
Hypothesis Hinj : forall i j, (i < n)%nat -> (j < n)%nat -> left_at i = left_at j -> i = j \/ i = op j.

Lemma t_op : forall i, (i < n)%nat -> (op i < n)%nat /\ op i <> i /\ op (op i) = i.
Proof. intros i Hi. apply (f_op evs Hpair i Hi). Qed.
Lemma t_sides : forall Z, closed n vtx op Z -> exists sg, sides n op (nx c) Z sg.
Proof.
  intros Z HZ. pose proof (faces ts vtx c Hpair Htidy Hgroup) as F. rewrite (map_length h_traced) in F.
  assert (E : forall i, opp ts i = op i) by (intro i; unfold opp; rewrite h_tev; reflexivity).
  destruct (F Hids Hconn Z) as (sg & S).
  - destruct HZ as (A & B). split; [intros i Hi; rewrite E; exact (A i Hi)|exact B].
  - exists sg. destruct S as (A & B). split; [intros i Hi; rewrite <- E; exact (A i Hi)|exact B].
Qed.
Lemma t_proper : forall i, (i < n)%nat -> t_start (tev ts i) <> t_end (tev ts i).
Proof. intros i Hi. apply (proj1 Hplanar i). rewrite map_length. exact Hi. Qed.

Record tracing (k : nat) (p : list bool) (m : marks) (r : relations) (contours : list contour) (done : list (list nat)) : Prop := {
  tr_len : length p = n;
  tr_used : forall i, (i < n)%nat -> (nth i p false = true <-> In i (concat done) \/ In (op i) (concat done));
  tr_closed : closed n vtx op (unused p);
  tr_before : forall i, (i < k)%nat -> (i < n)%nat -> nth i p false = true;
  tr_lt : forall i, In i (concat done) -> (i < n)%nat;
  tr_nodup : NoDup (concat done ++ map op (concat done));
  tr_marks : forall i, (i < n)%nat -> nth i p false = true -> exists b id, mark_of m (left_at i) = Some (b, id) /\ (id < length contours)%nat;
  tr_related : related r (length contours);
  tr_drawn : Forall2 (drawn evs) done contours;
  tr_loops : forall L, In L done -> loop n vtx op L /\ (forall x y, In x L -> In y L -> op x <> y)
    /\ is_left (h_event (hev evs (nth 0 L O))) = true /\ (forall x, In x L -> (nth 0 L O <= x)%nat /\ (nth 0 L O <= op x)%nat);
  tr_ways : forall j i, In i (nth j done []) -> mark_of m (left_at i) = Some (negb (is_left (h_event (hev evs i))), j);
  tr_nested : forall j i, (j < length done)%nat -> h_event (hev evs (nth 0 (nth j done []) O)) = EL i ->
    match l_below (lft s i) with
    | None => relation_of (fun c => internal_at r c) (fun c => parent_at r c) j None
    | Some b => exists q x, (q < j)%nat /\ In x (nth q done []) /\ left_at x = b
        /\ relation_of (fun c => internal_at r c) (fun c => parent_at r c) j (Some (negb (is_left (h_event (hev evs x))), q))
    end;
  (* a contour stays on the same side of edges not used before it *)
  tr_same : forall c, events_to_connectivity ts = Ok c -> forall j Z sg, (j < length done)%nat -> closed n vtx op Z ->
    (forall i, (i < n)%nat -> Z i = true -> ~ In i (concat (firstn j done)) /\ ~ In (op i) (concat (firstn j done))) ->
    sides n op (nx c) Z sg -> forall x, In x (nth j done []) -> sg x = sg (nth 0 (nth j done []) O);
  (* vertices of holes are turned *)
  tr_turned : forall j, (j < length done)%nat -> exists vs, contour_events_to_vertices evs (nth j done []) = Ok vs
    /\ vertices (nth j contours no_contour) = if internal_at r j then turned vs else vs }.

Lemma process_spec : forall L id p m, length p = n -> (forall x, In x L -> (x < n)%nat) ->
  let '(p', m') := process_contour_events s evs L id p m in
  length p' = n
  /\ (forall i, (i < n)%nat -> nth i p' false = (edges op L i || nth i p false)%bool)
  /\ (forall j, (exists b, mark_of m' j = Some (b, id) /\ exists x, In x L /\ left_at x = j /\ b = negb (is_left (h_event (hev evs x)))) \/ (mark_of m' j = mark_of m j /\ forall x, In x L -> left_at x <> j)).
Proof.
  intro L. unfold process_contour_events. induction L as [|x L IH]; intros id p m Lp Lt.
  - cbn. split; [exact Lp|]. split; [reflexivity|]. intro j. right. split; [reflexivity|intros x []].
  - cbn [fold_left]. pose proof (Lt x (or_introl eq_refl)) as Hx. destruct (t_op x Hx) as (Ho & _ & _).
    cbv beta iota. set (p1 := mark (mark p x) (t_opposite (h_traced (hev evs x)))). set (m1 := _ :: m).
    assert (L1 : length p1 = n) by (unfold p1; rewrite !mark_length; exact Lp).
    specialize (IH id p1 m1 L1 (fun y Hy => Lt y (or_intror Hy))). match type of IH with context [fold_left ?f ?l ?a] => match goal with |- context [fold_left ?g l ?b] => change (fold_left g l b) with (fold_left f l a); destruct (fold_left f l a) as (p', m') end end. destruct IH as (A & B & C).
    split; [exact A|]. split.
    + intros i Hi. rewrite (B i Hi). unfold p1. change (t_opposite (h_traced (hev evs x))) with (op x). rewrite !mark_nth by (rewrite ?mark_length; lia).
      unfold edges. cbn [existsb]. destruct (t_op i Hi) as (_ & _ & Oi). destruct (t_op x Hx) as (_ & _ & Ox).
      assert (E : Nat.eqb i (op x) = Nat.eqb (op i) x).
      { destruct (Nat.eqb_spec i (op x)) as [->|N]; [rewrite Ox, Nat.eqb_refl; reflexivity|]. symmetry. apply Nat.eqb_neq. intros E. apply N. rewrite <- E. symmetry. exact Oi. }
      rewrite E. destruct (Nat.eqb i x), (Nat.eqb (op i) x), (existsb (Nat.eqb i) L), (existsb (Nat.eqb (op i)) L), (nth i p false); reflexivity.
    + intro j. destruct (C j) as [(b & C1 & y & Hy & C2)|(C1 & C2)]; [left; exists b; split; [exact C1|exists y; split; [right; exact Hy|exact C2]]|].
      unfold m1 in C1. cbn [mark_of] in C1. destruct (Nat.eqb_spec j (left_at x)) as [E|N].
      * left. eexists. split; [exact C1|]. exists x. split; [left; reflexivity|split; [symmetry; exact E|reflexivity]].
      * right. split; [exact C1|]. intros y [<-|Hy]; [congruence|exact (C2 y Hy)].
Qed.
Lemma relations_spec : forall k p m r contours done, tracing k p m r contours done -> (k < n)%nat -> is_left (h_event (hev evs k)) = true ->
  exists r', compute_relations s m (h_event (hev evs k)) (length contours) r = Ok r' /\ related r' (S (length contours))
    /\ (forall j, (j < length contours)%nat -> internal_at r' j = internal_at r j /\ parent_at r' j = parent_at r j)
    /\ forall i, h_event (hev evs k) = EL i ->
      match l_below (lft s i) with
      | None => relation_of (fun c => internal_at r' c) (fun c => parent_at r' c) (length contours) None
      | Some b => exists q x, (q < length contours)%nat /\ In x (nth q done []) /\ left_at x = b
          /\ relation_of (fun c => internal_at r' c) (fun c => parent_at r' c) (length contours) (Some (negb (is_left (h_event (hev evs x))), q))
      end.
Proof.
  intros k p m r contours done T Hk Hl. pose proof (tr_related _ _ _ _ _ _ T) as R. pose proof (Hbelow k) as Hb.
  destruct (h_event (hev evs k)) as [i|i]; [|discriminate Hl]. unfold compute_relations.
  assert (Ra : forall r0 b d pa j, are_internal r0 = are_internal r -> parents r0 = parents r -> (j < length contours)%nat ->
    internal_at (add_relations r0 b d pa) j = internal_at r j /\ parent_at (add_relations r0 b d pa) j = parent_at r j).
  { intros r0 b d pa j E1 E2 Hj. unfold add_relations. cbn [are_internal parents]. rewrite !nth_snoc, E1, E2, (re_internal _ _ R), (re_parents _ _ R).
    destruct (Nat.eqb_spec j (length contours)); [lia|]. split; reflexivity. }
  assert (Rn : forall r0 b d pa, are_internal r0 = are_internal r -> parents r0 = parents r ->
    internal_at (add_relations r0 b d pa) (length contours) = b /\ parent_at (add_relations r0 b d pa) (length contours) = pa).
  { intros r0 b d pa E1 E2. unfold add_relations. cbn [are_internal parents]. rewrite !nth_snoc, E1, E2, (re_internal _ _ R), (re_parents _ _ R), Nat.eqb_refl. split; reflexivity. }
  destruct (l_below (lft s i)) as [b|] eqn:Eb.
  2: { eexists. split; [reflexivity|]. split; [exact (related_out _ _ R)|]. split; [intros j Hj; apply Ra; [reflexivity..|exact Hj]|]. intros i' E. injection E as <-. rewrite Eb. apply Rn; reflexivity. }
  destruct (Hb i b Hk eq_refl Eb) as (j & Hj & Ej). assert (Hj' : (j < n)%nat) by lia.
  destruct (tr_marks _ _ _ _ _ _ T j Hj' (tr_before _ _ _ _ _ _ T j Hj Hj')) as (io & id & Em & Hid). rewrite Ej in Em. rewrite Em.
  assert (Ex : exists x, In x (nth id done []) /\ left_at x = b /\ io = negb (is_left (h_event (hev evs x)))).
  { assert (Ey : exists y, In y (concat done) /\ left_at y = b).
    { destruct (proj1 (tr_used _ _ _ _ _ _ T j Hj') (tr_before _ _ _ _ _ _ T j Hj Hj')) as [K|K]; [exists j; auto|]. exists (op j). split; [exact K|]. rewrite (Hopl j Hj'). exact Ej. }
    destruct Ey as (y & Hy & Ely). apply in_concat in Hy. destruct Hy as (L & HL & Hy). apply (In_nth _ _ []) in HL. destruct HL as (q & Hq & EL').
    rewrite <- EL' in Hy. pose proof (tr_ways _ _ _ _ _ _ T q y Hy) as My. rewrite Ely, Em in My. injection My as Eio Eid. subst id. exists y. auto. }
  destruct Ex as (x & Ix & Lx & Eio).
  assert (Fin : forall r', relation_of (fun c => internal_at r' c) (fun c => parent_at r' c) (length contours) (Some (io, id)) ->
    forall i', EL i = EL i' -> match l_below (lft s i') with
      | None => relation_of (fun c => internal_at r' c) (fun c => parent_at r' c) (length contours) None
      | Some b => exists q x, (q < length contours)%nat /\ In x (nth q done []) /\ left_at x = b
          /\ relation_of (fun c => internal_at r' c) (fun c => parent_at r' c) (length contours) (Some (negb (is_left (h_event (hev evs x))), q))
      end).
  { intros r' Rr i' E. injection E as <-. rewrite Eb. exists id, x. rewrite <- Eio. auto. }
  cbv zeta. destruct io; cbn [negb].
  - destruct (internal_at r id) eqn:Ii.
    + destruct (re_in _ _ R id Hid Ii) as (Ed & _ & q & Eq & Hq & Iq & _). rewrite Eq, Ed. eexists. split; [reflexivity|]. split; [exact (related_hole _ _ q R Hq Iq)|].
      split; [intros c' Hc; apply Ra; [reflexivity..|exact Hc]|]. apply Fin. cbn [relation_of].
      destruct (Ra (add_hole r q (length contours)) true 1%nat (Some q) id eq_refl eq_refl Hid) as (A1 & A2); rewrite ?A1, ?A2; clear A1 A2. destruct (Rn (add_hole r q (length contours)) true 1%nat (Some q) eq_refl eq_refl) as (A1 & A2); rewrite ?A1, ?A2; clear A1 A2.
      rewrite Ii, Eq. auto.
    + eexists. split; [reflexivity|]. split; [exact (related_out _ _ R)|]. split; [intros c' Hc; apply Ra; [reflexivity..|exact Hc]|]. apply Fin. cbn [relation_of].
      destruct (Ra r false 0%nat None id eq_refl eq_refl Hid) as (A1 & A2); rewrite ?A1, ?A2; clear A1 A2. destruct (Rn r false 0%nat None eq_refl eq_refl) as (A1 & A2); rewrite ?A1, ?A2; clear A1 A2. rewrite Ii. split; [reflexivity|discriminate].
  - destruct (internal_at r id) eqn:Ii; cbn [negb].
    + eexists. split; [reflexivity|]. split; [exact (related_out _ _ R)|]. split; [intros c' Hc; apply Ra; [reflexivity..|exact Hc]|]. apply Fin. cbn [relation_of].
      destruct (Ra r false 0%nat None id eq_refl eq_refl Hid) as (A1 & A2); rewrite ?A1, ?A2; clear A1 A2. destruct (Rn r false 0%nat None eq_refl eq_refl) as (A1 & A2); rewrite ?A1, ?A2; clear A1 A2. rewrite Ii. split; [reflexivity|discriminate].
    + rewrite (re_out _ _ R id Hid Ii). eexists. split; [reflexivity|]. split; [exact (related_hole _ _ id R Hid Ii)|].
      split; [intros c' Hc; apply Ra; [reflexivity..|exact Hc]|]. apply Fin. cbn [relation_of].
      destruct (Ra (add_hole r id (length contours)) true 1%nat (Some id) id eq_refl eq_refl Hid) as (A1 & A2); rewrite ?A1, ?A2; clear A1 A2. destruct (Rn (add_hole r id (length contours)) true 1%nat (Some id) eq_refl eq_refl) as (A1 & A2); rewrite ?A1, ?A2; clear A1 A2.
      rewrite Ii. auto.
Qed.
(** The first event not used yet is a left one. *)
Lemma first_left : forall k p m r contours done, tracing k p m r contours done -> (k < n)%nat -> nth k p false = false -> t_left (tev ts k) = true.
Proof.
  intros k p m r contours done T Hk Hp. destruct (t_left (tev ts k)) eqn:El; [reflexivity|exfalso].
  destruct (t_op k Hk) as (Ho & _ & Oo). pose proof (td_left ts Htidy k) as Tl. rewrite map_length in Tl. specialize (Tl Hk).
  assert (E : opp ts k = op k) by (unfold opp; rewrite h_tev; reflexivity). rewrite E, El in Tl. cbn in Tl.
  pose proof (td_lt ts Htidy (op k)) as Lt. rewrite map_length in Lt. specialize (Lt Ho Tl).
  assert (Ee : t_end (tev ts (op k)) = t_start (tev ts k)).
  { rewrite (f_end evs Hpair (op k) Ho), Oo. reflexivity. }
  rewrite Ee in Lt.
  assert (Hlt : (op k < k)%nat).
  { destruct (Nat.lt_trichotomy (op k) k) as [L|[L|L]]; [exact L|rewrite L in Lt; destruct (plt_irrefl _ Lt)|]. exfalso. exact (Hsort k (op k) L Ho Lt). }
  pose proof (tr_before _ _ _ _ _ _ T (op k) Hlt Ho) as Pb. apply (tr_used _ _ _ _ _ _ T (op k) Ho) in Pb. rewrite Oo in Pb.
  assert (K : nth k p false = true) by (apply (tr_used _ _ _ _ _ _ T k Hk); destruct Pb; auto). congruence.
Qed.
Lemma tracing_next : forall k p m r contours done r' L, tracing k p m r contours done -> (k < n)%nat ->
  is_left (h_event (hev evs k)) = true -> followed evs c p k L -> related r' (S (length contours)) ->
  (forall j, (j < length contours)%nat -> internal_at r' j = internal_at r j /\ parent_at r' j = parent_at r j) ->
  (forall i, h_event (hev evs k) = EL i ->
      match l_below (lft s i) with
      | None => relation_of (fun c => internal_at r' c) (fun c => parent_at r' c) (length contours) None
      | Some b => exists q x, (q < length contours)%nat /\ In x (nth q done []) /\ left_at x = b
          /\ relation_of (fun c => internal_at r' c) (fun c => parent_at r' c) (length contours) (Some (negb (is_left (h_event (hev evs x))), q))
      end) -> forall cc, drawn evs L cc ->
  (exists vs, contour_events_to_vertices evs L = Ok vs /\ vertices cc = if internal_at r' (length contours) then turned vs else vs) ->
  let '(p', m') := process_contour_events s evs L (length contours) p m in
  tracing (S k) p' m' r' (contours ++ [cc]) (done ++ [L]).
Proof.
  intros k p m r contours done r' L T Hk Kl (F0 & FL & Ff & Fo & Fs) R' Rk Rn cc D Dv.
  pose proof (process_spec L (length contours) p m (tr_len _ _ _ _ _ _ T) (lo_lt _ _ _ _ FL)) as P.
  destruct (process_contour_events s evs L (length contours) p m) as (p', m'). destruct P as (P1 & P2 & P3).
  assert (Ul : forall i, (i < n)%nat -> edges op L i = true -> nth i p false = false).
  { intros i Hi E. apply edges_spec in E. destruct E as [E|E].
    - specialize (Ff i E). unfold unused in Ff. destruct (nth i p false); [discriminate Ff|reflexivity].
    - specialize (Ff _ E). rewrite (proj1 (tr_closed _ _ _ _ _ _ T) i Hi) in Ff. unfold unused in Ff. destruct (nth i p false); [discriminate Ff|reflexivity]. }
  assert (Cc : concat (done ++ [L]) = concat done ++ L) by (rewrite concat_app; cbn; rewrite app_nil_r; reflexivity).
  assert (Hu : forall i, (i < n)%nat -> unused p' i = xorb (unused p i) (edges op L i)).
  { intros i Hi. unfold unused. rewrite (P2 i Hi). destruct (edges op L i) eqn:E; [rewrite (Ul i Hi E); reflexivity|]. destruct (nth i p false); reflexivity. }
  pose proof (loop_closed n vtx op t_op k Hk L FL Fo) as CL.
  assert (In0 : In k L).
  { rewrite <- F0. apply nth_In. pose proof (lo_ne _ _ _ _ FL). destruct L; [contradiction|cbn; lia]. }
  constructor.
  - exact P1.
  - intros i Hi. rewrite (P2 i Hi), Cc, !in_app_iff, Bool.orb_true_iff, edges_spec, (tr_used _ _ _ _ _ _ T i Hi). tauto.
  - split.
    + intros i Hi. destruct (t_op i Hi) as (Ho & _ & _). rewrite (Hu i Hi), (Hu _ Ho), (proj1 CL i Hi), (proj1 (tr_closed _ _ _ _ _ _ T) i Hi). reflexivity.
    + intro v. rewrite (parity_ext _ (fun i => xorb (unused p i && Nat.eqb (vtx i) v) (edges op L i && Nat.eqb (vtx i) v))).
      * rewrite parity_xor, (proj2 CL v), (proj2 (tr_closed _ _ _ _ _ _ T) v). reflexivity.
      * intros i Hi. apply in_seq in Hi. rewrite (Hu i) by lia. destruct (unused p i), (edges op L i), (Nat.eqb (vtx i) v); reflexivity.
  - intros i Hi Hn. rewrite (P2 i Hn). destruct (Nat.eq_dec i k) as [->|N].
    + assert (E : edges op L k = true) by (apply edges_spec; left; exact In0). rewrite E. reflexivity.
    + rewrite (tr_before _ _ _ _ _ _ T i ltac:(lia) Hn). apply Bool.orb_true_r.
  - intros i Hi. rewrite Cc in Hi. apply in_app_or in Hi. destruct Hi as [Hi|Hi]; [exact (tr_lt _ _ _ _ _ _ T i Hi)|exact (lo_lt _ _ _ _ FL i Hi)].
  - rewrite Cc, map_app.
    assert (Nl : NoDup (L ++ map op L)).
    { pose proof (loop_nodup evs Hpair L FL Fo) as Nl. erewrite map_ext in Nl; [exact Nl|]. intro i. unfold opp. rewrite h_tev. reflexivity. }
    assert (Pm : Permutation ((concat done ++ map op (concat done)) ++ (L ++ map op L)) ((concat done ++ L) ++ map op (concat done) ++ map op L)).
    { rewrite <- !app_assoc. apply Permutation_app_head. rewrite !app_assoc. apply Permutation_app_tail. apply Permutation_app_comm. }
    apply (Permutation_NoDup Pm). apply NoDup_app_intro; [exact (tr_nodup _ _ _ _ _ _ T)|exact Nl|].
    intros x Hx K.
    assert (Hxn : (x < n)%nat /\ nth x p false = true).
    { apply in_app_or in Hx. destruct Hx as [Hx|Hx].
      - pose proof (tr_lt _ _ _ _ _ _ T x Hx) as Lx. split; [exact Lx|]. apply (tr_used _ _ _ _ _ _ T x Lx). left. exact Hx.
      - apply in_map_iff in Hx. destruct Hx as (y & <- & Hy). pose proof (tr_lt _ _ _ _ _ _ T y Hy) as Ly. destruct (t_op y Ly) as (Lo & _ & Oy). split; [exact Lo|].
        apply (tr_used _ _ _ _ _ _ T _ Lo). right. rewrite Oy. exact Hy. }
    destruct Hxn as (Hxn & Px). rewrite (Ul x Hxn) in Px; [discriminate Px|]. apply edges_spec. apply in_app_or in K. destruct K as [K|K]; [left; exact K|right].
    apply in_map_iff in K. destruct K as (y & <- & Hy). rewrite (proj2 (proj2 (t_op y (lo_lt _ _ _ _ FL y Hy)))). exact Hy.
  - intros i Hi Pi. rewrite app_length. cbn [length]. destruct (P3 (left_at i)) as [(b & E & _)|(E & Nx)]; [exists b, (length contours); split; [exact E|lia]|].
    rewrite E. rewrite (P2 i Hi) in Pi. destruct (edges op L i) eqn:Ei.
    + exfalso. apply edges_spec in Ei. destruct Ei as [Ei|Ei]; [exact (Nx i Ei eq_refl)|]. exact (Nx _ Ei (Hopl i Hi)).
    + destruct (tr_marks _ _ _ _ _ _ T i Hi Pi) as (b & id & E1 & E2). exists b, id. split; [exact E1|lia].
  - rewrite app_length. cbn [length]. rewrite Nat.add_1_r. exact R'.
  - apply Forall2_app; [exact (tr_drawn _ _ _ _ _ _ T)|]. constructor; [exact D|constructor].
  - intros L' HL'. apply in_app_or in HL'. destruct HL' as [HL'|[<-|[]]]; [exact (tr_loops _ _ _ _ _ _ T L' HL')|]. split; [exact FL|]. split; [exact Fo|].
    rewrite F0. split; [exact Kl|]. intros x Hx. pose proof (lo_lt _ _ _ _ FL x Hx) as Lx.
    assert (G : forall y, (y < n)%nat -> edges op L y = true -> (k <= y)%nat).
    { intros y Hy Ey. destruct (Nat.lt_ge_cases y k) as [C|C]; [|exact C]. exfalso. pose proof (tr_before _ _ _ _ _ _ T y C Hy) as B. rewrite (Ul y Hy Ey) in B. discriminate B. }
    destruct (t_op x Lx) as (Lo & _ & Ox). split; apply G; [exact Lx|apply edges_spec; left; exact Hx|exact Lo|apply edges_spec; right; rewrite Ox; exact Hx].
  - assert (Ld : length done = length contours) by (exact (Forall2_length _ _ _ _ _ (tr_drawn _ _ _ _ _ _ T))).
    intros j i. rewrite nth_snoc. destruct (Nat.eqb_spec j (length done)) as [->|Nj]; intro Ii.
    + rewrite Ld. destruct (P3 (left_at i)) as [(b & E & x & Hx & Ex & Eb)|(_ & Nx)]; [|destruct (Nx i Ii eq_refl)].
      assert (x = i) as ->.
      { destruct (Hinj x i (lo_lt _ _ _ _ FL x Hx) (lo_lt _ _ _ _ FL i Ii) Ex) as [K|K]; [exact K|]. exfalso. exact (Fo i x Ii Hx (eq_sym K)). }
      rewrite E, Eb. reflexivity.
    + assert (Ic : In i (concat done)).
      { apply in_concat. exists (nth j done []). split; [|exact Ii]. apply nth_In. destruct (Nat.lt_ge_cases j (length done)) as [C|C]; [exact C|]. rewrite nth_overflow in Ii by exact C. destruct Ii. }
      pose proof (tr_lt _ _ _ _ _ _ T i Ic) as Li.
      destruct (P3 (left_at i)) as [(b & E & x & Hx & Ex & Eb)|(E & _)]; [|rewrite E; exact (tr_ways _ _ _ _ _ _ T j i Ii)]. exfalso.
      pose proof (lo_lt _ _ _ _ FL x Hx) as Lx.
      assert (U : nth i p false = true) by (apply (tr_used _ _ _ _ _ _ T i Li); left; exact Ic).
      rewrite (Ul i Li) in U; [discriminate U|]. apply edges_spec. destruct (Hinj x i Lx Li Ex) as [<-|K]; [left; exact Hx|]. right. rewrite <- K. exact Hx.
  - assert (Ld : length done = length contours) by (exact (Forall2_length _ _ _ _ _ (tr_drawn _ _ _ _ _ _ T))).
    intros j i Hj. rewrite app_length in Hj. cbn [length] in Hj. rewrite nth_snoc. destruct (Nat.eqb_spec j (length done)) as [->|Nj]; intro Ei.
    + rewrite F0 in Ei. specialize (Rn i Ei). rewrite Ld. destruct (l_below (lft s i)) as [b|]; [|exact Rn]. destruct Rn as (q & x & Hq & Ix & Ex & Rr). exists q, x. split; [exact Hq|].
      split; [|split; assumption]. rewrite nth_snoc. destruct (Nat.eqb_spec q (length done)); [lia|exact Ix].
    + pose proof (tr_nested _ _ _ _ _ _ T j i ltac:(lia) Ei) as K. destruct (l_below (lft s i)) as [b|].
      * destruct K as (q & x & Hq & Ix & Ex & Rr). exists q, x. split; [exact Hq|]. split; [rewrite nth_snoc; destruct (Nat.eqb_spec q (length done)); [lia|exact Ix]|]. split; [exact Ex|].
        revert Rr. apply relation_ext; [apply Rk; lia..|]. intros b' q' E. injection E as _ <-. apply Rk. lia.
      * revert K. apply relation_ext; [apply Rk; lia..|]. discriminate.
  - intros c' Hc' j Z sg Hj CZ NZ SZ x. rewrite app_length in Hj. cbn [length] in Hj. rewrite nth_snoc. rewrite firstn_app in NZ. destruct (Nat.eqb_spec j (length done)) as [->|Nj]; intro Hx.
    + rewrite Nat.sub_diag in NZ. cbn [firstn] in NZ. rewrite app_nil_r, firstn_all in NZ. rewrite F0.
      assert (c' = c) as -> by congruence. destruct (Bool.bool_dec (sg x) (sg k)) as [Y|Y]; [exact Y|]. exfalso. apply (Fs x Hx). exists Z, sg. split; [exact CZ|]. split; [|split; assumption].
      intros i Hi Zi. unfold unused. destruct (nth i p false) eqn:Pi; [|reflexivity]. exfalso. destruct (NZ i Hi Zi) as (A & B). apply (tr_used _ _ _ _ _ _ T i Hi) in Pi. tauto.
    + replace (j - length done)%nat with 0%nat in NZ by lia. cbn [firstn] in NZ. rewrite app_nil_r in NZ.
      exact (tr_same _ _ _ _ _ _ T c' Hc' j Z sg ltac:(lia) CZ NZ SZ x Hx).
  - assert (Ld : length done = length contours) by (exact (Forall2_length _ _ _ _ _ (tr_drawn _ _ _ _ _ _ T))).
    intros j Hj. rewrite app_length in Hj. cbn [length] in Hj. rewrite !nth_snoc. rewrite <- Ld. destruct (Nat.eqb_spec j (length done)) as [->|Nj]; [rewrite Ld; exact Dv|].
    rewrite (proj1 (Rk j ltac:(lia))). apply (tr_turned _ _ _ _ _ _ T). lia.
Qed.
Theorem trace_holey_spec : forall len k p m r contours done, (k + len = n)%nat -> tracing k p m r contours done ->
  exists r' contours' done' p' m', trace_holey s evs c (seq k len) p (repeat None width) m r contours = Ok (r', contours')
    /\ tracing n p' m' r' contours' done'.
Proof.
  induction len as [|len IH]; intros k p m r contours done Hn T.
  - cbn [seq trace_holey]. replace k with n in T by lia. exists r, contours, done, p, m. split; [reflexivity|exact T].
  - assert (Hk : (k < n)%nat) by lia. cbn [seq trace_holey]. destruct (nth k p false) eqn:Pk.
    + apply (IH (S k) p m r contours done ltac:(lia)). destruct T as [A B C D E F G H I J K M N' O']. constructor; try assumption.
      intros i Hi Hin. destruct (Nat.eq_dec i k) as [->|N]; [exact Pk|]. apply D; [lia|exact Hin].
    + pose proof (first_left _ _ _ _ _ _ T Hk Pk) as Hl.
      assert (Hl' : is_left (h_event (hev evs k)) = true) by (rewrite <- (Hleft k Hk); exact Hl).
      destruct (relations_spec _ _ _ _ _ _ T Hk Hl') as (r' & Er & R' & Rk & Rn). rewrite Er. cbn [bind_res].
      assert (Fr : unused p k = true) by (unfold unused; rewrite Pk; reflexivity).
      destruct (to_contour_events_spec evs Hpair Hgroup Hids c Hconn t_sides p (tr_closed _ _ _ _ _ _ T) k Hk Fr width Hwidth Hl) as (L & EL & FL).
      rewrite EL. cbn [bind_res].
      destruct (loop_drawn evs Hpair Htidy Hplanar Hids L (proj1 (proj2 FL)) (proj1 (proj2 (proj2 (proj2 FL))))) as (vs & Ev & D1 & D2).
      pose proof (tracing_next k p m r contours done r' L T Hk Hl' FL R' Rk Rn) as Nx.
      destruct (process_contour_events s evs L (length contours) p m) as (p', m') eqn:Ep. rewrite Ev. cbn [bind_res].
      apply (IH (S k) p' m' r' _ (done ++ [L]) ltac:(lia)). set (id := length contours) in *.
      assert (Od : Nat.odd (depth_at r' id) = internal_at r' id).
      { destruct (internal_at r' id) eqn:Ii; [rewrite (proj1 (re_in _ _ R' id (Nat.lt_succ_diag_r _) Ii))|rewrite (re_out _ _ R' id (Nat.lt_succ_diag_r _) Ii)]; reflexivity. }
      rewrite Od. apply Nx; [destruct (internal_at r' id); assumption|]. exists vs. split; [exact Ev|]. destruct (internal_at r' id); reflexivity.
Qed.
End Tracing.
