(** The even-odd rule does not depend on straight vertices of contours.
    Proof support only, no part of /repo is modelled here. *)
From Coq Require Import Permutation Sorted.
From Verif Require Import QcTac Geom Spec SpecShape GeomFacts SortFacts Parity Outline ShrinkThms ConnectThms TraceThms RegionThms OrientThms Polygons.

(** A segment passes under a point lying between its endpoints and above of its line. *)
Lemma passes_between : forall a b q, plt a b -> passes_under (Seg a b) q = xorb (lex_ltb q a) (lex_ltb q b) && Qc_ltb 0 (cross a b q)
  /\ passes_under (Seg b a) q = xorb (lex_ltb q a) (lex_ltb q b) && Qc_ltb 0 (cross a b q).
Proof.
  intros a b q H. assert (P1 : proper (Seg a b)) by (intro E; cbn in E; rewrite E in H; exact (plt_irrefl _ H)).
  assert (E : passes_under (Seg a b) q = xorb (lex_ltb q a) (lex_ltb q b) && Qc_ltb 0 (cross a b q)).
  { unfold passes_under. cbn [s_start s_end]. change lex_ltb with pt_ltb. destruct (pt_ltb_spec q a) as [K|K], (pt_ltb_spec q b) as [J|J]; cbn; try reflexivity.
    - elim J. exact (plt_trans _ _ _ K H).
    - apply Bool.orb_false_r. }
  split; [exact E|]. rewrite <- E. change (Seg b a) with (reversed (Seg a b)). apply passes_reversed.
Qed.
Lemma cross_same : forall a b c d q, plt a b -> plt c d -> cross a b c = 0 -> cross a b d = 0 -> Qc_ltb 0 (cross c d q) = Qc_ltb 0 (cross a b q).
Proof.
  intros a b c d q H1 H2 Z1 Z2. destruct (shear_exists [a; b; c; d; q]) as (e & _ & Sh).
  assert (L1 : pos e a < pos e b) by (apply Sh; cbn; auto). assert (L2 : pos e c < pos e d) by (apply Sh; cbn; auto 6).
  assert (K : (pos e b - pos e a) * cross c d q = (pos e d - pos e c) * cross a b q).
  { assert (N : pos e a <> pos e b) by (intro E; rewrite E in L1; exact (Qclt_not_eq _ _ L1 eq_refl)).
    rewrite (cross_line e a b c N) in Z1. rewrite (cross_line e a b d N) in Z2. rewrite (cross_line e a b q N).
    assert (Y : forall y, (pos e b - pos e a) * y = 0 -> y = 0).
    { intros y Hy. apply Qcmult_integral in Hy. destruct Hy as [Hy|Hy]; [exfalso; qlra|exact Hy]. }
    apply Y in Z1. apply Y in Z2. rewrite (cross_pos e c d q). unfold line_at in *.
    set (k := slope e a b) in *. clearbody k.
    assert (Ec : py c = py a + k * (pos e c - pos e a)) by qlra. assert (Ed : py d = py a + k * (pos e d - pos e a)) by qlra.
    rewrite Ec, Ed. ring. }
  clear - K L1 L2. generalize dependent (cross c d q). generalize dependent (cross a b q). generalize dependent (pos e a). generalize dependent (pos e b).
  generalize dependent (pos e c). generalize dependent (pos e d). intros d' c' L2 b' a' L1 u v K.
  destruct (Qc_ltb_spec 0 u) as [U|U], (Qc_ltb_spec 0 v) as [V|V]; try reflexivity; exfalso.
  - assert (0 < (d' - c') * u) by qnra. assert ((b' - a') * v <= 0) by qnra. qlra.
  - assert (0 < (b' - a') * v) by qnra. assert ((d' - c') * u <= 0) by qnra. qlra.
Qed.
Lemma passes_degenerate : forall a q, passes_under (Seg a a) q = false.
Proof.
  intros a q. unfold passes_under. cbn [s_start s_end]. destruct (lex_ltb q a); reflexivity.
Qed.
(** Collinear points of one line with the same side of it. *)
Lemma passes_line : forall a b c q, cross a b c = 0 ->
  exists T, (forall u v, In u [a; b; c] -> In v [a; b; c] -> passes_under (Seg u v) q = xorb (lex_ltb q u) (lex_ltb q v) && T).
Proof.
  intros a b c q Z.
  assert (G : forall u v T, (plt u v -> Qc_ltb 0 (cross u v q) = T) -> (plt v u -> Qc_ltb 0 (cross v u q) = T) ->
    passes_under (Seg u v) q = xorb (lex_ltb q u) (lex_ltb q v) && T).
  { intros u v T K1 K2. destruct (plt_total u v) as [K|[K|K]].
    - rewrite <- (K1 K). exact (proj1 (passes_between u v q K)).
    - subst v. rewrite passes_degenerate, Bool.xorb_nilpotent. reflexivity.
    - rewrite <- (K2 K), Bool.xorb_comm. exact (proj2 (passes_between v u q K)). }
  assert (C0 : forall u v, cross u v u = 0) by (intros; unfold cross; ring). assert (C1 : forall u v, cross u v v = 0) by (intros; unfold cross; ring).
  assert (Cp : forall u v w, cross u v w = 0 -> cross v u w = 0) by (intros u v w E; rewrite <- (Qcopp_involutive (cross v u w)); replace (- cross v u w) with (cross u v w) by (unfold cross; ring); rewrite E; reflexivity).
  assert (W : forall x y, plt x y -> (forall w, In w [a; b; c] -> cross x y w = 0) ->
     exists T, (forall u v, In u [a; b; c] -> In v [a; b; c] -> passes_under (Seg u v) q = xorb (lex_ltb q u) (lex_ltb q v) && T)).
  { intros x y L Hc. exists (Qc_ltb 0 (cross x y q)). intros u v Hu Hv. apply G; intro K; apply cross_same; auto. }
  assert (Zt : cross b c a = 0) by (rewrite <- Z; unfold cross; ring). assert (Zt' : cross c a b = 0) by (rewrite <- Z; unfold cross; ring).
  destruct (plt_total a b) as [K|[K|K]].
  - apply (W a b K). intros w [<-|[<-|[<-|[]]]]; auto.
  - subst b. destruct (plt_total a c) as [J|[J|J]].
    + apply (W a c J). intros w [<-|[<-|[<-|[]]]]; auto.
    + subst c. exists true. intros u v [<-|[<-|[<-|[]]]] [<-|[<-|[<-|[]]]]; rewrite passes_degenerate, Bool.xorb_nilpotent; reflexivity.
    + apply (W c a J). intros w [<-|[<-|[<-|[]]]]; auto.
  - apply (W b a K). intros w [<-|[<-|[<-|[]]]]; auto.
Qed.
Lemma passes_split : forall u p w q, cross u p w = 0 -> passes_under (Seg u w) q = xorb (passes_under (Seg u p) q) (passes_under (Seg p w) q).
Proof.
  intros u p w q Z. destruct (passes_line u p w q Z) as (T & H). rewrite !H by (cbn; auto). destruct (lex_ltb q u), (lex_ltb q p), (lex_ltb q w), T; reflexivity.
Qed.
Lemma inside_perm : forall es fs p, Permutation es fs -> inside es p = inside fs p.
Proof. intros es fs p H. unfold inside. rewrite <- !parity_length. apply parity_perm. exact H. Qed.
Lemma inside_cons : forall s es p, inside (s :: es) p = xorb (passes_under s p) (inside es p).
Proof. intros s es p. unfold inside. rewrite <- !parity_length. reflexivity. Qed.
Lemma last_app_one : forall (A : Type) (l : list A) x d, last (l ++ [x]) d = x.
Proof. intros A l x d. induction l as [|y l IH]; [reflexivity|]. cbn. destruct (l ++ [x]) eqn:E; [destruct l; discriminate E|exact IH]. Qed.
Lemma nth_last : forall (l : list point) x d, nth (length l) (x :: l) d = last l x.
Proof. intros l x d. rewrite <- (last_cons _ l x d), last_nth. cbn [length]. replace (S (length l) - 1)%nat with (length l) by lia. reflexivity. Qed.
Lemma straight_around : forall us p ws, (3 <= length (us ++ p :: ws))%nat -> straight (us ++ p :: ws) (length us) ->
  exists w m, ws ++ us = w :: m /\ cross (last m w) p w = 0.
Proof.
  intros us p ws L St. unfold straight in St. set (n := length (us ++ p :: ws)) in *.
  assert (En : n = (S (length us + length ws))%nat) by (unfold n; rewrite app_length; cbn; lia).
  assert (Vp : vertex (us ++ p :: ws) (length us) = p) by (unfold vertex; rewrite app_nth2, Nat.sub_diag by lia; reflexivity). rewrite Vp in St.
  destruct ws as [|w ws].
  - destruct us as [|u us]; [cbn in *; lia|]. exists u, us. split; [reflexivity|].
    assert (A : after n (length (u :: us)) = 0%nat) by (unfold after; rewrite En; cbn [length]; destruct (Nat.eqb_spec (S (S (length us))) (S (S (length us) + 0))); [reflexivity|lia]).
    rewrite A in St. cbn [before length] in St. change (vertex ((u :: us) ++ [p]) 0) with u in St.
    assert (B : vertex ((u :: us) ++ [p]) (length us) = last us u).
    { unfold vertex. rewrite app_nth1 by (cbn; lia). apply nth_last. }
    rewrite B in St. exact St.
  - exists w, (ws ++ us). split; [reflexivity|].
    assert (A : vertex (us ++ p :: w :: ws) (after n (length us)) = w).
    { unfold after. rewrite En. cbn [length]. destruct (Nat.eqb_spec (S (length us)) (S (length us + S (length ws)))); [lia|].
      unfold vertex. rewrite app_nth2 by lia. replace (S (length us) - length us)%nat with 1%nat by lia. reflexivity. }
    rewrite A in St.
    assert (B : vertex (us ++ p :: w :: ws) (before n (length us)) = last (ws ++ us) w).
    { destruct us as [|u us] using rev_ind.
      - cbn [length before]. rewrite app_nil_r. rewrite En. cbn [length plus]. unfold vertex. replace (S (S (length ws)) - 1)%nat with (S (length ws)) by lia.
        cbn [app]. change (nth (S (length ws)) (p :: w :: ws) (Pt 0 0)) with (nth (length ws) (w :: ws) (Pt 0 0)). apply nth_last.
      - rewrite app_length. cbn [length]. rewrite Nat.add_1_r. cbn [before]. rewrite app_assoc, last_app_one. unfold vertex.
        rewrite <- app_assoc, app_nth2 by lia. rewrite Nat.sub_diag. reflexivity. }
    rewrite B in St. exact St.
Qed.
Lemma drop_inside : forall us p ws q, (3 <= length (us ++ p :: ws))%nat -> straight (us ++ p :: ws) (length us) ->
  inside (contour_edges (us ++ p :: ws)) q = inside (contour_edges (us ++ ws)) q.
Proof.
  intros us p ws q L St. rewrite (inside_perm _ _ q (rotate_edges us (p :: ws))), (inside_perm _ _ q (rotate_edges us ws)). cbn [app].
  destruct (straight_around us p ws L St) as (w & m & Em & Z). rewrite Em, !contour_links. cbn [links].
  rewrite last_cons.
  rewrite !inside_cons, (passes_split (last m w) p w q Z), Bool.xorb_assoc. reflexivity.
Qed.
Theorem straightened_inside : forall vs r q, straightened vs r -> inside (contour_edges r) q = inside (contour_edges vs) q.
Proof.
  intros vs r q H. induction H as [|us p ws r L St H IH]; [reflexivity|]. rewrite IH. symmetry. apply drop_inside; assumption.
Qed.
