(** Crossing an edge changes the side of the even-odd rule.  Proof support only,
    no part of /repo is modelled here. *)
From Coq Require Import Permutation.
From Verif Require Import QcTac Geom Spec SpecShape GeomFacts Toward Parity RegionThms Outline EvenOdd Polygons EvenStraight.

Lemma lex_total : forall q a, lex_ltb q a = true \/ lex_ltb q a = false.
Proof. intros q a. destruct (lex_ltb q a); auto. Qed.
Lemma passes_pos : forall a b q, 0 < cross a b q -> passes_under (Seg a b) q = negb (lex_ltb q a) && lex_ltb q b.
Proof.
  intros a b q H. unfold passes_under. cbn [s_start s_end].
  destruct (Qc_ltb_spec 0 (cross a b q)) as [K|K]; [|contradiction]. destruct (Qc_ltb_spec 0 (cross b a q)) as [J|J]; [exfalso; unfold cross in *; qlra|].
  rewrite Bool.andb_true_r, Bool.andb_false_r, Bool.orb_false_r. reflexivity.
Qed.
Lemma passes_neg : forall a b q, cross a b q < 0 -> passes_under (Seg a b) q = negb (lex_ltb q b) && lex_ltb q a.
Proof.
  intros a b q H. change (Seg a b) with (reversed (Seg b a)). rewrite passes_reversed. apply passes_pos. unfold cross in *. qlra.
Qed.
(** The order is kept by halving and mirroring. *)
Lemma lex_mirror : forall q p c k, 0 < k -> px c = px q + k * (px p - px q) -> py c = py q + k * (py p - py q) ->
  lex_ltb q c = lex_ltb q p.
Proof.
  intros q p c k K Ex Ey. unfold lex_ltb.
  assert (S : forall u v w, w = u + k * (v - u) -> Qc_ltb u w = Qc_ltb u v /\ Qc_eqb u w = Qc_eqb u v).
  { clear - K. intros u v w ->. assert (L : u < u + k * (v - u) <-> u < v) by (split; intro; qnra).
    assert (G : u + k * (v - u) < u <-> v < u) by (split; intro; qnra). split.
    - destruct (Qc_ltb_spec u (u + k * (v - u))) as [A|A], (Qc_ltb_spec u v) as [B|B]; try reflexivity; tauto.
    - destruct (Qc_eqb_spec u (u + k * (v - u))) as [A|A], (Qc_eqb_spec u v) as [B|B]; try reflexivity; exfalso.
      + destruct (Qc_lt_total u v) as [J|[J|J]]; [apply L in J; rewrite <- A in J; exact (Qclt_not_eq _ _ J eq_refl)|exact (B J)|apply G in J; rewrite <- A in J; exact (Qclt_not_eq _ _ J eq_refl)].
      + apply A. rewrite <- B. ring. }
  destruct (S _ _ _ Ex) as (Z1 & Z2), (S _ _ _ Ey) as (Z3 & _). rewrite Z1, Z2, Z3. reflexivity.
Qed.
Lemma lex_spec : forall q a, reflect (plt q a) (lex_ltb q a).
Proof. intros q a. change lex_ltb with pt_ltb. apply pt_ltb_spec. Qed.
Lemma lex_between : forall a b p, on_segment p (Seg a b) -> a <> b -> (plt a b /\ ple a p /\ ple p b) \/ (plt b a /\ ple b p /\ ple p a).
Proof.
  intros a b p O N. destruct (plt_total a b) as [L|[L|L]]; [left|contradiction|right].
  - apply (on_segment_lex a b p L) in O. tauto.
  - apply on_segment_sym in O. apply (on_segment_lex b a p L) in O. tauto.
Qed.
Lemma lex_mid : forall a b p q c, on_segment p (Seg a b) -> a <> b -> lex_ltb q a = c -> lex_ltb q b = c -> lex_ltb q p = c.
Proof.
  intros a b p q c O N. destruct (lex_spec q a) as [A|A], (lex_spec q b) as [B|B], (lex_spec q p) as [P|P]; intros <-; try discriminate; try reflexivity; intros _; exfalso;
    destruct (lex_between a b p O N) as [(_ & L1 & L2)|(_ & L1 & L2)]; apply ple_lt_eq in L1; apply ple_lt_eq in L2.
  - apply P. destruct L1 as [L1|L1]; [exact (plt_trans _ _ _ A L1)|rewrite <- L1; exact A].
  - apply P. destruct L1 as [L1|L1]; [exact (plt_trans _ _ _ B L1)|rewrite <- L1; exact B].
  - apply B. destruct L2 as [L2|L2]; [exact (plt_trans _ _ _ P L2)|rewrite <- L2; exact P].
  - apply A. destruct L2 as [L2|L2]; [exact (plt_trans _ _ _ P L2)|rewrite <- L2; exact P].
Qed.

Lemma mul_pos : forall x y, 0 < x -> 0 < y -> 0 < x * y.
Proof. intros x y A B. qnra. Qed.

Section Flip.
Variables a b p q1 q2 c : point.
Variables tau mu : Qc.
Hypothesis T0 : 0 < tau.
Hypothesis T1 : tau < 1.
Hypothesis M0 : 0 < mu.
Hypothesis Px : px p = px a + tau * (px b - px a).
Hypothesis Py : py p = py a + tau * (py b - py a).
Hypothesis Qx : px q1 = px p - mu * (px q2 - px p).
Hypothesis Qy : py q1 = py p - mu * (py q2 - py p).
Hypothesis Cx : px c = px q2 + (px q2 - px p).
Hypothesis Cy : py c = py q2 + (py q2 - py p).
Notation sg := (cross a b q2).
Hypothesis Sg : 0 < sg.
Lemma cross_bc2 : cross b c q2 = (1 - tau) * sg.
Proof. unfold cross. rewrite Cx, Cy, Px, Py. ring. Qed.
Lemma cross_ca2 : cross c a q2 = tau * sg.
Proof. unfold cross. rewrite Cx, Cy, Px, Py. ring. Qed.
Lemma cross_ab1 : cross a b q1 = - (mu * sg).
Proof. unfold cross. rewrite Qx, Qy, Px, Py. ring. Qed.
Lemma cross_bc1 : cross b c q1 = (1 + 1 + mu) * ((1 - tau) * sg).
Proof. unfold cross. rewrite Qx, Qy, Cx, Cy, Px, Py. ring. Qed.
Lemma cross_ca1 : cross c a q1 = (1 + 1 + mu) * (tau * sg).
Proof. unfold cross. rewrite Qx, Qy, Cx, Cy, Px, Py. ring. Qed.
Notation T := [Seg a b; Seg b c; Seg c a].
Lemma ab : a <> b.
Proof. intro E. pose proof Sg as K. rewrite E in K. unfold cross in K. clear - K. qlra. Qed.
Lemma p_ab : on_segment p (Seg a b).
Proof. exists tau. cbn. repeat split; [apply Qclt_le_weak; exact T0|apply Qclt_le_weak; exact T1|exact Px|exact Py]. Qed.
Lemma triangle_in : inside T q2 = true.
Proof.
  rewrite inside_parity. cbn [parity]. rewrite Bool.xorb_false_r.
  assert (K1 : 0 < 1 - tau) by (clear - T1; qlra).
  rewrite (passes_pos a b q2 Sg), (passes_pos b c q2), (passes_pos c a q2); [|rewrite cross_ca2; apply mul_pos; assumption|rewrite cross_bc2; apply mul_pos; assumption].
  assert (Npq : p <> q2).
  { intro E. pose proof Sg as K. rewrite <- E in K. unfold cross in K. rewrite Px, Py in K. clear - K. assert (Z : (px b - px a) * (py a + tau * (py b - py a) - py a) - (py b - py a) * (px a + tau * (px b - px a) - px a) = 0) by ring. qlra. }
  pose proof (lex_mid a b p q2) as Mid. specialize (fun c => Mid c p_ab ab).
  assert (Mc : lex_ltb q2 c = negb (lex_ltb q2 p)).
  { destruct (lex_spec q2 c) as [A|A], (lex_spec q2 p) as [B|B]; try reflexivity; exfalso; unfold plt in *.
    - clear - A B Cx Cy. destruct A as [A|(A1 & A2)], B as [B|(B1 & B2)]; qlra.
    - destruct (plt_total q2 p) as [K|[K|K]]; [exact (B K)|exact (Npq (eq_sym K))|]. apply A. unfold plt in K. clear - K Cx Cy. destruct K as [K|(K1 & K2)]; [left; qlra|right; split; qlra]. }
  destruct (lex_ltb q2 a), (lex_ltb q2 b); try (rewrite (Mid true eq_refl eq_refl) in Mc; rewrite Mc; reflexivity); try (rewrite (Mid false eq_refl eq_refl) in Mc; rewrite Mc; reflexivity); destruct (lex_ltb q2 c); reflexivity.
Qed.
Lemma triangle_out : inside T q1 = false.
Proof.
  rewrite inside_parity. cbn [parity]. rewrite Bool.xorb_false_r.
  assert (K1 : 0 < 1 - tau) by (clear - T1; qlra). assert (K2 : 0 < 1 + 1 + mu) by (clear - M0; qlra).
  pose proof (mul_pos _ _ M0 Sg) as K3.
  rewrite (passes_neg a b q1), (passes_pos b c q1), (passes_pos c a q1); [|rewrite cross_ca1; apply mul_pos; [exact K2|apply mul_pos; assumption]|rewrite cross_bc1; apply mul_pos; [exact K2|apply mul_pos; assumption]|rewrite cross_ab1; clear - K3; qlra].
  pose proof (lex_mid a b p q1) as Mid. specialize (fun c => Mid c p_ab ab).
  assert (Mc : lex_ltb q1 c = lex_ltb q1 p).
  { set (r := Pt (px q1 + (px q2 - px p)) (py q1 + (py q2 - py p))).
    transitivity (lex_ltb q1 r); [apply (lex_mirror q1 r c (1 + 1 + mu)); [exact K2| |]|symmetry; apply (lex_mirror q1 r p mu); [exact M0| |]]; cbn [r px py]; rewrite ?Cx, ?Cy, ?Qx, ?Qy; ring. }
  destruct (lex_ltb q1 a), (lex_ltb q1 b); try (rewrite (Mid true eq_refl eq_refl) in Mc; rewrite Mc; reflexivity); try (rewrite (Mid false eq_refl eq_refl) in Mc; rewrite Mc; reflexivity); destruct (lex_ltb q1 c); reflexivity.
Qed.
Variable r : list segment.
Hypothesis Hpr : Forall proper r.
Hypothesis Hev : even_occurrences (endpoints_of (Seg a b :: r)).
Hypothesis Hr : forall k, In k r -> forall x, on_segment x (Seg q1 q2) -> ~ on_segment x k.
Lemma cross_self : forall x y, cross x x y = 0.
Proof. intros. unfold cross. ring. Qed.
Lemma line_off : forall v, cross p q2 v <> 0 -> forall x, on_segment x (Seg q1 q2) -> on_segment x (Seg v c) -> False.
Proof.
  intros v Nv x (u & U0 & U1 & Ux & Uy) (w & W0 & W1 & Wx & Wy). cbn [s_start s_end] in *.
  assert (Z : cross p q2 x = 0) by (unfold cross; rewrite Ux, Uy, Qx, Qy; ring).
  assert (Z' : cross p q2 x = (1 - w) * cross p q2 v) by (unfold cross; rewrite Wx, Wy, Cx, Cy; ring).
  rewrite Z in Z'. symmetry in Z'. apply Qcmult_integral in Z'. destruct Z' as [Ew|Z']; [|exact (Nv Z')].
  assert (Ew' : w = 1) by (clear - Ew; qlra). subst w.
  assert (Ex : (u * (1 + mu) - mu - 1 - 1) * (px q2 - px p) = 0).
  { assert (K : px q1 + u * (px q2 - px q1) = px v + 1 * (px c - px v)) by congruence. rewrite Qx, Cx in K. clear - K. assert (J : px v + 1 * (px q2 + (px q2 - px p) - px v) = px p + (1 + 1) * (px q2 - px p)) by ring. rewrite J in K.
    assert (L : px p - mu * (px q2 - px p) + u * (px q2 - (px p - mu * (px q2 - px p))) = px p + (u * (1 + mu) - mu) * (px q2 - px p)) by ring. rewrite L in K.
    replace ((u * (1 + mu) - mu - 1 - 1) * (px q2 - px p)) with ((px p + (u * (1 + mu) - mu) * (px q2 - px p)) - (px p + (1 + 1) * (px q2 - px p))) by ring. rewrite K. ring. }
  assert (Ey : (u * (1 + mu) - mu - 1 - 1) * (py q2 - py p) = 0).
  { assert (K : py q1 + u * (py q2 - py q1) = py v + 1 * (py c - py v)) by congruence. rewrite Qy, Cy in K. clear - K. assert (J : py v + 1 * (py q2 + (py q2 - py p) - py v) = py p + (1 + 1) * (py q2 - py p)) by ring. rewrite J in K.
    assert (L : py p - mu * (py q2 - py p) + u * (py q2 - (py p - mu * (py q2 - py p))) = py p + (u * (1 + mu) - mu) * (py q2 - py p)) by ring. rewrite L in K.
    replace ((u * (1 + mu) - mu - 1 - 1) * (py q2 - py p)) with ((py p + (u * (1 + mu) - mu) * (py q2 - py p)) - (py p + (1 + 1) * (py q2 - py p))) by ring. rewrite K. ring. }
  assert (Nk : u * (1 + mu) - mu - 1 - 1 < 0) by (clear - U1 M0; qnra).
  apply Qcmult_integral in Ex. apply Qcmult_integral in Ey. destruct Ex as [Ex|Ex]; [rewrite Ex in Nk; discriminate Nk|]. destruct Ey as [Ey|Ey]; [rewrite Ey in Nk; discriminate Nk|].
  apply Nv. unfold cross. rewrite Ex, Ey. ring.
Qed.
Lemma flip_pos : inside (Seg a b :: r) q1 = negb (inside (Seg a b :: r) q2).
Proof.
  set (es := Seg a c :: Seg b c :: r).
  assert (Dec : forall q, inside (Seg a b :: r) q = xorb (inside es q) (inside [Seg a b; Seg b c; Seg c a] q)).
  { intro q. unfold es. rewrite !inside_cons. rewrite <- (passes_reversed (Seg c a)). unfold reversed. cbn [s_start s_end].
    change (inside [] q) with false. destruct (passes_under (Seg a b) q), (passes_under (Seg a c) q), (passes_under (Seg b c) q), (inside r q); reflexivity. }
  assert (Ct : inside es q1 = inside es q2).
  { apply inside_const.
    - constructor; [|constructor; [|exact Hpr]]; unfold proper; cbn [s_start s_end]; intro E.
      + pose proof cross_ca2 as K. rewrite <- E, cross_self in K. pose proof (mul_pos _ _ T0 Sg) as J. rewrite <- K in J. discriminate J.
      + pose proof cross_bc2 as K. rewrite <- E, cross_self in K. assert (K1 : 0 < 1 - tau) by (clear - T1; qlra). pose proof (mul_pos _ _ K1 Sg) as J. rewrite <- K in J. discriminate J.
    - intro v. specialize (Hev v). unfold es, endpoints_of in *. cbn [flat_map s_start s_end app count_occ] in *.
      destruct (pt_eq_dec a v), (pt_eq_dec b v), (pt_eq_dec c v); cbn [Nat.even] in *; exact Hev.
    - intros k [<-|[<-|Hk]]; left.
      + intros x X1 X2. apply (line_off a) with (x := x); [|exact X1|exact X2]. assert (E : cross p q2 a = tau * sg) by (unfold cross; rewrite Px, Py; ring).
        rewrite E. intro Z. pose proof (mul_pos _ _ T0 Sg) as J. rewrite Z in J. discriminate J.
      + intros x X1 X2. apply (line_off b) with (x := x); [|exact X1|exact X2]. assert (E : cross p q2 b = - ((1 - tau) * sg)) by (unfold cross; rewrite Px, Py; ring).
        rewrite E. intro Z. assert (K1 : 0 < 1 - tau) by (clear - T1; qlra). pose proof (mul_pos _ _ K1 Sg) as J. assert (Z' : (1 - tau) * sg = 0) by (rewrite <- (Qcopp_involutive ((1 - tau) * sg)), Z; reflexivity). rewrite Z' in J. discriminate J.
      + exact (Hr k Hk). }
  rewrite !Dec, Ct, triangle_in, triangle_out. destruct (inside es q2); reflexivity.
Qed.
End Flip.

(** A segment meeting a single edge, inside of both, joins points on different sides. *)
Theorem flip : forall s r p q1 q2, Forall proper (s :: r) -> even_occurrences (endpoints_of (s :: r)) ->
  inside_segment p s -> inside_segment p (Seg q1 q2) -> (forall x, on_segment x (Seg q1 q2) -> on_segment x s -> x = p) ->
  (forall k, In k r -> forall x, on_segment x (Seg q1 q2) -> ~ on_segment x k) ->
  inside (s :: r) q1 = negb (inside (s :: r) q2).
Proof.
  assert (G : forall a b r p q1 q2, Forall proper (Seg a b :: r) -> even_occurrences (endpoints_of (Seg a b :: r)) ->
    inside_segment p (Seg a b) -> inside_segment p (Seg q1 q2) -> 0 < cross a b q2 ->
    (forall k, In k r -> forall x, on_segment x (Seg q1 q2) -> ~ on_segment x k) ->
    inside (Seg a b :: r) q1 = negb (inside (Seg a b :: r) q2)).
  { intros a b r p q1 q2 Pr Ev ((t & T0 & T1 & Ex & Ey) & N1 & N2) ((u & U0 & U1 & Ux & Uy) & N3 & N4) Sg Hr. cbn [s_start s_end] in *.
    assert (T0' : 0 < t).
    { destruct (Qcle_lt_or_eq _ _ T0) as [K|K]; [exact K|exfalso]. apply N1. rewrite <- K in Ex, Ey. destruct p, a; cbn in *; f_equal; [rewrite Ex|rewrite Ey]; ring. }
    assert (T1' : t < 1).
    { destruct (Qcle_lt_or_eq _ _ T1) as [K|K]; [exact K|exfalso]. apply N2. rewrite K in Ex, Ey. destruct p, b; cbn in *; f_equal; [rewrite Ex|rewrite Ey]; ring. }
    assert (U0' : 0 < u).
    { destruct (Qcle_lt_or_eq _ _ U0) as [K|K]; [exact K|exfalso]. apply N3. rewrite <- K in Ux, Uy. destruct p, q1; cbn in *; f_equal; [rewrite Ux|rewrite Uy]; ring. }
    assert (U1' : u < 1).
    { destruct (Qcle_lt_or_eq _ _ U1) as [K|K]; [exact K|exfalso]. apply N4. rewrite K in Ux, Uy. destruct p, q2; cbn in *; f_equal; [rewrite Ux|rewrite Uy]; ring. }
    assert (Nu : 1 - u <> 0) by (intro E; clear - E U1'; qlra).
    apply (flip_pos a b p q1 q2 (Pt (px q2 + (px q2 - px p)) (py q2 + (py q2 - py p))) t (u / (1 - u)) T0' T1'); try assumption; try reflexivity.
    - unfold Qcdiv. apply mul_pos; [exact U0'|]. assert (K : 0 < 1 - u) by (clear - U1'; qlra). clear - K Nu.
      destruct (Qclt_le_dec 0 (/ (1 - u))) as [L|L]; [exact L|exfalso]. pose proof (Qcmult_inv_r (1 - u) Nu) as E. assert (J : (1 - u) * / (1 - u) <= 0) by (generalize dependent (/ (1 - u)); intros; qnra). rewrite E in J. apply J. reflexivity.
    - rewrite Ux. field. exact Nu.
    - rewrite Uy. field. exact Nu.
    - exact (Forall_inv_tail Pr). }
  intros [a b] r p q1 q2 Pr Ev Ps Pq Only Hr.
  assert (Nz : cross a b q2 <> 0).
  { intro Z. assert (Pr' : a <> b) by exact (Forall_inv Pr). destruct (cross_zero_line a b q2 Pr' Z) as (k & Ek).
    destruct Ps as (Op & N1 & N2). destruct Pq as (Oq & N3 & N4). cbn [s_start s_end] in *. apply on_lerp in Op. destruct Op as (t & T0 & T1 & Et).
    pose proof (on_segment_end (Seg q1 q2)) as O2. cbn in O2.
    assert (Hit : forall w, 0 <= w -> w <= 1 -> (t <= w /\ w <= k) \/ (k <= w /\ w <= t) -> lerp a b w = p).
    { intros w W0 W1 Bt. apply Only; [|apply on_lerp; exists w; auto].
      assert (Os : on_segment (lerp a b w) (Seg p q2)) by (rewrite Et, Ek; destruct Bt as [Bt|Bt]; [apply lerp_on; exact Bt|apply on_segment_sym, lerp_on; exact Bt]).
      exact (on_convex _ _ _ _ Oq O2 Os). }
    destruct (Qclt_le_dec k 0) as [K|K]; [apply N1; rewrite <- (lerp_0 a b) at 1; symmetry; apply Hit; [apply Qcle_refl|discriminate|right; split; [apply Qclt_le_weak; exact K|exact T0]]|].
    destruct (Qclt_le_dec 1 k) as [J|J]; [apply N2; rewrite <- (lerp_1 a b) at 1; symmetry; apply Hit; [discriminate|apply Qcle_refl|left; split; [exact T1|apply Qclt_le_weak; exact J]]|].
    apply N4. rewrite Ek. symmetry. apply Hit; [exact K|exact J|]. destruct (Qclt_le_dec t k) as [L|L]; [left|right]; split; try apply Qcle_refl; [apply Qclt_le_weak; exact L|exact L]. }
  destruct (Qc_lt_total (cross a b q2) 0) as [K|[K|K]]; [|contradiction|exact (G a b r p q1 q2 Pr Ev Ps Pq K Hr)].
  assert (K' : 0 < cross b a q2) by (unfold cross in *; qlra).
  assert (E : forall q, inside (Seg a b :: r) q = inside (Seg b a :: r) q) by (intro q; rewrite !inside_cons; f_equal; apply (passes_reversed (Seg b a))).
  rewrite !E. apply (G b a r p q1 q2); try assumption.
  - constructor; [intro Z; apply (Forall_inv Pr); symmetry; exact Z|exact (Forall_inv_tail Pr)].
  - intro v. rewrite <- (Ev v). unfold endpoints_of. cbn. destruct (pt_eq_dec a v), (pt_eq_dec b v); reflexivity.
  - destruct Ps as (O & N1 & N2). split; [apply on_segment_sym; exact O|]. split; assumption.
Qed.
