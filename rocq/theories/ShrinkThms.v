(** Properties of shrink_collinear_vertices. *)
From Verif Require Import QcTac Geom Spec SpecShape GeomFacts Relation Toward Sweep Contour.

Lemma subsequence_refl : forall A (l : list A), subsequence l l.
Proof. induction l; constructor; assumption. Qed.
Lemma subsequence_trans : forall A (l m r : list A), subsequence l m -> subsequence m r -> subsequence l r.
Proof.
  intros A l m r H. revert r. induction H as [|x l m H IH|x l m H IH]; intros r Hr.
  - exact Hr.
  - inversion Hr; subst; constructor; apply IH; assumption.
  - constructor. apply IH. exact Hr.
Qed.
Lemma subsequence_delete : forall A (us : list A) p ws, subsequence (us ++ p :: ws) (us ++ ws).
Proof. intros A us p ws. induction us; cbn; constructor; [apply subsequence_refl|assumption]. Qed.
Lemma straightened_subsequence : forall l r, straightened l r -> subsequence l r.
Proof.
  intros l r H. induction H; [apply subsequence_refl|].
  eapply subsequence_trans; [apply subsequence_delete|exact IHstraightened].
Qed.
Lemma straightened_trans : forall l m r, straightened l m -> straightened m r -> straightened l r.
Proof. intros l m r H. induction H; intro Hr; [exact Hr|]. constructor; auto. Qed.

(** Deletion by position. *)
Definition del (k : nat) (l : list point) : list point := firstn k l ++ skipn (S k) l.
Definition up (k i : nat) : nat := if (i <? k)%nat then i else S i.
Lemma del_length : forall k l, (k < length l)%nat -> length (del k l) = (length l - 1)%nat.
Proof. intros k l H. unfold del. rewrite app_length, firstn_length, skipn_length. lia. Qed.
Lemma del_vertex : forall k l i, (k < length l)%nat -> vertex (del k l) i = vertex l (up k i).
Proof.
  intros k l. revert k. unfold del, vertex, up. induction l as [|x l IH]; intros k i H; [cbn in H; lia|].
  destruct k as [|k].
  - cbn [firstn skipn app]. destruct (Nat.ltb_spec i 0); [lia|]. reflexivity.
  - cbn [firstn skipn app]. destruct i as [|i]; [destruct (Nat.ltb_spec 0 (S k)); [reflexivity|lia]|].
    cbn in H. cbn [nth]. rewrite IH by lia.
    destruct (Nat.ltb_spec i k), (Nat.ltb_spec (S i) (S k)); try lia; reflexivity.
Qed.
Lemma split_at : forall k (l : list point), (k < length l)%nat ->
  l = firstn k l ++ vertex l k :: skipn (S k) l.
Proof.
  intros k l H. revert k H. induction l as [|x l IH]; intros k H; [cbn in H; lia|].
  destruct k as [|k]; [reflexivity|]. cbn in H |- *. f_equal. apply IH. lia.
Qed.
Lemma straightened_del : forall l k, (3 <= length l)%nat -> (k < length l)%nat -> straight l k ->
  straightened l (del k l).
Proof.
  intros l k H3 Hk Hs. pose proof (split_at k l Hk) as E.
  assert (L : length (firstn k l) = k) by (rewrite firstn_length; lia).
  rewrite E at 1. apply straightened_one.
  - rewrite <- E. exact H3.
  - rewrite <- E, L. exact Hs.
  - apply straightened_none.
Qed.

(** Python's positions. *)
Lemma py_position_nonneg : forall (l : list point) i, (0 <= i < Z.of_nat (length l))%Z ->
  py_position l i = Some (Z.to_nat i).
Proof.
  intros l i H. unfold py_position.
  destruct (Z.leb_spec 0 i); [|lia]. destruct (Z.ltb_spec i (Z.of_nat (length l))); [reflexivity|lia].
Qed.
Lemma py_position_neg : forall (l : list point) i, (- Z.of_nat (length l) <= i < 0)%Z ->
  py_position l i = Some (Z.to_nat (Z.of_nat (length l) + i)).
Proof.
  intros l i H. unfold py_position.
  destruct (Z.leb_spec 0 i); [lia|]. cbn.
  destruct (Z.leb_spec (- Z.of_nat (length l)) i); [|lia].
  destruct (Z.ltb_spec i 0); [reflexivity|lia].
Qed.
Lemma py_get_vertex : forall (l : list point) i k, py_position l i = Some k -> (k < length l)%nat ->
  py_get l i = Some (vertex l k).
Proof. intros l i k H Hk. unfold py_get. rewrite H. apply nth_error_nth'. exact Hk. Qed.
Lemma py_del_del : forall (l : list point) i k, py_position l i = Some k -> py_del l i = Some (del k l).
Proof. intros l i k H. unfold py_del. rewrite H. reflexivity. Qed.

Lemma collinear_eqb : forall a b c, orientation_eqb (orient a b c) COLLINEAR = true <-> cross a b c = 0.
Proof.
  intros a b c. rewrite orient_sgn. destruct (sgnP (cross a b c)); cbn; split; intro; try discriminate; try qlra; reflexivity.
Qed.

Lemma py_ahead : forall (l : list point) k, (1 <= k)%nat -> (k < length l)%nat -> (2 < length l)%nat ->
  let n := length l in let c := (n - k)%nat in
  py_position l (- Z.of_nat k) = Some c /\ (c < n)%nat
  /\ py_position l (- Z.of_nat k + 1) = Some (after n c) /\ (after n c < n)%nat
  /\ py_position l (- Z.of_nat k + 2) = Some (after n (after n c)) /\ (after n (after n c) < n)%nat
  /\ before n (after n c) = c.
Proof.
  intros l k H1 Hk H2 n c. unfold after, before.
  assert (P0 : py_position l (- Z.of_nat k) = Some c).
  { rewrite py_position_neg by lia. f_equal. unfold c, n. lia. }
  split; [exact P0|]. split; [unfold c, n; lia|].
  destruct (Nat.eqb_spec (S c) n) as [E|E].
  - assert (k = 1%nat) by (unfold c, n in E; lia). subst k.
    destruct (Nat.eqb_spec 1 n); [unfold n in *; lia|].
    repeat split; try (unfold n; lia).
    + rewrite py_position_nonneg by lia. f_equal.
    + rewrite py_position_nonneg by lia. f_equal.
  - destruct (Nat.eqb_spec (S (S c)) n) as [E'|E'].
    + assert (k = 2%nat) by (unfold c, n in *; lia). subst k.
      repeat split; try (unfold n, c in *; lia).
      * rewrite py_position_neg by lia. f_equal. unfold c, n. lia.
      * rewrite py_position_nonneg by lia. f_equal.
    + repeat split; try (unfold n, c in *; lia).
      * rewrite py_position_neg by lia. f_equal. unfold c, n. lia.
      * rewrite py_position_neg by (unfold n, c in *; lia). f_equal. unfold c, n in *. lia.
Qed.
Lemma py_behind : forall (l : list point) i, (i < length l)%nat -> (2 < length l)%nat ->
  let n := length l in
  py_position l (Z.of_nat i) = Some i
  /\ py_position l (Z.of_nat i - 1) = Some (before n i) /\ (before n i < n)%nat
  /\ py_position l (Z.of_nat i - 2) = Some (before n (before n i)) /\ (before n (before n i) < n)%nat
  /\ after n (before n i) = i.
Proof.
  intros l i Hi H2 n. unfold after, before.
  assert (P0 : py_position l (Z.of_nat i) = Some i).
  { rewrite py_position_nonneg by lia. f_equal. lia. }
  split; [exact P0|]. destruct i as [|[|i]].
  - cbn [Z.of_nat]. destruct (n - 1)%nat as [|m] eqn:En; [unfold n in *; lia|].
    repeat split; try (unfold n in *; lia).
    + rewrite py_position_neg by lia. f_equal. unfold n in *. lia.
    + rewrite py_position_neg by lia. f_equal. unfold n in *. lia.
    + destruct (Nat.eqb_spec (S (S m)) n); [reflexivity|unfold n in *; lia].
  - repeat split; try (unfold n in *; lia).
    + rewrite py_position_nonneg by lia. f_equal.
    + rewrite py_position_neg by lia. f_equal. unfold n in *. lia.
    + destruct (Nat.eqb_spec 1 n); [unfold n in *; lia|reflexivity].
  - repeat split; try (unfold n in *; lia).
    + rewrite py_position_nonneg by (unfold n in *; lia). f_equal. lia.
    + rewrite py_position_nonneg by (unfold n in *; lia). f_equal. lia.
    + destruct (Nat.eqb_spec (S (S i)) n); [unfold n in *; lia|reflexivity].
Qed.

Lemma collinear_ahead : forall l k, (1 <= k)%nat -> (k < length l)%nat -> (2 < length l)%nat ->
  let m := after (length l) (length l - k) in
  (m < length l)%nat /\ py_del l (- Z.of_nat k + 1) = Some (del m l) /\
  exists b, collinear_at l (- Z.of_nat k + 1) (- Z.of_nat k + 2) (- Z.of_nat k) = Some b
            /\ (b = true <-> straight l m).
Proof.
  intros l k H1 Hk H2 m. destruct (py_ahead l k H1 Hk H2) as (P0 & L0 & P1 & L1 & P2 & L2 & B).
  split; [exact L1|]. split; [apply py_del_del; exact P1|].
  eexists. split.
  - unfold collinear_at. rewrite (py_get_vertex _ _ _ P0 L0), (py_get_vertex _ _ _ P1 L1), (py_get_vertex _ _ _ P2 L2).
    reflexivity.
  - rewrite collinear_eqb. unfold straight, m. rewrite B. unfold cross.
    split; intro H; qlra.
Qed.
Lemma collinear_behind : forall l i, (i < length l)%nat -> (2 < length l)%nat ->
  let m := before (length l) i in
  (m < length l)%nat /\ py_del l (Z.of_nat i - 1) = Some (del m l) /\
  exists b, collinear_at l (Z.of_nat i - 1) (Z.of_nat i - 2) (Z.of_nat i) = Some b
            /\ (b = true <-> straight l m).
Proof.
  intros l i Hi H2 m. destruct (py_behind l i Hi H2) as (P0 & P1 & L1 & P2 & L2 & B).
  split; [exact L1|]. split; [apply py_del_del; exact P1|].
  eexists. split.
  - unfold collinear_at. rewrite (py_get_vertex _ _ _ P0 Hi), (py_get_vertex _ _ _ P1 L1), (py_get_vertex _ _ _ P2 L2).
    reflexivity.
  - rewrite collinear_eqb. unfold straight, m. rewrite B. unfold cross.
    split; intro H; qlra.
Qed.

(** Loops. *)
Lemma shrink_ahead_ok : forall fuel l k, (1 <= k)%nat -> (length l < fuel)%nat ->
  exists r, shrink_ahead fuel (- Z.of_nat k) l = Ok r /\ straightened l r.
Proof.
  induction fuel as [|f IH]; intros l k H1 Hf; [lia|]. cbn [shrink_ahead].
  destruct (Z.ltb_spec (Z.max 2 (- - Z.of_nat k)) (Z.of_nat (length l))) as [G|G].
  - destruct (collinear_ahead l k H1 ltac:(lia) ltac:(lia)) as (Lm & D & b & E & Hb).
    rewrite E. destruct b.
    + rewrite D. destruct (IH (del (after (length l) (length l - k)) l) k H1) as (r & Er & Hr).
      { rewrite del_length by exact Lm. lia. }
      exists r. split; [exact Er|]. eapply straightened_trans; [|exact Hr].
      apply straightened_del; [lia|exact Lm|]. apply Hb. reflexivity.
    + exists l. split; [reflexivity|constructor].
  - exists l. split; [reflexivity|constructor].
Qed.
Lemma shrink_first_ok : forall fuel l k, (k < fuel)%nat ->
  exists r, shrink_first fuel (- Z.of_nat k) l = Ok (r, 0%Z) /\ straightened l r.
Proof.
  induction fuel as [|f IH]; intros l k Hf; [lia|]. cbn [shrink_first].
  destruct (Z.ltb_spec (- Z.of_nat k) 0) as [G|G].
  - destruct (shrink_ahead_ok (S (length l)) l k ltac:(lia) ltac:(lia)) as (r & E & Hr). rewrite E.
    replace (- Z.of_nat k + 1)%Z with (- Z.of_nat (k - 1))%Z by lia.
    destruct (IH r (k - 1)%nat ltac:(lia)) as (r' & E' & Hr'). exists r'. split; [exact E'|].
    eapply straightened_trans; eassumption.
  - exists l. split; [|constructor]. repeat f_equal. lia.
Qed.
Lemma shrink_behind_ok : forall fuel l i, (length l < fuel)%nat ->
  exists r, shrink_behind fuel (Z.of_nat i) l = Ok r /\ straightened l r.
Proof.
  induction fuel as [|f IH]; intros l i Hf; [lia|]. cbn [shrink_behind].
  destruct (Z.ltb_spec (Z.max 2 (Z.of_nat i)) (Z.of_nat (length l))) as [G|G].
  - destruct (collinear_behind l i ltac:(lia) ltac:(lia)) as (Lm & D & b & E & Hb).
    rewrite E. destruct b.
    + rewrite D. destruct (IH (del (before (length l) i) l) i) as (r & Er & Hr).
      { rewrite del_length by exact Lm. lia. }
      exists r. split; [exact Er|]. eapply straightened_trans; [|exact Hr].
      apply straightened_del; [lia|exact Lm|]. apply Hb. reflexivity.
    + exists l. split; [reflexivity|constructor].
  - exists l. split; [reflexivity|constructor].
Qed.
Lemma straightened_length : forall l r, straightened l r -> (length r <= length l)%nat.
Proof.
  intros l r H. induction H as [|us p ws r H3 Hs H IH]; [lia|].
  rewrite app_length in *. cbn in *. lia.
Qed.
Lemma shrink_second_ok : forall fuel l i, (1 <= fuel)%nat -> (length l < i + fuel)%nat ->
  exists r, shrink_second fuel (Z.of_nat i) l = Ok r /\ straightened l r.
Proof.
  induction fuel as [|f IH]; intros l i H1 Hf; [lia|]. cbn [shrink_second].
  destruct (Z.ltb_spec (Z.of_nat i) (Z.of_nat (length l))) as [G|G].
  - destruct (shrink_behind_ok (S (length l)) l i ltac:(lia)) as (r & E & Hr). rewrite E.
    replace (Z.of_nat i + 1)%Z with (Z.of_nat (S i)) by lia.
    pose proof (straightened_length _ _ Hr).
    destruct (IH r (S i) ltac:(lia) ltac:(lia)) as (r' & E' & Hr'). exists r'. split; [exact E'|].
    eapply straightened_trans; eassumption.
  - exists l. split; [reflexivity|constructor].
Qed.
Theorem shrink_straightens : forall l, exists r, shrink_collinear_vertices l = Ok r /\ straightened l r.
Proof.
  intro l. unfold shrink_collinear_vertices. destruct l as [|x l].
  - exists []. split; [reflexivity|constructor].
  - replace (- Z.of_nat (length (x :: l)) + 1)%Z with (- Z.of_nat (length l))%Z by (cbn [length]; lia).
    destruct (shrink_first_ok (S (length (x :: l))) (x :: l) (length l) ltac:(cbn; lia)) as (m & E & Hm).
    rewrite E. destruct (shrink_second_ok (S (length m)) m 0 ltac:(lia) ltac:(lia)) as (r & Er & Hr).
    exists r. split; [exact Er|]. eapply straightened_trans; eassumption.
Qed.

(** Contours which never fold. *)
Lemma inside_lerp : forall a c b, inside_segment b (Seg a c) ->
  exists t, 0 < t /\ t < 1 /\ a <> c /\ px b = px a + t * (px c - px a) /\ py b = py a + t * (py c - py a).
Proof.
  intros a c b ((t & T0 & T1 & Hx & Hy) & Na & Nc). cbn in *. exists t.
  assert (N0 : t <> 0). { intro E. apply Na. apply pt_ext; rewrite ?Hx, ?Hy, E; ring. }
  assert (N1 : t <> 1). { intro E. apply Nc. apply pt_ext; rewrite ?Hx, ?Hy, E; ring. }
  repeat split; auto.
  - destruct (Qc_lt_total 0 t) as [H|[H|H]]; [exact H|congruence|qlra].
  - destruct (Qc_lt_total t 1) as [H|[H|H]]; [exact H|congruence|qlra].
  - intros ->. apply Na. apply pt_ext; rewrite ?Hx, ?Hy; ring.
Qed.
Lemma lerp_inside : forall a c b t, 0 < t -> t < 1 -> a <> c ->
  px b = px a + t * (px c - px a) -> py b = py a + t * (py c - py a) -> inside_segment b (Seg a c).
Proof.
  intros a c b t T0 T1 N Hx Hy. split; [exists t; cbn; repeat split; auto; qlra|].
  assert (D : px c - px a <> 0 \/ py c - py a <> 0).
  { destruct (Qc_eq_dec (px c - px a) 0) as [E|E]; [|left; exact E].
    destruct (Qc_eq_dec (py c - py a) 0) as [E'|E']; [|right; exact E'].
    exfalso. apply N. apply pt_ext; qlra. }
  assert (M : forall u v : Qc, u * v = 0 -> v <> 0 -> u = 0).
  { intros u v E Nv. apply Qcmult_integral in E. destruct E; [assumption|contradiction]. }
  cbn. split; intros ->.
  - destruct D as [D|D].
    + assert (t = 0) by (apply (M t _) with (2 := D); qlra). qlra.
    + assert (t = 0) by (apply (M t _) with (2 := D); qlra). qlra.
  - destruct D as [D|D].
    + assert (1 - t = 0) by (apply (M (1 - t) _) with (2 := D); qlra). qlra.
    + assert (1 - t = 0) by (apply (M (1 - t) _) with (2 := D); qlra). qlra.
Qed.
Lemma inside_sym : forall a c b, inside_segment b (Seg a c) -> inside_segment b (Seg c a).
Proof. intros a c b (H & N1 & N2). split; [apply on_segment_sym; exact H|]. cbn in *. auto. Qed.
Lemma mul_zero : forall t x : Qc, 0 < t -> (t * x = 0 <-> x = 0).
Proof.
  intros t x T. split; intro H; [|rewrite H; ring].
  apply Qcmult_integral in H. destruct H; [qlra|assumption].
Qed.
Lemma cross_extend : forall z a b c, inside_segment b (Seg a c) -> (cross z a c = 0 <-> cross z a b = 0).
Proof.
  intros z a b c H. destruct (inside_lerp _ _ _ H) as (t & T0 & T1 & N & Hx & Hy).
  rewrite <- (mul_zero t (cross z a c) T0).
  assert (E : t * cross z a c = cross z a b) by (unfold cross; rewrite Hx, Hy; ring).
  rewrite E. reflexivity.
Qed.
Lemma fold_extend : forall z a b c, inside_segment b (Seg a c) -> inside_segment a (Seg z b) ->
  inside_segment a (Seg z c).
Proof.
  intros z a b c H H'. destruct (inside_lerp _ _ _ H) as (t & T0 & T1 & N & Hx & Hy).
  destruct (inside_lerp _ _ _ H') as (s & S0 & S1 & N' & Hx' & Hy').
  (* (1 - s) (a - z) = s t (c - a), hence a - z = u (c - z) with u = s t / (1 - s + s t) *)
  assert (D : 0 < 1 - s + s * t) by qnra.
  set (d := 1 - s + s * t) in *. set (u := s * t / d).
  assert (U : u * d = s * t) by (unfold u; field; intro E; rewrite E in D; qlra).
  assert (C : forall x y, d * x = d * y -> x = y).
  { intros x y E. assert (Z : x - y = 0) by (apply (proj1 (mul_zero d (x - y) D)); qlra). qlra. }
  apply (lerp_inside z c a u).
  - destruct (Qc_lt_total 0 u) as [G|[G|G]]; [exact G| |]; [rewrite <- G in U|]; qnra.
  - destruct (Qc_lt_total u 1) as [G|[G|G]]; [exact G| |]; [rewrite G in U|]; unfold d in *; qnra.
  - intros ->. assert (Ex : px a = px c). { apply C. unfold d. rewrite Hx in Hx'. qlra. }
    assert (Ey : py a = py c). { apply C. unfold d. rewrite Hy in Hy'. qlra. }
    apply N. apply pt_ext; assumption.
  - apply C. transitivity (d * px z + (u * d) * (px c - px z)); [|ring]. rewrite U. unfold d. rewrite Hx in Hx'. qlra.
  - apply C. transitivity (d * py z + (u * d) * (py c - py z)); [|ring]. rewrite U. unfold d. rewrite Hy in Hy'. qlra.
Qed.
Lemma no_mutual_inside : forall a b c, inside_segment b (Seg a c) -> inside_segment c (Seg b a) -> False.
Proof.
  intros a b c H H'. destruct (inside_lerp _ _ _ H) as (t & T0 & T1 & N & Hx & Hy).
  destruct (inside_lerp _ _ _ H') as (s & S0 & S1 & N' & Hx' & Hy').
  apply N. assert (M : 0 < 1 - t * (1 - s)) by qnra.
  apply pt_ext.
  - assert (E : (1 - t * (1 - s)) * (px a - px c) = 0) by (rewrite Hx in Hx'; qlra).
    apply (proj1 (mul_zero _ _ M)) in E. qlra.
  - assert (E : (1 - t * (1 - s)) * (py a - py c) = 0) by (rewrite Hy in Hy'; qlra).
    apply (proj1 (mul_zero _ _ M)) in E. qlra.
Qed.
Lemma cross_turn : forall a b c, cross a b c = cross b c a.
Proof. intros. unfold cross. ring. Qed.
Lemma cross_flip : forall a b c, cross a b c = - cross c b a.
Proof. intros. unfold cross. ring. Qed.

(** Positions around a deleted one. *)
Lemma up_lt : forall n k i, (k < n)%nat -> (i < n - 1)%nat -> (up k i < n)%nat /\ up k i <> k.
Proof. intros n k i Hk Hi. unfold up. destruct (Nat.ltb_spec i k); lia. Qed.
Lemma up_before : forall n k i, (k < n)%nat -> (3 <= n)%nat -> (i < n - 1)%nat ->
  (before n (up k i) = k /\ up k (before (n - 1) i) = before n k)
  \/ (before n (up k i) <> k /\ up k (before (n - 1) i) = before n (up k i)).
Proof.
  intros n k i Hk H3 Hi. unfold up, before.
  destruct i as [|i]; destruct k as [|k];
  repeat (match goal with |- context [Nat.ltb ?a ?b] => destruct (Nat.ltb_spec a b) end; cbv beta iota);
  lia.
Qed.
Lemma up_after : forall n k i, (k < n)%nat -> (3 <= n)%nat -> (i < n - 1)%nat ->
  (after n (up k i) = k /\ up k (after (n - 1) i) = after n k)
  \/ (after n (up k i) <> k /\ up k (after (n - 1) i) = after n (up k i)).
Proof.
  intros n k i Hk H3 Hi. unfold up, after.
  repeat match goal with
  | |- context [Nat.ltb ?a ?b] => destruct (Nat.ltb_spec a b)
  | |- context [Nat.eqb ?a ?b] => destruct (Nat.eqb_spec a b)
  end; try lia.
Qed.
Lemma after_before : forall n i, (i < n)%nat -> after n (before n i) = i.
Proof.
  intros n i Hi. unfold after, before. destruct i as [|i];
  match goal with |- context [Nat.eqb ?a ?b] => destruct (Nat.eqb_spec a b) end; lia.
Qed.
Lemma before_after : forall n i, (i < n)%nat -> before n (after n i) = i.
Proof. intros n i Hi. unfold after, before. destruct (Nat.eqb_spec (S i) n); lia. Qed.
Lemma before_eq : forall n i k, (i < n)%nat -> before n i = k -> after n k = i.
Proof. intros n i k Hi <-. apply after_before. exact Hi. Qed.
Lemma after_eq : forall n i k, (i < n)%nat -> after n i = k -> before n k = i.
Proof. intros n i k Hi <-. apply before_after. exact Hi. Qed.
Lemma before_lt : forall n i, (i < n)%nat -> (before n i < n)%nat.
Proof. intros n i Hi. unfold before. destruct i; lia. Qed.
Lemma after_lt : forall n i, (i < n)%nat -> (after n i < n)%nat.
Proof. intros n i Hi. unfold after. destruct (Nat.eqb_spec (S i) n); lia. Qed.

Lemma never_folds_four : forall l k, never_folds l -> (k < length l)%nat -> straight l k -> (4 <= length l)%nat.
Proof.
  intros l k (H3 & H) Hk Hs.
  destruct (Nat.eq_dec (length l) 3) as [E|E]; [exfalso|lia].
  set (n := length l) in *.
  assert (Ha : (after n k < n)%nat) by (apply after_lt; exact Hk).
  assert (E' : after n (after n k) = before n k).
  { unfold after, before. destruct (Nat.eqb_spec (S k) n); destruct k;
    match goal with |- context [Nat.eqb ?a ?b] => destruct (Nat.eqb_spec a b) end; lia. }
  pose proof (H k Hk Hs) as I1.
  assert (Hs' : straight l (after n k)).
  { unfold straight. fold n. rewrite before_after, E' by exact Hk. unfold straight in Hs. fold n in Hs.
    rewrite <- cross_turn. exact Hs. }
  pose proof (H _ Ha Hs') as I2. rewrite before_after, E' in I2 by exact Hk.
  exact (no_mutual_inside _ _ _ I1 I2).
Qed.

Section Step.
  Variables (l : list point) (k : nat).
  Hypothesis HF : never_folds l.
  Hypothesis Hk : (k < length l)%nat.
  Hypothesis Hs : straight l k.
  Let n := length l.
  Let H4 : (4 <= length l)%nat := never_folds_four l k HF Hk Hs.
  Let inside : inside_segment (vertex l k) (Seg (vertex l (before n k)) (vertex l (after n k))) := proj2 HF k Hk Hs.

  Lemma step_length : length (del k l) = (n - 1)%nat.
  Proof. apply del_length. exact Hk. Qed.
  Lemma step_straight : forall i, (i < n - 1)%nat -> (straight (del k l) i <-> straight l (up k i)).
  Proof.
    intros i Hi. unfold straight. rewrite step_length, !del_vertex by exact Hk. fold n.
    destruct (up_lt n k i Hk Hi) as (Hj & Nj).
    destruct (up_before n k i Hk ltac:(unfold n; lia) Hi) as [(B1 & B2)|(B1 & B2)];
    destruct (up_after n k i Hk ltac:(unfold n; lia) Hi) as [(A1 & A2)|(A1 & A2)].
    - exfalso. assert (E : after n k = up k i) by (exact (before_eq n _ k Hj B1)).
      revert A1. rewrite <- E. unfold after. unfold n in *. destruct (Nat.eqb_spec (S k) (length l));
      match goal with |- context [Nat.eqb ?a ?b] => destruct (Nat.eqb_spec a b) end; lia.
    - rewrite B2, A2, B1.
      assert (E : after n k = up k i) by (exact (before_eq n _ k Hj B1)).
      rewrite (cross_flip _ (vertex l (up k i))), (cross_flip (vertex l k)). rewrite E in inside.
      pose proof (cross_extend (vertex l (after n (up k i))) _ _ _ (inside_sym _ _ _ inside)) as X.
      split; intro Y.
      + assert (Z : cross (vertex l (after n (up k i))) (vertex l (up k i)) (vertex l (before n k)) = 0) by qlra.
        apply X in Z. rewrite Z. ring.
      + assert (Z : cross (vertex l (after n (up k i))) (vertex l (up k i)) (vertex l k) = 0) by qlra.
        apply X in Z. rewrite Z. ring.
    - rewrite B2, A2, A1.
      assert (E : before n k = up k i) by (exact (after_eq n _ k Hj A1)).
      rewrite E in inside. exact (cross_extend _ _ _ _ inside).
    - rewrite B2, A2. reflexivity.
  Qed.
  Lemma step_folds : never_folds (del k l).
  Proof.
    split; [rewrite step_length; unfold n; lia|].
    intros i Hi Hst. rewrite step_length in Hi. pose proof (proj1 (step_straight i Hi) Hst) as Hst'.
    destruct (up_lt n k i Hk Hi) as (Hj & Nj).
    pose proof (proj2 HF (up k i) Hj Hst') as I. fold n in I.
    rewrite step_length, !del_vertex by exact Hk. fold n.
    destruct (up_before n k i Hk ltac:(unfold n; lia) Hi) as [(B1 & B2)|(B1 & B2)];
    destruct (up_after n k i Hk ltac:(unfold n; lia) Hi) as [(A1 & A2)|(A1 & A2)]; rewrite B2, A2.
    - exfalso. assert (E : after n k = up k i) by (exact (before_eq n _ k Hj B1)).
      revert A1. rewrite <- E. unfold after. unfold n in *. destruct (Nat.eqb_spec (S k) (length l));
      match goal with |- context [Nat.eqb ?a ?b] => destruct (Nat.eqb_spec a b) end; lia.
    - assert (E : after n k = up k i) by (exact (before_eq n _ k Hj B1)).
      rewrite E in inside. rewrite B1 in I.
      apply inside_sym. apply (fold_extend _ _ (vertex l k)); apply inside_sym; assumption.
    - assert (E : before n k = up k i) by (exact (after_eq n _ k Hj A1)).
      rewrite E in inside. rewrite A1 in I. apply (fold_extend _ _ (vertex l k)); assumption.
    - exact I.
  Qed.

  Definition on_edge (p : point) (vs : list point) (i : nat) : Prop :=
    on_segment p (Seg (vertex vs (before (length vs) i)) (vertex vs i)).
  Lemma step_points : forall p, (exists i, (i < n - 1)%nat /\ on_edge p (del k l) i) <-> (exists i, (i < n)%nat /\ on_edge p l i).
  Proof.
    intro p. unfold on_edge. rewrite step_length. fold n.
    assert (Down : forall j, (j < n)%nat -> j <> k -> exists i, (i < n - 1)%nat /\ up k i = j).
    { intros j Hj Nj. destruct (Nat.lt_ge_cases j k) as [C|C].
      - exists j. unfold up. destruct (Nat.ltb_spec j k); unfold n in *; lia.
      - exists (j - 1)%nat. unfold up. destruct (Nat.ltb_spec (j - 1) k); lia. }
    assert (Na : after n k <> k).
    { unfold after. destruct (Nat.eqb_spec (S k) n); unfold n in *; lia. }
    split.
    - intros (i & Hi & On). rewrite !del_vertex in On by exact Hk.
      destruct (up_lt n k i Hk Hi) as (Hj & Nj).
      destruct (up_before n k i Hk ltac:(unfold n; lia) Hi) as [(B1 & B2)|(B1 & B2)]; rewrite B2 in On.
      + assert (E : after n k = up k i) by (exact (before_eq n _ k Hj B1)).
        rewrite <- E in On.
        (* the edge from the vertex before the deleted one to the vertex after it *)
        destruct (inside_lerp _ _ _ inside) as (t & T0 & T1 & N & Hx & Hy).
        destruct On as (u & U0 & U1 & Px & Py). cbn in Px, Py.
        destruct (Qclt_le_dec t u) as [C|C].
        * exists (after n k). split; [apply after_lt; exact Hk|]. rewrite before_after by exact Hk.
          assert (D : 0 < 1 - t) by qlra.
          assert (V : exists v, v * (1 - t) = u - t).
          { set (d := 1 - t) in *. exists ((u - t) / d). field. intro Z. rewrite Z in D. qlra. }
          destruct V as (v & V). exists v. cbn. repeat split.
          -- destruct (Qclt_le_dec v 0) as [G|G]; [exfalso|exact G]. qnra.
          -- destruct (Qclt_le_dec 1 v) as [G|G]; [exfalso|exact G]. qnra.
          -- rewrite Px, Hx. assert (Q : u = t + v * (1 - t)) by qlra. rewrite Q. ring.
          -- rewrite Py, Hy. assert (Q : u = t + v * (1 - t)) by qlra. rewrite Q. ring.
        * exists k. split; [exact Hk|]. exists (u / t). cbn.
          assert (V : u / t * t = u) by (field; intro Z; rewrite Z in T0; qlra).
          set (v := u / t) in *. repeat split.
          -- destruct (Qclt_le_dec v 0) as [G|G]; [exfalso|exact G]. qnra.
          -- destruct (Qclt_le_dec 1 v) as [G|G]; [exfalso|exact G]. qnra.
          -- rewrite Px, Hx, <- V. ring.
          -- rewrite Py, Hy, <- V. ring.
      + exists (up k i). split; [exact Hj|exact On].
    - intros (j & Hj & On).
      assert (Join : on_segment p (Seg (vertex l (before n k)) (vertex l (after n k))) ->
                     exists i, (i < n - 1)%nat /\ on_segment p (Seg (vertex (del k l) (before (n - 1) i)) (vertex (del k l) i))).
      { intro On'. destruct (Down (after n k) (after_lt n k Hk) Na) as (i & Hi & E).
        exists i. split; [exact Hi|]. rewrite !del_vertex, E by exact Hk.
        destruct (up_before n k i Hk ltac:(unfold n; lia) Hi) as [(B1 & B2)|(B1 & B2)].
        - rewrite B2. exact On'.
        - exfalso. apply B1. rewrite E. apply before_after. exact Hk. }
      destruct (Nat.eq_dec j k) as [->|Nj].
      + apply Join. destruct inside as (On' & _).
        apply (on_convex _ _ _ p (on_segment_start (Seg _ _)) On' On).
      + destruct (Nat.eq_dec (before n j) k) as [E|Nb].
        * apply Join. destruct inside as (On' & _).
          assert (E' : after n k = j) by (exact (before_eq n _ k Hj E)).
          rewrite E in On. rewrite <- E' in On.
          apply (on_convex _ _ _ p On' (on_segment_end (Seg _ _)) On).
        * destruct (Down j Hj Nj) as (i & Hi & E). exists i. split; [exact Hi|].
          rewrite !del_vertex by exact Hk.
          destruct (up_before n k i Hk ltac:(unfold n; lia) Hi) as [(B1 & B2)|(B1 & B2)].
          -- exfalso. apply Nb. rewrite <- E. exact B1.
          -- rewrite B2, E. exact On.
  Qed.
End Step.

Lemma del_app : forall us p ws, del (length us) (us ++ p :: ws) = us ++ ws.
Proof.
  intros us p ws. unfold del. rewrite firstn_app, firstn_all, Nat.sub_diag. cbn [firstn]. rewrite app_nil_r.
  f_equal. replace (us ++ p :: ws) with ((us ++ [p]) ++ ws) by (rewrite <- app_assoc; reflexivity).
  rewrite skipn_app, skipn_all2 by (rewrite app_length; cbn; lia).
  rewrite app_length. cbn [length]. replace (S (length us) - (length us + 1))%nat with 0%nat by lia. reflexivity.
Qed.
Lemma straightened_folds : forall l r, straightened l r -> never_folds l -> never_folds r.
Proof.
  intros l r H. induction H as [|us p ws r H3 Hs H IH]; intro F; [exact F|].
  apply IH. rewrite <- (del_app us p ws). apply step_folds; [exact F| |exact Hs].
  rewrite app_length. cbn. lia.
Qed.
Lemma on_contour_edges : forall p l, on_segments p (contour_edges l) <-> exists i, (i < length l)%nat /\ on_edge p l i.
Proof.
  intros p l. unfold on_segments, contour_edges, on_edge. split.
  - intros (s & Hs & On). apply in_map_iff in Hs. destruct Hs as (i & <- & Hi). apply in_seq in Hi.
    exists i. split; [lia|exact On].
  - intros (i & Hi & On). eexists. split; [|exact On]. apply in_map_iff. exists i. split; [reflexivity|].
    apply in_seq. lia.
Qed.
Lemma straightened_points : forall l r, straightened l r -> never_folds l ->
  forall p, on_segments p (contour_edges r) <-> on_segments p (contour_edges l).
Proof.
  intros l r H. induction H as [|us p ws r H3 Hs H IH]; intros F q; [reflexivity|].
  assert (Hk : (length us < length (us ++ p :: ws))%nat) by (rewrite app_length; cbn; lia).
  pose proof (step_folds _ _ F Hk Hs) as F'. rewrite del_app in F'.
  rewrite (IH F'), !on_contour_edges.
  pose proof (step_points _ _ F Hk Hs q) as X. rewrite del_app in X.
  replace (length (us ++ ws)) with (length (us ++ p :: ws) - 1)%nat by (rewrite !app_length; cbn; lia).
  exact X.
Qed.

Lemma shrink_last : forall fuel l, (length l < fuel)%nat -> never_folds l ->
  exists r, shrink_behind fuel 0%Z l = Ok r /\ never_folds r /\ ~ straight r (length r - 1).
Proof.
  induction fuel as [|f IH]; intros l Hf F; [lia|]. cbn [shrink_behind]. pose proof (proj1 F) as H3.
  destruct (Z.ltb_spec (Z.max 2 0) (Z.of_nat (length l))) as [G|G]; [|lia].
  destruct (collinear_behind l 0 ltac:(lia) ltac:(lia)) as (Lm & D & b & E & Hb).
  change (Z.of_nat 0) with 0%Z in *. rewrite E. destruct b.
  - rewrite D. apply IH; [rewrite del_length by exact Lm; lia|].
    apply step_folds; [exact F|exact Lm|]. apply Hb. reflexivity.
  - exists l. split; [reflexivity|]. split; [exact F|]. intro S. apply Hb in S. discriminate.
Qed.
(** State of the second loop: the last vertex and the vertices passed are corners. *)
Definition passed (i : nat) (l : list point) : Prop :=
  never_folds l /\ ~ straight l (length l - 1) /\
  forall j, (j < length l)%nat -> (S j < i)%nat -> ~ straight l j.
Lemma shrink_behind_passed : forall fuel l i, (length l < fuel)%nat -> passed (S i) l ->
  exists r, shrink_behind fuel (Z.of_nat (S i)) l = Ok r /\ passed (S (S i)) r.
Proof.
  induction fuel as [|f IH]; intros l i Hf (F & Hl & Hp); [lia|]. cbn [shrink_behind]. pose proof (proj1 F) as H3.
  destruct (Z.ltb_spec (Z.max 2 (Z.of_nat (S i))) (Z.of_nat (length l))) as [G|G].
  - destruct (collinear_behind l (S i) ltac:(lia) ltac:(lia)) as (Lm & D & b & E & Hb).
    rewrite E. cbn [before] in *. destruct b.
    + rewrite D. apply IH; [rewrite del_length by exact Lm; lia|].
      assert (S0 : straight l i) by (apply Hb; reflexivity).
      split; [apply step_folds; assumption|]. rewrite del_length by exact Lm. split.
      * rewrite (step_straight _ _ F Lm S0) by lia. unfold up.
        destruct (Nat.ltb_spec (length l - 1 - 1) i); [lia|].
        replace (S (length l - 1 - 1)) with (length l - 1)%nat by lia. exact Hl.
      * intros j Hj Hji. rewrite (step_straight _ _ F Lm S0) by lia. unfold up.
        destruct (Nat.ltb_spec j i); [|lia]. apply Hp; lia.
    + exists l. split; [reflexivity|]. split; [exact F|]. split; [exact Hl|].
      intros j Hj Hji. destruct (Nat.eq_dec j i) as [->|N]; [|apply Hp; lia].
      intro S0. apply Hb in S0. discriminate.
  - exists l. split; [reflexivity|]. split; [exact F|]. split; [exact Hl|].
    intros j Hj Hji. destruct (Nat.eq_dec j (length l - 1)) as [->|N]; [exact Hl|]. apply Hp; lia.
Qed.
Lemma shrink_second_corners : forall fuel l i, (1 <= fuel)%nat -> (length l < S i + fuel)%nat -> passed (S i) l ->
  exists r, shrink_second fuel (Z.of_nat (S i)) l = Ok r /\ forall j, (j < length r)%nat -> ~ straight r j.
Proof.
  induction fuel as [|f IH]; intros l i H1 Hf P; [lia|]. cbn [shrink_second].
  destruct (Z.ltb_spec (Z.of_nat (S i)) (Z.of_nat (length l))) as [G|G].
  - destruct (shrink_behind_passed (S (length l)) l i ltac:(lia) P) as (r & E & P'). rewrite E.
    replace (Z.of_nat (S i) + 1)%Z with (Z.of_nat (S (S i))) by lia.
    destruct (shrink_behind_ok (S (length l)) l (S i) ltac:(lia)) as (r' & E' & Hr').
    rewrite E in E'. injection E' as <-. pose proof (straightened_length _ _ Hr').
    apply IH; [lia|lia|exact P'].
  - exists l. split; [reflexivity|]. intros j Hj. destruct P as (F & Hl & Hp).
    destruct (Nat.eq_dec j (length l - 1)) as [->|N]; [exact Hl|]. apply Hp; lia.
Qed.
Theorem shrink_corners : forall l, never_folds l ->
  exists r, shrink_collinear_vertices l = Ok r /\ straightened l r /\ never_folds r
    /\ (forall j, (j < length r)%nat -> ~ straight r j)
    /\ forall p, on_segments p (contour_edges r) <-> on_segments p (contour_edges l).
Proof.
  intros l F. destruct (shrink_straightens l) as (r & E & Hr). exists r.
  pose proof (straightened_folds _ _ Hr F) as Fr.
  split; [exact E|]. split; [exact Hr|]. split; [exact Fr|].
  split; [|exact (straightened_points _ _ Hr F)].
  unfold shrink_collinear_vertices in E. pose proof (proj1 F) as H3.
  replace (- Z.of_nat (length l) + 1)%Z with (- Z.of_nat (length l - 1))%Z in E by lia.
  destruct (shrink_first_ok (S (length l)) l (length l - 1) ltac:(lia)) as (m & Em & Hm).
  rewrite Em in E. pose proof (straightened_folds _ _ Hm F) as Fm. pose proof (proj1 Fm) as H3m.
  cbn [shrink_second] in E. destruct (Z.ltb_spec 0 (Z.of_nat (length m))) as [G|G]; [|lia].
  destruct (shrink_last (S (length m)) m ltac:(lia) Fm) as (m' & Em' & Fm' & Hl). rewrite Em' in E.
  destruct (shrink_behind_ok (S (length m)) m 0 ltac:(lia)) as (m'' & E'' & Hm'').
  change (Z.of_nat 0) with 0%Z in E''. rewrite Em' in E''. injection E'' as <-.
  pose proof (straightened_length _ _ Hm'').
  destruct (shrink_second_corners (length m) m' 0 ltac:(lia) ltac:(lia)) as (r' & Er' & C).
  { split; [exact Fm'|]. split; [exact Hl|]. intros; lia. }
  change (Z.of_nat 1) with (0 + 1)%Z in Er'. rewrite Er' in E. injection E as <-. exact C.
Qed.
