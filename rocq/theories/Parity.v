(** Parity of the number of pieces under a line: it does not change along the
    line when the ends of the pieces occur in pairs, nor when pieces are cut.
    Proof support only, no part of /repo is modelled here. *)
From Coq Require Import Permutation.
From Verif Require Import QcTac Geom GeomFacts SweepGeo SweepInv.

(** ** Parity of a number of elements *)
Lemma Qc_eqb_same : forall a, Qc_eqb a a = true.
Proof. intro a. destruct (Qc_eqb_spec a a) as [H|H]; [reflexivity|contradiction]. Qed.

Section Parity.
Context {A : Type}.
Fixpoint parity (f : A -> bool) (l : list A) : bool :=
  match l with [] => false | x :: r => xorb (f x) (parity f r) end.
Lemma parity_app : forall f l r, parity f (l ++ r) = xorb (parity f l) (parity f r).
Proof. intros f l r. induction l as [|x l IH]; [cbn; destruct (parity f r); reflexivity|]. cbn. rewrite IH. destruct (f x), (parity f l), (parity f r); reflexivity. Qed.
Lemma parity_ext : forall f g l, (forall x, In x l -> f x = g x) -> parity f l = parity g l.
Proof.
  intros f g l. induction l as [|x l IH]; intro H; [reflexivity|]. cbn. rewrite (H x (or_introl eq_refl)), IH; [reflexivity|].
  intros y Hy. apply H. right. exact Hy.
Qed.
Lemma parity_xor : forall f g l, parity (fun x => xorb (f x) (g x)) l = xorb (parity f l) (parity g l).
Proof.
  intros f g l. induction l as [|x l IH]; [reflexivity|]. cbn. rewrite IH.
  destruct (f x), (g x), (parity f l), (parity g l); reflexivity.
Qed.
Lemma parity_none : forall f l, (forall x, In x l -> f x = false) -> parity f l = false.
Proof.
  intros f l. induction l as [|x l IH]; intro H; [reflexivity|]. cbn. rewrite (H x (or_introl eq_refl)), IH; [reflexivity|].
  intros y Hy. apply H. right. exact Hy.
Qed.
Lemma parity_filter : forall f g l, parity f (filter g l) = parity (fun x => g x && f x) l.
Proof. intros f g l. induction l as [|x l IH]; [reflexivity|]. cbn. destruct (g x); cbn; rewrite IH; [reflexivity|destruct (parity (fun y => g y && f y) l); reflexivity]. Qed.
Lemma parity_perm : forall f l r, Permutation l r -> parity f l = parity f r.
Proof.
  intros f l r H. induction H as [|x l r H IH|x y l|l m r H1 IH1 H2 IH2]; cbn; [reflexivity|congruence| |congruence].
  destruct (f x), (f y), (parity f l); reflexivity.
Qed.
Lemma parity_length : forall f l, parity f l = Nat.odd (length (filter f l)).
Proof.
  intros f l. induction l as [|x l IH]; [reflexivity|]. cbn. destruct (f x); cbn [length]; rewrite IH.
  - rewrite Nat.odd_succ, <- Nat.negb_odd. destruct (Nat.odd _); reflexivity.
  - destruct (Nat.odd _); reflexivity.
Qed.
(** One element counted differently. *)
Lemma parity_change : forall f g x l, NoDup l -> In x l -> (forall y, In y l -> y <> x -> f y = g y) ->
  xorb (parity f l) (f x) = xorb (parity g l) (g x).
Proof.
  intros f g x l. induction l as [|y l IH]; intros N I H; [contradiction|]. apply NoDup_cons_iff in N. destruct N as (Ny & N).
  cbn. destruct I as [->|I].
  - rewrite (parity_ext f g l); [destruct (f x), (g x), (parity g l); reflexivity|].
    intros z Hz. apply H; [right; exact Hz|]. intros ->. exact (Ny Hz).
  - assert (Hy : y <> x) by (intros ->; exact (Ny I)). rewrite (H y (or_introl eq_refl) Hy).
    assert (K : xorb (parity f l) (f x) = xorb (parity g l) (g x)) by (apply IH; [exact N|exact I|intros z Hz; apply H; right; exact Hz]).
    destruct (g y), (parity f l), (f x), (parity g l), (g x); try reflexivity; discriminate K.
Qed.
Lemma parity_incl : forall f l r, NoDup l -> NoDup r -> (forall x, In x l -> In x r) -> (forall x, In x r -> ~ In x l -> f x = false) ->
  parity f l = parity f r.
Proof.
  intros f l. induction l as [|x l IH]; intros r Nl Nr H J.
  - symmetry. apply parity_none. intros x Hx. apply J; [exact Hx|intros []].
  - apply NoDup_cons_iff in Nl. destruct Nl as (Nx & Nl).
    destruct (in_split x r (H x (or_introl eq_refl))) as (r1 & r2 & ->).
    rewrite (parity_perm f (r1 ++ x :: r2) (x :: r1 ++ r2)) by (symmetry; apply Permutation_middle). cbn. f_equal.
    apply NoDup_remove in Nr. destruct Nr as (Nr & Nx'). apply IH; [exact Nl|exact Nr| |].
    + intros y Hy. assert (K : In y (r1 ++ x :: r2)) by (apply H; right; exact Hy). apply in_app_iff in K. apply in_app_iff.
      destruct K as [K|[->|K]]; [left; exact K|exfalso; exact (Nx Hy)|right; exact K].
    + intros y Hy Ny. apply J.
      * apply in_app_iff in Hy. apply in_app_iff. destruct Hy as [Hy|Hy]; [left; exact Hy|right; right; exact Hy].
      * intros [->|K]; [exact (Nx' Hy)|exact (Ny K)].
Qed.
End Parity.
Lemma parity_map : forall (A B : Type) (h : B -> A) f l, parity f (map h l) = parity (fun x => f (h x)) l.
Proof. intros A B h f l. induction l as [|x l IH]; [reflexivity|]. cbn. rewrite IH. reflexivity. Qed.
Lemma parity_flat : forall (A B : Type) (h : B -> list A) f l, parity f (flat_map h l) = parity (fun x => parity f (h x)) l.
Proof. intros A B h f l. induction l as [|x l IH]; [reflexivity|]. cbn. rewrite parity_app, IH. reflexivity. Qed.

(** Values occurring in pairs. *)
Lemma parity_pairs : forall (f : Qc -> bool) n l, (length l <= n)%nat -> (forall t, parity (Qc_eqb t) l = false) -> parity f l = false.
Proof.
  intros f. induction n as [|n IH]; intros l Hn H; [destruct l; [reflexivity|cbn in Hn; lia]|].
  destruct l as [|t l]; [reflexivity|].
  assert (E : forall m, parity f m = xorb (parity f (filter (Qc_eqb t) m)) (parity f (filter (fun u => negb (Qc_eqb t u)) m))).
  { intro m. rewrite !parity_filter, <- parity_xor. apply parity_ext. intros u _. destruct (Qc_eqb t u), (f u); reflexivity. }
  assert (E1 : forall m, parity f (filter (Qc_eqb t) m) = f t && parity (Qc_eqb t) m).
  { intro m. rewrite parity_filter. induction m as [|u m IHm]; [destruct (f t); reflexivity|]. cbn. rewrite IHm.
    destruct (Qc_eqb_spec t u) as [->|K]; [destruct (f u), (parity (Qc_eqb u) m); reflexivity|destruct (f t), (parity (Qc_eqb t) m); reflexivity]. }
  rewrite E, E1, H, Bool.andb_false_r. rewrite (IH (filter (fun u => negb (Qc_eqb t u)) (t :: l))); [reflexivity| |].
  - cbn. rewrite (Qc_eqb_same t). cbn. cbn in Hn. clear - Hn. assert (K : forall m, (length (filter (fun u => negb (Qc_eqb t u)) m) <= length m)%nat).
    { intro m. induction m as [|u m IHm]; [cbn; lia|]. cbn. destruct (Qc_eqb t u); cbn; lia. }
    specialize (K l). lia.
  - intro u. rewrite parity_filter. destruct (Qc_eqb_spec u t) as [->|K].
    + apply parity_none. intros w _. destruct (Qc_eqb t w); reflexivity.
    + rewrite <- (H u). apply parity_ext. intros w _. destruct (Qc_eqb_spec u w) as [<-|J]; [|apply Bool.andb_false_r].
      destruct (Qc_eqb_spec t u) as [->|J]; [contradiction|reflexivity].
Qed.

(** ** Pieces under a line *)
(** The germ of [k] to the right of [t] is below that of [z]; a collinear one is below when [c]. *)
Definition germ (c : bool) (k z : piece) (t : Qc) : bool :=
  Qc_ltb (ht k t) (ht z t)
  || (Qc_eqb (ht k t) (ht z t) && (Qc_ltb (sl k) (sl z) || (c && Qc_eqb (sl k) (sl z)))).
Definition covers (k : piece) (t : Qc) : bool := Qc_leb (lo k) t && Qc_ltb t (hi k).
Definition undermost (c : bool) (z : piece) (t : Qc) (k : piece) : bool := covers k t && germ c k z t.

Lemma covers_spec : forall k t, covers k t = true <-> lo k <= t /\ t < hi k.
Proof.
  intros k t. unfold covers. rewrite Bool.andb_true_iff. destruct (Qc_leb_spec (lo k) t), (Qc_ltb_spec t (hi k)); split; intros (H1 & H2); try discriminate; split; auto; qlra.
Qed.
Lemma germ_spec : forall c k z t, germ c k z t = true <->
  ht k t < ht z t \/ (ht k t = ht z t /\ (sl k < sl z \/ (c = true /\ sl k = sl z))).
Proof.
  intros c k z t. unfold germ. rewrite Bool.orb_true_iff, Bool.andb_true_iff, Bool.orb_true_iff, Bool.andb_true_iff.
  destruct (Qc_ltb_spec (ht k t) (ht z t)), (Qc_eqb_spec (ht k t) (ht z t)), (Qc_ltb_spec (sl k) (sl z)), (Qc_eqb_spec (sl k) (sl z)); intuition congruence.
Qed.

Lemma germ_apart : forall c k z t, ht k t <> ht z t -> germ c k z t = Qc_ltb (ht k t) (ht z t).
Proof. intros c k z t H. unfold germ. destruct (Qc_eqb_spec (ht k t) (ht z t)) as [K|K]; [contradiction|]. apply Bool.orb_false_r. Qed.
Lemma germ_ahead : forall c k z u w, u < w -> (forall t, u < t -> t <= w -> ht k t <> ht z t) ->
  germ c k z u = Qc_ltb (ht k w) (ht z w).
Proof.
  intros c k z u w Huw H. destruct (Qc_lt_total (ht k u) (ht z u)) as [J|[J|J]].
  - rewrite germ_apart by (intro; qlra). destruct (Qc_ltb_spec (ht k u) (ht z u)) as [K|K]; [|contradiction].
    destruct (Qc_ltb_spec (ht k w) (ht z w)) as [L|L]; [reflexivity|]. exfalso.
    assert (Hw : ht k w <> ht z w) by (apply H; [exact Huw|apply Qcle_refl]).
    assert (L' : ht z w < ht k w) by (destruct (Qc_lt_total (ht k w) (ht z w)) as [M|[M|M]]; [contradiction|contradiction|exact M]).
    destruct (ht_root k z u w Huw J L') as (r & R1 & R2 & R3). apply (H r R1); [qlra|exact R3].
  - unfold germ. destruct (Qc_ltb_spec (ht k u) (ht z u)) as [K|_]; [exfalso; qlra|]. destruct (Qc_eqb_spec (ht k u) (ht z u)) as [_|K]; [|contradiction].
    cbn [orb andb]. destruct (Qc_lt_total (sl k) (sl z)) as [S|[S|S]].
    + pose proof (ht_after k z u w J S Huw) as L. destruct (Qc_ltb_spec (sl k) (sl z)) as [_|K]; [|contradiction].
      destruct (Qc_ltb_spec (ht k w) (ht z w)) as [_|K]; [reflexivity|contradiction].
    + exfalso. apply (H w Huw (Qcle_refl w)). apply coll_ht. apply (ht_slopes k z u J S).
    + pose proof (ht_after z k u w (eq_sym J) S Huw) as L. destruct (Qc_ltb_spec (sl k) (sl z)) as [K|_]; [exfalso; qlra|].
      destruct (Qc_eqb_spec (sl k) (sl z)) as [K|_]; [exfalso; qlra|]. rewrite Bool.andb_false_r.
      destruct (Qc_ltb_spec (ht k w) (ht z w)) as [K|_]; [exfalso; qlra|reflexivity].
  - rewrite germ_apart by (intro; qlra). destruct (Qc_ltb_spec (ht k u) (ht z u)) as [K|_]; [exfalso; qlra|].
    destruct (Qc_ltb_spec (ht k w) (ht z w)) as [L|L]; [|reflexivity]. exfalso.
    destruct (ht_root z k u w Huw J L) as (r & R1 & R2 & R3). apply (H r R1); [qlra|symmetry; exact R3].
Qed.

Lemma covers_not : forall k t, t < lo k \/ hi k <= t -> covers k t = false.
Proof. intros k t H. destruct (covers k t) eqn:E; [|reflexivity]. apply covers_spec in E. exfalso. destruct H; qlra. Qed.
Lemma covers_yes : forall k t, lo k <= t -> t < hi k -> covers k t = true.
Proof. intros k t H J. apply covers_spec. split; assumption. Qed.
Lemma ltb_true : forall a b, a < b -> Qc_ltb a b = true.
Proof. intros a b H. destruct (Qc_ltb_spec a b); [reflexivity|contradiction]. Qed.
Lemma ltb_false : forall a b, b <= a -> Qc_ltb a b = false.
Proof. intros a b H. destruct (Qc_ltb_spec a b); [exfalso; qlra|reflexivity]. Qed.

(** ** Constancy along a line *)
Section Along.
Variables (V : Qc -> Qc) (c : bool) (z : piece) (t1 t2 : Qc).
Hypothesis Ht : t1 <= t2.
(** [k] ends at the relevant points, and is met by the line neither inside nor at its end. *)
Definition avoided (k : piece) : Prop :=
  lo k < hi k /\ ht k (lo k) = V (lo k) /\ ht k (hi k) = V (hi k)
  /\ forall t, t1 < t -> t <= t2 -> has k t -> ht k t = ht z t ->
       (lo k = t /\ sl z < sl k) \/ (coll k z /\ lo k <= t1 /\ t2 < hi k).
Definition under_end (t : Qc) : bool := Qc_ltb t1 t && Qc_leb t t2 && Qc_ltb (V t) (ht z t).

Lemma under_end_out : forall t, t <= t1 \/ t2 < t -> under_end t = false.
Proof.
  intros t H. unfold under_end. destruct (Qc_ltb_spec t1 t), (Qc_leb_spec t t2); try reflexivity. exfalso. destruct H; qlra.
Qed.
Lemma under_end_in : forall t, t1 < t -> t <= t2 -> under_end t = Qc_ltb (V t) (ht z t).
Proof. intros t H J. unfold under_end. destruct (Qc_ltb_spec t1 t); [|contradiction]. destruct (Qc_leb_spec t t2); [reflexivity|contradiction]. Qed.
Lemma along_one : forall k, avoided k ->
  xorb (undermost c z t2 k) (undermost c z t1 k) = xorb (under_end (lo k)) (under_end (hi k)).
Proof.
  intros k (Hk & Vl & Vh & X). unfold undermost.
  destruct (Qclt_le_dec t1 (hi k)) as [Hb|Hb].
  2:{ rewrite (covers_not k t1), (covers_not k t2), (under_end_out (lo k)), (under_end_out (hi k)); [reflexivity|left|left|right|right]; qlra. }
  destruct (Qclt_le_dec t2 (lo k)) as [Ha|Ha].
  { rewrite (covers_not k t1), (covers_not k t2), (under_end_out (lo k)), (under_end_out (hi k)); [reflexivity|right|right|left|left]; qlra. }
  destruct (Qclt_le_dec t1 (lo k)) as [Ha'|Ha'].
  - (* starts after t1 *)
    rewrite (covers_not k t1) by (left; exact Ha'). cbn [andb]. rewrite (under_end_in (lo k) Ha' Ha), <- Vl.
    assert (X' : forall t, lo k < t -> t <= t2 -> t <= hi k -> ht k t <> ht z t).
    { intros t J1 J2 J3 K. destruct (X t) as [(K1 & _)|(_ & K1 & _)]; [qlra|exact J2|split; qlra|exact K|qlra|qlra]. }
    assert (S0 : ht k (lo k) = ht z (lo k) -> sl z < sl k).
    { intro K. destruct (X (lo k) Ha' Ha) as [(_ & K1)|(_ & K1 & _)]; [split; qlra|exact K|exact K1|qlra]. }
    assert (G : germ c k z (lo k) = Qc_ltb (ht k (lo k)) (ht z (lo k))).
    { destruct (Qc_eq_dec (ht k (lo k)) (ht z (lo k))) as [K|K]; [|apply germ_apart; exact K].
      specialize (S0 K). rewrite ltb_false by (rewrite K; apply Qcle_refl). unfold germ. rewrite (ltb_false (ht k (lo k))) by (rewrite K; apply Qcle_refl).
      rewrite (ltb_false (sl k)) by qlra. destruct (Qc_eqb_spec (sl k) (sl z)) as [L|L]; [exfalso; qlra|]. cbn. rewrite !Bool.andb_false_r. reflexivity. }
    destruct (Qclt_le_dec t2 (hi k)) as [Hb'|Hb'].
    + rewrite (covers_yes k t2 Ha Hb'), (under_end_out (hi k)) by (right; exact Hb'). cbn [andb]. rewrite !xorb_false_r, <- G.
      destruct (Qcle_lt_or_eq _ _ Ha) as [J|J]; [|rewrite J; reflexivity].
      rewrite (germ_ahead c k z (lo k) t2 J).
      * apply germ_apart. apply X'; [exact J|apply Qcle_refl|qlra].
      * intros t J1 J2. apply X'; [exact J1|exact J2|qlra].
    + rewrite (covers_not k t2) by (right; exact Hb'). rewrite (under_end_in (hi k) Hb Hb'), <- Vh. cbn [andb xorb].
      rewrite <- G. rewrite (germ_ahead c k z (lo k) (hi k) Hk).
      * symmetry; apply xorb_nilpotent.
      * intros t J1 J2. apply X'; [exact J1|qlra|exact J2].
  - (* covers t1 *)
    rewrite (covers_yes k t1 Ha' Hb), (under_end_out (lo k)) by (left; exact Ha'). cbn [andb].
    destruct (Qclt_le_dec t2 (hi k)) as [Hb'|Hb'].
    + rewrite (covers_yes k t2 Ha Hb'), (under_end_out (hi k)) by (right; exact Hb'). cbn [andb xorb].
      destruct (Qcle_lt_or_eq _ _ Ht) as [J|J]; [|rewrite J; destruct (germ c k z t2); reflexivity].
      destruct (coll_dec k z) as [C|C].
      * assert (E : germ c k z t2 = germ c k z t1); [|rewrite E; destruct (germ c k z t1); reflexivity].
        unfold germ. rewrite !(coll_ht k z _ C). rewrite (ltb_false (ht z t2)) by apply Qcle_refl. rewrite (ltb_false (ht z t1)) by apply Qcle_refl.
        rewrite !Qc_eqb_same. reflexivity.
      * assert (X' : forall t, t1 < t -> t <= t2 -> ht k t <> ht z t).
        { intros t J1 J2 K. destruct (X t J1 J2) as [(K1 & _)|(K1 & _)]; [split; qlra|exact K|qlra|contradiction]. }
        rewrite (germ_ahead c k z t1 t2 J X'). rewrite (germ_apart c k z t2) by (apply X'; [exact J|apply Qcle_refl]).
        destruct (Qc_ltb _ _); reflexivity.
    + rewrite (covers_not k t2) by (right; exact Hb'). rewrite (under_end_in (hi k) Hb Hb'), <- Vh. cbn [andb xorb].
      assert (X' : forall t, t1 < t -> t <= hi k -> ht k t <> ht z t).
      { intros t J1 J2 K. destruct (X t J1) as [(K1 & _)|(_ & _ & K1)]; [qlra|split; qlra|exact K|qlra|qlra]. }
      rewrite (germ_ahead c k z t1 (hi k) Hb X'). destruct (Qc_ltb _ _); reflexivity.
Qed.

Lemma along : forall l, (forall k, In k l -> avoided k) ->
  (forall t, parity (fun k => xorb (Qc_eqb t (lo k)) (Qc_eqb t (hi k))) l = false) ->
  parity (undermost c z t2) l = parity (undermost c z t1) l.
Proof.
  intros l H E.
  assert (K : parity (fun k => xorb (undermost c z t2 k) (undermost c z t1 k)) l = false).
  { rewrite (parity_ext _ (fun k => parity under_end [lo k; hi k])).
    - rewrite <- (parity_flat _ _ (fun k => [lo k; hi k])).
      apply (parity_pairs under_end (length (flat_map (fun k => [lo k; hi k]) l))); [apply Nat.le_refl|].
      intro t. rewrite parity_flat. rewrite <- (E t). apply parity_ext. intros k _. cbn. destruct (Qc_eqb t (lo k)), (Qc_eqb t (hi k)); reflexivity.
    - intros k Hk. rewrite (along_one k (H k Hk)). cbn. destruct (under_end (lo k)), (under_end (hi k)); reflexivity. }
  rewrite parity_xor in K. destruct (parity (undermost c z t2) l), (parity (undermost c z t1) l); try reflexivity; discriminate K.
Qed.
End Along.

(** ** Pieces of a view *)
Definition cnt (v : view) (b c : bool) (z : piece) (t : Qc) : bool :=
  parity (fun i => Bool.eqb (op (vp v i)) b && undermost c z t (vp v i)) (seq 0 (vn v)).
Definition ends (v : view) (b : bool) (t : Qc) : bool :=
  parity (fun i => Bool.eqb (op (vp v i)) b && xorb (Qc_eqb t (lo (vp v i))) (Qc_eqb t (hi (vp v i)))) (seq 0 (vn v)).
Definition static (v0 v : view) : Prop :=
  (forall b c z t, cnt v b c z t = cnt v0 b c z t) /\ (forall b t, ends v b t = ends v0 b t).

Lemma parity_split : forall (g : piece -> bool) v x q v', (x < vn v)%nat -> cut v x q v' ->
  g (vp v x) = xorb (g (vp v' x)) (g (vp v' (vn v))) ->
  parity (fun i => g (vp v' i)) (seq 0 (vn v')) = parity (fun i => g (vp v i)) (seq 0 (vn v)).
Proof.
  intros g v x q v' Hx Hc E. rewrite (c_n _ _ _ _ Hc), seq_S, parity_app. cbn [plus parity].
  pose proof (parity_change (fun i => g (vp v' i)) (fun i => g (vp v i)) x (seq 0 (vn v)) (seq_NoDup _ _)) as K.
  cbv beta in K. rewrite E in K.
  assert (K' : xorb (parity (fun i => g (vp v' i)) (seq 0 (vn v))) (g (vp v' x))
               = xorb (parity (fun i => g (vp v i)) (seq 0 (vn v))) (xorb (g (vp v' x)) (g (vp v' (vn v))))).
  { apply K; [apply in_seq; lia|]. intros y Hy Hn. apply in_seq in Hy. rewrite (c_same _ _ _ _ Hc y); [reflexivity|lia|exact Hn]. }
  destruct (parity (fun i => g (vp v' i)) (seq 0 (vn v))), (g (vp v' x)), (g (vp v' (vn v))), (parity (fun i => g (vp v i)) (seq 0 (vn v)));
    try reflexivity; discriminate K'.
Qed.
Lemma cut_static : forall v x q v', (x < vn v)%nat -> inner (vp v x) q -> cut v x q v' -> static v v'.
Proof.
  intros v x q v' Hx (Hi1 & Hi2) Hc. split.
  - intros b c z t. unfold cnt. apply (parity_split (fun k => Bool.eqb (op k) b && undermost c z t k) v x q v' Hx Hc).
    rewrite (c_head _ _ _ _ Hc), (c_tail _ _ _ _ Hc). cbn [op set_hi set_lo]. destruct (Bool.eqb _ _); [|reflexivity]. cbn [andb].
    unfold undermost, covers, germ, ht. cbn [lo hi sl ic set_hi set_lo].
    destruct (Qc_leb_spec (lo (vp v x)) t), (Qc_ltb_spec t (hi (vp v x))), (Qc_ltb_spec t q), (Qc_leb_spec q t); cbn [andb];
      try (exfalso; qlra); try reflexivity; destruct (_ || _); reflexivity.
  - intros b t. unfold ends. apply (parity_split (fun k => Bool.eqb (op k) b && xorb (Qc_eqb t (lo k)) (Qc_eqb t (hi k))) v x q v' Hx Hc).
    rewrite (c_head _ _ _ _ Hc), (c_tail _ _ _ _ Hc). cbn [op set_hi set_lo lo hi]. destruct (Bool.eqb _ _); [|reflexivity].
    destruct (Qc_eqb t (lo (vp v x))), (Qc_eqb t q), (Qc_eqb t (hi (vp v x))); reflexivity.
Qed.
Lemma static_refl : forall v, static v v.
Proof. split; reflexivity. Qed.
Lemma static_trans : forall a b c, static a b -> static b c -> static a c.
Proof. intros a b c (H1 & H2) (J1 & J2). split; intros; [rewrite J1; apply H1|rewrite J2; apply H2]. Qed.
Lemma cuts_static : forall V Ts T X v v', cuts V Ts T X v v' -> base V Ts T v -> static v v'.
Proof.
  intros V Ts T X v v' H. induction H as [|v x q va vb Hx Hok Hc Hs IH]; intro Hb; [apply static_refl|].
  apply (static_trans _ va); [|apply IH; eapply cut_base; eassumption].
  apply (cut_static v x q va); [exact (active_lt _ _ (b_q _ _ _ _ Hb) (proj1 Hok))|apply Hok|exact Hc].
Qed.
(** Only the line of the piece matters. *)
Lemma cnt_coll : forall v b c z z' t, coll z z' -> cnt v b c z t = cnt v b c z' t.
Proof. intros v b c z z' t (E1 & E2). unfold cnt, undermost, germ, ht. rewrite E1, E2. reflexivity. Qed.
Lemma cnt_pieces : forall v b c z t, cnt v b c z t = parity (undermost c z t) (filter (fun k => Bool.eqb (op k) b) (map (vp v) (seq 0 (vn v)))).
Proof. intros. rewrite parity_filter, parity_map. reflexivity. Qed.
Lemma cnt_along : forall V v b c z t1 t2, t1 <= t2 -> (forall t, ends v b t = false) ->
  (forall i, (i < vn v)%nat -> op (vp v i) = b -> avoided V z t1 t2 (vp v i)) ->
  cnt v b c z t2 = cnt v b c z t1.
Proof.
  intros V v b c z t1 t2 Ht He Ha. rewrite !cnt_pieces. apply (along V c z t1 t2 Ht).
  - intros k Hk. apply filter_In in Hk. destruct Hk as (Hk & Eb). apply in_map_iff in Hk. destruct Hk as (i & <- & Hi).
    apply in_seq in Hi. apply Ha; [lia|apply Bool.eqb_prop; exact Eb].
  - intro t. rewrite parity_filter, parity_map. apply He.
Qed.
