(** Proofs about unpacking.py. *)
From Verif Require Import QcTac Geom Spec Pair.

Lemma unpack_segments_canonical : forall ss,
  canonical (unpack_segments ss) /\ points_of (unpack_segments ss) = []
  /\ segments_of (unpack_segments ss) = ss /\ polygons_of (unpack_segments ss) = [].
Proof. intros [|a [|b l]]; cbn; repeat split; auto. right. left. lia. Qed.

Lemma unpack_points_canonical : forall ps,
  canonical (unpack_points ps) /\ points_of (unpack_points ps) = ps
  /\ segments_of (unpack_points ps) = [] /\ polygons_of (unpack_points ps) = [].
Proof. intros [|a l]; cbn; repeat split; auto. left. discriminate. Qed.

Lemma unpack_polygons_canonical : forall ps,
  canonical (unpack_polygons ps) /\ points_of (unpack_polygons ps) = []
  /\ segments_of (unpack_polygons ps) = [] /\ polygons_of (unpack_polygons ps) = ps.
Proof. intros [|a [|b l]]; cbn; repeat split; auto. right. right. lia. Qed.

Lemma unpack_regions_canonical : forall rs,
  canonical (unpack_regions rs) /\ points_of (unpack_regions rs) = []
  /\ segments_of (unpack_regions rs) = [] /\ polygons_of (unpack_regions rs) = map (fun r => Polygon r []) rs.
Proof. intros [|a [|b l]]; cbn; repeat split; auto. right. right. lia. Qed.

Lemma unpack_linear_mix_canonical : forall ps ss,
  let g := unpack_linear_mix (unpack_points ps) (unpack_segments ss) in
  canonical g /\ points_of g = ps /\ segments_of g = ss /\ polygons_of g = [].
Proof.
  intros [|p ps] [|a [|b l]]; cbn; rewrite ?app_nil_r; repeat split; auto;
    try (left; repeat split; try discriminate; lia); try (right; left; lia); try discriminate.
Qed.

Lemma unpack_mix_canonical : forall ps ss gs,
  let g := unpack_mix (unpack_points ps) (unpack_segments ss) (unpack_polygons gs) in
  canonical g /\ points_of g = ps /\ segments_of g = ss /\ polygons_of g = gs.
Proof.
  intros [|p ps] [|a [|b l]] [|c [|d m]]; cbn; rewrite ?app_nil_r; (split; [|auto]); auto 10;
    try (left; repeat split; try discriminate; lia);
    try (right; left; repeat split; try discriminate; lia);
    try (right; right; left; repeat split; try discriminate; lia);
    try (right; right; right; repeat split; try discriminate; lia);
    try (right; right; lia).
Qed.

(** Regions become polygons without holes. *)
Lemma unpack_regions_polygons : forall rs, unpack_regions rs = unpack_polygons (map (fun r => Polygon r []) rs).
Proof. intros [|a [|b l]]; reflexivity. Qed.

(** The canonical form is determined by the components. *)
Lemma discrete_parts : forall g, discrete_canonical g -> g = GMultipoint (points_of g) /\ segments_of g = [] /\ polygons_of g = [] /\ points_of g <> [].
Proof. intros []; cbn; try contradiction. auto. Qed.
Lemma linear_parts : forall g, linear_canonical g -> g = unpack_segments (segments_of g) /\ points_of g = [] /\ polygons_of g = [] /\ segments_of g <> [].
Proof.
  intros []; cbn; try contradiction.
  - intros _. repeat split; auto. discriminate.
  - destruct ss as [|a [|b l]]; cbn; intro; try lia. repeat split; auto. discriminate.
Qed.
Lemma shaped_parts : forall g, shaped_canonical g -> g = unpack_polygons (polygons_of g) /\ points_of g = [] /\ segments_of g = [] /\ polygons_of g <> [].
Proof.
  intros []; cbn; try contradiction.
  - intros _. repeat split; auto. discriminate.
  - destruct ps as [|a [|b l]]; cbn; intro; try lia. repeat split; auto. discriminate.
Qed.

Lemma canonical_form : forall g, canonical g ->
  g = unpack_mix (unpack_points (points_of g)) (unpack_segments (segments_of g)) (unpack_polygons (polygons_of g)).
Proof.
  assert (X : forall l : list point, l <> [] -> unpack_points l = GMultipoint l) by (intros [|]; [congruence|reflexivity]).
  assert (Y : forall l, l <> [] -> is_empty (unpack_segments l) = false) by (intros [|? [|]]; [congruence|reflexivity|reflexivity]).
  assert (Z : forall l, l <> [] -> is_empty (unpack_polygons l) = false) by (intros [|? [|]]; [congruence|reflexivity|reflexivity]).
  assert (D : forall g, discrete_canonical g -> g = unpack_mix (unpack_points (points_of g)) (unpack_segments (segments_of g)) (unpack_polygons (polygons_of g))).
  { intros g H. destruct (discrete_parts g H) as (E & -> & -> & N). rewrite X by exact N. unfold unpack_mix. cbn. exact E. }
  assert (L : forall g, linear_canonical g -> g = unpack_mix (unpack_points (points_of g)) (unpack_segments (segments_of g)) (unpack_polygons (polygons_of g))).
  { intros g H. destruct (linear_parts g H) as (E & -> & -> & N). unfold unpack_mix. cbn [unpack_points unpack_polygons is_empty]. rewrite (Y _ N). exact E. }
  assert (S : forall g, shaped_canonical g -> g = unpack_mix (unpack_points (points_of g)) (unpack_segments (segments_of g)) (unpack_polygons (polygons_of g))).
  { intros g H. destruct (shaped_parts g H) as (E & -> & -> & N). unfold unpack_mix. cbn [unpack_points unpack_segments is_empty]. exact E. }
  intros g H. destruct g as [|ps|s|ss|p|ps|d l s]; try (destruct H as [H|[H|H]]; auto; fail).
  - reflexivity.
  - destruct H as [(A & B & ->)|[(A & -> & C)|[(-> & B & C)|(A & B & C)]]];
      cbn [points_of segments_of polygons_of];
      try (destruct (discrete_parts d A) as (E1 & -> & -> & N1));
      try (destruct (linear_parts l B) as (E2 & -> & -> & N2));
      try (destruct (shaped_parts s C) as (E3 & -> & -> & N3));
      cbn [points_of segments_of polygons_of app]; rewrite ?app_nil_r; cbn [unpack_points unpack_segments unpack_polygons];
      rewrite ?X by assumption; unfold unpack_mix; rewrite ?Y, ?Z by assumption; cbn [is_empty andb]; congruence.
Qed.

Lemma canonical_unique : forall g g', canonical g -> canonical g' ->
  points_of g = points_of g' -> segments_of g = segments_of g' -> polygons_of g = polygons_of g' -> g = g'.
Proof.
  intros g g' H H' E1 E2 E3. rewrite (canonical_form g H), (canonical_form g' H'), E1, E2, E3. reflexivity.
Qed.
