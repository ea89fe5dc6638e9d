(** Oriented edges of contours. *)
From Coq Require Import Permutation.
From Verif Require Import QcTac Geom Spec GeomFacts Relation Sweep SpecShape Contour ShrinkThms TraceThms RegionThms.

Fixpoint links (x : point) (l : list point) : list segment :=
  match l with [] => [] | y :: r => Seg x y :: links y r end.
Lemma links_nth : forall l x i, (i < length l)%nat ->
  nth_error (links x l) i = Some (Seg (nth i (x :: l) (Pt 0 0)) (nth i l (Pt 0 0))).
Proof.
  induction l as [|y l IH]; intros x i Hi; cbn in Hi; [lia|]. destruct i as [|i]; [reflexivity|].
  cbn [links nth_error]. rewrite IH by lia. reflexivity.
Qed.
Lemma links_length : forall l x, length (links x l) = length l.
Proof. induction l as [|y l IH]; intro x; cbn; [reflexivity|]. rewrite IH. reflexivity. Qed.
Lemma links_app : forall l x y r, links x (l ++ y :: r) = links x l ++ Seg (last l x) y :: links y r.
Proof.
  induction l as [|z l IH]; intros x y r; [reflexivity|]. cbn [app links]. rewrite IH.
  rewrite last_cons. reflexivity.
Qed.
Lemma list_eq : forall A (l r : list A), length l = length r ->
  (forall i, (i < length l)%nat -> nth_error l i = nth_error r i) -> l = r.
Proof.
  intros A l. induction l as [|x l IH]; intros [|y r] E H; try discriminate; [reflexivity|].
  specialize (H O) as H0. cbn in H0. injection (H0 ltac:(lia)) as <-. f_equal. apply IH; [cbn in E; lia|].
  intros i Hi. apply (H (S i)). cbn. lia.
Qed.
Lemma last_nth : forall A (l : list A) d, last l d = nth (length l - 1) l d.
Proof.
  intros A l d. induction l as [|x l IH]; [reflexivity|]. cbn [length]. replace (S (length l) - 1)%nat with (length l) by lia.
  destruct l as [|y l]; [reflexivity|]. change (last (x :: y :: l) d) with (last (y :: l) d). rewrite IH. cbn [length].
  replace (S (length l) - 1)%nat with (length l) by lia. reflexivity.
Qed.
Lemma contour_links : forall x l, contour_edges (x :: l) = Seg (last l x) x :: links x l.
Proof.
  intros x l. apply list_eq; [rewrite contour_edges_length; cbn; rewrite links_length; reflexivity|].
  intros i Hi. rewrite contour_edges_length in Hi. rewrite contour_edges_nth by exact Hi.
  unfold edge_at, vertex. destruct i as [|i].
  - cbn [before nth_error nth]. f_equal. f_equal. rewrite <- (last_cons _ l x (Pt 0 0)). symmetry. apply last_nth.
  - cbn [length] in Hi. cbn [before nth_error]. rewrite links_nth by lia. reflexivity.
Qed.
Lemma rotate_one : forall x l, Permutation (contour_edges (x :: l)) (contour_edges (l ++ [x])).
Proof.
  intros x [|y r]; [reflexivity|]. cbn [app]. rewrite !contour_links. rewrite links_app. cbn [links].
  rewrite last_cons.
  assert (E : last (r ++ [x]) y = x) by (rewrite last_last; reflexivity). rewrite E.
  rewrite perm_swap. apply perm_skip. apply Permutation_cons_append.
Qed.
Lemma rotate_edges : forall a b, Permutation (contour_edges (a ++ b)) (contour_edges (b ++ a)).
Proof.
  induction a as [|x a IH]; intro b; [rewrite app_nil_r; reflexivity|].
  cbn [app]. rewrite rotate_one. rewrite <- app_assoc. rewrite IH. rewrite <- app_assoc. reflexivity.
Qed.
Lemma links_rev : forall l x, l <> [] ->
  exists y r, rev l ++ [x] = y :: r /\ links y r = rev (map reversed (links x l)).
Proof.
  induction l as [|y l IH]; intros x N; [contradiction|]. destruct l as [|z l].
  - exists y, [x]. split; reflexivity.
  - destruct (IH y ltac:(discriminate)) as (a & r & E & L). exists a, (r ++ [x]). split.
    + cbn [rev] in *. rewrite E. reflexivity.
    + rewrite links_app. rewrite L. cbn [links map rev].
      assert (La : last r a = y).
      { rewrite <- (last_cons _ r a a). rewrite <- E. apply last_last. }
      rewrite La. cbn [links rev map]. reflexivity.
Qed.
Lemma reverse_edges : forall l, Permutation (contour_edges (rev l)) (map reversed (contour_edges l)).
Proof.
  intros [|x l]; [reflexivity|]. destruct l as [|y l]; [reflexivity|].
  destruct (links_rev (y :: l) x ltac:(discriminate)) as (a & r & E & L).
  change (rev (x :: y :: l)) with (rev (y :: l) ++ [x]). rewrite E, !contour_links, L. cbn [map reversed s_start s_end].
  assert (La : last r a = x) by (rewrite <- (last_cons _ r a a), <- E; apply last_last).
  assert (Ha : a = last (y :: l) x).
  { destruct (rev (y :: l)) as [|b m] eqn:Er.
    - apply (f_equal (@length _)) in Er. rewrite rev_length in Er. discriminate.
    - cbn in E. injection E as -> _. apply (f_equal (@rev _)) in Er. rewrite rev_involutive in Er.
      rewrite Er. cbn [rev]. rewrite last_last. reflexivity. }
  rewrite La, <- Ha. unfold reversed at 1. cbn [s_start s_end]. apply perm_skip. symmetry. apply Permutation_rev.
Qed.

Definition forward (vs : list point) (clockwise : bool) : bool :=
  orientation_eqb (contour_orientation vs) (if clockwise then CLOCKWISE else COUNTERCLOCKWISE).
Lemma oriented_edges_eq : forall vs cw, contour_oriented_edges vs cw
  = if forward vs cw then contour_edges vs else rev (map reversed (contour_edges vs)).
Proof.
  intros vs cw. unfold contour_oriented_edges, forward. destruct (orientation_eqb _ _); [reflexivity|].
  unfold contour_edges. rewrite map_map, <- map_rev. apply map_ext. intro i. reflexivity.
Qed.

Lemma vertex_inj : forall vs i j, NoDup vs -> (i < length vs)%nat -> (j < length vs)%nat -> vertex vs i = vertex vs j -> i = j.
Proof. intros vs i j N Hi Hj E. apply (proj1 (NoDup_nth vs (Pt 0 0)) N i j Hi Hj E). Qed.
Lemma in_contour_edges : forall vs u v, In (Seg u v) (contour_edges vs) <->
  exists i, (i < length vs)%nat /\ u = vertex vs (before (length vs) i) /\ v = vertex vs i.
Proof.
  intros vs u v. unfold contour_edges. rewrite in_map_iff. split.
  - intros (i & E & I). apply in_seq in I. injection E as <- <-. exists i. split; [lia|]. split; reflexivity.
  - intros (i & Hi & -> & ->). exists i. split; [reflexivity|]. apply in_seq. lia.
Qed.
Lemma edge_unique_end : forall vs u u' v, NoDup vs -> In (Seg u v) (contour_edges vs) -> In (Seg u' v) (contour_edges vs) -> u = u'.
Proof.
  intros vs u u' v N A B. apply in_contour_edges in A, B. destruct A as (i & Hi & -> & E). destruct B as (j & Hj & -> & E').
  assert (i = j) by (apply (vertex_inj vs); congruence). subst. reflexivity.
Qed.
Lemma edge_unique_start : forall vs v w w', NoDup vs -> In (Seg v w) (contour_edges vs) -> In (Seg v w') (contour_edges vs) -> w = w'.
Proof.
  intros vs v w w' N A B. apply in_contour_edges in A, B. destruct A as (i & Hi & E & ->). destruct B as (j & Hj & E' & ->).
  assert (X : before (length vs) i = before (length vs) j) by (apply (vertex_inj vs); try apply before_lt; congruence).
  f_equal. rewrite <- (after_before _ i Hi), X. apply after_before, Hj.
Qed.

Lemma least_index_spec : forall vs l i best p, (best < length vs)%nat -> p = vertex vs best ->
  (forall j, (j < length l)%nat -> nth j l (Pt 0 0) = vertex vs (i + j)) -> (i + length l <= length vs)%nat ->
  let r := least_index best p i l in
  (r < length vs)%nat /\ ~ plt p (vertex vs r) /\ forall q, In q l -> ~ plt q (vertex vs r).
Proof.
  intros vs l. induction l as [|q l IH]; intros i best p Hb Hp Hl Hi; cbn [least_index].
  - split; [exact Hb|]. rewrite Hp. split; [apply plt_irrefl|]. intros q [].
  - assert (Eq : q = vertex vs i) by (specialize (Hl O); cbn in Hl; rewrite Hl by lia; f_equal; lia).
    assert (Hl' : forall j, (j < length l)%nat -> nth j l (Pt 0 0) = vertex vs (S i + j)).
    { intros j Hj. specialize (Hl (S j)). cbn in Hl. rewrite Hl by lia. f_equal. lia. }
    cbn in Hi. destruct (pt_ltb_spec q p) as [L|L].
    + destruct (IH (S i) i q ltac:(lia) Eq Hl' ltac:(lia)) as (A & B & C). split; [exact A|]. split.
      * intro X. apply B. exact (plt_trans _ _ _ L X).
      * intros z [<-|Hz]; [exact B|exact (C z Hz)].
    + destruct (IH (S i) best p Hb Hp Hl' ltac:(lia)) as (A & B & C). split; [exact A|]. split; [exact B|].
      intros z [<-|Hz]; [|exact (C z Hz)]. intro X.
      destruct (plt_total q p) as [Y|[Y|Y]]; [contradiction|rewrite Y in X; contradiction|]. apply B. exact (plt_trans _ _ _ Y X).
Qed.
Lemma orientation_at_least : forall vs, vs <> [] -> exists i, least vs i /\
  contour_orientation vs = orient (vertex vs (before (length vs) i)) (vertex vs i) (vertex vs (after (length vs) i)).
Proof.
  intros vs Ne. assert (L0 : (0 < length vs)%nat) by (destruct vs; [contradiction|cbn; lia]).
  destruct (least_index_spec vs vs 0 0 (at_ vs 0) L0 eq_refl) as (A & _ & C); [intros; reflexivity|lia|].
  set (i := least_index 0 (at_ vs 0) 0 vs) in *. exists i. split.
  - split; [exact A|]. intros q Hq. destruct (plt_total (vertex vs i) q) as [X|[X|X]]; [right; exact X|left; symmetry; exact X|].
    exfalso. exact (C q Hq X).
  - unfold contour_orientation. fold i. change previous with before. f_equal. unfold at_, vertex, after. f_equal.
    destruct (Nat.eqb_spec (S i) (length vs)) as [E|E].
    + replace (i + 1)%nat with (length vs) by lia. apply Nat.mod_same. lia.
    + rewrite Nat.mod_small by lia. lia.
Qed.
(** Orientation in terms of edges. *)
Definition least_edges (es : list segment) (u v w : point) : Prop :=
  In (Seg u v) es /\ In (Seg v w) es /\
  forall e, In e es -> (s_start e = v \/ plt v (s_start e)) /\ (s_end e = v \/ plt v (s_end e)).
Lemma vertex_in : forall vs i, (i < length vs)%nat -> In (vertex vs i) vs.
Proof. intros vs i Hi. apply nth_In, Hi. Qed.
Lemma orientation_edges : forall vs, vs <> [] -> exists u v w, least_edges (contour_edges vs) u v w
  /\ contour_orientation vs = orient u v w.
Proof.
  intros vs Ne. destruct (orientation_at_least vs Ne) as (i & (Hi & Hl) & E).
  exists (vertex vs (before (length vs) i)), (vertex vs i), (vertex vs (after (length vs) i)).
  split; [|exact E]. split; [|split].
  - apply in_contour_edges. exists i. auto.
  - apply in_contour_edges. exists (after (length vs) i). rewrite before_after by exact Hi.
    split; [apply after_lt, Hi|auto].
  - intros [a b] Hab. apply in_contour_edges in Hab. destruct Hab as (j & Hj & -> & ->).
    split; apply Hl; apply vertex_in; [apply before_lt|]; exact Hj.
Qed.
Lemma least_edges_unique : forall vs u v w u' v' w', NoDup vs -> least_edges (contour_edges vs) u v w ->
  least_edges (contour_edges vs) u' v' w' -> u = u' /\ v = v' /\ w = w'.
Proof.
  intros vs u v w u' v' w' N (A & B & C) (A' & B' & C').
  assert (E : v = v').
  { destruct (C _ A') as [_ X]. destruct (C' _ A) as [_ Y]. cbn in X, Y.
    destruct X as [X|X]; [symmetry; exact X|]. destruct Y as [Y|Y]; [exact Y|].
    exfalso. apply (plt_irrefl v). exact (plt_trans _ _ _ X Y). }
  subst v'. split; [|split; [reflexivity|]].
  - apply (edge_unique_end vs u u' v N A A').
  - apply (edge_unique_start vs v w w' N B B').
Qed.
Lemma least_edges_perm : forall es es' u v w, Permutation es es' -> least_edges es u v w -> least_edges es' u v w.
Proof.
  intros es es' u v w P (A & B & C). split; [rewrite <- P; exact A|]. split; [rewrite <- P; exact B|].
  intros e He. apply C. rewrite P. exact He.
Qed.
Lemma least_edges_reversed : forall es u v w, least_edges es u v w -> least_edges (map reversed es) w v u.
Proof.
  intros es u v w (A & B & C). split; [|split].
  - apply in_map_iff. exists (Seg v w). split; [reflexivity|exact B].
  - apply in_map_iff. exists (Seg u v). split; [reflexivity|exact A].
  - intros e He. apply in_map_iff in He. destruct He as (f & <- & Hf). cbn. apply and_comm. apply C, Hf.
Qed.
Lemma reversed_reversed : forall es, map reversed (map reversed es) = es.
Proof. intro es. rewrite map_map. rewrite <- (map_id es) at 2. apply map_ext. intros [a b]. reflexivity. Qed.

Lemma orient_reverse : forall u v w, orient u v w = COLLINEAR \/ orientation_eqb (orient u v w) (orient w v u) = false.
Proof.
  intros u v w. destruct (orientP u v w) as [L|L|L]; [right|left; reflexivity|right];
    destruct (orientP w v u) as [M|M|M]; try reflexivity; rewrite cross_flip in M; exfalso; qlra.
Qed.
Lemma orient_collinear : forall u v w, orient u v w = COLLINEAR <-> cross u v w = 0.
Proof. intros u v w. rewrite <- collinear_eqb. destruct (orient u v w); cbn; split; congruence. Qed.

Theorem oriented_edges_cycle : forall vs cw, contour_oriented_edges vs cw = contour_edges vs
  \/ contour_oriented_edges vs cw = rev (map reversed (contour_edges vs)).
Proof. intros vs cw. rewrite oriented_edges_eq. destruct (forward vs cw); auto. Qed.
Lemma orientation_perm : forall vs ws, NoDup vs -> vs <> [] -> ws <> [] ->
  Permutation (contour_edges vs) (contour_edges ws) -> contour_orientation vs = contour_orientation ws.
Proof.
  intros vs ws N Nv Nw P. destruct (orientation_edges vs Nv) as (u & v & w & L & ->).
  destruct (orientation_edges ws Nw) as (u' & v' & w' & L' & ->).
  apply (least_edges_perm _ _ _ _ _ (Permutation_sym P)) in L'.
  destruct (least_edges_unique vs u v w u' v' w' N L L') as (-> & -> & ->). reflexivity.
Qed.
Theorem oriented_edges_rotation : forall a b cw, NoDup (a ++ b) ->
  Permutation (contour_oriented_edges (a ++ b) cw) (contour_oriented_edges (b ++ a) cw).
Proof.
  intros a b cw N. destruct (a ++ b) as [|x l] eqn:E.
  - apply app_eq_nil in E. destruct E as [-> ->]. reflexivity.
  - assert (P : Permutation (contour_edges (x :: l)) (contour_edges (b ++ a))) by (rewrite <- E; apply rotate_edges).
    assert (F : contour_orientation (x :: l) = contour_orientation (b ++ a)).
    { apply orientation_perm; [exact N|discriminate| |exact P].
      intro X. apply app_eq_nil in X. destruct X as [-> ->]. discriminate. }
    rewrite !oriented_edges_eq. unfold forward. rewrite F. destruct (orientation_eqb _ _); [exact P|].
    rewrite <- !Permutation_rev. apply Permutation_map, P.
Qed.
Lemma least_least : forall vs i u w, NoDup vs -> (i < length vs)%nat -> least_edges (contour_edges vs) u (vertex vs i) w -> least vs i.
Proof.
  intros vs i u w N Hi (A & B & C). split; [exact Hi|]. intros q Hq.
  apply (In_nth _ _ (Pt 0 0)) in Hq. destruct Hq as (j & Hj & <-). apply (C (edge_at vs j)).
  apply in_contour_edges. exists j. auto.
Qed.
Lemma turns_cross : forall vs u v w, NoDup vs -> turns_at_least vs -> least_edges (contour_edges vs) u v w -> cross u v w <> 0.
Proof.
  intros vs u v w N T L. pose proof L as (A & B & C). apply in_contour_edges in A. destruct A as (i & Hi & -> & ->).
  pose proof (least_least vs i _ w N Hi L) as Ll. specialize (T i Ll). unfold straight in T.
  replace w with (vertex vs (after (length vs) i)); [exact T|].
  apply (edge_unique_start vs (vertex vs i)); [exact N| |exact B].
  apply in_contour_edges. exists (after (length vs) i). rewrite before_after by exact Hi. split; [apply after_lt, Hi|auto].
Qed.
Theorem oriented_edges_reversal : forall vs cw, NoDup vs -> turns_at_least vs ->
  Permutation (contour_oriented_edges (rev vs) cw) (contour_oriented_edges vs cw).
Proof.
  intros vs cw N T. destruct vs as [|x l]; [reflexivity|]. set (vs := x :: l) in *.
  assert (Nv : vs <> []) by discriminate.
  assert (Nr : rev vs <> []) by (intro X; apply (f_equal (@length _)) in X; rewrite rev_length in X; discriminate).
  pose proof (reverse_edges vs) as P.
  destruct (orientation_edges vs Nv) as (u & v & w & L & E).
  destruct (orientation_edges (rev vs) Nr) as (u' & v' & w' & L' & E').
  apply (least_edges_perm _ _ _ _ _ P) in L'. apply least_edges_reversed in L'. rewrite reversed_reversed in L'.
  destruct (least_edges_unique vs _ _ _ _ _ _ N L L') as (<- & <- & <-).
  assert (Nc := turns_cross vs u v w N T L).
  assert (Nc' : cross w v u <> 0) by (rewrite cross_flip; intro X; apply Nc; qlra).
  rewrite !oriented_edges_eq. unfold forward. rewrite E, E'.
  assert (Ne : orientation_eqb (orient w v u) (if cw then CLOCKWISE else COUNTERCLOCKWISE)
               = negb (orientation_eqb (orient u v w) (if cw then CLOCKWISE else COUNTERCLOCKWISE))).
  { destruct (orient_reverse u v w) as [X|X]; [apply orient_collinear in X; contradiction|].
    assert (Y : orient w v u <> COLLINEAR) by (rewrite orient_collinear; exact Nc').
    assert (Z0 : orient u v w <> COLLINEAR) by (rewrite orient_collinear; exact Nc).
    destruct (orient u v w), (orient w v u), cw; cbn in *; congruence. }
  rewrite Ne. destruct (orientation_eqb (orient u v w) (if cw then CLOCKWISE else COUNTERCLOCKWISE)); cbn [negb].
  - apply perm_trans with (1 := Permutation_sym (Permutation_rev _)).
    apply perm_trans with (1 := Permutation_map reversed P). rewrite reversed_reversed. reflexivity.
  - apply perm_trans with (2 := Permutation_rev _). exact P.
Qed.
Theorem oriented_edges_counterclockwise : forall vs, NoDup vs -> turns_at_least vs ->
  counterclockwise_at_least (contour_oriented_edges vs false)
  /\ counterclockwise_at_least (map reversed (contour_oriented_edges vs true)).
Proof.
  intros vs N T. destruct vs as [|x l]; [split; intros u v w [] |]. set (vs := x :: l) in *.
  assert (Nv : vs <> []) by discriminate. destruct (orientation_edges vs Nv) as (u0 & v0 & w0 & L0 & E).
  assert (Nc := turns_cross vs u0 v0 w0 N T L0).
  assert (H : forall es, (Permutation es (contour_edges vs) /\ 0 < cross u0 v0 w0)
    \/ (Permutation es (map reversed (contour_edges vs)) /\ cross u0 v0 w0 < 0) -> counterclockwise_at_least es).
  { intros es [(P & C)|(P & C)] u v w A B D.
    - assert (L : least_edges es u v w) by (split; [exact A|]; split; assumption).
      apply (least_edges_perm _ _ _ _ _ P) in L.
      destruct (least_edges_unique vs _ _ _ _ _ _ N L L0) as (-> & -> & ->). exact C.
    - assert (L : least_edges es u v w) by (split; [exact A|]; split; assumption).
      apply (least_edges_perm _ _ _ _ _ P) in L. apply least_edges_reversed in L. rewrite reversed_reversed in L.
      destruct (least_edges_unique vs _ _ _ _ _ _ N L L0) as (-> & -> & ->). rewrite cross_flip. qlra. }
  assert (Tr : cross u0 v0 w0 < 0 \/ 0 < cross u0 v0 w0)
    by (destruct (Qc_lt_total (cross u0 v0 w0) 0) as [?|[?|?]]; [left; assumption|contradiction|right; assumption]).
  split; apply H; rewrite oriented_edges_eq; unfold forward; rewrite E; clear E;
    destruct Tr as [L|L]; destruct (orientP u0 v0 w0) as [M|M|M]; try (exfalso; qlra); cbn [orientation_eqb].
  - right. split; [symmetry; apply Permutation_rev|exact L].
  - left. split; [reflexivity|exact L].
  - right. split; [reflexivity|exact L].
  - left. split; [|exact L]. rewrite map_rev, reversed_reversed. symmetry. apply Permutation_rev.
Qed.
