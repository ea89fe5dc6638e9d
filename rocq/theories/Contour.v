(** Model of the functions of /repo/clipping/core/utils.py on contours and
    polygons, of events_to_connectivity of event.py and of _to_next_event_id
    of holeless.py and holey.py. *)
From Verif Require Import QcTac Geom Sweep.

(** Element of a sequence of points at a position in range. *)
Definition at_ (vs : list point) (i : nat) : point := nth i vs (Pt 0 0).
(** [vertices[index - 1]] for [index] from 0 to the length: -1 is the last position *)
Definition previous (n i : nat) : nat := match i with O => (n - 1)%nat | S j => j end.

(** [min(range(len(vertices)), key=vertices.__getitem__)]: the first position of
    a least vertex; the code raises ValueError for a contour without vertices *)
Fixpoint least_index (best : nat) (p : point) (i : nat) (l : list point) : nat :=
  match l with
  | [] => best
  | q :: r => if pt_ltb q p then least_index i q (S i) r else least_index best p (S i) r
  end.
(** utils.py 49-54: to_contour_orientation *)
Definition contour_orientation (vs : list point) : orientation :=
  let n := length vs in
  let index := least_index 0 (at_ vs 0) 0 vs in
  orient (at_ vs (previous n index)) (at_ vs index) (at_ vs ((index + 1) mod n)).

(** utils.py 34-46: contour_to_oriented_edges_endpoints; endpoints are
    represented as segments *)
Definition contour_oriented_edges (vs : list point) (clockwise : bool) : list segment :=
  let n := length vs in
  if orientation_eqb (contour_orientation vs) (if clockwise then CLOCKWISE else COUNTERCLOCKWISE)
  then map (fun index => Seg (at_ vs (previous n index)) (at_ vs index)) (seq 0 n)
  else map (fun index => Seg (at_ vs index) (at_ vs (previous n index))) (rev (seq 0 n)).
(** utils.py 26-31: polygon_to_oriented_edges_endpoints *)
Definition polygon_oriented_edges (p : polygon) : list segment :=
  contour_oriented_edges (vertices (border p)) false
  ++ flat_map (fun hole => contour_oriented_edges (vertices hole) true) (holes p).

(** Python's indexing of a list by an integer which may be negative, and
    deletion; [None] is IndexError *)
Definition py_position {A} (l : list A) (i : Z) : option nat :=
  let n := Z.of_nat (length l) in
  if ((0 <=? i) && (i <? n))%Z then Some (Z.to_nat i)
  else if ((- n <=? i) && (i <? 0))%Z then Some (Z.to_nat (n + i)) else None.
Definition py_get {A} (l : list A) (i : Z) : option A :=
  match py_position l i with Some k => nth_error l k | None => None end.
Definition py_del {A} (l : list A) (i : Z) : option (list A) :=
  match py_position l i with Some k => Some (firstn k l ++ skipn (S k) l) | None => None end.
(** [orienteer(vertices[a], vertices[b], vertices[c]) is Orientation.COLLINEAR] *)
Definition collinear_at (l : list point) (a b c : Z) : option bool :=
  match py_get l a, py_get l b, py_get l c with
  | Some p, Some q, Some r => Some (orientation_eqb (orient p q r) COLLINEAR)
  | _, _, _ => None
  end.

(** utils.py 84-87: the inner loop of the first loop of shrink_collinear_vertices *)
Fixpoint shrink_ahead (fuel : nat) (index : Z) (l : list point) : res (list point) :=
  match fuel with
  | O => Err OutOfFuel
  | S f =>
      if (Z.max 2 (- index) <? Z.of_nat (length l))%Z
      then match collinear_at l (index + 1) (index + 2) index with
           | None => Err IndexError
           | Some false => Ok l
           | Some true =>
               match py_del l (index + 1) with
               | None => Err IndexError
               | Some l' => shrink_ahead f index l'
               end
           end
      else Ok l
  end.
(** utils.py 83-88 *)
Fixpoint shrink_first (fuel : nat) (index : Z) (l : list point) : res (list point * Z) :=
  match fuel with
  | O => Err OutOfFuel
  | S f =>
      if (index <? 0)%Z
      then match shrink_ahead (S (length l)) index l with
           | Err e => Err e
           | Ok l' => shrink_first f (index + 1)%Z l'
           end
      else Ok (l, index)
  end.
(** utils.py 90-93: the inner loop of the second loop *)
Fixpoint shrink_behind (fuel : nat) (index : Z) (l : list point) : res (list point) :=
  match fuel with
  | O => Err OutOfFuel
  | S f =>
      if (Z.max 2 index <? Z.of_nat (length l))%Z
      then match collinear_at l (index - 1) (index - 2) index with
           | None => Err IndexError
           | Some false => Ok l
           | Some true =>
               match py_del l (index - 1) with
               | None => Err IndexError
               | Some l' => shrink_behind f index l'
               end
           end
      else Ok l
  end.
(** utils.py 89-94 *)
Fixpoint shrink_second (fuel : nat) (index : Z) (l : list point) : res (list point) :=
  match fuel with
  | O => Err OutOfFuel
  | S f =>
      if (index <? Z.of_nat (length l))%Z
      then match shrink_behind (S (length l)) index l with
           | Err e => Err e
           | Ok l' => shrink_second f (index + 1)%Z l'
           end
      else Ok l
  end.
(** utils.py 80-94: shrink_collinear_vertices; the list modified in place is returned *)
Definition shrink_collinear_vertices (l : list point) : res (list point) :=
  match shrink_first (S (length l)) (- Z.of_nat (length l) + 1)%Z l with
  | Err e => Err e
  | Ok (l', index) => shrink_second (S (length l')) index l'
  end.

(** What the tracing of contours reads of an event: start, end, is_left and
    the position of the opposite event. *)
Record traced := Traced { t_start : point; t_end : point; t_left : bool; t_opposite : nat }.
Definition no_traced : traced := Traced (Pt 0 0) (Pt 0 0) false 0.
Definition tev (evs : list traced) (i : nat) : traced := nth i evs no_traced.

(** [while index < n and test(index): index += 1] *)
Fixpoint advance (test : nat -> bool) (n fuel index : nat) : nat :=
  match fuel with
  | O => index
  | S f => if (index <? n)%nat && test index then advance test n f (S index) else index
  end.
(** [l[start:stop] = values] for as many values as there are positions *)
Definition assign_slice (l : list nat) (start stop : nat) (values : list nat) : list nat :=
  firstn start l ++ values ++ skipn stop l.
Definition assign (l : list nat) (i v : nat) : list nat := update l i (fun _ => v).

(** event.py 465-496: events_to_connectivity, body of the loop for one group of
    events with the same start; gives the result and the next index *)
Definition connect_group (evs : list traced) (result : list nat) (index : nat) : list nat * nat :=
  let n := length evs in
  let current_start := t_start (tev evs index) in
  let same i := pt_eqb (t_start (tev evs i)) current_start in
  let right_start := index in
  let left_start := advance (fun i => same i && negb (t_left (tev evs i))) n n index in
  let next := advance same n n left_start in
  let left_stop := (next - 1)%nat in
  let has_right := (right_start + 1 <=? left_start)%nat in
  let has_left := (left_start <=? left_stop)%nat in
  let result :=
    if has_right
    then assign (assign_slice result right_start (left_start - 1)
                   (seq (right_start + 1) (left_start - 1 - right_start)))
                (left_start - 1) (if has_left then left_stop else right_start)
    else result in
  let result :=
    if has_left
    then assign_slice (assign result left_start (if has_right then right_start else left_stop))
           (left_start + 1) (left_stop + 1) (seq left_start (left_stop - left_start))
    else result in
  (result, next).
Fixpoint connect_from (evs : list traced) (fuel : nat) (result : list nat) (index : nat) : res (list nat) :=
  match fuel with
  | O => Err OutOfFuel
  | S f =>
      if (index <? length evs)%nat
      then let '(result, next) := connect_group evs result index in connect_from evs f result next
      else Ok result
  end.
(** event.py 465-496: events_to_connectivity *)
Definition events_to_connectivity (evs : list traced) : res (list nat) :=
  connect_from evs (S (length evs)) (repeat 0%nat (length evs)) 0.

(** holeless.py 259-268, holey.py 493-502: _to_next_event_id; [None] is UNDEFINED_INDEX *)
Fixpoint next_event_from (fuel : nat) (event_id candidate : nat) (processed : list bool) (connectivity : list nat)
  : res (option nat) :=
  match fuel with
  | O => Err OutOfFuel
  | S f =>
      let candidate := nth candidate connectivity 0%nat in
      if negb (nth candidate processed false) then Ok (Some candidate)
      else if Nat.eqb candidate event_id then Ok None
      else next_event_from f event_id candidate processed connectivity
  end.
Definition next_event (event_id : nat) (processed : list bool) (connectivity : list nat) : res (option nat) :=
  next_event_from (length connectivity) event_id event_id processed connectivity.
