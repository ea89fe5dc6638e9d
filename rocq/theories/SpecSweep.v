(** What sweeps do, in terms of states of the queue and of the sweep line. *)
From Verif Require Import QcTac Geom Spec Sweep Linear Labelled.

(** The right endpoint of the piece has been reached by a sweep stopping
    after [x_max]. *)
Definition within_reach (x_max : option Qc) (p : point) : Prop := forall x, x_max = Some x -> px p <= x.

(** [s] keeps pieces of [first] and [second]: each of them is a part of a
    segment of its operand, goes from its left endpoint to its right one and
    remembers direction of the segment; the pieces cover the operands; pieces
    with right endpoints in reach meet others in common endpoints or are equal
    to a piece of the other operand. *)
Definition cut_into (first second : list segment) (x_max : option Qc) (s : state) : Prop :=
  (forall i, (i < length (lefts s))%nat -> plt (l_start (lft s i)) (end_of s i)
     /\ exists sg, In sg (if l_first (lft s i) then first else second)
          /\ (forall p, on_segment p (seg_of s i) -> on_segment p sg)
          /\ (l_interior (lft s i) = true <-> plt (s_start sg) (s_end sg)))
  /\ (forall (b : bool) sg p, In sg (if b then first else second) -> on_segment p sg ->
        exists i, (i < length (lefts s))%nat /\ l_first (lft s i) = b /\ on_segment p (seg_of s i))
  /\ (forall i j, (i < length (lefts s))%nat -> (j < length (lefts s))%nat -> i <> j -> within_reach x_max (end_of s i) ->
        (seg_of s i = seg_of s j /\ l_first (lft s i) <> l_first (lft s j))
        \/ (forall p, on_segment p (seg_of s i) -> on_segment p (seg_of s j) -> endpoint p (seg_of s i) /\ endpoint p (seg_of s j))).

(** [events] are all the events of [s] in reach, each of them once. *)
Definition all_in_reach (x_max : option Qc) (s : state) (events : list event) : Prop :=
  NoDup events
  /\ (forall i, In (EL i) events <-> (i < length (lefts s))%nat /\ within_reach x_max (l_start (lft s i)))
  /\ (forall r, In (ER r) events <-> (r < length (rights s))%nat /\ within_reach x_max (r_start (rgt s r))).

(** States in which loops of sweeps of mixed.py, holeless.py and holey.py can
    be found at their beginning, whatever the external containers do. *)
Inductive sweep_state (k : kind) (holey : bool) (result : left_event -> bool) (s0 : state) : state -> Prop :=
| state_start : sweep_state k holey result s0 s0
| state_next : forall s s1 s2 b ev pick o n, sweep_state k holey result s0 s -> pop k pick s = Ok (ev, s1) ->
    process_labelled k holey result o n ev s1 = Ok (s2, b) -> sweep_state k holey result s0 s2.

(** The sweep line is in strict order of the keys, so each event on it can be
    found, along with its neighbours, and removed, whatever shape the tree has. *)
Definition line_ordered (k : kind) (s : state) : Prop :=
  (forall l1 x l2 y l3, line s = l1 ++ x :: l2 ++ y :: l3 -> line_ltb k s x y = true /\ line_ltb k s y x = false)
  /\ (forall l1 x l2 shape, line s = l1 ++ x :: l2 ->
        line_contains k shape s x = true /\ line_above k shape s x = hd_error l2 /\ line_below k shape s x = hd_error (rev l1)
        /\ line_remove k shape x s = Ok (with_line s (l1 ++ l2))).
(** The next event is processed without exceptions and with the same outcome,
    whatever the external containers do. *)
Definition goes_on (k : kind) (holey : bool) (result : left_event -> bool) (s : state) : Prop :=
  queue s <> [] -> exists ev s1 s2, (forall pick, pop k pick s = Ok (ev, s1))
    /\ (forall o n, process_labelled k holey result o n ev s1 = Ok (s2, true)).

(** States in which the loop of linear.py 132-142 can be found at its
    beginning, whatever the external containers do. *)
Inductive reachable (first second : list segment) : state -> Prop :=
| reach_start : reachable first second (fill_linear first second)
| reach_next : forall s s1 s2 ev pick o n, reachable first second s ->
    pop Linear pick s = Ok (ev, s1) -> process_linear o n ev s1 = Ok s2 -> reachable first second s2.
(** The same for the loop of linear.py 52-71. *)
Inductive merge_state (segments : list segment) : state -> Prop :=
| merge_start : merge_state segments (register false segments empty_state)
| merge_next : forall s s1 s2 out ev pick o n, merge_state segments s -> pop Nary pick s = Ok (ev, s1) ->
    process_nary o n ev s1 = Ok (s2, out) -> merge_state segments s2.

(** Events queued in [s] are compared in [s'] as they are in [s]. *)
Definition compared_same (k : kind) (s s' : state) : Prop :=
  forall a b, In a (queue s) -> In b (queue s) -> key_ltb k s' a b = key_ltb k s a b.
(** On the way from [s] to [s'] events are pushed onto the queue right after
    divisions only, and no division or assignment changes the order of events
    queued by then, so a heap of them stays a heap. *)
Inductive orderly (k : kind) : state -> state -> Prop :=
| orderly_end : forall s, orderly k s s
| orderly_assign : forall s s1 s', queue s1 = queue s -> compared_same k s s1 -> orderly k s1 s' -> orderly k s s'
| orderly_divide : forall s i p s', compared_same k s (divide i p s) -> orderly k (divide i p s) s' -> orderly k s s'.
(** Keys of queued events are in a strict total order. *)
Definition queue_ordered (k : kind) (s : state) : Prop :=
  (forall a b, In a (queue s) -> In b (queue s) -> a <> b -> key_ltb k s a b = negb (key_ltb k s b a))
  /\ (forall a b c, In a (queue s) -> In b (queue s) -> In c (queue s) -> a <> b -> b <> c -> a <> c ->
        key_ltb k s a b = true -> key_ltb k s b c = true -> key_ltb k s a c = true).
(** Keys of queued events are in a strict weak order. *)
Definition queue_ranked (k : kind) (s : state) : Prop :=
  (forall a b, In a (queue s) -> In b (queue s) -> key_ltb k s a b = true -> key_ltb k s b a = false)
  /\ (forall a b c, In a (queue s) -> In b (queue s) -> In c (queue s) ->
        key_ltb k s a b = false -> key_ltb k s b c = false -> key_ltb k s a c = false).
