(** Model of the sweeps with labelled events, common to
    /repo/clipping/core/mixed.py, holeless.py and holey.py: computation of
    fields of events and processing of an event. *)
From Verif Require Import QcTac Geom Sweep Linear.

(** Assignments to fields of left events. *)
Definition set_other (b : bool) (e : left_event) : left_event :=
  LeftEvent (l_start e) (l_right e) (l_first e) (l_interior e) b (l_is_overlap e) (l_kind e) (l_result e) (l_below e).
Definition set_result (b : bool) (e : left_event) : left_event :=
  LeftEvent (l_start e) (l_right e) (l_first e) (l_interior e) (l_other e) (l_is_overlap e) (l_kind e) b (l_below e).
Definition set_below (b : option nat) (e : left_event) : left_event :=
  LeftEvent (l_start e) (l_right e) (l_first e) (l_interior e) (l_other e) (l_is_overlap e) (l_kind e) (l_result e) b.
Definition update_left (i : nat) (f : left_event -> left_event) (s : state) : state :=
  State (update (lefts s) i f) (rights s) (queue s) (line s).

(** event.py 401-403: is_vertical *)
Definition is_vertical (s : state) (i : nat) : bool := Qc_eqb (px (l_start (lft s i))) (px (end_of s i)).

(** mixed.py 67-76, holeless.py 69-76, holey.py 72-86: compute_fields; only the
    holey one has the field below_event_from_shaped_result.  [result] is
    from_result or from_shaped_result of the operation. *)
Definition compute_fields (holey : bool) (result : left_event -> bool) (i : nat) (below : option nat) (s : state) : state :=
  let s1 :=
    match below with
    | None => s
    | Some b =>
        let other := if Bool.eqb (l_first (lft s i)) (l_first (lft s b)) then l_other (lft s b) else l_interior (lft s b) in
        let s0 := update_left i (set_other other) s in
        if holey
        then update_left i (set_below (if negb (result (lft s0 b)) || is_vertical s0 b then l_below (lft s0 b) else Some b)) s0
        else s0
    end in
  update_left i (set_result (result (lft s1 i))) s1.

(** mixed.py 102-117, holeless.py 144-160, holey.py 169-184: a left event not
    found on the sweep line *)
Definition add_labelled (k : kind) (holey : bool) (result : left_event -> bool) (o : oracle) (n : nat) (i : nat)
    (s : state) : res state :=
  let s1 := line_add k (o_shape o (2 * n)) i s in
  let above := line_above k (o_shape o (2 * n + 1)) s1 i in
  let below := line_below k (o_shape o (2 * n + 1)) s1 i in
  let s2 := compute_fields holey result i below s1 in
  bind_res
    match above with
    | None => Ok s2
    | Some a =>
        bind_res (detect k i a s2) (fun '(s3, f) =>
          Ok (if f then compute_fields holey result a (Some i) (compute_fields holey result i below s3) else s3))
    end
    (fun s4 =>
       match below with
       | None => Ok s4
       | Some b =>
           bind_res (detect k b i s4) (fun '(s5, f) =>
             Ok (if f
                 then compute_fields holey result i (Some b)
                        (compute_fields holey result b (line_below k (o_shape o (2 * n + 1)) s5 b) s5)
                 else s5))
       end).

(** mixed.py 92-117, holeless.py 130-160, holey.py 155-185: process_event.
    The boolean tells whether the event has been processed, i.e. is not a left
    event already found on the sweep line. *)
Definition process_labelled (k : kind) (holey : bool) (result : left_event -> bool) (o : oracle) (n : nat) (ev : event)
    (s : state) : res (state * bool) :=
  match ev with
  | EL i =>
      if line_contains k (o_shape o (2 * n)) s i then Ok (s, false)
      else bind_res (add_labelled k holey result o n i s) (fun s' => Ok (s', true))
  | ER r =>
      let i := r_left (rgt s r) in
      if line_contains k (o_shape o (2 * n)) s i
      then bind_res (remove_left k o n i s) (fun s' => Ok (s', true))
      else Ok (s, true)
  end.
