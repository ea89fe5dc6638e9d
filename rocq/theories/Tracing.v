(** Model of the tracing of result contours of /repo/clipping/core/holeless.py.
    The events are given sorted and with their identifiers being their positions. *)
From Verif Require Import QcTac Geom Sweep Contour.

(** [processed[event_id] = processed[opposite_event_id] = True] *)
Definition mark (processed : list bool) (i : nat) : list bool := update processed i (fun _ => true).
Definition mark_pair (evs : list traced) (processed : list bool) (i : nat) : list bool :=
  mark (mark processed i) (t_opposite (tev evs i)).

(** holeless.py 97-107: the loop following the events of a contour; gives the
    vertices, the events and the flags *)
Fixpoint trace_contour (fuel : nat) (evs : list traced) (connectivity : list nat) (contour_start : point)
    (cursor : nat) (vertices : list point) (contour_events : list nat) (processed : list bool)
  : res (list point * list nat * list bool) :=
  match fuel with
  | O => Err OutOfFuel
  | S f =>
      if pt_eqb (t_end (tev evs cursor)) contour_start then Ok (vertices, contour_events, processed)
      else
        let vertices := vertices ++ [t_end (tev evs cursor)] in
        match next_event (t_opposite (tev evs cursor)) processed connectivity with
        | Err e => Err e
        | Ok None => Ok (vertices, contour_events, processed)
        | Ok (Some event_id) =>
            trace_contour f evs connectivity contour_start event_id vertices (contour_events ++ [event_id])
              (mark_pair evs processed event_id)
        end
  end.
(** holeless.py 89-107: the loop over the events, before the removal of collinear
    vertices; [ids] are the identifiers still to be looked at *)
Fixpoint trace_contours (evs : list traced) (connectivity : list nat) (ids : list nat) (processed : list bool)
  : res (list (list point * list nat)) :=
  match ids with
  | [] => Ok []
  | event_id :: ids =>
      if nth event_id processed false then trace_contours evs connectivity ids processed
      else
        match trace_contour (S (length evs)) evs connectivity (t_start (tev evs event_id)) event_id
                [t_start (tev evs event_id)] [event_id] (mark_pair evs processed event_id) with
        | Err e => Err e
        | Ok (vertices, contour_events, processed) =>
            match trace_contours evs connectivity ids processed with
            | Err e => Err e
            | Ok rest => Ok ((vertices, contour_events) :: rest)
            end
        end
  end.
Fixpoint shrink_all (l : list (list point)) : res (list contour) :=
  match l with
  | [] => Ok []
  | vertices :: l =>
      match shrink_collinear_vertices vertices with
      | Err e => Err e
      | Ok vertices => match shrink_all l with Err e => Err e | Ok rest => Ok (Contour vertices :: rest) end
      end
  end.
(** holeless.py 84-111: events_to_regions on the sorted events; collinear vertices
    are removed after all contours are traced instead of contour by contour *)
Definition trace_regions (evs : list traced) : res (list contour) :=
  match events_to_connectivity evs with
  | Err e => Err e
  | Ok connectivity =>
      match trace_contours evs connectivity (seq 0 (length evs)) (repeat false (length evs)) with
      | Err e => Err e
      | Ok contours => shrink_all (map fst contours)
      end
  end.
