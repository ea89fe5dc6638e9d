(** Specification vocabulary for places where segments are cut.
    Independent of the modelled code. *)
From Verif Require Import QcTac Geom Spec.

(** Endpoints of segments and points where two of them meet without overlapping. *)
Definition node (ss : list segment) (p : point) : Prop :=
  (exists s, In s ss /\ endpoint p s)
  \/ exists s t, In s ss /\ In t ss /\ on_segment p s /\ on_segment p t /\ ~ overlap s t.
(** [t] is a part of one of [of] between neighbouring nodes of [ss], from the
    least endpoint to the greatest one. *)
Definition fragment (ss of : list segment) (t : segment) : Prop :=
  (exists s, In s of /\ forall p, on_segment p t -> on_segment p s)
  /\ plt (s_start t) (s_end t) /\ node ss (s_start t) /\ node ss (s_end t)
  /\ forall p, inside_segment p t -> ~ node ss p.
(** The same segments in any order and of any direction, possibly repeated. *)
Definition turned_over (s : segment) : segment := Seg (s_end s) (s_start s).
Definition redrawn (ss ss' : list segment) : Prop :=
  (forall s, In s ss -> In s ss' \/ In (turned_over s) ss') /\ (forall s, In s ss' -> In s ss \/ In (turned_over s) ss).
