(** Specification vocabulary for parts of segments.  Independent of the
    modelled code. *)
From Verif Require Import QcTac Geom Spec SpecNode.

(** [t] is a part of one of [of] between nodes of [ss], not necessarily
    neighbouring ones, from the least endpoint to the greatest one. *)
Definition cut (ss of : list segment) (t : segment) : Prop :=
  (exists s, In s of /\ forall p, on_segment p t -> on_segment p s)
  /\ plt (s_start t) (s_end t) /\ node ss (s_start t) /\ node ss (s_end t).
(** [p] is a node of both operands, lying on each of them. *)
Definition shared_node (first second : list segment) (p : point) : Prop :=
  node (first ++ second) p /\ on_segments p first /\ on_segments p second.
