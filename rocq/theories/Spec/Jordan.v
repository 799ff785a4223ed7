(** * Spec: simple polygons *)
From Verif.Spec Require Export Plane.
From Verif.Model Require Import Types2d.

(** distinct vertices, and two edges meet in a common vertex only *)
Definition simple_polygon (r : list point) : Prop := NoDup r /\ (3 <= length r)%nat /\
  forall e f x, is_edge r e -> is_edge r f -> e <> f -> on_seg e x -> on_seg f x -> (x = fst e /\ x = snd f) \/ (x = snd e /\ x = fst f).

(** a polygonal path from the first point to the second that does not meet the ring *)
Inductive joined (r : list point) : point -> point -> Prop :=
| joined_stop p : ~ on_boundary r p -> joined r p p
| joined_go p q z : (forall x, on_seg (p, q) x -> ~ on_boundary r x) -> joined r q z -> joined r p z.
