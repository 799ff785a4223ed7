(** * Spec: ways through a region; closed finger bands *)
From Verif.Spec Require Export Plane Fingers.
From Verif.Model Require Import Types2d Sheetplex.
From Verif.Props Require Import Geom2dProps.
Open Scope Qc_scope.

(** a polygonal path from the first point to the second, all of it satisfying [P] *)
Inductive way (P : point -> Prop) : point -> point -> Prop :=
| way_here p : P p -> way P p p
| way_on p q z : (forall x, on_seg (p, q) x -> P x) -> way P q z -> way P p z.

(** in the finger band over the ranges [w] of [s], its rim included *)
Definition on_band (s : interside) (w : geom1d) (p : point) : Prop :=
  (exists i, In i w /\ ele (fst i) (Fin (along s p)) /\ ele (Fin (along s p)) (snd i)) /\ weakly_between (offset_at s 0) (across s p) (offset_at s 1).
