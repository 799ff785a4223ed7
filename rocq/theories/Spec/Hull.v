(** * Spec: convex hull of a finite set of points *)
From Verif.Model Require Import Types2d.
From Verif.Spec Require Export Plane.

(** the smallest convex set that contains the points of [l] *)
Inductive hull (l : list point) : point -> Prop :=
| hull_in c : In c l -> hull l c
| hull_seg a b x : hull l a -> hull l b -> on_seg (a, b) x -> hull l x.
(** squared distance *)
Definition dist2 (p q : point) : Qc := dot (vsub p q) (vsub p q).
