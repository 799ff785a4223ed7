(** * Ranges of the two sides of a joint, for the properties of single heuristic steps *)
From Verif.Base Require Export QcX.
From Verif.Spec Require Export PointSet1.
Open Scope Qc_scope.

(** [x] lies in an interval longer than [l] all of which satisfies [P] *)
Definition in_long (l : Qc) (P : Qc -> Prop) (x : Qc) : Prop :=
  exists a b, a <= x /\ x < b /\ l < b - a /\ forall y, a <= y -> y < b -> P y.
