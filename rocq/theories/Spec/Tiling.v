(** * Specification of tilings of a line segment *)
From Verif.Base Require Export Py.
(** consecutive spans from [a] to [b] *)
Fixpoint chain (a : Qc) (l : list (Qc * Qc)) (b : Qc) : Prop :=
  match l with [] => a = b | (x, y) :: r => x = a /\ chain y r b end.
