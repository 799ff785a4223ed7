(** * plycutter/geometry/types2d.py: points, vectors, segments over the rationals. *)
From Verif.Base Require Export Py.

Notation point := (Qc * Qc)%type (only parsing).          (* types2d.py:24 *)
Notation segment := ((Qc * Qc) * (Qc * Qc))%type (only parsing).  (* types2d.py:26 *)

Definition pt_eqb (p q : point) : bool := qeqb (fst p) (fst q) && qeqb (snd p) (snd q).
(** tuple comparison [<] *)
Definition pt_ltb (p q : point) : bool :=
  if qeqb (fst p) (fst q) then qltb (snd p) (snd q) else qltb (fst p) (fst q).
Notation qhalf := (qq 1 2).
Notation q2 := (zq 2).
