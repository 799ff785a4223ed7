(** * Spec: the coordinates of a joint on a sheet. *)
From Verif.Spec Require Export Plane Region PointSet1.
From Verif.Model Require Import Sheetplex.
From Verif.Props Require Import Geom2dProps.
Open Scope Qc_scope.
Local Notation dot := Geom2d.dot.

(** a non-zero direction and the direction turned by -90 degrees *)
Definition frame_ok (s : interside) : Prop :=
  is_dir s <> (0, 0) /\ is_normal s = (snd (is_dir s), - fst (is_dir s)).
(** coordinate along the joint and normal coordinate of a point of the sheet *)
Definition along (s : interside) (p : point) : Qc := dot p (is_dir s) / dot (is_dir s) (is_dir s) - is_offs s.
Definition across (s : interside) (p : point) : Qc := dot p (is_normal s) / dot (is_normal s) (is_normal s).
(** the normal coordinate selected by a fraction *)
Definition offset_at (s : interside) (f : Qc) : Qc := is_min s + (is_max s - is_min s) * f.
(** strictly inside some interval; strictly outside all *)
Definition inside1 (g : geom1d) (x : Qc) : Prop := exists i, In i g /\ elt (fst i) (Fin x) /\ elt (Fin x) (snd i).
Definition bounded1 (g : geom1d) : Prop := forall i, In i g -> exists a b, i = (Fin a, Fin b).
(** the open finger band *)
Definition in_band (s : interside) (w : geom1d) (f0 f1 : Qc) (p : point) : Prop :=
  inside1 w (along s p) /\ strictly_between (offset_at s f0) (across s p) (offset_at s f1).
