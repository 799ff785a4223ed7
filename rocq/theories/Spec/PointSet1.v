(** * Specification of 1D geometry: point sets.

    Closed-open reading (geom1d.py docstring, lines 41-43): the interval (a,b) contains the
    rational [x] iff a <= x < b. Nothing here refers to the algorithms. *)
From Verif.Model Require Import Plytypes.

(** Order on extended rationals. *)
Definition ele (a b : ext) : Prop :=
  match a, b with
  | NInf, _ => True | _, PInf => True
  | Fin p, Fin q => p <= q
  | _, _ => False
  end.
Definition elt (a b : ext) : Prop :=
  match a, b with
  | NInf, NInf => False | NInf, _ => True
  | Fin p, Fin q => p < q
  | Fin _, PInf => True
  | _, _ => False
  end.

Definition in_iv (x : Qc) (i : ext * ext) : Prop := ele (fst i) (Fin x) /\ elt (Fin x) (snd i).
(** the point set of a list of intervals *)
Definition pts (g : list (ext * ext)) (x : Qc) : Prop := exists i, In i g /\ in_iv x i.

(** Normal form: non-empty pieces, increasing, with a gap between neighbours. *)
Fixpoint normal (g : list (ext * ext)) : Prop :=
  match g with
  | [] => True
  | (a, b) :: g' =>
      elt a b /\ normal g' /\ match g' with [] => True | (c, _) :: _ => elt b c end
  end.
