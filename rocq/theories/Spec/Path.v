(** * Spec: what a path of moves and lines fills.

    A move starts a new stroke, a line continues it.  A point off the strokes is filled if the strokes, taken as closed loops, wind
    around it. *)
From Coq Require Import ZArith.
From Verif.Model Require Import Draw.
From Verif.Spec Require Export Area.

(** the strokes of a path *)
Inductive strokes : mpath -> list (list point) -> Prop :=
| no_stroke : strokes ([], []) []
| stroke v l codes verts rest : strokes (codes, verts) rest -> strokes (MOVETO :: repeat LINETO (List.length l) ++ codes, v :: l ++ verts) ((v :: l) :: rest).
(** a stroke that ends where it starts goes around the loop [r] *)
Definition closes (r stroke : list point) : Prop := exists v l, r = v :: l /\ stroke = v :: l ++ [v].
(** the sum of the winding numbers *)
Definition winds (loops : list (list point)) (p : point) (n : Z) : Prop :=
  exists ws, Forall2 (fun r w => winding_number r p w) loops ws /\ n = zadd ws.
