(** * Specification vocabulary for plane geometry. *)
From Verif.Model Require Import Types2d.

Definition vsub (p q : point) : point := (fst p - fst q, snd p - snd q).
Definition vadd (p q : point) : point := (fst p + fst q, snd p + snd q).
Definition vscale (t : Qc) (p : point) : point := (t * fst p, t * snd p).
Definition cross (u v : point) : Qc := fst u * snd v - snd u * fst v.
Definition dot (u v : point) : Qc := fst u * fst v + snd u * snd v.
(** > 0: c is to the left of the directed line a -> b *)
Definition orient (a b c : point) : Qc := cross (vsub b a) (vsub c a).

(** the point at parameter t on the carrier line of s *)
Definition at_t (s : segment) (t : Qc) : point :=
  vadd (fst s) (vscale t (vsub (snd s) (fst s))).
(** closed segment *)
Definition on_seg (s : segment) (p : point) : Prop := exists t, 0 <= t /\ t <= 1 /\ p = at_t s t.

(** closed edges of a closed polygon: all pairs of cyclically consecutive vertices *)
Definition is_edge (poly : list point) (s : segment) : Prop :=
  exists i, (i < length poly)%nat /\
    nth_error poly i = Some (fst s) /\
    nth_error poly (if S i =? length poly then 0 else S i)%nat = Some (snd s).
Definition on_boundary (poly : list point) (p : point) : Prop := exists s, is_edge poly s /\ on_seg s p.

(** sums *)
Fixpoint qsum {A} (f : A -> Qc) (l : list A) : Qc := match l with [] => 0 | s :: r => f s + qsum f r end.
Fixpoint zsum {A} (f : A -> Z) (l : list A) : Z := match l with [] => 0%Z | s :: r => (f s + zsum f r)%Z end.

(** the list of cyclically consecutive vertex pairs (same pairs as [is_edge], with multiplicity) *)
Definition cyclic_pairs (poly : list point) : list segment :=
  match poly with [] => [] | a :: r => combine poly (r ++ [a]) end.
(** twice the signed area, by triangles with apex o; counter-clockwise positive *)
Definition fan2 (o : point) (poly : list point) : Qc :=
  qsum (fun s => orient o (fst s) (snd s)) (cyclic_pairs poly).
(** sign of a rational *)
Definition sgn (q : Qc) : Z := if qltb 0 q then 1%Z else if qltb q 0 then (-1)%Z else 0%Z.
(** signed indicator of the open triangle abc: +1 inside a counter-clockwise triangle, -1 inside a
    clockwise one, 0 elsewhere *)
Definition tri_ind (a b c p : point) : Z :=
  let s := sgn (orient a b p) in
  if ((s =? sgn (orient b c p)) && (s =? sgn (orient c a p)))%Z then s else 0%Z.
(** Winding number of the closed polygon around p: signed number of fan triangles (apex o)
    containing p.  Meaningful for apexes such that p is on no spoke [o, v]. *)
Definition generic_apex (poly : list point) (o p : point) : Prop :=
  forall v, In v poly -> ~ on_seg (o, v) p.
Definition fan_winding (o : point) (poly : list point) (p : point) : Z :=
  zsum (fun s => tri_ind o (fst s) (snd s) p) (cyclic_pairs poly).
Definition winding_number (poly : list point) (p : point) (w : Z) : Prop :=
  exists o, generic_apex poly o p /\ w = fan_winding o poly p.
