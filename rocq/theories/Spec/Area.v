(** * Spec: how often polygons cover a point. *)
From Coq Require Import ZArith.
From Verif.Model Require Import Geom2d.
From Verif.Spec Require Export Region.

Definition zadd (l : list Z) : Z := fold_right Z.add 0%Z l.
(** how often a polygon covers a point: its outer ring goes around clockwise, as do its holes *)
Definition covers (s : spwh) (p : point) (n : Z) : Prop :=
  exists w hw, winding_number (outer s) p w /\ Forall2 (fun h v => winding_number h p v) (holes s) hw /\ n = (zadd hw - w)%Z.
Definition cover (g : geom2d) (p : point) (n : Z) : Prop :=
  exists ns, Forall2 (fun s k => covers s p k) g ns /\ n = zadd ns.
(** the polygons do not overlap, the holes lie inside and do not overlap: every point off the boundary
    is covered once if it is inside and not at all if it is outside *)
Definition flat (g : geom2d) : Prop := forall p n, ~ on_bd g p -> cover g p n ->
  (in_geom g p /\ n = 1%Z) \/ (~ in_geom g p /\ n = 0%Z).
