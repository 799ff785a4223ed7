(** * What the arrangement of a set of segments is, stated without the code. *)
From Verif.Model Require Export Scan2d.
From Verif.Spec Require Import Plane.
From Verif.Props Require Import Scan2dProps.

(** the vertices: ends of segments and crossings *)
Definition vert (segs : list segment) (p : point) : Prop :=
  (exists s, In s segs /\ endpoint s p) \/ crossing segs p.
(** strictly between the ends of a segment *)
Definition strictly_on (e : segment) (x : point) : Prop := exists t, 0 < t /\ t < 1 /\ x = at_t e t.
(** the half-edges: pairs of vertices that follow each other on some segment, in either direction *)
Definition sub_edge (segs : list segment) (e : segment) : Prop :=
  fst e <> snd e /\ vert segs (fst e) /\ vert segs (snd e) /\
  (exists s, In s segs /\ on_seg s (fst e) /\ on_seg s (snd e)) /\
  (forall x, strictly_on e x -> ~ vert segs x).
