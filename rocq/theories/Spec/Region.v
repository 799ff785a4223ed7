(** * Spec: the plane region denoted by a list of polygons with holes. *)
From Verif.Spec Require Export Plane.
From Verif.Model Require Import Geom2d.

(** a point off the ring is inside it iff the ring winds around it *)
Definition in_ring (ring : list point) (p : point) : Prop := exists w, winding_number ring p w /\ w <> 0%Z.
Definition in_poly (s : spwh) (p : point) : Prop :=
  in_ring (outer s) p /\ forall h, In h (holes s) -> ~ in_ring h p.
Definition in_geom (g : geom2d) (p : point) : Prop := exists s, In s g /\ in_poly s p.
(** the rings of a geom and its boundary *)
Definition ring_of (g : geom2d) (r : list point) : Prop := exists s, In s g /\ (r = outer s \/ In r (holes s)).
Definition on_bd (g : geom2d) (p : point) : Prop := exists r, ring_of g r /\ on_boundary r p.

(** objects the constructors accept *)
Definition spwh_ok (s : spwh) : Prop := Simple_Polygon_With_Holes (outer s) (holes s) = Ok s.
Definition is_geom2d (g : geom2d) : Prop := Forall spwh_ok g.

(** ** What set operations should compute *)
Definition bits (gs : list geom2d) (p : point) (bs : list bool) : Prop :=
  Forall2 (fun g b => b = true <-> in_geom g p) gs bs.
(** off the edges of all operands *)
Definition off_all (gs : list geom2d) (p : point) : Prop := forall g, In g gs -> ~ on_bd g p.
(** [r] is a legal object with no edges but (parts of) the operands' edges, and contains a point off
    those edges iff [P] holds there *)
Definition is_op (gs : list geom2d) (P : point -> Prop) (r : geom2d) : Prop :=
  is_geom2d r /\ (forall p, on_bd r p -> ~ off_all gs p) /\ (forall p, off_all gs p -> (in_geom r p <-> P p)).
(** An arrangement code on which every set operation that returns normally is right. *)
Definition arr_sound (A : arr_impl) : Prop := forall geoms op r,
  Forall is_geom2d geoms -> op (map (fun _ => false) geoms) = false -> arrangement_op A geoms op = Ok r ->
  is_op geoms (fun p => exists bs, bits geoms p bs /\ op bs = true) r.
