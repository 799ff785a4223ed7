(** * Spec: simple rings, and geometries whose rings do not run through one another *)
From Verif.Spec Require Export Plane Region.
From Verif.Model Require Import Types2d Geom2d.

(** around every point off it the ring winds once clockwise or not at all, and it turns back on itself at no vertex *)
Definition no_spike (r : list point) : Prop := forall i, let v j := nth ((i + j) mod length r) r (0, 0) in
  ~ exists k, 0 < k /\ vsub (v 2%nat) (v 1%nat) = vscale k (vsub (v 0%nat) (v 1%nat)).
Definition simple_ring (r : list point) : Prop :=
  (forall p w, ~ on_boundary r p -> winding_number r p w -> w = 0%Z \/ w = (-1)%Z) /\ no_spike r.

(** simple rings; holes lie in their outer ring; no ring runs through the inside of a polygon or of a hole *)
Definition tidy (g : geom2d) : Prop :=
  (forall r, ring_of g r -> simple_ring r) /\
  (forall s h b, In s g -> In h (holes s) -> on_boundary h b -> on_boundary (outer s) b \/ in_ring (outer s) b) /\
  (forall s b, In s g -> on_bd g b -> ~ on_bd [s] b -> ~ in_poly s b) /\
  (forall s h b, In s g -> In h (holes s) -> on_bd g b -> ~ on_boundary h b -> ~ in_ring h b).

(** the octagon with vertices at distance [a] on the axes and at [(b, b)] and its images on the diagonals *)
Definition octagon (a b : Qc) : list point := [(a, 0); (b, b); (0, a); (- b, b); (- a, 0); (- b, - b); (0, - a); (b, - b)].
