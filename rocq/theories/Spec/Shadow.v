(** * Spec: triangles in space, their shadows on a sheet, and how far they are from its planes *)
From Verif.Spec Require Export Space.
Open Scope Qc_scope.

(** [x] is a weighted mean of the corners *)
Definition in_triangle (t : vec3 * vec3 * vec3) (x : vec3) : Prop :=
  let '(a, b, c) := t in
  exists u v w, 0 <= u /\ 0 <= v /\ 0 <= w /\ u + v + w = 1 /\ x = add3 (scale3 u a) (add3 (scale3 v b) (scale3 w c)).
Definition corner_of (t : vec3 * vec3 * vec3) (x : vec3) : Prop := let '(a, b, c) := t in x = a \/ x = b \/ x = c.
