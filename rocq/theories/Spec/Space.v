(** * Spec: a sheet as a slab of space.  A point of space is drawn on a sheet by [footprint], the first two coordinates of the
    sheet's rotation. *)
From Verif.Spec Require Export Fingers.
From Verif.Model Require Export Frames.
Open Scope Qc_scope.

(** between, or on, the two faces of the sheet; strictly between them *)
Definition in_slab (pl : plate) (x : vec3) : Prop :=
  dot3 (pl_normal pl false) x <= pl_offset pl false /\ dot3 (pl_normal pl true) x <= pl_offset pl true.
Definition inside_slab (pl : plate) (x : vec3) : Prop :=
  dot3 (pl_normal pl false) x < pl_offset pl false /\ dot3 (pl_normal pl true) x < pl_offset pl true.
(** the place of the sheet that lies over or under [x] *)
Definition footprint (pl : plate) (x : vec3) : point := project_point4 pl (V4 x 1).

(** three perpendicular unit vectors *)
Definition orthonormal (a b c : vec3) : Prop :=
  dot3 a a = 1 /\ dot3 b b = 1 /\ dot3 c c = 1 /\ dot3 a b = 0 /\ dot3 a c = 0 /\ dot3 b c = 0.
(** the two faces are parallel and [t] apart, facing outwards; the rotation has orthonormal rows, turns the normal
    of the sheet into the third axis and does not move the origin *)
Definition plate_ok (pl : plate) : Prop :=
  let m := pl_inverse pl in
  orthonormal (v4 (row0 m)) (v4 (row1 m)) (v4 (row2 m)) /\ v4 (row2 m) = pl_normal pl false /\
  vw (row0 m) = 0 /\ vw (row1 m) = 0 /\ row3 m = V4 (V3 0 0 0) 1 /\
  pl_normal pl true = scale3 (- (1)) (pl_normal pl false) /\ 0 < pl_offset pl false + pl_offset pl true.
(** [to_3D] of a section with this normal, as trimesh documents it: a rotation whose third column is the normal, and a translation *)
Definition section_frame (normal : vec3) (to_3D : mat4) : Prop :=
  let m := transpose to_3D in
  orthonormal (v4 (row0 m)) (v4 (row1 m)) (v4 (row2 m)) /\ v4 (row2 m) = normal /\ row3 to_3D = V4 (V3 0 0 0) 1.
(** [norm] is right about the vector [v] *)
Definition norm_of (norm : vec3 -> Qc) (v : vec3) : Prop := 0 <= norm v /\ norm v * norm v = dot3 v v.
