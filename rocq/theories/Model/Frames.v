(** * Model of the 3D part of create_sheetplex.py (the planes of a sheet, 95-102, 123-125, 155-179; create_intersection,
    307-347; create_inter_side, 363-372) and of the float methods of sheetplex.Sheet (119-136).

    Simplified: numpy's float64 numbers are exact rationals here, so the theorems say what the formulas compute, not what
    rounding does to it.  [norm] stands for np.linalg.norm (a square root).  np.linalg.lstsq on two independent rows is the
    closed form of its documented result, the solution closest to the origin. *)
From Verif.Model Require Export Sheetplex.
From Coq Require Import String.
Open Scope Qc_scope.

Record vec3 := V3 { vx : Qc; vy : Qc; vz : Qc }.
(** a 3-vector and a fourth component *)
Record vec4 := V4 { v4 : vec3; vw : Qc }.
Definition add3 (a b : vec3) : vec3 := V3 (vx a + vx b) (vy a + vy b) (vz a + vz b).
Definition scale3 (k : Qc) (a : vec3) : vec3 := V3 (k * vx a) (k * vy a) (k * vz a).
Definition dot3 (a b : vec3) : Qc := vx a * vx b + vy a * vy b + vz a * vz b.
Definition dot4 (a b : vec4) : Qc := dot3 (v4 a) (v4 b) + vw a * vw b.
(** np.cross *)
Definition cross3 (a b : vec3) : vec3 :=
  V3 (vy a * vz b - vz a * vy b) (vz a * vx b - vx a * vz b) (vx a * vy b - vy a * vx b).
(** a 4x4 array, by rows *)
Record mat4 := M4 { row0 : vec4; row1 : vec4; row2 : vec4; row3 : vec4 }.
(** [.T] *)
Definition col (f : vec4 -> Qc) (m : mat4) : vec4 := V4 (V3 (f (row0 m)) (f (row1 m)) (f (row2 m))) (f (row3 m)).
Definition transpose (m : mat4) : mat4 := M4 (col (fun r => vx (v4 r)) m) (col (fun r => vy (v4 r)) m) (col (fun r => vz (v4 r)) m) (col vw m).
(** create_sheetplex.py:123-125: a copy of [to_3D] without its translation *)
Definition no_shift (m : mat4) : mat4 := M4 (V4 (v4 (row0 m)) 0) (V4 (v4 (row1 m)) 0) (V4 (v4 (row2 m)) 0) (row3 m).

(** sheetplex.py:99-102: the float fields of a Sheet *)
Record plate := mkPlate { pl_side0 : vec4; pl_side1 : vec4; pl_rotation : mat4; pl_inverse : mat4 }.
(** create_sheetplex.py:98-102, 175-179 *)
Definition make_plate (normal : vec3) (offset thickness : Qc) (to_3D : mat4) : plate :=
  let rot := no_shift to_3D in
  mkPlate (V4 normal offset) (V4 (scale3 (- (1)) normal) (- (offset - thickness))) rot (transpose rot).
(** sheetplex.py:119-120 normal, 122-123 offset; [side] is 0 or 1 *)
Definition side_of_plate (pl : plate) (side : bool) : vec4 := if side then pl_side1 pl else pl_side0 pl.
Definition pl_normal (pl : plate) (side : bool) : vec3 := v4 (side_of_plate pl side).
Definition pl_offset (pl : plate) (side : bool) : Qc := vw (side_of_plate pl side).
(** 125-126 midplane *)
Definition midplane (pl : plate) : vec4 :=
  let h := qq 1 2 in
  V4 (scale3 h (add3 (pl_normal pl false) (scale3 (- (1)) (pl_normal pl true)))) (h * (pl_offset pl false - pl_offset pl true)).
(** 128-136 project_point4 *)
Definition project_point4 (pl : plate) (pt : vec4) : point :=
  let m := pl_inverse pl in
  let p2 := (dot4 (row0 m) pt, dot4 (row1 m) pt) in
  let w := dot4 (row3 m) pt in
  if qeqb w 0 then p2 else (fst p2 / w, snd p2 / w).

(** np.linalg.lstsq([a, b], [c, d]) for independent a, b: the solution of [a.x = c], [b.x = d] in the span of a and b *)
Definition lstsq2 (a b : vec3) (c d : Qc) : vec3 :=
  let g := dot3 a a * dot3 b b - dot3 a b * dot3 a b in
  add3 (scale3 ((c * dot3 b b - d * dot3 a b) / g) a) (scale3 ((d * dot3 a a - c * dot3 a b) / g) b).

Section Frames.
Variable norm : vec3 -> Qc.
(** create_sheetplex.py:312-319: the direction, unless the planes are (nearly) parallel *)
Definition inter_direction (p1 p2 : plate) : option vec3 :=
  let c := cross3 (pl_normal p1 false) (pl_normal p2 false) in
  let ilen := norm c in
  if qltb ilen (qq 1 10000) then None else Some (scale3 (/ ilen) c).
(** 323-331 corner_origs *)
Definition corner_origin (p1 p2 : plate) (t1 t2 : bool) : vec3 :=
  lstsq2 (pl_normal p1 t1) (pl_normal p2 t2) (pl_offset p1 t1) (pl_offset p2 t2).
Definition corner_origins (p1 p2 : plate) : list vec3 :=
  flat_map (fun t1 => map (corner_origin p1 p2 t1) [false; true]) [false; true].
(** 363-372: the direction and the corner origins on one of the two sheets *)
Definition side_frame (pl : plate) (dir : vec3) (origins : list vec3) : result frame :=
  let os := map (fun o => project_point4 pl (V4 o 1)) origins in
  match os with
  | [] => Err IndexError
  | o0 :: r => Ok (project_point4 pl (V4 dir 0), (o0, r))
  end.
Definition inter_frames (p1 p2 : plate) : result (option (frame * frame)) :=
  match inter_direction p1 p2 with
  | None => Ok None
  | Some dir =>
      let os := corner_origins p1 p2 in
      f1 <- side_frame p1 dir os ;;
      f2 <- side_frame p2 dir os ;;
      Ok (Some (f1, f2))
  end.
(** the argument of the model of create_intersections, for sheets whose float fields are [plates id] *)
Definition space_frames (plates : string -> plate) : frames := fun a b => inter_frames (plates (sh_id a)) (plates (sh_id b)).
End Frames.
