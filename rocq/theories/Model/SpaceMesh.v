(** * create_sheetplex.py on a mesh with rational coordinates: the model of create_sheets ([CreateSheets]) joined to the
    planes in space ([Frames]).

    Simplified: float64 numbers are exact rationals, as in [Frames]; [norm] stands for np.linalg.norm.  The sections
    mesh.section_multiplane returns are any list of optional sections, each with its [to_3D] and its polygons. *)
From Verif.Model Require Export CreateSheets Frames.
From Coq Require Import String.
Open Scope Qc_scope.

Definition neg3 (a : vec3) : vec3 := scale3 (- (1)) a.
Definition sub3 (a b : vec3) : vec3 := add3 a (neg3 b).
(** np.linspace *)
Definition linspace (a b : Qc) (n : nat) : list Qc := map (fun i => a + zq (Z.of_nat i) * ((b - a) / zq (Z.of_nat n - 1))) (seq 0 n).
(** create_sheetplex.py:155, 161-163: the corners, turned by the transposed rotation, without the third coordinate *)
Definition project_corner (r : mat4) (x : vec3) : point := let trb := transpose r in (dot3 (v4 (row0 trb)) x, dot3 (v4 (row1 trb)) x).
Definition project_triangle (r : mat4) (t : vec3 * vec3 * vec3) : result (list point) :=
  let '(a, b, c) := t in Ok [project_corner r a; project_corner r b; project_corner r c].

Section SpaceMesh.
Variable A : arr_impl.
Variable orient : shpoly -> shpoly.
Variable norm : vec3 -> Qc.
Variable sect : Type.
Variable argsort : list Qc -> list nat.
Variable section_shape : sect -> shape.
(** sl.metadata['to_3D'] *)
Variable to_3D : sect -> mat4.
Variable sord : list nat -> list nat.
Variable thickness normal_tol offset_tol : Qc.
Definition qmesh := mesh Qc vec3 sect.
Definition qsheet := csheet Qc vec3.
Definition mesh_sheets : option (list string) -> qmesh -> result (dict string qsheet) :=
  create_sheets A orient Qc vec3 sect mat4 Qcopp qabs Qcplus Qcminus qltb qleb neg3 sub3 norm dot3 linspace argsort section_shape
    (fun s => no_shift (to_3D s)) project_triangle sord thickness normal_tol offset_tol.
(** 105-108 *)
Definition slice_heights (o : Qc) : list Qc :=
  [o + offset_tol; o - thickness - offset_tol] ++ linspace (o - thickness + offset_tol) (o - offset_tol) 3.
(** 95-102, 123-125, 175-179: the float fields of a sheet; slices[0] of line 123 is the third section *)
Definition mesh_plate (m : qmesh) (c : qsheet) : option plate :=
  match nth_error (m_section _ _ _ m (cs_normal _ _ c) (slice_heights (cs_offset _ _ c))) 2 with
  | Some (Some s) => Some (make_plate (cs_normal _ _ c) (cs_offset _ _ c) thickness (to_3D s))
  | _ => None
  end.
Definition no_plate : plate := make_plate (V3 0 0 0) 0 0 (M4 (V4 (V3 0 0 0) 0) (V4 (V3 0 0 0) 0) (V4 (V3 0 0 0) 0) (V4 (V3 0 0 0) 0)).
Definition mesh_plates (m : qmesh) (cs : dict string qsheet) (k : string) : plate :=
  match dget String.eqb k cs with
  | Some c => match mesh_plate m c with Some pl => pl | None => no_plate end
  | None => no_plate
  end.
(** 39-62 create_sheetplex *)
Definition mesh_sheetplex (pord : dict string sheet -> dict string sheet) (only : option (list string)) (m : qmesh) : result sheetplex :=
  cs <- mesh_sheets only m ;;
  create_intersections (space_frames norm (mesh_plates m cs)) (mkPlex (pord (map (fun e => (fst e, cs_sheet _ _ (snd e))) cs)) []).
End SpaceMesh.
