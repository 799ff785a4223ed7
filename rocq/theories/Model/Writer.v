(** * Model of plycutter/writer.py.

    The DXF library is not modelled: the result is the list of polylines given to add_lwpolyline, in
    order.  Coordinates are exact; [None] is NaN (the offsets of an empty sheet). *)
From Verif.Model Require Export Geom2d Aabb.
From Verif.Base Require Export PyDict.
From Coq Require Import String.

Definition polyline := list nvec.
Definition margin : Qc := zq 3.                                                     (* writer.py:42 *)
(** writer.py:35-40: bounding box of the outer rings *)
Definition sheet_box (g : geom2d) : aabb :=
  fold_left (fun b poly => match poly with s :: _ => fold_left include_point (outer s) b | [] => b end)
            (g2_polygons g) (AABB None None).
(** writer.py:47-51: the ring closed and shifted.  An empty ring would make numpy refuse the addition;
    the rings of a Geom2D are not empty *)
Definition draw_coords (off : nvec) (coords : list point) : polyline :=
  map (fun p => (n_add (Some (fst p)) (fst off), n_add (Some (snd p)) (snd off))) (coords ++ firstn 1 coords).
(** writer.py:53-56 *)
Definition draw_sheet (off : nvec) (g : geom2d) : list polyline :=
  flat_map (fun poly => match poly with s :: _ => draw_coords off (outer s) :: map (draw_coords off) (holes s) | [] => [] end) (g2_polygons g).
(** writer.py:32-56: one list of polylines per sheet *)
Fixpoint place (x : Aabb.num) (l : list (string * geom2d)) : list (string * list polyline) :=
  match l with
  | [] => []
  | (name, g) :: r =>
      let b := sheet_box g in
      let x_offset := n_add (n_sub x (fst (lower b))) (Some margin) in               (* 43 *)
      let y_offset := n_sub (Some 0) (snd (lower b)) in                              (* 44 *)
      let x' := n_add x (n_add (n_sub (fst (upper b)) (fst (lower b))) (Some margin)) in   (* 45 *)
      (name, draw_sheet (x_offset, y_offset) g) :: place x' r
  end.
Definition write_dxf (geoms : dict string geom2d) : list (string * list polyline) := place (Some 0) geoms.
