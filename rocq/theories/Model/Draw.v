(** * Model of the drawing: geom2dbase.py:82-131 (to_mpatch, show2d) and sheetbuild.py:282-294 (show_sheet).

    A patch is its path (codes and vertices) and its colour; alpha, line width, label and what show2d does to the view of the axes
    (129-131) are not modelled, nor the [ax] argument of to_mpatch, which nobody passes.  Coordinates are exact, where matplotlib makes
    floats of them. *)
From Verif.Model Require Export Sheetbuild.
From Coq Require Import String.

Inductive pcode := MOVETO | LINETO.
Definition mpath := (list pcode * list point)%type.
(** geom2dbase.py:89-95 add_path *)
Definition add_path (acc : mpath) (new_verts : list point) : result mpath :=
  _ <- passert (1 <? List.length new_verts)%nat ;;                        (* 91 *)
  let new_verts := new_verts ++ firstn 1 new_verts in                     (* 92 *)
  Ok (fst acc ++ MOVETO :: repeat LINETO (List.length new_verts - 1), snd acc ++ new_verts).
(** 97-103: one polygon *)
Definition add_polygon (acc : mpath) (poly : geom2d) : result mpath :=
  ext <- g2_exterior poly ;;
  acc <- add_path acc ext ;;
  hs <- g2_holes poly ;;
  foldM (fun acc hole => add_path acc (rev hole)) hs acc.
(** 82-118 to_mpatch; [None] if there is nothing to draw (105, 113-114) *)
Definition to_mpatch (g : geom2d) : result (option mpath) :=
  ' (codes, verts) <- foldM add_polygon (g2_polygons g) ([], []) ;;
  Ok (match verts with [] => None | _ => Some (codes, verts) end).

(** 123-131 show2d: the patches added to the axes, with their colour *)
Definition patch := (string * mpath)%type.
Definition show2d (g : geom2d) (color : string) : result (list patch) :=
  p <- to_mpatch g ;;
  Ok (match p with Some p => [(color, p)] | None => [] end).

(** sheetbuild.py:287-294: the two patches of a side *)
Definition show_side (A : arr_impl) (sb : sbuild) (s : interside) : result (list patch) :=
  c <- iget (is_id s) (sb_ichosen sb) ;;
  f <- make_fingers A s c (qq 4 10) (qq 6 10) ;;
  red <- show2d f "red" ;;
  k <- iget (is_id s) (sb_iok sb) ;;
  f <- make_fingers A s k (qq 3 10) (qq 7 10) ;;
  blue <- show2d f "blue" ;;
  Ok (red ++ blue).
(** 282-294 show_sheet *)
Definition show_sheet (A : arr_impl) (sp : sheetplex) (sb : sbuild) (sheet_id : string) : result (list patch) :=
  k <- sget sheet_id (sb_sok sb) ;;
  green <- show2d k "green" ;;
  c <- sget sheet_id (sb_schosen sb) ;;
  cyan <- show2d c "cyan" ;;
  l <- mapM (show_side A sb) (sp_intersides sp (Some sheet_id)) ;;
  Ok (green ++ cyan ++ List.concat l).
