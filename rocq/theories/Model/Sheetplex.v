(** * Model of plycutter/sheetplex.py and of create_intersections & co. of create_sheetplex.py.

    Float geometry (sheet planes, lstsq, project_point4) enters as an argument [frame]; everything
    computed from its results in exact rationals is modelled.  Fields that only carry float data
    (Sheet.sides, slice_rotation, Intersection.direction/origins) are not modelled. *)
From Verif.Base Require Export PyDict.
From Verif.Model Require Export Geom2d.
From Coq Require Import String DecimalString.

(** sheetplex.py:91-117 Sheet: the exact 2D fields *)
Record sheet := mkSheet {
  sh_id : string; sh_face0 : geom2d; sh_face1 : geom2d; sh_slices_max : geom2d }.
(** 186-223 InterSide *)
Record interside := mkSide {
  is_id : id2; is_inter : string; is_idx : Z; is_sheet : string;
  is_dir : point; is_offs : Qc; is_normal : point; is_min : Qc; is_max : Qc }.
(** 138-163 Intersection *)
Record intersection := mkInter { it_id : string; it_sides : list interside }.
(** 33-54 SheetPlex *)
Record sheetplex := mkPlex { sp_sheets : dict string sheet; sp_inters : dict string intersection }.

(** tuple indexing: [sides[i]] *)
Definition side_at (s : list interside) (i : nat) : result interside :=
  match nth_error s i with Some x => Ok x | None => Err IndexError end.
(** 56-64 interside *)
Definition sp_interside (sp : sheetplex) (id : id2) : result interside :=
  it <- dgetr String.eqb (fst id) (sp_inters sp) ;;
  s0 <- side_at (it_sides it) 0 ;;
  if String.eqb (is_sheet s0) (snd id) then Ok s0
  else
    s1 <- side_at (it_sides it) 1 ;;
    _ <- passert (String.eqb (is_sheet s1) (snd id)) ;;
    Ok s1.
(** 66-71 intersides *)
Definition sp_intersides (sp : sheetplex) (sheet_id : option string) : list interside :=
  filter (fun s => match sheet_id with None => true | Some i => String.eqb (is_sheet s) i end)
         (flat_map it_sides (values (sp_inters sp))).
(** 73-88 limit.  Line 86 reads [iter.sides] - the builtin [iter] has no attribute [sides]. *)
Definition str_mem (x : string) (l : list string) : bool := existsb (String.eqb x) l.
Fixpoint limit_inters (ids : list string) (m : dict string intersection) : result (dict string intersection) :=
  match m with
  | [] => Ok []
  | (k, it) :: r =>
      s0 <- side_at (it_sides it) 0 ;;                                  (* 85 *)
      if str_mem (is_sheet s0) ids then Err AttributeError              (* 86 *)
      else limit_inters ids r
  end.
Definition sp_limit (sp : sheetplex) (ids : list string) : result sheetplex :=
  is <- limit_inters ids (sp_inters sp) ;;
  Ok (mkPlex (filter (fun e => str_mem (fst e) ids) (sp_sheets sp)) is).
(** 169-178 side_by_sheet *)
Definition side_by_sheet (it : intersection) (sheet_id : string) : option interside :=
  find (fun s => String.eqb (is_sheet s) sheet_id) (it_sides it).
(** 225-227 opposite; a negative index counts from the end *)
Definition opposite (s : interside) (sp : sheetplex) : result interside :=
  it <- dgetr String.eqb (is_inter s) (sp_inters sp) ;;
  let i := (1 - is_idx s)%Z in
  let n := Z.of_nat (List.length (it_sides it)) in
  if (i <? 0)%Z then (if (0 <=? n + i)%Z then side_at (it_sides it) (Z.to_nat (n + i)) else Err IndexError)
  else side_at (it_sides it) (Z.to_nat i).
(** 229-232 project_to_1d *)
Definition is_project_to_1d (s : interside) (g : geom2d) : result geom1d :=
  project_to_1d g (is_dir s) (- is_offs s).

(** 259-269 coords *)
Definition finger_coord (s : interside) (fract0 fract1 along across : Qc) : point :=
  let al := along + is_offs s in
  let fract := fract0 + (fract1 - fract0) * across in
  let nc := is_min s + (is_max s - is_min s) * fract in
  padd (pscale al (is_dir s)) (pscale nc (is_normal s)).
(** 249-279: one polygon per interval; an infinite end fails the isinstance assertion (253-254) *)
Definition finger_polygon (s : interside) (fract0 fract1 : Qc) (i : iv) : result geom2d :=
  match i with
  | (Fin a, Fin b) =>
      let c := finger_coord s fract0 fract1 in
      polygon_q true [c a 0; c a 1; c b 1; c b 0]
  | _ => Err AssertionError
  end.
Definition make_fingers (A : arr_impl) (s : interside) (where_ : geom1d) (fract0 fract1 : Qc) : result geom2d :=
  res <- mapM (finger_polygon s fract0 fract1) where_ ;;
  g2_union A res.
Definition make_fingers01 (A : arr_impl) (s : interside) (where_ : geom1d) : result geom2d := make_fingers A s where_ 0 1.

(** ** create_sheetplex.py:299-386 *)
(** The float part of create_intersection/create_inter_side for an ordered pair of sheets: [None] if
    the planes are parallel (316-317), else for each side the 2D direction and the four corner origins
    as rationals (363-372; vFraction raises on NaN and infinities). *)
Definition frame := (point * (point * list point))%type.
Definition frames := sheet -> sheet -> result (option (frame * frame)).

(** 356-357 intersection_id *)
Definition intersection_id (a b : string) : string :=
  if String.ltb b a then (b ++ "," ++ a)%string else (a ++ "," ++ b)%string.
(** 360-386 create_inter_side *)
Definition create_inter_side (inter_id sheet_id : string) (idx : Z) (f : frame) : interside :=
  let '(d, (o0, os)) := f in
  let normal := (snd d, - fst d) in                                     (* 366 *)
  let offs := map (fun o => dot o normal) os in                         (* 374 *)
  mkSide (inter_id, sheet_id) inter_id idx sheet_id d (dot d o0) normal
         (fold_left qmin offs (dot o0 normal)) (fold_left qmax offs (dot o0 normal)).
(** 307-353 create_intersection *)
Definition create_intersection (fr : frames) (sp : sheetplex) (s1 s2 : sheet) : result sheetplex :=
  let id := intersection_id (sh_id s1) (sh_id s2) in
  of <- fr s1 s2 ;;
  match of with
  | None => Ok sp
  | Some (f1, f2) =>
      let inter := mkInter id [create_inter_side id (sh_id s1) 0 f1; create_inter_side id (sh_id s2) 1 f2] in
      Ok (mkPlex (sp_sheets sp) (dset String.eqb id inter (sp_inters sp)))
  end.
(** 299-304 create_intersections *)
Fixpoint create_inters_loop (fr : frames) (sp : sheetplex) (l : list sheet) : result sheetplex :=
  match l with
  | [] => Ok sp
  | s :: r =>
      sp <- foldM (fun sp s' => create_intersection fr sp s s') r sp ;;
      create_inters_loop fr sp r
  end.
Definition create_intersections (fr : frames) (sp : sheetplex) : result sheetplex :=
  create_inters_loop fr sp (values (sp_sheets sp)).

(** 148: the generated sheet ids *)
Definition sheet_name (n : nat) : string := ("s" ++ NilEmpty.string_of_uint (Nat.to_uint n))%string.
