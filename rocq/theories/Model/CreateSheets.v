(** * Model of create_sheetplex.py:39-296 (create_sheetplex, create_sheets, _find_facet_status,
    _facet_plane, find_all_facets) and of Geom2D.from_shapely.

    All float arithmetic (numpy float64), trimesh's section_multiplane, shapely's unary_union and
    orient enter as arguments without any assumption: the type of floats [fl], of 3-vectors [vec],
    the comparison and arithmetic functions.  Everything the code itself decides from their results
    is modelled.  Trimesh's per-triangle arrays are total functions of the triangle or vertex number;
    its per-facet arrays, which find_all_facets extends, are lists. *)
From Verif.Model Require Export Sheetplex.
From Coq Require Import String.

(** ** Geom2D.from_shapely *)
(** fr_points, geom2d_simple_holes.py:63-68: gmpy2.mpq of a float, exact *)
Definition mpq_of (v : pynum) : result Qc :=
  match v with
  | NInt z | NMpz z => Ok (zq z)
  | NFrac q | NMpq q | NFloat q => Ok q
  | NPosInf | NNegInf => Err PlainException                              (* OverflowError *)
  | NNan => Err ValueError
  end.
Definition fr_point (p : list pynum) : result point :=
  match p with
  | [x; y] => a <- mpq_of x ;; b <- mpq_of y ;; Ok (a, b)
  | _ => Err AssertionError                                             (* 66 *)
  end.
(** a shapely polygon: exterior.coords and the coords of the interiors *)
Record shpoly := mkShpoly { sp_ext : list (list pynum); sp_ints : list (list (list pynum)) }.
(** a shapely geometry.  [None]: a member of a collection that is not a polygon *)
Inductive shape := ShPolygon (p : shpoly) | ShMulti (l : list shpoly) | ShCollection (l : list (option shpoly)) | ShOther.

(** 260-263 sh_points *)
Definition sh_points (pts : list (list pynum)) : result (list point) :=
  ps <- mapM fr_point pts ;;
  match ps with
  | [] => Err IndexError
  | p :: _ => _ <- passert (pt_eqb p (last ps p)) ;; Ok (removelast ps)
  end.
Section Shapely.
(** shapely.geometry.polygon.orient(sh, -1) *)
Variable orient : shpoly -> shpoly.
(** 255-269 from_shapely_polygon *)
Definition from_shapely_polygon (sh : shpoly) : result geom2d :=
  let sh := orient sh in
  ext <- sh_points (sp_ext sh) ;;
  ints <- mapM (fun h => ps <- sh_points h ;; Ok (rev ps)) (sp_ints sh) ;;
  s <- Simple_Polygon_With_Holes ext ints ;;
  a <- g2_area [s] ;;
  _ <- passert (qleb 0 a) ;;                                            (* 268 *)
  Ok [s].
(** 233-253 from_shapely *)
Definition from_shapely (sh : shape) : result geom2d :=
  match sh with
  | ShPolygon p => from_shapely_polygon p
  | ShMulti l => gs <- mapM from_shapely_polygon l ;; Ok (List.concat gs)
  | ShCollection l =>
      gs <- mapM (fun o => match o with Some p => from_shapely_polygon p | None => Err AttributeError end) l ;;
      Ok (List.concat gs)
  | ShOther => Err PlainException                                       (* 253 *)
  end.
End Shapely.

Section CreateSheets.
Variable A : arr_impl.
Variable orient : shpoly -> shpoly.
(** float64 and its vectors *)
Variable fl vec sect rot : Type.
Variable fneg fabs : fl -> fl.
Variable fadd fsub : fl -> fl -> fl.
Variable flt fle : fl -> fl -> bool.
Variable vneg : vec -> vec.
Variable vsub : vec -> vec -> vec.
Variable vnorm : vec -> fl.
Variable vdot : vec -> vec -> fl.
Variable linspace : fl -> fl -> nat -> list fl.
Variable argsort : list fl -> list nat.
(** shapely.ops.unary_union(sl.polygons_full) *)
Variable section_shape : sect -> shape.
(** sl.metadata['to_3D'] without the translation *)
Variable section_rot : sect -> rot.
(** lines 161-163: the first two coordinates of the rotated corners, as rationals *)
Variable project : rot -> vec * vec * vec -> result (list point).
(** iteration order of a set of numbers *)
Variable sord : list nat -> list nat.

(** the trimesh mesh *)
Record mesh := mkMesh {
  m_nfaces : nat; m_ntri : nat;
  m_face : nat -> nat * nat * nat;
  m_triangle : nat -> vec * vec * vec;
  m_face_normal : nat -> vec;
  m_area_face : nat -> fl;
  m_vertex : nat -> vec;
  m_facets : list (list nat);
  m_facets_normal : list vec;
  m_facets_origin : option (list vec);
  m_facets_area : list fl;
  m_facets_boundary : list (list (nat * nat));
  m_section : vec -> list fl -> list (option sect) }.

(** ** find_all_facets *)
(** the Namespace of 290-296 *)
Record all_facets := mkFacets {
  af_facets : list (list nat); af_normals : list vec; af_origins : list vec;
  af_areas : list fl; af_boundaries : list (list (nat * nat)) }.
Definition nat_mem (x : nat) (l : list nat) : bool := existsb (Nat.eqb x) l.
(** 263-277: the triangles no facet contains *)
Definition triangles_left (m : mesh) : list nat :=
  fold_left (fun left facet => filter (fun t => negb (nat_mem t facet)) left) (m_facets m) (seq 0 (m_ntri m)).
(** 279-288 *)
Definition add_triangle (m : mesh) (af : all_facets) (t : nat) : all_facets :=
  let '(a, b, c) := m_face m t in
  let '(p, _, _) := m_triangle m t in
  mkFacets (af_facets af ++ [[t]]) (af_normals af ++ [m_face_normal m t]) (af_origins af ++ [p])
           (af_areas af ++ [m_area_face m t]) (af_boundaries af ++ [[(a, b); (b, c); (c, a)]]).
(** 249-296 *)
Definition find_all_facets (m : mesh) : result all_facets :=
  _ <- passert (m_nfaces m =? m_ntri m)%nat ;;                          (* 262 *)
  Ok (fold_left (add_triangle m) (sord (triangles_left m))
        (mkFacets (m_facets m) (m_facets_normal m) (match m_facets_origin m with Some l => l | None => [] end)
                  (m_facets_area m) (m_facets_boundary m))).

(** ** create_sheets *)
Definition at_ {X} (l : list X) (i : nat) : result X := match nth_error l i with Some x => Ok x | None => Err IndexError end.
(** 240-245 _facet_plane *)
Definition facet_plane (af : all_facets) (f : nat) : result (vec * fl) :=
  origin <- at_ (af_origins af) f ;;
  normal <- at_ (af_normals af) f ;;
  Ok (normal, vdot origin normal).

(** what _find_facet_status does with a facet *)
Inductive fstatus := Same | Opposed | Within | Other.
Section Status.
Variable thickness normal_tol offset_tol : fl.
(** 190-233 _find_facet_status: the classification *)
Definition same_plane (n : vec) (o : fl) (n' : vec) (o' : fl) : bool :=
  flt (vnorm (vsub n' n)) normal_tol && flt (fabs (fsub o' o)) offset_tol.                         (* 202-203 *)
Definition opposed_plane (n : vec) (o : fl) (n' : vec) (o' : fl) : bool :=
  flt (vnorm (vsub (vneg n') n)) normal_tol && flt (fabs (fadd (fsub (fneg o') o) thickness)) offset_tol.   (* 209-211 *)
Definition in_slab (m : mesh) (n : vec) (o : fl) (v : nat) : bool :=
  fle (fsub (fsub o thickness) offset_tol) (vdot (m_vertex m v) n) && fle (vdot (m_vertex m v) n) (fadd o offset_tol).   (* 225-227 *)
Definition facet_status (m : mesh) (af : all_facets) (n : vec) (o : fl) (f : nat) : result fstatus :=
  ' (n', o') <- facet_plane af f ;;
  if same_plane n o n' o' then Ok Same
  else if opposed_plane n o n' o' then Ok Opposed
  else if flt (fabs (vdot n' n)) normal_tol then                        (* 217 *)
    b <- at_ (af_boundaries af) f ;;
    Ok (if forallb (fun e => in_slab m n o (fst e) && in_slab m n o (snd e)) b then Within else Other)
  else Ok Other.

(** the lists same, opposed, within and the set todo_facets during the loop of 135-143 *)
Record groups := mkGroups { gr_same : list nat; gr_opposed : list nat; gr_within : list nat; gr_todo : list nat }.
Definition remove_nat (x : nat) (l : list nat) : list nat := filter (fun y => negb (x =? y)%nat) l.
Definition sort_facet (m : mesh) (af : all_facets) (facet : nat) (n : vec) (o : fl) (g : groups) (f : nat) : result groups :=
  _ <- passert (negb (f =? facet)%nat) ;;                               (* 136 *)
  s <- facet_status m af n o f ;;
  Ok match s with
     | Same => mkGroups (gr_same g ++ [f]) (gr_opposed g) (gr_within g) (remove_nat f (gr_todo g))
     | Opposed => mkGroups (gr_same g) (gr_opposed g ++ [f]) (gr_within g) (remove_nat f (gr_todo g))
     | Within => mkGroups (gr_same g) (gr_opposed g) (gr_within g ++ [f]) (remove_nat f (gr_todo g))
     | Other => g
     end.

(** 157-166: the area supported by the triangles of the facets [fs] *)
Definition add_tri (m : mesh) (r : rot) (g : geom2d) (t : nat) : result geom2d :=
  verts <- project r (m_triangle m t) ;;
  p <- polygon_q true verts ;;
  g2_or A g p.
Definition face_support (m : mesh) (af : all_facets) (r : rot) (fs : list nat) : result geom2d :=
  foldM (fun g f => ts <- at_ (af_facets af) f ;; foldM (add_tri m r) ts g) fs g2_empty.
(** functools.reduce *)
Definition reduce (op : geom2d -> geom2d -> result geom2d) (l : list geom2d) : result geom2d :=
  match l with [] => Err TypeError | g :: r => foldM op r g end.

(** A sheet with, as ghost fields, the facets it was made of and its three sections. *)
Record csheet := mkCsheet { cs_groups : groups; cs_normal : vec; cs_offset : fl; cs_slices : list geom2d; cs_sheet : sheet }.
(** the variables todo_facets, sheets and idx; ghost: the groups that became no sheet *)
Record cstate := mkCstate { c_todo : list nat; c_sheets : dict string csheet; c_idx : nat; c_dropped : list groups }.

Definition section_geom (s : sect) : result geom2d := from_shapely orient (section_shape s).
Definition need_section (s : option sect) : result sect := match s with Some s => Ok s | None => Err AssertionError end.
(** 92-185: the body of the loop; [only] is None or a set of strings *)
Definition create_one (only : option (list string)) (m : mesh) (af : all_facets) (st : cstate) (facet : nat) : result cstate :=
  if negb (nat_mem facet (c_todo st)) then Ok st else                   (* 92 *)
  let todo := remove_nat facet (c_todo st) in                           (* 93 *)
  ' (n, o) <- facet_plane af facet ;;                                   (* 95 *)
  let heights := [fadd o offset_tol; fsub (fsub o thickness) offset_tol]
                 ++ linspace (fadd (fsub o thickness) offset_tol) (fsub o offset_tol) 3 in   (* 105-108 *)
  let sls := m_section m n heights in                                   (* 110 *)
  _ <- mapM (fun s => match s with Some s => section_geom s | None => Ok g2_empty end) (firstn 2 sls) ;;   (* 111-115 *)
  sls <- mapM need_section (skipn 2 sls) ;;                             (* 116-121 *)
  s0 <- at_ sls 0 ;;                                                    (* 123 *)
  let r := section_rot s0 in
  slices <- mapM section_geom sls ;;                                    (* 127-129 *)
  gr <- foldM (sort_facet m af facet n o) (sord todo) (mkGroups [facet] [] [] todo) ;;   (* 131-143 *)
  match gr_opposed gr with
  | [] => Ok (mkCstate (gr_todo gr) (c_sheets st) (c_idx st) (gr :: c_dropped st))           (* 144-146 *)
  | _ =>
      let id := sheet_name (c_idx st) in                                (* 148 *)
      f0 <- face_support m af r (gr_same gr) ;;                         (* 156-166 *)
      f1 <- face_support m af r (gr_opposed gr) ;;
      smax <- reduce (g2_or A) slices ;;                                (* 168 *)
      smin <- reduce (g2_and A) slices ;;                               (* 169 *)
      if match only with Some l => negb (str_mem id l) | None => false end
      then Ok (mkCstate (gr_todo gr) (c_sheets st) (S (c_idx st)) (gr :: c_dropped st))      (* 171-173 *)
      else
        both <- g2_and A f0 f1 ;;                                       (* 182 *)
        Ok (mkCstate (gr_todo gr) (dset String.eqb id (mkCsheet gr n o slices (mkSheet id f0 f1 smax)) (c_sheets st)) (S (c_idx st)) (c_dropped st))
  end.
(** 65-187 *)
Definition create_loop (only : option (list string)) (m : mesh) (af : all_facets) : result cstate :=
  foldM (create_one only m af) (rev (argsort (af_areas af))) (mkCstate (seq 0 (List.length (af_facets af))) [] 0 []).
Definition create_sheets (only : option (list string)) (m : mesh) : result (dict string csheet) :=
  af <- find_all_facets m ;;
  st <- create_loop only m af ;;
  Ok (c_sheets st).

(** 39-62 create_sheetplex; [pord] is the iteration order of the pmap of line 58 *)
Definition create_sheetplex (fr : frames) (pord : dict string sheet -> dict string sheet) (only : option (list string)) (m : mesh) : result sheetplex :=
  cs <- create_sheets only m ;;
  create_intersections fr (mkPlex (pord (map (fun e => (fst e, cs_sheet (snd e))) cs)) []).
End Status.
End CreateSheets.

(** command_line.py:61, create_sheetplex.py:80: set(s) of a string is the set of its characters *)
Fixpoint char_set (s : string) : list string :=
  match s with EmptyString => [] | String c r => String c EmptyString :: char_set r end.
