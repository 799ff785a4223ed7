(** * Model of plycutter/geometry/impl2d/geom2d_simple_holes.py.

    Everything except from_shapely/from_shapely_polygon, repro and the logging.  The planar
    arrangement (arrangement2d.SegmentArrangement) enters as an argument [arr_impl], so that the
    theorems below it hold for every arrangement code and are instantiated with the model of the
    real one.  [math.sqrt] on floats followed by the rounding of f2q enters as an argument [fsqrt]. *)
From Verif.Model Require Export Plytypes Geom1d Primitive2d Frangle2d.

(** ** Simple_Polygon_With_Holes *)
Record spwh := mkSpwh { outer : list point; holes : list (list point) }.

(** geom2d_simple_holes.py:71-73 check_no_dups *)
Definition check_no_dups (verts : list point) : result unit :=
  passert (forallb (fun e => negb (pt_eqb (fst e) (snd e))) (edges_iter verts)).
Definition check_hole (hole : list point) : result unit :=
  a <- simple_polygon_area hole ;;
  _ <- passert (qltb 0 a) ;;                                            (* 86 *)
  check_no_dups hole.                                                   (* 87 *)
(** 80-88 __init__ *)
Definition Simple_Polygon_With_Holes (o : list point) (hs : list (list point)) : result spwh :=
  _ <- check_no_dups o ;;                                               (* 81 *)
  a <- simple_polygon_area o ;;                                         (* 82 *)
  _ <- passert (qltb 0 a) ;;                                            (* 83 *)
  _ <- mapM check_hole hs ;;                                            (* 85-87 *)
  Ok (mkSpwh o hs).
(** 96-104 transformed_with, for an arbitrary function on vertex lists *)
Definition fpoly (f : list point -> list point) (p : list point) : result (list point) :=
  let p := f p in
  a <- simple_polygon_area p ;;
  Ok (if qltb a 0 then rev p else p).
Definition spwh_transformed_with (f : list point -> list point) (s : spwh) : result spwh :=
  o <- fpoly f (outer s) ;;
  hs <- mapM (fpoly f) (holes s) ;;
  Simple_Polygon_With_Holes o hs.
(** 106-109 *)
Definition spwh_segments (s : spwh) : list segment := edges_iter (outer s) ++ flat_map edges_iter (holes s).
(** 111-115 *)
Definition spwh_area (s : spwh) : result Qc :=
  a <- simple_polygon_area (outer s) ;;
  foldM (fun a h => ha <- simple_polygon_area h ;; Ok (a - ha)) (holes s) a.
(** 117-133 locate *)
Fixpoint locate_holes (hs : list (list point)) (p : point) : result Z :=
  match hs with
  | [] => Ok 1%Z
  | hole :: rest =>
      h <- locate_point_polygon_winding_number hole p ;;
      if (h =? 0)%Z then Ok 0%Z else if (0 <? h)%Z then Ok (-1)%Z else locate_holes rest p
  end.
Definition spwh_locate (s : spwh) (p : point) : result Z :=
  w <- locate_point_polygon_winding_number (outer s) p ;;
  if (w =? -1)%Z then Ok w else if (w =? 0)%Z then Ok w else locate_holes (holes s) p.

(** ** Geom2D_Py_Simple_Holes *)
Definition geom2d := list spwh.

(** 322-324 all_segments, 326-330 locate, 197-213, 332-341, 350-352 *)
Definition all_segments (g : geom2d) : list segment := flat_map spwh_segments g.
Definition g2_locate (g : geom2d) (p : point) : result Z :=
  match g with
  | [] => Ok (-1)%Z
  | s :: r => l <- spwh_locate s p ;; ls <- mapM (fun s => spwh_locate s p) r ;; Ok (fold_left Z.max ls l)
  end.
Definition g2_empty : geom2d := [].
Definition g2_is_empty (g : geom2d) : bool := match g with [] => true | _ => false end.
Definition g2_area (g : geom2d) : result Qc := foldM (fun a s => b <- spwh_area s ;; Ok (a + b)) g 0.
Definition g2_polygons (g : geom2d) : list geom2d := map (fun s => [s]) g.
Definition g2_exterior (g : geom2d) : result (list point) :=
  match g with [s] => Ok (outer s) | _ => Err AssertionError end.
Definition g2_holes (g : geom2d) : result (list (list point)) :=
  match g with [s] => Ok (holes s) | _ => Err AssertionError end.
Definition g2_transformed_with (f : list point -> list point) (g : geom2d) : result geom2d :=
  mapM (spwh_transformed_with f) g.

(** 217-221 the type check of polygon(): a coordinate is an mpq or equals its own int();
    then fr_points (63-68) converts it. int(inf) and int(nan) raise. *)
Definition poly_coord (v : pynum) : result Qc :=
  match v with
  | NMpq q => Ok q
  | NInt z | NMpz z => Ok (zq z)
  | NFrac q | NFloat q => if qeqb q (zq (qfloor q)) then Ok q else Err AssertionError
  | NPosInf | NNegInf => Err PlainException
  | NNan => Err ValueError
  end.
Definition poly_point (p : list pynum) : result point :=
  cs <- mapM poly_coord p ;;
  match cs with [x; y] => Ok (x, y) | _ => Err AssertionError end.      (* 66 *)
(** 222-231 *)
Definition polygon_q (reorient : bool) (points : list point) : result geom2d :=
  a <- (if reorient then simple_polygon_area points else Ok 0) ;;
  let points := if qltb a 0 then rev points else points in              (* 225-226 *)
  s <- Simple_Polygon_With_Holes points [] ;;                           (* 228-229 *)
  b <- g2_area [s] ;;
  _ <- passert (qleb 0 b) ;;                                            (* 230 *)
  Ok [s].
(** 215-231 polygon *)
Definition polygon (points : list (list pynum)) (reorient : bool) : result geom2d :=
  ps <- mapM poly_point points ;; polygon_q reorient ps.
(** geom2dbase.py:48-55 rectangle *)
Definition rectangle (x0 y0 x1 y1 : pynum) : result geom2d :=
  polygon [[x0; y0]; [x0; y1]; [x1; y1]; [x1; y0]] true.

(** 343-348 project_to_1d.  [min]/[max] of an empty array raise ValueError. *)
Definition dot (p q : point) : Qc := fst p * fst q + snd p * snd q.
Definition min_max (l : list Qc) : result (Qc * Qc) :=
  match l with
  | [] => Err ValueError
  | x :: r => Ok (fold_left qmin r x, fold_left qmax r x)
  end.
Definition project_to_1d (g : geom2d) (vec : point) (offs : Qc) : result geom1d :=
  res0 <- g_empty ;;
  foldM (fun res s =>
           ' (lo, hi) <- min_max (map (fun p => dot p vec + offs) (outer s)) ;;
           iv <- Geom1D [[NMpq lo; NMpq hi]] ;;
           g_or res iv) g res0.

(** ** Set operations *)
(** What geom2d_simple_holes needs from arrangement2d.SegmentArrangement: construction from the
    segments, cell_points() in the dict's order, and poly_cells(cells).  [ac_mem] decides whether a
    cell is in a list. *)
Record arr_impl := mkArr {
  arr_t : Type; arr_cell : Type;
  arr_make : list segment -> result arr_t;
  arr_cell_points : arr_t -> result (list (arr_cell * point));
  arr_poly_cells : arr_t -> list arr_cell -> result (list spwh) }.

Section Ops.
Variable A : arr_impl.
Variable fsqrt : Qc -> Qc.

(** the body of both loops: the Boolean value of [op] at the point [pt] (172-176 and 184-189) *)
Definition op_at (geoms : list geom2d) (op : list bool -> bool) (pt : point) : result bool :=
  locs <- mapM (fun g => g2_locate g pt) geoms ;;
  _ <- passert (forallb (fun l => (l =? -1)%Z || (l =? 1)%Z) locs) ;;   (* 173-174 *)
  Ok (op (map (fun l => (0 <? l)%Z) locs)).
Fixpoint select_cells (geoms : list geom2d) (op : list bool -> bool)
         (cps : list (arr_cell A * point)) : result (list (arr_cell A)) :=
  match cps with
  | [] => Ok []
  | (cell, pt) :: rest =>
      b <- op_at geoms op pt ;;
      r <- select_cells geoms op rest ;;
      Ok (if b then cell :: r else r)
  end.
Definition check_cell (geoms : list geom2d) (op : list bool -> bool) (res : geom2d) (pt : point) : result unit :=
  b <- op_at geoms op pt ;;
  new_loc <- g2_locate res pt ;;
  passert (if b then (0 <? new_loc)%Z else (new_loc <? 0)%Z).           (* 190-193 *)

(** 153-195 _arrangement and _arrangement_op (with arrangement_check = True) *)
Definition arrangement_op (geoms : list geom2d) (op : list bool -> bool) : result geom2d :=
  arr <- arr_make A (flat_map all_segments geoms) ;;
  cps <- arr_cell_points A arr ;;
  cells <- select_cells geoms op cps ;;
  polys <- arr_poly_cells A arr cells ;;
  _ <- mapM (fun cp => check_cell geoms op polys (snd cp)) cps ;;
  Ok polys.

Definition any_op (l : list bool) : bool := existsb (fun b => b) l.
Definition or_op (l : list bool) : bool := match l with [a; b] => a || b | _ => false end.
Definition and_op (l : list bool) : bool := match l with [a; b] => a && b | _ => false end.
Definition sub_op (l : list bool) : bool := match l with [a; b] => a && negb b | _ => false end.

(** 271-305 *)
Definition g2_or (a b : geom2d) : result geom2d :=
  if g2_is_empty a then Ok b else if g2_is_empty b then Ok a else arrangement_op [a; b] or_op.
Definition g2_and (a b : geom2d) : result geom2d := arrangement_op [a; b] and_op.
Definition g2_sub (a b : geom2d) : result geom2d :=
  if g2_is_empty b then Ok a else arrangement_op [a; b] sub_op.

(** 202-207 union and 424-446 union_tree with UNION_N = 64 (line 140).  [union_tree] only calls
    [union] on at most 64 operands. *)
Definition UNION_N := 64%nat.
Fixpoint chunks {X} (fuel : nat) (l : list X) : list (list X) :=
  match l, fuel with
  | [], _ => []
  | _, O => [l]
  | _, S f => firstn UNION_N l :: chunks f (skipn UNION_N l)
  end.
Definition union_slice (slc : list geom2d) : result geom2d :=
  match slc with
  | [g] => Ok g                                                          (* 438-440 *)
  | _ => arrangement_op slc any_op                                       (* 433 *)
  end.
Fixpoint union_tree_loop (fuel : nat) (geoms : list geom2d) : result geom2d :=
  match geoms with
  | [] => Ok g2_empty                                                    (* 443-444 *)
  | [g] => Ok g                                                          (* 446 *)
  | _ => match fuel with
         | O => Err OutOfFuel
         | S f => nxt <- mapM union_slice (chunks (length geoms) geoms) ;; union_tree_loop f nxt
         end
  end.
Definition union_tree (geoms : list geom2d) : result geom2d := union_tree_loop (length geoms) geoms.
Definition g2_union (geoms : list geom2d) : result geom2d :=
  if (UNION_N <? length geoms)%nat then union_tree geoms else arrangement_op geoms any_op.

(** ** Buffering *)
Definition padd (p q : point) : point := (fst p + fst q, snd p + snd q).
Definition psub (p q : point) : point := (fst p - fst q, snd p - snd q).
Definition pscale (k : Qc) (p : point) : point := (k * fst p, k * snd p).

(** 45-60 buffer_of_size with n = 8 *)
Definition buffer_of_size (sz : Qc) : list point :=
  map (fun i =>
         let v := frangle_unit_square_vector (zq (Z.of_nat i) * MAX_FRANGLE / zq 8) in
         let vlen2 := fst v * fst v + snd v * snd v in
         let vlen := fsqrt vlen2 / sz in
         (fst v / vlen, snd v / vlen)) (seq 0 8).

(** 560-600 simplify_degeneracies.  [tri a b c] is the cached area. *)
Definition tri_area (a b c : point) : Qc := area_loop 0 c [a; b; c].
Definition nthp (l : list point) (i : Z) : point := nth (Z.to_nat (i mod Z.of_nat (length l))) l (0, 0).
Fixpoint simp_inner (fuel : nat) (i : nat) (verts : list point) (nz changed : bool) : result (list point * bool * bool) :=
  if (i <? length verts)%nat then
    match fuel with
    | O => Err OutOfFuel
    | S f =>
        let iz := Z.of_nat i in
        let vpp := nthp verts (iz - 2) in
        let vp := nthp verts (iz - 1) in
        let v := nthp verts iz in
        let vn := nthp verts (iz + 1) in
        let nz := if negb (qeqb (tri_area vp v vn) 0) then true else nz in
        if negb (qeqb (tri_area vpp vp v) 0) && qeqb (tri_area vp v vn) 0
        then simp_inner f i (firstn i verts ++ skipn (S i) verts) nz true
        else simp_inner f (S i) verts nz changed
    end
  else Ok (verts, nz, changed).
Fixpoint simp_outer (fuel : nat) (verts : list point) : result (list point) :=
  match fuel with
  | O => Err OutOfFuel
  | S f =>
      ' (verts, nz, changed) <- simp_inner (length verts) 0 verts false false ;;
      if negb nz && negb (length verts =? 0)%nat then simp_outer f (tl verts)
      else if changed then simp_outer f verts else Ok verts
  end.
Definition simplify_degeneracies (verts : list point) : result (list point) := simp_outer (S (length verts)) verts.

(** 472-482: the sorted dict frangle -> edge index; later equal frangles are left out *)
Fixpoint edge_starts (i : nat) (es : list segment) (d : list (Qc * nat)) : result (list (Qc * nat)) :=
  match es with
  | [] => Ok d
  | (v0, v1) :: rest =>
      fr <- vector_frangle (psub v1 v0) ;;
      _ <- passert (qleb 0 fr) ;;
      if existsb (fun e => qeqb (fst e) fr) d then edge_starts (S i) rest d
      else edge_starts (S i) rest (d ++ [(fr, i); (fr + MAX_FRANGLE, i); (fr - MAX_FRANGLE, i)])
  end.
(** 487-490 find_vertex_on: the entry with the largest key in [-8, frangle] *)
Definition better (e : Qc * nat) (b : option (Qc * nat)) : option (Qc * nat) :=
  match b with None => Some e | Some b' => if qltb (fst b') (fst e) then Some e else b end.
Definition find_vertex_on (n : nat) (d : list (Qc * nat)) (fr : Qc) : result nat :=
  match fold_left (fun b e => if qleb (- (zq 8)) (fst e) && qleb (fst e) fr then better e b else b) d None with
  | Some (_, i) => Ok (S i mod n)%nat
  | None => Err IndexError
  end.
(** np.arange(a, 1 + (b if b >= a else b + n)) *)
Definition idx_range (a b n : nat) : list nat := seq a (S (if (a <=? b)%nat then b - a else b + n - a)).
(** 528-540: insert v where the corner would poke through; [adds] is decided on the original list *)
Fixpoint insert_pokes (sign : Qc) (v : point) (verts : list point) : list point :=
  match verts with
  | a :: ((b :: _) as rest) =>
      if qltb (sign * tri_area a b v) 0 then v :: a :: insert_pokes sign v rest else a :: insert_pokes sign v rest
  | _ => verts
  end.
Definition ribbon_part (cpoly : list point) (sign : Qc) (d : list (Qc * nat)) (vp v vn : point) : result (list (list point)) :=
  let n := length cpoly in
  let cp i := nth (i mod n)%nat cpoly (0, 0) in
  pfr <- vector_frangle (psub v vp) ;;                                   (* 494-495 *)
  nfr <- vector_frangle (psub vn v) ;;
  iprev <- find_vertex_on n d pfr ;;
  inext <- find_vertex_on n d nfr ;;
  let others := [padd vn (pscale sign (cp inext)); vn; v] in             (* 501 *)
  let '(idxs, others) :=
    if qltb (qmod (nfr - pfr) MAX_FRANGLE) FRANGLE_180
    then (if qltb sign 0 then [inext] else idx_range iprev inext n, others)             (* 502-507 *)
    else (if qltb 0 sign then [inext] else idx_range inext iprev n, rev others) in      (* 508-514 *)
  let '(idxs, others) := if qltb sign 0 then (rev idxs, rev others) else (idxs, others) in  (* 521-523 *)
  let verts := map (fun idx => padd v (pscale sign (cp idx))) idxs in
  verts <- simplify_degeneracies (insert_pokes sign v verts ++ others) ;;
  Ok (if (2 <? length verts)%nat then [verts] else []).
(** 453-456 _triple_vertices_iter *)
Definition triples (l : list point) : list (point * point * point) :=
  map (fun i => (nthp l (Z.of_nat i - 1), nthp l (Z.of_nat i), nthp l (Z.of_nat i + 1))) (seq 0 (length l)).
(** 458-557 minkowski_ribbon_simple_convex *)
Definition minkowski_ribbon_simple_convex (spoly cpoly : list point) (sign : Qc) : result (list (list point)) :=
  _ <- passert (2 <? length cpoly)%nat ;;
  _ <- passert (qeqb sign (- (1)) || qeqb sign 1) ;;
  d <- edge_starts 0 (edges_iter cpoly) [] ;;
  parts <- mapM (fun t => let '(vp, v, vn) := t in ribbon_part cpoly sign d vp v vn) (triples spoly) ;;
  Ok (concat parts).

Definition single (o : list point) : result geom2d := s <- Simple_Polygon_With_Holes o [] ;; Ok [s].
Definition reorient (e : list point) : result (list point) :=
  a <- simple_polygon_area e ;; Ok (if qltb a 0 then rev e else e).
(** 354-404 _minkowski_convex_op.  The recursion on holes (391-395) has depth 2. *)
Fixpoint minkowski_convex_op (depth : nat) (g : geom2d) (cpoly : list point) (sign : Qc) : result geom2d :=
  match depth with
  | O => Err OutOfFuel
  | S depth' =>
      _ <- passert (negb (qeqb sign 0)) ;;
      l <- locate_point_polygon_winding_number cpoly (0, 0) ;;
      ' (offset, cpoly) <-
        (if negb (l =? 1)%Z then                                           (* 360-363 *)
           match cpoly with
           | c0 :: c1 :: c2 :: _ =>
               let offset := pscale (sign / zq 3) (padd (padd c0 c1) c2) in
               let cpoly := map (fun p => psub p (pscale sign offset)) cpoly in
               l' <- locate_point_polygon_winding_number cpoly (0, 0) ;;
               _ <- passert (l' =? 1)%Z ;;
               Ok (offset, cpoly)
           | _ => Err IndexError
           end
         else Ok ((0, 0), cpoly)) ;;
      let shift := map (fun p => padd p offset) in
      parts <- mapM (fun s =>
                 t <- spwh_transformed_with shift s ;;
                 p <- single (outer t) ;;                                  (* 372-374 *)
                 simples <- minkowski_ribbon_simple_convex (outer s) cpoly sign ;;
                 ext <- mapM (fun e => e' <- reorient e ;; single (shift e')) simples ;;   (* 380-386 *)
                 Ok (p, ext)) g ;;
      let exts := flat_map snd parts in
      let pos := if qltb 0 sign then flat_map (fun pe => fst pe :: snd pe) parts else map fst parts in
      let neg := if qltb 0 sign then [] else exts in
      hneg <- mapM (fun hole => h <- single hole ;; minkowski_convex_op depth' h cpoly (- sign)) (flat_map holes g) ;;  (* 391-394 *)
      gpos <- union_tree pos ;;                                            (* 400-402 *)
      gneg <- union_tree (neg ++ hneg) ;;
      g2_sub gpos gneg
  end.
(** 307-320 buffer *)
Definition g2_buffer (g : geom2d) (amount : pynum) : result geom2d :=
  if match pval amount with Some (Fin a) => qeqb a 0 | _ => false end then Ok g   (* 313-314 *)
  else
    q <- FractionFromExact amount ;;
    minkowski_convex_op 2 g (buffer_of_size (qabs q)) (if qltb 0 q then 1 else - (1)).
End Ops.
