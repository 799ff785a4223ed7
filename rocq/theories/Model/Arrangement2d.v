(** * Model of plycutter/geometry/impl2d/arrangement2d.py: class SegmentArrangement.

    Modelled: everything that Geom2D uses, that is __init__ with all its parts, cell_points and
    poly_cells.  Not modelled: __init__find_cell_hierarchy, __init__find_cell_points_new,
    __init__qtree, the quadtree branch of ray_halfedge_query_general_ray (it raises before), the slow
    ray query, cell_topology, the dead code after the [return] of poly_cells: nothing calls them.  The
    attributes [sids], [nedges], [contains], [containeds] and the globals for debugging are never read.

    Segments are pairs of rational points, so the class assertions of 184-191 hold and Fraction(x) is x.
    The iteration order of a Python set is read from [orc], a family of streams of arbitrary numbers
    (one stream per place in the code; see [pick], [shuffle] in CellMerger.v); the theorems quantify
    over all of them.  Loops have fuel; the theorems exclude [OutOfFuel]. *)
From Verif.Model Require Export Geom2d Scan2d.
From Verif.Model Require Import SegmentTree CellMerger Aabb.

(** first occurrences, as a Python set filled in this order *)
Fixpoint dedup_by {A} (eqb : A -> A -> bool) (l : list A) : list A :=
  match l with
  | [] => []
  | x :: r => x :: filter (fun y => negb (eqb x y)) (dedup_by eqb r)
  end.
Definition permuted {A} (o : nat -> nat) (l : list A) : list A := fst (shuffle o (length l) 0 l).

(** ** Vertices *)
(** arrangement2d.py:43-55 _Vertex: the SortedList of (key, half-edge) in increasing key order *)
Definition vertex := list (Qc * segment).
(** 47-50 _key.  The assertion [half_edge[0] == self.coordinates] is at the callers. *)
Definition he_key (e : segment) : result Qc := vector_frangle (psub (snd e) (fst e)).
(** 57-62 add_half_edge *)
Definition add_half_edge (c : point) (v : vertex) (e : segment) : result vertex :=
  _ <- passert (pt_eqb (fst e) c) ;;
  k <- he_key e ;;
  _ <- passert (negb (existsb (fun x => qeqb (fst x) k) v)) ;;                  (* 60 *)
  Ok (insert_by (fun a b => qltb (fst a) (fst b)) (k, e) v).
(** 64-79 get_next_cw *)
Definition get_next_cw (c : point) (v : vertex) (e : segment) : result segment :=
  _ <- passert (pt_eqb (fst e) c) ;;                                            (* 65 *)
  k <- he_key e ;;
  match filter (fun x => qltb k (fst x)) v with
  | x :: _ => Ok (snd x)                                                        (* 67-70 *)
  | [] => match v with x :: _ => Ok (snd x) | [] => Err AssertionError end      (* 71-77 *)
  end.
(** 81-104 get_next_ccw *)
Definition get_next_ccw (c : point) (v : vertex) (e : segment) : result segment :=
  _ <- passert (pt_eqb (fst e) c) ;;                                            (* 82 *)
  k <- he_key e ;;
  nxt <- match rev (filter (fun x => qltb (fst x) k) v) with
         | x :: _ => Ok (snd x)                                                 (* 84-88 *)
         | [] => match rev v with x :: _ => Ok (snd x) | [] => Err AssertionError end  (* 89-96 *)
         end ;;
  prev <- get_next_cw c v nxt ;;                                                (* 98 *)
  _ <- passert (seg_eqb prev e) ;;                                              (* 99 *)
  Ok nxt.

(** ** The graph: half-edges and vertices *)
Definition rev_seg (e : segment) : segment := (snd e, fst e).
(** self.half_edges.keys() in insertion order, and self.vertices *)
Definition graph := (list segment * list (point * vertex))%type.
(** 160-167 _add_to_edge *)
Definition add_to_edge (g : graph) (v0 v1 : point) : result graph :=
  let '(hes, vs) := g in
  if existsb (seg_eqb (v0, v1)) hes then Ok g                                   (* 161 *)
  else
    x0 <- dgetr pt_eqb v0 vs ;; y0 <- add_half_edge v0 x0 (v0, v1) ;;           (* 164 *)
    let vs := dset pt_eqb v0 y0 vs in
    x1 <- dgetr pt_eqb v1 vs ;; y1 <- add_half_edge v1 x1 (v1, v0) ;;           (* 165 *)
    Ok (hes ++ [(v0, v1); (v1, v0)], dset pt_eqb v1 y1 vs).                     (* 162-163 *)

(** 183 tuple(sorted(seg)) *)
Definition sorted_seg (s : segment) : segment := if pt_ltb (snd s) (fst s) then rev_seg s else s.
(** 180-195: the set of normalized segments, in an arbitrary order *)
Definition simple_segments (o : nat -> nat) (sid_segments : list segment) : list segment :=
  permuted o (dedup_by seg_eqb (map sorted_seg sid_segments)).
(** 208-231: the calls of add_vertex with their two arguments, in order *)
Definition vertex_calls (segments : list segment) : result (list (point * list segment)) :=
  _ <- passert (forallb (fun s => negb (pt_eqb (fst s) (snd s))) segments) ;;   (* 225 *)
  inters <- all_segment_intersections segments ;;                               (* 229-231 *)
  Ok (flat_map (fun s => [(fst s, [s]); (snd s, [s])]) segments ++ inters).     (* 226-227 *)
(** 215-217: the assertion of add_vertex *)
Definition check_vertex (v : point) (s : segment) : result unit :=
  lsf <- line_segment_point_fraction s v ;;
  passert (match lsf with Some f => qleb 0 f && qleb f 1 | None => false end).
(** 214 the set of vertices and 219 segment_vertices[s], both in insertion order *)
Definition all_vertices (calls : list (point * list segment)) : list point := dedup_by pt_eqb (map fst calls).
Definition segment_vertices (calls : list (point * list segment)) (s : segment) : list point :=
  dedup_by pt_eqb (map fst (filter (fun c => existsb (seg_eqb s) (snd c)) calls)).
(** 283 *)
Definition dist2 (p q : point) : Qc :=
  (fst p - fst q) * (fst p - fst q) + (snd p - snd q) * (snd p - snd q).
Fixpoint add_chain (g : graph) (l : list point) : result graph :=
  match l with
  | v0 :: ((v1 :: _) as r) => g' <- add_to_edge g v0 v1 ;; add_chain g' r       (* 287-291 *)
  | _ => Ok g
  end.
(** 255-291 for one segment.  The keys of the sort are different, so the order in which Python lists
    the set segment_vertices[k] does not matter. *)
Definition add_segment_edges (calls : list (point * list segment)) (g : graph) (s : segment) : result graph :=
  let vs := sort_by (fun a b => qltb (dist2 a (fst s)) (dist2 b (fst s))) (segment_vertices calls (sorted_seg s)) in
  _ <- passert (2 <=? length vs)%nat ;;                                         (* 286 *)
  add_chain g vs.
(** 294-307: the invariant check at one vertex *)
Fixpoint check_turns (n : nat) (c : point) (v : vertex) (he0 cw ccw : segment) : result unit :=
  match n with
  | O => _ <- passert (seg_eqb cw he0) ;; passert (seg_eqb ccw he0)             (* 306-307 *)
  | S n' =>
      cw <- get_next_cw c v cw ;;
      ccw <- get_next_ccw c v ccw ;;
      _ <- passert (match n' with
                    | O => true
                    | _ => negb (seg_eqb cw he0) && negb (seg_eqb ccw he0) end) ;;  (* 302-305 *)
      check_turns n' c v he0 cw ccw
  end.
Definition check_vertex_order (cv : point * vertex) : result unit :=
  match snd cv with
  | [] => Err IndexError                                                        (* 295 *)
  | (_, he0) :: _ => check_turns (length (snd cv)) (fst cv) (snd cv) he0 he0 he0
  end.

(** ** The general direction *)
(** 574-602 _find_general_vector *)
Definition find_general_vector (hes : list segment) : result point :=
  frs <- mapM he_key hes ;;
  let frangles := sort_by qltb
    (flat_map (fun f => map (fun i => qmod (f + zq i * FRANGLE_90) MAX_FRANGLE) [0; 1; 2; 3]%Z) frs) in
  match frangles with
  | [] => Ok (0, 1)                                                             (* 588-589 *)
  | first :: _ =>
      match filter (fun f => qltb first f) frangles with
      | second :: _ => Ok (frangle_unit_square_vector ((first + second) / q2))  (* 602 *)
      | [] => Err AssertionError                                                (* 597 *)
      end
  end.
(** 310: NP(v)[::-1] * (-1, 1) *)
Definition general_normal (v : point) : point := (- snd v, fst v).
(** 558-572 __init__gstree *)
Definition gseg (normal : point) (e : segment) : seg segment :=
  let p0 := dot normal (fst e) in let p1 := dot normal (snd e) in
  if qltb p1 p0 then (p1, p0, e) else (p0, p1, e).
Definition init_gstree (normal : point) (hes : list segment) : result (stree segment) :=
  _ <- passert (forallb (fun e => pt_ltb (fst e) (snd e) || pt_ltb (snd e) (fst e)) hes) ;;   (* 569 *)
  SegmentTree1D (map (gseg normal) (filter (fun e => pt_ltb (fst e) (snd e)) hes)).

(** ** Ray queries *)
(** 691-720 _ray_halfedge_test; [frangle] is that of the direction *)
Definition ray_halfedge_test (e : segment) (rayseg : segment) (frangle : Qc) (keep_all : bool) (const : Qc) :
    result (list (Qc * segment)) :=
  ' (_, the, tray) <- segment_segment_general_intersection e rayseg ;;          (* 694-695 *)
  keep <- (if keep_all then Ok (qleb 0 the && qleb the 1)                       (* 699-700 *)
           else if qltb 0 the && qltb the 1 then Ok true                        (* 702-703 *)
           else
             k <- he_key e ;;
             let dfrangle := qmod (k - frangle) MAX_FRANGLE in                  (* 706 *)
             _ <- passert (negb (qeqb dfrangle 0) && negb (qeqb dfrangle FRANGLE_180)) ;;  (* 707-708 *)
             let include_start := qltb dfrangle FRANGLE_180 in                  (* 709-712 *)
             Ok (if qeqb the 0 then include_start
                 else if qeqb the 1 then negb include_start else false)) ;;     (* 714-717 *)
  Ok (if keep : bool then [(tray * const, e)] else []).                         (* 719-720 *)
(** tuple [<] on (t, half-edge) *)
Definition hit_ltb (a b : Qc * segment) : bool :=
  if qeqb (fst a) (fst b) then seg_ltb (snd a) (snd b) else qltb (fst a) (fst b).
(** 610-611; [None] is NaN, which only an arrangement without vertices has *)
Definition ray_const (box : aabb) (direction : point) : Aabb.num :=
  match n_add (n_abs (n_sub (fst (Aabb.upper box)) (fst (Aabb.lower box))))
              (n_abs (n_sub (snd (Aabb.upper box)) (snd (Aabb.lower box)))) with
  | Some s => Some (zq 10 * (s / qmax (qabs (fst direction)) (qabs (snd direction))))
  | None => None
  end.
(** 604-630 ray_halfedge_query_the_general_ray.  With a NaN box there are no half-edges: the tree
    yields nothing. *)
Definition ray_query (box : aabb) (normal : point) (tree : stree segment)
    (pt direction : point) (keep_all : bool) : result (list (Qc * segment)) :=
  frangle <- vector_frangle direction ;;                                        (* 606 *)
  match ray_const box direction with
  | None => Ok []
  | Some const =>
      let rayseg := (pt, padd pt (pscale const direction)) in                   (* 613 *)
      _ <- passert (negb (contains box (snd rayseg))) ;;                        (* 614 *)
      found <- stab tree (dot normal pt) ;;                                     (* 619-621 *)
      inters <- mapM (fun e => ray_halfedge_test e rayseg frangle keep_all const)
                     (flat_map (fun x => [snd x; rev_seg (snd x)]) found) ;;    (* 622-628 *)
      Ok (sort_by hit_ltb (concat inters))                                      (* 630 *)
  end.
(** 632-640 ray_halfedge_query_general_ray *)
Definition ray_query_general (gv : point) (box : aabb) (normal : point) (tree : stree segment)
    (pt direction : point) (keep_all : bool) : result (list (Qc * segment)) :=
  if pt_eqb direction gv || pt_eqb (- fst direction, - snd direction) gv
  then ray_query box normal tree pt direction keep_all
  else Err PlainException.                                                      (* 639 *)

(** 728-765 _find_point_in_cell *)
Definition find_point_in_cell (gv : point) (box : aabb) (normal : point) (tree : stree segment)
    (cell : list point) : result point :=
  match cell with
  | a :: b :: _ =>
      let pt := ((fst a + fst b) / q2, (snd a + snd b) / q2) in                 (* 735 *)
      let nrm := (snd b - snd a, - (fst b - fst a)) in                          (* 737 *)
      let d := dot gv nrm in                                                    (* 740 *)
      _ <- passert (negb (qeqb d 0)) ;;                                         (* 741 *)
      let v := if qltb d 0 then (- fst gv, - snd gv) else gv in                 (* 742-744 *)
      inters <- ray_query_general gv box normal tree pt v true ;;               (* 746-750 *)
      Ok (match filter (fun h => qltb 0 (fst h)) inters with
          | [] => padd pt v                                                     (* 757-758 *)
          | (t, _) :: _ => padd pt (pscale (t / q2) v)                          (* 760-765 *)
          end)
  | _ => Err IndexError
  end.

(** ** Cells *)
(** 332-351: the inner loop.  [before] are the vertices before [cur], last one first. *)
Fixpoint trace (fuel : nat) (vs : list (point * vertex)) (first : segment) (before : list point)
    (prev cur : point) (unproc : list segment) : result (list point * list segment) :=
  match fuel with
  | O => Err OutOfFuel
  | S f =>
      v <- dgetr pt_eqb cur vs ;;
      nxt <- get_next_ccw cur v (cur, prev) ;;                                  (* 335 *)
      if seg_eqb nxt first then                                                 (* 337 *)
        _ <- passert (pt_eqb cur (fst first)) ;;                                (* 339 *)
        Ok (rev before, unproc)
      else
        _ <- passert (existsb (seg_eqb nxt) unproc) ;;                          (* 341 *)
        let unproc := filter (fun e => negb (seg_eqb nxt e)) unproc in          (* 342 *)
        _ <- passert (pt_eqb (fst nxt) cur) ;;                                  (* 343 *)
        _ <- passert (negb (pt_eqb (snd nxt) cur)) ;;                           (* 344 *)
        _ <- passert (negb (pt_eqb (snd nxt) prev)) ;;                          (* 345 *)
        trace f vs first (cur :: before) cur (snd nxt) unproc                   (* 351 *)
  end.
(** 324-353: the outer loop, giving the tuples of vertices; 326 pops an arbitrary element *)
Fixpoint trace_cells (fuel k : nat) (o : nat -> nat) (vs : list (point * vertex)) (unproc : list segment) :
    result (list (list point)) :=
  match take_at (o k mod length unproc) unproc with
  | None => Ok []                                                               (* 324: empty *)
  | Some (e, rest) =>
      match fuel with
      | O => Err OutOfFuel
      | S f =>
          ' (cell, rest') <- trace (length unproc) vs e [fst e] (fst e) (snd e) rest ;;
          cells <- trace_cells f (S k) o vs rest' ;;
          Ok (cell :: cells)
      end
  end.
(** 366-370: he.cell for all half-edges *)
Definition cell_map := list (segment * list point).
Definition set_he_cell (cell : list point) (hes : list segment) (m : cell_map) (e : segment) : result cell_map :=
  _ <- (if existsb (seg_eqb e) hes then Ok tt else Err KeyError) ;;             (* 368 *)
  match dget seg_eqb e m with
  | None => Ok (dset seg_eqb e cell m)
  | Some _ => Err AssertionError                                                (* 369 *)
  end.
Definition set_cell (hes : list segment) (m : cell_map) (cell : list point) : result cell_map :=
  area <- simple_polygon_area cell ;;                                           (* 356 *)
  _ <- passert (negb (qeqb area 0)) ;;                                          (* 357 *)
  foldM (set_he_cell cell hes) (edges_iter cell) m.

(** _Cell (121-126, 355-363) with point_in_cell; count_from_outside and container are added later *)
Record fcell := mkFcell { fc_vertices : list point; fc_negative : bool; fc_point : point }.
(** 497-504 for one cell *)
Definition find_cell_point (gv : point) (box : aabb) (normal : point) (tree : stree segment)
    (cell : list point) : result fcell :=
  area <- simple_polygon_area cell ;;
  let negative := qltb area 0 in                                                (* 358 *)
  pt <- find_point_in_cell gv box normal tree cell ;;                           (* 498 *)
  loc <- locate_point_polygon_winding_number cell pt ;;                         (* 499 *)
  _ <- passert (if negative then (loc <? 0)%Z else (0 <? loc)%Z) ;;             (* 501-504 *)
  Ok (mkFcell cell negative pt).

(** ** The nesting of cells *)
Definition cell_eqb : list point -> list point -> bool := list_eqb pt_eqb.
Definition toggle (c : list point) (l : list (list point)) : list (list point) :=
  if existsb (cell_eqb c) l then filter (fun x => negb (cell_eqb c x)) l else l ++ [c].
(** 516-521 *)
Fixpoint toggle_hits (m : cell_map) (hits : list (Qc * segment)) (acc : list (list point)) :
    result (list (list point)) :=
  match hits with
  | [] => Ok acc
  | (t, e) :: rest =>
      if qltb t 0 then toggle_hits m rest acc                                   (* 517-518 *)
      else
        _ <- passert (negb (qeqb t 0)) ;;                                       (* 519 *)
        c <- dgetr seg_eqb e m ;;                                               (* 521 *)
        toggle_hits m rest (toggle c acc)
  end.
Definition find_fcell (cells : list fcell) (c : list point) : result fcell :=
  dgetr cell_eqb c (map (fun f => (fc_vertices f, f)) cells).
(** 510-539 for one cell: its containers and its degree *)
Definition find_containers (box : aabb) (normal : point) (tree : stree segment) (gv : point) (m : cell_map)
    (cells : list fcell) (c : fcell) : result (list (list point) * nat) :=
  inters <- ray_query box normal tree (fc_point c) gv false ;;                  (* 513-514 *)
  around <- toggle_hits m inters [] ;;
  _ <- passert (Bool.eqb (existsb (cell_eqb (fc_vertices c)) around) (negb (fc_negative c))) ;;  (* 523-531 *)
  let around := filter (fun x => negb (cell_eqb (fc_vertices c) x)) around in   (* 528 *)
  fs <- mapM (find_fcell cells) around ;;
  let pos := filter (fun f => negb (fc_negative f)) fs in                       (* 535 *)
  Ok (around, (2 * length pos + (if fc_negative c then 0 else 1))%nat).         (* 537 *)
(** np.argmax: the first element with the largest key *)
Fixpoint argmax {A} (key : A -> nat) (best : A) (l : list A) : A :=
  match l with [] => best | x :: r => argmax key (if (key best <? key x)%nat then x else best) r end.
(** 541-552 for one cell; [degrees] maps cells to degrees, [cont] is in an arbitrary order *)
Definition degree_of (degrees : list (list point * nat)) (c : list point) : nat :=
  match dget cell_eqb c degrees with Some d => d | None => 0%nat end.
Definition find_container (cells : list fcell) (degrees : list (list point * nat)) (cont : list (list point))
    (c : fcell) : result (option (list point)) :=
  match cont with
  | [] => Ok None                                                               (* 543-545 *)
  | x :: r =>
      _ <- mapM (fun y => dgetr cell_eqb y degrees) cont ;;                     (* 546 *)
      let closest := argmax (degree_of degrees) x r in                          (* 547 *)
      _ <- passert (S (degree_of degrees closest) =? degree_of degrees (fc_vertices c))%nat ;;   (* 548 *)
      f <- find_fcell cells closest ;;
      _ <- passert (negb (Bool.eqb (fc_negative f) (fc_negative c))) ;;         (* 551 *)
      Ok (Some closest)
  end.

(** ** The arrangement object *)
Record arrangement := mkArrangement {
  a_half_edges : list segment;
  a_vertices : list (point * vertex);
  a_general : point;
  a_cells : list fcell;
  a_degrees : list (list point * nat);              (* count_from_outside *)
  a_containers : list (list point * option (list point));
  a_orc : nat -> nat -> nat }.

(** 317-381 and 506-552.  Where the code interleaves loops, here they follow each other: this can
    only exchange one AssertionError for another. *)
Definition find_cells (orc : nat -> nat -> nat) (hes : list segment) (vs : list (point * vertex)) (box : aabb) (gv : point) :
    result (list fcell * list (list point * nat) * list (list point * option (list point))) :=
  let normal := general_normal gv in
  tree <- init_gstree normal hes ;;                                             (* 313 *)
  traced <- trace_cells (length hes) 0 (orc 2%nat) vs hes ;;
  m <- foldM (set_cell hes) traced [] ;;
  cells <- mapM (find_cell_point gv box normal tree) traced ;;                  (* 372 *)
  let box := fold_left (fun b c => include_point b (fc_point c)) cells box in   (* 378-379 *)
  found <- mapM (find_containers box normal tree gv m cells) cells ;;
  let degrees := combine (map fc_vertices cells) (map snd found) in
  conts <- mapM (fun x => find_container cells degrees (permuted (orc (4 + fst x)%nat) (fst (snd (snd x)))) (fst (snd x)))
                (combine (seq 0 (length cells)) (combine cells found)) ;;
  Ok (cells, degrees, combine (map fc_vertices cells) conts).

(** 169-315 __init__ *)
Definition SegmentArrangement (orc : nat -> nat -> nat) (sid_segments : list segment) : result arrangement :=
  let segments := simple_segments (orc 0%nat) sid_segments in
  calls <- vertex_calls segments ;;
  _ <- mapM (fun c => mapM (check_vertex (fst c)) (snd c)) calls ;;             (* 215-217 *)
  let vertices := permuted (orc 1%nat) (all_vertices calls) in
  let box := fold_left include_point vertices (AABB None None) in               (* 247, 251 *)
  ' (hes, vs) <- foldM (add_segment_edges calls) sid_segments ([], map (fun v => (v, [])) vertices) ;;
  _ <- mapM check_vertex_order vs ;;
  gv <- find_general_vector hes ;;                                              (* 309 *)
  ' (cells, degrees, conts) <- find_cells orc hes vs box gv ;;
  Ok (mkArrangement hes vs gv cells degrees conts orc).

(** 767-774 cell_points *)
Definition cell_points (a : arrangement) : list (list point * point) :=
  map (fun c => (fc_vertices c, fc_point c)) (a_cells a).

(** ** poly_cells *)
(** 865-875: from a cell outwards to the first one that is part of a positive merged cell *)
Fixpoint go_out (fuel : nat) (conts : list (list point * option (list point)))
    (pos_original : list (list point * list point)) (cur : list point) : result (option (list point)) :=
  match fuel with
  | O => Err OutOfFuel
  | S f =>
      c <- dgetr cell_eqb cur conts ;;                                          (* 866 *)
      match c with
      | None => Ok None                                                         (* 868-871 *)
      | Some cur' => match dget cell_eqb cur' pos_original with
                     | Some opos => Ok (Some opos)                              (* 872-875 *)
                     | None => go_out f conts pos_original cur'
                     end
      end
  end.
(** 858-885 for one original of a negative cell *)
Definition find_outer (fuel : nat) (conts : list (list point * option (list point)))
    (pos_original : list (list point * list point)) (outer : option (list point)) (orig : list point) :
    result (option (list point)) :=
  opos <- match dget cell_eqb orig pos_original with
          | Some p => Ok (Some p)
          | None => go_out fuel conts pos_original orig
          end ;;
  match opos, outer with
  | None, _ => Ok outer
  | Some p, None => Ok (Some p)                                                 (* 884-885 *)
  | Some p, Some q => _ <- passert (cell_eqb q p) ;; Ok outer                   (* 882-883 *)
  end.
(** 809-813 *)
Definition add_pos_original (pos_cell : list point) (d : list (list point * list point)) (original : list point) :
    result (list (list point * list point)) :=
  match dget cell_eqb original d with
  | Some _ => Err AssertionError                                                (* 812 *)
  | None => Ok (dset cell_eqb original pos_cell d)
  end.
(** every cycle of half-edges is cancelled at most once per edge; see CellMergerProps.enough *)
Definition merger_fuel (cells : list (list point)) : nat :=
  let n := length (flat_map edges_iter cells) in (n * S n + 1)%nat.
Definition negative_outer (fuel : nat) (conts : list (list point * option (list point)))
    (pos_original : list (list point * list point)) (no : list point * list (list point)) :
    result (list point * list point) :=
  outer <- foldM (find_outer fuel conts pos_original) (snd no) None ;;
  match outer with
  | None => Err AssertionError                                                  (* 889 *)
  | Some p => Ok (p, fst no)                                                    (* 890 *)
  end.
(** 776-904 poly_cells.  [cells] is a set, self.cells of the merger is a set, and the holes of a
    polygon are a set. *)
Definition poly_cells (a : arrangement) (cells : list (list point)) : result (list spwh) :=
  let cells := permuted (a_orc a 3%nat) cells in
  ' (m, _) <- add_cells pt_eqb (fun i => a_orc a 3%nat (i + length cells)%nat) (merger_fuel cells) 0 CellMergerSlow cells ;;  (* 787-789 *)
  originals <- get_cells_originals pt_eqb m ;;                                  (* 793 *)
  let n := (4 + length (a_cells a))%nat in
  let originals := permuted (a_orc a n) originals in                            (* 794 *)
  areas <- mapM (fun co => simple_polygon_area (fst co)) originals ;;
  _ <- passert (forallb (fun x => negb (qeqb x 0)) areas) ;;                    (* 800 *)
  let signed := combine areas originals in
  let positives := map snd (filter (fun x => qltb 0 (fst x)) signed) in         (* 801-802 *)
  let negatives := map snd (filter (fun x => negb (qltb 0 (fst x))) signed) in  (* 803-804 *)
  pos_original <- foldM (fun d co => foldM (add_pos_original (fst co)) (snd co) d) positives [] ;;  (* 809-813 *)
  pairs <- mapM (negative_outer (S (2 * length (a_cells a) + 2)) (a_containers a) pos_original) negatives ;;
  mapM (fun x =>
          let '(i, co) := x in
          let hs := map snd (filter (fun p => cell_eqb (fst co) (fst p)) pairs) in
          Simple_Polygon_With_Holes (fst co) (map (@rev point) (permuted (a_orc a (n + 1 + i)%nat) hs)))  (* 900-903 *)
       (combine (seq 0 (length positives)) positives).

(** What geom2d_simple_holes uses.  The order of a set may depend on everything, so the streams of
    choices may be different for every list of segments. *)
Definition segment_arrangement (orc : list segment -> nat -> nat -> nat) : arr_impl :=
  mkArr arrangement (list point) (fun segs => SegmentArrangement (orc segs) segs)
    (fun a => Ok (cell_points a)) poly_cells.
