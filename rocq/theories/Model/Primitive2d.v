(** * Model of plycutter/geometry/impl2d/primitive2d.py. *)
From Verif.Model Require Export Types2d.

(** primitive2d.py:22-52 segment_segment_general_intersection *)
Definition segment_segment_general_intersection (l0 l1 : segment) : result (point * Qc * Qc) :=
  let '((l00x, l00y), (l01x, l01y)) := l0 in
  let '((l10x, l10y), (l11x, l11y)) := l1 in
  let denom := (l01x - l00x) * (l11y - l10y) - (l01y - l00y) * (l11x - l10x) in     (* 30-31 *)
  _ <- passert (negb (qeqb denom 0)) ;;                                              (* 33 *)
  let t_num := (l00x - l10x) * (l10y - l11y) - (l00y - l10y) * (l10x - l11x) in      (* 37-38 *)
  let u_num := - ((l00x - l01x) * (l00y - l10y) - (l00y - l01y) * (l00x - l10x)) in  (* 40-41 *)
  let t0 := t_num / denom in                                                         (* 43 *)
  let t1 := u_num / denom in                                                         (* 44 *)
  let ix := l00x + t_num * (l01x - l00x) / denom in                                  (* 46-47 *)
  let iy := l00y + t_num * (l01y - l00y) / denom in
  _ <- passert (qeqb ix (l10x + u_num * (l11x - l10x) / denom)) ;;                   (* 49 *)
  _ <- passert (qeqb iy (l10y + u_num * (l11y - l10y) / denom)) ;;                   (* 50 *)
  Ok ((ix, iy), t0, t1).

(** primitive2d.py:55-75 line_segment_point_fraction; the recursion depth is at most 2, a deeper
    one would show up as [OutOfFuel]. *)
Fixpoint lspf (fuel : nat) (s : segment) (p : point) : result (option Qc) :=
  match fuel with
  | O => Err OutOfFuel
  | S fuel' =>
    let '((s0x, s0y), (s1x, s1y)) := s in
    let '(px, py) := p in
    if pt_eqb (s0x, s0y) (s1x, s1y) then                                    (* 63 *)
      Ok (if pt_eqb (s0x, s0y) (px, py) then Some 0 else None)              (* 64 *)
    else if qeqb s0x s1x then lspf fuel' ((s0y, s0x), (s1y, s1x)) (py, px)  (* 65-70 *)
    else
      let f := (px - s0x) / (s1x - s0x) in                                  (* 72 *)
      Ok (if qeqb py (s0y + f * (s1y - s0y)) then Some f else None)         (* 73-75 *)
  end.
Definition line_segment_point_fraction := lspf 2.

(** primitive2d.py:78-92 simple_polygon_area.  [poly[-1]] raises on an empty list. *)
Fixpoint area_loop (area : Qc) (prev : point) (poly : list point) : Qc :=
  match poly with
  | [] => area
  | vert :: rest =>
      let avg_x := (fst vert + fst prev) / q2 in          (* 87 *)
      let dy := - (snd vert - snd prev) in                (* 88 *)
      area_loop (area + avg_x * dy) vert rest             (* 89-90 *)
  end.
Definition simple_polygon_area (poly : list point) : result Qc :=
  match poly with
  | [] => Err IndexError
  | p0 :: _ => Ok (area_loop 0 (last poly p0) poly)
  end.

(** primitive2d.py:95-103 *)
Definition subsign (a b : Qc) : Z := if qltb b a then 1%Z else if qeqb a b then 0%Z else (-1)%Z.

(** primitive2d.py:106-158 locate_point_polygon_winding_number.
    The [try/finally] only updates prev/sprev at the end of each iteration. *)
Fixpoint locate_loop (point : point) (winding : Z) (prev : Types2d.point) (sprev : Z)
         (poly : list Types2d.point) : Z :=
  match poly with
  | [] => if (winding =? 0)%Z then (-1)%Z else 1%Z                               (* 158 *)
  | vert :: rest =>
      let svert := subsign (snd vert) (snd point) in                             (* 126 *)
      let continue w := locate_loop point w vert svert rest in
      if (sprev * svert =? 1)%Z then continue winding                            (* 128-130 *)
      else if pt_eqb vert point then 0%Z                                         (* 132-133 *)
      else if qeqb (snd prev) (snd vert) then                                    (* 136 *)
        (if (qltb (fst prev) (fst point) && qltb (fst point) (fst vert))
            || (qltb (fst point) (fst prev) && qltb (fst vert) (fst point))
         then 0%Z else continue winding)                                         (* 137-140 *)
      else if qeqb (qmax (snd vert) (snd prev)) (snd point) then continue winding (* 143-144 *)
      else
        let area := area_loop 0 point [prev; vert; point] in                     (* 146 *)
        if qeqb area 0 then 0%Z                                                  (* 147-149 *)
        else if qltb 0 area then continue (winding + 1)%Z                        (* 150-151 *)
        else continue (winding - 1)%Z                                            (* 152-153 *)
  end.
Definition locate_point_polygon_winding_number (poly : list point) (pt : point) : result Z :=
  match poly with
  | [] => Err IndexError                                                         (* 120 *)
  | p0 :: _ =>
      let prev := last poly p0 in
      Ok (locate_loop pt 0 prev (subsign (snd prev) (snd pt)) poly)
  end.

(** primitive2d.py:161-165 edges_iter *)
Definition edges_iter (poly : list point) : list segment :=
  match poly with
  | [] => []
  | p0 :: rest => combine poly (rest ++ [p0])
  end.
