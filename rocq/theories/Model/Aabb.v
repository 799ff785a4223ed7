(** * Model of plycutter/geometry/aabb.py (whole class AABB except __repr__).

    Coordinates are mpq or NaN: [None] is NaN. Comparisons with NaN are False, arithmetic with
    NaN gives NaN. *)
From Verif.Model Require Export Types2d.

Definition num := option Qc.
Definition n_le (a b : num) : bool := match a, b with Some x, Some y => qleb x y | _, _ => false end.
Definition n_lt (a b : num) : bool := match a, b with Some x, Some y => qltb x y | _, _ => false end.
Definition n2 (f : Qc -> Qc -> Qc) (a b : num) : num :=
  match a, b with Some x, Some y => Some (f x y) | _, _ => None end.
Definition n_add := n2 Qcplus.
Definition n_sub := n2 Qcminus.
Definition n_mul := n2 Qcmult.
Definition n_half (a : num) : num := match a with Some x => Some (x / q2) | None => None end.
Definition n_abs (a : num) : num := match a with Some x => Some (qabs x) | None => None end.

Definition nvec := (num * num)%type.
Definition nv (p : point) : nvec := (Some (fst p), Some (snd p)).
Record aabb := mkAABB { lower : nvec; upper : nvec; middle : nvec }.

(** aabb.py:45-46 *)
Definition update_middle (lo up : nvec) : nvec :=
  (n_half (n_add (fst lo) (fst up)), n_half (n_add (snd lo) (snd up))).
(** aabb.py:33-43; [None] arguments become NaN vectors (37-40) *)
Definition AABB (lo up : option point) : aabb :=
  let l := match lo with Some p => nv p | None => (None, None) end in
  let u := match up with Some p => nv p | None => (None, None) end in
  mkAABB l u (update_middle l u).

(** aabb.py:60-61 *)
Definition contains (b : aabb) (pt : point) : bool :=
  (n_le (Some (fst pt)) (fst (upper b)) && n_le (Some (snd pt)) (snd (upper b)))
  && (n_le (fst (lower b)) (Some (fst pt)) && n_le (snd (lower b)) (Some (snd pt))).

(** aabb.py:48-58 *)
Definition include_coord (lo up : num) (v : Qc) : num * num :=
  let up' := if negb (n_le (Some v) up) then Some v else up in      (* 54-55 *)
  let lo' := if negb (n_le lo (Some v)) then Some v else lo in      (* 56-57 *)
  (lo', up').
Definition include_point (b : aabb) (pt : point) : aabb :=
  if contains b pt then b                                           (* 51-52 *)
  else
    let x := include_coord (fst (lower b)) (fst (upper b)) (fst pt) in
    let y := include_coord (snd (lower b)) (snd (upper b)) (snd pt) in
    let l := (fst x, fst y) in
    let u := (snd x, snd y) in
    mkAABB l u (update_middle l u).                                 (* 58 *)

(** aabb.py:63-65 *)
Definition intersects_aabb (b c : aabb) : bool :=
  (n_le (fst (lower c)) (fst (upper b)) && n_le (snd (lower c)) (snd (upper b)))
  && (n_le (fst (lower b)) (fst (upper c)) && n_le (snd (lower b)) (snd (upper c))).

(** aabb.py:67-90 *)
Definition intersects_segment (b : aabb) (s : segment) : bool :=
  let s0 := nv (fst s) in let s1 := nv (snd s) in
  if (n_lt (fst s0) (fst (lower b)) && n_lt (fst s1) (fst (lower b)))
     || (n_lt (snd s0) (snd (lower b)) && n_lt (snd s1) (snd (lower b))) then false   (* 73-74 *)
  else if (n_lt (fst (upper b)) (fst s0) && n_lt (fst (upper b)) (fst s1))
     || (n_lt (snd (upper b)) (snd s0) && n_lt (snd (upper b)) (snd s1)) then false   (* 75-76 *)
  else
    let nx := n_sub (snd s1) (snd s0) in                                              (* 79 *)
    let ny := n_mul (n_sub (fst s1) (fst s0)) (Some (- (1))) in
    let mid_dot := n_add (n_mul nx (fst (middle b))) (n_mul ny (snd (middle b))) in   (* 81 *)
    let seg_dot := n_add (n_mul nx (fst s0)) (n_mul ny (snd s0)) in                   (* 82 *)
    let d := n_sub mid_dot seg_dot in                                                 (* 84 *)
    let d2 := n_mul d d in                                                            (* 86 *)
    let r := n_add (n_mul (n_abs nx) (n_sub (fst (upper b)) (fst (middle b))))
                   (n_mul (n_abs ny) (n_sub (snd (upper b)) (snd (middle b)))) in
    let rhs := n_mul r r in                                                           (* 88 *)
    n_le d2 rhs.                                                                      (* 90 *)
