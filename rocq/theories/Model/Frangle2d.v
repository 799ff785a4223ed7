(** * Model of plycutter/geometry/impl2d/frangle2d.py. *)
From Verif.Model Require Export Types2d.
From Coq Require Import Qround.

Definition MAX_FRANGLE := zq 8.   (* frangle2d.py:27 *)
Definition FRANGLE_90 := zq 2.    (* frangle2d.py:30 *)
Definition FRANGLE_180 := zq 4.   (* frangle2d.py:37 *)

(** frangle2d.py:45-76 *)
Definition vector_frangle (vec : point) : result Qc :=
  let '(x, y) := vec in
  _ <- passert (negb (qeqb x 0) || negb (qeqb y 0)) ;;                       (* 60 *)
  let order := if qltb (qabs y) (qabs x) then qabs (y / x)                   (* 62-63 *)
               else zq 2 - qabs (x / y) in                                   (* 64-65 *)
  Ok (if qleb 0 x then (if qleb y 0 then order else zq 8 - order)            (* 67-71 *)
      else (if qleb y 0 then zq 4 - order else zq 4 + order)).               (* 72-76 *)

(** Python [%] on rationals: q % m = q - m*floor(q/m) *)
Definition qfloor (q : Qc) : Z := Qfloor (this q).
Definition qmod (q m : Qc) : Qc := q - m * zq (qfloor (q / m)).

(** frangle2d.py:79-99 *)
Definition frangle_unit_square_vector (frangle : Qc) : point :=
  let frangle := qmod frangle (zq 8) in                                      (* 82 *)
  let frhalf := qmod frangle (zq 4) in                                       (* 84 *)
  let frquad := qabs (zq 2 - frhalf) in                                      (* 86 *)
  let v := if qltb frquad 1 then (frquad, - (1)) else (1, - (zq 2 - frquad)) in  (* 88-91 *)
  let v := if qltb (zq 2) frhalf then (- fst v, snd v) else v in             (* 93-94 *)
  if qleb (zq 4) frangle then (- fst v, - snd v) else v.                     (* 96-97 *)
