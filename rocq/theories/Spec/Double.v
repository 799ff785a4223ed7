(** * Rounding to 53 significant bits, ties to even: float64 without limits on the exponent *)
From Verif.Base Require Export Py.
From Coq Require Import Qround Qpower.
Open Scope Qc_scope.

Definition pow2 (k : Z) : Qc := Q2Qc (Qpower 2 k).
(** the nearest integer *)
Definition half_even (q : Qc) : Z :=
  let f := Qfloor (this q) in
  let r := q - zq f in
  if qltb r (qq 1 2) then f else if qltb (qq 1 2) r then (f + 1)%Z else if Z.even f then f else (f + 1)%Z.
(** the exponent of the leading bit *)
Definition expo (q : Qc) : Z :=
  let e := (Z.log2 (Z.abs (Qnum (this q))) - Z.log2 (Zpos (Qden (this q))))%Z in
  if qleb (pow2 e) (qabs q) then e else (e - 1)%Z.
Definition dbl (q : Qc) : Qc := if qeqb q 0 then 0 else let k := (52 - expo q)%Z in zq (half_even (q * pow2 k)) * pow2 (- k).
