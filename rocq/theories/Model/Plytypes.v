(** * Model of plycutter/plytypes.py (exact conversions). *)
From Verif.Base Require Export Py.

(** Values a caller can pass as a number.  [NFloat q] is a finite float, [q] its exact value. *)
Inductive pynum :=
| NInt (z : Z)        (* int *)
| NMpz (z : Z)        (* gmpy2.mpz; IntClass, plytypes.py:43 *)
| NFrac (q : Qc)      (* fractions.Fraction *)
| NMpq (q : Qc)       (* gmpy2.mpq; FractionClass, plytypes.py:38 *)
| NFloat (q : Qc)     (* finite float *)
| NPosInf | NNegInf   (* math.inf, -math.inf *)
| NNan.               (* math.nan *)

(** Extended rationals: the values stored in Geom1D.intervals. *)
Inductive ext := NInf | Fin (q : Qc) | PInf.

(** The numeric value of a Python number; [None] for NaN. *)
Definition pval (v : pynum) : option ext :=
  match v with
  | NInt z | NMpz z => Some (Fin (zq z))
  | NFrac q | NMpq q | NFloat q => Some (Fin q)
  | NPosInf => Some PInf
  | NNegInf => Some NInf
  | NNan => None
  end.

(** plytypes.py:51-62 FractionFromExact *)
Definition FractionFromExact (v : pynum) : result Qc :=
  match v with
  | NMpq q => Ok q                       (* 56-57 *)
  | NInt z => Ok (zq z)                  (* 58-60 *)
  | NFrac q => Ok q
  | NMpz z => Ok (zq z)
  | _ => Err PlainException              (* 61-62 *)
  end.

(** plytypes.py:65-72 FractionFromExactOrInf *)
Definition FractionFromExactOrInf (v : pynum) : result ext :=
  match v with
  | NPosInf => Ok PInf                   (* 70-71: abs(v) == math.inf *)
  | NNegInf => Ok NInf
  | _ => q <- FractionFromExact v ;; Ok (Fin q)   (* 72 *)
  end.
