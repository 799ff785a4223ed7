(** * Model of fstr in plycutter/plytypes.py:81-108, without [approx].

    Objects: rationals, tuples, lists, sets and dicts (given by their elements in iteration order).
    A numpy array is first turned into a list (85-86).  Objects with their own __fstr__ or rendered
    by str() are not modelled. *)
From Verif.Base Require Import Py.
From Coq Require Import String DecimalString.

Inductive pyobj := OFrac (q : Qc) | OTuple (l : list pyobj) | OList (l : list pyobj) | OSet (l : list pyobj) | ODict (l : list (pyobj * pyobj)).

(** str of an integer *)
Definition zstr (z : Z) : string := NilEmpty.string_of_int (Z.to_int z).
(** 96-104: numerator and denominator of the canonical fraction *)
Definition frac_str (q : Qc) : string :=
  if (Qden (this q) =? 1)%positive then zstr (Qnum (this q)) else (zstr (Qnum (this q)) ++ "/" ++ zstr (Zpos (Qden (this q))))%string.
(** 84-107 recurse *)
Fixpoint recurse (o : pyobj) : string :=
  (match o with
   | OFrac q => frac_str q
   | OTuple l => "(" ++ String.concat ", " (map recurse l) ++ ")"              (* 87-88 *)
   | OList l => "[" ++ String.concat ", " (map recurse l) ++ "]"               (* 89-90 *)
   | OSet l => "{" ++ String.concat ", " (map recurse l) ++ "}"                (* 91-92 *)
   | ODict l => "{" ++ String.concat ", " (map (fun e => recurse (fst e) ++ ": " ++ recurse (snd e)) l) ++ "}"   (* 93-95 *)
   end)%string.
(** 108 *)
Definition fstr (objs : list pyobj) : string := ("FS/" ++ String.concat "," (map recurse objs) ++ "/")%string.
