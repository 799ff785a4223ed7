(** * Model of fstr and fastr in plycutter/plytypes.py:75-108 on all objects, and of the string forms
    of a Geom1D (geometry/geom1d.py:119-126).

    [FText s] is any other object, [s] its str().  An infinite end of an interval is a float; str() gives
    "inf" or "-inf".  [flt] is float() of a rational (an error when it is too large), [sflt] is str()
    of a float that is not an integer. *)
From Verif.Base Require Import Py.
From Verif.Model Require Import Fstr Geom1d.
From Coq Require Import String Qround.

Inductive fobj := FFrac (q : Qc) | FTuple (l : list fobj) | FList (l : list fobj) | FSet (l : list fobj) | FDict (l : list (fobj * fobj))
  | FGeom1 (g : geom1d) | FText (s : string).

Section Fstr.
Variable flt : Qc -> result Qc.
Variable sflt : Qc -> string.
(** the strings of a list of objects, in order; the first error stops *)
Definition strs {X} (f : X -> result string) : list X -> result (list string) :=
  fix go l := match l with [] => Ok [] | a :: t => s <- f a ;; r <- go t ;; Ok (s :: r) end.
(** math.trunc *)
Definition trunc (q : Qc) : Z := if qleb 0 q then Qfloor (this q) else (- Qfloor (this (- q)%Qc))%Z.
(** 96-104 *)
Definition frac_form (approx : bool) (q : Qc) : result string :=
  if approx then
    f <- flt q ;;
    Ok (if qeqb (zq (trunc f)) f then zstr (trunc f) else sflt f)
  else Ok (frac_str q).
(** 84-107 recurse.  For a Geom1D, 105-106 pass the keyword [approx] to __fstr__, which passes it on to
    fastr for every interval (geom1d.py:124-126); fastr takes no keyword (75). *)
Fixpoint recurse_full (approx : bool) (o : fobj) : result string :=
  match o with
  | FFrac q => frac_form approx q
  | FTuple l => r <- strs (recurse_full approx) l ;; Ok ("(" ++ String.concat ", " r ++ ")")%string
  | FList l => r <- strs (recurse_full approx) l ;; Ok ("[" ++ String.concat ", " r ++ "]")%string
  | FSet l => r <- strs (recurse_full approx) l ;; Ok ("{" ++ String.concat ", " r ++ "}")%string
  | FDict l => r <- strs (fun e => k <- recurse_full approx (fst e) ;; v <- recurse_full approx (snd e) ;; Ok (k ++ ": " ++ v)%string) l ;; Ok ("{" ++ String.concat ", " r ++ "}")%string
  | FGeom1 g => r <- strs (fun _ => Err TypeError) g ;; Ok ("Geom1D(" ++ String.concat ", " r ++ ")")%string
  | FText s => Ok s
  end.
(** 81-108, 75-78 *)
Definition fstr_full (approx : bool) (objs : list fobj) : result string := r <- strs (recurse_full approx) objs ;; Ok ("FS/" ++ String.concat "," r ++ "/")%string.
Definition fastr (objs : list fobj) : result string := fstr_full true objs.
(** geom1d.py:119-122; an interval is a tuple of two numbers *)
Definition end_obj (e : ext) : fobj := match e with NInf => FText "-inf" | PInf => FText "inf" | Fin q => FFrac q end.
Definition geom1d_repr (g : geom1d) : result string :=
  r <- strs (fun i => fastr [FTuple [end_obj (fst i); end_obj (snd i)]]) g ;; Ok ("Geom1D(" ++ String.concat ", " r ++ ")")%string.
End Fstr.
