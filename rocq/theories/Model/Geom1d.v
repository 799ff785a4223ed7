(** * Model of plycutter/geometry/geom1d.py (the whole class Geom1D).

    A Geom1D object is its [intervals] attribute: a list of pairs of extended rationals.
    Not modelled: [__repr__], [__fstr__] (printing). *)
From Verif.Model Require Export Plytypes.

(** Comparison of exact values / infinities. *)
Definition eltb (a b : ext) : bool :=
  match a, b with
  | NInf, NInf => false | NInf, _ => true
  | Fin p, Fin q => qltb p q
  | Fin _, PInf => true | Fin _, NInf => false
  | PInf, _ => false
  end.
Definition eleb (a b : ext) : bool :=
  match a, b with
  | NInf, _ => true
  | Fin p, Fin q => qleb p q
  | Fin _, PInf => true | Fin _, NInf => false
  | PInf, PInf => true | PInf, _ => false
  end.
Definition eeqb (a b : ext) : bool :=
  match a, b with
  | NInf, NInf => true | PInf, PInf => true | Fin p, Fin q => qeqb p q | _, _ => false
  end.

Definition iv := (ext * ext)%type.
Definition geom1d := list iv.

(** Tuple comparison [<] used by [sorted] (geom1d.py:65). *)
Definition iv_ltb (i j : iv) : bool :=
  if eeqb (fst i) (fst j) then eltb (snd i) (snd j) else eltb (fst i) (fst j).

(** geom1d.py:76-95: the normalisation loop.  [prev] is the local variable of the same name;
    [res.append(prev)] becomes consing in front of the rest of the output. *)
Fixpoint merge (prev : option iv) (l : list iv) : list iv :=
  match l, prev with
  | [], None => []
  | [], Some p => [p]                                              (* 92-93 *)
  | i :: l', None =>
      if eeqb (fst i) (snd i) then merge None l'                   (* 80-81 *)
      else merge (Some i) l'                                       (* 83-84 *)
  | i :: l', Some p =>
      if eeqb (fst i) (snd i) then merge (Some p) l'               (* 80-81 *)
      else if eleb (fst i) (snd p) then                            (* 86 *)
        (if eltb (snd p) (snd i) then merge (Some (fst p, snd i)) l'   (* 87-88 *)
         else merge (Some p) l')
      else p :: merge (Some i) l'                                  (* 89-91 *)
  end.

Definition normalize (l : list iv) : geom1d := merge None (sort_by iv_ltb l).

(** geom1d.py:64-97 on already exact values, as every internal call uses it:
    the assertion of line 71, then normalisation. *)
Definition geom1d_of (l : list iv) : result geom1d :=
  if forallb (fun i => eleb (fst i) (snd i)) l then Ok (normalize l) else Err AssertionError.

(** geom1d.py:64-97 on arbitrary Python input: a list of sequences of numbers.
    The sort (65) uses numeric comparison; a NaN compares false with everything, and is then
    rejected by line 71 whatever order the sort produced. *)
Definition py_eqb (a b : pynum) : bool :=
  match pval a, pval b with Some x, Some y => eeqb x y | _, _ => false end.
Definition py_ltb (a b : pynum) : bool :=
  match pval a, pval b with Some x, Some y => eltb x y | _, _ => false end.
Definition py_leb (a b : pynum) : bool :=
  match pval a, pval b with Some x, Some y => eleb x y | _, _ => false end.
Fixpoint pylist_ltb (a b : list pynum) : bool :=
  match a, b with
  | [], [] => false
  | [], _ => true
  | _, [] => false
  | x :: a', y :: b' => if py_eqb x y then pylist_ltb a' b' else py_ltb x y
  end.
(** geom1d.py:69-73, one interval *)
Definition conv_interval (i : list pynum) : result iv :=
  match i with
  | [a; b] =>                                          (* 70: len(interval) == 2 *)
      _ <- passert (py_leb a b) ;;                     (* 71 *)
      a' <- FractionFromExactOrInf a ;;                (* 73 *)
      b' <- FractionFromExactOrInf b ;;
      Ok (a', b')
  | _ => Err AssertionError
  end.
Definition Geom1D (l : list (list pynum)) : result geom1d :=
  l' <- mapM conv_interval (sort_by pylist_ltb l) ;;
  Ok (merge None l').

(** geom1d.py:99-113 locate *)
Fixpoint locate (g : geom1d) (point : Qc) : Z :=
  match g with
  | [] => (-1)%Z                                                            (* 113 *)
  | (a, b) :: g' =>
      if eeqb a (Fin point) || eeqb b (Fin point) then 0%Z                  (* 107-108 *)
      else if eltb a (Fin point) && eltb (Fin point) b then 1%Z             (* 109-110 *)
      else if eltb (Fin point) a then (-1)%Z                                (* 111-112 break *)
      else locate g' point
  end.

(** geom1d.py:115-117 *)
Definition disjoint_pieces (g : geom1d) : result (list geom1d) := mapM (fun i => geom1d_of [i]) g.

(** geom1d.py:131-143 *)
Definition g_empty : result geom1d := geom1d_of [].
Definition g_full : result geom1d := geom1d_of [(NInf, PInf)].
Definition is_empty (g : geom1d) : bool := match g with [] => true | _ => false end.

(** Arithmetic with infinities.  [eshift a q] is [a + q] for finite [q]. *)
Definition eshift (a : ext) (q : Qc) : ext :=
  match a with NInf => NInf | PInf => PInf | Fin p => Fin (p + q) end.

(** geom1d.py:145-157 buffer *)
Definition buffer_raw (g : geom1d) (amount : Qc) : list iv :=
  flat_map (fun i =>
    let lo := eshift (fst i) (- amount) in
    let hi := eshift (snd i) amount in
    if eleb hi lo then [] else [(lo, hi)]) g.            (* 153-156 *)
Definition buffer_q (g : geom1d) (amount : Qc) : result geom1d := geom1d_of (buffer_raw g amount).
Definition buffer (g : geom1d) (amount : pynum) : result geom1d :=
  q <- FractionFromExact amount ;; buffer_q g q.         (* 150 *)

(** geom1d.py:159-161 measure1d.  [None] is NaN (inf - inf). *)
Definition esub (b a : ext) : option ext :=
  match b, a with
  | Fin q, Fin p => Some (Fin (q - p))
  | PInf, PInf => None | NInf, NInf => None
  | PInf, _ => Some PInf | NInf, _ => Some NInf
  | Fin _, NInf => Some PInf | Fin _, PInf => Some NInf
  end.
Definition eadd (a b : ext) : option ext :=
  match a, b with
  | Fin p, Fin q => Some (Fin (p + q))
  | PInf, NInf => None | NInf, PInf => None
  | PInf, _ => Some PInf | _, PInf => Some PInf
  | NInf, _ => Some NInf | _, NInf => Some NInf
  end.
Definition oadd (a b : option ext) : option ext :=
  match a, b with Some x, Some y => eadd x y | _, _ => None end.
Definition measure1d (g : geom1d) : option ext :=
  fold_left (fun acc i => oadd acc (esub (snd i) (fst i))) g (Some (Fin 0)).

(** geom1d.py:163-166 is_bounded: math.isfinite(measure1d()).
    Simplification: the conversion of a huge rational to float inside [isfinite] is ignored. *)
Definition is_bounded (g : geom1d) : bool :=
  match measure1d g with Some (Fin _) => true | _ => false end.

(** geom1d.py:168-186 set operators *)
Definition g_or (a b : geom1d) : result geom1d := geom1d_of (a ++ b).
Definition inv_points (g : geom1d) : list ext :=
  [NInf] ++ flat_map (fun i => [fst i; snd i]) g ++ [PInf].            (* 181-184 *)
Definition g_invert (g : geom1d) : result geom1d :=
  geom1d_of (combine (evens (inv_points g)) (odds (inv_points g))).    (* 186 *)
Definition g_and (a b : geom1d) : result geom1d :=
  na <- g_invert a ;; nb <- g_invert b ;; o <- g_or na nb ;; g_invert o.   (* 172 *)
Definition g_sub (a b : geom1d) : result geom1d :=
  nb <- g_invert b ;; g_and a nb.                                      (* 175 *)
Definition g_xor (a b : geom1d) : result geom1d :=
  na <- g_invert a ;; l <- g_and na b ;;
  nb <- g_invert b ;; r <- g_and a nb ;; g_or l r.                     (* 178 *)

(** geom1d.py:188-193 filter *)
Definition g_filter (f : ext -> ext -> bool) (g : geom1d) : result geom1d :=
  geom1d_of (filter (fun i => f (fst i) (snd i)) g).
