(** * dict and pyrsistent.PMap as association lists.

    The list order stands for the iteration order ([items()], [values()]): insertion order for a
    dict, an unspecified hash order for a PMap.  Theorems about maps quantify over all lists with
    distinct keys, hence over all iteration orders. *)
From Verif.Base Require Export Py.
From Coq Require Import String.

Definition dict (K V : Type) := list (K * V).
Fixpoint dget {K V} (eqb : K -> K -> bool) (k : K) (m : dict K V) : option V :=
  match m with
  | [] => None
  | (k', v) :: r => if eqb k k' then Some v else dget eqb k r
  end.
(** m[k] *)
Definition dgetr {K V} (eqb : K -> K -> bool) (k : K) (m : dict K V) : result V :=
  match dget eqb k m with Some v => Ok v | None => Err KeyError end.
(** m[k] = v / m.set(k, v) *)
Fixpoint dset {K V} (eqb : K -> K -> bool) (k : K) (v : V) (m : dict K V) : dict K V :=
  match m with
  | [] => [(k, v)]
  | (k', v') :: r => if eqb k k' then (k, v) :: r else (k', v') :: dset eqb k v r
  end.
(** del m[k] *)
Definition ddel {K V} (eqb : K -> K -> bool) (k : K) (m : dict K V) : dict K V :=
  filter (fun e => negb (eqb k (fst e))) m.
Definition keys {K V} (m : dict K V) : list K := map fst m.
Definition values {K V} (m : dict K V) : list V := map snd m.

(** tuple equality *)
Definition pair_eqb {A B} (ea : A -> A -> bool) (eb : B -> B -> bool) (p q : A * B) : bool :=
  ea (fst p) (fst q) && eb (snd p) (snd q).
Definition id2 := (string * string)%type.
Definition id2_eqb : id2 -> id2 -> bool := pair_eqb String.eqb String.eqb.
