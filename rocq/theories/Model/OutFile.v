(** * The output file: plycutter/command_line.py:67-82, 103.

    A python str is a list of characters.  pathlib.Path is the POSIX one: [parse] is its constructor,
    [suffix_split] its properties suffix and stem, [with_suffix] the method with the argument '.dxf'
    (pathlib of python 3.7 to 3.13; python 3.14 counts a final dot as a suffix). *)
From Verif.Base Require Export Py.
From Coq Require Export List Ascii String.
From Coq Require Import Bool.
Export ListNotations.

Definition str := list ascii.
Definition slash : ascii := "/"%char.
Definition dot : ascii := "."%char.
Definition dxf : str := list_ascii_of_string ".dxf".
(** root ('', '/' or '//'), the parts before the last, and the last part; [None] if there are no parts *)
Record path := mkPath { p_root : str; p_dirs : list str; p_name : option str }.
(** s.split('/') *)
Fixpoint split_slash (s : str) : list str :=
  match s with
  | [] => [[]]
  | c :: r => if Ascii.eqb c slash then [] :: split_slash r else match split_slash r with h :: t => (c :: h) :: t | [] => [[c]] end
  end.
Definition is_part (s : str) : bool := match s with [] => false | [c] => negb (Ascii.eqb c dot) | _ => true end.
Definition root (s : str) : str :=
  match s with
  | a :: b :: c :: _ => if Ascii.eqb a slash then if Ascii.eqb b slash && negb (Ascii.eqb c slash) then [slash; slash] else [slash] else []
  | [a; b] => if Ascii.eqb a slash then if Ascii.eqb b slash then [slash; slash] else [slash] else []
  | [a] => if Ascii.eqb a slash then [slash] else []
  | [] => []
  end.
Definition parse (s : str) : path :=
  match rev (filter is_part (split_slash s)) with
  | [] => mkPath (root s) [] None
  | n :: d => mkPath (root s) (rev d) (Some n)
  end.
(** the parts before and after the last dot *)
Fixpoint last_dot (s : str) : option (str * str) :=
  match s with
  | [] => None
  | c :: r => match last_dot r with Some (a, b) => Some (c :: a, b) | None => if Ascii.eqb c dot then Some ([], r) else None end
  end.
(** i = name.rfind('.'); a suffix if 0 < i < len(name) - 1 *)
Definition suffix_split (name : str) : option (str * str) :=
  match last_dot name with Some ((_ :: _) as a, (_ :: _) as b) => Some (a, b) | _ => None end.
Definition with_suffix (p : path) : result path :=
  match p_name p with
  | None => Err ValueError
  | Some n => Ok (mkPath (p_root p) (p_dirs p) (Some (match suffix_split n with Some (a, _) => a ++ dxf | None => n ++ dxf end)))
  end.
(** 74-79: without -o the path beside the input, otherwise the name given *)
Definition out_file (infile : str) (output_file : option str) : result (path + str) :=
  match output_file with
  | None => p <- with_suffix (parse infile) ;; Ok (inl p)
  | Some o => Ok (inr o)
  end.
(** str(path): the parts joined by '/' after the root, '.' if there is nothing *)
Fixpoint join (l : list str) : str := match l with [] => [] | [p] => p | p :: r => p ++ slash :: join r end.
Definition path_str (p : path) : str :=
  match p_root p ++ join (p_dirs p ++ match p_name p with Some n => [n] | None => [] end) with [] => [dot] | s => s end.
(** 82: the name given to trimesh.load; 103: the name given to write_dxf *)
Definition read_name (infile : str) : str := path_str (parse infile).
Definition write_name (infile : str) (output_file : option str) : result str :=
  r <- out_file infile output_file ;; Ok (match r with inl p => path_str p | inr o => o end).
