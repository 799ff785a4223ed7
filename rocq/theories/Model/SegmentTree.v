(** * Model of plycutter/geometry/impl2d/segment_tree.py (all three classes, except __repr__).

    Values are rationals ([mpq] at the only call site, arrangement2d.py); the objects carried by the
    segments are an arbitrary type [A].  The generator [stab] is the list of what it yields. *)
From Verif.Base Require Export Py.
From Coq Require Export Bool.

Section Tree.
Context {A : Type}.

Definition seg := (Qc * Qc * A)%type.      (* (low, high, id) *)
Definition s_low (s : seg) : Qc := fst (fst s).
Definition s_high (s : seg) : Qc := snd (fst s).

(** segment_tree.py:20-29 SegmentTree1D_Slow *)
Definition slow_stab (segs : list seg) (v : Qc) : list seg :=
  filter (fun s => qleb (s_low s) v && qleb v (s_high s)) segs.

(** segment_tree.py:96-116 PointLeaf, 118-139 RangeLeaf, 39-94 Node *)
Inductive stree :=
| PointLeaf (value : Qc) (at_ : list seg)
| RangeLeaf (low high : Qc) (at_ : list seg)
| SNode (mn : Qc) (clow : bool) (mx : Qc) (chigh : bool) (cut : Qc) (left right : stree) (segments : list seg).

Definition t_min (t : stree) : Qc :=
  match t with PointLeaf v _ => v | RangeLeaf l _ _ => l | SNode m _ _ _ _ _ _ _ => m end.
Definition t_max (t : stree) : Qc :=
  match t with PointLeaf v _ => v | RangeLeaf _ h _ => h | SNode _ _ m _ _ _ _ _ => m end.
Definition t_clow (t : stree) : bool :=
  match t with PointLeaf _ _ => true | RangeLeaf _ _ _ => false | SNode _ c _ _ _ _ _ _ => c end.
Definition t_chigh (t : stree) : bool :=
  match t with PointLeaf _ _ => true | RangeLeaf _ _ _ => false | SNode _ _ _ c _ _ _ _ => c end.

(** segment_tree.py:40-50 Node.__init__ *)
Definition Node (l r : stree) : result stree :=
  _ <- passert (qeqb (t_max l) (t_min r)) ;;
  _ <- passert (Bool.eqb (t_chigh l) (negb (t_clow r))) ;;
  Ok (SNode (t_min l) (t_clow l) (t_max r) (t_chigh r) (t_max l) l r []).

(** segment_tree.py:52-67 Node.is_inside, split by the two values of [side] that are used *)
Definition inside_below_max (mx : Qc) (chigh : bool) (pt : Qc) : bool :=    (* side = -1 *)
  if chigh then negb (qltb mx pt) else negb (qleb mx pt).
Definition inside_above_min (mn : Qc) (clow : bool) (pt : Qc) : bool :=     (* side = 1 *)
  if clow then negb (qltb pt mn) else negb (qleb pt mn).

(** segment_tree.py:69-79 Node.add_segment, 107-109 and 129-131 of the leaves *)
Fixpoint add_segment (t : stree) (s : seg) : stree :=
  match t with
  | PointLeaf v at_ =>
      if qleb (s_low s) v && qleb v (s_high s) then PointLeaf v (at_ ++ [s]) else t
  | RangeLeaf lo hi at_ =>
      if qltb (s_low s) hi && qltb lo (s_high s) then RangeLeaf lo hi (at_ ++ [s]) else t
  | SNode mn cl mx ch cut l r segs =>
      if negb (inside_below_max mx ch (s_low s)) then t
      else if negb (inside_above_min mn cl (s_high s)) then t
      else if qleb (s_low s) mn && qleb mx (s_high s) then SNode mn cl mx ch cut l r (segs ++ [s])
      else SNode mn cl mx ch cut (add_segment l s) (add_segment r s) segs
  end.

(** segment_tree.py:81-88 Node.stab, 111-113 and 133-136 of the leaves *)
Fixpoint t_stab (t : stree) (v : Qc) : list seg :=
  match t with
  | PointLeaf x at_ => if qeqb v x then at_ else []
  | RangeLeaf lo hi at_ => if qltb lo v && qltb v hi then at_ else []
  | SNode mn cl mx ch cut l r segs =>
      (if qleb mn v && qleb v mx then segs else [])
      ++ (if qltb v cut || (qeqb v cut && t_chigh l) then t_stab l v else t_stab r v)
  end.

(** segment_tree.py:151-156: leaves from the sorted end points *)
Fixpoint leaves_from (prev : Qc) (l : list Qc) : list stree :=
  match l with
  | [] => []
  | e :: rest => RangeLeaf prev e [] :: PointLeaf e [] :: leaves_from e rest
  end.
Definition leaves (endpoints : list Qc) : list stree :=
  match endpoints with [] => [] | e :: rest => PointLeaf e [] :: leaves_from e rest end.

(** segment_tree.py:158-165: one pass of the pairing loop, and the loop *)
Fixpoint pair_up (nodes : list stree) : result (list stree) :=
  match nodes with
  | a :: b :: rest => n <- Node a b ;; rest' <- pair_up rest ;; Ok (n :: rest')
  | _ => Ok nodes
  end.
Fixpoint build (fuel : nat) (nodes : list stree) : result stree :=
  match nodes with
  | [] => Err IndexError                                   (* 167: nodes[0] *)
  | [n] => Ok n
  | _ => match fuel with
         | O => Err OutOfFuel
         | S f => nodes' <- pair_up nodes ;; build f nodes'
         end
  end.

(** segment_tree.py:142-146: [sorted(set(endpoints))] *)
Definition endpoints_of (segs : list seg) : list Qc :=
  sort_by qltb (nodup Qc_eq_dec (flat_map (fun s => [s_low s; s_high s]) segs)).

(** segment_tree.py:141-175 __init__.  The argument is iterated twice: [pass1] is what the first
    [for] sees (143), [pass2] what the second one sees (169).  For a list they are equal, for a
    one-shot iterator the second one is empty. *)
Definition init2 (pass1 pass2 : list seg) : result stree :=
  _ <- passert (forallb (fun s => qleb (s_low s) (s_high s)) pass1) ;;      (* 144 *)
  let endpoints := match endpoints_of pass1 with [] => [0; 1] | e => e end in  (* 148-149 *)
  let nodes := leaves endpoints in
  root <- build (length nodes) nodes ;;
  let root := fold_left add_segment pass2 root in                           (* 169-170 *)
  _ <- passert (qeqb (t_min root) (hd 0 endpoints)) ;;                      (* 174: min of a sorted list *)
  _ <- passert (qeqb (t_max root) (last endpoints 0)) ;;                    (* 175 *)
  Ok root.
Definition SegmentTree1D (segs : list seg) : result stree := init2 segs segs.
Definition SegmentTree1D_from_iterator (segs : list seg) : result stree := init2 segs [].

(** segment_tree.py:177-181 stab, with its two assertions per yielded segment *)
Definition stab (t : stree) (v : Qc) : result (list seg) :=
  mapM (fun s => _ <- passert (qleb (s_low s) v) ;; _ <- passert (qleb v (s_high s)) ;; Ok s) (t_stab t v).

End Tree.
Arguments stree : clear implicits.
Arguments seg : clear implicits.
