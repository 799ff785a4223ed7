(** * Model of plycutter/geometry/impl2d/pmr_quadtree.py (whole file).

    A node is a value; [add] returns the new node.  A Python [set] of items is a duplicate-free list
    (insertion checks membership with the items' equality). *)
From Verif.Model Require Export Aabb.

Section PMR.
Context {I : Type} (ieqb : I -> I -> bool) (isect : I -> aabb -> bool) (threshold : nat).

Definition set_mem (x : I) (s : list I) : bool := existsb (ieqb x) s.
Definition set_add (x : I) (s : list I) : list I := if set_mem x s then s else s ++ [x].

(** pmr_quadtree.py:58-63 Node: [children] is None ([QLeaf]) or the list of four ([QSplit]) *)
Inductive qnode :=
| QLeaf (box : aabb) (items : list I)
| QSplit (box : aabb) (items : list I) (c0 c1 c2 c3 : qnode).
Definition q_box (n : qnode) : aabb := match n with QLeaf b _ => b | QSplit b _ _ _ _ _ => b end.

(** pmr_quadtree.py:59-63 *)
Definition leaf (b : aabb) : qnode := QLeaf b [].

(** pmr_quadtree.py:82-91: the four boxes in the order of the two nested loops.
    [AABB(lower, upper)] with given corner vectors computes its middle (aabb.py:43). *)
Definition box_from (xr yr : num * num) : aabb :=
  let l := (fst xr, fst yr) in let u := (snd xr, snd yr) in mkAABB l u (update_middle l u).
Definition split_boxes (b : aabb) : aabb * aabb * aabb * aabb :=
  let mx := n_half (n_add (fst (upper b)) (fst (lower b))) in
  let my := n_half (n_add (snd (upper b)) (snd (lower b))) in
  let xl := (fst (lower b), mx) in let xh := (mx, fst (upper b)) in
  let yl := (snd (lower b), my) in let yh := (my, snd (upper b)) in
  (box_from xl yl, box_from xl yh, box_from xh yl, box_from xh yh).

(** pmr_quadtree.py:65-78 add on a node without children and allow_split=False *)
Definition leaf_add (b : aabb) (items : list I) (x : I) : qnode :=
  if isect x b then QLeaf b (set_add x items) else QLeaf b items.

(** pmr_quadtree.py:65-78 Node.add.  A freshly split node hands the item to four fresh leaves with
    allow_split=False; the items it had stay where they are (93-95 are commented out). *)
Fixpoint q_add (n : qnode) (x : I) (allow_split : bool) : qnode :=
  if negb (isect x (q_box n)) then n                                          (* 66-67 *)
  else match n with
  | QLeaf b items =>
      if allow_split && (threshold <=? length items + 1)%nat then             (* 69-71 *)
        let '(b0, b1, b2, b3) := split_boxes b in
        QSplit b items (leaf_add b0 [] x) (leaf_add b1 [] x) (leaf_add b2 [] x) (leaf_add b3 [] x)
      else QLeaf b (set_add x items)                                          (* 77-78 *)
  | QSplit b items c0 c1 c2 c3 =>                                             (* 74-76 *)
      QSplit b items (q_add c0 x allow_split) (q_add c1 x allow_split)
                     (q_add c2 x allow_split) (q_add c3 x allow_split)
  end.

(** pmr_quadtree.py:97-104 Node.find_all; the result set is accumulated as a list *)
Fixpoint q_find (n : qnode) (pred : aabb -> bool) : list I :=
  if negb (pred (q_box n)) then []
  else match n with
  | QLeaf _ items => items
  | QSplit _ items c0 c1 c2 c3 => items ++ q_find c0 pred ++ q_find c1 pred ++ q_find c2 pred ++ q_find c3 pred
  end.

(** pmr_quadtree.py:27-56 PMRQuadTree *)
Definition PMRQuadTree (b : aabb) (items : list I) : qnode :=
  fold_left (fun n x => q_add n x true) items (leaf b).
Definition find_all_similar (n : qnode) (x : I) : list I := q_find n (fun b => isect x b).
End PMR.
Arguments qnode : clear implicits.

(** pmr_quadtree.py:107-121 SegmentPMRQuadTree *)
Definition seg_eqb (s r : segment) : bool := pt_eqb (fst s) (fst r) && pt_eqb (snd s) (snd r).
Definition seg_isect (s : segment) (b : aabb) : bool := intersects_segment b s.
Definition items_box (items : list segment) : aabb :=
  fold_left (fun b s => include_point (include_point b (fst s)) (snd s)) items (AABB None None).  (* 110-113 *)
Definition SegmentPMRQuadTree (b : option aabb) (items : list segment) (threshold : nat) : qnode segment :=
  PMRQuadTree seg_eqb seg_isect threshold (match b with Some b => b | None => items_box items end) items.
Definition seg_find (n : qnode segment) (s : segment) : list segment := find_all_similar seg_isect n s.
