(** * Model of plycutter/geometry/impl2d/cell_merger.py (whole file except __repr__).

    Vertices are an arbitrary type [V] with decidable equality (tuples of mpq at the only call site).
    Python leaves the iteration order of a [set] open: every such choice is read from an oracle
    [o : nat -> nat], a stream of arbitrary numbers; [k] is the position in the stream.  Theorems
    quantify over all oracles.  Dictionaries keep insertion order ([popitem] is LIFO) and are
    association lists, most recently inserted key first. *)
From Verif.Base Require Export Py.

Section Merger.
Context {V : Type} (veqb : V -> V -> bool).
Variable o : nat -> nat.

Notation edge := (V * V)%type.
Definition edge_eqb (e f : edge) : bool := veqb (fst e) (fst f) && veqb (snd e) (snd f).
Definition mem_edge (e : edge) (l : list edge) : bool := existsb (edge_eqb e) l.
Definition del_edge (e : edge) (l : list edge) : list edge := filter (fun f => negb (edge_eqb e f)) l.
Definition mem_v (v : V) (l : list V) : bool := existsb (veqb v) l.
Definition del_v (v : V) (l : list V) : list V := filter (fun w => negb (veqb v w)) l.
Fixpoint list_eqb (a b : list V) : bool :=
  match a, b with
  | [], [] => true
  | x :: a', y :: b' => veqb x y && list_eqb a' b'
  | _, _ => false
  end.
Definition mem_l (c : list V) (l : list (list V)) : bool := existsb (list_eqb c) l.

(** a choice among the elements of a non-empty set; [None] for an empty one *)
Definition pick {A} (k : nat) (l : list A) : option A := nth_error l (o k mod length l).
(** removal of the i-th element, and an arbitrary permutation made of choices *)
Fixpoint take_at {A} (i : nat) (l : list A) : option (A * list A) :=
  match l, i with
  | [], _ => None
  | x :: t, O => Some (x, t)
  | x :: t, S i' => match take_at i' t with Some (y, t') => Some (y, x :: t') | None => None end
  end.
Fixpoint shuffle {A} (fuel k : nat) (l : list A) : list A * nat :=
  match fuel with
  | O => (l, k)
  | S f => match take_at (o k mod length l) l with
           | None => (l, k)
           | Some (x, t) => let '(r, k') := shuffle f (S k) t in (x :: r, k')
           end
  end.

(** cell_merger.py:44-54 class Cell.  [half_edges] is the key list of the dict of the same name in
    insertion order; its counts are never read by the code. *)
Record cell := mkCell { vertices : list V; half_edges : list edge; origs : list (list V) }.
Definition cyc_edges (l : list V) : list edge :=
  match l with [] => [] | a :: t => combine (a :: t) (t ++ [a]) end.     (* 51-54 *)
Fixpoint dict_keys (acc l : list edge) : list edge :=
  match l with
  | [] => acc
  | e :: t => if mem_edge e acc then dict_keys acc t else dict_keys (acc ++ [e]) t
  end.
Definition Cell (vs : list V) (os : list (list V)) : cell := mkCell vs (dict_keys [] (cyc_edges vs)) os.

(** cell_merger.py:59-69: cancelling opposite half-edges *)
Fixpoint cancel (todo se oe : list edge) (changed : bool) : result (list edge * list edge * bool) :=
  match todo with
  | [] => Ok (se, oe, changed)
  | (v0, v1) :: rest =>
      _ <- passert (negb (mem_edge (v0, v1) oe)) ;;                       (* 64 *)
      if mem_edge (v1, v0) oe                                              (* 65 *)
      then cancel rest (del_edge (v0, v1) se) (del_edge (v1, v0) oe) true  (* 66-68 *)
      else cancel rest se oe changed
  end.

(** the dict [nxt]: vertex -> set of vertices *)
Definition dict := list (V * list V).
Fixpoint d_get (d : dict) (v : V) : option (list V) :=
  match d with
  | [] => None
  | (k, vs) :: t => if veqb k v then Some vs else d_get t v
  end.
Fixpoint d_set_existing (d : dict) (v : V) (vs : list V) : dict :=
  match d with
  | [] => []
  | (k, w) :: t => if veqb k v then (k, vs) :: t else (k, w) :: d_set_existing t v vs
  end.
Definition d_put (d : dict) (v : V) (vs : list V) : dict :=
  match d_get d v with Some _ => d_set_existing d v vs | None => (v, vs) :: d end.
Definition d_del (d : dict) (v : V) : dict := filter (fun kv => negb (veqb (fst kv) v)) d.
(** [nxt[v0].add(v1)] on a defaultdict(set) (cell_merger.py:73-76) *)
Definition d_add (d : dict) (e : edge) : dict :=
  match d_get d (fst e) with
  | Some vs => if mem_v (snd e) vs then d else d_set_existing d (fst e) (vs ++ [snd e])
  | None => (fst e, [snd e]) :: d
  end.
Definition build_nxt (es : list edge) : dict := fold_left d_add es [].

(** [v = ifirst(vs); if len(vs) > 1: nxt[k0] = vs - {v}] after [vs] was popped (84-86 and 91-93) *)
Definition put_rest (d : dict) (k0 : V) (vs : list V) (v : V) : dict :=
  if (1 <? length vs)%nat then d_put d k0 (del_v v vs) else d.

(** cell_merger.py:87-94: the inner while loop *)
Fixpoint walk (fuel k : nat) (nxt : dict) (k0 v : V) (lst : list V) : result (list V * dict * nat) :=
  if veqb v k0 then Ok (lst, nxt, k)
  else match fuel with
  | O => Err OutOfFuel
  | S f =>
      match d_get nxt v with
      | None => Err KeyError                                               (* 90: nxt.pop(v) *)
      | Some vs =>
          match pick k vs with
          | None => Err IndexError                                         (* ifirst of an empty set *)
          | Some vnext => walk f (S k) (put_rest (d_del nxt v) v vs vnext) k0 vnext (lst ++ [v])
          end
      end
  end.

(** cell_merger.py:78-97: the outer while loop *)
Fixpoint thread (fuel k : nat) (nxt : dict) (os : list (list V)) (res : list cell) : result (list cell * nat) :=
  match nxt with
  | [] => Ok (res, k)
  | (k0, vs) :: nxt' =>                                                    (* 83 popitem *)
      match fuel with
      | O => Err OutOfFuel
      | S f =>
          match pick k vs with
          | None => Err IndexError
          | Some v =>
              ' (lst, nxt'', k'') <- walk (S f) (S k) (put_rest nxt' k0 vs v) k0 v [k0] ;;
              thread f k'' nxt'' os (res ++ [Cell lst os])                 (* 96-97 *)
          end
      end
  end.

(** cell_merger.py:59-98 Cell.merged.  The fuel is the number of remaining half-edges. *)
Definition merged (k : nat) (c d : cell) : result (option (list cell) * nat) :=
  ' (se, oe, changed) <- cancel (half_edges c) (half_edges c) (half_edges d) false ;;
  if negb changed then Ok (None, k)
  else
    ' (res, k') <- thread (length se + length oe) k (build_nxt (se ++ oe)) (origs c ++ origs d) [] ;;
    Ok (Some res, k').

(** cell_merger.py:100-107 the merger object *)
Record merger := mkMerger { cells : list cell; original_cells : list (list V); annihilated : list (list V) }.
Definition CellMergerSlow : merger := mkMerger [] [] [].

Definition inter_l (a b : list (list V)) : list (list V) := filter (fun x => mem_l x b) a.
Definition union_l (a b : list (list V)) : list (list V) := a ++ filter (fun x => negb (mem_l x a)) b.

(** cell_merger.py:135-147: an annihilated pair hands its originals to the cells that share one *)
Definition absorb (orig_cells : list (list V)) (cs : list cell) : list cell * bool :=
  (map (fun c => if negb (length (inter_l (origs c) orig_cells) =? 0)%nat
                 then mkCell (vertices c) (half_edges c) (union_l (origs c) orig_cells) else c) cs,
   existsb (fun c => negb (length (inter_l (origs c) orig_cells) =? 0)%nat) cs).

(** What one run of the [for other in list(self.cells)] loop ends with. *)
Record for_result := mkFor { f_cell : option cell;       (* None: deleted *)
                             f_cells : list cell;        (* self.cells *)
                             f_more : list cell;         (* to_add.extend(m[1:]) of all iterations, in order *)
                             f_ann : list (list V); f_k : nat }.

(** cell_merger.py:124-151: [todo] is the rest of the snapshot list, [kept] the cells already looked
    at and not removed; [self.cells] is [kept ++ todo] throughout. *)
Fixpoint for_others (k : nat) (c : cell) (todo kept more : list cell) (ann : list (list V)) : result for_result :=
  match todo with
  | [] => Ok (mkFor (Some c) kept more ann k)
  | other :: rest =>
      ' (m, k') <- merged k c other ;;
      match m with
      | None => for_others k' c rest (kept ++ [other]) more ann
      | Some [] =>                                                         (* 128-149 *)
          _ <- passert (length (inter_l (origs c) (origs other)) =? 0)%nat ;;  (* 134 *)
          let orig_cells := union_l (origs c) (origs other) in
          let '(cs, saved) := absorb orig_cells (kept ++ rest) in
          Ok (mkFor None cs more (if saved then ann else union_l ann orig_cells) k')
      | Some (m0 :: ms) => for_others k' m0 rest kept (more ++ ms) ann     (* 150-151 *)
      end
  end.

(** cell_merger.py:118-156: the [while len(to_add)] loop.  [to_add] is a stack with its top last in
    Python; here the top is first. *)
Fixpoint add_loop (fuel k : nat) (to_add cs : list cell) (ann : list (list V)) : result (list cell * list (list V) * nat) :=
  match to_add with
  | [] => Ok (cs, ann, k)
  | c :: to_add' =>
      match fuel with
      | O => Err OutOfFuel
      | S f =>
          let '(snapshot, k1) := shuffle (length cs) k cs in
          r <- for_others k1 c snapshot [] [] ann ;;
          let cs' := match f_cell r with Some c' => c' :: f_cells r | None => f_cells r end in
          add_loop f (f_k r) (rev (f_more r) ++ to_add') cs' (f_ann r)
      end
  end.

(** cell_merger.py:109-156 add_cell *)
Definition add_cell (fuel k : nat) (m : merger) (c : list V) : result (merger * nat) :=
  _ <- passert (negb (mem_l c (original_cells m))) ;;                      (* 110 *)
  ' (cs, ann, k') <- add_loop fuel k [Cell c [c]] (cells m) (annihilated m) ;;
  Ok (mkMerger cs (original_cells m ++ [c]) ann, k').
Fixpoint add_cells (fuel k : nat) (m : merger) (l : list (list V)) : result (merger * nat) :=
  match l with
  | [] => Ok (m, k)
  | c :: t => ' (m', k') <- add_cell fuel k m c ;; add_cells fuel k' m' t
  end.

(** cell_merger.py:166-177 check *)
Definition check (m : merger) : result unit :=
  let os := flat_map origs (cells m) in
  _ <- passert (length (inter_l os (annihilated m)) =? 0)%nat ;;           (* 170 *)
  let os := os ++ annihilated m in
  passert (forallb (fun c => mem_l c (original_cells m)) os                (* 173-176 *)
           && forallb (fun c => mem_l c os) (original_cells m)).

(** cell_merger.py:158-164 *)
Definition get_cells (m : merger) : result (list (list V)) := _ <- check m ;; Ok (map vertices (cells m)).
Definition get_cells_originals (m : merger) : result (list (list V * list (list V))) :=
  _ <- check m ;; Ok (map (fun c => (vertices c, origs c)) (cells m)).
End Merger.

(** cell_merger.py:28-34 canonicalize_cell, over any comparison [<] *)
Fixpoint mini_loop {V} (ltb : V -> V -> bool) (cell rest : list V) (i mini : nat) : nat :=
  match rest with
  | [] => mini
  | x :: t => mini_loop ltb cell t (S i)
                (match nth_error cell mini with
                 | Some y => if ltb x y then i else mini
                 | None => mini end)
  end.
Definition canonicalize_cell {V} (ltb : V -> V -> bool) (cell : list V) : list V :=
  let mini := mini_loop ltb cell cell 0 0 in
  skipn mini cell ++ firstn mini cell.
