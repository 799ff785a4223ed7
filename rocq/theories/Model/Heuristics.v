(** * Model of plycutter/heuristics.py.

    Not modelled: logging (including [logger.debug] arguments), select_all (its first statement is
    [assert 0 == 1]), [params] other than the two finger widths (exact numbers, command_line.py:44-47)
    and the seed.  The random generator, the rounding of float arithmetic and the iteration order of
    sets and pmaps are arguments. *)
From Verif.Model Require Export Sheetbuild.
From Coq Require Import String DecimalString.

(** a stored value as a number; [Geom1D] converts it back unchanged *)
Definition num (e : ext) : pynum := match e with NInf => NNegInf | PInf => NPosInf | Fin q => NMpq q end.
Definition Geom1D_ext (l : list iv) : result geom1d := Geom1D (map (fun i => [num (fst i); num (snd i)]) l).

(** ** random_min_max (403-433) *)
(** numbers of this function: exact (int, mpq) or floating (float, mpfr) *)
Inductive fnum := FX (q : Qc) | FF (q : Qc).
Definition fval (a : fnum) : Qc := match a with FX q | FF q => q end.
(** the random generator: the k-th draw *)
Record rng := mkRng {
  r_shuffle : nat -> list nat -> list nat;      (* 407 *)
  r_uniform : nat -> Qc -> Qc -> Qc;            (* 421 *)
  r_randint : nat -> Z -> Z -> Z }.             (* 497; excludes the upper end *)
Section Float.
Variable fl : Qc -> Qc.      (* rounding of a float result *)
Definition fadd (a b : fnum) : fnum := match a, b with FX x, FX y => FX (x + y) | _, _ => FF (fl (fval a + fval b)) end.
Definition fsub (a b : fnum) : fnum := match a, b with FX x, FX y => FX (x - y) | _, _ => FF (fl (fval a - fval b)) end.
Fixpoint set_nth {X} (i : nat) (x : X) (l : list X) : list X :=
  match l, i with [], _ => [] | _ :: r, O => x :: r | y :: r, S i => y :: set_nth i x r end.
Variable R : rng.
(** the loop 410-426; [left] is recomputed from the running total *)
Fixpoint draw_loop (n : nat) (mn mx total : Qc) (order : list nat) (lengths : list Qc) (running : fnum) (handled : nat) (k : nat) :
  result (list Qc * nat) :=
  match order with
  | [] => Ok (lengths, k)
  | i :: r =>
      let left := fsub (FX total) running in
      let rest := zq (Z.of_nat n - Z.of_nat handled - 1) in
      let at_most := fsub left (FX (rest * mn)) in
      let at_min := fsub left (FX (rest * mx)) in
      let low := qmax (fval at_min) mn in
      let hi := qmin (fval at_most) mx in
      _ <- passert (qleb low hi) ;;
      let cur := r_uniform R k low hi in
      draw_loop n mn mx total r (set_nth i cur lengths) (fadd running (FF cur)) (S handled) (S k)
  end.
(** 428-431 *)
Fixpoint spans_loop (lengths : list Qc) (cur : fnum) : list (Qc * Qc) * fnum :=
  match lengths with
  | [] => ([], cur)
  | x :: r =>
      let nxt := fadd cur (FF x) in
      let '(l, c) := spans_loop r nxt in
      ((fval cur, fval nxt) :: l, c)
  end.
Definition random_min_max (n : nat) (mn mx total : Qc) (k : nat) : result (list (Qc * Qc) * nat) :=
  let nq := zq (Z.of_nat n) in
  _ <- passert (qleb (mn * nq) total && qleb total (mx * nq)) ;;                (* 404 *)
  let order := r_shuffle R k (seq 0 n) in
  ' (lengths, k) <- draw_loop n mn mx total order (repeat 0 n) (FX 0) 0 (S k) ;;
  let '(result, cur_sum) := spans_loop lengths (FX 0) in
  _ <- passert (qltb (fval (fsub cur_sum (FX total))) e8) ;;                    (* 432-433 *)
  Ok (result, k).
End Float.

(** ** Finger counts (472-497) *)
(** np.floor, np.ceil of an mpq; division raises on zero *)
Definition np_floor (q : Qc) : Z := (Qnum (this q) / Zpos (Qden (this q)))%Z.
Definition np_ceil (q : Qc) : Z := (- np_floor (- q))%Z.
Definition qdivr (a b : Qc) : result Qc := if qeqb b 0 then Err ZeroDivisionError else Ok (a / b).
(** 472-480: the smallest and largest count of the parity wanted *)
Definition count_range (odd : bool) (len min_width max_width : Qc) : result (Z * Z) :=
  a <- qdivr len max_width ;;
  b <- qdivr len min_width ;;
  let n_min_base := np_ceil a in
  let n_max_base := np_floor b in
  Ok (if odd then (n_min_base + n_min_base mod 2, n_max_base - n_max_base mod 2)%Z
      else (n_min_base + 1 - n_min_base mod 2, n_max_base - 1 + n_max_base mod 2)%Z).
Definition preferred_min : Z := 5.
(** 492-495 *)
Definition raise_min (n_min n_max : Z) : Z := if (n_min <? preferred_min)%Z then Z.min preferred_min n_max else n_min.
(** 502-510: fingers alternate, starting on [cur_side] (false = side 0) *)
Fixpoint alternate (start : Qc) (locations : list (Qc * Qc)) (cur_side : bool) (f0 f1 : geom1d) : result (geom1d * geom1d) :=
  match locations with
  | [] => Ok (f0, f1)
  | (a, b) :: r =>
      span <- Geom1D [[NMpq (start + a); NMpq (start + b)]] ;;
      if cur_side
      then f1 <- g_or f1 span ;; alternate start r (negb cur_side) f0 f1
      else f0 <- g_or f0 span ;; alternate start r (negb cur_side) f0 f1
  end.

Section Heu.
Variable A : arr_impl.
Variable fsqrt : Qc -> Qc.
Variable fl : Qc -> Qc.
Variable R : rng.
Variable min_width max_width : Qc.
(** order of iteration of a cluster (a pmap) and of a set of sheet ids *)
Variable ord : dict string geom1d -> dict string geom1d.
Variable sord : list string -> list string.

(** the state: the SheetBuild and sheetbuild.check_index *)
Definition hstate := (sbuild * Z)%type.
Definition hcheck (st : hstate) : result hstate := ci <- check A (fst st) false (snd st) ;; Ok (fst st, ci).
Definition with_sok (sb : sbuild) (sok : dict string geom2d) : sbuild := mkSB (sb_plex sb) (sb_schosen sb) sok (sb_ichosen sb) (sb_iok sb).
Definition with_iok (sb : sbuild) (iok : dict id2 geom1d) : sbuild := mkSB (sb_plex sb) (sb_schosen sb) (sb_sok sb) (sb_ichosen sb) iok.
Definition sheets_of (sb : sbuild) : list sheet := values (sp_sheets (sb_plex sb)).
Definition sides_of (sb : sbuild) : list interside := sp_intersides (sb_plex sb) None.

(** 41-63 choose_obviously_irrelevant *)
Definition irrelevant (sb : sbuild) (s : interside) : result geom1d :=
  ok <- iget (is_id s) (sb_iok sb) ;;
  ok' <- buffer_q ok (qq 1 100) ;;
  fing <- make_fingers01 A s ok' ;;
  sh <- dgetr String.eqb (is_sheet s) (sp_sheets (sb_plex sb)) ;;
  fb <- g2_buffer A fsqrt fing (NMpq (qq 1 100)) ;;
  outside <- g2_and A (sh_slices_max sh) fb ;;
  fb' <- g2_buffer A fsqrt fing (NMpq (qq 1 1000)) ;;
  outside <- g2_sub A outside fb' ;;
  p <- is_project_to_1d s outside ;;
  outsideless <- g_invert p ;;
  o <- opposite s (sb_plex sb) ;;
  x <- g_and outsideless ok ;;
  oko <- iget (is_id o) (sb_iok sb) ;;
  g_and x oko.
Definition choose_obviously_irrelevant (st : hstate) : result hstate :=
  ' (sb, ci) <- hcheck st ;;
  unchoices <- dict_of id2_eqb is_id (irrelevant sb) (sides_of sb) ;;
  sb <- unchoose_intersides sb unchoices ;;
  Ok (sb, ci).

(** 66-83 remove_loose *)
Definition loose (sb : sbuild) (sh : sheet) (full_support : geom2d) (impossible : geom2d) (polygon : geom2d) : result geom2d :=
  x <- g2_and A polygon full_support ;;
  if g2_is_empty x then
    c <- sget (sh_id sh) (sb_schosen sb) ;;
    cp <- g2_and A c polygon ;;
    _ <- assert_area cp e2 ;;
    g2_or A impossible polygon
  else Ok impossible.
Definition remove_loose_sheet (sb : sbuild) (sh : sheet) : result sbuild :=
  full_support <- g2_and A (sh_face0 sh) (sh_face1 sh) ;;
  c <- sget (sh_id sh) (sb_schosen sb) ;;
  k <- sget (sh_id sh) (sb_sok sb) ;;
  possible <- g2_or A c k ;;
  impossible <- foldM (loose sb sh full_support) (g2_polygons possible) g2_empty ;;
  sok <- transform_sub2 A (sb_sok sb) (sh_id sh) impossible ;;
  Ok (with_sok sb sok).
Definition remove_loose (st : hstate) : result hstate :=
  ' (sb, ci) <- hcheck st ;;
  sb <- foldM remove_loose_sheet (sheets_of sb) sb ;;
  Ok (sb, ci).

(** 87-100 update_intersection_ok *)
Definition update_iok_side (sb : sbuild) (s : interside) : result sbuild :=
  ok <- iget (is_id s) (sb_iok sb) ;;
  ok' <- buffer_q ok (qq 1 10) ;;
  fing <- make_fingers01 A s ok' ;;
  k <- sget (is_sheet s) (sb_sok sb) ;;
  max_fing <- g2_and A fing k ;;
  p <- is_project_to_1d s fing ;;
  q <- is_project_to_1d s max_fing ;;
  unsupported <- g_sub p q ;;
  u <- buffer_q unsupported (qq 1 1000) ;;
  iok <- msub1 (sb_iok sb) (is_id s) u ;;
  Ok (with_iok sb iok).
Definition update_intersection_ok (st : hstate) : result hstate :=
  ' (sb, ci) <- hcheck st ;;
  sb <- foldM update_iok_side (sides_of sb) sb ;;
  Ok (sb, ci).

(** 103-125 update_sheet_ok *)
Definition on_sides (sb : sbuild) (acc : geom2d * geom2d) (s : interside) : result (geom2d * geom2d) :=
  let '(on_interside, ok_on) := acc in
  o <- opposite s (sb_plex sb) ;;
  k <- iget (is_id s) (sb_iok sb) ;;
  f <- make_fingers01 A s k ;;
  ok_on <- g2_or A ok_on f ;;
  ko <- iget (is_id o) (sb_iok sb) ;;
  kk <- g_or k ko ;;
  f' <- make_fingers01 A s kk ;;
  on_interside <- g2_or A on_interside f' ;;
  Ok (on_interside, ok_on).
Definition update_sok_sheet (sb : sbuild) (sh : sheet) : result sbuild :=
  ' (on_interside, ok_on) <- foldM (on_sides sb) (sp_intersides (sb_plex sb) (Some (sh_id sh))) (g2_empty, g2_empty) ;;
  d <- g2_sub A on_interside ok_on ;;
  b <- g2_buffer A fsqrt d (NMpq (qq 2 1000)) ;;
  c <- sget (sh_id sh) (sb_schosen sb) ;;
  a <- g2_sub A b c ;;
  unchoose_sheet_area A sb (sh_id sh) a.
Definition update_sheet_ok (st : hstate) : result hstate :=
  ' (sb, ci) <- hcheck st ;;
  sb <- foldM update_sok_sheet (sheets_of sb) sb ;;
  Ok (sb, ci).

(** 128-132 _Interaction *)
Record interaction := mkIa { ia_side : id2; ia_range : geom1d; ia_other : id2; ia_other_range : geom1d }.
(** 135-137 _Interactions.by_intersection: a defaultdict of lists, in order of insertion *)
Definition add_ia (m : dict string (list interaction)) (k : string) (i : interaction) : dict string (list interaction) :=
  dset String.eqb k ((match dget String.eqb k m with Some l => l | None => [] end) ++ [i]) m.
(** 140-188 _find_interactions *)
Definition interact2 (sb : sbuild) (i : interside) (fi : geom2d) (m : dict string (list interaction)) (j : interside) :
  result (dict string (list interaction)) :=
  k <- iget (is_id j) (sb_iok sb) ;;
  fj <- make_fingers01 A j k ;;
  double <- g2_and A fi fj ;;
  if g2_is_empty double then Ok m
  else
    di <- is_project_to_1d i double ;;
    dj <- is_project_to_1d j double ;;
    Ok (add_ia (add_ia m (is_inter i) (mkIa (is_id i) di (is_id j) dj)) (is_inter j) (mkIa (is_id j) dj (is_id i) di)).
Fixpoint interact_loop (sb : sbuild) (l : list interside) (m : dict string (list interaction)) : result (dict string (list interaction)) :=
  match l with
  | [] => Ok m
  | i :: r =>
      k <- iget (is_id i) (sb_iok sb) ;;
      fi <- make_fingers01 A i k ;;
      m <- foldM (interact2 sb i fi) r m ;;
      interact_loop sb r m
  end.
Definition find_interactions (sb : sbuild) : result (dict string (list interaction)) :=
  foldM (fun m sh => interact_loop sb (sp_intersides (sb_plex sb) (Some (sh_id sh))) m) (sheets_of sb) [].

(** 191-235 _find_interaction_clusters; a cluster maps intersection ids to ranges *)
Definition cluster := dict string geom1d.
Definition cmap_and : cluster -> cluster -> result cluster := map_and String.eqb g_and is_empty.
Definition cmap_or : cluster -> cluster -> result cluster := map_or String.eqb g_or [].
(** 203-208 *)
Definition cmap_of (sp : sheetplex) (i : interaction) : result cluster :=
  s <- sp_interside sp (ia_side i) ;;
  o <- sp_interside sp (ia_other i) ;;
  Ok (dset String.eqb (is_inter o) (ia_other_range i) (dset String.eqb (is_inter s) (ia_range i) [])).
(** 211-214 *)
Fixpoint belongs_to (members : dict string cluster) (cmap : cluster) : result (list string) :=
  match members with
  | [] => Ok []
  | (k, v) :: r =>
      x <- cmap_and v cmap ;;
      l <- belongs_to r cmap ;;
      Ok (match x with [] => l | _ => k :: l end)
  end.
Definition cget := @dgetr string cluster String.eqb.
(** 223-227 *)
Definition merge_into (b0 : string) (members : dict string cluster) (k : string) : result (dict string cluster) :=
  c0 <- cget b0 members ;;
  ck <- cget k members ;;
  c <- cmap_or c0 ck ;;
  Ok (ddel String.eqb k (dset String.eqb b0 c members)).
Definition cluster_name (n : nat) : string := ("c" ++ NilEmpty.string_of_uint (Nat.to_uint n))%string.
(** 202-233 *)
Definition add_interaction (sp : sheetplex) (st : dict string cluster * nat) (i : interaction) : result (dict string cluster * nat) :=
  let '(members, n) := st in
  cmap <- cmap_of sp i ;;
  b <- belongs_to members cmap ;;
  match b with
  | [] => Ok (dset String.eqb (cluster_name n) cmap members, S n)
  | b0 :: rest =>
      c0 <- cget b0 members ;;
      c <- cmap_or c0 cmap ;;
      members <- foldM (merge_into b0) rest (dset String.eqb b0 c members) ;;
      Ok (members, n)
  end.
Definition find_interaction_clusters (sp : sheetplex) (by_inter : dict string (list interaction)) : result (dict string cluster) :=
  ' (members, _) <- foldM (fun st e => foldM (add_interaction sp) (snd e) st) by_inter ([], O) ;;
  Ok members.

(** ** 241-369 heuristic_multi_inter_single_decisions *)
Definition gcl := @dgetr string geom1d String.eqb.
Definition eps : Qc := qq 2 10.
Definition min_finger : Qc := zq 3.
(** 263-269: sides by sheet, a defaultdict *)
Definition by_sheet (m : dict string (list interside)) (s : interside) : dict string (list interside) :=
  dset String.eqb (is_sheet s) ((match dget String.eqb (is_sheet s) m with Some l => l | None => [] end) ++ [s]) m.
(** 279-292: area offered by one sheet, and does it need an extra connection *)
Definition sheet_offer (sb : sbuild) (cl : cluster) (bys : dict string (list interside)) (sh : sheet) : result (Qc * bool) :=
  fingers <- foldM (fun fingers s => c <- gcl (is_inter s) cl ;; k <- iget (is_id s) (sb_iok sb) ;; r <- g_and c k ;;
                                     f <- make_fingers01 A s r ;; g2_or A fingers f)
                   (match dget String.eqb (sh_id sh) bys with Some l => l | None => [] end) g2_empty ;;
  a <- g2_area fingers ;;
  fb <- g2_buffer A fsqrt fingers (NMpq eps) ;;
  c <- sget (sh_id sh) (sb_schosen sb) ;;
  x <- g2_and A fb c ;;
  b <- g2_area x ;;
  Ok (a, qleb b (min_finger * eps)).
(** 298 np.argmax: the first largest; ValueError on an empty list *)
Fixpoint argmax_loop (best : nat) (bv : Qc) (i : nat) (l : list Qc) : nat :=
  match l with [] => best | v :: r => if qltb bv v then argmax_loop i v (S i) r else argmax_loop best bv (S i) r end.
Definition argmax (l : list Qc) : result nat := match l with [] => Err ValueError | v :: r => Ok (argmax_loop 0 v 1 r) end.
(** 317-318: the key (length, start) *)
Definition opt_ltb (a b : option ext) : bool := match a, b with Some x, Some y => eltb x y | _, _ => false end.
Definition opt_eqb (a b : option ext) : bool := match a, b with Some x, Some y => eeqb x y | _, _ => false end.
Definition iv_key_ltb (i j : iv) : bool :=
  let li := esub (snd i) (fst i) in let lj := esub (snd j) (fst j) in
  opt_ltb li lj || (opt_eqb li lj && eltb (fst i) (fst j)).
(** 301-338: [None] if no side of the sheet can take the extra connection *)
Fixpoint find_extra (sb : sbuild) (cl : cluster) (l : list interside) : result (option cluster) :=
  match l with
  | [] => Ok None
  | s :: r =>
      it <- dgetr String.eqb (is_inter s) (sp_inters (sb_plex sb)) ;;
      default_range <- gcl (it_id it) cl ;;
      mr <- buffer_q default_range (min_finger + eps) ;;
      k <- iget (is_id s) (sb_iok sb) ;;
      mr <- g_and mr k ;;
      mr <- g_sub mr default_range ;;
      match rev (sort_by iv_key_ltb mr) with
      | [] => find_extra sb cl r
      | i :: _ =>
          if opt_ltb (esub (snd i) (fst i)) (Some (Fin (qq 3 2))) then find_extra sb cl r
          else
            prev <- gcl (is_inter s) cl ;;
            g <- Geom1D_ext [i] ;;
            x <- g_or prev g ;;
            Ok (Some (dset String.eqb (is_inter s) x cl))
      end
  end.
(** 349-354 *)
Definition choose_side (cl : cluster) (sb : sbuild) (s : interside) : result sbuild :=
  c <- gcl (is_inter s) cl ;;
  k <- iget (is_id s) (sb_iok sb) ;;
  chosen_range <- g_and c k ;;
  choose_interside A sb (is_id s) chosen_range false.
(** 358-363 *)
Definition unchoose_others (sheet_id : string) (sb : sbuild) (e : string * geom1d) : result sbuild :=
  it <- dgetr String.eqb (fst e) (sp_inters (sb_plex sb)) ;;
  foldM (fun sb s => if String.eqb (is_sheet s) sheet_id then Ok sb else unchoose_interside sb (is_id s) (snd e)) (it_sides it) sb.
(** 258-367: one cluster *)
Definition decide_cluster (st : hstate) (cl : cluster) : result hstate :=
  let '(sb, ci) := st in
  let sp := sb_plex sb in
  inters <- mapM (fun k => dgetr String.eqb k (sp_inters sp)) (keys (ord cl)) ;;
  let bys := fold_left by_sheet (flat_map it_sides inters) [] in
  let sheet_ids := sord (keys bys) in
  sheets <- mapM (fun k => dgetr String.eqb k (sp_sheets sp)) sheet_ids ;;
  offers <- mapM (sheet_offer sb cl bys) sheets ;;
  choice <- argmax (map fst offers) ;;
  match nth_error sheets choice, nth_error offers choice with
  | Some sh, Some (_, needs_extra) =>
      let sides := match dget String.eqb (sh_id sh) bys with Some l => l | None => [] end in
      cl <- (if needs_extra
             then oc <- find_extra sb cl sides ;; match oc with Some c => Ok c | None => Err PlainException end
             else Ok cl) ;;
      ' (sb, ci) <- hcheck (sb, ci) ;;
      sb <- foldM (choose_side cl) sides sb ;;
      sb <- foldM (unchoose_others (sh_id sh)) (ord cl) sb ;;
      hcheck (sb, ci)
  | _, _ => Err IndexError
  end.
Definition heuristic_multi_inter_single_decisions (st : hstate) : result hstate :=
  let sb := fst st in
  interactions <- find_interactions sb ;;
  clusters <- find_interaction_clusters (sb_plex sb) interactions ;;
  _ <- foldM cmap_or (values clusters) [] ;;                                    (* 253-255 *)
  foldM decide_cluster (values clusters) st.

(** ** 374-400 choose_the_ok_side *)
Definition choose_only_ok (st : hstate) (s : interside) : result hstate :=
  let '(sb, ci) := st in
  k <- iget (is_id s) (sb_iok sb) ;;
  c <- iget (is_id s) (sb_ichosen sb) ;;
  t <- g_sub k c ;;
  o <- opposite s (sb_plex sb) ;;
  ko <- iget (is_id o) (sb_iok sb) ;;
  t <- g_sub t ko ;;
  co <- iget (is_id o) (sb_ichosen sb) ;;
  orig <- g_sub t co ;;
  t <- buffer_q orig (- qq 1 100) ;;
  t <- buffer_q t (qq 1 100) ;;
  small <- g_sub orig t ;;
  sb <- choose_interside A sb (is_id s) t false ;;
  sb <- unchoose_interside sb (is_id s) small ;;
  hcheck (sb, ci).
Definition choose_the_ok_side (st : hstate) : result hstate :=
  st <- hcheck st ;;
  foldM choose_only_ok (flat_map it_sides (values (sp_inters (sb_plex (fst st))))) st.

(** ** 436-516 single_fingers_random *)
(** 460-468: the side with more chosen material next to the range; argmax prefers side 0 *)
Definition more_on_1 (sb : sbuild) (s0 s1 : interside) (i : iv) : result bool :=
  ei <- Geom1D_ext [i] ;;
  c0 <- iget (is_id s0) (sb_ichosen sb) ;;
  m0 <- g_and c0 ei ;;
  c1 <- iget (is_id s1) (sb_ichosen sb) ;;
  m1 <- g_and c1 ei ;;
  Ok (opt_ltb (measure1d m0) (measure1d m1)).
(** 470-510: the fingers of the two sides on a range, from the side that has the neighbouring
    material before ([on0]) and after ([on1]) it; [None] if there is no room for more than one *)
Definition plan_fingers (on0 on1 : bool) (start end_ : Qc) (k : nat) : result (option (geom1d * geom1d) * nat) :=
  ' (n_min, n_max) <- count_range (xorb on0 on1) (end_ - start) min_width max_width ;;
  if (n_max <? n_min)%Z then Ok (None, k)
  else
    let n := r_randint R k (raise_min n_min n_max) (n_max + 1) in
    ' (locations, k) <- random_min_max fl R (Z.to_nat n) min_width max_width (end_ - start) (S k) ;;
    f <- alternate start locations (negb on0) [] [] ;;
    Ok (Some f, k).
(** 456-513: one interval; an infinite end makes randint or ceil raise *)
Definition fingers_range (s0 s1 : interside) (st : sbuild * nat) (i : iv) : result (sbuild * nat) :=
  let '(sb, k) := st in
  match i with
  | (Fin start, Fin end_) =>
      g <- Geom1D_ext [i] ;;
      on0 <- more_on_1 sb s0 s1 (Fin (start - zq 2), Fin start) ;;
      on1 <- more_on_1 sb s0 s1 (Fin end_, Fin (end_ + zq 2)) ;;
      ' (plan, k) <- plan_fingers on0 on1 start end_ k ;;
      match plan with
      | None => sb <- choose_interside A sb (is_id s0) g false ;; Ok (sb, k)                     (* 486-490 *)
      | Some (f0, f1) =>
          sb <- choose_interside A sb (is_id s0) f0 false ;;
          sb <- choose_interside A sb (is_id s1) f1 false ;;
          Ok (sb, k)
      end
  | _ => Err ValueError
  end.
Definition fingers_inter (st : sbuild * nat) (it : intersection) : result (sbuild * nat) :=
  match it_sides it with
  | [s0; s1] =>
      let sb := fst st in
      k0 <- iget (is_id s0) (sb_iok sb) ;;
      k1 <- iget (is_id s1) (sb_iok sb) ;;
      c0 <- iget (is_id s0) (sb_ichosen sb) ;;
      c1 <- iget (is_id s1) (sb_ichosen sb) ;;
      a0 <- g_sub k0 c0 ;;
      a1 <- g_sub k1 c1 ;;
      x <- g_xor a0 a1 ;;
      _ <- passert (measure_lt x e8) ;;
      foldM (fingers_range s0 s1) a0 st
  | _ => Err AssertionError
  end.
Definition single_fingers_random (st : hstate) : result hstate :=
  ' (sb, ci) <- hcheck st ;;
  ' (sb, _) <- foldM fingers_inter (values (sp_inters (sb_plex sb))) (sb, O) ;;
  Ok (sb, ci).

(** ** 519-533 clean_up_thin_ok_parts *)
Definition clean_sheet (sb : sbuild) (sok : dict string geom2d) (sh : sheet) : result (dict string geom2d) :=
  chosen <- sget (sh_id sh) (sb_schosen sb) ;;
  ok <- sget (sh_id sh) (sb_sok sb) ;;
  ok <- g2_buffer A fsqrt ok (NMpq (- qq 1 2)) ;;
  ok <- g2_buffer A fsqrt ok (NMpq (qq 1 2)) ;;
  ok <- g2_or A ok chosen ;;
  Ok (dset String.eqb (sh_id sh) ok sok).
Definition clean_up_thin_ok_parts (st : hstate) : result hstate :=
  let '(sb, ci) := st in
  sok <- foldM (clean_sheet sb) (sheets_of sb) (sb_sok sb) ;;
  Ok (with_sok sb sok, ci).
End Heu.
