(** * Model of plycutter/sheetbuild.py.

    Not modelled: the field [dbg], logging, the debugging global [locs] (270-271).
    show_sheet is in Draw.v.  The 2D set operations run on an arrangement code [A]; Geom2D.buffer also on [fsqrt].
    The float literals of the assertions are the exact values of the doubles; comparisons between a
    rational and a float are exact. *)
From Verif.Model Require Export Sheetplex.
From Coq Require Import String.

Definition e5 : Qc := qq 5902958103587057 590295810358705651712.      (* 1e-5 *)
Definition e6 : Qc := qq 4722366482869645 4722366482869645213696.     (* 1e-6 *)
Definition e7 : Qc := qq 944473296573929 9444732965739290427392.      (* 1e-7 *)
Definition e8 : Qc := qq 3022314549036573 302231454903657293676544.   (* 1e-8 *)
Definition e3 : Qc := qq 1152921504606847 1152921504606846976.        (* 0.001 *)
Definition e2 : Qc := qq 5764607523034235 576460752303423488.         (* 0.01 *)

(** [g.measure1d() < q]; a NaN compares false *)
Definition measure_lt (g : geom1d) (q : Qc) : bool :=
  match measure1d g with Some m => eltb m (Fin q) | None => false end.
(** [g.area() < q] *)
Definition area_lt (g : geom2d) (q : Qc) : result bool := a <- g2_area g ;; Ok (qltb a q).
Definition assert_area (g : geom2d) (q : Qc) : result unit := b <- area_lt g q ;; passert b.

(** sheetbuild.py:35-78 SheetBuild *)
Record sbuild := mkSB {
  sb_plex : sheetplex;
  sb_schosen : dict string geom2d; sb_sok : dict string geom2d;
  sb_ichosen : dict id2 geom1d; sb_iok : dict id2 geom1d }.

(** ** Maps of geoms (201-232) *)
Section Maps.
Context {K G : Type} (eqb : K -> K -> bool).
(** 201-204; [mapping.get(key) or empty()]: a geom is always true *)
Definition map_or_geom (or_ : G -> G -> result G) (emp : G) (m : dict K G) (k : K) (g : G) : result (dict K G) :=
  r <- or_ (match dget eqb k m with Some x => x | None => emp end) g ;; Ok (dset eqb k r m).
(** 207-209 and 212-214: [None & geom] and [None - geom] raise TypeError *)
Definition map_op_geom (op : G -> G -> result G) (m : dict K G) (k : K) (g : G) : result (dict K G) :=
  match dget eqb k m with
  | Some x => r <- op x g ;; Ok (dset eqb k r m)
  | None => Err TypeError
  end.
(** 217-224 *)
Fixpoint map_and (and_ : G -> G -> result G) (isem : G -> bool) (m1 m2 : dict K G) : result (dict K G) :=
  match m1 with
  | [] => Ok []
  | (k, v1) :: r =>
      match dget eqb k m2 with
      | None => map_and and_ isem r m2
      | Some v2 =>
          v <- and_ v1 v2 ;;
          rest <- map_and and_ isem r m2 ;;
          Ok (if isem v then rest else (k, v) :: rest)
      end
  end.
(** 227-232 *)
Definition map_or (or_ : G -> G -> result G) (emp : G) (m1 m2 : dict K G) : result (dict K G) :=
  foldM (fun m e => map_or_geom or_ emp m (fst e) (snd e)) m2 m1.
End Maps.
Definition mor1 := @map_or_geom id2 geom1d id2_eqb g_or [].
Definition msub1 := @map_op_geom id2 geom1d id2_eqb g_sub.
Definition sget := @dgetr string geom2d String.eqb.
Definition iget := @dgetr id2 geom1d id2_eqb.

(** ** The check counter (33-34, 144-153) *)
Definition check_interval : Z := 150.
(** one call of check(): does it really check, and the counter afterwards *)
Definition check_step (force : bool) (check_index : Z) : bool * Z :=
  let check_index := (check_index + 1)%Z in
  if force || (check_interval <? check_index)%Z then (true, 0%Z) else (false, check_index).

Section Build.
Variable A : arr_impl.
Variable fsqrt : Qc -> Qc.
Definition mor2 := @map_or_geom string geom2d String.eqb (g2_or A) [].
Definition msub2 := @map_op_geom string geom2d String.eqb (g2_sub A).

(** 79-93 unchoose_interside.  If the assertion fails, evaluating its message calls [area] on a
    Geom1D, which has no such method. *)
Definition unchoose_interside (sb : sbuild) (id : id2) (v : geom1d) : result sbuild :=
  c <- iget id (sb_ichosen sb) ;;
  cv <- g_and c v ;;
  _ <- (if is_empty cv then Ok tt else Err AttributeError) ;;
  s <- sp_interside (sb_plex sb) id ;;
  iok <- msub1 (sb_iok sb) (is_id s) v ;;
  Ok (mkSB (sb_plex sb) (sb_schosen sb) (sb_sok sb) (sb_ichosen sb) iok).
(** pyrsistent's transform([field, key], f): a missing key passes an empty pmap to [f], on which
    [-] raises TypeError *)
Definition transform_sub2 (m : dict string geom2d) (k : string) (g : geom2d) : result (dict string geom2d) := msub2 m k g.
(** 95-98 unchoose_sheet_area *)
Definition unchoose_sheet_area (sb : sbuild) (sheet_id : string) (area : geom2d) : result sbuild :=
  c <- sget sheet_id (sb_schosen sb) ;;
  ca <- g2_and A c area ;;
  _ <- assert_area ca e5 ;;
  sok <- transform_sub2 (sb_sok sb) sheet_id area ;;
  Ok (mkSB (sb_plex sb) (sb_schosen sb) sok (sb_ichosen sb) (sb_iok sb)).
(** 100-103 unchoose_intersides *)
Definition unchoose_intersides (sb : sbuild) (l : dict id2 geom1d) : result sbuild :=
  foldM (fun sb e => unchoose_interside sb (fst e) (snd e)) l sb.
(** 105-137 choose_interside *)
Definition choose_interside (sb : sbuild) (id : id2) (v : geom1d) (tentative : bool) : result sbuild :=
  ok <- iget id (sb_iok sb) ;;
  nok <- g_invert ok ;;
  bad <- g_and nok v ;;
  _ <- passert (measure_lt bad e6) ;;                                       (* 106 *)
  s <- sp_interside (sb_plex sb) id ;;
  o <- opposite s (sb_plex sb) ;;
  o2d <- make_fingers01 A o v ;;
  oc <- sget (is_sheet o) (sb_schosen sb) ;;
  both <- g2_and A o2d oc ;;
  _ <- assert_area both e6 ;;                                               (* 115-119 *)
  schosen <- (if tentative then Ok (sb_schosen sb)
              else f <- make_fingers01 A s v ;;
                   sok <- sget (is_sheet s) (sb_sok sb) ;;
                   add <- g2_and A f sok ;;
                   mor2 (sb_schosen sb) (is_sheet s) add) ;;                (* 123-129 *)
  of <- make_fingers01 A o v ;;
  sok <- msub2 (sb_sok sb) (is_sheet o) of ;;                               (* 130-133 *)
  ich <- mor1 (sb_ichosen sb) id v ;;                                       (* 134-135 *)
  iok <- msub1 (sb_iok sb) (is_id o) v ;;                                   (* 136 *)
  Ok (mkSB (sb_plex sb) schosen sok ich iok).
(** 139-142 choose_intersides *)
Definition choose_intersides (sb : sbuild) (l : dict id2 geom1d) (tentative : bool) : result sbuild :=
  foldM (fun sb e => choose_interside sb (fst e) (snd e) tentative) l sb.

(** 155-198 _check.  The message of the last assertion, 190-195, is made by fastr: fstr calls
    Geom1D.__fstr__(approx=True), which passes that keyword on to fastr for every interval
    (geom1d.py:124-126), and fastr takes no keyword (plytypes.py:75). *)
Definition check_sheet (sb : sbuild) (sh : sheet) : result unit :=
  c <- sget (sh_id sh) (sb_schosen sb) ;;
  k <- sget (sh_id sh) (sb_sok sb) ;;
  d <- g2_sub A c k ;;
  assert_area d e7.
Definition check_side (sb : sbuild) (s : interside) : result unit :=
  o <- opposite s (sb_plex sb) ;;
  c <- iget (is_id s) (sb_ichosen sb) ;;
  k <- iget (is_id s) (sb_iok sb) ;;
  d <- g_sub c k ;;
  _ <- passert (measure_lt d e7) ;;                                         (* 170-178 *)
  ko <- iget (is_id o) (sb_iok sb) ;;
  ck <- g_and c ko ;;
  _ <- passert (is_empty ck) ;;                                             (* 181-182 *)
  sc <- sget (is_sheet s) (sb_schosen sb) ;;
  f <- make_fingers01 A s ko ;;
  x <- g2_and A sc f ;;
  b <- area_lt x e3 ;;                                                      (* 186-189 *)
  if b then Ok tt else
    co <- iget (is_id o) (sb_ichosen sb) ;;                                 (* 190-195: the message *)
    Err (if is_empty k && is_empty ko && is_empty c && is_empty co then AssertionError else TypeError).
Definition check_now (sb : sbuild) : result unit :=
  _ <- mapM (check_sheet sb) (values (sp_sheets (sb_plex sb))) ;;
  _ <- mapM (check_side sb) (sp_intersides (sb_plex sb) None) ;;
  Ok tt.
(** 144-153 check; returns the new value of the global check_index *)
Definition check (sb : sbuild) (force : bool) (check_index : Z) : result Z :=
  let '(really, ci) := check_step force check_index in
  _ <- (if really then check_now sb else Ok tt) ;;
  Ok ci.

(** ** 235-279 create_sheetbuild *)
(** a dict comprehension [{k: f(x) for x in l}] *)
Definition dict_of {X K V} (eqb : K -> K -> bool) (key : X -> K) (f : X -> result V) (l : list X) : result (dict K V) :=
  foldM (fun m x => v <- f x ;; Ok (dset eqb (key x) v m)) l [].
Definition init_chosen (sh : sheet) : result geom2d :=
  b <- g2_and A (sh_face0 sh) (sh_face1 sh) ;;
  b <- g2_buffer A fsqrt b (NInt 1) ;;
  m <- g2_buffer A fsqrt (sh_slices_max sh) (NInt 0) ;;
  g2_and A b m.
Definition init_ok (ok_rad : pynum) (sh : sheet) : result geom2d :=
  f0 <- g2_buffer A fsqrt (sh_face0 sh) ok_rad ;;
  f1 <- g2_buffer A fsqrt (sh_face1 sh) ok_rad ;;
  b <- g2_and A f0 f1 ;;
  m <- g2_buffer A fsqrt (sh_slices_max sh) (NInt 0) ;;
  g2_and A b m.
Definition init_side_ok (sp : sheetplex) (sok : dict string geom2d) (s : interside) : result geom1d :=
  k <- sget (is_sheet s) sok ;;
  sh <- dgetr String.eqb (is_sheet s) (sp_sheets sp) ;;
  a <- g2_and A k (sh_slices_max sh) ;;
  r <- Geom1D [[NMpq (zq (-1000)); NMpq (zq 1000)]] ;;
  f <- make_fingers01 A s r ;;
  x <- g2_and A a f ;;
  is_project_to_1d s x.
Definition and_opposite (sp : sheetplex) (iok : dict id2 geom1d) (s : interside) : result (dict id2 geom1d) :=
  a <- iget (is_id s) iok ;;
  o <- opposite s sp ;;
  b <- iget (is_id o) iok ;;
  r <- g_and a b ;;
  Ok (dset id2_eqb (is_id s) r iok).
Definition carve (sp : sheetplex) (sc : dict string geom2d) (e : id2 * geom1d) : result (dict string geom2d) :=
  s <- sp_interside sp (fst e) ;;
  c <- sget (is_sheet s) sc ;;
  f <- make_fingers01 A s (snd e) ;;
  d <- g2_sub A c f ;;
  Ok (dset String.eqb (is_sheet s) d sc).
Definition create_sheetbuild (sp : sheetplex) (ok_rad : pynum) : result sbuild :=
  sc <- dict_of String.eqb sh_id init_chosen (values (sp_sheets sp)) ;;                 (* 240-242 *)
  sok <- dict_of String.eqb sh_id (init_ok ok_rad) (values (sp_sheets sp)) ;;           (* 245-250 *)
  ich <- dict_of id2_eqb is_id (fun _ => g_empty) (sp_intersides sp None) ;;            (* 252-253 *)
  iok <- dict_of id2_eqb is_id (init_side_ok sp sok) (sp_intersides sp None) ;;         (* 255-261 *)
  iok <- foldM (and_opposite sp) (sp_intersides sp None) iok ;;                         (* 263-264 *)
  sc <- foldM (carve sp) iok sc ;;                                                      (* 266-268 *)
  Ok (mkSB sp sc sok ich iok).
End Build.
