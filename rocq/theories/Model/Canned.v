(** * Model of plycutter/canned.py (canned_1) and of main in plycutter/command_line.py.

    Not modelled: logging, the body of do_show, argparse, reading the STL file and the file write.
    [load] is the outcome of trimesh.load and create_sheetplex.  Iteration order of a pmap is an argument. *)
From Verif.Model Require Export Heuristics Writer.
From Coq Require Import String.

(** canned.py:85-91; sheet_cuts is [sb_schosen] of the sheetbuild *)
Record canned := mkCanned { cn_ok : bool; cn_sb : sbuild; cn_history : list sbuild }.

Section Canned.
Variable A : arr_impl.
Variable fsqrt fl : Qc -> Qc.
Variable R : rng.
Variable min_width max_width : Qc.
Variable ord : dict string geom1d -> dict string geom1d.
Variable sord : list string -> list string.
Variable pord : dict string geom2d -> dict string geom2d.

(** canned.py:52-66 *)
Definition canned_steps : list (hstate -> result hstate) :=
  [ choose_obviously_irrelevant A fsqrt;
    remove_loose A;
    update_intersection_ok A;
    update_sheet_ok A fsqrt;
    update_intersection_ok A;
    remove_loose A;
    update_intersection_ok A;
    heuristic_multi_inter_single_decisions A fsqrt ord sord;
    update_intersection_ok A;
    choose_the_ok_side A;
    single_fingers_random A fl R min_width max_width;
    clean_up_thin_ok_parts A fsqrt ].
(** canned.py:67-76: the state reached, the history and the exception, if any.  With [show], line 73
    calls do_show with one argument too few. *)
Fixpoint run_steps (show : bool) (ops : list (hstate -> result hstate)) (st : hstate) (log : list sbuild) : hstate * list sbuild * option exn :=
  match ops with
  | [] =>
      let log := log ++ [fst st] in                                            (* 75 *)
      match check A (fst st) true (snd st) with                                (* 76 *)
      | Ok ci => ((fst st, ci), log, None)
      | Err e => (st, log, Some e)
      end
  | op :: r =>
      let log := log ++ [fst st] in                                            (* 70 *)
      match op st with                                                         (* 71 *)
      | Err e => (st, log, Some e)
      | Ok st' => if show then (st', log, Some TypeError) else run_steps show r st' log
      end
  end.
(** 80-83; [None]: the parameters have no key 'return_on_failure' *)
Definition on_error (return_on_failure : option bool) (e : exn) (k : result canned) : result canned :=
  match return_on_failure with None => Err KeyError | Some true => k | Some false => Err e end.
(** 34-91.  [show] is the outcome of do_show('Creation', sb), if it is called at all. *)
Definition canned_1 (show : option (sbuild -> result unit)) (return_on_failure : option bool) (sp : sheetplex) (support_radius : pynum) (check_index : Z) : result canned :=
  match create_sheetbuild A fsqrt sp support_radius with                       (* 43 *)
  | Err e => on_error return_on_failure e (Err UnboundLocalError)              (* 87: sb is not bound *)
  | Ok sb =>
      let '(st, log, err) :=
        match check A sb false check_index with                                (* 46 *)
        | Err e => ((sb, check_index), [sb], Some e)
        | Ok ci =>
            match (match show with None => Ok tt | Some d => d sb end) with    (* 48-49 *)
            | Err e => ((sb, ci), [sb], Some e)
            | Ok _ => run_steps (match show with None => false | Some _ => true end) canned_steps (sb, ci) [sb]
            end
        end in
      match err with
      | None => Ok (mkCanned true (fst st) log)
      | Some e => on_error return_on_failure e (Ok (mkCanned false (fst st) log))
      end
  end.

(** command_line.py:86-103: what is given to the DXF library.  The parser defines no option
    return_on_failure. *)
Definition dilate (final_dilation : pynum) (e : string * geom2d) : result (string * geom2d) :=
  g <- g2_buffer A fsqrt (snd e) final_dilation ;; Ok (fst e, g).              (* 97-100 *)
Definition main (load : result sheetplex) (support_radius final_dilation : pynum) : result (list (string * list polyline)) :=
  sp <- load ;;
  _ <- (match sp_sheets sp with [] => Err PlainException | _ => Ok tt end) ;;   (* 87-88 *)
  r <- canned_1 None None sp support_radius 0 ;;                               (* 92 *)
  dilated <- mapM (dilate final_dilation) (pord (sb_schosen (cn_sb r))) ;;
  Ok (write_dxf dilated).                                                      (* 103 *)
End Canned.
