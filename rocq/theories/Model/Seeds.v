(** * The random seed: heuristics.py:439-441 and the option --random_seed (command_line.py:59-60).

    [rng_of seed] is the generator np.random.RandomState(seed).  numpy raises ValueError for an integer
    outside 0 .. 2**32-1.  canned_1 and main are those of Canned.v with the seed in place of the generator. *)
From Verif.Model Require Export Canned.
From Coq Require Import String.

Section Seeds.
Variable A : arr_impl.
Variable fsqrt fl : Qc -> Qc.
Variable rng_of : Z -> rng.
Variable seed : Z.
Variable min_width max_width : Qc.
Variable ord : dict string geom1d -> dict string geom1d.
Variable sord : list string -> list string.
Variable pord : dict string geom2d -> dict string geom2d.

Definition random_state : result rng := if (0 <=? seed)%Z && (seed <=? 2 ^ 32 - 1)%Z then Ok (rng_of seed) else Err ValueError.
(** 436-516; the check (440) comes before the generator (441) *)
Definition single_fingers_seeded (st : hstate) : result hstate :=
  ' (sb, ci) <- hcheck A st ;;
  R <- random_state ;;
  ' (sb, _) <- foldM (fingers_inter A fl R min_width max_width) (values (sp_inters (sb_plex sb))) (sb, O) ;;
  Ok (sb, ci).
(** canned.py:52-66 *)
Definition seeded_steps : list (hstate -> result hstate) :=
  [ choose_obviously_irrelevant A fsqrt;
    remove_loose A;
    update_intersection_ok A;
    update_sheet_ok A fsqrt;
    update_intersection_ok A;
    remove_loose A;
    update_intersection_ok A;
    heuristic_multi_inter_single_decisions A fsqrt ord sord;
    update_intersection_ok A;
    choose_the_ok_side A;
    single_fingers_seeded;
    clean_up_thin_ok_parts A fsqrt ].
(** canned.py:34-91 without show *)
Definition canned_seeded (return_on_failure : option bool) (sp : sheetplex) (support_radius : pynum) (check_index : Z) : result canned :=
  match create_sheetbuild A fsqrt sp support_radius with
  | Err e => on_error return_on_failure e (Err UnboundLocalError)
  | Ok sb =>
      let '(st, log, err) :=
        match check A sb false check_index with
        | Err e => ((sb, check_index), [sb], Some e)
        | Ok ci => run_steps A false seeded_steps (sb, ci) [sb]
        end in
      match err with
      | None => Ok (mkCanned true (fst st) log)
      | Some e => on_error return_on_failure e (Ok (mkCanned false (fst st) log))
      end
  end.
(** command_line.py:86-103 *)
Definition main_seeded (load : result sheetplex) (support_radius final_dilation : pynum) : result (list (string * list polyline)) :=
  sp <- load ;;
  _ <- (match sp_sheets sp with [] => Err PlainException | _ => Ok tt end) ;;
  r <- canned_seeded None sp support_radius 0 ;;
  dilated <- mapM (dilate A fsqrt final_dilation) (pord (sb_schosen (cn_sb r))) ;;
  Ok (write_dxf dilated).
End Seeds.
