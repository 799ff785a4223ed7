(** * Model of ray_halfedge_query_general_ray_slow, plycutter/geometry/impl2d/arrangement2d.py:662-689:
    the ray query that looks at every half-edge *)
From Verif.Model Require Export Arrangement2d.

Definition ray_query_slow (hes : list segment) (pt direction : point) (keep_all : bool) : result (list (Qc * segment)) :=
  frangle <- vector_frangle direction ;;                                        (* 679 *)
  let rayseg := (pt, padd pt direction) in                                      (* 681 *)
  inters <- mapM (fun e => ray_halfedge_test e rayseg frangle keep_all 1) hes ;;  (* 683-687; const=1, 692 *)
  Ok (sort_by hit_ltb (concat inters)).                                         (* 689 *)
