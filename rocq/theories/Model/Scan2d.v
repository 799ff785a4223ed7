(** * Model of plycutter/geometry/impl2d/scan2d.py.

    Not modelled: _extra_checks (False) and _assert_fully_sorted, which only runs under it.  Generators
    are the lists of what they yield.  A sortedcontainers.SortedList is a list; its bisections are
    linear scans, which give the same position whenever the list is sorted by [<]; that it always is
    is proved in Props/Scan2dProps.v ([active_fully_sorted]).  The sweep loop has fuel; the theorems
    exclude [OutOfFuel]. *)
From Verif.Model Require Export Types2d.
From Verif.Base Require Export PyDict.

(** tuple equality and tuple [<] on segments *)
Definition seg_eqb (s t : segment) : bool := pt_eqb (fst s) (fst t) && pt_eqb (snd s) (snd t).
Definition seg_ltb (s t : segment) : bool :=
  if pt_eqb (fst s) (fst t) then pt_ltb (snd s) (snd t) else pt_ltb (fst s) (fst t).

(** scan2d.py:78-104 _find_general_y_shear *)
Fixpoint shear_loop (segments : list segment) (had_horizontal : bool) (max_ratio : option Qc) : bool * option Qc :=
  match segments with
  | [] => (had_horizontal, max_ratio)
  | s :: r =>
      let dx := fst (snd s) - fst (fst s) in
      let dy := snd (snd s) - snd (fst s) in
      if qeqb dx 0 then shear_loop r had_horizontal max_ratio
      else if qeqb dy 0 then shear_loop r true max_ratio
      else
        let ratio := qabs (dy / dx) in
        shear_loop r had_horizontal
          (match max_ratio with None => Some ratio | Some m => if qltb ratio m then Some ratio else Some m end)
  end.
Definition find_general_y_shear (segments : list segment) : Qc :=
  let '(had, mr) := shear_loop segments false None in
  if negb had then 0 else match mr with None => 1 | Some m => m / q2 end.

(** scan2d.py:107-118 _at_y_no_horizontal.  The assertion [dy != 0] (114) can not fail: every segment
    it is called on is that of a _SweepKey, whose constructor asserts the same. *)
Definition at_y (s : segment) (y : Qc) : Qc :=
  if qeqb y (snd (fst s)) then fst (fst s)
  else if qeqb y (snd (snd s)) then fst (snd s)
  else fst (fst s) + (fst (snd s) - fst (fst s)) * (y - snd (fst s)) / (snd (snd s) - snd (fst s)).

(** scan2d.py:121-139, 189-190 _SweepKey *)
Definition skey := (segment * point)%type.
Definition k_seg (k : skey) : segment := fst k.
Definition k_pt (k : skey) : point := snd k.
Definition SweepKey (s : segment) (pt : point) : result skey :=
  _ <- passert (negb (qeqb (snd (fst s)) (snd (snd s)))) ;; Ok (s, pt).      (* 137 *)
Definition k_at (k : skey) (y : Qc) : Qc := at_y (k_seg k) y.
(** 147-148 __eq__ *)
Definition skey_eqb (a b : skey) : bool := pt_eqb (k_pt a) (k_pt b) && seg_eqb (k_seg a) (k_seg b).
(** 150-187 __lt__ *)
Definition skey_ltb (a b : skey) : bool :=
  let ya := snd (k_pt a) in let yb := snd (k_pt b) in
  let '(cmp_y, a_x, b_x) :=
    if qltb ya yb then (yb, k_at a yb, fst (k_pt b)) else (ya, fst (k_pt a), k_at b ya) in
  if qltb a_x b_x then true
  else if qltb b_x a_x then false
  else
    let alt := if qeqb yb ya then cmp_y + 1 else cmp_y - 1 in
    let a_n := k_at a alt in let b_n := k_at b alt in
    if qltb a_n b_n then true
    else if qltb b_n a_n then false
    else seg_ltb (k_seg a) (k_seg b).

(** scan2d.py:203-204 event_key *)
Definition ev_ltb (p q : point) : bool := pt_ltb (snd p, fst p) (snd q, fst q).
(** 209-213 add_event on the SortedDict event_queue *)
Definition equeue := list (point * list skey).
Definition opt_list {X} (o : option X) : list X := match o with Some x => [x] | None => [] end.
Fixpoint add_event (q : equeue) (pt : point) (k : option skey) : equeue :=
  match q with
  | [] => [(pt, opt_list k)]
  | (p, l) :: r =>
      if pt_eqb p pt then (p, l ++ opt_list k) :: r
      else if ev_ltb pt p then (pt, opt_list k) :: (p, l) :: r
      else (p, l) :: add_event r pt k
  end.
(** 215-221 *)
Definition add_segment_events (q : equeue) (s : segment) : result equeue :=
  if ev_ltb (fst s) (snd s)
  then k <- SweepKey s (fst s) ;; Ok (add_event (add_event q (fst s) (Some k)) (snd s) None)
  else k <- SweepKey s (snd s) ;; Ok (add_event (add_event q (fst s) None) (snd s) (Some k)).

(** SortedList: the elements not greater than [k] and the others, as irange sees them (249-254) *)
Fixpoint split_at (k : skey) (l : list skey) : list skey * list skey :=
  match l with
  | [] => ([], [])
  | x :: r => if skey_ltb k x then ([], l) else let '(a, b) := split_at k r in (x :: a, b)
  end.
(** SortedList.remove *)
Fixpoint remove_key (k : skey) (l : list skey) : result (list skey) :=
  match l with
  | [] => Err ValueError
  | x :: r => if skey_ltb x k then r' <- remove_key k r ;; Ok (x :: r')
              else if skey_eqb x k then Ok r else Err ValueError
  end.
(** 255-261: the keys through the event point, and the first one that is not *)
Fixpoint scan_touch (pt : point) (l : list skey) : list skey * option skey :=
  match l with
  | [] => ([], None)
  | k :: r => if qeqb (k_at k (snd pt)) (fst pt) then let '(t, n) := scan_touch pt r in (k :: t, n)
              else ([], Some k)
  end.

(** scan2d.py:316-317 *)
Definition det (va vb : point) : Qc := fst va * snd vb - snd va * fst vb.
Definition pt_sub (p q : point) : point := (fst p - fst q, snd p - snd q).
(** 320-347 _nonparallel_intersection_point *)
Definition nonparallel_intersection_point (a b : segment) : option point :=
  let da := pt_sub (snd a) (fst a) in
  let db := pt_sub (snd b) (fst b) in
  let denom := det da db in
  if qeqb denom 0 then None
  else
    let dab0 := pt_sub (fst a) (fst b) in
    let t_num := det db dab0 in
    let u_num := det da dab0 in
    let '(t_num, u_num, denom) := if qltb denom 0 then (- t_num, - u_num, - denom) else (t_num, u_num, denom) in
    if (qleb 0 t_num && qleb t_num denom) && (qleb 0 u_num && qleb u_num denom)
    then let ta := t_num / denom in Some (fst (fst a) + ta * fst da, snd (fst a) + ta * snd da)
    else None.
(** 287-291, 296-301 and 304-309: [if ipt and ipt[1] > pt[1]: add_event(ipt)] *)
Definition add_crossing (q : equeue) (pt : point) (a b : segment) : equeue :=
  match nonparallel_intersection_point a b with
  | Some ipt => if qltb (snd pt) (snd ipt) then add_event q ipt None else q
  | None => q
  end.

(** 231-313: one event *)
Definition process_event (pt : point) (segstarts : list skey) (q : equeue) (active : list skey) :
  result (list (point * list segment) * equeue * list skey) :=
  fake <- SweepKey ((fst pt, snd pt), (fst pt, snd pt + 1)) pt ;;             (* 238-239 *)
  let '(below, above) := split_at fake active in
  let '(t0, n0) := scan_touch pt (rev below) in
  let '(t1, n1) := scan_touch pt above in
  let touches := t0 ++ t1 in
  active <- foldM (fun l k => remove_key k l) touches active ;;               (* 264-265 *)
  let segments_at_pt := map k_seg (touches ++ segstarts) in                   (* 267-270 *)
  let out := if (1 <? length segments_at_pt)%nat then [(pt, segments_at_pt)] else [] in
  keys <- mapM (fun s => SweepKey s pt)
            (filter (fun s => negb (qleb (qmax (snd (fst s)) (snd (snd s))) (snd pt))) segments_at_pt) ;;  (* 274-279 *)
  let keys := sort_by skey_ltb keys in
  match keys with
  | [] =>
      let q := match n0, n1 with Some a, Some b => add_crossing q pt (k_seg a) (k_seg b) | _, _ => q end in
      Ok (out, q, active)
  | k0 :: _ =>
      let q := match n0 with Some a => add_crossing q pt (k_seg k0) (k_seg a) | None => q end in
      let q := match n1 with Some b => add_crossing q pt (k_seg (last keys k0)) (k_seg b) | None => q end in
      Ok (out, q, fold_left (fun l k => insert_by skey_ltb k l) keys active)  (* 312-313 *)
  end.
Fixpoint sweep (fuel : nat) (q : equeue) (active : list skey) (y : option Qc) : result (list (point * list segment)) :=
  match q with
  | [] => Ok []
  | (pt, segstarts) :: q =>
      match fuel with
      | O => Err OutOfFuel
      | S fuel =>
          _ <- passert (match y with None => true | Some y => qleb y (snd pt) end) ;;   (* 233 *)
          ' (out, q, active) <- process_event pt segstarts q active ;;
          rest <- sweep fuel q active (Some (snd pt)) ;;
          Ok (out ++ rest)
      end
  end.
Fixpoint no_dups (l : list segment) : bool :=
  match l with [] => true | s :: r => negb (existsb (seg_eqb s) r) && no_dups r end.
Definition sweep_fuel (n : nat) : nat := (n * (n + 2))%nat.
(** 193-313 _all_segment_intersections_no_horizontal *)
Definition all_segment_intersections_no_horizontal (segments : list segment) : result (list (point * list segment)) :=
  _ <- passert (no_dups segments) ;;                                           (* 195 *)
  _ <- passert (forallb (fun s => negb (pt_eqb (fst s) (snd s))) segments) ;;  (* 199-200 *)
  q <- foldM add_segment_events segments [] ;;
  sweep (sweep_fuel (length segments)) q [] None.

(** scan2d.py:29-75 all_segment_intersections.  The two type assertions (73-74) hold: coordinates are mpq. *)
Definition shear (alpha : Qc) (p : point) : point := (fst p, snd p + alpha * fst p).
Definition shear_seg (alpha : Qc) (s : segment) : segment := (shear alpha (fst s), shear alpha (snd s)).
Definition all_segment_intersections (segments : list segment) : result (list (point * list segment)) :=
  let alpha := find_general_y_shear segments in
  let tr_segments := map (shear_seg alpha) segments in
  let origs := fold_left (fun m e => dset seg_eqb (fst e) (snd e) m) (combine tr_segments segments) [] in
  inters <- all_segment_intersections_no_horizontal tr_segments ;;
  mapM (fun e =>
          segs <- mapM (fun s => dgetr seg_eqb s origs) (snd e) ;;
          Ok ((fst (fst e), snd (fst e) - alpha * fst (fst e)), segs)) inters.
