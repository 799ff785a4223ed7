(** * Properties C14, C15, C16 (primitive2d). *)
From Verif.Model Require Import Primitive2d.
From Verif.Spec Require Import Plane.
From Verif.Proofs Require Import PyP PolyP.

Definition sdir (s : segment) : point := vsub (snd s) (fst s).
Definition degenerate (s : segment) : Prop := fst s = snd s.

(** ** C14 *)
Theorem line_intersection_exact : forall l0 l1,
  (cross (sdir l0) (sdir l1) = 0 -> segment_segment_general_intersection l0 l1 = Err AssertionError) /\
  (cross (sdir l0) (sdir l1) <> 0 ->
   exists p t0 t1, segment_segment_general_intersection l0 l1 = Ok (p, t0, t1) /\
     p = at_t l0 t0 /\ p = at_t l1 t1 /\
     (forall t u, at_t l0 t = at_t l1 u -> t = t0 /\ u = t1)).
Proof.
  intros [[ax ay] [bx by']] [[cx cy] [dx dy]].
  unfold segment_segment_general_intersection, sdir, cross, at_t, vadd, vscale, vsub; simpl.
  set (den := (bx - ax) * (dy - cy) - (by' - ay) * (dx - cx)).
  split; intros H.
  - destruct (qeqb_spec den 0); [reflexivity|congruence].
  - destruct (qeqb_spec den 0); [congruence|]. simpl.
    match goal with |- context [qeqb ?a ?b] => destruct (qeqb_spec a b) as [|N] end.
    2: { elim N. unfold den in *. field. exact H. }
    simpl. match goal with |- context [qeqb ?a ?b] => destruct (qeqb_spec a b) as [|N] end.
    2: { elim N. unfold den in *. field. exact H. }
    simpl. eexists _, _, _. split; [reflexivity|]. split; [|split].
    + f_equal; field; exact H.
    + f_equal; unfold den in *; field; exact H.
    + intros t u E; apply pair_inv in E as [E1 E2]. split.
      * apply (f_equal (fun z => z * (dy - cy))) in E1 as F1. apply (f_equal (fun z => z * (dx - cx))) in E2 as F2.
        assert (F : t * den = (ax - cx) * (cy - dy) - (ay - cy) * (cx - dx)) by (unfold den; qlra).
        rewrite <- F. field. exact H.
      * apply (f_equal (fun z => z * (by' - ay))) in E1 as F1. apply (f_equal (fun z => z * (bx - ax))) in E2 as F2.
        assert (F : u * den = - ((ax - bx) * (ay - cy) - (ay - by') * (ax - cx))) by (unfold den; qlra).
        rewrite <- F. field. exact H.
Qed.
Print Assumptions line_intersection_exact.
Example line_intersection_ex :
  exists t0 t1, segment_segment_general_intersection ((zq 0, zq 0), (zq 2, zq 2)) ((zq 0, zq 2), (zq 2, zq 0))
    = Ok ((zq 1, zq 1), t0, t1) /\ t0 = qq 1 2 /\
  segment_segment_general_intersection ((zq 0, zq 0), (zq 2, zq 2)) ((zq 0, zq 1), (zq 2, zq 3)) = Err AssertionError.
Proof.
  destruct (line_intersection_exact ((zq 0, zq 0), (zq 2, zq 2)) ((zq 0, zq 2), (zq 2, zq 0))) as [_ H].
  destruct H as (p & t0 & t1 & E & P0 & P1 & U); [intros C; vm_compute in C; discriminate|].
  assert (H : at_t (zq 0, zq 0, (zq 2, zq 2)) (qq 1 2) = at_t (zq 0, zq 2, (zq 2, zq 0)) (qq 1 2)).
  { unfold at_t, vadd, vscale, vsub; simpl. f_equal; apply Qc_is_canon; reflexivity. }
  apply U in H as [<- <-]. exists (qq 1 2), (qq 1 2). split; [|split; auto].
  rewrite E, P0. assert (at_t (zq 0, zq 0, (zq 2, zq 2)) (qq 1 2) = (zq 1, zq 1)) as ->; [|reflexivity].
  unfold at_t, vadd, vscale, vsub; simpl. f_equal; apply Qc_is_canon; reflexivity.
Qed.

(** ** C15 *)
Theorem line_fraction_exact : forall s p,
  (forall f, line_segment_point_fraction s p = Ok (Some f) <->
     p = at_t s f /\ (degenerate s -> f = 0)) /\
  (line_segment_point_fraction s p = Ok None <-> forall f, p <> at_t s f) /\
  (forall e, line_segment_point_fraction s p <> Err e).
Proof.
  assert (Main : forall s p, fst (fst s) <> fst (snd s) ->
     exists r, (forall k, lspf (S k) s p = Ok r) /\ forall f, r = Some f <-> p = at_t s f).
  { intros [[ax ay] [bx by']] [px py] N. simpl in N. eexists. split.
    - intros k. simpl. destruct (pt_eqb_spec (ax, ay) (bx, by')); [congruence|].
      destruct (qeqb_spec ax bx); [congruence|]. reflexivity.
    - intros f. assert (D : bx - ax <> 0) by (intros E; apply N; qlra).
      unfold at_t, vadd, vscale, vsub; simpl.
      split.
      + destruct (qeqb_spec py (ay + (px - ax) / (bx - ax) * (by' - ay))) as [E|]; [|discriminate].
        intros G; apply some_inv in G; subst f. f_equal; [field; exact D|exact E].
      + intros G; apply pair_inv in G as [E1 E2]. assert (F : (px - ax) / (bx - ax) = f) by (rewrite E1; field; exact D).
        rewrite F. destruct (qeqb_spec py (ay + f * (by' - ay))); congruence. }
  intros s p.
  assert (R : exists r, line_segment_point_fraction s p = Ok r /\
              forall f, r = Some f <-> p = at_t s f /\ (degenerate s -> f = 0)).
  { destruct (qeqb_spec (fst (fst s)) (fst (snd s))) as [E|N].
    - destruct (qeqb_spec (snd (fst s)) (snd (snd s))) as [E'|N'].
      + destruct s as [[ax ay] [bx by']], p as [px py]. simpl in *. subst bx by'.
        unfold line_segment_point_fraction. simpl.
        destruct (pt_eqb_spec (ax, ay) (ax, ay)); [|congruence]. eexists; split; [reflexivity|].
        intros f. unfold degenerate, at_t, vadd, vscale, vsub; simpl.
        destruct (pt_eqb_spec (ax, ay) (px, py)) as [G|M]; [apply pair_inv in G as [-> ->]|].
        * split; [intros G; apply some_inv in G; subst f; split; auto; f_equal; ring|]. intros [_ H]. rewrite H; auto.
        * split; [discriminate|]. intros [G _]. apply pair_inv in G as [-> ->]. elim M. f_equal; ring.
      + destruct s as [[ax ay] [bx by']], p as [px py]. simpl in *. subst bx.
        destruct (Main ((ay, ax), (by', ax)) (py, px) N') as (r & Hr & Hf).
        exists r. split.
        * unfold line_segment_point_fraction.
          change (lspf 2 ((ax, ay), (ax, by')) (px, py)) with
            (if pt_eqb (ax, ay) (ax, by') then Ok (if pt_eqb (ax, ay) (px, py) then Some 0 else None)
             else if qeqb ax ax then lspf 1 ((ay, ax), (by', ax)) (py, px)
             else let f := (px - ax) / (ax - ax) in Ok (if qeqb py (ay + f * (by' - ay)) then Some f else None)).
          rewrite qeqb_refl. destruct (pt_eqb_spec (ax, ay) (ax, by')); [congruence|]. apply Hr.
        * intros f. rewrite Hf. unfold degenerate, at_t, vadd, vscale, vsub; simpl. split.
          -- intros G; apply pair_inv in G as [E1 E2]. split; [congruence|]. intros H; apply pair_inv in H as [_ H]. congruence.
          -- intros [G _]; apply pair_inv in G as [E1 E2]. congruence.
    - destruct (Main s p N) as (r & Hr & Hf). exists r. split; [apply Hr|]. intros f. rewrite Hf.
      unfold degenerate. split; [|tauto]. intros H. split; auto. intros D. elim N. congruence. }
  destruct R as (r & -> & Hr). split; [|split].
  - intros f. rewrite <- Hr. split; congruence.
  - split.
    + intros [= ->] f E. destruct (pt_eqb_spec (fst s) (snd s)) as [D|D].
      * assert (None = Some 0); [|discriminate]. apply Hr. split; [|auto].
        rewrite E. unfold at_t, vadd, vscale, vsub. rewrite D. simpl. f_equal; ring.
      * assert (None = Some f); [|discriminate]. apply Hr. split; [exact E|]. unfold degenerate. tauto.
    + intros H. destruct r as [f|]; [|reflexivity]. destruct (proj1 (Hr f) eq_refl) as [E _]. elim (H f E).
  - discriminate.
Qed.
Print Assumptions line_fraction_exact.
Example line_fraction_ex :
  line_segment_point_fraction ((zq 1, zq 1), (zq 1, zq 5)) (zq 1, zq 2) = Ok (Some (qq 1 4)) /\
  line_segment_point_fraction ((zq 1, zq 1), (zq 1, zq 5)) (zq 2, zq 2) = Ok None.
Proof.
  split.
  - apply (proj1 (line_fraction_exact _ _)). split; [|intros D; discriminate].
    unfold at_t, vadd, vscale, vsub; simpl; f_equal; apply Qc_is_canon; reflexivity.
  - apply (proj1 (proj2 (line_fraction_exact _ _))). intros f. unfold at_t, vadd, vscale, vsub; simpl.
    intros G; apply pair_inv in G as [E _]. qlra.
Qed.

(** ** C16 *)
Definition area_of (poly : list point) : Qc := match simple_polygon_area poly with Ok a => a | Err _ => 0 end.

Lemma area_loop_sum acc prev l :
  area_loop acc prev l = acc + qsum (fun s => - (qq 1 2 * ((fst (snd s) + fst (fst s)) * (snd (snd s) - snd (fst s))))) (edges_from prev l).
Proof.
  revert acc prev. induction l as [|v l IH]; intros; cbn [area_loop edges_from qsum]; [ring|].
  rewrite IH, qdiv_half. cbn [fst snd]. ring.
Qed.
Lemma area_of_fan o l : area_of l = - (qq 1 2 * fan2 o l).
Proof.
  unfold fan2. change (cyclic_pairs l) with (edges_iter l). rewrite <- (qsum_perm _ _ _ (pedges_perm l)).
  destruct l as [|a l]; [unfold area_of; simpl; unfold qsum; qlra|].
  unfold area_of, simple_polygon_area. rewrite area_loop_sum.
  fold (pedges (a :: l)).
  transitivity (- (qq 1 2 * qsum (fun s => orient o (fst s) (snd s)) (pedges (a :: l)))
     + qsum (fun s => (- qq 1 2 * (fst (snd s) * snd (snd s)) - qq 1 2 * (fst o * snd (snd s) - snd o * fst (snd s))) -
                       (- qq 1 2 * (fst (fst s) * snd (fst s)) - qq 1 2 * (fst o * snd (fst s) - snd o * fst (fst s)))) (pedges (a :: l))).
  - replace (- (qq 1 2 * qsum (fun s => orient o (fst s) (snd s)) (pedges (a :: l)))) with
      ((- qq 1 2) * qsum (fun s => orient o (fst s) (snd s)) (pedges (a :: l))) by ring.
    rewrite <- qsum_scale, <- qsum_plus, Qcplus_0_l. apply qsum_ext. intros [[ax ay] [bx by']] _.
    unfold orient, cross, vsub; simpl. qlra.
  - rewrite (pedges_tele_q (fun v => - qq 1 2 * (fst v * snd v) - qq 1 2 * (fst o * snd v - snd o * fst v))). rewrite Qcplus_0_r. reflexivity.
Qed.

Definition linmap (a b c d : Qc) (p : point) : point := (a * fst p + b * snd p, c * fst p + d * snd p).
(** clockwise convex: every vertex is to the right of (or on) every edge, and not all are collinear *)
Definition cw_convex (poly : list point) : Prop :=
  (forall s v, is_edge poly s -> In v poly -> orient (fst s) (snd s) v <= 0) /\
  (exists s v, is_edge poly s /\ In v poly /\ orient (fst s) (snd s) v < 0).

Lemma orient_rot a b c : orient a b c = orient c a b.
Proof. destruct a, b, c. unfold orient, cross, vsub; simpl. ring. Qed.

Theorem polygon_area_signed : forall poly, poly <> [] ->
  exists area, simple_polygon_area poly = Ok area /\
  (* the value: minus the sum of the counter-clockwise signed triangle areas seen from any point *)
  (forall o, area = - (qq 1 2 * fan2 o poly)) /\
  (* rotation of the vertex list, reversal, translation, linear maps *)
  (forall l1 l2, poly = l1 ++ l2 -> simple_polygon_area (l2 ++ l1) = Ok area) /\
  simple_polygon_area (rev poly) = Ok (- area) /\
  (forall d, simple_polygon_area (map (vadd d) poly) = Ok area) /\
  (forall a b c d, simple_polygon_area (map (linmap a b c d) poly) = Ok ((a * d - b * c) * area)) /\
  (* splitting along the chord a-b *)
  (forall a l1 b l2, poly = a :: l1 ++ b :: l2 ->
     exists area1 area2, simple_polygon_area (a :: l1 ++ [b]) = Ok area1 /\
       simple_polygon_area (b :: l2 ++ [a]) = Ok area2 /\ area = area1 + area2) /\
  (* sign *)
  (cw_convex poly -> 0 < area) /\ (cw_convex (rev poly) -> area < 0).
Proof.
  assert (AO : forall l, l <> [] -> simple_polygon_area l = Ok (area_of l)).
  { intros [|a l]; [congruence|]. reflexivity. }
  assert (Pos : forall l, cw_convex l -> 0 < area_of l).
  { intros l (H1 & s & v & Hs & Hv & N). rewrite (area_of_fan v).
    enough (0 < qsum (fun s => - orient v (fst s) (snd s)) (edges_iter l)).
    { unfold fan2. change (cyclic_pairs l) with (edges_iter l).
      assert (E : qsum (fun s => - orient v (fst s) (snd s)) (edges_iter l) =
                  - qsum (fun s => orient v (fst s) (snd s)) (edges_iter l)).
      { replace (- qsum (fun s => orient v (fst s) (snd s)) (edges_iter l)) with
          ((-(1)) * qsum (fun s => orient v (fst s) (snd s)) (edges_iter l)) by ring.
        rewrite <- qsum_scale. apply qsum_ext. intros. ring. }
      rewrite E in H. qlra. }
    apply qsum_pos.
    - intros x Hx. rewrite <- orient_rot. apply is_edge_iter in Hx. specialize (H1 _ _ Hx Hv). qlra.
    - exists s. apply is_edge_iter in Hs. split; auto. rewrite <- orient_rot. qlra. }
  assert (Rev : forall l, area_of (rev l) = - area_of l).
  { intros l. rewrite !(area_of_fan (0, 0)). unfold fan2. change cyclic_pairs with edges_iter.
    rewrite (qsum_perm _ _ _ (edges_iter_rev l)), qsum_map.
    rewrite (qsum_ext _ (fun s => (-(1)) * orient (0,0) (fst s) (snd s))).
    2: { intros [[? ?] [? ?]] _. unfold orient, cross, vsub, sswap; simpl. ring. }
    rewrite qsum_scale. ring. }
  intros poly Hne. exists (area_of poly). split; [auto|].
  split; [intros; apply area_of_fan|].
  split.
  { intros l1 l2 ->. rewrite AO.
    - f_equal. rewrite !(area_of_fan (0, 0)). unfold fan2. change cyclic_pairs with edges_iter.
      rewrite (qsum_perm _ _ _ (edges_iter_rot l2 l1)). reflexivity.
    - intros E. apply app_eq_nil in E as [-> ->]. apply Hne. reflexivity. }
  split.
  { rewrite AO, Rev; [reflexivity|]. intros E. apply Hne. rewrite <- (rev_involutive poly), E. reflexivity. }
  split.
  { intros d. rewrite AO. 2: { intros E. apply map_eq_nil in E. auto. }
    f_equal. rewrite (area_of_fan d), (area_of_fan (0, 0) poly). unfold fan2. change cyclic_pairs with edges_iter.
    rewrite edges_iter_map, qsum_map. do 2 f_equal. apply qsum_ext. intros [[? ?] [? ?]] _.
    unfold orient, cross, vsub, vadd; simpl. ring. }
  split.
  { intros a b c d. rewrite AO. 2: { intros E. apply map_eq_nil in E. auto. }
    f_equal. rewrite !(area_of_fan (0, 0)). unfold fan2. change cyclic_pairs with edges_iter.
    rewrite edges_iter_map, qsum_map.
    rewrite (qsum_ext _ (fun s => (a * d - b * c) * orient (0,0) (fst s) (snd s))).
    2: { intros [[? ?] [? ?]] _. unfold orient, cross, vsub, linmap; simpl. ring. }
    rewrite qsum_scale. ring. }
  split.
  { intros a l1 b l2 ->. exists (area_of (a :: l1 ++ [b])), (area_of (b :: l2 ++ [a])).
    split; [apply AO; discriminate|]. split; [apply AO; discriminate|].
    rewrite !(area_of_fan (0, 0)). unfold fan2. change cyclic_pairs with edges_iter.
    rewrite !edges_iter_from. rewrite <- !app_assoc. cbn [app].
    rewrite (edges_from_app a l1 b (l2 ++ [a])), (edges_from_app a l1 b [a]), (edges_from_app b l2 a [b]).
    rewrite !qsum_app. cbn [edges_from qsum fst snd].
    replace (orient (0, 0) b a) with (- orient (0, 0) a b).
    2: { destruct a, b. unfold orient, cross, vsub; simpl. ring. }
    ring. }
  split; [apply Pos|]. intros H. apply Pos in H. rewrite Rev in H. qlra.
Qed.
Print Assumptions polygon_area_signed.

Definition unit_square_cw : list point := [(zq 0, zq 0); (zq 0, zq 1); (zq 1, zq 1); (zq 1, zq 0)].
Example polygon_area_ex :
  cw_convex unit_square_cw /\
  exists a, simple_polygon_area unit_square_cw = Ok a /\ a = 1.
Proof.
  split.
  - split.
    + intros s v Hs Hv. apply is_edge_iter in Hs. unfold unit_square_cw in Hs, Hv. simpl in Hs, Hv.
      intuition (subst; vm_compute; congruence).
    + exists ((zq 0, zq 0), (zq 0, zq 1)), (zq 1, zq 1). split; [apply is_edge_iter; left; reflexivity|].
      split; [simpl; tauto|]. vm_compute. reflexivity.
  - eexists; split; [reflexivity|]. apply Qc_is_canon. vm_compute. reflexivity.
Qed.
(** The docstring of simple_polygon_area ("CCW = positive", primitive2d.py:81) is false. *)
Example polygon_area_docstring_refuted :
  cw_convex (rev [(zq 0, zq 0); (zq 1, zq 0); (zq 0, zq 1)]) /\
  exists a, simple_polygon_area [(zq 0, zq 0); (zq 1, zq 0); (zq 0, zq 1)] = Ok a /\ a < 0.
Proof.
  split.
  - split.
    + intros s v Hs Hv. apply is_edge_iter in Hs. simpl in Hs, Hv.
      intuition (subst; vm_compute; congruence).
    + exists ((zq 0, zq 1), (zq 1, zq 0)), (zq 0, zq 0). split; [apply is_edge_iter; left; reflexivity|].
      split; [simpl; tauto|]. vm_compute. reflexivity.
  - eexists; split; [reflexivity|]. vm_compute. reflexivity.
Qed.
