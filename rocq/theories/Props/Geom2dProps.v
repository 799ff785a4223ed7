(** * Properties C20 (rectangle), C37, C39, C40, C41, C42, C43. *)
From Verif.Model Require Import Geom2d.
From Verif.Spec Require Import Plane Region.
From Verif.Proofs Require Import Geom2dP SimplifyP NearP Geom2dOps.
From Verif.Props Require Import Primitive2dProps LocateProps.
From Coq Require Import Permutation.

(** ** C37 *)
Theorem spwh_locate_exact : forall s p, spwh_ok s ->
  (forall r, r = outer s \/ In r (holes s) -> ~ on_boundary r p) ->
  (spwh_locate s p = Ok 1%Z <-> in_poly s p) /\ (spwh_locate s p = Ok (-1)%Z <-> ~ in_poly s p).
Proof.
  intros s p H B. destruct (spwh_locate_ok s p) as [(E & I)|(E & I)].
  - intros r Hr. split; [|auto]. apply spwh_ok_iff in H as ((N & _) & F). rewrite Forall_forall in F.
    destruct Hr as [->|Hr]; [auto|]. now apply F.
  - rewrite E. split; split; auto; try discriminate. tauto.
  - rewrite E. split; split; auto; try discriminate. tauto.
Qed.
Theorem geom2d_locate_exact : forall g p, is_geom2d g -> ~ on_bd g p ->
  (g2_locate g p = Ok 1%Z <-> in_geom g p) /\ (g2_locate g p = Ok (-1)%Z <-> ~ in_geom g p) /\
  g2_locate g2_empty p = Ok (-1)%Z.
Proof.
  intros g p G B. destruct (g2_locate_ok g p G B) as [(E & I)|(E & I)]; rewrite E; (split; [|split; [|reflexivity]]);
    split; auto; try discriminate; tauto.
Qed.
Print Assumptions spwh_locate_exact.
Print Assumptions geom2d_locate_exact.
Local Definition P (x y : Z) : point := (zq x, zq y).
Definition ring_sq (a b : Z) : list point := [P a a; P a b; P b b; P b a].
(** a square with a square hole and an island in the hole *)
Definition nested : geom2d := [mkSpwh (ring_sq 0 100) [ring_sq 10 90]; mkSpwh (ring_sq 40 60) []].
Example locate_ex : is_geom2d nested /\
  map (g2_locate nested) [P 5 50; P 30 50; P 50 50; P 101 5] = [Ok 1; Ok (-1); Ok 1; Ok (-1)]%Z.
Proof. split; [repeat constructor|vm_compute; reflexivity]. Qed.

(** ** C43 *)
Definition ring_area (r : list point) : Qc := - (qq 1 2 * fan2 (0, 0) r).
Lemma ring_area_of r : ring_area r = area_of r.
Proof. symmetry. apply area_of_fan. Qed.
Theorem geom2d_area_sum : forall g, is_geom2d g ->
  g2_area g = Ok (qsum (fun s => ring_area (outer s) - qsum ring_area (holes s)) g) /\
  (forall s, In s g -> 0 < ring_area (outer s) /\ forall h, In h (holes s) -> 0 < ring_area h).
Proof.
  intros g G. split.
  - rewrite g2_area_ok by auto. f_equal. apply qsum_ext. intros s _. unfold poly_area. rewrite ring_area_of.
    rewrite (qsum_ext ring_area area_of (holes s)); [reflexivity|]. intros; apply ring_area_of.
  - intros s Hs. rewrite ring_area_of. assert (R := proj1 (is_geom2d_rings g) G). split.
    + apply R. exists s; auto.
    + intros h Hh. rewrite ring_area_of. apply R. exists s; auto.
Qed.
Definition mpq_points (l : list point) : list (list pynum) := map (fun p => [NMpq (fst p); NMpq (snd p)]) l.
Lemma poly_points_ok l : mapM poly_point (mpq_points l) = Ok l.
Proof. induction l as [|[x y] l IH]; [reflexivity|]. cbn. fold (mpq_points l). now rewrite IH. Qed.
Lemma area_rev l : area_of (rev l) = - area_of l.
Proof.
  destruct l as [|a l]; [reflexivity|].
  destruct (polygon_area_signed (a :: l)) as (x & E1 & _ & _ & E2 & _); [discriminate|].
  unfold area_of. rewrite E1, E2. reflexivity.
Qed.
Lemma is_edge_rev r s : is_edge (rev r) s <-> is_edge r (snd s, fst s).
Proof.
  rewrite !is_edge_iter. pose proof (edges_iter_rev r) as H. split.
  - intros I. apply (Permutation_in _ H) in I. apply in_map_iff in I as ([a b] & <- & I). exact I.
  - intros I. apply (Permutation_in _ (Permutation_sym H)). apply in_map_iff. exists (snd s, fst s). split; auto.
    destruct s; reflexivity.
Qed.
Theorem polygon_reorient : forall pts, pts <> [] ->
  let a := ring_area pts in
  let nodup := forall s, is_edge pts s -> fst s <> snd s in
  (nodup -> a <> 0 -> exists g r, polygon (mpq_points pts) true = Ok g /\ g = [mkSpwh r []] /\
      r = (if qltb a 0 then rev pts else pts) /\ is_geom2d g /\ g2_area g = Ok (qabs a)) /\
  (a = 0 -> polygon (mpq_points pts) true = Err AssertionError) /\
  (~ nodup -> polygon (mpq_points pts) true = Err AssertionError) /\
  (a <= 0 -> polygon (mpq_points pts) false = Err AssertionError) /\
  (nodup -> 0 < a -> polygon (mpq_points pts) false = polygon (mpq_points pts) true) /\
  ring_area (rev pts) = - a.
Proof.
  intros pts N a nodup. unfold polygon. rewrite poly_points_ok. cbn [bind]. unfold polygon_q. cbn [bind].
  rewrite area_ok by auto. cbn [bind]. unfold a in *. rewrite !ring_area_of, area_rev. clear a.
  change (qltb 0 0) with false. cbn iota.
  set (a := area_of pts). set (r := if qltb a 0 then rev pts else pts).
  assert (ND : nodup <-> forall s, is_edge r s -> fst s <> snd s).
  { unfold r. destruct (qltb a 0); [|unfold nodup; tauto]. unfold nodup. split.
    - intros H s Hs E. apply is_edge_rev in Hs. apply (H _ Hs). cbn. auto.
    - intros H s Hs E. apply (H (snd s, fst s)); [|cbn; auto]. apply is_edge_rev. destruct s; exact Hs. }
  assert (Nr : r <> []).
  { unfold r. destruct (qltb a 0); auto. intros E. apply N. rewrite <- (rev_involutive pts), E. reflexivity. }
  assert (AR : area_of r = qabs a).
  { unfold r, qabs. destruct (qltb_spec a 0), (qleb_spec 0 a); try (exfalso; qlra); [apply area_rev|reflexivity]. }
  assert (Fail : forall l, l <> [] -> ~ ring_ok l -> Simple_Polygon_With_Holes l [] = Err AssertionError).
  { intros l Nl H. unfold Simple_Polygon_With_Holes. destruct (check_no_dups l) as [[]|e] eqn:D; cbn [bind].
    - rewrite area_ok by auto. cbn. destruct (qltb_spec 0 (area_of l)) as [p|p]; cbn; [|reflexivity].
      exfalso. apply H. split; auto. split; auto. now apply check_no_dups_ok.
    - unfold check_no_dups, passert in D. destruct (forallb _ _) in D; [discriminate|congruence]. }
  assert (Abs0 : a = 0 -> qabs a = 0) by (intros ->; reflexivity).
  assert (AbsP : a <> 0 -> 0 < qabs a).
  { intros H. unfold qabs. destruct (qc_not_eq _ _ H), (qleb_spec 0 a); qlra. }
  assert (OKr : nodup -> a <> 0 -> ring_ok r).
  { intros H H0. split; auto. split; [rewrite AR; auto|]. now apply ND. }
  assert (Run : forall l, ring_ok l -> (s <- Simple_Polygon_With_Holes l [];; b <- g2_area [s];; _ <- passert (qleb 0 b);; Ok [s])
      = Ok [mkSpwh l []]).
  { intros l Hl. rewrite (proj2 (SPWH_ok l [] (mkSpwh l []))) by auto. cbn [bind].
    rewrite g2_area_ok by (constructor; [apply spwh_ok_iff; cbn; auto|constructor]). cbn [bind qsum poly_area outer holes].
    unfold poly_area. cbn [outer holes qsum]. destruct Hl as (_ & Hl & _).
    destruct (qleb_spec 0 (area_of l - 0 + 0)); [reflexivity|exfalso; qlra]. }
  split; [|split; [|split; [|split; [|split]]]].
  - intros H H0. exists [mkSpwh r []], r. rewrite Run by auto. split; [reflexivity|]. split; [reflexivity|]. split; [reflexivity|].
    assert (G : is_geom2d [mkSpwh r []]) by (constructor; [apply spwh_ok_iff; cbn; auto|constructor]). split; auto.
    rewrite g2_area_ok by auto. f_equal. cbn [qsum]. unfold poly_area. cbn [outer holes qsum]. rewrite AR. ring.
  - intros H. rewrite Fail; auto. intros (_ & H1 & _). rewrite AR, Abs0 in H1 by auto. qlra.
  - intros H. rewrite Fail; auto. intros (_ & _ & H1). tauto.
  - intros H. rewrite Fail; auto. intros (_ & H1 & _). fold a in H1. qlra.
  - intros H H0. assert (Ha : a <> 0) by (intros E; rewrite E in H0; qlra). assert (Er : r = pts).
    { unfold r. destruct (qltb_spec a 0); [exfalso; qlra|reflexivity]. }
    rewrite Er in *. reflexivity.
  - reflexivity.
Qed.
Print Assumptions geom2d_area_sum.
Print Assumptions polygon_reorient.
Example polygon_ex :
  polygon (mpq_points (ring_sq 0 4)) true = polygon (mpq_points (rev (ring_sq 0 4))) true /\
  polygon (mpq_points (ring_sq 0 4)) true = Ok [mkSpwh (ring_sq 0 4) []] /\
  polygon (mpq_points (rev (ring_sq 0 4))) false = Err AssertionError /\ g2_area nested = Ok (zq 4000).
Proof. vm_compute. auto. Qed.

(** ** C20: rectangle *)
Definition exact_coord (v : pynum) (q : Qc) : Prop := v = NMpq q \/ exists z, (v = NInt z \/ v = NMpz z) /\ q = zq z.
Lemma exact_coord_ok v q : exact_coord v q -> poly_coord v = Ok q.
Proof. intros [->|(z & [->| ->] & ->)]; reflexivity. Qed.
Definition box (xl yl xh yh : Qc) : list point := [(xl, yl); (xl, yh); (xh, yh); (xh, yl)].
Lemma box_edges xl yl xh yh s : is_edge (box xl yl xh yh) s <->
  s = ((xl, yl), (xl, yh)) \/ s = ((xl, yh), (xh, yh)) \/ s = ((xh, yh), (xh, yl)) \/ s = ((xh, yl), (xl, yl)).
Proof. rewrite is_edge_iter. unfold box. cbn. intuition auto. Qed.
Definition strictly_between (a x b : Qc) : Prop := (a < x /\ x < b) \/ (b < x /\ x < a).
Definition weakly_between (a x b : Qc) : Prop := (a <= x /\ x <= b) \/ (b <= x /\ x <= a).
Lemma box_locate xl yl xh yh p : xl < xh -> yl < yh ->
  (locate_point_polygon_winding_number (box xl yl xh yh) p = Ok 1%Z <-> xl < fst p /\ fst p < xh /\ yl < snd p /\ snd p < yh) /\
  (locate_point_polygon_winding_number (box xl yl xh yh) p = Ok 0%Z <->
    (xl <= fst p /\ fst p <= xh /\ yl <= snd p /\ snd p <= yh) /\ ~ (xl < fst p /\ fst p < xh /\ yl < snd p /\ snd p < yh)).
Proof.
  intros X Y. split.
  - rewrite locate_convex; [|discriminate|].
    + split.
      * intros H. assert (H1 := H _ (proj2 (box_edges xl yl xh yh _) (or_introl eq_refl))).
        assert (H2 := H _ (proj2 (box_edges xl yl xh yh _) (or_intror (or_introl eq_refl)))).
        assert (H3 := H _ (proj2 (box_edges xl yl xh yh _) (or_intror (or_intror (or_introl eq_refl))))).
        assert (H4 := H _ (proj2 (box_edges xl yl xh yh _) (or_intror (or_intror (or_intror eq_refl))))).
        unfold orient, cross, vsub in *. destruct p as [x y]. cbn [fst snd] in *. clear H. repeat split.
        -- qnra.
        -- qnra.
        -- qnra.
        -- qnra.
      * intros (A & B & C & D) s Hs. destruct p as [x y]. cbn [fst snd] in *. apply box_edges in Hs.
        destruct Hs as [->|[->|[->| ->]]]; unfold orient, cross, vsub; cbn [fst snd]; qnra.
    + split.
      * intros s v Hs Hv. apply box_edges in Hs. unfold box in Hv. cbn in Hv.
        destruct Hs as [->|[->|[->| ->]]], Hv as [<-|[<-|[<-|[<-|[]]]]]; unfold orient, cross, vsub; cbn [fst snd]; qnra.
      * intros s Hs. apply box_edges in Hs. destruct Hs as [->|[->|[->| ->]]]; cbn [fst snd]; intros E; apply pair_inv in E as (E1 & E2);
          first [rewrite E1 in X; qlra | rewrite E2 in Y; qlra | rewrite E1 in X; qlra].
  - rewrite (proj1 (locate_zero_iff_boundary (box xl yl xh yh) p ltac:(discriminate))).
    destruct p as [x y]. cbn [fst snd]. unfold on_boundary. split.
    + intros (s & Hs & O). apply box_edges in Hs.
      destruct Hs as [->|[->|[->| ->]]]; apply on_seg_iff in O as (_ & [[? ?]|[? ?]] & [[? ?]|[? ?]]); cbn [fst snd] in *;
        (split; [repeat split; qlra|intros (? & ? & ? & ?); qlra]).
    + intros ((A & B & C & D) & N).
      assert (Q : x = xl \/ y = yh \/ x = xh \/ y = yl).
      { destruct (qeqb_spec x xl), (qeqb_spec y yh), (qeqb_spec x xh), (qeqb_spec y yl); auto.
        exfalso. apply N. destruct (qc_not_eq _ _ n), (qc_not_eq _ _ n0), (qc_not_eq _ _ n1), (qc_not_eq _ _ n2); repeat split; qlra. }
      destruct Q as [->|[->|[->| ->]]]; (eexists; split; [apply box_edges|]).
      * left; reflexivity.
      * apply on_seg_iff. cbn [fst snd]. split; [unfold orient, cross, vsub; cbn [fst snd]; ring|]. split; left; split; qlra.
      * right; left; reflexivity.
      * apply on_seg_iff. cbn [fst snd]. split; [unfold orient, cross, vsub; cbn [fst snd]; ring|]. split; left; split; qlra.
      * right; right; left; reflexivity.
      * apply on_seg_iff. cbn [fst snd]. split; [unfold orient, cross, vsub; cbn [fst snd]; ring|]. split; [left|right]; split; qlra.
      * right; right; right; reflexivity.
      * apply on_seg_iff. cbn [fst snd]. split; [unfold orient, cross, vsub; cbn [fst snd]; ring|]. split; [right|left]; split; qlra.
Qed.
Lemma box_area x0 y0 x1 y1 : area_of (box x0 y0 x1 y1) = (x1 - x0) * (y1 - y0).
Proof.
  rewrite (area_of_fan (0, 0)). unfold fan2, box. cbn. unfold orient, cross, vsub. cbn [fst snd].
  rewrite <- (Qcmult_1_l ((x1 - x0) * (y1 - y0))). replace 1 with (qq 1 2 + qq 1 2) by qlra. ring.
Qed.
Theorem rectangle_box : forall vx0 vy0 vx1 vy1 x0 y0 x1 y1,
  exact_coord vx0 x0 -> exact_coord vy0 y0 -> exact_coord vx1 x1 -> exact_coord vy1 y1 ->
  ((x0 = x1 \/ y0 = y1) -> rectangle vx0 vy0 vx1 vy1 = Err AssertionError) /\
  (x0 <> x1 -> y0 <> y1 -> exists g, rectangle vx0 vy0 vx1 vy1 = Ok g /\ is_geom2d g /\
     g2_area g = Ok (qabs (x1 - x0) * qabs (y1 - y0)) /\
     forall p, 
      (g2_locate g p = Ok 1%Z <-> strictly_between x0 (fst p) x1 /\ strictly_between y0 (snd p) y1) /\
      (g2_locate g p = Ok 0%Z <-> (weakly_between x0 (fst p) x1 /\ weakly_between y0 (snd p) y1) /\
                                  ~ (strictly_between x0 (fst p) x1 /\ strictly_between y0 (snd p) y1)) /\
      (g2_locate g p = Ok (-1)%Z <-> ~ (weakly_between x0 (fst p) x1 /\ weakly_between y0 (snd p) y1))).
Proof.
  intros vx0 vy0 vx1 vy1 x0 y0 x1 y1 C1 C2 C3 C4.
  assert (R : rectangle vx0 vy0 vx1 vy1 = polygon (mpq_points (box x0 y0 x1 y1)) true).
  { unfold rectangle, polygon, box. cbn. unfold poly_point. cbn.
    rewrite !(exact_coord_ok _ _ C1), !(exact_coord_ok _ _ C2), !(exact_coord_ok _ _ C3), !(exact_coord_ok _ _ C4). reflexivity. }
  rewrite R. destruct (polygon_reorient (box x0 y0 x1 y1) ltac:(discriminate)) as (Hok & Hz & _).
  rewrite ring_area_of, box_area in *. split.
  - intros H. apply Hz. destruct H as [->| ->]; ring.
  - intros NX NY.
    assert (ND : forall s, is_edge (box x0 y0 x1 y1) s -> fst s <> snd s).
    { intros s Hs. apply box_edges in Hs. destruct Hs as [->|[->|[->| ->]]]; cbn [fst snd]; intros E; apply pair_inv in E as (E1 & E2); congruence. }
    assert (NZ : (x1 - x0) * (y1 - y0) <> 0).
    { intros E. apply Qcmult_integral in E as [E|E]; [apply NX|apply NY]; qlra. }
    destruct (Hok ND NZ) as (g & r & Eg & -> & Er & G & Ar). exists [mkSpwh r []]. split; auto. split; auto.
    split. { rewrite Ar. f_equal. unfold qabs. destruct (qc_not_eq _ _ NX), (qc_not_eq _ _ NY), (qleb_spec 0 ((x1 - x0) * (y1 - y0))), (qleb_spec 0 (x1 - x0)), (qleb_spec 0 (y1 - y0));
        try ring; exfalso; first [qlra | qnra]. }
    intros p.
    assert (L : g2_locate [mkSpwh r []] p = locate_point_polygon_winding_number r p).
    { cbn [g2_locate]. unfold spwh_locate. cbn [outer holes locate_holes mapM].
      assert (Nr : r <> []) by (rewrite Er; destruct (qltb _ _); discriminate).
      destruct (locate_zero_iff_boundary r p Nr) as (_ & w & Ew & Cw). rewrite Ew. cbn [bind].
      destruct Cw as [->|[->| ->]]; reflexivity. }
    rewrite L.
    assert (exists xl yl xh yh, xl < xh /\ yl < yh /\ ((xl = x0 /\ xh = x1) \/ (xl = x1 /\ xh = x0)) /\ ((yl = y0 /\ yh = y1) \/ (yl = y1 /\ yh = y0)) /\
      locate_point_polygon_winding_number r p = locate_point_polygon_winding_number (box xl yl xh yh) p) as (xl & yl & xh & yh & X & Y & QX & QY & ->).
    { destruct (qc_not_eq _ _ NX) as [X|X], (qc_not_eq _ _ NY) as [Y|Y].
      - exists x0, y0, x1, y1. repeat (split; [auto|]). rewrite Er. destruct (qltb_spec ((x1 - x0) * (y1 - y0)) 0); [exfalso; qnra|reflexivity].
      - exists x0, y1, x1, y0. repeat (split; [auto|]). rewrite Er. destruct (qltb_spec ((x1 - x0) * (y1 - y0)) 0); [|exfalso; qnra].
        symmetry. apply (proj1 (locate_order_independent (rev (box x0 y0 x1 y1)) p) [(x1, y0); (x1, y1)] [(x0, y1); (x0, y0)] eq_refl).
      - exists x1, y0, x0, y1. repeat (split; [auto|]). rewrite Er. destruct (qltb_spec ((x1 - x0) * (y1 - y0)) 0); [|exfalso; qnra]. reflexivity.
      - exists x1, y1, x0, y0. repeat (split; [auto|]). rewrite Er. destruct (qltb_spec ((x1 - x0) * (y1 - y0)) 0); [exfalso; qnra|].
        symmetry. apply (proj1 (locate_order_independent (box x0 y0 x1 y1) p) [(x0, y0); (x0, y1)] [(x1, y1); (x1, y0)] eq_refl). }
    destruct (box_locate xl yl xh yh p X Y) as (B1 & B0). 
    assert (S : (strictly_between x0 (fst p) x1 /\ strictly_between y0 (snd p) y1) <-> (xl < fst p /\ fst p < xh /\ yl < snd p /\ snd p < yh)).
    { unfold strictly_between. destruct QX as [(-> & ->)|(-> & ->)], QY as [(-> & ->)|(-> & ->)];
        (split; [intros ([[? ?]|[? ?]] & [[? ?]|[? ?]]); repeat split; try qlra; exfalso; qlra | intros (? & ? & ? & ?); split; auto]). }
    assert (W : (weakly_between x0 (fst p) x1 /\ weakly_between y0 (snd p) y1) <-> (xl <= fst p /\ fst p <= xh /\ yl <= snd p /\ snd p <= yh)).
    { unfold weakly_between. destruct QX as [(-> & ->)|(-> & ->)], QY as [(-> & ->)|(-> & ->)];
        (split; [intros ([[? ?]|[? ?]] & [[? ?]|[? ?]]); repeat split; try qlra; exfalso; qlra | intros (? & ? & ? & ?); split; auto]). }
    rewrite S, W. split; [exact B1|]. split; [exact B0|].
    destruct (locate_zero_iff_boundary (box xl yl xh yh) p ltac:(discriminate)) as (_ & w & Ew & Cw). rewrite Ew in *.
    assert (SW : (xl < fst p /\ fst p < xh /\ yl < snd p /\ snd p < yh) -> (xl <= fst p /\ fst p <= xh /\ yl <= snd p /\ snd p <= yh)).
    { intros (? & ? & ? & ?). repeat split; qlra. }
    clear -B1 B0 SW Cw. destruct Cw as [->|[->| ->]].
    + split; [discriminate|]. intros H. destruct (proj1 B0 eq_refl). tauto.
    + split; [discriminate|]. intros H. pose proof (proj1 B1 eq_refl). tauto.
    + split; [|reflexivity]. intros _ H. assert (N1 : ~ (xl < fst p /\ fst p < xh /\ yl < snd p /\ snd p < yh)) by (intros K; apply B1 in K; discriminate).
      assert (Ok (-1)%Z = Ok 0%Z) by (apply B0; auto). discriminate.
Qed.
Print Assumptions rectangle_box.
Example rectangle_ex :
  (g <- rectangle (NInt 5) (NInt 1) (NMpq (zq 2)) (NMpz 3) ;; mapM (g2_locate g) [P 3 2; P 5 2; P 6 2]) = Ok [1; 0; -1]%Z /\
  rectangle (NInt 5) (NInt 1) (NInt 5) (NInt 2) = Err AssertionError.
Proof. vm_compute. auto. Qed.

(** ** C41 *)
(** v is the middle of three cyclically consecutive vertices a, v, b of l *)
Definition corner (l : list point) (a v b : point) : Prop :=
  exists l1 l2, l = l1 ++ v :: l2 /\ a = last (l2 ++ l1) v /\ b = hd v (l2 ++ l1).
Theorem simplify_degeneracies_ok : forall verts, exists r,
  simplify_degeneracies verts = Ok r /\ sublist r verts /\ ring_area r = ring_area verts /\
  (r = [] \/ forall a v b, corner r a v b -> orient a v b <> 0).
Proof.
  intros verts. destruct (simp_outer_ok (S (length verts)) verts) as (r & E & A & B & C); [lia|].
  exists r. split; [exact E|]. split; auto. rewrite !ring_area_of. split; auto.
  destruct C as [C|C]; auto. right. intros a v b (l1 & l2 & -> & -> & ->) O.
  apply (C (Z.of_nat (length l1))). unfold tri_at.
  replace (Z.of_nat (length l1) - 1)%Z with (Z.of_nat (length l1) + -1)%Z by lia.
  replace (nthp (l1 ++ v :: l2) (Z.of_nat (length l1))) with (nthp (l1 ++ v :: l2) (Z.of_nat (length l1) + 0)) by (f_equal; lia).
  rewrite !nthp_rot. cbn [app]. rewrite nthp_0, nthp_m1, nthp_1, tri_area_orient, O. ring.
Qed.
Print Assumptions simplify_degeneracies_ok.
Example simplify_ex :
  simplify_degeneracies [P 0 0; P 2 0; P 4 0; P 4 4; P 8 4; P 4 4; P 0 4] = Ok [P 0 0; P 4 0; P 4 4; P 0 4] /\
  simplify_degeneracies [P 0 0; P 1 1; P 2 2; P 5 5] = Ok [].
Proof. vm_compute. auto. Qed.

(** ** C39: short-cuts, whatever the arrangement code (the last part assumes [arr_sound]) *)
Theorem empty_shortcuts_rel : forall A a,
  (forall r, g2_or A a g2_empty = Ok r \/ g2_or A g2_empty a = Ok r \/ g2_sub A a g2_empty = Ok r -> r = a) /\
  g2_or A a g2_empty = Ok a /\ g2_or A g2_empty a = Ok a /\ g2_sub A a g2_empty = Ok a /\
  (arr_sound A -> is_geom2d a -> forall r, g2_and A g2_empty a = Ok r \/ g2_and A a g2_empty = Ok r \/ g2_sub A g2_empty a = Ok r ->
     forall p, ~ on_bd a p -> ~ in_geom r p).
Proof.
  intros A a.
  assert (E1 : g2_or A a g2_empty = Ok a) by (unfold g2_or; destruct a; reflexivity).
  assert (E2 : g2_or A g2_empty a = Ok a) by reflexivity.
  assert (E3 : g2_sub A a g2_empty = Ok a) by reflexivity.
  split; [intros r [H|[H|H]]; congruence|]. split; auto. split; auto. split; auto.
  intros SA Ga r H p Hp I.
  assert (Ge : is_geom2d g2_empty) by constructor.
  assert (Be : ~ on_bd g2_empty p) by (intros (x & (s & [] & _) & _)).
  destruct H as [H|[H|H]].
  - destruct (g2_and_ok _ _ _ _ SA Ge Ga H) as (_ & _ & M). apply M in I; [|intros x [<-|[<-|[]]]; auto]. exact (not_in_empty p (proj1 I)).
  - destruct (g2_and_ok _ _ _ _ SA Ga Ge H) as (_ & _ & M). apply M in I; [|intros x [<-|[<-|[]]]; auto]. exact (not_in_empty p (proj2 I)).
  - destruct (g2_sub_ok _ _ _ _ SA Ge Ga H) as (_ & _ & M). apply M in I; [|intros x [<-|[<-|[]]]; auto]. exact (not_in_empty p (proj1 I)).
Qed.
Print Assumptions empty_shortcuts_rel.

(** ** C40, relative to the arrangement code *)
Theorem union_any_number_rel : forall A, arr_sound A -> forall gs, Forall is_geom2d gs ->
  (forall r, union_tree A gs = Ok r -> is_op gs (fun p => exists g, In g gs /\ in_geom g p) r) /\
  (forall r, g2_union A gs = Ok r -> is_op gs (fun p => exists g, In g gs /\ in_geom g p) r) /\
  ((forall l, arrangement_op A l any_op <> Err OutOfFuel) -> union_tree A gs <> Err OutOfFuel).
Proof.
  intros A SA gs F. split; [|split].
  - intros r. now apply union_tree_ok.
  - intros r. now apply g2_union_ok.
  - apply union_tree_fuel.
Qed.
Print Assumptions union_any_number_rel.

(** ** C42, relative to the arrangement code *)
Lemma buffer_origin fsqrt sz : 0 < sz -> 0 < fsqrt 1 -> 0 < fsqrt (zq 2) ->
  locate_point_polygon_winding_number (buffer_of_size fsqrt sz) (0, 0) = Ok 1%Z.
Proof.
  intros H0 H1 H2.
  assert (Pos : forall f, 0 < f -> 0 < 1 / (f / sz)).
  { intros f Hf. assert (Ns : sz <> 0) by (intros ->; qlra). pose proof (qdiv_mul f sz Ns) as D1. set (k := f / sz) in *.
    assert (0 < k) by (destruct (qltb_spec 0 k); auto; exfalso; qnra). assert (Nk : k <> 0) by (intros E; rewrite E in *; qlra).
    pose proof (qdiv_mul 1 k Nk) as D2. set (m := 1 / k) in *. destruct (qltb_spec 0 m); auto. exfalso; qnra. }
  set (a := 1 / (fsqrt 1 / sz)). set (b := 1 / (fsqrt (zq 2) / sz)).
  assert (Pa : 0 < a) by (apply Pos; auto). assert (Pb : 0 < b) by (apply Pos; auto).
  assert (E : buffer_of_size fsqrt sz = [(a, 0); (b, - b); (0, - a); (- b, - b); (- a, 0); (- b, b); (0, a); (b, b)]).
  { unfold buffer_of_size. set (F := fun i : nat => _).
    assert (V : forall i x y, frangle_unit_square_vector (zq (Z.of_nat i) * MAX_FRANGLE / zq 8) = (x, y) ->
       F i = (x * (1 / (fsqrt (x * x + y * y) / sz)), y * (1 / (fsqrt (x * x + y * y) / sz)))).
    { intros i x y Ev. unfold F. rewrite Ev. cbn [fst snd]. unfold Qcdiv. f_equal; ring. }
    change (map F (seq 0 8)) with [F 0; F 1; F 2; F 3; F 4; F 5; F 6; F 7]%nat. clearbody F.
    rewrite (V 0%nat 1 0) by (vm_compute; reflexivity). rewrite (V 1%nat 1 (- (1))) by (vm_compute; reflexivity).
    rewrite (V 2%nat 0 (- (1))) by (vm_compute; reflexivity). rewrite (V 3%nat (- (1)) (- (1))) by (vm_compute; reflexivity).
    rewrite (V 4%nat (- (1)) 0) by (vm_compute; reflexivity). rewrite (V 5%nat (- (1)) 1) by (vm_compute; reflexivity).
    rewrite (V 6%nat 0 1) by (vm_compute; reflexivity). rewrite (V 7%nat 1 1) by (vm_compute; reflexivity).
    clear V.
    replace (1 * 1 + 0 * 0) with 1 by ring. replace (0 * 0 + - (1) * - (1)) with 1 by ring.
    replace (- (1) * - (1) + 0 * 0) with 1 by ring. replace (0 * 0 + 1 * 1) with 1 by ring.
    replace (1 * 1 + - (1) * - (1)) with (zq 2) by (vm_compute; reflexivity).
    replace (- (1) * - (1) + - (1) * - (1)) with (zq 2) by (vm_compute; reflexivity).
    replace (- (1) * - (1) + 1 * 1) with (zq 2) by (vm_compute; reflexivity).
    replace (1 * 1 + 1 * 1) with (zq 2) by (vm_compute; reflexivity). fold a b. clearbody a b.
    repeat (apply f_equal2; [apply f_equal2; ring|]). reflexivity. }
  rewrite E. clearbody a b. clear E H0 H1 H2 Pos.
  set (L := _ :: _). assert (NL : L <> []) by discriminate.
  assert (Ed : forall s, is_edge L s -> orient (fst s) (snd s) (0, 0) < 0).
  { intros s Hs. apply is_edge_iter in Hs. unfold L in Hs. cbn in Hs.
    repeat (destruct Hs as [<-|Hs]; [unfold orient, cross, vsub; cbn [fst snd]; qnra|]). destruct Hs. }
  destruct (locate_spec L (0, 0) NL) as (r & -> & [[B ->]|[(B & W & ->)|(B & W & ->)]]); [|reflexivity|].
  - destruct B as (s & Hs & O). specialize (Ed s Hs). destruct s. apply on_seg_iff in O as (O & _). cbn [fst snd] in Ed. exfalso. qlra.
  - assert (0 < wsum (0%Qc, 0%Qc) L)%Z; [|lia]. apply wsum_strict_right; auto. intros s Hs. apply Ed. now apply is_edge_pedges.
Qed.
(** no polygon of g overlaps a hole of g *)
Definition no_nesting (g : geom2d) : Prop :=
  forall s s' h p, In s g -> In s' g -> In h (holes s') -> ~ on_bd g p -> in_poly s p -> ~ in_ring h p.
Theorem buffer_direction_rel : forall A fsqrt g amount q r, arr_sound A -> 0 < fsqrt 1 -> 0 < fsqrt (zq 2) -> is_geom2d g ->
  g2_buffer A fsqrt g amount = Ok r -> pval amount = Some (Fin q) ->
  is_geom2d r /\
  (q = 0 -> r = g) /\
  (0 < q -> no_nesting g -> forall p, ~ on_bd g p -> ~ on_bd r p -> in_geom g p -> in_geom r p) /\
  (q < 0 -> forall p, ~ on_bd g p -> ~ on_bd r p -> in_geom r p -> in_geom g p).
Proof.
  intros A fsqrt g amount q r SA F1 F2 G R V. unfold g2_buffer in R. rewrite V in R.
  destruct (qeqb_spec q 0) as [Eq|Nq].
  { injection R as <-. subst q. split; [auto|]. split; [auto|]. split; intros; auto. }
  destruct (FractionFromExact amount) as [q'|] eqn:Ea; cbn [bind] in R; [|discriminate].
  assert (q' = q).
  { clear -Ea V. destruct amount; cbn in Ea, V; try discriminate; apply some_inv in V; injection V as V; injection Ea as Ea; congruence. }
  subst q'.
  assert (Pq : 0 < qabs q) by (unfold qabs; destruct (qleb_spec 0 q), (qc_not_eq _ _ Nq); qlra).
  pose proof (buffer_origin fsqrt (qabs q) Pq F1 F2) as L.
  destruct (mink_ok A 2 SA g _ (if qltb 0 q then 1 else - (1)) r G L) as (Gr & S & HS); [destruct (qltb 0 q); auto|exact R|].
  split; auto. split; [tauto|]. split.
  - intros Hq NN p B1 B2 I. destruct (near_point p [g; r] S) as (p' & O & M); [auto| |].
    { intros x [<-|[<-|[]]]; auto. }
    destruct (M g) as (B1' & M1); [cbn; auto|]. destruct (M r) as (B2' & M2); [cbn; auto|]. apply M2.
    destruct (qltb_spec 0 q); [|tauto]. apply (proj1 (HS p' O) eq_refl). apply M1 in I. destruct I as (s & Hs & I). split.
    + exists s. split; auto. apply I.
    + intros s' h Hs' Hh. apply (NN s s' h p'); auto.
  - intros Hq p B1 B2 I. destruct (near_point p [g; r] S) as (p' & O & M); [auto| |].
    { intros x [<-|[<-|[]]]; auto. }
    destruct (M g) as (B1' & M1); [cbn; auto|]. destruct (M r) as (B2' & M2); [cbn; auto|]. apply M1. apply M2 in I.
    destruct (qltb_spec 0 q); [exfalso; qlra|]. destruct (proj2 (HS p' O) eq_refl I) as ((s & Hs & K) & NH).
    exists s. split; auto. split; auto. intros h Hh. eapply NH; eauto.
Qed.
Print Assumptions buffer_direction_rel.
