(** * Proofs about make_fingers: affine images of rings, and finger bands. *)
From Verif.Spec Require Import Plane Region PointSet1 Fingers.
From Verif.Model Require Import Sheetplex.
From Verif.Proofs Require Import PyP PolyP WindingP WindingQ WindingR ExtOrd Geom1dP Geom1dM Geom2dP SimplifyP NearP Geom2dOps.
From Verif.Props Require Import Primitive2dProps LocateProps Geom2dProps.
Open Scope Qc_scope.
Local Notation dot := Geom2d.dot.

(** ** affine maps of the plane *)
Record affine (T Ti : point -> point) (k : Qc) : Prop := {
  af_inv : forall p, Ti (T p) = p; af_vni : forall p, T (Ti p) = p;
  af_at : forall a b t, T (at_t (a, b) t) = at_t (T a, T b) t;
  af_orient : forall a b c, orient (T a) (T b) (T c) = k * orient a b c; af_k : k <> 0 }.
Lemma affine_inv T Ti k : affine T Ti k -> affine Ti T (/ k).
Proof.
  intros [I V A O K]. split; auto.
  - intros a b t. rewrite <- (I (at_t (Ti a, Ti b) t)), A, !V. reflexivity.
  - intros a b c. rewrite <- (V a) at 2. rewrite <- (V b) at 2. rewrite <- (V c) at 2. rewrite O, Qcmult_assoc, (Qcmult_comm (/ k)), Qcmult_inv_r by auto. ring.
  - intros E. apply K. rewrite <- (Qcmult_1_l k), <- (Qcmult_inv_r k K), E. ring.
Qed.
Lemma affine_on_seg T Ti k a b p : affine T Ti k -> (on_seg (T a, T b) (T p) <-> on_seg (a, b) p).
Proof.
  intros [I V A O K]. unfold on_seg. split; intros (t & H1 & H2 & E); exists t; split; auto; split; auto.
  - rewrite <- A in E. apply (f_equal Ti) in E. now rewrite !I in E.
  - now rewrite <- A, E.
Qed.
Lemma sgn_cases q : (sgn q = 1%Z /\ 0 < q) \/ (sgn q = 0%Z /\ q = 0) \/ (sgn q = (-1)%Z /\ q < 0).
Proof. unfold sgn. destruct (qltb_spec 0 q); auto. destruct (qltb_spec q 0); auto. right. left. split; auto. qlra. Qed.
Lemma sgn_mul k q : sgn (k * q) = (sgn k * sgn q)%Z.
Proof.
  destruct (sgn_cases k) as [(-> & H)|[(-> & ->)|(-> & H)]], (sgn_cases q) as [(-> & G)|[(-> & ->)|(-> & G)]];
    rewrite ?Qcmult_0_l, ?Qcmult_0_r; try reflexivity.
  all: destruct (sgn_cases (k * q)) as [(-> & L)|[(-> & L)|(-> & L)]]; try reflexivity; exfalso; qnra.
Qed.
Lemma affine_tri T Ti k a b c p : affine T Ti k -> tri_ind (T a) (T b) (T c) (T p) = (sgn k * tri_ind a b c p)%Z.
Proof.
  intros [I V A O K]. unfold tri_ind. rewrite !O, !sgn_mul.
  destruct (sgn_cases k) as [(-> & H)|[(-> & H)|(-> & H)]]; [|congruence|];
    destruct (sgn_cases (orient a b p)) as [(-> & _)|[(-> & _)|(-> & _)]], (sgn_cases (orient b c p)) as [(-> & _)|[(-> & _)|(-> & _)]],
      (sgn_cases (orient c a p)) as [(-> & _)|[(-> & _)|(-> & _)]]; reflexivity.
Qed.
Lemma cyclic_pairs_map (T : point -> point) l : cyclic_pairs (map T l) = map (fun s => (T (fst s), T (snd s))) (cyclic_pairs l).
Proof.
  destruct l as [|a r]; [reflexivity|]. cbn [cyclic_pairs map]. change (map T r ++ [T a]) with (map T r ++ map T [a]). rewrite <- map_app.
  change (T a :: map T r) with (map T (a :: r)). generalize (a :: r), (r ++ [a]). clear.
  induction l as [|x l IH]; intros [|y m]; cbn; auto. now rewrite IH.
Qed.
Lemma affine_in_ring1 T Ti k r p : affine T Ti k -> in_ring r p -> in_ring (map T r) (T p).
Proof.
  intros A (w & (o & G & ->) & N). exists (sgn k * fan_winding o r p)%Z. split.
  - exists (T o). split.
    + intros v Hv. apply in_map_iff in Hv as (v' & <- & Hv). rewrite (affine_on_seg T Ti k); auto.
    + unfold fan_winding. rewrite cyclic_pairs_map. induction (cyclic_pairs r) as [|s l IH]; cbn [map zsum]; [lia|].
      rewrite <- IH. cbn [fst snd]. rewrite (affine_tri T Ti k) by auto. lia.
  - destruct (sgn_cases k) as [(-> & H)|[(-> & H)|(-> & H)]]; [lia|destruct A; congruence|lia].
Qed.
Lemma affine_in_ring T Ti k r p : affine T Ti k -> (in_ring (map T r) (T p) <-> in_ring r p).
Proof.
  intros A. split; [|now apply (affine_in_ring1 T Ti k)]. intros H. apply (affine_in_ring1 Ti T (/ k)) in H; [|now apply affine_inv].
  destruct A as [I V _ _ _]. rewrite map_map, I in H. rewrite (map_ext _ (fun x => x)), map_id in H; auto.
Qed.
Lemma affine_on_boundary T Ti k r p : affine T Ti k -> (on_boundary (map T r) (T p) <-> on_boundary r p).
Proof.
  intros A. assert (E : forall s, is_edge (map T r) s <-> exists e, is_edge r e /\ s = (T (fst e), T (snd e))).
  { intros s. rewrite !is_edge_iter. rewrite edges_iter_map, in_map_iff. split.
    - intros (e & <- & H). exists e. rewrite is_edge_iter. auto.
    - intros (e & H & ->). exists e. rewrite <- is_edge_iter. auto. }
  unfold on_boundary. split.
  - intros (s & Hs & O). apply E in Hs as (e & He & ->). exists e. split; auto. destruct e as [a b]. now rewrite <- (affine_on_seg T Ti k).
  - intros ((a & b) & He & O). exists (T a, T b). split; [apply E; exists (a, b); auto|]. now rewrite (affine_on_seg T Ti k).
Qed.
Lemma in_ring_rev r p : r <> [] -> ~ on_boundary r p -> (in_ring (rev r) p <-> in_ring r p).
Proof.
  intros N B. assert (N' : rev r <> []) by (intros E; apply N; rewrite <- (rev_involutive r), E; reflexivity).
  assert (B' : ~ on_boundary (rev r) p).
  { intros H. apply (locate_zero_iff_boundary (rev r) p N') in H. rewrite (proj2 (locate_order_independent r p)) in H.
    apply B. now apply (locate_zero_iff_boundary r p N). }
  pose proof (proj2 (locate_order_independent r p)) as E.
  destruct (locate_ring r p N B) as [(L & I)|(L & I)], (locate_ring _ p N' B') as [(L' & I')|(L' & I')]; try tauto; rewrite L, L' in E; discriminate.
Qed.
Lemma on_boundary_rev r p : on_boundary (rev r) p <-> on_boundary r p.
Proof.
  destruct r as [|a r]; [tauto|]. set (l := a :: r). assert (N : l <> []) by discriminate. clearbody l.
  assert (N' : rev l <> []) by (intros E; apply N; rewrite <- (rev_involutive l), E; reflexivity).
  rewrite <- (proj1 (locate_zero_iff_boundary (rev l) p N')), <- (proj1 (locate_zero_iff_boundary l p N)), (proj2 (locate_order_independent l p)). tauto.
Qed.
Lemma rev_ne {X} (r : list X) : r <> [] -> rev r <> [].
Proof. intros N E. apply N. rewrite <- (rev_involutive r), E. reflexivity. Qed.

Lemma Ok_inv {X} (a b : X) : Ok a = Ok b -> a = b.
Proof. congruence. Qed.
(** boxes with arbitrary corner order *)
Lemma box_region x0 y0 x1 y1 : x0 <> x1 -> y0 <> y1 -> forall p,
  (on_boundary (box x0 y0 x1 y1) p <-> (weakly_between x0 (fst p) x1 /\ weakly_between y0 (snd p) y1) /\
                                  ~ (strictly_between x0 (fst p) x1 /\ strictly_between y0 (snd p) y1)) /\
  (~ on_boundary (box x0 y0 x1 y1) p -> (in_ring (box x0 y0 x1 y1) p <-> strictly_between x0 (fst p) x1 /\ strictly_between y0 (snd p) y1)).
Proof.
  intros NX NY p.
  assert (C : forall q, exact_coord (NMpq q) q) by (left; auto).
  destruct (rectangle_box _ _ _ _ x0 y0 x1 y1 (C x0) (C y0) (C x1) (C y1)) as (_ & H). destruct (H NX NY) as (g & R & G & _ & L). clear H.
  assert (RB : rectangle (NMpq x0) (NMpq y0) (NMpq x1) (NMpq y1) = polygon (mpq_points (box x0 y0 x1 y1)) true).
  { unfold rectangle, mpq_points, box. cbn [map fst snd]. reflexivity. }
  rewrite RB in R. clear RB.
  assert (Nb : box x0 y0 x1 y1 <> []) by discriminate.
  destruct (polygon_reorient (box x0 y0 x1 y1) Nb) as (Hok & Hz & _).
  assert (ND : forall s, is_edge (box x0 y0 x1 y1) s -> fst s <> snd s).
  { intros s Hs. apply box_edges in Hs. destruct Hs as [->|[->|[->| ->]]]; cbn [fst snd]; intros E; apply pair_inv in E as (E1 & E2); congruence. }
  destruct (Hok ND) as (g' & r & R' & E1 & E2 & _).
  { rewrite ring_area_of, box_area. intros E. apply Qcmult_integral in E as [E|E]; [apply NX|apply NY]; qlra. }
  rewrite R in R'. apply Ok_inv in R'. subst g' g. specialize (L p) as (L1 & L0 & _). clear Hok Hz R ND.
  assert (LL : g2_locate [mkSpwh r []] p = locate_point_polygon_winding_number (box x0 y0 x1 y1) p).
  { assert (Er : locate_point_polygon_winding_number r p = locate_point_polygon_winding_number (box x0 y0 x1 y1) p).
    { rewrite E2. destruct (qltb _ _); auto. apply (proj2 (locate_order_independent _ p)). }
    rewrite <- Er. unfold g2_locate, spwh_locate. cbn [outer holes mapM].
    destruct (locate_zero_iff_boundary (box x0 y0 x1 y1) p Nb) as (_ & w & Ew & Cw). rewrite Er, Ew. cbn [bind].
    destruct Cw as [->|[->| ->]]; reflexivity. }
  rewrite LL in L1, L0. split.
  - rewrite <- L0. symmetry. apply (locate_zero_iff_boundary _ p Nb).
  - intros B. rewrite <- L1. destruct (locate_ring _ p Nb B) as [(E & I)|(E & I)]; rewrite E; split; auto; try discriminate. tauto.
Qed.

(** ** one finger *)
Definition Xs (s : interside) (uv : point) : point := padd (pscale (fst uv + is_offs s) (is_dir s)) (pscale (snd uv) (is_normal s)).
Definition Ys (s : interside) (p : point) : point := (along s p, across s p).
Lemma dd_pos (d : point) : d <> (0, 0) -> 0 < dot d d.
Proof.
  intros N. destruct d as [x y]. unfold Plane.dot, Geom2d.dot. cbn [fst snd].
  destruct (qeqb_spec x 0) as [->|X].
  - destruct (qeqb_spec y 0) as [->|Y]; [congruence|]. destruct (qc_not_eq _ _ Y); qnra.
  - destruct (qc_not_eq _ _ X); qnra.
Qed.
Lemma frame_affine s : frame_ok s -> affine (Xs s) (Ys s) (- dot (is_dir s) (is_dir s)).
Proof.
  intros (ND & En). pose proof (dd_pos _ ND) as DP. destruct s as [id inter idx sh [d0 d1] offs nrm mn mx]. cbn [is_dir is_normal] in *. subst nrm. cbn [fst snd] in *.
  unfold Xs, Ys, along, across, padd, pscale, Plane.dot, Geom2d.dot in *. cbn [is_dir is_normal is_offs fst snd] in *.
  assert (E2 : d1 * d1 + - d0 * - d0 = d0 * d0 + d1 * d1) by ring. rewrite E2.
  set (D := d0 * d0 + d1 * d1) in *. assert (DN : D <> 0) by (intros E; rewrite E in DP; qlra).
  split.
  - intros [u v]. cbn [fst snd]. f_equal.
    + replace (((u + offs) * d0 + v * d1) * d0 + ((u + offs) * d1 + v * - d0) * d1) with ((u + offs) * D) by (unfold D; ring).
      unfold Qcdiv. rewrite <- Qcmult_assoc, Qcmult_inv_r by auto. ring.
    + replace (((u + offs) * d0 + v * d1) * d1 + ((u + offs) * d1 + v * - d0) * - d0) with (v * D) by (unfold D; ring).
      unfold Qcdiv. rewrite <- Qcmult_assoc, Qcmult_inv_r by auto. ring.
  - intros [x y]. cbn [fst snd]. f_equal.
    + transitivity ((x * D) / D); [unfold Qcdiv, D; ring|]. unfold Qcdiv. rewrite <- Qcmult_assoc, Qcmult_inv_r by auto. ring.
    + transitivity ((y * D) / D); [unfold Qcdiv, D; ring|]. unfold Qcdiv. rewrite <- Qcmult_assoc, Qcmult_inv_r by auto. ring.
  - intros [a0 a1] [b0 b1] t. unfold at_t, vadd, vscale, vsub. cbn [fst snd]. f_equal; ring.
  - intros [a0 a1] [b0 b1] [c0 c1]. unfold orient, cross, vsub. cbn [fst snd]. unfold D. ring.
  - intros E. qlra.
Qed.
Lemma affine_area T Ti k l : affine T Ti k -> area_of (map T l) = k * area_of l.
Proof.
  intros A. rewrite (area_of_fan (T (0, 0)) (map T l)), (area_of_fan (0, 0) l). unfold fan2. rewrite cyclic_pairs_map, qsum_map.
  rewrite (qsum_ext _ (fun s => k * orient (0, 0) (fst s) (snd s))); [rewrite qsum_scale; ring|].
  intros [a b] _. cbn [fst snd]. apply A.
Qed.
Lemma frame_pt s p : frame_ok s -> Xs s (along s p, across s p) = p.
Proof. intros F. apply (af_vni _ _ _ (frame_affine s F)). Qed.
Lemma frame_co s u v : frame_ok s -> along s (Xs s (u, v)) = u /\ across s (Xs s (u, v)) = v.
Proof. intros F. pose proof (af_inv _ _ _ (frame_affine s F) (u, v)) as E. apply pair_inv in E. exact E. Qed.
Definition finger_spec (s : interside) (a b v0 v1 : Qc) (g : geom2d) : Prop :=
  is_geom2d g /\ forall p,
    (on_bd g p <-> (weakly_between a (along s p) b /\ weakly_between v0 (across s p) v1) /\
                  ~ (strictly_between a (along s p) b /\ strictly_between v0 (across s p) v1)) /\
    (~ on_bd g p -> (in_geom g p <-> strictly_between a (along s p) b /\ strictly_between v0 (across s p) v1)).
Lemma finger_points s f0 f1 a b :
  let c := finger_coord s f0 f1 in [c a 0; c a 1; c b 1; c b 0] = map (Xs s) (box a (offset_at s f0) b (offset_at s f1)).
Proof.
  unfold box, finger_coord, Xs, offset_at. cbn [map fst snd].
  replace (f0 + (f1 - f0) * 0) with f0 by ring. replace (f0 + (f1 - f0) * 1) with f1 by ring. reflexivity.
Qed.
Lemma on_bd_single r p : on_bd [mkSpwh r []] p <-> on_boundary r p.
Proof.
  unfold on_bd, ring_of. split.
  - intros (x & (s & [<-|[]] & [->|[]]) & H). exact H.
  - intros H. exists r. split; auto. exists (mkSpwh r []). cbn. auto.
Qed.
Lemma polygon_q_mpq l : polygon (mpq_points l) true = polygon_q true l.
Proof. unfold polygon. rewrite poly_points_ok. reflexivity. Qed.
Lemma polygon_q_reorient l : l <> [] -> (forall s, is_edge l s -> fst s <> snd s) -> area_of l <> 0 ->
  exists g r, polygon_q true l = Ok g /\ g = [mkSpwh r []] /\ r = (if qltb (area_of l) 0 then rev l else l) /\ is_geom2d g.
Proof.
  intros N D A. destruct (polygon_reorient l N) as (H & _). destruct H as (g & r & H1 & H2 & H3 & H4 & _); auto; [now rewrite ring_area_of|].
  rewrite polygon_q_mpq in H1. rewrite ring_area_of in H3. exists g, r. auto.
Qed.
Lemma finger_ok s f0 f1 a b : frame_ok s -> a <> b -> offset_at s f0 <> offset_at s f1 ->
  exists g, finger_polygon s f0 f1 (Fin a, Fin b) = Ok g /\ finger_spec s a b (offset_at s f0) (offset_at s f1) g.
Proof.
  intros F NA NV. unfold finger_polygon. rewrite finger_points.
  set (v0 := offset_at s f0) in *. set (v1 := offset_at s f1) in *. clearbody v0 v1.
  pose proof (frame_affine s F) as A. set (T := Xs s) in *. set (bx := box a v0 b v1) in *.
  assert (Nb : map T bx <> []) by (intros E; discriminate).
  pose proof (polygon_q_reorient (map T bx) Nb) as Hok. rewrite (affine_area T (Ys s) _ bx A) in Hok.
  destruct Hok as (g & r & E & -> & Er & G).
  - intros e He. apply is_edge_iter in He. rewrite edges_iter_map in He. apply in_map_iff in He as (e' & <- & He). cbn [fst snd].
    apply is_edge_iter in He. intros E. apply (f_equal (Ys s)) in E. unfold T in E. rewrite !(af_inv _ _ _ A) in E. revert E.
    apply box_edges in He. destruct He as [->|[->|[->| ->]]]; cbn [fst snd]; intros E; apply pair_inv in E as (E1 & E2); congruence.
  - unfold bx. rewrite box_area. pose proof (af_k _ _ _ A) as K. intros E. apply Qcmult_integral in E as [E|E]; [auto|].
    apply Qcmult_integral in E as [E|E]; [apply NA|apply NV]; qlra.
  - exists [mkSpwh r []]. split; auto. split; auto. intros p.
    pose proof (frame_pt s p F) as Ep. set (uv := (along s p, across s p)) in *. change (along s p) with (fst uv). change (across s p) with (snd uv).
    destruct (box_region a v0 b v1 NA NV uv) as (B1 & B2). fold bx in B1, B2.
    assert (OB : on_bd [mkSpwh r []] p <-> on_boundary bx uv).
    { rewrite on_bd_single, Er. rewrite <- (affine_on_boundary T (Ys s) _ bx uv A). unfold T in *. rewrite Ep.
      destruct (qltb _ _); [apply on_boundary_rev|tauto]. }
    rewrite OB. split; [exact B1|]. intros NB. rewrite <- B2 by auto. rewrite in_single, Er.
    rewrite <- (affine_in_ring T (Ys s) _ bx uv A). pose proof (affine_on_boundary T (Ys s) _ bx uv A) as AB. unfold T in *. rewrite Ep in *.
    destruct (qltb _ _); [|tauto]. apply in_ring_rev; auto. rewrite AB. auto.
Qed.

(** ** all fingers *)
Lemma normal_disjoint w : forall i j x, normal w -> In i w -> In j w ->
  ele (fst i) x -> ele x (snd i) -> elt (fst j) x -> elt x (snd j) -> i = j.
Proof.
  induction w as [|k w IH]; intros i j x N Hi Hj H1 H2 H3 H4; [destruct Hi|]. destruct Hi as [<-|Hi], Hj as [<-|Hj]; auto.
  - exfalso. pose proof (normal_after _ _ N) as A. rewrite Forall_forall in A. specialize (A j Hj).
    pose proof (elt_trans _ _ _ A H3) as B. pose proof (elt_le_trans _ _ _ B H2) as C. exact (elt_irrefl _ C).
  - exfalso. pose proof (normal_after _ _ N) as A. rewrite Forall_forall in A. specialize (A i Hi).
    pose proof (elt_trans _ _ _ H4 A) as B. pose proof (elt_le_trans _ _ _ B H1) as C. exact (elt_irrefl _ C).
  - apply normal_cons in N as (_ & N & _). eauto.
Qed.
Lemma bounded1_cons i w : bounded1 (i :: w) -> (exists a b, i = (Fin a, Fin b)) /\ bounded1 w.
Proof. intros B. split; [apply B; left; auto|]. intros j Hj. apply B. right. auto. Qed.
Lemma leave_where w : normal w -> bounded1 w -> forall u, ~ inside1 w u ->
  exists sg eps, (sg = 1 \/ sg = - (1)) /\ 0 < eps /\ forall t, 0 < t -> t <= eps ->
    forall i, In i w -> elt (Fin (u + sg * t)) (fst i) \/ elt (snd i) (Fin (u + sg * t)).
Proof.
  induction w as [|i w IH]; intros N B u NI.
  - exists 1, 1. split; auto. split; [qlra|]. intros ? _ _ ? [].
  - destruct (bounded1_cons _ _ B) as ((a & b & ->) & B'). pose proof (normal_after _ _ N) as A. rewrite Forall_forall in A.
    apply normal_cons in N as (AB & N & _). cbn [fst snd] in *.
    destruct (qleb_spec u a) as [L|L].
    + exists (- (1)), 1. split; auto. split; [qlra|]. intros t T1 T2 j [<-|Hj]; left; cbn [fst snd].
      * cbn [fst snd] in *; unfold elt, ele in *. qlra.
      * specialize (A j Hj). destruct (B' j Hj) as (c & d & ->). cbn [fst snd] in *; unfold elt, ele in *. qlra.
    + destruct (qltb_spec u b) as [H|H]; [exfalso; apply NI; exists (Fin a, Fin b); cbn [fst snd]; unfold elt; repeat split; [left; auto|qlra|qlra]|].
      destruct (qeqb_spec u b) as [->|NE].
      * (* just after the first interval *)
        assert (G : exists eps, 0 < eps /\ forall j, In j w -> elt (Fin (b + eps)) (fst j)).
        { clear -A B'. induction w as [|j w IH]; [exists 1; split; [qlra|intros ? []]|].
          destruct (bounded1_cons _ _ B') as ((c & d & ->) & B''). destruct IH as (e & E1 & E2); auto; [intros; apply A; right; auto|].
          pose proof (A (Fin c, Fin d) (or_introl eq_refl)) as Hc. cbn [fst] in Hc. unfold elt in Hc.
          exists (qmin e (qq 1 2 * (c - b))). assert (QQ : qq 1 2 + qq 1 2 = 1) by qlra. unfold qmin. 
          destruct (qleb_spec e (qq 1 2 * (c - b))) as [Q|Q]; (split; [qlra|]); intros j [<-|Hj]; cbn [fst].
          - cbn [fst snd] in *; unfold elt, ele in *. qlra.
          - now apply E2.
          - cbn [fst snd] in *; unfold elt, ele in *. qlra.
          - specialize (E2 j Hj). eapply elt_trans; [|exact E2]. cbn [fst snd] in *; unfold elt, ele in *. qlra. }
        destruct G as (e & E1 & E2). exists 1, e. split; auto. split; auto. intros t T1 T2 j [<-|Hj].
        -- right. cbn [fst snd] in *; unfold elt, ele in *. qlra.
        -- left. eapply ele_lt_trans; [|apply (E2 j Hj)]. cbn [fst snd] in *; unfold elt, ele in *. qlra.
      * destruct (IH N B' u) as (sg & eps & S & E & H').
        { intros (j & Hj & J). apply NI. exists j. split; [right; auto|auto]. }
        destruct (qc_not_eq _ _ NE) as [NE'|NE']; [exfalso; qlra|].
        exists sg, (qmin eps (qq 1 2 * (u - b))). assert (QQ : qq 1 2 + qq 1 2 = 1) by qlra.
        assert (Q : qmin eps (qq 1 2 * (u - b)) <= eps /\ qmin eps (qq 1 2 * (u - b)) <= qq 1 2 * (u - b) /\ 0 < qmin eps (qq 1 2 * (u - b))).
        { unfold qmin. destruct (qleb_spec eps (qq 1 2 * (u - b))); repeat split; qlra. }
        destruct Q as (Q1 & Q2 & Q3). split; auto. split; auto. intros t T1 T2 j [<-|Hj].
        -- right. cbn [fst snd] in *; unfold elt, ele in *. destruct S as [->| ->]; qlra.
        -- apply H'; auto. qlra.
Qed.
Lemma leave_band v0 v1 v : ~ strictly_between v0 v v1 -> exists sg, (sg = 1 \/ sg = - (1)) /\ forall t, 0 < t -> ~ weakly_between v0 (v + sg * t) v1.
Proof.
  intros N. unfold strictly_between in N.
  assert (C : (v <= v0 /\ v <= v1) \/ (v0 <= v /\ v1 <= v)).
  { destruct (qltb_spec v v0), (qltb_spec v v1), (qltb_spec v0 v), (qltb_spec v1 v); try (left; split; qlra); try (right; split; qlra); exfalso; apply N; auto. }
  destruct C as [(A & B)|(A & B)]; [exists (- (1))|exists 1]; (split; [auto|]); intros t T [(H1 & H2)|(H1 & H2)]; qlra.
Qed.
Lemma finger_spec_off s a b v0 v1 g p : finger_spec s a b v0 v1 g ->
  ~ (weakly_between a (along s p) b /\ weakly_between v0 (across s p) v1) -> ~ on_bd g p /\ ~ in_geom g p.
Proof.
  intros (G & H) N. destruct (H p) as (B & I). assert (NB : ~ on_bd g p) by (rewrite B; tauto). split; auto. rewrite I by auto.
  intros (S1 & S2). apply N. unfold weakly_between, strictly_between in *.
  split; [destruct S1 as [(? & ?)|(? & ?)]; [left|right]; split; qlra|destruct S2 as [(? & ?)|(? & ?)]; [left|right]; split; qlra].
Qed.
(** the polygons of make_fingers before the union *)
Definition fingers_of (s : interside) (v0 v1 : Qc) (w : geom1d) (gs : list geom2d) : Prop :=
  Forall2 (fun i g => exists a b, i = (Fin a, Fin b) /\ a < b /\ finger_spec s a b v0 v1 g) w gs.
Lemma fingers_mapM s f0 f1 w gs : frame_ok s -> offset_at s f0 <> offset_at s f1 -> normal w ->
  mapM (finger_polygon s f0 f1) w = Ok gs -> bounded1 w /\ fingers_of s (offset_at s f0) (offset_at s f1) w gs.
Proof.
  intros F NV N H. apply mapM_ok in H.
  assert (FO : fingers_of s (offset_at s f0) (offset_at s f1) w gs).
  { unfold fingers_of. revert N. induction H as [|i g w gs H _ IH]; intros N; constructor.
    - apply normal_cons in N as (L & _). destruct i as [[|a|] [|b|]]; try discriminate H. cbn [fst snd] in L; unfold elt in L. exists a, b. split; auto. split; auto.
      destruct (finger_ok s f0 f1 a b F) as (g' & E & S); auto; [intros ->; qlra|]. rewrite E in H. apply Ok_inv in H. now subst.
    - apply IH. now apply normal_cons in N as (_ & N & _). }
  split; auto. intros i Hi. apply in_split in Hi as (w1 & w2 & ->). apply Forall2_app_inv_l in FO as (g1 & g2 & _ & FO & _).
  inversion FO as [|? ? ? ? (a & b & -> & _) _]; subst. eauto.
Qed.
Lemma fingers_in s v0 v1 w gs g : fingers_of s v0 v1 w gs -> In g gs -> exists a b, In (Fin a, Fin b) w /\ a < b /\ finger_spec s a b v0 v1 g.
Proof.
  intros FO. induction FO as [|i g' w gs (a & b & -> & L & S) _ IH]; [intros []|]. intros [<-|Hg].
  - exists a, b. cbn. auto.
  - destruct (IH Hg) as (a' & b' & I & L' & S'). exists a', b'. cbn. auto.
Qed.
Lemma fingers_nth s v0 v1 w gs i : fingers_of s v0 v1 w gs -> In i w -> exists a b g, i = (Fin a, Fin b) /\ In g gs /\ a < b /\ finger_spec s a b v0 v1 g.
Proof.
  intros FO. induction FO as [|j g w gs (a & b & -> & L & S) _ IH]; [intros []|]. intros [<-|Hi].
  - exists a, b, g. cbn. auto.
  - destruct (IH Hi) as (a' & b' & g' & E & I & H). exists a', b', g'. cbn. auto.
Qed.
Lemma step_along s p t sg : frame_ok s -> step p (vscale sg (is_dir s)) t = Xs s (along s p + sg * t, across s p).
Proof.
  intros F. rewrite <- (frame_pt s p F) at 1. set (u := along s p). set (v := across s p). clearbody u v.
  unfold step, Xs, vadd, vscale, padd, pscale. cbn [fst snd]. f_equal; ring.
Qed.
Lemma step_across s p t sg : frame_ok s -> step p (vscale sg (is_normal s)) t = Xs s (along s p, across s p + sg * t).
Proof.
  intros F. rewrite <- (frame_pt s p F) at 1. set (u := along s p). set (v := across s p). clearbody u v.
  unfold step, Xs, vadd, vscale, padd, pscale. cbn [fst snd]. f_equal; ring.
Qed.
(** a point outside the open band can be moved out of all closed fingers by arbitrarily little *)
Lemma leave_fingers s v0 v1 w gs p : frame_ok s -> normal w -> bounded1 w -> fingers_of s v0 v1 w gs ->
  ~ (inside1 w (along s p) /\ strictly_between v0 (across s p) v1) ->
  exists d eps, 0 < eps /\ forall t, 0 < t -> t <= eps -> forall g, In g gs -> ~ on_bd g (step p d t) /\ ~ in_geom g (step p d t).
Proof.
  intros F N B FO NB.
  assert (C : ~ strictly_between v0 (across s p) v1 \/ ~ inside1 w (along s p)).
  { assert (D : strictly_between v0 (across s p) v1 \/ ~ strictly_between v0 (across s p) v1).
    { unfold strictly_between. destruct (qltb_spec v0 (across s p)), (qltb_spec (across s p) v1), (qltb_spec v1 (across s p)), (qltb_spec (across s p) v0); tauto. }
    destruct D as [D|D]; [right; intros I; apply NB; auto|auto]. }
  destruct C as [C|C].
  - destruct (leave_band _ _ _ C) as (sg & S & H). exists (vscale sg (is_normal s)), 1. split; [qlra|]. intros t T1 T2 g Hg.
    destruct (fingers_in _ _ _ _ _ g FO Hg) as (a & b & _ & _ & FS). rewrite step_across by auto.
    apply (finger_spec_off _ _ _ _ _ _ _ FS). destruct (frame_co s (along s p) (across s p + sg * t) F) as (-> & ->). intros (_ & W). exact (H t T1 W).
  - destruct (leave_where w N B _ C) as (sg & eps & S & E & H). exists (vscale sg (is_dir s)), eps. split; auto. intros t T1 T2 g Hg.
    destruct (fingers_in _ _ _ _ _ g FO Hg) as (a & b & I & L & FS). rewrite step_along by auto.
    apply (finger_spec_off _ _ _ _ _ _ _ FS). destruct (frame_co s (along s p + sg * t) (across s p) F) as (-> & ->). intros (W & _).
    specialize (H t T1 T2 _ I). cbn [fst snd] in H; unfold elt in H. unfold weakly_between in W. destruct H, W as [(? & ?)|(? & ?)]; qlra.
Qed.
Lemma step_seg p d t x : on_seg (p, step p d t) x -> 0 <= t -> exists u, 0 <= u /\ u <= t /\ x = step p d u.
Proof.
  intros (k & K1 & K2 & ->) T. exists (k * t). split; [qnra|]. split; [qnra|].
  destruct p as [px py], d as [dx dy]. unfold at_t, step, vadd, vscale, vsub. cbn [fst snd]. f_equal; ring.
Qed.
Lemma band_off_all s v0 v1 w gs p : normal w -> fingers_of s v0 v1 w gs -> inside1 w (along s p) -> strictly_between v0 (across s p) v1 ->
  off_all gs p /\ some_in gs p.
Proof.
  intros N FO (i & Hi & I1 & I2) V.
  assert (OA : off_all gs p).
  { intros g Hg. destruct (fingers_in _ _ _ _ _ g FO Hg) as (a & b & Hab & L & FS). destruct (proj2 FS p) as (BD & _). rewrite BD.
    intros ((W & _) & NS). apply NS. split; auto.
    assert (E : (Fin a, Fin b) = i).
    { apply (normal_disjoint w _ _ (Fin (along s p)) N); auto; cbn [fst snd]; unfold elt, ele; unfold weakly_between in W; destruct W as [(? & ?)|(? & ?)]; qlra. }
    subst i. cbn [fst snd] in I1, I2; unfold elt in I1, I2. left. auto. }
  split; auto. destruct (fingers_nth _ _ _ _ _ i FO Hi) as (a & b & g & -> & Hg & L & FS). exists g. split; auto.
  destruct (proj2 FS p) as (_ & IG). apply IG; [now apply OA|]. split; auto. cbn [fst snd] in I1, I2; unfold elt in I1, I2. left. auto.
Qed.
Lemma make_fingers_ok A s w f0 f1 g : arr_sound A -> frame_ok s -> offset_at s f0 <> offset_at s f1 -> normal w ->
  make_fingers A s w f0 f1 = Ok g ->
  is_geom2d g /\ bounded1 w /\ (forall p, in_band s w f0 f1 p -> ~ on_bd g p /\ in_geom g p) /\
  (forall p, ~ on_bd g p -> (in_geom g p <-> in_band s w f0 f1 p)) /\
  (exists gs, fingers_of s (offset_at s f0) (offset_at s f1) w gs /\ is_op gs (some_in gs) g).
Proof.
  intros SA F NV N H. unfold make_fingers in H. apply bind_ok in H as (gs & H1 & H2).
  destruct (fingers_mapM s f0 f1 w gs F NV N H1) as (B & FO).
  assert (GS : Forall is_geom2d gs).
  { rewrite Forall_forall. intros x Hx. destruct (fingers_in _ _ _ _ _ x FO Hx) as (a & b & _ & _ & FS). apply FS. }
  pose proof (g2_union_ok A gs g SA GS H2) as (G & BD & M). split; auto. split; auto. unfold in_band.
  assert (P1 : forall p, inside1 w (along s p) /\ strictly_between (offset_at s f0) (across s p) (offset_at s f1) -> ~ on_bd g p /\ in_geom g p).
  { intros p (I & V). destruct (band_off_all s _ _ w gs p N FO I V) as (O & S). split; [intros X; exact (BD p X O)|]. now apply M. }
  split; [exact P1|]. split; [|exists gs; split; auto; split; auto]. intros p NB. split; [|intros X; now apply P1].
  intros I.
  assert (D : (inside1 w (along s p) /\ strictly_between (offset_at s f0) (across s p) (offset_at s f1)) \/
              ~ (inside1 w (along s p) /\ strictly_between (offset_at s f0) (across s p) (offset_at s f1))).
  { assert (D1 : inside1 w (along s p) \/ ~ inside1 w (along s p)).
    { pose proof (locate_inside w (along s p) N) as L. unfold inside1. destruct (Z.eq_dec (locate w (along s p)) 1); tauto. }
    unfold strictly_between. destruct (qltb_spec (offset_at s f0) (across s p)), (qltb_spec (across s p) (offset_at s f1)),
      (qltb_spec (offset_at s f1) (across s p)), (qltb_spec (across s p) (offset_at s f0)); tauto. }
  destruct D as [D|D]; auto. exfalso.
  destruct (leave_fingers s _ _ w gs p F N B FO D) as (d & eps & E & H).
  destruct (segs_away (all_segments g) p d) as (eps' & E' & H').
  { intros x Hx O. apply NB. apply on_bd_segments. eauto. }
  set (t := qmin eps eps'). assert (T : 0 < t /\ t <= eps /\ t <= eps') by (unfold t, qmin; destruct (qleb_spec eps eps'); repeat split; qlra).
  destruct T as (T1 & T2 & T3). clearbody t.
  assert (Q : in_geom g (step p d t)).
  { apply (in_geom_move g p (step p d t) G); auto. intros x Hx O. apply on_bd_segments in O as (sx & Sx & O).
    apply step_seg in Hx as (u & U1 & U2 & ->); [|qlra]. apply (H' sx u Sx); auto; qlra. }
  apply M in Q; [|intros x Hx; now apply H]. destruct Q as (x & Hx & Q). destruct (H t T1 T2 x Hx). tauto.
Qed.

(** ** projecting back *)
Lemma in_ring_range r p (d : point) : r <> [] -> d <> (0, 0) -> ~ on_boundary r p -> in_ring r p ->
  (exists v, In v r /\ dot v d <= dot p d) /\ (exists v, In v r /\ dot p d <= dot v d).
Proof.
  intros N D B I.
  assert (W : wsum p r <> 0%Z).
  { destruct (locate_spec r p N) as (l & E & [(B' & ->)|[(_ & W & ->)|(_ & W & ->)]]); [tauto|exact W|].
    exfalso. destruct (locate_ring r p N B) as [(E' & _)|(_ & NI)]; [congruence|tauto]. }
  assert (K : forall d, d <> (0, 0) -> exists v, In v r /\ dot v d <= dot p d).
  { clear -W B. intros d D.
    assert (X : (exists v, In v r /\ dot v d <= dot p d) \/ forall v, In v r -> dot p d < dot v d).
    { clear. induction r as [|v r [(x & Hx & L)|IH]]; [right; intros ? []|left; exists x; cbn; auto|].
      destruct (qleb_spec (dot v d) (dot p d)) as [L|L]; [left; exists v; cbn; auto|]. right. intros x [<-|Hx]; auto. qlra. }
    destruct X as [X|X]; auto. exfalso. apply W. apply (wsum_convex_outside r p p (vadd p (- snd d, fst d))); auto.
    - intros E. apply D. destruct p as [px py], d as [dx dy]. unfold vadd in E. cbn [fst snd] in E. apply pair_inv in E as (E1 & E2). f_equal; qlra.
    - intros v Hv. specialize (X v Hv). destruct p as [px py], d as [dx dy], v as [vx vy]. unfold orient, cross, vsub, vadd, Plane.dot, Geom2d.dot in *. cbn [fst snd] in *. qlra.
    - destruct p as [px py], d as [dx dy]. unfold orient, cross, vsub, vadd. cbn [fst snd]. qlra. }
  split; [auto|]. destruct (K (- fst d, - snd d)) as (v & Hv & L).
  - intros E. apply D. destruct d as [dx dy]. cbn [fst snd] in E. apply pair_inv in E as (E1 & E2). f_equal; qlra.
  - exists v. split; auto. destruct p as [px py], d as [dx dy], v as [vx vy]. unfold Plane.dot, Geom2d.dot in *. cbn [fst snd] in *. qlra.
Qed.
Lemma fold_qmin l : forall x, fold_left qmin l x <= x /\ (forall y, In y l -> fold_left qmin l x <= y) /\ In (fold_left qmin l x) (x :: l).
Proof.
  induction l as [|z l IH]; intros x; cbn [fold_left]; [repeat split; cbn; auto; [qlra|tauto]|].
  destruct (IH (qmin x z)) as (A & B & C). assert (Q : qmin x z <= x /\ qmin x z <= z /\ (qmin x z = x \/ qmin x z = z)).
  { unfold qmin. destruct (qleb_spec x z); repeat split; auto; qlra. }
  destruct Q as (Q1 & Q2 & Q3). split; [qlra|]. split.
  - intros y [<-|Hy]; auto. qlra.
  - destruct C as [C|C]; [rewrite <- C; destruct Q3 as [-> | ->]; cbn; auto|cbn; auto].
Qed.
Lemma fold_qmax l : forall x, x <= fold_left qmax l x /\ (forall y, In y l -> y <= fold_left qmax l x) /\ In (fold_left qmax l x) (x :: l).
Proof.
  induction l as [|z l IH]; intros x; cbn [fold_left]; [repeat split; cbn; auto; [qlra|tauto]|].
  destruct (IH (qmax x z)) as (A & B & C). assert (Q : x <= qmax x z /\ z <= qmax x z /\ (qmax x z = x \/ qmax x z = z)).
  { unfold qmax. destruct (qleb_spec x z); repeat split; auto; qlra. }
  destruct Q as (Q1 & Q2 & Q3). split; [qlra|]. split.
  - intros y [<-|Hy]; auto. qlra.
  - destruct C as [C|C]; [rewrite <- C; destruct Q3 as [-> | ->]; cbn; auto|cbn; auto].
Qed.
Lemma min_max_ok l : l <> [] -> exists lo hi, min_max l = Ok (lo, hi) /\ (forall y, In y l -> lo <= y /\ y <= hi) /\ In lo l /\ In hi l.
Proof.
  destruct l as [|x l]; [congruence|]. intros _. cbn [min_max]. destruct (fold_qmin l x) as (A1 & B1 & C1), (fold_qmax l x) as (A2 & B2 & C2).
  eexists _, _. split; [reflexivity|]. split; auto. intros y [<-|Hy]; auto.
Qed.
Definition ring_proj (vec : point) (offs : Qc) (s : spwh) (lo hi : Qc) : Prop :=
  min_max (map (fun p => dot p vec + offs) (outer s)) = Ok (lo, hi).
Lemma project_ok g vec offs : is_geom2d g -> exists res, project_to_1d g vec offs = Ok res /\ normal res /\
  forall x, pts res x <-> exists s lo hi, In s g /\ ring_proj vec offs s lo hi /\ lo <= x /\ x < hi.
Proof.
  intros G. unfold project_to_1d. change g_empty with (Ok (@nil iv) : result geom1d). cbn [bind].
  set (F := fun res s => ' (lo, hi) <- min_max (map (fun p => dot p vec + offs) (outer s)) ;; iv <- Geom1D [[NMpq lo; NMpq hi]] ;; g_or res iv).
  enough (K : forall acc, normal acc -> exists res, foldM F g acc = Ok res /\ normal res /\
     forall x, pts res x <-> pts acc x \/ exists s lo hi, In s g /\ ring_proj vec offs s lo hi /\ lo <= x /\ x < hi).
  { destruct (K [] I) as (res & E & N & P). exists res. split; auto. split; auto. intros x. rewrite P. split; [intros [(? & [] & _)|H]; auto|auto]. }
  induction G as [|s g Hs G IH]; intros acc N; cbn [foldM].
  - exists acc. split; auto. split; auto. intros x. split; auto. intros [H|(? & ? & ? & [] & _)]; auto.
  - apply spwh_ok_iff in Hs as ((Ne & _) & _).
    destruct (min_max_ok (map (fun p => dot p vec + offs) (outer s))) as (lo & hi & E & R & I1 & I2).
    { intros X. apply Ne. destruct (outer s); [auto|discriminate]. }
    assert (LH : lo <= hi) by (apply (R hi); auto).
    assert (GE : Geom1D [[NMpq lo; NMpq hi]] = Ok (normalize [(Fin lo, Fin hi)]) /\ valid [(Fin lo, Fin hi)]).
    { assert (C : conv_interval [NMpq lo; NMpq hi] = Ok (Fin lo, Fin hi)).
      { cbn [conv_interval]. unfold py_leb. cbn [pval]. unfold eleb. destruct (qleb_spec lo hi); [reflexivity|contradiction]. }
      destruct (Geom1D_ok [[NMpq lo; NMpq hi]]) as (G1 & G2).
      - intros i [<-|[]]. eauto.
      - cbn [map] in G1, G2. unfold conv_pure in G1, G2. rewrite C in G1, G2. auto. }
    destruct GE as (GE & V). pose proof (normalize_normal _ V) as NN.
    assert (EF : F acc s = Ok (or_pure acc (normalize [(Fin lo, Fin hi)]))).
    { unfold F. rewrite E. cbn [bind]. rewrite GE. cbn [bind]. now apply g_or_ok. }
    rewrite EF. cbn [bind]. destruct (IH (or_pure acc (normalize [(Fin lo, Fin hi)]))) as (res & ER & NR & P); [now apply or_normal|].
    exists res. split; auto. split; auto. intros x. rewrite P, !pts_epts, or_epts, normalize_epts, epts_cons, epts_nil by auto.
    assert (EI : ein (Fin x) (Fin lo, Fin hi) <-> lo <= x /\ x < hi) by (unfold ein; cbn [fst snd]; unfold ele, elt; tauto). rewrite EI. split.
    + intros [[H|[H|[]]]|(s' & l' & h' & H1 & H2)]; auto.
      * right. exists s, lo, hi. cbn. auto.
      * right. exists s', l', h'. cbn. auto.
    + intros [H|(s' & l' & h' & [<-|H1] & H2 & H3)]; auto.
      * unfold ring_proj in H2. rewrite E in H2. injection H2 as <- <-. auto.
      * right. exists s', l', h'. auto.
Qed.

Lemma right_gap w a b : normal w -> bounded1 w -> In (Fin a, Fin b) w ->
  exists eps, 0 < eps /\ forall t, 0 < t -> t <= eps -> forall i, In i w -> elt (Fin (b + t)) (fst i) \/ elt (snd i) (Fin (b + t)).
Proof.
  intros N B I. pose proof (normal_In w _ N I) as L. cbn [fst snd] in L. unfold elt in L.
  destruct (leave_where w N B b) as (sg & eps & S & E & H).
  { intros (i & Hi & I1 & I2). assert (X : (Fin a, Fin b) = i).
    { apply (normal_disjoint w _ _ (Fin b) N); auto; cbn [fst snd]; unfold ele; qlra. }
    subst i. cbn [fst snd] in I2. unfold elt in I2. qlra. }
  destruct S as [->| ->].
  - exists eps. split; auto. intros t T1 T2 i Hi. specialize (H t T1 T2 i Hi). now rewrite Qcmult_1_l in H.
  - exfalso. assert (QQ : qq 1 2 + qq 1 2 = 1) by qlra. set (t := qmin eps (qq 1 2 * (b - a))).
    assert (T : 0 < t /\ t <= eps /\ t <= qq 1 2 * (b - a)) by (unfold t, qmin; destruct (qleb_spec eps (qq 1 2 * (b - a))); repeat split; qlra).
    destruct T as (T1 & T2 & T3). clearbody t. specialize (H t T1 T2 _ I). cbn [fst snd] in H. unfold elt in H. destruct H; qlra.
Qed.
Lemma left_gap w a b : normal w -> bounded1 w -> In (Fin a, Fin b) w ->
  exists eps, 0 < eps /\ forall t, 0 < t -> t <= eps -> forall i, In i w -> elt (Fin (a - t)) (fst i) \/ elt (snd i) (Fin (a - t)).
Proof.
  intros N B I. pose proof (normal_In w _ N I) as L. cbn [fst snd] in L. unfold elt in L.
  destruct (leave_where w N B a) as (sg & eps & S & E & H).
  { intros (i & Hi & I1 & I2). assert (X : (Fin a, Fin b) = i).
    { apply (normal_disjoint w _ _ (Fin a) N); auto; cbn [fst snd]; unfold ele; qlra. }
    subst i. cbn [fst snd] in I1. unfold elt in I1. qlra. }
  destruct S as [->| ->].
  - exfalso. assert (QQ : qq 1 2 + qq 1 2 = 1) by qlra. set (t := qmin eps (qq 1 2 * (b - a))).
    assert (T : 0 < t /\ t <= eps /\ t <= qq 1 2 * (b - a)) by (unfold t, qmin; destruct (qleb_spec eps (qq 1 2 * (b - a))); repeat split; qlra).
    destruct T as (T1 & T2 & T3). clearbody t. specialize (H t T1 T2 _ I). cbn [fst snd] in H. unfold elt in H. destruct H; qlra.
  - exists eps. split; [exact E|]. intros t T1 T2 i Hi. specialize (H t T1 T2 i Hi). replace (a - t) with (a + - (1) * t) by ring. exact H.
Qed.
Lemma cyclic_inv (P : point -> Prop) r h : hd_error r = Some h -> P h -> (forall s, is_edge r s -> P (fst s) -> P (snd s)) -> forall v, In v r -> P v.
Proof.
  intros Hh P0 ST. assert (K : forall i v, nth_error r i = Some v -> P v).
  { induction i as [|i IH]; intros v Hv.
    - destruct r; [discriminate|]. cbn in Hh, Hv. congruence.
    - destruct (nth_error r i) as [u|] eqn:E.
      + assert (L : (S i < length r)%nat) by (apply nth_error_Some; congruence).
        apply (ST (u, v)); [|exact (IH u eq_refl)]. exists i. split; [lia|]. split; auto. cbn [snd].
        destruct (Nat.eqb_spec (S i) (length r)); [lia|auto].
      + apply nth_error_None in E. assert (L : (S i < length r)%nat) by (apply nth_error_Some; congruence). lia. }
  intros v Hv. apply In_nth_error in Hv as (i & Hi). eauto.
Qed.
Lemma cross_value (f : point -> Qc) (p q : point) c : (forall t, f (at_t (p, q) t) = f p + t * (f q - f p)) ->
  (f p <= c /\ c < f q) \/ (f q < c /\ c <= f p) -> exists x, on_seg (p, q) x /\ f x = c.
Proof.
  intros L H. assert (N : f q - f p <> 0) by (intros E; destruct H as [(? & ?)|(? & ?)]; qlra).
  pose proof (qdiv_mul (c - f p) (f q - f p) N) as D. set (t := (c - f p) / (f q - f p)) in *. clearbody t.
  exists (at_t (p, q) t). split; [|rewrite L; qlra]. exists t. destruct H as [(H1 & H2)|(H1 & H2)]; repeat split; auto; try (destruct (qleb_spec 0 t); [auto|exfalso; qnra]); destruct (qleb_spec t 1); auto; exfalso; qnra.
Qed.
Lemma right_open w x : normal w -> ~ pts w x -> exists eps, 0 < eps /\ forall t, 0 <= t -> t <= eps -> ~ pts w (x + t).
Proof.
  intros N NP. rewrite pts_epts in NP. apply (inv_epts w (Fin x) N I) in NP. destruct NP as ((a & b) & Hi & H1 & H2). cbn [fst snd] in *.
  assert (K : exists eps, 0 < eps /\ forall t, 0 <= t -> t <= eps -> ein (Fin (x + t)) (a, b)).
  { unfold ein. cbn [fst snd]. assert (A : forall t, 0 <= t -> ele a (Fin (x + t))).
    { intros t T. eapply ele_trans; [exact H1|]. unfold ele. qlra. }
    destruct b as [|b|]; [destruct H2| |exists 1; split; [qlra|]; intros t T _; split; [auto|exact I]].
    unfold elt in *. assert (QQ : qq 1 2 + qq 1 2 = 1) by qlra. exists (qq 1 2 * (b - x)). split; [qlra|]. intros t T1 T2. split; auto. qlra. }
  destruct K as (eps & E & K). exists eps. split; auto. intros t T1 T2 P. rewrite pts_epts in P.
  revert P. apply (inv_epts w (Fin (x + t)) N I). exists (a, b). auto.
Qed.
Lemma project_fingers A s w g : arr_sound A -> frame_ok s -> dot (is_dir s) (is_dir s) = 1 -> is_min s <> is_max s -> normal w ->
  make_fingers01 A s w = Ok g -> is_project_to_1d s g = Ok w.
Proof.
  intros SA F D1 NM N H.
  assert (O0 : offset_at s 0 = is_min s) by (unfold offset_at; ring). assert (O1 : offset_at s 1 = is_max s) by (unfold offset_at; ring).
  destruct (make_fingers_ok A s w 0 1 g SA F) as (G & B & P1 & P2 & gs & FO & (_ & BD & M)); auto; [congruence|]. rewrite O0, O1 in FO.
  assert (AL : forall p, dot p (is_dir s) + - is_offs s = along s p).
  { intros p. unfold along. rewrite D1. rewrite <- (qdiv_mul (dot p (is_dir s)) 1) at 1 by discriminate. ring. }
  destruct (project_ok g (is_dir s) (- is_offs s) G) as (res & E & NR & PR). unfold is_project_to_1d. rewrite E. f_equal.
  apply normal_canonical; auto. intros x. rewrite PR.
  assert (RP : forall s0 lo hi, In s0 g -> ring_proj (is_dir s) (- is_offs s) s0 lo hi ->
     (forall v, In v (outer s0) -> lo <= along s v /\ along s v <= hi) /\ (exists v, In v (outer s0) /\ along s v = lo) /\ (exists v, In v (outer s0) /\ along s v = hi)).
  { intros s0 lo hi Hs R. unfold ring_proj in R. destruct (min_max_ok (map (fun p => dot p (is_dir s) + - is_offs s) (outer s0))) as (lo' & hi' & E' & R1 & R2 & R3).
    - intros X. unfold is_geom2d in G. rewrite Forall_forall in G. apply G, spwh_ok_iff in Hs as ((Ne & _) & _). apply Ne. destruct (outer s0); [auto|discriminate].
    - rewrite E' in R. injection R as -> ->. split.
      + intros v Hv. rewrite <- AL. apply R1. apply in_map_iff. exists v. auto.
      + apply in_map_iff in R2 as (v1 & V1 & I1), R3 as (v2 & V2 & I2). rewrite AL in V1, V2. split; eauto. }
  split.
  - intros (s0 & lo & hi & Hs & R & L1 & L2). destruct (RP s0 lo hi Hs R) as (RA & (v1 & I1 & E1) & (v2 & I2 & E2)).
    assert (ON : forall e y, is_edge (outer s0) e -> on_seg e y -> exists a b, In (Fin a, Fin b) w /\ a <= along s y /\ along s y <= b).
    { intros e y He Hy. assert (Y : on_bd g y) by (exists (outer s0); split; [exists s0; auto|exists e; auto]). specialize (BD y Y).
      assert (Z : exists gi, In gi gs /\ on_bd gi y).
      { clear -BD FO. unfold off_all in BD. assert (DC : forall gi, In gi gs -> on_bd gi y \/ ~ on_bd gi y).
        { intros gi Hgi. destruct (fingers_in _ _ _ _ _ gi FO Hgi) as (a & b & _ & _ & FS). destruct (proj2 FS y) as (X & _). rewrite X.
          assert (W : forall a x b, weakly_between a x b \/ ~ weakly_between a x b).
          { clear. intros a x b. unfold weakly_between. destruct (qleb_spec a x), (qleb_spec x b), (qleb_spec b x), (qleb_spec x a); tauto. }
          assert (S : forall a x b, strictly_between a x b \/ ~ strictly_between a x b).
          { clear. intros a x b. unfold strictly_between. destruct (qltb_spec a x), (qltb_spec x b), (qltb_spec b x), (qltb_spec x a); tauto. }
          destruct (W a (along s y) b), (W (is_min s) (across s y) (is_max s)), (S a (along s y) b), (S (is_min s) (across s y) (is_max s)); tauto. }
        clear FO. induction gs as [|gi gs IH]; [exfalso; apply BD; intros ? []|].
        destruct (DC gi) as [X|X]; [left; auto|exists gi; cbn; auto|]. destruct IH as (gj & Hj & X'); [| |exists gj; cbn; auto].
        - intros K. apply BD. intros gk [<-|Hk]; auto.
        - intros gk Hk. apply DC. right; auto. }
      destruct Z as (gi & Hgi & Z). destruct (fingers_in _ _ _ _ _ gi FO Hgi) as (a & b & I & L & FS). destruct (proj2 FS y) as (X & _).
      destruct (proj1 X Z) as ((W & _) & _). exists a, b. split; auto. unfold weakly_between in W. destruct W as [(? & ?)|(? & ?)]; split; qlra. }
    assert (LIN : forall p q t, along s (at_t (p, q) t) = along s p + t * (along s q - along s p)).
    { intros [p0 p1] [q0 q1] t. rewrite <- !AL. unfold at_t, vadd, vscale, vsub, Plane.dot, Geom2d.dot. cbn [fst snd]. ring. }
    destruct (outer s0) as [|h r] eqn:EO; [destruct I1|].
    assert (HE : exists e, is_edge (h :: r) e /\ fst e = h).
    { exists (h, match r with [] => h | k :: _ => k end). split; auto. exists 0%nat. split; [cbn; lia|]. split; auto. cbn. destruct r; reflexivity. }
    destruct HE as ((h' & k) & He & X). cbn [fst] in X. subst h'. destruct (ON (h, k) h He) as (a & b & I & A1 & A2); [apply on_seg_end|].
    assert (UP : forall v, In v (h :: r) -> along s v <= b).
    { apply (cyclic_inv (fun v => along s v <= b) (h :: r) h eq_refl A2). intros (p & q) Hpq Hp. cbn [fst snd] in *.
      destruct (qleb_spec (along s q) b) as [|C]; auto. exfalso. destruct (right_gap w a b N B I) as (eps & Ep & Gp).
      set (t := qmin eps (qq 1 2 * (along s q - b))). assert (QQ : qq 1 2 + qq 1 2 = 1) by qlra.
      assert (T : 0 < t /\ t <= eps /\ t <= qq 1 2 * (along s q - b)) by (unfold t, qmin; destruct (qleb_spec eps (qq 1 2 * (along s q - b))); repeat split; qlra).
      destruct T as (T1 & T2 & T3). clearbody t. destruct (cross_value (along s) p q (b + t)) as (y & Hy & Ey); [intros; apply LIN|left; split; qlra|].
      destruct (ON (p, q) y Hpq Hy) as (a' & b' & I' & A1' & A2'). specialize (Gp t T1 T2 _ I'). cbn [fst snd] in Gp. unfold elt in Gp. rewrite Ey in *. destruct Gp; qlra. }
    assert (DN : forall v, In v (h :: r) -> a <= along s v).
    { apply (cyclic_inv (fun v => a <= along s v) (h :: r) h eq_refl A1). intros (p & q) Hpq Hp. cbn [fst snd] in *.
      destruct (qleb_spec a (along s q)) as [|C]; auto. exfalso. destruct (left_gap w a b N B I) as (eps & Ep & Gp).
      set (t := qmin eps (qq 1 2 * (a - along s q))). assert (QQ : qq 1 2 + qq 1 2 = 1) by qlra.
      assert (T : 0 < t /\ t <= eps /\ t <= qq 1 2 * (a - along s q)) by (unfold t, qmin; destruct (qleb_spec eps (qq 1 2 * (a - along s q))); repeat split; qlra).
      destruct T as (T1 & T2 & T3). clearbody t. destruct (cross_value (along s) p q (a - t)) as (y & Hy & Ey); [intros; apply LIN|right; split; qlra|].
      destruct (ON (p, q) y Hpq Hy) as (a' & b' & I' & A1' & A2'). specialize (Gp t T1 T2 _ I'). cbn [fst snd] in Gp. unfold elt in Gp. rewrite Ey in *. destruct Gp; qlra. }
    exists (Fin a, Fin b). split; auto. unfold in_iv. cbn [fst snd]. unfold ele, elt. specialize (DN v1 I1). specialize (UP v2 I2). split; qlra.
  - intros Hx. destruct Hx as (i & Hi & X1 & X2). destruct (B i Hi) as (a & b & ->). cbn [fst snd] in *. unfold ele, elt in X1, X2.
    assert (DP : pts res x \/ ~ pts res x) by (rewrite pts_epts; apply epts_dec). destruct DP as [P|P]; [now apply PR|exfalso].
    destruct (right_open res x NR P) as (eps & Ep & Q).
    set (his := map (fun s0 => match min_max (map (fun p => dot p (is_dir s) + - is_offs s) (outer s0)) with Ok (_, hi) => hi - x | Err _ => 0 end) g).
    assert (QQ : qq 1 2 + qq 1 2 = 1) by qlra.
    destruct (small_avoid his (qmin eps (qq 1 2 * (b - x)))) as (t & T1 & T2 & T3); [unfold qmin; destruct (qleb_spec eps (qq 1 2 * (b - x))); qlra|].
    assert (T4 : t <= eps /\ t <= qq 1 2 * (b - x)) by (revert T2; unfold qmin; destruct (qleb_spec eps (qq 1 2 * (b - x))); intros; split; qlra).
    destruct T4 as (T4 & T5). clear T2. set (v := qq 1 2 * (is_min s + is_max s)). set (p := Xs s (x + t, v)).
    destruct (frame_co s (x + t) v F) as (C1 & C2). fold p in C1, C2.
    assert (IB : in_band s w 0 1 p).
    { split; rewrite ?C1, ?C2, ?O0, ?O1.
      - exists (Fin a, Fin b). cbn [fst snd]. unfold elt. repeat split; auto; qlra.
      - unfold strictly_between, v. destruct (qc_not_eq _ _ NM); [left|right]; split; qlra. }
    destruct (P1 p IB) as (NB & (s0 & Hs & IR & _)).
    assert (Ne : outer s0 <> []). { unfold is_geom2d in G. rewrite Forall_forall in G. now apply G, spwh_ok_iff in Hs as ((Ne & _) & _). }
    destruct (in_ring_range (outer s0) p (is_dir s) Ne (proj1 F)) as ((v1 & V1 & L1) & (v2 & V2 & L2)); auto.
    { intros X. apply NB. exists (outer s0). split; auto. exists s0. auto. }
    destruct (min_max_ok (map (fun p => dot p (is_dir s) + - is_offs s) (outer s0))) as (lo & hi & EM & _); [intros X; apply Ne; destruct (outer s0); [auto|discriminate]|].
    destruct (RP s0 lo hi Hs EM) as (RA & _ & _).
    pose proof (AL v1) as Z1. pose proof (AL v2) as Z2. pose proof (AL p) as Z3. rewrite C1 in Z3. destruct (RA v1 V1) as (R1 & _), (RA v2 V2) as (_ & R2).
    assert (NH : x + t <> hi). { intros X. apply T3. unfold his. apply in_map_iff. exists s0. rewrite EM. split; auto. qlra. }
    apply (Q t); [qlra|qlra|]. apply PR. exists s0, lo, hi. split; auto. split; auto. destruct (qc_not_eq _ _ NH); split; qlra.
Qed.
