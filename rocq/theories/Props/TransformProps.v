(** * Property C82: transforming a Geom2D. *)
From Verif.Model Require Import Geom2d.
From Verif.Spec Require Import Plane Region Area.
From Verif.Proofs Require Import PyP PolyP WindingP WindingQ WindingR NearP AreaP FlatP Geom2dP Geom2dOps.
From Verif.Props Require Import Primitive2dProps LocateProps Geom2dProps AreaProps.

(** an affine map of the plane *)
Record affine := mkAff { m11 : Qc; m12 : Qc; m21 : Qc; m22 : Qc; t1 : Qc; t2 : Qc }.
Definition aff (m : affine) (p : point) : point := (m11 m * fst p + m12 m * snd p + t1 m, m21 m * fst p + m22 m * snd p + t2 m).
Definition det (m : affine) : Qc := m11 m * m22 m - m12 m * m21 m.

Section Aff.
Variable m : affine.
Hypothesis D : det m <> 0.
Notation A := (aff m).
Lemma aff_orient a b c : orient (A a) (A b) (A c) = det m * orient a b c.
Proof. unfold orient, cross, vsub, aff, det. cbn [fst snd]. ring. Qed.
Lemma aff_onto q : exists p, A p = q.
Proof.
  destruct q as [x y]. exists ((m22 m * (x - t1 m) - m12 m * (y - t2 m)) / det m, (m11 m * (y - t2 m) - m21 m * (x - t1 m)) / det m).
  unfold aff. cbn [fst snd]. unfold det in *. f_equal; field; auto.
Qed.
Lemma aff_inj p q : A p = A q -> p = q.
Proof.
  destruct p as [x y], q as [u v]. unfold aff. cbn [fst snd]. intros E. apply pair_inv in E as (E1 & E2).
  assert (X : det m * (x - u) = 0) by (unfold det; replace ((m11 m * m22 m - m12 m * m21 m) * (x - u)) with (m22 m * (m11 m * x + m12 m * y + t1 m - (m11 m * u + m12 m * v + t1 m)) - m12 m * (m21 m * x + m22 m * y + t2 m - (m21 m * u + m22 m * v + t2 m))) by ring; rewrite E1, E2; ring).
  assert (Y : det m * (y - v) = 0) by (unfold det; replace ((m11 m * m22 m - m12 m * m21 m) * (y - v)) with (m11 m * (m21 m * x + m22 m * y + t2 m - (m21 m * u + m22 m * v + t2 m)) - m21 m * (m11 m * x + m12 m * y + t1 m - (m11 m * u + m12 m * v + t1 m))) by ring; rewrite E1, E2; ring).
  apply Qcmult_integral in X as [X|X]; [contradiction|]. apply Qcmult_integral in Y as [Y|Y]; [contradiction|]. f_equal; qlra.
Qed.
Lemma aff_seg a b p : on_seg (A a, A b) (A p) <-> on_seg (a, b) p.
Proof.
  assert (E : forall t, at_t (A a, A b) t = A (at_t (a, b) t)) by (intros t; unfold at_t, aff, vadd, vscale, vsub; cbn [fst snd]; f_equal; ring).
  split; intros (t & T0 & T1 & H); exists t; (split; [auto|split; [auto|]]).
  - apply aff_inj. now rewrite <- E.
  - now rewrite E, H.
Qed.
Lemma combine_map {X Y} (f : X -> Y) l k : combine (map f l) (map f k) = map (fun s => (f (fst s), f (snd s))) (combine l k).
Proof. revert k. induction l as [|x l IH]; intros [|y k]; cbn; auto. now rewrite IH. Qed.
Lemma aff_pairs r : cyclic_pairs (map A r) = map (fun s => (A (fst s), A (snd s))) (cyclic_pairs r).
Proof. destruct r as [|a r]; [reflexivity|]. cbn [map cyclic_pairs]. rewrite <- combine_map. cbn [map]. now rewrite map_app. Qed.
Lemma aff_bd r p : on_boundary (map A r) (A p) <-> on_boundary r p.
Proof.
  unfold on_boundary. split; intros (s & S & O).
  - apply is_edge_iter in S. change edges_iter with cyclic_pairs in S. rewrite aff_pairs in S. apply in_map_iff in S as ([a b] & <- & S). exists (a, b). split; [now apply is_edge_iter|]. now apply aff_seg.
  - apply is_edge_iter in S. destruct s as [a b]. exists (A a, A b). split; [|now apply aff_seg]. apply is_edge_iter. change edges_iter with cyclic_pairs. rewrite aff_pairs. apply in_map_iff. exists (a, b). auto.
Qed.
Lemma sgn_mult q : sgn (det m * q) = (sgn (det m) * sgn q)%Z.
Proof.
  destruct (sgn_cases (det m)) as [(H & ->)|[(H & _)|(H & ->)]]; [|contradiction|];
    destruct (sgn_cases q) as [(K & ->)|[(-> & _)|(K & ->)]]; rewrite ?Qcmult_0_r; try reflexivity; [rewrite sgn_pos|rewrite sgn_neg|rewrite sgn_neg|rewrite sgn_pos]; try reflexivity; qnra.
Qed.
Lemma aff_tri a b c p : tri_ind (A a) (A b) (A c) (A p) = (sgn (det m) * tri_ind a b c p)%Z.
Proof.
  unfold tri_ind. rewrite !aff_orient, !sgn_mult. destruct (sgn_cases (det m)) as [(H & ->)|[(H & _)|(H & ->)]]; [|contradiction|].
  - rewrite !Z.mul_1_l. destruct (_ && _)%bool; lia.
  - destruct (Z.eqb_spec (-1 * sgn (orient a b p)) (-1 * sgn (orient b c p))), (Z.eqb_spec (-1 * sgn (orient a b p)) (-1 * sgn (orient c a p))),
      (Z.eqb_spec (sgn (orient a b p)) (sgn (orient b c p))), (Z.eqb_spec (sgn (orient a b p)) (sgn (orient c a p))); cbn [andb]; lia.
Qed.
Lemma aff_winding r p w : winding_number r p w -> winding_number (map A r) (A p) (sgn (det m) * w).
Proof.
  intros (o & G & ->). exists (A o). split.
  - intros v V. apply in_map_iff in V as (u & <- & U). rewrite aff_seg. now apply G.
  - unfold fan_winding. rewrite aff_pairs, zsum_map, <- zsum_scale. apply zsum_ext. intros s _. cbn [fst snd]. symmetry. apply aff_tri.
Qed.
Lemma aff_area r : r <> [] -> area_of (map A r) = det m * area_of r.
Proof.
  intros N. rewrite (area_of_fan (A (0, 0)) (map A r)), (area_of_fan (0, 0) r). unfold fan2. rewrite aff_pairs, qsum_map.
  rewrite (qsum_ext (fun s => orient (A (0, 0)) (fst (A (fst s), A (snd s))) (snd (A (fst s), A (snd s)))) (fun s => det m * orient (0, 0) (fst s) (snd s))).
  - rewrite qsum_scale. ring.
  - intros s _. cbn [fst snd]. apply aff_orient.
Qed.
(** what becomes of a ring *)
Definition moved (r : list point) : list point := if qltb (det m) 0 then rev (map A r) else map A r.
Lemma fpoly_aff r : ring_ok r -> fpoly (map A) r = Ok (moved r) /\ ring_ok (moved r) /\ area_of (moved r) = qabs (det m) * area_of r.
Proof.
  intros (N & P & E). assert (NM : map A r <> []) by (destruct r; [congruence|discriminate]).
  assert (AM : area_of (moved r) = qabs (det m) * area_of r).
  { unfold moved, qabs. destruct (qltb_spec (det m) 0), (qleb_spec 0 (det m)); try (exfalso; qlra); rewrite ?area_rev, aff_area by auto; ring. }
  split; [|split; [split; [|split]|auto]].
  - unfold fpoly. rewrite area_ok by auto. cbn [bind]. rewrite aff_area by auto. unfold moved.
    destruct (qltb_spec (det m) 0), (qltb_spec (det m * area_of r) 0); auto; exfalso; destruct (qc_not_eq _ _ D); qnra.
  - unfold moved. destruct (qltb _ _); auto. intros X. apply NM. rewrite <- (rev_involutive (map A r)), X. reflexivity.
  - rewrite AM. unfold qabs. destruct (qc_not_eq _ _ D), (qleb_spec 0 (det m)); qnra.
  - assert (EM : forall s, is_edge (map A r) s -> fst s <> snd s).
    { intros s S. apply is_edge_iter in S. change edges_iter with cyclic_pairs in S. rewrite aff_pairs in S. apply in_map_iff in S as ([a b] & <- & S). cbn [fst snd]. intros X. apply aff_inj in X. apply (E (a, b)); [now apply is_edge_iter|exact X]. }
    unfold moved. destruct (qltb _ _); auto. intros s S X. apply is_edge_rev in S. apply (EM _ S). cbn. auto.
Qed.
Lemma moved_bd r p : on_boundary (moved r) (A p) <-> on_boundary r p.
Proof.
  rewrite <- (aff_bd r p). unfold moved. destruct (qltb _ _); [|tauto]. split; intros (s & S & O).
  - apply is_edge_rev in S. exists (snd s, fst s). split; auto. destruct s. now apply on_seg_sym.
  - exists (snd s, fst s). split; [apply is_edge_rev; destruct s; exact S|]. destruct s. now apply on_seg_sym.
Qed.
Lemma moved_wsum r p : r <> [] -> ~ on_boundary r p -> wsum (A p) (moved r) = wsum p r.
Proof.
  intros N B. destruct (locate_winding r p N B) as (w & W & _). assert (NM : map A r <> []) by (destruct r; [congruence|discriminate]).
  assert (BM : ~ on_boundary (map A r) (A p)) by now rewrite aff_bd. pose proof (proj1 (wind_wsum _ _ _ NM BM) (aff_winding r p w W)) as H. apply wind_wsum in W; auto.
  unfold moved. destruct (sgn_cases (det m)) as [(K & S)|[(K & _)|(K & S)]]; [|contradiction|]; rewrite S in H; destruct (qltb_spec (det m) 0); try (exfalso; qlra); rewrite ?wsum_rev; lia.
Qed.
Lemma moved_ne r : r <> [] -> moved r <> [].
Proof.
  intros N X. unfold moved in X. destruct r as [|a r]; [congruence|]. destruct (qltb _ _); [|discriminate].
  apply (f_equal (@rev point)) in X. rewrite rev_involutive in X. discriminate.
Qed.
Lemma moved_winding r p w : r <> [] -> ~ on_boundary r p -> (winding_number (moved r) (A p) w <-> winding_number r p w).
Proof.
  intros N B. pose proof (moved_ne r N) as N'. assert (B' : ~ on_boundary (moved r) (A p)) by (intros X; apply B; exact (proj1 (moved_bd r p) X)).
  rewrite (wind_wsum r p w N B), (wind_wsum (moved r) (A p) w N' B'), moved_wsum by auto. tauto.
Qed.
Lemma moved_locate r p : ring_ok r -> locate_point_polygon_winding_number (moved r) (A p) = locate_point_polygon_winding_number r p.
Proof.
  intros R. pose proof (proj1 R) as N. pose proof (proj1 (proj1 (proj2 (fpoly_aff r R)))) as NM.
  destruct (locate_zero_iff_boundary r p N) as (Z1 & v & V & _). destruct (locate_zero_iff_boundary (moved r) (A p) NM) as (Z2 & v' & V' & _).
  destruct (Z.eq_dec v 0) as [->|Nv].
  - rewrite V. apply Z2, moved_bd, Z1, V.
  - assert (B : ~ on_boundary r p) by (intros X; apply Z1 in X; congruence). assert (BM : ~ on_boundary (moved r) (A p)) by now rewrite moved_bd.
    destruct (locate_winding r p N B) as (w & W & _ & ->). destruct (locate_winding (moved r) (A p) NM BM) as (w' & W' & U & ->). now rewrite <- (U w (proj2 (moved_winding r p w N B) W)).
Qed.
Definition moved_spwh (s : spwh) : spwh := mkSpwh (moved (outer s)) (map moved (holes s)).
Lemma moved_spwh_ok s : spwh_ok s -> spwh_transformed_with (map A) s = Ok (moved_spwh s) /\ spwh_ok (moved_spwh s).
Proof.
  intros S. apply spwh_ok_iff in S as (O & H). destruct (fpoly_aff _ O) as (F1 & F2 & _).
  assert (HM : mapM (fpoly (map A)) (holes s) = Ok (map moved (holes s)) /\ Forall ring_ok (map moved (holes s))).
  { induction H as [|h hs Hh H (I1 & I2)]; [split; [reflexivity|constructor]|]. destruct (fpoly_aff _ Hh) as (E1 & E2 & _). cbn [mapM map]. rewrite E1. cbn [bind]. rewrite I1. cbn [bind]. split; auto. }
  destruct HM as (H1 & H2). assert (K : spwh_ok (moved_spwh s)) by (apply spwh_ok_iff; cbn; auto).
  split; auto. unfold spwh_transformed_with. rewrite F1. cbn [bind]. rewrite H1. cbn [bind]. exact K.
Qed.
Lemma moved_area s : spwh_ok s -> poly_area (moved_spwh s) = qabs (det m) * poly_area s.
Proof.
  intros S. apply spwh_ok_iff in S as (O & H). unfold poly_area, moved_spwh. cbn [outer holes]. rewrite (proj2 (proj2 (fpoly_aff _ O))).
  assert (E : qsum area_of (map moved (holes s)) = qabs (det m) * qsum area_of (holes s)); [|rewrite E; ring].
  induction H as [|h hs Hh H IH]; [cbn; ring|]. cbn [map qsum]. rewrite IH, (proj2 (proj2 (fpoly_aff _ Hh))). ring.
Qed.
Lemma moved_spwh_locate s p : spwh_ok s -> spwh_locate (moved_spwh s) (A p) = spwh_locate s p.
Proof.
  intros S. apply spwh_ok_iff in S as (O & H). unfold spwh_locate, moved_spwh. cbn [outer holes]. rewrite moved_locate by auto.
  assert (E : locate_holes (map moved (holes s)) (A p) = locate_holes (holes s) p); [|now rewrite E].
  induction H as [|h hs Hh H IH]; [reflexivity|]. cbn [map locate_holes]. now rewrite moved_locate, IH.
Qed.
End Aff.

Lemma mapM_out {X Y} (f : X -> result Y) (g : X -> Y) l : Forall (fun x => f x = Ok (g x)) l -> mapM f l = Ok (map g l).
Proof. induction 1 as [|x l H F IH]; [reflexivity|]. cbn [mapM map]. rewrite H. cbn [bind]. now rewrite IH. Qed.
Theorem transformed_affine : forall m g, is_geom2d g ->
  (det m <> 0 -> exists r, g2_transformed_with (map (aff m)) g = Ok r /\ is_geom2d r /\ length r = length g /\
    (forall x, g2_area g = Ok x -> g2_area r = Ok (qabs (det m) * x)) /\
    (forall p, g2_locate r (aff m p) = g2_locate g p) /\ (forall q, exists p, aff m p = q) /\
    (flat g -> flat r)) /\
  (det m = 0 -> g <> [] -> g2_transformed_with (map (aff m)) g = Err AssertionError).
Proof.
  intros m g G. split.
  - intros D. exists (map (moved_spwh m) g). assert (Gr : is_geom2d (map (moved_spwh m) g)).
    { unfold is_geom2d. apply Forall_forall. intros s S. apply in_map_iff in S as (s' & <- & S). unfold is_geom2d in G. rewrite Forall_forall in G. apply moved_spwh_ok; auto. }
    split; [apply mapM_out; eapply Forall_impl; [|exact G]; intros s S; now apply moved_spwh_ok|]. split; auto. split; [apply map_length|].
    split; [|split; [|split; [now apply aff_onto|]]].
    + intros x X. apply area_val in X; auto. rewrite g2_area_ok by auto. f_equal. rewrite qsum_map, X, <- qsum_scale. clear X Gr. induction G as [|s g S G IH]; [reflexivity|]. cbn [qsum]. now rewrite IH, moved_area.
    + intros p. destruct G as [|s g S G]; [reflexivity|]. cbn [map g2_locate]. rewrite moved_spwh_locate by auto.
      assert (E : mapM (fun s0 => spwh_locate s0 (aff m p)) (map (moved_spwh m) g) = mapM (fun s0 => spwh_locate s0 p) g); [|now rewrite E].
      clear S Gr. induction G as [|s' g S G IH]; [reflexivity|]. cbn [map mapM]. now rewrite moved_spwh_locate, IH.
    + intros F. rewrite (flat_wch _ Gr). rewrite (flat_wch _ G) in F. intros q Bq. destruct (aff_onto m D q) as (p & <-).
      assert (RI : forall r, ring_of g r -> ring_of (map (moved_spwh m) g) (moved m r)).
      { intros r (s & S & R). exists (moved_spwh m s). split; [now apply in_map|]. cbn. destruct R as [->|R]; [now left|right; now apply in_map]. }
      assert (B : ~ on_bd g p) by (intros (r & R & Bd); apply Bq; exists (moved m r); split; [now apply RI|now apply moved_bd]).
      assert (RW : forall r, ring_of g r -> wsum (aff m p) (moved m r) = wsum p r).
      { intros r R. apply moved_wsum; auto; [exact (proj1 (proj1 (is_geom2d_rings g) G r R))|]. intros Bd. apply B. exists r. auto. }
      assert (W : wch (chain (map (moved_spwh m) g)) (aff m p) = wch (chain g) p).
      { rewrite !chain_wch, zsum_map. apply zsum_ext. intros s S. cbn [moved_spwh outer holes]. rewrite zsum_map, RW by (exists s; auto). f_equal. apply zsum_ext. intros h H. apply RW. exists s. auto. }
      assert (I : in_geom (map (moved_spwh m) g) (aff m p) <-> in_geom g p).
      { assert (RI2 : forall r, ring_of g r -> (in_ring (moved m r) (aff m p) <-> in_ring r p)).
        { intros r R. assert (N : r <> []) by exact (proj1 (proj1 (is_geom2d_rings g) G r R)). assert (Br : ~ on_boundary r p) by (intros Bd; apply B; exists r; auto).
          split; intros (w & Ww & Nw); exists w; (split; [|exact Nw]); now apply (moved_winding m D r p w N Br). }
        split.
        - intros (s & S & O & H). apply in_map_iff in S as (s' & <- & S). exists s'. split; auto. split; [apply RI2; [exists s'; auto|exact O]|].
          intros h Hh X. apply (H (moved m h)); [cbn; now apply in_map|]. apply RI2; [exists s'; auto|exact X].
        - intros (s & S & O & H). exists (moved_spwh m s). split; [now apply in_map|]. split; [cbn; apply RI2; [exists s; auto|exact O]|].
          cbn. intros h' Hh X. apply in_map_iff in Hh as (h & <- & Hh). apply (H h Hh). apply RI2; [exists s; auto|exact X]. }
      rewrite W, I. now apply F.
  - intros D N. destruct G as [|s g S G]; [congruence|]. unfold g2_transformed_with. cbn [mapM]. apply spwh_ok_iff in S as (O & H).
    assert (A0 : forall r, ring_ok r -> area_of (map (aff m) r) = 0) by (intros r (Nr & _); rewrite aff_area, D by auto; ring).
    assert (FP : forall r, ring_ok r -> fpoly (map (aff m)) r = Ok (map (aff m) r)).
    { intros r R. unfold fpoly. rewrite area_ok by (pose proof (proj1 R); destruct r; [congruence|discriminate]). cbn [bind]. rewrite A0 by auto. reflexivity. }
    assert (E : spwh_transformed_with (map (aff m)) s = Err AssertionError); [|now rewrite E].
    unfold spwh_transformed_with. rewrite FP by auto. cbn [bind]. rewrite (mapM_out _ (map (aff m))) by (eapply Forall_impl; [|exact H]; intros; now apply FP). cbn [bind].
    unfold Simple_Polygon_With_Holes, check_no_dups, passert. destruct (forallb _ _); cbn [bind]; [|reflexivity]. rewrite area_ok by (pose proof (proj1 O); destruct (outer s); [congruence|discriminate]). cbn [bind]. rewrite A0 by auto. reflexivity.
Qed.
Print Assumptions transformed_affine.
(** a reflection and scaling of a square with a hole and an island *)
Example transformed_ex : let m := mkAff (zq (-2)) 0 0 1 (zq 3) 0 in det m <> 0 /\
  (r <- g2_transformed_with (map (aff m)) nested ;; a <- g2_area r ;; l <- mapM (g2_locate r) (map (aff m) [(zq 5, zq 50); (zq 30, zq 50); (zq 50, zq 50)]) ;; Ok (a, l)) = Ok (zq 8000, [1; -1; 1]%Z).
Proof. split; [discriminate|vm_compute; reflexivity]. Qed.
