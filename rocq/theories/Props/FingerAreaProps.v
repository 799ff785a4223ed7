(** * Areas of fingers and the clearance of joints: C99, C100. *)
From Verif.Spec Require Import Plane Region PointSet1 Fingers Area.
From Verif.Model Require Import Arrangement2d Geom2d Geom1d Sheetplex Sheetbuild Canned.
From Verif.Proofs Require Import PyP PolyP WindingP WindingQ WindingR NearP PlanarP CoverP ExtOrd DictP Geom1dP Geom1dM AreaP LevelP FlatP ArrSoundP Geom2dP Geom2dOps SheetplexP FingerP SheetbuildP CreateP HeuristicsP ClusterP HeuStepsP.
From Verif.Props Require Import Geom1dProps Primitive2dProps LocateProps Geom2dProps SetOpsProps AreaProps TransformProps SheetplexProps SheetbuildProps CannedProps JointProps.
From Coq Require Import String Permutation.
Open Scope Qc_scope.

(** ** one finger *)
Definition frame_map (s : interside) : affine :=
  mkAff (fst (is_dir s)) (fst (is_normal s)) (snd (is_dir s)) (snd (is_normal s)) (is_offs s * fst (is_dir s)) (is_offs s * snd (is_dir s)).
Lemma frame_map_Xs s uv : aff (frame_map s) uv = Xs s uv.
Proof. unfold aff, frame_map, Xs, padd, pscale. cbn [m11 m12 m21 m22 t1 t2]. destruct uv as [u v]. cbn [fst snd]. f_equal; ring. Qed.
Lemma frame_det s : rot_ok s -> det (frame_map s) = - Geom2d.dot (is_dir s) (is_dir s).
Proof. intros R. unfold det, frame_map, Geom2d.dot. cbn [m11 m12 m21 m22]. rewrite R. cbn [fst snd]. ring. Qed.
Lemma box_ring x0 y0 x1 y1 : x0 <> x1 -> y0 <> y1 -> let r := if qltb ((x1 - x0) * (y1 - y0)) 0 then rev (box x0 y0 x1 y1) else box x0 y0 x1 y1 in
  ring_ok r /\ area_of r = qabs ((x1 - x0) * (y1 - y0)) /\ forall p, ~ on_boundary r p -> wsum p r = 2%Z \/ wsum p r = 0%Z.
Proof.
  intros NX NY. cbv zeta. pose proof (box_area x0 y0 x1 y1) as BA.
  assert (ND : forall s, is_edge (box x0 y0 x1 y1) s -> fst s <> snd s).
  { intros s Hs. apply box_edges in Hs. destruct Hs as [->|[->|[->| ->]]]; cbn [fst snd]; intros E; apply pair_inv in E as (E1 & E2); congruence. }
  assert (NZ : (x1 - x0) * (y1 - y0) <> 0) by (intros E; apply Qcmult_integral in E as [E|E]; [apply NX|apply NY]; qlra).
  set (b := box x0 y0 x1 y1) in *. set (q := (x1 - x0) * (y1 - y0)) in *. assert (BW : forall p, ~ on_boundary b p -> wsum p b = 0%Z \/ (wsum p b = 2%Z /\ 0 < q) \/ (wsum p b = (-2)%Z /\ q < 0)) by (intros p; exact (box_wsum x0 y0 x1 y1 p)).
  assert (NB : b <> []) by discriminate. clearbody b q. unfold ring_ok, qabs. destruct (qltb_spec q 0) as [L|L], (qleb_spec 0 q) as [L'|L']; try (exfalso; qlra).
  - rewrite area_rev, BA. split; [|split; [reflexivity|]].
    + split; [now apply rev_ne|]. split; [qlra|]. intros s S X. apply is_edge_rev in S. apply (ND _ S). cbn. auto.
    + intros p B. rewrite wsum_rev. destruct (BW p) as [W|[(W & P)|(W & P)]]; [now rewrite <- on_boundary_rev|rewrite W; auto|exfalso; qlra|rewrite W; auto].
  - split; [|split; [auto|]].
    + split; auto. split; auto. rewrite BA. destruct (qc_not_eq _ _ NZ); qlra.
    + intros p B. destruct (BW p B) as [W|[(W & P)|(W & P)]]; auto. exfalso; qlra.
Qed.
Lemma box_map_q m a b v0 v1 g : det m < 0 -> a < b -> v0 <> v1 -> polygon_q true (map (aff m) (box a v0 b v1)) = Ok g ->
  g = [mkSpwh (moved m (if qltb ((b - a) * (v1 - v0)) 0 then rev (box a v0 b v1) else box a v0 b v1)) []].
Proof.
  intros DT AB NV H. assert (DN : det m <> 0) by (intros E; rewrite E in DT; qlra). assert (NA : a <> b) by (intros ->; qlra).
  assert (QN : (b - a) * (v1 - v0) <> 0) by (intros E; apply Qcmult_integral in E as [E|E]; [apply NA|apply NV]; qlra).
  pose proof (box_area a v0 b v1) as BA. assert (NB : box a v0 b v1 <> []) by discriminate.
  assert (ND : forall s, is_edge (box a v0 b v1) s -> fst s <> snd s).
  { intros e He. apply box_edges in He. destruct He as [->|[->|[->| ->]]]; cbn [fst snd]; intros E; apply pair_inv in E as (X1 & X2); congruence. }
  revert H NB BA ND. generalize (box a v0 b v1) as bx. intros bx H NB BA ND. set (q := (b - a) * (v1 - v0)) in *. clearbody q.
  destruct (polygon_q_reorient (map (aff m) bx)) as (g' & r' & E1 & E2 & E3 & _).
  - destruct bx; [congruence|discriminate].
  - intros e He. apply is_edge_iter in He. rewrite edges_iter_map in He. apply in_map_iff in He as (e' & <- & He). apply is_edge_iter in He. cbn [fst snd]. intros E. apply (aff_inj m DN) in E. exact (ND e' He E).
  - rewrite aff_area, BA by auto. intros E. apply Qcmult_integral in E as [E|E]; contradiction.
  - rewrite H in E1. apply Ok_inv in E1. subst g'. rewrite E2, E3. f_equal. f_equal. rewrite aff_area, BA by auto. unfold moved. clear -DT QN. set (D := det m) in *. clearbody D.
    destruct (qltb_spec D 0) as [_|]; [|exfalso; qlra]. destruct (qltb_spec (D * q) 0) as [L|L], (qltb_spec q 0) as [L'|L']; auto; first [now rewrite map_rev, rev_involutive|exfalso; clear -L L' DT QN; destruct (qc_not_eq _ _ QN); qnra].
Qed.
Lemma moved_flat m r : det m <> 0 -> ring_ok r -> (forall p, ~ on_boundary r p -> wsum p r = 2%Z \/ wsum p r = 0%Z) -> flat [mkSpwh (moved m r) []].
Proof.
  intros DN RO W. destruct (fpoly_aff m DN r RO) as (_ & RM & _). apply ring_flat; auto. intros p B. destruct (aff_onto m DN p) as (u & <-). rewrite moved_wsum; auto; [|exact (proj1 RO)|].
  - apply W. rewrite <- (moved_bd m DN r u). exact B.
  - rewrite <- (moved_bd m DN r u). exact B.
Qed.
Lemma box_map_flat m D a b v0 v1 g : 0 < D -> det m = - D -> a < b -> v0 <> v1 -> polygon_q true (map (aff m) (box a v0 b v1)) = Ok g ->
  flat g /\ qsum poly_area g = (b - a) * (qabs (v1 - v0) * D).
Proof.
  intros DP DT AB NV H. assert (DL : det m < 0) by (rewrite DT; qlra). assert (DN : det m <> 0) by (rewrite DT; intros E; qlra). apply box_map_q in H; auto.
  assert (NA : a <> b) by (intros ->; qlra). destruct (box_ring a v0 b v1 NA NV) as (RO & AR & W). revert H RO AR W. generalize (if qltb ((b - a) * (v1 - v0)) 0 then rev (box a v0 b v1) else box a v0 b v1).
  intros r -> RO AR W. assert (EQ : qabs ((b - a) * (v1 - v0)) = (b - a) * qabs (v1 - v0)).
  { clear -AB NV. unfold qabs. destruct (qleb_spec 0 ((b - a) * (v1 - v0))) as [L1|L1], (qleb_spec 0 (v1 - v0)) as [L2|L2]; try ring; exfalso; qnra. }
  split; [now apply moved_flat|]. destruct (fpoly_aff m DN r RO) as (_ & _ & AM). assert (AQ : qabs (det m) = D) by (rewrite DT; unfold qabs; destruct (qleb_spec 0 (- D)); [exfalso; qlra|ring]).
  transitivity (area_of (moved m r) - 0 + 0); [reflexivity|]. rewrite AM, AR, AQ, EQ. ring.
Qed.
Lemma finger_as_box s f0 f1 a b : finger_polygon s f0 f1 (Fin a, Fin b) = polygon_q true (map (Xs s) (box a (offset_at s f0) b (offset_at s f1))).
Proof. unfold finger_polygon. now rewrite finger_points. Qed.
Lemma finger_flat s f0 f1 a b g : frame_ok s -> a < b -> offset_at s f0 <> offset_at s f1 -> finger_polygon s f0 f1 (Fin a, Fin b) = Ok g ->
  flat g /\ qsum poly_area g = (b - a) * (qabs (offset_at s f1 - offset_at s f0) * Geom2d.dot (is_dir s) (is_dir s)).
Proof.
  intros (ND & R) AB NV H. pose proof (dd_pos _ ND) as DP. rewrite finger_as_box, <- (map_ext _ _ (frame_map_Xs s)) in H. pose proof (frame_det s R) as DT. exact (box_map_flat _ _ _ _ _ _ _ DP DT AB NV H).
Qed.

(** ** covering by several geometries *)
Lemma tally_parts p (bs zs : list geom2d) l : bits (map snd (map (pair 1%Z) bs ++ map (pair 0%Z) zs)) p l ->
  let t := tally (combine (map fst (map (pair 1%Z) bs ++ map (pair 0%Z) zs)) l) in (0 <= t)%Z /\ ((exists b, In b bs /\ in_geom b p) -> (1 <= t)%Z).
Proof.
  revert l. induction bs as [|b bs IH]; intros l; cbn [map app].
  - revert l. induction zs as [|z zs IHz]; intros l B; cbn [map app] in *; inversion B as [|? x ? l' B1 B2]; subst; cbn [map fst snd combine].
    + split; [cbn; lia|]. intros (? & [] & _).
    + specialize (IHz l' B2). unfold tally in *. cbn [zsum fst snd]. split; [destruct x; lia|]. intros (? & [] & _).
  - intros B. inversion B as [|? x ? l' B1 B2]; subst. cbn [map fst snd combine] in *. destruct (IH l' B2) as (T1 & T2). unfold tally in *. cbn [zsum fst snd]. split; [destruct x; lia|].
    intros (b' & [<-|I] & J); [rewrite (proj2 B1 J); lia|]. assert (1 <= zsum (fun kb : Z * bool => (fst kb * (if snd kb then 1 else 0))%Z) (combine (map fst (map (pair 1%Z) bs ++ map (pair 0%Z) zs)) l'))%Z by (apply T2; eauto). destruct x; lia.
Qed.
Lemma cover_bound a bs zs : Forall is_geom2d (a :: bs ++ zs) -> Forall flat (a :: bs ++ zs) ->
  (forall p, off_all (a :: bs ++ zs) p -> in_geom a p -> exists b, In b bs /\ in_geom b p) -> qsum poly_area a <= qsum (fun b => qsum poly_area b) bs.
Proof.
  intros G F H. set (kgs := (-1, a)%Z :: map (pair 1%Z) bs ++ map (pair 0%Z) zs). assert (M : map snd kgs = a :: bs ++ zs).
  { unfold kgs. cbn [map snd]. f_equal. rewrite map_app, !map_map. cbn [snd]. now rewrite !map_id. }
  destruct (sums_pos kgs) as (S & _); rewrite ?M; auto.
  - intros p l O B. rewrite <- M in B. unfold kgs in *. cbn [map snd fst] in *. inversion B as [|? x ? l' B1 B2]; subst. destruct (tally_parts p bs zs l' B2) as (T1 & T2). unfold tally in *. cbn [combine zsum fst snd].
    destruct x; [|lia]. specialize (H p O (proj1 B1 eq_refl)). specialize (T2 H). lia.
  - unfold kgs in S. cbn [qsum fst snd] in S. rewrite qsum_app, !qsum_map in S. cbn [fst snd] in S. rewrite (qsum_ext (fun x => zq 1 * qsum poly_area x) (fun x => qsum poly_area x)) in S by (intros x _; rewrite zq_1; ring).
    rewrite (qsum_ext (fun x => zq 0 * qsum poly_area x) (fun x => 0)) in S by (intros x _; rewrite zq_0; ring). assert (Z0 : forall l : list geom2d, qsum (fun _ : geom2d => 0) l = 0) by (induction l as [|y l IH]; cbn [qsum]; [auto|rewrite IH; ring]). rewrite Z0 in S.
    replace (zq (-1)) with (- (1)) in S by (apply Qc_is_canon; reflexivity). qlra.
Qed.

(** ** all fingers of a range *)
Definition unit_area (s : interside) (f0 f1 : Qc) : Qc := qabs (offset_at s f1 - offset_at s f0) * Geom2d.dot (is_dir s) (is_dir s).
(** the polygons of the pieces of a bounded set *)
Lemma pieces_made s f0 f1 w : frame_ok s -> offset_at s f0 <> offset_at s f1 -> normal w -> bounded1 w -> exists gs, mapM (finger_polygon s f0 f1) w = Ok gs.
Proof.
  intros F NV N B. induction w as [|i w IH]; [exists []; reflexivity|]. destruct (bounded1_cons _ _ B) as ((a & b & ->) & B'). apply normal_cons in N as (AB & N & _). destruct (IH N B') as (gs & E).
  destruct (finger_ok s f0 f1 a b F) as (g & Eg & _); auto; [intros ->; cbn [fst snd] in AB; unfold elt in AB; qlra|]. exists (g :: gs). cbn [mapM]. rewrite Eg. cbn [bind]. rewrite E. reflexivity.
Qed.
Lemma pieces_flat s f0 f1 w gs : frame_ok s -> offset_at s f0 <> offset_at s f1 -> normal w -> mapM (finger_polygon s f0 f1) w = Ok gs ->
  Forall is_geom2d gs /\ Forall flat gs /\ exists m, mes w = Fin m /\ 0 <= m /\ qsum (fun g => qsum poly_area g) gs = m * unit_area s f0 f1.
Proof.
  intros F NV N H. destruct (fingers_mapM s f0 f1 w gs F NV N H) as (_ & FO). split.
  { rewrite Forall_forall. intros x X. destruct (fingers_in _ _ _ _ _ x FO X) as (a & b & _ & _ & FS). apply FS. }
  clear FO. apply mapM_ok in H. revert N. induction H as [|i g w gs H HS IH]; intros N; [split; [constructor|]; exists 0; repeat split; [qlra|cbn [qsum]; ring]|].
  apply normal_cons in N as (AB & N & _). destruct (IH N) as (F2 & m & M & P & E). destruct i as [[|a|] [|b|]]; try discriminate H. cbn [fst snd] in AB. unfold elt in AB.
  destruct (finger_flat s f0 f1 a b g F AB NV H) as (F1 & E1). split; [constructor; auto|]. exists (b - a + m). cbn [mes fst snd]. rewrite M. unfold elen. split; [destruct (eleb_spec (Fin b) (Fin a)) as [X|X]; [unfold ele in X; exfalso; qlra|reflexivity]|]. split; [qlra|].
  cbn [qsum]. rewrite E, E1. unfold unit_area. ring.
Qed.
Theorem fingers_area : forall orc s w f0 f1 g x, rot_ok s -> is_geom1d w -> make_fingers (segment_arrangement orc) s w f0 f1 = Ok g -> g2_area g = Ok x ->
  exists m, measure1d w = Some (Fin m) /\ x = m * (qabs (offset_at s f1 - offset_at s f0) * Geom2d.dot (is_dir s) (is_dir s)).
Proof.
  intros orc s w f0 f1 g x R W H X. apply is_geom1d_normal in W. pose proof (arrangement_sound orc) as SA. rewrite (measure_mes w W).
  pose proof H as H'. unfold make_fingers in H'. apply bind_ok in H' as (gs & H1 & H2). destruct (fingers_any _ s w f0 f1 g SA R W H) as (G & _ & PT).
  assert (FL : Forall is_geom2d gs -> flat g) by (intros GS; destruct (results_flat orc) as (_ & _ & _ & _ & U & _); exact (U gs g GS H2)).
  assert (K : (frame_ok s /\ offset_at s f0 <> offset_at s f1) \/ w = []).
  { destruct w as [|i w]; auto. left. cbn [mapM] in H1. apply bind_ok in H1 as (g1 & H1 & _). now apply finger_frame in H1 as (_ & F & O). }
  destruct K as [(F & NV)|K].
  - destruct (pieces_flat s f0 f1 w gs F NV W H1) as (GS & FS & m & M & MP & E). exists m. rewrite M. split; auto. rewrite (area_val g x G X). fold (unit_area s f0 f1). rewrite <- E. specialize (FL GS).
    destruct (fingers_mapM s f0 f1 w gs F NV W H1) as (_ & FO). destruct (g2_union_ok _ gs g SA GS H2) as (_ & _ & U). apply Qcle_antisym.
    + apply (cover_bound g gs []); rewrite ?app_nil_r; auto. intros p O I. apply U in I; auto. intros y Y. apply O. now right.
    + (* no two fingers overlap *)
      set (kgs := (1, g)%Z :: map (pair (-1)%Z) gs). assert (MM : map snd kgs = g :: gs) by (unfold kgs; cbn [map snd]; f_equal; rewrite map_map; cbn [snd]; apply map_id).
      destruct (sums_pos kgs) as (S & _); rewrite ?MM; auto.
      * intros p l O B. unfold kgs. cbn [map fst]. inversion B as [|? u ? l' B1 B2]; subst. unfold tally. cbn [combine zsum fst snd].
        assert (TT : forall w' gs' l', fingers_of s (offset_at s f0) (offset_at s f1) w' gs' -> normal w' -> bits gs' p l' -> (forall g', In g' gs' -> ~ on_bd g' p) ->
          let t := zsum (fun kb : Z * bool => (fst kb * (if snd kb then 1 else 0))%Z) (combine (map fst (map (pair (-1)%Z) gs')) l') in
          (t = 0%Z \/ (t = (-1)%Z /\ exists g', In g' gs' /\ in_geom g' p))).
        { clear -F NV. intros w' gs' l' FO. revert l'. induction FO as [|i g' w gs (a & b & -> & AB & FS) FO IH]; intros l' N B OB; cbv zeta; inversion B as [|? u ? l'' B1 B2]; subst; [left; reflexivity|].
          pose proof N as N0. apply normal_cons in N as (_ & N & _). cbn [map fst combine zsum snd]. destruct (IH l'' N B2) as [T|(T & g2 & G2 & I2)]; [intros z Z; apply OB; now right|..]; rewrite T.
          - destruct u; [right; split; [lia|]; exists g'; split; [now left|now apply B1]|left; lia].
          - destruct u; [exfalso|right; split; [lia|]; exists g2; split; [now right|auto]].
            destruct FS as (_ & FS). destruct (FS p) as (_ & FI). pose proof (proj1 (FI (OB g' (or_introl eq_refl))) (proj1 B1 eq_refl)) as (S1 & _).
            destruct (fingers_in _ _ _ _ _ g2 FO G2) as (a2 & b2 & J & AB2 & (_ & FS2)). destruct (FS2 p) as (_ & FI2). pose proof (proj1 (FI2 (OB g2 (or_intror G2))) I2) as (S2 & _).
            pose proof (normal_after _ _ N0) as AF. rewrite Forall_forall in AF. specialize (AF _ J). cbn [fst snd] in AF. unfold elt in AF. unfold strictly_between in S1, S2. clear -AF S1 S2 AB AB2. destruct S1 as [(?&?)|(?&?)], S2 as [(?&?)|(?&?)]; qlra. }
        destruct (TT w gs l' FO W B2) as [T|(T & g' & G' & I')]; [intros g' G'; apply O; now right|..]; rewrite T; [destruct u; lia|].
        assert (IG : in_geom g p) by (apply U; [intros y Y; apply O; now right|exists g'; auto]). rewrite (proj2 B1 IG). lia.
      * unfold kgs in S. cbn [qsum fst snd] in S. rewrite qsum_map in S. cbn [fst snd] in S. rewrite (qsum_ext (fun y => zq (-1) * qsum poly_area y) (fun y => - (1) * qsum poly_area y)) in S by (intros y _; replace (zq (-1)) with (- (1)) by (apply Qc_is_canon; reflexivity); ring).
        rewrite qsum_scale, zq_1 in S. change (qsum (qsum poly_area) gs <= qsum poly_area g). qlra.
  - subst w. cbn [mapM] in H1. apply Ok_inv in H1. subst gs. exists 0. split; [reflexivity|]. specialize (FL (Forall_nil _)). rewrite Qcmult_0_l. apply (proj2 (proj2 (area_region g x G FL X))).
    intros p B I. apply PT in I; auto. destruct I as ((j & [] & _) & _).
Qed.
Print Assumptions fingers_area.

(** ** the clearance of a joint *)
Lemma mes_bounded w m : mes w = Fin m -> normal w -> bounded1 w.
Proof.
  revert m. induction w as [|i w IH]; intros m M N j Hj; [destruct Hj|]. apply normal_cons in N as (AB & N & _). cbn [mes] in M. unfold elen in M.
  destruct (eleb_spec (snd i) (fst i)) as [X|X]; [exfalso; destruct i as [[|a|] [|b|]]; cbn [fst snd] in *; unfold ele, elt in *; try tauto; qlra|].
  destruct i as [[|a|] [|b|]]; cbn [fst snd] in *; try discriminate M. destruct (mes w) as [|m'|] eqn:E; try discriminate M. destruct Hj as [<-|Hj]; [eauto|]. exact (IH m' eq_refl N j Hj).
Qed.
Lemma inside_or_end w x : normal w -> pts w x -> inside1 w x \/ exists b, In (Fin x, b) w.
Proof.
  intros N (i & I & H1 & H2). destruct i as [a b]. cbn [fst snd] in *. destruct a as [|a|]; [left; exists (NInf, b); cbn [fst snd]; unfold elt at 1; auto| |destruct H1].
  unfold ele in H1. destruct (qeqb_spec a x) as [->|NE]; [right; eauto|]. left. exists (Fin a, b). cbn [fst snd]. repeat split; auto. unfold elt. destruct (qc_not_eq _ _ NE); [auto|exfalso; qlra].
Qed.
(** the same when the covering is only known off some segments *)
Lemma cover_bound_off a bs (S : list segment) : Forall is_geom2d (a :: bs) -> Forall flat (a :: bs) ->
  (forall p, off_segs S p -> off_all (a :: bs) p -> in_geom a p -> exists b, In b bs /\ in_geom b p) -> qsum poly_area a <= qsum (fun b => qsum poly_area b) bs.
Proof.
  intros G F H. apply (cover_bound a bs []); rewrite ?app_nil_r; auto. intros p O I. destruct (near_point p (a :: bs) S G O) as (q & Qs & Qg).
  destruct (H q Qs) as (b & Hb & J); [intros g Hg; apply (Qg g Hg)|apply (Qg a (or_introl eq_refl)); auto|]. exists b. split; auto. apply (Qg b (or_intror Hb)). exact J.
Qed.
Lemma off_segs_geom g p : off_segs (all_segments g) p -> ~ on_bd g p.
Proof. intros H B. apply on_bd_segments in B as (e & E & B). exact (H e E B). Qed.
Section Clear.
Variable orc1 orc2 orc3 orc4 : list segment -> nat -> nat -> nat.
(** what a range [w] cuts out of [c] exceeds what [k] cuts out by at most the fingers of the length of [w - k] *)
Lemma cut_excess s w k d m c fk fw x y ax ay : rot_ok s -> normal w -> normal k -> g_sub w k = Ok d -> mes d = Fin m -> is_geom2d c ->
  make_fingers01 (segment_arrangement orc1) s k = Ok fk -> g2_and (segment_arrangement orc2) c fk = Ok x ->
  make_fingers01 (segment_arrangement orc3) s w = Ok fw -> g2_and (segment_arrangement orc4) c fw = Ok y ->
  g2_area x = Ok ax -> g2_area y = Ok ay -> ay <= ax + m * unit_area s 0 1.
Proof.
  intros R Nw Nk D M Gc Hk Hx Hw Hy Ax Ay. pose proof (sub_nml _ _ _ Nw Nk D) as Nd.
  destruct (fingers_any _ s k 0 1 fk (arrangement_sound orc1) R Nk Hk) as (Gk & _ & Pk). destruct (fingers_any _ s w 0 1 fw (arrangement_sound orc3) R Nw Hw) as (Gw & _ & Pw).
  destruct (g2_and_ok _ c fk x (arrangement_sound orc2) Gc Gk Hx) as (Gx & Bx & Ix). destruct (g2_and_ok _ c fw y (arrangement_sound orc4) Gc Gw Hy) as (Gy & By & Iy).
  destruct (results_flat orc2) as (F2 & _). pose proof (F2 c fk x Gc Gk Hx) as Fx. destruct (results_flat orc4) as (F4 & _). pose proof (F4 c fw y Gc Gw Hy) as Fy.
  rewrite (area_val x ax Gx Ax), (area_val y ay Gy Ay). set (S := all_segments c ++ all_segments fk ++ all_segments fw).
  assert (OFF : forall p, off_segs S p -> ~ on_bd c p /\ ~ on_bd fk p /\ ~ on_bd fw p).
  { intros p Hp. apply off_segs_app in Hp as (P1 & Hp). apply off_segs_app in Hp as (P2 & P3). repeat split; now apply off_segs_geom. }
  assert (YW : forall p, off_segs S p -> in_geom y p -> in_geom c p /\ in_band s w 0 1 p).
  { intros p Hp I. destruct (OFF p Hp) as (O1 & O2 & O3). apply Iy in I as (I1 & I2); [|intros g [<-|[<-|[]]]; auto]. split; auto. now apply Pw. }
  assert (XK : forall p, off_segs S p -> in_geom c p -> in_band s k 0 1 p -> in_geom x p).
  { intros p Hp I J. destruct (OFF p Hp) as (O1 & O2 & O3). apply Ix; [intros g [<-|[<-|[]]]; auto|]. split; auto. now apply Pk. }
  assert (K : (frame_ok s /\ offset_at s 0 <> offset_at s 1) \/ w = []).
  { destruct w as [|i w']; auto. left. unfold make_fingers01, make_fingers in Hw. apply bind_ok in Hw as (gs & Hw & _). cbn [mapM] in Hw. apply bind_ok in Hw as (g1 & Hw & _). now apply finger_frame in Hw as (_ & F & O). }
  pose proof (mes_nneg d) as MN. rewrite M in MN. unfold nneg, ele in MN. destruct K as [(F & NV)|K].
  - destruct (pieces_made s 0 1 d F NV Nd (mes_bounded _ _ M Nd)) as (ds & Hd). destruct (pieces_flat s 0 1 d ds F NV Nd Hd) as (Gd & Fd & m' & M' & _ & Ed). rewrite M in M'. injection M' as <-. rewrite <- Ed.
    assert (KS : exists ks, mapM (finger_polygon s 0 1) k = Ok ks) by (unfold make_fingers01, make_fingers in Hk; apply bind_ok in Hk as (ks & Hk & _); eauto). destruct KS as (ks & Hks).
    destruct (fingers_mapM s 0 1 d ds F NV Nd Hd) as (_ & FOd). destruct (fingers_mapM s 0 1 k ks F NV Nk Hks) as (_ & FOk).
    change (qsum poly_area x + qsum (fun g => qsum poly_area g) ds) with (qsum (fun g => qsum poly_area g) (x :: ds)). apply (cover_bound_off y (x :: ds) (S ++ flat_map all_segments ks)); [repeat (constructor; auto)|repeat (constructor; auto)|].
    intros p Hp OA I. apply off_segs_app in Hp as (Hp & Hp2). destruct (YW p Hp I) as (IC & IW & AC).
    assert (OK : forall g, In g ks -> ~ on_bd g p) by (intros g Hg; apply off_segs_geom; intros e He; apply Hp2; apply in_flat_map; eauto).
    set (u := along s p) in *. destruct (SheetbuildP.pts_dec k u) as [Pu|Pu].
    + exists x. split; [now left|]. apply XK; auto. split; auto. destruct (inside_or_end k u Nk Pu) as [|(b & Hb)]; auto. exfalso.
      destruct (fingers_nth _ _ _ _ _ _ FOk Hb) as (a' & b' & g & Eg & Hg & AB & (_ & FS)). injection Eg as <- ->. apply (OK g Hg). apply FS. fold u. split; [|].
      * split; [unfold weakly_between; left; split; qlra|]. revert AC. unfold weakly_between, strictly_between. intros [(?&?)|(?&?)]; [left|right]; split; qlra.
      * intros (S1 & _). unfold strictly_between in S1. destruct S1 as [(?&?)|(?&?)]; qlra.
    + assert (Du : pts d u) by (apply (sub_pts w k d u Nw Nk D); split; auto; now apply inside1_pts). destruct (inside_or_end d u Nd Du) as [(j & Hj & J1 & J2)|(b & Hb)].
      * destruct (fingers_nth _ _ _ _ _ _ FOd Hj) as (a' & b' & g & -> & Hg & AB & (_ & FS)). exists g. split; [now right|]. cbn [fst snd] in J1, J2. unfold elt in J1, J2. apply FS; [apply OA; now right; right|]. fold u. split; [left; auto|auto].
      * exfalso. destruct (fingers_nth _ _ _ _ _ _ FOd Hb) as (a' & b' & g & Eg & Hg & AB & (_ & FS)). injection Eg as <- ->. apply (OA g); [now right; right|]. apply FS. fold u. split; [|].
        -- split; [unfold weakly_between; left; split; qlra|]. revert AC. unfold weakly_between, strictly_between. intros [(?&?)|(?&?)]; [left|right]; split; qlra.
        -- intros (S1 & _). unfold strictly_between in S1. destruct S1 as [(?&?)|(?&?)]; qlra.
  - assert (Y0 : qsum poly_area y <= qsum (fun g => qsum poly_area g) []).
    { apply (cover_bound_off y [] S); [repeat (constructor; auto)|repeat (constructor; auto)|]. intros p Hp _ I. subst w. destruct (YW p Hp I) as (_ & (j & [] & _) & _). }
    cbn [qsum] in Y0. destruct (area_region x ax Gx Fx Ax) as (X0 & _). rewrite (area_val x ax Gx Ax) in X0. assert (U0 : 0 <= unit_area s 0 1).
    { unfold unit_area. apply mnn; [unfold qabs; destruct (qleb_spec 0 (offset_at s 1 - offset_at s 0)); qlra|]. unfold Geom2d.dot. destruct (is_dir s) as [u v]. cbn [fst snd]. clear. qnra. }
    assert (0 <= m * unit_area s 0 1) by (apply mnn; auto). qlra.
Qed.
End Clear.

Section Joint.
Variable orc orc1 orc2 : list segment -> nat -> nat -> nat.
Variable fsqrt fl : Qc -> Qc.
Variable R : rng.
Variable mn mx : Qc.
Variable ord : dict string geom1d -> dict string geom1d.
Variable sord : list string -> list string.
Let A := segment_arrangement orc.
(** a side leaves the ranges of the other side free: the material of a sheet in the fingers that the other side of a joint has chosen is at most
    1/1000 plus the fingers of a range of length 1e-7 *)
Theorem joint_clearance : forall rof sp rad ci sb h, plex_made sp -> plex_geoms sp -> (forall c, Permutation c (ord c)) ->
  canned_1 A fsqrt fl R mn mx ord sord None rof sp rad ci = Ok (mkCanned true sb h) ->
  forall s o c g f x a, joint sp s o -> dget id2_eqb (is_id o) (sb_ichosen sb) = Some c -> dget String.eqb (is_sheet s) (sb_schosen sb) = Some g ->
    make_fingers01 (segment_arrangement orc1) s c = Ok f -> g2_and (segment_arrangement orc2) g f = Ok x -> g2_area x = Ok a ->
    a < e3 + e7 * (qabs (is_max s - is_min s) * Geom2d.dot (is_dir s) (is_dir s)).
Proof.
  intros rof sp rad ci sb h M PG O H s o c g f x a J Kc Kg Hf Hx Ha.
  destruct (canned_ok_choices A fsqrt fl R mn mx ord sord _ _ _ _ _ _ M O H) as (CN & CH).
  pose proof J as (Hs & Ho). destruct (made_opp _ _ M Hs) as (o' & O1 & O2 & Hso & _). rewrite Ho in O1. apply Ok_inv in O1 as <-.
  destruct (CH o s (conj Hso O2)) as (c0 & k & c' & d & e & m & m' & K1 & K2 & _ & HD & MD & ML & _). rewrite Kc in K1. injection K1 as <-.
  destruct (result_within_slices orc fsqrt fl R mn mx ord sord _ _ _ _ _ _ _ _ M PG O H (is_sheet s)) as (G & _). rewrite (geom_at_get _ _ _ Kg) in G.
  assert (LG : legal sp sb). { destruct (canned_reaches A fsqrt fl R mn mx ord sord _ _ _ _ _ _ _ _ _ (geoms_closed A fsqrt) M O H) as (sb0 & sb1 & C & SS & sok & -> & _).
    pose proof (legal_steps A sp M _ _ (proj1 (create_inv1 _ _ _ _ _ M C)) SS) as L. destruct L as [L1 L2 L3 L4]. constructor; auto. }
  pose proof LG as [P _ N _]. rewrite <- P in J. destruct (check_now_sound A sb ltac:(rewrite P; exact M) CN s o J) as (c1 & k1 & ko & d1 & y & _ & _ & K3 & _ & _ & _ & HY & AY).
  rewrite K2 in K3. injection K3 as <-. apply bind_ok in HY as (fk & Hk & HY). rewrite (geom_at_get _ _ _ Kg) in HY. unfold area_lt in AY. apply bind_ok in AY as (ay & AY & LT). apply Ok_inv in LT.
  destruct (N (is_id o)) as (Nc & Nk). apply is_geom1d_normal in Nc, Nk. assert (E1 : chosen_of sb (is_id o) = c) by now apply opt_get. assert (E2 : ok_of sb (is_id o) = k) by now apply opt_get. rewrite E1 in Nc. rewrite E2 in Nk.
  pose proof (sub_nml _ _ _ Nc Nk HD) as Nd. rewrite (measure_mes d Nd) in MD. injection MD as MD.
  pose proof (cut_excess orc orc orc1 orc2 s c k d m g fk f y x ay a (made_rot _ _ M Hs) Nc Nk HD MD G Hk HY Hf Hx AY Ha) as B.
  assert (LY : ay < e3) by (destruct (qltb_spec ay e3); auto; discriminate). unfold unit_area in B.
  replace (offset_at s 1 - offset_at s 0) with (is_max s - is_min s) in B by (unfold offset_at; ring). set (u := qabs (is_max s - is_min s) * Geom2d.dot (is_dir s) (is_dir s)) in *.
  assert (U0 : 0 <= u).
  { unfold u. apply mnn; [unfold qabs; destruct (qleb_spec 0 (is_max s - is_min s)); qlra|]. unfold Geom2d.dot. destruct (is_dir s) as [v w]. cbn [fst snd]. clear. qnra. }
  clearbody u. assert (0 <= (e7 - m) * u) by (apply mnn; [qlra|auto]). clear -B LY H0. generalize dependent e7. generalize dependent e3. intros. qlra.
Qed.
End Joint.
Print Assumptions joint_clearance.

(** Two fingers of lengths 1 and 2 and width 4 in the direction (3/5, 4/5).  For a run that satisfies the hypotheses of
    [joint_clearance] see [EndToEnd]. *)
Section Ex.
Let A0 := segment_arrangement (fun _ _ _ => O).
Let s : interside := mkSide ("a,b", "a")%string "a,b" 0 "a" (qq 3 5, qq 4 5) (qq 1 2) (qq 4 5, - qq 3 5) 1 (zq 5).
Let w : geom1d := [(Fin 0, Fin 1); (Fin (zq 2), Fin (zq 4))].
Example fingers_area_ex : rot_ok s /\ measure1d w = Some (Fin (zq 3)) /\
  (g <- make_fingers A0 s w 0 1 ;; g2_area g) = Ok (zq 12) /\ (g <- make_fingers A0 s w 0 (qq 1 2) ;; g2_area g) = Ok (zq 6).
Proof. split; [reflexivity|]. split; [vm_compute; reflexivity|]. split; vm_compute; reflexivity. Qed.
End Ex.
