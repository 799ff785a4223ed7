(** * From a mesh to plates in space: C121, C122. *)
From Verif.Model Require Import SegmentTree CellMerger Arrangement2d Geom2d Sheetplex Sheetbuild Heuristics Canned CreateSheets Frames SpaceMesh.
From Verif.Spec Require Import Plane Region Crisp Jordan Cut Space Shadow.
From Verif.Proofs Require Import PyP PolyP WindingP WindingQ WindingR NearP PlanarP DictP Geom2dP Geom2dOps ArrSoundP ReachP SheetplexP FingerP SheetbuildP CreateP CreateSheetsP AreaP CrispP CrispQ JordanP JordanQ BufSharpP BufSharpQ RunSharpP CutP CutQ SpaceP TriangleP.
From Verif.Props Require Import Primitive2dProps Geom2dProps SheetplexProps CannedProps JointProps CreateSheetsProps CrispProps JordanProps RunSharpProps WriterProps CutProps MeshProps SheetbuildProps SpaceProps AssemblyProps CompleteProps.
From Coq Require Import String Permutation.
Open Scope Qc_scope.

(** ** unions, boundaries included *)
Lemma near_inside g p (S : list segment) eps : sharp g -> in_or_on g p -> 0 < eps -> exists q, near eps p q /\ in_geom g q /\ off_segs S q.
Proof.
  intros (G & CR & _) I E. assert (E2 : 0 < eps * qq 1 2) by (apply mpp; [auto|vm_compute; reflexivity]).
  assert (NE : exists q, near (eps * qq 1 2) p q /\ ~ on_bd g q /\ in_geom g q).
  { destruct (on_bd_dec g p) as [B|B]; [exact (proj1 (CR p _ B E2))|]. destruct I as [I|I]; [contradiction|]. exists p. split; [now apply near_self|auto]. }
  destruct NE as (q & N & B & J). destruct (near_off q _ g S E2 G B) as (q' & N' & J' & OF). exists q'. split; [exact (near_trans _ _ _ _ N N')|]. split; [now apply J'|exact OF].
Qed.
Lemma union_closed ps g : is_op ps (fun p => exists q, In q ps /\ in_geom q p) g -> sharp g -> Forall sharp ps ->
  forall p, in_or_on g p <-> exists q, In q ps /\ in_or_on q p.
Proof.
  intros (_ & _ & O) SG SP p. set (S := flat_map all_segments ps).
  assert (OF : forall q, off_segs S q -> off_all ps q) by (intros q; apply off_segs_all). split.
  - intros I. apply in_or_on_limit; [eapply Forall_impl; [|exact SP]; intros x (X & _); exact X|]. intros eps E. destruct (near_inside g p S eps SG I E) as (q & N & J & F).
    apply O in J as (r & R & J); [|auto]. exists q, r. auto.
  - intros (r & R & I). destruct (in_or_on_limit [g] p) as (g' & [<-|[]] & X); [constructor; [apply SG|constructor]| |exact X]. intros eps E.
    destruct (near_inside r p S eps (proj1 (Forall_forall _ _) SP r R) I E) as (q & N & J & F). exists q, g. split; auto. split; [now left|]. apply O; eauto.
Qed.
Lemma F2_left {X Y} (P : X -> Y -> Prop) l l' x : Forall2 P l l' -> In x l -> exists y, In y l' /\ P x y.
Proof. induction 1 as [|a b l l' H F IH]; intros []; [subst; exists b; split; [now left|auto]|]. destruct (IH H0) as (y & I & Py). exists y. split; [now right|auto]. Qed.
Lemma F2_right {X Y} (P : X -> Y -> Prop) l l' y : Forall2 P l l' -> In y l' -> exists x, In x l /\ P x y.
Proof. induction 1 as [|a b l l' H F IH]; intros []; [subst; exists a; split; [now left|auto]|]. destruct (IH H0) as (x & I & Py). exists x. split; [now right|auto]. Qed.
Lemma fine_sharp g : fine g -> sharp g.
Proof. intros (G & C). now apply cuttable_sharp. Qed.

(** ** shadows of triangles *)
Lemma shadow_mean a b c r p : mean3 (project_corner r a) (project_corner r b) (project_corner r c) p <-> exists x, in_triangle (a, b, c) x /\ project_corner r x = p.
Proof.
  unfold mean3, in_triangle, project_corner. split.
  - intros (u & v & w & U & V & W & S & ->). exists (add3 (scale3 u a) (add3 (scale3 v b) (scale3 w c))). split; [exists u, v, w; auto|]. unfold vadd, vscale. cbn [fst snd]. v3. f_equal; ring.
  - intros (x & (u & v & w & U & V & W & S & ->) & <-). exists u, v, w. repeat (split; [assumption|]). unfold vadd, vscale. cbn [fst snd]. v3. f_equal; ring.
Qed.
Lemma footprint_plate n o t m x : section_frame n m -> footprint (make_plate n o t m) x = project_corner (no_shift m) x.
Proof.
  destruct m as [[a wa] [b wb] [c wc] r]. intros (_ & _ & R). cbn [row3] in R. subst r.
  unfold footprint, project_point4, make_plate, project_corner, no_shift, transpose, col, dot4. cbn [pl_inverse row0 row1 row2 row3 v4 vw]. v3.
  assert (E : 0 * vx x + 0 * vy x + 0 * vz x + 1 * 1 = 1) by ring. rewrite E. assert (E1 : qeqb 1 0 = false) by reflexivity. rewrite E1. cbn [fst snd].
  assert (D : forall q : Qc, q / 1 = q) by (intros q; field; intros X; discriminate X). rewrite !D. f_equal; ring.
Qed.

(** ** distances *)
Lemma cauchy a b : dot3 a b * dot3 a b <= dot3 a a * dot3 b b.
Proof.
  assert (E : dot3 a a * dot3 b b = dot3 a b * dot3 a b + dot3 (cross3 a b) (cross3 a b)) by (v3; ring). rewrite E.
  assert (S : forall q : Qc, 0 <= q * q). { intros q. destruct (Qc_dec q 0) as [[X|X]|X]; [replace (q * q) with ((- q) * (- q)) by ring; apply qnn_mul; qlra|apply qnn_mul; qlra|rewrite X; replace (0 * 0) with 0 by ring; qlra]. }
  assert (P : 0 <= dot3 (cross3 a b) (cross3 a b)). { unfold dot3. pose proof (S (vx (cross3 a b))). pose proof (S (vy (cross3 a b))). pose proof (S (vz (cross3 a b))). qlra. }
  qlra.
Qed.
Lemma square_le x y : 0 <= y -> x * x <= y * y -> x <= y.
Proof.
  intros Y H. destruct (Qc_dec x y) as [[X|X]|X]; [qlra| |rewrite X; qlra]. exfalso.
  assert (P : 0 < (x - y) * (x + y)). { assert (A : 0 < x - y) by qlra. assert (B : 0 < x + y) by qlra. replace 0 with (0 * (x + y)) by ring. now apply Qcmult_lt_compat_r. }
  replace ((x - y) * (x + y)) with (x * x - y * y) in P by ring. qlra.
Qed.
Lemma qabs_le a e : qabs a <= e <-> - e <= a /\ a <= e.
Proof.
  unfold qabs. destruct (qleb_spec 0 a); (split; [intros H; split; qlra|intros (H1 & H2); qlra]).
Qed.
Lemma dot_bound norm a b B : norm_of norm a -> 0 <= B -> dot3 b b <= B * B -> qabs (dot3 a b) <= norm a * B.
Proof.
  intros (N1 & N2) PB H. pose proof (cauchy a b) as C. assert (D : dot3 a a * dot3 b b <= (norm a * B) * (norm a * B)).
  { replace ((norm a * B) * (norm a * B)) with ((norm a * norm a) * (B * B)) by ring. rewrite N2. rewrite (Qcmult_comm (dot3 a a)), (Qcmult_comm (dot3 a a)). apply Qcmult_le_compat_r; auto. rewrite <- N2. now apply qnn_mul. }
  assert (Z : 0 <= norm a * B) by now apply qnn_mul. assert (E : dot3 a b * dot3 a b <= (norm a * B) * (norm a * B)) by (eapply Qcle_trans; eauto).
  apply qabs_le. split; [|now apply square_le]. enough (- dot3 a b <= norm a * B) by qlra. apply square_le; auto. replace (- dot3 a b * - dot3 a b) with (dot3 a b * dot3 a b) by ring. exact E.
Qed.
Lemma side_sheet sp t : plex_made sp -> side_of sp t -> exists sh, In (is_sheet t, sh) (sp_sheets sp).
Proof.
  intros (fr & sp0 & F & C) (k & it & I & Is). destruct (created fr sp0 sp F C) as (SS & _ & _ & G). apply G in I as (a & b & (d1 & o1 & os1) & (d2 & o2 & os2) & B & _ & -> & ->).
  destruct (fresh_ids _ F) as (N & _). destruct (before_ids _ a b N B) as (_ & Ia & Ib).
  assert (K : forall x, In x (values (sp_sheets sp0)) -> In (sh_id x, x) (sp_sheets sp0)).
  { intros x X. apply in_map_iff in X as ((k & x') & <- & X). cbn. destruct F as (_ & _ & F). destruct (F k x' X) as (-> & _). exact X. }
  rewrite SS. cbn in Is. destruct Is as [<-|[<-|[]]]; cbn [create_inter_side is_sheet]; eauto.
Qed.

Section Mesh.
Variable orc : list segment -> nat -> nat -> nat.
Let A := segment_arrangement orc.
Variable orient : shpoly -> shpoly.
Variable norm : vec3 -> Qc.
Variable sect : Type.
Variable argsort : list Qc -> list nat.
Variable section_shape : sect -> shape.
Variable to_3D : sect -> mat4.
Variable sord : list nat -> list nat.
Variable thickness normal_tol offset_tol : Qc.
Let sheets := mesh_sheets A orient norm sect argsort section_shape to_3D sord thickness normal_tol offset_tol.
Let plex := mesh_sheetplex A orient norm sect argsort section_shape to_3D sord thickness normal_tol offset_tol.
Let plates := mesh_plates sect to_3D thickness offset_tol.

(** the normals of the mesh are unit vectors *)
Definition unit_normals (m : qmesh sect) : Prop :=
  (forall n, In n (m_facets_normal _ _ _ m) -> dot3 n n = 1) /\ forall t, dot3 (m_face_normal _ _ _ m t) (m_face_normal _ _ _ m t) = 1.
(** [n] is the normal of a facet, or of a triangle *)
Definition mesh_normal (m : qmesh sect) (n : vec3) : Prop := In n (m_facets_normal _ _ _ m) \/ exists t, n = m_face_normal _ _ _ m t.
(** the sections have frames as trimesh documents them *)
Definition framed (m : qmesh sect) : Prop := forall n hs s, dot3 n n = 1 -> In (Some s) (m_section _ _ _ m n hs) -> section_frame n (to_3D s).

Lemma normals_of m af n : find_all_facets Qc vec3 sect sord m = Ok af -> In n (af_normals _ _ af) -> mesh_normal m n.
Proof.
  unfold find_all_facets. intros H I. apply bind_ok in H as (u & _ & H). apply Ok_inv in H as <-. rewrite add_all in I. cbn [af_normals] in I. apply in_app_iff in I as [I|I]; [now left|].
  apply in_map_iff in I as (t & <- & _). right. eauto.
Qed.
Lemma sheet_parts only m cs : (forall l, Permutation l (sord l)) -> unit_normals m -> framed m -> sheets only m = Ok cs ->
  exists af, find_all_facets Qc vec3 sect sord m = Ok af /\ NoDup (keys cs) /\
  forall k c, In (k, c) cs -> mesh_normal m (cs_normal _ _ c) /\ (exists s, section_frame (cs_normal _ _ c) (to_3D s) /\ plates m cs k = make_plate (cs_normal _ _ c) (cs_offset _ _ c) thickness (to_3D s) /\
      face_support A Qc vec3 sect mat4 project_triangle m af (no_shift (to_3D s)) (gr_same (cs_groups _ _ c)) = Ok (sh_face0 (cs_sheet _ _ c)) /\
      face_support A Qc vec3 sect mat4 project_triangle m af (no_shift (to_3D s)) (gr_opposed (cs_groups _ _ c)) = Ok (sh_face1 (cs_sheet _ _ c))) /\
    sheet_made Qc vec3 sect A orient mat4 Qcopp qabs Qcplus Qcminus qltb qleb neg3 sub3 norm dot3 linspace section_shape (fun s => no_shift (to_3D s)) project_triangle thickness normal_tol offset_tol m af k c.
Proof.
  intros SO (U1 & U2) FR H. unfold sheets, mesh_sheets, create_sheets in H. apply bind_ok in H as (af & F & H). apply bind_ok in H as (st & L & H). apply Ok_inv in H as <-.
  pose proof (made orc orient Qc vec3 sect mat4 Qcopp qabs Qcplus Qcminus qltb qleb neg3 sub3 norm dot3 linspace argsort section_shape (fun s => no_shift (to_3D s)) project_triangle sord thickness normal_tol offset_tol only m af st SO L) as MD.
  assert (ND : NoDup (keys (c_sheets _ _ st))). { destruct (c_sheets _ _ st) as [|[k c] r] eqn:E; [constructor|]. apply (MD k c). now left. }
  exists af. split; auto. split; auto. intros k c I. destruct (MD k c I) as (_ & _ & SM). pose proof SM as [_ (f & r & _ & PL & _) _ _ (s & ss & S1 & S2 & S3 & S4) _].
  assert (MN : mesh_normal m (cs_normal _ _ c)). { apply plane_ok in PL as (PL & _). apply nth_error_In in PL. exact (normals_of _ _ _ F PL). }
  split; [exact MN|]. split; [|exact SM]. exists s.
  change (map Some (s :: ss) = skipn 2 (m_section _ _ _ m (cs_normal _ _ c) (slice_heights thickness offset_tol (cs_offset _ _ c)))) in S1.
  destruct (m_section _ _ _ m (cs_normal _ _ c) (slice_heights thickness offset_tol (cs_offset _ _ c))) as [|a [|b l]] eqn:E; try discriminate S1. cbn [skipn] in S1. subst l.
  assert (SF : section_frame (cs_normal _ _ c) (to_3D s)).
  { apply (FR _ (slice_heights thickness offset_tol (cs_offset _ _ c))); [destruct MN as [MN|(t & ->)]; auto|]. rewrite E. cbn. auto. }
  split; [exact SF|]. split; [|auto].
  unfold plates, mesh_plates, qsheet. rewrite (proj2 (dget_nodup _ string_eqb_ok _ _ _ ND) I). unfold mesh_plate. rewrite E. reflexivity.
Qed.

(** ** C121 *)
Theorem mesh_in_space : forall pord only m sp, (forall l, Permutation l (sord l)) -> (forall d, Permutation d (pord d)) -> 0 < thickness -> unit_normals m -> framed m ->
  (forall n n', mesh_normal m n -> mesh_normal m n' -> norm_of norm (cross3 n n')) -> plex pord only m = Ok sp ->
  exists cs, sheets only m = Ok cs /\ space_plex norm (plates m cs) sp /\ (forall k sh, In (k, sh) (sp_sheets sp) <-> exists c, In (k, c) cs /\ sh = cs_sheet _ _ c) /\
    forall k c, In (k, c) cs -> mesh_normal m (cs_normal _ _ c) /\
      forall x, in_slab (plates m cs k) x <-> cs_offset _ _ c - thickness <= dot3 (cs_normal _ _ c) x /\ dot3 (cs_normal _ _ c) x <= cs_offset _ _ c.
Proof.
  intros pord only m sp SO PO T UN FR NO H. unfold plex, mesh_sheetplex in H. apply bind_ok in H as (cs & CS & H). exists cs. split; auto.
  destruct (sheet_parts only m cs SO UN FR CS) as (af & F & ND & P).
  destruct (plex_premises orc orient Qc vec3 sect mat4 Qcopp qabs Qcplus Qcminus qltb qleb neg3 sub3 norm dot3 linspace argsort section_shape (fun s => no_shift (to_3D s)) project_triangle sord thickness normal_tol offset_tol
    (space_frames norm (plates m cs)) pord only m sp SO PO) as (M & _ & cs' & CS' & _ & IS).
  { unfold create_sheetplex. pose proof CS as X. unfold mesh_sheets, A in X. rewrite X. cbn [bind]. exact H. }
  assert (cs' = cs) by (pose proof CS as X; unfold mesh_sheets, A in X; rewrite X in CS'; apply Ok_inv in CS'; auto). subst cs'.
  assert (PLN : forall k c, In (k, c) cs -> plate_ok (plates m cs k) /\ pl_normal (plates m cs k) false = cs_normal _ _ c).
  { intros k c I. destruct (P k c I) as (_ & (s & SF & -> & _) & _). split; [exact (proj1 (made_plate _ _ _ _ SF T))|reflexivity]. }
  split; [|split; [exact IS|]].
  - exists (mkPlex (pord (map (fun e => (fst e, cs_sheet _ _ (snd e))) cs)) []).
    assert (ID : forall k sh, In (k, sh) (pord (map (fun e => (fst e, cs_sheet _ _ (snd e))) cs)) -> exists c, In (k, c) cs /\ sh = cs_sheet _ _ c).
    { intros k sh I. apply (Permutation_in _ (Permutation_sym (PO _))) in I. apply in_map_iff in I as ([k' c] & E & I). apply pair_inv in E as (<- & <-). exists c. auto. }
    split; [|split; [exact H|split]].
    + split; [reflexivity|]. cbn [sp_sheets]. split.
      * apply (Permutation_NoDup (Permutation_map fst (PO _))). rewrite map_map. exact ND.
      * intros k sh I. apply ID in I as (c & I & ->). destruct (P k c I) as (_ & _ & [X _ _ _ _ _]). split; auto.
        unfold sheets, mesh_sheets, create_sheets in CS. apply bind_ok in CS as (af' & F' & CS). apply bind_ok in CS as (st & L & CS). apply Ok_inv in CS as <-.
        destruct (made orc orient Qc vec3 sect mat4 Qcopp qabs Qcplus Qcminus qltb qleb neg3 sub3 norm dot3 linspace argsort section_shape (fun s => no_shift (to_3D s)) project_triangle sord thickness normal_tol offset_tol only m af' st SO L k c I) as (_ & (i & ->) & _).
        apply sheet_name_no_comma.
    + cbn [sp_sheets]. intros k sh I. apply ID in I as (c & I & _). apply (PLN k c I).
    + cbn [sp_sheets]. intros k sh k' sh' I I'. apply ID in I as (c & I & _). apply ID in I' as (c' & I' & _). fold plates. rewrite (proj2 (PLN k c I)), (proj2 (PLN k' c' I')). apply NO; [apply (P k c I)|apply (P k' c' I')].
  - intros k c I. destruct (P k c I) as (MN & (s & SF & -> & _) & _). split; auto. exact (proj1 (proj2 (made_plate _ _ _ _ SF T))).
Qed.

(** the sections a sheet's slices are read from: just inside either face, and halfway *)
Theorem slices_at : forall only m cs, (forall l, Permutation l (sord l)) -> unit_normals m -> framed m -> sheets only m = Ok cs -> forall k c, In (k, c) cs ->
  let o := cs_offset _ _ c in exists s ss, map Some (s :: ss) = skipn 2 (m_section _ _ _ m (cs_normal _ _ c) [o + offset_tol; o - thickness - offset_tol; o - thickness + offset_tol; o - thickness * qq 1 2; o - offset_tol]) /\
    plates m cs k = make_plate (cs_normal _ _ c) o thickness (to_3D s) /\ Forall2 (fun s g => from_shapely orient (section_shape s) = Ok g) (s :: ss) (cs_slices _ _ c).
Proof.
  intros only m cs SO UN FR CS k c I o. destruct (sheet_parts only m cs SO UN FR CS) as (af & F & ND & P). destruct (P k c I) as (_ & _ & [_ _ _ _ (s & ss & S1 & S2 & _) _]).
  assert (H : slice_heights thickness offset_tol o = [o + offset_tol; o - thickness - offset_tol; o - thickness + offset_tol; o - thickness * qq 1 2; o - offset_tol]).
  { unfold slice_heights, linspace. cbn [seq map app]. change (Z.of_nat 3 - 1)%Z with 2%Z. change (Z.of_nat 0) with 0%Z. change (Z.of_nat 1) with 1%Z. change (Z.of_nat 2) with 2%Z.
    assert (N2 : zq 2 <> 0) by (intros X; apply (f_equal (fun q => qeqb q 0)) in X; vm_compute in X; discriminate X). assert (E0 : zq 0 = 0) by (apply Qc_is_canon; reflexivity). assert (E1 : zq 1 = 1) by (apply Qc_is_canon; reflexivity).
    assert (EH : qq 1 2 = 1 / zq 2) by (apply Qc_is_canon; vm_compute; reflexivity). assert (E2 : zq 2 = 1 + 1) by (apply Qc_is_canon; vm_compute; reflexivity).
    rewrite E0, E1, EH. f_equal. f_equal. f_equal; [ring|]. f_equal; [rewrite E2 in *; now field|]. f_equal. now field. }
  change (map Some (s :: ss) = skipn 2 (m_section _ _ _ m (cs_normal _ _ c) (slice_heights thickness offset_tol o))) in S1.
  exists s, ss. rewrite <- H. split; [exact S1|]. split.
  - pose proof (proj2 (dget_nodup _ string_eqb_ok _ _ _ ND) I) as D. unfold plates, mesh_plates, qsheet in *. rewrite D. unfold mesh_plate. fold o.
    destruct (m_section _ _ _ m (cs_normal _ _ c) (slice_heights thickness offset_tol o)) as [|a [|b l]] eqn:E; try discriminate S1. cbn [skipn] in S1. subst l. reflexivity.
  - apply PyP.mapM_ok in S2. exact S2.
Qed.
(** the triangles of the facets [fs] *)
Definition triangle_of (m : qmesh sect) (af : all_facets Qc vec3) (fs : list nat) (f : nat) (t : vec3 * vec3 * vec3) : Prop :=
  In f fs /\ exists ts i, nth_error (af_facets _ _ af) f = Some ts /\ In i ts /\ t = m_triangle _ _ _ m i.
Lemma tri_poly_eq m r i a b c : m_triangle _ _ _ m i = (a, b, c) ->
  tri_poly Qc vec3 sect mat4 project_triangle m r i = polygon_q true [project_corner r a; project_corner r b; project_corner r c].
Proof. intros E. unfold tri_poly. rewrite E. reflexivity. Qed.
Lemma tri_shadow m r i y p : tri_poly Qc vec3 sect mat4 project_triangle m r i = Ok y -> fine y /\ (in_or_on y p <-> exists x, in_triangle (m_triangle _ _ _ m i) x /\ project_corner r x = p).
Proof.
  intros E. destruct (m_triangle _ _ _ m i) as [[a b] c] eqn:T. rewrite (tri_poly_eq m r i a b c T) in E. split; [exact (triangle_fine _ _ _ _ E)|].
  unfold in_or_on. rewrite (triangle_polygon _ _ _ _ E p). apply shadow_mean.
Qed.
Lemma support_shadow m af r fs g : face_support A Qc vec3 sect mat4 project_triangle m af r fs = Ok g ->
  forall p, in_or_on g p <-> exists f t x, triangle_of m af fs f t /\ in_triangle t x /\ project_corner r x = p.
Proof.
  intros H p. assert (TC : three_corners vec3 mat4 project_triangle) by (intros r' [[a b] c] v E; apply Ok_inv in E as <-; reflexivity).
  pose proof (support_fine orc Qc vec3 sect mat4 project_triangle m af r fs g TC H) as FG.
  apply (support_ok A (arrangement_sound orc) Qc vec3 sect mat4 project_triangle m af r fs [] [] g is_op_none) in H as (tss & ps & E1 & E2 & O). cbn [app] in O.
  apply PyP.mapM_ok in E1, E2.
  assert (FP : Forall fine ps). { clear -E2. induction E2 as [|x y l l' E _ IH]; constructor; auto. exact (proj1 (tri_shadow _ _ _ _ (0, 0) E)). }
  rewrite (union_closed ps g O (fine_sharp _ FG)); [|eapply Forall_impl; [|exact FP]; exact fine_sharp].
  assert (IT : forall i, In i (List.concat tss) <-> exists f ts, In f fs /\ nth_error (af_facets _ _ af) f = Some ts /\ In i ts).
  { clear -E1. intros i. induction E1 as [|f ts l l' E _ IH]; cbn [List.concat]; [split; [intros []|intros (f & ts & [] & _)]|]. rewrite in_app_iff, IH. apply at_ok in E. split.
    - intros [I|(f' & ts' & I & N & I2)]; [exists f, ts; cbn; auto|exists f', ts'; cbn; auto].
    - intros (f' & ts' & [<-|I] & N & I2); [left; congruence|right; eauto]. }
  assert (ONE := fun i y E => proj2 (tri_shadow m r i y p E)).
  split.
  - intros (q & I & X). destruct (F2_right _ _ _ _ E2 I) as (i & Ii & E). destruct (proj1 (ONE i q E) X) as (x & X1 & X2). apply IT in Ii as (f & ts & I1 & I2 & I3). exists f, (m_triangle _ _ _ m i), x. split; [split; eauto|auto].
  - intros (f & t & x & (I1 & ts & i & I2 & I3 & ->) & X1 & X2). assert (Ii : In i (List.concat tss)) by (apply IT; eauto). destruct (F2_left _ _ _ _ E2 Ii) as (q & I & E). exists q. split; auto. apply (ONE i q E). eauto.
Qed.

Theorem face_is_shadow : forall only m cs, (forall l, Permutation l (sord l)) -> unit_normals m -> framed m -> sheets only m = Ok cs ->
  exists af, find_all_facets Qc vec3 sect sord m = Ok af /\
  forall k c, In (k, c) cs -> forall p,
    (in_or_on (sh_face0 (cs_sheet _ _ c)) p <-> exists f t x, triangle_of m af (gr_same (cs_groups _ _ c)) f t /\ in_triangle t x /\ footprint (plates m cs k) x = p) /\
    (in_or_on (sh_face1 (cs_sheet _ _ c)) p <-> exists f t x, triangle_of m af (gr_opposed (cs_groups _ _ c)) f t /\ in_triangle t x /\ footprint (plates m cs k) x = p).
Proof.
  intros only m cs SO UN FR CS. destruct (sheet_parts only m cs SO UN FR CS) as (af & F & ND & P). exists af. split; auto. intros k c I p.
  destruct (P k c I) as (_ & (s & SF & -> & S0 & S1) & _).
  split; [rewrite (support_shadow _ _ _ _ _ S0 p)|rewrite (support_shadow _ _ _ _ _ S1 p)]; (split; intros (f & t & x & X1 & X2 & X3); exists f, t, x; (split; [exact X1|split; [exact X2|]]); [rewrite (footprint_plate _ _ _ _ _ SF); exact X3|rewrite (footprint_plate _ _ _ _ _ SF) in X3; exact X3]).
Qed.

(** ** C122 *)
(** the corners of a facet's triangles are within [e] of its plane, and within [B] of the origin *)
Definition planar (m : qmesh sect) (af : all_facets Qc vec3) (e B : Qc) : Prop := forall fs f t x n o,
  triangle_of m af fs f t -> corner_of t x -> plane_of Qc vec3 dot3 af f n o -> qabs (dot3 n x - o) <= e /\ dot3 x x <= B * B.
Lemma triangle_between n t x lo hi : in_triangle t x -> (forall y, corner_of t y -> lo <= dot3 n y /\ dot3 n y <= hi) -> lo <= dot3 n x /\ dot3 n x <= hi.
Proof.
  destruct t as [[a b] c]. intros (u & v & w & U & V & W & S & ->) H. destruct (H a) as (A1 & A2); [cbn; auto|]. destruct (H b) as (B1 & B2); [cbn; auto|]. destruct (H c) as (C1 & C2); [cbn; auto|].
  assert (E : dot3 n (add3 (scale3 u a) (add3 (scale3 v b) (scale3 w c))) = u * dot3 n a + v * dot3 n b + w * dot3 n c) by (v3; ring). rewrite E. clear E.
  set (x := dot3 n a) in *. set (y := dot3 n b) in *. set (z := dot3 n c) in *.
  assert (M : forall k p q, 0 <= k -> p <= q -> k * p <= k * q). { intros k p q K PQ. rewrite (Qcmult_comm k p), (Qcmult_comm k q). now apply Qcmult_le_compat_r. }
  split.
  - replace lo with ((u + v + w) * lo) by (rewrite S; ring). pose proof (M u _ _ U A1). pose proof (M v _ _ V B1). pose proof (M w _ _ W C1). replace ((u + v + w) * lo) with (u * lo + v * lo + w * lo) by ring. qlra.
  - replace hi with ((u + v + w) * hi) by (rewrite S; ring). pose proof (M u _ _ U A2). pose proof (M v _ _ V B2). pose proof (M w _ _ W C2). replace ((u + v + w) * hi) with (u * hi + v * hi + w * hi) by ring. qlra.
Qed.
Theorem sheet_near_mesh : forall only m cs e B, (forall l, Permutation l (sord l)) -> unit_normals m -> framed m -> 0 <= normal_tol -> 0 <= offset_tol -> 0 <= B ->
  (forall n n', mesh_normal m n -> mesh_normal m n' -> forall d, d = sub3 n n' \/ d = sub3 (neg3 n) n' -> norm d < normal_tol -> norm_of norm d) -> sheets only m = Ok cs ->
  forall af, find_all_facets Qc vec3 sect sord m = Ok af -> planar m af e B ->
  let tol := normal_tol * B + e + offset_tol in
  forall k c, In (k, c) cs -> let n := cs_normal _ _ c in let o := cs_offset _ _ c in
  (forall f t x, triangle_of m af (gr_same (cs_groups _ _ c)) f t -> in_triangle t x -> qabs (dot3 n x - o) <= tol) /\
  (forall f t x, triangle_of m af (gr_opposed (cs_groups _ _ c)) f t -> in_triangle t x -> qabs (dot3 n x - (o - thickness)) <= tol).
Proof.
  intros only m cs e B SO UN FR T1 T2 PB NO CS af F PL tol k c I n o. destruct (sheet_parts only m cs SO UN FR CS) as (af' & F' & ND & P). assert (af' = af) by congruence. subst af'. clear F'.
  destruct (P k c I) as (MN & _ & [_ (f0 & r & E0 & P0 & Q0) (_ & Q1) _ _ _]). fold n in MN, P0, Q0, Q1. fold o in P0, Q0, Q1. clear P.
  assert (NB : 0 <= normal_tol * B) by now apply qnn_mul.
  assert (EB : forall fs f t x, triangle_of m af fs f t -> corner_of t x -> forall n' o', plane_of Qc vec3 dot3 af f n' o' -> mesh_normal m n').
  { intros fs f t x _ _ n' o' (X & _). apply nth_error_In in X. exact (normals_of _ _ _ F X). }
  assert (BT : forall a y, norm_of norm a -> qltb (norm a) normal_tol = true -> dot3 y y <= B * B -> - (normal_tol * B) <= dot3 a y /\ dot3 a y <= normal_tol * B).
  { intros a y NA LT Y. apply qltb_lt in LT. pose proof (dot_bound norm a y B NA PB Y) as D. apply qabs_le in D as (D1 & D2).
    assert (L : norm a * B <= normal_tol * B) by (apply Qcmult_le_compat_r; [qlra|exact PB]). split; qlra. }
  split.
  - intros f t x TR X. assert (K : forall y, corner_of t y -> o - tol <= dot3 n y /\ dot3 n y <= o + tol).
    { intros y Y. pose proof TR as (IF & _). rewrite E0 in IF. destruct IF as [<-|IF].
      - apply plane_ok in P0. destruct (PL _ _ _ _ _ _ TR Y P0) as (D & _). apply qabs_le in D as (D1 & D2). unfold tol. split; qlra.
      - apply Q0 in IF. unfold facet_status in IF. apply bind_ok in IF as ((n' & o') & PP & IF). apply plane_ok in PP. destruct (PL _ _ _ _ _ _ TR Y PP) as (D & YB). apply qabs_le in D as (D1 & D2).
        destruct (same_plane _ _ _ _ _ _ _ _ _ _ _ _ _) eqn:SP in IF.
        + apply andb_true_iff in SP as (S1 & S2). apply qltb_lt, qabs_lt in S2 as (S2 & S3).
          destruct (BT (sub3 n' n) y (NO n' n (EB _ _ _ _ TR Y _ _ PP) MN _ (or_introl eq_refl) (proj1 (qltb_lt _ _) S1)) S1 YB) as (B1 & B2).
          assert (E : dot3 (sub3 n' n) y = dot3 n' y - dot3 n y) by (unfold sub3, neg3; v3; ring). rewrite E in B1, B2. unfold tol. split; qlra.
        + exfalso. destruct (opposed_plane _ _ _ _ _ _ _ _ _ _ _ _ _ _ _ _ _) in IF; [discriminate IF|]. destruct (qltb _ _) in IF; [|discriminate IF]. apply bind_ok in IF as (b & _ & IF). apply Ok_inv in IF. destruct (forallb _ _) in IF; discriminate IF. }
    destruct (triangle_between n t x _ _ X K) as (K1 & K2). apply qabs_le. split; qlra.
  - intros f t x TR X. assert (K : forall y, corner_of t y -> o - thickness - tol <= dot3 n y /\ dot3 n y <= o - thickness + tol).
    { intros y Y. pose proof TR as (IF & _). apply Q1 in IF. unfold facet_status in IF. apply bind_ok in IF as ((n' & o') & PP & IF). apply plane_ok in PP. destruct (PL _ _ _ _ _ _ TR Y PP) as (D & YB). apply qabs_le in D as (D1 & D2).
      destruct (same_plane _ _ _ _ _ _ _ _ _ _ _ _ _) in IF; [discriminate IF|].
      destruct (opposed_plane _ _ _ _ _ _ _ _ _ _ _ _ _ _ _ _ _) eqn:SP in IF.
      + apply andb_true_iff in SP as (S1 & S2). apply qltb_lt, qabs_lt in S2 as (S2 & S3).
        destruct (BT (sub3 (neg3 n') n) y (NO n' n (EB _ _ _ _ TR Y _ _ PP) MN _ (or_intror eq_refl) (proj1 (qltb_lt _ _) S1)) S1 YB) as (B1 & B2).
        assert (E : dot3 (sub3 (neg3 n') n) y = - dot3 n' y - dot3 n y) by (unfold sub3, neg3; v3; ring). rewrite E in B1, B2. unfold tol. split; qlra.
      + exfalso. destruct (qltb _ _) in IF; [|discriminate IF]. apply bind_ok in IF as (b & _ & IF). apply Ok_inv in IF. destruct (forallb _ _) in IF; discriminate IF. }
    destruct (triangle_between n t x _ _ X K) as (K1 & K2). apply qabs_le. split; qlra.
Qed.

(** C120 for a mesh: in the assembled object a part of the crossing of two plates with a chosen coordinate that is allowed until the last step is material *)
Theorem mesh_crossing_filled : forall fsqrt fl R mn mx ord sord1 rof rad ci pord only m sp sb h, (forall l, Permutation l (sord l)) -> (forall d, Permutation d (pord d)) -> (forall c, Permutation c (ord c)) ->
  root_ok fsqrt -> 0 < thickness -> unit_normals m -> framed m -> sections_clean orient sect section_shape ->
  (forall n n', mesh_normal m n -> mesh_normal m n' -> norm_of norm (cross3 n n')) -> plex pord only m = Ok sp ->
  canned_1 A fsqrt fl R mn mx ord sord1 None rof sp rad ci = Ok (mkCanned true sb h) ->
  exists cs b, sheets only m = Ok cs /\ nth_error h 12 = Some b /\ forall s o x, joint sp s o ->
    exists c c', In (is_sheet s, c) cs /\ In (is_sheet o, c') cs /\
    (cs_offset _ _ c - thickness < dot3 (cs_normal _ _ c) x -> dot3 (cs_normal _ _ c) x < cs_offset _ _ c ->
     cs_offset _ _ c' - thickness < dot3 (cs_normal _ _ c') x -> dot3 (cs_normal _ _ c') x < cs_offset _ _ c' ->
     let p := footprint (plates m cs (is_sheet s)) x in
     inside1 (chosen_of sb (is_id s)) (along s p) -> g2_locate (geom_at (sb_sok b) (is_sheet s)) p = Ok 1%Z -> g2_locate (geom_at (sb_schosen sb) (is_sheet s)) p = Ok 1%Z).
Proof.
  intros fsqrt fl R mn mx ord sord1 rof rad ci pord only m sp sb h SO PO OO RO T UN FR SC NO P C.
  destruct (mesh_in_space pord only m sp SO PO T UN FR NO P) as (cs & CS & SP & IS & SL). destruct (sheet_parts only m cs SO UN FR CS) as (af & F & ND & PT).
  assert (PC : plex_clean sp).
  { unfold plex, mesh_sheetplex in P. apply bind_ok in P as (cs' & CS' & P). assert (cs' = cs) by (unfold sheets in CS; congruence). subst cs'.
    refine (proj1 (proj2 (mesh_plex orc orient Qc vec3 sect mat4 Qcopp qabs Qcplus Qcminus qltb qleb neg3 sub3 norm dot3 linspace argsort section_shape (fun s => no_shift (to_3D s)) project_triangle sord thickness normal_tol offset_tol
      (space_frames norm (plates m cs)) pord only m sp SO PO _ SC _))).
    - intros r' [[a b] c] v E. apply Ok_inv in E as <-. reflexivity.
    - unfold create_sheetplex. pose proof CS as X. unfold sheets, mesh_sheets, A in X. rewrite X. cbn [bind]. exact P. }
  destruct (chosen_crossing_filled orc fsqrt fl R mn mx ord sord1 norm (plates m cs) rof sp rad ci sb h RO SP PC OO C) as (b & B & K).
  exists cs, b. split; auto. split; auto. intros s o x J.
  assert (HS : forall t, side_of sp t -> exists c, In (is_sheet t, c) cs).
  { intros t Ht. destruct (side_sheet _ _ (space_made _ _ _ SP) Ht) as (sh & Hs). apply IS in Hs as (c & Hc & _). eauto. }
  destruct (HS s (proj1 J)) as (c & Hc). destruct (HS o (proj1 (joint_sym _ _ _ (space_made _ _ _ SP) J))) as (c' & Hc'). exists c, c'. split; auto. split; auto. intros X1 X2 X3 X4 p I1 I2.
  assert (INS : forall k e, In (k, e) cs -> cs_offset _ _ e - thickness < dot3 (cs_normal _ _ e) x -> dot3 (cs_normal _ _ e) x < cs_offset _ _ e -> inside_slab (plates m cs k) x).
  { intros k e I Y1 Y2. destruct (PT k e I) as (_ & (s0 & SF & -> & _) & _). unfold inside_slab, pl_normal, pl_offset, side_of_plate, make_plate. cbn [pl_side0 pl_side1 v4 vw]. split; [exact Y2|].
    replace (dot3 (scale3 (- (1)) (cs_normal _ _ e)) x) with (- dot3 (cs_normal _ _ e) x) by (v3; ring). qlra. }
  apply (K s o x J (INS _ _ Hc X1 X2) (INS _ _ Hc' X3 X4) I1 I2).
Qed.
End Mesh.
Print Assumptions mesh_crossing_filled.
Print Assumptions slices_at.
Print Assumptions mesh_in_space.
Print Assumptions face_is_shadow.
Print Assumptions sheet_near_mesh.

(** ** Example: a plate lying on the ground and one standing on it, 20 x 20 x 4 each, given by the two large sides of each. *)
Module SpaceMeshEx.
Definition z3 (x y z : Z) : vec3 := V3 (zq x) (zq y) (zq z).
Definition vert (i : nat) : vec3 :=
  nth i [z3 0 0 4; z3 20 0 4; z3 20 20 4; z3 0 20 4; z3 0 0 0; z3 20 0 0; z3 20 20 0; z3 0 20 0; z3 0 4 0; z3 20 4 0; z3 20 4 20; z3 0 4 20; z3 20 0 20; z3 0 0 20] (z3 0 0 0).
Definition face (t : nat) : nat * nat * nat := nth t [(0, 1, 2); (0, 2, 3); (4, 6, 5); (4, 7, 6); (8, 10, 9); (8, 11, 10); (4, 5, 12); (4, 12, 13)]%nat (0, 0, 0)%nat.
Definition normals : list vec3 := [z3 0 0 1; z3 0 0 (-1); z3 0 1 0; z3 0 (-1) 0].
Definition veqb (a b : vec3) : bool := qeqb (vx a) (vx b) && qeqb (vy a) (vy b) && qeqb (vz a) (vz b).
(** a section is true if it is one of the upright plate *)
Definition section (n : vec3) (hs : list Qc) : list (option bool) :=
  map (fun h => if veqb n (z3 0 0 1) && qltb 0 h && qltb h (zq 4) then Some false else if veqb n (z3 0 1 0) && qltb 0 h && qltb h (zq 4) then Some true else None) hs.
Definition m : qmesh bool := mkMesh Qc vec3 bool 8 8 face (fun t => let '(a, b, c) := face t in (vert a, vert b, vert c))
  (fun _ => z3 0 0 1) (fun _ => zq 200) vert [[0; 1]; [2; 3]; [4; 5]; [6; 7]]%nat normals (Some [vert 0; vert 4; vert 8; vert 4])
  [zq 400; zq 400; zq 400; zq 400] [[(0, 1); (1, 2); (2, 3); (3, 0)]; [(4, 7); (7, 6); (6, 5); (5, 4)]; [(8, 11); (11, 10); (10, 9); (9, 8)]; [(4, 5); (5, 12); (12, 13); (13, 4)]]%nat section.
Definition flat : mat4 := M4 (V4 (V3 1 0 0) 0) (V4 (V3 0 1 0) 0) (V4 (V3 0 0 1) (zq 2)) (V4 (V3 0 0 0) 1).
Definition upright : mat4 := M4 (V4 (V3 1 0 0) 0) (V4 (V3 0 0 1) (zq 2)) (V4 (V3 0 (- (1)) 0) 0) (V4 (V3 0 0 0) 1).
Definition to_3D (s : bool) : mat4 := if s then upright else flat.
Definition square (y0 y1 : Z) : shape :=
  ShPolygon (mkShpoly [[NFloat 0; NFloat (zq y0)]; [NFloat 0; NFloat (zq y1)]; [NFloat (zq 20); NFloat (zq y1)]; [NFloat (zq 20); NFloat (zq y0)]; [NFloat 0; NFloat (zq y0)]] []).
Definition shape_of (s : bool) : shape := if s then square (-20) 0 else square 0 20.
Definition norm := SpaceEx.norm.
Notation sheets := (mesh_sheets (segment_arrangement (fun _ _ _ => O)) (fun p => p) norm bool (fun l => rev (seq 0 (List.length l))) shape_of to_3D (fun l => l) (zq 4) (qq 1 1000) (qq 1 10)).
Notation plex := (mesh_sheetplex (segment_arrangement (fun _ _ _ => O)) (fun p => p) norm bool (fun l => rev (seq 0 (List.length l))) shape_of to_3D (fun l => l) (zq 4) (qq 1 1000) (qq 1 10) (fun d => d) None m).
Lemma normal_cases n : mesh_normal bool m n -> n = z3 0 0 1 \/ n = z3 0 0 (-1) \/ n = z3 0 1 0 \/ n = z3 0 (-1) 0.
Proof. intros [I|(t & ->)]; [cbn in I; intuition congruence|now left]. Qed.
Lemma frames_ok : section_frame (z3 0 0 1) flat /\ section_frame (z3 0 1 0) upright.
Proof.
  unfold section_frame, orthonormal. repeat match goal with |- _ /\ _ => split end; try reflexivity; try (apply Qc_is_canon; vm_compute; reflexivity); apply vec3_ext; apply Qc_is_canon; vm_compute; reflexivity.
Qed.
Lemma m_ok : unit_normals bool m /\ framed bool to_3D m.
Proof.
  split.
  - assert (K : forall n, mesh_normal bool m n -> dot3 n n = 1) by (intros n N; apply normal_cases in N as [->|[->|[->| ->]]]; apply Qc_is_canon; vm_compute; reflexivity).
    split; [intros n I; apply K; now left|intros t; apply K; right; now exists t].
  - intros n hs s _ I. cbn [m m_section] in I. unfold section in I. apply in_map_iff in I as (h & E & _).
    assert (V : forall a b, veqb a b = true -> a = b).
    { intros a b H. apply andb_true_iff in H as (H & H3). apply andb_true_iff in H as (H1 & H2). apply qeqb_eq in H1, H2, H3. now apply vec3_ext. }
    destruct (veqb n (z3 0 0 1) && qltb 0 h && qltb h (zq 4)) eqn:E1; [injection E as <-|destruct (veqb n (z3 0 1 0) && qltb 0 h && qltb h (zq 4)) eqn:E2; [injection E as <-|discriminate E]].
    + apply andb_true_iff in E1 as (E1 & _). apply andb_true_iff in E1 as (E1 & _). apply V in E1 as ->. apply frames_ok.
    + apply andb_true_iff in E2 as (E2 & _). apply andb_true_iff in E2 as (E2 & _). apply V in E2 as ->. apply frames_ok.
Qed.
Lemma norms_ok n n' : mesh_normal bool m n -> mesh_normal bool m n' ->
  norm_of norm (cross3 n n') /\ forall d, d = sub3 n n' \/ d = sub3 (neg3 n) n' -> norm d < qq 1 1000 -> norm_of norm d.
Proof.
  intros N N'. apply normal_cases in N, N'. split.
  - destruct N as [->|[->|[->| ->]]], N' as [->|[->|[->| ->]]]; (split; [vm_compute; discriminate|apply Qc_is_canon; vm_compute; reflexivity]).
  - assert (Z : forall d, norm d = 0 -> dot3 d d = 0 -> norm_of norm d) by (intros d D1 D2; split; [rewrite D1; qlra|rewrite D1, D2; ring]).
    intros d D L. destruct N as [->|[->|[->| ->]]], N' as [->|[->|[->| ->]]], D as [->| ->];
      first [exfalso; revert L; vm_compute; discriminate|apply Z; apply Qc_is_canon; vm_compute; reflexivity].
Qed.
(** two sheets that meet in a joint; the premises of the theorems hold *)
Example mesh_space_ex : exists cs sp, sheets None m = Ok cs /\ plex = Ok sp /\
  map (fun e => (fst e, cs_groups _ _ (snd e))) cs = [("s0", mkGroups [0] [1] [] [2; 3]); ("s1", mkGroups [2] [3] [] [])]%string%nat /\ List.length (sp_inters sp) = 1%nat /\
  (exists d, space_plex norm d sp) /\ exists x, in_or_on (sh_face0 (cs_sheet _ _ (snd (nth 1 cs (""%string, mkCsheet _ _ (mkGroups [] [] [] []) (z3 0 0 0) 0 [] (SpaceEx.sheet_of "")))))) x.
Proof.
  assert (E : match sheets None m, plex with
              | Ok cs, Ok sp => andb (Nat.eqb (List.length (sp_inters sp)) 1) (match cs with [a; b] => true | _ => false end) = true /\
                  map (fun e => (fst e, cs_groups _ _ (snd e))) cs = [("s0", mkGroups [0] [1] [] [2; 3]); ("s1", mkGroups [2] [3] [] [])]%string%nat
              | _, _ => False end) by (vm_compute; auto).
  destruct (sheets None m) as [cs|] eqn:C; [|destruct E]. destruct plex as [sp|] eqn:P; [|destruct E]. destruct E as (E & G). apply andb_true_iff in E as (E1 & E2). apply Nat.eqb_eq in E1.
  exists cs, sp. split; auto. split; auto. split; auto. split; auto. destruct m_ok as (U & F). split.
  - destruct (mesh_in_space (fun _ _ _ => O) (fun p => p) norm bool (fun l => rev (seq 0 (List.length l))) shape_of to_3D (fun l => l) (zq 4) (qq 1 1000) (qq 1 10) (fun d => d) None m sp
      (fun l => Permutation_refl l) (fun l => Permutation_refl l) (proj1 (qltb_lt 0 (zq 4)) eq_refl) U F (fun n n' N N' => proj1 (norms_ok n n' N N')) P) as (cs' & _ & SP & _).
    exists (mesh_plates bool to_3D (zq 4) (qq 1 10) m cs'). exact SP.
  - destruct cs as [|[k0 c0] [|[k c] [|]]]; try discriminate E2. cbn [nth snd]. exists (0, 0).
    destruct (face_is_shadow (fun _ _ _ => O) (fun p => p) norm bool (fun l => rev (seq 0 (List.length l))) shape_of to_3D (fun l => l) (zq 4) (qq 1 1000) (qq 1 10) None m _ (fun l => Permutation_refl l) U F C) as (af & FA & SH).
    destruct (SH k c (or_intror (or_introl eq_refl)) (0, 0)) as (SH0 & _). apply SH0. clear SH SH0. cbn [map fst snd] in G. injection G as _ _ -> ->. cbn [gr_same].
    assert (FA' : af = match find_all_facets Qc vec3 bool (fun l => l) m with Ok x => x | Err _ => mkFacets _ _ [] [] [] [] [] end) by (rewrite FA; reflexivity).
    exists 2%nat, (vert 8, vert 10, vert 9), (vert 8). split; [split; [now left|]; exists [4; 5]%nat, 4%nat; split; [rewrite FA'; vm_compute; reflexivity|split; [now left|reflexivity]]|]. split.
    + exists 1, 0, 0. do 3 (split; [vm_compute; discriminate|]). split; [ring|]. apply vec3_ext; apply Qc_is_canon; vm_compute; reflexivity.
    + assert (X : match sheets None m with Ok cs => footprint (mesh_plates bool to_3D (zq 4) (qq 1 10) m cs "s1") (vert 8) | Err _ => (1, 1) end = (0, 0)).
      { assert (Y : match sheets None m with Ok cs => let q := footprint (mesh_plates bool to_3D (zq 4) (qq 1 10) m cs "s1") (vert 8) in qeqb (fst q) 0 && qeqb (snd q) 0 | Err _ => false end = true) by (vm_compute; reflexivity).
        destruct (sheets None m); [|discriminate Y]. destruct (footprint _ _) as [u v]. cbn [fst snd] in Y. apply andb_true_iff in Y as (Y1 & Y2). apply qeqb_eq in Y1, Y2. now subst. }
      rewrite C in X. exact X.
Qed.
End SpaceMeshEx.
