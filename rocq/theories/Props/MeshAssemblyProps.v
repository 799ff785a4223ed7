(** * The object assembled from a mesh: C126, C127 *)
From Verif.Model Require Import SegmentTree CellMerger Arrangement2d Geom2d Geom1d Sheetplex Sheetbuild Heuristics Canned CreateSheets Frames SpaceMesh.
From Verif.Spec Require Import Plane Region PointSet1 Crisp Simple Space Shadow Steps.
From Verif.Proofs Require Import PyP PolyP PlanarP DictP Geom2dP SheetplexP FingerP SheetbuildP CreateP CreateSheetsP HeuristicsP StepsP SpaceP.
From Verif.Props Require Import LocateProps Geom1dProps Geom2dProps SheetplexProps CannedProps JointProps CreateSheetsProps CrispProps RunSharpProps MeshProps SheetbuildProps StepsProps AssignProps SpaceProps AssemblyProps CompleteProps SpaceMeshProps GapProps PlainProps.
From Coq Require Import String Permutation.
Open Scope Qc_scope.

(** two points with the same footprint differ along the normal *)
Lemma same_footprint pl x y : plate_ok pl -> footprint pl x = footprint pl y -> let n := pl_normal pl false in y = add3 x (scale3 (dot3 n y - dot3 n x) n).
Proof.
  intros PO F n. pose proof PO as (O & E2 & _). unfold n. clear n. set (n := pl_normal pl false) in *. rewrite E2 in O. set (a := v4 (row0 (pl_inverse pl))) in *. set (b := v4 (row1 (pl_inverse pl))) in *.
  rewrite !(footprint_eq pl PO) in F. fold a b in F. apply pair_inv in F as (F1 & F2).
  pose proof O as (A1 & B1 & C1 & AB & AC & BC). set (u := add3 y (scale3 (- (1)) (add3 x (scale3 (dot3 n y - dot3 n x) n)))).
  assert (U : u = V3 0 0 0).
  { apply (ortho_zero a b n u O); unfold u; rewrite !dot3_add, !dot3_scale, !dot3_add, !dot3_scale; [rewrite AC|rewrite BC|rewrite C1]; [rewrite F1|rewrite F2|]; ring. }
  unfold u in U. destruct y as [y1 y2 y3]. destruct (add3 x (scale3 (dot3 n (V3 y1 y2 y3) - dot3 n x) n)) as [z1 z2 z3]. unfold add3, scale3 in U. cbn [vx vy vz] in U. pose proof (f_equal vx U) as U1. pose proof (f_equal vy U) as U2. pose proof (f_equal vz U) as U3. cbn [vx vy vz] in U1, U2, U3. apply vec3_ext; cbn [vx vy vz]; [transitivity (y1 + - (1) * z1 + z1)|transitivity (y2 + - (1) * z2 + z2)|transitivity (y3 + - (1) * z3 + z3)]; try ring; [rewrite U1|rewrite U2|rewrite U3]; ring.
Qed.

Lemma joint_other sp s o : plex_made sp -> joint sp s o -> is_sheet s <> is_sheet o.
Proof.
  intros M ((k & it & I & Is) & J). destruct (made_two sp k it M I) as (s0 & s1 & E & NE & _ & O0 & O1). rewrite E in Is. destruct Is as [<-|[<-|[]]]; [rewrite O0 in J|rewrite O1 in J]; apply Ok_inv in J as <-; auto.
Qed.

Section Mesh.
Variable orc : list segment -> nat -> nat -> nat.
Let A := segment_arrangement orc.
Variable orient : shpoly -> shpoly.
Variable norm : vec3 -> Qc.
Variable sect : Type.
Variable argsort : list Qc -> list nat.
Variable section_shape : sect -> shape.
Variable to_3D : sect -> mat4.
Variable sord : list nat -> list nat.
Variable thickness normal_tol offset_tol : Qc.
Let sheets := mesh_sheets A orient norm sect argsort section_shape to_3D sord thickness normal_tol offset_tol.
Let plex := mesh_sheetplex A orient norm sect argsort section_shape to_3D sord thickness normal_tol offset_tol.
Let plates := mesh_plates sect to_3D thickness offset_tol.

(** what is assumed of a mesh and of trimesh: unit normals, section frames and polygons as documented, exact norms of the cross products that occur *)
Definition mesh_ok (m : qmesh sect) : Prop :=
  unit_normals sect m /\ framed sect to_3D m /\ sections_clean orient sect section_shape /\ (forall n n', mesh_normal sect m n -> mesh_normal sect m n' -> norm_of norm (cross3 n n')).
(** the sections are cuts of the solid [body]: every point of the polygons of a section is the footprint of a point of the solid at that height.
    One section per height; all sections of one call have the same rotation. *)
Definition cuts_of (body : vec3 -> Prop) (m : qmesh sect) : Prop := forall n hs, dot3 n n = 1 ->
  List.length (m_section _ _ _ m n hs) = List.length hs /\ (forall s s', In (Some s) (m_section _ _ _ m n hs) -> In (Some s') (m_section _ _ _ m n hs) -> no_shift (to_3D s) = no_shift (to_3D s')) /\
  forall i h s g p, nth_error hs i = Some h -> nth_error (m_section _ _ _ m n hs) i = Some (Some s) -> from_shapely orient (section_shape s) = Ok g -> in_or_on g p ->
    exists y, body y /\ dot3 n y = h /\ project_corner (no_shift (to_3D s)) y = p.
(** [x] is in the plate of the sheet [c], its faces included; strictly inside *)
Definition in_plate (c : qsheet) (x : vec3) : Prop := cs_offset _ _ c - thickness <= dot3 (cs_normal _ _ c) x /\ dot3 (cs_normal _ _ c) x <= cs_offset _ _ c.
Definition inside_plate (c : qsheet) (x : vec3) : Prop := cs_offset _ _ c - thickness < dot3 (cs_normal _ _ c) x /\ dot3 (cs_normal _ _ c) x < cs_offset _ _ c.

Lemma mesh_setup pord only m sp : (forall l, Permutation l (sord l)) -> (forall d, Permutation d (pord d)) -> 0 < thickness -> mesh_ok m -> plex pord only m = Ok sp ->
  exists cs, sheets only m = Ok cs /\ space_plex norm (plates m cs) sp /\ plex_clean sp /\ (forall k sh, In (k, sh) (sp_sheets sp) <-> exists c, In (k, c) cs /\ sh = cs_sheet _ _ c) /\
    (forall t, side_of sp t -> exists c, In (is_sheet t, c) cs) /\
    forall k c, In (k, c) cs -> plate_ok (plates m cs k) /\ pl_normal (plates m cs k) false = cs_normal _ _ c /\ dot3 (cs_normal _ _ c) (cs_normal _ _ c) = 1 /\
      forall x, (in_slab (plates m cs k) x <-> in_plate c x) /\ (inside_slab (plates m cs k) x <-> inside_plate c x).
Proof.
  intros SO PO T (UN & FR & SC & NO) P.
  destruct (mesh_in_space orc orient norm sect argsort section_shape to_3D sord thickness normal_tol offset_tol pord only m sp SO PO T UN FR NO P) as (cs & CS & SP & IS & SL).
  destruct (sheet_parts orc orient norm sect argsort section_shape to_3D sord thickness normal_tol offset_tol only m cs SO UN FR CS) as (af & F & ND & PT).
  exists cs. split; [exact CS|]. split; [exact SP|]. split; [|split; [exact IS|split]].
  - unfold plex, mesh_sheetplex in P. apply bind_ok in P as (cs' & CS' & P). assert (cs' = cs) by (unfold A in CS'; congruence). subst cs'.
    refine (proj1 (proj2 (mesh_plex orc orient Qc vec3 sect mat4 Qcopp qabs Qcplus Qcminus qltb qleb neg3 sub3 norm dot3 linspace argsort section_shape (fun s => no_shift (to_3D s)) project_triangle sord thickness normal_tol offset_tol
      (space_frames norm (plates m cs)) pord only m sp SO PO _ SC _))).
    + intros r' [[a b] c] v E. apply Ok_inv in E as <-. reflexivity.
    + unfold create_sheetplex. pose proof CS as X. unfold mesh_sheets in X. rewrite X. cbn [bind]. exact P.
  - intros t Ht. destruct (side_sheet _ _ (space_made _ _ _ SP) Ht) as (sh & Hs). apply IS in Hs as (c & Hc & _). eauto.
  - intros k c I. destruct (PT k c I) as (MN & (s & SF & E & _) & _). fold plates in E. rewrite E. destruct (made_plate _ (cs_offset _ _ c) _ _ SF T) as (PK & IN & _).
    split; [exact PK|]. split; [reflexivity|]. split; [destruct UN as (U1 & U2); destruct MN as [MN|(t & MN)]; [now apply U1|rewrite MN; apply U2]|].
    intros x. split; [exact (IN x)|]. unfold inside_slab, inside_plate, pl_normal, pl_offset, side_of_plate, make_plate. cbn [pl_side0 pl_side1 v4 vw].
    replace (dot3 (scale3 (- (1)) (cs_normal _ _ c)) x) with (- dot3 (cs_normal _ _ c) x) by (v3; ring). split; intros (X & Y); split; qlra.
Qed.

(** ** C126 *)
(** whatever the run ends with, the sheets put in their places have material only over or under the solid, at most the thickness away along the normal of the sheet *)
Theorem assembled_near_body : forall fsqrt fl R mn mx ord sord1 show rof rad ci pord only m body sp ok sb h, (forall l, Permutation l (sord l)) -> (forall d, Permutation d (pord d)) -> (forall c, Permutation c (ord c)) ->
  root_ok fsqrt -> 0 < thickness -> 0 <= offset_tol -> offset_tol <= thickness -> mesh_ok m -> cuts_of body m -> plex pord only m = Ok sp ->
  canned_1 A fsqrt fl R mn mx ord sord1 show rof sp rad ci = Ok (mkCanned ok sb h) ->
  exists cs, sheets only m = Ok cs /\ forall k x, in_or_on (geom_at (sb_schosen sb) k) (footprint (plates m cs k) x) -> exists c, In (k, c) cs /\
    (in_plate c x -> exists y t, body y /\ in_plate c y /\ y = add3 x (scale3 t (cs_normal _ _ c)) /\ - thickness <= t /\ t <= thickness).
Proof.
  intros fsqrt fl R mn mx ord sord1 show rof rad ci pord only m body sp ok sb h SO PO OO RO T T0 T1 MK CB P C.
  destruct (mesh_setup pord only m sp SO PO T MK P) as (cs & CS & SP & PC & IS & _ & PL). destruct MK as (UN & FR & SC & NO). exists cs. split; auto. intros k x IN.
  assert (P' : create_sheetplex A orient Qc vec3 sect mat4 Qcopp qabs Qcplus Qcminus qltb qleb neg3 sub3 norm dot3 linspace argsort section_shape (fun s => no_shift (to_3D s)) project_triangle sord thickness normal_tol offset_tol
    (space_frames norm (plates m cs)) pord only m = Ok sp).
  { unfold plex, mesh_sheetplex in P. apply bind_ok in P as (cs' & CS' & P). assert (cs' = cs) by (unfold sheets in CS; congruence). subst cs'. unfold create_sheetplex. pose proof CS as X. unfold sheets, mesh_sheets in X. rewrite X. cbn [bind]. exact P. }
  destruct (mesh_result_within_sections_everywhere orc orient Qc vec3 sect mat4 Qcopp qabs Qcplus Qcminus qltb qleb neg3 sub3 norm dot3 linspace argsort section_shape (fun s => no_shift (to_3D s)) project_triangle sord thickness normal_tol offset_tol
    (space_frames norm (plates m cs)) pord only m sp fsqrt fl R mn mx ord sord1 show rof rad ci ok sb h SO PO OO RO) as (cs' & CS' & W); auto.
  { intros r' [[a b] c] v E. apply Ok_inv in E as <-. reflexivity. }
  assert (cs' = cs) by (unfold sheets, mesh_sheets, A in CS; congruence). subst cs'. destruct (W k _ IN) as (c & g & Ic & Ig & Q). exists c. split; auto. intros XP.
  destruct (slices_at orc orient norm sect argsort section_shape to_3D sord thickness normal_tol offset_tol only m cs SO UN FR CS k c Ic) as (s & ss & S1 & S2 & S3).
  destruct (PL k c Ic) as (PK & EN & U1 & INS). set (o := cs_offset _ _ c) in *. set (n := cs_normal _ _ c) in *.
  set (hs := [o + offset_tol; o - thickness - offset_tol; o - thickness + offset_tol; o - thickness * qq 1 2; o - offset_tol]) in *.
  destruct (CB n hs U1) as (LEN & ROT & CUT). destruct (m_section _ _ _ m n hs) as [|z0 [|z1 l]] eqn:ES; try discriminate S1. cbn [skipn] in S1. subst l.
  destruct (In_nth_error _ _ Ig) as (i & Ei).
  assert (X : exists s', nth_error (s :: ss) i = Some s' /\ from_shapely orient (section_shape s') = Ok g).
  { clear -S3 Ei. revert i Ei. induction S3 as [|a b l l' E F IH]; intros [|i] Ei; cbn [nth_error] in *; try discriminate Ei; [injection Ei as <-; eauto|now apply IH]. }
  destruct X as (s' & Es' & Eg). assert (HI : exists hh, nth_error hs (S (S i)) = Some hh /\ o - thickness <= hh /\ hh <= o).
  { assert (Li : (i < 3)%nat).
    { assert (LS : (i < List.length (s :: ss))%nat) by (apply nth_error_Some; rewrite Es'; discriminate). cbn [List.length] in LEN. rewrite map_length in LEN. unfold hs in LEN. cbn [List.length] in LEN, LS. lia. }
    unfold hs. destruct i as [|[|[|i]]]; [| | |lia]; cbn [nth_error]; eexists; (split; [reflexivity|]); split; qlra. }
  destruct HI as (hh & Eh & H1 & H2).
  assert (Es2 : nth_error (z0 :: z1 :: map Some (s :: ss)) (S (S i)) = Some (Some s')) by (cbn [nth_error]; rewrite nth_error_map, Es'; reflexivity).
  destruct (CUT (S (S i)) hh s' g _ Eh Es2 Eg Q) as (y & By & Hy & Fy).
  assert (FE : footprint (plates m cs k) y = footprint (plates m cs k) x).
  { rewrite <- Fy. rewrite (ROT s' s); [|apply nth_error_In in Es2; exact Es2|cbn; auto]. fold plates in S2. rewrite S2. apply footprint_plate. apply (FR n hs); [exact U1|]. rewrite ES. cbn. auto. }
  exists y, (dot3 n y - dot3 n x). split; auto. pose proof (same_footprint _ x y PK (eq_sym FE)) as SF. cbv zeta in SF. rewrite EN in SF. fold n in SF.
  destruct XP as (X1 & X2). fold n o in X1, X2. split; [split; fold n o; qlra|]. split; [exact SF|]. split; qlra.
Qed.

(** ** C127 *)
(** a point with both faces and a section, and no other plate above or below it within the thickness of its sheet, is material *)
Theorem mesh_plain_kept : forall fsqrt fl R mn mx ord sord1 show rof rad ci pord only m sp ok sb h, (forall l, Permutation l (sord l)) -> (forall d, Permutation d (pord d)) -> (forall c, Permutation c (ord c)) ->
  root_ok fsqrt -> 0 < thickness -> mesh_ok m -> plex pord only m = Ok sp -> canned_1 A fsqrt fl R mn mx ord sord1 show rof sp rad ci = Ok (mkCanned ok sb h) ->
  exists cs, sheets only m = Ok cs /\ forall k c x, In (k, c) cs -> (forall b, g2_and A (sh_face0 (cs_sheet _ _ c)) (sh_face1 (cs_sheet _ _ c)) = Ok b -> no_nesting b) ->
    supported_at (cs_sheet _ _ c) (footprint (plates m cs k) x) ->
    (forall t k' c', let y := add3 x (scale3 t (cs_normal _ _ c)) in In (k', c') cs -> k' <> k -> in_plate c y -> ~ in_plate c' y) ->
    g2_locate (geom_at (sb_schosen sb) k) (footprint (plates m cs k) x) = Ok 1%Z.
Proof.
  intros fsqrt fl R mn mx ord sord1 show rof rad ci pord only m sp ok sb h SO PO OO RO T MK P C.
  destruct (mesh_setup pord only m sp SO PO T MK P) as (cs & CS & SP & PC & IS & SD & PL). exists cs. split; auto. intros k c x I NN SU NO.
  apply (plain_kept_in_space _ _ _ _ _ _ _ _ _ _ _ _ _ _ _ _ _ _ RO SP PC OO C k (cs_sheet _ _ c)); auto; [apply IS; eauto|].
  intros s o y J Es X1 X2 F. destruct (PL k c I) as (PK & EN & _ & INS). destruct (SD o) as (c' & I'); [apply (joint_sym _ _ _ (space_made _ _ _ SP)) in J; apply J|].
  pose proof (same_footprint _ x y PK (eq_sym F)) as E. cbv zeta in E. rewrite EN in E. apply (NO (dot3 (cs_normal _ _ c) y - dot3 (cs_normal _ _ c) x) _ _ I'); rewrite <- ?E.
  - rewrite <- Es. apply not_eq_sym. exact (joint_other _ _ _ (space_made _ _ _ SP) J).
  - now apply INS.
  - now apply (proj2 (proj2 (proj2 (PL _ _ I'))) y).
Qed.
(** where two plates cross, a successful run leaves common material only on a finger of a third joint or on a strip of almost no area *)
Theorem mesh_collisions : forall fsqrt fl R mn mx ord sord1 rof rad q ci pord only m sp sb h, (forall l, Permutation l (sord l)) -> (forall d, Permutation d (pord d)) -> (forall c, Permutation c (ord c)) ->
  root_ok fsqrt -> 0 < thickness -> mesh_ok m -> pval rad = Some (Fin q) -> 1 < q -> plex pord only m = Ok sp -> canned_1 A fsqrt fl R mn mx ord sord1 None rof sp rad ci = Ok (mkCanned true sb h) ->
  exists cs, sheets only m = Ok cs /\ ((forall k c g, In (k, c) cs -> In g [sh_face0 (cs_sheet _ _ c); sh_face1 (cs_sheet _ _ c)] -> tidy g /\ no_nesting g) ->
    forall s o, joint sp s o -> let a := is_sheet s in let b := is_sheet o in exists c c', In (a, c) cs /\ In (b, c') cs /\ forall x, inside_plate c x -> inside_plate c' x ->
      qabs (along s (footprint (plates m cs a) x)) < zq 1000 ->
      g2_locate (geom_at (sb_schosen sb) a) (footprint (plates m cs a) x) = Ok 1%Z -> g2_locate (geom_at (sb_schosen sb) b) (footprint (plates m cs b) x) = Ok 1%Z ->
      (exists t, side_of sp t /\ t <> s /\ t <> o /\ (is_sheet t = a \/ is_sheet t = b) /\ on_finger sb t (footprint (plates m cs (is_sheet t)) x)) \/
      sliver sb s o (footprint (plates m cs a) x) \/ sliver sb o s (footprint (plates m cs b) x)).
Proof.
  intros fsqrt fl R mn mx ord sord1 rof rad q ci pord only m sp sb h SO PO OO RO T MK V Q P C.
  destruct (mesh_setup pord only m sp SO PO T MK P) as (cs & CS & SP & PC & IS & SD & PL). exists cs. split; auto. intros SI s o J a b.
  destruct (SD s (proj1 J)) as (c & I). destruct (SD o (proj1 (joint_sym _ _ _ (space_made _ _ _ SP) J))) as (c' & I'). exists c, c'. split; auto. split; auto. intros x X1 X2 AL L1 L2.
  assert (PS : plex_simple sp) by (intros k sh g Hs Hg; apply IS in Hs as (e & He & ->); exact (SI k e g He Hg)).
  apply (result_collisions _ _ _ _ _ _ _ _ _ _ _ _ _ _ _ _ _ RO SP PC PS V Q OO C s o x J); auto.
  - now apply (proj2 (proj2 (proj2 (PL _ _ I))) x).
  - now apply (proj2 (proj2 (proj2 (PL _ _ I'))) x).
Qed.

(** and it leaves no gap there that is still allowed *)
Theorem mesh_crossing_settled : forall fsqrt R mn mx ord sord1 rof rad ci pord only m sp sb h, (forall l, Permutation l (sord l)) -> (forall d, Permutation d (pord d)) -> (forall c, Permutation c (ord c)) ->
  root_ok fsqrt -> rng_ok R -> 0 < mn -> mn <= mx -> 0 < thickness -> mesh_ok m -> plex pord only m = Ok sp -> canned_1 A fsqrt idq R mn mx ord sord1 None rof sp rad ci = Ok (mkCanned true sb h) ->
  exists cs b b', sheets only m = Ok cs /\ nth_error h 10 = Some b /\ nth_error h 12 = Some b' /\ forall s o, joint sp s o -> exists c c' d l, In (is_sheet s, c) cs /\ In (is_sheet o, c') cs /\ normal d /\ small d /\
    forall x, inside_plate c x -> inside_plate c' x -> let t := along s (footprint (plates m cs (is_sheet s)) x) in ~ pts d t -> ~ In t l -> pts (ok_of b (is_id s)) t ->
      scrap b (is_id s) (is_id o) t \/
      (inside1 (chosen_of sb (is_id s)) t /\ taken_or_barred (plates m cs) sb b' s x) \/ (inside1 (chosen_of sb (is_id o)) t /\ taken_or_barred (plates m cs) sb b' o x).
Proof.
  intros fsqrt R mn mx ord sord1 rof rad ci pord only m sp sb h SO PO OO RO RG P1 P2 T MK P C.
  destruct (mesh_setup pord only m sp SO PO T MK P) as (cs & CS & SP & PC & IS & SD & PL).
  destruct (crossing_settled _ _ _ _ _ _ _ _ _ _ _ _ _ _ _ RO RG P1 P2 SP PC OO C) as (b & b' & E1 & E2 & K). exists cs, b, b'. do 3 (split; auto). intros s o J.
  destruct (SD s (proj1 J)) as (c & I). destruct (SD o (proj1 (joint_sym _ _ _ (space_made _ _ _ SP) J))) as (c' & I'). destruct (K s o J) as (d & l & N & S & KK). exists c, c', d, l. do 4 (split; auto).
  intros x X1 X2 t. apply KK.
  - now apply (proj2 (proj2 (proj2 (PL _ _ I))) x).
  - now apply (proj2 (proj2 (proj2 (PL _ _ I'))) x).
Qed.
End Mesh.
Print Assumptions assembled_near_body.
Print Assumptions mesh_plain_kept.
Print Assumptions mesh_collisions.
Print Assumptions mesh_crossing_settled.

Lemma box_bounds x0 y0 x1 y1 p : x0 < x1 -> y0 < y1 -> in_or_on [mkSpwh (box x0 y0 x1 y1) []] p -> x0 <= fst p /\ fst p <= x1 /\ y0 <= snd p /\ snd p <= y1.
Proof.
  intros LX LY IN. destruct (box_region x0 y0 x1 y1) with (p := p) as (B & I); [intros E; rewrite E in LX; qlra|intros E; rewrite E in LY; qlra|].
  assert (W : weakly_between x0 (fst p) x1 /\ weakly_between y0 (snd p) y1).
  { assert (D : on_boundary (box x0 y0 x1 y1) p \/ ~ on_boundary (box x0 y0 x1 y1) p).
    { rewrite <- (proj1 (locate_zero_iff_boundary (box x0 y0 x1 y1) p ltac:(discriminate))). destruct (locate_zero_iff_boundary (box x0 y0 x1 y1) p ltac:(discriminate)) as (_ & r & -> & [->|[->| ->]]); [now left|right; discriminate|right; discriminate]. }
    destruct D as [D|D]; [now apply B in D|]. destruct IN as [(r & (s & [<-|[]] & [->|[]]) & X)|(s & [<-|[]] & X & _)]; [contradiction|]. cbn [outer] in X. apply (I D) in X as ([(X1 & X2)|(X1 & X2)] & [(Y1 & Y2)|(Y1 & Y2)]); split; [left|left|left|right|right|left|right|right]; split; qlra. }
  destruct W as ([(X1 & X2)|(X1 & X2)] & [(Y1 & Y2)|(Y1 & Y2)]); repeat split; qlra.
Qed.
(** ** Example: the mesh of C121 is one of a solid, two boxes *)
Definition two_boxes (y : vec3) : Prop := 0 <= vx y /\ vx y <= zq 20 /\ ((0 <= vy y /\ vy y <= zq 20 /\ 0 <= vz y /\ vz y <= zq 4) \/ (0 <= vy y /\ vy y <= zq 4 /\ 0 <= vz y /\ vz y <= zq 20)).
Example assembly_mesh_ex : mesh_ok (fun p => p) SpaceMeshEx.norm bool SpaceMeshEx.shape_of SpaceMeshEx.to_3D SpaceMeshEx.m /\
  cuts_of (fun p => p) bool SpaceMeshEx.shape_of SpaceMeshEx.to_3D two_boxes SpaceMeshEx.m.
Proof.
  destruct SpaceMeshEx.m_ok as (U & F).
  assert (RE : forall s, from_shapely (fun p => p) (SpaceMeshEx.shape_of s) = rectangle (NInt 0) (NInt (if s then -20 else 0)) (NInt 20) (NInt (if s then 0 else 20))) by (intros [|]; vm_compute; reflexivity).
  split; [split; [exact U|split; [exact F|split]]|].
  - intros s g E. rewrite RE in E. apply rect_sharp in E as (_ & _ & E). exact E.
  - intros n n' N N'. exact (proj1 (SpaceMeshEx.norms_ok n n' N N')).
  - intros n hs _. cbn [SpaceMeshEx.m m_section]. unfold SpaceMeshEx.section. split; [now rewrite map_length|].
    set (sec := fun h : Qc => _).
    assert (SEC : forall h s, sec h = Some s -> n = (if s then SpaceMeshEx.z3 0 1 0 else SpaceMeshEx.z3 0 0 1) /\ 0 < h /\ h < zq 4).
    { assert (V : forall a b, SpaceMeshEx.veqb a b = true -> a = b).
      { intros a b H. apply andb_true_iff in H as (H & H3). apply andb_true_iff in H as (H1 & H2). apply qeqb_eq in H1, H2, H3. now apply vec3_ext. }
      intros h s E. unfold sec in E. destruct (SpaceMeshEx.veqb n (SpaceMeshEx.z3 0 0 1) && qltb 0 h && qltb h (zq 4)) eqn:E1; [|destruct (SpaceMeshEx.veqb n (SpaceMeshEx.z3 0 1 0) && qltb 0 h && qltb h (zq 4)) eqn:E2; [|discriminate E]];
        injection E as <-; [clear -E1 V|clear -E2 V; rename E2 into E1]; apply andb_true_iff in E1 as (E1 & L2); apply andb_true_iff in E1 as (E1 & L1); apply qltb_lt in L1, L2; apply V in E1; auto. }
    split.
    + intros s s' I I'. apply in_map_iff in I as (h1 & E1 & _). apply in_map_iff in I' as (h2 & E2 & _). apply SEC in E1 as (E1 & _). apply SEC in E2 as (E2 & _).
      assert (s = s') as ->; auto. rewrite E1 in E2. destruct s, s'; auto; exfalso; apply (f_equal (fun v => qeqb (vy v) 0)) in E2; vm_compute in E2; discriminate E2.
    + intros i h s g p Eh Es Eg I. rewrite nth_error_map, Eh in Es. cbn [option_map] in Es. apply some_inv in Es. apply SEC in Es as (-> & H1 & H2). rewrite RE in Eg.
      assert (Eb : from_shapely (fun p => p) (SpaceMeshEx.shape_of s) = Ok [mkSpwh (box 0 (if s then zq (-20) else 0) (zq 20) (if s then 0 else zq 20)) []]) by (destruct s; vm_compute; reflexivity).
      rewrite <- RE, Eb in Eg. apply Ok_inv in Eg as <-. apply box_bounds in I as (B1 & B2 & B3 & B4); [|vm_compute; reflexivity|destruct s; vm_compute; reflexivity]. destruct p as [u v]. cbn [fst snd] in *.
      assert (EZ0 : zq 0 = 0) by (apply Qc_is_canon; reflexivity). assert (EZ1 : zq 1 = 1) by (apply Qc_is_canon; reflexivity). assert (P4 : zq 4 <= zq 20) by (vm_compute; discriminate). assert (P20 : zq (-20) = - zq 20) by (apply Qc_is_canon; vm_compute; reflexivity). destruct s.
      * exists (V3 u h (- v)). unfold two_boxes. cbn [vx vy vz]. rewrite P20 in B3. split; [repeat split; auto; right; repeat split; qlra|]. split; [unfold SpaceMeshEx.z3; rewrite EZ0, EZ1; v3; ring|]. unfold project_corner, SpaceMeshEx.to_3D, SpaceMeshEx.upright, SpaceMeshEx.flat, no_shift, transpose, col. cbn [v4 row0 row1 row2 row3 vx vy vz vw]. f_equal; v3; ring.
      * exists (V3 u v h). unfold two_boxes. cbn [vx vy vz]. split; [repeat split; auto; left; repeat split; qlra|]. split; [unfold SpaceMeshEx.z3; rewrite EZ0, EZ1; v3; ring|]. unfold project_corner, SpaceMeshEx.to_3D, SpaceMeshEx.upright, SpaceMeshEx.flat, no_shift, transpose, col. cbn [v4 row0 row1 row2 row3 vx vy vz vw]. f_equal; v3; ring.
Qed.
