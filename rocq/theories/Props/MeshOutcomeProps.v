(** * How reading a mesh and the whole program can fail: C129 *)
From Verif.Model Require Import Arrangement2d Geom2d Sheetplex Sheetbuild Heuristics Canned CreateSheets SpaceMesh.
From Verif.Spec Require Import Plane Region.
From Verif.Proofs Require Import PyP PolyP Geom2dP Geom2dOps DictP SheetplexP FingerP SheetbuildP CreateSheetsP BufSharpQ RunSharpP OutcomeP OutcomeT.
From Verif.Props Require Import Geom2dProps SheetplexProps CannedProps CreateSheetsProps CrispProps RunSharpProps CutProps MeshProps OutcomeProps.
From Coq Require Import String Permutation.
Open Scope Qc_scope.

Section Mesh.
Variable orc : list segment -> nat -> nat -> nat.
Let A := segment_arrangement orc.
Variable orient : shpoly -> shpoly.
Variable fl vec sect rot : Type.
Variable fneg fabs : fl -> fl.
Variable fadd fsub : fl -> fl -> fl.
Variable flt fle : fl -> fl -> bool.
Variable vneg : vec -> vec.
Variable vsub : vec -> vec -> vec.
Variable vnorm : vec -> fl.
Variable vdot : vec -> vec -> fl.
Variable linspace : fl -> fl -> nat -> list fl.
Variable argsort : list fl -> list nat.
Variable section_shape : sect -> shape.
Variable section_rot : sect -> rot.
Variable project : rot -> vec * vec * vec -> result (list point).
Variable sord : list nat -> list nat.
Variable thickness normal_tol offset_tol : fl.
Let sheets := create_sheets A orient fl vec sect rot fneg fabs fadd fsub flt fle vneg vsub vnorm vdot linspace argsort section_shape section_rot project sord thickness normal_tol offset_tol.
Let plex := create_sheetplex A orient fl vec sect rot fneg fabs fadd fsub flt fle vneg vsub vnorm vdot linspace argsort section_shape section_rot project sord thickness normal_tol offset_tol.
Notation mesh := (mesh fl vec sect).

(** the per-facet arrays of the mesh belong together; one section or None per height *)
Definition arrays_match (m : mesh) : Prop := let k := List.length (m_facets _ _ _ m) in
  List.length (m_facets_normal _ _ _ m) = k /\ List.length (m_facets_area _ _ _ m) = k /\ List.length (m_facets_boundary _ _ _ m) = k /\
  match m_facets_origin _ _ _ m with Some l => List.length l = k | None => k = O end.
Definition section_per_height (m : mesh) : Prop := forall n hs, List.length (m_section _ _ _ m n hs) = List.length hs.
(** what numpy guarantees of the functions used *)
Definition numpy_ok : Prop := (forall l i, In i (argsort l) -> (i < List.length l)%nat) /\ (forall a b n, List.length (linspace a b n) = n).
(** the corners of a triangle become three rational points *)
Definition projects : Prop := forall r t, exists v, project r t = Ok v /\ List.length v = 3%nat.
(** a section that cannot be read *)
Definition section_error (e : exn) : Prop := exists s, from_shapely orient (section_shape s) = Err e.
Definition load_error (e : exn) : Prop := e = AssertionError \/ section_error e.

Let EA : load_error AssertionError := or_introl eq_refl.
Let facet_plane := facet_plane fl vec vdot.
Let sort1 := sort_facet fl vec sect fneg fabs fadd fsub flt fle vneg vsub vnorm vdot thickness normal_tol offset_tol.
Let one := create_one A orient fl vec sect rot fneg fabs fadd fsub flt fle vneg vsub vnorm vdot linspace section_shape section_rot project sord thickness normal_tol offset_tol.

Definition aligned (n : nat) (af : all_facets fl vec) : Prop := List.length (af_facets _ _ af) = n /\ List.length (af_normals _ _ af) = n /\ List.length (af_origins _ _ af) = n /\
  List.length (af_areas _ _ af) = n /\ List.length (af_boundaries _ _ af) = n.
Lemma at_in {X} (l : list X) n i : List.length l = n -> (i < n)%nat -> exists x, at_ l i = Ok x.
Proof. intros <- H. unfold at_. destruct (nth_error l i) as [x|] eqn:E; [eauto|]. apply nth_error_None in E. lia. Qed.
Lemma plane_in n af f : aligned n af -> (f < n)%nat -> exists p, facet_plane af f = Ok p.
Proof.
  intros (A1 & A2 & A3 & A4 & A5) H. unfold facet_plane, CreateSheets.facet_plane. destruct (at_in _ _ _ A3 H) as (x & ->), (at_in _ _ _ A2 H) as (y & ->). cbn [bind]. eauto.
Qed.
Definition below (n : nat) (l : list nat) : Prop := forall f, In f l -> (f < n)%nat.
Definition gbelow (n : nat) (g : groups) : Prop := below n (gr_same g) /\ below n (gr_opposed g) /\ below n (gr_todo g).
Lemma below_remove n f l : below n l -> below n (remove_nat f l).
Proof. intros B x H. apply filter_In in H as (H & _). auto. Qed.
Lemma below_snoc n f l : below n l -> (f < n)%nat -> below n (l ++ [f]).
Proof. intros B F x H. apply in_app_iff in H as [H|[<-|[]]]; auto. Qed.
Lemma p_sort n m af facet nv o g f : aligned n af -> (f < n)%nat -> gbelow n g -> post load_error (gbelow n) (sort1 m af facet nv o g f).
Proof.
  intros AL F (G1 & G2 & G3). unfold sort1, sort_facet. apply (post_bind _ (fun _ => True)); [apply post_of; [apply (errs_passert load_error EA)|auto]|]. intros _ _.
  apply (post_bind _ (fun _ => True)).
  - unfold facet_status. destruct (plane_in n af f AL F) as ((n' & o') & E). unfold facet_plane in E. rewrite E. cbn [bind]. destruct (same_plane _ _ _ _ _ _ _ _ _ _ _ _ _); [exact I|]. destruct (opposed_plane _ _ _ _ _ _ _ _ _ _ _ _ _ _ _ _); [exact I|].
    destruct (flt _ _); [|exact I]. destruct AL as (_ & _ & _ & _ & A5). destruct (at_in _ _ _ A5 F) as (b & ->). exact I.
  - intros s _. cbn [post]. destruct s; unfold gbelow; cbn [gr_same gr_opposed gr_todo]; auto using below_remove, below_snoc.
Qed.
Lemma p_support n m af r fs : projects -> aligned n af -> below n fs -> post load_error neat (face_support A fl vec sect rot project m af r fs).
Proof.
  intros PR AL B. unfold face_support. apply post_foldM; [|exact neat_nil]. intros g f Hf Ng. destruct AL as (A1 & _). destruct (at_in _ _ _ A1 (B f Hf)) as (ts & ->). cbn [bind].
  apply post_foldM; [|exact Ng]. intros g' t _ Ng'. unfold add_tri. destruct (PR r (m_triangle _ _ _ m t)) as (v & -> & L). cbn [bind]. destruct v as [|a [|b [|c [|]]]]; try discriminate L.
  apply (post_bind _ neat); [apply post_of; [apply (errs_polygon load_error EA); discriminate|intros p Hp; exact (fine_neat _ (triangle_fine a b c p Hp))]|]. intros p Np.
  apply post_of; [exact (errs_or load_error EA orc g' p Ng' Np)|]. intros r' R. exact (or_neat orc g' p r' Ng' Np R).
Qed.
Lemma p_or_fold l g : neat g -> Forall neat l -> post load_error neat (foldM (g2_or A) l g).
Proof. intros Ng F. apply post_foldM; [|exact Ng]. intros x y Iy Nx. rewrite Forall_forall in F. apply post_of; [exact (errs_or load_error EA orc x y Nx (F y Iy))|]. intros r R. exact (or_neat orc x y r Nx (F y Iy) R). Qed.
Lemma p_and_fold l g : neat g -> Forall neat l -> post load_error neat (foldM (g2_and A) l g).
Proof. intros Ng F. apply post_foldM; [|exact Ng]. intros x y Iy Nx. rewrite Forall_forall in F. apply post_of; [exact (errs_and load_error EA orc x y Nx (F y Iy))|]. intros r R. exact (sharp_neat _ (and_neat orc x y r Nx (F y Iy) R)). Qed.
Lemma p_section s : sections_clean orient sect section_shape -> post load_error neat (section_geom orient sect section_shape s).
Proof.
  intros SC. apply post_of; [|intros g H; split; [exact (fs_geom _ _ _ H)|exact (SC s g H)]]. unfold section_geom. destruct (from_shapely orient (section_shape s)) as [g|e] eqn:E; [exact I|]. right. exists s. exact E.
Qed.
Lemma F2_Forall {X Y} (Q : Y -> Prop) (l : list X) l' : Forall2 (fun _ y => Q y) l l' -> Forall Q l'.
Proof. induction 1; constructor; auto. Qed.
Lemma F2_len {X Y} (P : X -> Y -> Prop) l l' : Forall2 P l l' -> List.length l = List.length l'.
Proof. induction 1; cbn; auto. Qed.

Lemma p_one n only m af st facet : (forall l, Permutation l (sord l)) -> numpy_ok -> projects -> section_per_height m -> sections_clean orient sect section_shape -> aligned n af -> (facet < n)%nat ->
  below n (c_todo _ _ st) -> post load_error (fun st => below n (c_todo _ _ st)) (one only m af st facet).
Proof.
  intros SO (_ & LIN) PR SEC SC AL F B. unfold one, create_one. destruct (negb _); [exact B|]. pose proof (below_remove n facet _ B) as B'. set (todo := remove_nat facet (c_todo _ _ st)) in *.
  destruct (plane_in n af facet AL F) as ((nv & o) & E). unfold facet_plane in E. rewrite E. cbn [bind]. set (hs := [_; _] ++ linspace _ _ 3). assert (LH : List.length hs = 5%nat) by (unfold hs; rewrite app_length, LIN; reflexivity).
  pose proof (SEC nv hs) as LS. rewrite LH in LS. set (sls := m_section _ _ _ m nv hs) in *. clearbody sls. clear hs LH E.
  apply (post_bind _ (fun _ => True)). { apply (post_of load_error); [|auto]. apply (post_errs _ (Forall2 (fun _ _ => True) (firstn 2 sls))). apply post_mapM. intros [s|] _; [|exact I]. apply post_of; [|auto]. exact (post_errs _ _ _ (p_section s SC)). }
  intros _ _. apply (post_bind _ (Forall2 (fun _ _ => True) (skipn 2 sls))). { apply post_mapM. intros [s|] _; [exact I|exact EA]. }
  intros ss SS. apply F2_len in SS. rewrite skipn_length, LS in SS. cbn in SS. destruct ss as [|s0 ss]; [discriminate SS|]. cbn [at_ nth_error bind].
  apply (post_bind _ (Forall2 (fun _ g => neat g) (s0 :: ss))). { apply post_mapM. intros s _. exact (p_section s SC). }
  intros slices SL. apply (post_bind _ (gbelow n)).
  { apply post_foldM; [|split; [intros f [<-|[]]; exact F|split; [intros f []|exact B']]]. intros g f Hf G. apply p_sort; auto. apply B'. exact (Permutation_in _ (Permutation_sym (SO _)) Hf). }
  intros gr (G1 & G2 & G3). destruct (gr_opposed gr) as [|f1 fs] eqn:EO; [exact G3|].
  apply (post_bind _ neat); [exact (p_support n m af _ _ PR AL G1)|]. intros g0 N0. apply (post_bind _ neat); [exact (p_support n m af _ _ PR AL G2)|]. intros g1 N1.
  destruct slices as [|x xs]; [inversion SL|]. apply F2_Forall in SL. apply Forall_cons_iff in SL as (Nx & Nxs).
  cbn [reduce]. apply (post_bind _ neat); [now apply p_or_fold|]. intros smax _. apply (post_bind _ neat); [now apply p_and_fold|]. intros smin _.
  destruct (match only with Some _ => _ | None => _ end); [exact G3|]. apply (post_bind _ (fun _ => True)); [apply post_of; [exact (errs_and load_error EA orc g0 g1 N0 N1)|auto]|]. intros _ _. exact G3.
Qed.

Lemma facets_aligned m af : arrays_match m -> find_all_facets fl vec sect sord m = Ok af -> aligned (List.length (af_facets _ _ af)) af.
Proof.
  intros AM H. unfold find_all_facets in H. apply bind_ok in H as (_ & _ & H). apply Ok_inv in H as <-. destruct AM as (L1 & L2 & L3 & L4). set (af0 := mkFacets _ _ _ _ _ _ _).
  assert (AL : aligned (List.length (af_facets _ _ af0)) af0). { unfold aligned, af0. cbn [af_facets af_normals af_origins af_areas af_boundaries]. destruct (m_facets_origin _ _ _ m); cbn [List.length] in *; repeat split; lia. }
  clearbody af0. revert af0 AL. generalize (sord (triangles_left fl vec sect m)). intros l. induction l as [|t l IH]; intros af0 AL; cbn [fold_left]; [exact AL|]. apply IH.
  unfold add_triangle. destruct (m_face _ _ _ m t) as ((a & b) & c), (m_triangle _ _ _ m t) as ((p & q) & r). destruct AL as (A1 & A2 & A3 & A4 & A5). unfold aligned. cbn [af_facets af_normals af_origins af_areas af_boundaries].
  rewrite !app_length. cbn [List.length]. repeat split; lia.
Qed.
Lemma p_inters (fr : frames) : (forall a b, exists f, fr a b = Ok f) -> forall l sp, exists sp', create_inters_loop fr sp l = Ok sp'.
Proof.
  intros FR. induction l as [|s r IH]; intros sp; cbn [create_inters_loop]; [eauto|].
  assert (K : forall r0 sp, exists sp', foldM (fun sp s' => create_intersection fr sp s s') r0 sp = Ok sp').
  { induction r0 as [|s' r0 IH0]; intros sp0; cbn [foldM]; [eauto|]. unfold create_intersection at 1. destruct (FR s s') as ([(f1 & f2)|] & ->); cbn [bind]; apply IH0. }
  destruct (K r sp) as (sp' & ->). cbn [bind]. apply IH.
Qed.

(** ** C129: reading a mesh fails with an assertion or because a section cannot be read *)
Theorem mesh_fails_only : forall fr pord only m e, (forall l, Permutation l (sord l)) -> numpy_ok -> projects -> arrays_match m -> section_per_height m -> sections_clean orient sect section_shape ->
  (forall a b, exists f, fr a b = Ok f) -> plex fr pord only m = Err e -> e = AssertionError \/ section_error e.
Proof.
  intros fr pord only m e SO NP PR AM SEC SC FR H. change (load_error e). unfold plex, create_sheetplex in H.
  destruct (create_sheets _ _ _ _ _ _ _ _ _ _ _ _ _ _ _ _ _ _ _ _ _ _ _ _ _ only m) as [cs|e1] eqn:CS; cbn [bind] in H.
  - exfalso. unfold create_intersections in H. destruct (p_inters fr FR (values (sp_sheets (mkPlex (pord (map (fun e0 => (fst e0, cs_sheet fl vec (snd e0))) cs)) []))) (mkPlex (pord (map (fun e0 => (fst e0, cs_sheet fl vec (snd e0))) cs)) [])) as (sp' & K). rewrite K in H. discriminate H.
  - assert (E : e1 = e) by congruence. subst e1. clear H. unfold create_sheets in CS. destruct (find_all_facets fl vec sect sord m) as [af|e1] eqn:FA; cbn [bind] in CS.
    2:{ unfold find_all_facets in FA. pose proof (errs_passert load_error EA (m_nfaces fl vec sect m =? m_ntri fl vec sect m)%nat) as K. destruct (passert _) as [u|e2]; cbn [bind] in FA; [discriminate FA|]. assert (e2 = e) by congruence. now subst e2. }
    pose proof (facets_aligned m af AM FA) as AL. set (n := List.length (af_facets _ _ af)) in *.
    enough (K : post load_error (fun st => below n (c_todo _ _ st)) (create_loop A orient fl vec sect rot fneg fabs fadd fsub flt fle vneg vsub vnorm vdot linspace argsort section_shape section_rot project sord thickness normal_tol offset_tol only m af)).
    { destruct (create_loop _ _ _ _ _ _ _ _ _ _ _ _ _ _ _ _ _ _ _ _ _ _ _ _ _ _ _ _) as [st|e2]; cbn [bind] in CS; [discriminate CS|]. assert (e2 = e) by congruence. now subst e2. }
    unfold create_loop. apply post_foldM; [|intros f Hf; cbn [c_todo] in Hf; apply in_seq in Hf; cbn in Hf; exact (proj2 Hf)].
    intros st f Hf B. apply in_rev in Hf. apply (proj1 NP) in Hf. destruct AL as (A1 & A2 & A3 & A4 & A5). rewrite A4 in Hf. apply p_one; auto. repeat split; auto.
Qed.

(** the whole program on a mesh *)
Theorem mesh_cli_fails_only : forall fr pord only m fsqrt fl1 R mn mx ord sord1 pord1 rad dil e, (forall l, Permutation l (sord l)) -> (forall d, Permutation d (pord d)) -> (forall c, Permutation c (ord c)) -> (forall d, Permutation d (pord1 d)) ->
  root_ok fsqrt -> exact_num dil -> numpy_ok -> projects -> arrays_match m -> section_per_height m -> sections_clean orient sect section_shape -> (forall a b, exists f, fr a b = Ok f) ->
  main A fsqrt fl1 R mn mx ord sord1 pord1 (plex fr pord only m) rad dil = Err e ->
  (plex fr pord only m = Err e /\ (e = AssertionError \/ section_error e)) \/
  exists sp, plex fr pord only m = Ok sp /\
    ((sp_sheets sp = [] /\ e = PlainException) \/
     (exists e', canned_1 A fsqrt fl1 R mn mx ord sord1 None (Some false) sp rad 0 = Err e' /\ e = KeyError) \/
     (exists sb h, canned_1 A fsqrt fl1 R mn mx ord sord1 None None sp rad 0 = Ok (mkCanned true sb h) /\ mapM (dilate A fsqrt dil) (pord1 (sb_schosen sb)) = Err e /\ e = AssertionError)).
Proof.
  intros fr pord only m fsqrt fl1 R mn mx ord sord1 pord1 rad dil e SO PO OO PO1 RO X NP PR AM SEC SC FR H. destruct (plex fr pord only m) as [sp|e1] eqn:E.
  - right. exists sp. split; [reflexivity|].
    assert (T : three_corners vec rot project) by (intros r t v Hv; destruct (PR r t) as (v' & Hv' & L); rewrite Hv in Hv'; apply Ok_inv in Hv' as <-; exact L).
    destruct (mesh_plex orc orient fl vec sect rot fneg fabs fadd fsub flt fle vneg vsub vnorm vdot linspace argsort section_shape section_rot project sord thickness normal_tol offset_tol fr pord only m sp SO PO T SC E) as (M & PC & _).
    exact (cli_fails_only orc fsqrt fl1 R mn mx ord sord1 sp RO M PC OO pord1 rad dil e X PO1 H).
  - left. cbn [main bind] in H. unfold main in H. cbn [bind] in H. assert (e1 = e) by congruence. subst e1. split; [reflexivity|]. exact (mesh_fails_only fr pord only m e SO NP PR AM SEC SC FR E).
Qed.
End Mesh.
(** the frames of plates in space always exist *)
Lemma space_frames_ok norm plates : forall a b, exists f, space_frames norm plates a b = Ok f.
Proof. intros a b. unfold space_frames, inter_frames. destruct (inter_direction norm _ _); [|eauto]. cbn. eauto. Qed.
(** with rational coordinates: every triangle is projected and every height exists *)
Theorem space_mesh_fails_only : forall orc orient norm sect argsort section_shape to_3D sord th nt ot pord only m e, (forall l, Permutation l (sord l)) -> (forall l i, In i (argsort l) -> (i < List.length l)%nat) ->
  arrays_match _ _ _ m -> section_per_height _ _ _ m -> sections_clean orient sect section_shape ->
  mesh_sheetplex (segment_arrangement orc) orient norm sect argsort section_shape to_3D sord th nt ot pord only m = Err e -> e = AssertionError \/ section_error orient sect section_shape e.
Proof.
  intros orc orient norm sect argsort section_shape to_3D sord th nt ot pord only m e SO AR AM SEC SC H.
  unfold mesh_sheetplex in H. destruct (mesh_sheets _ _ _ _ _ _ _ _ _ _ _ only m) as [cs|e1] eqn:CS; cbn [bind] in H.
  - exfalso. unfold create_intersections in H. destruct (p_inters _ (space_frames_ok norm (mesh_plates sect to_3D th ot m cs)) (values (sp_sheets (mkPlex (pord (map (fun e0 => (fst e0, cs_sheet Qc vec3 (snd e0))) cs)) []))) (mkPlex (pord (map (fun e0 => (fst e0, cs_sheet Qc vec3 (snd e0))) cs)) [])) as (sp' & K). rewrite K in H. discriminate H.
  - assert (e1 = e) by congruence. subst e1.
    apply (mesh_fails_only orc orient Qc vec3 sect mat4 Qcopp qabs Qcplus Qcminus qltb qleb neg3 sub3 norm dot3 SpaceMesh.linspace argsort section_shape (fun s => no_shift (to_3D s)) project_triangle sord th nt ot (fun _ _ => Ok None) pord only m e SO); auto.
    + split; auto. intros a b n. unfold SpaceMesh.linspace. now rewrite map_length, seq_length.
    + intros r ((a & b) & c). eexists. split; reflexivity.
    + intros a b. eauto.
    + unfold create_sheetplex. unfold mesh_sheets in CS. rewrite CS. reflexivity.
Qed.
Print Assumptions space_mesh_fails_only.
Print Assumptions mesh_fails_only.
Print Assumptions mesh_cli_fails_only.

(** Non-vacuity: one triangle; the sections inside the sheet are missing, or cannot be read. *)
Module MeshFailEx.
Definition V := (Z * Z * Z)%type.
Definition dotv (a b : V) : Z := let '(x, y, z) := a in let '(x', y', z') := b in (x * x' + y * y' + z * z')%Z.
Definition subv (a b : V) : V := let '(x, y, z) := a in let '(x', y', z') := b in (x - x', y - y', z - z')%Z.
Definition negv (a : V) : V := let '(x, y, z) := a in (- x, - y, - z)%Z.
(** the sections a mesh has: None, or one that is no area *)
Definition m (s : option unit) : mesh Z V unit :=
  mkMesh Z V unit 1 1 (fun _ => (0, 1, 2)%nat) (fun _ => ((0, 0, 0), (4, 0, 0), (0, 4, 0))%Z) (fun _ => (0, 0, 1)%Z) (fun _ => 1%Z) (fun _ => (0, 0, 0)%Z)
    [[0%nat]] [(0, 0, 1)%Z] (Some [(0, 0, 0)%Z]) [1%Z] [[(0, 1); (1, 2); (2, 0)]%nat] (fun _ hs => map (fun _ => s) hs).
Definition lin (a b : Z) (n : nat) : list Z := repeat a n.
Definition arg (l : list Z) : list nat := seq 0 (List.length l).
Definition proj (_ : unit) (t : V * V * V) : result (list point) := let '(a, b, c) := t in let f (v : V) := let '(x, y, _) := v in (zq x, zq y) in Ok [f a; f b; f c].
Definition run s := create_sheetplex (segment_arrangement (fun _ _ _ => O)) (fun p => p) Z V unit unit Z.opp Z.abs Z.add Z.sub Z.ltb Z.leb negv subv (fun v => dotv v v) dotv lin arg (fun _ => ShOther) (fun _ => tt) proj
  (fun l => l) 6%Z 1%Z 1%Z (fun _ _ => Ok None) (fun d => d) None (m s).
End MeshFailEx.
Example mesh_fails_ex : numpy_ok Z MeshFailEx.lin MeshFailEx.arg /\ projects MeshFailEx.V unit MeshFailEx.proj /\ (forall s, arrays_match Z MeshFailEx.V unit (MeshFailEx.m s) /\ section_per_height Z MeshFailEx.V unit (MeshFailEx.m s)) /\
  sections_clean (fun p => p) unit (fun _ => ShOther) /\ MeshFailEx.run None = Err AssertionError /\ MeshFailEx.run (Some tt) = Err PlainException.
Proof.
  split; [split; [intros l i H; apply in_seq in H; cbn in H; exact (proj2 H)|intros; apply repeat_length]|].
  split; [intros r ((a & b) & c); eexists; split; reflexivity|].
  split; [intros s; split; [unfold arrays_match; cbn; repeat split|intros n hs; apply map_length]|].
  split; [intros s g H; discriminate H|]. split; vm_compute; reflexivity.
Qed.
