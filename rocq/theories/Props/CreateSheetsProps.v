(** * From a mesh to sheets: C63, C64, C74-C77. *)
From Verif.Model Require Import Arrangement2d CreateSheets Canned.
From Verif.Spec Require Import Plane Region.
From Verif.Proofs Require Import PyP PolyP Geom2dP Geom2dOps ExtOrd DictP SheetplexP FingerP SheetbuildP CreateP ArrSoundP CreateSheetsP.
From Verif.Props Require Import SheetplexProps SheetbuildProps CannedProps JointProps.
From Coq Require Import String Permutation DecimalNat DecimalString.
Open Scope Qc_scope.

(** ** C63 *)
Theorem every_triangle_one_facet : forall (fl vec sect : Type) (sord : list nat -> list nat) (m : mesh fl vec sect),
  (forall l, Permutation l (sord l)) ->
  m_nfaces _ _ _ m = m_ntri _ _ _ m ->
  NoDup (List.concat (m_facets _ _ _ m)) -> (forall t, In t (List.concat (m_facets _ _ _ m)) -> (t < m_ntri _ _ _ m)%nat) ->
  let k := List.length (m_facets _ _ _ m) in
  List.length (m_facets_normal _ _ _ m) = k -> List.length (m_facets_area _ _ _ m) = k -> List.length (m_facets_boundary _ _ _ m) = k ->
  match m_facets_origin _ _ _ m with Some l => List.length l = k | None => k = O end ->
  exists af, find_all_facets fl vec sect sord m = Ok af /\
    (* the records cover every triangle exactly once *)
    Permutation (List.concat (af_facets _ _ af)) (seq 0 (m_ntri _ _ _ m)) /\
    (* parallel lists *)
    (let n := List.length (af_facets _ _ af) in List.length (af_normals _ _ af) = n /\ List.length (af_origins _ _ af) = n /\
     List.length (af_areas _ _ af) = n /\ List.length (af_boundaries _ _ af) = n) /\
    (* trimesh's facets first, each further triangle its own facet with its own data *)
    firstn k (af_facets _ _ af) = m_facets _ _ _ m /\ firstn k (af_normals _ _ af) = m_facets_normal _ _ _ m /\
    forall i ts, (k <= i)%nat -> nth_error (af_facets _ _ af) i = Some ts -> exists t,
      ts = [t] /\ nth_error (af_normals _ _ af) i = Some (m_face_normal _ _ _ m t) /\ nth_error (af_areas _ _ af) i = Some (m_area_face _ _ _ m t) /\
      nth_error (af_origins _ _ af) i = Some (fst (fst (m_triangle _ _ _ m t))) /\
      nth_error (af_boundaries _ _ af) i = Some (let '(a, b, c) := m_face _ _ _ m t in [(a, b); (b, c); (c, a)]).
Proof.
  intros fl vec sect sord m SO NF ND B k L1 L2 L3 L4. unfold find_all_facets. rewrite NF, Nat.eqb_refl. cbn [passert bind]. eexists. split; [reflexivity|].
  rewrite add_all. cbn [af_facets af_normals af_origins af_areas af_boundaries].
  set (or := match m_facets_origin _ _ _ m with Some l => l | None => [] end) in *.
  assert (L4' : List.length or = k). { unfold or. destruct (m_facets_origin _ _ _ m); auto. }
  split; [now apply all_triangles|]. split; [rewrite !app_length, !map_length; fold k; rewrite L1, L2, L3, L4'; auto|].
  split; [unfold k; rewrite firstn_app, Nat.sub_diag, firstn_all; cbn; apply app_nil_r|].
  split; [rewrite firstn_app, L1, Nat.sub_diag, <- L1, firstn_all; cbn; apply app_nil_r|].
  intros i ts I H. rewrite nth_error_app2 in H by exact I. fold k in H. rewrite nth_error_map in H.
  destruct (nth_error (sord (triangles_left _ _ _ m)) (i - k)) as [t|] eqn:E; [|discriminate H]. cbn in H. apply some_inv in H as <-. exists t.
  rewrite !nth_error_app2 by lia. rewrite L1, L2, L3, L4', !nth_error_map, E. repeat split; reflexivity.
Qed.
Print Assumptions every_triangle_one_facet.

Section Sheets.
Variable orc : list segment -> nat -> nat -> nat.
Let A := segment_arrangement orc.
Variable orient : shpoly -> shpoly.
Variable fl vec sect rot : Type.
Variable fneg fabs : fl -> fl.
Variable fadd fsub : fl -> fl -> fl.
Variable flt fle : fl -> fl -> bool.
Variable vneg : vec -> vec.
Variable vsub : vec -> vec -> vec.
Variable vnorm : vec -> fl.
Variable vdot : vec -> vec -> fl.
Variable linspace : fl -> fl -> nat -> list fl.
Variable argsort : list fl -> list nat.
Variable section_shape : sect -> shape.
Variable section_rot : sect -> rot.
Variable project : rot -> vec * vec * vec -> result (list point).
Variable sord : list nat -> list nat.
Variable thickness normal_tol offset_tol : fl.
Let loop := create_loop A orient fl vec sect rot fneg fabs fadd fsub flt fle vneg vsub vnorm vdot linspace argsort section_shape section_rot project sord thickness normal_tol offset_tol.
Let sheets := create_sheets A orient fl vec sect rot fneg fabs fadd fsub flt fle vneg vsub vnorm vdot linspace argsort section_shape section_rot project sord thickness normal_tol offset_tol.
Let plex := create_sheetplex A orient fl vec sect rot fneg fabs fadd fsub flt fle vneg vsub vnorm vdot linspace argsort section_shape section_rot project sord thickness normal_tol offset_tol.

(** the plane of a facet *)
Definition plane_of (af : all_facets fl vec) (f : nat) (n : vec) (o : fl) : Prop :=
  nth_error (af_normals _ _ af) f = Some n /\ exists p, nth_error (af_origins _ _ af) f = Some p /\ o = vdot p n.
Lemma plane_ok af f n o : facet_plane fl vec vdot af f = Ok (n, o) <-> plane_of af f n o.
Proof.
  unfold facet_plane, plane_of. split.
  - intros H. apply bind_ok in H as (p & P & H). apply bind_ok in H as (n' & N & H). apply Ok_inv in H. apply pair_inv in H as (<- & <-). apply at_ok in P, N. split; auto. exists p. auto.
  - intros (N & p & P & ->). apply at_ok in N, P. rewrite P. cbn [bind]. rewrite N. reflexivity.
Qed.

(** ** C64 *)
Theorem facets_consumed_once : forall only m af st, (forall l, Permutation l (sord l)) ->
  find_all_facets fl vec sect sord m = Ok af ->
  Permutation (argsort (af_areas _ _ af)) (seq 0 (List.length (af_facets _ _ af))) ->
  loop only m af = Ok st -> sheets only m = Ok (c_sheets _ _ st) /\
  let all g := gr_same g ++ gr_opposed g ++ gr_within g in
  (* every facet is used exactly once, for a sheet or for a group that becomes none *)
  Permutation (seq 0 (List.length (af_facets _ _ af)))
    (List.concat (map (fun e => all (cs_groups _ _ (snd e))) (c_sheets _ _ st)) ++ List.concat (map all (c_dropped _ _ st))) /\
  (forall g, In g (c_dropped _ _ st) -> gr_opposed g = [] \/ exists i l, (i < c_idx _ _ st)%nat /\ only = Some l /\ ~ In (sheet_name i) l) /\
  (* the ids are s0, s1, ... without those not in [only] *)
  keys (c_sheets _ _ st) = filter (fun k => match only with Some l => if in_dec string_dec k l then true else false | None => true end) (map sheet_name (seq 0 (c_idx _ _ st))) /\
  forall k c, In (k, c) (c_sheets _ _ st) -> let n := cs_normal _ _ c in let o := cs_offset _ _ c in
    sh_id (cs_sheet _ _ c) = k /\
    (* the first facet defines the sheet's plane; none of the sheet's facets comes before it in the order of decreasing area *)
    (exists f r l1 l2, gr_same (cs_groups _ _ c) = f :: r /\ rev (argsort (af_areas _ _ af)) = l1 ++ f :: l2 /\ plane_of af f n o /\
       (forall x, In x (all (cs_groups _ _ c)) -> ~ In x l1) /\
       forall x, In x r -> exists n' o', plane_of af x n' o' /\ flt (vnorm (vsub n' n)) normal_tol = true /\ flt (fabs (fsub o' o)) offset_tol = true) /\
    gr_opposed (cs_groups _ _ c) <> [] /\
    (forall x, In x (gr_opposed (cs_groups _ _ c)) -> exists n' o', plane_of af x n' o' /\
       flt (vnorm (vsub (vneg n') n)) normal_tol = true /\ flt (fabs (fadd (fsub (fneg o') o) thickness)) offset_tol = true) /\
    (forall x, In x (gr_within (cs_groups _ _ c)) -> exists n' o' b, plane_of af x n' o' /\ flt (fabs (vdot n' n)) normal_tol = true /\
       nth_error (af_boundaries _ _ af) x = Some b /\ forall e v, In e b -> v = fst e \/ v = snd e ->
         fle (fsub (fsub o thickness) offset_tol) (vdot (m_vertex _ _ _ m v) n) = true /\ fle (vdot (m_vertex _ _ _ m v) n) (fadd o offset_tol) = true).
Proof.
  intros only m af st SO F PA L. split; [unfold sheets, create_sheets; rewrite F; cbn [bind]; fold loop; now rewrite L|]. intros all.
  set (N := List.length (af_facets _ _ af)) in *.
  assert (C : cinv fl vec sect A orient rot fneg fabs fadd fsub flt fle vneg vsub vnorm vdot linspace section_shape section_rot project thickness normal_tol offset_tol
              only m af (seq 0 N) [] (mkCstate fl vec (seq 0 N) [] 0 [])).
  { constructor; cbn; auto; try contradiction. apply seq_NoDup. }
  apply loop_inv with (st' := st) (l := rev (argsort (af_areas _ _ af))) (sord := sord) in C; [|exact SO|exact L]. cbn [app] in C.
  destruct C as [C1 C2 C3 C4 C5 C6 C7 C8].
  assert (T : c_todo _ _ st = []).
  { destruct (c_todo _ _ st) as [|x t] eqn:E; auto. exfalso. apply (C3 x); [|now left].
    apply in_rev. rewrite rev_involutive. apply (Permutation_in _ (Permutation_sym PA)). apply (Permutation_in _ (Permutation_sym C1)). apply in_app_iff. right. now left. }
  assert (AL : forall k, allowed only k = match only with Some l => if in_dec string_dec k l then true else false | None => true end).
  { intros k. unfold allowed. destruct only as [l|]; auto. unfold str_mem. destruct (in_dec string_dec k l) as [I|I].
    - apply existsb_exists. exists k. split; auto. apply String.eqb_refl.
    - apply not_true_is_false. intros X. apply existsb_exists in X as (y & Y & E). apply String.eqb_eq in E as ->. contradiction. }
  rewrite T, app_nil_r in C1. split; [exact C1|]. split.
  { intros g G. destruct (C7 g G) as [X|(i & I & X)]; auto. right. rewrite AL in X. destruct only as [l|]; [|discriminate]. exists i, l. split; auto. split; auto. destruct (in_dec string_dec (sheet_name i) l); [discriminate|auto]. }
  split; [rewrite C4; apply filter_ext; exact AL|].
  assert (ST : forall c x s, facet_status fl vec sect fneg fabs fadd fsub flt fle vneg vsub vnorm vdot thickness normal_tol offset_tol m af (cs_normal _ _ c) (cs_offset _ _ c) x = Ok s ->
    exists n' o', plane_of af x n' o' /\ match s with
      | Same => flt (vnorm (vsub n' (cs_normal _ _ c))) normal_tol = true /\ flt (fabs (fsub o' (cs_offset _ _ c))) offset_tol = true
      | Opposed => flt (vnorm (vsub (vneg n') (cs_normal _ _ c))) normal_tol = true /\ flt (fabs (fadd (fsub (fneg o') (cs_offset _ _ c)) thickness)) offset_tol = true
      | Within => flt (fabs (vdot n' (cs_normal _ _ c))) normal_tol = true /\ exists b, nth_error (af_boundaries _ _ af) x = Some b /\ forall e v, In e b -> v = fst e \/ v = snd e ->
         fle (fsub (fsub (cs_offset _ _ c) thickness) offset_tol) (vdot (m_vertex _ _ _ m v) (cs_normal _ _ c)) = true /\ fle (vdot (m_vertex _ _ _ m v) (cs_normal _ _ c)) (fadd (cs_offset _ _ c) offset_tol) = true
      | Other => True end).
  { intros c x s H. unfold facet_status in H. apply bind_ok in H as ((n' & o') & P & H). exists n', o'. split; [now apply plane_ok|].
    destruct (same_plane _ _ _ _ _ _ _ _ _ _ _ _ _) eqn:E1 in H; [apply Ok_inv in H as <-; now apply andb_true_iff in E1|].
    destruct (opposed_plane _ _ _ _ _ _ _ _ _ _ _ _ _ _ _ _ _) eqn:E2 in H; [apply Ok_inv in H as <-; now apply andb_true_iff in E2|].
    destruct (flt (fabs (vdot n' (cs_normal _ _ c))) normal_tol) eqn:E3; [|apply Ok_inv in H as <-; exact Logic.I]. apply bind_ok in H as (b & B & H). apply at_ok in B. apply Ok_inv in H as <-.
    destruct (forallb _ b) eqn:E4; [|exact Logic.I]. split; auto. exists b. split; auto. intros e v I V. rewrite forallb_forall in E4. apply E4, andb_true_iff in I as (I1 & I2).
    unfold in_slab in I1, I2. apply andb_true_iff in I1, I2. destruct V as [-> | ->]; auto. }
  intros k c I n o. destruct (C5 k c I) as [M1 (f & r & M2 & M3 & M4) (M5 & M6) M7 _ _]. destruct (C6 k c I) as (l1 & f' & l2 & r' & D & E & F1).
  rewrite M2 in E. injection E as <- <-. split; auto. split.
  { exists f, r, l1, l2. split; auto. split; auto. split; [now apply plane_ok|]. split; auto. intros x X. apply M4, ST in X. exact X. }
  split; auto. split; [intros x X; apply M6, ST in X; exact X|].
  intros x X. apply M7, ST in X as (n' & o' & P & V & b & B & W). exists n', o', b. auto.
Qed.

Lemma made only m af st : (forall l, Permutation l (sord l)) -> loop only m af = Ok st -> forall k c, In (k, c) (c_sheets _ _ st) ->
  NoDup (keys (c_sheets _ _ st)) /\ (exists i, k = sheet_name i) /\
  sheet_made fl vec sect A orient rot fneg fabs fadd fsub flt fle vneg vsub vnorm vdot linspace section_shape section_rot project thickness normal_tol offset_tol m af k c.
Proof.
  intros SO L k c I. set (N := List.length (af_facets _ _ af)).
  assert (C : cinv fl vec sect A orient rot fneg fabs fadd fsub flt fle vneg vsub vnorm vdot linspace section_shape section_rot project thickness normal_tol offset_tol
              only m af (seq 0 N) [] (mkCstate fl vec (seq 0 N) [] 0 [])).
  { constructor; cbn; auto; try contradiction. apply seq_NoDup. }
  apply loop_inv with (st' := st) (l := rev (argsort (af_areas _ _ af))) (sord := sord) in C; [|exact SO|exact L].
  destruct C as [_ _ _ K M _ _ _]. split; [|split; auto].
  - rewrite K. apply NoDup_filter. apply (FinFun.Injective_map_NoDup sheet_name_inj), seq_NoDup.
  - assert (Ik : In k (keys (c_sheets _ _ st))) by exact (in_map fst _ _ I). rewrite K in Ik. apply filter_In in Ik as (Ik & _). apply in_map_iff in Ik as (i & <- & _). eauto.
Qed.

(** ** C74 *)
Theorem sheet_geometry : forall only m cs, (forall l, Permutation l (sord l)) -> sheets only m = Ok cs ->
  exists af, find_all_facets fl vec sect sord m = Ok af /\
  forall k c, In (k, c) cs -> let sh := cs_sheet _ _ c in let n := cs_normal _ _ c in let o := cs_offset _ _ c in
  (* the three inner sections exist and slices_max is their union *)
  exists s ss, map Some (s :: ss) = skipn 2 (m_section _ _ _ m n ([fadd o offset_tol; fsub (fsub o thickness) offset_tol] ++ linspace (fadd (fsub o thickness) offset_tol) (fsub o offset_tol) 3)) /\
    Forall2 (fun s g => from_shapely orient (section_shape s) = Ok g /\ is_geom2d g) (s :: ss) (cs_slices _ _ c) /\
    is_op (cs_slices _ _ c) (fun p => exists g, In g (cs_slices _ _ c) /\ in_geom g p) (sh_slices_max sh) /\
    (* each face is the union of the projected triangles of its facets *)
    let face fs g := exists tss ps, Forall2 (fun f ts => nth_error (af_facets _ _ af) f = Some ts) fs tss /\
        Forall2 (fun t p => exists v, project (section_rot s) (m_triangle _ _ _ m t) = Ok v /\ polygon_q true v = Ok p) (List.concat tss) ps /\
        is_op ps (fun p => exists q, In q ps /\ in_geom q p) g in
    face (gr_same (cs_groups _ _ c)) (sh_face0 sh) /\ face (gr_opposed (cs_groups _ _ c)) (sh_face1 sh).
Proof.
  intros only m cs SO H. unfold sheets, create_sheets in H. apply bind_ok in H as (af & F & H). exists af. split; auto.
  apply bind_ok in H as (st & L & H). apply Ok_inv in H as <-. intros k c I sh n o.
  destruct (made only m af st SO L k c I) as (_ & _ & [_ _ _ _ (s & ss & S1 & S2 & S3 & S4) S5]).
  pose proof (arrangement_sound orc) as SA. exists s, ss. split; [exact S1|]. split.
  { apply PyP.mapM_ok in S2. clear -S2. induction S2 as [|x y l r E _ IH]; constructor; auto. split; auto. exact (fs_geom _ _ _ E). }
  split; [apply (reduce_or A); auto; exact (slices_geoms _ _ _ _ _ S2)|].
  assert (FF : forall fs g, face_support A fl vec sect rot project m af (section_rot s) fs = Ok g ->
    exists tss ps, Forall2 (fun f ts => nth_error (af_facets _ _ af) f = Some ts) fs tss /\
      Forall2 (fun t p => exists v, project (section_rot s) (m_triangle _ _ _ m t) = Ok v /\ polygon_q true v = Ok p) (List.concat tss) ps /\
      is_op ps (fun p => exists q, In q ps /\ in_geom q p) g).
  { intros fs g E. apply (support_ok A SA fl vec sect rot project m af (section_rot s) fs [] [] g is_op_none) in E as (tss & ps & E1 & E2 & E3). exists tss, ps. split; [|split; [|exact E3]].
    - apply PyP.mapM_ok in E1. clear -E1. induction E1 as [|x y l r E _ IH]; constructor; auto. now apply at_ok.
    - apply PyP.mapM_ok in E2. clear -E2. induction E2 as [|x y l r E _ IH]; constructor; auto. apply bind_ok in E as (v & V & E). eauto. }
  intros face. split; apply FF; assumption.
Qed.

(** ** C76: a string as [only] means no sheet at all *)
Theorem only_string_no_sheets : forall s m cs, (forall l, Permutation l (sord l)) -> sheets (Some (char_set s)) m = Ok cs -> cs = [].
Proof.
  intros s m cs SO H. unfold sheets, create_sheets in H. apply bind_ok in H as (af & F & H). apply bind_ok in H as (st & L & H). apply Ok_inv in H as <-.
  destruct (c_sheets _ _ st) as [|[k c] r] eqn:E; auto. exfalso.
  set (N := List.length (af_facets _ _ af)) in *.
  assert (C : cinv fl vec sect A orient rot fneg fabs fadd fsub flt fle vneg vsub vnorm vdot linspace section_shape section_rot project thickness normal_tol offset_tol
              (Some (char_set s)) m af (seq 0 N) [] (mkCstate fl vec (seq 0 N) [] 0 [])).
  { constructor; cbn; auto; try contradiction. apply seq_NoDup. }
  apply loop_inv with (st' := st) (l := rev (argsort (af_areas _ _ af))) (sord := sord) in C; [|exact SO|exact L]. destruct C as [_ _ _ K _ _ _ _].
  assert (I : In k (keys (c_sheets _ _ st))) by (rewrite E; now left). rewrite K in I. apply filter_In in I as (I & J). apply in_map_iff in I as (i & <- & _).
  cbn [allowed] in J. unfold str_mem in J. apply existsb_exists in J as (x & X & J). apply String.eqb_eq in J as <-.
  clear -X. assert (G : forall x, In x (char_set s) -> exists c, x = String c EmptyString). { clear X. induction s as [|a s IH]; cbn; [contradiction|]. intros x [<-|X]; eauto. }
  apply G in X as (a & X). unfold sheet_name in X. cbn in X. injection X as _ X.
  assert (Y : forall u, NilEmpty.string_of_uint u = EmptyString -> u = Decimal.Nil) by (intros []; cbn; intros; [reflexivity|discriminate..]). apply Y in X. pose proof (Unsigned.of_to i) as Z. rewrite X in Z. cbn in Z. subst i. discriminate X.
Qed.

(** a sheetplex made from a mesh meets the premises of the end-to-end theorems *)
Lemma plex_premises fr pord only m sp : (forall l, Permutation l (sord l)) -> (forall d, Permutation d (pord d)) -> plex fr pord only m = Ok sp ->
  plex_made sp /\ plex_geoms sp /\ exists cs, sheets only m = Ok cs /\ NoDup (keys cs) /\ forall k sh, In (k, sh) (sp_sheets sp) <-> exists c, In (k, c) cs /\ sh = cs_sheet _ _ c.
Proof.
  intros SO PO H. unfold plex, create_sheetplex in H. apply bind_ok in H as (cs & H1 & H). fold sheets in H1. pose proof H1 as H1'.
  unfold sheets, create_sheets in H1. apply bind_ok in H1 as (af & F & H1). apply bind_ok in H1 as (st & L & H1). apply Ok_inv in H1 as <-. fold loop in L.
  pose proof (made only m af st SO L) as MD. set (cs := c_sheets _ _ st) in *.
  set (d := map (fun e => (fst e, cs_sheet fl vec (snd e))) cs) in *.
  assert (ND : NoDup (keys cs)). { destruct cs as [|[k c] r] eqn:E; [constructor|]. apply (MD k c). now left. }
  assert (KD : keys d = keys cs). { unfold d, keys. rewrite map_map. reflexivity. }
  assert (ID : forall k sh, In (k, sh) d <-> exists c, In (k, c) cs /\ sh = cs_sheet _ _ c).
  { intros k sh. unfold d. rewrite in_map_iff. split; [intros ([k' c] & E & I); apply pair_inv in E as (<- & <-); exists c; auto|]. intros (c & I & ->). exists (k, c). auto. }
  assert (FR : fresh_plex (mkPlex (pord d) [])).
  { split; [reflexivity|]. cbn [sp_sheets]. split.
    - apply (Permutation_NoDup (Permutation_map fst (PO d))). fold (keys d). now rewrite KD.
    - intros k sh I. apply (Permutation_in _ (Permutation_sym (PO d))) in I. apply ID in I as (c & I & ->). destruct (MD k c I) as (_ & (i & ->) & [X _ _ _ _ _]). split; auto. apply sheet_name_no_comma. }
  destruct (created fr _ sp FR H) as (ES & _). cbn [sp_sheets] in ES.
  assert (IS : forall k sh, In (k, sh) (sp_sheets sp) <-> exists c, In (k, c) cs /\ sh = cs_sheet _ _ c).
  { intros k sh. rewrite ES, <- ID. split; intros I; [apply (Permutation_in _ (Permutation_sym (PO d))) in I|apply (Permutation_in _ (PO d)) in I]; exact I. }
  split; [exists fr, (mkPlex (pord d) []); auto|]. split; [|exists cs; auto].
  intros k sh I. apply IS in I as (c & I & ->). destruct (sheet_geometry only m cs SO H1') as (af' & _ & G). destruct (G k c I) as (s & ss & _ & _ & G1 & (ts0 & ps0 & _ & _ & G2) & ts1 & ps1 & _ & _ & G3).
  split; [apply G2|]. split; [apply G3|apply G1].
Qed.

(** ** C77: no material outside the mesh's own sections *)
Theorem mesh_result_within_sections : forall fr pord only m sp fsqrt fl1 R mn mx ord sord1 show rof rad ci ok sb h,
  (forall l, Permutation l (sord l)) -> (forall d, Permutation d (pord d)) -> (forall c, Permutation c (ord c)) ->
  plex fr pord only m = Ok sp -> canned_1 A fsqrt fl1 R mn mx ord sord1 show rof sp rad ci = Ok (mkCanned ok sb h) ->
  exists cs, sheets only m = Ok cs /\
  forall k p, in_geom (geom_at (sb_schosen sb) k) p -> ~ on_bd (geom_at (sb_schosen sb) k) p ->
  (forall c, In (k, c) cs -> off_all (cs_slices _ _ c) p) ->
  exists c g, In (k, c) cs /\ In g (cs_slices _ _ c) /\ in_geom g p.
Proof.
  intros fr pord only m sp fsqrt fl1 R mn mx ord sord1 show rof rad ci ok sb h SO PO OO P C. destruct (plex_premises _ _ _ _ _ SO PO P) as (M & G & cs & CS & ND & IS).
  exists cs. split; auto. intros k p I B OFF. destruct (result_within_slices orc fsqrt fl1 R mn mx ord sord1 show rof sp rad ci ok sb h M G OO C k) as (_ & W).
  destruct (sheet_geometry only m cs SO CS) as (af & _ & SG).
  destruct (dget String.eqb k (sp_sheets sp)) as [sh|] eqn:E.
  - pose proof E as E'. apply dget_in in E'; [|exact string_eqb_ok]. apply IS in E' as (c & Ic & ->). destruct (SG k c Ic) as (s & ss & _ & _ & (_ & G2 & G3) & _).
    assert (W' : in_geom (sh_slices_max (cs_sheet _ _ c)) p).
    { unfold slices_of in W. rewrite E in W. apply W; auto. intros X. apply (G2 p X). auto. }
    apply G3 in W'; auto. destruct W' as (g & Ig & X). exists c, g. auto.
  - exfalso. unfold slices_of in W. rewrite E in W. apply (not_in_empty p). apply W; auto. intros (r & (s & [] & _) & _).
Qed.
End Sheets.
Print Assumptions facets_consumed_once.
Print Assumptions sheet_geometry.
Print Assumptions only_string_no_sheets.
Print Assumptions mesh_result_within_sections.

(** ** C75: what Geom2D.from_shapely returns *)
(** a shapely coordinate pair and the exact point it denotes *)
Definition denotes (c : list pynum) (p : point) : Prop := exists x y, c = [x; y] /\ pval x = Some (Fin (fst p)) /\ pval y = Some (Fin (snd p)).
(** a closed shapely ring and the vertex list without the repeated end *)
Definition ring_denotes (r : list (list pynum)) (ps : list point) : Prop := exists p, hd_error (ps ++ [p]) = Some p /\ Forall2 denotes r (ps ++ [p]).
Definition poly_denotes (sh : shpoly) (s : spwh) : Prop :=
  ring_denotes (sp_ext sh) (outer s) /\ Forall2 (fun h r => ring_denotes h (rev r)) (sp_ints sh) (holes s).
Lemma mpq_of_ok v q : mpq_of v = Ok q -> pval v = Some (Fin q).
Proof. destruct v; cbn; intros H; try discriminate; apply Ok_inv in H as <-; reflexivity. Qed.
Lemma sh_points_ok r ps : sh_points r = Ok ps -> ring_denotes r ps.
Proof.
  unfold sh_points. intros H. apply bind_ok in H as (l & M & H). destruct l as [|p l]; [discriminate H|]. apply bind_ok in H as (u & C & H). apply Ok_inv in H.
  apply passert_ok in C. exists p.
  assert (E : ps ++ [p] = p :: l).
  { rewrite <- H. rewrite (app_removelast_last p (l := p :: l)) at 2 by discriminate. f_equal. f_equal. destruct (pt_eqb_spec p (last (p :: l) p)); [assumption|discriminate C]. }
  rewrite E. split; [reflexivity|]. apply PyP.mapM_ok in M. clear -M. induction M as [|c q l1 l2 E _ IH]; constructor; auto. destruct c as [|x [|y [|]]]; cbn in E; try discriminate E.
  apply bind_ok in E as (a & A & E). apply bind_ok in E as (b & B & E). apply Ok_inv in E as <-. exists x, y. cbn. split; auto. split; now apply mpq_of_ok.
Qed.
Theorem from_shapely_exact : forall orient sh g, from_shapely orient sh = Ok g ->
  is_geom2d g /\
  match sh with
  | ShPolygon p => exists s, g = [s] /\ poly_denotes (orient p) s
  | ShMulti l => Forall2 (fun p s => poly_denotes (orient p) s) l g
  | ShCollection l => Forall2 (fun o s => exists p, o = Some p /\ poly_denotes (orient p) s) l g
  | ShOther => False
  end.
Proof.
  intros orient sh g H. split; [exact (fs_geom _ _ _ H)|].
  assert (ONE : forall p g, from_shapely_polygon orient p = Ok g -> exists s, g = [s] /\ poly_denotes (orient p) s).
  { intros p g' E. apply fsp_ok in E as (ext & ints & E1 & E2 & -> & _). eexists. split; [reflexivity|]. split; cbn [outer holes]; [now apply sh_points_ok|].
    clear -E2. induction E2 as [|h ps l l' E _ IH]; constructor; auto. rewrite rev_involutive. now apply sh_points_ok. }
  destruct sh as [p|l|l|]; cbn [from_shapely] in H; [auto| | |discriminate].
  - apply bind_ok in H as (gs & M & H). apply Ok_inv in H as <-. apply PyP.mapM_ok in M. induction M as [|p g l gs E _ IH]; cbn; [constructor|]. apply ONE in E as (s & -> & E). cbn. now constructor.
  - apply bind_ok in H as (gs & M & H). apply Ok_inv in H as <-. apply PyP.mapM_ok in M. induction M as [|o g l gs E _ IH]; cbn; [constructor|]. destruct o as [p|]; [|discriminate E]. apply ONE in E as (s & -> & E). cbn. constructor; eauto.
Qed.
Print Assumptions from_shapely_exact.

(** and what it takes: a polygon whose rings make a polygon with holes is refused only if its area is negative *)
Lemma mpq_of_val v q : pval v = Some (Fin q) -> mpq_of v = Ok q.
Proof. destruct v; cbn; intros H; try discriminate H; injection H as <-; reflexivity. Qed.
Lemma sh_points_conv r ps : ring_denotes r ps -> sh_points r = Ok ps.
Proof.
  intros (p & H & F). unfold sh_points. assert (M : mapM fr_point r = Ok (ps ++ [p])).
  { clear H. induction F as [|c q l l' (x & y & -> & X & Y) _ IH]; cbn [mapM]; [reflexivity|]. cbn [fr_point]. rewrite (mpq_of_val _ _ X), (mpq_of_val _ _ Y). cbn [bind]. rewrite IH. destruct q. reflexivity. }
  rewrite M. cbn [bind]. assert (E : exists t, ps ++ [p] = p :: t). { destruct ps as [|q t]; cbn in *; [eauto|]. injection H as ->. eauto. }
  destruct E as (t & E). assert (L : last (ps ++ [p]) p = p) by apply last_last. rewrite E in *. rewrite L. destruct (pt_eqb_spec p p) as [_|K]; [|now destruct K]. cbn [passert bind]. rewrite <- E. now rewrite removelast_last.
Qed.
Theorem from_shapely_accepts : forall orient sh ps hs s a, ring_denotes (sp_ext (orient sh)) ps -> Forall2 ring_denotes (sp_ints (orient sh)) hs ->
  Simple_Polygon_With_Holes ps (map (@rev point) hs) = Ok s -> g2_area [s] = Ok a ->
  from_shapely orient (ShPolygon sh) = if qleb 0 a then Ok [s] else Err AssertionError.
Proof.
  intros orient sh ps hs s a E H S A. cbn [from_shapely]. unfold from_shapely_polygon. rewrite (sh_points_conv _ _ E). cbn [bind].
  assert (M : mapM (fun h => ps <- sh_points h ;; Ok (rev ps)) (sp_ints (orient sh)) = Ok (map (@rev point) hs)).
  { clear - H. induction H as [|h q l l' D _ IH]; cbn [mapM map]; [reflexivity|]. rewrite (sh_points_conv _ _ D). cbn [bind]. rewrite IH. reflexivity. }
  rewrite M. cbn [bind]. rewrite S. cbn [bind]. rewrite A. cbn [bind]. now destruct (qleb 0 a).
Qed.
Print Assumptions from_shapely_accepts.
(** a hole as large as the polygon is still accepted; a larger one is not *)
Definition fs_sq (z : Z) : list (list pynum) := map (fun p => [NInt (fst p); NInt (snd p)]) [(0, 0); (0, z); (z, z); (z, 0); (0, 0)]%Z.
Example from_shapely_accepts_ex :
  match from_shapely (fun p => p) (ShPolygon (mkShpoly (fs_sq 2) [rev (fs_sq 2)])) with Ok [s] => g2_area [s] = Ok 0 | _ => False end /\
  from_shapely (fun p => p) (ShPolygon (mkShpoly (fs_sq 2) [rev (fs_sq 3)])) = Err AssertionError.
Proof. split; [vm_compute; f_equal; apply Qc_is_canon; reflexivity|vm_compute; reflexivity]. Qed.

(** a coordinate that is not finite is refused with the error of gmpy2.mpq *)
Lemma fr_points_bad pre ps x y rest e : Forall2 denotes pre ps -> fr_point [x; y] = Err e -> mapM fr_point (pre ++ [x; y] :: rest) = Err e.
Proof.
  intros F B. induction F as [|c q l l' (u & v & -> & U & V) _ IH]; cbn [mapM app].
  - rewrite B. reflexivity.
  - cbn [fr_point]. rewrite (mpq_of_val _ _ U), (mpq_of_val _ _ V). cbn [bind]. now rewrite IH.
Qed.
Theorem from_shapely_not_finite : forall orient sh pre ps x y rest, sp_ext (orient sh) = pre ++ [x; y] :: rest -> Forall2 denotes pre ps ->
  (pval x = Some PInf \/ pval x = Some NInf -> from_shapely orient (ShPolygon sh) = Err PlainException) /\
  (pval x = None -> from_shapely orient (ShPolygon sh) = Err ValueError) /\
  ((exists q, pval x = Some (Fin q)) -> pval y = Some PInf \/ pval y = Some NInf -> from_shapely orient (ShPolygon sh) = Err PlainException) /\
  ((exists q, pval x = Some (Fin q)) -> pval y = None -> from_shapely orient (ShPolygon sh) = Err ValueError).
Proof.
  intros orient sh pre ps x y rest E F.
  assert (ONE : forall e, fr_point [x; y] = Err e -> from_shapely orient (ShPolygon sh) = Err e).
  { intros e B. cbn [from_shapely]. unfold from_shapely_polygon, sh_points. rewrite E, (fr_points_bad pre ps x y rest e F B). reflexivity. }
  assert (INF : forall v, pval v = Some PInf \/ pval v = Some NInf -> mpq_of v = Err PlainException) by (intros v [H|H]; destruct v; cbn in *; try discriminate H; reflexivity).
  assert (NAN : forall v, pval v = None -> mpq_of v = Err ValueError) by (intros v H; destruct v; cbn in *; try discriminate H; reflexivity).
  repeat split.
  - intros H. apply ONE. cbn [fr_point]. now rewrite (INF _ H).
  - intros H. apply ONE. cbn [fr_point]. now rewrite (NAN _ H).
  - intros (q & Q) H. apply ONE. cbn [fr_point]. now rewrite (mpq_of_val _ _ Q), (INF _ H).
  - intros (q & Q) H. apply ONE. cbn [fr_point]. now rewrite (mpq_of_val _ _ Q), (NAN _ H).
Qed.
Print Assumptions from_shapely_not_finite.
Example from_shapely_not_finite_ex :
  from_shapely (fun p => p) (ShPolygon (mkShpoly [[NInt 0; NInt 0]; [NInt 0; NNegInf]; [NInt 0; NInt 0]] [])) = Err PlainException /\
  from_shapely (fun p => p) (ShPolygon (mkShpoly [[NInt 0; NInt 0]; [NNan; NPosInf]; [NInt 0; NInt 0]] [])) = Err ValueError.
Proof. split; vm_compute; reflexivity. Qed.

(** ** C76, as seen from the command line: --only_sheets always ends in "No sheets found" *)
Theorem only_sheets_option_fails : forall orc orient fl vec sect rot fneg fabs fadd fsub flt fle vneg vsub vnorm vdot linspace argsort shp srot project sord th nt ot,
  (forall l, Permutation l (sord l)) -> forall fsqrt fl1 R mn mx ord sord1 pord fr pord1 s m rad dil, (forall d, Permutation d (pord1 d)) ->
  let load := create_sheetplex (segment_arrangement orc) orient fl vec sect rot fneg fabs fadd fsub flt fle vneg vsub vnorm vdot linspace argsort shp srot project sord th nt ot fr pord1 (Some (char_set s)) m in
  exists e, main (segment_arrangement orc) fsqrt fl1 R mn mx ord sord1 pord load rad dil = Err e /\ (forall sp, load = Ok sp -> e = PlainException).
Proof.
  intros orc orient fl vec sect rot fneg fabs fadd fsub flt fle vneg vsub vnorm vdot linspace argsort shp srot project sord th nt ot SO fsqrt fl1 R mn mx ord sord1 pord fr pord1 s m rad dil PO load.
  unfold main. destruct load as [sp|e] eqn:E; cbn [bind]; [|exists e; split; [reflexivity|intros; discriminate]].
  unfold load in E. destruct (plex_premises _ _ _ _ _ _ _ _ _ _ _ _ _ _ _ _ _ _ _ _ _ _ _ _ _ _ _ _ _ _ SO PO E) as (_ & _ & cs & C & _ & IS). apply only_string_no_sheets in C; auto. subst cs.
  exists PlainException. destruct (sp_sheets sp) as [|(k & sh) r]; [split; auto|]. exfalso. destruct (proj1 (IS k sh) (or_introl eq_refl)) as (c & [] & _).
Qed.
Print Assumptions only_sheets_option_fails.

(** ** Example: a box 20 x 20 x 6, two triangles per side, one of the narrow sides given as single triangles.
    Lengths are integers in tenths. *)
Section Box.
Let V := (Z * Z * Z)%type.
Let dotv (a b : V) : Z := let '(x, y, z) := a in let '(x', y', z') := b in (x * x' + y * y' + z * z')%Z.
Let subv (a b : V) : V := let '(x, y, z) := a in let '(x', y', z') := b in (x - x', y - y', z - z')%Z.
Let negv (a : V) : V := let '(x, y, z) := a in (- x, - y, - z)%Z.
Let vert (i : nat) : V := nth i [(0, 0, 0); (200, 0, 0); (200, 200, 0); (0, 200, 0); (0, 0, 60); (200, 0, 60); (200, 200, 60); (0, 200, 60)]%Z (0, 0, 0)%Z.
Let face (t : nat) : nat * nat * nat :=
  nth t [(4, 5, 6); (4, 6, 7); (0, 2, 1); (0, 3, 2); (0, 1, 5); (0, 5, 4); (1, 2, 6); (1, 6, 5); (2, 3, 7); (2, 7, 6); (3, 0, 4); (3, 4, 7)]%nat (0, 0, 0)%nat.
Let normals : list V := [(0, 0, 1); (0, 0, -1); (0, -1, 0); (1, 0, 0); (0, 1, 0); (-1, 0, 0)]%Z.
Let sect := list Z.
Let section (n : V) (hs : list Z) : list (option sect) :=
  map (fun h => if (0 <? h)%Z && (h <? 60)%Z then Some [h] else None) hs.
Let m : mesh Z V sect := mkMesh Z V sect 12 12 face (fun t => let '(a, b, c) := face t in (vert a, vert b, vert c))
  (fun t => nth (t / 2) normals (0, 0, 0)%Z) (fun _ => 60%Z) vert
  [[0; 1]; [2; 3]; [4; 5]; [6; 7]; [8; 9]]%nat (firstn 5 normals) (Some [(0, 0, 60); (0, 0, 0); (0, 0, 0); (200, 0, 0); (200, 200, 0)]%Z) [400; 400; 120; 120; 120]%Z
  [[(4, 5); (5, 6); (6, 7); (7, 4)]; [(0, 3); (3, 2); (2, 1); (1, 0)]; [(0, 1); (1, 5); (5, 4); (4, 0)]; [(1, 2); (2, 6); (6, 5); (5, 1)]; [(2, 3); (3, 7); (7, 6); (6, 2)]]%nat
  section.
Let shape_of (_ : sect) : shape := ShPolygon (mkShpoly [[NFloat 0; NFloat 0]; [NFloat 0; NFloat (zq 20)]; [NFloat (zq 20); NFloat (zq 20)]; [NFloat (zq 20); NFloat 0]; [NFloat 0; NFloat 0]] []).
Let proj (_ : unit) (t : V * V * V) : result (list point) :=
  let '(a, b, c) := t in let f (v : V) := let '(x, y, _) := v in (qq x 10, qq y 10) in Ok [f a; f b; f c].
Let A0 := segment_arrangement (fun _ _ _ => O).
Let mk := create_sheets A0 (fun p => p) Z V sect unit Z.opp Z.abs Z.add Z.sub Z.ltb Z.leb negv subv (fun v => dotv v v) dotv
  (fun a b _ => [a; (a + b) / 2; b]%Z) (fun l => rev (seq 0 (List.length l))) shape_of (fun _ => tt) proj (fun l => l) 60%Z 1%Z 1%Z.
Example box_facets : match find_all_facets Z V sect (fun l => l) m with Ok af => (af_facets _ _ af, af_areas _ _ af) | Err _ => ([], []) end
  = ([[0; 1]; [2; 3]; [4; 5]; [6; 7]; [8; 9]; [10]; [11]]%nat, [400; 400; 120; 120; 120; 60; 60]%Z).
Proof. reflexivity. Qed.
Example box_sheet : match mk None m with
  | Ok [(k, c)] => (k, cs_groups _ _ c, mapM (fun g => a <- g2_area g ;; Ok (qeqb a (zq 400))) [sh_face0 (cs_sheet _ _ c); sh_face1 (cs_sheet _ _ c); sh_slices_max (cs_sheet _ _ c)])
  | _ => (""%string, mkGroups [] [] [] [], Ok []) end
  = ("s0"%string, mkGroups [0] [1] [2; 3; 4; 5; 6] [], Ok [true; true; true])%nat /\
  match mk (Some (char_set "s0")) m with Ok cs => cs = [] | Err _ => False end.
Proof. split; vm_compute; reflexivity. Qed.
End Box.
