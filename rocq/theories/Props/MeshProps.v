(** * From a mesh to the drawing: C109, C110, C111. *)
From Verif.Model Require Import SegmentTree CellMerger Arrangement2d Geom2d Sheetplex Sheetbuild CreateSheets Canned Writer.
From Verif.Spec Require Import Plane Region Crisp Jordan Cut.
From Verif.Proofs Require Import PyP PolyP WindingP WindingQ WindingR NearP PlanarP DictP Geom2dP Geom2dOps ArrSoundP ReachP SheetplexP FingerP SheetbuildP CreateP CreateSheetsP AreaP CrispP CrispQ JordanP JordanQ BufSharpP BufSharpQ RunSharpP CutP CutQ.
From Verif.Props Require Import Primitive2dProps Geom2dProps SheetplexProps CannedProps JointProps CreateSheetsProps CrispProps JordanProps RunSharpProps WriterProps CutProps.
From Coq Require Import String Permutation.
Open Scope Qc_scope.

(** ** triangles *)
Lemma corner_only p q r x : cross (vsub q p) (vsub r q) <> 0 -> on_seg (p, q) x -> on_seg (q, r) x -> x = q.
Proof.
  intros N (t & _ & _ & ->) (u & _ & _ & E). unfold at_t in *. destruct p as [px py], q as [qx qy], r as [rx ry]. unfold vsub, vadd, vscale, cross in *. cbn [fst snd] in *. apply pair_inv in E as (E1 & E2).
  assert (Z : (1 - t) * ((qx - px) * (ry - qy) - (qy - py) * (rx - qx)) = 0).
  { transitivity ((qx - (px + t * (qx - px))) * (ry - qy) - (qy - (py + t * (qy - py))) * (rx - qx)); [ring|]. rewrite E1, E2. ring. }
  apply Qcmult_integral in Z as [Z|Z]; [|contradiction]. assert (t = 1) as -> by qlra. f_equal; ring.
Qed.
Lemma triangle_simple a b c : area_of [a; b; c] <> 0 -> simple_polygon [a; b; c].
Proof.
  intros NZ. assert (C : cross (vsub b a) (vsub c b) <> 0).
  { intros X. apply NZ. rewrite (area_of_fan a). unfold fan2, cyclic_pairs, qsum. cbn [combine app fst snd]. transitivity (- (qq 1 2 * cross (vsub b a) (vsub c b))); [|rewrite X; ring]. f_equal. f_equal. destruct a, b, c. unfold Plane.orient, cross, Plane.vsub. cbn [fst snd]. ring. }
  assert (C2 : cross (vsub c b) (vsub a c) <> 0) by (intros X; apply C; rewrite <- X; vec; ring). assert (C3 : cross (vsub a c) (vsub b a) <> 0) by (intros X; apply C; rewrite <- X; vec; ring).
  split; [|split; [cbn; lia|]].
  - constructor; [|constructor; [|constructor; [auto|constructor]]]; [intros [->|[->|[]]]|intros [->|[]]]; [apply C|apply C2|apply C]; vec; ring.
  - assert (D : forall e, is_edge [a; b; c] e -> e = (a, b) \/ e = (b, c) \/ e = (c, a)) by (intros e I; apply is_edge_iter in I; destruct I as [<-|[<-|[<-|[]]]]; auto).
    intros e f x I J NE O O'. apply D in I, J. destruct I as [->|[->| ->]], J as [->|[->| ->]]; try congruence; cbn [fst snd].
    + right. pose proof (corner_only a b c x C O O'). auto.
    + left. pose proof (corner_only c a b x C3 O' O). auto.
    + left. pose proof (corner_only a b c x C O' O). auto.
    + right. pose proof (corner_only b c a x C2 O O'). auto.
    + right. pose proof (corner_only c a b x C3 O O'). auto.
    + left. pose proof (corner_only b c a x C2 O' O). auto.
Qed.
Lemma simple_fine l g : (area_of l <> 0 -> simple_polygon l) -> polygon_q true l = Ok g -> fine g.
Proof.
  intros K H. destruct (polygon_q_ok _ _ H) as (G & NZ). split; auto. specialize (K NZ).
  unfold polygon_q in H. apply bind_ok in H as (ar & _ & H). apply bind_ok in H as (w & H2 & H). apply bind_ok in H as (u & _ & H). apply bind_ok in H as (u' & _ & H). apply Ok_inv in H as <-.
  apply SPWH_ok in H2 as (RO & _ & ->). apply simple_cuttable; [|apply RO]. destruct (qltb _ _); [now apply simple_rev|exact K].
Qed.
Lemma triangle_fine a b c g : polygon_q true [a; b; c] = Ok g -> fine g.
Proof. apply simple_fine. apply triangle_simple. Qed.

Section Mesh.
Variable orc : list segment -> nat -> nat -> nat.
Let A := segment_arrangement orc.
Variable orient : shpoly -> shpoly.
Variable fl vec sect rot : Type.
Variable fneg fabs : fl -> fl.
Variable fadd fsub : fl -> fl -> fl.
Variable flt fle : fl -> fl -> bool.
Variable vneg : vec -> vec.
Variable vsub : vec -> vec -> vec.
Variable vnorm : vec -> fl.
Variable vdot : vec -> vec -> fl.
Variable linspace : fl -> fl -> nat -> list fl.
Variable argsort : list fl -> list nat.
Variable section_shape : sect -> shape.
Variable section_rot : sect -> rot.
Variable project : rot -> vec * vec * vec -> result (list point).
Variable sord : list nat -> list nat.
Variable thickness normal_tol offset_tol : fl.
Let sheets := create_sheets A orient fl vec sect rot fneg fabs fadd fsub flt fle vneg vsub vnorm vdot linspace argsort section_shape section_rot project sord thickness normal_tol offset_tol.
Let plex := create_sheetplex A orient fl vec sect rot fneg fabs fadd fsub flt fle vneg vsub vnorm vdot linspace argsort section_shape section_rot project sord thickness normal_tol offset_tol.

(** the image of a triangle has three corners *)
Definition three_corners : Prop := forall r t v, project r t = Ok v -> List.length v = 3%nat.
(** the rings read from a section never run back along themselves *)
Definition sections_clean : Prop := forall s g, from_shapely orient (section_shape s) = Ok g -> clean_geom g.

Lemma support_fine m af r fs g : three_corners -> face_support A fl vec sect rot project m af r fs = Ok g -> fine g.
Proof.
  intros T. unfold face_support. assert (K : forall ts g g', fine g -> foldM (add_tri A fl vec sect rot project m r) ts g = Ok g' -> fine g').
  { induction ts as [|t ts IH]; intros x y F H; cbn [foldM] in H; [now apply Ok_inv in H as <-|]. apply bind_ok in H as (z & H1 & H). apply (IH z y); auto. clear H IH.
    unfold add_tri in H1. apply bind_ok in H1 as (v & V & H1). apply bind_ok in H1 as (p & Hp & H1). apply (or_made orc fine fine_neat (fine_op orc) x p z); auto.
    specialize (T _ _ _ V). destruct v as [|a [|b [|c [|]]]]; try discriminate. exact (triangle_fine a b c p Hp). }
  assert (G : fine g2_empty) by exact fine_nil. revert G. generalize g2_empty. induction fs as [|f fs IH]; intros x F H; cbn [foldM] in H; [now apply Ok_inv in H as <-|].
  apply bind_ok in H as (y & H1 & H). apply (IH y); auto. apply bind_ok in H1 as (ts & _ & H1). exact (K ts x y F H1).
Qed.
Lemma reduce_neat l : forall g r, neat g -> Forall neat l -> foldM (g2_or A) l g = Ok r -> neat r.
Proof. induction l as [|a l IH]; intros g r N F H; cbn [foldM] in H; [now apply Ok_inv in H as <-|]. inversion F; subst. apply bind_ok in H as (x & H1 & H). apply (IH x r); auto. exact (or_neat orc g a x N H2 H1). Qed.

(** ** C109 *)
Theorem mesh_faces_cuttable : forall only m cs, (forall l, Permutation l (sord l)) -> three_corners -> sheets only m = Ok cs ->
  forall k c, In (k, c) cs -> fine (sh_face0 (cs_sheet _ _ c)) /\ fine (sh_face1 (cs_sheet _ _ c)) /\
    (sections_clean -> is_geom2d (sh_slices_max (cs_sheet _ _ c)) /\ clean_geom (sh_slices_max (cs_sheet _ _ c))).
Proof.
  intros only m cs SO T H k c I. unfold sheets, create_sheets in H. apply bind_ok in H as (af & F & H). apply bind_ok in H as (st & L & H). apply Ok_inv in H as <-.
  destruct (made orc orient fl vec sect rot fneg fabs fadd fsub flt fle vneg vsub vnorm vdot linspace argsort section_shape section_rot project sord thickness normal_tol offset_tol only m af st SO L k c I) as (_ & _ & [_ _ _ _ (s & ss & S1 & S2 & S3 & S4) S5]).
  split; [exact (support_fine _ _ _ _ _ T S3)|]. split; [exact (support_fine _ _ _ _ _ T S4)|]. intros SC.
  assert (N : Forall neat (cs_slices _ _ c)).
  { apply PyP.mapM_ok in S2. clear -S2 SC. induction S2 as [|x y l r E _ IH]; constructor; auto. split; [exact (fs_geom _ _ _ E)|exact (SC _ _ E)]. }
  unfold reduce in S5. destruct N as [|g l Ng Nl]; [discriminate|]. exact (reduce_neat l g _ Ng Nl S5).
Qed.
Lemma mesh_plex fr pord only m sp : (forall l, Permutation l (sord l)) -> (forall d, Permutation d (pord d)) -> three_corners -> sections_clean -> plex fr pord only m = Ok sp ->
  plex_made sp /\ plex_clean sp /\ exists cs, sheets only m = Ok cs /\ forall k sh, In (k, sh) (sp_sheets sp) <-> exists c, In (k, c) cs /\ sh = cs_sheet _ _ c.
Proof.
  intros SO PO T SC H. destruct (plex_premises orc orient fl vec sect rot fneg fabs fadd fsub flt fle vneg vsub vnorm vdot linspace argsort section_shape section_rot project sord thickness normal_tol offset_tol fr pord only m sp SO PO H) as (M & _ & cs & CS & ND & IS).
  split; auto. split; [|exists cs; auto]. intros k sh I g Hg. apply IS in I as (c & I & ->). destruct (mesh_faces_cuttable only m cs SO T CS k c I) as (F0 & F1 & S). specialize (S SC).
  destruct Hg as [<-|[<-|[<-|[]]]]; [exact (fine_neat _ F0)|exact (fine_neat _ F1)|exact S].
Qed.

(** ** C110 *)
Theorem mesh_drawing : forall fr pord only m fsqrt fl1 R mn mx ord sord1 pord1 rad dil out,
  (forall l, Permutation l (sord l)) -> (forall d, Permutation d (pord d)) -> (forall c, Permutation c (ord c)) -> (forall d, Permutation d (pord1 d)) ->
  root_ok fsqrt -> three_corners -> sections_clean ->
  main A fsqrt fl1 R mn mx ord sord1 pord1 (plex fr pord only m) rad dil = Ok out -> (forall name pls, In (name, pls) out -> pls <> []) ->
  finite_drawing out /\
  forall k j i e k' j' i' e' x, drawn_line out k j i e -> drawn_line out k' j' i' e' -> between_ends e x -> on_seg e' x -> k = k' /\ j = j' /\ i = i'.
Proof.
  intros fr pord only m fsqrt fl1 R mn mx ord sord1 pord1 rad dil out SO PO OO PO1 RO T SC H NE. destruct (plex fr pord only m) as [sp|e] eqn:E; [|discriminate H].
  destruct (mesh_plex _ _ _ _ _ SO PO T SC E) as (M & PC & _). exact (cli_no_crossing orc fsqrt fl1 R mn mx ord sord1 pord1 sp rad dil out RO M PC OO PO1 H NE).
Qed.

(** ** C111 *)
Definition in_or_on (g : geom2d) (p : point) : Prop := on_bd g p \/ in_geom g p.
Lemma in_or_on_limit (l : list geom2d) p : Forall is_geom2d l -> (forall eps, 0 < eps -> exists q g, near eps p q /\ In g l /\ in_geom g q) -> exists g, In g l /\ in_or_on g p.
Proof.
  intros G H. assert (K : (exists g, In g l /\ in_or_on g p) \/ exists e, 0 < e /\ forall q g, near e p q -> In g l -> ~ in_geom g q).
  { clear H. induction G as [|g l G Gl IH]; [right; exists 1; split; [qlra|intros q g _ []]|]. destruct IH as [(x & I & X)|(e2 & E2 & H2)]; [left; exists x; cbn; auto|].
    destruct (on_bd_dec g p) as [B|B]; [left; exists g; cbn; unfold in_or_on; auto|]. destruct (bd_away g p G B) as (e1 & E1 & AW).
    destruct (g2_locate_ok g p G B) as [(_ & I)|(_ & I)]; [left; exists g; cbn; unfold in_or_on; auto|]. right. destruct (qmin_spec e1 e2) as (M1 & M2 & M3). exists (qmin e1 e2). split; auto.
    intros q x N [<-|X]; [|exact (H2 q x (near_mono _ _ _ _ M2 N) X)]. intros J. apply I. apply (AW q); auto. exact (near_mono _ _ _ _ M1 N). }
  destruct K as [K|(e & E & K)]; auto. destruct (H e E) as (q & g & N & I & J). destruct (K q g N I J).
Qed.
Theorem mesh_result_within_sections_everywhere : forall fr pord only m sp fsqrt fl1 R mn mx ord sord1 show rof rad ci ok sb h,
  (forall l, Permutation l (sord l)) -> (forall d, Permutation d (pord d)) -> (forall c, Permutation c (ord c)) -> root_ok fsqrt -> three_corners -> sections_clean ->
  plex fr pord only m = Ok sp -> canned_1 A fsqrt fl1 R mn mx ord sord1 show rof sp rad ci = Ok (mkCanned ok sb h) ->
  exists cs, sheets only m = Ok cs /\
  forall k p, in_or_on (geom_at (sb_schosen sb) k) p -> exists c g, In (k, c) cs /\ In g (cs_slices _ _ c) /\ in_or_on g p.
Proof.
  intros fr pord only m sp fsqrt fl1 R mn mx ord sord1 show rof rad ci ok sb h SO PO OO RO T SC P C.
  destruct (mesh_plex _ _ _ _ _ SO PO T SC P) as (M & PC & _).
  destruct (plex_premises orc orient fl vec sect rot fneg fabs fadd fsub flt fle vneg vsub vnorm vdot linspace argsort section_shape section_rot project sord thickness normal_tol offset_tol fr pord only m sp SO PO P) as (_ & _ & cs & CS & ND & IS).
  exists cs. split; auto. intros k p I. pose proof (proj1 (run_states orc fsqrt fl1 R mn mx ord sord1 _ _ _ _ _ _ _ _ RO M PC OO C k)) as (G & CR & _).
  destruct (mesh_result_within_sections orc orient fl vec sect rot fneg fabs fadd fsub flt fle vneg vsub vnorm vdot linspace argsort section_shape section_rot project sord thickness normal_tol offset_tol fr pord only m sp fsqrt fl1 R mn mx ord sord1 show rof rad ci ok sb h SO PO OO P C) as (cs' & CS' & W).
  assert (cs' = cs) by (unfold sheets in CS; congruence). subst cs'.
  assert (L : Forall is_geom2d (match dget String.eqb k cs with Some c => cs_slices _ _ c | None => [] end)).
  { destruct (dget String.eqb k cs) as [c|] eqn:E; [|constructor]. apply dget_in in E; [|exact string_eqb_ok].
    destruct (sheet_geometry orc orient fl vec sect rot fneg fabs fadd fsub flt fle vneg vsub vnorm vdot linspace argsort section_shape section_rot project sord thickness normal_tol offset_tol only m cs SO CS) as (af & _ & SG).
    destruct (SG k c E) as (s & ss & _ & F & _). clear -F. induction F as [|a b x y (_ & X) _ IH]; constructor; auto. }
  assert (NE : forall eps, 0 < eps -> exists q, near eps p q /\ ~ on_bd (geom_at (sb_schosen sb) k) q /\ in_geom (geom_at (sb_schosen sb) k) q).
  { intros eps E. destruct (on_bd_dec (geom_at (sb_schosen sb) k) p) as [B|B]; [exact (proj1 (CR p eps B E))|]. destruct I as [I|I]; [contradiction|]. exists p. split; [unfold near; rewrite !qabs_lt; repeat split; qlra|auto]. }
  destruct (in_or_on_limit _ p L) as (g & Ig & O).
  - intros eps E. assert (E2 : 0 < eps * qq 1 2) by (apply mpp; [auto|vm_compute; reflexivity]). destruct (NE _ E2) as (q & N & B & J).
    destruct (near_off q _ (geom_at (sb_schosen sb) k) (all_segments (geom_at (sb_schosen sb) k) ++ flat_map all_segments (flat_map (fun e => cs_slices _ _ (snd e)) cs)) E2 G B) as (q' & N' & J' & OF). apply off_segs_app in OF as (O1 & O2).
    destruct (W k q') as (c & g & Ic & Ig & X).
    + now apply J'.
    + intros Y. apply on_bd_segments in Y as (s & Hs & Y). exact (O1 s Hs Y).
    + intros c Ic g Hg Y. apply on_bd_segments in Y as (s & Hs & Y). apply (O2 s); auto. apply in_flat_map. exists g. split; auto. apply in_flat_map. exists (k, c). auto.
    + exists q', g. split; [exact (near_trans _ _ _ _ N N')|]. split; auto. apply (dget_nodup _ string_eqb_ok _ _ _ ND) in Ic. now rewrite Ic.
  - destruct (dget String.eqb k cs) as [c|] eqn:E; [|destruct Ig]. apply dget_in in E; [|exact string_eqb_ok]. exists c, g. auto.
Qed.
End Mesh.
Print Assumptions mesh_faces_cuttable.
Print Assumptions mesh_drawing.
Print Assumptions mesh_result_within_sections_everywhere.

(** the hypotheses hold of the box of [CreateSheetsProps], whose sections are squares *)
Section Ex.
Let shape_of (_ : list Z) : shape := ShPolygon (mkShpoly [[NFloat 0; NFloat 0]; [NFloat 0; NFloat (zq 20)]; [NFloat (zq 20); NFloat (zq 20)]; [NFloat (zq 20); NFloat 0]; [NFloat 0; NFloat 0]] []).
Let V := (Z * Z * Z)%type.
Let proj (_ : unit) (t : V * V * V) : result (list point) :=
  let '(a, b, c) := t in let f (v : V) := let '(x, y, _) := v in (qq x 10, qq y 10) in Ok [f a; f b; f c].
Example mesh_ex : three_corners V unit proj /\ sections_clean (fun p => p) (list Z) shape_of /\ (exists g, from_shapely (fun p => p) (shape_of []) = Ok g /\ g <> []).
Proof.
  assert (E : from_shapely (fun p => p) (shape_of []) = Ok [mkSpwh [(0, 0); (0, zq 20); (zq 20, zq 20); (zq 20, 0)] []]) by (vm_compute; reflexivity).
  split; [intros r ((a, b), c) v H; apply Ok_inv in H as <-; reflexivity|]. split; [|eexists; split; [exact E|discriminate]].
  intros s g H. change (shape_of s) with (shape_of []) in H. assert (g = [mkSpwh [(0, 0); (0, zq 20); (zq 20, zq 20); (zq 20, 0)] []]) as -> by congruence. apply (rect_sharp 0 0 20 20). vm_compute. reflexivity.
Qed.
(** a triangle in either order is cuttable *)
Example triangle_ex : exists g, polygon_q true [(0, 0); (zq 4, 0); (0, zq 4)] = Ok g /\ fine g.
Proof. eexists. split; [vm_compute; reflexivity|]. apply (triangle_fine (0, 0) (zq 4, 0) (0, zq 4)). vm_compute. reflexivity. Qed.
End Ex.
