(** * What remove_loose, update_intersection_ok and the other trimming steps take away *)
From Verif.Spec Require Import Plane Region PointSet1 Fingers Crisp Trim.
From Verif.Model Require Import SegmentTree CellMerger Arrangement2d Geom2d Sheetplex Sheetbuild Heuristics Canned.
From Verif.Proofs Require Import PyP PolyP WindingP WindingQ WindingR PlanarP ExtOrd DictP Geom1dP Geom1dM NearP Geom2dP Geom2dOps ArrSoundP ReachP SheetplexP FingerP SheetbuildP CreateP HeuristicsP ClusterP HeuStepsP CrispP CrispQ CoverP RibbonP BufSharpP BufSharpQ RunSharpP.
From Verif.Props Require Import Geom1dProps Primitive2dProps SheetplexProps Geom2dProps SetOpsProps AreaProps CannedProps CrispProps BufferExactProps BufferSharpProps JointProps RunSharpProps.
From Coq Require Import String Permutation.
Open Scope Qc_scope.

(** ** folds over the sheets: each sheet is handled once *)
Lemma made_sheets sp : plex_made sp -> NoDup (map sh_id (values (sp_sheets sp))) /\ forall k sh, In (k, sh) (sp_sheets sp) -> sh_id sh = k.
Proof.
  intros (fr & sp0 & F & C). destruct (created fr sp0 sp F C) as (-> & _). destruct (fresh_ids sp0 F) as (N & _). split; auto. intros k sh I. exact (proj1 (proj2 (proj2 F) k sh I)).
Qed.
(** what is left of a state but sheet_ok *)
Definition same_but_sok (a b : sbuild) : Prop := sb_plex b = sb_plex a /\ sb_schosen b = sb_schosen a /\ sb_ichosen b = sb_ichosen a /\ sb_iok b = sb_iok a.
Definition same_but_iok (a b : sbuild) : Prop := sb_plex b = sb_plex a /\ sb_schosen b = sb_schosen a /\ sb_sok b = sb_sok a /\ sb_ichosen b = sb_ichosen a.
Lemma sbs_trans a b c : same_but_sok a b -> same_but_sok b c -> same_but_sok a c.
Proof. unfold same_but_sok. intuition congruence. Qed.
Lemma sbi_trans a b c : same_but_iok a b -> same_but_iok b c -> same_but_iok a c.
Proof. unfold same_but_iok. intuition congruence. Qed.
(** a fold whose step [x] changes the value at [key x] only, by [E], a relation between the state the step starts from and the new value *)
Section Once.
Context {X K V : Type} (step : sbuild -> X -> result sbuild) (key : X -> K) (val : sbuild -> K -> V) (same : sbuild -> sbuild -> Prop).
Hypothesis same_refl : forall a, same a a.
Hypothesis same_trans : forall a b c, same a b -> same b c -> same a c.
Variable R : sbuild -> X -> V -> V -> Prop.
Hypothesis R_same : forall a b x v w, same a b -> R b x v w -> R a x v w.
Variable Inv : sbuild -> Prop.
Hypothesis Inv_same : forall a b, same a b -> Inv a -> Inv b.
Lemma fold_once l : (forall sb x sb', Inv sb -> In x l -> step sb x = Ok sb' -> same sb sb' /\ R sb x (val sb (key x)) (val sb' (key x)) /\ forall k, k <> key x -> val sb' k = val sb k) ->
  NoDup (map key l) -> forall sb sb', Inv sb -> foldM step l sb = Ok sb' -> same sb sb' /\ (forall x, In x l -> R sb x (val sb (key x)) (val sb' (key x))) /\
    forall k, ~ In k (map key l) -> val sb' k = val sb k.
Proof.
  induction l as [|x l IH]; intros ST N sb sb' IV H; cbn [foldM] in H; [apply Ok_inv in H as <-; split; auto; split; [intros x []|auto]|].
  apply bind_ok in H as (m & H1 & H2). cbn [map] in N. inversion N as [|? ? NI N']; subst. destruct (ST sb x m IV (or_introl eq_refl) H1) as (S1 & R1 & O1).
  destruct (IH (fun a y b V I => ST a y b V (or_intror I)) N' m sb' (Inv_same _ _ S1 IV) H2) as (S2 & R2 & O2). split; [exact (same_trans _ _ _ S1 S2)|]. split.
  - intros y [<-|I]; [rewrite (O2 _ NI); auto|]. apply (R_same sb m); auto. rewrite <- (O1 (key y)); auto. intros E. apply NI. rewrite <- E. now apply in_map.
  - intros k NK. cbn [map] in NK. rewrite O2 by (intros Z; apply NK; now right). apply O1. intros E. apply NK. now left.
Qed.
End Once.

(** ** remove_loose *)
Section Loose.
Variable orc : list segment -> nat -> nat -> nat.
Let A := segment_arrangement orc.
Lemma msub2_get m k a m' : msub2 A m k a = Ok m' -> exists g r, dget String.eqb k m = Some g /\ g2_sub A g a = Ok r /\ m' = dset String.eqb k r m.
Proof. unfold msub2, map_op_geom. intros H. destruct (dget String.eqb k m) as [g|] eqn:G; [|discriminate]. apply bind_ok in H as (r & R & H). apply Ok_inv in H as <-. eauto 6. Qed.
(** [im] gathers the pieces of [ps] that do not meet the support *)
Definition is_loose (sup : geom2d) (w : spwh) : Prop := g2_and A [w] sup = Ok [].
Lemma loose_fold sb sh sup ps : is_geom2d sup -> is_geom2d ps -> forall acc im, is_geom2d acc -> foldM (loose A sb sh sup) (g2_polygons ps) acc = Ok im ->
  (forall w, In w ps -> exists x, g2_and A [w] sup = Ok x) /\ is_geom2d im /\ forall p, ~ on_bd acc p -> ~ on_bd ps p -> ~ on_bd im p /\ (in_geom im p <-> in_geom acc p \/ exists w, In w ps /\ is_loose sup w /\ in_poly w p).
Proof.
  intros GS. unfold g2_polygons. induction ps as [|w ps IH]; intros GP acc im GA H; cbn [map foldM] in H.
  { apply Ok_inv in H as <-. split; [intros w []|]. split; auto. intros p N _. split; auto. split; auto. intros [|(w & [] & _)]; auto. }
  apply bind_ok in H as (m & H1 & H2). inversion GP as [|? ? Gw GP']; subst. assert (GW : is_geom2d [w]) by (constructor; [auto|constructor]).
  unfold loose in H1. apply bind_ok in H1 as (x & X & H1).
  assert (WP : forall p, in_geom [w] p <-> in_poly w p) by (intros p; split; [intros (s & [<-|[]] & I); auto|intros I; exists w; cbn; auto]).
  assert (BW : forall p, ~ on_bd (w :: ps) p -> ~ on_bd [w] p /\ ~ on_bd ps p).
  { intros p N. split; intros (r & (s & I & J) & B); apply N; exists r; split; auto; exists s; split; auto; [destruct I as [<-|[]]; now left|now right]. }
  destruct x as [|x0 x]; cbn [g2_is_empty] in H1.
  - apply bind_ok in H1 as (c & _ & H1). apply bind_ok in H1 as (cp & _ & H1). apply bind_ok in H1 as (u & _ & H1).
    destruct (g2_or_ok A acc [w] m (arrangement_sound orc) GA GW H1) as (Gm & Bm & Mm). destruct (IH GP' m im Gm H2) as (Wi & Gi & Mi). split; [intros v [<-|I]; eauto|]. split; auto. intros p N1 N2. destruct (BW p N2) as (NW & NP).
    assert (O : off_all [acc; [w]] p) by (intros g [<-|[<-|[]]]; auto). assert (Nm : ~ on_bd m p) by (intros B; exact (Bm p B O)). destruct (Mi p Nm NP) as (Ni & M2). split; auto. rewrite M2, (Mm p O), WP. split.
    + intros [[|]|(v & I & L & J)]; auto; right; [exists w; cbn; auto|exists v; cbn; auto].
    + intros [|(v & [<-|I] & L & J)]; auto. right. eauto.
  - apply Ok_inv in H1 as <-. destruct (IH GP' acc im GA H2) as (Wi & Gi & Mi). split; [intros v [<-|I]; eauto|]. split; auto. intros p N1 N2. destruct (BW p N2) as (NW & NP). destruct (Mi p N1 NP) as (Ni & M2). split; auto. rewrite M2. split.
    + intros [|(v & I & L & J)]; auto; right; exists v; cbn; auto.
    + intros [|(v & [<-|I] & L & J)]; auto; [|right; eauto]. unfold is_loose in L. rewrite X in L. apply Ok_inv in L. discriminate.
Qed.
Lemma loose_neat sb sh sup ps : neat ps -> forall acc im, neat acc -> foldM (loose A sb sh sup) (g2_polygons ps) acc = Ok im -> neat im.
Proof.
  intros NP. assert (W : forall w, In w ps -> neat [w]) by (intros w; now apply neat_part). clear NP. unfold g2_polygons. induction ps as [|w ps IH]; intros acc im NA H; cbn [map foldM] in H; [now apply Ok_inv in H as <-|].
  apply bind_ok in H as (m & H1 & H2). apply (IH (fun v I => W v (or_intror I)) m im); auto. clear IH H2. unfold loose in H1. apply bind_ok in H1 as (x & _ & H1). destruct (g2_is_empty x); [|now apply Ok_inv in H1 as <-].
  apply bind_ok in H1 as (c & _ & H1). apply bind_ok in H1 as (cp & _ & H1). apply bind_ok in H1 as (u & _ & H1). exact (or_neat orc acc [w] m NA (W w (or_introl eq_refl)) H1).
Qed.
(** one sheet *)
Definition trimmed (sb : sbuild) (sh : sheet) (k k' : geom2d) : Prop :=
  exists sup ps im, g2_and A (sh_face0 sh) (sh_face1 sh) = Ok sup /\ g2_or A (geom_at (sb_schosen sb) (sh_id sh)) k = Ok ps /\
    foldM (loose A sb sh sup) (g2_polygons ps) g2_empty = Ok im /\ g2_sub A k im = Ok k'.
Lemma loose_sheet sb sh sb' : remove_loose_sheet A sb sh = Ok sb' -> same_but_sok sb sb' /\
  trimmed sb sh (geom_at (sb_sok sb) (sh_id sh)) (geom_at (sb_sok sb') (sh_id sh)) /\ forall k, k <> sh_id sh -> geom_at (sb_sok sb') k = geom_at (sb_sok sb) k.
Proof.
  unfold remove_loose_sheet. intros H. apply bind_ok in H as (sup & SU & H). apply bind_ok in H as (c & C & H). apply bind_ok in H as (k & K & H). apply bind_ok in H as (ps & PS & H). apply bind_ok in H as (im & IM & H).
  apply bind_ok in H as (sok & SK & H). apply Ok_inv in H as <-. apply dgetr_ok in C, K. apply geom_at_get in C, K. unfold transform_sub2 in SK. apply msub2_get in SK as (g & r & G & R & ->). apply geom_at_get in G.
  split; [repeat split|]. cbn [with_sok sb_sok]. split.
  - exists sup, ps, im. rewrite geom_at_dset, String.eqb_refl. rewrite K in G. subst g. rewrite C, K. auto.
  - intros j N. rewrite geom_at_dset. destruct (String.eqb_spec j (sh_id sh)); tauto.
Qed.
Lemma trimmed_same a b sh v w : same_but_sok a b -> trimmed b sh v w -> trimmed a sh v w.
Proof.
  intros (_ & E & _) (sup & ps & im & H1 & H2 & H3 & H4). exists sup, ps, im. rewrite <- E. repeat (split; auto).
  rewrite <- H3. clear -E. generalize g2_empty. induction (g2_polygons ps) as [|x l IH]; intros acc; cbn [foldM]; auto.
  assert (X : loose A a sh sup acc x = loose A b sh sup acc x) by (unfold loose; now rewrite E). rewrite X. destruct (loose A b sh sup acc x); cbn [bind]; auto.
Qed.
Lemma loose_all sp st st' : plex_made sp -> sb_plex (fst st) = sp -> remove_loose A st = Ok st' -> same_but_sok (fst st) (fst st') /\
  (forall k sh, In (k, sh) (sp_sheets sp) -> trimmed (fst st) sh (geom_at (sb_sok (fst st)) k) (geom_at (sb_sok (fst st')) k)) /\
  forall k, ~ In k (keys (sp_sheets sp)) -> geom_at (sb_sok (fst st')) k = geom_at (sb_sok (fst st)) k.
Proof.
  intros M P H. unfold remove_loose in H. apply bind_ok in H as ((sb & ci) & H1 & H). apply hcheck_ok in H1. cbn [fst] in H1. subst sb.
  apply bind_ok in H as (sb & H2 & H). apply Ok_inv in H as <-. cbn [fst]. unfold sheets_of in H2. rewrite P in H2. destruct (made_sheets sp M) as (N & KS).
  destruct (fold_once (remove_loose_sheet A) sh_id (fun sb k => geom_at (sb_sok sb) k) same_but_sok (fun a => conj eq_refl (conj eq_refl (conj eq_refl eq_refl))) sbs_trans trimmed trimmed_same (fun _ => True) (fun _ _ _ X => X)
    (values (sp_sheets sp)) (fun sb x sb' _ _ H => loose_sheet sb x sb' H) N _ _ I H2) as (S & T & O). split; auto. split.
  - intros k sh I. pose proof (KS k sh I) as <-. apply T. unfold values. now apply (in_map snd) in I.
  - intros k NI. apply O. intros Z. apply NI. apply in_map_iff in Z as (sh & <- & Z). apply in_map_iff in Z as ((j & x) & E & Z). cbn [snd] in E. subst x. rewrite (KS j sh Z). now apply (in_map fst) in Z.
Qed.
(** the same, seen in the plane *)
Lemma common_points w f0 f1 sup x : neat [w] -> neat f0 -> neat f1 -> g2_and A f0 f1 = Ok sup -> g2_and A [w] sup = Ok x ->
  let common := exists q, off_all [[w]; f0; f1] q /\ in_poly w q /\ in_geom f0 q /\ in_geom f1 q in (x = [] /\ ~ common) \/ (x <> [] /\ common).
Proof.
  intros Nw N0 N1 SU X common. destruct (g2_and_ok A f0 f1 sup (arrangement_sound orc) (proj1 N0) (proj1 N1) SU) as (Gs & Bs & Ms).
  pose proof (and_neat orc f0 f1 sup N0 N1 SU) as Ss. destruct (g2_and_ok A [w] sup x (arrangement_sound orc) (proj1 Nw) Gs X) as (Gx & Bx & Mx).
  pose proof (and_neat orc [w] sup x Nw (sharp_neat _ Ss) X) as Sx. assert (WP : forall p, in_geom [w] p <-> in_poly w p) by (intros p; split; [intros (s & [<-|[]] & I); auto|intros I; exists w; cbn; auto]).
  assert (OFF : forall q, off_all [[w]; f0; f1] q -> off_all [f0; f1] q /\ off_all [[w]; sup] q).
  { intros q O. assert (O2 : off_all [f0; f1] q) by (intros g [<-|[<-|[]]]; apply O; cbn; auto). split; auto. intros g [<-|[<-|[]]]; [apply O; cbn; auto|]. intros B. exact (Bs q B O2). }
  destruct x as [|x0 x].
  - left. split; auto. intros (q & O & Iw & I0 & I1). destruct (OFF q O) as (O2 & O1). assert (Z : in_geom [] q) by (apply Mx; auto; split; [now apply WP|now apply Ms]). destruct Z as (? & [] & _).
  - right. split; [discriminate|]. destruct Sx as (_ & Cx & _). assert (RO : ring_of (x0 :: x) (outer x0)) by (exists x0; cbn; auto). pose proof (ring_ne _ _ Gx RO) as NE. destruct (outer x0) as [|v r] eqn:EO; [congruence|].
    assert (B : on_bd (x0 :: x) v) by (exists (v :: r); split; [rewrite <- EO; exists x0; cbn; auto|apply vertex_on_boundary; cbn; auto]).
    destruct (Cx v 1 B ltac:(qlra)) as ((q & _ & Nq & Iq) & _). destruct (near_off q 1 _ (all_segments [w] ++ all_segments f0 ++ all_segments f1) ltac:(qlra) Gx Nq) as (q' & _ & E' & O'). exists q'.
    apply off_segs_app in O' as (O1 & O'). apply off_segs_app in O' as (O2 & O3). assert (OO : off_all [[w]; f0; f1] q') by (intros g [<-|[<-|[<-|[]]]]; intros Z; apply on_bd_segments in Z as (e & Ze & Z); [apply (O1 e Ze Z)|apply (O2 e Ze Z)|apply (O3 e Ze Z)]).
    split; auto. destruct (OFF q' OO) as (OA & OB). destruct (proj1 (Mx q' OB) (proj1 E' Iq)) as (J1 & J2). split; [now apply WP|]. now apply Ms.
Qed.
(** a piece is left whole along a path that stays inside *)
Lemma way_piece ps w p q : sharp ps -> In w ps -> way (fun x => g2_locate ps x = Ok 1%Z) p q -> (in_poly w p <-> in_poly w q).
Proof.
  intros (G & C & _) I W. induction W as [p _|p q z H W IH]; [tauto|]. rewrite <- IH. assert (GW : is_geom2d [w]) by (constructor; [exact (proj1 (Forall_forall _ _) G w I)|constructor]).
  assert (WP : forall p, in_geom [w] p <-> in_poly w p) by (intros x; split; [intros (s & [<-|[]] & J); auto|intros J; exists w; cbn; auto]). rewrite <- !WP. apply in_geom_move; auto.
  intros x X (r & (s & [<-|[]] & Hr) & B). assert (BD : on_bd ps x) by (exists r; split; [exists w; auto|exact B]). destruct (crisp_locates ps x G C) as [(E & _)|[(_ & N & _)|(_ & N & _)]]; try tauto. rewrite (H x X) in E. discriminate.
Qed.
End Loose.

(** ** projection *)
Definition shadow (vec : point) (offs : Qc) (p : point) : Qc := Geom2d.dot p vec + offs.
Lemma shadow_lin vec offs p q t : shadow vec offs (at_t (p, q) t) = shadow vec offs p + t * (shadow vec offs q - shadow vec offs p).
Proof. destruct p, q. unfold shadow, at_t, vadd, vscale, vsub, Geom2d.dot. cbn [fst snd]. ring. Qed.
Lemma ring_crosses (f : point -> Qc) r v1 v2 y : (forall p q t, f (at_t (p, q) t) = f p + t * (f q - f p)) -> In v1 r -> In v2 r -> f v1 <= y -> y < f v2 -> exists x, on_boundary r x /\ f x = y.
Proof.
  intros LIN I1 I2 L1 L2. destruct r as [|h r]; [destruct I1|].
  assert (D : (exists e, In e (edges_iter (h :: r)) /\ ((f (fst e) <= y /\ y < f (snd e)) \/ (y < f (fst e) /\ f (snd e) <= y))) \/
    forall e, In e (edges_iter (h :: r)) -> (f (fst e) <= y -> f (snd e) <= y) /\ (y < f (fst e) -> y < f (snd e))).
  { induction (edges_iter (h :: r)) as [|e l [(x & X & H)|IH]]; [right; intros ? []|left; exists x; cbn; auto|].
    destruct (qleb_spec (f (fst e)) y) as [A|A], (qleb_spec (f (snd e)) y) as [B|B].
    - right. intros x [<-|X]; [split; intros; auto; qlra|auto].
    - left. exists e. split; [now left|]. left. split; qlra.
    - left. exists e. split; [now left|]. right. split; qlra.
    - right. intros x [<-|X]; [split; intros; auto; qlra|auto]. }
  destruct D as [(e & I & H)|N].
  - apply is_edge_iter in I. destruct e as [p q]. cbn [fst snd] in H. destruct (qeqb_spec (f q) y) as [E|NE].
    + exists q. split; auto. exists (p, q). split; auto. apply on_seg_end.
    + destruct (cross_value f p q y) as (x & X & E); [intros; apply LIN|..].
      * destruct H as [H|(H1 & H2)]; [left; exact H|right; split; [destruct (qc_not_eq _ _ NE); qlra|qlra]].
      * exists x. split; auto. exists (p, q). auto.
  - exfalso. destruct (qleb_spec (f h) y) as [A|A].
    + assert (K : f v2 <= y) by (apply (cyclic_inv (fun v => f v <= y) (h :: r) h eq_refl A (fun e E => proj1 (N e (proj1 (is_edge_iter _ e) E))) v2 I2)). qlra.
    + assert (K : y < f v1). { refine (cyclic_inv (fun v => y < f v) (h :: r) h eq_refl _ (fun e E => proj2 (N e (proj1 (is_edge_iter _ e) E))) v1 I1). qlra. } qlra.
Qed.
Lemma in_ring_strict r p (d : point) : r <> [] -> d <> (0, 0) -> ~ on_boundary r p -> in_ring r p ->
  (exists v, In v r /\ Geom2d.dot v d <= Geom2d.dot p d) /\ (exists v, In v r /\ Geom2d.dot p d < Geom2d.dot v d).
Proof.
  intros NE ND B I. split; [exact (proj1 (in_ring_range r p d NE ND B I))|]. destruct (ring_away r p NE B) as (eps & E & AW). destruct (near_step eps p d E) as (k & K & N).
  specialize (N k ltac:(qlra) ltac:(qlra)). destruct (AW _ N) as (B' & I'). destruct (proj2 (in_ring_range r _ d NE ND B' (proj1 I' I))) as (v & V & L). exists v. split; auto.
  assert (P : 0 < fst d * fst d + snd d * snd d) by (destruct d as [a b]; cbn [fst snd]; destruct (qeqb_spec a 0) as [->|Na]; [destruct (qeqb_spec b 0) as [->|Nb]; [tauto|assert (0 < b * b) by (destruct (qc_not_eq _ _ Nb); qnra); qlra]|assert (0 < a * a) by (destruct (qc_not_eq _ _ Na); qnra); assert (0 <= b * b) by (destruct (qleb_spec 0 b); qnra); qlra]).
  assert (Q : 0 < k * (fst d * fst d + snd d * snd d)) by (apply mpp; auto). destruct p as [px py], d as [dx dy], v as [vx vy]. unfold step, vadd, vscale, Geom2d.dot in *. cbn [fst snd] in *. qlra.
Qed.
(** the ranges of a projection: the ring of a polygon passes over every position in them, and they contain the position of every point inside *)
Lemma project_shadow g vec offs res : is_geom2d g -> vec <> (0, 0) -> project_to_1d g vec offs = Ok res -> normal res /\
  (forall y, pts res y -> exists x, on_bd g x /\ shadow vec offs x = y) /\ (forall p, ~ on_bd g p -> in_geom g p -> pts res (shadow vec offs p)).
Proof.
  intros G NV H. destruct (project_ok g vec offs G) as (res' & E & N & PR). rewrite H in E. apply Ok_inv in E as <-. split; auto.
  assert (RNE : forall w, In w g -> outer w <> []) by (intros w I; unfold is_geom2d in G; rewrite Forall_forall in G; now apply G, spwh_ok_iff in I as ((Ne & _) & _)).
  assert (RP : forall w lo hi, In w g -> ring_proj vec offs w lo hi -> (forall v, In v (outer w) -> lo <= shadow vec offs v /\ shadow vec offs v <= hi) /\
    (exists v, In v (outer w) /\ shadow vec offs v = lo) /\ (exists v, In v (outer w) /\ shadow vec offs v = hi)).
  { intros w lo hi I R. unfold ring_proj in R. destruct (min_max_ok (map (fun p => Geom2d.dot p vec + offs) (outer w))) as (lo' & hi' & E' & R1 & R2 & R3).
    - intros X. apply (RNE w I). destruct (outer w); [auto|discriminate].
    - rewrite E' in R. apply Ok_inv, pair_inv in R as (-> & ->). split; [intros v V; apply R1; apply in_map_iff; exists v; auto|].
      apply in_map_iff in R2 as (v1 & V1 & I1), R3 as (v2 & V2 & I2). unfold shadow. split; eauto. }
  split.
  - intros y Y. apply PR in Y as (w & lo & hi & I & R & L1 & L2). destruct (RP w lo hi I R) as (_ & (v1 & V1 & E1) & (v2 & V2 & E2)).
    destruct (ring_crosses (shadow vec offs) (outer w) v1 v2 y (fun p q t => shadow_lin vec offs p q t) V1 V2) as (x & X & Ex); [qlra|qlra|].
    exists x. split; auto. exists (outer w). split; auto. exists w. auto.
  - intros p B (w & I & IR & _). apply PR. destruct (min_max_ok (map (fun p => Geom2d.dot p vec + offs) (outer w))) as (lo & hi & EM & _); [intros X; apply (RNE w I); destruct (outer w); [auto|discriminate]|].
    destruct (RP w lo hi I EM) as (RA & _). exists w, lo, hi. split; auto. split; auto.
    assert (NB : ~ on_boundary (outer w) p) by (intros X; apply B; exists (outer w); split; auto; exists w; auto).
    destruct (in_ring_strict (outer w) p vec (RNE w I) NV NB IR) as ((v1 & V1 & L1) & (v2 & V2 & L2)). destruct (RA v1 V1) as (A1 & _), (RA v2 V2) as (_ & A2). unfold shadow in *. split; qlra.
Qed.

Lemma pts_right w x : normal w -> pts w x -> exists eps, 0 < eps /\ forall t, 0 <= t -> t <= eps -> pts w (x + t).
Proof.
  intros N P. pose proof (g_invert_ok w N) as I. pose proof (inv_nml _ _ N I) as NI. destruct (right_open _ x NI) as (e & E & H); [rewrite (inv_pts _ _ x N I); tauto|]. exists e. split; auto.
  intros t T1 T2. specialize (H t T1 T2). rewrite (inv_pts _ _ _ N I) in H. destruct (SheetbuildP.pts_dec w (x + t)); tauto.
Qed.
Lemma shadow_near vec offs e : 0 < e -> exists eps, 0 < eps /\ forall p q, near eps p q -> qabs (shadow vec offs q - shadow vec offs p) < e.
Proof.
  intros E. destruct (lin_near (fst vec) (snd vec) e E) as (eps & P & H). exists eps. split; auto. intros p q N. replace (shadow vec offs q - shadow vec offs p) with (fst vec * (fst q - fst p) + snd vec * (snd q - snd p)); [now apply H|].
  unfold shadow, Geom2d.dot. ring.
Qed.
(** a position is in the projection iff points inside are found over it or right after it *)
Lemma project_dense g vec offs res : sharp g -> vec <> (0, 0) -> project_to_1d g vec offs = Ok res ->
  forall y, pts res y <-> forall e gs, 0 < e -> exists p, y <= shadow vec offs p /\ shadow vec offs p < y + e /\ off_all gs p /\ ~ on_bd g p /\ in_geom g p.
Proof.
  intros S NV H y. destruct (project_shadow g vec offs res (proj1 S) NV H) as (N & S1 & S2). split.
  - intros Y e gs E. destruct (pts_right res y N Y) as (d & D & R). destruct (qmin_spec d e) as (M1 & M2 & M3). specialize (M3 D E). set (m := qmin d e) in *. clearbody m.
    assert (H2 : 0 < m * qq 1 2) by (apply mpp; [auto|vm_compute; reflexivity]). assert (HH : m * qq 1 2 + m * qq 1 2 = m) by (transitivity (m * (qq 1 2 + qq 1 2)); [ring|replace (qq 1 2 + qq 1 2) with 1 by (now apply Qc_is_canon); ring]).
    set (h := m * qq 1 2) in *. clearbody h. destruct (S1 (y + h) (R h ltac:(qlra) ltac:(qlra))) as (x & B & Ex). destruct (shadow_near vec offs (h) H2) as (eps & EP & NR).
    assert (E2 : 0 < eps * qq 1 2) by (apply mpp; [auto|vm_compute; reflexivity]). destruct (proj1 (proj1 (proj2 S) x _ B E2)) as (t & T & Bt & It). destruct (near_region t _ g gs E2 (proj1 S) Bt) as (t' & T' & Bt' & It' & Ot).
    exists t'. specialize (NR x t' (near_trans _ _ _ _ T T')). apply qabs_lt in NR as (L1 & L2). split; [qlra|]. split; [qlra|]. split; auto. split; auto. now apply It'.
  - intros Y. destruct (SheetbuildP.pts_dec res y) as [|NQ]; auto. exfalso. destruct (right_open res y N NQ) as (e & E & R). destruct (Y e [] E) as (p & L1 & L2 & _ & B & I). apply (R (shadow vec offs p - y)); [qlra|qlra|].
    replace (y + (shadow vec offs p - y)) with (shadow vec offs p) by ring. now apply S2.
Qed.

Lemma half_pos e : 0 < e -> 0 < e * qq 1 2.
Proof. intros E. apply mpp; [auto|vm_compute; reflexivity]. Qed.
Lemma half_lt e : 0 < e -> e * qq 1 2 < e.
Proof. intros E. assert (0 < e * (1 - qq 1 2)) by (apply mpp; [auto|vm_compute; reflexivity]). qlra. Qed.
(** from a point inside go a little further, off finitely many lines *)
Lemma shifted_inside g vec offs p top gs : is_geom2d g -> vec <> (0, 0) -> ~ on_bd g p -> shadow vec offs p < top -> exists q, shadow vec offs p <= shadow vec offs q /\
  shadow vec offs q < top /\ off_all gs q /\ ~ on_bd g q /\ (in_geom g p -> in_geom g q).
Proof.
  intros G NV B L. destruct (bd_away g p G B) as (e1 & E1 & A1). destruct (shadow_near vec offs (top - shadow vec offs p)) as (e2 & E2 & A2); [qlra|].
  destruct (qmin_spec e1 e2) as (M1 & M2 & M3). specialize (M3 E1 E2). set (e := qmin e1 e2) in *. clearbody e. destruct (near_step (e * qq 1 2) p vec (half_pos e M3)) as (k & K & N). specialize (N k ltac:(qlra) ltac:(qlra)).
  set (p1 := step p vec k) in *.
  assert (P : 0 < fst vec * fst vec + snd vec * snd vec) by (destruct vec as [a b]; cbn [fst snd]; destruct (qeqb_spec a 0) as [->|Na]; [destruct (qeqb_spec b 0) as [->|Nb]; [tauto|assert (0 < b * b) by (destruct (qc_not_eq _ _ Nb); qnra); qlra]|assert (0 < a * a) by (destruct (qc_not_eq _ _ Na); qnra); assert (0 <= b * b) by (destruct (qleb_spec 0 b); qnra); qlra]).
  assert (UP : shadow vec offs p < shadow vec offs p1). { assert (0 < k * (fst vec * fst vec + snd vec * snd vec)) by (apply mpp; auto). unfold p1, shadow, step, vadd, vscale, Geom2d.dot. cbn [fst snd]. qlra. }
  destruct (shadow_near vec offs (shadow vec offs p1 - shadow vec offs p)) as (e3 & E3 & A3); [qlra|]. destruct (qmin_spec e3 (e * qq 1 2)) as (Q1 & Q2 & Q3). specialize (Q3 E3 (half_pos e M3)). set (m := qmin e3 (e * qq 1 2)) in *. clearbody m.
  destruct (A1 p1) as (B1 & I1); [apply (near_mono e); [qlra|]; apply (near_mono (e * qq 1 2)); [pose proof (half_lt e M3); qlra|exact N]|].
  destruct (near_region p1 m g gs Q3 G B1) as (q & Nq & Bq & Iq & O). exists q. pose proof (A3 p1 q (near_mono _ _ _ _ Q1 Nq)) as X. apply qabs_lt in X as (X1 & X2).
  pose proof (A2 p q (near_mono _ _ _ _ M2 (near_trans _ _ _ _ N (near_mono _ _ _ _ Q2 Nq)))) as Y. apply qabs_lt in Y as (Y1 & Y2). split; [qlra|]. split; [qlra|]. split; auto. split; auto. tauto.
Qed.

(** ** update_intersection_ok *)
Lemma made_side_ids sp : plex_made sp -> NoDup (map is_id (sp_intersides sp None)).
Proof.
  intros M. pose proof M as (fr & sp0 & F & C). destruct (created fr sp0 sp F C) as (_ & ND & _). unfold sp_intersides.
  assert (MS : forall k it, In (k, it) (sp_inters sp) -> exists s0 s1, it_sides it = [s0; s1] /\ is_id s0 = (k, is_sheet s0) /\ is_id s1 = (k, is_sheet s1) /\ is_sheet s0 <> is_sheet s1).
  { intros k it I. destruct (made_two sp k it M I) as (s0 & s1 & E & N & _). exists s0, s1. split; auto. split; [apply (made_sides sp k it s0 M I); rewrite E; cbn; auto|]. split; auto. apply (made_sides sp k it s1 M I). rewrite E. cbn; auto. }
  revert ND MS. generalize (sp_inters sp). induction d as [|(k & it) d IH]; intros ND MS; cbn [values map flat_map filter]; [constructor|].
  destruct (MS k it (or_introl eq_refl)) as (s0 & s1 & E & I0 & I1 & NS). cbn [snd]. rewrite E. cbn [app filter map]. cbn [keys map fst] in ND. inversion ND as [|? ? NI ND']; subst.
  assert (FO : forall s, In s (filter (fun _ : interside => true) (flat_map it_sides (values d))) -> fst (is_id s) <> k).
  { intros s Hs. apply filter_In in Hs as (Hs & _). apply in_flat_map in Hs as (jt & J & Hs). apply in_map_iff in J as ((k' & jt') & Ej & J). cbn [snd] in Ej. subst jt'.
    destruct (MS k' jt (or_intror J)) as (t0 & t1 & Et & J0 & J1 & _). rewrite Et in Hs. intros X. apply NI. apply in_map_iff. exists (k', jt). split; auto. cbn [fst]. destruct Hs as [<-|[<-|[]]]; [rewrite J0 in X|rewrite J1 in X]; exact X. }
  constructor; [|constructor].
  - intros [X|X]; [rewrite I0, I1 in X; apply pair_inv in X as (_ & X); now apply NS|]. apply in_map_iff in X as (s & Es & Hs). apply (FO s Hs). rewrite Es, I0. reflexivity.
  - intros X. apply in_map_iff in X as (s & Es & Hs). apply (FO s Hs). rewrite Es, I1. reflexivity.
  - apply IH; auto. intros k' jt J. apply (MS k' jt). now right.
Qed.
Lemma inside_around w y e : normal w -> bounded1 w -> 0 < e -> (forall z, y - e <= z -> z <= y + e -> pts w z) -> inside1 w y.
Proof.
  intros N B E H. destruct (H y ltac:(qlra) ltac:(qlra)) as (i & Hi & L1 & L2). destruct (B i Hi) as (a & b & ->). cbn [fst snd ein] in L1, L2. exists (Fin a, Fin b). split; auto. cbn [fst snd]. unfold ele, elt in *. split; auto.
  destruct (qleb_spec y a) as [L|L]; [exfalso|qlra]. assert (EQ : y = a) by qlra. subst y. destruct (left_gap w a b N B Hi) as (d & D & G).
  destruct (qmin_spec d e) as (M1 & M2 & M3). pose proof (M3 D E) as M0. set (t := qmin d e) in *. destruct (H (a - t) ltac:(qlra) ltac:(qlra)) as (j & Hj & P1 & P2). destruct (B j Hj) as (c & f & ->). destruct (G t M0 M1 _ Hj) as [X|X]; cbn [fst snd] in *; unfold ele, elt in *; qlra.
Qed.
Section Ranges.
Variable orc : list segment -> nat -> nat -> nat.
Let A := segment_arrangement orc.
(** what one step does to the ranges [k] of [s] *)
Definition ranged (sb : sbuild) (s : interside) (k k' : geom1d) : Prop := exists fing mf p q u,
  make_fingers01 A s (buffer_pure k (qq 1 10)) = Ok fing /\ g2_and A fing (geom_at (sb_sok sb) (is_sheet s)) = Ok mf /\ is_project_to_1d s fing = Ok p /\ is_project_to_1d s mf = Ok q /\
  g_sub p q = Ok u /\ g_sub k (buffer_pure u (qq 1 1000)) = Ok k'.
Lemma iok_step sb s sb' : update_iok_side A sb s = Ok sb' -> same_but_iok sb sb' /\ ranged sb s (ok_of sb (is_id s)) (ok_of sb' (is_id s)) /\ forall k, k <> is_id s -> ok_of sb' k = ok_of sb k.
Proof.
  intros H. unfold update_iok_side in H. apply bind_ok in H as (k & K & H). apply bind_ok in H as (k1 & K1 & H). apply bind_ok in H as (f & F & H). apply bind_ok in H as (so & SO & H). apply bind_ok in H as (mf & MF & H).
  apply bind_ok in H as (p & P & H). apply bind_ok in H as (q & Q & H). apply bind_ok in H as (u & U & H). apply bind_ok in H as (v & V & H). apply bind_ok in H as (io & IO & H). apply Ok_inv in H as <-.
  rewrite buffer_q_ok in K1, V. apply Ok_inv in K1 as <-. apply Ok_inv in V as <-. apply dgetr_ok in K, SO. apply msub1_ok in IO as (x & r & X & R & ->). rewrite K in X. apply some_inv in X as <-.
  split; [repeat split|]. unfold ok_of. cbn [with_iok sb_iok]. split.
  - rewrite (dget_dset _ id2_eqb_ok). destruct (id2_eqb (is_id s) (is_id s)) eqn:EE; [|apply Bool.not_true_iff_false in EE; exfalso; apply EE; now apply id2_eqb_ok]. rewrite K. cbn [opt]. exists f, mf, p, q, u. rewrite (geom_at_get _ _ _ SO). auto 8.
  - intros j NJ. rewrite (dget_dset _ id2_eqb_ok). destruct (id2_eqb j (is_id s)) eqn:EE; [apply id2_eqb_ok in EE; congruence|reflexivity].
Qed.
Lemma iok_all sp st st' : plex_made sp -> sb_plex (fst st) = sp -> update_intersection_ok A st = Ok st' -> same_but_iok (fst st) (fst st') /\
  (forall s, side_of sp s -> ranged (fst st) s (ok_of (fst st) (is_id s)) (ok_of (fst st') (is_id s))) /\
  forall id, (forall s, side_of sp s -> is_id s <> id) -> ok_of (fst st') id = ok_of (fst st) id.
Proof.
  intros M P H. unfold update_intersection_ok in H. apply bind_ok in H as ((sb & ci) & H1 & H). apply hcheck_ok in H1. cbn [fst] in H1. subst sb. apply bind_ok in H as (sb' & H & E). apply Ok_inv in E as <-. cbn [fst].
  unfold sides_of in H. rewrite P in H.
  destruct (fold_once (update_iok_side A) is_id ok_of same_but_iok (fun a => ltac:(repeat split)) sbi_trans ranged
    (fun a b x v w SB R => ltac:(destruct SB as (_ & _ & E & _); unfold ranged in *; rewrite E in R; exact R)) (fun _ => True) (fun _ _ _ X => X) _ (fun sb x sb' _ _ HS => iok_step sb x sb' HS) (made_side_ids sp M) _ _ I H) as (SB & R & O).
  split; auto. split.
  - intros s Hs. apply R. now apply made_list.
  - intros id NI. apply O. intros X. apply in_map_iff in X as (s & Es & Hs). apply (NI s); auto. now apply made_list in Hs.
Qed.
Lemma fingers_frame s w i g : rot_ok s -> make_fingers01 A s (i :: w) = Ok g -> frame_ok s /\ offset_at s 0 <> offset_at s 1.
Proof. intros R H. unfold make_fingers01, make_fingers in H. apply bind_ok in H as (gs & H & _). cbn [mapM] in H. apply bind_ok in H as (x & X & _). destruct (finger_frame s 0 1 i x R X) as (_ & F & O). auto. Qed.
(** the exact effect on the ranges of one side *)
Lemma ranged_ok sb s k k' : rot_ok s -> Geom2d.dot (is_dir s) (is_dir s) = 1 -> normal k -> sharp (geom_at (sb_sok sb) (is_sheet s)) -> ranged sb s k k' ->
  normal k' /\ forall x, pts k' x <-> pts k x /\ forall y e, x - qq 1 1000 <= y -> y <= x + qq 1 1000 -> 0 < e -> exists p,
    y <= along s p /\ along s p < y + e /\ strictly_between (offset_at s 0) (across s p) (offset_at s 1) /\ g2_locate (geom_at (sb_sok sb) (is_sheet s)) p = Ok 1%Z.
Proof.
  intros R D1 N SH (f & mf & p & q & u & F & MF & P & Q & U & KE). set (sheet := geom_at (sb_sok sb) (is_sheet s)) in *.
  pose proof (is_geom1d_normal _ (is_geom1d_project _ _ _ _ P)) as Np. pose proof (is_geom1d_normal _ (is_geom1d_project _ _ _ _ Q)) as Nq. pose proof (sub_nml _ _ _ Np Nq U) as Nu.
  split; [exact (sub_nml _ _ _ N (buffer_normal _ _) KE)|]. intros x. rewrite (sub_pts _ _ _ x N (buffer_normal _ _) KE). rewrite (buffer_minkowski _ _ x Nu) by (vm_compute; discriminate).
  set (k1 := buffer_pure k (qq 1 10)) in *. pose proof (buffer_normal k (qq 1 10)) as N1. fold k1 in N1.
  assert (WIDE : pts k x -> forall z, x - qq 1 10 <= z -> z <= x + qq 1 10 -> pts k1 z) by (intros K z Z1 Z2; apply (buffer_minkowski k (qq 1 10) z N); [vm_compute; discriminate|]; exists x; split; auto; split; qlra).
  assert (T1 : 0 < qq 1 1000 /\ qq 1 1000 < qq 1 40 /\ 0 < qq 1 40 /\ qq 1 40 + qq 1 40 + qq 1 40 <= qq 1 10) by (split; [vm_compute; reflexivity|]; split; [vm_compute; reflexivity|]; split; [vm_compute; reflexivity|]; vm_compute; discriminate). destruct T1 as (T1 & T2 & T3 & T4).
  assert (FR : pts k x -> frame_ok s /\ offset_at s 0 <> offset_at s 1).
  { intros K. destruct k1 as [|i k1'] eqn:E; [|exact (fingers_frame s k1' i f R F)]. destruct (WIDE K x ltac:(qlra) ltac:(qlra)) as (i & [] & _). }
  assert (AL : forall z, shadow (is_dir s) (- is_offs s) z = along s z).
  { intros z. unfold shadow, along. rewrite D1. rewrite <- (qdiv_mul (Geom2d.dot z (is_dir s)) 1) at 1 by discriminate. ring. }
  assert (PK : pts k x -> p = k1).
  { intros K. destruct (FR K) as (Fr & NO). assert (NM : is_min s <> is_max s) by (intros Z; apply NO; unfold offset_at; rewrite Z; ring). pose proof (project_fingers A s k1 f (arrangement_sound orc) Fr D1 NM N1 F) as E. rewrite P in E. now apply Ok_inv in E. }
  pose proof (fingers_sharp orc s k1 f F) as Sf. pose proof (and_neat orc _ _ mf (sharp_neat _ Sf) (sharp_neat _ SH) MF) as Sm.
  destruct (g2_and_ok A f sheet mf (arrangement_sound orc) (proj1 Sf) (proj1 SH) MF) as (_ & BM & MM).
  split; intros (K & H); (split; [exact K|]); destruct (FR K) as (Fr & NO); specialize (PK K); subst p; pose proof (project_dense mf (is_dir s) (- is_offs s) q Sm (proj1 Fr) Q) as PD;
    destruct (make_fingers_ok A s k1 0 1 f (arrangement_sound orc) Fr NO N1 F) as (_ & BK & P1 & IB & _).
  - intros y e Y1 Y2 E.
    assert (Y : pts q y). { destruct (SheetbuildP.pts_dec q y) as [|NQ]; auto. exfalso. apply H. exists y. split; [|split; auto]. rewrite (sub_pts _ _ _ y Np Nq U). split; auto. apply WIDE; auto; qlra. }
    destruct (proj1 (PD y) Y e [f; sheet] E) as (t & L1 & L2 & O & Bt & It). rewrite AL in L1, L2. exists t. split; auto. split; auto. apply MM in It as (If & Is); auto. split.
    + apply IB; auto. apply O; cbn; auto.
    + destruct (g2_locate_ok sheet t (proj1 SH)) as [(Z & _)|(_ & Z)]; auto; [apply O; cbn; auto|tauto].
  - intros (y & Uy & Y1 & Y2). rewrite (sub_pts _ _ _ y Np Nq U) in Uy. destruct Uy as (Ky & NQ). destruct (right_open q y Nq NQ) as (e0 & E0 & RO).
    destruct (qmin_spec e0 (qq 1 40)) as (M1 & M2 & M3). specialize (M3 E0 T3). destruct (H y _ ltac:(qlra) ltac:(qlra) M3) as (z & Z1 & Z2 & Bz & Lz). set (e := qmin e0 (qq 1 40)) in *.
    assert (IN : inside1 k1 (along s z)) by (apply (inside_around k1 (along s z) (qq 1 40) N1 BK T3); intros v V1 V2; apply WIDE; auto; qlra).
    destruct (P1 z (conj IN Bz)) as (NBf & If).
    destruct (crisp_locates sheet z (proj1 SH) (proj1 (proj2 SH))) as [(E & _)|[(_ & NBs & Is)|(E & _)]]; [rewrite Lz in E; discriminate| |rewrite Lz in E; discriminate].
    assert (O : off_all [f; sheet] z) by (intros g [<-|[<-|[]]]; auto).
    destruct (project_shadow mf (is_dir s) (- is_offs s) q (proj1 Sm) (proj1 Fr) Q) as (_ & _ & SD). apply (RO (along s z - y)); [qlra|qlra|]. replace (y + (along s z - y)) with (along s z) by ring.
    rewrite <- AL. apply SD; [intros X; exact (BM z X O)|]. apply MM; auto.
Qed.
End Ranges.
