(** The polygons every set operation returns do not overlap. *)
From Verif.Model Require Import SegmentTree CellMerger Arrangement2d Aabb Geom2d.
From Verif.Spec Require Import Plane Subdivision Region Area.
From Verif.Proofs Require Import PyP PolyP WindingP WindingQ WindingR NearP DictP SweepOrd SweepL PlanarP SubdivP MergerQ ArrVertexP ArrGraphP
  ArrInitP ArrTraceP ArrSampleP Geom2dP Geom2dOps ArrSoundP AreaP LevelP PolyCellsP.
From Verif.Props Require Import Primitive2dProps Frangle2dProps Scan2dProps LocateProps.

(** ** the rings of a geometry as a chain *)
Definition chain_of (s : spwh) : list (Z * list point) := (1%Z, outer s) :: map (fun h => ((-1)%Z, h)) (holes s).
Definition chain (g : geom2d) : list (Z * list point) := flat_map chain_of g.
Lemma chain_in g kr : In kr (chain g) -> ring_of g (snd kr).
Proof.
  intros H. apply in_flat_map in H as (s & S & [<-|H]); [exists s; auto|]. apply in_map_iff in H as (h & <- & H). exists s; auto.
Qed.
Lemma ring_chain g r : ring_of g r -> exists k, In (k, r) (chain g).
Proof.
  intros (s & S & [->|H]).
  - exists 1%Z. apply in_flat_map. exists s. split; auto. now left.
  - exists (-1)%Z. apply in_flat_map. exists s. split; auto. right. now apply in_map.
Qed.
Lemma och_bd g p : och (chain g) p <-> ~ on_bd g p.
Proof.
  split.
  - intros H (r & R & B). apply ring_chain in R as (k & R). exact (H _ R B).
  - intros H kr K B. apply H. exists (snd kr). split; auto. now apply chain_in.
Qed.
Lemma chain_area g : ach (chain g) = qsum poly_area g.
Proof.
  unfold ach, chain. rewrite qsum_flat. apply qsum_ext. intros s _. unfold chain_of, poly_area. cbn [qsum fst snd]. rewrite zq_1, qsum_map.
  cbn [fst snd]. rewrite qsum_scale. replace (zq (-1)) with (- (1)) by (apply Qc_is_canon; reflexivity). ring.
Qed.
Lemma chain_wch g p : wch (chain g) p = zsum (fun s => wsum p (outer s) - zsum (wsum p) (holes s))%Z g.
Proof.
  unfold wch, chain. rewrite zsum_flat. apply zsum_ext. intros s _. unfold chain_of. cbn [zsum fst snd]. rewrite zsum_map. cbn [fst snd]. rewrite zsum_scale. change (fun x => wsum p x) with (wsum p). lia.
Qed.
Lemma wind_wsum r p w : r <> [] -> ~ on_boundary r p -> (winding_number r p w <-> wsum p r = (-2 * w)%Z).
Proof.
  intros N B. split.
  - intros (o & G & ->). now apply wsum_fan.
  - intros H. destruct (locate_winding r p N B) as (w' & W & _ & _). pose proof W as (o & G & E). rewrite (wsum_fan o r p B G), <- E in H. assert (w = w') by lia. subst. auto.
Qed.
Lemma cover_wch g p n : is_geom2d g -> ~ on_bd g p -> (cover g p n <-> wch (chain g) p = (2 * n)%Z).
Proof.
  intros G B. assert (RG : forall r, ring_of g r -> r <> [] /\ ~ on_boundary r p).
  { intros r R. split; [exact (proj1 (proj1 (is_geom2d_rings g) G r R))|]. intros X. apply B. exists r. auto. }
  assert (HS : forall l ws, (forall r, In r l -> r <> [] /\ ~ on_boundary r p) -> Forall2 (fun h v => winding_number h p v) l ws -> zsum (wsum p) l = (-2 * zadd ws)%Z).
  { intros l ws L F. induction F as [|r w l ws H F IH]; [reflexivity|]. cbn [zsum zadd fold_right]. fold (zadd ws). rewrite IH by (intros; apply L; now right).
    apply (wind_wsum r p w) in H; [lia|apply L; now left|apply L; now left]. }
  assert (ALL : forall l, (forall r, In r l -> r <> [] /\ ~ on_boundary r p) -> exists ws, Forall2 (fun h v => winding_number h p v) l ws).
  { induction l as [|r l IH]; intros L; [exists []; constructor|]. destruct IH as (ws & F); [intros; apply L; now right|].
    destruct (L r (or_introl eq_refl)) as (L1 & L2). destruct (locate_winding r p L1 L2) as (w & W & _). exists (w :: ws). now constructor. }
  rewrite chain_wch. assert (OK : forall s, In s g -> (outer s <> [] /\ ~ on_boundary (outer s) p) /\ forall h, In h (holes s) -> h <> [] /\ ~ on_boundary h p).
  { intros s S. split; [|intros h H]; apply RG; exists s; auto. }
  clear G B RG.
  assert (CV : forall s k, In s g -> covers s p k -> (wsum p (outer s) - zsum (wsum p) (holes s) = 2 * k)%Z).
  { intros s k S (w & hw & W & HW & ->). destruct (OK s S) as ((O1 & O2) & O3). apply wind_wsum in W; auto. rewrite (HS _ _ O3 HW). lia. }
  assert (EX : exists ns, Forall2 (fun s k => covers s p k) g ns).
  { revert OK. clear -ALL. induction g as [|s g IH]; intros OK; [exists []; constructor|]. destruct IH as (ns & F); [intros; apply OK; now right|].
    destruct (OK s (or_introl eq_refl)) as ((O1 & O2) & O3). destruct (locate_winding _ p O1 O2) as (w & W & _). destruct (ALL _ O3) as (hw & HW).
    exists ((zadd hw - w)%Z :: ns). constructor; auto. exists w, hw. auto. }
  assert (SUM : forall ns, Forall2 (fun s k => covers s p k) g ns -> zsum (fun s => wsum p (outer s) - zsum (wsum p) (holes s))%Z g = (2 * zadd ns)%Z).
  { clear EX. intros ns F. revert CV. induction F as [|s k l ns H F IH]; intros CV; [reflexivity|]. cbn [zsum zadd fold_right]. fold (zadd ns). rewrite IH.
    - rewrite (CV s k); auto; [lia|now left]. - intros s' S'. apply OK. now right. - intros s' k' S'. apply CV. now right. }
  split.
  - intros (ns & F & ->). auto.
  - intros H. destruct EX as (ns & F). exists ns. split; auto. rewrite (SUM ns F) in H. lia.
Qed.
Lemma flat_wch g : is_geom2d g -> (flat g <-> forall p, ~ on_bd g p -> (in_geom g p /\ wch (chain g) p = 2%Z) \/ (~ in_geom g p /\ wch (chain g) p = 0%Z)).
Proof.
  intros G. split.
  - intros F p B. assert (E : exists n, wch (chain g) p = (2 * n)%Z).
    { rewrite chain_wch. assert (X : forall r, ring_of g r -> exists n, wsum p r = (2 * n)%Z).
      { intros r R. destruct (locate_winding r p) as (w & W & _); [exact (proj1 (proj1 (is_geom2d_rings g) G r R))|intros X; apply B; exists r; auto|].
        apply wind_wsum in W; [exists (- w)%Z; lia|exact (proj1 (proj1 (is_geom2d_rings g) G r R))|intros X; apply B; exists r; auto]. }
      assert (Y : forall l, (forall r, In r l -> exists n, wsum p r = (2 * n)%Z) -> exists n, zsum (wsum p) l = (2 * n)%Z).
      { induction l as [|r l IH]; intros H; [exists 0%Z; reflexivity|]. destruct IH as (n & IH); [intros; apply H; now right|]. destruct (H r) as (k & K); [now left|]. exists (k + n)%Z. cbn [zsum]. lia. }
      clear F B. assert (Z0 : forall s, In s g -> exists n, (wsum p (outer s) - zsum (wsum p) (holes s) = 2 * n)%Z).
      { intros s S. destruct (X (outer s)) as (n & N); [exists s; auto|]. destruct (Y (holes s)) as (k & K); [intros h H; apply X; exists s; auto|]. exists (n - k)%Z. lia. }
      clear X Y G. induction g as [|s g IH]; [exists 0%Z; reflexivity|]. destruct IH as (n & N); [intros; apply Z0; now right|]. destruct (Z0 s) as (k & K); [now left|]. exists (n + k)%Z. cbn [zsum]. lia. }
    destruct E as (n & E). destruct (F p n B) as [(I & ->)|(I & ->)]; [now apply cover_wch|left|right]; split; auto.
  - intros H p n B C. apply cover_wch in C; auto. destruct (H p B) as [(I & E)|(I & E)]; [left|right]; split; auto; lia.
Qed.

(** ** which cells an operation selects *)
Section Flat.
Variables (sid : list segment) (a : arrangement).
Hypothesis AO : arr_ok sid a.
Notation hes := (a_half_edges a).
Let G := ao_graph _ _ AO.
Lemma path_RT (T : point -> Prop) (T_move : forall p q, free hes p q -> T p -> T q) path c : incl path hes -> is_cell hes (a_vertices a) path ->
  is_cell_of hes path c -> T (fc_point c) -> forall e, In e path -> RT T e.
Proof.
  intros IP IC (_ & _ & f & l & -> & SE) TC e I. destruct IC as (CH & _ & NB).
  assert (RF : RT T f) by (apply (sees_RT sid a AO T T_move f (fc_point c)); auto; apply IP; now left).
  clear SE. revert f CH NB RF IP I. induction l as [|g l IH]; intros f CH NB RF IP I.
  - destruct I as [<-|[]]. auto.
  - destruct I as [<-|I]; auto. assert (AJ : adj f g (f :: g :: l)) by (exists [], l; auto).
    apply (IH g); auto.
    + intros x y (u & v & E). apply CH. exists (f :: u), v. now rewrite E.
    + intros x y (u & v & E). apply NB. exists (f :: u), v. now rewrite E.
    + apply (nxr_RT sid a AO T T_move f g); auto. apply IP. now left.
    + intros x X. apply IP. now right.
Qed.
End Flat.
Lemma select_split hes geoms op fcs paths (cells : list (list point)) :
  Forall2 (is_cell_of hes) paths fcs ->
  forall sel, select_cells (mkArr arrangement (list point) sel (fun a => Ok (cell_points a)) poly_cells) geoms op (map (fun f => (fc_vertices f, fc_point f)) fcs) = Ok cells -> 
  exists sel rest, Permutation paths (sel ++ rest) /\ map edges_iter cells = sel /\ Forall (fun c => c <> []) cells /\
    (forall p, In p sel -> exists c, In c fcs /\ is_cell_of hes p c /\ op_at geoms op (fc_point c) = Ok true) /\
    (forall p, In p rest -> exists c, In c fcs /\ is_cell_of hes p c /\ op_at geoms op (fc_point c) = Ok false).
Proof.
  intros F mk. revert cells. induction F as [|p c ps cs H F IH]; intros cells E; cbn [map select_cells] in E.
  - injection E as <-. exists [], []. repeat split; auto; intros ? [].
  - apply bind_ok in E as (b & B & E). apply bind_ok in E as (r & R & E). injection E as <-. destruct (IH _ R) as (sel & rest & P & M & N & S1 & S2).
    pose proof H as (V & ED & e & l & PE & _). destruct b.
    + exists (p :: sel), rest. split; [now constructor|]. split; [cbn [map]; congruence|]. split; [constructor; auto; rewrite V, PE; discriminate|]. split.
      * intros q [<-|Q]; [exists c; split; [now left|auto]|]. destruct (S1 q Q) as (c' & A & D). exists c'. split; auto. now right.
      * intros q Q. destruct (S2 q Q) as (c' & A & D). exists c'. split; auto. now right.
    + exists sel, (p :: rest). split; [rewrite P; apply Permutation_middle|]. split; auto. split; auto. split.
      * intros q Q. destruct (S1 q Q) as (c' & A & D). exists c'. split; auto. now right.
      * intros q [<-|Q]; [exists c; split; [now left|auto]|]. destruct (S2 q Q) as (c' & A & D). exists c'. split; auto. now right.
Qed.

Theorem arrangement_flat orc geoms op r : Forall is_geom2d geoms -> op (map (fun _ => false) geoms) = false ->
  arrangement_op (segment_arrangement orc) geoms op = Ok r -> flat r.
Proof.
  intros F OP H. pose proof (arrangement_sound orc geoms op r F OP H) as (GR & BD & IO).
  unfold arrangement_op in H. cbn [arr_make arr_cell_points arr_poly_cells segment_arrangement arr_t arr_cell] in H.
  set (sid := flat_map all_segments geoms) in *.
  assert (ND : Forall nondeg sid).
  { apply Forall_forall. intros s S. apply in_flat_map in S as (g & Hg & S). apply is_edge_segments in S as (rg & R & E).
    rewrite Forall_forall in F. apply (proj1 (is_geom2d_rings g) (F g Hg) rg R). auto. }
  apply bind_ok in H as (a & MK & H). apply bind_ok in H as (cps & CP & H). injection CP as <-. apply bind_ok in H as (cells & SC & H).
  apply bind_ok in H as (polys & PC & H). apply bind_ok in H as (u & CK & H). injection H as ->.
  pose proof (arrangement_ok (orc sid) sid a ND MK) as AO. pose proof (ao_graph _ _ AO) as G.
  assert (OFF : forall p, off (a_half_edges a) p <-> off_all geoms p).
  { intros p. split.
    - intros O g Hg B. apply on_bd_segments in B as (s & S & OS). destruct (go_cover _ _ _ G s p) as (e & E & OE); auto; [|exact (O e E OE)].
      apply in_flat_map. eauto.
    - intros O e E OE. destruct (go_on _ _ _ G e p E OE) as (s & S & OS). apply in_flat_map in S as (g & Hg & S). apply (O g Hg). apply on_bd_segments. eauto. }
  set (E := a_half_edges a) in *.
  assert (BR : forall p, off E p -> ~ on_bd r p) by (intros p O B; apply (BD p B); now apply OFF).
  destruct (ao_cells _ _ AO) as (paths & PM & IC & CO). fold E in PM, IC, CO.
  destruct (select_split E geoms op (a_cells a) paths cells CO _ SC) as (sel & rest & PS & MS & NEc & S1 & S2).
  set (Zs := flat_map edges_iter cells).
  assert (ZC : Zs = concat sel) by (unfold Zs; rewrite flat_map_concat_map, MS; reflexivity).
  assert (PE : Permutation E (Zs ++ concat rest)) by (rewrite ZC, PM, <- concat_app; clear -PS; induction PS; cbn; [auto|now apply Permutation_app_head| |etransitivity; eauto]; rewrite !app_assoc; apply Permutation_app_tail, Permutation_app_comm).
  assert (NDE : NoDup (Zs ++ concat rest)) by (eapply Permutation_NoDup; [exact PE|exact (go_nd _ _ _ G)]).
  assert (ZE : incl Zs E) by (intros e I; rewrite PE; apply in_or_app; auto).
  assert (IP : forall p, In p paths -> incl p E) by (intros p P e I; rewrite PM; apply in_concat; eauto).
  assert (ICp : forall p, In p (sel ++ rest) -> In p paths /\ is_cell E (a_vertices a) p).
  { intros p P. assert (In p paths) by (rewrite PS; auto). split; auto. rewrite Forall_forall in IC. auto. }
  assert (SM : forall p q, free E p q -> in_geom r p -> in_geom r q).
  { intros p q FR. apply (in_geom_move r p q GR). intros x X. apply BR. now apply FR. }
  assert (SMP : forall c b, In c (a_cells a) -> op_at geoms op (fc_point c) = Ok b -> (in_geom r (fc_point c) <-> b = true)).
  { intros c b C B. assert (O : off E (fc_point c)).
    { clear -CO C. induction CO as [|q c' qs cs H CO IH]; [destruct C|]. destruct C as [->|C]; auto.
      destruct H as (_ & _ & e & l & _ & v & t & _ & TP & -> & O). apply O; auto. apply Qcle_refl. }
    apply OFF in O. rewrite (IO _ O). destruct (op_at_ok geoms op _ b F O B) as (bs & BB & <-). split.
    - intros (bs' & B' & X). now rewrite (bits_unique _ _ _ _ BB B').
    - intros X. eauto. }
  assert (LV : forall p, off E p -> (in_geom r p /\ zsum (delta p) Zs = 2%Z) \/ (~ in_geom r p /\ zsum (delta p) Zs = 0%Z)).
  { apply (level_set E Zs (in_geom r)); auto.
    - intros e. apply (go_rev _ _ _ e G).
    - exact (go_planar _ _ _ G).
    - destruct (in_geom_far r GR) as (M & HM). exists M. intros z Z1 _. auto.
    - eapply MergerP.NoDup_app_l; eauto.
    - intros e I. rewrite PE in I. apply in_app_or in I as [I|I].
      + left. split; auto. rewrite ZC in I. apply in_concat in I as (p & P & I). destruct (S1 p P) as (c & C1 & C2 & C3).
        destruct (ICp p) as (P1 & P2); [apply in_or_app; auto|]. apply (path_RT sid a AO (in_geom r) SM p c); auto. now apply (SMP c true).
      + right. split; [intros X; exact (MergerP.NoDup_app_disj _ _ e NDE X I)|]. apply in_concat in I as (p & P & I). destruct (S2 p P) as (c & C1 & C2 & C3).
        destruct (ICp p) as (P1 & P2); [apply in_or_app; auto|]. apply (path_RT sid a AO (fun q => ~ in_geom r q)) with (path := p) (c := c); auto.
        * intros x y FR X Y. apply X. apply (SM y); auto. now apply free_sym.
        * intros X. apply (SMP c false) in X; auto. discriminate.
    - intros m. unfold Zs. rewrite zsum_flat. apply zsum_zero. intros c _. unfold dz. rewrite <- (zsum_perm _ _ _ (pedges_perm c)).
      apply (pedges_tele_z (fun v => below m (snd v)) c).
    - intros p q FR. unfold Zs. rewrite !zsum_flat. apply zsum_ext. intros c C. change (wsum p c = wsum q c). apply wsum_move. intros x X B. apply on_boundary_iff in B as (s & S & O).
      apply (FR x X s); auto. apply ZE. apply in_flat_map. eauto. }
  assert (WZ : forall p, wch (chain r) p = zsum (delta p) Zs).
  { intros p. destruct (poly_cells_keep a cells r) as ((X & PX) & _); auto; [eapply MergerP.NoDup_app_l; eauto|]. unfold Zs. rewrite (zsum_perm _ _ _ PX). rewrite !zsum_app, !zsum_map, !zsum_flat, !zsum_map, zsum_flat.
    rewrite (zsum_ext (fun x => delta p (rev_seg x)) (fun x => (-1) * delta p x)%Z X) by (intros [x y] _; unfold rev_seg; cbn [fst snd]; rewrite delta_rev; lia). rewrite zsum_scale.
    rewrite chain_wch. rewrite (zsum_ext (fun x => zsum (fun h => zsum (delta p) (edges_iter (rev h))) (holes x)) (fun x => (-1) * zsum (wsum p) (holes x))%Z).
    - rewrite zsum_scale. rewrite (zsum_ext (fun s => wsum p (outer s) - zsum (wsum p) (holes s))%Z (fun s => wsum p (outer s) + (-1) * zsum (wsum p) (holes s))%Z) by (intros; lia).
      rewrite zsum_plus, zsum_scale. unfold wsum at 1. lia.
    - intros s _. rewrite <- zsum_scale. apply zsum_ext. intros h _. rewrite (zsum_perm _ _ _ (edges_iter_rev h)), zsum_map. unfold wsum. rewrite <- zsum_scale. apply zsum_ext.
      intros [x y] _. unfold sswap. cbn [fst snd]. rewrite delta_rev. lia. }
  apply flat_wch; auto. intros p B.
  destruct (near_generic p (all_segments r) E) as (q & Q1 & Q2).
  { intros s S O. apply B. apply on_bd_segments. eauto. }
  assert (PQ : forall x, on_seg (p, q) x -> ~ on_bd r x).
  { intros x X C. apply on_bd_segments in C as (s & S & O). exact (Q1 s x S X O). }
  rewrite (in_geom_move r p q GR PQ). rewrite (wch_move (chain r) p q) by (intros x X; apply och_bd; auto). rewrite WZ. apply LV. exact Q2.
Qed.
