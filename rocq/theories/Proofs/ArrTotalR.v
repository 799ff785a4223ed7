(** Set operations on clean operands: the arrangement and the choice of its cells never fail, and nothing but an assertion of the merging of cells or of the final check can. *)
From Verif.Model Require Import SegmentTree CellMerger Arrangement2d Aabb Geom2d.
From Verif.Spec Require Import Plane Subdivision Region Area Crisp.
From Verif.Proofs Require Import PyP PolyP WindingP WindingQ WindingR NearP DictP SweepOrd SweepL PlanarP SubdivP MergerP MergerQ ArrVertexP ArrGraphP
  ArrInitP ArrTraceP ArrSampleP Geom2dP Geom2dOps ArrSoundP AreaP LevelP PolyCellsP FlatP JumpP CoverP CrispP NestP ArrTotalP ArrRayP NestOrdP ArrFuelP ArrTotalQ.
From Verif.Props Require Import Primitive2dProps Frangle2dProps Scan2dProps LocateProps.

Lemma geoms_nondeg geoms : Forall is_geom2d geoms -> Forall nondeg (flat_map all_segments geoms).
Proof.
  intros F. apply Forall_forall. intros s S. apply in_flat_map in S as (g & Hg & S). apply is_edge_segments in S as (rg & R & E).
  rewrite Forall_forall in F. apply (proj1 (is_geom2d_rings g) (F g Hg) rg R). auto.
Qed.
Lemma graph_off geoms hes vs : graph_ok (flat_map all_segments geoms) hes vs -> forall p, off hes p <-> off_all geoms p.
Proof.
  intros G p. split.
  - intros O g Hg B. apply on_bd_segments in B as (s & S & OS). destruct (go_cover _ _ _ G s p) as (e & E & OE); auto; [|exact (O e E OE)].
    apply in_flat_map. eauto.
  - intros O e E OE. destruct (go_on _ _ _ G e p E OE) as (s & S & OS). apply in_flat_map in S as (g & Hg & S). apply (O g Hg). apply on_bd_segments. eauto.
Qed.
Lemma graph_ring geoms hes vs : graph_ok (flat_map all_segments geoms) hes vs ->
  forall e, In e hes -> exists g rg, In g geoms /\ ring_of g rg /\ forall x, on_seg e x -> on_boundary rg x.
Proof.
  intros G e I. apply (go_sub _ _ _ G) in I as (_ & _ & _ & (s & S & SA & SB) & _). apply in_flat_map in S as (g & Hg & S). apply is_edge_segments in S as (rg & R & IE).
  exists g, rg. split; auto. split; auto. intros x (t & T0 & T1 & ->). exists s. split; auto.
  replace (at_t e t) with (vadd (fst e) (vscale t (vsub (snd e) (fst e)))) by reflexivity. now apply on_seg_conv.
Qed.
Lemma graph_bridgeless geoms hes vs : Forall is_geom2d geoms -> Forall clean_geom geoms -> graph_ok (flat_map all_segments geoms) hes vs ->
  forall e, In e hes -> ~ (forall T, movable hes T -> RT T e -> RT T (rev_e e)).
Proof.
  intros F CL G. apply (bridgeless hes geoms); auto.
  - intros e I. exact (bt_ne _ _ _ G e I).
  - exact (go_planar _ _ _ G).
  - exact (graph_off geoms hes vs G).
  - exact (graph_ring geoms hes vs G).
Qed.
Theorem arrangement_made orc geoms : Forall is_geom2d geoms -> Forall clean_geom geoms -> exists a, SegmentArrangement orc (flat_map all_segments geoms) = Ok a.
Proof.
  intros F CL. pose proof (geoms_nondeg geoms F) as ND. set (sid := flat_map all_segments geoms) in *. unfold SegmentArrangement.
  destruct (build_graph (orc 0%nat) (orc 1%nat) sid ND) as (calls & vs0 & hes & vs & C & (l & CK) & VS & FM & G & KV).
  rewrite C. cbn [bind]. rewrite CK. cbn [bind]. rewrite <- VS. rewrite FM. cbn [bind].
  destruct (check_orders_ok sid hes vs G) as (u & CO). rewrite CO. cbn [bind].
  destruct (general_vector_ok hes (fun e => bt_ne sid hes vs G e)) as (gv & GV & GN & GA). rewrite GV. cbn [bind].
  destruct (cells_total orc sid hes vs vs0 gv G KV GN (fun e I => proj1 (GA e I)) (graph_bridgeless geoms hes vs F CL G)) as (((cells & degrees) & conts) & FC). rewrite FC. cbn [bind]. eauto.
Qed.

Lemma op_at_total gs op p : Forall is_geom2d gs -> off_all gs p -> exists b, op_at gs op p = Ok b.
Proof.
  intros F O. assert (L : exists locs, mapM (fun g => g2_locate g p) gs = Ok locs /\ forallb (fun l => (l =? -1)%Z || (l =? 1)%Z) locs = true).
  { revert O. induction F as [|g gs G F IH]; intros O; [exists []; auto|]. destruct IH as (ls & L1 & L2); [intros x X; apply O; now right|]. cbn [mapM].
    destruct (g2_locate_ok g p G) as [(E & _)|(E & _)]; [apply O; now left|..]; rewrite E; cbn [bind]; rewrite L1; cbn [bind]; eexists; (split; [reflexivity|]); cbn; auto. }
  destruct L as (ls & L1 & L2). unfold op_at. rewrite L1. cbn [bind]. rewrite L2. cbn [passert bind]. eauto.
Qed.
Lemma sample_off sid a : arr_ok sid a -> forall c, In c (a_cells a) -> off (a_half_edges a) (fc_point c).
Proof.
  intros AO c C. destruct (ao_cells _ _ AO) as (paths & PM & _ & CO). clear -CO C. induction CO as [|q c' qs cs H CO IH]; [destruct C|]. destruct C as [->|C]; auto.
  destruct H as (_ & _ & e & l & _ & v & t & _ & TP & -> & O). apply O; auto. apply Qcle_refl.
Qed.
Theorem cells_chosen A geoms op cps : Forall is_geom2d geoms -> (forall x, In x cps -> off_all geoms (snd x)) -> exists cells, select_cells A geoms op cps = Ok cells.
Proof.
  intros F. induction cps as [|(c, p) cps IH]; intros O; [exists []; reflexivity|]. cbn [select_cells]. destruct (op_at_total geoms op p F (O _ (or_introl eq_refl))) as (b & B).
  rewrite B. cbn [bind]. destruct IH as (cells & E); [intros x X; apply O; now right|]. rewrite E. cbn [bind]. eauto.
Qed.

(** ** which exceptions are possible *)
Definition ae {A} (r : result A) : Prop := forall e, r = Err e -> e = AssertionError.
Lemma ae_ok {A} (a : A) : ae (Ok a). Proof. discriminate. Qed.
Lemma ae_err {A} : ae (@Err A AssertionError). Proof. intros e H. congruence. Qed.
Lemma ae_bind {A B} (r : result A) (k : A -> result B) : ae r -> (forall x, r = Ok x -> ae (k x)) -> ae (bind r k).
Proof. intros H K. destruct r as [a|e]; cbn [bind]; [now apply K|]. intros x X. apply H. congruence. Qed.
Lemma ae_passert b : ae (passert b). Proof. destruct b; [discriminate|apply ae_err]. Qed.
Lemma ae_mapM {A B} (f : A -> result B) l : (forall x, In x l -> ae (f x)) -> ae (mapM f l).
Proof.
  induction l as [|a l IH]; intros H; cbn [mapM]; [apply ae_ok|]. apply ae_bind; [apply H; now left|]. intros x _.
  apply ae_bind; [apply IH; intros; apply H; now right|]. intros; apply ae_ok.
Qed.
Lemma ae_foldM {A S} (f : S -> A -> result S) l s : (forall s x, In x l -> ae (f s x)) -> ae (foldM f l s).
Proof.
  revert s. induction l as [|a l IH]; intros s H; cbn [foldM]; [apply ae_ok|]. apply ae_bind; [apply H; now left|]. intros x _. apply IH. intros; apply H; now right.
Qed.
Ltac ae1 := match goal with
  | |- ae (Ok _) => apply ae_ok
  | |- ae (Err AssertionError) => apply ae_err
  | |- ae (bind _ _) => apply ae_bind; [|intros ? ?]
  | |- ae (passert _) => apply ae_passert
  | |- ae (mapM _ _) => apply ae_mapM; intros ? ?
  | |- ae (foldM _ _ _) => apply ae_foldM; intros ? ? ?
  | |- ae (if ?b then _ else _) => destruct b eqn:?
  | |- ae (match ?x with _ => _ end) => destruct x eqn:?
  end.
Ltac aes := repeat ae1.

Lemma F2_from {A B} (Q : A -> B -> Prop) l l' b : Forall2 Q l l' -> In b l' -> exists a, In a l /\ Q a b.
Proof. induction 1 as [|x y l l' R F IH]; intros I; [destruct I|]. destruct I as [<-|I]; [exists x; split; [now left|auto]|]. destruct (IH I) as (a & A1 & A2). exists a. split; [now right|auto]. Qed.
Lemma dget_comb_key {V} (ks : list (list point)) (vs : list V) k : length ks = length vs -> In k ks -> exists v, dget cell_eqb k (combine ks vs) = Some v.
Proof.
  intros L I. apply (dget_some cell_eqb cell_eqb_dec). unfold keys. now rewrite map_fst_combine.
Qed.
Lemma conts_closed orc sid a : SegmentArrangement orc sid = Ok a ->
  (forall c, In c (map fc_vertices (a_cells a)) -> exists v, dget cell_eqb c (a_containers a) = Some v) /\
  (forall cur c, dget cell_eqb cur (a_containers a) = Some (Some c) -> In c (map fc_vertices (a_cells a))).
Proof.
  intros H. unfold SegmentArrangement in H. apply bind_ok in H as (? & _ & H). apply bind_ok in H as (? & _ & H). apply bind_ok in H as ((hes & vs) & _ & H).
  apply bind_ok in H as (? & _ & H). apply bind_ok in H as (gv & _ & H). apply bind_ok in H as (((cells & degrees) & conts) & FC & H).
  injection H as <-. cbn [a_containers a_degrees a_cells].
  unfold find_cells in FC. apply bind_ok in FC as (tree & TR & FC). apply bind_ok in FC as (traced & TC & FC).
  apply bind_ok in FC as (m & _ & FC). apply bind_ok in FC as (cells' & CL & FC). apply bind_ok in FC as (found & FO & FC). apply bind_ok in FC as (conts' & CO & FC).
  injection FC as -> <- <-. split.
  - intros c C. apply dget_comb_key; auto. apply mapM_ok in FO, CO. apply F2_length in FO, CO. rewrite combine_length, combine_length, seq_length in CO. rewrite map_length. lia.
  - intros cur c D. apply dget_combine in D as (i & D1 & D2). apply (mapM_nth _ _ _ _ _ CO) in D2 as ((k & fc & fo) & D2 & D3). unfold find_container in D3.
    match type of D3 with context [permuted ?a ?b] => set (pm := permuted a b) in D3; clearbody pm end. destruct pm as [|y r]; [discriminate D3|]. apply bind_ok in D3 as (y1 & _ & D3). apply bind_ok in D3 as (y2 & A & D3).
    apply bind_ok in D3 as (y3 & FF & D3). apply bind_ok in D3 as (y4 & _ & D3). injection D3 as <-.
    unfold find_fcell in FF. apply (proj1 (dgetr_ok cell_eqb _ _ _)) in FF. apply (dget_in cell_eqb cell_eqb_dec) in FF. apply in_map_iff in FF as (g & E & G). apply in_map_iff. exists g. split; auto. now injection E.
Qed.
Lemma ae_go_out conts pos K : (forall c, In c K -> exists v, dget cell_eqb c conts = Some v) -> (forall cur c, dget cell_eqb cur conts = Some (Some c) -> In c K) ->
  forall fuel cur, In cur K -> nf (go_out fuel conts pos cur) -> ae (go_out fuel conts pos cur).
Proof.
  intros C1 C2. induction fuel as [|f IH]; intros cur I N; [destruct (N eq_refl)|]. cbn [go_out] in *. unfold dgetr in *. destruct (C1 cur I) as ([c|] & E); rewrite E in *; cbn [bind] in *; [|aes].
  destruct (dget cell_eqb c pos); [aes|]. apply IH; auto. now apply C2 with cur.
Qed.
Lemma ae_area l : l <> [] -> ae (simple_polygon_area l). Proof. destruct l; [congruence|discriminate]. Qed.
Lemma ae_poly orc sid a cells : SegmentArrangement orc sid = Ok a -> NoDup (flat_map edges_iter cells) -> Forall (fun c => c <> [] /\ noopp (edges_iter c) (edges_iter c)) cells ->
  incl cells (map fc_vertices (a_cells a)) -> ae (poly_cells a cells).
Proof.
  intros H ND NE IK. destruct (degrees_decrease orc sid a H) as (DD & DB). destruct (conts_closed orc sid a H) as (C1 & C2). unfold poly_cells. set (cs := permuted _ cells).
  assert (P : Permutation cs cells) by apply ArrFuelP.permuted_perm.
  assert (PE : Permutation (inserted_edges cs) (flat_map edges_iter cells)).
  { unfold inserted_edges. rewrite (flat_map_ext _ _ cyc_iter). now apply Permutation_flat_map. }
  destruct (add_cells_ok pt_eqb pt_eqb_spec (fun i => a_orc a 3%nat (i + length cs)%nat) (merger_fuel cs) 0 CellMergerSlow [] cs) as [->|(m & k & -> & MI)].
  { exists []. cbn. split; [constructor|]. split; [constructor|]. split; [intros e []|]. split; [reflexivity|]. intros; tauto. }
  { cbn [app]. now rewrite PE. }
  { rewrite P. eapply Forall_impl; [|exact NE]. intros c (A & B). split; auto. now rewrite cyc_iter. }
  { cbn [app]. unfold merger_fuel. unfold inserted_edges. rewrite (flat_map_ext _ _ cyc_iter). lia. }
  { apply ae_err. }
  cbn [bind]. destruct MI as (X & _ & W & _ & _ & OR). cbn [app] in OR.
  assert (ON : forall co, In co (map (fun c => (vertices c, origs c)) (CellMerger.cells m)) -> fst co <> [] /\ incl (snd co) (map fc_vertices (a_cells a))).
  { intros co CO. apply in_map_iff in CO as (c & <- & C). cbn [fst snd]. rewrite Forall_forall in W. split; [now destruct (W c C)|].
    intros x Hx. apply IK. rewrite <- P. apply OR. left. apply in_flat_map. eauto. }
  unfold get_cells_originals at 1. apply ae_bind.
  { unfold check. aes. }
  intros os OE. assert (os = map (fun c => (vertices c, origs c)) (CellMerger.cells m)) as -> by (unfold get_cells_originals in OE; apply bind_ok in OE as (? & _ & OE); congruence). clear OE.
  set (n := (4 + length (a_cells a))%nat). set (os := permuted (a_orc a n) _).
  assert (OO : forall co, In co os -> fst co <> [] /\ incl (snd co) (map fc_vertices (a_cells a))) by (intros co CO; apply in_permuted in CO; auto).
  apply ae_bind; [apply ae_mapM; intros co CO; apply ae_area; now apply OO|]. intros areas AR. apply ae_bind; [apply ae_passert|]. intros _ _.
  assert (SG : forall x, In x (combine areas os) -> In (snd x) os) by (intros (x & y) I; now apply in_combine_r in I).
  apply ae_bind; [unfold add_pos_original; aes|]. intros po PO. apply ae_bind.
  - apply ae_mapM. intros no I. apply in_map_iff in I as (x & <- & I). apply filter_In in I as (I & _). apply SG, OO in I as (_ & I). unfold negative_outer. apply ae_bind; [|intros; aes].
    apply ae_foldM. intros s0 og OG. unfold find_outer. apply ae_bind; [|intros; aes]. destruct (dget cell_eqb og po); [aes|].
    apply (ae_go_out _ _ (map fc_vertices (a_cells a))); auto. apply (nf_go_out _ (a_degrees a)); auto. specialize (DB og). lia.
  - intros pairs PR. apply ae_mapM. intros (i & co) I. apply in_combine_r in I. apply in_map_iff in I as (x & E & I). apply filter_In in I as (I & _). apply SG in I. rewrite E in I.
    assert (HN : forall h, In h (map snd (filter (fun p => cell_eqb (fst co) (fst p)) pairs)) -> h <> []).
    { intros h Hh. apply in_map_iff in Hh as (p & <- & Hh). apply filter_In in Hh as (Hh & _). apply mapM_ok in PR. destruct (F2_from _ _ _ _ PR Hh) as (no & NO & E'). unfold negative_outer in E'.
      apply bind_ok in E' as (o & _ & E'). destruct o; [|discriminate]. injection E' as <-. cbn [snd]. apply in_map_iff in NO as (y & <- & NO). apply filter_In in NO as (NO & _). now apply SG, OO in NO. }
    unfold Simple_Polygon_With_Holes, check_no_dups. aes; [apply ae_area; now apply OO|]. unfold check_hole, check_no_dups. aes. apply ae_area.
    match goal with H : In _ (map (@rev point) _) |- _ => apply in_map_iff in H as (h & <- & H); apply in_permuted in H; apply HN in H end. intros Z. match goal with N : h <> [] |- _ => apply N end. rewrite <- (rev_involutive h), Z. reflexivity.
Qed.

(** ** the operators *)
Theorem operation_outcome orc geoms op : Forall is_geom2d geoms -> Forall clean_geom geoms ->
  exists a cells, SegmentArrangement (orc (flat_map all_segments geoms)) (flat_map all_segments geoms) = Ok a /\
    select_cells (segment_arrangement orc) geoms op (cell_points a) = Ok cells /\
    ((poly_cells a cells = Err AssertionError /\ arrangement_op (segment_arrangement orc) geoms op = Err AssertionError) \/
     exists polys, poly_cells a cells = Ok polys /\ is_geom2d polys /\
       (((forall c, In c (a_cells a) -> exists b, op_at geoms op (fc_point c) = Ok b /\ (in_geom polys (fc_point c) <-> b = true)) /\
         arrangement_op (segment_arrangement orc) geoms op = Ok polys) \/
        ((exists c b, In c (a_cells a) /\ op_at geoms op (fc_point c) = Ok b /\ ~ (in_geom polys (fc_point c) <-> b = true)) /\
         arrangement_op (segment_arrangement orc) geoms op = Err AssertionError))).
Proof.
  intros F CL. destruct (arrangement_made (orc (flat_map all_segments geoms)) geoms F CL) as (a & MK). pose proof (geoms_nondeg geoms F) as ND. set (sid := flat_map all_segments geoms) in *.
  pose proof (arrangement_ok (orc sid) sid a ND MK) as AO. pose proof (ao_graph _ _ AO) as G. pose proof (sample_off sid a AO) as SO. pose proof (graph_off geoms _ _ G) as OFF.
  assert (OP : forall x, In x (cell_points a) -> off_all geoms (snd x)).
  { intros x X. apply in_map_iff in X as (c & <- & C). cbn [snd]. apply OFF. auto. }
  destruct (cells_chosen (segment_arrangement orc) geoms op (cell_points a) F OP) as (cells & SC). exists a, cells. split; auto. split; auto.
  assert (EQ : arrangement_op (segment_arrangement orc) geoms op = (polys <- poly_cells a cells ;; _ <- mapM (fun cp => check_cell geoms op polys (snd cp)) (cell_points a) ;; Ok polys)).
  { unfold arrangement_op. cbn [arr_make arr_cell_points arr_poly_cells segment_arrangement arr_t arr_cell]. fold sid. rewrite MK. cbn [bind].
    change (select_cells (segment_arrangement orc) geoms op (cell_points a)) with (select_cells (segment_arrangement orc) geoms op (cell_points a)) in SC. 
    match goal with |- context [bind (select_cells ?A ?g ?o ?c) _] => replace (select_cells A g o c) with (@Ok (list (list point)) cells) by (symmetry; exact SC) end. reflexivity. }
  destruct (ao_cells _ _ AO) as (paths & PM & IC & F2).
  pose proof (graph_bridgeless geoms _ _ F CL G) as BR.
  destruct (select_sub (segment_arrangement orc) _ _ _ _ SC edges_iter) as (S1 & S2).
  { unfold cell_points. rewrite map_map. cbn [fst]. eapply Permutation_NoDup; [|apply (go_nd _ _ _ (ao_graph _ _ AO))]. rewrite PM. clear -F2.
    induction F2 as [|p c ps cs (_ & E & _) F2 IH]; [reflexivity|]. cbn. rewrite E. now apply Permutation_app_head. }
  assert (IK : incl cells (map fc_vertices (a_cells a))).
  { intros c C. apply S2 in C. unfold cell_points in C. rewrite map_map in C. exact C. }
  assert (CC : forall c, In c cells -> cellr (a_half_edges a) c /\ edges_iter c <> []).
  { intros c C. apply IK in C. apply in_map_iff in C as (fc & <- & C). destruct (F2_from _ _ _ _ F2 C) as (p & P & V & E & _).
    assert (E' : edges_iter (map fst p) = p) by (rewrite <- V; exact E).
    assert (X : cellr (a_half_edges a) (fc_vertices fc)); [|split; [exact X|apply edges_ne; exact (cr_ne _ _ X)]]. rewrite V. rewrite Forall_forall in IC.
    apply (cell_cellr sid (a_half_edges a) (a_vertices a) G BR); auto.
    - intros e I. rewrite PM. apply in_concat. eauto.
    - pose proof (Permutation_NoDup PM (go_nd _ _ _ G)) as N. clear -N P. induction paths as [|q l IH]; [destruct P|]. cbn in N. destruct (nodup_split _ _ N) as (A & B). destruct P as [->|P]; auto. }
  assert (AE : ae (poly_cells a cells)).
  { apply (ae_poly (orc sid) sid); auto. apply Forall_forall. intros c C. destruct (CC c C) as (X & _). split; [exact (cr_ne _ _ X)|]. exact (cr_once _ _ X). }
  destruct (poly_cells a cells) as [polys|e] eqn:PC; [|left; rewrite (AE e eq_refl) in *; split; auto].
  right. exists polys. split; auto. cbn [bind] in EQ.
  destruct (poly_cells_edges a cells polys (a_half_edges a)) as (GR & ER); auto.
  { intros c C e E. destruct (CC c C) as (X & _). exact (cr_in _ _ X e E). }
  { apply (bt_rv _ _ _ G). }
  split; auto.
  assert (LOC : forall p, off (a_half_edges a) p -> ~ on_bd polys p).
  { intros p O B. apply on_bd_segments in B as (s & S & OS). apply (O s); auto. }
  assert (CK : forall c, In c (a_cells a) -> exists b, op_at geoms op (fc_point c) = Ok b /\
    ((check_cell geoms op polys (fc_point c) = Ok tt /\ (in_geom polys (fc_point c) <-> b = true)) \/
     (check_cell geoms op polys (fc_point c) = Err AssertionError /\ ~ (in_geom polys (fc_point c) <-> b = true)))).
  { intros c C. destruct (op_at_total geoms op (fc_point c) F) as (b & B); [now apply OFF, SO|]. exists b. split; auto. unfold check_cell. rewrite B. cbn [bind].
    destruct (g2_locate_ok polys (fc_point c) GR (LOC _ (SO c C))) as [(L & I)|(L & I)]; rewrite L; cbn [bind]; destruct b; cbn; (try (left; split; [reflexivity|]; split; (intros; try reflexivity; try discriminate; tauto))).
    - right. split; [reflexivity|]. intros (X & _). discriminate (X I).
    - right. split; [reflexivity|]. intros (_ & X). tauto. }
  unfold cell_points in EQ. clear -EQ CK. revert EQ. set (R := arrangement_op _ _ _). clearbody R. set (L := a_cells a) in *. clearbody L. intros ->.
  assert (K : (exists u, mapM (fun cp : list point * point => check_cell geoms op polys (snd cp)) (map (fun c => (fc_vertices c, fc_point c)) L) = Ok u /\
      forall c, In c L -> exists b, op_at geoms op (fc_point c) = Ok b /\ (in_geom polys (fc_point c) <-> b = true)) \/
    (mapM (fun cp : list point * point => check_cell geoms op polys (snd cp)) (map (fun c => (fc_vertices c, fc_point c)) L) = Err AssertionError /\
      exists c b, In c L /\ op_at geoms op (fc_point c) = Ok b /\ ~ (in_geom polys (fc_point c) <-> b = true))).
  { induction L as [|c L IH]; [left; exists []; split; [reflexivity|intros c []]|]. cbn [map mapM snd].
    destruct (CK c (or_introl eq_refl)) as (b & B & [(E & I)|(E & I)]); rewrite E; cbn [bind]; [|right; split; [reflexivity|exists c, b; split; [now left|auto]]].
    destruct IH as [(u & U1 & U2)|(U1 & d & b' & D & D1 & D2)]; [intros d D; apply CK; now right|..]; rewrite U1; cbn [bind].
    - left. eexists. split; [reflexivity|]. intros d [<-|D]; eauto.
    - right. split; [reflexivity|]. exists d, b'. split; [now right|auto]. }
  destruct K as [(u & U1 & U2)|(U1 & U2)]; rewrite U1; cbn [bind]; [left|right]; auto.
Qed.
