(** * No loop of the arrangement code runs forever: a set operation returns or raises, for all operands. *)
From Verif.Model Require Import SegmentTree CellMerger Arrangement2d Aabb Geom2d.
From Verif.Spec Require Import Plane Subdivision Region.
From Verif.Proofs Require Import PyP PolyP WindingP DictP SweepOrd SweepL PlanarP SubdivP MergerP MergerQ MergerFuelP ArrVertexP ArrGraphP
  ArrInitP ArrTraceP ArrSampleP ArrSoundP Geom2dP Geom2dOps.
From Verif.Props Require Import SegmentTreeProps Scan2dProps.

Definition nf {A} (r : result A) : Prop := r <> Err OutOfFuel.
Lemma nf_ok {A} (a : A) : nf (Ok a). Proof. discriminate. Qed.
Lemma nf_bind {A B} (r : result A) (k : A -> result B) : nf r -> (forall x, r = Ok x -> nf (k x)) -> nf (bind r k).
Proof. intros H K. destruct r as [a|e]; cbn [bind]; [now apply K|]. intros X. apply H. congruence. Qed.
Lemma nf_passert b : nf (passert b). Proof. destruct b; discriminate. Qed.
Lemma nf_mapM {A B} (f : A -> result B) l : (forall x, In x l -> nf (f x)) -> nf (mapM f l).
Proof.
  induction l as [|a l IH]; intros H; cbn [mapM]; [apply nf_ok|]. apply nf_bind; [apply H; now left|]. intros x _.
  apply nf_bind; [apply IH; intros; apply H; now right|]. intros; apply nf_ok.
Qed.
Lemma nf_foldM {A S} (f : S -> A -> result S) l s : (forall s x, In x l -> nf (f s x)) -> nf (foldM f l s).
Proof.
  revert s. induction l as [|a l IH]; intros s H; cbn [foldM]; [apply nf_ok|]. apply nf_bind; [apply H; now left|]. intros x _. apply IH. intros; apply H; now right.
Qed.
Lemma nf_dgetr {K V} (eqb : K -> K -> bool) k (m : list (K * V)) : nf (dgetr eqb k m).
Proof. unfold dgetr. destruct (dget eqb k m); discriminate. Qed.

Ltac nf1 := match goal with
  | |- nf (Ok _) => apply nf_ok
  | |- nf (Err _) => discriminate
  | |- nf (bind _ _) => apply nf_bind; [|intros ? ?]
  | |- nf (passert _) => apply nf_passert
  | |- nf (mapM _ _) => apply nf_mapM; intros ? ?
  | |- nf (foldM _ _ _) => apply nf_foldM; intros ? ? ?
  | |- nf (dgetr _ _ _) => apply nf_dgetr
  | |- nf (if ?b then _ else _) => destruct b eqn:?
  | |- nf (match ?x with _ => _ end) => destruct x eqn:?
  end.
Ltac nfs := repeat nf1.

Lemma nf_area l : nf (simple_polygon_area l). Proof. destruct l; discriminate. Qed.
Lemma nf_locate l p : nf (locate_point_polygon_winding_number l p). Proof. destruct l; discriminate. Qed.
Lemma nf_frangle v : nf (vector_frangle v). Proof. unfold vector_frangle. nfs. Qed.
Lemma nf_inter a b : nf (segment_segment_general_intersection a b).
Proof. unfold segment_segment_general_intersection. nfs. Qed.
Lemma nf_stab {A} (t : stree A) v : nf (stab t v). Proof. unfold stab. nfs. Qed.
Lemma nf_ray box normal tree pt d k : nf (ray_query box normal tree pt d k).
Proof.
  unfold ray_query. nfs; try apply nf_frangle; try apply nf_stab. unfold ray_halfedge_test. nfs; try apply nf_inter.
  unfold he_key. apply nf_frangle.
Qed.
Lemma nf_point gv box normal tree c : nf (find_point_in_cell gv box normal tree c).
Proof. unfold find_point_in_cell, ray_query_general. nfs; apply nf_ray. Qed.
Lemma nf_gstree normal hes : nf (init_gstree normal hes).
Proof.
  unfold init_gstree. nfs. destruct (segment_tree_stab_exact (map (gseg normal) (filter (fun e => pt_ltb (fst e) (snd e)) hes))) as (A & _).
  destruct A as (t & -> & _); [|apply nf_ok]. apply Forall_forall. intros s S. apply in_map_iff in S as (e & <- & _). unfold gseg.
  destruct (qltb_spec (Geom2d.dot normal (snd e)) (Geom2d.dot normal (fst e))); cbn [s_low s_high fst snd]; qlra.
Qed.
Lemma nf_toggle m hits acc : nf (toggle_hits m hits acc).
Proof. revert acc. induction hits as [|[t e] hits IH]; intros acc; cbn [toggle_hits]; nfs; apply IH. Qed.
Lemma nf_cells orc sid hes vs box gv : graph_ok sid hes vs -> nf (find_cells orc hes vs box gv).
Proof.
  intros G. unfold find_cells. nfs; try apply nf_area; try apply nf_gstree; try apply nf_locate; try apply nf_point.
  - destruct (trace_all hes vs (bt_rv _ _ _ G) (bt_ne _ _ _ G) (bt_vg _ _ _ G) (orc 2%nat) (go_nd _ _ _ G)) as [(-> & _)|(paths & -> & _)]; [discriminate|apply nf_ok].
  - unfold set_cell. nfs; [apply nf_area|]. unfold set_he_cell. nfs.
  - unfold find_cell_point. nfs; [apply nf_area|apply nf_point|apply nf_locate].
  - unfold find_containers. nfs; [apply nf_ray|apply nf_toggle|unfold find_fcell; nfs].
  - unfold find_container. nfs. unfold find_fcell. nfs.
Qed.
Lemma nf_arrangement orc sid : Forall nondeg sid -> nf (SegmentArrangement orc sid).
Proof.
  intros F. unfold SegmentArrangement.
  destruct (build_graph (orc 0%nat) (orc 1%nat) sid F) as (calls & vs0 & hes & vs & C & (l & CK) & VS & FM & G & KV).
  rewrite C. cbn [bind]. rewrite CK. cbn [bind]. rewrite <- VS, FM. cbn [bind].
  destruct (check_orders_ok sid hes vs G) as (l' & ->). cbn [bind].
  destruct (general_vector_ok hes (fun e => bt_ne sid hes vs G e)) as (gv & -> & _). cbn [bind].
  nfs. now apply (nf_cells orc sid).
Qed.

(** ** the way outwards *)
Lemma cell_eqb_dec : eq_dec_b cell_eqb.
Proof. intros a b. unfold cell_eqb. destruct (list_eqb_spec pt_eqb pt_eqb_spec a b) as [->|N]; split; congruence. Qed.
Lemma toggle_nodup c l : NoDup l -> NoDup (toggle c l).
Proof.
  intros N. unfold toggle. destruct (existsb (cell_eqb c) l) eqn:E; [now apply NoDup_filter|]. apply nodup_snoc; auto.
  intros I. apply (existsb_eqb_in _ cell_eqb_dec) in I. congruence.
Qed.
Lemma toggle_hits_nodup m hits : forall acc around, NoDup acc -> toggle_hits m hits acc = Ok around -> NoDup around.
Proof.
  induction hits as [|[t e] hits IH]; intros acc around N H; cbn [toggle_hits] in H; [now injection H as <-|].
  destruct (qltb t 0); [eauto|]. apply bind_ok in H as (u & _ & H). apply bind_ok in H as (c & _ & H). eapply IH; [|apply H]. now apply toggle_nodup.
Qed.
Lemma filter_len {A} (f : A -> bool) l : (length (filter f l) <= length l)%nat.
Proof. induction l as [|a l IH]; cbn; [lia|]. destruct (f a); cbn; lia. Qed.
Lemma find_containers_bound box normal tree gv m cells c around d : find_containers box normal tree gv m cells c = Ok (around, d) ->
  (d <= 2 * length cells + 1)%nat.
Proof.
  unfold find_containers. intros H. apply bind_ok in H as (inters & _ & H). apply bind_ok in H as (ar & T & H). apply bind_ok in H as (u & _ & H).
  apply bind_ok in H as (fs & M & H). injection H as _ <-. apply toggle_hits_nodup in T; [|constructor].
  set (ar' := filter (fun x => negb (cell_eqb (fc_vertices c) x)) ar) in *. assert (N : NoDup ar') by now apply NoDup_filter.
  pose proof (filter_len (fun f => negb (fc_negative f)) fs) as L. apply mapM_ok in M. pose proof (F2_length _ _ _ M) as L2.
  assert (I : incl ar' (map fc_vertices cells)).
  { intros x X. assert (Y : exists f, find_fcell cells x = Ok f).
    { clear -M X. induction M as [|a b l l' R M IH]; [destruct X|]. destruct X as [->|X]; eauto. }
    destruct Y as (f & Y). unfold find_fcell in Y. apply (proj1 (dgetr_ok cell_eqb _ _ _)) in Y. apply (dget_in cell_eqb cell_eqb_dec) in Y.
    apply in_map_iff in Y as (g & E & G). apply in_map_iff. exists g. split; auto. now injection E. }
  pose proof (NoDup_incl_length N I) as L3. rewrite map_length in L3. destruct (fc_negative c); lia.
Qed.
Lemma dget_combine {V} (ks : list (list point)) (vs : list V) k v : dget cell_eqb k (combine ks vs) = Some v ->
  exists i, nth_error ks i = Some k /\ nth_error vs i = Some v.
Proof.
  intros H. apply (dget_in cell_eqb cell_eqb_dec) in H. revert vs H. induction ks as [|a ks IH]; intros [|b vs] H; try destruct H.
  - injection H as -> ->. exists O. auto.
  - destruct (IH vs H) as (i & A & B). exists (S i). auto.
Qed.
Lemma mapM_nth {A B} (f : A -> result B) l l' i b : mapM f l = Ok l' -> nth_error l' i = Some b -> exists a, nth_error l i = Some a /\ f a = Ok b.
Proof.
  intros M. apply mapM_ok in M. revert i. induction M as [|x y l l' R M IH]; intros [|i] H; cbn in *; try discriminate; eauto.
  apply some_inv in H. subst. eauto.
Qed.
Lemma nth_combine {A B} (l : list A) (l' : list B) i a b : nth_error (combine l l') i = Some (a, b) -> nth_error l i = Some a /\ nth_error l' i = Some b.
Proof. revert l' i. induction l as [|x l IH]; intros [|y l'] [|i] H; cbn in *; try discriminate; auto. apply some_inv in H. now injection H as -> ->. Qed.
Lemma degrees_decrease orc sid a : SegmentArrangement orc sid = Ok a ->
  (forall cur c, dget cell_eqb cur (a_containers a) = Some (Some c) -> S (degree_of (a_degrees a) c) = degree_of (a_degrees a) cur) /\
  (forall cur, degree_of (a_degrees a) cur <= 2 * length (a_cells a) + 1)%nat.
Proof.
  intros H. unfold SegmentArrangement in H. apply bind_ok in H as (? & _ & H). apply bind_ok in H as (? & _ & H). apply bind_ok in H as ((hes & vs) & _ & H).
  apply bind_ok in H as (? & _ & H). apply bind_ok in H as (gv & _ & H). apply bind_ok in H as (((cells & degrees) & conts) & FC & H).
  injection H as <-. cbn [a_containers a_degrees a_cells].
  unfold find_cells in FC. apply bind_ok in FC as (tree & TR & FC). apply bind_ok in FC as (traced & TC & FC).
  apply bind_ok in FC as (m & _ & FC). apply bind_ok in FC as (cells' & CL & FC). apply bind_ok in FC as (found & FO & FC). apply bind_ok in FC as (conts' & CO & FC).
  injection FC as -> <- <-. split.
  - intros cur c D. apply dget_combine in D as (i & D1 & D2). apply (mapM_nth _ _ _ _ _ CO) in D2 as ((k & fc & fo) & D2 & D3).
    cbn [fst snd] in D3. apply nth_combine in D2 as (_ & D2). apply nth_combine in D2 as (D2 & _).
    rewrite nth_error_map, D2 in D1. cbn in D1. apply some_inv in D1. subst cur. unfold find_container in D3.
    match type of D3 with context [permuted ?a ?b] => set (pm := permuted a b) in D3; clearbody pm end. destruct pm as [|y r]; [discriminate D3|]. apply bind_ok in D3 as (y1 & _ & D3). apply bind_ok in D3 as (y2 & A & D3).
    apply bind_ok in D3 as (y3 & _ & D3). apply bind_ok in D3 as (y4 & _ & D3). injection D3 as <-. apply passert_ok in A. now apply Nat.eqb_eq in A.
  - intros cur. unfold degree_of. destruct (dget cell_eqb cur _) as [d|] eqn:D; [|lia]. apply dget_combine in D as (i & _ & D).
    rewrite nth_error_map in D. destruct (nth_error found i) as [[ar d']|] eqn:E; [|discriminate]. cbn in D. apply some_inv in D. subst d'.
    apply (mapM_nth _ _ _ _ _ FO) in E as (c & _ & E). now apply find_containers_bound in E.
Qed.
Lemma nf_go_out conts degs pos : (forall cur c, dget cell_eqb cur conts = Some (Some c) -> S (degree_of degs c) = degree_of degs cur) ->
  forall fuel cur, (degree_of degs cur < fuel)%nat -> nf (go_out fuel conts pos cur).
Proof.
  intros D. induction fuel as [|f IH]; intros cur L; [lia|]. cbn [go_out]. unfold dgetr. destruct (dget cell_eqb cur conts) as [[c|]|] eqn:E; cbn [bind]; nfs.
  apply IH. apply D in E. lia.
Qed.
Lemma permuted_perm {A} o (l : list A) : Permutation (permuted o l) l.
Proof. unfold permuted. apply shuffle_perm. Qed.
Lemma nf_poly orc sid a cells : Forall nondeg sid -> SegmentArrangement orc sid = Ok a -> NoDup (flat_map edges_iter cells) -> Forall (fun c => c <> []) cells ->
  nf (poly_cells a cells).
Proof.
  intros F H ND NE. destruct (degrees_decrease orc sid a H) as (DD & DB). unfold poly_cells. set (cs := permuted _ cells).
  assert (P : Permutation cs cells) by apply permuted_perm.
  assert (PE : Permutation (inserted_edges cs) (flat_map edges_iter cells)).
  { unfold inserted_edges. rewrite (flat_map_ext _ _ cyc_iter). now apply Permutation_flat_map. }
  nfs.
  - destruct (add_cells_light pt_eqb pt_eqb_spec (fun i => a_orc a 3%nat (i + length cs)%nat) (merger_fuel cs) 0 CellMergerSlow [] cs) as [->|(m & k & -> & _)].
    + exists []. split; [reflexivity|constructor].
    + cbn [app]. now rewrite PE.
    + now rewrite P.
    + cbn [app]. unfold merger_fuel. unfold inserted_edges. rewrite (flat_map_ext _ _ cyc_iter). lia.
    + discriminate.
    + apply nf_ok.
  - unfold get_cells_originals, check. nfs.
  - apply nf_area.
  - unfold add_pos_original. nfs.
  - unfold negative_outer. nfs. unfold find_outer. nfs. apply (nf_go_out _ (a_degrees a)); auto. match goal with |- (degree_of _ ?c < _)%nat => specialize (DB c) end. lia.
  - unfold Simple_Polygon_With_Holes, check_no_dups. nfs; [apply nf_area|]. unfold check_hole, check_no_dups. nfs. apply nf_area.
Qed.
Lemma nf_spwh_locate s p : nf (spwh_locate s p).
Proof.
  unfold spwh_locate. nfs; [apply nf_locate|]. induction (holes s) as [|h hs IH]; cbn [locate_holes]; nfs; auto. apply nf_locate.
Qed.
Lemma nf_g2_locate g p : nf (g2_locate g p).
Proof. unfold g2_locate. nfs; apply nf_spwh_locate. Qed.
Lemma nf_op_at gs op p : nf (op_at gs op p).
Proof. unfold op_at. nfs. apply nf_g2_locate. Qed.
Lemma nf_select A gs op cps : nf (select_cells A gs op cps).
Proof. induction cps as [|[c p] cps IH]; cbn [select_cells]; nfs; auto. apply nf_op_at. Qed.
Lemma select_sub A gs op cps cells : select_cells A gs op cps = Ok cells -> forall (f : _ -> list segment), NoDup (flat_map f (map fst cps)) -> NoDup (flat_map f cells) /\
  incl cells (map fst cps).
Proof.
  revert cells. induction cps as [|[c p] cps IH]; intros cells H f N; cbn [select_cells map fst flat_map] in *; [injection H as <-; split; [constructor|intros ? []]|].
  apply bind_ok in H as (b & _ & H). apply bind_ok in H as (r & R & H). destruct (IH r R f) as (A1 & A2); [now apply NoDup_app_r in N|].
  destruct b; injection H as <-.
  - split; [|intros x [X|X]; [now left|right; auto]]. cbn [flat_map]. 
    assert (I : incl (flat_map f r) (flat_map f (map fst cps))). { intros x X. apply in_flat_map in X as (y & Y & X). apply in_flat_map. exists y. split; auto. }
    clear -N A1 I. revert N. induction (f c) as [|e l IHl]; intros N; [exact A1|]. cbn in *. inversion N as [|? ? N1 N2]; subst. constructor; auto.
    intros X. apply N1. apply in_app_or in X as [X|X]; apply in_or_app; auto.
  - split; auto. intros x X. right. auto.
Qed.
Theorem set_operation_ends orc gs op : Forall is_geom2d gs -> nf (arrangement_op (segment_arrangement orc) gs op).
Proof.
  intros F. unfold arrangement_op. cbn [arr_make arr_cell_points arr_poly_cells segment_arrangement arr_t arr_cell].
  set (sid := flat_map all_segments gs) in *.
  assert (ND : Forall nondeg sid).
  { apply Forall_forall. intros s S. apply in_flat_map in S as (g & Hg & S). apply is_edge_segments in S as (rg & R & E).
    rewrite Forall_forall in F. apply (proj1 (is_geom2d_rings g) (F g Hg) rg R). auto. }
  apply nf_bind; [now apply nf_arrangement|]. intros a MK. apply nf_bind; [apply nf_ok|]. intros cps CP. injection CP as <-.
  apply nf_bind; [apply (nf_select (segment_arrangement orc))|]. intros cells SC. pose proof (arrangement_ok (orc sid) sid a ND MK) as AO.
  apply nf_bind; [|intros; nfs; unfold check_cell; nfs; [apply nf_op_at|apply nf_g2_locate]].
  destruct (ao_cells _ _ AO) as (paths & PM & IC & F2).
  destruct (select_sub (segment_arrangement orc) _ _ _ _ SC edges_iter) as (S1 & S2).
  - unfold cell_points. rewrite map_map. cbn [fst]. eapply Permutation_NoDup; [|apply (go_nd _ _ _ (ao_graph _ _ AO))]. rewrite PM. clear -F2.
    induction F2 as [|p c ps cs (_ & E & _) F2 IH]; [reflexivity|]. cbn. rewrite E. now apply Permutation_app_head.
  - apply (nf_poly (orc sid) sid); auto. apply Forall_forall. intros c C. apply S2 in C. unfold cell_points in C. rewrite map_map in C. cbn [fst] in C.
    apply in_map_iff in C as (fc & <- & C). clear -IC F2 C. induction F2 as [|q d ps ds (V & _) F2 IH]; [destruct C|]. inversion IC as [|? ? C1 C2]; subst.
    destruct C as [->|C]; auto. rewrite V. destruct q; [destruct C1|discriminate].
Qed.
