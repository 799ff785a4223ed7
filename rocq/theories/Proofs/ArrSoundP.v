(** The arrangement as a whole: every set operation that returns is right. *)
From Verif.Model Require Import SegmentTree CellMerger Arrangement2d Aabb Geom2d.
From Verif.Spec Require Import Plane Subdivision Region.
From Verif.Proofs Require Import PyP PolyP WindingP WindingQ WindingR NearP DictP SweepOrd SweepL PlanarP SubdivP MergerQ MergerInP ArrVertexP ArrGraphP
  ArrInitP ArrTraceP ArrSampleP Geom2dP Geom2dOps.
From Verif.Props Require Import Primitive2dProps Frangle2dProps Scan2dProps LocateProps.

Local Notation dot := Plane.dot.

(** ** what a finished arrangement looks like *)
Definition is_cell_of (hes : list segment) (path : list segment) (c : fcell) : Prop :=
  fc_vertices c = map fst path /\ edges_iter (fc_vertices c) = path /\
  exists e l, path = e :: l /\ sees hes e (fc_point c).
Record arr_ok (sid : list segment) (a : arrangement) : Prop := {
  ao_graph : graph_ok sid (a_half_edges a) (a_vertices a);
  ao_gv : a_general a <> (0, 0) /\ forall e, In e (a_half_edges a) -> cross (a_general a) (dir e) <> 0 /\ dot (a_general a) (dir e) <> 0;
  ao_cells : exists paths, Permutation (a_half_edges a) (concat paths) /\ Forall (is_cell (a_half_edges a) (a_vertices a)) paths /\
    Forall2 (is_cell_of (a_half_edges a)) paths (a_cells a) }.

Lemma mid_between (f : point -> Qc) (g : forall a b, f (midpoint (a, b)) = qq 1 2 * (f a + f b)) l a b : In a l -> In b l ->
  exists q r, In q l /\ In r l /\ f q <= f (midpoint (a, b)) /\ f (midpoint (a, b)) <= f r.
Proof.
  intros A B. rewrite g. destruct (Qclt_le_dec (f a) (f b)).
  - exists a, b. split; auto. split; auto. split; qlra.
  - exists b, a. split; auto. split; auto. split; qlra.
Qed.
Lemma mid_box l a b : In a l -> In b l -> a <> b -> wide_box (fold_left include_point l (AABB None None)) (midpoint (a, b)).
Proof.
  intros A B N. apply (box_of_points l a b); auto.
  - apply (mid_between fst); auto. intros [x y] [z w]. vec. unfold midpoint. vec. cbn. qlra.
  - apply (mid_between snd); auto. intros [x y] [z w]. vec. unfold midpoint. vec. cbn. qlra.
Qed.

Section Built.
Variables (sid hes : list segment) (vs : list (point * vertex)).
Hypothesis G : graph_ok sid hes vs.
Lemma bt_rv e : In e hes -> In (rev_seg e) hes.
Proof. apply (go_rev _ _ _ e G). Qed.
Lemma bt_ne e : In e hes -> fst e <> snd e.
Proof. apply (go_nondeg _ _ _ e G). Qed.
Lemma bt_vert e : In e hes -> vert sid (fst e) /\ vert sid (snd e).
Proof. intros I. apply (go_sub _ _ _ G) in I. destruct I as (_ & A & B & _). auto. Qed.
Lemma bt_vg e : In e hes -> exists v, dget pt_eqb (fst e) vs = Some v /\ vgood hes (fst e) v.
Proof. intros I. apply (go_dget sid hes vs); auto. now apply bt_vert. Qed.
Lemma cell_two path : incl path hes -> is_cell hes vs path -> exists e f l, path = e :: f :: l /\ fst f = snd e.
Proof.
  intros IN C. destruct path as [|e [|f l]]; [destruct C|..]; destruct C as (CH & N & _).
  - exfalso. cbn in N. apply (nxr_in hes vs bt_rv bt_ne bt_vg) in N as (_ & N & _); [|apply IN; now left].
    apply (bt_ne e); auto. apply IN. now left.
  - exists e, f, l. split; auto. assert (X : nxr hes vs e f) by (apply CH; exists [], l; auto).
    apply (nxr_in hes vs bt_rv bt_ne bt_vg) in X; [apply X|]. apply IN. now left.
Qed.
End Built.

Theorem arrangement_ok orc sid a : Forall nondeg sid -> SegmentArrangement orc sid = Ok a -> arr_ok sid a.
Proof.
  intros F H. unfold SegmentArrangement in H.
  destruct (build_graph (orc 0%nat) (orc 1%nat) sid F) as (calls & vs0 & hes & vs & C & (l & CK) & VS & FM & G & KV).
  rewrite C in H. cbn [bind] in H. rewrite CK in H. cbn [bind] in H. rewrite <- VS in H. rewrite FM in H. cbn [bind] in H.
  apply bind_ok in H as (? & _ & H). apply bind_ok in H as (gv & GV & H). apply bind_ok in H as (((cells & degrees) & conts) & FC & H).
  injection H as <-. destruct (general_vector_ok hes (fun e => bt_ne sid hes vs G e)) as (gv' & GV' & GN & GA). rewrite GV in GV'. injection GV' as <-.
  constructor; cbn [a_half_edges a_vertices a_general a_cells]; auto.
  unfold find_cells in FC. apply bind_ok in FC as (tree & TR & FC). apply bind_ok in FC as (traced & TC & FC).
  apply bind_ok in FC as (m & _ & FC). apply bind_ok in FC as (cells' & CL & FC). apply bind_ok in FC as (? & _ & FC). apply bind_ok in FC as (? & _ & FC).
  assert (cells' = cells) as -> by congruence. clear FC.
  destruct (trace_all hes vs (bt_rv _ _ _ G) (bt_ne _ _ _ G) (bt_vg _ _ _ G) (orc 2%nat) (go_nd _ _ _ G)) as [(X & _)|(paths & X & PM & IC & ED)];
    rewrite TC in X; [discriminate|]. injection X as ->.
  exists paths. split; auto. split; auto. apply mapM_ok in CL.
  assert (IP : forall p, In p paths -> incl p hes) by (intros p P e E; rewrite PM; apply in_concat; eauto).
  remember (map (map fst) paths) as traced eqn:TE. revert paths TE PM IC ED IP. clear TC.
  assert (K : forall paths, traced = map (map fst) paths -> Forall (is_cell hes vs) paths -> (forall p, In p paths -> edges_iter (map fst p) = p) ->
    (forall p, In p paths -> incl p hes) -> Forall2 (is_cell_of hes) paths cells); [|intros; now apply K].
  induction CL as [|t c ts cs H CL IH]; intros paths TE IC ED IP; destruct paths as [|p paths]; try discriminate; [constructor|].
  cbn [map] in TE. injection TE as -> TE. inversion IC as [|? ? IC1 IC2]; subst. constructor; [|apply IH; auto; intros q Q; [apply ED|apply IP]; now right].
  unfold find_cell_point in H. apply bind_ok in H as (ar & _ & H). apply bind_ok in H as (pt & PT & H). apply bind_ok in H as (? & _ & H).
  apply bind_ok in H as (? & _ & H). injection H as <-. split; [reflexivity|]. cbn [fc_vertices fc_point]. split; [apply ED; now left|].
  assert (IPp : incl p hes) by (apply IP; now left).
  destruct (cell_two sid hes vs G p IPp IC1) as (e & f & l' & -> & FE).
  assert (EI : In e hes) by (apply IPp; now left). destruct (bt_vert _ _ _ G e EI) as (V1 & V2).
  exists e, (f :: l'). split; auto. cbn [map] in PT. rewrite FE in PT.
  edestruct (sample_ok hes gv) as (pt' & E & S); [..|rewrite E in PT; injection PT as <-; destruct e; exact S].
  - apply (bt_rv _ _ _ G).
  - apply (bt_ne _ _ _ G).
  - auto.
  - intros e0 I0. exact (proj1 (GA e0 I0)).
  - destruct e; exact EI.
  - exact TR.
  - rewrite <- KV. apply mid_box; [exact (proj2 (go_all _ _ _ G _) V1)|exact (proj2 (go_all _ _ _ G _) V2)|exact (bt_ne _ _ _ G e EI)].
Qed.

(** ** from the samples to everywhere *)
Section Everywhere.
Variables (sid : list segment) (a : arrangement).
Hypothesis AO : arr_ok sid a.
Notation hes := (a_half_edges a).
Variable T : point -> Prop.
Hypothesis T_move : forall p q, free hes p q -> T p -> T q.
Hypothesis T_sample : forall c, In c (a_cells a) -> T (fc_point c).

Let G := ao_graph _ _ AO.
Lemma step_step x d t u : step x d t = at_t (x, step x d 1) t /\ (forall s, at_t (step x d t, step x d u) s = step x d (t + s * (u - t))).
Proof. split; [|intros s]; apply pteq; vec; ring. Qed.
Lemma sees_RT e p : In e hes -> sees hes e p -> T p -> RT T e.
Proof.
  intros I (v & t & R & TP & -> & O) H.
  apply (RT_intro hes (fun e => bt_ne _ _ _ G e) (go_planar _ _ _ G) T T_move e (midpoint e) v); auto.
  { exists (qq 1 2). split; [reflexivity|]. split; [reflexivity|]. reflexivity. }
  intros dl DL. exists (qmin dl t). destruct (qmin_spec dl t) as (A & B & C). specialize (C DL TP). split; auto. split; auto.
  apply (T_move (step (midpoint e) v t)); auto. intros x (s & S0 & S1 & ->). rewrite (proj2 (step_step _ _ _ _)).
  apply O; set (u := qmin dl t) in *; clearbody u; qnra.
Qed.
Lemma nxr_RT e n : In e hes -> nxr hes (a_vertices a) e n -> n <> rev_seg e -> RT T e -> RT T n.
Proof.
  intros I N D R. destruct (nxr_in hes _ (bt_rv _ _ _ G) (bt_ne _ _ _ G) (bt_vg _ _ _ G) e n I N) as (NI & FN & _ & _ & TS & TB).
  destruct e as [p c], n as [c' n]. cbn in FN. subst c'. cbn [rev_seg fst snd] in TS, TB.
  apply (turn hes (fun e => go_rev _ _ _ e G) (fun e => bt_ne _ _ _ G e) (go_planar _ _ _ G) T T_move p c n); auto.
  - intros m M. exact (TS (c, m) M eq_refl).
Qed.
Lemma all_RT e : In e hes -> RT T e.
Proof.
  destruct (ao_cells _ _ AO) as (paths & PM & IC & CO). intros I. rewrite PM in I. apply in_concat in I as (p & P & I).
  assert (IP : incl p hes) by (intros x X; rewrite PM; apply in_concat; eauto).
  rewrite Forall_forall in IC. specialize (IC _ P). assert (S : exists c, In c (a_cells a) /\ is_cell_of hes p c).
  { clear -CO P. induction CO as [|q c qs cs H CO IH]; [destruct P|]. destruct P as [->|P]; [exists c; split; [now left|auto]|].
    destruct (IH P) as (c' & A & B). exists c'. split; [now right|auto]. }
  destruct S as (c & CI & _ & _ & f & l & -> & SE). destruct IC as (CH & _ & NB).
  assert (RF : RT T f) by (apply (sees_RT f (fc_point c)); auto; apply IP; now left).
  clear CI SE P CO PM. revert f CH NB RF IP I. induction l as [|g l IH]; intros f CH NB RF IP I.
  - destruct I as [<-|[]]. auto.
  - destruct I as [<-|I]; auto. assert (AJ : adj f g (f :: g :: l)) by (exists [], l; auto).
    apply (IH g); auto.
    + intros x y (u & v & E). apply CH. exists (f :: u), v. now rewrite E.
    + intros x y (u & v & E). apply NB. exists (f :: u), v. now rewrite E.
    + apply (nxr_RT f g); auto. apply IP. now left.
    + intros x X. apply IP. now right.
Qed.
Theorem everywhere p : (exists M, forall z, M < fst z -> off hes z -> T z) -> off hes p -> T p.
Proof.
  intros M O. apply (escape hes) with (p := p); auto; [exact (fun e => go_rev _ _ _ e G)|apply all_RT].
Qed.
End Everywhere.

(** ** far away nothing is inside *)
Lemma in_ring_far r p : r <> [] -> (forall v, In v r -> fst v < fst p) -> ~ in_ring r p.
Proof.
  intros N H (w & (o & GA & ->) & W). assert (NB : ~ on_boundary r p).
  { intros (s & E & (t & T0 & T1 & ->)). apply is_edge_iter in E. assert (I : In (fst s) r /\ In (snd s) r).
    { destruct s as [u v]. apply (Permutation_in _ (Permutation_sym (pedges_perm r))) in E. now apply pedges_in in E. }
    destruct I as (I1 & I2). apply H in I1, I2. revert I1 I2. vec. set (x := fst (fst s)). set (y := fst (snd s)). clearbody x y. intros. destruct (Qclt_le_dec x y); [pose proof (nonneg_mul (1 - t) (y - x) ltac:(qlra) ltac:(qlra))|pose proof (nonneg_mul t (x - y) T0 ltac:(qlra))]; qlra. }
  pose proof (wsum_fan o r p NB GA) as E. rewrite (wsum_half_plane r p (- (1), 0)) in E; [lia|].
  intros v V. specialize (H v V). vec. qlra.
Qed.
Lemma ring_vertices_bound (rs : list (list point)) : exists M, forall r v, In r rs -> In v r -> fst v < M.
Proof.
  destruct (fresh_q (map fst (concat rs))) as (M & H). exists M. intros r v R V. apply H. apply in_map. apply in_concat. eauto.
Qed.
Lemma in_geom_far g : is_geom2d g -> exists M, forall p, M < fst p -> ~ in_geom g p.
Proof.
  intros G. destruct (ring_vertices_bound (map outer g)) as (M & H). exists M. intros p P (s & S & I & _).
  apply (in_ring_far (outer s) p); auto.
  - apply (proj1 (is_geom2d_rings g) G). exists s. auto.
  - intros v V. pose proof (H (outer s) v (in_map outer g s S) V). qlra.
Qed.
Lemma in_geoms_far gs : Forall is_geom2d gs -> exists M, forall p, M < fst p -> bits gs p (map (fun _ => false) gs).
Proof.
  induction 1 as [|g gs G F (M & IH)]; [exists 0; constructor|]. destruct (in_geom_far g G) as (M' & H). exists (qmax M M').
  intros p P. assert (M < fst p /\ M' < fst p) as (P1 & P2) by (unfold qmax in P; destruct (qleb_spec M M'); split; qlra).
  constructor; [|now apply IH]. split; [discriminate|]. intros X. destruct (H p P2 X).
Qed.

(** ** the rings of the result *)
Lemma cyc_iter (l : list point) : cyc_edges l = edges_iter l.
Proof. destruct l; reflexivity. Qed.
Lemma poly_cells_edges a cells polys E : (forall c, In c cells -> forall e, In e (edges_iter c) -> In e E) -> (forall e, In e E -> In (rev_seg e) E) ->
  poly_cells a cells = Ok polys -> is_geom2d polys /\ forall e, In e (all_segments polys) -> In e E.
Proof.
  intros HC RV H. unfold poly_cells in H. apply bind_ok in H as ((m & k) & AC & H). apply bind_ok in H as (os & GO & H).
  apply bind_ok in H as (areas & _ & H). apply bind_ok in H as (u1 & _ & H). apply bind_ok in H as (po & _ & H). apply bind_ok in H as (pairs & PR & H).
  assert (CI : Forall (cell_in (fun e => In e E)) (CellMerger.cells m)).
  { refine (add_cells_in pt_eqb pt_eqb_spec _ (fun e => In e E) _ _ _ _ _ _ _ _ AC); [constructor|]. intros c C e I. rewrite cyc_iter in I. refine (HC c _ e I). now apply in_permuted in C. }
  assert (OS : forall co, In co os -> forall e, In e (edges_iter (fst co)) -> In e E).
  { intros co I. unfold get_cells_originals in GO. apply bind_ok in GO as (? & _ & GO). injection GO as <-.
    apply in_map_iff in I as (c & <- & I). rewrite Forall_forall in CI. intros e X. apply (proj2 (CI _ I)). now rewrite cyc_iter. }
  set (n := (4 + length (a_cells a))%nat) in *. set (signed := combine areas (permuted (a_orc a n) os)) in *.
  assert (SG : forall x, In x signed -> In (snd x) os).
  { intros [ar co] I. apply in_combine_r in I. now apply in_permuted in I. }
  set (positives := map snd (filter (fun x => qltb 0 (fst x)) signed)) in *. set (negatives := map snd (filter (fun x => negb (qltb 0 (fst x))) signed)) in *.
  assert (POS : forall co, In co positives -> In co os).
  { intros co I. unfold positives in I. apply in_map_iff in I as (x & <- & I). apply filter_In in I as (I & _). auto. }
  assert (NEG : forall p, In p pairs -> exists co, In co os /\ snd p = fst co).
  { intros p I. apply mapM_ok in PR. assert (X : exists no, In no negatives /\ snd p = fst no).
    { clear -PR I. induction PR as [|no q l r H F IH]; [destruct I|]. destruct I as [->|I].
      - exists no. split; [now left|]. unfold negative_outer in H. apply bind_ok in H as (o & _ & H). destruct o; [|discriminate]. now injection H as <-.
      - destruct (IH I) as (x & A & B). exists x. split; [now right|auto]. }
    destruct X as (no & X & Y). exists no. split; auto. unfold negatives in X. apply in_map_iff in X as (x & <- & X). apply filter_In in X as (X & _). auto. }
  assert (EACH : forall s, In s polys -> spwh_ok s /\ forall e, In e (spwh_segments s) -> In e E).
  { intros s S. apply mapM_ok in H. assert (X : exists i co, In co positives /\
      Simple_Polygon_With_Holes (fst co) (map (@rev point) (permuted (a_orc a (n + 1 + i)%nat) (map snd (filter (fun p => cell_eqb (fst co) (fst p)) pairs)))) = Ok s).
    { assert (W : forall x, In x (combine (seq 0 (length positives)) positives) -> In (snd x) positives) by (intros [i co] I; now apply in_combine_r in I).
      revert W. generalize dependent (combine (seq 0 (length positives)) positives). intros L H W. induction H as [|[i co] q l r HQ F IH]; [destruct S|].
      destruct S as [->|S]; [exists i, co; split; [apply (W (i, co)); now left|auto]|apply IH; auto; intros x I; apply W; now right]. }
    destruct X as (i & co & CP & X). apply SPWH_ok in X as (R1 & R2 & ->). split; [apply spwh_ok_iff; auto|].
    intros e I. unfold spwh_segments in I. cbn [outer holes] in I. apply in_app_or in I as [I|I]; [now apply (OS co (POS co CP))|].
    apply in_flat_map in I as (h & Hh & I). apply in_map_iff in Hh as (c & <- & Hc). apply in_permuted, in_map_iff in Hc as (p & <- & Hp).
    apply filter_In in Hp as (Hp & _). destruct (NEG p Hp) as (co' & C1 & C2). rewrite C2 in I.
    rewrite edges_iter_rev in I. apply in_map_iff in I as (f & <- & I). apply (OS co' C1) in I. now apply RV in I. }
  split.
  - apply Forall_forall. intros s S. now apply EACH.
  - intros e I. apply in_flat_map in I as (s & S & I). now apply (EACH s S).
Qed.

Lemma op_at_ok gs op p b : Forall is_geom2d gs -> off_all gs p -> op_at gs op p = Ok b -> exists bs, bits gs p bs /\ op bs = b.
Proof.
  intros F O H. unfold op_at in H. apply bind_ok in H as (locs & L & H). apply bind_ok in H as (? & _ & H). injection H as <-.
  eexists. split; [|reflexivity]. apply mapM_ok in L. clear op. revert F O. induction L as [|g l gs ls HL L IH]; intros F O; [constructor|].
  inversion F; subst. cbn. constructor; [|apply IH; auto; intros x0 X; apply O; now right].
  destruct (g2_locate_ok g p) as [(E & I)|(E & I)]; auto; [apply O; now left|..]; rewrite HL in E; injection E as ->; cbn; split; auto; try discriminate; tauto.
Qed.
Lemma bits_move gs p q bs : Forall is_geom2d gs -> (forall x, on_seg (p, q) x -> off_all gs x) -> bits gs p bs -> bits gs q bs.
Proof.
  intros F O H. unfold bits in *. induction H as [|g b gs bs HG H IH]; [constructor|]. inversion F; subst. constructor.
  - rewrite HG. apply in_geom_move; auto. intros x X. apply (O x X). now left.
  - apply IH; auto. intros x X y Y. apply (O x X). now right.
Qed.
Lemma select_incl A geoms op cps cells : select_cells A geoms op cps = Ok cells -> forall c, In c cells -> exists p, In (c, p) cps.
Proof.
  revert cells. induction cps as [|[c p] cps IH]; intros cells H x X; cbn in H.
  - injection H as <-. destruct X.
  - apply bind_ok in H as (b & _ & H). apply bind_ok in H as (r & R & H). injection H as <-.
    destruct b; [destruct X as [<-|X]; [exists p; now left|]|]; destruct (IH _ R _ X) as (q & Q); exists q; now right.
Qed.

Theorem arrangement_sound orc : arr_sound (segment_arrangement orc).
Proof.
  intros geoms op r F OP H. unfold arrangement_op in H. cbn [arr_make arr_cell_points arr_poly_cells segment_arrangement arr_t arr_cell] in H.
  set (sid := flat_map all_segments geoms) in *.
  assert (ND : Forall nondeg sid).
  { apply Forall_forall. intros s S. apply in_flat_map in S as (g & Hg & S). apply is_edge_segments in S as (rg & R & E).
    rewrite Forall_forall in F. apply (proj1 (is_geom2d_rings g) (F g Hg) rg R). auto. }
  apply bind_ok in H as (a & MK & H). apply bind_ok in H as (cps & CP & H). injection CP as <-. apply bind_ok in H as (cells & SC & H).
  apply bind_ok in H as (polys & PC & H). apply bind_ok in H as (u & CK & H). injection H as ->.
  pose proof (arrangement_ok (orc sid) sid a ND MK) as AO. pose proof (ao_graph _ _ AO) as G.
  assert (OFF : forall p, off (a_half_edges a) p <-> off_all geoms p).
  { intros p. split.
    - intros O g Hg B. apply on_bd_segments in B as (s & S & OS). destruct (go_cover _ _ _ G s p) as (e & E & OE); auto; [|exact (O e E OE)].
      apply in_flat_map. eauto.
    - intros O e E OE. destruct (go_on _ _ _ G e p E OE) as (s & S & OS). apply in_flat_map in S as (g & Hg & S). apply (O g Hg). apply on_bd_segments. eauto. }
  destruct (poly_cells_edges a cells r (a_half_edges a)) as (GR & ER); auto.
  { intros c C e E. apply (select_incl (segment_arrangement orc) _ _ _ _ SC) in C as (p & C). apply in_map_iff in C as (fc & X & C). apply pair_inv in X as (<- & _).
    destruct (ao_cells _ _ AO) as (paths & PM & _ & CO). assert (S : exists p, In p paths /\ is_cell_of (a_half_edges a) p fc).
    { clear -CO C. induction CO as [|q c qs cs H CO IH]; [destruct C|]. destruct C as [->|C]; [exists q; split; [now left|auto]|].
      destruct (IH C) as (c' & A & B). exists c'. split; [now right|auto]. }
    destruct S as (path & P & _ & ED & _). rewrite PM. apply in_concat. exists path. split; auto. now rewrite <- ED. }
  { apply (bt_rv _ _ _ G). }
  assert (BR : forall p, off (a_half_edges a) p -> ~ on_bd r p).
  { intros p O B. apply on_bd_segments in B as (s & S & OS). apply (O s); auto. }
  split; auto. split.
  { intros p B O. apply (BR p); auto. now apply OFF. }
  intros p O. apply OFF in O. refine (everywhere sid a AO (fun p => in_geom r p <-> exists bs, bits geoms p bs /\ op bs = true) _ _ p _ O); clear p O.
  - intros p q FR H. rewrite <- (in_geom_move r p q GR (fun x X => BR x (FR x X))). rewrite H. split; intros (bs & B & E); exists bs; split; auto.
    + apply (bits_move geoms p q); auto. intros x X. now apply OFF, FR.
    + apply (bits_move geoms q p); auto. intros x X. apply OFF, FR. now apply on_seg_sym.
  - intros c C. apply mapM_unit in CK as (CK & _). rewrite Forall_forall in CK. specialize (CK (fc_vertices c, fc_point c)).
    cbn [snd] in CK. assert (CC : check_cell geoms op r (fc_point c) = Ok tt) by (apply CK; apply in_map_iff; eauto). clear CK.
    unfold check_cell in CC. apply bind_ok in CC as (b & B & CC). apply bind_ok in CC as (nl & NL & CC). apply passert_ok in CC.
    assert (O : off (a_half_edges a) (fc_point c)).
    { destruct (ao_cells _ _ AO) as (paths & PM & _ & CO). clear -CO C. induction CO as [|q c' qs cs H CO IH]; [destruct C|]. destruct C as [->|C]; auto.
      destruct H as (_ & _ & e & l & _ & v & t & _ & TP & -> & O). apply O; auto. apply Qcle_refl. }
    apply (op_at_ok geoms op) in B as (bs & BB & E); [|auto|now apply OFF].
    destruct (g2_locate_ok r (fc_point c) GR (BR _ O)) as [(L & I)|(L & I)]; rewrite L in NL; injection NL as <-; (destruct b; [|]); try discriminate CC.
    + split; eauto.
    + split; [tauto|]. intros (bs' & B' & E'). rewrite (bits_unique _ _ _ _ B' BB) in E'. congruence.
  - destruct (in_geoms_far geoms F) as (M & HM). destruct (in_geom_far r GR) as (M' & HM'). exists (qmax M M').
    intros p P O. assert (M < fst p /\ M' < fst p) as (P1 & P2) by (unfold qmax in P; destruct (qleb_spec M M'); split; qlra).
    split; [intros I; destruct (HM' p P2 I)|]. intros (bs & B & E). rewrite (bits_unique _ _ _ _ B (HM p P1)) in E. congruence.
Qed.
