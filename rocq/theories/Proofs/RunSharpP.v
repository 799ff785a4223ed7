(** * Runs of the program only make slit-free geometries *)
From Verif.Spec Require Import Plane Region PointSet1 Fingers Crisp.
From Verif.Model Require Import SegmentTree CellMerger Arrangement2d Geom2d Sheetplex Sheetbuild Heuristics.
From Verif.Proofs Require Import PyP PolyP ExtOrd DictP Geom1dP Geom1dM Geom2dP Geom2dOps ArrSoundP SheetplexP FingerP SheetbuildP CreateP HeuStepsP CrispP CrispQ CoverP RibbonP BufSharpP BufSharpQ.
From Verif.Props Require Import Geom1dProps Primitive2dProps SheetplexProps Geom2dProps SetOpsProps AreaProps CrispProps BufferExactProps BufferSharpProps.
From Coq Require Import String.
Open Scope Qc_scope.

(** ** fingers *)
Lemma vertices4_clean c0 c1 c2 c3 : vadd c0 c2 = vadd c1 c3 -> area_of [c0; c1; c2; c3] <> 0 -> clean [c0; c1; c2; c3].
Proof.
  intros E NZ. apply forward_clean.
  assert (E3 : c3 = vadd (vadd c1 (vsub c2 c1)) (vsub c0 c1)).
  { destruct c0, c1, c2, c3. unfold vadd, vsub in *. cbn [fst snd] in *. apply pair_inv in E as (E1 & E2). f_equal; qlra. }
  assert (X : cross (vsub c2 c1) (vsub c0 c1) <> 0).
  { intros X. apply NZ. rewrite E3, (area_of_fan c1). unfold fan2, cyclic_pairs, qsum. cbn [map combine app fold_right fst snd].
    transitivity (- (qq 1 2 * (cross (vsub c2 c1) (vsub c0 c1) + cross (vsub c2 c1) (vsub c0 c1)))); [|rewrite X; ring]. f_equal. f_equal.
    destruct c0, c1, c2. unfold orient, cross, vadd, vsub. cbn [fst snd]. ring. }
  pose proof (quad_forward c1 (vsub c2 c1) (vsub c0 c1) X) as Q. rewrite <- E3 in Q.
  replace (vadd c1 (vsub c0 c1)) with c0 in Q by (vring). replace (vadd c1 (vsub c2 c1)) with c2 in Q by (vring). exact Q.
Qed.
Lemma finger_para s f0 f1 a b : vadd (finger_coord s f0 f1 a 0) (finger_coord s f0 f1 b 1) = vadd (finger_coord s f0 f1 a 1) (finger_coord s f0 f1 b 0).
Proof.
  unfold finger_coord, padd, pscale, vadd. set (x0 := is_min s + _ * (_ + _ * 0)). set (x1 := is_min s + _ * (_ + _ * 1)). generalize x0, x1, (a + is_offs s), (b + is_offs s), (is_dir s), (is_normal s).
  clear. intros x0 x1 y0 y1 [d0 d1] [n0 n1]. apply injective_projections; cbn [fst snd]; ring.
Qed.
Lemma polygon_neat l g : clean l -> polygon_q true l = Ok g -> neat g.
Proof.
  intros C H. split; [exact (proj1 (polygon_q_ok l g H))|].
  unfold polygon_q in H. apply bind_ok in H as (ar & _ & H). apply bind_ok in H as (w & H2 & H). apply bind_ok in H as (u & _ & H). apply bind_ok in H as (u' & _ & H). apply Ok_inv in H as <-.
  apply SPWH_ok in H2 as (_ & _ & ->). apply single_clean. destruct (qltb _ _); [now apply clean_rev|exact C].
Qed.
Lemma finger_neat s f0 f1 i g : finger_polygon s f0 f1 i = Ok g -> neat g.
Proof.
  destruct i as [[|a|] [|b|]]; cbn [finger_polygon]; try discriminate. pose proof (finger_para s f0 f1 a b) as P.
  set (c0 := finger_coord s f0 f1 a 0) in *. set (c1 := finger_coord s f0 f1 a 1) in *. set (c2 := finger_coord s f0 f1 b 1) in *. set (c3 := finger_coord s f0 f1 b 0) in *. clearbody c0 c1 c2 c3.
  intros H. refine (polygon_neat _ g (vertices4_clean c0 c1 c2 c3 P _) H). exact (proj2 (polygon_q_ok _ g H)).
Qed.

Section Run.
Variable orc : list segment -> nat -> nat -> nat.
Variable fsqrt : Qc -> Qc.
Hypothesis F1 : 0 < fsqrt 1.
Hypothesis F2 : fsqrt 1 < fsqrt (zq 2).
Hypothesis F3 : fsqrt (zq 2) < zq 2 * fsqrt 1.
Let A := segment_arrangement orc.

Lemma fingers_sharp s w g : make_fingers01 A s w = Ok g -> sharp g.
Proof.
  unfold make_fingers01, make_fingers. intros H. apply bind_ok in H as (gs & H1 & H).
  assert (F : Forall neat gs). { apply mapM_ok in H1. clear H. induction H1 as [|i x l l' E L IH]; [constructor|]. constructor; [exact (finger_neat _ _ _ _ _ E)|exact IH]. }
  unfold g2_union in H. destruct (Nat.ltb_spec UNION_N (List.length gs)) as [LT|_].
  - apply (tree_neat orc) in H; auto. apply H. unfold UNION_N in LT. lia.
  - destruct (neat_both gs F) as (G1 & G2). refine (arrangement_sharp orc gs _ g G1 G2 _ H). apply any_none.
Qed.
Lemma neat_pair a b : neat a -> neat b -> Forall is_geom2d [a; b] /\ Forall clean_geom [a; b].
Proof. intros (G1 & C1) (G2 & C2). auto. Qed.
Lemma and_neat a b r : neat a -> neat b -> g2_and A a b = Ok r -> sharp r.
Proof. intros N1 N2 H. destruct (neat_pair a b N1 N2) as (G & C). refine (arrangement_sharp orc _ _ r G C _ H). reflexivity. Qed.
Lemma or_neat a b r : neat a -> neat b -> g2_or A a b = Ok r -> neat r.
Proof.
  intros N1 N2 H. unfold g2_or in H. destruct (g2_is_empty a); [now apply Ok_inv in H as <-|]. destruct (g2_is_empty b); [now apply Ok_inv in H as <-|].
  destruct (neat_pair a b N1 N2) as (G & C). apply sharp_neat. refine (arrangement_sharp orc _ _ r G C _ H). reflexivity.
Qed.
Lemma sub_keep (Q : geom2d -> Prop) a b r : (forall g, sharp g -> Q g) -> Q a -> neat a -> neat b -> g2_sub A a b = Ok r -> Q r.
Proof.
  intros SQ Qa N1 N2 H. unfold g2_sub in H. destruct (g2_is_empty b); [now apply Ok_inv in H as <-|].
  destruct (neat_pair a b N1 N2) as (G & C). apply SQ. refine (arrangement_sharp orc _ _ r G C _ H). reflexivity.
Qed.
Lemma sub_neat a b r : neat a -> neat b -> g2_sub A a b = Ok r -> neat r.
Proof. intros N1 N2. apply sub_keep; auto using sharp_neat. Qed.
Lemma sub_sharp_neat a b r : sharp a -> neat b -> g2_sub A a b = Ok r -> sharp r.
Proof. intros S N. apply sub_keep; auto using sharp_neat. Qed.
Lemma buffer_keep (Q : geom2d -> Prop) g a r : (forall g, sharp g -> Q g) -> Q g -> neat g -> g2_buffer A fsqrt g a = Ok r -> Q r.
Proof.
  intros SQ Qg (G & C) H. destruct (pval a) as [[|q|]|] eqn:V.
  - unfold g2_buffer in H. rewrite V in H. apply bind_ok in H as (x & X & _). destruct a; cbn in V, X; try discriminate.
  - destruct (qeqb_spec q 0) as [->|N].
    + unfold g2_buffer in H. rewrite V in H. destruct (qeqb_spec 0 0) as [_|N]; [apply Ok_inv in H as <-; exact Qg|tauto].
    + apply SQ. exact (proj1 (buffer_sharp orc fsqrt g a q r F1 F2 F3 H V) G C N).
  - unfold g2_buffer in H. rewrite V in H. apply bind_ok in H as (x & X & _). destruct a; cbn in V, X; try discriminate.
  - unfold g2_buffer in H. rewrite V in H. apply bind_ok in H as (x & X & _). destruct a; cbn in V, X; try discriminate.
Qed.
Lemma buffer_neat g a r : neat g -> g2_buffer A fsqrt g a = Ok r -> neat r.
Proof. intros N. apply buffer_keep; auto using sharp_neat. Qed.
Lemma neat_nil : neat [].
Proof. apply sharp_neat, sharp_nil. Qed.
Lemma neat_part g w : neat g -> In w g -> neat [w].
Proof.
  intros (G & C) I. split; [constructor; [exact (proj1 (Forall_forall _ _) G w I)|constructor]|].
  intros r (s & [<-|[]] & Hr). apply C. exists w. auto.
Qed.
Lemma neat_closed : op_closed A fsqrt neat.
Proof.
  constructor.
  - exact neat_nil.
  - exact neat_part.
  - exact or_neat.
  - intros a b r N1 N2 H. apply sharp_neat. exact (and_neat a b r N1 N2 H).
  - exact sub_neat.
  - exact buffer_neat.
  - intros s w g _ _ H. apply sharp_neat. exact (fingers_sharp s w g H).
Qed.

End Run.

(** ** the invariant: anything that holds of the empty geometry and of every result of the arrangement *)
Section Made.
Variable orc : list segment -> nat -> nat -> nat.
Variable fsqrt : Qc -> Qc.
Hypothesis F1 : 0 < fsqrt 1.
Hypothesis F2 : fsqrt 1 < fsqrt (zq 2).
Hypothesis F3 : fsqrt (zq 2) < zq 2 * fsqrt 1.
Let A := segment_arrangement orc.
Variable Q : geom2d -> Prop.
Hypothesis Q_nil : Q [].
Hypothesis Q_neat : forall g, Q g -> neat g.
Hypothesis Q_op : forall gs op r, Forall is_geom2d gs -> Forall clean_geom gs -> op (map (fun _ => false) gs) = false -> arrangement_op A gs op = Ok r -> Q r.

Lemma fingers_made s w g : make_fingers01 A s w = Ok g -> Q g.
Proof.
  unfold make_fingers01, make_fingers. intros H. apply bind_ok in H as (gs & H1 & H).
  assert (F : Forall neat gs). { apply mapM_ok in H1. clear H. induction H1 as [|i x l l' E L IH]; [constructor|]. constructor; [exact (finger_neat _ _ _ _ _ E)|exact IH]. }
  unfold g2_union in H. destruct (Nat.ltb_spec UNION_N (List.length gs)) as [LT|_].
  - apply (tree_made orc Q Q_op) in H; auto. apply H. unfold UNION_N in LT. lia.
  - destruct (neat_both gs F) as (G1 & G2). refine (Q_op gs _ g G1 G2 _ H). apply any_none.
Qed.
Lemma and_made a b r : neat a -> neat b -> g2_and A a b = Ok r -> Q r.
Proof. intros N1 N2 H. destruct (neat_pair a b N1 N2) as (G & C). refine (Q_op _ _ r G C _ H). reflexivity. Qed.
Lemma or_made a b r : Q a -> Q b -> g2_or A a b = Ok r -> Q r.
Proof.
  intros N1 N2 H. unfold g2_or in H. destruct (g2_is_empty a); [now apply Ok_inv in H as <-|]. destruct (g2_is_empty b); [now apply Ok_inv in H as <-|].
  destruct (neat_pair a b (Q_neat _ N1) (Q_neat _ N2)) as (G & C). refine (Q_op _ _ r G C _ H). reflexivity.
Qed.
Lemma sub_made a b r : Q a -> neat b -> g2_sub A a b = Ok r -> Q r.
Proof.
  intros Qa N2 H. unfold g2_sub in H. destruct (g2_is_empty b); [now apply Ok_inv in H as <-|].
  destruct (neat_pair a b (Q_neat _ Qa) N2) as (G & C). refine (Q_op _ _ r G C _ H). reflexivity.
Qed.
Lemma union_made gs r : Forall Q gs -> g2_union A gs = Ok r -> Q r.
Proof.
  intros F H. assert (F' : Forall neat gs) by (eapply Forall_impl; [|exact F]; exact Q_neat). unfold g2_union in H. destruct (Nat.ltb_spec UNION_N (List.length gs)) as [LT|_].
  - apply (tree_made orc Q Q_op) in H; auto. apply H. unfold UNION_N in LT. lia.
  - destruct (neat_both gs F') as (G1 & G2). refine (Q_op gs _ r G1 G2 _ H). apply any_none.
Qed.
Lemma buffer_op g a q r : neat g -> pval a = Some (Fin q) -> q <> 0 -> g2_buffer A fsqrt g a = Ok r -> Q r.
Proof.
  intros G V N R. assert (P1 : fsqrt 1 <> 0) by (intros E; rewrite E in F1; qlra). assert (P2 : fsqrt (zq 2) <> 0) by (intros E; rewrite E in F2; qlra).
  destruct (buffer_setup orc fsqrt g a q r (qabs q / fsqrt 1) (qabs q / fsqrt (zq 2)) F1 F2 F3 (qdiv_mul _ _ P1) (qdiv_mul _ _ P2) R V N) as (B0 & AB & A2 & L & M).
  refine (proj2 (mink_made _ _ B0 AB A2 orc Q Q_nil Q_op 2 g _ r G L _ M)). destruct (qltb 0 q); auto.
Qed.
Lemma buffer_made g a r : Q g -> g2_buffer A fsqrt g a = Ok r -> Q r.
Proof.
  intros Qg H. destruct (pval a) as [[|q|]|] eqn:V; try (unfold g2_buffer in H; rewrite V in H; apply bind_ok in H as (x & X & _); destruct a; cbn in V, X; discriminate).
  destruct (qeqb_spec q 0) as [->|N]; [|exact (buffer_op g a q r (Q_neat _ Qg) V N H)].
  unfold g2_buffer in H. rewrite V in H. destruct (qeqb_spec 0 0) as [_|N]; [apply Ok_inv in H as <-; exact Qg|tauto].
Qed.
Lemma states_neat sb : state_in Q sb -> state_in neat sb.
Proof. intros S k. destruct (S k). auto using Q_neat. Qed.
Lemma sstep_made sb sb' : plex_in neat (sb_plex sb) -> state_in Q sb -> sstep A neat sb sb' -> state_in Q sb'.
Proof.
  intros PN S T. destruct T as [sb id v t sb' V H|sb id v sb' V H|sb id v iok V H|sb k a sok GA H].
  - apply choose_inv in H as (s & o & [_ _ _ _ _ (E1 & E2) (fo & ko & ro & Fo & Ko & Ro & EO) _ _]). intros j. split.
    + destruct t; [rewrite E1; auto; apply S|]. destruct (E2 eq_refl) as (f & k & x & r & Ff & K & X & R & ->). rewrite geom_at_dset. destruct (String.eqb j (is_sheet s)); [|apply S].
      apply or_made in R; auto; [apply (S (is_sheet s))|]. apply (and_made f k x); auto; [apply Q_neat; exact (fingers_made _ _ _ Ff)|]. rewrite <- (geom_at_get _ _ _ K). apply Q_neat, S.
    + rewrite EO, geom_at_dset. destruct (String.eqb j (is_sheet o)); [|apply S]. apply (sub_made ko fo ro); auto; [|apply Q_neat; exact (fingers_made _ _ _ Fo)]. rewrite <- (geom_at_get _ _ _ Ko). apply S.
  - apply unchoose_inv in H as (s & [_ _ _ E4 E5 _ _]). intros j. rewrite E4, E5. apply S.
  - exact S.
  - specialize (GA PN (states_neat _ S)). apply msub2_ok in H as (x & r & D & R & ->). intros j. cbn [sb_schosen sb_sok]. split; [apply S|]. rewrite geom_at_dset. destruct (String.eqb j k); [|apply S].
    apply (sub_made x a r); auto. rewrite <- (geom_at_get _ _ _ D). apply S.
Qed.
Lemma ssteps_made sp sb sb' : plex_made sp -> plex_in neat sp -> legal sp sb -> state_in Q sb -> ssteps A neat sb sb' -> state_in Q sb'.
Proof.
  intros M PN L S H. induction H as [|x y z T IH U]; auto. pose proof (inv1_steps A neat sp x y M L T) as Ly. apply (sstep_made y z); auto. now rewrite (iv_plex _ _ Ly).
Qed.
Lemma create_made sp rad sb : plex_in neat sp -> create_sheetbuild A fsqrt sp rad = Ok sb -> state_in Q sb.
Proof.
  intros PN H. apply create_parts in H as (sc0 & iok & E1 & E2 & _ & _ & _ & E5 & _).
  assert (V : forall sh, In sh (values (sp_sheets sp)) -> neat (sh_face0 sh) /\ neat (sh_face1 sh) /\ neat (sh_slices_max sh)) by (intros sh I; apply in_map_iff in I as ((k & x) & <- & I); exact (PN k x I)).
  pose proof (dict_of_get _ string_eqb_ok _ _ _ _ _ E1) as (_ & D1). pose proof (dict_of_get _ string_eqb_ok _ _ _ _ _ E2) as (_ & D2).
  assert (S0 : forall k, Q (geom_at sc0 k)).
  { intros k. unfold geom_at. destruct (dget String.eqb k sc0) as [g|] eqn:E; [|apply Q_nil]. cbn [opt]. apply D1 in E as [E|(sh & I & <- & E)]; [discriminate|]. destruct (V sh I) as (N0 & N1 & N2).
    unfold init_chosen in E. apply bind_ok in E as (b & B1 & E). apply bind_ok in E as (b' & B2 & E). apply bind_ok in E as (m & B3 & E).
    apply (and_made b' m g); auto; [|exact ((buffer_neat orc fsqrt F1 F2 F3) _ _ _ N2 B3)]. refine ((buffer_neat orc fsqrt F1 F2 F3) _ _ _ _ B2). apply Q_neat. exact (and_made _ _ _ N0 N1 B1). }
  assert (S1 : forall k, Q (geom_at (sb_sok sb) k)).
  { intros k. unfold geom_at. destruct (dget String.eqb k (sb_sok sb)) as [g|] eqn:E; [|apply Q_nil]. cbn [opt]. apply D2 in E as [E|(sh & I & <- & E)]; [discriminate|]. destruct (V sh I) as (N0 & N1 & N2).
    unfold init_ok in E. apply bind_ok in E as (b & B1 & E). apply bind_ok in E as (b' & B2 & E). apply bind_ok in E as (m & B3 & E). apply bind_ok in E as (m' & B4 & E).
    apply (and_made m m' g); auto; [|exact ((buffer_neat orc fsqrt F1 F2 F3) _ _ _ N2 B4)]. apply Q_neat. exact (and_made _ _ _ ((buffer_neat orc fsqrt F1 F2 F3) _ _ _ N0 B1) ((buffer_neat orc fsqrt F1 F2 F3) _ _ _ N1 B2) B3). }
  assert (C : forall l sc sc', (forall k, Q (geom_at sc k)) -> foldM (carve A sp) l sc = Ok sc' -> forall k, Q (geom_at sc' k)).
  { induction l as [|e l IH]; intros sc sc' S H; cbn [foldM] in H; [now apply Ok_inv in H as <-|]. apply bind_ok in H as (m & H1 & H). apply (IH m sc'); auto. clear H IH. intros k.
    unfold carve in H1. apply bind_ok in H1 as (s & _ & H1). apply bind_ok in H1 as (c & C & H1). apply bind_ok in H1 as (f & F & H1). apply bind_ok in H1 as (d & D & H1). apply Ok_inv in H1 as <-.
    rewrite geom_at_dset. destruct (String.eqb k (is_sheet s)); auto. apply dgetr_ok in C. refine (sub_made c f d _ (Q_neat _ (fingers_made _ _ _ F)) D). rewrite <- (geom_at_get _ _ _ C). apply S. }
  intros k. split; [|apply S1]. exact (C _ _ _ S0 E5 k).
Qed.
Lemma clean_up_made sb ci sb' ci' : state_in Q sb -> clean_up_thin_ok_parts A fsqrt (sb, ci) = Ok (sb', ci') -> state_in Q sb'.
Proof.
  intros S H. unfold clean_up_thin_ok_parts in H. apply bind_ok in H as (sok & H & E). apply Ok_inv, pair_inv in E as (<- & _). intros k. cbn [with_sok sb_schosen sb_sok]. split; [apply S|].
  assert (C : forall l m m', (forall k, Q (geom_at m k)) -> foldM (clean_sheet A fsqrt sb) l m = Ok m' -> forall k, Q (geom_at m' k)).
  { induction l as [|e l IH]; intros m m' Sm Hm; cbn [foldM] in Hm; [now apply Ok_inv in Hm as <-|]. apply bind_ok in Hm as (m1 & H1 & Hm). apply (IH m1 m'); auto. clear Hm IH H. intros j.
    unfold clean_sheet in H1. apply bind_ok in H1 as (c & C & H1). apply bind_ok in H1 as (o & O & H1). apply bind_ok in H1 as (o1 & O1 & H1). apply bind_ok in H1 as (o2 & O2 & H1). apply bind_ok in H1 as (o3 & O3 & H1). apply Ok_inv in H1 as <-.
    rewrite geom_at_dset. destruct (String.eqb j (sh_id e)); auto. apply dgetr_ok in C, O. apply geom_at_get in C, O.
    assert (So : Q o) by (rewrite <- O; apply S). assert (Sc : Q c) by (rewrite <- C; apply S).
    assert (So1 : Q o1) by exact (buffer_made _ _ _ So O1).
    assert (So2 : Q o2) by exact (buffer_made _ _ _ So1 O2). exact (or_made _ _ _ So2 Sc O3). }
  exact (C _ _ _ (fun k => proj2 (S k)) H k).
Qed.
End Made.
Section Sharp.
Variable orc : list segment -> nat -> nat -> nat.
Variable fsqrt : Qc -> Qc.
Hypothesis F1 : 0 < fsqrt 1.
Hypothesis F2 : fsqrt 1 < fsqrt (zq 2).
Hypothesis F3 : fsqrt (zq 2) < zq 2 * fsqrt 1.
Let A := segment_arrangement orc.
Lemma ssteps_sharp sp sb sb' : plex_made sp -> plex_in neat sp -> legal sp sb -> state_in sharp sb -> ssteps A neat sb sb' -> state_in sharp sb'.
Proof. apply ssteps_made; [exact sharp_neat|exact (arrangement_sharp orc)]. Qed.
Lemma create_sharp sp rad sb : plex_in neat sp -> create_sheetbuild A fsqrt sp rad = Ok sb -> state_in sharp sb.
Proof. apply create_made; auto; [exact sharp_nil|exact sharp_neat|exact (arrangement_sharp orc)]. Qed.
Lemma clean_up_sharp sb ci sb' ci' : state_in sharp sb -> clean_up_thin_ok_parts A fsqrt (sb, ci) = Ok (sb', ci') -> state_in sharp sb'.
Proof. apply clean_up_made; auto; [exact sharp_nil|exact sharp_neat|exact (arrangement_sharp orc)]. Qed.
End Sharp.
