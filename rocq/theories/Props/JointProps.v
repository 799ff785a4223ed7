(** * Fingers and sheets over the real arrangement code: C47, C48, C51, C53, C72, C73.

    The theorems of FingerProps and SheetbuildProps that are relative to a sound arrangement code, here
    for [segment_arrangement] and, for the sheets, for every history that starts in create_sheetbuild. *)
From Verif.Spec Require Import Plane Region Fingers.
From Verif.Model Require Import Arrangement2d Sheetbuild Canned.
From Verif.Proofs Require Import PyP PolyP Geom2dP Geom2dOps ExtOrd DictP Geom1dP Geom1dM SheetplexP FingerP SheetbuildP NearP ArrSoundP ArrFuelP CreateP HeuristicsP ClusterP HeuStepsP.
From Verif.Props Require Import Geom1dProps Geom2dProps SetOpsProps SheetplexProps FingerProps SheetbuildProps CannedProps.
From Coq Require Import String Permutation.
Open Scope Qc_scope.

(** ** C47 *)
(** the offsets of a joint are the least and the greatest normal coordinate of its corners, the normal
    is the direction turned by -90 degrees, and the origin is the first corner's coordinate *)
Lemma fold_qmin l : forall a, let m := fold_left qmin l a in (forall x, In x (a :: l) -> m <= x) /\ In m (a :: l).
Proof.
  induction l as [|b l IH]; intros a; cbn [fold_left]; cbv zeta.
  - split; [intros x [<-|[]]; qlra|now left].
  - destruct (IH (qmin a b)) as (L & I). set (m := fold_left qmin l (qmin a b)) in *. assert (M : qmin a b <= a /\ qmin a b <= b /\ (qmin a b = a \/ qmin a b = b)).
    { unfold qmin. destruct (qleb_spec a b); repeat split; auto; qlra. }
    destruct M as (M1 & M2 & M3). pose proof (L _ (or_introl eq_refl)) as L0. split.
    + intros x [<-|[<-|X]]; [qlra|qlra|apply L; now right].
    + cbn [In] in *. destruct I as [I|I]; [|auto]. destruct M3 as [M3|M3]; rewrite M3 in I; auto.
Qed.
Lemma fold_qmax l : forall a, let m := fold_left qmax l a in (forall x, In x (a :: l) -> x <= m) /\ In m (a :: l).
Proof.
  induction l as [|b l IH]; intros a; cbn [fold_left]; cbv zeta.
  - split; [intros x [<-|[]]; qlra|now left].
  - destruct (IH (qmax a b)) as (L & I). set (m := fold_left qmax l (qmax a b)) in *. assert (M : a <= qmax a b /\ b <= qmax a b /\ (qmax a b = a \/ qmax a b = b)).
    { unfold qmax. destruct (qleb_spec a b); repeat split; auto; qlra. }
    destruct M as (M1 & M2 & M3). pose proof (L _ (or_introl eq_refl)) as L0. split.
    + intros x [<-|[<-|X]]; [qlra|qlra|apply L; now right].
    + cbn [In] in *. destruct I as [I|I]; [|auto]. destruct M3 as [M3|M3]; rewrite M3 in I; auto.
Qed.
Theorem inter_side_frame : forall inter sheet idx d o0 os, let s := create_inter_side inter sheet idx (d, (o0, os)) in
  is_id s = (inter, sheet) /\ is_inter s = inter /\ is_sheet s = sheet /\ is_idx s = idx /\
  is_dir s = d /\ is_normal s = (snd d, - fst d) /\ dot d (is_normal s) = 0 /\ is_offs s = dot d o0 /\
  (forall o, In o (o0 :: os) -> is_min s <= dot o (is_normal s) /\ dot o (is_normal s) <= is_max s) /\
  (exists o, In o (o0 :: os) /\ is_min s = dot o (is_normal s)) /\ (exists o, In o (o0 :: os) /\ is_max s = dot o (is_normal s)).
Proof.
  intros inter sheet idx d o0 os s. set (n := (snd d, - fst d) : point).
  destruct (fold_qmin (map (fun o => dot o n) os) (dot o0 n)) as (L1 & I1). destruct (fold_qmax (map (fun o => dot o n) os) (dot o0 n)) as (L2 & I2).
  change (dot o0 n :: map (fun o => dot o n) os) with (map (fun o => dot o n) (o0 :: os)) in *.
  do 6 (split; [reflexivity|]). split. { cbn. unfold dot. cbn. ring. }
  split; [reflexivity|]. split; [intros o O; apply (in_map (fun o => dot o n)) in O; split; [exact (L1 _ O)|exact (L2 _ O)]|].
  split; [apply in_map_iff in I1 as (o & E & O); exists o; split; auto; symmetry; exact E|apply in_map_iff in I2 as (o & E & O); exists o; split; auto; symmetry; exact E].
Qed.
Print Assumptions inter_side_frame.

Theorem make_fingers_band : forall orc s w f0 f1 g, frame_ok s -> offset_at s f0 <> offset_at s f1 -> is_geom1d w ->
  make_fingers (segment_arrangement orc) s w f0 f1 = Ok g ->
  is_geom2d g /\
  (forall p, in_band s w f0 f1 p -> g2_locate g p = Ok 1%Z) /\
  (forall p, ~ on_bd g p -> (g2_locate g p = Ok 1%Z <-> in_band s w f0 f1 p)).
Proof. intros orc s w f0 f1 g. exact (make_fingers_band_rel _ s w f0 f1 g (arrangement_sound orc)). Qed.
Print Assumptions make_fingers_band.
Theorem make_fingers_ends : forall orc s w f0 f1, rot_ok s -> is_geom1d w -> make_fingers (segment_arrangement orc) s w f0 f1 <> Err OutOfFuel.
Proof.
  intros orc s w f0 f1 R W. unfold make_fingers. apply nf_bind.
  - apply nf_mapM. intros i _. destruct i as [[|a|] [|b|]]; try discriminate. cbn [finger_polygon]. unfold polygon_q. nfs; try apply nf_area; try apply nf_spwh. unfold g2_area, spwh_area. nfs; apply nf_area.
  - intros gs H. assert (F : Forall is_geom2d gs).
    { apply mapM_ok in H. clear W. induction H as [|i g w gs H1 H IH]; constructor; auto. now apply finger_frame in H1 as (G & _). }
    now apply union_any_number.
Qed.
Print Assumptions make_fingers_ends.

(** ** C48 *)
Theorem project_make_fingers : forall orc s w g, frame_ok s -> Geom2d.dot (is_dir s) (is_dir s) = 1 -> is_min s <> is_max s -> is_geom1d w ->
  make_fingers01 (segment_arrangement orc) s w = Ok g -> is_project_to_1d s g = Ok w.
Proof. intros orc s w g. exact (project_make_fingers_rel _ s w g (arrangement_sound orc)). Qed.
Print Assumptions project_make_fingers.

(** ** States reached from create_sheetbuild by choose/unchoose operations *)
Definition reached (orc : list segment -> nat -> nat -> nat) fsqrt sp rad (sb : sbuild) : Prop := let A := segment_arrangement orc in
  exists sb0 ops, create_sheetbuild A fsqrt sp rad = Ok sb0 /\ Forall sop_ok ops /\ sruns A ops sb0 = Ok sb.
Lemma reached_inv orc fsqrt sp rad sb : plex_made sp -> plex_geoms sp -> reached orc fsqrt sp rad sb -> inv2 sb /\ sb_plex sb = sp.
Proof.
  intros M PG (sb0 & ops & C & F & R). pose proof (arrangement_sound orc) as SA. destruct (create_2d _ SA fsqrt sp M PG rad sb0 C) as (I & P & _).
  destruct (sruns_2d _ sp ops sb0 sb SA M P I F R) as (I' & _ & P'). auto.
Qed.

(** ** C51 *)
Theorem sheets_monotone : forall orc fsqrt sp rad sb ops sb', plex_made sp -> plex_geoms sp -> reached orc fsqrt sp rad sb -> Forall sop_ok ops ->
  sruns (segment_arrangement orc) ops sb = Ok sb' -> exists S, forall p, off_segs S p -> forall k,
    (in_geom (geom_at (sb_schosen sb) k) p -> in_geom (geom_at (sb_schosen sb') k) p) /\
    (in_geom (geom_at (sb_schosen sb') k) p -> in_geom (geom_at (sb_schosen sb) k) p \/ in_geom (geom_at (sb_sok sb) k) p) /\
    (in_geom (geom_at (sb_sok sb') k) p -> in_geom (geom_at (sb_sok sb) k) p).
Proof.
  intros orc fsqrt sp rad sb ops sb' M PG RE F R. destruct (reached_inv _ _ _ _ _ M PG RE) as (I & P). rewrite <- P in M.
  exact (sheets_monotone_rel _ sb ops sb' (arrangement_sound orc) M I F R).
Qed.
Print Assumptions sheets_monotone.

(** ** C53 *)
Theorem choose_adds_only_ok : forall orc fsqrt sp rad sb id v t sb', plex_made sp -> plex_geoms sp -> reached orc fsqrt sp rad sb -> is_geom1d v ->
  choose_interside (segment_arrangement orc) sb id v t = Ok sb' -> exists s o, joint sp s o /\ is_id s = id /\ exists S, forall p, off_segs S p -> forall k,
    (in_geom (geom_at (sb_schosen sb') k) p <->
       in_geom (geom_at (sb_schosen sb) k) p \/ (t = false /\ k = is_sheet s /\ in_geom (geom_at (sb_sok sb) k) p /\ in_band s v 0 1 p)) /\
    (in_geom (geom_at (sb_sok sb') k) p <-> in_geom (geom_at (sb_sok sb) k) p /\ ~ (k = is_sheet o /\ in_band o v 0 1 p)).
Proof.
  intros orc fsqrt sp rad sb id v t sb' M PG RE V H. destruct (reached_inv _ _ _ _ _ M PG RE) as (I & P). rewrite <- P in *.
  destruct (choose_adds_only_ok_rel _ sb id v t sb' (arrangement_sound orc) M I V H) as (s & o & J & E & _ & S). exists s, o. auto.
Qed.
Print Assumptions choose_adds_only_ok.
Theorem removed_stays_removed : forall orc fsqrt sp rad sb id v t sb1 ops sb2, plex_made sp -> plex_geoms sp -> reached orc fsqrt sp rad sb -> is_geom1d v -> Forall sop_ok ops ->
  choose_interside (segment_arrangement orc) sb id v t = Ok sb1 -> sruns (segment_arrangement orc) ops sb1 = Ok sb2 -> exists s o, joint sp s o /\ is_id s = id /\
    forall p, in_band o v 0 1 p -> ~ on_bd (geom_at (sb_schosen sb1) (is_sheet o)) p -> ~ on_bd (geom_at (sb_schosen sb2) (is_sheet o)) p ->
      in_geom (geom_at (sb_schosen sb2) (is_sheet o)) p -> in_geom (geom_at (sb_schosen sb1) (is_sheet o)) p.
Proof.
  intros orc fsqrt sp rad sb id v t sb1 ops sb2 M PG RE V F H R. destruct (reached_inv _ _ _ _ _ M PG RE) as (I & P). rewrite <- P in *.
  exact (removed_stays_removed_rel _ sb id v t sb1 ops sb2 (arrangement_sound orc) M I V F H R).
Qed.
Print Assumptions removed_stays_removed.

(** ** C72: no material outside the slices of the model *)
Section Result.
Variable orc : list segment -> nat -> nat -> nat.
Variable fsqrt fl : Qc -> Qc.
Variable R : rng.
Variable mn mx : Qc.
Variable ord : dict string geom1d -> dict string geom1d.
Variable sord : list string -> list string.
Let A := segment_arrangement orc.
Theorem result_within_slices : forall show rof sp rad ci ok sb h, plex_made sp -> plex_geoms sp -> (forall c, Permutation c (ord c)) ->
  canned_1 A fsqrt fl R mn mx ord sord show rof sp rad ci = Ok (mkCanned ok sb h) ->
  forall k, is_geom2d (geom_at (sb_schosen sb) k) /\
    forall p, ~ on_bd (geom_at (sb_schosen sb) k) p -> ~ on_bd (slices_of sp k) p -> in_geom (geom_at (sb_schosen sb) k) p -> in_geom (slices_of sp k) p.
Proof.
  intros show rof sp rad ci ok sb h M PG O H k. destruct (canned_reaches A fsqrt fl R mn mx ord sord _ _ _ _ _ _ _ _ _ (geoms_closed A fsqrt) M O H) as (sb0 & sb1 & C & SS & sok & -> & _).
  pose proof (arrangement_sound orc) as SA. destruct (create_2d _ SA fsqrt sp M PG rad sb0 C) as (I & P & S & HS). destruct (ssteps_2d _ sp sb0 sb1 SA M PG P I SS) as (I1 & (S1 & MV) & _).
  cbn [with_sok sb_schosen]. split; [apply I1|]. intros p N1 N2 X.
  destruct (near_point p [geom_at (sb_schosen sb1) k; slices_of sp k] (S ++ S1)) as (q & Qs & Qg).
  - repeat constructor; [apply I1|apply slices_geom; auto].
  - intros g [<-|[<-|[]]]; auto.
  - apply off_segs_app in Qs as (Q1 & Q2). apply (proj2 (Qg _ (or_intror (or_introl eq_refl)))). apply (proj2 (Qg _ (or_introl eq_refl))) in X.
    destruct (HS q Q1) as (H1 & H2 & _). destruct (MV q Q2 k) as (_ & _ & MC). apply MC in X as [X|X]; auto.
Qed.

(** ** C73: where the material of the result comes from *)
(** [p] is at a position of the joint that the side [s] has chosen, strictly between its two edges *)
Definition in_finger (sb : sbuild) (s : interside) (p : point) : Prop :=
  pts (chosen_of sb (is_id s)) (along s p) /\ strictly_between (offset_at s 0) (across s p) (offset_at s 1).
Lemma chosen_grow Kc sp a b : plex_made sp -> legal sp a -> ssteps A Kc a b -> forall id x, pts (chosen_of a id) x -> pts (chosen_of b id) x.
Proof.
  intros M L H. induction H as [|x y z S IH T]; intros id w W; auto. specialize (IH L id w W). pose proof (legal_steps A sp M _ _ L S) as Ly. clear -IH T Ly M.
  destruct T as [sb i v t sb' V H|sb i v sb' V H|sb i v iok V H|sb k a sok _ _]; auto.
  - apply choose_inv in H as (s & o & [C1 C2 C3 _ _ _ _ (r & Rr & RE) _]). destruct Ly as [P Hh N D]. rewrite P in *. destruct (made_interside _ _ _ M C1) as (Hs & <-).
    rewrite (chosen_dset _ _ _ _ id RE). destruct (eqb_case _ id2_eqb_ok id (is_id s)) as [(-> & ->)|(-> & _)]; auto.
    change (g_or (chosen_of sb (is_id s)) v = Ok r) in Rr. destruct (N (is_id s)) as (Nc & _). apply is_geom1d_normal in Nc, V. apply (or_pts _ _ _ _ Nc V Rr). auto.
  - apply unchoose_inv in H as (s & [C1 C2 _ _ _ C6 _]). unfold chosen_of in *. now rewrite C6.
Qed.
Lemma inside1_pts w x : inside1 w x -> pts w x.
Proof. intros (i & I & H1 & H2). exists i. split; auto. split; auto. destruct i as [[|a|] b]; cbn in *; auto. unfold ele, elt in *. qlra. Qed.
Lemma material_step sp sb sb' : plex_made sp -> plex_geoms sp -> legal sp sb -> inv2 sb -> sstep A (geoms_of A) sb sb' -> exists S, forall p, off_segs S p -> forall k,
  in_geom (geom_at (sb_schosen sb') k) p -> in_geom (geom_at (sb_schosen sb) k) p \/ exists s, side_of sp s /\ is_sheet s = k /\ in_finger sb' s p.
Proof.
  intros M PG L G T. pose proof (arrangement_sound orc) as SA. pose proof (iv_plex _ _ L) as P.
  destruct T as [sb i v t sb' V H|sb i v sb' V H|sb i v iok V H|sb k a sok _ _]; try (exists []; intros p _ j X; now left).
  - pose proof H as H'. apply choose_inv in H' as (s & o & CD). destruct (choose_2d A sp sb i v t sb' s o SA M P G V CD) as (G' & S & fs & fo & Gs & _ & _ & Es & HS).
    destruct CD as [C1 C2 C3 _ _ _ _ (r & Rr & RE) _]. rewrite P in *. destruct (made_interside _ _ _ M C1) as (Hs & <-). exists (S ++ all_segments fs). intros p Hp k X. apply off_segs_app in Hp as (P1 & P2).
    apply (proj1 (HS p P1) k) in X as [X|(Et & -> & _ & X)]; auto. right. exists s. split; auto. split; auto. pose proof (is_geom1d_normal _ V) as NV.
    destruct (fingers_any A s v 0 1 fs SA (made_rot _ _ M Hs) NV (Es Et)) as (_ & _ & Pf). apply Pf in X as (X1 & X2); [|intros Y; apply on_bd_segments in Y as (e & E & Y); exact (P2 e E Y)].
    split; auto. rewrite (chosen_dset _ _ _ _ (is_id s) RE), (DictP.eqb_refl _ id2_eqb_ok). change (g_or (chosen_of sb (is_id s)) v = Ok r) in Rr.
    pose proof (proj1 (iv_normal _ _ L (is_id s))) as Nc. apply is_geom1d_normal in Nc. apply (or_pts _ _ _ _ Nc NV Rr). right. now apply inside1_pts.
  - apply unchoose_inv in H as (s & [C1 C2 _ C4 C5 _ _]). exists []. intros p _ k. rewrite C4. auto.
Qed.
Lemma material_steps sp sb0 sb : plex_made sp -> plex_geoms sp -> legal sp sb0 -> inv2 sb0 -> ssteps A (geoms_of A) sb0 sb -> exists S, forall p, off_segs S p -> forall k,
  in_geom (geom_at (sb_schosen sb) k) p -> in_geom (geom_at (sb_schosen sb0) k) p \/ exists s, side_of sp s /\ is_sheet s = k /\ in_finger sb s p.
Proof.
  intros M PG L G H. induction H as [|x y z S IH T]; [exists []; auto|]. destruct (IH L G) as (S1 & H1). pose proof (legal_steps A sp M _ _ L S) as Ly.
  destruct (ssteps_2d A sp x y (arrangement_sound orc) M PG (iv_plex _ _ L) G S) as (Gy & _). destruct (material_step sp y z M PG Ly Gy T) as (S2 & H2).
  exists (S1 ++ S2). intros p Hp k X. apply off_segs_app in Hp as (P1 & P2). apply (H2 p P2 k) in X as [X|X]; auto. apply (H1 p P1 k) in X as [X|(s & Hs & Ek & X1 & X2)]; auto.
  right. exists s. split; auto. split; auto. split; auto. exact (chosen_grow _ sp y z M Ly (ss_one _ _ _ _ T) _ _ X1).
Qed.
Theorem result_material : forall show rof sp rad ci ok sb h, plex_made sp -> plex_geoms sp -> (forall c, Permutation c (ord c)) ->
  canned_1 A fsqrt fl R mn mx ord sord show rof sp rad ci = Ok (mkCanned ok sb h) ->
  exists sb0 S, create_sheetbuild A fsqrt sp rad = Ok sb0 /\ forall p, off_segs S p ->
    (forall k, in_geom (geom_at (sb_schosen sb0) k) p -> in_geom (geom_at (sb_schosen sb) k) p) /\
    (forall k, in_geom (geom_at (sb_schosen sb) k) p -> in_geom (geom_at (sb_schosen sb0) k) p \/ exists s, side_of sp s /\ is_sheet s = k /\ in_finger sb s p) /\
    (forall s, side_of sp s -> in_band s (ok_of sb0 (is_id s)) 0 1 p -> ~ in_geom (geom_at (sb_schosen sb0) (is_sheet s)) p).
Proof.
  intros show rof sp rad ci ok sb h M PG O H. destruct (canned_reaches A fsqrt fl R mn mx ord sord _ _ _ _ _ _ _ _ _ (geoms_closed A fsqrt) M O H) as (sb0 & sb1 & C & SS & sok & -> & _).
  pose proof (arrangement_sound orc) as SA. pose proof (proj1 (create_inv1 _ _ _ _ _ M C)) as L. destruct (create_2d _ SA fsqrt sp M PG rad sb0 C) as (I & P & S & HS).
  destruct (ssteps_2d _ sp sb0 sb1 SA M PG P I SS) as (I1 & (S1 & MV) & _). destruct (material_steps sp sb0 sb1 M PG L I SS) as (S2 & MS).
  exists sb0, (S ++ S1 ++ S2). split; auto. intros p Hp. apply off_segs_app in Hp as (P0 & Hp). apply off_segs_app in Hp as (P1 & P2). cbn [with_sok sb_schosen]. split; [|split].
  - intros k. apply (MV p P1 k).
  - exact (MS p P2).
  - apply (HS p P0).
Qed.
End Result.
Print Assumptions result_within_slices.
Print Assumptions result_material.
