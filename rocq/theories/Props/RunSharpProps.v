(** * The sheets of a run, boundaries included: C97, C98. *)
From Verif.Spec Require Import Plane Region PointSet1 Fingers Crisp.
From Verif.Model Require Import SegmentTree CellMerger Arrangement2d Geom2d Sheetplex Sheetbuild Heuristics Canned.
From Verif.Proofs Require Import PyP PolyP WindingP WindingQ WindingR PlanarP ExtOrd DictP Geom1dP Geom1dM NearP Geom2dP Geom2dOps ArrSoundP ReachP SheetplexP FingerP SheetbuildP CreateP HeuristicsP ClusterP HeuStepsP CrispP CrispQ CoverP RibbonP BufSharpP BufSharpQ RunSharpP.
From Verif.Props Require Import Geom1dProps Primitive2dProps SheetplexProps Geom2dProps SetOpsProps AreaProps CannedProps CrispProps BufferExactProps BufferSharpProps JointProps.
From Coq Require Import String Permutation.
Open Scope Qc_scope.

(** ** comparing slit-free geometries *)
Lemma near_off p eps g (S : list segment) : 0 < eps -> is_geom2d g -> ~ on_bd g p -> exists q, near eps p q /\ (in_geom g p <-> in_geom g q) /\ off_segs S q.
Proof.
  intros P G B. destruct (near_generic_eps p eps (all_segments g) S P) as (q & N & A1 & A2).
  { intros s Hs O. apply B. apply on_bd_segments. eauto. }
  exists q. split; auto. split; [|exact A2]. apply in_geom_move; auto. intros x X Y. apply on_bd_segments in Y as (s & Hs & Y). apply (A1 s x); auto.
Qed.
Lemma differ_near a b p x y : sharp a -> sharp b -> g2_locate a p = Ok x -> g2_locate b p = Ok y -> (x < y)%Z ->
  forall S eps, 0 < eps -> exists q, near eps p q /\ off_segs S q /\ in_geom b q /\ ~ in_geom a q.
Proof.
  intros (Ga & Ca & _) (Gb & Cb & _) X Y LT S eps E.
  assert (MIN : forall e, 0 < e -> exists e', 0 < e' /\ 0 < e' * qq 1 2 /\ e' <= e /\ e' <= eps).
  { intros e He. destruct (qmin_spec e eps) as (M1 & M2 & M3). exists (qmin e eps). split; auto. split; [apply mpp; [auto|vm_compute; reflexivity]|auto]. }
  destruct (crisp_locates b p Gb Cb) as [(Lb & Bb)|[(Lb & Bb & Ib)|(Lb & Bb & Ib)]]; rewrite Lb in Y; apply Ok_inv in Y as <-.
  - destruct (crisp_locates a p Ga Ca) as [(La & Ba)|[(La & Ba & Ia)|(La & Ba & Ia)]]; rewrite La in X; apply Ok_inv in X as <-; try lia.
    destruct (bd_away a p Ga Ba) as (e & He & AW). destruct (MIN e He) as (e' & P1 & P2 & Q1 & Q2). destruct (Cb p _ Bb P2) as ((q & N & Nb & I) & _).
    destruct (near_off q _ b S P2 Gb Nb) as (q' & N' & I' & O). pose proof (near_trans _ _ _ _ N N') as NT. exists q'. split; [exact (near_mono _ _ _ _ Q2 NT)|]. split; auto. split; [tauto|].
    intros J. apply Ia. apply (AW q'); auto. exact (near_mono _ _ _ _ Q1 NT).
  - destruct (bd_away b p Gb Bb) as (e & He & AW). destruct (MIN e He) as (e' & P1 & P2 & Q1 & Q2).
    destruct (crisp_locates a p Ga Ca) as [(La & Ba)|[(La & Ba & Ia)|(La & Ba & Ia)]]; rewrite La in X; apply Ok_inv in X as <-; try lia.
    + destruct (Ca p _ Ba P2) as (_ & q & N & Na & I). destruct (near_off q _ a S P2 Ga Na) as (q' & N' & I' & O). pose proof (near_trans _ _ _ _ N N') as NT.
      exists q'. split; [exact (near_mono _ _ _ _ Q2 NT)|]. split; auto. split; [|tauto]. apply (AW q'); auto. exact (near_mono _ _ _ _ Q1 NT).
    + destruct (near_off p _ a S P1 Ga Ba) as (q' & N' & I' & O). exists q'. split; [exact (near_mono _ _ _ _ Q2 N')|]. split; auto. split; [|tauto]. apply (AW q'); auto. exact (near_mono _ _ _ _ Q1 N').
  - destruct (crisp_locates a p Ga Ca) as [(La & Ba)|[(La & Ba & Ia)|(La & Ba & Ia)]]; rewrite La in X; apply Ok_inv in X as <-; lia.
Qed.
Lemma sharp_locate g p : sharp g -> exists x, g2_locate g p = Ok x.
Proof. intros (G & C & _). destruct (crisp_locates g p G C) as [(? & _)|[(? & _)|(? & _)]]; eauto. Qed.
Lemma sharp_le a b S p : sharp a -> sharp b -> (forall q, off_segs S q -> in_geom a q -> in_geom b q) ->
  exists x y, g2_locate a p = Ok x /\ g2_locate b p = Ok y /\ (x <= y)%Z.
Proof.
  intros Sa Sb H. destruct (sharp_locate a p Sa) as (x & X), (sharp_locate b p Sb) as (y & Y). exists x, y. split; auto. split; auto.
  destruct (Z.le_gt_cases x y) as [L|L]; auto. exfalso. destruct (differ_near b a p y x Sb Sa Y X L S 1) as (q & _ & O & I & J); [qlra|auto].
Qed.

(** ** closed fingers *)
(** [p] is at a position in, or at an end of, a range the side [s] has chosen, between or on its two edges *)
Definition on_finger (sb : sbuild) (s : interside) (p : point) : Prop :=
  (exists i, In i (chosen_of sb (is_id s)) /\ ele (fst i) (Fin (along s p)) /\ ele (Fin (along s p)) (snd i)) /\ weakly_between (offset_at s 0) (across s p) (offset_at s 1).
Lemma lin_near a b e : 0 < e -> exists eps, 0 < eps /\ forall p q, near eps p q -> qabs (a * (fst q - fst p) + b * (snd q - snd p)) < e.
Proof.
  intros E. assert (NN : forall x, 0 <= qabs x /\ x <= qabs x /\ - x <= qabs x) by (intros x; unfold qabs; destruct (qleb_spec 0 x); repeat split; qlra).
  destruct (NN a) as (X0 & X1 & X2), (NN b) as (Y0 & Y1 & Y2). set (M := qabs a + qabs b + 1). assert (MP : 0 < M) by (unfold M; qlra). assert (MN : M <> 0) by (intros Z; rewrite Z in MP; qlra).
  pose proof (qdiv_mul e M MN) as DV. set (e2 := e / M) in *. assert (E2 : 0 < e2). { destruct (qltb_spec 0 e2); auto. exfalso. assert (0 <= - e2 * M) by (apply mnn; qlra). qlra. } clearbody e2.
  exists e2. split; auto. intros p q (N1 & N2). set (dx := fst q - fst p) in *. set (dy := snd q - snd p) in *. clearbody dx dy. apply qabs_lt in N1 as (N1 & N1'), N2 as (N2 & N2'). apply qabs_lt.
  assert (K : forall c d, - e2 < d -> d < e2 -> - (qabs c * e2) <= c * d /\ c * d <= qabs c * e2).
  { clear -E2. intros c d D1 D2. unfold qabs. destruct (qleb_spec 0 c).
    - assert (0 <= c * (e2 - d)) by (apply mnn; qlra). assert (0 <= c * (e2 + d)) by (apply mnn; qlra). split; qlra.
    - assert (0 <= - c * (e2 - d)) by (apply mnn; qlra). assert (0 <= - c * (e2 + d)) by (apply mnn; qlra). split; qlra. }
  destruct (K a dx N1 N1') as (K1 & K2), (K b dy N2 N2') as (K3 & K4). assert (Q3 : e = qabs a * e2 + qabs b * e2 + e2) by (rewrite <- DV; unfold M; ring). clear -Q3 K1 K2 K3 K4 E2. split; qlra.
Qed.
Lemma along_near s e : 0 < e -> exists eps, 0 < eps /\ forall p q, near eps p q -> qabs (along s q - along s p) < e.
Proof.
  intros E. destruct (lin_near (fst (is_dir s) / Geom2d.dot (is_dir s) (is_dir s)) (snd (is_dir s) / Geom2d.dot (is_dir s) (is_dir s)) e E) as (eps & P & H). exists eps. split; auto. intros p q N.
  replace (along s q - along s p) with (fst (is_dir s) / Geom2d.dot (is_dir s) (is_dir s) * (fst q - fst p) + snd (is_dir s) / Geom2d.dot (is_dir s) (is_dir s) * (snd q - snd p)); [now apply H|].
  unfold along, Qcdiv. generalize (/ Geom2d.dot (is_dir s) (is_dir s)). intros D. unfold Geom2d.dot; ring.
Qed.
Lemma across_near s e : 0 < e -> exists eps, 0 < eps /\ forall p q, near eps p q -> qabs (across s q - across s p) < e.
Proof.
  intros E. destruct (lin_near (fst (is_normal s) / Geom2d.dot (is_normal s) (is_normal s)) (snd (is_normal s) / Geom2d.dot (is_normal s) (is_normal s)) e E) as (eps & P & H). exists eps. split; auto. intros p q N.
  replace (across s q - across s p) with (fst (is_normal s) / Geom2d.dot (is_normal s) (is_normal s) * (fst q - fst p) + snd (is_normal s) / Geom2d.dot (is_normal s) (is_normal s) * (snd q - snd p)); [now apply H|].
  unfold across, Qcdiv. generalize (/ Geom2d.dot (is_normal s) (is_normal s)). intros D. unfold Geom2d.dot; ring.
Qed.

Lemma wb_dec a x b : weakly_between a x b \/ exists e, 0 < e /\ forall y, qabs (y - x) < e -> ~ strictly_between a y b.
Proof.
  assert (K : forall l h, l <= h -> (l <= x /\ x <= h) \/ exists e, 0 < e /\ forall y, qabs (y - x) < e -> ~ (l < y /\ y < h)).
  { intros l h LH. destruct (qleb_spec l x) as [L|L].
    - destruct (qleb_spec x h) as [H|H]; [left; auto|]. right. exists (x - h). split; [qlra|]. intros y Y (_ & Z). apply qabs_lt in Y as (Y1 & Y2); qlra.
    - right. exists (l - x). split; [qlra|]. intros y Y (Z & _). apply qabs_lt in Y as (Y1 & Y2); qlra. }
  unfold weakly_between, strictly_between. destruct (qleb_spec a b) as [L|L].
  - destruct (K a b L) as [H|(e & E & H)]; [left; auto|]. right. exists e. split; auto. intros y Y [Z|Z]; [exact (H y Y Z)|]. clear -L Z; destruct Z; qlra.
  - destruct (K b a) as [H|(e & E & H)]; [qlra|left; auto|]. right. exists e. split; auto. intros y Y [Z|Z]; [clear -L Z; destruct Z; qlra|exact (H y Y Z)].
Qed.
Lemma iv_dec i x : (ele (fst i) (Fin x) /\ ele (Fin x) (snd i)) \/ exists e, 0 < e /\ forall y, qabs (y - x) < e -> ~ in_iv y i.
Proof.
  destruct i as [l h]. cbn [fst snd]. unfold in_iv. cbn [fst snd]. assert (A : ele l (Fin x) \/ exists e, 0 < e /\ forall y, qabs (y - x) < e -> ~ ele l (Fin y)).
  { destruct l as [|l|]; cbn; auto; [|right; exists 1; split; [qlra|tauto]]. destruct (qleb_spec l x) as [L|L]; auto. right. exists (l - x). split; [qlra|]. intros y Y Z; unfold ele, elt in Z; apply qabs_lt in Y as (Y1 & Y2); qlra. }
  assert (B : ele (Fin x) h \/ exists e, 0 < e /\ forall y, qabs (y - x) < e -> ~ elt (Fin y) h).
  { destruct h as [|h|]; cbn; auto; [right; exists 1; split; [qlra|tauto]|]. destruct (qleb_spec x h) as [L|L]; auto. right. exists (x - h). split; [qlra|]. intros y Y Z; unfold ele, elt in Z; apply qabs_lt in Y as (Y1 & Y2); qlra. }
  destruct A as [A|(e & E & A)]; [|right; exists e; split; auto; intros y Y (Z & _); exact (A y Y Z)].
  destruct B as [B|(e & E & B)]; [auto|right; exists e; split; auto; intros y Y (_ & Z); exact (B y Y Z)].
Qed.
Lemma pts_dec w x : (exists i, In i w /\ ele (fst i) (Fin x) /\ ele (Fin x) (snd i)) \/ exists e, 0 < e /\ forall y, qabs (y - x) < e -> ~ pts w y.
Proof.
  induction w as [|i w IH]; [right; exists 1; split; [qlra|]; intros y _ (i & [] & _)|].
  destruct (iv_dec i x) as [H|(e1 & E1 & H1)]; [left; exists i; cbn; auto|]. destruct IH as [(j & J & H)|(e2 & E2 & H2)]; [left; exists j; cbn; auto|].
  right. destruct (qmin_spec e1 e2) as (M1 & M2 & M3). exists (qmin e1 e2). split; auto. intros y Y (j & [<-|J] & Z); [apply (H1 y); auto; qlra|apply (H2 y); [qlra|exists j; auto]].
Qed.
Lemma finger_dec sb s p : on_finger sb s p \/ exists e, 0 < e /\ forall q, near e p q -> ~ in_finger sb s q.
Proof.
  destruct (pts_dec (chosen_of sb (is_id s)) (along s p)) as [A|(e & E & A)].
  - destruct (wb_dec (offset_at s 0) (across s p) (offset_at s 1)) as [B|(e & E & B)]; [left; split; auto|].
    right. destruct (across_near s e E) as (d & D & N). exists d. split; auto. intros q Q (_ & X). exact (B _ (N p q Q) X).
  - right. destruct (along_near s e E) as (d & D & N). exists d. split; auto. intros q Q (X & _). exact (A _ (N p q Q) X).
Qed.
Lemma finger_limit sb (l : list interside) p : (forall eps, 0 < eps -> exists q s, near eps p q /\ In s l /\ in_finger sb s q) -> exists s, In s l /\ on_finger sb s p.
Proof.
  assert (K : (exists s, In s l /\ on_finger sb s p) \/ exists e, 0 < e /\ forall q s, near e p q -> In s l -> ~ in_finger sb s q).
  { induction l as [|s l IH]; [right; exists 1; split; [qlra|intros q s _ []]|]. destruct (finger_dec sb s p) as [H|(e1 & E1 & H1)]; [left; exists s; cbn; auto|].
    destruct IH as [(t & T & H)|(e2 & E2 & H2)]; [left; exists t; cbn; auto|]. right. destruct (qmin_spec e1 e2) as (M1 & M2 & M3). exists (qmin e1 e2). split; auto.
    intros q t N [<-|T]; [apply (H1 q); exact (near_mono _ _ _ _ M1 N)|apply (H2 q t); auto; exact (near_mono _ _ _ _ M2 N)]. }
  intros H. destruct K as [K|(e & E & K)]; auto. destruct (H e E) as (q & s & N & I & F). destruct (K q s N I F).
Qed.

(** ** C97, C98 *)
Section Result.
Variable orc : list segment -> nat -> nat -> nat.
Variable fsqrt fl : Qc -> Qc.
Variable R : rng.
Variable mn mx : Qc.
Variable ord : dict string geom1d -> dict string geom1d.
Variable sord : list string -> list string.
Let A := segment_arrangement orc.
(** what is assumed of the float square root of 1 and 2, see C83 *)
Definition root_ok : Prop := 0 < fsqrt 1 /\ fsqrt 1 < fsqrt (zq 2) /\ fsqrt (zq 2) < zq 2 * fsqrt 1.
(** the rings of the sheets never run back along themselves *)
Definition plex_clean (sp : sheetplex) : Prop := forall k sh, In (k, sh) (sp_sheets sp) ->
  forall g, In g [sh_face0 sh; sh_face1 sh; sh_slices_max sh] -> is_geom2d g /\ clean_geom g.
Lemma plex_clean_neat sp : plex_clean sp -> plex_in neat sp.
Proof. intros H k sh I. specialize (H k sh I). repeat split; apply H; cbn; auto. Qed.
Lemma plex_clean_geoms sp : plex_clean sp -> plex_geoms sp.
Proof. intros H k sh I. specialize (H k sh I). repeat split; apply H; cbn; auto. Qed.

Lemma run_states show rof sp rad ci ok sb h : root_ok -> plex_made sp -> plex_clean sp -> (forall c, Permutation c (ord c)) ->
  canned_1 A fsqrt fl R mn mx ord sord show rof sp rad ci = Ok (mkCanned ok sb h) -> state_in sharp sb.
Proof.
  intros (F1 & F2 & F3) M PC O H. pose proof (plex_clean_neat sp PC) as PN. pose proof (neat_closed orc fsqrt F1 F2 F3) as OC.
  destruct (canned_reaches A fsqrt fl R mn mx ord sord neat _ _ _ _ _ _ _ _ OC M O H) as (sb0 & sb1 & C & SS & sok & E & Q). pose proof (proj1 (create_inv1 _ _ _ _ _ M C)) as L.
  pose proof (ssteps_sharp orc sp sb0 sb1 M PN L (create_sharp orc fsqrt F1 F2 F3 sp rad sb0 PN C) SS) as S1. destruct Q as [->|(c1 & c2 & Q)].
  - subst sb. destruct sb1. exact S1.
  - exact (clean_up_sharp orc fsqrt F1 F2 F3 sb1 c1 sb c2 S1 Q).
Qed.
Theorem result_sharp : forall show rof sp rad ci ok sb h, root_ok -> plex_made sp -> plex_clean sp -> (forall c, Permutation c (ord c)) ->
  canned_1 A fsqrt fl R mn mx ord sord show rof sp rad ci = Ok (mkCanned ok sb h) ->
  forall k g, dget String.eqb k (sb_schosen sb) = Some g \/ dget String.eqb k (sb_sok sb) = Some g -> sharp g.
Proof.
  intros show rof sp rad ci ok sb h RO M PC O H k g D. pose proof (run_states _ _ _ _ _ _ _ _ RO M PC O H k) as S. destruct D as [D|D]; rewrite <- (geom_at_get _ _ _ D); apply S.
Qed.
Theorem result_within_slices_everywhere : forall show rof sp rad ci ok sb h, root_ok -> plex_made sp -> plex_clean sp -> (forall c, Permutation c (ord c)) ->
  canned_1 A fsqrt fl R mn mx ord sord show rof sp rad ci = Ok (mkCanned ok sb h) ->
  forall k, sharp (slices_of sp k) -> forall p, exists x y, g2_locate (geom_at (sb_schosen sb) k) p = Ok x /\ g2_locate (slices_of sp k) p = Ok y /\ (x <= y)%Z.
Proof.
  intros show rof sp rad ci ok sb h RO M PC O H k SH p. apply (sharp_le _ _ (all_segments (geom_at (sb_schosen sb) k) ++ all_segments (slices_of sp k))); auto.
  - exact (proj1 (run_states _ _ _ _ _ _ _ _ RO M PC O H k)).
  - destruct (result_within_slices orc fsqrt fl R mn mx ord sord _ _ _ _ _ _ _ _ M (plex_clean_geoms _ PC) O H k) as (_ & W). intros q Q X. apply off_segs_app in Q as (Q1 & Q2).
    apply W; auto; intros B; apply on_bd_segments in B as (e & E & B); [exact (Q1 e E B)|exact (Q2 e E B)].
Qed.

Theorem result_material_everywhere : forall show rof sp rad ci ok sb h, root_ok -> plex_made sp -> plex_clean sp -> (forall c, Permutation c (ord c)) ->
  canned_1 A fsqrt fl R mn mx ord sord show rof sp rad ci = Ok (mkCanned ok sb h) ->
  exists sb0, create_sheetbuild A fsqrt sp rad = Ok sb0 /\ forall k p, exists x0 x,
    g2_locate (geom_at (sb_schosen sb0) k) p = Ok x0 /\ g2_locate (geom_at (sb_schosen sb) k) p = Ok x /\ (x0 <= x)%Z /\
    (x = x0 \/ exists s, side_of sp s /\ is_sheet s = k /\ on_finger sb s p).
Proof.
  intros show rof sp rad ci ok sb h RO M PC O H. pose proof (run_states _ _ _ _ _ _ _ _ RO M PC O H) as S1.
  destruct (result_material orc fsqrt fl R mn mx ord sord _ _ _ _ _ _ _ _ M (plex_clean_geoms _ PC) O H) as (sb0 & S & C & MS). exists sb0. split; auto. intros k p.
  destruct RO as (F1 & F2 & F3). pose proof (proj1 (create_sharp orc fsqrt F1 F2 F3 sp rad sb0 (plex_clean_neat sp PC) C k)) as S0. specialize (S1 k). apply proj1 in S1.
  destruct (sharp_le _ _ S p S0 S1 (fun q Q => proj1 (MS q Q) k)) as (x0 & x & X0 & X & L). exists x0, x. repeat (split; auto). destruct (Z.eq_dec x x0) as [E|NE]; [now left|right].
  destruct (finger_limit sb (filter (fun s => String.eqb (is_sheet s) k) (sp_intersides sp None)) p) as (s & I & F).
  - intros eps E. destruct (differ_near _ _ p x0 x S0 S1 X0 X ltac:(lia) S eps E) as (q & N & Q & I & NI). destruct (proj1 (proj2 (MS q Q)) k I) as [Z|(s & Hs & Ek & F)]; [destruct (NI Z)|].
    exists q, s. split; auto. split; auto. apply filter_In. split; [now apply made_list|]. rewrite Ek. apply String.eqb_refl.
  - apply filter_In in I as (I & Ek). apply String.eqb_eq in Ek. exists s. split; [now apply made_list|auto].
Qed.
End Result.
Print Assumptions result_sharp.
Print Assumptions result_within_slices_everywhere.
Print Assumptions result_material_everywhere.

(** ** Histories of the choose/unchoose operations *)
Definition sop_clean (op : sop) : Prop := match op with Choose _ v _ | Unchoose _ v => is_geom1d v | UnchooseArea _ a => is_geom2d a /\ clean_geom a end.
Definition clean_history orc fsqrt sp rad (ops : list sop) (sb : sbuild) : Prop := let A := segment_arrangement orc in
  Forall sop_clean ops /\ exists sb0, create_sheetbuild A fsqrt sp rad = Ok sb0 /\ sruns A ops sb0 = Ok sb.
Lemma sop_clean_ok op : sop_clean op -> sop_ok op.
Proof. destruct op; cbn; tauto. Qed.
Lemma clean_steps A ops : forall sb sb', Forall sop_clean ops -> sruns A ops sb = Ok sb' -> ssteps A neat sb sb'.
Proof.
  induction ops as [|op ops IH]; intros sb sb' F H; cbn [sruns foldM] in H; [apply Ok_inv in H as <-; constructor|].
  apply bind_ok in H as (m & H1 & H2). inversion F as [|? ? O F']; subst. eapply ss_trans; [apply ss_one|apply (IH _ _ F' H2)].
  destruct op; cbn [sop_clean sapply] in *; [eapply st_choose|eapply st_unchoose|eapply st_area]; eauto.
Qed.
Lemma clean_reached orc fsqrt sp rad ops sb : clean_history orc fsqrt sp rad ops sb -> reached orc fsqrt sp rad sb.
Proof. intros (F & sb0 & C & R). exists sb0, ops. repeat split; auto. apply (Forall_impl _ sop_clean_ok F). Qed.
Theorem history_sharp : forall orc fsqrt sp rad ops sb, root_ok fsqrt -> plex_made sp -> plex_clean sp -> clean_history orc fsqrt sp rad ops sb ->
  forall k g, dget String.eqb k (sb_schosen sb) = Some g \/ dget String.eqb k (sb_sok sb) = Some g -> sharp g.
Proof.
  intros orc fsqrt sp rad ops sb (F1 & F2 & F3) M PC (F & sb0 & C & R) k g D. pose proof (plex_clean_neat sp PC) as PN. pose proof (proj1 (create_inv1 _ _ _ _ _ M C)) as L.
  pose proof (ssteps_sharp orc sp sb0 sb M PN L (create_sharp orc fsqrt F1 F2 F3 sp rad sb0 PN C) (clean_steps _ _ _ _ F R) k) as S. destruct D as [D|D]; rewrite <- (geom_at_get _ _ _ D); apply S.
Qed.
Lemma history_states orc fsqrt sp rad ops sb : root_ok fsqrt -> plex_made sp -> plex_clean sp -> clean_history orc fsqrt sp rad ops sb -> state_in sharp sb.
Proof.
  intros RO M PC H k. pose proof (history_sharp orc fsqrt sp rad ops sb RO M PC H k) as S. unfold geom_at.
  split; [destruct (dget String.eqb k (sb_schosen sb)) as [g|]; eauto|destruct (dget String.eqb k (sb_sok sb)) as [g|]; eauto]; apply sharp_nil.
Qed.
Lemma more_history orc fsqrt sp rad ops sb more sb' : clean_history orc fsqrt sp rad ops sb -> Forall sop_clean more -> sruns (segment_arrangement orc) more sb = Ok sb' ->
  clean_history orc fsqrt sp rad (ops ++ more) sb'.
Proof.
  intros (F & sb0 & C & R) F' R'. split; [now apply Forall_app|]. exists sb0. split; auto. clear C. revert sb0 R. induction ops as [|op ops IH]; intros sb0 R; cbn [sruns foldM app] in *.
  - apply Ok_inv in R as ->. exact R'.
  - apply bind_ok in R as (m & R1 & R). inversion F; subst. cbn [sruns foldM app]. rewrite R1. cbn [bind]. apply IH; auto.
Qed.
(** C51 at every point: nothing chosen is ever lost, no allowance is ever gained, and what is new was allowed *)
Theorem history_monotone : forall orc fsqrt sp rad ops sb more sb', root_ok fsqrt -> plex_made sp -> plex_clean sp ->
  clean_history orc fsqrt sp rad ops sb -> Forall sop_clean more -> sruns (segment_arrangement orc) more sb = Ok sb' ->
  forall k p, exists c c' o o', g2_locate (geom_at (sb_schosen sb) k) p = Ok c /\ g2_locate (geom_at (sb_schosen sb') k) p = Ok c' /\
    g2_locate (geom_at (sb_sok sb) k) p = Ok o /\ g2_locate (geom_at (sb_sok sb') k) p = Ok o' /\ (c <= c')%Z /\ (o' <= o)%Z /\ (c = -1 -> c' = -1 \/ 0 <= o)%Z.
Proof.
  intros orc fsqrt sp rad ops sb more sb' RO M PC H F R k p. destruct (history_states _ _ _ _ _ _ RO M PC H k) as (S1 & S2).
  destruct (history_states _ _ _ _ _ _ RO M PC (more_history _ _ _ _ _ _ _ _ H F R) k) as (S3 & S4).
  destruct (sheets_monotone orc fsqrt sp rad sb more sb' M (plex_clean_geoms _ PC) (clean_reached _ _ _ _ _ _ H) (Forall_impl _ sop_clean_ok F) R) as (S & MS).
  destruct (sharp_le _ _ S p S1 S3 (fun q Q => proj1 (MS q Q k))) as (c & c' & C & C' & L1). destruct (sharp_le _ _ S p S4 S2 (fun q Q => proj2 (proj2 (MS q Q k)))) as (o' & o & O' & O & L2).
  exists c, c', o, o'. repeat (split; auto). intros E. destruct (Z.eq_dec c' (-1)) as [|NE]; auto. right. destruct (Z.lt_ge_cases o 0) as [LO|]; [|lia]. exfalso.
  assert (BD : forall g x, sharp g -> g2_locate g p = Ok x -> (-1 <= x)%Z) by (intros g x (G & Cr & _) X; destruct (crisp_locates g p G Cr) as [(Z & _)|[(Z & _)|(Z & _)]]; rewrite Z in X; apply Ok_inv in X; lia).
  pose proof (BD _ _ S3 C'). pose proof (BD _ _ S2 O). subst c. assert (o = (-1)%Z) by lia. subst o.
  assert (OUT : forall g, sharp g -> g2_locate g p = Ok (-1)%Z -> exists e, 0 < e /\ forall q, near e p q -> ~ in_geom g q).
  { intros g (G & Cr & _) X. destruct (crisp_locates g p G Cr) as [(Z & _)|[(Z & B & I)|(Z & B & I)]]; rewrite Z in X; try discriminate X.
    destruct (bd_away g p G B) as (e & He & AW). exists e. split; auto. intros q N J. apply I. now apply (AW q). }
  destruct (OUT _ S1 C) as (e1 & E1 & N1), (OUT _ S2 O) as (e2 & E2 & N2). destruct (qmin_spec e1 e2) as (M1 & M2 & M3).
  destruct (differ_near _ _ p _ _ S1 S3 C C' ltac:(lia) S (qmin e1 e2) (M3 E1 E2)) as (q & N & Q & I & _).
  destruct (proj1 (proj2 (MS q Q k)) I) as [Z|Z]; [exact (N1 q (near_mono _ _ _ _ M1 N) Z)|exact (N2 q (near_mono _ _ _ _ M2 N) Z)].
Qed.
Print Assumptions history_sharp.
Print Assumptions history_monotone.

(** The hypotheses hold of two 20 x 20 sheets joined along an edge and of the values the code has for
    the roots; [EndToEnd] evaluates the run of this plex. *)
Section Ex.
Let sq : geom2d := [mkSpwh [(0, 0); (0, zq 20); (zq 20, zq 20); (zq 20, 0)] []].
Let sh n := mkSheet n sq sq sq.
Let sp0 := mkPlex [("s0", sh "s0"); ("s1", sh "s1")]%string [].
Let fr : frames := fun _ _ => Ok (Some (((1, 0), ((0, 0), [(0, zq 4)])), ((1, 0), ((0, 0), [(0, zq 4)])))).
Let sp := match create_intersections fr sp0 with Ok sp => sp | Err _ => sp0 end.
Let fs (q : Qc) : Qc := if qeqb q 1 then 1 else qq 41 29.
Lemma sq_sharp : sharp sq.
Proof. apply (rect_sharp 0 0 20 20). vm_compute. reflexivity. Qed.
Example run_sharp_ex : root_ok fs /\ plex_made sp /\ plex_clean sp /\ (forall k, sharp (slices_of sp k)).
Proof.
  split; [repeat split; vm_compute; reflexivity|]. split; [|split].
  - exists fr, sp0. split; [|reflexivity]. split; [reflexivity|]. split; [repeat constructor; cbn; intuition discriminate|].
    intros k s [E|[E|[]]]; apply pair_inv in E as (<- & <-); (split; [reflexivity|]); intros K; vm_compute in K; intuition discriminate.
  - intros k s [E|[E|[]]]; apply pair_inv in E as (<- & <-); cbn [sh_face0 sh_face1 sh_slices_max sh]; intros g Hg; assert (g = sq) as -> by (destruct Hg as [<-|[<-|[<-|[]]]]; reflexivity); split; apply sq_sharp.
  - intros k. unfold slices_of. change (sp_sheets sp) with [("s0", sh "s0"); ("s1", sh "s1")]%string. cbn [dget]. destruct (String.eqb k "s0"); [apply sq_sharp|]. destruct (String.eqb k "s1"); [apply sq_sharp|apply sharp_nil].
Qed.
End Ex.
