(** * What choose_obviously_irrelevant and update_sheet_ok take away *)
From Verif.Spec Require Import Plane Region PointSet1 Fingers Crisp Hull Trim.
From Verif.Model Require Import SegmentTree CellMerger Arrangement2d Geom2d Sheetplex Sheetbuild Heuristics Canned.
From Verif.Proofs Require Import PyP PolyP WindingP WindingQ WindingR PlanarP ExtOrd DictP Geom1dP Geom1dM NearP Geom2dP Geom2dOps ArrSoundP ReachP SheetplexP FingerP SheetbuildP CreateP HeuristicsP ClusterP HeuStepsP CrispP CrispQ CoverP RibbonP BufSharpP BufSharpQ RunSharpP TrimP.
From Verif.Props Require Import Geom1dProps Primitive2dProps SheetplexProps Geom2dProps SetOpsProps BufferProps AreaProps CannedProps CrispProps BufferExactProps BufferSharpProps JointProps RunSharpProps.
From Coq Require Import String Permutation.
Open Scope Qc_scope.

Lemma band_dec s w p : on_band s w p \/ exists e, 0 < e /\ forall q, near e p q -> ~ in_band s w 0 1 q.
Proof.
  destruct (pts_dec w (along s p)) as [A|(e & E & A)].
  - destruct (wb_dec (offset_at s 0) (across s p) (offset_at s 1)) as [B|(e & E & B)]; [left; split; auto|].
    right. destruct (across_near s e E) as (d & D & N). exists d. split; auto. intros q Q (_ & X). exact (B _ (N p q Q) X).
  - right. destruct (along_near s e E) as (d & D & N). exists d. split; auto. intros q Q (X & _). apply (A _ (N p q Q)). now apply inside1_pts.
Qed.
Lemma bands_limit (W : interside -> geom1d) l p : (forall eps, 0 < eps -> exists q s, near eps p q /\ In s l /\ in_band s (W s) 0 1 q) -> exists s, In s l /\ on_band s (W s) p.
Proof.
  assert (K : (exists s, In s l /\ on_band s (W s) p) \/ exists e, 0 < e /\ forall q s, near e p q -> In s l -> ~ in_band s (W s) 0 1 q).
  { induction l as [|s l [(t & I & H)|(e & E & H)]]; [right; exists 1; split; [qlra|]; intros ? ? _ []|left; exists t; cbn; auto|]. destruct (band_dec s (W s) p) as [B|(d & D & B)]; [left; exists s; cbn; auto|].
    right. destruct (qmin_spec e d) as (M1 & M2 & M3). exists (qmin e d). split; auto. intros q t N [<-|I]; [exact (B q (near_mono _ _ _ _ M2 N))|exact (H q t (near_mono _ _ _ _ M1 N) I)]. }
  destruct K as [K|(e & E & K)]; auto. intros H. exfalso. destruct (H e E) as (q & s & N & I & B). exact (K q s N I B).
Qed.
Lemma between_open l x h : l < x -> x < h -> exists d, 0 < d /\ forall y, qabs (y - x) < d -> l < y /\ y < h.
Proof. intros L H. destruct (qmin_spec (x - l) (h - x)) as (M1 & M2 & M3). exists (qmin (x - l) (h - x)). split; [apply M3; qlra|]. set (m := qmin (x - l) (h - x)) in *. clearbody m. intros y Y. apply qabs_lt in Y as (Y1 & Y2). split; qlra. Qed.
Lemma iv_open i x : elt (fst i) (Fin x) -> elt (Fin x) (snd i) -> exists d, 0 < d /\ forall y, qabs (y - x) < d -> elt (fst i) (Fin y) /\ elt (Fin y) (snd i).
Proof.
  intros L H. destruct i as [a b]. cbn [fst snd] in *. destruct (between_open (match a with Fin a => a | _ => x - 1 end) x (match b with Fin b => b | _ => x + 1 end)) as (d & D & X).
  - destruct a; cbn in L; auto; qlra.
  - destruct b; cbn in H; auto; qlra.
  - exists d. split; auto. intros y Y. destruct (X y Y) as (X1 & X2). split; [destruct a; cbn in *; auto|destruct b; cbn in *; auto].
Qed.
Lemma sb_open a x b : strictly_between a x b -> exists d, 0 < d /\ forall y, qabs (y - x) < d -> strictly_between a y b.
Proof. intros [(L & H)|(L & H)]; destruct (between_open _ _ _ L H) as (d & D & X); exists d; (split; [auto|]); intros y Y; [left|right]; now apply X. Qed.
Lemma band_open s w p : in_band s w 0 1 p -> exists e, 0 < e /\ forall q, near e p q -> in_band s w 0 1 q.
Proof.
  intros ((i & I & L1 & L2) & B). destruct (iv_open i _ L1 L2) as (d & D & X). destruct (sb_open _ _ _ B) as (e & E & Y).
  destruct (along_near s d D) as (e1 & E1 & A1), (across_near s e E) as (e2 & E2 & A2). destruct (qmin_spec e1 e2) as (M1 & M2 & M3). exists (qmin e1 e2). split; auto.
  intros q N. split; [exists i; split; auto; apply X, A1, (near_mono _ _ _ _ M1 N)|apply Y, A2, (near_mono _ _ _ _ M2 N)].
Qed.

Section Q.
Variable orc : list segment -> nat -> nat -> nat.
Let A := segment_arrangement orc.
Variable fsqrt : Qc -> Qc.
Variable sp : sheetplex.
Hypothesis M : plex_made sp.

(** ** update_sheet_ok *)
Definition both_ok (sb : sbuild) (s : interside) (w : geom1d) : Prop := exists o, opposite s sp = Ok o /\ g_or (ok_of sb (is_id s)) (ok_of sb (is_id o)) = Ok w.
Lemma on_sides_bands sb l : legal sp sb -> (forall s, In s l -> side_of sp s) -> forall a b a' b', sharp a -> sharp b -> foldM (on_sides A sb) l (a, b) = Ok (a', b') ->
  sharp a' /\ sharp b' /\ (forall s, In s l -> exists w, both_ok sb s w) /\ exists S, forall q, off_segs S q ->
    (in_geom a' q <-> in_geom a q \/ exists s w, In s l /\ both_ok sb s w /\ in_band s w 0 1 q) /\ (in_geom b' q <-> in_geom b q \/ exists s, In s l /\ in_band s (ok_of sb (is_id s)) 0 1 q).
Proof.
  intros L. induction l as [|s l IH]; intros I a b a' b' Sa Sb H; cbn [foldM] in H.
  { apply Ok_inv, pair_inv in H as (-> & ->). split; auto. split; auto. split; [intros ? []|]. exists []. intros q _. split; (split; auto; intros [|X]; auto). destruct X as (? & ? & [] & _). destruct X as (? & [] & _). }
  apply bind_ok in H as ((a1 & b1) & H1 & H). unfold on_sides in H1. apply bind_ok in H1 as (o & O & H1); apply bind_ok in H1 as (k & K & H1); apply bind_ok in H1 as (f & F & H1);
    apply bind_ok in H1 as (x & X & H1); apply bind_ok in H1 as (ko & KO & H1); apply bind_ok in H1 as (kk & KK & H1); apply bind_ok in H1 as (f' & F' & H1); apply bind_ok in H1 as (y & Y & H1). apply Ok_inv, pair_inv in H1 as (<- & <-).
  rewrite (iv_plex sp sb L) in O. pose proof (legal_iok sp sb _ _ L K) as Nk. pose proof (legal_iok sp sb _ _ L KO) as Nko. pose proof (is_geom1d_or _ _ _ Nk Nko KK) as Nkk. apply is_geom1d_normal in Nk, Nkk.
  apply dgetr_ok in K, KO. assert (EK : ok_of sb (is_id s) = k) by (now apply opt_get). assert (EKO : ok_of sb (is_id o) = ko) by (now apply opt_get).
  assert (BO : both_ok sb s kk) by (exists o; rewrite EK, EKO; auto). assert (BU : forall w, both_ok sb s w -> w = kk) by (intros w (o' & O' & W); rewrite O in O'; apply Ok_inv in O' as <-; rewrite EK, EKO, KK in W; now apply Ok_inv in W).
  pose proof (made_rot sp s M (I s (or_introl eq_refl))) as R. pose proof (fingers_sharp orc _ _ _ F) as Sf. pose proof (fingers_sharp orc _ _ _ F') as Sf'.
  destruct (IH (fun t T => I t (or_intror T)) y x a' b' (or_sharp orc _ _ _ Sa Sf' Y) (or_sharp orc _ _ _ Sb Sf X) H) as (Sa' & Sb' & BW & S & HS). split; auto. split; auto. split; [intros t [<-|T]; [exists kk; auto|auto]|].
  pose proof (g2_or_ok A _ _ _ (arrangement_sound orc) (proj1 Sa) (proj1 Sf') Y) as OY. pose proof (g2_or_ok A _ _ _ (arrangement_sound orc) (proj1 Sb) (proj1 Sf) X) as OX. apply op_segs in OY as (S1 & OY), OX as (S2 & OX).
  destruct (fingers_any A s k 0 1 f (arrangement_sound orc) R Nk F) as (_ & _ & IF). destruct (fingers_any A s kk 0 1 f' (arrangement_sound orc) R Nkk F') as (_ & _ & IF').
  exists (S ++ S1 ++ S2 ++ all_segments f ++ all_segments f'). intros q Q. apply off_segs_app in Q as (Q0 & Q). apply off_segs_app in Q as (Q1 & Q). apply off_segs_app in Q as (Q2 & Q). apply off_segs_app in Q as (Q3 & Q4).
  destruct (HS q Q0) as (HA & HB). rewrite HA, HB, (OY q Q1), (OX q Q2). rewrite IF by (intros Z; apply on_bd_segments in Z as (e & E & Z); exact (Q3 e E Z)). rewrite IF' by (intros Z; apply on_bd_segments in Z as (e & E & Z); exact (Q4 e E Z)). split; split.
  - intros [[Z|Z]|(t & w & T & W & Z)]; [now left|right; exists s, kk; cbn; auto|right; exists t, w; cbn; auto].
  - intros [Z|(t & w & [<-|T] & W & Z)]; [auto|rewrite (BU w W) in Z; auto|right; exists t, w; auto].
  - intros [[Z|Z]|(t & T & Z)]; [now left|right; exists s; cbn; rewrite EK; auto|right; exists t; cbn; auto].
  - intros [Z|(t & [<-|T] & Z)]; [auto|rewrite EK in Z; auto|right; exists t; auto].
Qed.
Definition narrowed (sb : sbuild) (sh : sheet) (k k' : geom2d) : Prop := exists a b d bf area, foldM (on_sides A sb) (sp_intersides (sb_plex sb) (Some (sh_id sh))) (g2_empty, g2_empty) = Ok (a, b) /\
  g2_sub A a b = Ok d /\ g2_buffer A fsqrt d (NMpq (qq 2 1000)) = Ok bf /\ g2_sub A bf (geom_at (sb_schosen sb) (sh_id sh)) = Ok area /\ g2_sub A k area = Ok k'.
Lemma sok_step sb sh sb' : update_sok_sheet A fsqrt sb sh = Ok sb' -> same_but_sok sb sb' /\ narrowed sb sh (geom_at (sb_sok sb) (sh_id sh)) (geom_at (sb_sok sb') (sh_id sh)) /\
  forall k, k <> sh_id sh -> geom_at (sb_sok sb') k = geom_at (sb_sok sb) k.
Proof.
  intros H. unfold update_sok_sheet in H. apply bind_ok in H as ((a & b) & O & H). apply bind_ok in H as (d & D & H). apply bind_ok in H as (b' & B & H). apply bind_ok in H as (c & C & H). apply bind_ok in H as (e & E & H).
  unfold unchoose_sheet_area in H. apply bind_ok in H as (c' & _ & H). apply bind_ok in H as (ca & _ & H). apply bind_ok in H as (u & _ & H). apply bind_ok in H as (so & SO & H). apply Ok_inv in H as <-. apply msub2_ok in SO as (x & r & X & R & ->).
  split; [repeat split|]. cbn [sb_sok]. split.
  - rewrite geom_at_dset, String.eqb_refl. rewrite (geom_at_get _ _ _ X). apply dgetr_ok in C. exists a, b, d, b', e. rewrite (geom_at_get _ _ _ C). auto 7.
  - intros j NJ. rewrite geom_at_dset. apply String.eqb_neq in NJ. now rewrite NJ.
Qed.
Lemma on_sides_cong sb sb' l : sb_plex sb' = sb_plex sb -> sb_iok sb' = sb_iok sb -> forall z, foldM (on_sides A sb') l z = foldM (on_sides A sb) l z.
Proof.
  intros E1 E2. induction l as [|s l IH]; intros z; cbn [foldM]; auto. assert (X : on_sides A sb' z s = on_sides A sb z s) by (unfold on_sides; now rewrite E1, E2). rewrite X. destruct (on_sides A sb z s); cbn [bind]; auto.
Qed.
Lemma narrowed_same a b x v w : same_but_sok a b -> narrowed b x v w -> narrowed a x v w.
Proof. intros (E1 & E2 & _ & E4) (p & q & d & bf & ar & H1 & H2 & H3 & H4 & H5). exists p, q, d, bf, ar. rewrite (on_sides_cong a b _ E1 E4) in H1. rewrite E1 in H1. rewrite E2 in H4. auto. Qed.
Lemma sok_all st st' : sb_plex (fst st) = sp -> update_sheet_ok A fsqrt st = Ok st' -> same_but_sok (fst st) (fst st') /\
  (forall k sh, In (k, sh) (sp_sheets sp) -> narrowed (fst st) sh (geom_at (sb_sok (fst st)) k) (geom_at (sb_sok (fst st')) k)) /\
  forall k, ~ In k (keys (sp_sheets sp)) -> geom_at (sb_sok (fst st')) k = geom_at (sb_sok (fst st)) k.
Proof.
  intros P H. unfold update_sheet_ok in H. apply bind_ok in H as ((sb & ci) & H1 & H). apply hcheck_ok in H1. cbn [fst] in H1. subst sb. apply bind_ok in H as (sb & H2 & H). apply Ok_inv in H as <-. cbn [fst]. unfold sheets_of in H2. rewrite P in H2.
  destruct (made_sheets sp M) as (N & KS).
  destruct (fold_once (update_sok_sheet A fsqrt) sh_id (fun sb k => geom_at (sb_sok sb) k) same_but_sok (fun a => conj eq_refl (conj eq_refl (conj eq_refl eq_refl))) sbs_trans narrowed narrowed_same (fun _ => True) (fun _ _ _ X => X)
    (values (sp_sheets sp)) (fun sb x sb' _ _ H => sok_step sb x sb' H) N _ _ I H2) as (S & T & O). split; auto. split.
  - intros k sh Ik. pose proof (KS k sh Ik) as <-. apply T. unfold values. now apply (in_map snd) in Ik.
  - intros k NI. apply O. intros Z. apply NI. apply in_map_iff in Z as (sh & <- & Z). apply in_map_iff in Z as ((j & x) & E & Z). cbn [snd] in E. subst x. rewrite (KS j sh Z). now apply (in_map fst) in Z.
Qed.

Definition reach_of (sb : sbuild) (s : interside) : geom1d :=
  match opposite s sp with Ok o => match g_or (ok_of sb (is_id s)) (ok_of sb (is_id o)) with Ok w => w | _ => [] end | _ => [] end.
Lemma reach_both sb s w : both_ok sb s w -> reach_of sb s = w.
Proof. intros (o & O & W). unfold reach_of. now rewrite O, W. Qed.
Lemma sheet_sides k s : In s (sp_intersides sp (Some k)) <-> side_of sp s /\ is_sheet s = k.
Proof.
  rewrite <- (made_list sp s M). unfold sp_intersides. rewrite !filter_In. split; [intros (I & E); apply String.eqb_eq in E; auto|intros ((I & _) & E); split; auto; now apply String.eqb_eq].
Qed.
(** what [narrowed] takes away *)
Lemma narrowed_ok K sb sh k' : root_ok fsqrt -> 1 <= K * (fsqrt 1 * fsqrt 1) -> zq 2 <= K * (fsqrt (zq 2) * fsqrt (zq 2)) -> legal sp sb -> state_in sharp sb ->
  narrowed sb sh (geom_at (sb_sok sb) (sh_id sh)) k' -> sharp k' /\ forall p, (g2_locate k' p = Ok 1%Z -> g2_locate (geom_at (sb_sok sb) (sh_id sh)) p = Ok 1%Z) /\
  (g2_locate (geom_at (sb_sok sb) (sh_id sh)) p = Ok 1%Z -> g2_locate k' p <> Ok 1%Z -> g2_locate (geom_at (sb_schosen sb) (sh_id sh)) p <> Ok 1%Z /\
   exists z s w, dist2 p z <= K * (qq 2 1000 * qq 2 1000) /\ side_of sp s /\ is_sheet s = sh_id sh /\ both_ok sb s w /\ on_band s w z /\
     forall t, side_of sp t -> is_sheet t = sh_id sh -> ~ in_band t (ok_of sb (is_id t)) 0 1 z).
Proof.
  intros (F1 & F2 & F3) K1 K2 L S (a & b & d & bf & ar & OS & D & B & AR & KE). set (k := geom_at (sb_sok sb) (sh_id sh)) in *. set (c := geom_at (sb_schosen sb) (sh_id sh)) in *. destruct (S (sh_id sh)) as (Sc & Sk). fold k in Sk. fold c in Sc.
  rewrite (iv_plex sp sb L) in OS. destruct (on_sides_bands sb _ L (fun s Hs => proj1 (proj1 (sheet_sides _ s) Hs)) _ _ a b sharp_nil sharp_nil OS) as (Sa & Sb & BW & SG & HS).
  pose proof (sub_sharp_neat orc _ _ d Sa (sharp_neat _ Sb) D) as Sd. pose proof (proj2 (buffer_sharp orc fsqrt d _ _ bf F1 F2 F3 B eq_refl) Sd) as Sbf. pose proof (sub_sharp_neat orc _ _ ar Sbf (sharp_neat _ Sc) AR) as Sar.
  pose proof (sub_sharp_neat orc _ _ k' Sk (sharp_neat _ Sar) KE) as Sk'. split; auto.
  destruct (g2_sub_ok A _ _ _ (arrangement_sound orc) (proj1 Sa) (proj1 Sb) D) as (_ & _ & MD). destruct (g2_sub_ok A _ _ _ (arrangement_sound orc) (proj1 Sbf) (proj1 Sc) AR) as (_ & _ & MA). destruct (g2_sub_ok A _ _ _ (arrangement_sound orc) (proj1 Sk) (proj1 Sar) KE) as (_ & BK & MK).
  intros p. split.
  - intros E. destruct (crisp_locates k' p (proj1 Sk') (proj1 (proj2 Sk'))) as [(Z & _)|[(_ & N & J)|(Z & _)]]; [rewrite E in Z; discriminate| |rewrite E in Z; discriminate]. clear E.
    assert (X : exists x, g2_locate k p = Ok x /\ (1 <= x)%Z).
    { destruct (sharp_le k' k (all_segments k ++ all_segments ar) p Sk' Sk) as (x & y & Ex & Ey & LE).
      - intros q Q J'. apply off_segs_app in Q as (Q1 & Q2). apply MK; auto. intros g [<-|[<-|[]]] Z; apply on_bd_segments in Z as (e & E & Z); [exact (Q1 e E Z)|exact (Q2 e E Z)].
      - exists y. split; auto. destruct (g2_locate_ok k' p (proj1 Sk') N) as [(Z & _)|(_ & Z)]; [|tauto]. rewrite Z in Ex. apply Ok_inv in Ex. lia. }
    destruct X as (x & X & LX). rewrite X. f_equal. destruct (crisp_locates k p (proj1 Sk) (proj1 (proj2 Sk))) as [(Z & _)|[(Z & _)|(Z & _)]]; rewrite X in Z; apply Ok_inv in Z; lia.
  - intros E NE.
    assert (CL : forall e, 0 < e -> exists q, near e p q /\ off_all [bf; c] q /\ in_geom ar q).
    { destruct (crisp_locates k p (proj1 Sk) (proj1 (proj2 Sk))) as [(Z & _)|[(_ & N & J)|(Z & _)]]; [rewrite E in Z; discriminate| |rewrite E in Z; discriminate]. intros e Pe. pose proof (half_pos e Pe) as Pe2.
      destruct (on_bd_dec ar p) as [Bp|Np].
      - destruct (proj1 (proj1 (proj2 Sar) p _ Bp Pe2)) as (t & T & Bt & It). destruct (near_region t _ ar [bf; c] Pe2 (proj1 Sar) Bt) as (t' & T' & Bt' & It' & Ot). exists t'. split; [exact (near_trans _ _ _ _ T T')|]. split; auto. now apply It'.
      - assert (O : off_all [k; ar] p) by (intros g [<-|[<-|[]]]; auto). destruct (g2_locate_ok k' p (proj1 Sk')) as [(Z & _)|(Z & NI)]; [intros X; exact (BK p X O)|congruence|].
        assert (IA : in_geom ar p). { destruct (g2_locate_ok ar p (proj1 Sar) Np) as [(_ & X)|(_ & X)]; auto. exfalso. apply NI. apply MK; auto. }
        destruct (near_region p e ar [bf; c] Pe (proj1 Sar) Np) as (t' & T' & Bt' & It' & Ot). exists t'. split; auto. split; auto. now apply It'. }
    split.
    { intros X. destruct (crisp_locates c p (proj1 Sc) (proj1 (proj2 Sc))) as [(Z & _)|[(_ & N & J)|(Z & _)]]; [rewrite X in Z; discriminate| |rewrite X in Z; discriminate]. destruct (bd_away c p (proj1 Sc) N) as (e & Pe & AW). destruct (CL e Pe) as (q & Nq & Oq & Iq).
      apply MA in Iq as (_ & Iq); auto. apply Iq. now apply (AW q Nq). }
    assert (Z : exists z, dist2 p z <= K * (qq 2 1000 * qq 2 1000) /\ (on_bd d z \/ in_geom d z)).
    { destruct (buffer_reach orc fsqrt K d _ _ bf F1 ltac:(qlra) K1 K2 (proj1 Sd) B eq_refl) as (R1 & R2 & _). destruct (on_bd_dec bf p) as [Bp|Np]; [destruct (R1 p Bp) as (z & Z & DZ); exists z; auto|].
      assert (IB : in_geom bf p). { destruct (bd_away bf p (proj1 Sbf) Np) as (e & Pe & AW). destruct (CL e Pe) as (q & Nq & Oq & Iq). apply MA in Iq as (Iq & _); auto. now apply (AW q Nq). }
      destruct (R2 ltac:(vm_compute; reflexivity) p IB) as [J|(z & Z & DZ)]; [|exists z; auto]. exists p. split; auto. assert (0 <= K) by (destruct (qleb_spec 0 K); auto; exfalso; assert (0 <= (- K) * (fsqrt 1 * fsqrt 1)) by (apply mnn; [qlra|]; apply mnn; qlra); qlra).
      assert (0 <= K * (qq 2 1000 * qq 2 1000)) by (apply mnn; [auto|vm_compute; discriminate]). replace (dist2 p p) with 0; auto. destruct p. unfold dist2, Geom2d.dot, vsub. cbn [fst snd]. ring. }
    destruct Z as (z & DZ & Cz). exists z.
    assert (CD : forall e, 0 < e -> exists q, near e z q /\ off_segs SG q /\ in_geom a q /\ ~ in_geom b q).
    { intros e Pe. pose proof (half_pos e Pe) as Pe2. assert (T : exists t, near (e * qq 1 2) z t /\ ~ on_bd d t /\ in_geom d t).
      { destruct (on_bd_dec d z) as [Bz|Nz]; [exact (proj1 (proj1 (proj2 Sd) z _ Bz Pe2))|]. exists z. split; [unfold near; rewrite !qabs_lt; repeat split; qlra|]. split; auto. tauto. }
      destruct T as (t & T & Bt & It). destruct (near_off t _ d (SG ++ all_segments a ++ all_segments b) Pe2 (proj1 Sd) Bt) as (q & Nq & Iq & O). apply off_segs_app in O as (O1 & O2). apply off_segs_app in O2 as (O2 & O3).
      exists q. split; [exact (near_trans _ _ _ _ T Nq)|]. split; auto. apply MD; [|now apply Iq]. intros g [<-|[<-|[]]] X; apply on_bd_segments in X as (x & X1 & X); [exact (O2 x X1 X)|exact (O3 x X1 X)]. }
    destruct (bands_limit (reach_of sb) (sp_intersides sp (Some (sh_id sh))) z) as (s & Is & OB).
    { intros e Pe. destruct (CD e Pe) as (q & Nq & Oq & Ia & _). apply (HS q Oq) in Ia as [(x & [] & _)|(s & w & Is & W & IB)]. exists q, s. rewrite (reach_both sb s w W). auto. }
    destruct (BW s Is) as (w & W). rewrite (reach_both sb s w W) in OB. apply sheet_sides in Is as (Hs & Es). exists s, w. split; auto. split; auto. split; auto. split; auto. split; auto.
    intros t Ht Et IB. destruct (band_open t _ z IB) as (e & Pe & N). destruct (CD e Pe) as (q & Nq & Oq & _ & Nb). apply Nb. apply (HS q Oq). right. exists t. split; [apply sheet_sides; auto|exact (N q Nq)].
Qed.

(** ** choose_obviously_irrelevant *)
Lemma unchoose_step sb id v sb' : sb_plex sb = sp -> unchoose_interside sb id v = Ok sb' -> same_but_iok sb sb' /\ g_sub (ok_of sb id) v = Ok (ok_of sb' id) /\ forall k, k <> id -> ok_of sb' k = ok_of sb k.
Proof.
  intros P H. apply unchoose_inv in H as (s & [E1 E2 _ E4 E5 E6 (k & r & K & R & E)]). rewrite P in E1. destruct (made_interside sp id s M E1) as (_ & EI). rewrite EI in *.
  split; [repeat split; auto|]. unfold ok_of. rewrite E. split.
  - rewrite (dget_dset _ id2_eqb_ok). destruct (id2_eqb id id) eqn:EE; [|apply Bool.not_true_iff_false in EE; exfalso; apply EE; now apply id2_eqb_ok]. rewrite K. exact R.
  - intros j NJ. rewrite (dget_dset _ id2_eqb_ok). destruct (id2_eqb j id) eqn:EE; [apply id2_eqb_ok in EE; congruence|reflexivity].
Qed.
Lemma irrelevant_all st st' : sb_plex (fst st) = sp -> choose_obviously_irrelevant A fsqrt st = Ok st' -> same_but_iok (fst st) (fst st') /\
  forall s, side_of sp s -> exists v, irrelevant A fsqrt (fst st) s = Ok v /\ g_sub (ok_of (fst st) (is_id s)) v = Ok (ok_of (fst st') (is_id s)).
Proof.
  intros P H. unfold choose_obviously_irrelevant in H. apply bind_ok in H as ((sb & ci) & H1 & H). apply hcheck_ok in H1. cbn [fst] in H1. subst sb.
  apply bind_ok in H as (u & H1 & H). apply bind_ok in H as (sb & H2 & H). apply Ok_inv in H as <-. cbn [fst]. unfold unchoose_intersides in H2. unfold dict_of in H1. unfold sides_of in H1. rewrite P in H1.
  destruct (dict_of_get _ id2_eqb_ok is_id _ _ _ _ H1) as (ND & D). specialize (ND ltac:(constructor)). pose proof (dict_of_in is_id _ _ _ _ H1) as DI.
  destruct (fold_once (fun sb e => unchoose_interside sb (fst e) (snd e)) fst ok_of same_but_iok (fun a => ltac:(repeat split)) sbi_trans (fun _ e v w => g_sub v (snd e) = Ok w) (fun a b x v w _ R => R)
    (fun sb => sb_plex sb = sp) (fun a b (SB : same_but_iok a b) (E : sb_plex a = sp) => eq_trans (proj1 SB) E) u (fun sb x sb' V _ HS => unchoose_step sb (fst x) (snd x) sb' V HS) ND _ _ P H2) as (SB & R & _).
  split; auto. intros s Hs. assert (IK : In (is_id s) (keys u)) by (apply (DI (is_id s)); right; apply in_map; now apply made_list). apply in_map_iff in IK as ((id & v) & E & I). cbn [fst] in E. subst id.
  pose proof (R _ I) as RI. cbn [fst snd] in RI. exists v. split; auto. apply (dget_nodup _ id2_eqb_ok) in I; auto. apply D in I as [I|(x & Ix & Ex & V)]; [discriminate|]. apply made_list in Ix; auto. now rewrite (made_unique sp s x M Hs Ix (eq_sym Ex)).
Qed.
Lemma irrelevant_ok K sb s o v k' : root_ok fsqrt -> 1 <= K * (fsqrt 1 * fsqrt 1) -> zq 2 <= K * (fsqrt (zq 2) * fsqrt (zq 2)) -> plex_clean sp -> legal sp sb -> side_of sp s -> opposite s sp = Ok o ->
  Geom2d.dot (is_dir s) (is_dir s) = 1 -> irrelevant A fsqrt sb s = Ok v -> g_sub (ok_of sb (is_id s)) v = Ok k' -> forall x,
  (pts k' x -> pts (ok_of sb (is_id s)) x) /\ (pts (ok_of sb (is_id s)) x -> ~ pts (ok_of sb (is_id o)) x -> pts k' x) /\
  (pts k' x -> pts (ok_of sb (is_id o)) x -> forall e, 0 < e -> exists sh p z, dget String.eqb (is_sheet s) (sp_sheets sp) = Some sh /\ x <= along s p /\ along s p < x + e /\ 
     g2_locate (sh_slices_max sh) p = Ok 1%Z /\ dist2 p z <= K * (qq 1 100 * qq 1 100) /\ on_band s (buffer_pure (ok_of sb (is_id s)) (qq 1 100)) z).
Proof.
  intros (F1 & F2 & F3) K1 K2 PC L Hs O D1 H R x. unfold irrelevant in H. rewrite (iv_plex sp sb L), O in H.
  apply bind_ok in H as (k & Ek & H). apply bind_ok in H as (k1 & Ek1 & H). apply bind_ok in H as (f & F & H). apply bind_ok in H as (sh & SH & H). apply bind_ok in H as (fb & FB & H). apply bind_ok in H as (o1 & O1 & H).
  apply bind_ok in H as (fb' & FB' & H). apply bind_ok in H as (o2 & O2 & H). apply bind_ok in H as (p & P & H). apply bind_ok in H as (np & NP & H). cbn [bind] in H. apply bind_ok in H as (y & Y & H). apply bind_ok in H as (ko & Eko & H).
  rewrite buffer_q_ok in Ek1. apply Ok_inv in Ek1 as <-. pose proof (is_geom1d_normal _ (legal_iok sp sb _ _ L Ek)) as Nk. pose proof (is_geom1d_normal _ (legal_iok sp sb _ _ L Eko)) as Nko.
  apply dgetr_ok in Ek, Eko, SH. assert (EK : ok_of sb (is_id s) = k) by (now apply opt_get). assert (EKO : ok_of sb (is_id o) = ko) by (now apply opt_get). rewrite EK in *. rewrite EKO in *. clear EK EKO.
  pose proof (is_geom1d_normal _ (is_geom1d_project _ _ _ _ P)) as Np. pose proof (inv_nml _ _ Np NP) as Nnp. pose proof (and_nml _ _ _ Nnp Nk Y) as Ny. pose proof (and_nml _ _ _ Ny Nko H) as Nv.
  assert (PV : pts k' x <-> pts k x /\ (pts ko x -> pts p x)).
  { rewrite (sub_pts _ _ _ x Nk Nv R), (and_pts _ _ _ x Ny Nko H), (and_pts _ _ _ x Nnp Nk Y), (inv_pts _ _ x Np NP). destruct (SheetbuildP.pts_dec p x), (SheetbuildP.pts_dec ko x); tauto. }
  rewrite PV. split; [tauto|]. split; [tauto|]. intros (K0 & KP) KO e Pe. specialize (KP KO).
  assert (NV : is_dir s <> (0, 0)) by (intros Z; rewrite Z in D1; discriminate D1).
  assert (AL : forall z, shadow (is_dir s) (- is_offs s) z = along s z).
  { intros z. unfold shadow, along. rewrite D1. rewrite <- (qdiv_mul (Geom2d.dot z (is_dir s)) 1) at 1 by discriminate. ring. }
  pose proof (fingers_sharp orc _ _ _ F) as Sf. pose proof (proj2 (buffer_sharp orc fsqrt f _ _ fb F1 F2 F3 FB eq_refl) Sf) as Sfb. pose proof (proj2 (buffer_sharp orc fsqrt f _ _ fb' F1 F2 F3 FB' eq_refl) Sf) as Sfb'.
  pose proof (dget_in _ string_eqb_ok _ _ _ SH) as ISH. pose proof (plex_clean_neat sp PC _ _ ISH) as (_ & _ & Nsl). pose proof (and_neat orc _ _ o1 Nsl (sharp_neat _ Sfb) O1) as So1. pose proof (sub_sharp_neat orc _ _ o2 So1 (sharp_neat _ Sfb') O2) as So2.
  destruct (g2_and_ok A _ _ _ (arrangement_sound orc) (proj1 Nsl) (proj1 Sfb) O1) as (_ & _ & M1). destruct (g2_sub_ok A _ _ _ (arrangement_sound orc) (proj1 So1) (proj1 Sfb') O2) as (_ & _ & M2).
  destruct (proj1 (project_dense o2 (is_dir s) (- is_offs s) p So2 NV P x) KP e [f; fb; fb'; o1; sh_slices_max sh] Pe) as (q & Q1 & Q2 & OQ & Bq & Iq). rewrite AL in Q1, Q2.
  apply M2 in Iq as (Iq & _); [|intros g [<-|[<-|[]]]; apply OQ; cbn; auto]. apply M1 in Iq as (Isl & Ifb); [|intros g [<-|[<-|[]]]; apply OQ; cbn; auto 6].
  destruct (fingers_any A s _ 0 1 f (arrangement_sound orc) (made_rot sp s M Hs) (buffer_normal k (qq 1 100)) F) as (_ & _ & IB).
  destruct (buffer_reach orc fsqrt K f _ _ fb F1 ltac:(qlra) K1 K2 (proj1 Sf) FB eq_refl) as (_ & RE & _).
  assert (Z : exists z, dist2 q z <= K * (qq 1 100 * qq 1 100) /\ (on_bd f z \/ in_geom f z)).
  { destruct (RE ltac:(vm_compute; reflexivity) q Ifb) as [J|(z & Z & DZ)]; [|exists z; auto]. exists q. split; auto. assert (0 <= K) by (destruct (qleb_spec 0 K); auto; exfalso; assert (0 <= (- K) * (fsqrt 1 * fsqrt 1)) by (apply mnn; [qlra|]; apply mnn; qlra); qlra).
    assert (0 <= K * (qq 1 100 * qq 1 100)) by (apply mnn; [auto|vm_compute; discriminate]). replace (dist2 q q) with 0; auto. destruct q. unfold dist2, Geom2d.dot, vsub. cbn [fst snd]. ring. }
  destruct Z as (z & DZ & Cz). exists sh, q, z. split; auto. split; auto. split; auto. split.
  { destruct (g2_locate_ok (sh_slices_max sh) q (proj1 Nsl)) as [(Z & _)|(_ & Z)]; auto; [apply OQ; cbn; auto 6|tauto]. }
  split; auto. destruct (band_dec s (buffer_pure k (qq 1 100)) z) as [|(d & Pd & NB)]; auto. exfalso.
  assert (T : exists t, near d z t /\ ~ on_bd f t /\ in_geom f t).
  { destruct (on_bd_dec f z) as [Bz|Nz]; [exact (proj1 (proj1 (proj2 Sf) z _ Bz Pd))|]. exists z. split; [unfold near; rewrite !qabs_lt; repeat split; qlra|]. split; auto. tauto. }
  destruct T as (t & T & Bt & It). apply (NB t T). now apply IB.
Qed.
End Q.
