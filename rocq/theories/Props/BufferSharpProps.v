(** * Buffers have no slits and are exact at every point: C95, C96. *)
From Verif.Model Require Import SegmentTree CellMerger Arrangement2d Aabb Geom2d.
From Verif.Spec Require Import Plane Region Hull Simple Crisp.
From Verif.Proofs Require Import PyP PolyP WindingP WindingQ WindingR NearP Geom2dP Geom2dOps PlanarP ArrGraphP ArrSoundP ReachP CoverP RibbonR OctagonP RibbonS CrispP CrispQ BufSharpP BufSharpQ.
From Verif.Props Require Import Geom2dProps SetOpsProps BufferProps BufferExactProps CrispProps.

(** ** C95: a buffer of a geometry whose rings never run back along themselves is slit-free *)
Theorem buffer_sharp : forall orc fsqrt g amount q r, 0 < fsqrt 1 -> fsqrt 1 < fsqrt (zq 2) -> fsqrt (zq 2) < zq 2 * fsqrt 1 ->
  g2_buffer (segment_arrangement orc) fsqrt g amount = Ok r -> pval amount = Some (Fin q) ->
  (is_geom2d g -> clean_geom g -> q <> 0 -> sharp r) /\ (sharp g -> sharp r).
Proof.
  intros orc fsqrt g amount q r F1 F2 F3 R V. assert (K : is_geom2d g -> clean_geom g -> q <> 0 -> sharp r).
  { intros G C N. assert (P1 : fsqrt 1 <> 0) by (intros E; rewrite E in F1; qlra). assert (P2 : fsqrt (zq 2) <> 0) by (intros E; rewrite E in F2; qlra).
    destruct (buffer_setup orc fsqrt g amount q r (qabs q / fsqrt 1) (qabs q / fsqrt (zq 2)) F1 F2 F3 (qdiv_mul _ _ P1) (qdiv_mul _ _ P2) R V N) as (B0 & AB & A2 & L & M).
    refine (mink_sharp _ _ B0 AB A2 orc 2 g _ r (conj G C) L _ M). destruct (qltb 0 q); auto. }
  split; auto. intros S. destruct (qeqb_spec q 0) as [->|N]; [|destruct S as (G & _ & C); auto].
  unfold g2_buffer in R. rewrite V in R. destruct (qeqb_spec 0 0) as [_|X]; [injection R as <-; exact S|tauto].
Qed.
Print Assumptions buffer_sharp.

(** ** C96: where a buffer's answers are determined, at every point of the plane *)
Lemma glt_near a b p v : glt (edges_iter (oct a b)) (vsub p v) 1 -> exists eps, 0 < eps /\ forall q, near eps p q -> glt (edges_iter (oct a b)) (vsub q v) 1.
Proof.
  unfold glt. generalize (edges_iter (oct a b)). intros L H. induction L as [|k L IH]; [exists 1; split; [qlra|intros ? _ ? []]|].
  destruct IH as (e1 & E1 & H1); [intros; apply H; cbn; auto|]. specialize (H k (or_introl eq_refl)).
  set (s := 1 * hgt k - nrm k (vsub p v)). assert (S : 0 < s) by (unfold s; qlra). destruct (vsub (snd k) (fst k)) as [kx ky] eqn:EK.
  assert (NN : forall x, 0 <= qabs x /\ x <= qabs x /\ - x <= qabs x) by (intros x; unfold qabs; destruct (qleb_spec 0 x); repeat split; qlra).
  destruct (NN kx) as (X0 & X1 & X2), (NN ky) as (Y0 & Y1 & Y2). set (M := qabs kx + qabs ky + 1). assert (MP : 0 < M) by (unfold M; qlra). assert (MN : M <> 0) by (intros Z; rewrite Z in MP; qlra).
  pose proof (qdiv_mul s M MN) as DV. set (e2 := s / M) in *. assert (E2 : 0 < e2). { destruct (qltb_spec 0 e2); auto. exfalso. assert (0 <= - e2 * M) by (apply mnn; qlra). qlra. } clearbody e2.
  destruct (qmin_spec e1 e2) as (M1 & M2 & M3). specialize (M3 E1 E2). exists (qmin e1 e2). split; auto. intros q Nq j [<-|Hj].
  - destruct (near_mono _ e2 _ _ M2 Nq) as (N1 & N2). set (dx := fst q - fst p) in *. set (dy := snd q - snd p) in *. apply qabs_lt in N1 as (N1 & N1'), N2 as (N2 & N2').
    replace (nrm k (vsub q v)) with (nrm k (vsub p v) + (kx * dy - ky * dx)) by (unfold nrm; rewrite EK; unfold dx, dy, cross, vsub; cbn [fst snd]; ring).
    assert (Q1 : kx * dy <= qabs kx * e2).
    { unfold qabs. destruct (qleb_spec 0 kx); [assert (0 <= kx * (e2 - dy)) by (apply mnn; qlra)|assert (0 <= - kx * (e2 + dy)) by (apply mnn; qlra)]; qlra. }
    assert (Q2 : - (ky * dx) <= qabs ky * e2).
    { unfold qabs. destruct (qleb_spec 0 ky); [assert (0 <= ky * (e2 + dx)) by (apply mnn; qlra)|assert (0 <= - ky * (e2 - dx)) by (apply mnn; qlra)]; qlra. }
    assert (Q3 : s = qabs kx * e2 + qabs ky * e2 + e2) by (rewrite <- DV; unfold M; ring). unfold s in Q3. clear -Q1 Q2 Q3 E2. qlra.
  - apply H1; auto. now apply (near_mono (qmin e1 e2)).
Qed.
Theorem buffer_everywhere : forall orc fsqrt g amount q r a b,
  0 < fsqrt 1 -> fsqrt 1 < fsqrt (zq 2) -> fsqrt (zq 2) < zq 2 * fsqrt 1 -> a * fsqrt 1 = qabs q -> b * fsqrt (zq 2) = qabs q ->
  is_geom2d g -> clean_geom g -> tidy g -> no_nesting g -> g2_buffer (segment_arrangement orc) fsqrt g amount = Ok r -> pval amount = Some (Fin q) ->
  let within p := exists v d, on_bd g v /\ hull (octagon a b) d /\ p = vadd v d in
  let well_within p := exists v d t, on_bd g v /\ hull (octagon a b) d /\ 0 <= t /\ t < 1 /\ p = vadd v (vscale t d) in
  (0 < q -> forall p, (in_geom g p \/ on_bd g p \/ well_within p -> g2_locate r p = Ok 1%Z) /\ (~ in_geom g p -> ~ within p -> g2_locate r p = Ok (-1)%Z)) /\
  (q < 0 -> forall p, (~ in_geom g p \/ on_bd g p \/ well_within p -> g2_locate r p = Ok (-1)%Z) /\ (in_geom g p -> ~ within p -> g2_locate r p = Ok 1%Z)).
Proof.
  intros orc fsqrt g amount q r a b F1 F2 F3 Ea Eb G C T NN R V within well_within. destruct (qeqb_spec q 0) as [Eq|Nq]; [split; intros Hq; exfalso; clear -Eq Hq; qlra|].
  destruct (buffer_exact orc fsqrt g amount q r a b F1 F2 F3 Ea Eb G T NN R V) as (EP & EN). fold within in EP, EN. fold well_within in EP, EN.
  destruct (buffer_sharp orc fsqrt g amount q r F1 F2 F3 R V) as (S & _). destruct (S G C Nq) as (Gr & Cr & _).
  destruct (buffer_setup orc fsqrt g amount q r a b F1 F2 F3 Ea Eb R V Nq) as (Pb & AB & A2 & L & M).
  set (sign := if qltb 0 q then 1 else - (1)) in *. assert (Sg : sign = 1 \/ sign = - (1)) by (unfold sign; destruct (qltb 0 q); auto).
  assert (SP : 0 < q -> sign = 1) by (intros H; unfold sign; destruct (qltb_spec 0 q); auto; exfalso; tauto). assert (SN : q < 0 -> sign = - (1)) by (intros H; unfold sign; destruct (qltb_spec 0 q); auto; exfalso; qlra).
  destruct (mink_reach _ 2 (arrangement_sound orc) g _ sign r G L Sg M) as (_ & HS).
  assert (W : forall p, on_bd r p -> within p).
  { intros p B. destruct (proj1 (HS p) B) as (v & Hv & [(d & Hd & ->)|(d & Hd & ->)]); [exists v, (vscale 1 d)|exists v, (vscale (- (1)) d)]; (split; [auto|split; [apply hull_oct; auto|reflexivity]]). }
  assert (BW : forall p, on_bd g p -> well_within p).
  { intros p B. exists p, (a, 0), 0. split; auto. split; [apply hull_in; cbn; auto|]. split; [qlra|]. split; [qlra|]. vring. }
  (* around a point well within reach the answer is constant off the boundary, so there is no boundary *)
  assert (WW : forall p, well_within p -> ~ on_bd r p /\ (sign = 1 -> in_geom r p) /\ (sign = - (1) -> ~ in_geom r p)).
  { intros p (v & d & t & Hv & Hd & T0 & T1 & Ep). pose proof (reach_glt a b Pb AB A2 p v d t (hull_oct_inv _ _ _ Hd) T0 T1 Ep) as GP.
    assert (LO : forall x, glt (edges_iter (oct a b)) (vsub x v) 1 -> ~ on_bd r x -> (sign = 1 -> in_geom r x) /\ (sign = - (1) -> ~ in_geom r x)).
    { intros x GX NB. apply (exact_lower_g a b Pb AB A2 _ g r sign x v (arrangement_sound orc) G T L Sg M NB Hv GX). }
    assert (NB : ~ on_bd r p); [|split; [auto|now apply LO]]. intros B. destruct (glt_near a b p v GP) as (eps & E & NE). destruct (Cr p eps B E) as ((x & X1 & X2 & X3) & (y & Y1 & Y2 & Y3)).
    destruct (LO x (NE x X1) X2) as (_ & Lx). destruct (LO y (NE y Y1) Y2) as (Ly & _). destruct Sg as [Q|Q]; [exact (Y3 (Ly Q))|exact (Lx Q X3)]. }
  assert (L1 : forall p, ~ on_bd r p -> in_geom r p -> g2_locate r p = Ok 1%Z) by (intros p NB I; destruct (crisp_locates r p Gr Cr) as [(_ & ?)|[(? & _)|(_ & _ & ?)]]; tauto).
  assert (L2 : forall p, ~ on_bd r p -> ~ in_geom r p -> g2_locate r p = Ok (-1)%Z) by (intros p NB I; destruct (crisp_locates r p Gr Cr) as [(_ & ?)|[(_ & _ & ?)|(? & _)]]; tauto).
  assert (IW : forall p, well_within p -> within p).
  { intros p (v & d & t & Hv & Hd & T0 & T1 & ->). exists v, (vscale t d). split; auto. split; auto. apply (hull_seg _ (0, 0) d); [|auto|exists t; repeat split; auto; [qlra|unfold at_t; vring]].
    apply (hull_seg _ (a, 0) (- a, 0)); [apply hull_in; cbn; auto|apply hull_in; cbn; auto 8|]. exists (qq 1 2). split; [qlra|]. split; [qlra|]. unfold at_t, vadd, vsub, vscale. cbn [fst snd]. apply f_equal2; qlra. }
  split; intros Hq p.
  - destruct (EP Hq) as (E1 & E2). split.
    + intros H. assert (H' : (in_geom g p /\ ~ on_bd g p) \/ well_within p) by (destruct H as [H|[H|H]]; auto; destruct (on_bd_dec g p); auto). destruct H' as [(I & B)|H']; [|destruct (WW p H') as (N & P & _); auto].
      assert (NB : ~ on_bd r p). { intros Br. destruct (bd_away g p G B) as (eps & E & AW). destruct (Cr p eps Br E) as (_ & y & Y1 & Y2 & Y3). destruct (AW y Y1) as (A1 & A2'). apply Y3, E2; auto. left. tauto. }
      apply L1; auto.
    + intros I Nw. assert (NB : ~ on_bd r p) by (intros B; apply Nw, W, B). apply L2; auto. intros J. destruct (E1 p J); auto.
  - destruct (EN Hq) as (E1 & E2). split.
    + intros H. assert (H' : (~ in_geom g p /\ ~ on_bd g p) \/ well_within p) by (destruct H as [H|[H|H]]; auto; destruct (on_bd_dec g p); auto). destruct H' as [(I & B)|H']; [|destruct (WW p H') as (N & _ & P); auto].
      assert (NB : ~ on_bd r p). { intros Br. destruct (bd_away g p G B) as (eps & E & AW). destruct (Cr p eps Br E) as ((y & Y1 & Y2 & Y3) & _). destruct (AW y Y1) as (A1 & A2'). destruct (E2 y Y2 Y3). tauto. }
      apply L2; auto. intros J. destruct (E2 p NB J). tauto.
    + intros I Nw. assert (NB : ~ on_bd r p) by (intros B; apply Nw, W, B). apply L1; auto. destruct (E1 p I); tauto.
Qed.
Print Assumptions buffer_everywhere.

Local Definition orc0 : list segment -> nat -> nat -> nat := fun _ _ _ => O.
Local Definition fs (q : Qc) : Qc := if qeqb q 1 then 1 else qq 41 29.
Local Definition box4 : geom2d := [mkSpwh [(0, 0); (0, zq 4); (zq 4, zq 4); (zq 4, 0)] []].
(** the 4x4 box shrunk by 1: its rim goes, points well within reach of it are outside, the rest stays *)
Example buffer_everywhere_ex :
  is_geom2d box4 /\ clean_geom box4 /\ tidy box4 /\ no_nesting box4 /\
  (r <- g2_buffer (segment_arrangement orc0) fs box4 (NInt (-1)) ;;
   a <- g2_locate r (zq 2, zq 2) ;; b <- g2_locate r (0, zq 2) ;; c <- g2_locate r (qq 1 2, zq 2) ;; d <- g2_locate r (1, zq 2) ;; Ok (a, b, c, d)) = Ok (1, -1, -1, 0)%Z.
Proof.
  split; [repeat constructor; vm_compute; reflexivity|]. split.
  { intros r (s & [<-|[]] & [->|[]]). cbn [outer]. apply forward_clean. apply (quad_forward (0, zq 4) (zq 4, 0) (0, - zq 4)). intros E. vm_compute in E. discriminate E. }
  destruct (rect_tidy _ (rect_simple 0 0 (zq 4) (zq 4) ltac:(vm_compute; reflexivity) ltac:(vm_compute; reflexivity))) as (T & N).
  split; [exact T|]. split; [exact N|]. vm_compute. reflexivity.
Qed.
