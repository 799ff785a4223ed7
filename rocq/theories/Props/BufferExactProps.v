(** * The region a 2-d buffer covers, exactly: C83. *)
From Verif.Model Require Import SegmentTree CellMerger Arrangement2d Aabb Geom2d.
From Verif.Spec Require Import Plane Region Hull Simple.
From Verif.Proofs Require Import PyP PolyP WindingP WindingQ WindingR NearP Geom2dP Geom2dOps PlanarP ArrGraphP ArrSoundP ReachP CoverP RibbonR OctagonP RibbonS.
From Verif.Props Require Import Geom2dProps SetOpsProps BufferProps.

Lemma in_ring_dec R x : R <> [] -> ~ on_boundary R x -> in_ring R x \/ ~ in_ring R x.
Proof. intros N B. destruct (locate_ring R x N B) as [(_ & H)|(_ & H)]; auto. Qed.

Section Oct.
Variables a b : Qc.
Hypothesis B0 : 0 < b.
Hypothesis AB : b < a.
Hypothesis A2 : a < zq 2 * b.
Let CE := edges_iter (oct a b).
Local Notation C1 := (oct_C1 a b B0 AB A2).
Local Notation C2 := (oct_C2 a b B0 AB A2).
Local Notation C3 := (oct_C3 a b B0 AB A2).

Lemma nrm_scale k t x : nrm k (vscale t x) = t * nrm k x.
Proof. destruct k. unfold nrm. vring. Qed.
Lemma nrm_add k x y : nrm k (vadd x y) = nrm k x + nrm k y.
Proof. destruct k. unfold nrm. vring. Qed.
Lemma hull_gle d : hull (oct a b) d -> gle CE d 1.
Proof.
  induction 1 as [c Hc|x y z _ IA _ IB (t & T0 & T1 & ->)]; intros k Hk.
  - assert (exists j, In j CE /\ fst j = c) as (j & Hj & <-).
    { change (oct a b) with (map fst CE) in Hc. apply in_map_iff in Hc as (j & Ej & Hj). eauto. }
    pose proof (proj1 (C3 _ _ Hj Hk)). qlra.
  - specialize (IA k Hk). specialize (IB k Hk). replace (at_t (x, y) t) with (vadd (vscale (1 - t) x) (vscale t y)) by (unfold at_t; vring). rewrite nrm_add, !nrm_scale.
    assert (0 <= (1 - t) * (1 * hgt k - nrm k x)) by (apply mnn; qlra). assert (0 <= t * (1 * hgt k - nrm k y)) by (apply mnn; qlra). qlra.
Qed.
Lemma gle_glt d t : gle CE d 1 -> 0 <= t -> t < 1 -> glt CE (vscale t d) 1.
Proof.
  intros G T0 T1 k Hk. rewrite nrm_scale. specialize (G k Hk). pose proof (C1 k Hk). assert (0 <= t * (1 * hgt k - nrm k d)) by (apply mnn; qlra). assert (0 < (1 - t) * hgt k) by (apply mpp; qlra). qlra.
Qed.
Lemma glt_open x dd : glt CE x 1 -> exists eps, 0 < eps /\ forall t, 0 <= t -> t <= eps -> gle CE (vadd x (vscale t dd)) 1.
Proof.
  unfold glt, gle. generalize CE. intros L H. induction L as [|k L IH]; [exists 1; split; [qlra|intros ? _ _ ? []]|].
  destruct IH as (e1 & E1 & H1); [intros; apply H; cbn; auto|]. destruct (lin_pos (1 * hgt k - nrm k x) (- nrm k dd)) as (e2 & E2 & H2); [specialize (H k (or_introl eq_refl)); qlra|].
  exists (qmin e1 e2). split; [unfold qmin; destruct (qleb_spec e1 e2); auto|]. intros t T0 T1 j [<-|Hj].
  - rewrite nrm_add, nrm_scale. assert (t <= e2) by (unfold qmin in T1; destruct (qleb_spec e1 e2); qlra). specialize (H2 t T0 H0). qlra.
  - apply H1; auto. unfold qmin in T1; destruct (qleb_spec e1 e2); qlra.
Qed.
Lemma crossing R p b0 : R <> [] -> gle CE (vsub p b0) 1 ->
  on_boundary R b0 \/ (in_ring R b0 /\ ~ in_ring R p) \/ (~ in_ring R b0 /\ in_ring R p) -> exists b1 l1, on_boundary R b1 /\ gval CE (vsub p b1) l1 /\ l1 <= 1.
Proof.
  intros NE G D. destruct (on_boundary_dec R b0) as [B|NB].
  - destruct (gval_ex CE C2 (vsub p b0)) as (l & Gl). exists b0, l. repeat split; auto. eapply (gval_min CE C1); eauto.
  - destruct D as [D|D]; [tauto|]. destruct (nearest_ex CE C1 C2 C3 R p NE) as (b1 & l1 & N1 & N2 & N3). destruct (qleb_spec l1 1) as [L|L]; [eauto|]. exfalso.
    assert (M : in_ring R b0 <-> in_ring R p); [|tauto]. apply in_ring_move; auto. intros x (t & T0 & T1 & ->) B.
    destruct (gval_ex CE C2 (vsub p (at_t (b0, p) t))) as (l & Gl). specialize (N3 _ _ B Gl). assert (l <= 1); [|qlra]. apply (gval_min CE C1 _ _ _ Gl). intros k Hk.
    replace (vsub p (at_t (b0, p) t)) with (vscale (1 - t) (vsub p b0)) by (unfold at_t; vring). rewrite nrm_scale. specialize (G k Hk). pose proof (C1 k Hk).
    assert (0 <= (1 - t) * (1 * hgt k - nrm k (vsub p b0))) by (apply mnn; qlra). assert (0 <= t * hgt k) by (apply mnn; qlra). qlra.
Qed.
Lemma ring_ribbed s R es p b0 : s = 1 \/ s = - (1) -> minkowski_ribbon_simple_convex R (oct a b) s = Ok es -> simple_ring R -> R <> [] ->
  ~ on_boundary R p -> off_lines (gsegs (oct a b) R) p -> (s = 1 -> ~ in_ring R p) -> (s = - (1) -> in_ring R p) ->
  gle CE (vsub p b0) 1 -> on_boundary R b0 \/ (in_ring R b0 /\ ~ in_ring R p) \/ (~ in_ring R b0 /\ in_ring R p) -> ribbed (oct a b) s R p.
Proof.
  intros S H SR NE NB OFF IO II G D. destruct (crossing R p b0 NE G D) as (b1 & l1 & B1 & G1 & L1).
  destruct (ring_cover (oct a b) (oct_F a b) ltac:(cbn; lia) (oct_FT a b) (oct_FI a b B0 AB A2) (oct_FA a b B0 AB A2) C1 C2 C3 (oct_SYM a b) s R es p b1 l1) as (e & He & I & _); auto.
  exists es, e. auto.
Qed.

Lemma exact_lower_g A g r sign p b0 : arr_sound A -> is_geom2d g -> tidy g -> locate_point_polygon_winding_number (oct a b) (0, 0) = Ok 1%Z -> sign = 1 \/ sign = - (1) ->
  minkowski_convex_op A 2 g (oct a b) sign = Ok r -> ~ on_bd r p -> on_bd g b0 -> glt CE (vsub p b0) 1 ->
  (sign = 1 -> in_geom r p) /\ (sign = - (1) -> ~ in_geom r p).
Proof.
  intros SA G (TS & TH & TP & TI) L Sg R NB HB GP. destruct (mink_ribbed A 2 SA g _ sign r G L Sg R) as (Gr & RB & S & HS).
  assert (RN : forall x, ring_of g x -> x <> []) by (intros x Hx; now apply (proj1 (is_geom2d_rings g) G)).
  pose (rings := flat_map (fun s => outer s :: holes s) g).
  assert (RI : forall x, ring_of g x -> In x rings). { intros x (s & Hs & Q). apply in_flat_map. exists s. split; auto. destruct Q as [->|Q]; cbn; auto. }
  destruct (near_lines p (all_segments r) (S ++ all_segments g ++ flat_map (gsegs (oct a b)) rings)) as (dd & ND).
  { intros s Hs O. apply NB. apply on_bd_segments. eauto. }
  destruct (glt_open _ dd GP) as (eps & E & GO). destruct (ND eps E) as (t & T2 & T3 & AW & OFF). set (q := step p dd t) in *.
  assert (GQ : gle CE (vsub q b0) 1). { replace (vsub q b0) with (vadd (vsub p b0) (vscale t dd)) by (unfold q, step; vring). apply GO; qlra. }
  assert (MV : in_geom r p <-> in_geom r q). { apply in_geom_move; auto. intros x X Y. apply on_bd_segments in Y as (s & Hs & Y). exact (AW s x Hs X Y). }
  apply off_lines_app in OFF as (O1 & OFF). apply off_lines_app in OFF as (O3 & O4). rewrite MV. clearbody q. clear ND GO AW MV GP NB p.
  apply off_lines_segs in O1. apply off_lines_segs in O3. assert (NG : ~ on_bd g q). { intros B. apply on_bd_segments in B as (s & Hs & O). exact (O3 s Hs O). }
  assert (NR : forall x, ring_of g x -> ~ on_boundary x q) by (intros x Hx B; apply NG; exists x; auto).
  assert (OR : forall x, ring_of g x -> off_lines (gsegs (oct a b) x) q). { intros x Hx s Hs. apply O4. apply in_flat_map. eauto. }
  destruct (HS q O1) as (P1 & P2).
  assert (RO : forall s, In s g -> ring_of g (outer s)) by (intros s Hs; exists s; auto). assert (RH : forall s h, In s g -> In h (holes s) -> ring_of g h) by (intros s h Hs Hh; exists s; auto).
  split.
  - intros E1. subst sign. apply P1; auto.
    + destruct HB as (R0 & (s & Hs & HR) & B). exists s. split; auto. destruct (in_ring_dec (outer s) q) as [I|I]; auto. right.
      destruct (RB s Hs) as ((es & Es) & _). apply (ring_ribbed 1 _ es q b0); auto; [intros E'; discriminate E'|].
      destruct HR as [->|HR]; auto. destruct (TH s R0 b0 Hs HR B); auto.
    + intros s h Hs Hh I. destruct (RB s Hs) as (_ & RB'). destruct (RB' h Hh) as (es & Es). apply (ring_ribbed (- (1)) _ es q b0); eauto; [intros E'; discriminate E'|].
      destruct (on_boundary_dec h b0) as [B|B]; auto. right. right. split; auto. apply (TI s h b0); auto.
  - intros E1 I. subst sign. destruct (P2 eq_refl I) as ((s & Hs & Is) & Q1 & Q2). destruct (RB s Hs) as ((es & Es) & RB').
    assert (KO : on_boundary (outer s) b0 \/ (in_ring (outer s) b0 /\ ~ in_ring (outer s) q) \/ (~ in_ring (outer s) b0 /\ in_ring (outer s) q) -> False).
    { intros D. apply (Q1 s Hs). apply (ring_ribbed (- (1)) _ es q b0); auto. intros E'; discriminate E'. }
    assert (KH : forall h, In h (holes s) -> on_boundary h b0 \/ (in_ring h b0 /\ ~ in_ring h q) \/ (~ in_ring h b0 /\ in_ring h q) -> False).
    { intros h Hh D. destruct (RB' h Hh) as (eh & Eh). destruct (Q2 s h Hs Hh) as (W1 & W2). apply W2. replace (- - (1)) with 1 in Eh by ring. apply (ring_ribbed 1 _ eh q b0); eauto. intros E'; discriminate E'. }
    destruct (on_boundary_dec (outer s) b0) as [B|B]; [apply KO; auto|].
    destruct (in_ring_dec (outer s) b0) as [J|J]; [auto|auto| |apply KO; auto].
    assert (DH : (exists h, In h (holes s) /\ on_boundary h b0) \/ (exists h, In h (holes s) /\ in_ring h b0 /\ ~ on_boundary h b0) \/ forall h, In h (holes s) -> ~ on_boundary h b0 /\ ~ in_ring h b0).
    { assert (NH : forall h, In h (holes s) -> h <> []) by (intros h Hh; apply RN, (RH s); auto). revert NH. generalize (holes s). clear. intros l NH. induction l as [|h l IH]; [right; right; intros ? []|].
      destruct IH as [(x & Hx & X)|[(x & Hx & X)|K]]; [intros; apply NH; cbn; auto|left; exists x; cbn; auto|right; left; exists x; cbn; auto|].
      destruct (on_boundary_dec h b0) as [B|B]; [left; exists h; cbn; auto|]. destruct (in_ring_dec h b0) as [J|J]; [apply NH; cbn; auto|auto|right; left; exists h; cbn; auto|].
      right. right. intros x [<-|Hx]; auto. }
    destruct DH as [(h & Hh & X)|[(h & Hh & X & _)|K]].
    + apply (KH h Hh). auto.
    + apply (KH h Hh). right. left. split; auto. apply (Q2 s h Hs Hh).
    + apply (TP s b0 Hs HB).
      * intros (x & (s' & [<-|[]] & [->|Hx]) & B'); [tauto|]. exact (proj1 (K x Hx) B').
      * split; auto. intros h Hh. apply K. exact Hh.
Qed.
Lemma reach_glt p v d t : hull (oct a b) d -> 0 <= t -> t < 1 -> p = vadd v (vscale t d) -> glt CE (vsub p v) 1.
Proof. intros Hd T0 T1 ->. replace (vsub (vadd v (vscale t d)) v) with (vscale t d) by vring. apply gle_glt; auto. now apply hull_gle. Qed.
Lemma exact_lower A g r sign p b0 d t0 : arr_sound A -> is_geom2d g -> tidy g -> locate_point_polygon_winding_number (oct a b) (0, 0) = Ok 1%Z -> sign = 1 \/ sign = - (1) ->
  minkowski_convex_op A 2 g (oct a b) sign = Ok r -> ~ on_bd r p -> on_bd g b0 -> hull (oct a b) d -> 0 <= t0 -> t0 < 1 -> p = vadd b0 (vscale t0 d) ->
  (sign = 1 -> in_geom r p) /\ (sign = - (1) -> ~ in_geom r p).
Proof. intros. eapply exact_lower_g; eauto. eapply reach_glt; eauto. Qed.
End Oct.

Lemma hull_oct a b d s : s = 1 \/ s = - (1) -> hull ((0, 0) :: oct a b) d -> hull (octagon a b) (vscale s d).
Proof.
  intros Sg. induction 1 as [c Hc|x y z _ IA _ IB (t & T0 & T1 & ->)].
  - destruct Hc as [<-|Hc].
    + apply (hull_seg _ (a, 0) (- a, 0)); [apply hull_in; cbn; auto|apply hull_in; cbn; auto 8|]. exists (qq 1 2). split; [qlra|]. split; [qlra|]. unfold at_t, vadd, vsub, vscale. cbn [fst snd]. apply f_equal2; qlra.
    + apply hull_in. cbn in *. unfold vscale. destruct Sg as [-> | ->]; repeat destruct Hc as [<-|Hc]; try destruct Hc; cbn [fst snd]; repeat first [left; apply f_equal2; ring | right].
  - apply (hull_seg _ _ _ _ IA IB). exists t. repeat split; auto. unfold at_t. vring.
Qed.
Lemma hull_oct_inv a b d : hull (octagon a b) d -> hull (oct a b) d.
Proof. apply hull_sub. intros c Hc. apply hull_in. cbn in *. tauto. Qed.

Lemma g2_buffer_inv A fsqrt g amount q r : g2_buffer A fsqrt g amount = Ok r -> pval amount = Some (Fin q) -> q <> 0 ->
  minkowski_convex_op A 2 g (buffer_of_size fsqrt (qabs q)) (if qltb 0 q then 1 else - (1)) = Ok r.
Proof.
  intros R V N. unfold g2_buffer in R. rewrite V in R. destruct (qeqb_spec q 0) as [|_]; [tauto|].
  destruct (FractionFromExact amount) as [q'|] eqn:E; cbn [bind] in R; [|discriminate].
  assert (q' = q). { clear -E V. destruct amount; cbn in E, V; try discriminate; apply some_inv in V; injection V as V; injection E as E; congruence. }
  subst q'. exact R.
Qed.

Lemma buffer_setup orc fsqrt g amount q r a b : 0 < fsqrt 1 -> fsqrt 1 < fsqrt (zq 2) -> fsqrt (zq 2) < zq 2 * fsqrt 1 -> a * fsqrt 1 = qabs q -> b * fsqrt (zq 2) = qabs q ->
  g2_buffer (segment_arrangement orc) fsqrt g amount = Ok r -> pval amount = Some (Fin q) -> q <> 0 ->
  0 < b /\ b < a /\ a < zq 2 * b /\ locate_point_polygon_winding_number (oct a b) (0, 0) = Ok 1%Z /\
  minkowski_convex_op (segment_arrangement orc) 2 g (oct a b) (if qltb 0 q then 1 else - (1)) = Ok r.
Proof.
  intros F1 F2 F3 Ea Eb R V Nq. change (zq 2) with (1 + 1) in F2, F3, Eb.
  assert (Pq : 0 < qabs q) by (unfold qabs; destruct (qleb_spec 0 q), (qc_not_eq _ _ Nq); qlra).
  assert (F2p : 0 < fsqrt (zq 2)) by (change (zq 2) with (1 + 1); qlra).
  destruct (buffer_octagon fsqrt (qabs q) Pq F1 F2p) as (a' & b' & Pa & Pb & Ea' & Eb' & EO). change (zq 2) with (1 + 1) in Eb'.
  assert (a' = a). { assert ((a' - a) * fsqrt 1 = 0) by qlra. apply Qcmult_integral in H as [H|H]; qlra. }
  assert (b' = b). { assert ((b' - b) * fsqrt (1 + 1) = 0) by qlra. apply Qcmult_integral in H0 as [H0|H0]; qlra. } subst a' b'.
  fold (oct a b) in EO.
  assert (AB : b < a). { destruct (qltb_spec b a); auto. exfalso. assert (0 < (fsqrt (1 + 1) - fsqrt 1) * a) by (apply mpp; qlra). assert (0 <= fsqrt (1 + 1) * (b - a)) by (apply mnn; qlra). qlra. }
  assert (A2 : a < zq 2 * b). { change (zq 2) with (1 + 1). destruct (qltb_spec a ((1 + 1) * b)); auto. exfalso. change (zq 2) with (1 + 1) in F3. assert (0 < ((1 + 1) * fsqrt 1 - fsqrt (1 + 1)) * b) by (apply mpp; qlra). assert (0 <= fsqrt 1 * (a - (1 + 1) * b)) by (apply mnn; qlra). qlra. }
  pose proof (buffer_origin fsqrt (qabs q) Pq F1 F2p) as L. rewrite EO in L.
  apply (g2_buffer_inv _ _ _ _ q) in R; auto. rewrite EO in R. auto 6.
Qed.

(** ** C83: off the boundary of the result, and up to the choice made exactly at the octagon's rim, a positive buffer is
    the region plus everything the octagon reaches from its boundary, and a negative one the region minus it *)
Theorem buffer_exact : forall orc fsqrt g amount q r a b,
  0 < fsqrt 1 -> fsqrt 1 < fsqrt (zq 2) -> fsqrt (zq 2) < zq 2 * fsqrt 1 -> a * fsqrt 1 = qabs q -> b * fsqrt (zq 2) = qabs q ->
  is_geom2d g -> tidy g -> no_nesting g -> g2_buffer (segment_arrangement orc) fsqrt g amount = Ok r -> pval amount = Some (Fin q) ->
  let within p := exists v d, on_bd g v /\ hull (octagon a b) d /\ p = vadd v d in
  let well_within p := exists v d t, on_bd g v /\ hull (octagon a b) d /\ 0 <= t /\ t < 1 /\ p = vadd v (vscale t d) in
  (0 < q -> (forall p, in_geom r p -> in_geom g p \/ within p) /\ (forall p, ~ on_bd r p -> in_geom g p \/ well_within p -> in_geom r p)) /\
  (q < 0 -> (forall p, in_geom g p -> in_geom r p \/ within p) /\ (forall p, ~ on_bd r p -> in_geom r p -> in_geom g p /\ ~ well_within p)).
Proof.
  intros orc fsqrt g amount q r a b F1 F2 F3 Ea Eb G T NN R V within well_within.
  destruct (qeqb_spec q 0) as [Eq|Nq]; [split; intros Hq; exfalso; clear -Eq Hq; qlra|].
  destruct (buffer_setup orc fsqrt g amount q r a b F1 F2 F3 Ea Eb R V Nq) as (Pb & AB & A2 & L & R'). assert (F2p : 0 < fsqrt (zq 2)) by qlra.
  destruct (buffer_direction_rel _ fsqrt g amount q r (arrangement_sound orc) F1 F2p G R V) as (Gr & _ & DP & DN).
  clear R. rename R' into R.
  set (sign := if qltb 0 q then 1 else - (1)) in *. assert (Sg : sign = 1 \/ sign = - (1)) by (unfold sign; destruct (qltb 0 q); auto).
  destruct (mink_reach _ 2 (arrangement_sound orc) g _ sign r G L Sg R) as (_ & HS).
  assert (W : forall p, reached_bd g (oct a b) p -> within p).
  { intros p (v & Hv & [(d & Hd & ->)|(d & Hd & ->)]); [exists v, (vscale 1 d)|exists v, (vscale (- (1)) d)]; (split; [auto|split; [apply hull_oct; auto|reflexivity]]). }
  assert (LO : forall p, ~ on_bd r p -> well_within p -> (sign = 1 -> in_geom r p) /\ (sign = - (1) -> ~ in_geom r p)).
  { intros p NB (v & d & t & Hv & Hd & T0 & T1 & Ep). apply (exact_lower a b Pb AB A2 _ g r sign p v d t (arrangement_sound orc) G T L Sg R NB Hv (hull_oct_inv _ _ _ Hd) T0 T1 Ep). }
  assert (BW : forall p, on_bd g p -> well_within p).
  { intros p B. exists p, (a, 0), 0. split; auto. split; [apply hull_in; cbn; auto|]. split; [qlra|]. split; [qlra|]. vring. }
  split; intros Hq; (destruct (qltb_spec 0 q) as [Q|Q]; try (exfalso; clear -Q Hq; qlra)); unfold sign in *.
  - split.
    + intros p I. destruct (proj1 (proj2 (HS p)) eq_refl I); auto.
    + intros p NB [I|I]; [|apply (LO p NB I); auto]. destruct (on_bd_dec g p) as [B|B]; [apply (LO p NB (BW p B)); auto|]. apply (DP Hq NN p); auto.
  - split.
    + intros p I. destruct (proj2 (proj2 (HS p)) eq_refl NN I); auto.
    + intros p NB I. assert (NW : ~ well_within p) by (intros K; apply (LO p NB K); auto). split; [|exact NW]. apply (DN Hq p); auto.
Qed.
Print Assumptions buffer_exact.

(** ** rectangles are tidy *)
Lemma rect_simple x0 y0 x1 y1 : x0 < x1 -> y0 < y1 -> simple_ring [(x0, y0); (x0, y1); (x1, y1); (x1, y0)].
Proof.
  intros X Y. split.
  - intros p w NB (o & Go & ->). pose proof (wsum_fan o _ p NB Go) as E. enough (wsum p [(x0, y0); (x0, y1); (x1, y1); (x1, y0)] = 0 \/ wsum p [(x0, y0); (x0, y1); (x1, y1); (x1, y0)] = 2)%Z by lia.
    clear E Go. set (R := [(x0, y0); (x0, y1); (x1, y1); (x1, y0)]) in *. destruct p as [px py].
    assert (O : forall s, In s (edges_iter R) -> ~ on_seg s (px, py)). { intros s Hs O. apply NB. exists s. split; [now apply is_edge_iter|auto]. }
    assert (V : (y0 <= py /\ py < y1) -> px <> x0 /\ px <> x1).
    { intros (V1 & V2). split; intros ->.
      - apply (O ((x0, y0), (x0, y1))); [cbn; auto|]. apply on_seg_iff. unfold orient, cross, vsub, WindingP.between. cbn [fst snd]. repeat split; [ring|left; split; qlra|left; split; qlra].
      - apply (O ((x1, y1), (x1, y0))); [cbn; auto 6|]. apply on_seg_iff. unfold orient, cross, vsub, WindingP.between. cbn [fst snd]. repeat split; [ring|left; split; qlra|right; split; qlra]. }
    unfold wsum, R. cbn -[delta]. unfold delta, above. cbn [fst snd]. rewrite !xorb_nilpotent. unfold orient, cross, vsub. cbn [fst snd].
    destruct (qltb_spec py y0) as [A1|A1], (qltb_spec py y1) as [A3|A3]; cbn [xorb]; auto; [exfalso; qlra|].
    destruct V as (V1 & V2); [split; qlra|]. unfold sgn.
    replace ((x0 - x0) * (py - y0) - (y1 - y0) * (px - x0)) with ((y1 - y0) * (x0 - px)) by ring. replace ((x1 - x1) * (py - y1) - (y0 - y1) * (px - x1)) with ((y1 - y0) * (px - x1)) by ring.
    assert (K : forall u, qltb 0 ((y1 - y0) * u) = qltb 0 u /\ qltb ((y1 - y0) * u) 0 = qltb u 0).
    { intros u. assert (D : 0 < y1 - y0) by qlra. set (dy := y1 - y0) in *. clearbody dy. split.
      - destruct (qltb_spec 0 u), (qltb_spec 0 (dy * u)); auto; exfalso; [apply n, mpp; auto|]. assert (0 <= dy * - u) by (apply mnn; qlra). qlra.
      - destruct (qltb_spec u 0), (qltb_spec (dy * u) 0); auto; exfalso; [apply n; assert (0 < dy * - u) by (apply mpp; qlra); qlra|]. assert (0 <= dy * u) by (apply mnn; qlra). qlra. }
    destruct (K (x0 - px)) as (-> & ->), (K (px - x1)) as (-> & ->).
    destruct (qltb_spec 0 (x0 - px)), (qltb_spec (x0 - px) 0), (qltb_spec 0 (px - x1)), (qltb_spec (px - x1) 0); cbn; auto; exfalso; try qlra;
      destruct (qc_not_eq _ _ V1), (qc_not_eq _ _ V2); qlra.
  - intros i v (k & K0 & K). unfold v in K. rewrite <- !(Nat.add_mod_idemp_l i) in K by discriminate. pose proof (Nat.mod_upper_bound i 4 ltac:(lia)) as M. cbn [length] in K. set (m := (i mod 4)%nat) in *. clearbody m.
    assert (C : (m = 0 \/ m = 1 \/ m = 2 \/ m = 3)%nat) by lia.
    destruct C as [C|[C|[C|C]]]; rewrite C in K; cbn in K; unfold vsub, vscale in K; cbn [fst snd] in K; apply pair_inv in K as (E1 & E2); qlra.
Qed.
Lemma rect_tidy r : simple_ring r -> tidy [mkSpwh r []] /\ no_nesting [mkSpwh r []].
Proof.
  intros S. split; [|intros s s' h p _ [<-|[]] []]. split; [|split; [|split]].
  - intros x (s & [<-|[]] & [->|[]]). exact S.
  - intros s h b [<-|[]] [].
  - intros s b [<-|[]] B NB. tauto.
  - intros s h b [<-|[]] [].
Qed.
Local Definition orc0 : list segment -> nat -> nat -> nat := fun _ _ _ => O.
Local Definition fs (q : Qc) : Qc := if qeqb q 1 then 1 else qq 41 29.
Local Definition box4 : geom2d := [mkSpwh [(0, 0); (0, zq 4); (zq 4, zq 4); (zq 4, 0)] []].
(** the 4x4 box with the code's own square roots: it meets the hypotheses, the buffer by 1 exists, and the point (-3/5, -3/5) is
    within reach of the corner, the point (-4/5, -4/5) is not *)
Example buffer_exact_ex :
  0 < fs 1 /\ fs 1 < fs (zq 2) /\ fs (zq 2) < zq 2 * fs 1 /\ 1 * fs 1 = qabs 1 /\ qq 29 41 * fs (zq 2) = qabs 1 /\ is_geom2d box4 /\ tidy box4 /\ no_nesting box4 /\
  (exists v d t, on_bd box4 v /\ hull (octagon 1 (qq 29 41)) d /\ 0 <= t /\ t < 1 /\ (- qq 3 5, - qq 3 5) = vadd v (vscale t d)) /\
  (r <- g2_buffer (segment_arrangement orc0) fs box4 (NInt 1) ;;
   a <- g2_locate r (- qq 3 5, - qq 3 5) ;; b <- g2_locate r (- qq 4 5, - qq 4 5) ;; Ok (a, b)) = Ok (1, -1)%Z.
Proof.
  do 3 (split; [vm_compute; reflexivity|]). do 2 (split; [apply Qc_is_canon; vm_compute; reflexivity|]).
  split; [repeat constructor; vm_compute; reflexivity|]. destruct (rect_tidy _ (rect_simple 0 0 (zq 4) (zq 4) ltac:(vm_compute; reflexivity) ltac:(vm_compute; reflexivity))) as (T & N).
  split; [exact T|]. split; [exact N|]. split.
  - exists (0, 0), (- qq 29 41, - qq 29 41), (qq 123 145). split; [|split].
    + exists [(0, 0); (0, zq 4); (zq 4, zq 4); (zq 4, 0)]. split; [eexists; split; [left; reflexivity|left; reflexivity]|]. apply vertex_on_boundary. left. reflexivity.
    + apply hull_in. cbn. auto 8.
    + split; [vm_compute; discriminate|]. split; [vm_compute; reflexivity|]. unfold vadd, vscale. cbn [fst snd]. apply f_equal2; apply Qc_is_canon; vm_compute; reflexivity.
  - vm_compute. reflexivity.
Qed.
