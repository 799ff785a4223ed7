(** The boundary of the result of a set operation separates inside from outside everywhere. *)
From Verif.Model Require Import SegmentTree CellMerger Arrangement2d Aabb Geom2d.
From Verif.Spec Require Import Plane Subdivision Region Area Crisp.
From Verif.Proofs Require Import PyP PolyP WindingP WindingQ WindingR NearP DictP SweepOrd SweepL PlanarP SubdivP MergerQ ArrVertexP ArrGraphP
  ArrInitP ArrTraceP ArrSampleP Geom2dP Geom2dOps ArrSoundP AreaP LevelP PolyCellsP FlatP JumpP CoverP.
From Verif.Props Require Import Primitive2dProps Frangle2dProps Scan2dProps LocateProps.

(** ** nearness *)
Lemma qabs_lt a e : qabs a < e <-> - e < a /\ a < e.
Proof. unfold qabs. destruct (qleb_spec 0 a); (split; [intros H; split; qlra|intros (H1 & H2); qlra]). Qed.
Lemma near_trans e p q r : near (e * qq 1 2) p q -> near (e * qq 1 2) q r -> near e p r.
Proof. unfold near. rewrite !qabs_lt. intros ((A1 & A2) & A3 & A4) ((B1 & B2) & B3 & B4). repeat split; qlra. Qed.
Lemma near_mono e e' p q : e <= e' -> near e p q -> near e' p q.
Proof. unfold near. rewrite !qabs_lt. intros H ((A1 & A2) & A3 & A4). repeat split; qlra. Qed.
Lemma near_self e p : 0 < e -> near e p p.
Proof. unfold near. rewrite !qabs_lt. intros H. repeat split; qlra. Qed.
Lemma near_sym e p q : near e p q -> near e q p.
Proof. unfold near. rewrite !qabs_lt. intros ((A1 & A2) & A3 & A4). repeat split; qlra. Qed.
Lemma near_step e p d : 0 < e -> exists k, 0 < k /\ forall t, 0 <= t -> t <= k -> near e p (step p d t).
Proof.
  intros H. destruct (lin_pos e (fst d) H) as (k1 & K1 & L1), (lin_pos e (- fst d) H) as (k2 & K2 & L2), (lin_pos e (snd d) H) as (k3 & K3 & L3), (lin_pos e (- snd d) H) as (k4 & K4 & L4).
  destruct (qmin_spec k1 k2) as (A1 & A2 & A3), (qmin_spec k3 k4) as (B1 & B2 & B3), (qmin_spec (qmin k1 k2) (qmin k3 k4)) as (C1 & C2 & C3).
  exists (qmin (qmin k1 k2) (qmin k3 k4)). split; [auto|]. intros t T0 T1. unfold near. rewrite !qabs_lt. unfold step, vadd, vscale. cbn [fst snd].
  specialize (L1 t T0 ltac:(qlra)). specialize (L2 t T0 ltac:(qlra)). specialize (L3 t T0 ltac:(qlra)). specialize (L4 t T0 ltac:(qlra)).
  clear -L1 L2 L3 L4. repeat split; qlra.
Qed.
Lemma near_inner e p eps : on_seg e p -> 0 < eps -> exists x, inner e x /\ near eps p x.
Proof.
  intros (s & S0 & S1 & ->) H. destruct (near_step eps (at_t e s) (vscale (qq 1 2 - s) (dir e)) H) as (k & K & N).
  destruct (qmin_spec k (qq 1 2)) as (A1 & A2 & A3). set (t := qmin k (qq 1 2)) in *. assert (T : 0 < t) by (apply A3; [auto|vm_compute; reflexivity]). clearbody t.
  exists (step (at_t e s) (vscale (qq 1 2 - s) (dir e)) t). split; [|apply N; [qlra|auto]].
  exists (s + t * (qq 1 2 - s)). assert (H0 : qq 1 2 + qq 1 2 = 1) by (apply Qc_is_canon; reflexivity). assert (P0 : 0 < qq 1 2) by (vm_compute; reflexivity).
  assert (P1 : 0 < t * qq 1 2) by (apply mpp; auto). assert (P2 : 0 <= (1 - t) * s) by (apply mnn; qlra). assert (P3 : 0 <= (1 - t) * (1 - s)) by (apply mnn; qlra).
  clear -P1 P2 P3 H0. split; [qlra|]. split; [qlra|]. apply pteq; vec; ring.
Qed.
Definition perp (e : segment) : point := (snd (dir e), - fst (dir e)).
Lemma sq_nonneg (x : Qc) : 0 <= x * x.
Proof. destruct (qleb_spec 0 x); [apply mnn; auto|]. replace (x * x) with ((- x) * (- x)) by ring. apply mnn; qlra. Qed.
Lemma sq_pos (x : Qc) : x <> 0 -> 0 < x * x.
Proof. intros N. destruct (qc_not_eq _ _ N); [replace (x * x) with ((- x) * (- x)) by ring|]; apply mpp; qlra. Qed.
Definition len2 (e : segment) : Qc := fst (dir e) * fst (dir e) + snd (dir e) * snd (dir e).
Lemma len2_pos e : fst e <> snd e -> 0 < len2 e.
Proof.
  intros N. unfold len2. destruct (qeqb_spec (fst (dir e)) 0) as [A|A].
  - destruct (qeqb_spec (snd (dir e)) 0) as [B|B].
    + exfalso. apply N. apply pteq; vec; qlra.
    + pose proof (sq_pos _ B). pose proof (sq_nonneg (fst (dir e))). qlra.
  - pose proof (sq_pos _ A). pose proof (sq_nonneg (snd (dir e))). qlra.
Qed.
Lemma perp_right e : fst e <> snd e -> right_of e (perp e).
Proof.
  intros N. pose proof (len2_pos e N) as P. unfold right_of, perp. unfold len2 in P. unfold cross. cbn [fst snd]. qlra.
Qed.

(** every point close to an inner point of an edge is at a small distance from an inner point of the edge *)
Lemma side_coords e s eps : fst e <> snd e -> 0 < eps -> exists dl, 0 < dl /\ forall q, near dl (at_t e s) q ->
  exists u t, - eps < u - s /\ u - s < eps /\ - eps < t /\ t < eps /\ q = step (at_t e u) (perp e) t.
Proof.
  intros N H. pose proof (len2_pos e N) as P. set (L := len2 e) in *. assert (NL : L <> 0) by (intros Z; qlra).
  set (a := fst (dir e)) in *. set (b := snd (dir e)) in *. assert (EL : L = a * a + b * b) by reflexivity.
  set (M := 1 + qabs a + qabs b). assert (PM : 0 < M /\ qabs a <= M /\ qabs b <= M /\ 0 <= qabs a /\ 0 <= qabs b /\ qabs a + qabs b < M).
  { unfold M, qabs. destruct (qleb_spec 0 a), (qleb_spec 0 b); repeat split; qlra. }
  destruct PM as (PM & _ & _ & A0 & B0 & AB). assert (NM : M <> 0) by (intros Z; qlra).
  pose proof (qdiv_mul (eps * L) M NM) as D. set (dl := eps * L / M) in *. assert (PD : 0 < dl).
  { destruct (qltb_spec 0 dl); auto. exfalso. assert (0 < eps * L) by (apply mpp; auto). assert (0 <= - dl * M) by (apply mnn; qlra). qlra. }
  clearbody dl. exists dl. split; auto. intros q (Q1 & Q2).
  set (x := fst q - fst (at_t e s)) in *. set (y := snd q - snd (at_t e s)) in *.
  assert (BD : forall v w, qabs v <= dl -> qabs w <= dl -> forall a b, qabs a + qabs b < M -> - (eps * L) < v * a + w * b /\ v * a + w * b < eps * L).
  { intros v w V W c d CD. rewrite <- D.
    assert (K : forall v c, qabs v <= dl -> - (dl * qabs c) <= v * c /\ v * c <= dl * qabs c).
    { clear -PD. intros v c V. unfold qabs in *. destruct (qleb_spec 0 v), (qleb_spec 0 c).
      - assert (0 <= (dl - v) * c) by (apply mnn; qlra). assert (0 <= v * c) by (apply mnn; qlra). split; qlra.
      - assert (0 <= (dl - v) * - c) by (apply mnn; qlra). assert (0 <= v * - c) by (apply mnn; qlra). split; qlra.
      - assert (0 <= (dl + v) * c) by (apply mnn; qlra). assert (0 <= - v * c) by (apply mnn; qlra). split; qlra.
      - assert (0 <= (dl + v) * - c) by (apply mnn; qlra). assert (0 <= - v * - c) by (apply mnn; qlra). split; qlra. }
    destruct (K v c V) as (K1 & K2), (K w d W) as (K3 & K4). assert (0 < dl * (M - qabs c - qabs d)) by (apply mpp; qlra). clear -K1 K2 K3 K4 H0. split; qlra. }
  destruct (BD x y ltac:(qlra) ltac:(qlra) a b AB) as (U1 & U2).
  assert (AN : qabs (- a) = qabs a) by (clear; unfold qabs; destruct (qleb_spec 0 a), (qleb_spec 0 (- a)); try qlra; exfalso; qlra).
  destruct (BD x y ltac:(qlra) ltac:(qlra) b (- a)) as (T1 & T2); [rewrite AN; qlra|].
  pose proof (qdiv_mul (x * a + y * b) L NL) as DU. set (u := (x * a + y * b) / L) in *. clearbody u.
  pose proof (qdiv_mul (x * b + y * - a) L NL) as DT. set (t := (x * b + y * - a) / L) in *. clearbody t.
  assert (LT : forall z, - (eps * L) < z * L -> z * L < eps * L -> - eps < z /\ z < eps).
  { clear -P. intros z Z1 Z2. split.
    - destruct (qltb_spec (- eps) z); auto. exfalso. assert (0 <= (- eps - z) * L) by (apply mnn; qlra). qlra.
    - destruct (qltb_spec z eps); auto. exfalso. assert (0 <= (z - eps) * L) by (apply mnn; qlra). qlra. }
  rewrite <- DU in U1, U2. rewrite <- DT in T1, T2. destruct (LT u U1 U2) as (V1 & V2), (LT t T1 T2) as (W1 & W2).
  exists (s + u), t. split; [qlra|]. split; [qlra|]. split; [auto|]. split; [auto|].
  assert (CA : forall z w, z * L = w * L -> z = w).
  { clear -NL. intros z w Z. assert (Y : (z - w) * L = 0) by qlra. apply Qcmult_integral in Y as [Y|Y]; [qlra|contradiction]. }
  assert (E1 : x = u * a + t * b) by (apply CA; transitivity (a * (u * L) + b * (t * L)); [rewrite DU, DT, EL; ring|ring]).
  assert (E2 : y = u * b + t * - a) by (apply CA; transitivity (b * (u * L) + - a * (t * L)); [rewrite DU, DT, EL; ring|ring]).
  clear -E1 E2. unfold x, y, a, b in *. apply pteq; unfold perp; vec; qlra.
Qed.

(** ** both sides of an edge *)
Section Sides.
Variable E : list segment.
Hypothesis E_sym : forall e, In e E -> In (rev_e e) E.
Hypothesis E_nd : forall e, In e E -> fst e <> snd e.
Hypothesis E_planar : planar E.
Lemma two_sides (T : point -> Prop) e x : (forall p q, free E p q -> T p -> T q) -> In e E -> inner e x -> RT T e -> RT T (rev_e e) ->
  exists dl, 0 < dl /\ forall q, near dl x q -> ~ on_seg e q -> T q.
Proof.
  intros TM I IX R1 R2. pose proof IX as (s & S0 & S1 & Ex). pose proof (perp_right e (E_nd e I)) as PR. unfold right_of in PR.
  pose (m := qmin s (1 - s) * qq 1 2). destruct (qmin_spec s (1 - s)) as (M1 & M2 & M3). assert (H12 : qq 1 2 + qq 1 2 = 1) by (apply Qc_is_canon; reflexivity).
  assert (PM : 0 < qmin s (1 - s)) by (apply M3; qlra). assert (BM : 0 < m /\ m < s /\ m < 1 - s).
  { unfold m. assert (0 < qmin s (1 - s) * qq 1 2) by (apply mpp; [auto|vm_compute; reflexivity]). assert (EQ : qmin s (1 - s) * qq 1 2 + qmin s (1 - s) * qq 1 2 = qmin s (1 - s)) by (transitivity (qmin s (1 - s) * (qq 1 2 + qq 1 2)); [ring|rewrite H12; ring]).
    clear -H M1 M2 EQ. split; [auto|split; qlra]. }
  clearbody m. clear M1 M2 M3 PM H12. destruct BM as (B0 & B1 & B2).
  set (d' := vscale (- (1)) (perp e)).
  destruct (strip_free E E_nd E_planar e (perp e) (s - m) (s + m)) as (dl1 & DL1 & F1); auto; try qlra.
  destruct (strip_free E E_nd E_planar e d' (s - m) (s + m)) as (dl2 & DL2 & F2); auto; try qlra.
  { replace (cross (dir e) d') with (- cross (dir e) (perp e)) by (unfold d'; vec; ring). intros Z. qlra. }
  destruct (R1 x (perp e) IX PR) as (k1 & K1 & T1).
  destruct (R2 x d') as (k2 & K2 & T2); [now apply inner_rev|unfold right_of; replace (cross (dir (rev_e e)) d') with (cross (dir e) (perp e)) by (unfold d', rev_e; vec; ring); exact PR|].
  destruct (qmin_spec dl1 k1) as (A1 & A2 & A3), (qmin_spec dl2 k2) as (C1 & C2 & C3), (qmin_spec dl1 dl2) as (G1 & G2 & G3), (qmin_spec m (qmin dl1 dl2)) as (Q1 & Q2 & Q3).
  specialize (T1 _ (A3 DL1 K1) A2). specialize (T2 _ (C3 DL2 K2) C2).
  destruct (side_coords e s (qmin m (qmin dl1 dl2)) (E_nd e I)) as (dl & DL & SC); [auto|].
  exists dl. split; auto. intros q NQ NO. rewrite Ex in NQ. destruct (SC q NQ) as (u & t & U1 & U2 & V1 & V2 & ->).
  destruct (qeqb_spec t 0) as [->|Nt].
  - exfalso. apply NO. exists u. split; [qlra|]. split; [qlra|]. apply pteq; vec; ring.
  - destruct (qc_not_eq _ _ Nt) as [Lt|Lt].
    + replace (step (at_t e u) (perp e) t) with (step (at_t e u) d' (- t)) by (apply pteq; unfold d'; vec; ring).
      rewrite Ex in T2. refine (strip_move E T TM e d' (s - m) (s + m) dl2 F2 s (qmin dl2 k2) u (- t) _ _ _ _ _ _ _ _ T2); try qlra; auto.
    + rewrite Ex in T1. refine (strip_move E T TM e (perp e) (s - m) (s + m) dl1 F1 s (qmin dl1 k1) u t _ _ _ _ _ _ _ _ T1); try qlra; auto.
Qed.
End Sides.

(** ** the edges of a result *)
Definition redges (r : geom2d) : list segment := flat_map edges_iter (map outer r) ++ flat_map edges_iter (map (@rev point) (flat_map holes r)).
Definition movable (E : list segment) (T : point -> Prop) : Prop := forall p q, free E p q -> T p -> T q.
Lemma noopp_dec (l : list segment) : noopp l l \/ exists e, In e l /\ In (rev_e e) l.
Proof.
  assert (G : forall m, (forall e, In e m -> ~ In (rev_e e) l) \/ exists e, In e m /\ In (rev_e e) l).
  { induction m as [|e m IH]; [left; intros ? []|]. destruct (in_dec seg_dec (rev_e e) l) as [I|I]; [right; exists e; cbn; auto|].
    destruct IH as [IH|(f & F1 & F2)]; [left; intros x [<-|X]; auto|right; exists f; cbn; auto]. }
  apply G.
Qed.
Theorem arrangement_edges orc geoms op r : Forall is_geom2d geoms -> op (map (fun _ => false) geoms) = false ->
  arrangement_op (segment_arrangement orc) geoms op = Ok r ->
  exists E, (forall e, In e E -> In (rev_e e) E) /\ (forall e, In e E -> fst e <> snd e) /\ planar E /\ (forall p, off E p <-> off_all geoms p) /\
    (forall e, In e E -> exists g rg, In g geoms /\ ring_of g rg /\ forall x, on_seg e x -> on_boundary rg x) /\
    incl (redges r) E /\ NoDup (redges r) /\ (forall e, In e (redges r) -> RT (fun p => in_geom r p /\ off E p) e) /\
    ((forall e c, In e E -> ~ (forall T, movable E T -> T c -> RT T e /\ RT T (rev_e e))) ->
     noopp (redges r) (redges r) /\ forall e, In e (redges r) -> RT (fun p => ~ in_geom r p /\ off E p) (rev_e e)).
Proof.
  intros F OP H. pose proof (arrangement_sound orc geoms op r F OP H) as (GR & BD & IO).
  unfold arrangement_op in H. cbn [arr_make arr_cell_points arr_poly_cells segment_arrangement arr_t arr_cell] in H.
  set (sid := flat_map all_segments geoms) in *.
  assert (ND : Forall nondeg sid).
  { apply Forall_forall. intros s S. apply in_flat_map in S as (g & Hg & S). apply is_edge_segments in S as (rg & R & E).
    rewrite Forall_forall in F. apply (proj1 (is_geom2d_rings g) (F g Hg) rg R). auto. }
  apply bind_ok in H as (a & MK & H). apply bind_ok in H as (cps & CP & H). injection CP as <-. apply bind_ok in H as (cells & SC & H).
  apply bind_ok in H as (polys & PC & H). apply bind_ok in H as (u & CK & H). injection H as ->.
  pose proof (arrangement_ok (orc sid) sid a ND MK) as AO. pose proof (ao_graph _ _ AO) as G.
  assert (OFF : forall p, off (a_half_edges a) p <-> off_all geoms p).
  { intros p. split.
    - intros O g Hg B. apply on_bd_segments in B as (s & S & OS). destruct (go_cover _ _ _ G s p) as (e & E & OE); auto; [|exact (O e E OE)].
      apply in_flat_map. eauto.
    - intros O e E OE. destruct (go_on _ _ _ G e p E OE) as (s & S & OS). apply in_flat_map in S as (g & Hg & S). apply (O g Hg). apply on_bd_segments. eauto. }
  set (E := a_half_edges a) in *.
  assert (BR : forall p, off E p -> ~ on_bd r p) by (intros p O B; apply (BD p B); now apply OFF).
  destruct (ao_cells _ _ AO) as (paths & PM & IC & CO). fold E in PM, IC, CO.
  destruct (select_split E geoms op (a_cells a) paths cells CO _ SC) as (sel & rest & PS & MS & NEc & S1 & S2).
  set (Zs := flat_map edges_iter cells).
  assert (ZC : Zs = concat sel) by (unfold Zs; rewrite flat_map_concat_map, MS; reflexivity).
  assert (PE : Permutation E (Zs ++ concat rest)) by (rewrite ZC, PM, <- concat_app; clear -PS; induction PS; cbn; [auto|now apply Permutation_app_head| |etransitivity; eauto]; rewrite !app_assoc; apply Permutation_app_tail, Permutation_app_comm).
  assert (NDE : NoDup (Zs ++ concat rest)) by (eapply Permutation_NoDup; [exact PE|exact (go_nd _ _ _ G)]).
  assert (ZE : incl Zs E) by (intros e I; rewrite PE; apply in_or_app; auto).
  assert (IP : forall p, In p paths -> incl p E) by (intros p P e I; rewrite PM; apply in_concat; eauto).
  assert (ICp : forall p, In p (sel ++ rest) -> In p paths /\ is_cell E (a_vertices a) p).
  { intros p P. assert (In p paths) by (rewrite PS; auto). split; auto. rewrite Forall_forall in IC. auto. }
  assert (SM : forall p q, free E p q -> in_geom r p -> in_geom r q).
  { intros p q FR. apply (in_geom_move r p q GR). intros x X. apply BR. now apply FR. }
  assert (OS : forall c, In c (a_cells a) -> off E (fc_point c)).
  { intros c C. clear -CO C. induction CO as [|q c' qs cs H CO IH]; [destruct C|]. destruct C as [->|C]; auto.
    destruct H as (_ & _ & e & l & _ & v & t & _ & TP & -> & O). apply O; auto. apply Qcle_refl. }
  assert (SMP : forall c b, In c (a_cells a) -> op_at geoms op (fc_point c) = Ok b -> (in_geom r (fc_point c) <-> b = true)).
  { intros c b C B. pose proof (OS c C) as O.
    apply OFF in O. rewrite (IO _ O). destruct (op_at_ok geoms op _ b F O B) as (bs & BB & <-). split.
    - intros (bs' & B' & X). now rewrite (bits_unique _ _ _ _ BB B').
    - intros X. eauto. }
  assert (FE : forall p q, free E p q -> off E q) by (intros p q FR; apply FR; exists 1; split; [qlra|]; split; [qlra|]; apply pteq; vec; ring).
  assert (RZ : forall e, In e Zs -> RT (fun p => in_geom r p /\ off E p) e).
  { intros e I. rewrite ZC in I. apply in_concat in I as (p & P & I). destruct (S1 p P) as (c & C1 & C2 & C3).
    destruct (ICp p) as (P1 & P2); [apply in_or_app; auto|]. apply (path_RT sid a AO (fun p => in_geom r p /\ off E p)) with (path := p) (c := c); auto.
    - intros x y FR (X & _). split; [now apply (SM x)|now apply (FE x)].
    - split; [now apply (SMP c true)|auto]. }
  assert (RR : forall e, In e E -> ~ In e Zs -> RT (fun p => ~ in_geom r p /\ off E p) e).
  { intros e IE NI. rewrite PE in IE. apply in_app_or in IE as [I|I]; [contradiction|]. apply in_concat in I as (p & P & I). destruct (S2 p P) as (c & C1 & C2 & C3).
    destruct (ICp p) as (P1 & P2); [apply in_or_app; auto|]. apply (path_RT sid a AO (fun p => ~ in_geom r p /\ off E p)) with (path := p) (c := c); auto.
    - intros x y FR (X & _). split; [|now apply (FE x)]. intros Y. apply X. apply (SM y); auto. now apply free_sym.
    - split; [|auto]. intros X. apply (SMP c false) in X; auto. discriminate. }
  destruct (poly_cells_keep a cells r) as ((X & PX) & NO); auto; [eapply MergerP.NoDup_app_l; eauto|]. fold Zs in PX. fold (redges r) in PX, NO.
  assert (NZ : NoDup (X ++ map rev_seg X ++ redges r)) by (eapply Permutation_NoDup; [exact PX|]; eapply MergerP.NoDup_app_l; eauto).
  assert (FZ : incl (redges r) Zs) by (intros e I; rewrite PX; apply in_or_app; right; apply in_or_app; auto).
  exists E. split; [intros e; apply (go_rev _ _ _ e G)|]. split.
  { intros e I. apply (go_sub _ _ _ G) in I. apply I. }
  split; [exact (go_planar _ _ _ G)|]. split; [exact OFF|]. split.
  { intros e I. apply (go_sub _ _ _ G) in I as (_ & _ & _ & (s & S & SA & SB) & _). apply in_flat_map in S as (g & Hg & S). apply is_edge_segments in S as (rg & R & IE).
    exists g, rg. split; auto. split; auto. intros x (t & T0 & T1 & ->). exists s. split; auto.
    replace (at_t e t) with (vadd (fst e) (vscale t (vsub (snd e) (fst e)))) by reflexivity. now apply on_seg_conv. }
  split; [intros e I; auto|]. split; [apply MergerP.NoDup_app_r in NZ; now apply MergerP.NoDup_app_r in NZ|]. split; [auto|].
  intros CL. assert (NN : noopp (redges r) (redges r)).
  { apply NO. intros c C. destruct (noopp_dec (edges_iter c)) as [D|(e & E1 & E2)]; auto. exfalso.
    assert (PI : In (edges_iter c) sel) by (rewrite <- MS; now apply in_map). destruct (S1 _ PI) as (fc & C1 & C2 & _).
    destruct (ICp (edges_iter c)) as (P1 & P2); [apply in_or_app; auto|].
    apply (CL e (fc_point fc)); [now apply (IP _ P1)|]. intros T TM TC.
    split; apply (path_RT sid a AO T TM (edges_iter c) fc); auto. }
  split; auto. intros e I. apply RR; [apply (go_rev _ _ _ e G); auto|]. intros J. rewrite PX in J. apply in_app_or in J as [J|J]; [|apply in_app_or in J as [J|J]].
  - apply (MergerP.NoDup_app_disj _ _ e (MergerP.NoDup_app_r _ _ NZ)); auto. apply in_map_iff. exists (rev_e e). split; auto. destruct e; reflexivity.
  - apply (MergerP.NoDup_app_disj _ _ e NZ); [|apply in_or_app; auto]. apply in_map_iff in J as (f & J1 & J2). replace e with f; auto. destruct e as [e1 e2], f as [f1 f2]. unfold rev_seg, rev_e in J1. cbn [fst snd] in J1. congruence.
  - exact (NN e I J).
Qed.

Lemma ring_ne g r : is_geom2d g -> ring_of g r -> r <> [].
Proof. intros G R. exact (proj1 (proj1 (is_geom2d_rings g) G r R)). Qed.
Lemma redges_ring r rg s : ring_of r rg -> In s (edges_iter rg) -> In s (redges r) \/ In (rev_e s) (redges r).
Proof.
  intros (p & P & [->|H]) S; unfold redges.
  - left. apply in_or_app. left. apply in_flat_map. exists (outer p). split; auto. now apply in_map.
  - right. apply in_or_app. right. apply in_flat_map. exists (rev rg). split; [apply in_map; apply in_flat_map; eauto|].
    apply (Permutation_in _ (Permutation_sym (edges_iter_rev rg))). apply in_map_iff. exists s. auto.
Qed.
Lemma nodup_flat {A B} (f : A -> list B) l x : NoDup (flat_map f l) -> In x l -> NoDup (f x).
Proof. apply MergerP.NoDup_flat_sub. Qed.
Lemma nodup_ring r rg : NoDup (redges r) -> ring_of r rg -> NoDup (edges_iter rg).
Proof.
  intros N (p & P & [->|H]); unfold redges in N.
  - apply MergerP.NoDup_app_l in N. eapply nodup_flat in N; eauto. now apply in_map.
  - apply MergerP.NoDup_app_r in N. eapply nodup_flat with (x := rev rg) in N; [|apply in_map; apply in_flat_map; eauto].
    eapply Permutation_NoDup in N; [|apply edges_iter_rev]. eapply NoDup_map_inv; eauto.
Qed.
Lemma noopp_ring r rg : noopp (redges r) (redges r) -> ring_of r rg -> noopp (edges_iter rg) (edges_iter rg).
Proof.
  intros N (p & P & [->|H]) s S1 S2; unfold redges in N.
  - apply (N s); apply in_or_app; left; apply in_flat_map; exists (outer p); (split; [now apply in_map|auto]).
  - assert (K : forall s, In s (edges_iter rg) -> In (rev_e s) (flat_map edges_iter (map (@rev point) (flat_map holes r)))).
    { intros x Hx. apply in_flat_map. exists (rev rg). split; [apply in_map; apply in_flat_map; eauto|].
      apply (Permutation_in _ (Permutation_sym (edges_iter_rev rg))). apply in_map_iff. exists x. auto. }
    apply (N (rev_e s)); apply in_or_app; right; [exact (K s S1)|exact (K _ S2)].
Qed.

Section Crisp.
Variables (E : list segment) (geoms : list geom2d) (r : geom2d).
Hypothesis E_sym : forall e, In e E -> In (rev_e e) E.
Hypothesis E_nd : forall e, In e E -> fst e <> snd e.
Hypothesis E_planar : planar E.
Hypothesis E_off : forall p, off E p <-> off_all geoms p.
Hypothesis E_ring : forall e, In e E -> exists g rg, In g geoms /\ ring_of g rg /\ forall x, on_seg e x -> on_boundary rg x.
Hypothesis GS : Forall is_geom2d geoms.
Lemma mid_inner e : inner e (at_t e (qq 1 2)).
Proof. exists (qq 1 2). split; [vm_compute; reflexivity|]. split; [vm_compute; reflexivity|auto]. Qed.
Lemma no_bridge e c : Forall clean_geom geoms -> In e E -> ~ (forall T, movable E T -> T c -> RT T e /\ RT T (rev_e e)).
Proof.
  intros CL I H. destruct (E_ring e I) as (g & rg & Hg & R & B). rewrite Forall_forall in CL, GS. pose proof (CL g Hg rg R) as C. pose proof (ring_ne g rg (GS g Hg) R) as NE.
  assert (TM : movable E (fun p => wsum p rg = wsum c rg)).
  { intros p q FR X. rewrite <- X. symmetry. apply wsum_move. intros x X1 X2. apply (proj1 (E_off x) (FR x X1) g Hg). exists rg. auto. }
  destruct (H _ TM eq_refl) as (R1 & R2). pose proof (mid_inner e) as MI.
  destruct (two_sides E E_nd E_planar _ e _ TM I MI R1 R2) as (dl & DL & TS).
  destruct (C _ dl (B _ (inner_on e _ MI)) DL) as (q & q' & w & w' & N1 & N2 & B1 & B2 & W1 & W2 & WN).
  apply wind_wsum in W1; auto. apply wind_wsum in W2; auto.
  assert (wsum q rg = wsum c rg) by (apply TS; auto; intros O; apply B1; auto). assert (wsum q' rg = wsum c rg) by (apply TS; auto; intros O; apply B2; auto). lia.
Qed.
Hypothesis GR : is_geom2d r.
Hypothesis RE : incl (redges r) E.
Hypothesis RN : NoDup (redges r).
Hypothesis RO : noopp (redges r) (redges r).
Hypothesis RI : forall e, In e (redges r) -> RT (fun p => in_geom r p /\ off E p) e.
Hypothesis RX : forall e, In e (redges r) -> RT (fun p => ~ in_geom r p /\ off E p) (rev_e e).
Hypothesis RB : forall p, off E p -> ~ on_bd r p.
Lemma near_RT T e p eps : In e E -> on_seg e p -> 0 < eps -> RT T e -> exists q, near eps p q /\ T q.
Proof.
  intros I O P R. assert (P2 : 0 < eps * qq 1 2) by (apply mpp; [auto|vm_compute; reflexivity]). destruct (near_inner e p _ O P2) as (x & IX & NX).
  destruct (R x (perp e) IX (perp_right e (E_nd e I))) as (k & K & T1). destruct (near_step _ x (perp e) P2) as (k' & K' & N').
  destruct (qmin_spec k k') as (A1 & A2 & A3). specialize (A3 K K'). exists (step x (perp e) (qmin k k')). split; [|apply T1; auto].
  apply (near_trans eps p x); auto. apply N'; [qlra|auto].
Qed.
Lemma res_crisp : crisp r.
Proof.
  intros p eps (rg & R & B) P. apply on_boundary_iff in B as (s & S & O). assert (K : exists e, In e (redges r) /\ on_seg e p).
  { destruct (redges_ring r rg s R S) as [I|I]; [eauto|]. exists (rev_e s). split; auto. now apply on_rev. }
  destruct K as (e & I & OE). split.
  - destruct (near_RT _ e p eps (RE e I) OE P (RI e I)) as (q & N & Q1 & Q2). exists q. auto.
  - destruct (near_RT _ (rev_e e) p eps (E_sym _ (RE e I)) (proj2 (on_rev e p) OE) P (RX e I)) as (q & N & Q1 & Q2). exists q. auto.
Qed.
Lemma res_clean : clean_geom r.
Proof.
  intros rg R p eps B P. pose proof (ring_ne r rg GR R) as NE. apply on_boundary_iff in B as (e & S & O).
  assert (KE : forall s, In s (edges_iter rg) -> In s E).
  { intros s Hs. destruct (redges_ring r rg s R Hs) as [I|I]; [auto|]. apply RE, E_sym in I. destruct s; exact I. }
  pose proof (nodup_ring r rg RN R) as NDr. pose proof (noopp_ring r rg RO R) as NOr.
  assert (P2 : 0 < eps * qq 1 2) by (apply mpp; [auto|vm_compute; reflexivity]). destruct (near_inner e p _ O P2) as (x & IX & NX).
  assert (EV : forall f, In f E -> x <> fst f /\ x <> snd f).
  { intros f F. assert (K : forall f, In f E -> x <> fst f).
    { clear f F. intros f F X. assert (OF : on_seg f x). { exists 0. split; [qlra|]. split; [qlra|]. rewrite X. apply pteq; vec; ring. }
      pose proof (E_planar e f x (KE e S) F IX OF) as [Y|Y].
      - subst f. destruct IX as (t & T0 & T1 & ->). apply (E_nd e (KE e S)). assert (X1 := f_equal fst X). assert (X2 := f_equal snd X). vec.
        assert (Z1 : t * (fst (snd e) - fst (fst e)) = 0) by qlra. assert (Z2 : t * (snd (snd e) - snd (fst e)) = 0) by qlra.
        apply Qcmult_integral in Z1 as [Z1|Z1]; [exfalso; clear -Z1 T0; qlra|]. apply Qcmult_integral in Z2 as [Z2|Z2]; [exfalso; clear -Z2 T0; qlra|]. apply pteq; qlra.
      - subst f. destruct IX as (t & T0 & T1 & ->). apply (E_nd e (KE e S)). unfold rev_e in X. assert (X1 := f_equal fst X). assert (X2 := f_equal snd X). vec.
        assert (Z1 : (1 - t) * (fst (snd e) - fst (fst e)) = 0) by qlra. assert (Z2 : (1 - t) * (snd (snd e) - snd (fst e)) = 0) by qlra.
        apply Qcmult_integral in Z1 as [Z1|Z1]; [exfalso; clear -Z1 T1; qlra|]. apply Qcmult_integral in Z2 as [Z2|Z2]; [exfalso; clear -Z2 T1; qlra|]. apply pteq; qlra. }
    split; [auto|]. exact (K _ (E_sym f F)). }
  assert (ON : forall s, In s (edges_iter rg) -> on_seg s x -> s = e).
  { intros s Hs Os. destruct (E_planar e s x (KE e S) (KE s Hs) IX Os) as [Y|Y]; auto. exfalso. subst s. exact (NOr e S Hs). }
  pose proof (perp_right e (E_nd e (KE e S))) as PR. unfold right_of in PR.
  destruct (jump rg x (perp e)) as (k & K & J).
  { intros v Hv X. destruct (pedges_of rg v Hv) as (w & Hw). apply is_edge_pedges, is_edge_iter in Hw. destruct (EV _ (KE _ Hw)) as (Y & _). cbn [fst] in Y. congruence. }
  { intros s Hs Os. rewrite (ON s Hs Os). fold (dir e). intros Z. rewrite Z in PR. qlra. }
  assert (HS : zsum (hits x (perp e)) (edges_iter rg) = (-1)%Z).
  { rewrite (zsum_one _ _ e NDr).
    - destruct (in_dec seg_dec e (edges_iter rg)); [|contradiction]. unfold hits. rewrite (proj2 (hit_on x e (proj1 (EV e (KE e S)))) (inner_on e x IX)).
      fold (dir e). unfold sgn. destruct (qltb_spec 0 (cross (dir e) (perp e))), (qltb_spec (cross (dir e) (perp e)) 0); auto; exfalso; try contradiction; qlra.
    - intros s Hs N. unfold hits. destruct (hit x s) eqn:HT; auto. exfalso. apply N, ON; auto. apply hit_on; auto. apply EV; auto. }
  destruct (near_step _ x (perp e) P2) as (k1 & K1 & N1). destruct (near_step _ x (vscale (- (1)) (perp e)) P2) as (k2 & K2 & N2).
  destruct (qmin_spec k1 k2) as (A1 & A2 & A3), (qmin_spec k (qmin k1 k2)) as (C1 & C2 & C3). specialize (A3 K1 K2). specialize (C3 K A3).
  set (t := qmin k (qmin k1 k2)) in *. clearbody t. destruct (J t C3 C1) as (J1 & J2 & J3). cbv zeta in J1, J2, J3. rewrite HS in J3.
  specialize (N1 t ltac:(qlra) ltac:(qlra)). specialize (N2 t ltac:(qlra) ltac:(qlra)).
  replace (step x (vscale (- (1)) (perp e)) t) with (vadd x (vscale (- t) (perp e))) in N2 by (apply pteq; vec; ring). change (step x (perp e) t) with (vadd x (vscale t (perp e))) in N1.
  set (q := vadd x (vscale t (perp e))) in *. set (q' := vadd x (vscale (- t) (perp e))) in *.
  assert (WE : forall z, ~ on_boundary rg z -> exists w, winding_number rg z w).
  { intros z Z. destruct (generic_apex_exists rg z) as (o & O1); [intros I; apply Z; now apply vertex_on_boundary|]. exists (fan_winding o rg z), o. auto. }
  destruct (WE q J1) as (w & W), (WE q' J2) as (w' & W'). exists q, q', w, w'. split; [now apply (near_trans eps p x)|]. split; [now apply (near_trans eps p x)|].
  split; auto. split; auto. split; auto. split; auto. apply wind_wsum in W; auto. apply wind_wsum in W'; auto. lia.
Qed.
End Crisp.

Theorem arrangement_crisp orc geoms op r : Forall is_geom2d geoms -> Forall clean_geom geoms -> op (map (fun _ => false) geoms) = false ->
  arrangement_op (segment_arrangement orc) geoms op = Ok r -> crisp r /\ clean_geom r.
Proof.
  intros F CL OP H. pose proof (arrangement_sound orc geoms op r F OP H) as (GR & BD & IO).
  destruct (arrangement_edges orc geoms op r F OP H) as (E & ES & EN & EP & EO & ER & RE & RN & RI & RC).
  destruct RC as (RO & RX); [intros e c; apply (no_bridge E geoms EN EP EO ER F e c CL)|].
  assert (RB : forall p, off E p -> ~ on_bd r p) by (intros p O B; apply (BD p B); now apply EO).
  split; [apply (res_crisp E r)|apply (res_clean E r)]; auto.
Qed.
