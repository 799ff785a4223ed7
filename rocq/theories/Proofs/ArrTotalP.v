(** The arrangement of clean geometries can always be built. *)
From Verif.Model Require Import SegmentTree CellMerger Arrangement2d Aabb Geom2d.
From Verif.Spec Require Import Plane Subdivision Region Area Crisp.
From Verif.Proofs Require Import PyP PolyP WindingP WindingQ WindingR NearP DictP SweepOrd SweepL PlanarP SubdivP MergerQ ArrVertexP ArrGraphP
  ArrInitP ArrTraceP ArrSampleP Geom2dP Geom2dOps ArrSoundP AreaP LevelP PolyCellsP FlatP JumpP CoverP CrispP NestP.
From Verif.Props Require Import Primitive2dProps Frangle2dProps Scan2dProps LocateProps.

(** ** around the end of an edge where nothing else starts *)
Section Tip.
Variable E : list segment.
Hypothesis SY : forall e, In e E -> In (rev_e e) E.
Hypothesis ND : forall e, In e E -> fst e <> snd e.
Hypothesis PL : planar E.
Lemma tip T p c : movable E T -> In (p, c) E -> (forall m, In (c, m) E -> m = p) -> RT T (p, c) -> RT T (c, p).
Proof.
  intros TM I AL R. set (d := vsub p c). set (u := vscale (- (1)) d). set (w := (snd d, - fst d) : point).
  pose proof (ND _ I) as NP. cbn [fst snd] in NP.
  assert (DN : d <> (0, 0)).
  { intros Z. apply NP. pose proof (f_equal fst Z). pose proof (f_equal snd Z). unfold d, vsub in *. cbn [fst snd] in *. apply pteq; qlra. }
  pose proof (dot_self_pos d DN) as DP. assert (I' : In (c, p) E) by exact (SY _ I).
  assert (CU : cross u w <> 0).
  { replace (cross u w) with (dot d d) by (unfold u, w, cross, dot, vscale; cbn [fst snd]; ring). intros Z. rewrite Z in DP. exact (Qclt_not_eq _ _ DP eq_refl). }
  destruct (corner_free E SY PL c u w (ex_intro _ p I') CU) as (ep & EP & CF).
  set (m := step c u ep).
  assert (FO : forall t, 0 < t -> t <= 1 -> off E (at_t (c, m) t)).
  { intros t T0 T1. replace (at_t (c, m) t) with (comb c u w (t * ep) 0) by (unfold m, comb; apply pteq; vec; ring).
    assert (0 < t * ep) by (apply mpp; auto). assert (0 <= (1 - t) * ep) by (apply mnn; qlra). apply CF; try qlra. split.
    - intros Z. pose proof (f_equal fst Z) as Z1. pose proof (f_equal snd Z) as Z2. unfold lc, u, vadd, vscale in Z1, Z2. cbn [fst snd] in Z1, Z2.
      apply DN. apply pteq; cbn [fst snd].
      + assert (Y : t * ep * fst d = 0) by qlra. apply Qcmult_integral in Y as [Y|Y]; [exfalso; qlra|auto].
      + assert (Y : t * ep * snd d = 0) by qlra. apply Qcmult_integral in Y as [Y|Y]; [exfalso; qlra|auto].
    - intros x k X K Z. rewrite (AL x X) in Z. fold d in Z.
      assert (Y : dot d d = - (k * (t * ep) * dot d d)).
      { transitivity (dot d (vscale k (lc u w (t * ep) 0))); [now rewrite <- Z|]. unfold lc, u, w, dot, vadd, vscale. cbn [fst snd]. ring. }
      assert (0 < k * (t * ep)) by (apply mpp; auto). assert (0 < k * (t * ep) * dot d d) by (apply mpp; auto). clear -Y DP H2. qlra. }
  assert (MN : c <> m).
  { intros Z. assert (O : off E (at_t (c, m) 1)) by (apply FO; qlra). apply (O (c, p) I'). replace (at_t (c, m) 1) with c by (rewrite <- Z; apply pteq; vec; ring). exists 0. split; [qlra|]. split; [qlra|]. apply pteq; vec; ring. }
  assert (OC : forall e, In e E -> ~ inner e c).
  { intros e J X. assert (O : on_seg (c, p) c) by (exists 0; split; [qlra|]; split; [qlra|]; apply pteq; vec; ring).
    destruct (inner_end E ND e c J X) as (A & B). destruct (PL e (c, p) c J I' X O) as [Z|Z].
    - rewrite <- Z in A. now apply A.
    - apply B. rewrite <- (rev_rev e), <- Z. reflexivity. }
  set (E2 := (c, m) :: (m, c) :: E).
  assert (SY2 : forall e, In e E2 -> In (rev_e e) E2).
  { intros e [<-|[<-|J]]; [right; now left|now left|right; right; auto]. }
  assert (ND2 : forall e, In e E2 -> fst e <> snd e).
  { intros e [<-|[<-|J]]; cbn [fst snd]; auto. }
  assert (FK : forall f x, f = (c, m) \/ f = (m, c) -> on_seg f x -> x = c \/ off E x).
  { assert (K : forall x, on_seg (c, m) x -> x = c \/ off E x).
    { intros x (t & T0 & T1 & ->). destruct (qltb_spec 0 t) as [L|L]; [right; auto|]. left. assert (t = 0) as -> by qlra. apply pteq; vec; ring. }
    intros f x [-> | ->] O; [auto|]. apply K. now apply on_seg_sym. }
  assert (FI : forall f x, f = (c, m) \/ f = (m, c) -> inner f x -> off E x).
  { intros f x [-> | ->] (t & T0 & T1 & ->); [apply FO; qlra|]. replace (at_t (m, c) t) with (at_t (c, m) (1 - t)) by (apply pteq; vec; ring). apply FO; qlra. }
  assert (PL2 : planar E2).
  { intros e f x J K X O. assert (J' : e = (c, m) \/ e = (m, c) \/ In e E) by (destruct J as [J|[J|J]]; auto). assert (K' : f = (c, m) \/ f = (m, c) \/ In f E) by (destruct K as [K|[K|K]]; auto). clear J K.
    assert (J2 : (e = (c, m) \/ e = (m, c)) \/ In e E) by tauto. assert (K2 : (f = (c, m) \/ f = (m, c)) \/ In f E) by tauto. destruct J2 as [J|J], K2 as [K|K].
    - destruct J as [-> | ->], K as [-> | ->]; [left|right|right|left]; reflexivity.
    - exfalso. exact (FI e x J X f K O).
    - exfalso. destruct (FK f x K O) as [Z|Z]; [rewrite Z in X; exact (OC e J X)|exact (Z e J (inner_on e x X))].
    - exact (PL e f x J K X O). }
  assert (TM2 : forall x y, free E2 x y -> T x -> T y).
  { intros x y F. apply TM. intros z Z e J. apply (F z Z). right. now right. }
  assert (MC : vsub m c = vscale ep u) by (unfold m; apply pteq; vec; ring).
  assert (CZ : forall x, In (c, x) E2 -> vsub x c = d \/ vsub x c = vscale ep u).
  { intros x [X|[X|X]]; [injection X as <-; auto|injection X as X1 X2; congruence|]. left. now rewrite (AL x X). }
  assert (CR : cross d u = 0) by (unfold u; vec; ring). assert (DU : dot d u = - dot d d) by (unfold u; vec; ring).
  assert (PE : 0 < ep * dot d d) by (apply mpp; auto).
  assert (R1 : RT T (c, m)).
  { apply (turn E2 SY2 ND2 PL2 T TM2 p c m); auto.
    - right. now right.
    - now left.
    - intros x X. fold d. rewrite MC. assert (Z : cross d (vsub x c) = 0).
      { destruct (CZ x X) as [-> | ->]; [vec; ring|]. rewrite cross_vscale_r, CR. ring. }
      unfold insect. rewrite cross_vscale_r, CR, Z. intros [(A & _)|[(_ & _ & A)|(A & _)]]; qlra.
    - fold d. rewrite MC. intros (_ & A). replace (dot d (vscale ep u)) with (ep * dot d u) in A by (vec; ring). rewrite DU in A. qlra. }
  assert (R2 : RT T (m, c)).
  { set (e := (c, m)). set (x := at_t e (qq 1 2)). assert (OX : off E x) by (apply FO; [vm_compute; reflexivity|vm_compute; discriminate]).
    pose proof (perp_right e MN) as PR. unfold right_of in PR. set (d0 := perp e) in *. set (d1 := vscale (- (1)) d0).
    destruct (segs_away E x d0 OX) as (k1 & K1 & A1). destruct (segs_away E x d1 OX) as (k2 & K2 & A2).
    destruct (R1 x d0 (mid_inner e) PR) as (k3 & K3 & A3).
    apply (RT_intro E2 ND2 PL2 T TM2 (m, c) x d1); [right; now left|exact (inner_rev e x (mid_inner e))|..].
    - unfold right_of. replace (cross (dir (m, c)) d1) with (cross (dir e) d0) by (unfold d1, e; vec; ring). exact PR.
    - intros dl DL. destruct (qmin_spec k1 k2) as (B1 & B2 & B3), (qmin_spec k3 dl) as (C1 & C2 & C3), (qmin_spec (qmin k1 k2) (qmin k3 dl)) as (D1 & D2 & D3).
      specialize (D3 (B3 K1 K2) (C3 K3 DL)). set (t := qmin (qmin k1 k2) (qmin k3 dl)) in *.
      assert (Q : t <= k1 /\ t <= k2 /\ t <= k3 /\ t <= dl) by (split; [qlra|]; split; [qlra|]; split; qlra). destruct Q as (Q1 & Q2 & Q3 & Q4). clearbody t. clear B1 B2 B3 C1 C2 C3 D1 D2.
      exists t. split; auto. split; auto. apply (TM (step x d0 t)); [|apply A3; auto].
      intros z (v & V0 & V1 & ->). destruct (qleb_spec v (qq 1 2)) as [V|V].
      + replace (at_t _ v) with (step x d0 ((1 - v - v) * t)) by (unfold d1; apply pteq; vec; ring). intros f J. assert (HH : qq 1 2 + qq 1 2 = 1) by (apply Qc_is_canon; reflexivity).
        assert (0 <= (1 - v - v) * t) by (apply mnn; qlra). assert (0 <= (v + v) * t) by (apply mnn; qlra). apply A1; auto. qlra.
      + replace (at_t _ v) with (step x d1 ((v + v - 1) * t)) by (unfold d1; apply pteq; vec; ring). intros f J. assert (HH : qq 1 2 + qq 1 2 = 1) by (apply Qc_is_canon; reflexivity).
        assert (0 <= (v + v - 1) * t) by (apply mnn; qlra). assert (0 <= (1 + 1 - v - v) * t) by (apply mnn; qlra). apply A2; auto. qlra. }
  apply (turn E2 SY2 ND2 PL2 T TM2 m c p); auto.
  - right. now left.
  - right. now right.
  - intros x X. fold d. rewrite MC. assert (Z : cross (vscale ep u) (vsub x c) = 0).
    { assert (CR' : cross u d = 0) by (unfold u; vec; ring). rewrite cross_vscale_l. destruct (CZ x X) as [-> | ->]; [rewrite CR'; ring|]. rewrite cross_vscale_r. unfold u; vec; ring. }
    unfold insect. assert (CR' : cross (vscale ep u) d = 0) by (unfold u; vec; ring). rewrite CR', Z. intros [(A & _)|[(_ & _ & A)|(A & _)]]; qlra.
  - fold d. rewrite MC. intros (_ & A). replace (dot (vscale ep u) d) with (ep * dot d u) in A by (vec; ring). rewrite DU in A. qlra.
Qed.
End Tip.

(** ** the graph of a clean geometry *)
Section Graph.
Variables (sid hes : list segment) (vs : list (point * vertex)).
Hypothesis G : graph_ok sid hes vs.
Let SY e : In e hes -> In (rev_e e) hes := fun I => go_rev sid hes vs e G I.
Let ND e : In e hes -> fst e <> snd e := fun I => bt_ne sid hes vs G e I.
Let PL : planar hes := go_planar sid hes vs G.
Lemma g_sees_RT T e p : movable hes T -> In e hes -> sees hes e p -> T p -> RT T e.
Proof.
  intros TM I (v & t & R & TP & -> & O) H.
  apply (RT_intro hes ND PL T TM e (midpoint e) v); auto.
  { exists (qq 1 2). split; [reflexivity|]. split; [reflexivity|]. reflexivity. }
  intros dl DL. exists (qmin dl t). destruct (qmin_spec dl t) as (A & B & C). specialize (C DL TP). split; auto. split; auto.
  apply (TM (step (midpoint e) v t)); auto. intros x (s & S0 & S1 & ->). rewrite (proj2 (step_step _ _ _ _)).
  apply O; set (u := qmin dl t) in *; clearbody u; qnra.
Qed.
Lemma g_nxr_RT T e n : movable hes T -> In e hes -> nxr hes vs e n -> n <> rev_seg e -> RT T e -> RT T n.
Proof.
  intros TM I N D R. destruct (nxr_in hes _ (bt_rv _ _ _ G) (bt_ne _ _ _ G) (bt_vg _ _ _ G) e n I N) as (NI & FN & _ & _ & TS & TB).
  destruct e as [p c], n as [c' n]. cbn in FN. subst c'. cbn [rev_seg fst snd] in TS, TB.
  apply (turn hes SY ND PL T TM p c n); auto.
  - intros m M. exact (TS (c, m) M eq_refl).
Qed.
Hypothesis BR : forall e, In e hes -> ~ (forall T, movable hes T -> RT T e -> RT T (rev_e e)).
Lemma no_dangling e : ~ dangling hes vs e.
Proof.
  intros D. pose proof D as (I & _). apply (BR e I). intros T TM R. destruct e as [p c]. apply (tip hes SY ND PL T p c TM I); auto.
  intros m M. pose proof (dangling_alone hes vs (bt_rv _ _ _ G) (bt_ne _ _ _ G) _ D (c, m) M eq_refl) as X. unfold rev_seg in X. cbn [fst snd] in X. congruence.
Qed.
Lemma traced o : exists paths, trace_cells (length hes) 0 o vs hes = Ok (map (map fst) paths) /\ Permutation hes (concat paths) /\
  Forall (is_cell hes vs) paths /\ forall p, In p paths -> edges_iter (map fst p) = p.
Proof.
  destruct (trace_all hes vs (bt_rv _ _ _ G) (bt_ne _ _ _ G) (bt_vg _ _ _ G) o (go_nd _ _ _ G)) as [(_ & e & D)|H]; auto.
  destruct (no_dangling e D).
Qed.
Lemma adj_cons {A} (x y a : A) l : adj x y l -> adj x y (a :: l).
Proof. intros (u & v & E). exists (a :: u), v. now rewrite E. Qed.
Lemma path_last T path e f : movable hes T -> incl path hes -> path = e :: f -> ArrTraceP.chain hes vs path ->
  forall x, In x path -> RT T x -> RT T (last path e).
Proof.
  intros TM. revert path e. induction f as [|g f IH]; intros path e IN -> CH x X R.
  - destruct X as [<-|[]]. auto.
  - assert (AJ : adj e g (e :: g :: f)) by (exists [], f; auto).
    assert (CG : ArrTraceP.chain hes vs (g :: f)) by (intros a b H; apply CH; now apply adj_cons).
    assert (IG : incl (g :: f) hes) by (intros z Z; apply IN; now right).
    change (last (e :: g :: f) e) with (last (g :: f) e). rewrite (last_any f g e g).
    destruct X as [<-|X]; [|exact (IH (g :: f) g IG eq_refl CG x X R)].
    apply (IH (g :: f) g IG eq_refl CG g); [now left|]. apply (g_nxr_RT T e g); auto; [apply IN; now left|].
    intros Z. apply (no_dangling e). split; [apply IN; now left|]. rewrite <- Z. now apply CH.
Qed.
Lemma path_first T path e f : movable hes T -> incl path hes -> path = e :: f -> ArrTraceP.chain hes vs path -> RT T e -> forall x, In x path -> RT T x.
Proof.
  intros TM. revert path e. induction f as [|g f IH]; intros path e IN -> CH R x X.
  - destruct X as [<-|[]]. auto.
  - assert (AJ : adj e g (e :: g :: f)) by (exists [], f; auto).
    assert (CG : ArrTraceP.chain hes vs (g :: f)) by (intros a b H; apply CH; now apply adj_cons).
    assert (IG : incl (g :: f) hes) by (intros z Z; apply IN; now right).
    destruct X as [<-|X]; [auto|]. refine (IH (g :: f) g IG eq_refl CG _ x X). apply (g_nxr_RT T e g); auto; [apply IN; now left|].
    intros Z. apply (no_dangling e). split; [apply IN; now left|]. rewrite <- Z. now apply CH.
Qed.
Lemma cell_side T path e f : movable hes T -> incl path hes -> is_cell hes vs path -> In e path -> In f path -> RT T e -> RT T f.
Proof.
  intros TM IN IC E F R. destruct path as [|x l]; [destruct IC|]. destruct IC as (CH & NX & _).
  pose proof (path_last T (x :: l) x l TM IN eq_refl CH e E R) as RL.
  apply (path_first T (x :: l) x l TM IN eq_refl CH); auto.
  assert (IL : In (last (x :: l) x) hes).
  { apply IN. destruct (exists_last' l) as [->|(l' & a & ->)]; [now left|].
    change (x :: l' ++ [a]) with ((x :: l') ++ [a]). rewrite last_last. right. apply in_or_app. right. now left. }
  apply (g_nxr_RT T (last (x :: l) x) x); auto. intros Z. apply (no_dangling (last (x :: l) x)). split; auto. now rewrite <- Z.
Qed.
Lemma cell_cellr path : incl path hes -> NoDup path -> is_cell hes vs path -> edges_iter (map fst path) = path -> cellr hes (map fst path).
Proof.
  intros IN N IC EI. constructor; rewrite ?EI; auto.
  - destruct path; [destruct IC|discriminate].
  - intros T e f TM E F. now apply (cell_side T path).
  - intros e E F. apply (BR e (IN e E)). intros T TM R. now apply (cell_side T path e).
Qed.
End Graph.

(** ** clean operands leave no edge with the same region at both sides *)
Lemma bridgeless E geoms : (forall e, In e E -> fst e <> snd e) -> planar E -> (forall p, off E p <-> off_all geoms p) ->
  (forall e, In e E -> exists g rg, In g geoms /\ ring_of g rg /\ forall x, on_seg e x -> on_boundary rg x) ->
  Forall is_geom2d geoms -> Forall clean_geom geoms -> forall e, In e E -> ~ (forall T, movable E T -> RT T e -> RT T (rev_e e)).
Proof.
  intros EN EP EO ER F CL e I H. destruct (strip E EN EP e I) as (k & K & O).
  apply (no_bridge E geoms EN EP EO ER F e (step (at_t e (qq 1 2)) (perp e) k) CL I). intros T TM TC.
  assert (R : RT T e) by (apply (strip_RT E EN EP); auto; exists k; auto). auto.
Qed.
