(** Ray queries in the general direction and the sample points of the cells. *)
From Verif.Model Require Import SegmentTree CellMerger Arrangement2d Aabb.
From Verif.Spec Require Import Plane.
From Verif.Proofs Require Import PyP PolyP WindingP NearP DictP SweepOrd PlanarP SubdivP ArrVertexP ArrGraphP.
From Verif.Props Require Import Primitive2dProps Frangle2dProps SegmentTreeProps Scan2dProps AabbProps.

Local Notation dot := Plane.dot.

(** ** bounding boxes *)
Definition wide_box (b : aabb) (p : point) : Prop := exists lo hi : point,
  Aabb.lower b = nv lo /\ Aabb.upper b = nv hi /\ fst lo <= fst p /\ fst p <= fst hi /\ snd lo <= snd p /\ snd p <= snd hi /\
  0 < (fst hi - fst lo) + (snd hi - snd lo).
Lemma box_of_points l a b p : In a l -> In b l -> a <> b ->
  (exists q r, In q l /\ In r l /\ fst q <= fst p /\ fst p <= fst r) -> (exists q r, In q l /\ In r l /\ snd q <= snd p /\ snd p <= snd r) ->
  wide_box (from_points l) p.
Proof.
  intros A B N (q & r & Q & R & X1 & X2) (q' & r' & Q' & R' & Y1 & Y2). destruct (aabb_include_point_tightest l p) as (_ & T).
  destruct T as (lx & ly & ux & uy & (M1 & M1') & (M2 & M2') & (M3 & M3') & (M4 & M4') & L & U & _).
  { intros ->. destruct A. }
  exists (lx, ly), (ux, uy). cbn [fst snd]. split; auto. split; auto.
  pose proof (M1' q Q). pose proof (M3' r R). pose proof (M2' q' Q'). pose proof (M4' r' R').
  split; [qlra|]. split; [qlra|]. split; [qlra|]. split; [qlra|].
  pose proof (M1' a A). pose proof (M1' b B). pose proof (M3' a A). pose proof (M3' b B).
  pose proof (M2' a A). pose proof (M2' b B). pose proof (M4' a A). pose proof (M4' b B).
  destruct (qeqb_spec (fst a) (fst b)) as [E|E]; [|destruct (qc_not_eq _ _ E); qlra].
  destruct (qeqb_spec (snd a) (snd b)) as [E'|E']; [|destruct (qc_not_eq _ _ E'); qlra].
  exfalso. apply N. now apply pteq.
Qed.

Lemma ray_const_ok b p v : wide_box b p -> v <> (0, 0) ->
  exists c, ray_const b v = Some c /\ 0 < c /\ contains b (padd p (pscale c v)) = false.
Proof.
  intros (lo & hi & L & U & X1 & X2 & Y1 & Y2 & W) N. unfold ray_const. rewrite L, U. cbn [nv fst snd n_sub n2 n_abs n_add].
  set (s := qabs (fst hi - fst lo) + qabs (snd hi - snd lo)).
  assert (S : s = (fst hi - fst lo) + (snd hi - snd lo)).
  { unfold s. destruct (qabs_cases (fst hi - fst lo)) as [(? & ->)|(? & ->)], (qabs_cases (snd hi - snd lo)) as [(? & ->)|(? & ->)]; qlra. }
  set (m := qmax (qabs (fst v)) (qabs (snd v))).
  assert (M : 0 < m /\ (m = fst v \/ m = - fst v \/ m = snd v \/ m = - snd v)).
  { unfold m, qmax. destruct (qabs_cases (fst v)) as [(? & ->)|(? & ->)], (qabs_cases (snd v)) as [(? & ->)|(? & ->)];
      match goal with |- context [qleb ?a ?b] => destruct (qleb_spec a b) | |- context [qltb ?a ?b] => destruct (qltb_spec a b) end; (split; [|tauto]);
      destruct (qeqb_spec (fst v) 0) as [E|E]; try (destruct (qc_not_eq _ _ E); qlra);
      destruct (qeqb_spec (snd v) 0) as [E'|E']; try (destruct (qc_not_eq _ _ E'); qlra); exfalso; apply N; now apply pteq. }
  destruct M as (M & D). assert (MN : m <> 0) by (intros Z; qlra). exists (zq 10 * (s / m)). split; auto.
  pose proof (qdiv_mul s m MN) as Q. set (k := s / m) in *. clearbody k. rewrite S in Q. clearbody m.
  assert (0 < k). { set (z := fst hi - fst lo + (snd hi - snd lo)) in *. clearbody z. qnra. }
  split; [qlra|].
  unfold contains. rewrite L, U. cbn [nv fst snd n_le padd pscale vadd vscale].
  repeat match goal with |- context [qleb ?a ?b] => destruct (qleb_spec a b) end; auto. exfalso.
  unfold padd, pscale in *. cbn [fst snd] in *.
  destruct D as [D|[D|[D|D]]].
  - assert (k * fst v = k * m) by (rewrite D; ring). qlra.
  - assert (k * fst v = - (k * m)) by (rewrite D; ring). qlra.
  - assert (k * snd v = k * m) by (rewrite D; ring). qlra.
  - assert (k * snd v = - (k * m)) by (rewrite D; ring). qlra.
Qed.

Lemma general_normal_dot gv p : Geom2d.dot (general_normal gv) p = cross gv p.
Proof. unfold Geom2d.dot, general_normal. vec. ring. Qed.
Lemma pt_ltb_total p q : p <> q -> pt_ltb p q = true \/ pt_ltb q p = true.
Proof.
  intros N. destruct (pt_ltb_spec p q) as [|A]; auto. destruct (pt_ltb_spec q p) as [|B]; auto.
  destruct (plt_total p q) as [|[|]]; tauto.
Qed.
Lemma pt_ltb_asym p q : pt_ltb p q = true -> pt_ltb q p = true -> False.
Proof.
  intros A B. destruct (pt_ltb_spec p q) as [A'|]; [|discriminate]. destruct (pt_ltb_spec q p) as [B'|]; [|discriminate].
  apply (plt_irrefl p). eapply plt_trans; eauto.
Qed.
Lemma sort_by_key {A} (ltb : A -> A -> bool) (key : A -> Qc) l : (forall a b, ltb a b = true -> key a <= key b) ->
  (forall a b, ltb a b = false -> key b <= key a) -> StronglySorted (fun a b => key a <= key b) (sort_by ltb l).
Proof.
  intros H1 H2. unfold sort_by. assert (H : StronglySorted (fun a b => key a <= key b) []) by constructor. revert H.
  generalize (@nil A) as acc. induction l as [|x l IH]; intros acc S; cbn; auto. apply IH. clear IH.
  induction S as [|y t Hs IH Hf]; cbn; [repeat constructor|]. rewrite Forall_forall in Hf. destruct (ltb x y) eqn:E.
  - apply H1 in E. constructor; [constructor; auto; now apply Forall_forall|]. constructor; auto. apply Forall_forall. intros z Z.
    specialize (Hf z Z). qlra.
  - apply H2 in E. constructor; auto. eapply Permutation_Forall; [symmetry; apply insert_by_perm|]. constructor; auto. now apply Forall_forall.
Qed.
Lemma hits_sorted l : StronglySorted (fun a b => fst a <= fst b) (sort_by hit_ltb l).
Proof.
  apply sort_by_key; intros x y L; unfold hit_ltb in L; (destruct (qeqb_spec (fst x) (fst y)) as [EQ|N]; [qlra|]);
    destruct (qltb_spec (fst x) (fst y)); try discriminate; qlra.
Qed.
Definition both (l : list segment) : list segment := flat_map (fun e => [e; rev_seg e]) l.
Lemma both_nodup l : NoDup l -> (forall e, In e l -> pt_ltb (fst e) (snd e) = true) -> NoDup (both l).
Proof.
  induction 1 as [|e l N ND IH]; cbn; intros H; [constructor|].
  assert (HE := H e (or_introl eq_refl)).
  assert (X : forall f, In f (both l) -> In f l \/ In (rev_seg f) l).
  { intros f F. apply in_flat_map in F as (g & G & [<-|[<-|[]]]); [auto|]. right. now destruct g. }
  constructor; [|constructor].
  - intros [E|E].
    + assert (Z := f_equal fst E). cbn in Z. rewrite Z in HE. eapply pt_ltb_asym; eauto.
    + apply X in E as [E|E]; [contradiction|]. specialize (H _ (or_intror E)). cbn in H. eapply pt_ltb_asym; eauto.
  - intros E. apply X in E as [E|E].
    + specialize (H _ (or_intror E)). cbn in H. eapply pt_ltb_asym; eauto.
    + apply N. now destruct e.
  - apply IH. auto.
Qed.

Lemma q2_ne : q2 <> 0.
Proof. intros H. discriminate (f_equal this H). Qed.

Section Ray.
Variables (hes : list segment) (gv : point).
Hypothesis RV : forall e, In e hes -> In (rev_seg e) hes.
Hypothesis NE : forall e, In e hes -> fst e <> snd e.
Hypothesis GV : gv <> (0, 0).
Hypothesis GN : forall e, In e hes -> cross gv (dir e) <> 0.
Let normal := general_normal gv.

(** the line through p in the general direction meets the closed edge e *)
Definition spans (e : segment) (p : point) : Prop := exists x, on_seg e x /\ cross gv x = cross gv p.
Lemma spans_between e p : In e hes ->
  (spans e p <-> (cross gv (fst e) <= cross gv p /\ cross gv p <= cross gv (snd e)) \/ (cross gv (snd e) <= cross gv p /\ cross gv p <= cross gv (fst e))).
Proof.
  intros I. pose proof (GN e I) as N.
  assert (L : forall t, cross gv (at_t e t) = cross gv (fst e) + t * (cross gv (snd e) - cross gv (fst e))) by (intros; vec; ring).
  assert (N' : cross gv (snd e) - cross gv (fst e) <> 0) by (intros Z; apply N; rewrite <- Z; vec; ring).
  set (a := cross gv (fst e)) in *. set (b := cross gv (snd e)) in *. set (c := cross gv p). split.
  - intros (x & (t & T0 & T1 & ->) & E). rewrite L in E. fold c in E. rewrite <- E. clearbody a b c.
    destruct (qc_not_eq _ _ N'); [right|left]; (split; [|]); [assert (0 <= (1 - t) * (a - b)) by qnra; qlra|assert (0 <= t * (a - b)) by qnra; qlra|..].
    + assert (0 <= t * (b - a)) by qnra. qlra.
    + assert (0 <= (1 - t) * (b - a)) by qnra. qlra.
  - intros H. pose proof (qdiv_mul (c - a) _ N') as Q. set (t := (c - a) / (b - a)) in *. clearbody t.
    exists (at_t e t). rewrite L. fold c. split; [|qlra]. exists t. clearbody a b c. destruct H as [(H1 & H2)|(H1 & H2)].
    + assert (0 < b - a) by (destruct (qc_not_eq _ _ N'); qlra). split; [qnra|]. split; [qnra|auto].
    + assert (0 < a - b) by (destruct (qc_not_eq _ _ N'); qlra). split; [qnra|]. split; [qnra|auto].
Qed.
Lemma spans_rev e p : spans (rev_seg e) p <-> spans e p.
Proof. unfold spans. split; intros (x & A & B); exists x; (split; [|auto]); now apply on_seg_swap. Qed.
Lemma gseg_bounds e p : In e hes -> (s_low (gseg normal e) <= cross gv p /\ cross gv p <= s_high (gseg normal e) <-> spans e p).
Proof.
  intros I. rewrite (spans_between e p I). unfold gseg, normal. rewrite !general_normal_dot.
  destruct (qltb_spec (cross gv (snd e)) (cross gv (fst e))); unfold s_low, s_high; cbn [fst snd]; split; intros; try tauto.
  - destruct H as [(H1 & H2)|H]; auto. split; qlra.
  - destruct H as [H|(H1 & H2)]; auto. split; qlra.
Qed.
Lemma gseg_snd e : snd (gseg normal e) = e.
Proof. unfold gseg. destruct (qltb _ _); reflexivity. Qed.
(** the tree finds the half-edges that the line through p meets, each once *)
Lemma tree_ok : exists tree, init_gstree normal hes = Ok tree /\ forall p, exists l,
  stab tree (Geom2d.dot normal p) = Ok l /\
  (forall e, In e (flat_map (fun x => [snd x; rev_seg (snd x)]) l) <-> In e hes /\ spans e p) /\
  (NoDup hes -> NoDup (flat_map (fun x => [snd x; rev_seg (snd x)]) l)).
Proof.
  unfold init_gstree. assert (forallb (fun e => pt_ltb (fst e) (snd e) || pt_ltb (snd e) (fst e)) hes = true) as ->.
  { apply forallb_forall. intros e I. destruct (pt_ltb_total _ _ (NE e I)) as [-> | ->]; cbn; auto using orb_true_r. }
  cbn [passert bind]. set (L := filter (fun e => pt_ltb (fst e) (snd e)) hes).
  destruct (proj1 (segment_tree_stab_exact (map (gseg normal) L))) as (tree & T & ST).
  { apply Forall_forall. intros x X. apply in_map_iff in X as (e & <- & _). unfold gseg. destruct (qltb_spec (Geom2d.dot normal (snd e)) (Geom2d.dot normal (fst e))); unfold s_low, s_high; cbn [fst snd]; qlra. }
  exists tree. split; auto. intros p. destruct (ST (Geom2d.dot normal p)) as (l & E & P). exists l. split; auto.
  change (Geom2d.dot normal p) with (Geom2d.dot (general_normal gv) p) in P. rewrite (general_normal_dot gv p) in P.
  assert (F : Permutation (flat_map (fun x => [snd x; rev_seg (snd x)]) l)
    (both (filter (fun e => qleb (s_low (gseg normal e)) (cross gv p) && qleb (cross gv p) (s_high (gseg normal e))) L))).
  { rewrite P. clear. induction L as [|e L IH]; cbn; [reflexivity|]. destruct (_ && _); auto. cbn [flat_map]. rewrite gseg_snd. cbn. now rewrite IH. }
  assert (G : forall e, In e (flat_map (fun x => [snd x; rev_seg (snd x)]) l) <-> In e hes /\ spans e p).
  { intros e. rewrite F. unfold both. rewrite in_flat_map. split.
    - intros (f & X & Y). apply filter_In in X as (X & B). apply filter_In in X as (X & _). apply andb_true_iff in B as (B1 & B2).
      destruct (qleb_spec (s_low (gseg normal f)) (cross gv p)); [|discriminate]. destruct (qleb_spec (cross gv p) (s_high (gseg normal f))); [|discriminate].
      assert (S : spans f p) by (apply gseg_bounds; auto). destruct Y as [<-|[<-|[]]]; auto. split; auto. now apply spans_rev.
    - intros (I & S). assert (K : forall f, In f hes -> spans f p -> pt_ltb (fst f) (snd f) = true ->
        In f (filter (fun e => qleb (s_low (gseg normal e)) (cross gv p) && qleb (cross gv p) (s_high (gseg normal e))) L)).
      { intros f FI FS FL. apply filter_In. split; [apply (proj2 (filter_In _ f hes)); now split|]. apply gseg_bounds in FS as (A & B); auto.
        destruct (qleb_spec (s_low (gseg normal f)) (cross gv p)); [|contradiction]. destruct (qleb_spec (cross gv p) (s_high (gseg normal f))); [auto|contradiction]. }
      destruct (pt_ltb_total _ _ (NE e I)) as [H|H].
      + exists e. split; [now apply K|now left].
      + exists (rev_seg e). split; [apply K; auto; now apply spans_rev|]. right. left. now destruct e. }
  split; auto. intros ND. rewrite F. apply both_nodup; [now apply NoDup_filter, NoDup_filter|].
  intros e X. apply filter_In in X as (X & _). now apply filter_In in X as (_ & X).
Qed.

Definition along_gv (v : point) : Prop := v = gv \/ v = (- fst gv, - snd gv).
Lemma along_gv_cross v : along_gv v -> cross gv v = 0 /\ v <> (0, 0) /\ (forall e, In e hes -> cross (dir e) v <> 0).
Proof.
  intros [-> | ->].
  - split; [vec; ring|]. split; auto. intros e I Z. apply (GN e I). transitivity (- cross (dir e) gv); [vec; ring|rewrite Z; ring].
  - split; [vec; ring|]. split.
    + intros Z. apply GV. pose proof (f_equal fst Z). pose proof (f_equal snd Z). cbn in *. apply pteq; cbn; qlra.
    + intros e I Z. apply (GN e I). transitivity (cross (dir e) (- fst gv, - snd gv)); [vec; ring|rewrite Z; ring].
Qed.
(** the hits of the ray, before the end point rules *)
Lemma ray_line tree box p v keep : init_gstree normal hes = Ok tree -> wide_box box p -> along_gv v ->
  exists f c found, vector_frangle v = Ok f /\ 0 < c /\
    ray_query box normal tree p v keep =
      (inters <- mapM (fun e => ray_halfedge_test e (p, padd p (pscale c v)) f keep c) found ;; Ok (sort_by hit_ltb (concat inters))) /\
    (forall e, In e found <-> In e hes /\ spans e p) /\ (NoDup hes -> NoDup found) /\
    forall e, In e hes -> exists q te tr, segment_segment_general_intersection e (p, padd p (pscale c v)) = Ok (q, te, tr) /\
      at_t e te = step p v (tr * c) /\ forall t u, at_t e t = step p v u -> t = te /\ u = tr * c.
Proof.
  intros T B V. destruct (along_gv_cross v V) as (C & VN & CE). destruct (frangle_ok v VN) as (f & k & F & _).
  destruct (ray_const_ok box p v B VN) as (c & RC & CP & CT). destruct tree_ok as (tree' & T' & ST). rewrite T in T'. injection T' as <-.
  destruct (ST p) as (l & SL & SP & SN). exists f, c, (flat_map (fun x => [snd x; rev_seg (snd x)]) l).
  split; auto. split; auto. split.
  { unfold ray_query. rewrite F. cbn [bind]. rewrite RC. cbn [snd]. rewrite CT. cbn [negb passert bind]. rewrite SL. reflexivity. }
  split; auto. split; auto. intros e I.
  destruct (line_intersection_exact e (p, padd p (pscale c v))) as (_ & X). destruct X as (q & te & tr & E & Q1 & Q2 & U).
  { intros Z. apply (CE e I). unfold sdir in Z. change (vsub (snd e) (fst e)) with (dir e) in Z. cbn [fst snd] in Z.
    assert (W : c * cross (dir e) v = 0). { rewrite <- Z. unfold padd, pscale. vec. ring. }
    apply Qcmult_integral in W as [W|W]; [exfalso; qlra|auto]. }
  assert (AT : forall u, at_t (p, padd p (pscale c v)) u = step p v (u * c)) by (intros u; unfold padd, pscale; apply pteq; vec; ring).
  exists q, te, tr. split; auto. split; [rewrite <- AT; congruence|]. intros t u W.
  assert (CN : c <> 0) by (intros Z; qlra). pose proof (qdiv_mul u c CN) as QD. rewrite <- QD, <- AT in W. apply U in W as (W1 & W2).
  split; auto. now rewrite <- W2.
Qed.
Lemma ray_query_all tree box p v : init_gstree normal hes = Ok tree -> wide_box box p -> along_gv v ->
  exists inters, ray_query box normal tree p v true = Ok inters /\
    StronglySorted (fun a b => fst a <= fst b) inters /\
    forall t e, In (t, e) inters <-> In e hes /\ on_seg e (step p v t).
Proof.
  intros T B V. destruct (ray_line tree box p v true T B V) as (f & c & found & F & CP & Q & FD & _ & HIT). rewrite Q.
  assert (EACH : forall e, In e hes -> exists h, ray_halfedge_test e (p, padd p (pscale c v)) f true c = Ok h /\
    forall t e', In (t, e') h <-> e' = e /\ on_seg e (step p v t)).
  { intros e I. destruct (HIT e I) as (q & te & tr & E & AT & U). unfold ray_halfedge_test. rewrite E. cbn [bind].
    eexists. split; [reflexivity|]. intros t e'. split.
    - destruct (qleb_spec 0 te); cbn [andb]; [|intros []]. destruct (qleb_spec te 1); [|intros []]. intros [X|[]]. apply pair_inv in X as (<- & <-).
      split; auto. rewrite <- AT. exists te. auto.
    - intros (-> & (s & S0 & S1 & S)). symmetry in S. apply U in S as (-> & ->).
      destruct (qleb_spec 0 te); [|contradiction]. destruct (qleb_spec te 1); [|contradiction]. now left. }
  destruct (mapM_every (fun e => ray_halfedge_test e (p, padd p (pscale c v)) f true c) found) as (hs & H).
  { intros e I. apply FD in I as (I & _). destruct (EACH e I) as (h & E & _). eauto. }
  rewrite H. cbn [bind]. eexists. split; [reflexivity|]. split.
  - apply hits_sorted.
  - intros t e. rewrite sort_by_in, in_concat. apply mapM_ok in H. split.
    + intros (h & I & J). assert (X : exists e0, In e0 found /\ ray_halfedge_test e0 (p, padd p (pscale c v)) f true c = Ok h).
      { clear -H I. induction H as [|a b r1 r2 H1 H2 IH]; [destruct I|]. destruct I as [<-|I]; [exists a; split; [now left|auto]|].
        destruct (IH I) as (e0 & A & B). exists e0. split; auto. now right. }
      destruct X as (e0 & X1 & X2). apply FD in X1 as (X1 & _). destruct (EACH e0 X1) as (h' & E & HH). rewrite X2 in E. injection E as <-.
      destruct (proj1 (HH _ _) J) as (J0 & J1). rewrite J0. auto.
    + intros (I & O). destruct (EACH e I) as (h & E & HH). assert (EF : In e found).
      { apply FD. split; auto. exists (step p v t). split; auto. destruct (along_gv_cross v V) as (C & _). transitivity (cross gv p + t * cross gv v); [vec; ring|]. rewrite C. ring. }
      exists h. split; [|apply HH; auto]. clear -H E EF. induction H as [|a b r1 r2 H1 H2 IH]; [destruct EF|].
      destruct EF as [->|EF]; [left; congruence|right; auto].
Qed.

(** ** the sample point of a cell *)
Definition midpoint (e : segment) : point := at_t e (qq 1 2).
Definition sees (e : segment) (p : point) : Prop := exists v t, right_of e v /\ 0 < t /\ p = step (midpoint e) v t /\
  forall u, 0 < u -> u <= t -> off hes (step (midpoint e) v u).
Lemma sample_ok tree box a b rest : In (a, b) hes -> init_gstree normal hes = Ok tree -> wide_box box (midpoint (a, b)) ->
  exists p, find_point_in_cell gv box normal tree (a :: b :: rest) = Ok p /\ sees (a, b) p.
Proof.
  intros I T B. unfold find_point_in_cell. set (nrm := (snd b - snd a, - (fst b - fst a))).
  assert (D : Geom2d.dot gv nrm = - cross (dir (a, b)) gv) by (unfold Geom2d.dot, nrm; vec; ring).
  pose proof (GN _ I) as GI. assert (GI' : cross (dir (a, b)) gv <> 0).
  { intros Z. apply GI. transitivity (- cross (dir (a, b)) gv); [vec; ring|rewrite Z; ring]. }
  rewrite D. set (d := cross (dir (a, b)) gv) in *.
  destruct (qeqb_spec (- d) 0) as [Z|_]; [exfalso; apply GI'; qlra|]. cbn [negb passert bind].
  assert (MP : ((fst a + fst b) / q2, (snd a + snd b) / q2) = midpoint (a, b)).
  { unfold midpoint. apply pteq; vec.
    - pose proof (qdiv_mul (fst a + fst b) q2 q2_ne). qlra.
    - pose proof (qdiv_mul (snd a + snd b) q2 q2_ne). qlra. }
  rewrite MP. set (v := if qltb (- d) 0 then (- fst gv, - snd gv) else gv).
  assert (V : along_gv v) by (unfold v, along_gv; destruct (qltb_spec (- d) 0); auto).
  assert (R : right_of (a, b) v).
  { unfold right_of, v. destruct (qltb_spec (- d) 0).
    - replace (cross (dir (a, b)) (- fst gv, - snd gv)) with (- d) by (unfold d; vec; ring). auto.
    - fold d. destruct (qc_not_eq _ _ GI'); [auto|exfalso; qlra]. }
  unfold ray_query_general. assert (pt_eqb v gv || pt_eqb (- fst v, - snd v) gv = true) as ->.
  { destruct V as [-> | ->]; [now rewrite pt_eqb_refl'|]. apply orb_true_iff. right. destruct (pt_eqb_ok (- fst (- fst gv, - snd gv), - snd (- fst gv, - snd gv)) gv) as [|N]; auto.
    exfalso. apply N. apply pteq; cbn; ring. }
  destruct (ray_query_all tree box (midpoint (a, b)) v T B V) as (inters & E & S & H). rewrite E. cbn [bind]. eexists. split; [reflexivity|].
  destruct (filter (fun h => qltb 0 (fst h)) inters) as [|[t e] l] eqn:FL.
  - exists v, 1. split; auto. split; [qlra|]. split; [unfold padd; apply pteq; vec; ring|].
    intros u U0 _ f F O. assert (X : In (u, f) (filter (fun h => qltb 0 (fst h)) inters)).
    { apply filter_In. split; [apply H; auto|]. cbn. destruct (qltb_spec 0 u); auto. }
    rewrite FL in X. destruct X.
  - assert (X : In (t, e) (filter (fun h => qltb 0 (fst h)) inters)) by (rewrite FL; now left).
    apply filter_In in X as (_ & X). cbn in X. destruct (qltb_spec 0 t) as [TP|]; [|discriminate].
    pose proof (qdiv_mul t q2 q2_ne) as TQ. set (h := t / q2) in *. clearbody h.
    exists v, h. split; auto. split; [qlra|]. split; [unfold padd, pscale; apply pteq; vec; ring|].
    intros u U0 U1 f F O. assert (X' : In (u, f) (filter (fun h => qltb 0 (fst h)) inters)).
    { apply filter_In. split; [apply H; auto|]. cbn. destruct (qltb_spec 0 u); auto. }
    assert (SS : StronglySorted (fun a b => fst a <= fst b) (filter (fun h => qltb 0 (fst h)) inters)).
    { clear -S. induction S as [|y l S IH FA]; cbn; [constructor|]. destruct (qltb 0 (fst y)); auto. constructor; auto.
      rewrite Forall_forall in *. intros z Z. apply filter_In in Z as (Z & _). auto. }
    rewrite FL in X', SS. inversion SS as [|? ? _ FA]; subst. rewrite Forall_forall in FA.
    destruct X' as [X'|X']; [apply pair_inv in X' as (X' & _)|specialize (FA _ X'); cbn in FA]; qlra.
Qed.
End Ray.
