(** * The ribbons along a ring cover everything within reach on their side of it *)
From Verif.Model Require Import Geom2d.
From Verif.Spec Require Import Plane Region Simple.
From Verif.Proofs Require Import PyP PolyP WindingP WindingQ WindingR NearP SimplifyP ReachP JumpP CoverP AreaP AngleP RibbonP RibbonQ FingerP.
From Verif.Props Require Import Frangle2dProps AreaProps.

Lemma nthp_turn l i m : nthp l (i + Z.of_nat (length l) * m) = nthp l i.
Proof. apply c_turn. Qed.
Lemma triples_iff l a b c : l <> [] -> (In (a, b, c) (triples l) <-> exists i, a = nthp l (i - 1) /\ b = nthp l i /\ c = nthp l (i + 1)).
Proof.
  intros N. unfold triples. rewrite in_map_iff. split.
  - intros (i & E & _). injection E as <- <- <-. eauto.
  - intros (i & -> & -> & ->). assert (P : (0 < Z.of_nat (length l))%Z) by (destruct l; [congruence|cbn; lia]).
    pose proof (Z.mod_pos_bound i _ P). pose proof (Z_div_mod_eq_full i (Z.of_nat (length l))) as D.
    exists (Z.to_nat (i mod Z.of_nat (length l))). split; [|apply in_seq; lia]. rewrite Z2Nat.id by lia.
    rewrite <- (nthp_turn l (i mod Z.of_nat (length l) - 1) (i / Z.of_nat (length l))), <- (nthp_turn l (i mod Z.of_nat (length l)) (i / Z.of_nat (length l))),
      <- (nthp_turn l (i mod Z.of_nat (length l) + 1) (i / Z.of_nat (length l))). f_equal; [f_equal|]; f_equal; lia.
Qed.
Lemma nthp_rev l i : l <> [] -> nthp (rev l) i = nthp l (- 1 - i).
Proof.
  intros N. assert (P : (0 < Z.of_nat (length l))%Z) by (destruct l; [congruence|cbn; lia]). unfold nthp. rewrite rev_length.
  pose proof (Z.mod_pos_bound i _ P) as B1. rewrite rev_nth by lia. f_equal.
  assert (E : ((-1 - i) mod Z.of_nat (length l) = Z.of_nat (length l) - 1 - i mod Z.of_nat (length l))%Z).
  { symmetry. apply Z.mod_unique_pos with (q := (- (i / Z.of_nat (length l)) - 1)%Z); [lia|]. pose proof (Z_div_mod_eq_full i (Z.of_nat (length l))). nia. }
  rewrite E. lia.
Qed.
Lemma triples_rev l a b c : l <> [] -> In (a, b, c) (triples (rev l)) -> In (c, b, a) (triples l).
Proof.
  intros N H. assert (N' : rev l <> []) by (intros E; apply N; rewrite <- (rev_involutive l), E; reflexivity).
  apply triples_iff in H as (i & -> & -> & ->); auto. apply triples_iff; auto. rewrite !nthp_rev by auto. exists (- 1 - i)%Z. repeat split; f_equal; lia.
Qed.
Lemma edges_iff l k : l <> [] -> (In k (edges_iter l) <-> exists i, k = (nthp l i, nthp l (i + 1))).
Proof. intros N. apply edge_in. destruct l; [congruence|cbn; lia]. Qed.
Lemma edges_rev_in l a b : l <> [] -> In (a, b) (edges_iter (rev l)) -> In (b, a) (edges_iter l).
Proof.
  intros N H. assert (N' : rev l <> []) by (intros E; apply N; rewrite <- (rev_involutive l), E; reflexivity).
  apply edges_iff in H as (i & E); auto. injection E as -> ->. apply edges_iff; auto. rewrite !nthp_rev by auto. exists (- 1 - (i + 1))%Z. f_equal; f_equal; lia.
Qed.
Lemma edge_triple l v0 v1 : l <> [] -> In (v0, v1) (edges_iter l) -> (exists vn, In (v0, v1, vn) (triples l) /\ In (v1, vn) (edges_iter l)) /\ exists vp, In (vp, v0, v1) (triples l).
Proof.
  intros N H. apply edges_iff in H as (i & E); auto. injection E as -> ->. split.
  - exists (nthp l (i + 1 + 1)). split; [apply triples_iff; auto; exists (i + 1)%Z; repeat split; f_equal; lia|apply edges_iff; auto; exists (i + 1)%Z; reflexivity].
  - exists (nthp l (i - 1)). apply triples_iff; auto. exists i. auto.
Qed.
Lemma triple_in l a b c : In (a, b, c) (triples l) -> In a l /\ In b l /\ In c l.
Proof.
  intros H. assert (N : l <> []) by (intros ->; destruct H). apply triples_iff in H as (i & -> & -> & ->); auto.
  assert (K : forall j, In (nthp l j) l). { intros j. unfold nthp. apply nth_In. pose proof (Z.mod_pos_bound j (Z.of_nat (length l))). destruct l; [congruence|cbn [length] in *; lia]. }
  auto.
Qed.

(** ** winding of simple rings *)
Lemma simple_wsum r p : simple_ring r -> ~ on_boundary r p -> wsum p r = (if (wsum p r =? 0)%Z then 0 else 2)%Z.
Proof.
  intros (S & _) NB. destruct (generic_apex_exists r p) as (o & G). { intros I. apply NB. now apply vertex_on_boundary. }
  rewrite (wsum_fan o r p NB G). destruct (S p (fan_winding o r p) NB) as [-> | ->]; [exists o; auto|reflexivity|reflexivity].
Qed.
Lemma wsum_in_ring_iff r p : ~ on_boundary r p -> (in_ring r p <-> wsum p r <> 0%Z).
Proof.
  intros NB. split; [|now apply wsum_in_ring]. intros (w & (o & G & ->) & N). rewrite (wsum_fan o r p NB G). lia.
Qed.
Lemma spike_triple r vp v vn : no_spike r -> In (vp, v, vn) (triples r) -> ~ exists k, 0 < k /\ vsub vn v = vscale k (vsub vp v).
Proof.
  intros NS H. assert (N : r <> []) by (intros ->; destruct H). apply triples_iff in H as (i & -> & -> & ->); auto.
  assert (P : (0 < Z.of_nat (length r))%Z) by (destruct r; [congruence|cbn; lia]).
  set (j := Z.to_nat ((i - 1) mod Z.of_nat (length r))). pose proof (Z.mod_pos_bound (i - 1) _ P) as B.
  assert (E : forall d, nth ((j + d) mod length r) r (0, 0) = nthp r (i - 1 + Z.of_nat d)).
  { intros d. unfold nthp. f_equal. rewrite <- (Nat2Z.id ((j + d) mod length r)). f_equal. rewrite Nat2Z.inj_mod, Nat2Z.inj_add. unfold j. rewrite Z2Nat.id by lia. apply Zplus_mod_idemp_l. }
  specialize (NS j). cbv beta zeta in NS. rewrite !E in NS. replace (i - 1 + Z.of_nat 0)%Z with (i - 1)%Z in NS by lia. replace (i - 1 + Z.of_nat 1)%Z with i in NS by lia.
  replace (i - 1 + Z.of_nat 2)%Z with (i + 1)%Z in NS by lia. exact NS.
Qed.
(** off all lines through two points of [W] *)
Definition off_lines (S : list segment) (p : point) : Prop := forall s, In s S -> ~ on_seg s p /\ (fst s <> snd s -> orient (fst s) (snd s) p <> 0).
Definition marks (cpoly R : list point) : list point := R ++ flat_map (fun v => map (fun x => vadd v (vscale 1 x)) cpoly ++ map (fun x => vadd v (vscale (- (1)) x)) cpoly) R.
Definition gsegs (cpoly R : list point) : list segment := list_prod (marks cpoly R) (marks cpoly R).
Lemma marks_in cpoly R v x s : In v R -> In x cpoly -> s = 1 \/ s = - (1) -> In (vadd v (vscale s x)) (marks cpoly R).
Proof.
  intros V X S. apply in_app_iff. right. apply in_flat_map. exists v. split; auto. apply in_app_iff.
  destruct S as [-> | ->]; [left; apply (in_map (fun x => vadd v (vscale 1 x)))|right; apply (in_map (fun x => vadd v (vscale (- (1)) x)))]; auto.
Qed.

Section Poly.
Variables (cpoly : list point) (F : Z -> Qc).
Let n := length cpoly.
Let c (i : Z) := nthp cpoly i.
Hypothesis N0 : (0 < n)%nat.
Hypothesis FT : forall i, F (i + Z.of_nat n) = F i + zq 8.
Hypothesis FI : forall i, F i < F (i + 1) /\ F (i + 1) < F i + zq 4.
Hypothesis FA : forall i, ang (vsub (c (i + 1)) (c i)) (F i).
Let CE := edges_iter cpoly.
Hypothesis C1 : forall k, In k CE -> 0 < hgt k.
Hypothesis C2 : forall x, exists k al be, In k CE /\ 0 <= al /\ 0 <= be /\ x = vadd (vscale al (fst k)) (vscale be (snd k)).
Hypothesis C3 : forall k j, In k CE -> In j CE -> nrm j (fst k) <= hgt j /\ nrm j (snd k) <= hgt j.
Hypothesis SYM : forall k, In k CE -> In (vscale (- (1)) (fst k), vscale (- (1)) (snd k)) CE.

Lemma gle_opp x l : gle CE x l -> gle CE (vscale (- (1)) x) l.
Proof.
  intros G k Hk. specialize (G _ (SYM k Hk)). destruct k as [a b]. unfold nrm, hgt in *. cbn [fst snd] in G. cbn [fst snd].
  replace (cross (vsub b a) (vscale (- (1)) x)) with (cross (vsub (vscale (- (1)) b) (vscale (- (1)) a)) x) by vring.
  replace (cross b a) with (cross (vscale (- (1)) b) (vscale (- (1)) a)) by vring. exact G.
Qed.
Lemma CE_pts k : In k CE -> In (fst k) cpoly /\ In (snd k) cpoly /\ fst k <> (0, 0) /\ snd k <> (0, 0).
Proof.
  intros H. assert (P := C1 k H). apply is_edge_iter, is_edge_pedges, pedges_in in H as (A & B). split; auto. split; auto.
  destruct k as [a b]. unfold hgt in P. cbn [fst snd] in *. split; intros ->; unfold cross in P; cbn [fst snd] in P; qlra.
Qed.
Lemma gsegs_gen R p v k m : off_lines (gsegs cpoly R) p -> In v R -> In k CE -> vsub p v <> vscale m (fst k) /\ vsub p v <> vscale m (snd k).
Proof.
  intros OFF V K. destruct (CE_pts k K) as (A & B & A0 & B0).
  assert (X : forall x, In x cpoly -> x <> (0, 0) -> vsub p v <> vscale m x).
  { intros x Hx X0 E. destruct (OFF (v, vadd v (vscale 1 x))) as (_ & O).
    - apply in_prod; [apply in_app_iff; auto|]. apply marks_in; auto.
    - cbn [fst snd] in O. apply O.
      + intros Q. apply X0. replace x with (vsub (vadd v (vscale 1 x)) v) by (generalize x; intros [? ?]; vring). rewrite <- Q. vring.
      + unfold orient. rewrite E. vring. }
  auto.
Qed.
Lemma off_pairs_spots R p s v vn : off_lines (gsegs cpoly R) p -> s = 1 \/ s = - (1) -> In v R -> In vn R -> off_pairs (spots cpoly s v vn) p.
Proof.
  intros OFF S V VN a b A B. refine (proj1 (OFF (a, b) _)). assert (X : forall x, In x (spots cpoly s v vn) -> In x (marks cpoly R)).
  { intros x [<-|[<-|H]]; [apply in_app_iff; auto|apply in_app_iff; auto|]. apply in_app_iff in H as [H|H]; apply in_map_iff in H as (y & <- & H); apply marks_in; auto. }
  apply in_prod; auto.
Qed.
Theorem ring_cover s R es p b0 l0 : s = 1 \/ s = - (1) -> minkowski_ribbon_simple_convex R cpoly s = Ok es -> simple_ring R -> R <> [] ->
  ~ on_boundary R p -> off_lines (gsegs cpoly R) p -> (s = 1 -> ~ in_ring R p) -> (s = - (1) -> in_ring R p) ->
  on_boundary R b0 -> gval CE (vsub p b0) l0 -> l0 <= 1 -> exists e, In e es /\ in_ring e p /\ ~ on_boundary e p.
Proof.
  intros S H SR NE NB OFF IO II B0 G0 L0. unfold minkowski_ribbon_simple_convex in H. apply bind_ok in H as (u & _ & H). apply bind_ok in H as (u' & _ & H).
  apply bind_ok in H as (D & DE & H). apply bind_ok in H as (parts & P & H). injection H as <-. apply PyP.mapM_ok in P.
  assert (PT : forall vp v vn, In (vp, v, vn) (triples R) -> exists part, In part parts /\ ribbon_part cpoly s D vp v vn = Ok part).
  { clear -P. induction P as [|t part ts parts H P IH]; intros vp v vn I; [destruct I|]. destruct I as [->|I]; [exists part; split; [left; auto|exact H]|].
    destruct (IH _ _ _ I) as (q & Q1 & Q2). exists q. split; [right; auto|exact Q2]. }
  assert (FIN : forall vp v vn, In (vp, v, vn) (triples R) ->
     swept cpoly D s v vn p \/ (s = 1 /\ corner cpoly s v (vsub v vp) (vsub vn v) p) \/ (s = - (1) /\ corner cpoly s v (vsub vn v) (vsub v vp) p) ->
     exists e, In e (concat parts) /\ in_ring e p /\ ~ on_boundary e p).
  { intros vp v vn I Q. destruct (PT _ _ _ I) as (part & Hp & E). apply triple_in in I as (I1 & I2 & I3).
    destruct (ribbon_covers cpoly F N0 FT FI FA D DE C1 C3 s vp v vn part p S E (off_pairs_spots R p s v vn OFF S I2 I3) Q) as (e & He & X). exists e. split; auto. apply in_concat. eauto. }
  assert (ED : forall v0 v1, In (v0, v1) (edges_iter R) -> exists fr i, vector_frangle (vsub v1 v0) = Ok fr /\ find_vertex_on n D fr = Ok i).
  { intros v0 v1 I. destruct (edge_triple R v0 v1 NE I) as (_ & vp & T). destruct (PT _ _ _ T) as (part & _ & E). unfold ribbon_part in E.
    apply bind_ok in E as (pf & _ & E). apply bind_ok in E as (nf & V & E). apply bind_ok in E as (ip & _ & E). apply bind_ok in E as (inx & W & _). eauto. }
  assert (SUP0 : forall d fr i, vector_frangle d = Ok fr -> find_vertex_on n D fr = Ok i -> let sp := supf cpoly D in gle CE (sp d) 1 /\
     forall x, gle CE x 1 -> cross d x <= cross d (sp d) /\ (cross d x = cross d (sp d) -> exists k, 0 <= k /\ sp d = vadd x (vscale k d))).
  { intros d fr i V W sp. destruct (find_lift cpoly F N0 FT FI FA D DE fr i d 0%Z V W) as (J & J1 & J2 & J3 & J4 & J5). unfold sp. rewrite <- J4.
    destruct (sup_ok cpoly F N0 FI FA C1 C3 d _ J J5 J1 J2) as (_ & X). exact X. }
  destruct S as [-> | ->].
  - destruct (covered CE C1 C2 C3 R p (supf cpoly D)) with (b0 := b0) (l0 := l0) as (l & Ll & Lp & [Q|Q]); auto.
    + intros [v0 v1] I E. cbn [fst snd] in E. subst v1. destruct (ED _ _ I) as (fr & i & V & _). apply frangle_nz in V. apply V. vring.
    + intros v0 v1 I. apply (edge_triple R v0 v1 NE I).
    + intros vp v vn I. apply (spike_triple R); auto. apply SR.
    + intros q NQ. assert (E : wsum p R = 0%Z). { destruct (Z.eq_dec (wsum p R) 0); auto. exfalso. apply IO; auto. now apply wsum_in_ring. }
      rewrite E, (simple_wsum R q SR NQ). destruct (_ =? _)%Z; lia.
    + intros v k m V K _. now apply (gsegs_gen R).
    + intros v0 v1 I. destruct (ED _ _ I) as (fr & i & V & W). exact (SUP0 _ _ _ V W).
    + destruct Q as (v0 & v1 & t & I & T0 & T1 & E). destruct (edge_triple R v0 v1 NE I) as (_ & vp & T). apply (FIN vp v0 v1 T). left. exists t, l. repeat split; auto; try qlra.
      rewrite E. generalize (supf cpoly D (vsub v1 v0)). intros; vring.
    + destruct Q as (vp & v & vn & k & al & be & T & TU & K & K1 & K2 & A0 & B1 & EL & E). apply (FIN vp v vn T). right. left. split; auto. split; auto.
      apply (edge_in cpoly N0) in K as (J & ->). unfold nrm in K1, K2. cbn [fst snd] in *. exists J, al, be. repeat split; auto; try qlra. rewrite E. generalize (nthp cpoly J) (nthp cpoly (J + 1)). intros; vring.
  - assert (NE' : rev R <> []) by (intros E; apply NE; rewrite <- (rev_involutive R), E; reflexivity).
    destruct (covered CE C1 C2 C3 (rev R) p (fun d => vscale (- (1)) (supf cpoly D (vscale (- (1)) d)))) with (b0 := b0) (l0 := l0) as (l & Ll & Lp & [Q|Q]); auto.
    + intros [v0 v1] I E. cbn [fst snd] in E. subst v1. apply edges_rev_in in I; auto. destruct (ED _ _ I) as (fr & i & V & _). apply frangle_nz in V. apply V. vring.
    + intros v0 v1 I. apply (edge_triple (rev R) v0 v1 NE' I).
    + intros vp v vn I (k & K0 & K1). apply triples_rev in I; auto. apply (spike_triple R vn v vp); [apply SR|exact I|].
      assert (Kn : k <> 0) by (intros ->; qlra). pose proof (qdiv_mul 1 k Kn) as Dv. set (q := 1 / k) in *. clearbody q. exists q. split.
      * destruct (qltb_spec 0 q); auto. exfalso. assert (0 <= - q * k) by (apply mnn; qlra). qlra.
      * rewrite K1. transitivity (vscale (q * k) (vsub vp v)); [rewrite Dv; vring|vring].
    + intros q NQ. assert (NQ' : ~ on_boundary R q) by (intros X; apply NQ; now apply on_boundary_rev). rewrite !wsum_rev.
      assert (E : wsum p R = 2%Z). { rewrite (simple_wsum R p SR NB). destruct (Z.eqb_spec (wsum p R) 0) as [E|E]; auto. exfalso. apply (wsum_in_ring_iff R p NB); auto. }
      rewrite E, (simple_wsum R q SR NQ'). destruct (_ =? _)%Z; lia.
    + intros X. apply NB. now apply on_boundary_rev.
    + intros v k m V K _. apply (gsegs_gen R); auto. now apply in_rev.
    + intros v0 v1 I d. apply edges_rev_in in I; auto. destruct (ED _ _ I) as (fr & i & V & W). destruct (SUP0 _ _ _ V W) as (U1 & U2).
      assert (Ed : vscale (- (1)) d = vsub v0 v1) by (unfold d; vring). rewrite Ed. set (sp := supf cpoly D (vsub v0 v1)) in *.
      assert (Ed' : d = vscale (- (1)) (vsub v0 v1)) by (unfold d; vring). clearbody d sp. subst d. set (d := vsub v0 v1) in *. clearbody d. split; [now apply gle_opp|].
      intros x Gx. destruct (U2 _ (gle_opp _ _ Gx)) as (Y1 & Y2). assert (EX : cross (vscale (- (1)) d) x = cross d (vscale (- (1)) x)) by vring.
      assert (EY : cross (vscale (- (1)) d) (vscale (- (1)) sp) = cross d sp) by vring. rewrite EX, EY. split; auto. intros Q. destruct (Y2 Q) as (k & K0 & K1). exists k. split; auto. rewrite K1. vring.
    + now apply on_boundary_rev.
    + destruct Q as (v0 & v1 & t & I & T0 & T1 & E). apply edges_rev_in in I; auto. destruct (edge_triple R v1 v0 NE I) as (_ & vp & T). apply (FIN vp v1 v0 T). left. exists (1 - t), l. repeat split; auto; try qlra.
      rewrite E. replace (vscale (- (1)) (vsub v1 v0)) with (vsub v0 v1) by vring. generalize (supf cpoly D (vsub v0 v1)). intros; vring.
    + destruct Q as (vn & v & vp & k & al & be & T & TU & K & K1 & K2 & A0 & B1 & EL & E). apply triples_rev in T; auto. apply (FIN vp v vn T). right. right. split; auto. split.
      * replace (cross (vsub vn v) (vsub v vp)) with (cross (vsub v vn) (vsub vp v)) by vring. exact TU.
      * apply SYM in K. apply (edge_in cpoly N0) in K as (J & EJ). destruct k as [a b]. cbn [fst snd] in *. apply pair_inv in EJ as (Ea & Eb). symmetry in Ea, Eb. unfold nrm in K1, K2. cbn [fst snd] in *.
        exists J, al, be. rewrite Ea, Eb. split; [replace (cross _ _) with (cross (vsub b a) (vsub v vn)) by vring; exact K2|].
        split; [replace (cross _ _) with (cross (vsub b a) (vsub vp v)) by vring; exact K1|]. repeat split; auto; try qlra. rewrite E. vring.
Qed.
End Poly.
