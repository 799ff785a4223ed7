(** * A triangle as a polygon contains exactly the weighted means of its corners *)
From Verif.Model Require Import SegmentTree CellMerger Arrangement2d Geom2d Sheetplex Sheetbuild.
From Verif.Spec Require Import Plane Region Hull.
From Verif.Proofs Require Import PyP PolyP WindingP WindingQ WindingR NearP PlanarP Geom2dP Geom2dOps ReachP SheetplexP FingerP SheetbuildP AreaP.
From Verif.Props Require Import Primitive2dProps.
Open Scope Qc_scope.

Definition mean3 (a b c : point) (p : point) : Prop :=
  exists u v w, 0 <= u /\ 0 <= v /\ 0 <= w /\ u + v + w = 1 /\ p = vadd (vscale u a) (vadd (vscale v b) (vscale w c)).
Lemma qnn_mul a b : 0 <= a -> 0 <= b -> 0 <= a * b.
Proof. intros. replace 0 with (0 * b) by ring. now apply Qcmult_le_compat_r. Qed.
Lemma hull_mean a b c p : hull [a; b; c] p -> mean3 a b c p.
Proof.
  induction 1 as [x I|x y z _ (u & v & w & U & V & W & S & ->) _ (u' & v' & w' & U' & V' & W' & S' & ->) (t & T0 & T1 & ->)].
  - assert (Z : 0 <= 0) by qlra. assert (O : 0 <= 1) by qlra. destruct I as [<-|[<-|[<-|[]]]]; [exists 1, 0, 0|exists 0, 1, 0|exists 0, 0, 1];
      (repeat (split; [assumption|])); (split; [ring|]); unfold vadd, vscale; destruct a, b, c; cbn [fst snd]; f_equal; ring.
  - assert (T2 : 0 <= 1 - t) by qlra.
    exists ((1 - t) * u + t * u'), ((1 - t) * v + t * v'), ((1 - t) * w + t * w').
    assert (P : forall a b, 0 <= a -> 0 <= b -> 0 <= (1 - t) * a + t * b).
    { intros r s R S1. pose proof (qnn_mul _ _ T2 R). pose proof (qnn_mul _ _ T0 S1). qlra. }
    split; [auto|]. split; [auto|]. split; [auto|]. split; [transitivity ((1 - t) * (u + v + w) + t * (u' + v' + w')); [ring|rewrite S, S'; ring]|].
    unfold at_t, vadd, vscale, vsub. destruct a, b, c. cbn [fst snd]. f_equal; ring.
Qed.
Lemma mean_rev a b c p : mean3 a b c p -> mean3 c b a p.
Proof. intros (u & v & w & U & V & W & S & ->). exists w, v, u. repeat (split; [assumption|]). split; [rewrite <- S; ring|]. unfold vadd, vscale. destruct a, b, c. cbn [fst snd]. f_equal; ring. Qed.
Lemma mean_orient a b c u v w : u + v + w = 1 -> let p := vadd (vscale u a) (vadd (vscale v b) (vscale w c)) in
  orient a b p = w * orient a b c /\ orient b c p = u * orient a b c /\ orient c a p = v * orient a b c.
Proof.
  intros S p. assert (E : u = 1 - v - w) by (rewrite <- S; ring). subst u. unfold p, orient, cross, vsub, vadd, vscale. destruct a, b, c. cbn [fst snd]. repeat split; ring.
Qed.
Lemma sgn_scale k q : 0 < k -> sgn (k * q) = sgn q.
Proof.
  intros K. unfold sgn. assert (P : forall a, 0 < a -> 0 < k * a). { intros a H. replace 0 with (0 * a) by ring. now apply Qcmult_lt_compat_r. }
  assert (N : forall a, a < 0 -> k * a < 0). { intros a H. specialize (P (- a) ltac:(qlra)). replace (k * - a) with (- (k * a)) in P by ring. qlra. }
  destruct (qltb 0 q) eqn:E; [apply qltb_lt in E; apply P in E; apply qltb_lt in E; now rewrite E|].
  destruct (qltb q 0) eqn:F; [apply qltb_lt in F; apply N in F; assert (G : qltb 0 (k * q) = false) by (apply not_true_iff_false; intros X; apply qltb_lt in X; qlra); rewrite G; apply qltb_lt in F; now rewrite F|].
  assert (q = 0). { apply not_true_iff_false in E, F. rewrite qltb_lt in E, F. destruct (Qc_dec q 0) as [[X|X]|X]; [now destruct F|now destruct E|exact X]. }
  subst q. replace (k * 0) with 0 by ring. now rewrite E.
Qed.
Lemma tri_fan_self a b p : tri_ind a a b p = 0%Z.
Proof.
  assert (E : sgn (orient a a p) = 0%Z) by (replace (orient a a p) with 0 by (unfold orient, cross, vsub; destruct a, p; cbn [fst snd]; ring); reflexivity).
  unfold tri_ind. rewrite E. cbv zeta. destruct (_ && _); reflexivity.
Qed.
Lemma tri_fan_back a b p : tri_ind a b a p = 0%Z.
Proof.
  assert (E : sgn (orient a a p) = 0%Z) by (replace (orient a a p) with 0 by (unfold orient, cross, vsub; destruct a, p; cbn [fst snd]; ring); reflexivity).
  unfold tri_ind. rewrite E. cbv zeta. destruct (Z.eqb_spec (sgn (orient a b p)) 0) as [E'|E']; [rewrite E'; destruct (_ && _); reflexivity|now rewrite andb_false_r].
Qed.
Lemma mean_ring a b c p : orient a b c <> 0 -> mean3 a b c p -> on_boundary [a; b; c] p \/ in_ring [a; b; c] p.
Proof.
  intros D (u & v & w & U & V & W & S & E). destruct (on_boundary_dec [a; b; c] p) as [B|NB]; [now left|]. right.
  assert (EDGE : forall x y, In (x, y) [(a, b); (b, c); (c, a)] -> ~ on_seg (x, y) p). { intros x y I O. apply NB. exists (x, y). split; auto. apply is_edge_iter. exact I. }
  assert (P : forall k, 0 <= k -> k <> 0 -> 0 < k). { intros k K N. destruct (Qc_dec k 0) as [[X|X]|X]; [qlra|exact X|contradiction]. }
  assert (U' : 0 < u). { apply P; auto. intros X. apply (EDGE b c); [cbn; auto|]. exists w. split; [exact W|]. split; [qlra|]. rewrite E. assert (V1 : v = 1 - w) by qlra. subst u v. unfold at_t, vadd, vscale, vsub. destruct a, b, c. cbn [fst snd]. f_equal; ring. }
  assert (V' : 0 < v). { apply P; auto. intros X. apply (EDGE c a); [cbn; auto|]. exists u. split; [exact U|]. split; [qlra|]. rewrite E. assert (V1 : w = 1 - u) by qlra. subst v w. unfold at_t, vadd, vscale, vsub. destruct a, b, c. cbn [fst snd]. f_equal; ring. }
  assert (W' : 0 < w). { apply P; auto. intros X. apply (EDGE a b); [cbn; auto|]. exists v. split; [exact V|]. split; [qlra|]. rewrite E. assert (V1 : u = 1 - v) by qlra. subst w u. unfold at_t, vadd, vscale, vsub. destruct a, b, c. cbn [fst snd]. f_equal; ring. }
  exists (fan_winding a [a; b; c] p). split.
  - exists a. split; [|reflexivity]. intros x I O. destruct I as [<-|[<-|[<-|[]]]].
    + apply (EDGE a b); [cbn; auto|]. destruct O as (t & _ & _ & ->). exists 0. split; [qlra|]. split; [qlra|]. unfold at_t, vadd, vscale, vsub. destruct a, b. cbn [fst snd]. f_equal; ring.
    + apply (EDGE a b); [cbn; auto|exact O].
    + apply (EDGE c a); [cbn; auto|]. now apply on_seg_sym.
  - unfold fan_winding, cyclic_pairs, zsum. cbn [combine app fst snd]. rewrite tri_fan_self, tri_fan_back. destruct (mean_orient a b c u v w S) as (E1 & E2 & E3). rewrite <- E in E1, E2, E3.
    unfold tri_ind. rewrite E1, E2, E3, !sgn_scale by assumption. rewrite !Z.eqb_refl. cbn [andb]. unfold sgn. destruct (qltb 0 (orient a b c)) eqn:X; [lia|]. destruct (qltb (orient a b c) 0) eqn:Y; [lia|].
    exfalso. apply not_true_iff_false in X, Y. rewrite qltb_lt in X, Y. destruct (Qc_dec (orient a b c) 0) as [[Z|Z]|Z]; auto.
Qed.
Lemma one_ring R p : (on_bd [mkSpwh R []] p \/ in_geom [mkSpwh R []] p) <-> (on_boundary R p \/ in_ring R p).
Proof.
  split.
  - intros [(r & (s & [<-|[]] & [->|[]]) & B)|(s & [<-|[]] & I & _)]; auto.
  - intros [B|I]; [left; exists R; split; [exists (mkSpwh R []); cbn; auto|exact B]|right; exists (mkSpwh R []); split; [now left|split; [exact I|intros h []]]].
Qed.
Lemma area_orient a b c : area_of [a; b; c] <> 0 -> orient a b c <> 0.
Proof.
  intros NZ X. apply NZ. rewrite (area_of_fan a). assert (E : fan2 a [a; b; c] = orient a b c) by (unfold fan2, cyclic_pairs, qsum; cbn [combine app fst snd]; destruct a, b, c; unfold Plane.orient, cross, Plane.vsub; cbn [fst snd]; ring).
  rewrite E, X. ring.
Qed.
Lemma orient_rev a b c : orient c b a = - orient a b c.
Proof. unfold orient, cross, vsub. destruct a, b, c. cbn [fst snd]. ring. Qed.
(** ** Geom2D.polygon of three points *)
Lemma polygon_ring l g : polygon_q true l = Ok g -> g = [mkSpwh l []] \/ g = [mkSpwh (rev l) []].
Proof.
  intros H. unfold polygon_q in H. apply bind_ok in H as (ar & _ & H). apply bind_ok in H as (w & H2 & H). apply bind_ok in H as (u & _ & H). apply bind_ok in H as (u' & _ & H). apply Ok_inv in H as <-.
  apply SPWH_ok in H2 as (_ & _ & ->). destruct (qltb _ _); auto.
Qed.
Theorem triangle_polygon a b c g : polygon_q true [a; b; c] = Ok g -> forall p, (on_bd g p \/ in_geom g p) <-> mean3 a b c p.
Proof.
  intros H p. pose proof (area_orient _ _ _ (proj2 (polygon_q_ok _ _ H))) as D.
  apply polygon_ring in H as [-> | ->]; rewrite one_ring; [|cbn [rev app]].
  - split; [intros X; apply hull_mean, ring_hull; tauto|]. now apply mean_ring.
  - split; [intros X; apply mean_rev, hull_mean, ring_hull; tauto|]. intros X. apply mean_ring; [|now apply mean_rev].
    rewrite orient_rev. intros Z. apply D. rewrite <- (Qcopp_involutive (orient a b c)), Z. ring.
Qed.
