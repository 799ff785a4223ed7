(** The half-edges of a subdivision meet in their ends only. *)
From Verif.Spec Require Import Plane Subdivision.
From Verif.Proofs Require Import PyP PolyP WindingP NearP PlanarP.
From Verif.Props Require Import Scan2dProps.

Lemma dot_self_pos D : D <> (0, 0) -> 0 < dot D D.
Proof.
  intros N. pose proof (sq_nonneg (fst D)). pose proof (sq_nonneg (snd D)). unfold dot.
  destruct (qeqb_spec (fst D) 0) as [A|A]; [|apply sq_pos in A; qlra].
  destruct (qeqb_spec (snd D) 0) as [B|B]; [|apply sq_pos in B; qlra].
  exfalso. apply N. apply pteq; auto.
Qed.
Lemma parallel_scale D F : D <> (0, 0) -> cross D F = 0 -> exists k, F = vscale k D.
Proof.
  intros N Z. pose proof (dot_self_pos D N) as P. assert (PN : dot D D <> 0) by (intros X; qlra).
  exists (dot D F / dot D D). pose proof (qdiv_mul (dot D F) _ PN) as Q. set (k := dot D F / dot D D) in *. clearbody k.
  assert (A : forall a, a * dot D D = 0 -> a = 0) by (intros a X; apply Qcmult_integral in X as [X|X]; [auto|contradiction]).
  apply pteq.
  - enough (fst F - k * fst D = 0) by (vec; qlra). apply A.
    replace ((fst F - k * fst D) * dot D D) with (fst F * dot D D - (k * dot D D) * fst D) by ring. rewrite Q.
    transitivity (- cross D F * snd D); [vec; ring|rewrite Z; ring].
  - enough (snd F - k * snd D = 0) by (vec; qlra). apply A.
    replace ((snd F - k * snd D) * dot D D) with (snd F * dot D D - (k * dot D D) * snd D) by ring. rewrite Q.
    transitivity (cross D F * fst D); [vec; ring|rewrite Z; ring].
Qed.
Lemma dir_ne e : fst e <> snd e -> dir e <> (0, 0).
Proof. intros N Z. apply N. pose proof (f_equal fst Z). pose proof (f_equal snd Z). vec. apply pteq; qlra. Qed.
Lemma ne_dir e : dir e <> (0, 0) -> fst e <> snd e.
Proof. intros N Z. apply N. unfold dir. rewrite Z. apply pteq; vec; ring. Qed.
Lemma inner_rev' e x : inner (rev_e e) x <-> inner e x.
Proof.
  assert (G : forall e x, inner e x -> inner (rev_e e) x).
  { clear. intros e x (s & A & B & ->). exists (1 - s). split; [qlra|]. split; [qlra|]. apply pteq; unfold rev_e; vec; ring. }
  split; [|apply G]. intros H. apply G in H. destruct e. exact H.
Qed.

(** two stretches of one line between neighbouring marks, with a common inner point, are equal *)
Section Line.
  Variable V : point -> Prop.
  Lemma line_same e f x k : V (fst e) -> V (snd e) -> V (fst f) -> V (snd f) ->
    (forall y, inner e y -> ~ V y) -> (forall y, inner f y -> ~ V y) ->
    inner e x -> inner f x -> 0 < k -> dir f = vscale k (dir e) -> f = e.
  Proof.
    intros E1 E2 F1 F2 NE NF (s & S0 & S1 & X) (r & R0 & R1 & Y) K D.
    set (d := dir e) in *.
    assert (P1 : fst e = vadd x (vscale (- s) d)) by (rewrite X; unfold d; apply pteq; vec; ring).
    assert (P2 : snd e = vadd x (vscale (1 - s) d)) by (rewrite X; unfold d; apply pteq; vec; ring).
    assert (Q1 : fst f = vadd x (vscale (- (r * k)) d)).
    { transitivity (vadd x (vscale (- r) (vscale k d))); [rewrite <- D, Y|]; apply pteq; vec; ring. }
    assert (Q2 : snd f = vadd x (vscale ((1 - r) * k) d)).
    { transitivity (vadd x (vscale (1 - r) (vscale k d))); [rewrite <- D, Y|]; apply pteq; vec; ring. }
    assert (AE : forall t, at_t e t = vadd x (vscale (t - s) d)) by (intros t; rewrite X; unfold d; apply pteq; vec; ring).
    assert (AF : forall t, at_t f t = vadd x (vscale ((t - r) * k) d)).
    { intros t. transitivity (vadd x (vscale (t - r) (vscale k d))); [rewrite <- D, Y|]; apply pteq; vec; ring. }
    assert (KN : k <> 0) by (intros Z; qlra).
    assert (ME : forall u, - s < u -> u < 1 - s -> ~ V (vadd x (vscale u d))).
    { intros u U0 U1. apply NE. exists (u + s). split; [qlra|]. split; [qlra|]. rewrite AE. replace (u + s - s) with u by ring. auto. }
    assert (MF : forall u, - (r * k) < u -> u < (1 - r) * k -> ~ V (vadd x (vscale u d))).
    { intros u U0 U1. apply NF. pose proof (qdiv_mul u k KN) as W. set (w := u / k) in *. clearbody w. subst u.
      exists (w + r). split; [qnra|]. split; [qnra|]. rewrite AF. replace ((w + r - r) * k) with (w * k) by ring. auto. }
    assert (RK : 0 < r * k) by qnra. assert (RK' : 0 < (1 - r) * k) by qnra.
    rewrite P1 in E1. rewrite P2 in E2. rewrite Q1 in F1. rewrite Q2 in F2.
    assert (r * k = s).
    { destruct (qltb_spec (r * k) s); [exfalso; apply (ME (- (r * k))); auto; qlra|].
      destruct (qltb_spec s (r * k)); [exfalso; apply (MF (- s)); auto; qlra|]. qlra. }
    assert ((1 - r) * k = 1 - s).
    { destruct (qltb_spec ((1 - r) * k) (1 - s)); [exfalso; apply (ME ((1 - r) * k)); auto; qlra|].
      destruct (qltb_spec (1 - s) ((1 - r) * k)); [exfalso; apply (MF (1 - s)); auto; qlra|]. qlra. }
    rewrite (surjective_pairing f), (surjective_pairing e), P1, P2, Q1, Q2. f_equal; f_equal; f_equal; qlra.
  Qed.
  Lemma line_unique e f x : V (fst e) -> V (snd e) -> V (fst f) -> V (snd f) ->
    (forall y, inner e y -> ~ V y) -> (forall y, inner f y -> ~ V y) -> fst e <> snd e -> fst f <> snd f ->
    inner e x -> inner f x -> cross (dir e) (dir f) = 0 -> f = e \/ f = rev_e e.
  Proof.
    intros E1 E2 F1 F2 NE NF DE DF IE IF Z. destruct (parallel_scale _ _ (dir_ne _ DE) Z) as (k & K).
    assert (KN : k <> 0). { intros ->. apply (dir_ne f DF). rewrite K. apply pteq; vec; ring. }
    destruct (qc_not_eq _ _ KN) as [KK|KK].
    - right. assert (rev_e f = e) as <-; [|unfold rev_e; cbn; now destruct f].
      apply (line_same e (rev_e f) x (- k)); auto.
      + intros y Y. apply NF. now apply inner_rev'.
      + now apply inner_rev'.
      + qlra.
      + transitivity (vscale (- (1)) (dir f)); [unfold rev_e; apply pteq; vec; ring|]. rewrite K. apply pteq; vec; ring.
    - left. eapply line_same; eauto.
  Qed.
End Line.

Lemma on_seg_sub s e x : on_seg s (fst e) -> on_seg s (snd e) -> on_seg e x -> on_seg s x.
Proof.
  intros (a & A0 & A1 & A) (b & B0 & B1 & B) (t & T0 & T1 & ->). exists (a + t * (b - a)).
  split; [|split].
  - assert (0 <= (1 - t) * a) by qnra. assert (0 <= t * b) by qnra. qlra.
  - assert (0 <= (1 - t) * (1 - a)) by qnra. assert (0 <= t * (1 - b)) by qnra. qlra.
  - unfold at_t at 1. rewrite A, B. apply pteq; vec; ring.
Qed.
Lemma inner_on_seg e x : inner e x -> on_seg e x.
Proof. intros (t & A & B & ->). exists t. split; [qlra|]. split; [qlra|auto]. Qed.
Lemma on_seg_cases e x : on_seg e x -> x = fst e \/ x = snd e \/ inner e x.
Proof.
  intros (t & A & B & ->). destruct (qltb_spec 0 t); [destruct (qltb_spec t 1)|].
  - right. right. exists t. auto.
  - right. left. assert (t = 1) as -> by qlra. apply pteq; vec; ring.
  - left. assert (t = 0) as -> by qlra. apply pteq; vec; ring.
Qed.
Lemma sub_dir s e : on_seg s (fst e) -> on_seg s (snd e) -> exists k, dir e = vscale k (direction s).
Proof.
  intros (a & _ & _ & A) (b & _ & _ & B). exists (b - a). unfold dir. rewrite A, B. unfold direction. apply pteq; vec; ring.
Qed.
Lemma vert_sub_edge_parallel segs e f x : sub_edge segs e -> sub_edge segs f -> on_seg e x -> on_seg f x -> ~ vert segs x ->
  cross (dir e) (dir f) = 0.
Proof.
  intros (DE & E1 & E2 & (s & S & SA & SB) & NE) (DF & F1 & F2 & (r & R & RA & RB) & NF) X Y NV.
  destruct (sub_dir _ _ SA SB) as (k & K). destruct (sub_dir _ _ RA RB) as (m & M).
  assert (C : cross (direction s) (direction r) = 0).
  { destruct (seg_eqb s r) eqn:Q.
    - apply seg_eqb_dec in Q. subst r. unfold cross. ring.
    - assert (s <> r) by (intros Z; apply seg_eqb_dec in Z; congruence).
      destruct (qeqb_spec (cross (direction s) (direction r)) 0) as [|W]; auto. exfalso. apply NV. right.
      exists s, r. repeat (split; [assumption|]). split; [eapply on_seg_sub; eauto|]. split; [eapply on_seg_sub; eauto|]. auto. }
  rewrite K, M. replace (cross _ _) with (k * m * cross (direction s) (direction r)) by (vec; ring). rewrite C. ring.
Qed.
Theorem sub_edge_planar segs e f x : sub_edge segs e -> sub_edge segs f -> strictly_on e x -> on_seg f x -> f = e \/ f = rev_e e.
Proof.
  intros HE HF X Y. pose proof HE as HE'. pose proof HF as HF'.
  destruct HE as (DE & E1 & E2 & (s & S & SA & SB) & NE). destruct HF as (DF & F1 & F2 & (r & R & RA & RB) & NF).
  assert (NV : ~ vert segs x) by now apply NE.
  assert (IF : inner f x) by (destruct (on_seg_cases _ _ Y) as [->|[->|]]; tauto).
  apply (line_unique (vert segs) e f x); auto.
  apply (vert_sub_edge_parallel segs e f x); auto. now apply inner_on_seg.
Qed.
Lemma sub_edge_rev segs e : sub_edge segs e -> sub_edge segs (rev_e e).
Proof.
  intros (DE & E1 & E2 & (s & S & SA & SB) & NE). split; [unfold rev_e; cbn; auto|]. split; auto. split; auto. split; [exists s; auto|].
  intros x X. apply NE. apply inner_rev'. exact X.
Qed.
(** no two half-edges leave a vertex in the same direction *)
Theorem sub_edge_directions segs e f : sub_edge segs e -> sub_edge segs f -> fst e = fst f ->
  cross (dir e) (dir f) = 0 -> 0 < dot (dir e) (dir f) -> e = f.
Proof.
  intros HE HF S Z D. pose proof HE as (DE & _). destruct (parallel_scale _ _ (dir_ne _ DE) Z) as (k & K).
  rewrite K in D. pose proof (dot_self_pos _ (dir_ne _ DE)) as P.
  replace (dot (dir e) (vscale k (dir e))) with (k * dot (dir e) (dir e)) in D by (vec; ring).
  assert (KP : 0 < k) by qnra.
  assert (X : exists x, inner e x /\ inner f x).
  { assert (KN : 1 + k <> 0) by (intros W; qlra). pose proof (qdiv_mul 1 _ KN) as Q. set (t := 1 / (1 + k)) in *. clearbody t.
    assert (0 < t) by qnra. assert (t * k < 1) by qlra. assert (0 < t * k) by qnra.
    exists (vadd (fst e) (vscale (t * k) (dir e))). split.
    - exists (t * k). split; [auto|]. split; [auto|]. apply pteq; vec; ring.
    - exists t. split; [auto|]. split; [qnra|]. rewrite S. transitivity (vadd (fst f) (vscale t (vscale k (dir e)))); [apply pteq; vec; ring|].
      rewrite <- K. apply pteq; vec; ring. }
  destruct X as (x & XE & XF). destruct (sub_edge_planar segs e f x HE HF XE (inner_on_seg _ _ XF)) as [-> | ->]; auto.
  exfalso. apply DE. unfold rev_e in S. cbn in S. congruence.
Qed.
