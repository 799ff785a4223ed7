(** * The points near a ring are covered by the ribbons along it

    [CE] lists the directed edges of a convex polygon (clockwise, the origin inside).  A point [p] on the side of the
    ring where the winding number is extreme, and no further from the ring than the polygon reaches, lies in the
    parallelogram swept along an edge by the polygon's extreme vertex, or in a corner piece of the polygon. *)
From Verif.Model Require Import Geom2d.
From Verif.Spec Require Import Plane Region.
From Verif.Proofs Require Import PyP PolyP WindingP WindingQ WindingR NearP ReachP JumpP.

Ltac vun := unfold orient, cross, dot, vadd, vscale, vsub in *; cbn [fst snd] in *.
Ltac vring := try apply injective_projections; unfold orient, cross, dot, vadd, vscale, vsub; cbn [fst snd]; ring.

Lemma mnn a b : 0 <= a -> 0 <= b -> 0 <= a * b.
Proof. intros A B. qnra. Qed.
(** products of two hypotheses, then linear arithmetic *)
Ltac qn1 :=
  match goal with
  | _ => qlra
  | H1 : ?a < ?b, H2 : ?c < ?d |- _ => let H := fresh in assert (H : 0 < (b - a) * (d - c)) by (apply mpp; qlra); qlra
  | H1 : ?a <= ?b, H2 : ?c < ?d |- _ => let H := fresh in assert (H : 0 <= (b - a) * (d - c)) by (apply mnn; qlra); qlra
  | H1 : ?a <= ?b, H2 : ?c <= ?d |- _ => let H := fresh in assert (H : 0 <= (b - a) * (d - c)) by (apply mnn; qlra); qlra
  end.
Ltac qn2 := first [qn1 | qnra].

Lemma pt_dec (a b : point) : {a = b} + {a <> b}.
Proof. destruct (pt_eqb_spec a b); auto. Qed.
Lemma dot_pos (g : point) : g <> (0, 0) -> 0 < dot g g.
Proof.
  destruct g as [a b]. intros N. unfold dot. cbn [fst snd]. assert (A : 0 <= a * a) by (clear; qnra). assert (B : 0 <= b * b) by (clear; qnra).
  destruct (qeqb_spec (a * a + b * b) 0) as [E|E]; [|destruct (qc_not_eq _ _ E); qlra]. exfalso. apply N.
  assert (a * a = 0) by qlra. assert (b * b = 0) by qlra. f_equal; [destruct (Qcmult_integral _ _ H)|destruct (Qcmult_integral _ _ H0)]; auto.
Qed.

Section Gauge.
Variable CE : list segment.
Definition nrm (k : segment) (x : point) : Qc := cross (vsub (snd k) (fst k)) x.
Definition hgt (k : segment) : Qc := cross (snd k) (fst k).
Hypothesis C1 : forall k, In k CE -> 0 < hgt k.
Hypothesis C2 : forall x, exists k al be, In k CE /\ 0 <= al /\ 0 <= be /\ x = vadd (vscale al (fst k)) (vscale be (snd k)).
Hypothesis C3 : forall k j, In k CE -> In j CE -> nrm j (fst k) <= hgt j /\ nrm j (snd k) <= hgt j.

Definition gle (x : point) (l : Qc) : Prop := forall k, In k CE -> nrm k x <= l * hgt k.
Definition glt (x : point) (l : Qc) : Prop := forall k, In k CE -> nrm k x < l * hgt k.
(** the polygon, scaled by [l], has [x] on its boundary *)
Definition gval (x : point) (l : Qc) : Prop :=
  exists k al be, In k CE /\ 0 <= al /\ 0 <= be /\ x = vadd (vscale al (fst k)) (vscale be (snd k)) /\ l = al + be.

Lemma nrm_lin j k al be : nrm j (vadd (vscale al (fst k)) (vscale be (snd k))) = al * nrm j (fst k) + be * nrm j (snd k).
Proof. destruct j, k. unfold nrm. vring. Qed.
Lemma nrm_fst k : nrm k (fst k) = hgt k.
Proof. destruct k. unfold nrm, hgt. vring. Qed.
Lemma nrm_snd k : nrm k (snd k) = hgt k.
Proof. destruct k. unfold nrm, hgt. vring. Qed.
Lemma nrm_sub k x w t : nrm k (vsub x (vscale t w)) = nrm k x - t * nrm k w.
Proof. destruct k. unfold nrm. vring. Qed.
Lemma gval_ex x : exists l, gval x l.
Proof. destruct (C2 x) as (k & al & be & H). exists (al + be). exists k, al, be. tauto. Qed.
Lemma gval_le x l : gval x l -> gle x l.
Proof.
  intros (k & al & be & Hk & A & B & -> & ->) j Hj. rewrite nrm_lin. destruct (C3 k j Hk Hj) as (X & Y).
  assert (0 <= al * (hgt j - nrm j (fst k))) by (apply mnn; qlra). assert (0 <= be * (hgt j - nrm j (snd k))) by (apply mnn; qlra). qlra.
Qed.
Lemma gval_at x l : gval x l -> exists k, In k CE /\ nrm k x = l * hgt k.
Proof.
  intros (k & al & be & Hk & A & B & -> & ->). exists k. split; auto. rewrite nrm_lin, nrm_fst, nrm_snd. ring.
Qed.
Lemma gval_min x l m : gval x l -> gle x m -> l <= m.
Proof.
  intros G L. destruct (gval_at _ _ G) as (k & Hk & E). specialize (L k Hk). specialize (C1 k Hk). rewrite E in L.
  destruct (qleb_spec l m); auto. exfalso. assert (0 < (l - m) * hgt k) by (apply mpp; qlra). qlra.
Qed.
Lemma gval_lt x l m : gval x l -> glt x m -> l < m.
Proof.
  intros G L. destruct (gval_at _ _ G) as (k & Hk & E). specialize (L k Hk). specialize (C1 k Hk). rewrite E in L.
  destruct (qltb_spec l m); auto. exfalso. assert (0 <= (l - m) * hgt k) by (apply mnn; qlra). qlra.
Qed.
Lemma gval_nonneg x l : gval x l -> 0 <= l.
Proof. intros (k & al & be & _ & A & B & _ & ->). qlra. Qed.
Lemma gval_zero x : gval x 0 -> x = (0, 0).
Proof.
  intros (k & al & be & _ & A & B & -> & E). assert (al = 0) by qlra. assert (be = 0) by qlra. subst. destruct k. vring.
Qed.
Lemma gval_uniq x l m : gval x l -> gval x m -> l = m.
Proof. intros A B. pose proof (gval_min _ _ _ A (gval_le _ _ B)). pose proof (gval_min _ _ _ B (gval_le _ _ A)). qlra. Qed.

(** ** The nearest point of a segment *)
Lemma exit_time T al be d1 d2 : 0 <= T -> 0 <= al -> 0 <= be -> exists s, 0 <= s /\ s <= T /\ 0 <= al - s * d1 /\ 0 <= be - s * d2 /\
  (s = T \/ (al - s * d1 = 0 /\ d1 <> 0) \/ (be - s * d2 = 0 /\ d2 <> 0)).
Proof.
  intros HT A B.
  assert (G : forall T al d1, 0 <= T -> 0 <= al -> exists s, 0 <= s /\ s <= T /\ 0 <= al - s * d1 /\ (s = T \/ (al - s * d1 = 0 /\ d1 <> 0))).
  { clear. intros T al d1 HT A. destruct (qleb_spec 0 (al - T * d1)) as [L|L]; [exists T; repeat split; auto; qlra|].
    assert (D : 0 < d1) by (destruct (qltb_spec 0 d1); auto; exfalso; qn2). assert (N : d1 <> 0) by (intros X; qlra).
    pose proof (qdiv_mul al d1 N) as M. set (s := al / d1) in *. clearbody s. exists s.
    split; [destruct (qleb_spec 0 s); auto; exfalso; qn2|]. split; [destruct (qleb_spec s T); auto; exfalso; qn2|].
    split; [qlra|]. right. split; [qlra|auto]. }
  destruct (G T al d1 HT A) as (s1 & S0 & S1 & S2 & S3). destruct (G s1 be d2 S0 B) as (s2 & U0 & U1 & U2 & U3). exists s2.
  split; auto. split; [qlra|]. split; [destruct (qleb_spec 0 d1); qn2|]. split; auto.
  destruct U3 as [->|U3]; [|auto]. destruct S3 as [->|S3]; auto.
Qed.
Lemma edge_down k x d T l al be : In k CE -> 0 <= T -> 0 <= al -> 0 <= be -> x = vadd (vscale al (fst k)) (vscale be (snd k)) -> l = al + be -> 0 <= nrm k d ->
  exists s l', 0 <= s /\ s <= T /\ gval (vsub x (vscale s d)) l' /\ l' <= l /\
    (s = T \/ exists c, (c = fst k \/ c = snd k) /\ cross (vsub x (vscale s d)) c = 0 /\ cross d c <> 0).
Proof.
  intros Hk HT A B -> -> N. pose proof (C1 k Hk) as H. assert (Hn : hgt k <> 0) by (intros X; qlra).
  set (d1 := - (cross d (snd k) / hgt k)). set (d2 := cross d (fst k) / hgt k).
  pose proof (qdiv_mul (cross d (snd k)) _ Hn) as M1. pose proof (qdiv_mul (cross d (fst k)) _ Hn) as M2. fold d2 in M2.
  assert (M1' : d1 * hgt k = - cross d (snd k)) by (unfold d1; transitivity (- (cross d (snd k) / hgt k * hgt k)); [ring|rewrite M1; ring]). clear M1. clearbody d1 d2.
  assert (D : d = vadd (vscale d1 (fst k)) (vscale d2 (snd k))).
  { assert (X : forall y, y * hgt k = 0 -> y = 0) by (intros y Y; apply Qcmult_integral in Y as [Y|Y]; [auto|tauto]).
    destruct d as [dx dy]. unfold vadd, vscale. cbn [fst snd].
    f_equal; [assert (dx - (d1 * fst (fst k) + d2 * fst (snd k)) = 0) by (apply X; transitivity (dx * hgt k - (d1 * hgt k) * fst (fst k) - (d2 * hgt k) * fst (snd k)); [ring|]; rewrite M1', M2; unfold hgt; destruct k; vring); qlra
             |assert (dy - (d1 * snd (fst k) + d2 * snd (snd k)) = 0) by (apply X; transitivity (dy * hgt k - (d1 * hgt k) * snd (fst k) - (d2 * hgt k) * snd (snd k)); [ring|]; rewrite M1', M2; unfold hgt; destruct k; vring); qlra]. }
  assert (N' : 0 <= d1 + d2). { rewrite D, nrm_lin, nrm_fst, nrm_snd in N. destruct (qleb_spec 0 (d1 + d2)); auto. exfalso. assert (0 < - (d1 + d2) * hgt k) by (apply mpp; qlra). qlra. }
  destruct (exit_time T al be d1 d2 HT A B) as (s & S0 & S1 & S2 & S3 & S4). exists s, (al + be - s * (d1 + d2)).
  assert (EX : vsub (vadd (vscale al (fst k)) (vscale be (snd k))) (vscale s d) = vadd (vscale (al - s * d1) (fst k)) (vscale (be - s * d2) (snd k))).
  { rewrite D. destruct k. vring. }
  split; auto. split; auto. rewrite EX. split; [exists k, (al - s * d1), (be - s * d2); repeat split; auto; ring|]. split; [assert (0 <= s * (d1 + d2)) by (apply mnn; qlra); qlra|].
  destruct S4 as [S4|[(S4 & S5)|(S4 & S5)]]; [auto|right|right].
  - exists (snd k). split; auto. rewrite S4. split; [destruct k; vring|]. intros X. apply S5. assert (d1 * hgt k = 0) as Y by (rewrite M1', X; ring). apply Qcmult_integral in Y as [Y|Y]; tauto.
  - exists (fst k). split; auto. rewrite S4. split; [destruct k; vring|]. intros X. apply S5. assert (d2 * hgt k = 0) as Y by (rewrite M2, X; ring). apply Qcmult_integral in Y as [Y|Y]; tauto.
Qed.
Definition cand (p : point) (e : segment) : list Qc :=
  0 :: 1 :: flat_map (fun k => map (fun c => cross (vsub p (fst e)) c / cross (vsub (snd e) (fst e)) c) [fst k; snd k]) CE.
Lemma cand_ok p e t l : 0 <= t -> t <= 1 -> gval (vsub p (at_t e t)) l ->
  exists t' l', In t' (cand p e) /\ 0 <= t' /\ t' <= 1 /\ gval (vsub p (at_t e t')) l' /\ l' <= l.
Proof.
  intros T0 T1 (k & al & be & Hk & A & B & X & L). set (d := vsub (snd e) (fst e)).
  assert (MV : forall s, vsub (vsub p (at_t e t)) (vscale s d) = vsub p (at_t e (t + s))) by (intros s; unfold d, at_t; destruct e; vring).
  assert (CD : forall s c, (c = fst k \/ c = snd k) -> cross (vsub p (at_t e (t + s))) c = 0 -> cross d c <> 0 -> In (t + s) (cand p e)).
  { intros s c Hc E N. unfold cand. right. right. apply in_flat_map. exists k. split; auto. apply in_map_iff. exists c. split; [|destruct Hc as [->| ->]; cbn; auto].
    fold d. assert (E' : cross (vsub p (fst e)) c = (t + s) * cross d c).
    { transitivity (cross (vsub p (at_t e (t + s))) c + (t + s) * cross d c); [unfold d, at_t; destruct e; vring|rewrite E; ring]. }
    rewrite E'. field. auto. }
  destruct (qleb_spec 0 (nrm k d)) as [N|N].
  - destruct (edge_down k (vsub p (at_t e t)) d (1 - t) l al be Hk) as (s & l' & S0 & S1 & G & LL & E); auto; [qlra|]. rewrite MV in G. exists (t + s), l'.
    split; [|repeat split; auto; qlra]. destruct E as [->|(c & Hc & E & Nc)]; [right; left; ring|]. rewrite MV in E. eapply CD; eauto.
  - set (d' := vscale (- (1)) d). assert (N' : 0 <= nrm k d') by (unfold d'; replace (nrm k (vscale (- (1)) d)) with (- nrm k d) by (clearbody d; destruct k; unfold nrm; vring); qlra).
    assert (MV' : forall s, vsub (vsub p (at_t e t)) (vscale s d') = vsub p (at_t e (t + - s))).
    { intros s. rewrite <- MV. unfold d'. clearbody d. generalize (vsub p (at_t e t)). intros y. vring. }
    destruct (edge_down k (vsub p (at_t e t)) d' t l al be Hk) as (s & l' & S0 & S1 & G & LL & E); auto. rewrite MV' in G. exists (t + - s), l'.
    split; [|repeat split; auto; qlra]. destruct E as [->|(c & Hc & E & Nc)]; [left; ring|]. rewrite MV' in E. eapply CD; eauto.
    intros Z0. apply Nc. unfold d'. clearbody d. transitivity (- cross d c); [vring|rewrite Z0; ring].
Qed.
Lemma best_rel {X} (P : X -> Qc -> Prop) l x0 : (forall x, exists v, P x v) -> (forall x v w, P x v -> P x w -> v = w) -> In x0 l ->
  exists x v, In x l /\ P x v /\ forall y w, In y l -> P y w -> v <= w.
Proof.
  intros EX U. revert x0. induction l as [|a l IH]; intros x0 H; [destruct H|]. destruct (EX a) as (va & Va).
  destruct l as [|b l].
  - exists a, va. split; [left; reflexivity|]. split; auto. intros y w [<-|[]] W. rewrite (U _ _ _ Va W). qlra.
  - destruct (IH b) as (x & v & Hx & V & K); [left; reflexivity|]. destruct (qleb_spec va v) as [L|L].
    + exists a, va. split; [left; reflexivity|]. split; auto. intros y w [<-|Hy] W; [rewrite (U _ _ _ Va W); qlra|]. specialize (K y w Hy W). qlra.
    + exists x, v. split; [right; exact Hx|]. split; auto. intros y w [<-|Hy] W; [rewrite <- (U _ _ _ Va W); qlra|]. apply (K y w Hy W).
Qed.
Definition nearest (r : list point) (p b : point) (l : Qc) : Prop :=
  on_boundary r b /\ gval (vsub p b) l /\ forall b' l', on_boundary r b' -> gval (vsub p b') l' -> l <= l'.
Lemma nearest_ex r p : r <> [] -> exists b l, nearest r p b l.
Proof.
  intros NE. set (L := flat_map (fun e => map (at_t e) (filter (fun t => qleb 0 t && qleb t 1) (cand p e))) (edges_iter r)).
  assert (HL : forall b, In b L <-> exists e t, In e (edges_iter r) /\ In t (cand p e) /\ 0 <= t /\ t <= 1 /\ b = at_t e t).
  { intros b. unfold L. rewrite in_flat_map. split.
    - intros (e & He & H). apply in_map_iff in H as (t & <- & H). apply filter_In in H as (H & F). exists e, t.
      destruct (qleb_spec 0 t); [|discriminate]. destruct (qleb_spec t 1); [|discriminate]. auto.
    - intros (e & t & He & H & T0 & T1 & ->). exists e. split; auto. apply in_map. apply filter_In. split; auto.
      destruct (qleb_spec 0 t); [|tauto]. destruct (qleb_spec t 1); [|tauto]. reflexivity. }
  assert (exists b0, In b0 L) as (b0 & H0).
  { destruct r as [|a r]; [tauto|]. destruct (pedges_of (a :: r) a) as (w & Hw); [cbn; auto|]. apply is_edge_pedges, is_edge_iter in Hw.
    exists (at_t (a, w) 0). apply HL. exists (a, w), 0. repeat split; auto; try qlra. left. reflexivity. }
  destruct (best_rel (fun b l => gval (vsub p b) l) L b0) as (b & l & Hb & G & M); auto.
  { intros x. apply gval_ex. } { intros x v w. apply gval_uniq. }
  exists b, l. split; [|split; auto].
  - apply HL in Hb as (e & t & He & _ & T0 & T1 & ->). eapply ring_on_boundary; eauto. exists t. auto.
  - intros b' l' (e & He & (t & T0 & T1 & ->)) G'. apply is_edge_iter in He. destruct (cand_ok p e t l' T0 T1 G') as (t' & l'' & Ht & U0 & U1 & G'' & LL).
    assert (l <= l''); [|qlra]. apply (M (at_t e t')); auto. apply HL. exists e, t'. auto.
Qed.

(** ** Directions in which the ring leaves a nearest point *)
Lemma open_free r p b l q : nearest r p b l -> glt (vsub p q) l -> ~ on_boundary r q.
Proof. intros (_ & _ & M) L B. destruct (gval_ex (vsub p q)) as (l' & G). specialize (M _ _ B G). pose proof (gval_lt _ _ _ G L). qlra. Qed.
Lemma open_wsum r p b l q : nearest r p b l -> 0 < l -> glt (vsub p q) l -> wsum q r = wsum p r.
Proof.
  intros N L G. apply wsum_move. intros y (t & T0 & T1 & ->). apply (open_free r p b l); auto. intros k Hk.
  replace (vsub p (at_t (q, p) t)) with (vsub (vsub p q) (vscale t (vsub p q))) by (unfold at_t; vring). rewrite nrm_sub.
  specialize (G k Hk). specialize (C1 k Hk). assert (0 < l * hgt k) by (apply mpp; auto).
  assert ((1 - t) * nrm k (vsub p q) < l * hgt k); [|qlra]. destruct (qltb_spec 0 (nrm k (vsub p q))); qn2.
Qed.
Definition armz (r : list point) (b z : point) : Prop := exists s, In s (edges_iter r) /\ on_seg s b /\ (z = fst s \/ z = snd s).
Lemma arm_active r p b l z : nearest r p b l -> armz r b z -> exists k, In k CE /\ nrm k (vsub p b) = l * hgt k /\ nrm k (vsub z b) <= 0.
Proof.
  intros N (s & Hs & Ob & Hz). set (w := vsub z b).
  destruct (existsb (fun k => qeqb (nrm k (vsub p b)) (l * hgt k) && qleb (nrm k w) 0) CE) eqn:E.
  { apply existsb_exists in E as (k & Hk & E). apply andb_true_iff in E as (E1 & E2). exists k. split; auto. split; [now destruct (qeqb_spec (nrm k (vsub p b)) (l * hgt k))|now destruct (qleb_spec (nrm k w) 0)]. }
  exfalso. destruct (forall_small (fun k t => nrm k (vsub p (vadd b (vscale t w))) < l * hgt k) CE) as (e & E0 & H).
  { intros k Hk. destruct N as (_ & G & _). pose proof (gval_le _ _ G k Hk) as L.
    assert (F : (qeqb (nrm k (vsub p b)) (l * hgt k) && qleb (nrm k w) 0) = false).
    { destruct (qeqb (nrm k (vsub p b)) (l * hgt k) && qleb (nrm k w) 0) eqn:F; auto. rewrite <- E. symmetry. apply existsb_exists. eauto. }
    assert (RW : forall t, nrm k (vsub p (vadd b (vscale t w))) = nrm k (vsub p b) - t * nrm k w).
    { intros t. rewrite <- nrm_sub. f_equal. clearbody w. vring. }
    destruct (qeqb_spec (nrm k (vsub p b)) (l * hgt k)) as [A|A].
    - exists 1. split; [qlra|]. intros t T0 T1. rewrite RW, A. destruct (qleb_spec (nrm k w) 0); [discriminate|]. assert (0 < t * nrm k w) by (apply mpp; qlra). qlra.
    - destruct (lin_pos (l * hgt k - nrm k (vsub p b)) (nrm k w)) as (e & E0 & H); [destruct (qc_not_eq _ _ A); qlra|]. exists e. split; auto.
      intros t T0 T1. rewrite RW. specialize (H t ltac:(qlra) T1). qlra. }
  set (t := qmin e 1). assert (0 < t /\ t <= e /\ t <= 1) as (T0 & T1 & T2) by (unfold t, qmin; destruct (qleb_spec e 1); repeat split; qlra).
  apply (open_free r p b l (vadd b (vscale t w)) N); [intros k Hk; apply H; auto|]. apply (ring_on_boundary r s); auto.
  apply on_seg_conv; auto; [|qlra]. destruct s. destruct Hz as [->| ->]; apply on_seg_end.
Qed.
Lemma active_par k j al be : In k CE -> In j CE -> 0 < al -> 0 < be ->
  nrm j (vadd (vscale al (fst k)) (vscale be (snd k))) = (al + be) * hgt j ->
  exists m, 0 < m /\ vsub (snd j) (fst j) = vscale m (vsub (snd k) (fst k)) /\ hgt j = m * hgt k.
Proof.
  intros Hk Hj A B E. rewrite nrm_lin in E. destruct (C3 k j Hk Hj) as (X & Y). pose proof (C1 k Hk) as H1. pose proof (C1 j Hj) as H2.
  assert (Z1 : 0 <= al * (hgt j - nrm j (fst k))) by (apply mnn; qlra). assert (Z2 : 0 <= be * (hgt j - nrm j (snd k))) by (apply mnn; qlra).
  assert (X' : al * (hgt j - nrm j (fst k)) = 0) by qlra. assert (Y' : be * (hgt j - nrm j (snd k)) = 0) by qlra.
  assert (N1 : nrm j (fst k) = hgt j) by (apply Qcmult_integral in X' as [X'|X']; qlra). assert (N2 : nrm j (snd k) = hgt j) by (apply Qcmult_integral in Y' as [Y'|Y']; qlra).
  assert (Hn : hgt k <> 0) by (intros Q; qlra). exists (hgt j / hgt k). pose proof (qdiv_mul (hgt j) _ Hn) as M. set (m := hgt j / hgt k) in *. clearbody m.
  split; [destruct (qltb_spec 0 m); auto; exfalso; qn2|]. split; [|auto].
  assert (K : forall y : point, cross y (fst k) = 0 -> cross y (snd k) = 0 -> y = (0, 0)).
  { intros y K1 K2. destruct y as [y1 y2].
    assert (I1 : y1 * hgt k = cross (y1, y2) (fst k) * fst (snd k) - cross (y1, y2) (snd k) * fst (fst k)) by (unfold hgt; destruct k; vring).
    assert (I2 : y2 * hgt k = cross (y1, y2) (fst k) * snd (snd k) - cross (y1, y2) (snd k) * snd (fst k)) by (unfold hgt; destruct k; vring).
    rewrite K1, K2 in I1, I2. assert (J1 : y1 * hgt k = 0) by qlra. assert (J2 : y2 * hgt k = 0) by qlra.
    apply Qcmult_integral in J1 as [J1|J1]; [|tauto]. apply Qcmult_integral in J2 as [J2|J2]; [|tauto]. congruence. }
  set (ej := vsub (snd j) (fst j)) in *. set (ek := vsub (snd k) (fst k)).
  assert (V : vsub ej (vscale m ek) = (0, 0)).
  { apply K.
    - transitivity (nrm j (fst k) - m * nrm k (fst k)); [unfold nrm; fold ej; fold ek; clearbody ej ek; destruct k; vring|]. rewrite N1, nrm_fst. qlra.
    - transitivity (nrm j (snd k) - m * nrm k (snd k)); [unfold nrm; fold ej; fold ek; clearbody ej ek; destruct k; vring|]. rewrite N2, nrm_snd. qlra. }
  clearbody ej ek. destruct ej, ek. vun. apply pair_inv in V as (V1 & V2). f_equal; qlra.
Qed.
Lemma par_of g w : g <> (0, 0) -> cross g w = 0 -> exists m, w = vscale m g.
Proof.
  destruct g as [g1 g2], w as [w1 w2]. intros N E. vun. destruct (qeqb_spec g1 0) as [->|N1].
  - assert (N2 : g2 <> 0) by congruence. exists (w2 / g2). assert (X : g2 * w1 = 0) by qlra. apply Qcmult_integral in X as [X|X]; [tauto|]. f_equal; [rewrite X; ring|field; auto].
  - exists (w1 / g1). f_equal; [field; auto|]. pose proof (qdiv_mul w1 g1 N1) as M. set (m := w1 / g1) in *. clearbody m.
    assert (X : g1 * (w2 - m * g2) = 0) by (transitivity (g1 * w2 - g2 * (m * g1)); [ring|rewrite M; qlra]). apply Qcmult_integral in X as [X|X]; [tauto|qlra].
Qed.

Section Ring.
Variables (r : list point) (p : point) (sup : point -> point).
Hypothesis NZ : forall s, In s (edges_iter r) -> fst s <> snd s.
Hypothesis NEXT : forall v0 v1, In (v0, v1) (edges_iter r) -> exists vn, In (v0, v1, vn) (triples r) /\ In (v1, vn) (edges_iter r).
Hypothesis NS : forall vp v vn, In (vp, v, vn) (triples r) -> ~ exists k, 0 < k /\ vsub vn v = vscale k (vsub vp v).
Hypothesis EXT : forall q, ~ on_boundary r q -> (wsum p r <= wsum q r)%Z.
Hypothesis OFF : ~ on_boundary r p.
Hypothesis GEN : forall v k m, In v r -> In k CE -> 0 <= m -> vsub p v <> vscale m (fst k) /\ vsub p v <> vscale m (snd k).
Hypothesis SUP : forall v0 v1, In (v0, v1) (edges_iter r) -> let d := vsub v1 v0 in gle (sup d) 1 /\
  forall x, gle x 1 -> cross d x <= cross d (sup d) /\ (cross d x = cross d (sup d) -> exists k, 0 <= k /\ sup d = vadd x (vscale k d)).

Definition in_quad (l : Qc) : Prop := exists v0 v1 t, In (v0, v1) (edges_iter r) /\ 0 <= t /\ t <= 1 /\
  p = vadd (vadd v0 (vscale t (vsub v1 v0))) (vscale l (sup (vsub v1 v0))).
Definition in_pie (l : Qc) : Prop := exists vp v vn k al be, In (vp, v, vn) (triples r) /\ cross (vsub v vp) (vsub vn v) < 0 /\
  In k CE /\ nrm k (vsub vn v) <= 0 /\ 0 < nrm k (vsub v vp) /\
  0 <= al /\ 0 <= be /\ al + be = l /\ p = vadd v (vadd (vscale al (fst k)) (vscale be (snd k))).

Lemma near_pos b l : nearest r p b l -> 0 < l.
Proof.
  intros (B & G & _). pose proof (gval_nonneg _ _ G). destruct (qeqb_spec l 0) as [->|N]; [|destruct (qc_not_eq _ _ N); qlra].
  exfalso. apply gval_zero in G. apply OFF. replace p with b; auto. destruct p, b. vun. apply pair_inv in G as (G1 & G2). f_equal; qlra.
Qed.
Lemma gle_scale x l m : 0 < l -> gle x l -> m * l = 1 -> gle (vscale m x) 1.
Proof.
  intros L G E k Hk. specialize (G k Hk). assert (0 < m) by (destruct (qltb_spec 0 m); auto; exfalso; qn2).
  replace (nrm k (vscale m x)) with (m * nrm k x) by (destruct k; unfold nrm; vring). assert (0 <= m * (l * hgt k - nrm k x)) by (apply mnn; qlra).
  replace (m * (l * hgt k - nrm k x)) with (m * l * hgt k - m * nrm k x) in H0 by ring. rewrite E in H0. qlra.
Qed.
Lemma quad_or_back v0 v1 b t l : nearest r p b l -> In (v0, v1) (edges_iter r) -> 0 <= t -> t <= 1 -> b = vadd v0 (vscale t (vsub v1 v0)) ->
  cross (vsub v1 v0) (vsub p b) = l * cross (vsub v1 v0) (sup (vsub v1 v0)) -> in_quad l \/ nearest r p v0 l.
Proof.
  intros N Hs T0 T1 Eb E. pose proof (near_pos b l N) as L. destruct N as (B & G & M). destruct (SUP v0 v1 Hs) as (S1 & S2).
  set (d := vsub v1 v0) in *. cbv zeta in S1, S2. fold d in S1, S2. set (x := vsub p b) in *. assert (Ln : l <> 0) by (intros X; qlra).
  assert (IL : 1 / l * l = 1) by (field; auto). set (il := 1 / l) in *. clearbody il.
  pose proof (gle_scale x l il L (gval_le _ _ G) IL) as G1. destruct (S2 _ G1) as (_ & S3). destruct S3 as (k & K & Es).
  { transitivity (il * cross d x); [clearbody d x; vring|]. rewrite E. transitivity (il * l * cross d (sup d)); [ring|rewrite IL; ring]. }
  assert (EL : vscale l (sup d) = vadd x (vscale (l * k) d)).
  { rewrite Es. transitivity (vadd (vscale (il * l) x) (vscale (l * k) d)); [clearbody d x; vring|]. rewrite IL. clearbody d x. vring. }
  assert (LK : 0 <= l * k) by (apply mnn; qlra).
  destruct (qleb_spec (l * k) t) as [Q|Q].
  - left. exists v0, v1, (t - l * k). split; auto. split; [qlra|]. split; [qlra|]. fold d. rewrite EL.
    replace p with (vadd b x) by (unfold x; vring). rewrite Eb. clearbody d x. clear. destruct v0, d, x. unfold vadd, vscale. cbn [fst snd]. f_equal; ring.
  - right. assert (Bv : on_boundary r v0) by (apply (ring_on_boundary r (v0, v1)); auto; apply on_seg_end).
    assert (X0 : vsub p v0 = vadd x (vscale t d)) by (unfold x; rewrite Eb; clearbody d; clear; vring).
    assert (LE : gle (vsub p v0) l).
    { rewrite X0. intros j Hj. pose proof (gval_le _ _ G j Hj) as A1. pose proof (S1 j Hj) as A2.
      assert (A3 : nrm j (vadd x (vscale (l * k) d)) = l * nrm j (sup d)) by (rewrite <- EL; destruct j; unfold nrm; vring).
      assert (A4 : forall q, nrm j (vadd x (vscale q d)) = nrm j x + q * nrm j d) by (intros q; destruct j; unfold nrm; clearbody d x; vring).
      rewrite A4 in *. assert (A5 : l * nrm j (sup d) <= l * hgt j) by (assert (0 <= l * (1 * hgt j - nrm j (sup d))) by (apply mnn; qlra); qlra).
      destruct (qleb_spec 0 (nrm j d)).
      + assert (0 <= (l * k - t) * nrm j d) by (apply mnn; qlra). qlra.
      + assert (0 <= t * - nrm j d) by (apply mnn; qlra). qlra. }
    destruct (gval_ex (vsub p v0)) as (l' & G'). pose proof (gval_min _ _ _ G' LE). pose proof (M _ _ Bv G'). assert (l' = l) by qlra. subst l'.
    split; auto.
Qed.

(** the nearest point is no vertex *)
Lemma max_at d x l j1 j2 : 0 < l -> gle x l -> 0 < cross d x -> In j1 CE -> In j2 CE -> nrm j1 x = l * hgt j1 -> nrm j2 x = l * hgt j2 ->
  nrm j1 d <= 0 -> 0 <= nrm j2 d -> forall y, gle y 1 -> cross d (vscale l y) <= cross d x.
Proof.
  intros L G C H1 H2 A1 A2 D1 D2 y Gy. pose proof (C1 _ H1) as P1. pose proof (C1 _ H2) as P2. set (Y := vsub (vscale l y) x).
  assert (Y1 : nrm j1 Y <= 0). { replace (nrm j1 Y) with (l * nrm j1 y - nrm j1 x) by (unfold Y; destruct j1; unfold nrm; vring). specialize (Gy _ H1). assert (0 <= l * (1 * hgt j1 - nrm j1 y)) by (apply mnn; qlra). qlra. }
  assert (Y2 : nrm j2 Y <= 0). { replace (nrm j2 Y) with (l * nrm j2 y - nrm j2 x) by (unfold Y; destruct j2; unfold nrm; vring). specialize (Gy _ H2). assert (0 <= l * (1 * hgt j2 - nrm j2 y)) by (apply mnn; qlra). qlra. }
  enough (cross d Y <= 0). { replace (cross d (vscale l y)) with (cross d Y + cross d x) by (unfold Y; vring). qlra. }
  assert (X1 : 0 < nrm j1 x) by (rewrite A1; apply mpp; auto). assert (X2 : 0 < nrm j2 x) by (rewrite A2; apply mpp; auto).
  unfold nrm in *. set (e1 := vsub (snd j1) (fst j1)) in *. set (e2 := vsub (snd j2) (fst j2)) in *. clearbody e1 e2 Y. clear -C D1 D2 Y1 Y2 X1 X2.
  assert (ID : forall z, cross e1 e2 * cross d z = cross e1 d * cross e2 z - cross e2 d * cross e1 z) by (intros z; vring).
  destruct (qltb_spec (cross e1 e2) 0) as [L|L].
  - pose proof (ID Y) as I. assert (0 <= - cross e1 d * - cross e2 Y) by (apply mnn; qlra). assert (0 <= cross e2 d * - cross e1 Y) by (apply mnn; qlra).
    destruct (qleb_spec (cross d Y) 0); auto. exfalso. assert (0 < - cross e1 e2 * cross d Y) by (apply mpp; qlra). qlra.
  - destruct (qeqb_spec (cross e1 e2) 0) as [Z0|Z0].
    + destruct (par_of e1 e2) as (m & ->); auto.
      { intros ->. vun. qlra. }
      assert (Mp : 0 < m). { replace (cross (vscale m e1) x) with (m * cross e1 x) in X2 by vring. destruct (qltb_spec 0 m); auto. exfalso. qn2. }
      replace (cross (vscale m e1) d) with (m * cross e1 d) in D2 by vring. assert (D0 : cross e1 d = 0) by (destruct (qltb_spec (cross e1 d) 0); [exfalso; qn2|qlra]).
      destruct (par_of e1 d) as (n & ->); auto. { intros ->. vun. qlra. }
      replace (cross (vscale n e1) x) with (n * cross e1 x) in C by vring. replace (cross (vscale n e1) Y) with (n * cross e1 Y) by vring.
      assert (0 < n) by (destruct (qltb_spec 0 n); auto; exfalso; qn2). qn2.
    + assert (P : 0 < cross e1 e2) by (destruct (qc_not_eq _ _ Z0); qlra). pose proof (ID x) as I. exfalso.
      assert (cross e1 d * cross e2 x <= 0) by qn2. assert (0 <= cross e2 d * cross e1 x) by (apply mnn; qlra). assert (0 < cross e1 e2 * cross d x) by (apply mpp; auto). qlra.
Qed.
Lemma sup_val v0 v1 x l : In (v0, v1) (edges_iter r) -> 0 < l -> gle x l -> (forall y, gle y 1 -> cross (vsub v1 v0) (vscale l y) <= cross (vsub v1 v0) x) ->
  cross (vsub v1 v0) x = l * cross (vsub v1 v0) (sup (vsub v1 v0)).
Proof.
  intros Hs L G M. destruct (SUP v0 v1 Hs) as (S1 & S2). cbv zeta in *. set (d := vsub v1 v0) in *. pose proof (M _ S1) as M1.
  replace (cross d (vscale l (sup d))) with (l * cross d (sup d)) in M1 by (clearbody d; vring).
  assert (Ln : l <> 0) by (intros X; qlra). assert (IL : 1 / l * l = 1) by (field; auto). set (il := 1 / l) in *. clearbody il.
  destruct (S2 _ (gle_scale x l il L G IL)) as (S3 & _). replace (cross d (vscale il x)) with (il * cross d x) in S3 by (clearbody d; vring).
  assert (0 <= l * (cross d (sup d) - il * cross d x)) by (apply mnn; qlra). replace (l * (cross d (sup d) - il * cross d x)) with (l * cross d (sup d) - il * l * cross d x) in H by ring. rewrite IL in H. qlra.
Qed.
Lemma not_at_vertex b l : nearest r p b l -> ~ In b r -> in_quad l \/ exists v, In v r /\ nearest r p v l.
Proof.
  intros N NV. pose proof (near_pos b l N) as L. pose proof N as (B & G & M). set (x := vsub p b) in *.
  assert (XP : forall k, In k CE -> nrm k x = l * hgt k -> 0 < nrm k x) by (intros k Hk ->; apply mpp; auto).
  assert (NU : forall s z, In s (edges_iter r) -> on_seg s b -> z = fst s \/ z = snd s -> ~ exists k, 0 < k /\ vsub z b = vscale k x).
  { intros s z Hs O Hz (k & K & E). destruct (arm_active r p b l z N) as (j & Hj & A & D); [exists s; auto|]. rewrite E in D.
    replace (nrm j (vscale k x)) with (k * nrm j x) in D by (destruct j; unfold nrm; clearbody x; vring). specialize (XP j Hj A). assert (0 < k * nrm j x) by (apply mpp; auto). qlra. }
  assert (PARAM : forall v0 v1, In (v0, v1) (edges_iter r) -> on_seg (v0, v1) b -> exists t, 0 < t /\ t < 1 /\ b = vadd v0 (vscale t (vsub v1 v0)) /\
     vsub v0 b = vscale (- t) (vsub v1 v0) /\ vsub v1 b = vscale (1 - t) (vsub v1 v0)).
  { intros v0 v1 Hs (t & T0 & T1 & Eb). assert (In v0 r /\ In v1 r) as (V0 & V1) by (apply (pedges_in r (v0, v1)), is_edge_pedges, is_edge_iter, Hs). exists t.
    assert (t <> 0). { intros ->. apply NV. replace b with v0; auto. rewrite Eb. unfold at_t. vring. }
    assert (t <> 1). { intros ->. apply NV. replace b with v1; auto. rewrite Eb. unfold at_t. vring. }
    split; [destruct (qc_not_eq _ _ H); qlra|]. split; [destruct (qc_not_eq _ _ H0); qlra|]. split; [exact Eb|]. rewrite Eb. unfold at_t. split; vring. }
  destruct (first_arm r b x NU) as (v0 & v1 & Hs & O & C & _).
  - destruct B as ([v0 v1] & Hs & O). apply is_edge_iter in Hs. destruct (PARAM v0 v1 Hs O) as (t & T0 & T1 & Eb & A0 & A1).
    assert (D : cross x (vsub v1 v0) <> 0).
    { intros D. destruct (par_of x (vsub v1 v0)) as (m & Em); auto.
      { intros X. destruct (gval_at _ _ G) as (k & Hk & A). specialize (XP k Hk A). rewrite X in XP. unfold nrm in XP. vun. qlra. }
      assert (m <> 0). { intros ->. apply (NZ _ Hs). cbn [fst snd]. destruct v0, v1. vun. apply pair_inv in Em as (E1 & E2). f_equal; qlra. }
      destruct (qc_not_eq _ _ H) as [Q|Q].
      - apply (NU (v0, v1) v0 Hs O); [auto|]. exists (- t * m). split; [assert (0 < t * - m) by (apply mpp; qlra); qlra|]. rewrite A0, Em. clearbody x. vring.
      - apply (NU (v0, v1) v1 Hs O); [auto|]. exists ((1 - t) * m). split; [apply mpp; qlra|]. rewrite A1, Em. clearbody x. vring. }
    destruct (qc_not_eq _ _ D) as [Q|Q].
    + exists (v0, v1), v0. split; auto. split; auto. split; [auto|]. rewrite A0. replace (cross x (vscale (- t) (vsub v1 v0))) with (t * - cross x (vsub v1 v0)) by (clearbody x; vring). apply mpp; qlra.
    + exists (v0, v1), v1. split; auto. split; auto. split; [auto|]. rewrite A1. replace (cross x (vscale (1 - t) (vsub v1 v0))) with ((1 - t) * cross x (vsub v1 v0)) by (clearbody x; vring). apply mpp; qlra.
  - exists 1. split; [qlra|]. intros t q T0 T1 NB. rewrite (open_wsum r p b l (vadd b (vscale t x))); auto.
    intros k Hk. replace (vsub p (vadd b (vscale t x))) with (vsub x (vscale t x)) by (unfold x; vring). rewrite nrm_sub.
    pose proof (gval_le _ _ G k Hk). pose proof (C1 k Hk). assert (0 < l * hgt k) by (apply mpp; auto). destruct (qltb_spec 0 (nrm k x)); qn2.
  - destruct (PARAM v0 v1 Hs O) as (t & T0 & T1 & Eb & A0 & A1).
    destruct (arm_active r p b l v1 N) as (j1 & Hj1 & J1 & D1); [exists (v0, v1); auto|]. destruct (arm_active r p b l v0 N) as (j2 & Hj2 & J2 & D2); [exists (v0, v1); auto|].
    fold x in J1, J2. rewrite A1 in D1. rewrite A0 in D2, C. set (d := vsub v1 v0) in *.
    replace (nrm j1 (vscale (1 - t) d)) with ((1 - t) * nrm j1 d) in D1 by (clearbody d; destruct j1; unfold nrm; vring).
    replace (nrm j2 (vscale (- t) d)) with (- t * nrm j2 d) in D2 by (clearbody d; destruct j2; unfold nrm; vring).
    replace (cross x (vscale (- t) d)) with (t * cross d x) in C by (clearbody d x; vring).
    assert (C' : 0 < cross d x) by (destruct (qltb_spec 0 (cross d x)); auto; exfalso; qn2).
    assert (D1' : nrm j1 d <= 0) by (destruct (qleb_spec (nrm j1 d) 0); auto; exfalso; qn2).
    assert (D2' : 0 <= nrm j2 d) by (destruct (qleb_spec 0 (nrm j2 d)); auto; exfalso; qn2).
    assert (MX := max_at d x l j1 j2 L (gval_le _ _ G) C' Hj1 Hj2 J1 J2 D1' D2').
    destruct (quad_or_back v0 v1 b t l N Hs) as [Q|Q]; auto; try qlra.
    + apply sup_val; auto. apply gval_le, G.
    + right. exists v0. split; auto. apply (pedges_in r (v0, v1)), is_edge_pedges, is_edge_iter, Hs.
Qed.

(** the nearest point is a vertex *)
Lemma strict_cone v l : In v r -> gval (vsub p v) l -> exists k al be, In k CE /\ 0 < al /\ 0 < be /\ vsub p v = vadd (vscale al (fst k)) (vscale be (snd k)) /\ l = al + be.
Proof.
  intros Hv (k & al & be & Hk & A & B & E & ->). exists k, al, be. split; auto.
  assert (al <> 0). { intros ->. apply (proj2 (GEN v k be Hv Hk B)). rewrite E. destruct k. vring. }
  assert (be <> 0). { intros ->. apply (proj1 (GEN v k al Hv Hk A)). rewrite E. destruct k. vring. }
  split; [destruct (qc_not_eq _ _ H); qlra|]. split; [destruct (qc_not_eq _ _ H0); qlra|auto].
Qed.
Definition active (k : segment) (v : point) (l : Qc) : Prop := In k CE /\ nrm k (vsub p v) = l * hgt k.
Lemma at_vertex v l : nearest r p v l -> In v r ->
  in_quad l \/ in_pie l \/ exists k v0, active k v l /\ active k v0 l /\ In v0 r /\ nearest r p v0 l /\
    dot (vsub (snd k) (fst k)) v0 < dot (vsub (snd k) (fst k)) v.
Proof.
  intros N Hv. pose proof (near_pos v l N) as L. pose proof N as (B & G & M).
  destruct (strict_cone v l Hv G) as (k & al & be & Hk & Al & Be & Ex & El). set (x := vsub p v) in *.
  pose proof (C1 k Hk) as Hh. assert (AK : nrm k x = l * hgt k) by (rewrite Ex, El, nrm_lin, nrm_fst, nrm_snd; ring).
  assert (XK : 0 < nrm k x) by (rewrite AK; apply mpp; auto).
  assert (PAR : forall j, In j CE -> nrm j x = l * hgt j -> exists m, 0 < m /\ (forall y, nrm j y = m * nrm k y) /\ hgt j = m * hgt k).
  { intros j Hj A. rewrite Ex, El in A. destruct (active_par k j al be Hk Hj Al Be A) as (m & Mp & E & H). exists m. split; auto. split; auto.
    intros y. unfold nrm. rewrite E. destruct k. vring. }
  set (g := vsub (snd k) (fst k)). assert (NG : forall y, nrm k y = cross g y) by reflexivity.
  assert (Gn : g <> (0, 0)). { intros X. rewrite NG, X in XK. vun. qlra. }
  assert (HALF : forall z, armz r v z -> cross g (vsub z v) <= 0).
  { intros z Hz. destruct (arm_active r p v l z N Hz) as (j & Hj & A & D). destruct (PAR j Hj A) as (m & Mp & E & _). rewrite E, NG in D.
    destruct (qleb_spec (cross g (vsub z v)) 0); auto. exfalso. assert (0 < m * cross g (vsub z v)) by (apply mpp; qlra). qlra. }
  destruct (WindingQ.fresh_q (flat_map (fun s => map (fun z => cross x (vsub z v) / cross g (vsub z v)) [fst s; snd s]) (edges_iter r))) as (M0 & HM).
  set (u := vsub x (vscale M0 g)).
  assert (Cu : forall w, cross u w = cross x w - M0 * cross g w) by (intros w; unfold u; clearbody x g; vring).
  assert (Cgx : cross x g = - nrm k x) by (rewrite NG; clearbody x g; vring).
  assert (DIR : forall z, armz r v z -> z <> v -> 0 < cross u (vsub z v) \/ exists m, 0 < m /\ vsub z v = vscale m g).
  { intros z Hz Nz. pose proof (HALF z Hz) as H. destruct (qeqb_spec (cross g (vsub z v)) 0) as [E|E].
    - destruct (par_of g (vsub z v) Gn E) as (m & Em). assert (m <> 0).
      { intros ->. apply Nz. clear -Em. clearbody g. destruct z, v, g. vun. apply pair_inv in Em as (E1 & E2). f_equal; qlra. }
      destruct (qc_not_eq _ _ H0) as [Q|Q]; [left|right; eauto]. rewrite Cu, E, Em. replace (cross x (vscale m g)) with (m * cross x g) by (clearbody x g; vring). rewrite Cgx.
      assert (0 < - m * nrm k x) by (apply mpp; qlra). qlra.
    - left. rewrite Cu. destruct Hz as (s & Hs & O & Ez). assert (I : cross x (vsub z v) / cross g (vsub z v) < M0).
      { apply HM. apply in_flat_map. exists s. split; auto. apply in_map_iff. exists z. split; auto. destruct Ez as [->| ->]; cbn; auto. }
      pose proof (qdiv_mul (cross x (vsub z v)) _ E) as Q. set (f := cross x (vsub z v) / cross g (vsub z v)) in *. clearbody f.
      assert (0 < (M0 - f) * - cross g (vsub z v)) by (apply mpp; [qlra|destruct (qc_not_eq _ _ E); qlra]). qlra. }
  assert (Cgu : cross g u = nrm k x) by (rewrite NG; unfold u; clearbody x g; vring).
  assert (NEG : forall m, 0 < m -> cross u (vscale m g) < 0).
  { intros m Mp. replace (cross u (vscale m g)) with (- (m * cross g u)) by (clearbody u g; vring). rewrite Cgu. assert (0 < m * nrm k x) by (apply mpp; auto). qlra. }
  destruct (first_arm r v u) as (v0 & v1 & Hs & O & C & FP).
  - intros s z Hs O Hz (m & Mp & E). assert (H := HALF z ltac:(exists s; auto)). rewrite E in H.
    replace (cross g (vscale m u)) with (m * cross g u) in H by (clearbody u g; vring). rewrite Cgu in H. assert (0 < m * nrm k x) by (apply mpp; auto). qlra.
  - destruct (pedges_to r v Hv) as (vp & Hp). apply is_edge_pedges, is_edge_iter in Hp. destruct (NEXT vp v Hp) as (vn & Ht & Hn).
    assert (A1 : armz r v vp) by (exists (vp, v); repeat split; auto; apply on_seg_end). assert (A2 : armz r v vn) by (exists (v, vn); repeat split; auto; apply on_seg_end).
    destruct (DIR vp A1) as [D1|(m1 & M1 & E1)]; [apply (NZ _ Hp)| |].
    + destruct A1 as (s & Hs & O & Ez). exists s, vp. auto.
    + destruct (DIR vn A2) as [D2|(m2 & M2 & E2)]; [intros X; exact (NZ _ Hn (eq_sym X))| |].
      * destruct A2 as (s & Hs & O & Ez). exists s, vn. auto.
      * exfalso. apply (NS _ _ _ Ht). assert (Q : m1 <> 0) by (intros X; qlra). exists (m2 / m1). pose proof (qdiv_mul m2 m1 Q) as D. set (f := m2 / m1) in *. clearbody f.
        split; [destruct (qltb_spec 0 f); auto; exfalso; qn2|]. rewrite E1, E2, <- D. clearbody g. vring.
  - destruct (forall_small (fun j t => nrm j (vsub p (vadd v (vscale t u))) < l * hgt j) CE) as (e & E0 & H).
    { intros j Hj. pose proof (gval_le _ _ G j Hj) as LE. fold x in LE.
      assert (RW : forall t, nrm j (vsub p (vadd v (vscale t u))) = nrm j x - t * nrm j u).
      { intros t. rewrite <- nrm_sub. f_equal. unfold x. clearbody u. vring. }
      destruct (qeqb_spec (nrm j x) (l * hgt j)) as [A|A].
      - destruct (PAR j Hj A) as (m & Mp & E & _). exists 1. split; [qlra|]. intros t T0 T1. rewrite RW, A, E, (NG u), Cgu. assert (0 < t * (m * nrm k x)) by (apply mpp; auto; apply mpp; auto). qlra.
      - destruct (lin_pos (l * hgt j - nrm j x) (nrm j u)) as (e & E0 & H); [destruct (qc_not_eq _ _ A); qlra|]. exists e. split; auto.
        intros t T0 T1. rewrite RW. specialize (H t ltac:(qlra) T1). qlra. }
    exists e. split; auto. intros t q T0 T1 NB. rewrite (open_wsum r p v l (vadd v (vscale t u))); auto. intros j Hj. apply H; auto.
  - assert (I01 : In v0 r /\ In v1 r) by (apply (pedges_in r (v0, v1)), is_edge_pedges, is_edge_iter, Hs). destruct I01 as (I0 & I1).
    destruct O as (t & T0 & T1 & Ev). set (d := vsub v1 v0) in *.
    assert (A0 : vsub v0 v = vscale (- t) d) by (rewrite Ev; unfold d, at_t; vring). assert (A1 : vsub v1 v = vscale (1 - t) d) by (rewrite Ev; unfold d, at_t; vring).
    assert (Tp : 0 < t). { destruct (qeqb_spec t 0) as [X|X]; [|destruct (qc_not_eq _ _ X); qlra]. exfalso. rewrite A0, X in C. clearbody u d. destruct u, d. vun. qlra. }
    assert (ON : on_seg (v0, v1) v) by (exists t; auto).
    assert (H0 : 0 <= cross g d). { assert (H := HALF v0 ltac:(exists (v0, v1); auto)). rewrite A0 in H. replace (cross g (vscale (- t) d)) with (- (t * cross g d)) in H by (clearbody g d; vring). destruct (qleb_spec 0 (cross g d)); auto. exfalso. qn2. }
    assert (Dn : d <> (0, 0)). { intros X. apply (NZ _ Hs). cbn [fst snd]. unfold d in X. clear -X. destruct v0, v1. vun. apply pair_inv in X as (X1 & X2). f_equal; qlra. }
    (* the edge has the direction of the active edge *)
    assert (BACK : cross g d = 0 -> in_quad l \/ in_pie l \/ exists k v0, active k v l /\ active k v0 l /\ In v0 r /\ nearest r p v0 l /\ dot (vsub (snd k) (fst k)) v0 < dot (vsub (snd k) (fst k)) v).
    { intros E. destruct (par_of g d Gn E) as (m & Em).
      assert (Mp : 0 < m).
      { destruct (qltb_spec 0 m); auto. exfalso. assert (m <> 0) by (intros ->; apply Dn; rewrite Em; clearbody g; vring).
        assert (0 < - t * m) by (assert (0 < t * - m) by (apply mpp; [auto|destruct (qc_not_eq _ _ H); qlra]); qlra).
        specialize (NEG _ H1). rewrite A0, Em in C. replace (vscale (- t) (vscale m g)) with (vscale (- t * m) g) in C by (clearbody g; vring). qlra. }
      assert (CX : forall y, cross d y = m * nrm k y) by (intros y; rewrite Em, NG; clearbody g; vring).
      destruct (quad_or_back v0 v1 v t l N Hs) as [Q|Q]; auto.
      - fold x. fold d. unfold d. apply sup_val; auto; [apply gval_le; exact G|]. fold d. intros y Gy. rewrite !CX, AK. specialize (Gy k Hk).
        replace (nrm k (vscale l y)) with (l * nrm k y) by (destruct k; unfold nrm; vring). assert (0 <= m * (l * (1 * hgt k - nrm k y))) by (apply mnn; [qlra|apply mnn; qlra]). qlra.
      - right. right. exists k, v0. split; [split; auto|]. split; [split; auto|].
        + assert (V0 : vsub p v0 = vsub x (vscale (- t) d)) by (rewrite <- A0; unfold x; clear; vring). rewrite V0, nrm_sub, AK, NG, E. ring.
        + split; auto. split; auto. fold g.
          assert (D : dot g v = dot g v0 + t * m * dot g g). { rewrite Ev. unfold at_t. cbn [fst snd]. fold d. rewrite Em. clearbody g. clear. vring. }
          assert (0 < dot g g) by (apply dot_pos; auto).
          assert (0 < t * m) by (apply mpp; auto). assert (0 < t * m * dot g g) by (apply mpp; auto). qlra. }
    destruct (qeqb_spec (cross g d) 0) as [E|E]; [apply BACK; auto|]. assert (Pd : 0 < cross g d) by (destruct (qc_not_eq _ _ E); qlra).
    destruct (qltb_spec t 1) as [T2|T2].
    { exfalso. assert (H := HALF v1 ltac:(exists (v0, v1); auto)). rewrite A1 in H. replace (cross g (vscale (1 - t) d)) with ((1 - t) * cross g d) in H by (clearbody g d; vring).
      assert (0 < (1 - t) * cross g d) by (apply mpp; qlra). qlra. }
    assert (t = 1) by qlra. subst t. assert (Ev1 : v = v1) by (rewrite Ev; unfold at_t; cbn [fst snd]; clear; vring).
    destruct (NEXT v0 v1 Hs) as (vn & Ht & Hn). rewrite <- Ev1 in Ht, Hn. set (out := vsub vn v).
    assert (An : armz r v vn) by (exists (v, vn); repeat split; auto; apply on_seg_end). assert (Ho := HALF vn An). fold out in Ho.
    assert (Nn : vn <> v) by (intros X; exact (NZ _ Hn (eq_sym X))).
    assert (Ed : d = vsub v v0) by (unfold d; rewrite Ev1; reflexivity).
    destruct (qltb_spec (cross d out) 0) as [RT|RT].
    + right. left. exists v0, v, vn, k, al, be. rewrite <- Ed. split; auto. split; [exact RT|]. split; auto. split; [exact Ho|]. split; [rewrite NG; exact Pd|].
      split; [qlra|]. split; [qlra|]. split; [auto|]. rewrite <- Ex. unfold x. vring.
    + exfalso. destruct (qeqb_spec (cross d out) 0) as [ST|ST].
      * destruct (par_of d out Dn ST) as (m & Em). assert (Nm : m <> 0).
        { intros ->. apply Nn. unfold out in Em. clearbody d. clear -Em. destruct vn, v, d. vun. apply pair_inv in Em as (E1 & E2). f_equal; qlra. }
        destruct (qc_not_eq _ _ Nm) as [Q|Q].
        -- apply (NS _ _ _ Ht). exists (- m). split; [qlra|]. fold out. rewrite Em, Ed. vring.
        -- rewrite Em in Ho. replace (cross g (vscale m d)) with (m * cross g d) in Ho by (clearbody g d; vring). assert (0 < m * cross g d) by (apply mpp; auto). qlra.
      * assert (LT : 0 < cross d out) by (destruct (qc_not_eq _ _ ST); qlra).
        assert (OA : cross out (vsub v0 v) = cross d out) by (rewrite Ed; unfold out; clear; vring).
        destruct (DIR vn An Nn) as [D|(m & Mp & Em)].
        -- assert (F := FP (v, vn) vn Hn (proj1 (on_seg_end v vn)) (or_intror eq_refl) D). fold out in F. qlra.
        -- fold out in Em. rewrite Em in LT. replace (cross d (vscale m g)) with (- (m * cross g d)) in LT by (clearbody g d; vring). assert (0 < m * cross g d) by (apply mpp; auto). qlra.
Qed.
Theorem covered b0 l0 : on_boundary r b0 -> gval (vsub p b0) l0 -> exists l, l <= l0 /\ 0 < l /\ (in_quad l \/ in_pie l).
Proof.
  intros B0 G0. assert (NE : r <> []). { intros ->. destruct B0 as (s & (i & Hi & _) & _). cbn in Hi. lia. }
  destruct (nearest_ex r p NE) as (b & l & N). exists l. split; [apply N with b0; auto|]. split; [eapply near_pos; eauto|].
  assert (V : forall v, In v r -> nearest r p v l -> in_quad l \/ in_pie l).
  { intros v Hv Nv. destruct (strict_cone v l Hv) as (k & al & be & Hk & Al & Be & Ex & El); [apply Nv|].
    assert (AK : active k v l) by (split; auto; rewrite Ex, El, nrm_lin, nrm_fst, nrm_snd; ring).
    set (S := filter (fun w => qeqb (nrm k (vsub p w)) (l * hgt k) && forallb (fun j => qleb (nrm j (vsub p w)) (l * hgt j)) CE) r).
    assert (HS : forall w, In w S <-> In w r /\ active k w l /\ nearest r p w l).
    { intros w. unfold S. rewrite filter_In, andb_true_iff. split.
      - intros (Hw & E1 & E2). destruct (qeqb_spec (nrm k (vsub p w)) (l * hgt k)) as [E|]; [|discriminate]. split; auto. split; [split; auto|].
        assert (LE : gle (vsub p w) l). { intros j Hj. rewrite forallb_forall in E2. specialize (E2 j Hj). destruct (qleb_spec (nrm j (vsub p w)) (l * hgt j)); [auto|discriminate]. }
        assert (Bw : on_boundary r w) by (now apply vertex_on_boundary). destruct (gval_ex (vsub p w)) as (l' & G'). pose proof (gval_min _ _ _ G' LE).
        destruct Nv as (Bv & Gv & Mv). pose proof (Mv _ _ Bw G'). assert (l' = l) by qlra. subst l'. split; auto.
      - intros (Hw & (_ & A) & (_ & G & _)). split; auto. split; [destruct (qeqb_spec (nrm k (vsub p w)) (l * hgt k)); tauto|].
        apply forallb_forall. intros j Hj. pose proof (gval_le _ _ G j Hj). destruct (qleb_spec (nrm j (vsub p w)) (l * hgt j)); tauto. }
    destruct (best (fun w => - dot (vsub (snd k) (fst k)) w) S v) as (w & Hw & BW); [apply HS; auto|]. apply HS in Hw as (Hw & Aw & Nw).
    destruct (at_vertex w l Nw Hw) as [Q|[Q|(k' & v0 & (Hk' & A1) & (_ & A2) & H0 & N0 & D)]]; auto. exfalso.
    destruct (strict_cone w l Hw) as (kw & a & c & Hkw & Aw' & Cw & Exw & Elw); [apply Nw|].
    destruct Aw as (_ & Aw). rewrite Exw, Elw in Aw, A1. destruct (active_par kw k a c Hkw Hk Aw' Cw Aw) as (m1 & M1 & E1 & H1).
    destruct (active_par kw k' a c Hkw Hk' Aw' Cw A1) as (m2 & M2 & E2 & H2).
    assert (A0 : active k v0 l).
    { split; auto. unfold nrm in A2 |- *. rewrite E2 in A2. rewrite E1, H1. rewrite H2 in A2. set (gw := vsub (snd kw) (fst kw)) in *. set (y := vsub p v0) in *.
      replace (cross (vscale m2 gw) y) with (m2 * cross gw y) in A2 by (clearbody gw y; vring). replace (cross (vscale m1 gw) y) with (m1 * cross gw y) by (clearbody gw y; vring).
      assert (X : m2 * (cross gw y - l * hgt kw) = 0) by qlra. apply Qcmult_integral in X as [X|X]; [qlra|]. assert (Y : cross gw y = l * hgt kw) by qlra. rewrite Y. ring. }
    specialize (BW v0 (proj2 (HS v0) (conj H0 (conj A0 N0)))). cbv beta in BW. rewrite E1 in BW. rewrite E2 in D. set (gw := vsub (snd kw) (fst kw)) in *. clearbody gw.
    replace (dot (vscale m1 gw) v0) with (m1 * dot gw v0) in BW by vring. replace (dot (vscale m1 gw) w) with (m1 * dot gw w) in BW by vring.
    replace (dot (vscale m2 gw) v0) with (m2 * dot gw v0) in D by vring. replace (dot (vscale m2 gw) w) with (m2 * dot gw w) in D by vring.
    assert (dot gw v0 < dot gw w) by (destruct (qltb_spec (dot gw v0) (dot gw w)); auto; exfalso; qn2). assert (0 < m1 * (dot gw w - dot gw v0)) by (apply mpp; qlra). qlra. }
  destruct (in_dec pt_dec b r) as [Hb|Hb]; [apply (V b); auto|]. destruct (not_at_vertex b l N Hb) as [Q|(v & Hv & Nv)]; auto. apply (V v); auto.
Qed.
End Ring.
End Gauge.
