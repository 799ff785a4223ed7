(** * Cut lines: simple polygons, and what the absence of crossings gives *)
From Verif.Model Require Import SegmentTree CellMerger Arrangement2d Geom2d.
From Verif.Spec Require Import Plane Region Area Crisp Jordan Simple Cut.
From Verif.Proofs Require Import PyP PolyP WindingP WindingQ WindingR NearP Geom2dP Geom2dOps MergerQ PlanarP ArrGraphP ArrSoundP AreaP CrispP CrispQ NestP ArrTotalQ RibbonP RibbonR JordanP JordanQ CutP.
From Verif.Props Require Import Primitive2dProps LocateProps Geom2dProps.
From Coq Require Import Permutation.

(** ** one simple ring *)
Lemma ring_pairwise r : simple_polygon r -> pairwise (edges_iter r).
Proof.
  intros J. apply (planar_pairwise (sym (edges_iter r))); [exact (E_pl r J)|intros e I; apply sym_in; auto|exact (j_nodup r J)|]. intros e I. exact (j_once r J e I).
Qed.
Lemma simple_cuttable r : simple_polygon r -> 0 < area_of r -> cuttable [mkSpwh r []].
Proof.
  intros J AP. pose proof (j_ne r J) as NE. destruct (j_vals r J) as (n & V & V2 & V0). assert (N2 : n = 2%Z).
  { destruct (vl_n _ _ _ V) as [->| ->]; auto. specialize (V0 eq_refl). exfalso. clear -AP V0. qlra. } subst n.
  split; [apply pairwise_cuts; unfold cutlist, outlines; cbn [flat_map app outer holes]; rewrite app_nil_r; now apply ring_pairwise|].
  assert (BD : forall p, on_bd [mkSpwh r []] p <-> on_boundary r p).
  { intros p. split; [intros (x & (s & [<-|[]] & [->|[]]) & B); exact B|]. intros B. exists r. split; auto. exists (mkSpwh r []). cbn. auto. }
  assert (FR : forall e d x, In e (sym (edges_iter r)) -> inner e x -> cross (dir e) d <> 0 -> exists k, 0 < k /\ forall t, 0 < t -> t <= k -> ~ on_boundary r (step x d t)).
  { intros e d x I (u & U0 & U1 & ->) C. pose (m := qmin u (1 - u) * qq 1 2). destruct (qmin_spec u (1 - u)) as (M1 & M2 & M3). assert (PM : 0 < qmin u (1 - u)) by (apply M3; qlra).
    assert (H12 : qq 1 2 + qq 1 2 = 1) by (apply Qc_is_canon; reflexivity).
    assert (BM : 0 < m /\ m < u /\ m < 1 - u).
    { unfold m. assert (0 < qmin u (1 - u) * qq 1 2) by (apply mpp; [auto|vm_compute; reflexivity]).
      assert (EQ : qmin u (1 - u) * qq 1 2 + qmin u (1 - u) * qq 1 2 = qmin u (1 - u)) by (transitivity (qmin u (1 - u) * (qq 1 2 + qq 1 2)); [ring|rewrite H12; ring]).
      clear -H M1 M2 EQ. split; [auto|split; qlra]. }
    clearbody m. destruct BM as (B0 & B1 & B2). destruct (strip_free _ (E_nd r J) (E_pl r J) e d (u - m) (u + m) I C) as (k & K & F); try qlra.
    exists k. split; auto. intros t T0 T1. apply off_bd. apply F; auto; qlra. }
  split; [|intros s h e [<-|[]] []]. intros s e [<-|[]] I. cbn [outer] in I. apply is_edge_iter in I. assert (IS : In e (sym (edges_iter r))) by (apply sym_in; auto).
  split; intros x d IX S; change (vsub (snd e) (fst e)) with (dir e) in S.
  - destruct (FR e d x IS IX) as (k & K & F); [intros Z; rewrite Z in S; clear -S; qlra|]. destruct (vl_right _ _ _ V e I x d IX S) as (k' & K' & W).
    destruct (qmin_spec k k') as (M1 & M2 & M3). exists (qmin k k'). split; auto. intros t T0 T1. change (vadd x (vscale t d)) with (step x d t).
    assert (NB : ~ on_boundary r (step x d t)) by (apply F; auto; qlra). split; [now rewrite BD|]. rewrite in_single. specialize (W t T0 ltac:(qlra)). apply wsum_in_ring; auto. rewrite W. lia.
  - destruct (FR e d x IS IX) as (k & K & F); [intros Z; rewrite Z in S; clear -S; qlra|].
    destruct (vl_left _ _ _ V e I x d) as (k' & K' & W); [now apply inner_rev|unfold right_of; replace (cross (dir (rev_e e)) d) with (- cross (dir e) d) by (unfold rev_e; vec; ring); clear -S; qlra|].
    destruct (qmin_spec k k') as (M1 & M2 & M3). exists (qmin k k'). split; auto. intros t T0 T1. change (vadd x (vscale t d)) with (step x d t).
    assert (NB : ~ on_boundary r (step x d t)) by (apply F; auto; qlra). split; [now rewrite BD|]. rewrite in_single. specialize (W t T0 ltac:(qlra)). intros IR.
    apply (wsum_in_ring_iff r _ NB) in IR. lia.
Qed.

(** ** cut lines that do not cross are slit-free *)
Lemma pairwise_nodup l : Forall (fun e => fst e <> snd e) l -> pairwise l -> NoDup l /\ noopp l l.
Proof.
  intros ND. assert (NA : forall e, ~ apart e e) by (intros e A; apply (proj1 (A _) (mid_inner e)); apply inner_on, mid_inner).
  induction l as [|e l IH]; intros P; [split; [constructor|intros ? []]|]. destruct P as (F & P). inversion ND; subst. destruct (IH) as (I1 & I2); auto. rewrite Forall_forall in F. split.
  - constructor; auto. intros I. exact (NA e (F e I)).
  - assert (R : forall f, In f l -> f <> rev_e e).
    { intros f I E. specialize (F f I). subst f. apply (proj1 (F _) (mid_inner e)). apply on_rev. apply inner_on, mid_inner. }
    intros f [<-|I] [E|G]; unfold swap in *.
    + apply H1. destruct e as [a b]. cbn in *. congruence.
    + exact (R _ G eq_refl).
    + apply (R f I). rewrite E. destruct f. reflexivity.
    + exact (I2 f I G).
Qed.
Lemma redges_pairwise g : pairwise (cutlist g) -> pairwise (redges g).
Proof.
  intros P. destruct (redges_cutlist g) as (X & Y & P1 & P2). apply (pairwise_perm _ _ (Permutation_sym P2)). apply (pairwise_perm _ _ P1) in P.
  apply pairwise_app in P as (A & B & D). apply pairwise_app. split; auto. split.
  - apply pairwise_map; auto. intros e f H. now apply apart_rev, apart_sym, apart_rev, apart_sym.
  - intros e f I J. apply in_map_iff in J as (h & <- & J). apply apart_sym, apart_rev, apart_sym. auto.
Qed.
Lemma redges_in g e : In e (redges g) -> exists r, ring_of g r /\ (In e (edges_iter r) \/ In (rev_e e) (edges_iter r)).
Proof.
  unfold redges. intros I. apply in_app_or in I as [I|I].
  - apply in_flat_map in I as (r & R & I). apply in_map_iff in R as (s & <- & S). exists (outer s). split; [exists s; auto|auto].
  - apply in_flat_map in I as (r & R & I). apply in_map_iff in R as (h & <- & S). apply in_flat_map in S as (s & S & H). exists h. split; [exists s; auto|]. right.
    apply (Permutation_in _ (edges_iter_rev h)) in I. apply in_map_iff in I as (f & <- & F). now destruct f.
Qed.
Lemma cuttable_sharp g : is_geom2d g -> cuttable g -> sharp g.
Proof.
  intros G (N & S1 & S2). split; auto. pose proof (redges_pairwise g (cuts_pairwise g N)) as P. set (E := redges g ++ map rev_e (redges g)).
  assert (ND : forall e, In e (redges g) -> fst e <> snd e).
  { intros e I. apply redges_in in I as (r & R & [I|I]); apply is_edge_iter in I; apply (proj1 (is_geom2d_rings g) G r R) in I; auto. }
  assert (E_nd : forall e, In e E -> fst e <> snd e).
  { intros e I. apply in_app_or in I as [I|I]; auto. apply in_map_iff in I as (f & <- & I). intros X. apply (ND f I). now symmetry. }
  assert (E_sym : forall e, In e E -> In (rev_e e) E).
  { intros e I. unfold E. apply in_app_or in I as [I|I]; apply in_or_app; [right; now apply in_map|left]. apply in_map_iff in I as (f & <- & I). now rewrite rev_rev_e. }
  assert (E_planar : planar E).
  { assert (K : forall e f x, In e (redges g) -> In f (redges g) -> inner e x -> on_seg f x -> f = e).
    { intros e f x I J IX O. apply In_nth_error in I as (i & I), J as (j & J). pose proof (pairwise_nth _ P i j e f x I J IX O) as ->. congruence. }
    intros e f x I J IX O. apply in_app_or in I as [I|I].
    - apply in_app_or in J as [J|J]; [left; eapply K; eauto|]. apply in_map_iff in J as (h & <- & J). right. f_equal. eapply K; eauto. now apply on_rev.
    - apply in_map_iff in I as (e' & <- & I). apply inner_rev in IX. apply in_app_or in J as [J|J].
      + right. rewrite rev_rev_e. eapply K; eauto.
      + apply in_map_iff in J as (h & <- & J). left. f_equal. eapply K; eauto. now apply on_rev. }
  destruct (pairwise_nodup _ (proj2 (Forall_forall _ _) ND) P) as (RN & RO).
  split; [|apply (res_clean E g E_sym E_nd E_planar G); auto; intros e I; apply in_or_app; auto].
  assert (BT : forall e x p eps (Q : point -> Prop) side, 0 < eps -> near (eps * qq 1 2) p x -> inner e x -> beside side e Q -> (exists d, side (cross (vsub (snd e) (fst e)) d)) -> exists q, near eps p q /\ Q q).
  { intros e x p eps Q side Ep N1 IX B (d & D). assert (E2 : 0 < eps * qq 1 2) by (apply mpp; [auto|vm_compute; reflexivity]).
    destruct (B x d IX D) as (k & K & T). destruct (near_step _ x d E2) as (k' & K' & N'). destruct (qmin_spec k k') as (M1 & M2 & M3). specialize (M3 K K').
    exists (vadd x (vscale (qmin k k') d)). split; [|apply T; auto]. apply (near_trans eps p x); auto. change (vadd x (vscale (qmin k k') d)) with (step x d (qmin k k')). apply N'; [qlra|auto]. }
  intros p eps (r & R & B) Ep. apply on_boundary_iff in B as (e & I & O). assert (E2 : 0 < eps * qq 1 2) by (apply mpp; [auto|vm_compute; reflexivity]).
  destruct (near_inner e p _ O E2) as (x & IX & NX). assert (N' : fst e <> snd e) by (apply (proj1 (is_geom2d_rings g) G r R); now apply is_edge_iter).
  assert (DR : exists d, cross (vsub (snd e) (fst e)) d < 0) by (exists (perp e); exact (perp_right e N')).
  assert (DL : exists d, 0 < cross (vsub (snd e) (fst e)) d).
  { destruct DR as (d & D). exists (vscale (- (1)) d). replace (cross _ _) with (- cross (vsub (snd e) (fst e)) d) by (vec; ring). clear -D. qlra. }
  apply is_edge_iter in I. destruct R as (s & Hs & [->|Hh]).
  - destruct (S1 s e Hs I) as (A1 & A2). split; [exact (BT e x p eps _ _ Ep NX IX A1 DR)|exact (BT e x p eps _ _ Ep NX IX A2 DL)].
  - destruct (S2 s r e Hs Hh I) as (A1 & A2). split; [exact (BT e x p eps _ _ Ep NX IX A1 DL)|exact (BT e x p eps _ _ Ep NX IX A2 DR)].
Qed.
