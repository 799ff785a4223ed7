(** Geometries without slits: [locate] on the boundary, and the region determines everything. *)
From Verif.Model Require Import Geom2d.
From Verif.Spec Require Import Plane Region Area Crisp.
From Verif.Proofs Require Import PyP PolyP WindingP WindingQ WindingR NearP PlanarP Geom2dP Geom2dOps AreaP FlatP JumpP CoverP ReachP CrispP.
From Verif.Props Require Import Primitive2dProps LocateProps.

Lemma box_away (S : list segment) p : (forall s, In s S -> ~ on_seg s p) -> exists eps, 0 < eps /\ forall q s, near eps p q -> In s S -> ~ on_seg s q.
Proof.
  intros H. pose (m1 := - (1)).
  destruct (segs_away2 S p (1, 0) (0, 1) H) as (e1 & E1 & A1), (segs_away2 S p (m1, 0) (0, 1) H) as (e2 & E2 & A2),
    (segs_away2 S p (1, 0) (0, m1) H) as (e3 & E3 & A3), (segs_away2 S p (m1, 0) (0, m1) H) as (e4 & E4 & A4).
  destruct (qmin_spec e1 e2) as (M1 & M2 & M3), (qmin_spec e3 e4) as (M4 & M5 & M6), (qmin_spec (qmin e1 e2) (qmin e3 e4)) as (M7 & M8 & M9).
  specialize (M3 E1 E2). specialize (M6 E3 E4). specialize (M9 M3 M6). set (e := qmin (qmin e1 e2) (qmin e3 e4)) in *. clearbody e.
  exists e. split; auto. intros q s (N1 & N2) I. apply qabs_lt in N1 as (X1 & X2). apply qabs_lt in N2 as (Y1 & Y2).
  assert (K : forall u v x y, q = pt2 p (u, 0) (0, v) x y -> forall e', e <= e' -> (forall s x y, In s S -> 0 <= x -> x <= e' -> 0 <= y -> y <= e' -> ~ on_seg s (pt2 p (u, 0) (0, v) x y)) ->
    0 <= x -> x <= e -> 0 <= y -> y <= e -> ~ on_seg s q).
  { intros u v x y -> e' L A U1 U2 V1 V2. apply A; auto; qlra. }
  destruct (qleb_spec 0 (fst q - fst p)) as [X|X], (qleb_spec 0 (snd q - snd p)) as [Y|Y].
  - apply (K 1 1 (fst q - fst p) (snd q - snd p)) with (e' := e1); try qlra; auto. unfold pt2. apply pteq; vec; ring.
  - apply (K 1 m1 (fst q - fst p) (snd p - snd q)) with (e' := e3); try qlra; auto. unfold pt2, m1. apply pteq; vec; ring.
  - apply (K m1 1 (fst p - fst q) (snd q - snd p)) with (e' := e2); try qlra; auto. unfold pt2, m1. apply pteq; vec; ring.
  - apply (K m1 m1 (fst p - fst q) (snd p - snd q)) with (e' := e4); try qlra; auto. unfold pt2, m1. apply pteq; vec; ring.
Qed.
Lemma near_between eps p q x : near eps p q -> on_seg (p, q) x -> near eps p x.
Proof.
  intros (N1 & N2) (t & T0 & T1 & ->). apply qabs_lt in N1 as (X1 & X2). apply qabs_lt in N2 as (Y1 & Y2). unfold near. rewrite !qabs_lt. vec.
  assert (K : forall d, - eps < d -> d < eps -> - eps < t * d /\ t * d < eps).
  { clear -T0 T1. intros d D1 D2. destruct (qleb_spec 0 d).
    - assert (0 <= t * d) by (apply mnn; auto). assert (0 <= (1 - t) * d) by (apply mnn; qlra). split; qlra.
    - assert (0 <= t * - d) by (apply mnn; qlra). assert (0 <= (1 - t) * - d) by (apply mnn; qlra). split; qlra. }
  destruct (K _ X1 X2) as (K1 & K2), (K _ Y1 Y2) as (K3 & K4). clear -K1 K2 K3 K4. repeat split; qlra.
Qed.
Lemma bd_away g p : is_geom2d g -> ~ on_bd g p -> exists eps, 0 < eps /\ forall q, near eps p q -> ~ on_bd g q /\ (in_geom g p <-> in_geom g q).
Proof.
  intros G B. destruct (box_away (all_segments g) p) as (eps & E & A).
  { intros s S O. apply B. apply on_bd_segments. eauto. }
  exists eps. split; auto. assert (K : forall q, near eps p q -> ~ on_bd g q).
  { intros q N C. apply on_bd_segments in C as (s & S & O). exact (A q s N S O). }
  intros q N. split; auto. apply in_geom_move; auto. intros x X. apply K. eapply near_between; eauto.
Qed.
Lemma ring_away r p : r <> [] -> ~ on_boundary r p -> exists eps, 0 < eps /\ forall q, near eps p q -> ~ on_boundary r q /\ (in_ring r p <-> in_ring r q).
Proof.
  intros NE B. destruct (box_away (edges_iter r) p) as (eps & E & A).
  { intros s S O. apply B. apply on_boundary_iff. eauto. }
  exists eps. split; auto. assert (K : forall q, near eps p q -> ~ on_boundary r q).
  { intros q N C. apply on_boundary_iff in C as (s & S & O). exact (A q s N S O). }
  intros q N. split; auto. apply in_ring_move; auto. intros x X. apply K. eapply near_between; eauto.
Qed.
(** points close to p, reached without meeting the first segments, off the others *)
Lemma near_generic_eps p eps (S1 S2 : list segment) : 0 < eps -> (forall s, In s S1 -> ~ on_seg s p) ->
  exists q, near eps p q /\ (forall s x, In s S1 -> on_seg (p, q) x -> ~ on_seg s x) /\ (forall s, In s S2 -> ~ on_seg s q).
Proof.
  intros P H. destruct (generic_dir S2) as (m & M). set (d := (1, m)) in *.
  destruct (segs_away S1 p d H) as (e1 & E1 & A). destruct (near_step eps p d P) as (k & K & N).
  destruct (qmin_spec e1 k) as (M1 & M2 & M3).
  destruct (small_avoid (flat_map (fun s => [ - orient (fst s) (snd s) p / cross (vsub (snd s) (fst s)) d; fst (fst s) - fst p]) S2) (qmin e1 k) (M3 E1 K)) as (t & T1 & T2 & T3).
  exists (step p d t). split; [apply N; qlra|]. split.
  - intros s x Hs (u & U1 & U2 & ->).
    replace (at_t (p, step p d t) u) with (step p d (u * t)).
    + apply A; auto; [apply mnn; qlra|]. assert (0 <= (1 - u) * t) by (apply mnn; qlra). qlra.
    + unfold at_t, step, vadd, vscale, vsub. cbn [fst snd]. f_equal; ring.
  - intros s Hs S. apply T3. apply in_flat_map. exists s. split; auto. destruct s as [a b]. cbn [fst snd].
    pose proof S as S'. apply on_seg_iff in S as (O & Bx & By).
    assert (D : a = b \/ a <> b) by (destruct (pt_eqb_spec a b); auto). destruct D as [->|D].
    + right. left. assert (X : fst (step p d t) = fst b). { unfold WindingP.between in Bx. destruct Bx as [[? ?]|[? ?]]; qlra. }
      unfold step, vadd, vscale, d in X. cbn [fst snd] in X. rewrite <- X. ring.
    + left. assert (C : cross (vsub b a) d <> 0).
      { intros C. apply (M _ Hs D). cbn [fst snd]. replace (cross d (vsub b a)) with (- cross (vsub b a) d).
        - rewrite C. ring.
        - unfold cross, d. cbn [fst snd]. ring. }
      assert (X : orient a b p + t * cross (vsub b a) d = 0).
      { rewrite <- O. unfold step, orient, cross, vsub, vadd, vscale. cbn [fst snd]. ring. }
      pose proof (qdiv_mul (- orient a b p) _ C) as Y. set (k' := _ / _) in *. clearbody k'.
      assert (Z : (k' - t) * cross (vsub b a) d = 0) by qlra.
      apply Qcmult_integral in Z. destruct Z as [Z|Z]; [qlra|tauto].
Qed.
Lemma near_region p eps g (gs : list geom2d) : 0 < eps -> is_geom2d g -> ~ on_bd g p ->
  exists q, near eps p q /\ ~ on_bd g q /\ (in_geom g p <-> in_geom g q) /\ off_all gs q.
Proof.
  intros P G B. destruct (near_generic_eps p eps (all_segments g) (flat_map all_segments gs) P) as (q & N & A1 & A2).
  { intros s S O. apply B. apply on_bd_segments. eauto. }
  assert (M : forall x, on_seg (p, q) x -> ~ on_bd g x).
  { intros x X Y. apply on_bd_segments in Y as (s & Hs & Y). apply (A1 s x); auto. }
  exists q. split; auto. split; [apply M; apply on_seg_end|]. split; [apply in_geom_move; auto|].
  intros h Hh C. apply on_bd_segments in C as (s & S & O). apply (A2 s); auto. apply in_flat_map. eauto.
Qed.

(** ** the region determines a geometry without slits *)
Theorem region_unique a b (gs : list geom2d) : is_geom2d a -> is_geom2d b -> crisp a -> crisp b ->
  (forall p, off_all gs p -> ~ on_bd a p -> ~ on_bd b p -> (in_geom a p <-> in_geom b p)) -> same_region a b.
Proof.
  assert (K : forall a b, is_geom2d a -> is_geom2d b -> crisp a -> (forall p, off_all gs p -> ~ on_bd a p -> ~ on_bd b p -> (in_geom a p <-> in_geom b p)) -> forall p, on_bd a p -> on_bd b p).
  { clear a b. intros a b Ga Gb C H p B. destruct (on_bd_dec b p) as [Bb|Bb]; auto. exfalso. destruct (bd_away b p Gb Bb) as (eps & E & A).
    assert (E2 : 0 < eps * qq 1 2) by (apply mpp; [auto|vm_compute; reflexivity]).
    destruct (C p (eps * qq 1 2) B E2) as ((q & N & Q1 & Q2) & (q' & N' & Q1' & Q2')).
    destruct (near_region q _ a gs E2 Ga Q1) as (z & Z1 & Z2 & Z3 & Z4), (near_region q' _ a gs E2 Ga Q1') as (z' & Z1' & Z2' & Z3' & Z4').
    destruct (A z (near_trans eps p q z N Z1)) as (W1 & W2), (A z' (near_trans eps p q' z' N' Z1')) as (W1' & W2').
    apply Q2'. apply Z3'. apply (H z' Z4' Z2' W1'). apply W2', W2, (H z Z4 Z2 W1), Z3, Q2. }
  intros Ga Gb Ca Cb H p. assert (IFF : on_bd a p <-> on_bd b p).
  { split; [apply K; auto|apply K; auto]. intros q O Bb Ba. symmetry. apply H; auto. }
  split; auto. intros Ba. assert (Bb : ~ on_bd b p) by tauto. destruct (bd_away b p Gb Bb) as (eps & E & A).
  destruct (near_region p eps a gs E Ga Ba) as (q & N & Q1 & Q2 & Q3). destruct (A q N) as (W1 & W2). rewrite Q2, W2. auto.
Qed.

(** ** locating boundary points *)
Lemma locate_holes_cases hs p : (forall h, In h hs -> h <> []) ->
  (locate_holes hs p = Ok 1%Z /\ forall h, In h hs -> ~ on_boundary h p /\ ~ in_ring h p) \/
  (locate_holes hs p = Ok 0%Z /\ exists h, In h hs /\ on_boundary h p) \/
  (locate_holes hs p = Ok (-1)%Z /\ exists h, In h hs /\ ~ on_boundary h p /\ in_ring h p).
Proof.
  induction hs as [|h hs IH]; intros H; cbn [locate_holes]; [left; split; [reflexivity|intros ? []]|].
  destruct (on_boundary_dec h p) as [B|B].
  - rewrite (proj2 (proj1 (locate_zero_iff_boundary h p (H h (or_introl eq_refl)))) B). right. left. split; [reflexivity|]. exists h. cbn. auto.
  - destruct (locate_ring h p (H h (or_introl eq_refl)) B) as [(-> & I)|(-> & I)]; cbn.
    + right. right. split; [reflexivity|]. exists h. auto.
    + destruct IH as [(-> & J)|[(-> & x & J & K)|(-> & x & J & K)]]; [intros; apply H; cbn; auto| | |].
      * left. split; [reflexivity|]. intros x [<-|Hx]; auto.
      * right. left. split; [reflexivity|]. exists x. auto.
      * right. right. split; [reflexivity|]. exists x. auto.
Qed.
Lemma spwh_locate_cases s p : spwh_ok s ->
  (spwh_locate s p = Ok 1%Z /\ ~ on_bd [s] p /\ in_poly s p) \/
  (spwh_locate s p = Ok 0%Z /\ on_bd [s] p) \/
  (spwh_locate s p = Ok (-1)%Z /\ ((~ on_boundary (outer s) p /\ ~ in_ring (outer s) p) \/ exists h, In h (holes s) /\ ~ on_boundary h p /\ in_ring h p)).
Proof.
  intros S. apply spwh_ok_iff in S as ((NO & _) & NH). rewrite Forall_forall in NH. unfold spwh_locate.
  destruct (on_boundary_dec (outer s) p) as [B|B].
  - rewrite (proj2 (proj1 (locate_zero_iff_boundary _ p NO)) B). cbn. right. left. split; [reflexivity|]. exists (outer s). split; auto. exists s. cbn. auto.
  - destruct (locate_ring _ p NO B) as [(-> & I)|(-> & I)]; cbn; [|right; right; auto].
    destruct (locate_holes_cases (holes s) p) as [(-> & J)|[(-> & h & J & K)|(-> & h & J & K)]]; [intros h Hh; apply (NH h Hh)| | |].
    + left. split; [reflexivity|]. split; [|split; auto; intros h Hh; apply J; auto]. intros (r & (s' & [<-|[]] & [->|R]) & C); [auto|]. destruct (J r R); tauto.
    + right. left. split; [reflexivity|]. exists h. split; auto. exists s. cbn. auto.
    + right. right. split; [reflexivity|]. right. eauto.
Qed.
Lemma on_bd_one g s p : In s g -> on_bd [s] p -> on_bd g p.
Proof. intros I (r & (s' & [<-|[]] & R) & B). exists r. split; auto. exists s. auto. Qed.
Lemma fold_max_ge ls : forall l, (l <= fold_left Z.max ls l)%Z /\ forall m, In m ls -> (m <= fold_left Z.max ls l)%Z.
Proof.
  induction ls as [|x ls IH]; intros l; cbn [fold_left]; [split; [lia|intros ? []]|]. destruct (IH (Z.max l x)) as (H1 & H2).
  split; [lia|]. intros m [<-|M]; [lia|auto].
Qed.
Lemma fold_max_in ls : forall l, fold_left Z.max ls l = l \/ In (fold_left Z.max ls l) ls.
Proof.
  induction ls as [|x ls IH]; intros l; cbn [fold_left]; auto. destruct (IH (Z.max l x)) as [H|H]; [|right; right; exact H]. rewrite H. destruct (Z.max_spec l x) as [(_ & ->)|(_ & ->)]; cbn; auto.
Qed.
Lemma crisp_locate g p : is_geom2d g -> crisp g -> on_bd g p -> g2_locate g p = Ok 0%Z.
Proof.
  intros G C B. assert (G' := G). unfold is_geom2d in G'. rewrite Forall_forall in G'.
  assert (ALL : forall s, In s g -> spwh_locate s p = Ok 0%Z \/ (spwh_locate s p = Ok (-1)%Z /\ exists eps, 0 < eps /\ forall q, near eps p q -> ~ in_poly s q)).
  { intros s S. destruct (spwh_locate_cases s p (G' s S)) as [(L & NB & I)|[(L & _)|(L & H)]]; [exfalso|auto|right; split; auto].
    - destruct (bd_away [s] p) as (eps & E & A); [constructor; auto; constructor|auto|]. destruct (C p eps B E) as (_ & q & N & _ & Q). apply Q. destruct (A q N) as (_ & K).
      assert (IG : in_geom [s] q) by (apply K; exists s; cbn; auto). destruct IG as (s' & [<-|[]] & J). exists s. auto.
    - pose proof (G' s S) as SO. apply spwh_ok_iff in SO as ((NO & _) & NH). rewrite Forall_forall in NH. destruct H as [(NB & NI)|(h & Hh & NB & I)].
      + destruct (ring_away _ p NO NB) as (eps & E & A). exists eps. split; auto. intros q N (J & _). apply NI. now apply (A q N).
      + destruct (ring_away h p (proj1 (NH h Hh)) NB) as (eps & E & A). exists eps. split; auto. intros q N (_ & J). apply (J h Hh). now apply (A q N). }
  assert (ONE : exists s, In s g /\ spwh_locate s p = Ok 0%Z).
  { assert (K : forall l, incl l g -> (exists s, In s l /\ spwh_locate s p = Ok 0%Z) \/ exists eps, 0 < eps /\ forall q s, near eps p q -> In s l -> ~ in_poly s q).
    { induction l as [|s l IH]; intros I; [right; exists 1; split; [qlra|intros ? ? _ []]|].
      destruct (ALL s (I s (or_introl eq_refl))) as [L|(_ & e1 & E1 & A1)]; [left; exists s; cbn; auto|].
      destruct IH as [(s' & S1 & S2)|(e2 & E2 & A2)]; [intros x X; apply I; cbn; auto|left; exists s'; cbn; auto|].
      right. destruct (qmin_spec e1 e2) as (M1 & M2 & M3). exists (qmin e1 e2). split; auto. intros q s' N [<-|S']; [apply A1|apply A2; auto]; eapply near_mono; eauto. }
    destruct (K g (incl_refl g)) as [H|(eps & E & A)]; auto. exfalso. destruct (C p eps B E) as ((q & N & _ & s & S & I) & _). exact (A q s N S I). }
  assert (LS : exists ls, mapM (fun s => spwh_locate s p) g = Ok ls /\ Forall2 (fun s l => spwh_locate s p = Ok l) g ls).
  { clear -ALL. induction g as [|s g IH]; [exists []; split; [reflexivity|constructor]|]. destruct IH as (ls & E & F); [intros; apply ALL; cbn; auto|].
    cbn [mapM]. destruct (ALL s (or_introl eq_refl)) as [L|(L & _)]; rewrite L; cbn [bind]; rewrite E; cbn [bind]; eexists; (split; [reflexivity|constructor; auto]). }
  destruct LS as (ls & E & F). destruct g as [|s g]; [destruct ONE as (? & [] & _)|]. cbn [mapM] in E. apply bind_ok in E as (l & L & E). apply bind_ok in E as (ls' & E & X). injection X as <-.
  unfold g2_locate. rewrite L. cbn [bind]. rewrite E. cbn [bind]. f_equal. inversion F as [|? ? ? ? F1 F2]; subst.
  assert (V : forall m, m = l \/ In m ls' -> m = 0%Z \/ m = (-1)%Z).
  { intros m [->|M].
    - destruct (ALL s (or_introl eq_refl)) as [Q|(Q & _)]; rewrite Q in L; injection L as <-; auto.
    - clear -ALL F2 M. assert (A' : forall s0, In s0 g -> spwh_locate s0 p = Ok 0%Z \/ spwh_locate s0 p = Ok (-1)%Z) by (intros s0 S0; destruct (ALL s0 (or_intror S0)) as [Q|(Q & _)]; auto).
      clear ALL. induction F2 as [|x y g ls H F2 IH]; [destruct M|]. destruct M as [->|M]; [|apply IH; auto; intros; apply A'; cbn; auto]. destruct (A' x (or_introl eq_refl)) as [Q|Q]; rewrite Q in H; injection H as <-; auto. }
  destruct (fold_max_ge ls' l) as (M1 & M2).
  assert (ZI : l = 0%Z \/ In 0%Z ls').
  { destruct ONE as (s' & [<-|S'] & Q); [left; congruence|right]. clear -F2 S' Q. induction F2 as [|x y g ls H F2 IH]; [destruct S'|]. destruct S' as [->|S']; [left; congruence|right; auto]. }
  assert (U : fold_left Z.max ls' l = 0%Z \/ fold_left Z.max ls' l = (-1)%Z) by (apply V; destruct (fold_max_in ls' l); auto).
  destruct ZI as [->|ZI]; [lia|]. specialize (M2 _ ZI). lia.
Qed.
Lemma crisp_locates g p : is_geom2d g -> crisp g -> 
  (g2_locate g p = Ok 0%Z /\ on_bd g p) \/ (g2_locate g p = Ok 1%Z /\ ~ on_bd g p /\ in_geom g p) \/ (g2_locate g p = Ok (-1)%Z /\ ~ on_bd g p /\ ~ in_geom g p).
Proof.
  intros G C. destruct (on_bd_dec g p) as [B|B]; [left; split; auto; now apply crisp_locate|]. right. destruct (g2_locate_ok g p G B) as [(E & I)|(E & I)]; auto.
Qed.
Lemma same_locate a b : is_geom2d a -> is_geom2d b -> crisp a -> crisp b -> same_region a b -> forall p, g2_locate a p = g2_locate b p.
Proof.
  intros Ga Gb Ca Cb S p. destruct (S p) as (S1 & S2).
  destruct (crisp_locates a p Ga Ca) as [(-> & A)|[(-> & A & A')|(-> & A & A')]], (crisp_locates b p Gb Cb) as [(-> & B)|[(-> & B & B')|(-> & B & B')]]; auto; exfalso; tauto.
Qed.
