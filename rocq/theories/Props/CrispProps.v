(** * Boundaries of the results of the set operators: C84, C85, C86. *)
From Verif.Model Require Import SegmentTree CellMerger Arrangement2d Aabb Geom2d.
From Verif.Spec Require Import Plane Region Crisp.
From Verif.Proofs Require Import PyP PolyP WindingP WindingQ WindingR NearP Geom2dP Geom2dOps PlanarP ArrGraphP ArrSoundP ReachP CoverP CrispP CrispQ.
From Verif.Props Require Import LocateProps Geom2dProps SetOpsProps AreaProps.

(** ** everywhere *)
Lemma op_everywhere gs P r : Forall is_geom2d gs -> is_op gs P r -> crisp r -> locates gs P r.
Proof.
  intros F (G & B & M) C p around touches.
  assert (IN : ~ on_bd r p -> in_geom r p -> around P).
  { intros NB I. destruct (bd_away r p G NB) as (eps & E & A). exists eps. split; auto. intros q N O. apply M; auto. now apply (A q N). }
  assert (OUT : ~ on_bd r p -> ~ in_geom r p -> around (fun q => ~ P q)).
  { intros NB I. destruct (bd_away r p G NB) as (eps & E & A). exists eps. split; auto. intros q N O X. apply I. apply (A q N). now apply M. }
  assert (BD : on_bd r p -> touches P /\ touches (fun q => ~ P q)).
  { intros Bd. split; intros eps E; assert (E2 : 0 < eps * qq 1 2) by (apply mpp; [auto|vm_compute; reflexivity]);
      destruct (C p _ Bd E2) as ((q & N & Q1 & Q2) & (q' & N' & Q1' & Q2')).
    - destruct (near_region q _ r gs E2 G Q1) as (z & Z1 & Z2 & Z3 & Z4). exists z. split; [exact (near_trans eps p q z N Z1)|]. split; auto. apply M; tauto.
    - destruct (near_region q' _ r gs E2 G Q1') as (z & Z1 & Z2 & Z3 & Z4). exists z. split; [exact (near_trans eps p q' z N' Z1)|]. split; auto. intros X. apply Q2', Z3, M; auto. }
  assert (CL1 : forall Q, around Q -> ~ touches (fun q => ~ Q q)) by (intros Q (eps & E & A) T; destruct (T eps E) as (q & N & O & X); apply X, A; auto).
  assert (CL2 : forall Q, around (fun q => ~ Q q) -> ~ touches Q) by (intros Q (eps & E & A) T; destruct (T eps E) as (q & N & O & X); apply (A q); auto).
  assert (CL3 : around P -> ~ around (fun q => ~ P q)).
  { intros (e1 & E1 & A1) (e2 & E2 & A2). destruct (qmin_spec e1 e2) as (M1 & M2 & M3). destruct (near_generic_eps p _ [] (flat_map all_segments gs) (M3 E1 E2)) as (q & N & _ & O); [intros ? []|].
    assert (OA : off_all gs q) by (apply off_segs_all; exact O). apply (A2 q); [eapply near_mono; eauto|auto|]. apply A1; [eapply near_mono; eauto|auto]. }
  specialize (CL1 P). specialize (CL2 P).
  destruct (crisp_locates r p G C) as [(-> & Bd)|[(-> & NB & I)|(-> & NB & I)]]; (split; [split|split; split]); intros X; try discriminate X; try tauto.
Qed.
Lemma sharp_nil : sharp [].
Proof. split; [constructor|]. split; [intros p eps (r & (s & [] & _) & _)|intros r (s & [] & _)]. Qed.
Lemma arrangement_sharp orc gs op r : Forall is_geom2d gs -> Forall clean_geom gs -> op (map (fun _ => false) gs) = false ->
  arrangement_op (segment_arrangement orc) gs op = Ok r -> sharp r.
Proof.
  intros G C O R. destruct (arrangement_crisp orc gs op r G C O R) as (X & Y). split; [|split; auto]. apply (arrangement_sound orc gs op r G O R).
Qed.
Lemma sharp_both gs : Forall sharp gs -> Forall is_geom2d gs /\ Forall clean_geom gs.
Proof. intros F. split; (eapply Forall_impl; [|exact F]); intros g (A & B & C); auto. Qed.
Lemma or_sharp orc a b r : sharp a -> sharp b -> g2_or (segment_arrangement orc) a b = Ok r -> sharp r.
Proof.
  intros A B R. unfold g2_or in R. destruct (g2_is_empty a); [injection R as <-; auto|]. destruct (g2_is_empty b); [injection R as <-; auto|].
  destruct (sharp_both [a; b]) as (F1 & F2); auto. eapply arrangement_sharp; [exact F1|exact F2| |exact R]. reflexivity.
Qed.
Lemma and_sharp orc a b r : sharp a -> sharp b -> g2_and (segment_arrangement orc) a b = Ok r -> sharp r.
Proof. intros A B R. destruct (sharp_both [a; b]) as (F1 & F2); auto. eapply arrangement_sharp; [exact F1|exact F2| |exact R]. reflexivity. Qed.
Lemma sub_sharp orc a b r : sharp a -> sharp b -> g2_sub (segment_arrangement orc) a b = Ok r -> sharp r.
Proof.
  intros A B R. unfold g2_sub in R. destruct (g2_is_empty b); [injection R as <-; auto|].
  destruct (sharp_both [a; b]) as (F1 & F2); auto. eapply arrangement_sharp; [exact F1|exact F2| |exact R]. reflexivity.
Qed.
Lemma slice_sharp orc gs r : Forall sharp gs -> union_slice (segment_arrangement orc) gs = Ok r -> sharp r.
Proof.
  intros F R. destruct (sharp_both gs F) as (F1 & F2).
  assert (K : forall l, gs = l -> arrangement_op (segment_arrangement orc) l any_op = Ok r -> sharp r) by (intros l <- H; eapply arrangement_sharp; [exact F1|exact F2| |exact H]; apply any_none).
  destruct gs as [|g [|h gs]]; cbn [union_slice] in R; [eapply K; eauto| |eapply K; eauto]. injection R as <-. now inversion F.
Qed.
Lemma tree_sharp orc gs f r : Forall sharp gs -> union_tree_loop (segment_arrangement orc) f gs = Ok r -> sharp r.
Proof.
  revert gs. induction f as [|f IH]; intros gs F H; (destruct gs as [|g [|h gs]]; [cbn in H; injection H as <-; apply sharp_nil|cbn in H; injection H as <-; now inversion F|]).
  - discriminate.
  - set (l := g :: h :: gs) in *. change (union_tree_loop (segment_arrangement orc) (S f) l) with
      (nxt <- mapM (union_slice (segment_arrangement orc)) (chunks (length l) l) ;; union_tree_loop (segment_arrangement orc) f nxt) in H.
    apply bind_ok in H as (nxt & NX & H). apply (IH nxt) in H; auto. destruct (chunks_spec (length l) l) as (C1 & _ & _); [lia|]. rewrite <- C1 in F. clear -NX F.
    apply mapM_ok in NX. induction NX as [|c m cs ms H NX IH]; [constructor|]. cbn in F. apply Forall_app in F as (F1 & F2). constructor; auto. exact (slice_sharp orc c m F1 H).
Qed.
Lemma union_sharp orc gs r : Forall sharp gs -> g2_union (segment_arrangement orc) gs = Ok r -> sharp r.
Proof.
  intros F R. unfold g2_union in R. destruct (UNION_N <? length gs)%nat; [eapply tree_sharp; eauto|]. destruct (sharp_both gs F). eapply arrangement_sharp; eauto. apply any_none.
Qed.

(** ** rectangles *)
Lemma ring_sharp r : ring_ok r ->
  (forall p eps, on_boundary r p -> 0 < eps -> (exists q, near eps p q /\ locate_point_polygon_winding_number r q = Ok 1%Z) /\ exists q, near eps p q /\ locate_point_polygon_winding_number r q = Ok (-1)%Z) ->
  sharp [mkSpwh r []].
Proof.
  intros R H. pose proof (proj1 R) as NE.
  assert (BD : forall p, on_bd [mkSpwh r []] p <-> on_boundary r p).
  { intros p. split; [intros (x & (s & [<-|[]] & [->|[]]) & B); exact B|]. intros B. exists r. split; auto. exists (mkSpwh r []). cbn. auto. }
  assert (OFF : forall q z, locate_point_polygon_winding_number r q = Ok z -> z <> 0%Z -> ~ on_boundary r q).
  { intros q z L Z B. apply (locate_zero_iff_boundary r q NE) in B. congruence. }
  assert (IN : forall q, locate_point_polygon_winding_number r q = Ok 1%Z -> ~ on_boundary r q /\ in_ring r q).
  { intros q L. assert (B := OFF q _ L ltac:(discriminate)). split; auto. destruct (locate_ring r q NE B) as [(E & I)|(E & I)]; auto. congruence. }
  assert (OUT : forall q, locate_point_polygon_winding_number r q = Ok (-1)%Z -> ~ on_boundary r q /\ ~ in_ring r q).
  { intros q L. assert (B := OFF q _ L ltac:(discriminate)). split; auto. destruct (locate_ring r q NE B) as [(E & I)|(E & I)]; auto. congruence. }
  split; [constructor; [apply spwh_ok_iff; cbn; auto|constructor]|]. split.
  - intros p eps B E. apply BD in B. destruct (H p eps B E) as ((q & N & L) & (q' & N' & L')). apply IN in L as (L1 & L2). apply OUT in L' as (L1' & L2').
    split; [exists q|exists q']; (split; [assumption|]); (split; [rewrite BD; assumption|]); rewrite in_single; assumption.
  - intros x (s & [<-|[]] & [->|[]]). cbn [outer]. intros p eps B E. destruct (H p eps B E) as ((q & N & L) & (q' & N' & L')). apply IN in L as (L1 & w & L2 & L3). apply OUT in L' as (L1' & L2').
    destruct (locate_winding r q' NE L1') as (w' & W' & _). exists q, q', w, w'. do 6 (split; [assumption|]). intros ->. apply L2'. exists w'. auto.
Qed.
Lemma toward_strict x0 x x1 t : x0 <> x1 -> weakly_between x0 x x1 -> 0 < t -> t <= 1 -> strictly_between x0 (x + t * ((x0 + x1) * qq 1 2 - x)) x1.
Proof.
  intros N W T0 T1. replace (qq 1 2) with (/ (1 + 1)) by (apply Qc_is_canon; reflexivity). set (h := / (1 + 1)). assert (H : h + h = 1) by (apply Qc_is_canon; reflexivity). clearbody h.
  unfold strictly_between, weakly_between in *. destruct W as [(W1 & W2)|(W1 & W2)]; [left|right]; destruct (qc_not_eq _ _ N); try (exfalso; apply N; qlra).
  - assert (0 <= (1 - t) * (x - x0)) by (apply mnn; qlra). assert (0 <= (1 - t) * (x1 - x)) by (apply mnn; qlra). assert (0 < t * ((x1 - x0) * h)) by (apply mpp; [auto|apply mpp; qlra]).
    assert (E : (x0 + x1) * h = x0 + (x1 - x0) * h) by (replace x0 with (x0 * (h + h)) at 2 by (rewrite H; ring); ring).
    assert (E' : (x0 + x1) * h = x1 - (x1 - x0) * h) by (replace x1 with (x1 * (h + h)) at 2 by (rewrite H; ring); ring).
    split; [rewrite E|rewrite E']; set (k := (x1 - x0) * h) in *; clearbody k; qlra.
  - assert (0 <= (1 - t) * (x - x1)) by (apply mnn; qlra). assert (0 <= (1 - t) * (x0 - x)) by (apply mnn; qlra). assert (0 < t * ((x0 - x1) * h)) by (apply mpp; [auto|apply mpp; qlra]).
    assert (E : (x0 + x1) * h = x0 - (x0 - x1) * h) by (replace x0 with (x0 * (h + h)) at 2 by (rewrite H; ring); ring).
    assert (E' : (x0 + x1) * h = x1 + (x0 - x1) * h) by (replace x1 with (x1 * (h + h)) at 2 by (rewrite H; ring); ring).
    split; [rewrite E'|rewrite E]; set (k := (x0 - x1) * h) in *; clearbody k; qlra.
Qed.
Lemma away_out x0 x x1 t : x0 <> x1 -> x = x0 \/ x = x1 -> 0 < t -> ~ weakly_between x0 (x + t * (x - (x0 + x1) * qq 1 2)) x1.
Proof.
  intros N W T0. replace (qq 1 2) with (/ (1 + 1)) by (apply Qc_is_canon; reflexivity). set (h := / (1 + 1)). assert (H : h + h = 1) by (apply Qc_is_canon; reflexivity). clearbody h.
  assert (E : (x0 + x1) * h = x0 + (x1 - x0) * h) by (replace x0 with (x0 * (h + h)) at 2 by (rewrite H; ring); ring).
  assert (E' : (x0 + x1) * h = x1 - (x1 - x0) * h) by (replace x1 with (x1 * (h + h)) at 2 by (rewrite H; ring); ring).
  assert (D : x0 < x1 /\ 0 < t * ((x1 - x0) * h) \/ x1 < x0 /\ 0 < t * - ((x1 - x0) * h)).
  { destruct (qc_not_eq _ _ N); [left|right]; (split; [auto|]); apply mpp; auto; [apply mpp; qlra|]. replace (- ((x1 - x0) * h)) with ((x0 - x1) * h) by ring. apply mpp; qlra. }
  unfold weakly_between. destruct W as [->| ->]; [rewrite E|rewrite E']; set (k := (x1 - x0) * h) in *; clearbody k; clear -D; intros [(A & B)|(A & B)]; destruct D as [(D1 & D2)|(D1 & D2)]; qlra.
Qed.
Lemma rectangle_sharp vx0 vy0 vx1 vy1 x0 y0 x1 y1 g : exact_coord vx0 x0 -> exact_coord vy0 y0 -> exact_coord vx1 x1 -> exact_coord vy1 y1 ->
  rectangle vx0 vy0 vx1 vy1 = Ok g -> sharp g.
Proof.
  intros C1 C2 C3 C4 H. destruct (rectangle_box _ _ _ _ _ _ _ _ C1 C2 C3 C4) as (R1 & R2).
  destruct (qeqb_spec x0 x1) as [E|NX]; [rewrite R1 in H by auto; discriminate|]. destruct (qeqb_spec y0 y1) as [E|NY]; [rewrite R1 in H by auto; discriminate|].
  destruct (R2 NX NY) as (g' & E & _ & _ & L). rewrite H in E. injection E as <-. clear R1 R2.
  assert (S : exists r, g = [mkSpwh r []] /\ ring_ok r).
  { unfold rectangle, polygon in H. apply bind_ok in H as (ps & _ & H). unfold polygon_q in H. apply bind_ok in H as (a & _ & H). apply bind_ok in H as (s & HS & H). apply bind_ok in H as (b & _ & H). apply bind_ok in H as (u & _ & H).
    injection H as <-. apply SPWH_ok in HS as (R & _ & ->). eauto. }
  destruct S as (r & -> & R). assert (LL : forall q, g2_locate [mkSpwh r []] q = locate_point_polygon_winding_number r q).
  { intros q. unfold g2_locate, spwh_locate. cbn [mapM outer holes locate_holes]. destruct (locate_point_polygon_winding_number r q) as [z|e] eqn:LE; cbn [bind]; auto.
    destruct (on_boundary_dec r q) as [B|B]; [apply (locate_zero_iff_boundary r q (proj1 R)) in B; rewrite B in LE; injection LE as <-; reflexivity|].
    destruct (locate_ring r q (proj1 R) B) as [(E & _)|(E & _)]; rewrite E in LE; injection LE as <-; reflexivity. }
  apply ring_sharp; auto. intros p eps B Eps. apply (locate_zero_iff_boundary r p (proj1 R)) in B. rewrite <- LL in B. apply L in B as ((W1 & W2) & NS).
  set (c := ((x0 + x1) * qq 1 2, (y0 + y1) * qq 1 2)).
  destruct (near_step eps p (vsub c p) Eps) as (k & K & N), (near_step eps p (vsub p c) Eps) as (k' & K' & N'). destruct (qmin_spec k 1) as (M1 & M2 & M3).
  assert (0 < qmin k 1) by (apply M3; auto; qlra). split.
  - exists (step p (vsub c p) (qmin k 1)). split; [apply N; auto; qlra|]. rewrite <- LL. apply L. unfold step, c. vec. split; apply toward_strict; auto.
  - exists (step p (vsub p c) k'). split; [apply N'; auto; qlra|]. rewrite <- LL. apply L. unfold step, c. vec.
    assert (D : (fst p = x0 \/ fst p = x1) \/ (snd p = y0 \/ snd p = y1)).
    { assert (DD : forall u v w, weakly_between u v w -> (v = u \/ v = w) \/ strictly_between u v w).
      { clear. intros u v w W. destruct (qeqb_spec v u) as [|Nu]; auto. destruct (qeqb_spec v w) as [|Nw]; auto. right. unfold weakly_between, strictly_between in *.
        destruct (qc_not_eq _ _ Nu), (qc_not_eq _ _ Nw), W as [(A & B)|(A & B)]; try (exfalso; qlra); auto. }
      destruct (DD _ _ _ W1) as [|S1]; auto. destruct (DD _ _ _ W2) as [|S2]; auto. exfalso. auto. }
    intros (Z1 & Z2). destruct D as [D|D]; [exact (away_out _ _ _ _ NX D K' Z1)|exact (away_out _ _ _ _ NY D K' Z2)].
Qed.

(** ** C84: the boundary of a result separates its inside from its outside, so that a result without slits is what it has to be at
    every point, on the boundaries of the operands too *)
Theorem results_sharp : forall orc, let A := segment_arrangement orc in
  sharp g2_empty /\
  (forall vx0 vy0 vx1 vy1 x0 y0 x1 y1 g, exact_coord vx0 x0 -> exact_coord vy0 y0 -> exact_coord vx1 x1 -> exact_coord vy1 y1 ->
     rectangle vx0 vy0 vx1 vy1 = Ok g -> sharp g) /\
  (forall a b r, sharp a -> sharp b -> g2_or A a b = Ok r \/ g2_and A a b = Ok r \/ g2_sub A a b = Ok r -> sharp r) /\
  (forall gs r, Forall sharp gs -> g2_union A gs = Ok r \/ union_tree A gs = Ok r -> sharp r).
Proof.
  intros orc A. split; [apply sharp_nil|]. split; [exact rectangle_sharp|]. split.
  - intros a b r Sa Sb [R|[R|R]]; [exact (or_sharp orc a b r Sa Sb R)|exact (and_sharp orc a b r Sa Sb R)|exact (sub_sharp orc a b r Sa Sb R)].
  - intros gs r F [R|R]; [exact (union_sharp orc gs r F R)|exact (tree_sharp orc gs _ r F R)].
Qed.
Print Assumptions results_sharp.
Theorem operators_everywhere : forall orc, let A := segment_arrangement orc in
  (forall a b, sharp a -> sharp b ->
    (forall r, g2_or A a b = Ok r -> locates [a; b] (fun p => in_geom a p \/ in_geom b p) r) /\
    (forall r, g2_and A a b = Ok r -> locates [a; b] (fun p => in_geom a p /\ in_geom b p) r) /\
    (forall r, g2_sub A a b = Ok r -> locates [a; b] (fun p => in_geom a p /\ ~ in_geom b p) r)) /\
  (forall gs r, Forall sharp gs -> g2_union A gs = Ok r \/ union_tree A gs = Ok r -> locates gs (fun p => exists g, In g gs /\ in_geom g p) r) /\
  (forall g, sharp g -> locates [g] (in_geom g) g).
Proof.
  intros orc A. pose proof (arrangement_sound orc) as S. destruct (results_sharp orc) as (_ & _ & OS & US). split; [|split].
  - intros a b Sa Sb. destruct (sharp_both [a; b]) as (F & _); auto.
    split; [|split]; intros r R; apply op_everywhere; auto.
    + apply (g2_or_ok A); auto; [apply Sa|apply Sb].
    + apply (OS a b r); auto.
    + apply (g2_and_ok A); auto; [apply Sa|apply Sb].
    + apply (OS a b r); auto.
    + apply (g2_sub_ok A); auto; [apply Sa|apply Sb].
    + apply (OS a b r); auto.
  - intros gs r F R. destruct (sharp_both gs F) as (F1 & _). apply op_everywhere; [exact F1| |apply (US gs r); auto].
    destruct R as [R|R]; [apply (g2_union_ok A)|apply (union_tree_ok A)]; auto.
  - intros g (G & C & _). apply op_everywhere; auto. apply is_op_self; cbn; auto. tauto.
Qed.
Print Assumptions operators_everywhere.

(** ** C85: the Boolean laws, as equal answers at every point *)
Section Eval.
Variable vars : list geom2d.
(** [evals e r]: some run of the expression, whatever order the sets come in, gives [r] *)
Fixpoint evals (e : rexp) (r : geom2d) : Prop :=
  match e with
  | Var i => nth_error vars i = Some r
  | Or e f => exists a b orc, evals e a /\ evals f b /\ g2_or (segment_arrangement orc) a b = Ok r
  | And e f => exists a b orc, evals e a /\ evals f b /\ g2_and (segment_arrangement orc) a b = Ok r
  | Sub e f => exists a b orc, evals e a /\ evals f b /\ g2_sub (segment_arrangement orc) a b = Ok r
  | Union es => exists gs orc, (fix all es gs := match es, gs with
                                  | [], [] => True
                                  | e :: es, g :: gs => evals e g /\ all es gs
                                  | _, _ => False
                                  end) es gs /\ (g2_union (segment_arrangement orc) gs = Ok r \/ union_tree (segment_arrangement orc) gs = Ok r)
  end.
Lemma rexp_rect' (P : rexp -> Prop) : (forall i, P (Var i)) -> (forall e f, P e -> P f -> P (Or e f)) -> (forall e f, P e -> P f -> P (And e f)) -> (forall e f, P e -> P f -> P (Sub e f)) ->
  (forall es, Forall P es -> P (Union es)) -> forall e, P e.
Proof.
  intros HV HO HA HS HU. fix F 1. intros [i|e f|e f|e f|es]; [apply HV|apply HO; apply F|apply HA; apply F|apply HS; apply F|apply HU].
  induction es as [|e es IH]; constructor; [apply F|exact IH].
Qed.
Definition rho (p : point) (f : nat -> bool) : Prop := forall i g, nth_error vars i = Some g -> (f i = true <-> in_geom g p).
Lemma evals_ok : Forall sharp vars -> forall e r, evals e r -> sharp r /\ (forall p, on_bd r p -> ~ off_all vars p) /\
  forall p f, off_all vars p -> rho p f -> (in_geom r p <-> truth f e = true).
Proof.
  intros F. destruct (sharp_both vars F) as (FG & _). apply (rexp_rect' (fun e => forall r, evals e r -> sharp r /\ (forall p, on_bd r p -> ~ off_all vars p) /\ forall p f, off_all vars p -> rho p f -> (in_geom r p <-> truth f e = true))).
  - intros i r E. cbn in E. pose proof (nth_error_In _ _ E) as I. rewrite Forall_forall in F. split; [auto|]. split; [intros p B O; exact (O r I B)|]. intros p f _ R. cbn. symmetry. now apply R.
  - intros e1 e2 IH1 IH2 r (a & b & orc & E1 & E2 & R). destruct (IH1 a E1) as (S1 & B1 & M1), (IH2 b E2) as (S2 & B2 & M2). split; [exact (or_sharp orc a b r S1 S2 R)|].
    destruct (g2_or_ok _ a b r (arrangement_sound orc) (proj1 S1) (proj1 S2) R) as (_ & B & M).
    assert (O2 : forall p, off_all vars p -> off_all [a; b] p) by (intros p O g [<-|[<-|[]]] X; [exact (B1 p X O)|exact (B2 p X O)]).
    split; [intros p X O; exact (B p X (O2 p O))|]. intros p f O RH. rewrite (M p (O2 p O)), (M1 p f O RH), (M2 p f O RH). cbn. symmetry. apply orb_true_iff.
  - intros e1 e2 IH1 IH2 r (a & b & orc & E1 & E2 & R). destruct (IH1 a E1) as (S1 & B1 & M1), (IH2 b E2) as (S2 & B2 & M2). split; [exact (and_sharp orc a b r S1 S2 R)|].
    destruct (g2_and_ok _ a b r (arrangement_sound orc) (proj1 S1) (proj1 S2) R) as (_ & B & M).
    assert (O2 : forall p, off_all vars p -> off_all [a; b] p) by (intros p O g [<-|[<-|[]]] X; [exact (B1 p X O)|exact (B2 p X O)]).
    split; [intros p X O; exact (B p X (O2 p O))|]. intros p f O RH. rewrite (M p (O2 p O)), (M1 p f O RH), (M2 p f O RH). cbn. symmetry. apply andb_true_iff.
  - intros e1 e2 IH1 IH2 r (a & b & orc & E1 & E2 & R). destruct (IH1 a E1) as (S1 & B1 & M1), (IH2 b E2) as (S2 & B2 & M2). split; [exact (sub_sharp orc a b r S1 S2 R)|].
    destruct (g2_sub_ok _ a b r (arrangement_sound orc) (proj1 S1) (proj1 S2) R) as (_ & B & M).
    assert (O2 : forall p, off_all vars p -> off_all [a; b] p) by (intros p O g [<-|[<-|[]]] X; [exact (B1 p X O)|exact (B2 p X O)]).
    split; [intros p X O; exact (B p X (O2 p O))|]. intros p f O RH. rewrite (M p (O2 p O)), (M1 p f O RH), (M2 p f O RH). cbn. rewrite andb_true_iff, negb_true_iff. destruct (truth f e1), (truth f e2); intuition congruence.
  - intros es IH r (gs & orc & E & R).
    assert (K : Forall2 (fun e g => sharp g /\ (forall p, on_bd g p -> ~ off_all vars p) /\ forall p f, off_all vars p -> rho p f -> (in_geom g p <-> truth f e = true)) es gs).
    { clear -IH E. revert gs E. induction IH as [|e es H IH IHH]; intros [|g gs] E; try tauto; constructor; [apply H|apply IHH]; apply E. }
    assert (FS : Forall sharp gs) by (clear -K; induction K; constructor; tauto). destruct (sharp_both gs FS) as (FGs & _).
    assert (OP : is_op gs (some_in gs) r) by (destruct R as [R|R]; [exact (g2_union_ok _ gs r (arrangement_sound orc) FGs R)|exact (union_tree_ok _ gs r (arrangement_sound orc) FGs R)]).
    split; [destruct R as [R|R]; [exact (union_sharp orc gs r FS R)|exact (tree_sharp orc gs _ r FS R)]|]. destruct OP as (_ & B & M).
    assert (O2 : forall p, off_all vars p -> off_all gs p).
    { intros p O g Hg X. clear -K O Hg X. induction K as [|e h es hs (_ & H & _) K IH]; [destruct Hg|]. destruct Hg as [->|Hg]; [exact (H p X O)|auto]. }
    split; [intros p X O; exact (B p X (O2 p O))|]. intros p f O RH. rewrite (M p (O2 p O)). cbn. clear -K O RH. unfold some_in. induction K as [|e h es hs (_ & _ & H) K IH]; cbn.
    + split; [intros (? & [] & _)|discriminate].
    + rewrite orb_true_iff, <- (H p f O RH), <- IH. split; [intros (g & [<-|Hg] & I); eauto|intros [I|(g & Hg & I)]; eauto].
Qed.
Lemma rho_ex p : Forall is_geom2d vars -> off_all vars p -> exists f, rho p f.
Proof.
  intros F O. destruct (bits_exist vars p F O) as (bs & B). exists (fun i => nth i bs false). unfold rho, bits in *. clear F O.
  induction B as [|g b gs bs H B IH]; intros i h E; destruct i as [|i]; cbn in *; try discriminate; [injection E as <-; exact H|eauto].
Qed.
End Eval.

(** if the truth table of the first expression implies that of the second, no point is farther in for the first; hence equivalent
    expressions give the same answer at every point *)
Theorem boolean_laws : forall vars e f r s, Forall sharp vars -> evals vars e r -> evals vars f s ->
  ((forall rho, truth rho e = true -> truth rho f = true) -> forall p, exists x y, g2_locate r p = Ok x /\ g2_locate s p = Ok y /\ (x <= y)%Z) /\
  ((forall rho, truth rho e = truth rho f) -> forall p, g2_locate r p = g2_locate s p).
Proof.
  assert (K : forall vars e f r s, Forall sharp vars -> evals vars e r -> evals vars f s ->
    (forall rho, truth rho e = true -> truth rho f = true) -> forall p, exists x y, g2_locate r p = Ok x /\ g2_locate s p = Ok y /\ (x <= y)%Z).
  { intros vars e f r s F E1 E2 T p. destruct (sharp_both vars F) as (FG & _). destruct (evals_ok vars F e r E1) as ((Gr & Cr & _) & Br & Mr), (evals_ok vars F f s E2) as ((Gs & Cs & _) & Bs & Ms).
    assert (SUB : forall q, off_all vars q -> in_geom r q -> in_geom s q).
    { intros q O I. destruct (rho_ex vars q FG O) as (h & H). apply (Ms q h O H). apply T. now apply (Mr q h O H). }
    destruct (crisp_locates s p Gs Cs) as [(-> & B)|[(-> & NB & I)|(-> & NB & I)]]; destruct (crisp_locates r p Gr Cr) as [(-> & B')|[(-> & NB' & I')|(-> & NB' & I')]];
      try (do 2 eexists; split; [reflexivity|]; split; [reflexivity|lia]); exfalso.
    - destruct (bd_away r p Gr NB') as (eps & E & A). assert (E2' : 0 < eps * qq 1 2) by (apply mpp; [auto|vm_compute; reflexivity]). destruct (Cs p _ B E2') as (_ & q & N & Q1 & Q2).
      destruct (near_region q _ s vars E2' Gs Q1) as (z & Z1 & Z2 & Z3 & Z4). apply Q2, Z3, SUB; auto. apply (A z (near_trans eps p q z N Z1)). exact I'.
    - destruct (bd_away s p Gs NB) as (eps & E & A). assert (E2' : 0 < eps * qq 1 2) by (apply mpp; [auto|vm_compute; reflexivity]). destruct (Cr p _ B' E2') as ((q & N & Q1 & Q2) & _).
      destruct (near_region q _ r vars E2' Gr Q1) as (z & Z1 & Z2 & Z3 & Z4). apply I. apply (A z (near_trans eps p q z N Z1)). apply SUB; auto. now apply Z3.
    - destruct (bd_away s p Gs NB) as (eps & E & A). destruct (near_region p eps r vars E Gr NB') as (z & Z1 & Z2 & Z3 & Z4). apply I. apply (A z Z1). apply SUB; auto. now apply Z3. }
  intros vars e f r s F E1 E2. split; [apply (K vars e f); auto|]. intros T p.
  destruct (K vars e f r s F E1 E2 ltac:(intros h; rewrite T; auto) p) as (x & y & X & Y & L), (K vars f e s r F E2 E1 ltac:(intros h; rewrite T; auto) p) as (y' & x' & Y' & X' & L').
  rewrite X in X'. rewrite Y in Y'. injection X' as <-. injection Y' as <-. rewrite X, Y. f_equal. lia.
Qed.
Print Assumptions boolean_laws.

(** ** C86: the empty list of polygons is the empty region *)
Theorem is_empty_exact : forall g, sharp g -> g2_is_empty g = true <-> forall p, g2_locate g p = Ok (-1)%Z.
Proof.
  intros g (G & C & _). destruct g as [|s g]; [cbn; split; auto|]. split; [discriminate|]. intros H. exfalso.
  assert (R : ring_of (s :: g) (outer s)) by (exists s; cbn; auto). pose proof (ring_ne _ _ G R) as NE. destruct (outer s) as [|v r] eqn:EO; [congruence|].
  assert (B : on_bd (s :: g) v) by (exists (v :: r); split; [rewrite <- EO; exists s; cbn; auto|apply vertex_on_boundary; cbn; auto]).
  destruct (crisp_locates _ v G C) as [(E & _)|[(_ & X & _)|(_ & X & _)]]; try tauto. rewrite H in E. discriminate.
Qed.
Theorem disjoint_exact : forall orc a b r, sharp a -> sharp b -> g2_and (segment_arrangement orc) a b = Ok r ->
  (g2_is_empty r = true <-> forall p, ~ (g2_locate a p = Ok 1%Z /\ g2_locate b p = Ok 1%Z)) /\
  (forall d, g2_sub (segment_arrangement orc) a b = Ok d -> (g2_is_empty d = true <-> forall p, g2_locate a p = Ok 1%Z -> g2_locate b p = Ok 1%Z)).
Proof.
  intros orc a b r Sa Sb R. assert (FS : Forall sharp [a; b]) by auto. destruct (sharp_both _ FS) as (FG & _).
  assert (IN : forall g p, sharp g -> ~ on_bd g p -> in_geom g p -> g2_locate g p = Ok 1%Z).
  { intros g p (G & C & _) B I. destruct (crisp_locates g p G C) as [(_ & X)|[(X & _)|(_ & _ & X)]]; tauto. }
  assert (IN' : forall g p, sharp g -> g2_locate g p = Ok 1%Z -> ~ on_bd g p /\ in_geom g p).
  { intros g p (G & C & _) L. destruct (crisp_locates g p G C) as [(X & _)|[(X & Y)|(X & _)]]; rewrite X in L; [discriminate|auto|discriminate]. }
  assert (RN : sharp r) by (exact (and_sharp orc a b r Sa Sb R)). destruct (g2_and_ok _ a b r (arrangement_sound orc) (proj1 Sa) (proj1 Sb) R) as (Gr & Br & Mr).
  assert (PT : forall g, sharp g -> g2_is_empty g = false -> exists q, ~ on_bd g q /\ in_geom g q /\ off_all [a; b] q).
  { intros g S E. destruct (g2_is_empty g) eqn:E'; [discriminate|]. destruct S as (G & C & _).
    destruct g as [|s g]; [discriminate|]. assert (RO : ring_of (s :: g) (outer s)) by (exists s; cbn; auto). pose proof (ring_ne _ _ G RO) as NE. destruct (outer s) as [|v l] eqn:EO; [congruence|].
    assert (B : on_bd (s :: g) v) by (exists (v :: l); split; [rewrite <- EO; exists s; cbn; auto|apply vertex_on_boundary; cbn; auto]).
    destruct (C v 1 B ltac:(qlra)) as ((q & _ & Q1 & Q2) & _). destruct (near_region q 1 (s :: g) [a; b] ltac:(qlra) G Q1) as (z & _ & Z2 & Z3 & Z4). exists z. tauto. }
  split.
  - split.
    + intros E p (La & Lb). apply IN' in La as (Ba & Ia); auto. apply IN' in Lb as (Bb & Ib); auto. destruct r as [|? ?]; [|discriminate].
      apply (not_in_empty p). apply Mr; [intros g [<-|[<-|[]]]; auto|auto].
    + intros H. destruct (g2_is_empty r) eqn:E; auto. destruct (PT r RN E) as (q & Q1 & Q2 & Q3). exfalso. apply (H q). apply Mr in Q2; auto. destruct Q2. split; apply IN; auto; apply Q3; cbn; auto.
  - intros d D. assert (DN : sharp d) by (exact (sub_sharp orc a b d Sa Sb D)). destruct (g2_sub_ok _ a b d (arrangement_sound orc) (proj1 Sa) (proj1 Sb) D) as (Gd & Bd & Md). split.
    + intros E p La. apply IN' in La as (Ba & Ia); auto. destruct d as [|? ?]; [|discriminate].
      assert (SUB : forall q, off_all [a; b] q -> in_geom a q -> in_geom b q).
      { intros q O I. destruct (off_all_dec b q (proj1 Sb)) as [J|J]; auto; [apply O; cbn; auto|]. exfalso. apply (not_in_empty q). apply Md; auto. }
      destruct (crisp_locates b p (proj1 Sb) (proj1 (proj2 Sb))) as [(L & B)|[(L & _)|(L & NB & I)]]; auto; exfalso; destruct (bd_away a p (proj1 Sa) Ba) as (eps & E2 & A).
      * assert (E3 : 0 < eps * qq 1 2) by (apply mpp; [auto|vm_compute; reflexivity]). destruct (proj1 (proj2 Sb) p _ B E3) as (_ & q & N & Q1 & Q2).
        destruct (near_region q _ b [a; b] E3 (proj1 Sb) Q1) as (z & Z1 & Z2 & Z3 & Z4). apply Q2, Z3, SUB; auto. apply (A z (near_trans eps p q z N Z1)). exact Ia.
      * destruct (near_region p eps b [a; b] E2 (proj1 Sb) NB) as (z & Z1 & Z2 & Z3 & Z4). apply I, Z3, SUB; auto. now apply (A z Z1).
    + intros H. destruct (g2_is_empty d) eqn:E; auto. destruct (PT d DN E) as (q & Q1 & Q2 & Q3). exfalso. apply Md in Q2 as (Q2 & Q4); auto. apply Q4.
      apply IN' ; auto. apply H. apply IN; auto. apply Q3; cbn; auto.
Qed.
Print Assumptions is_empty_exact.
Print Assumptions disjoint_exact.

(** ** examples *)
Local Definition orc0 : list segment -> nat -> nat -> nat := fun _ _ _ => O.
Local Definition A0 := segment_arrangement orc0.
Local Definition P (x y : Z) : point := (zq x, zq y).
Lemma rect_sharp x0 y0 x1 y1 g : rectangle (NInt x0) (NInt y0) (NInt x1) (NInt y1) = Ok g -> sharp g.
Proof. intros H. exact (rectangle_sharp _ _ _ _ _ _ _ _ _ (exact_int x0) (exact_int y0) (exact_int x1) (exact_int y1) H). Qed.
(** two squares side by side: the common edge is inside the union, the meet is empty *)
Example sharp_ex : exists a b o, rectangle (NInt 0) (NInt 0) (NInt 2) (NInt 2) = Ok a /\ rectangle (NInt 2) (NInt 0) (NInt 4) (NInt 2) = Ok b /\ sharp a /\ sharp b /\
  g2_or A0 a b = Ok o /\ g2_and A0 a b = Ok [] /\ map (g2_locate o) [P 2 1; P 2 2; P 1 1; P 5 1] = [Ok 1; Ok 0; Ok 1; Ok (-1)]%Z.
Proof.
  do 3 eexists. split; [vm_compute; reflexivity|]. split; [vm_compute; reflexivity|].
  split; [apply (rect_sharp 0 0 2 2); vm_compute; reflexivity|]. split; [apply (rect_sharp 2 0 4 2); vm_compute; reflexivity|]. split; [vm_compute; reflexivity|]. split; vm_compute; reflexivity.
Qed.
(** the same two squares in one list of polygons have a slit between them: this geometry is not sharp *)
Example slit_ex : exists g, is_geom2d g /\ ~ crisp g /\ g2_locate g (P 2 1) = Ok 0%Z.
Proof.
  destruct sharp_ex as (a & b & o & Ra & Rb & Sa & Sb & O & _ & L). exists (a ++ b).
  assert (G : is_geom2d (a ++ b)) by (apply Forall_app; split; [apply Sa|apply Sb]). assert (LG : g2_locate (a ++ b) (P 2 1) = Ok 0%Z).
  { revert Ra Rb. clear. intros Ra Rb. vm_compute in Ra. injection Ra as <-. vm_compute in Rb. injection Rb as <-. vm_compute. reflexivity. }
  split; auto. split; auto. intros C. pose proof (or_sharp _ _ _ _ Sa Sb O) as So. destruct (g2_or_ok _ a b o (arrangement_sound orc0) (proj1 Sa) (proj1 Sb) O) as (_ & _ & M).
  assert (S : same_region (a ++ b) o).
  { apply (region_unique (a ++ b) o [a; b]); auto; [apply So|apply So|]. intros p OF _ _. rewrite (M p OF). unfold in_geom. split.
    - intros (s & Hs & I). apply in_app_or in Hs as [Hs|Hs]; [left|right]; exists s; auto.
    - intros [(s & Hs & I)|(s & Hs & I)]; exists s; (split; [apply in_or_app; auto|auto]). }
  pose proof (same_locate _ _ G (proj1 So) C (proj1 (proj2 So)) S (P 2 1)) as E. rewrite LG in E. cbn [map] in L. injection L as L _ _ _. rewrite L in E. discriminate.
Qed.
(** [a - (b | c)] and [(a - b) - c] on three squares *)
Example boolean_laws_ex : exists a b c r s, Forall sharp [a; b; c] /\ evals [a; b; c] (Sub (Var 0) (Or (Var 1) (Var 2))) r /\ evals [a; b; c] (Sub (Sub (Var 0) (Var 1)) (Var 2)) s /\
  (forall rho, truth rho (Sub (Var 0) (Or (Var 1) (Var 2))) = truth rho (Sub (Sub (Var 0) (Var 1)) (Var 2))) /\ g2_locate r (P 2 2) = Ok 0%Z.
Proof.
  assert (K : exists a b c bc r ab s, rectangle (NInt 0) (NInt 0) (NInt 4) (NInt 4) = Ok a /\ rectangle (NInt 0) (NInt 0) (NInt 1) (NInt 2) = Ok b /\ rectangle (NInt 0) (NInt 1) (NInt 2) (NInt 3) = Ok c /\
    g2_or A0 b c = Ok bc /\ g2_sub A0 a bc = Ok r /\ g2_sub A0 a b = Ok ab /\ g2_sub A0 ab c = Ok s /\ g2_locate r (P 2 2) = Ok 0%Z).
  { do 7 eexists. do 7 (split; [vm_compute; reflexivity|]). vm_compute. reflexivity. }
  destruct K as (a & b & c & bc & r & ab & s & Ea & Eb & Ec & E1 & E2 & E3 & E4 & L). exists a, b, c, r, s.
  split; [constructor; [exact (rect_sharp _ _ _ _ _ Ea)|constructor; [exact (rect_sharp _ _ _ _ _ Eb)|constructor; [exact (rect_sharp _ _ _ _ _ Ec)|constructor]]]|].
  split; [exists a, bc, orc0; split; [reflexivity|]; split; [exists b, c, orc0; repeat split; exact E1|exact E2]|].
  split; [exists ab, c, orc0; split; [exists a, b, orc0; repeat split; exact E3|]; split; [reflexivity|exact E4]|]. split; [|exact L].
  intros rho. cbn. destruct (rho 0%nat), (rho 1%nat), (rho 2%nat); reflexivity.
Qed.
