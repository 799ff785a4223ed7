(** * Simple polygons: C88, C89. *)
From Verif.Model Require Import SegmentTree CellMerger Arrangement2d Aabb Geom2d.
From Verif.Spec Require Import Plane Region Area Crisp Jordan Simple.
From Verif.Proofs Require Import PyP PolyP SweepL SubdivP CoverP AreaP WindingP WindingQ WindingR NearP Geom2dP Geom2dOps PlanarP ArrVertexP ArrGraphP ArrSoundP AreaP FlatP NestP ArrTotalQ RibbonR JordanP JordanQ.
From Verif.Props Require Import Primitive2dProps LocateProps Geom2dProps CrispProps BufferExactProps.

Local Notation loc := locate_point_polygon_winding_number.

Lemma loc_wsum r p : r <> [] -> ~ on_boundary r p -> (loc r p = Ok 1%Z /\ wsum p r <> 0%Z) \/ (loc r p = Ok (-1)%Z /\ wsum p r = 0%Z).
Proof.
  intros N B. destruct (locate_ring r p N B) as [(L & w & W & Z)|(L & I)].
  - left. split; auto. apply (wind_wsum r p w N B) in W. lia.
  - right. split; auto. destruct (locate_winding r p N B) as (w & W & _). destruct (Z.eq_dec w 0) as [E|E]; [|exfalso; apply I; exists w; auto].
    apply (wind_wsum r p w N B) in W. lia.
Qed.
Lemma loc_in r p : r <> [] -> ~ on_boundary r p -> (loc r p = Ok 1%Z <-> wsum p r <> 0%Z).
Proof. intros N B. destruct (loc_wsum r p N B) as [(-> & E)|(-> & E)]; split; intros X; try discriminate; try contradiction; auto. Qed.
Lemma loc_out r p : r <> [] -> ~ on_boundary r p -> (loc r p = Ok (-1)%Z <-> wsum p r = 0%Z).
Proof. intros N B. destruct (loc_wsum r p N B) as [(-> & E)|(-> & E)]; split; intros X; try discriminate; try contradiction; auto. Qed.
Lemma loc_eq r p q n : r <> [] -> ~ on_boundary r p -> ~ on_boundary r q -> (n = 0%Z \/ n = 2%Z) -> (wsum p r = n \/ wsum p r = (n - 2)%Z) -> (wsum q r = n \/ wsum q r = (n - 2)%Z) ->
  (loc r p = loc r q <-> wsum p r = wsum q r).
Proof.
  intros N P Q A B C. destruct (loc_wsum r p N P) as [(-> & E)|(-> & E)], (loc_wsum r q N Q) as [(-> & F)|(-> & F)]; split; intros X; try reflexivity; try discriminate; first [lia|exfalso; lia].
Qed.
Lemma area_sign r n : (n = 0%Z \/ n = 2%Z) -> (n = 2%Z -> 0 < area_of r) -> (n = 0%Z -> area_of r < 0) ->
  (n = 2%Z <-> 0 < area_of r) /\ (n = 0%Z <-> area_of r < 0) /\ area_of r <> 0.
Proof.
  intros N A B. destruct N as [->| ->]; [specialize (B eq_refl); clear A|specialize (A eq_refl); clear B]; (split; [|split]); try (split; intros X); auto; try discriminate; try lia; try (intros X); exfalso.
  all: try rewrite X in *; qlra.
Qed.
Theorem jordan : forall r, simple_polygon r ->
  (forall p q, ~ on_boundary r p -> ~ on_boundary r q -> (loc r p = loc r q <-> joined r p q)) /\
  (forall p eps, on_boundary r p -> 0 < eps -> (exists q, near eps p q /\ loc r q = Ok 1%Z) /\ (exists q, near eps p q /\ loc r q = Ok (-1)%Z)) /\
  (exists M, forall p, M < qabs (fst p) \/ M < qabs (snd p) -> loc r p = Ok (-1)%Z) /\
  ring_area r <> 0 /\
  (forall p w, ~ on_boundary r p -> winding_number r p w ->
     (loc r p = Ok 1%Z /\ w = if qltb 0 (ring_area r) then (-1)%Z else 1%Z) \/ (loc r p = Ok (-1)%Z /\ w = 0%Z)).
Proof.
  intros r J. pose proof (j_ne r J) as NE. destruct (j_vals r J) as (n & V & A1 & A2). pose proof (vl_n _ _ _ V) as VN. destruct (area_sign r n VN A1 A2) as (S1 & S2 & S3).
  split; [|split; [|split; [|split]]].
  - intros p q P Q. rewrite (loc_eq r p q n NE P Q VN (vl_all _ _ _ V p P) (vl_all _ _ _ V q Q)). symmetry. apply (joined_iff r J n V); now apply off_bd.
  - intros p eps B P. destruct (j_near r n p eps J V B P) as ((q & N & Q1 & Q2) & (q' & N' & Q1' & Q2')).
    destruct VN as [E|E].
    + split; [exists q'; split; auto; apply loc_in; auto; lia|exists q; split; auto; apply loc_out; auto; lia].
    + split; [exists q; split; auto; apply loc_in; auto; lia|exists q'; split; auto; apply loc_out; auto; lia].
  - destruct (j_bounded r) as (M & H). destruct (verts_bound r) as (M' & H'). exists (qmax M M'). intros p P.
    assert (K : M <= qmax M M' /\ M' <= qmax M M') by (unfold qmax; destruct (qleb_spec M M'); split; qlra). destruct K as (K1 & K2).
    assert (W : wsum p r = 0%Z) by (apply H; destruct P; [left|right]; qlra). apply loc_out; auto. intros B. apply on_boundary_iff in B as (e & I & t & T0 & T1 & X).
    assert (Q : forall a b m, qabs a <= m -> qabs b <= m -> qabs (a + t * (b - a)) <= m).
    { clear -T0 T1. intros a b m. unfold qabs. destruct (qleb_spec 0 a), (qleb_spec 0 b), (qleb_spec 0 (a + t * (b - a))); intros A B;
        assert (0 <= (1 - t) * (m - a)) by (apply mnn; qlra); assert (0 <= t * (m - b)) by (apply mnn; qlra); assert (0 <= (1 - t) * (m + a)) by (apply mnn; qlra); assert (0 <= t * (m + b)) by (apply mnn; qlra); qlra. }
    assert (IV : In (fst e) r /\ In (snd e) r).
    { apply edges_iff in I as (i & ->); auto. cbn [fst snd]. assert (0 < Z.of_nat (length r))%Z by (destruct r; [congruence|cbn; lia]).
      split; unfold nthp; apply nth_In; [pose proof (Z.mod_pos_bound i (Z.of_nat (length r)))|pose proof (Z.mod_pos_bound (i + 1) (Z.of_nat (length r)))]; lia. }
    destruct IV as (I1 & I2). destruct (H' _ I1) as (U1 & U2), (H' _ I2) as (W1 & W2). rewrite X in P. unfold at_t in P. 
    pose proof (Q _ _ _ U1 W1). pose proof (Q _ _ _ U2 W2). vec. destruct P; qlra.
  - now rewrite ring_area_of.
  - intros p w B W. apply (wind_wsum r p w NE B) in W. destruct (loc_wsum r p NE B) as [(L & Z)|(L & Z)]; [left|right]; split; auto; [|lia]. rewrite ring_area_of.
    destruct (vl_all _ _ _ V p B), VN as [->| ->]; destruct (qltb_spec 0 (area_of r)) as [Q|Q]; try lia; exfalso; try (apply Q, A1; reflexivity); specialize (A2 eq_refl); qlra.
Qed.
Print Assumptions jordan.
(** a dart, which is not convex: it is a simple polygon, (2, 4) lies inside it and (1, 4) in its notch *)
Local Definition P (x y : Z) : point := (zq x, zq y).
Local Definition dart : list point := [P 0 0; P 2 2; P 0 8; P 8 0].
Example jordan_ex : simple_polygon dart /\ simple_polygon (rev dart) /\ loc dart (P 2 4) = Ok 1%Z /\ loc dart (P 1 4) = Ok (-1)%Z /\ loc dart (P 1 1) = Ok 0%Z /\
  joined dart (P 2 4) (P 6 1) /\ ~ joined dart (P 2 4) (P 1 4).
Proof.
  assert (J : simple_polygon dart) by (apply simpleb_ok; vm_compute; reflexivity). split; auto. split; [now apply simple_rev|].
  assert (L1 : loc dart (P 2 4) = Ok 1%Z) by (vm_compute; reflexivity). assert (L2 : loc dart (P 1 4) = Ok (-1)%Z) by (vm_compute; reflexivity). assert (L3 : loc dart (P 6 1) = Ok 1%Z) by (vm_compute; reflexivity).
  do 2 (split; auto). split; [vm_compute; reflexivity|]. destruct (jordan dart J) as (H & _).
  assert (K : forall p z, loc dart p = Ok z -> z <> 0%Z -> ~ on_boundary dart p) by (intros p z L Z B; apply (locate_zero_iff_boundary dart p ltac:(discriminate)) in B; congruence).
  split; [apply H|rewrite <- H]; try (eapply K; [eassumption|discriminate]); rewrite L1; congruence.
Qed.
(** where two edges cross the conclusion fails: both lobes of the bow tie are inside but no path joins them *)
Example bow_tie_refuted : exists r p q, ~ on_boundary r p /\ ~ on_boundary r q /\ loc r p = loc r q /\ ~ joined r p q.
Proof.
  exists [P 0 0; P 4 4; P 4 0; P 0 4], (P 1 2), (P 3 2). set (r := [P 0 0; P 4 4; P 4 0; P 0 4]).
  assert (K : forall p z, loc r p = Ok z -> z <> 0%Z -> ~ on_boundary r p) by (intros p z L Z B; apply (locate_zero_iff_boundary r p ltac:(discriminate)) in B; congruence).
  split; [apply (K _ 1%Z); [vm_compute; reflexivity|discriminate]|]. split; [apply (K _ 1%Z); [vm_compute; reflexivity|discriminate]|]. split; [vm_compute; reflexivity|].
  intros H. assert (X : wsum (P 1 2) r = wsum (P 3 2) r).
  { induction H as [p NB|p q z F H IH]; [reflexivity|]. rewrite <- IH. now apply wsum_move. }
  vm_compute in X. discriminate.
Qed.

(** ** C89 *)
Lemma simple_simple r : simple_polygon r -> 0 < ring_area r -> simple_ring r.
Proof.
  intros J A. pose proof (j_ne r J) as NE. split.
  - intros p w B W. destruct (jordan r J) as (_ & _ & _ & _ & H). destruct (H p w B W) as [(_ & ->)|(_ & ->)]; auto. destruct (qltb_spec 0 (ring_area r)); auto; contradiction.
  - intros i v (k & K & H).
    assert (X : forall j, v j = nthp r (Z.of_nat (i + j))).
    { intros j. unfold v, nthp. f_equal. assert (length r <> O) by (destruct r; [congruence|discriminate]). rewrite <- Nat2Z.inj_mod. now rewrite Nat2Z.id. }
    apply (j_spike r J (v 0%nat) (v 1%nat) (v 2%nat) k); auto; apply edges_iff; auto; rewrite !X; [exists (Z.of_nat (i + 0))|exists (Z.of_nat (i + 1))]; f_equal; f_equal; lia.
Qed.
Theorem simple_polygons : forall pts, simple_polygon pts ->
  exists g r, polygon (mpq_points pts) true = Ok g /\ g = [mkSpwh r []] /\ r = (if qltb (ring_area pts) 0 then rev pts else pts) /\
    (polygon (mpq_points pts) false = if qltb 0 (ring_area pts) then Ok g else Err AssertionError) /\
    g2_area g = Ok (qabs (ring_area pts)) /\ (forall p, g2_locate g p = loc pts p) /\ sharp g /\ tidy g /\ no_nesting g.
Proof.
  intros pts J. pose proof (j_ne pts J) as NE. destruct (jordan pts J) as (_ & _ & _ & AZ & _). destruct (polygon_reorient pts NE) as (R1 & _ & _ & R4 & R5 & R6).
  assert (ND : forall s, is_edge pts s -> fst s <> snd s) by (intros s I; apply (j_nd pts J); now apply is_edge_iter).
  destruct (R1 ND AZ) as (g & r & E & G & R & G2 & AR). exists g, r. do 3 (split; [assumption|]). split.
  { destruct (qltb_spec 0 (ring_area pts)) as [P|P]; [rewrite R5; auto|]. apply R4. qlra. }
  split; [assumption|].
  assert (JR : simple_polygon r) by (rewrite R; destruct (qltb _ _); [now apply simple_rev|assumption]).
  assert (AP : 0 < ring_area r).
  { rewrite R. destruct (qltb_spec (ring_area pts) 0); [rewrite R6; qlra|]. destruct (qc_not_eq _ _ AZ); [contradiction|assumption]. }
  pose proof (j_ne r JR) as NR.
  assert (RO : ring_ok r) by (split; [auto|]; split; [now rewrite <- ring_area_of|]; intros s I; apply (j_nd r JR); now apply is_edge_iter).
  split.
  { intros p. transitivity (loc r p).
    - rewrite G. unfold g2_locate, spwh_locate. cbn [mapM outer holes locate_holes]. destruct (locate_zero_iff_boundary r p NR) as (_ & z & -> & [->|[->| ->]]); reflexivity.
    - rewrite R. destruct (qltb _ _); [apply (locate_order_independent pts p)|reflexivity]. }
  rewrite G. split; [apply ring_sharp; auto; apply (jordan r JR)|]. apply rect_tidy. now apply simple_simple.
Qed.
Print Assumptions simple_polygons.
(** the dart in either order gives the same region, and it may be used with the laws of the operators *)
Example simple_polygons_ex : exists g, polygon (mpq_points dart) true = Ok g /\ polygon (mpq_points dart) false = Ok g /\ polygon (mpq_points (rev dart)) false = Err AssertionError /\ polygon (mpq_points (rev dart)) true = Ok g /\
  sharp g /\ tidy g /\ no_nesting g /\ g2_area g = Ok (zq 24).
Proof.
  destruct (simple_polygons dart) as (g & r & E & G & R & F & A & L & S & T & N); [apply simpleb_ok; vm_compute; reflexivity|]. exists g. split; auto.
  split; [rewrite G, R; vm_compute; reflexivity|]. split; [vm_compute; reflexivity|]. split; [rewrite G, R; vm_compute; reflexivity|]. split; [exact S|]. split; [exact T|]. split; [exact N|]. rewrite A. vm_compute. reflexivity.
Qed.
